(** What an svg text shows: a reader of XML and of the svg elements, written without regard to the program. *)
From Coq Require Import Ascii String.
From Verif Require Import Base M_Print S_Print M_Svg.
Open Scope Z_scope.

Definition quote : ascii := """"%char.
Definition same (s t : str) : bool := if list_eq_dec ascii_dec s t then true else false.
Definition white (c : ascii) : bool := (c =? " ")%char || (c =? ascii_of_nat 10)%char.
Definition blank_text (s : str) : bool := forallb white s.

(** ** Tokens: <tag a="v">, <tag a="v"/>, </tag> and the characters between them *)
Inductive token :=
| Open (tag : str) (attrs : list (str * str)) | Empty (tag : str) (attrs : list (str * str)) | Close (tag : str) | Chars (s : str).
(** where the reader is: strings being read are in reverse *)
Inductive place :=
| Outside (s : str) | AfterLess | TagName (s : str) | CloseName (s : str)
| InTag (tag : str) (attrs : list (str * str)) | AttrName (tag : str) (attrs : list (str * str)) (s : str)
| AfterEq (tag : str) (attrs : list (str * str)) (a : str) | Value (tag : str) (attrs : list (str * str)) (a s : str)
| AfterValue (tag : str) (attrs : list (str * str)) | Slash (tag : str) (attrs : list (str * str)) | Wrong.
Definition name_char (c : ascii) : bool :=
  negb (white c || existsb (Ascii.eqb c) ["<"; ">"; "/"; "="; "&"; quote]%char).
(** entities (&) are not read; values contain no < *)
Definition read_char (p : place) (c : ascii) : place * list token :=
  match p with
  | Outside s => if (c =? "<")%char then (AfterLess, [Chars (rev s)]) else if (c =? "&")%char then (Wrong, []) else (Outside (c :: s), [])
  | AfterLess => if (c =? "/")%char then (CloseName [], []) else if name_char c then (TagName [c], []) else (Wrong, [])
  | TagName s =>
      if name_char c then (TagName (c :: s), []) else if white c then (InTag (rev s) [], []) else
      if (c =? ">")%char then (Outside [], [Open (rev s) []]) else if (c =? "/")%char then (Slash (rev s) [], []) else (Wrong, [])
  | CloseName s => if name_char c then (CloseName (c :: s), []) else if (c =? ">")%char then (Outside [], [Close (rev s)]) else (Wrong, [])
  | InTag t a =>
      if white c then (InTag t a, []) else if (c =? ">")%char then (Outside [], [Open t a]) else
      if (c =? "/")%char then (Slash t a, []) else if name_char c then (AttrName t a [c], []) else (Wrong, [])
  | AttrName t a s =>
      if name_char c then (AttrName t a (c :: s), []) else
      if (c =? "=")%char then (if existsb (fun b => same (rev s) (fst b)) a then (Wrong, []) else (AfterEq t a (rev s), [])) else (Wrong, [])
  | AfterEq t a b => if (c =? quote)%char then (Value t a b [], []) else (Wrong, [])
  | Value t a b s =>
      if (c =? quote)%char then (AfterValue t (a ++ [(b, rev s)]), []) else
      if (c =? "<")%char || (c =? "&")%char then (Wrong, []) else (Value t a b (c :: s), [])
  | AfterValue t a =>
      if white c then (InTag t a, []) else if (c =? ">")%char then (Outside [], [Open t a]) else if (c =? "/")%char then (Slash t a, []) else (Wrong, [])
  | Slash t a => if (c =? ">")%char then (Outside [], [Empty t a]) else (Wrong, [])
  | Wrong => (Wrong, [])
  end.
Fixpoint read (p : place) (s : str) : place * list token :=
  match s with [] => (p, []) | c :: s => let '(p, l) := read_char p c in let '(p, l') := read p s in (p, l ++ l') end.

(** ** Elements: every tag that is opened is closed, in the right order *)
Inductive xml := Node (tag : str) (attrs : list (str * str)) (content : list xml) | Letters (s : str).
Fixpoint nest (stack : list (str * list (str * str) * list xml)) (content : list xml) (l : list token) : option (list xml) :=
  match l with
  | [] => match stack with [] => Some content | _ => None end
  | Chars s :: l => nest stack (match s with [] => content | _ => content ++ [Letters s] end) l
  | Empty t a :: l => nest stack (content ++ [Node t a []]) l
  | Open t a :: l => nest ((t, a, content) :: stack) [] l
  | Close t :: l =>
      match stack with
      | (t', a, outer) :: stack => if same t t' then nest stack (outer ++ [Node t' a content]) l else None
      | [] => None
      end
  end.
(** one element, with white space around it at most *)
Definition document (s : str) : option xml :=
  match read (Outside []) s with
  | (Outside r, l) => if blank_text r then match nest [] [] l with Some [Node t a c] => Some (Node t a c) | _ => None end else None
  | _ => None
  end.

(** ** Numbers, in quarters *)
Definition is_digit (c : ascii) : bool := (0 <=? digit_value c) && (digit_value c <=? 9).
Definition digits_only (s : str) : bool := match s with [] => false | _ => forallb is_digit s end.
Fixpoint cut (c : ascii) (s : str) : str * option str :=
  match s with
  | [] => ([], None)
  | x :: s => if (x =? c)%char then ([], Some s) else let '(a, b) := cut c s in (x :: a, b)
  end.
Definition magnitude (s : str) : option Z :=
  match cut "." s with
  | (a, None) => if digits_only a then Some (4 * number a) else None
  | (a, Some b) =>
      if digits_only a && digits_only b then
        let v := 4 * number (a ++ b) in let d := 10 ^ zlen b in if v mod d =? 0 then Some (v / d) else None
      else None
  end.
Definition value_of (s : str) : option Z :=
  match s with "-"%char :: s => option_map Z.opp (magnitude s) | _ => magnitude s end.

(** ** Shapes *)
Definition obind {A B} (x : option A) (f : A -> option B) : option B := match x with Some a => f a | None => None end.
Notation "'get' x <- e ; f" := (obind e (fun x => f)) (at level 200, x name, e at level 100, f at level 200).
Fixpoint attr (a : list (str * str)) (name : string) : option str :=
  match a with [] => None | (n, v) :: a => if same n (text name) then Some v else attr a name end.
Definition length_attr (a : list (str * str)) (name : string) : option Z := get v <- attr a name; value_of v.
Fixpoint after (prefix s : str) : option str :=
  match prefix, s with
  | [], _ => Some s
  | c :: prefix, d :: s => if (c =? d)%char then after prefix s else None
  | _, _ => None
  end.
(** the stroke width of a style with the given other properties *)
Definition style_stroke (a : list (str * str)) (others : string) : option Z :=
  get v <- attr a "style"; get w <- after (text others ++ text "stroke-width:") v; value_of w.
Definition expect (a : list (str * str)) (name v : string) : option unit :=
  get w <- attr a name; if same w (text v) then Some tt else None.
Definition shape_of (tag : str) (a : list (str * str)) (content : list xml) : option shape :=
  if same tag (text "line") then
    get x1 <- length_attr a "x1"; get x2 <- length_attr a "x2"; get y1 <- length_attr a "y1"; get y2 <- length_attr a "y2";
    get w <- style_stroke a "stroke:black;"; match content with [] => Some (Line x1 x2 y1 y2 w) | _ => None end
  else if same tag (text "circle") then
    get x <- length_attr a "cx"; get y <- length_attr a "cy"; get r <- length_attr a "r";
    get _ <- expect a "stroke" "black"; get _ <- expect a "stroke-width" "1";
    get f <- attr a "fill";
    match content with
    | [] => if same f (text "black") then Some (Circle x y r true) else if same f (text "white") then Some (Circle x y r false) else None
    | _ => None end
  else if same tag (text "rect") then
    get x <- length_attr a "x"; get y <- length_attr a "y"; get w <- length_attr a "width"; get h <- length_attr a "height";
    get s <- style_stroke a "fill:white;stroke:black;"; match content with [] => Some (Rect x y w h s) | _ => None end
  else if same tag (text "text") then
    get x <- length_attr a "x"; get y <- length_attr a "y"; get size <- length_attr a "font-size";
    get _ <- expect a "alignment-baseline" "middle"; get _ <- expect a "text-anchor" "middle";
    match content with [Letters s] => Some (Label x y size s) | _ => None end
  else None.
(** white space between elements is not shown *)
Fixpoint shapes_of (l : list xml) : option (list shape) :=
  match l with
  | [] => Some []
  | Letters s :: l => if blank_text s then shapes_of l else None
  | Node t a c :: l => get s <- shape_of t a c; get ss <- shapes_of l; Some (s :: ss)
  end.
(** the width and height of the view box, whose upper left corner is (0, 0), and what is drawn, from back to front *)
Definition shown (s : str) : option (Z * Z * list shape) :=
  match document s with
  | Some (Node t a c) =>
      if same t (text "svg") then
        get _ <- expect a "xmlns" "http://www.w3.org/2000/svg";
        get b <- attr a "viewBox"; get b <- after (text "0 0 ") b;
        match cut " " b with
        | (w, Some h) => get w <- value_of w; get h <- value_of h; get l <- shapes_of c; Some (w, h, l)
        | _ => None
        end
      else None
  | _ => None
  end.
(** no < and no &, which would have to be escaped *)
Definition unescaped (s : str) : Prop := forall c, In c s -> c <> "<"%char /\ c <> "&"%char.
(** the width of the columns of ops with the given names: half the font size for each letter, and 11 pixels *)
Definition columns (names : list str) : Z := fold_right (fun s w => (14 * zlen s + 44) + w) 0 names.
