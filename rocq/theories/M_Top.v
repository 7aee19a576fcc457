(** Model of send_measure_top, qip/distributed/manager.py:308-354: combining the workers' answers. *)
From Verif Require Import Base M_Bits M_Kron M_Feed M_Measure M_Pool.

Section Top.
  Context {K : Type} {OK : OrdRing K}.

  (** the fields top_k_indices.index and top_k_probs of a worker's reply *)
  Definition reply : Type := (list Z * list K)%type.

  (** min of a sequence; ValueError when it is empty *)
  Fixpoint kmin_from (m : K) (l : list K) : K :=
    match l with [] => m | x :: l => kmin_from (if rleb m x then m else x) l end.
  Definition kmin (l : list K) : res K := match l with [] => Raise ValueError | x :: l => Ok (kmin_from x l) end.
  Definition zmin (l : list Z) : res Z := match l with [] => Raise ValueError | x :: l => Ok (fold_left Z.min l x) end.

  (** a <= b for tuples (index, prob) *)
  Definition tuple_leb (a b : Z * K) : bool := (fst a <? fst b) || ((fst a =? fst b) && rleb (snd a) (snd b)).
  (** sorted(..., reverse=True): largest tuple first *)
  Fixpoint insert_rev (x : Z * K) (l : list (Z * K)) : list (Z * K) :=
    match l with
    | [] => [x]
    | y :: l' => if tuple_leb x y then y :: insert_rev x l' else x :: l
    end.
  Definition sort_rev (l : list (Z * K)) : list (Z * K) := fold_left (fun acc x => insert_rev x acc) l [].

  (** manager.py:334-343: the loop over the workers for one index; the lists after pop(), agg_p, agg_err and the
      number of entries taken *)
  Definition visit (min_index : Z) (rs : list (list (Z * K) * K)) : res (list (list (Z * K)) * K * K * Z) :=
    mfold (fun '(acc, agg_p, agg_err, taken) '(r, conf_min) =>
      match rev r with
      | t :: _ => if (fst t =? min_index)
                  then do tr <- pop r; Ok (acc ++ [snd tr], (agg_p + snd (fst tr))%r, agg_err, taken + 1)
                  else Ok (acc ++ [r], agg_p, (agg_err + conf_min)%r, taken)
      | [] => Ok (acc ++ [r], agg_p, (agg_err + conf_min)%r, taken)
      end) rs ([], 0%r, 0%r, 0).

  (** manager.py:327-344: the while loop; [fuel] bounds the iterations *)
  Fixpoint agg_loop (fuel : nat) (conf_mins : list K) (conf_results : list (list (Z * K))) (total_results : Z)
      (agg_top : list (Z * K * K)) : res (list (Z * K * K)) :=
    if 0 <? total_results then
      match fuel with
      | O => Raise OutOfFuel
      | S fuel =>
          do lasts <- mmap (fun r => do t <- pyget r (-1); Ok (fst t)) conf_results;
          do min_index <- zmin lasts;
          do v <- visit min_index (combine conf_results conf_mins);
          let '(conf_results, agg_p, agg_err, taken) := v in
          agg_loop fuel conf_mins conf_results (total_results - taken) (agg_top ++ [(min_index, agg_p, agg_err)])
      end
    else Ok agg_top.

  (** sorted(agg_top, key=lambda t: t[1], reverse=True): stable, largest probability first (manager.py:347) *)
  Fixpoint insert_top (x : Z * K * K) (l : list (Z * K * K)) : list (Z * K * K) :=
    match l with
    | [] => [x]
    | y :: l' => if rleb (snd (fst x)) (snd (fst y)) then y :: insert_top x l' else x :: l
    end.
  Definition sort_top (l : list (Z * K * K)) : list (Z * K * K) := fold_left (fun acc x => insert_top x acc) l [].

  (** manager.py:316-354: from the workers' replies to the combined result (indices, probabilities, errors). Unpacking
      zip of an empty list raises ValueError. top_k > 0 is given. *)
  Definition combine_replies (confs : list reply) (top_k : Z) : res (list Z * list K * list K) :=
    do conf_mins <- mmap (fun conf => kmin (snd conf)) confs;
    let conf_results := map (fun conf => sort_rev (combine (fst conf) (snd conf))) confs in
    let total_results := fold_left (fun acc r => acc + zlen r) conf_results 0 in
    do agg_top <- agg_loop (Z.to_nat total_results) conf_mins conf_results total_results [];
    let top_k_items := sort_top agg_top in
    if zlen top_k_items =? 0 then Raise ValueError else
    Ok (firstn (Z.to_nat top_k) (map (fun t => fst (fst t)) top_k_items),
        firstn (Z.to_nat top_k) (map (fun t => snd (fst t)) top_k_items),
        firstn (Z.to_nat top_k) (map snd top_k_items)).
End Top.
Arguments reply K : clear implicits.
