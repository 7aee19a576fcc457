# Formal model of Renmusxd/QIP in Rocq (Coq 8.16.1)

Source under study: `/repo` (read as text, never run).  All Coq files are in `rocq/theories`, logical name `Verif`.

## Ground rules of the model

* Python and C integers are `Z` (unbounded).  Arrays are lists; an index error, an out-of-bounds
  access in code compiled with `boundscheck(False)`, a raised exception, a division by zero are *values*
  (`Raise e` of the type `res`), never silently totalised.  C `int` overflow (n > 30) is not modelled.
* Amplitudes are pairs (re, im) over an arbitrary totally ordered commutative ring `K` (class `OrdRing`).
  `K := R` is the mathematical reading of `complex128`; `K := Z` makes every model function executable with
  `vm_compute`, and is used for the counterexamples (`*_refuted`) and the non-vacuity examples.
  Rounding and `-ffast-math` are not modelled: the arithmetic is exact.
* Randomness (`random.random()`) is an explicit argument; uninitialised memory is an explicit argument;
  the enumeration order of Python sets, thread interleavings and TCP segmentation are universally quantified.
* Files: `Base`, then for each area a model file `M_*.v` (definitions only, each citing file:lines), a
  specification file `S_*.v` (definitions only, independent of the model), lemma files `L_*.v`, and property
  files `P_*.v` that contain only theorems closed by `exact`, their non-vacuity examples, and `Print Assumptions`.

## Properties and plan

| id | modelled | method |
|----|----------|--------|
| C01, C02, C04 | `kronselect_dot`, `dot_loop`, `gen_valid_col_and_matcol`, `cdot_loop`, `calc_mat_entry`, `CMat`, `SwapMat` | both loops computed to `Ok (spec)`, spec = sum over all basis states of the product of matrix entries; bijection between enumerated columns and basis states agreeing outside the indices |
| C03 | the same with offsets | corollary of the general statement of C01 with offsets |
| C05 | `expand_kron_matrix` | transposed matrix proved, claim refuted by a witness |
| C06-C09 | spec-level algebra of the operators | induction over groups, single-group operators, reindexing of sums |
| C10-C12 | `makemats` of every op, `CMat`, `SwapMat` | entrywise on the spec of C01 |
| C13, C14 | bit helpers of `util.py`, `ext/util.pyx` | bit-level extensionality (`Z.bits_inj'`), induction |
| C15-C17 | `gen_edit_indices`, `make_state` | loop invariant: array equals spec on visited indices; refutation of the slice claim for the empty feed |
| C18-C26 | `measure_probabilities`, `soft_measure`, `measure`, `reduce_measure`, `measure_top_probabilities`, `prob_magnitude` | entwine bijection, prefix sums, refutations by witness |
| C27 | `func_apply` | every cell is written by the right source; refutation when the remaining qubits are not as many as reg2 |
| C28-C34 | heap of nodes, constructors, `get_deps`, `run_graph`, `run`, op cache | invariants over the work-list loops, arbitrary set order |
| C35-C37 | context stack, func wrapper | list insertion/removal algebra, state machine histories |
| C38 | `QFFT`, `recQFFT` as gate sequences | induction on the register, over `R` |
| C39 | `FormatSocket.send/recv` on byte lists | induction over segments; refutation for short reads |
| C40, C41 | message trees of `messages.proto`, conversion functions | structural induction |
| C42, C43 | `draw_workers`, `allocate_workers`, manager state machine | list induction; invariant over histories |
| C44, C45 | `send_state`/`receive_state` as a two-process system with FIFO channels | inductive invariant over all schedules |
| C46-C48 | workers with slices, kronprod + sync | C03 + transition system of the sync phase |
| C49-C51 | manager measure, top-k, reduce | corollaries of the local theorems; list induction |
| C52 | `gen_continued_fractions`, `int(c/q)` as the rounded division of doubles | invariant over the recurrence; refutation by a witness above 2^53 |
| C53 | `makemats` of every op and `kronselect_dot` | corollary of C04 and C10-C12 |
| C54 | `CythonBackend.reduce_measure` | the output slice theorem of C24 applied to the whole arena |
| C55 | `make_state` with integer feeds | case analysis of the first feed |
| C60-C61 | `DistributedBackend`'s calls on the job of C46-C49 | symbolic execution of the job; confluence |
| C62 | print_circuit: run_graph with the printing accumulator; strings are lists of characters | the order and the qubits from C28-C29; cell by cell; decoding of the printed rows |
| C63 | make_svg: run_graph with the drawing accumulator; svg elements are shapes with coordinates in quarters of a pixel | the order and the qubits from C28-C29; induction over the columns |
| C64 | the swap test program on the constructors and run of C28-C37, C56 | one lemma for programs that create qubits and then call ops: the run returns the textbook action of the calls; sums over both registers |
| C65 | `run` with `state=` an array or a list, two runs of one session | the run theorem C33 twice; the log of the second run started from the result of the first |
| C66 | the Grover program on `run` with measurements at the end; sines and cosines over R | Hadamard on a register by sums over characters; each run is a rotation by 2t, by induction on the runs; the bound on the last angle gives the largest probability |
| C67 | `classical` of the Shor example; draws and measured values are parameters | induction over the rounds; gcd facts; witnesses for the failures |
| C68 | `quantum`: the loop over runs and fractions | Legendre's theorem on convergents for the recurrence of C52; induction over the runs |
| C69 | code that calls ops, functions and C, raises and catches, as an inductive predicate over the state monad | induction over the code: the stack of contexts keeps its constructors and positions |
| C70 | runs of C33 with measurements; draws, accumulator contents and the inverse square root as parameters | the norm is an invariant of the fold over the nodes; one soft measurement by C20; reachability by choosing each draw from the given outcomes |
| C71 | `make_circuit` and `run(m)` of the Shor example on the heap and `run` of C33, C36, C70 | the circuit grows by the parts of C38 and C27; the Fourier transform keeps the norm; the final measurement by C70; the register sum gives the textbook amplitudes |
| C72 | the probabilities of C71 with the continued fractions of C52/C68 | for the nearest values: cosine bound on a centred sum of unit vectors, number of exponents per power; for orders dividing the size: geometric sums |
| C73 | `send_reduce_measure` of the manager with the workers' partial `reduce_measure` and `sync` up to an output row | symbolic execution of the job, one case each for: some amplitude of the outcome outside the first block (out of bounds), exactly the block qubits measured (deadlock), more measured (agrees with the local backend); confluence |
| C74 | the requests of a distributed client | `func_apply` and `soft_measure` raise before anything is sent; the local operations succeed |
| C75 | `WorkerPoolServer`'s three dictionaries, connecting, accepting and closing as events of all workers; histories are lists of events | invariant over histories: the log of registrations plus the waiting connections is a permutation of the connections made; the connections of a pool are its pairs of partners |
| C76 | the job of C46 with the connections registered so far | invariant over all schedules: the manager waits for a worker that waits for a message nobody sends |
| C77 | as C75 | induction over the later events |
| C78 | the job of C46 with the calls of M_Client | invariant over all schedules: the worker fails, the manager waits for its confirmation; for later calls an invariant on the manager and one diagonal worker that follows the operation in progress (L_Reject2) |
| C79 | the manager of C43 | stable sorting: the workers given back are at the end of the sorted list and are drawn first |
| C80 | ManagerServer.run: the accepting thread, the connections and first messages of the hosts as events | invariant over all histories |
| C81 | examples/qfft_example.py: the circuit and its run, over the reals | the nodes of the run in order: first report, the transform of C38, second report; marginals of the reversed register; geometric sums for a plane wave |
| C82 | runs of circuits up to a point, the probabilities of a register the nodes so far left alone; forced measurements of other qubits | ops and functions commute with the projection on a value of the register and keep the norm (C06, C27), induction over the nodes; law of total probability for the collapsed states |
| C83 | backend calls in both orders, same draw | equal marginals give the same choice in soft_measure for any accumulator; projections commute with the op, the function and each other; 1/sqrt p over the reals |
| C84 | the job of C46 with one lost worker (`M_Failure`), and a job with unread confirmations | the failing job by confluence; the next job by an invariant: each diagonal worker still answers as many operations with 'done' as the manager will read before the measurement fails |
| C85 | Manager.close on top of the manager of C43: the locks, job_pools, the closed connections; the client threads may do their sections in between | invariants over histories: the listed pools already closed stay empty; a pool with an unreachable worker is never emptied |
| C86 | the loop condition and the stop flag on top of the server of C80 | induction over the events after the stop |
| C87 | the feed part of run and make_state (as for C15, C33), for lists of any length and overlapping groups | last write to every cell of the new state: induction over the enumerated indices |
| C88 | all kernels of qip/ext again with 32-bit ints: overflow and bad shifts are errors, narrowing keeps the low bits, conversion of a Python int may raise (`M_Int`) | range invariants of every loop variable, loop by loop; equality with the unbounded kernels up to 30 qubits |
| C89 | cdot_loop and measure_probabilities with rounded operations, as relations: any order and grouping of the sums (`M_Float`) | error analysis: induction over the tree of a sum, over the groups of a product, over the rows (Cauchy-Schwarz on each block) and over the sequence of operations; Flocq's relative error bound for doubles |
| C90 | gen_qubit_prints over qubit_index_notation of C13 (`M_Prints`) | mixed radix expansion of the index: induction over the registers |
| C91 | the steps of send, recv and close on one FormatSocket by several threads, with the locks (`M_Shared` on `M_Sock`) | invariants over all schedules: mutual exclusion, frames written so far; refinement to the sequential calls of C39 |
| C92 | soft_measure and measure with rounded operations, as relations; the same loops on the standard library's doubles (`M_FloatMeasure` on `M_Float`) | error analysis of the running difference of the draw by induction over the outcomes; the exact results are possible and, without rounding, the only ones; that impossible outcomes are never reported is refuted by a run on doubles |
| C93 | make_state with rounded products, then a sequence of gates, functions, measurements and probability reports (`M_FloatRun` on `M_Float`, `M_FloatMeasure`, `M_Func`) | induction over the run; the distance of products of registers by replacing one register at a time; exact evolution given the outcomes is an inductive specification that carries the bound |
| C94 | the argument loop of `QubitWrapperContext.__init__`, `add_context` and `set_qubits` on context objects (`M_CtxObj`) | a series of doubles and triples is a concatenation (`S_CtxObj`); induction over the arguments; counting positions and qubits. Refuted for a leading sequence and for mismatches that cancel |
| C95 | context objects as shared mutable cells on a global stack (`M_CtxObj`) | programs are an inductive class of computations (`S_CtxObj`); every program leaves the stack even, so that leaving and entering commutes with it; simulation between objects and the values of `M_Context`. Refuted for an object entered twice at once and for `add_context` on an active object |
| C96 | two heaps with a correspondence of the needed nodes (`S_Order`), runs of `M_Graph` | every node acts on its own qubits only, and linearly, so the nodes of disjoint qubits commute; bubble sort of one execution order into the other; the norm fixes the scale after measurements. Refuted: a qubit passed to two gates; the probabilities a StochasticMeasure reports beside a Measure of an entangled qubit |
| C97 | `run` with the calls of DistributedBackend (`M_DistRun`: prelude, messages sent, answers), the job network of `M_Worker` on the decoded messages | the messages do not depend on the answers and decode to the operations of the nodes; each node on one computer refines the local node (`L_DistRun2`), the job refines one computer (C49); draws of a local run with the same outcomes exist (C70). Refuted: gates without controls and F raise; StochasticMeasure reports a pair; the state returned is a job handle |
| C98 | the constructor of Qubit in steps between accesses to shared attributes (`M_Threads`), threads with lists of constructions, schedules | an invariant over all schedules (who owns which object); a construction nobody interferes with equals the single threaded constructor of `M_Graph`. Refuted: unique ids and the check against using a qubit twice under races |
| C99 | closeswapsock, rawrecv and rawsend on the connection of C39 (`M_Swap`), histories of connections | the C39 lemmas for one call of recv, induction over the connections. Refuted: bytes left over by recv survive the replacement |
| C100 | run in steps between accesses to `self.ms` of the ops (`M_Runs`, on the run of C28), threads, schedules | the steps done in a row are the run of C28; for all schedules by a rely/guarantee invariant: what a run may find in the cache of an op it shares is what it would have found or put there. Refuted for dagger ops that have not been run before |
| C101 | threads of the clients, worker processes that serve one job after another, one connection per process for all its jobs (`M_Jobs`, on the jobs of C49) | invariant: the state of each job is that of an execution of the job by itself, the messages to a process are those of its current job followed by the setups and messages of the next ones in order; no deadlock by induction on the time at which jobs were started; bound on executions by counting what happens once per job. Refuted for shutdown. With C97: clients that run circuits at the same time (`S_Clients`, `P_Clients`) get what local runs of their own circuits return |
| C102 | op calls and with statements of several threads, split at the reads and writes of the context stack and the counter (`M_CtxThreads`, on the objects of C95) | refinement to a library without contexts when contexts hold no qubits (invariant: objects empty, counter 0, one stack entry per open block); serial schedules by running one thread to the end of its block; explicit schedules for the refutations |
| C103 | the string make_svg returns, character by character: format strings, ints and floats (`M_SvgText`) | a reader of XML and svg as a state machine over characters (`S_SvgText`); each element is read back; simulation of the drawing of C63 |
| C104 | run with the argument statetype: what an array of that type keeps of each stored value; buffers of another type are refused by the extension modules (`M_StateType`) | the nodes before the first op keep the accumulator valid, the first op raises (C33's lemmas); make_state simulated store by store; the caches after the failed run are those of the same positions |
| C105 | examples/context_example.py: a wrapped function of two ops, C of it, the call on three fresh qubits (`M_CtxExample`) | the body grows a circuit (C56's and C57's lemmas), its action under the control computed on the eight basis states |
| C106 | make_state of the distributed client, the end of WorkerInstance.__init__, the job that follows (`M_StartState`) | refuted: the indices a row of workers computes fail as they do locally; invariant "the manager waits for a worker that has ended" over all schedules |
| C107 | registers created with and without given ids, run of them (`M_Forced`, `M_Graph`) | refuted on equal ids by two set orders; in general the frontier is a permutation, sorted by id, and the nodes leave the state as it is; uniqueness of sorted permutations with distinct keys |
| C108 | greeting byte, sock.recv(1), choice of the transport, introduction (`M_Hello`, `M_Sock`) | case analysis on the first piece; C39's theorem on the rest of the stream; refuted on a closed connection and on a cut header |
| C109 | the address a worker reports, the one its partners are told, name resolution on the connecting host (`M_Address`) | lookup is unique as ports are; exact characterisation of the workers that are found; refuted for every worker started with the default address and asked for from another host |
| C56-C59 | `QubitFuncWrapper`, `C`, op constructors, on the heap of C28-C34 | symbolic execution of the constructors: one lemma per call, induction over the op list and over the controls |

Every property of the list can be expressed in an executable model; where the code violates one, the theorem
`..._refuted` gives the witness (or, mostly, shows the failure for a whole class of inputs) and `..._partial` the part
that holds (see MANIFEST.json).

## Trusted base

* Coq's kernel (8.16.1).
* The faithfulness of the definitions in `M_*.v` to the cited lines.
* Axioms, as printed by `Print Assumptions` under every theorem:
  - the theorems over `K := R` (`P_Ops`: C06_scalars, C12_H, C12_R_phase, C12_Rm_phase, C12_R_inverse; `P_Measure`: C21_real_scale;
    `P_Context`: C38_fourier, C38_in_circuits, C38_controlled; `P_Measured`: C49_born; `P_Grover`: C66_list_partial, C66_bits_refuted;
    `P_ShorCircuit`, `P_QfftExample`: all; `P_Signal`: `C83_measurements`, `C83_possible`; `P_Float`: all; `P_FloatMeasure`: all but C92_impossible_refuted and C92_same_loops; `P_FloatRun`: all) use the standard library's `ClassicalDedekindReals.sig_forall_dec`,
    `ClassicalDedekindReals.sig_not_dec` and `FunctionalExtensionality.functional_extensionality_dep`, through `Reals`; the two of `P_Grover`, C72_peak, C72_found_partial and C72_wrong_refuted also use
    `Classical_Prop.classic`, through the standard library's bounds on PI, and so do C89_rounding and C89_rounding_flush, through Flocq
    (which adds no axioms of its own);
  - all other theorems are closed under the global context: no axioms.

### Modelled

| source | model |
|--------|-------|
| `qip/util.py`: kronselect_dot, dot_loop, gen_valid_col_and_matcol, gen_edit_indices, expand_kron_matrix, uint_to_bitarray, bitarray_to_uint, flatten, qubit_index_notation, gen_qubit_prints | `M_Bits`, `M_Kron`, `M_Feed`, `M_Prints` |
| `qip/ext/util.pyx`, `kronprod.pyx`, `func_apply.pyx` | `M_Bits`, `M_Kron`, `M_Measure`, `M_Func` |
| `qip/backend.py` | `M_Feed`, `M_Measure`, `M_Worker` |
| `qip/operators.py`: the matrices and `makemats` of all ops, `COp`, `CMat`, `SwapMat`, `FOp`, the op cache, `C` | `M_Ops`, `M_Gates`, `M_Graph`, `M_Context` |
| `qip/qip.py`, `qip/pipeline.py`: nodes, split, extract_index, sinks, get_deps, run_graph, run, make_circuit_mat | `M_Graph` |
| `qip/pipeline.py`: print_circuit; the names of ops are given by a function with the values repr gives them | `M_Print` |
| `qip/svgwriter.py`: all, once with elements as shapes and once as the text itself (floats of 2^51 pixels and more print as any text); the width of letters is taken to be half the font size, as the program does | `M_Svg`, `M_SvgText` |
| `qip/qubit_util.py`, `qip/qfft.py` | `M_Context`, `M_ContextR`; context objects: `M_CtxObj` |
| `qip/distributed/formatsock.py` | `M_Sock`; with threads: `M_Shared` |
| `qip/distributed/proto/conversion.py`, message fields it uses | `M_Proto` |
| `qip/ext/*.pyx` with 32-bit ints | `M_Int` |
| `qip/ext/kronprod.pyx`: cdot_loop, measure_probabilities, soft_measure, measure (of a whole state, outcome not forced), with rounding | `M_Float`, `M_FloatMeasure` |
| `qip/backend.py`: make_state, `qip/pipeline.py`: run, with rounding | `M_FloatRun` |
| `qip/pipeline.py`: run with statetype; `qip/backend.py`: make_state with statetype; the buffer types of `qip/ext/*.pyx` | `M_StateType` |
| `examples/context_example.py` (not the drawing) | `M_CtxExample` |
| `qip/distributed/backend.py` make_state, `qip/distributed/worker/worker.py` WorkerInstance.__init__ (the state) | `M_StartState` |
| `qip/qip.py` Qubit.__init__ with qid given | `M_Forced`, `M_Graph` |
| `qip/distributed/backend.py` `__init__`, `qip/distributed/worker/worker.py` WorkerRunner.`__init__`, the greeting in `qip/distributed/manager.py` ManagerServer.run | `M_Hello` |
| addresses in `qip/distributed/worker/worker.py` WorkerPoolServer.`__init__`, WorkerRunner.`__init__`, make_connection and `qip/distributed/manager.py` allocate_workers | `M_Address` |
| `qip/distributed/manager.py`: Manager's worker bookkeeping, WorkerPool | `M_Pool`, `M_Top`, `M_Manager`, `M_Worker`, `M_Failure` |
| `qip/distributed/worker/worker.py`: WorkerInstance.run, WorkerPoolServer's transfers | `M_Worker` on `M_Net` |
| `qip/distributed/worker/worker.py`: WorkerPoolServer's connections | `M_Connect` |
| `qip/distributed/manager.py`: ManagerServer.run, handle (without TLS) | `M_Server` |
| `qip/distributed/manager.py`: Manager.close, ManagerServer.stop | `M_Close`, `M_Stop` |
| `qip/distributed/backend.py`: DistributedBackend's calls | `M_Client`; a whole `run` on it: `M_DistRun` |
| `qip/qip.py`: Qubit.__init__ and set_sink in several threads (switches between accesses to shared attributes; the checks of ops that come before Qubit.__init__, wrappers and the context stack are not interleaved) | `M_Threads` |
| `qip/distributed/formatsock.py`: closeswapsock, rawsend, rawrecv | `M_Swap` |
| `qip/pipeline.py`: run in several threads, with `qip/operators.py`: MatrixOp.feed_indices in steps (switches between accesses to self.ms; all other attributes are only read) | `M_Runs` |
| `qip/distributed/manager.py`: serve_client and make_state of several clients at the same time, `qip/distributed/worker/worker.py`: WorkerRunner.run | `M_Jobs` |
| `qip/qubit_util.py:41-68, 104-158, 176-196` in several threads: each access to CONTEXT_STACK and TOTAL_CONTEXT_QUBITS is a step; building an op and the loop of set_qubits are one step each | `M_CtxThreads` |
| `examples/shors.py`: classical, quantum, continued fractions | `M_Shor` |
| `examples/shors.py`: make_circuit, run(m) | `M_ShorCircuit` |
| `examples/qfft_example.py` (the computation of the fed state, the drawing and the plots left out) | `M_QfftExample` |
| `examples/cswap_measure.py`, `examples/grovers_iterative.py` (the plots left out) | `M_Examples` |

### Not modelled

* floating point rounding outside C89, C92 and C93 (all other claims compute with exact numbers), infinities and NaNs; memory limits; C `int` overflow in the kernels is modelled for C88 only (`M_Int`), the other claims
  read C's ints as unbounded, which C88 justifies up to 30 qubits;
* the binary protobuf encoding, TLS, socket timeouts (other than in C91); failures of connecting
  and accepting;
* firewalls and hosts with several network interfaces (C109 takes a host to have local names and public names);
* logging, `worker_backends.py`;
* the garbage collector and reference counts; Python's hash values (sets are enumerated in an arbitrary order).
