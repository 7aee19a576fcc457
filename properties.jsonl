{"id": "C01", "title": "kronselect_dot is the Kronecker product action", "statement": "Whenever kronselect_dot(mats, vec, n, out) returns, it has written, at every output row r, the sum over all basis states c of entry(r,c)*vec[c], where entry(r,c) is the product over the index groups of the group's matrix entry at the bits of r and c read at the group's qubits (first listed qubit most significant), and is 0 unless r and c agree on every qubit not mentioned in mats.", "quantifier": "every n, every dict of index groups (also overlapping ones) to matrices (dense, controlled, swap, arbitrarily nested), every vector, both dot implementations", "why_tests_cant": "The claim ranges over infinitely many register sizes, index layouts, matrices and amplitudes; tests only sample a few small ones.", "anchors": ["qip/util.py:kronselect_dot", "qip/util.py:dot_loop", "qip/util.py:gen_valid_col_and_matcol", "qip/ext/kronprod.pyx:cdot_loop"]}
{"id": "C02", "title": "The Cython and pure Python dot implementations agree", "statement": "For the same arguments, kronselect_dot(..., dot_impl=cdot_loop) and kronselect_dot(..., dot_impl=None) leave the same output array.", "quantifier": "every n, index groups, matrices, input/output slices and offsets", "why_tests_cant": "The claim ranges over infinitely many register sizes, index layouts, matrices and amplitudes; tests only sample a few small ones.", "anchors": ["qip/ext/kronprod.pyx:cdot_loop", "qip/ext/kronprod.pyx:calc_mat_entry", "qip/util.py:dot_loop", "qip/operators.py:CMat", "qip/operators.py:SwapMat"]}
{"id": "C03", "title": "Input and output offsets compute blocks of the full product", "statement": "Running kronselect_dot on an output slice gives exactly that slice of the full result, and summing the results of running it on input slices that partition the input gives the full result.", "quantifier": "every way of cutting input and output into contiguous slices, every n, mats, vector", "why_tests_cant": "The claim ranges over infinitely many register sizes, index layouts, matrices and amplitudes; tests only sample a few small ones.", "anchors": ["qip/util.py:kronselect_dot", "qip/ext/kronprod.pyx:cdot_loop"]}
{"id": "C04", "title": "kronselect_dot rejects exactly the ill-sized calls", "statement": "kronselect_dot raises iff the input slice or the output slice does not fit in 2**n, or some matrix is not 2**k x 2**k for its k indices; otherwise it completes and overwrites every output entry.", "quantifier": "every argument tuple", "why_tests_cant": "Error behaviour must hold for every combination of sizes.", "anchors": ["qip/util.py:kronselect_dot"]}
{"id": "C05", "title": "expand_kron_matrix is the matrix of the operation", "statement": "expand_kron_matrix(mats, n) is the matrix M with M @ v equal to the result of kronselect_dot(mats, v, n).", "quantifier": "every n, mats, v", "why_tests_cant": "The claim ranges over infinitely many register sizes, index layouts, matrices and amplitudes; tests only sample a few small ones.", "anchors": ["qip/util.py:expand_kron_matrix"]}
{"id": "C06", "title": "Unitary ops preserve the norm and inner products", "statement": "Applying an op whose matrices are unitary (disjoint index groups) leaves the inner product of any two states, hence the total probability, unchanged.", "quantifier": "every n, disjoint index groups, unitary matrices, states", "why_tests_cant": "The claim ranges over infinitely many register sizes, index layouts, matrices and amplitudes; tests only sample a few small ones.", "anchors": ["qip/util.py:kronselect_dot", "qip/backend.py:CythonBackend.kronselect_dot"]}
{"id": "C07", "title": "Sequential application is matrix multiplication; daggers undo ops", "statement": "Applying mats A and then mats B on the same disjoint index groups equals applying the groupwise products B*A; in particular applying a unitary op and then its dagger (conjugate transpose) restores the state.", "quantifier": "every n, disjoint index groups, matrices, states", "why_tests_cant": "The claim ranges over infinitely many register sizes, index layouts, matrices and amplitudes; tests only sample a few small ones.", "anchors": ["qip/operators.py:MatrixOp.feed_indices", "qip/operators.py:CMat.conj", "qip/operators.py:CMat.T", "qip/util.py:kronselect_dot"]}
{"id": "C08", "title": "Ops on disjoint qubits commute and can be merged", "statement": "Applying two mats dictionaries that touch disjoint qubits in either order gives the same state, and the same as applying their union in one call.", "quantifier": "every n, pair of mats with disjoint qubits, states", "why_tests_cant": "The claim ranges over infinitely many register sizes, index layouts, matrices and amplitudes; tests only sample a few small ones.", "anchors": ["qip/util.py:kronselect_dot"]}
{"id": "C09", "title": "Index groups may be listed in any order", "statement": "The result does not depend on the order of the groups in the dict, and permuting the indices of a group together with the bit order of its matrix gives the same result.", "quantifier": "every n, mats, permutation, state", "why_tests_cant": "The claim ranges over infinitely many register sizes, index layouts, matrices and amplitudes; tests only sample a few small ones.", "anchors": ["qip/util.py:kronselect_dot", "qip/util.py:dot_loop"]}
{"id": "C10", "title": "C(op) applies op exactly on the control-one half", "statement": "The matrices built for C(op) with control qubit c (not among op's qubits) leave every amplitude whose control bit is 0 unchanged and act as op on the amplitudes whose control bit is 1, also for ops that act on several qubits one by one and for nested C(C(...)).", "quantifier": "every op, number of targets, n, control position, nesting depth, state", "why_tests_cant": "The claim ranges over infinitely many register sizes, index layouts, matrices and amplitudes; tests only sample a few small ones.", "anchors": ["qip/operators.py:COp.makemats", "qip/operators.py:CMat", "qip/ext/kronprod.pyx:calc_mat_entry"]}
{"id": "C11", "title": "Swap exchanges two registers", "statement": "Swap on registers a and b of equal size moves the amplitude of each basis state to the basis state in which the values of a and b are exchanged and all other qubits are unchanged; applying it twice is the identity.", "quantifier": "every n, register size, disjoint index lists, state", "why_tests_cant": "The claim ranges over infinitely many register sizes, index layouts, matrices and amplitudes; tests only sample a few small ones.", "anchors": ["qip/operators.py:SwapOp.makemats", "qip/operators.py:SwapMat", "qip/ext/kronprod.pyx:calc_mat_entry"]}
{"id": "C12", "title": "The gate library is what it says", "statement": "Not/X flips, Y, Z, H, R(phi), Rm(m) act on each listed qubit as the textbook 2x2 matrices, each is unitary, X, Y, Z, H are involutions, R(phi) then R(-phi) is the identity.", "quantifier": "every n, list of distinct qubits, angle, state", "why_tests_cant": "The claim ranges over infinitely many register sizes, index layouts, matrices and amplitudes; tests only sample a few small ones.", "anchors": ["qip/operators.py:NotOp", "qip/operators.py:YOp", "qip/operators.py:ZOp", "qip/operators.py:HOp", "qip/operators.py:ROp", "qip/operators.py:RmOp"]}
{"id": "C13", "title": "Bit helpers invert each other", "statement": "bitarray_to_uint(uint_to_bitarray(x, n)) == x mod 2**n, uint_to_bitarray(bitarray_to_uint(bits), len(bits)) == bits, and qubit_index_notation(i, n1..nk) gives the values of the k registers of basis state i.", "quantifier": "every integer, bit list and register size list", "why_tests_cant": "Ranges over all integers and lengths.", "anchors": ["qip/util.py:uint_to_bitarray", "qip/util.py:bitarray_to_uint", "qip/util.py:qubit_index_notation"]}
{"id": "C14", "title": "Index entwining is a bijection", "statement": "For a mask selecting k of n qubits, entwining a measured value and a value of the remaining qubits gives the basis state that has the measured value's bits at the masked qubits and the other value's bits elsewhere; every basis state arises exactly once.", "quantifier": "every n, mask, pair of values", "why_tests_cant": "Bit manipulations over every width and mask.", "anchors": ["qip/ext/util.pyx:entwine_bit", "qip/ext/util.pyx:set_bit", "qip/ext/util.pyx:get_bit"]}
{"id": "C15", "title": "make_state builds the product state", "statement": "make_state(n, index_groups, feeds)[i] is the product over the groups of feed[g][value of group g in i] if every qubit outside the groups is 0 in i, and 0 otherwise (and the state |0...0> when nothing is fed).", "quantifier": "every n, list of disjoint index groups (any order), feeds", "why_tests_cant": "The claim ranges over infinitely many register sizes, index layouts, matrices and amplitudes; tests only sample a few small ones.", "anchors": ["qip/backend.py:CythonBackend.make_state", "qip/util.py:gen_edit_indices"]}
{"id": "C16", "title": "make_state on a range builds that slice of the state", "statement": "make_state with inputstartindex/inputendindex returns exactly the corresponding slice of the state make_state returns without them, so workers that each build their own slice jointly hold the initial state.", "quantifier": "every n, feed (also the empty one), range", "why_tests_cant": "The claim ranges over infinitely many register sizes, index layouts, matrices and amplitudes; tests only sample a few small ones.", "anchors": ["qip/backend.py:CythonBackend.make_state", "qip/distributed/worker/worker.py:WorkerInstance.__init__"]}
{"id": "C17", "title": "Feeding normalised registers gives a normalised state", "statement": "The total probability of the initial state is the product of the squared norms of the fed register states.", "quantifier": "every n, disjoint groups, feeds", "why_tests_cant": "The claim ranges over infinitely many register sizes, index layouts, matrices and amplitudes; tests only sample a few small ones.", "anchors": ["qip/backend.py:CythonBackend.make_state"]}
{"id": "C18", "title": "measure_probabilities is the marginal distribution", "statement": "measure_probabilities(indices)[v] is the sum of |amp|^2 over the basis states whose bit at indices[j] is bit j of v; the entries are non-negative and add up to the total probability.", "quantifier": "every n, list of distinct indices, state", "why_tests_cant": "The claim ranges over infinitely many register sizes, index layouts, matrices and amplitudes; tests only sample a few small ones.", "anchors": ["qip/ext/kronprod.pyx:measure_probabilities"]}
{"id": "C19", "title": "All measurement calls number outcomes the same way", "statement": "The outcome index used by measure_probabilities is the one used by measure, soft_measure and top-k measurement for the same indices.", "quantifier": "every n, indices, state", "why_tests_cant": "The claim ranges over infinitely many register sizes, index layouts, matrices and amplitudes; tests only sample a few small ones.", "anchors": ["qip/ext/kronprod.pyx:measure_probabilities", "qip/ext/kronprod.pyx:soft_measure", "qip/ext/kronprod.pyx:measure_top_probabilities"]}
{"id": "C20", "title": "Measurement outcomes follow the Born rule", "statement": "With u the uniform draw in (0,1), soft_measure returns outcome m exactly when u*T lies in the half-open interval (sum of P(k) for k<m, sum of P(k) for k<=m], T the total probability, P the marginal; the reported probability is P(m), it is positive, and the state is unchanged.", "quantifier": "every n, indices, state, draw", "why_tests_cant": "The distribution is a statement about every draw and every state; a test can only sample outcomes.", "anchors": ["qip/ext/kronprod.pyx:soft_measure", "qip/ext/kronprod.pyx:prob_magnitude"]}
{"id": "C21", "title": "measure collapses and renormalises", "statement": "measure returns (m,p), sets every amplitude whose measured bits differ from m to 0, scales the others by 1/sqrt(p), the new state has total probability 1, and measuring the same qubits again returns m with probability 1.", "quantifier": "every n, indices, state, draw", "why_tests_cant": "The claim ranges over infinitely many register sizes, index layouts, matrices and amplitudes; tests only sample a few small ones.", "anchors": ["qip/ext/kronprod.pyx:measure", "qip/backend.py:CythonBackend.measure"]}
{"id": "C22", "title": "A measurement never reports an impossible outcome", "statement": "measure/soft_measure never return an outcome of probability zero (and never divide by zero).", "quantifier": "every draw of random.random(), including 0.0, every state", "why_tests_cant": "random.random() returns 0.0 with probability 2^-53; no test reaches it.", "anchors": ["qip/ext/kronprod.pyx:soft_measure", "qip/ext/kronprod.pyx:measure"]}
{"id": "C23", "title": "Forced measurement arguments are validated", "statement": "measure/reduce_measure raise ValueError iff measured is given outside [0, 2**k) or measured_prob is given outside (0,1]; otherwise, when both are given they are used as they are.", "quantifier": "every argument combination", "why_tests_cant": "All argument combinations.", "anchors": ["qip/ext/kronprod.pyx:measure", "qip/ext/kronprod.pyx:reduce_measure"]}
{"id": "C24", "title": "reduce_measure keeps the state of the unmeasured qubits", "statement": "After reduce_measure the first 2**(n-k) amplitudes are the amplitudes of the unmeasured qubits given outcome m, in index order, scaled by 1/sqrt(p), and reads stay inside the input vector.", "quantifier": "every n, indices, state, offsets", "why_tests_cant": "The claim ranges over infinitely many register sizes, index layouts, matrices and amplitudes; tests only sample a few small ones.", "anchors": ["qip/ext/kronprod.pyx:reduce_measure", "qip/backend.py:CythonBackend.reduce_measure"]}
{"id": "C25", "title": "Top-k measurement returns the k most likely outcomes", "statement": "measure_probabilities(indices, top_k=k) returns the min(k,2**len(indices)) outcomes of highest probability with their probabilities, in decreasing order, without touching memory outside its arrays.", "quantifier": "every n, indices, k, state", "why_tests_cant": "The claim ranges over infinitely many register sizes, index layouts, matrices and amplitudes; tests only sample a few small ones.", "anchors": ["qip/ext/kronprod.pyx:measure_top_probabilities"]}
{"id": "C26", "title": "total_prob is the total probability", "statement": "total_prob() returns the sum of |amp|^2 over the state.", "quantifier": "every state, every content of uninitialised memory", "why_tests_cant": "An uninitialised accumulator is only visible for some stack contents.", "anchors": ["qip/ext/kronprod.pyx:prob_magnitude", "qip/backend.py:CythonBackend.total_prob"]}
{"id": "C27", "title": "F(f) maps |x>|q> to |x>|q xor f(x)>", "statement": "func_apply moves the amplitude of each basis state with register values x, q to the basis state with values x, q xor f(x), all other qubits unchanged; it preserves the norm and applying it twice restores the state.", "quantifier": "every n, register sizes, disjoint index lists, function, state", "why_tests_cant": "The claim ranges over infinitely many register sizes, index layouts, matrices and amplitudes; tests only sample a few small ones.", "anchors": ["qip/ext/func_apply.pyx:func_apply", "qip/operators.py:FOp"]}
{"id": "C28", "title": "run executes exactly the ancestors, once, in dependency order", "statement": "run(args) feeds every node from which some argument is reachable, and no other node, exactly once, each after all its inputs, whatever order the sets are enumerated in.", "quantifier": "every graph the constructors can build with split indices within the registers, every argument list, every set enumeration order", "why_tests_cant": "Graph shapes and set enumeration orders are unbounded.", "anchors": ["qip/pipeline.py:get_deps", "qip/pipeline.py:run_graph", "qip/pipeline.py:feed_forward"]}
{"id": "C29", "title": "Every node acts on the qubits it was built from", "statement": "At the moment a node is fed, the index groups it receives are, for each of its inputs, the global positions of that input's qubits: fresh qubits own consecutive positions in creation order, ops keep the concatenation of their inputs, split outputs own the selected positions.", "quantifier": "every graph the constructors can build", "why_tests_cant": "Graph shapes are unbounded.", "anchors": ["qip/pipeline.py:run", "qip/pipeline.py:run_graph", "qip/qip.py:SplitQubit.select_index", "qip/pipeline.py:PipelineObject.feed"]}
{"id": "C30", "title": "split and extract_index partition the qubits", "statement": "split() and split(indices) return outputs whose qubits are consecutive, disjoint and cover the input; extract_index(ids) returns the selected qubits in the given order and the remaining ones in increasing order; invalid index lists raise.", "quantifier": "every qubit object and index list", "why_tests_cant": "All index lists, including negative, repeated and out-of-range ones.", "anchors": ["qip/qip.py:Qubit.split", "qip/qip.py:Qubit.extract_index", "qip/qip.py:SplitQubit"]}
{"id": "C31", "title": "A qubit cannot be used twice (no cloning)", "statement": "Once a qubit has been consumed by an op, using it as input of another op raises.", "quantifier": "every construction history", "why_tests_cant": "All construction histories.", "anchors": ["qip/qip.py:Qubit.set_sink", "qip/qip.py:Qubit.__init__"]}
{"id": "C32", "title": "Graphs can be reused: a run does not depend on earlier runs", "statement": "run(args, feed) returns the same state no matter which runs on the same objects happened before.", "quantifier": "every history of runs", "why_tests_cant": "All histories of runs.", "anchors": ["qip/operators.py:MatrixOp.feed_indices", "README.md"]}
{"id": "C33", "title": "run applies the circuit's gates to the fed state", "statement": "The state returned by run is the product state of the feeds to which the gate actions of the executed nodes have been applied at the positions of their inputs, in execution order; strict mode raises iff some required qubit is not fed, defaults stand in for missing feeds.", "quantifier": "every graph, feed, default", "why_tests_cant": "Graph shapes, feeds and states are unbounded.", "anchors": ["qip/pipeline.py:run", "qip/pipeline.py:NodeFeeder"]}
{"id": "C34", "title": "make_circuit_mat returns the matrix of the circuit", "statement": "make_circuit_mat(args) returns the matrix whose i-th column is the output state for basis input i.", "quantifier": "every circuit", "why_tests_cant": "All circuits.", "anchors": ["qip/pipeline.py:make_circuit_mat", "qip/pipeline.py:run"]}
{"id": "C35", "title": "Context qubits are woven in and taken out consistently", "statement": "Inside a QubitWrapperContext, after an op has been applied the context's qubits are the op's outputs at the positions at which the context's qubits were inserted, and the op's own outputs are returned in order.", "quantifier": "every nesting of contexts, index lists, op arity", "why_tests_cant": "All nestings and index lists.", "anchors": ["qip/qubit_util.py:QubitWrapperContext.put_qubits_in_context_order", "qip/qubit_util.py:QubitWrapperContext.split_context_and_circuit_qubits", "qip/qubit_util.py:QubitWrapperContext.set_qubits"]}
{"id": "C36", "title": "C(f) does not change f", "statement": "Wrapping a function circuit f with C(...) returns a controlled version and leaves the meaning of f itself (and of later C(f)) unchanged.", "quantifier": "every sequence of wraps and calls", "why_tests_cant": "All histories of wraps and calls.", "anchors": ["qip/qubit_util.py:QubitFuncWrapper.wrap_op_hook", "qip/operators.py:C"]}
{"id": "C37", "title": "Keyword arguments given to an op reach the op", "statement": "An op constructor such as H, R, Rm called with keyword arguments (dagger, negate, nosink, ...) builds an op with those arguments.", "quantifier": "every op and keyword arguments", "why_tests_cant": "All keyword combinations.", "anchors": ["qip/qubit_util.py:QubitOpWrapper.__call__"]}
{"id": "C38", "title": "QFFT is the discrete Fourier transform", "statement": "QFFT(q) maps basis state |x> of an n-qubit register to 2^(-n/2) * sum over y of exp(s*2*pi*i*x*y/2^n)|y> for a fixed sign s; with rev=False the output bits are reversed.", "quantifier": "every register size n, every input state", "why_tests_cant": "All register sizes and states.", "anchors": ["qip/qfft.py:QFFT", "qip/qfft.py:recQFFT", "qip/qfft.py:makeR"]}
{"id": "C39", "title": "Framed messages arrive intact for every segmentation", "statement": "Whatever sequence of messages one side passes to FormatSocket.send and however TCP cuts the byte stream, successive FormatSocket.recv calls on the other side return exactly these messages in order.", "quantifier": "every message list, every segmentation of the stream", "why_tests_cant": "All segmentations of the stream; local tests get whole segments.", "anchors": ["qip/distributed/formatsock.py:FormatSocket.send", "qip/distributed/formatsock.py:FormatSocket.recv"]}
{"id": "C40", "title": "Ops survive the wire format", "statement": "Decoding the encoded form of an index group and matrix (dense, controlled, swap, nested) gives back the same indices and matrix; vectors likewise.", "quantifier": "every op a client can build", "why_tests_cant": "All nestings, sizes and values.", "anchors": ["qip/distributed/proto/conversion.py:matop_to_pbmatop", "qip/distributed/proto/conversion.py:pbmatop_to_matop", "qip/distributed/proto/conversion.py:vec_to_pbvec"]}
{"id": "C41", "title": "Every gate can be run on the distributed backend", "statement": "Every mats dictionary the ops build and CythonBackend accepts is accepted by DistributedBackend.kronselect_dot.", "quantifier": "every op", "why_tests_cant": "All ops.", "anchors": ["qip/distributed/backend.py:DistributedBackend.kronselect_dot", "qip/operators.py:MatrixOp.makemats"]}
{"id": "C42", "title": "Worker allocation tiles the matrix exactly", "statement": "When make_state succeeds, the drawn workers get input and output ranges such that every (row, column) of the 2**n x 2**n matrix is owned by exactly one worker, no worker holds more than 2**n_qubits amplitudes, drawn plus remaining workers are exactly the workers offered; otherwise InsufficientResources is raised.", "quantifier": "every n, every multiset of worker capacities", "why_tests_cant": "All capacity multisets.", "anchors": ["qip/distributed/manager.py:WorkerPool.draw_workers", "qip/distributed/manager.py:WorkerPool.allocate_workers"]}
{"id": "C43", "title": "Workers are conserved", "statement": "At every point of every history of worker arrivals, state creations, operations, reductions, failures and closes, every registered worker is either free or in exactly one pool, and it is free again after its job ends.", "quantifier": "every history and interleaving of the manager's atomic sections", "why_tests_cant": "All histories and interleavings.", "anchors": ["qip/distributed/manager.py:Manager.make_state", "qip/distributed/manager.py:Manager.serve_client", "qip/distributed/manager.py:WorkerPool.close"]}
{"id": "C44", "title": "A state transfer copies the whole state under any schedule", "statement": "send_state on one side and receive_state on the other end with the receiver's range equal to (or incremented by) the sender's state, for every chunk size and window at least one, every interleaving, and leftovers of earlier transfers on the same connection; neither side gets stuck.", "quantifier": "every state size, chunk size, window, schedule, number of earlier transfers", "why_tests_cant": "All schedules and sizes.", "anchors": ["qip/distributed/worker/worker.py:WorkerPoolServer.send_state", "qip/distributed/worker/worker.py:WorkerPoolServer.receive_state"]}
{"id": "C45", "title": "The in-flight window bounds the unacknowledged chunks", "statement": "The sender never has more than max_inflight chunks unacknowledged.", "quantifier": "every schedule and number of earlier transfers on the connection", "why_tests_cant": "All schedules and histories.", "anchors": ["qip/distributed/worker/worker.py:WorkerPoolServer.send_state"]}
{"id": "C46", "title": "Distributed op application equals local application", "statement": "After kronprod and sync, every worker's input slice equals the corresponding slice of the state the local backend would have computed.", "quantifier": "every n, block size, mats, state, and every schedule of the sync phase", "why_tests_cant": "All sizes, matrices and schedules.", "anchors": ["qip/distributed/manager.py:WorkerPool.send_kronprod", "qip/distributed/worker/worker.py:WorkerInstance.run"]}
{"id": "C47", "title": "Sync never deadlocks and is schedule independent", "statement": "With all connections registered, the sync phase terminates under every schedule with the same result.", "quantifier": "every number of blocks, every schedule", "why_tests_cant": "All schedules.", "anchors": ["qip/distributed/worker/worker.py:WorkerInstance.run", "qip/distributed/worker/worker.py:WorkerPoolServer"]}
{"id": "C48", "title": "No op is applied before the workers are connected", "statement": "Every sync uses the contributions of all workers of the job, whenever the connections were accepted.", "quantifier": "every interleaving of the accept thread and the operation loop", "why_tests_cant": "A race between the accept thread and the op loop.", "anchors": ["qip/distributed/worker/worker.py:WorkerPoolServer.run", "qip/distributed/worker/worker.py:WorkerInstance.__init__"]}
{"id": "C49", "title": "Distributed measurement equals local measurement", "statement": "send_measure picks outcome m with the Born probability, reports its total probability, and afterwards every worker's slice equals the slice of the collapsed and renormalised global state.", "quantifier": "every n, blocks, indices, state, draws", "why_tests_cant": "All states and draws.", "anchors": ["qip/distributed/manager.py:WorkerPool.send_measure"]}
{"id": "C50", "title": "Distributed top-k aggregation is the sum over workers", "statement": "send_measure_top returns, for the top_k outcomes, the sums of the workers' probabilities in decreasing order, for all worker replies.", "quantifier": "every list of worker replies", "why_tests_cant": "All reply combinations.", "anchors": ["qip/distributed/manager.py:WorkerPool.send_measure_top"]}
{"id": "C51", "title": "A reducing measurement keeps the workers holding the reduced state", "statement": "After send_reduce_measure the pool still contains workers whose ranges tile the reduced matrix and the released workers are exactly the others.", "quantifier": "every n, block size, number of measured qubits", "why_tests_cant": "All sizes.", "anchors": ["qip/distributed/manager.py:WorkerPool.send_reduce_measure"]}
{"id": "C52", "title": "Continued fractions in the Shor example are the convergents", "statement": "gen_continued_fractions(c,q) yields fractions in lowest terms, the last one equal to c/q, consecutive ones satisfying the determinant identity.", "quantifier": "every c,q > 0", "why_tests_cant": "All integer pairs.", "anchors": ["examples/shors.py:gen_continued_fractions", "examples/shors.py:gen_continued_fraction_coefs"]}
{"id": "C53", "title": "Every well-formed op is accepted", "statement": "For every library op (X, Y, Z, H, R, Rm, Swap, and any nesting of C around them) applied to index groups of the right number on distinct qubits, makemats succeeds and kronselect_dot on the full state returns a vector, in both implementations.", "quantifier": "every op nesting, number of qubits, index groups, state, implementation and loop schedule", "why_tests_cant": "Unbounded nesting of controls, group sizes and schedules.", "anchors": ["qip/operators.py:makemats", "qip/operators.py:COp", "qip/util.py:kronselect_dot", "qip/ext/kronprod.pyx:cdot_loop"]}
{"id": "C54", "title": "reduce_measure leaves a normalised state of the remaining qubits", "statement": "After backend.reduce_measure(indices) the backend holds the state of the n-k unmeasured qubits, with total probability 1.", "quantifier": "every n, indices, state, draw", "why_tests_cant": "The property speaks about every state and every list of indices; a test fixes both.", "anchors": ["qip/backend.py:CythonBackend.reduce_measure", "qip/ext/kronprod.pyx:reduce_measure"]}
{"id": "C55", "title": "Integer initial states are accepted", "statement": "make_state (and run with a feed) accepts an integer as the state of a group of qubits and prepares the basis state of that number.", "quantifier": "every n, group of qubits, integer in range", "why_tests_cant": "The property speaks about every integer and every placement of the group; a test fixes both.", "anchors": ["qip/backend.py:StateType", "qip/backend.py:CythonBackend.make_state", "qip/pipeline.py:run"]}
{"id": "C56", "title": "Circuit functions apply their ops in order", "statement": "A function that applies op constructors to its qubits one after the other, storing each op's outputs in place of its inputs, builds a circuit that applies exactly those ops, in that order, to the qubits behind the function's arguments, and leaves all other qubits alone.", "quantifier": "every circuit so far, every list of steps (gates, controlled gates, swaps), every number and width of the arguments", "why_tests_cant": "The property speaks about every program of this form and every circuit it is applied to; a test fixes both.", "anchors": ["qip/qubit_util.py:QubitOpWrapper.__call__", "qip/qubit_util.py:QubitWrapperContext.apply_in_context", "qip/pipeline.py:run"]}
{"id": "C57", "title": "C(f) is the controlled function", "statement": "C applied k times to a circuit function f gives a function of k control qubits and the arguments of f that applies what f applies exactly where all the controls are 1.", "quantifier": "every circuit so far, every list of steps in f, every k", "why_tests_cant": "All functions, numbers of controls and circuits.", "anchors": ["qip/qubit_util.py:QubitFuncWrapper", "qip/qubit_util.py:QubitWrapperContext", "qip/operators.py:C"]}
{"id": "C58", "title": "Controlled functions return their qubits in the order of the arguments", "statement": "The i-th output of a controlled function holds the qubits of its i-th argument.", "quantifier": "every controlled function, every number of controls", "why_tests_cant": "All nestings of C and all functions.", "anchors": ["qip/qubit_util.py:QubitFuncWrapper.__call__", "qip/qubit_util.py:QubitWrapperContext"]}
{"id": "C59", "title": "Ops with parameters can be controlled", "statement": "Rotation gates R(phi, q), Rm(m, q) and functions F(f, a, b) can be controlled with C and used inside controlled functions, like the other gates.", "quantifier": "every op with a parameter, every nesting of controls", "why_tests_cant": "All ops, parameters and nestings.", "anchors": ["qip/qubit_util.py:QubitWrapperContext.put_qubits_in_context_order", "qip/operators.py:C", "qip/operators.py:R", "qip/operators.py:Rm"]}
{"id": "C60", "title": "measure_probabilities on the distributed backend is the marginal distribution", "statement": "A client of the distributed backend that calls measure_probabilities gets an answer under every schedule: the outcomes of the measured qubits with the probabilities of the local backend (all of them by default, the top_k most likely ones otherwise), and the state is not changed.", "quantifier": "all states, numbers of qubits, worker pools, lists of qubits, top_k, later calls, connection capacities and schedules of the processes", "why_tests_cant": "Whether an answer arrives depends on how the state is split and on what each worker reads outside its part; a test sees one pool, one state and one schedule, and a read out of bounds may go unnoticed.", "anchors": ["qip/distributed/backend.py:DistributedBackend.measure_probabilities", "qip/distributed/manager.py:WorkerPool.send_op", "qip/distributed/manager.py:WorkerPool.send_measure_top", "qip/distributed/worker/worker.py:WorkerInstance.run", "qip/ext/kronprod.pyx:measure_top_probabilities"]}
{"id": "C61", "title": "Forced outcomes are used by the distributed backend", "statement": "A client of the distributed backend that calls measure with a forced outcome (and probability) gets that outcome, as with the local backend.", "quantifier": "all states, worker pools, sequences of kronselect_dot and measure calls, forced outcomes and probabilities, random draws and schedules", "why_tests_cant": "Outcomes are random: a test that forces the outcome that was going to be drawn passes, and only all draws together show whether the argument has any effect.", "anchors": ["qip/distributed/backend.py:DistributedBackend.measure", "qip/backend.py:CythonBackend.measure", "qip/distributed/manager.py:WorkerPool.send_measure"]}
{"id": "C62", "title": "print_circuit shows the circuit", "statement": "print_circuit prints, for every op needed for its arguments and in the order in which run executes them, a box with the name of the op on exactly the qubits run applies it to, numbered by their position among the arguments of the op, and the wires of all other qubits; plain qubits and the outputs of split are not shown. All lines have the same length, and the names of the ops and their qubits can be read back from the output.", "quantifier": "all circuits built with the API with split indices in range, all arguments of print_circuit, all numbers of qubits, opwidth of at least 1 and linespacing of at least 0, all iteration orders of sets", "why_tests_cant": "A test compares the output for a few circuits; that the order, the qubits and the alignment are right for every graph, and that two different circuits never print alike, is a statement about all of them.", "anchors": ["qip/pipeline.py:print_circuit", "qip/pipeline.py:PrintFeeder.feed", "qip/pipeline.py:run_graph", "qip/operators.py:MatrixOp", "qip/qip.py:Q.__repr__"]}
{"id": "C63", "title": "make_svg draws the circuit", "statement": "make_svg draws one wire per qubit and, for every op needed for its arguments, in the order of execution from left to right, its symbol on exactly the qubits run applies it to: a dot on each control, crosses for swaps, a circled plus for Not and a box with the name of the op otherwise, with a vertical line behind them that joins the qubits of the op. The drawings of different ops do not overlap, and everything lies inside the view box.", "quantifier": "all circuits built with the API with split indices in range, all arguments of make_svg, all numbers of qubits and names of ops, all iteration orders of sets", "why_tests_cant": "Tests compare a few pictures; that columns never overlap for any sequence of names and that rows, controls and order are right for every graph is a statement about all circuits.", "anchors": ["qip/svgwriter.py:make_svg", "qip/svgwriter.py:SvgFeeder.get_op_string", "qip/svgwriter.py:SvgFeeder.feed", "qip/svgwriter.py:SvgFeeder.get_svg_text", "qip/pipeline.py:run_graph"]}
{"id": "C64", "title": "The swap test compares two states", "statement": "The program of examples/cswap_measure.py - H on a qubit in |0>, C(Swap) of it on two registers of the same size, H on it again, run with states a and b fed to the registers - builds and runs without exception, and the returned state has the amplitudes (a_x b_y + a_y b_x)/2 where the first qubit is 0 and (a_x b_y - a_y b_x)/2 where it is 1. So the first qubit is found in 0 with probability (1 + |<a|b>|^2)/2 for normalized states: 1/2 for orthogonal states and 1 for equal ones. (The comment in the program leaves out the square.)", "quantifier": "all sizes of the registers, all states fed to them, all iteration orders of sets and thread schedules", "why_tests_cant": "A test compares the probability for a few pairs of states of three qubits; the formula is about every pair of states of any size.", "anchors": ["examples/cswap_measure.py:m1", "qip/operators.py:C", "qip/operators.py:Swap", "qip/operators.py:H", "qip/pipeline.py:run"]}
{"id": "C65", "title": "A run can continue where another stopped", "statement": "The state returned by run(...) can be passed as state= to a later run(...) on the same qubits, as examples/grovers_iterative.py does, and the two runs together act like one long circuit: the nodes of the first, then those of the second, on the first initial state.", "quantifier": "all circuits with at least one qubit, all pairs of runs of a session with the same qubits, all feeds, initial states, measurement outcomes, iteration orders and thread schedules", "why_tests_cant": "A test runs one circuit twice; the claim is about every pair of circuits and every intermediate state.", "anchors": ["qip/pipeline.py:run", "examples/grovers_iterative.py"]}
{"id": "C66", "title": "Grover's search prints the marked item", "statement": "The program of examples/grovers_iterative.py - n qubits in the uniform superposition and one in (|0>-|1>)/sqrt 2, the oracle F(x == x0), the diffusion H, F(x == 0), H, both registers measured stochastically, run 2^(n/2) times with the state of each run passed to the next - runs without exception, the reported probabilities of each run are those of Grover's search, and it prints the marked item x0.", "quantifier": "all numbers of qubits, all marked items, all numbers of iterations, all iteration orders of sets and thread schedules", "why_tests_cant": "A test runs one size and one marked item; that the amplitude rotates by the same angle in every iteration is a statement about all sizes and iterations.", "anchors": ["examples/grovers_iterative.py:Uw", "examples/grovers_iterative.py:Us", "qip/pipeline.py:run", "qip/operators.py:F", "qip/operators.py:StochasticMeasure", "qip/ext/kronprod.pyx:measure_probabilities"]}
{"id": "C67", "title": "Shor's program returns two proper factors whose product is N", "statement": "classical(N) of examples/shors.py ends for every composite N that its size check admits and returns two factors of N other than 1 and N whose product is N, whatever numbers are drawn and whatever values are measured.", "quantifier": "all N, all random choices, all sequences of measured values", "why_tests_cant": "A test sees a few draws and measurements; the claim is about every sequence of them.", "anchors": ["examples/shors.py:classical"]}
{"id": "C68", "title": "The period finding returns the order of x", "statement": "quantum(x, N) of examples/shors.py returns the order r of x modulo N when a measured value is the nearest one to a multiple d/r of the size of the Fourier register with d prime to r, and it returns after at most ten runs.", "quantifier": "all N and x, all orders, all sequences of measured values", "why_tests_cant": "That the fraction d/r is among the convergents of every measured value that is near enough is a number theoretic fact about all values.", "anchors": ["examples/shors.py:quantum", "examples/shors.py:gen_continued_fractions"]}
{"id": "C69", "title": "Exceptions leave no control behind", "statement": "After any code that applies ops, controlled ops and controlled functions - nested, raising and catching exceptions in any way - the contexts that control later ops are those that were active before, and outside of controlled functions there are none.", "quantifier": "all sequences and nestings of calls, all inputs, all points where an exception is raised or caught", "why_tests_cant": "An exception can be raised at any call inside any nesting of functions; a test raises at one.", "anchors": ["qip/qubit_util.py:QubitWrapperContext.__exit__", "qip/qubit_util.py:QubitFuncWrapper.__call__", "qip/qubit_util.py:QubitWrapperContext.set_qubits"]}
{"id": "C70", "title": "Measured runs finish and follow the Born rule", "statement": "Running a circuit of library gates, function ops and measurements on normalised registers always returns when the random draws lie in (0, 1]; the returned state is normalised; every measurement, also one that follows other measurements, reports the outcome its draw selects from the probabilities of the state that the preceding ops and outcomes lead to; and every sequence of outcomes of non-zero probability is reached by some draws.", "quantifier": "all circuits, inputs, draws and schedules, any number of measurements at any place in the circuit", "why_tests_cant": "A test samples a few draws of a few circuits; that a run can never end in an exception or a wrong outcome is a statement about all draws and all circuits.", "anchors": ["qip/pipeline.py:run", "qip/qip.py:Measure", "qip/backend.py:CythonBackend.measure", "qip/ext/kronprod.pyx:measure"]}
{"id": "C71", "title": "Shor's circuit measures the distribution of the algorithm", "statement": "make_circuit(m, n, x, N) of examples/shors.py builds a circuit, run(m) of its measurement returns a value below 2^m, and the probability of each value y is that of Shor's algorithm: the sum over z of |1/2^m times the sum of exp(2 pi i j y / 2^m) over the j with x^j mod N = z|^2.", "quantifier": "all register sizes, all x and N that fit into the second register, all draws, schedules and set orders", "why_tests_cant": "The value of a run is random and the probabilities are sums of 2^m complex numbers; a test samples a few runs of one circuit.", "anchors": ["examples/shors.py:make_circuit", "examples/shors.py:quantum", "qip/qfft.py:QFFT", "qip/pipeline.py:run", "qip/qip.py:Measure"]}
{"id": "C72", "title": "Shor's circuit finds a multiple of the inverse period often enough", "statement": "A value nearest to a multiple d of 2^m / r, r being the order of x modulo N, is measured with probability at least 1/(4r), so that a run of quantum(x, N) finds a fraction d/r in lowest terms, and returns r, with probability at least phi(r)/(4r).", "quantifier": "all N, x and orders r, all register sizes of at least 11 r values, all d", "why_tests_cant": "The probabilities are sums over all exponents; a test can neither enumerate the moduli nor estimate rare values.", "anchors": ["examples/shors.py:make_circuit", "examples/shors.py:quantum", "examples/shors.py:gen_continued_fractions"]}
{"id": "C73", "title": "reduce_measure on distributed workers agrees with the local backend", "statement": "reduce_measure of a distributed client returns the drawn outcome with its probability, the state is then that of the local backend after reduce_measure with this outcome, and the client can go on with further operations.", "quantifier": "all numbers of qubits, block sizes, pools, states, measured qubits, draws, schedules of the processes and capacities of the connections", "why_tests_cant": "Whether the workers answer depends on the measured qubits, the outcome and the way the state is split; a deadlock shows only as a test that never ends.", "anchors": ["qip/distributed/backend.py:reduce_measure", "qip/distributed/manager.py:send_reduce_measure", "qip/distributed/worker/worker.py:WorkerPoolServer.send_state_up_to", "qip/ext/kronprod.pyx:reduce_measure"]}
{"id": "C74", "title": "A distributed client offers the operations of the local backend", "statement": "Every operation of the local backend (kronselect_dot, func_apply, measure, reduce_measure, soft_measure, measure_probabilities) can be called on a distributed client as well and has the same effect.", "quantifier": "all client programs, states, registers, functions, measured qubits and draws", "why_tests_cant": "That a call has no effect on the workers, whatever the rest of the program is, is a statement about all programs.", "anchors": ["qip/distributed/backend.py:DistributedBackend", "qip/backend.py:CythonBackend"]}
{"id": "C75", "title": "The workers of a job find each other", "statement": "When the workers of a job have been set up and all connections have been accepted, every worker has one connection to each worker it exchanges state with and to no others, filed under the other worker's ranges at both ends of the same connection; a connection is never used for two jobs.", "quantifier": "all pools, all orders in which the workers of any number of jobs connect, accept, register and close", "why_tests_cant": "The order of connections, acceptances and closings of many jobs is up to the scheduler and the network; tests see a few of them.", "anchors": ["qip/distributed/worker/worker.py:WorkerInstance.__init__", "qip/distributed/worker/worker.py:WorkerPoolServer.run", "qip/distributed/worker/worker.py:WorkerPoolServer.make_connection"]}
{"id": "C76", "title": "Operations can be sent as soon as a job has been set up", "statement": "An operation a client sends right after the setup of its job comes to an end, whatever connections between the workers have been accepted by then.", "quantifier": "all pools, operations, schedules, and sets of connections accepted so far", "why_tests_cant": "Whether a connection is accepted before the first operation arrives is a race; that no schedule whatsoever ends the operation cannot be observed.", "anchors": ["qip/distributed/worker/worker.py:WorkerPoolServer.run", "qip/distributed/worker/worker.py:WorkerInstance.run", "qip/distributed/manager.py:WorkerPool.send_kronprod"]}
{"id": "C77", "title": "Closing a job closes its connections and no others", "statement": "After a worker has closed a job it keeps no connection for the job, and the connections of other jobs are as before.", "quantifier": "all histories of connections, acceptances and closings, all later events", "why_tests_cant": "That nothing is kept in any later state, for every order of events, is a statement about all histories.", "anchors": ["qip/distributed/worker/worker.py:WorkerPoolServer.close_connections", "qip/distributed/worker/worker.py:WorkerInstance.run"]}
{"id": "C78", "title": "Calls the backend rejects raise in the client", "statement": "When the local backend raises an exception for a kronselect_dot call (or for measure_probabilities with a negative top_k), the same call on the distributed backend raises an exception in the client too: it is answered or fails, and does not wait for ever.", "quantifier": "all pools of workers, states, rejected calls, earlier and later calls, and all orders of events", "why_tests_cant": "Never being answered is a statement about every schedule of the manager and the workers.", "anchors": ["qip/distributed/worker/worker.py:WorkerInstance.run", "qip/distributed/manager.py:Manager.run", "qip/distributed/backend.py:DistributedBackend.kronselect_dot", "qip/util.py:kronselect_dot"]}
{"id": "C79", "title": "Lost workers are not used again", "statement": "When a job fails because one of its workers is lost, a client that starts a new job does not get the lost worker again if there are enough other workers.", "quantifier": "all sets of free workers, all job sizes, all states of the other jobs", "why_tests_cant": "Which workers are drawn depends on the order of the free list, which depends on the whole history; the statement is about every such list.", "anchors": ["qip/distributed/manager.py:WorkerPool.draw_workers", "qip/distributed/manager.py:WorkerPool.close", "qip/distributed/manager.py:Manager.serve_client"]}
{"id": "C80", "title": "Every host that introduces itself to the manager is served", "statement": "A worker or client that connects to the manager and introduces itself is served, once, in the order of the connections, whatever the other hosts that connect do.", "quantifier": "all histories of connections, introductions, disconnections and steps of the accepting thread", "why_tests_cant": "The order of connections and messages of many hosts is arbitrary; not being served is a statement about all later events.", "anchors": ["qip/distributed/manager.py:ManagerServer.run", "qip/distributed/manager.py:handle"]}
{"id": "C81", "title": "The Fourier example reports the power spectrum", "statement": "examples/qfft_example.py reports, for every number of qubits and every state fed to it, the probabilities |psi_x|^2 at the position x before the transform and the power spectrum of the state at the position of each frequency after it.", "quantifier": "all numbers of qubits, all fed states, all schedules of the parallel loops and all set orders", "why_tests_cant": "a list of probabilities with two entries exchanged still sums to 1 and looks like a spectrum; the positions depend on all bits of the index", "anchors": ["examples/qfft_example.py", "qip/qfft.py:QFFT", "qip/qip.py:StochasticMeasure", "qip/ext/kronprod.pyx:measure_probabilities"]}
{"id": "C82", "title": "A register is not affected by what happens to other qubits", "statement": "As long as no op or function of a circuit changes a qubit of a register and nothing is measured, the probabilities of the register are those of the initial state: this is what Measure and StochasticMeasure of it report and what the returned state gives. Controls of C(op), the first register of F(f) and qubits under Z and R count as unchanged. Measuring other qubits changes the probabilities of the register only through the outcome: averaged over the outcomes they stay the same.", "quantifier": "all circuits of exact gates and of functions with register sizes the code supports, all registers, all points of the run, all initial states, schedules and set orders; all states and all measured qubits for the average", "why_tests_cant": "an index computed wrongly moves amplitudes of a few basis states between values of a register the op has nothing to do with; the registers, their positions and the states are unbounded families", "anchors": ["qip/qip.py:run", "qip/operators.py:MatrixOp.feed_indices", "qip/operators.py:FOp.feed_indices", "qip/ext/kronprod.pyx:cdot_loop", "qip/ext/func_apply.pyx:func_apply", "qip/ext/kronprod.pyx:measure_probabilities"]}
{"id": "C83", "title": "Measurements commute with operations that do not change the measured qubits and with each other", "statement": "Applying an op or a function before or after measuring qubits it does not change gives, for the same draw, the same outcome, the same probability (or the same exception) and the same final state; in particular control qubits may be measured before or after the controlled op. Two measurements with given outcomes lead to the same state in either order and the product of their probabilities is the probability of both outcomes.", "quantifier": "all states, ops and groups, functions, lists of measured qubits, draws, previous contents of the accumulators and schedules of the parallel loops", "why_tests_cant": "needs two executions of the program to be compared on every state and draw; the scaling after a measurement differs between the orders", "anchors": ["qip/backend.py:CythonBackend.measure", "qip/backend.py:CythonBackend.kronselect_dot", "qip/backend.py:CythonBackend.func_apply", "qip/ext/kronprod.pyx:measure", "qip/ext/kronprod.pyx:soft_measure"]}
{"id": "C84", "title": "Jobs are independent of how earlier jobs ended", "statement": "Every confirmation the manager of the distributed backend uses while it serves a job is the answer of that worker to an operation of that job. In particular a job that is served by workers of an earlier job has the results it would have on newly connected workers, however the earlier job ended.", "quantifier": "every job of kronprods and measurements, every pool, state and draw, every worker lost at the first operation of the earlier job, every position of that worker in the pool, every interleaving of the manager and the workers", "why_tests_cant": "Which confirmations are left unread depends on which worker is lost, on the position of the others in the pool and on the interleaving; the effect shows only in a later job that happens to be given one of these workers.", "anchors": ["qip/distributed/manager.py:WorkerPool.receive_from_each_of", "qip/distributed/manager.py:Manager.serve_client", "qip/distributed/manager.py:WorkerPool.close", "qip/distributed/worker/worker.py:WorkerRunner.run", "qip/distributed/formatsock.py:FormatSocket.recv"]}
{"id": "C85", "title": "Stopping the manager disconnects its workers", "statement": "When the manager is stopped, the connection to every worker that has registered is closed, whatever jobs are running.", "quantifier": "all histories of registrations, client threads and calls of stop, with all interleavings of the client threads with the shutdown and all failures to send", "why_tests_cant": "the outcome depends on where each client thread is when the shutdown takes its locks and on which workers have been lost; a test sees one interleaving", "anchors": ["qip/distributed/manager.py:Manager.close", "qip/distributed/manager.py:ManagerServer.stop", "qip/distributed/manager.py:Manager.serve_client", "qip/distributed/manager.py:Manager.make_state"]}
{"id": "C86", "title": "Stopping the server ends its accepting loop", "statement": "run() accepts hosts until ManagerServer.stop() is called; after that it returns and no further host is served.", "quantifier": "all histories of connections, introductions, disconnections and steps of the accepting thread before and after the stop", "why_tests_cant": "whether the loop ends depends on where the accepting thread is when the flag is cleared and on the hosts that connect later, over unbounded histories", "anchors": ["qip/distributed/manager.py:ManagerServer.run", "qip/distributed/manager.py:ManagerServer.stop", "qip/distributed/manager.py:handle"]}
{"id": "C87", "title": "A feed that does not fit the circuit is rejected", "statement": "run raises when a list of amplitudes, fed or given as the default of a qubit, does not have one entry per basis state of its qubits, and when a qubit is fed twice (alone and as part of a group, or in two groups); it never starts from a state that is not the product of the states that were fed.", "quantifier": "every circuit, feed dictionary, default, enumeration order of sets", "why_tests_cant": "Lists of every length and every way in which groups of qubits can overlap.", "anchors": ["qip/pipeline.py:run", "qip/backend.py:CythonBackend.make_state", "qip/util.py:gen_edit_indices", "qip/qip.py:Qubit"]}
{"id": "C88", "title": "The kernels keep their meaning for every number of qubits that fits in memory", "statement": "Applying a dictionary of matrices, applying a function to registers, and measuring give the results of C01, C27 and C18-C25 for every number of qubits, every slice offset, every matrix size and every integer value of the function, as long as the arrays can be allocated: the width of C's int is never visible.", "quantifier": "all dictionaries, states, slices, offsets, index lists, functions and schedules of the parallel loops, all numbers of qubits", "why_tests_cant": "A state on which the width of an int shows has 2^31 amplitudes (32 GB) and no unit test allocates it; below that size, that no intermediate value of any kernel overflows is a statement about all inputs.", "anchors": ["qip/ext/kronprod.pyx:cdot_loop", "qip/ext/kronprod.pyx:calc_mat_entry", "qip/ext/kronprod.pyx:measure", "qip/ext/kronprod.pyx:reduce_measure", "qip/ext/kronprod.pyx:soft_measure", "qip/ext/func_apply.pyx:func_apply", "qip/ext/util.pyx:entwine_bit"]}
{"id": "C89", "title": "Rounding errors stay small", "statement": "A sequence of operations computed with floating point numbers, in any order of summation the compiler chooses and from matrices stored with rounded entries, gives a state whose distance to the exact one grows by at most an explicit factor per operation (below 1 + 2^-45 on doubles, for one gate on at most two qubits), whatever the circuit, the number of its operations and the state; the probabilities reported for it differ from the exact ones by an explicit bound. Without rounding the computed state is the exact one.", "quantifier": "all numbers of qubits, all sequences of dictionaries of unitary matrices and library ops, all normalised states, all roundings with a given relative error, all orders and groupings of the sums", "why_tests_cant": "The error of a run depends on the values, on the length of the circuit and on how the compiler orders the sums; a test compares one result of one build with a tolerance chosen by hand.", "anchors": ["qip/ext/kronprod.pyx:cdot_loop", "qip/ext/kronprod.pyx:measure_probabilities", "qip/util.py:kronselect_dot", "setup.py"]}
{"id": "C90", "title": "gen_qubit_prints lists the state", "statement": "For every state and every division of its qubits into registers, gen_qubit_prints yields exactly one line for every basis state with a non-zero amplitude, in increasing order, and the line shows the values of the registers in this basis state (the first register being the most significant) and its amplitude.", "quantifier": "all states, all lists of register sizes that add up to the number of qubits (including empty registers)", "why_tests_cant": "The lines depend on the state and on how it is divided; a test shows a few states.", "anchors": ["qip/util.py:gen_qubit_prints", "qip/util.py:qubit_index_notation"]}
{"id": "C91", "title": "One connection can be used by several threads", "statement": "When several threads send over the same connection and several threads receive at the other end, every message arrives whole, is received exactly once by one of the calls, and the messages of each sender arrive in the order in which it sent them, whatever the schedule and the sizes of the pieces in which the bytes are written and read; no thread waits forever for another one; closing the connection does not cut a message that is being sent; a call of recv that runs into a timeout can be repeated.", "quantifier": "all numbers of threads and messages, all schedules of their steps, all divisions of the bytes into pieces, all moments of closing", "why_tests_cant": "Interleaved messages appear only under particular schedules of the threads and particular sizes of the pieces; tests run a few.", "anchors": ["qip/distributed/formatsock.py:FormatSocket.send", "qip/distributed/formatsock.py:FormatSocket.recv", "qip/distributed/formatsock.py:FormatSocket.close", "qip/distributed/formatsock.py:FormatSocket.settimeout"]}
{"id": "C92", "title": "Measurements with rounding follow the Born rule", "statement": "A measurement computed with floating point numbers, in any order of summation the compiler chooses, reports one of the possible register values, with a probability that is off by an explicit bound; the draws that lead to an outcome are those the Born rule assigns to it up to an explicit error (2^n / 2^47 on doubles, for up to 40 qubits), so a draw further from the ends gives the outcome of exact arithmetic; the state after it is the collapsed exact state, up to twice the relative error of the state before plus an explicit bound. An outcome the state rules out is never reported.", "quantifier": "all numbers of qubits, all lists of measured qubits, all states, all draws in [0, 1], all roundings with a given relative error, all orders and groupings of the sums", "why_tests_cant": "The errors depend on the state, the order of the sums and the draw; draws next to the end of an interval have a probability around 2^-53 and no test draws them.", "anchors": ["qip/ext/kronprod.pyx:soft_measure", "qip/ext/kronprod.pyx:measure", "qip/ext/kronprod.pyx:prob_magnitude", "setup.py"]}
{"id": "C93", "title": "Whole runs with rounding", "statement": "A run from fed registers through gates, functions, measurements and probability reports ends, given the outcomes that were measured, in a state within an explicit distance of the state exact arithmetic gives for these outcomes: the errors of the fed amplitudes and of multiplying them, plus one error per gate and per measurement (on doubles 2^-45 per gate on at most two qubits, 2^n / 2^47 per measurement, and the distance so far doubled and divided by the square root of the outcome's probability). It holds as long as each measured outcome has in the exact state at least 8 times the probability of the distance reached so far. The next outcome is the one the Born rule of the exact state gives for the draw, unless the draw is within an explicit distance of the end of its interval, and its reported probability is as close.", "quantifier": "every number of qubits, feed, sequence of operations, draws, schedules and every way in which the operations round", "why_tests_cant": "errors of a run add up over arbitrarily many operations and depend on how every single operation rounds; a test compares one run on one machine with a tolerance", "anchors": ["qip/backend.py:make_state", "qip/pipeline.py:run", "qip/ext/kronprod.pyx:cdot_loop", "qip/ext/kronprod.pyx:measure", "qip/ext/kronprod.pyx:soft_measure"]}
{"id": "C94", "title": "Contexts hold what the arguments of QubitWrapperContext say", "statement": "QubitWrapperContext(...) takes a series of doubles (constructor, qubits) and triples (constructor, qubits, positions). For every such series the context applies exactly those constructors, in that order, to those qubits at those positions, with positions 0, 1, ..., n-1 when they are left out. Arguments that are no such series are rejected with TypeError, and contexts whose numbers of qubits and positions differ do not build a circuit silently.", "quantifier": "every list of arguments: constructors and sequences in any order and number, with sequences of any length", "why_tests_cant": "the argument list is unbounded and its grouping depends on every neighbour; wrong groupings that are accepted build a different circuit without any error", "anchors": ["qip/qubit_util.py: QubitWrapperContext.__init__, add_context, set_qubits"]}
{"id": "C95", "title": "A context object can be entered again", "statement": "A QubitWrapperContext object may be kept and entered by several with statements. Leaving an object and entering it again is the same as staying inside: the ops of the second block continue with the control qubits as the first block left them, for every program in the blocks, including blocks which raise and blocks which enter other contexts. Programs that make their contexts in the with statement behave the same whether contexts are shared objects or values. Entering an object twice at once and adding a context to an active object do not damage later contexts.", "quantifier": "every program built from op calls, C(...), function wrapper calls, with statements on new and old context objects, and try/except, from every state", "why_tests_cant": "the context stack is global mutable state and the objects are aliased; a test sees one program and one nesting", "anchors": ["qip/qubit_util.py: QubitWrapperContext.__enter__, __exit__, set_qubits, add_context, QubitFuncWrapper.__call__"]}
{"id": "C96", "title": "The order in which independent objects are created does not matter", "statement": "Two programs that make the same calls on corresponding objects, in different orders, and that create their qubits in the same order, get the same result from the same initial amplitudes: the same final state, the same probabilities from every StochasticMeasure, and with measurements the same state and the same joint probability for the same outcomes.", "quantifier": "every circuit of qubits, splits, gates, functions and measurements, every order of the calls that respects the inputs, every history of earlier runs, every initial state, every enumeration of sets, thread schedule and draw of both runs", "why_tests_cant": "the number of orders grows exponentially with the circuit; a test compares two orders of one circuit on one state", "anchors": ["qip/pipeline.py: run, run_graph, get_deps, feed_forward", "qip/qip.py: Qubit.__init__, QID counter, __lt__"]}
{"id": "C97", "title": "A circuit run on a manager's workers gives what a local run gives", "statement": "Passing backend_constructor=DistributedBackend.make_state to run only changes where the amplitudes are held: for every circuit the run sends the start state and the operations of the circuit, the workers carry them out, and run returns the measurement outcomes and probabilities that a local run returns for some draws of its random numbers, while the workers hold the local run's final state.", "quantifier": "every circuit, feed or state and history of earlier runs; every pool of workers that suffices; every interleaving of manager, workers and messages; every draw of the manager and the workers", "why_tests_cant": "a test runs a few circuits on one machine with one interleaving and one sequence of draws; agreement must hold for every circuit, pool, interleaving and draw", "anchors": ["qip/pipeline.py: run, run_graph, NodeFeeder", "qip/distributed/backend.py: DistributedBackend.make_state, kronselect_dot, measure, measure_probabilities", "qip/distributed/conversion.py", "qip/distributed/manager.py: ServerBackend", "qip/distributed/worker/worker.py: WorkerInstance"]}
{"id": "C98", "title": "Circuits may be built in several threads", "statement": "Threads that create qubits and ops at the same time do not disturb each other: each construction gives an object of its own as if the constructions had been made one after the other, every qubit gets an id no other object has, a qubit that has been used cannot be used again for another Qubit, and running a circuit built this way does not depend on how the threads were scheduled.", "quantifier": "every set of threads, sequence of constructions in each, objects that exist before, and interleaving of the threads' accesses to shared attributes", "why_tests_cant": "a test exercises a handful of the interleavings, and the harmful ones are rare; the guarantee is about all of them", "anchors": ["qip/qip.py: Qubit.__init__, Qubit.QID, Qubit.set_sink", "qip/pipeline.py: run (order of the qubits by id)"]}
{"id": "C99", "title": "A connection can be replaced", "statement": "After FormatSocket.closeswapsock the object receives exactly the messages of the new connection, whatever had arrived over the old one; rawrecv returns the next bytes of the stream, and rawsend sends all the bytes it is given.", "quantifier": "every sequence of connections, messages on each, segmentation by TCP, number of messages received before the replacement, and number of bytes the operating system accepts", "why_tests_cant": "tests run over a local connection where the bytes of one message arrive alone; what goes wrong depends on which bytes arrive together", "anchors": ["qip/distributed/formatsock.py: FormatSocket.closeswapsock, recv, rawrecv, rawsend"]}
{"id": "C100", "title": "Circuits may be run by several threads at the same time", "statement": "When several threads call run at the same time on circuits that share ops, every call returns what it would return if it were the only one, and leaves the ops usable for later runs.", "quantifier": "all circuits, feeds and arguments, all numbers of threads, all interleavings of their accesses to the ops' cached matrices, all contents the caches may have before", "why_tests_cant": "whether a run sees a half-prepared cache depends on when threads are switched, between any two attribute accesses, over all schedules", "anchors": ["qip/operators.py: MatrixOp.feed_indices", "qip/pipeline.py: run, run_graph, NodeFeeder"]}
{"id": "C101", "title": "Jobs of different clients do not influence each other", "statement": "When several clients use the workers of one manager, at the same time or one after another, every client gets the results it would get if it were the only one; workers serve one job after another, no job waits forever for another, and when all clients are done all workers are free and wait for the next job. A worker that is told to shut down ends regularly.", "quantifier": "all numbers of clients and jobs, all assignments of worker processes to jobs, all interleavings of the clients' threads and the workers, all capacities of the connections", "why_tests_cant": "whether a message of one job can be read by the next on the same connection, or a setup wait behind another job, depends on the schedule of all threads and processes", "anchors": ["qip/distributed/manager.py: Manager.serve_client, Manager.make_state", "qip/distributed/manager.py: WorkerPool.allocate_workers", "qip/distributed/worker/worker.py: WorkerRunner.run, WorkerInstance.run"]}
{"id": "C102", "title": "Contexts of one thread do not concern the others", "statement": "Several threads build circuits and use QubitWrapperContext, or functions wrapped with C, at the same time. Each op call is controlled by the contexts of its own thread and by no others, whatever the schedule; leaving a block restores the state of before; and calls and functions without contexts work as if nobody used any.", "quantifier": "every number of threads, every program of op calls, with statements and function calls (with exceptions handled or not) in each thread, every interleaving of the reads and writes of the shared context state", "why_tests_cant": "The context stack and the counter are class attributes; the number of interleavings is unbounded, and each error needs one particular schedule.", "anchors": ["qip/qubit_util.py:QubitWrapperContext.apply_to_qubits_in_context", "qip/qubit_util.py:QubitWrapperContext.__enter__", "qip/qubit_util.py:QubitWrapperContext.__exit__", "qip/qubit_util.py:QubitWrapperContext.set_qubits"]}
{"id": "C103", "title": "The text of make_svg is a drawing that can be read", "statement": "The string make_svg returns, or writes to its file, is a well-formed XML document: every element is closed, attributes are quoted and occur once, and every coordinate is a decimal number, whether Python computed it as an int or as a float. Read as svg, it shows exactly the drawing of C63: the wires, and on top of them the symbols of the ops in the order of execution, each on the qubits run applies it to, inside the stated view box, whose size is determined by the number of qubits and the lengths of the names of the ops.", "quantifier": "all circuits built with the API with split indices in range, all arguments of make_svg, all numbers of qubits, all names of ops without < and &, all iteration orders of sets, up to pictures of 2^51 pixels", "why_tests_cant": "Tests compare the text with stored examples; that the text can be read for every circuit, with numbers that are sometimes ints and sometimes floats, and means the right picture is a statement about all circuits.", "anchors": ["qip/svgwriter.py:make_svg", "qip/svgwriter.py:SvgFeeder.get_op_string", "qip/svgwriter.py:SvgFeeder.feed", "qip/svgwriter.py:SvgFeeder.build", "qip/svgwriter.py:SvgFeeder.get_svg_text"]}
{"id": "C104", "title": "Running a circuit with another type of amplitudes", "statement": "The argument statetype of run, documented as the type of the state data, may be any complex numpy type. With the default complex128 run is unchanged. With another type the circuit is run with amplitudes of that type, or run raises an exception; it never returns amplitudes computed otherwise, and a run that failed does not change later runs of the circuit.", "quantifier": "all circuits built with the API whose ops fit their qubits, all feeds and states, all types given by what they keep of a stored value, all iteration orders of sets and loop schedules, all histories of earlier runs at the same positions", "why_tests_cant": "No test passes statetype. Whether any circuit can be run with another type is a statement about all circuits, feeds and types.", "anchors": ["qip/pipeline.py:run", "qip/backend.py:CythonBackend.make_state", "qip/backend.py:CythonBackend.kronselect_dot", "qip/ext/kronprod.pyx:cdot_loop", "qip/ext/kronprod.pyx:measure", "qip/ext/func_apply.pyx:func_apply"]}
{"id": "C105", "title": "The context example applies its function under the control qubit", "statement": "examples/context_example.py wraps a function that applies H to a and then C(Not) to a and b, and calls C of it on c, a, b. Building the circuit succeeds, no context is left open, and running the three outputs on any eight amplitudes returns those amplitudes where c is 0 and, where c is 1, the amplitudes after the Hadamard on a followed by Not of b where a is 1.", "quantifier": "every list of eight complex amplitudes, every value used for 1/sqrt(2), every schedule of the parallel loops and every enumeration order", "why_tests_cant": "The example only draws its circuit. Running it on some states cannot show that the function acts under the control for all amplitudes and schedules.", "anchors": ["examples/context_example.py", "qip/qubit_util.py:QubitFuncWrapper", "qip/operators.py:C"]}
{"id": "C106", "title": "The distributed backend rejects the initial states the local backend rejects", "statement": "When the initial states given for the qubits are ones for which make_state of the local backend raises an exception (an integer, an array with too few amplitudes, indices out of range), make_state of the distributed backend raises too; it does not return a state on which every later operation waits for ever.", "quantifier": "all numbers of qubits, all lists of index groups and initial states of equal length, all pools of workers, all capacities of connections, all orders of events, and every first call of the client", "why_tests_cant": "It is about all initial states that are rejected and all interleavings of manager and workers; a test with a timeout cannot tell waiting for ever from a slow answer, and it tries a few wrong states only.", "anchors": ["qip/distributed/backend.py: DistributedBackend.make_state", "qip/distributed/manager.py: ManagerServer.serve_client, make_state", "qip/distributed/worker/worker.py: WorkerInstance.__init__, WorkerRunner.run, get_state_value", "qip/backend.py: CythonBackend.make_state"]}
{"id": "C107", "title": "The order of registers with given ids", "statement": "Registers created with Qubit(n=..., qid=...) and Qubit(n=...) keep their widths and ids, and the state run returns for them is determined by the program: the registers come in increasing order of their ids, whatever the order of creation, of the feed or of the elements of a set. A register cannot be used twice by giving ids.", "quantifier": "every list of registers with or without a given id, every set of registers that is run, every feed of them, every enumeration order of sets", "why_tests_cant": "Ties between ids are resolved by the iteration order of a set of objects, which depends on memory addresses; a test sees one order.", "anchors": ["qip/qip.py:Qubit.__init__", "qip/qip.py:Qubit.set_sink", "qip/pipeline.py:run", "qip/pipeline.py:get_deps"]}
{"id": "C108", "title": "Connecting to the manager", "statement": "A client or worker that connects to the manager and the manager agree on whether the connection is encrypted; every message after the greeting arrives as it was sent, and the manager reads the introduction of the host as it was sent. A connection that is closed before the greeting is noticed.", "quantifier": "every way in which the network cuts the bytes into pieces, every list of messages, managers with and without TLS", "why_tests_cant": "The greeting is one unframed byte in front of framed messages; whether bytes get lost depends on how the stream is cut, of which there are unboundedly many ways.", "anchors": ["qip/distributed/manager.py:ManagerServer.run", "qip/distributed/backend.py:DistributedBackend.__init__", "qip/distributed/worker/worker.py:WorkerRunner.__init__", "qip/distributed/formatsock.py:FormatSocket"]}
{"id": "C109", "title": "Workers find each other", "statement": "The address and port that the manager gives to the workers of a job for a partner lead each of them to that partner, on whatever hosts the workers run.", "quantifier": "every set of workers on every set of hosts, every address they were started with, every name service", "why_tests_cant": "A test runs all workers on one machine, where the default address happens to be right; whether it leads to the right worker depends on the hosts and on which ports are in use on each of them.", "anchors": ["qip/distributed/worker/worker.py:WorkerPoolServer.__init__", "qip/distributed/worker/worker.py:WorkerRunner.__init__", "qip/distributed/worker/worker.py:make_connection", "qip/distributed/manager.py:allocate_workers", "qip/distributed/manager.py:ManagerServer.run"]}
