{
 "claims": [
  {
   "property": "C01",
   "status": "proved",
   "theorems": [
    "C01_kron_action"
   ],
   "note": "Both implementations, all offsets, overlapping groups and nested CMat/SwapMat, every prange schedule; when the call returns is C04."
  },
  {
   "property": "C02",
   "status": "partial",
   "theorems": [
    "C02_cython_refines_python",
    "C02_agree_partial",
    "C02_agree_refuted"
   ],
   "note": "Proved for every dictionary with equally long index groups (all that the ops build); refuted for ragged or empty dictionaries, where cdot_loop raises ValueError and dot_loop returns."
  },
  {
   "property": "C03",
   "status": "proved",
   "theorems": [
    "C03_output_slice",
    "C03_input_slices"
   ],
   "note": "Any output slice; any partition of the input into consecutive slices."
  },
  {
   "property": "C04",
   "status": "partial",
   "theorems": [
    "C04_accept_python",
    "C04_accept_cython_partial",
    "C04_exceptions",
    "C04_accept_refuted"
   ],
   "note": "Exact acceptance condition proved for both implementations; the English claim holds for the Python one and is refuted for the Cython one (ragged/empty dictionaries are rejected too)."
  },
  {
   "property": "C05",
   "status": "partial",
   "theorems": [
    "C05_expand_partial",
    "C05_expand_refuted"
   ],
   "note": "The returned matrix is proved to be the transpose; the claim itself is refuted (Y gate)."
  },
  {
   "property": "C06",
   "status": "proved",
   "theorems": [
    "C06_unitary_inner",
    "C06_unitary_norm",
    "C06_ops_inner",
    "C06_ops_norm",
    "C06_scalars"
   ],
   "note": "Inner products and norms, for any unitary matrices on disjoint groups and for every library op; scalars checked over the reals."
  },
  {
   "property": "C07",
   "status": "partial",
   "theorems": [
    "C07_compose",
    "C07_adjoint_undoes",
    "C07_dagger_partial",
    "C07_dagger_defined",
    "C07_dagger_refuted"
   ],
   "note": "Composition and adjoints proved in general. dagger: proved for every op without a Swap; Swap.dagger raises AttributeError (C07_dagger_refuted)."
  },
  {
   "property": "C08",
   "status": "proved",
   "theorems": [
    "C08_commute",
    "C08_merge"
   ],
   "note": ""
  },
  {
   "property": "C09",
   "status": "proved",
   "theorems": [
    "C09_group_order",
    "C09_index_order"
   ],
   "note": ""
  },
  {
   "property": "C10",
   "status": "proved",
   "theorems": [
    "C10_controlled"
   ],
   "note": ""
  },
  {
   "property": "C11",
   "status": "proved",
   "theorems": [
    "C11_swap",
    "C11_swapped_unique",
    "C11_swap_twice"
   ],
   "note": ""
  },
  {
   "property": "C12",
   "status": "proved",
   "theorems": [
    "C12_gates",
    "C12_H",
    "C12_R_phase",
    "C12_Rm_phase",
    "C12_unitary",
    "C12_involutions",
    "C12_R_inverse"
   ],
   "note": "Scalars h, e are ring elements with 2h^2=1, |e|=1; discharged over R for H, R, Rm."
  },
  {
   "property": "C13",
   "status": "proved",
   "theorems": [
    "C13_uint_roundtrip",
    "C13_bitarray_roundtrip",
    "C13_uint_to_bitarray_qubits",
    "C13_qubit_index_notation",
    "C13_get_bit",
    "C13_set_bit"
   ],
   "note": "All integers, bit lists and register size lists."
  },
  {
   "property": "C14",
   "status": "proved",
   "theorems": [
    "C14_entwine_bits",
    "C14_entwine_range",
    "C14_entwine_bijective"
   ],
   "note": "Bit-level description, range and bijectivity of entwine_bit."
  },
  {
   "property": "C15",
   "status": "proved",
   "theorems": [
    "C15_product",
    "C15_nothing_fed"
   ],
   "note": ""
  },
  {
   "property": "C16",
   "status": "partial",
   "theorems": [
    "C16_slice_partial",
    "C16_empty_refuted"
   ],
   "note": "Proved for a non-empty feed. For an empty feed the slice is wrong unless it starts at 0 (C16_empty_refuted): every worker's slice gets a 1."
  },
  {
   "property": "C17",
   "status": "proved",
   "theorems": [
    "C17_total"
   ],
   "note": ""
  },
  {
   "property": "C18",
   "status": "proved",
   "theorems": [
    "C18_marginal",
    "C18_distribution"
   ],
   "note": "Marginal over the register whose bit j is indices[j] (rev indices, first qubit most significant); entries non-negative and adding up to the total."
  },
  {
   "property": "C19",
   "status": "partial",
   "theorems": [
    "C19_numbering_refuted",
    "C19_renumbered",
    "C19_decreasing_partial"
   ],
   "note": "Refuted in general: measure_probabilities numbers outcomes by the order of indices, the other calls by increasing qubit. C19_renumbered relates the two numberings for every state; they coincide when indices are listed in decreasing order."
  },
  {
   "property": "C20",
   "status": "partial",
   "theorems": [
    "C20_born_partial",
    "C20_exists_partial",
    "C20_draws",
    "C20_uninitialised_refuted"
   ],
   "note": "Proved for every slice, state and draw in the half-open range, with the accumulator of prob_magnitude starting at 0; the code leaves it uninitialised and C20_uninitialised_refuted shows another content changes the outcome."
  },
  {
   "property": "C21",
   "status": "proved",
   "theorems": [
    "C21_collapse",
    "C21_normalised",
    "C21_succeeds",
    "C21_real_scale"
   ],
   "note": "The square root is an argument with rsqrt p * rsqrt p * p = 1; C21_real_scale shows 1/sqrt p meets this over the reals. C21_succeeds and the second measurement of C21_normalised take the accumulator of prob_magnitude to start at 0."
  },
  {
   "property": "C22",
   "status": "partial",
   "theorems": [
    "C22_zero_draw_refuted",
    "C22_possible_partial"
   ],
   "note": "Refuted for the draw 0.0 (outcome 0 is reported whatever its probability and measure divides by zero); proved for every other draw, with the accumulator of prob_magnitude starting at 0."
  },
  {
   "property": "C23",
   "status": "proved",
   "theorems": [
    "C23_rejected",
    "C23_used"
   ],
   "note": "Iff for both calls on a full backend; forced values are used as given."
  },
  {
   "property": "C24",
   "status": "partial",
   "theorems": [
    "C24_reduce_partial",
    "C24_succeeds",
    "C24_slice_refuted"
   ],
   "note": "Proved for the whole input vector and any output slice; C24_slice_refuted: with an input slice the code reads outside the vector (its bound test n_indices + vec_row < vec_row is never true)."
  },
  {
   "property": "C25",
   "status": "partial",
   "theorems": [
    "C25_out_of_bounds_refuted",
    "C25_top_partial"
   ],
   "note": "Refuted for every 1 <= top_k < 2^k (writes past the heap); proved when top_k >= 2^k."
  },
  {
   "property": "C26",
   "status": "partial",
   "theorems": [
    "C26_total_partial",
    "C26_uninitialised_refuted"
   ],
   "note": "Proved when the uninitialised accumulator happens to be 0, refuted for every other content."
  },
  {
   "property": "C27",
   "status": "partial",
   "theorems": [
    "C27_fxor",
    "C27_involution",
    "C27_action_partial",
    "C27_all_qubits_partial",
    "C27_few_partial",
    "C27_garbage_refuted",
    "C27_dropped_refuted",
    "C27_out_of_bounds_refuted"
   ],
   "note": "Proved for every function, state and order of the parallel loop when exactly |reg2| qubits lie outside both registers, and when none does (all examples and tests): there the code reads past the end of other_indices, but the result is right whatever the memory holds. With fewer than |reg2| qubits outside it depends on the memory (C27_few_partial, C27_garbage_refuted); with more, amplitudes are dropped (the loop over other_indices is bounded by the size of reg2)."
  },
  {
   "property": "C28",
   "status": "proved",
   "theorems": [
    "C28_run_order"
   ],
   "note": "Every graph a program can build whose split outputs select existing qubits (indices outside the register are C30's defect); every set.pop order and list(set) order."
  },
  {
   "property": "C29",
   "status": "proved",
   "theorems": [
    "C29_node_qubits"
   ],
   "note": "The positions are determined by the wires relation of S_Graph.v; C28_run_order states that run_graph passes exactly these."
  },
  {
   "property": "C30",
   "status": "partial",
   "theorems": [
    "C30_split_indices",
    "C30_split",
    "C30_split_trivial",
    "C30_extract",
    "C30_qubits",
    "C30_invalid_refuted"
   ],
   "note": "Partition proved for valid index lists; false for invalid ones: split accepts indices outside the register, extract_index(int) raises TypeError, extract_index drops or duplicates silently."
  },
  {
   "property": "C31",
   "status": "partial",
   "theorems": [
    "C31_refuted",
    "C31_identity_partial"
   ],
   "note": "False of the code: every op accepts a used qubit. Only Qubit(...) raises; proved for that class."
  },
  {
   "property": "C32",
   "status": "partial",
   "theorems": [
    "C32_refuted",
    "C32_adjoint_swap_refuted",
    "C32_reuse_partial",
    "C32_same_args_partial"
   ],
   "note": "False of the code: op matrices are cached with the qubit positions of the first run. Proved under the condition that ops shared with earlier runs have the same positions, in particular for repeated runs of the same arguments."
  },
  {
   "property": "C33",
   "status": "proved",
   "theorems": [
    "C33_run",
    "C33_evolution_determined",
    "C33_unknown_feed"
   ],
   "note": "Ops on distinct qubits, F within the limits of C27, top_k 0 or complete (C25), no adjoint of Swap (C07). With measurements: if run returns, the result is as stated."
  },
  {
   "property": "C34",
   "status": "partial",
   "theorems": [
    "C34_refuted",
    "C34_columns_partial"
   ],
   "note": "False of the code: make_circuit_mat raises TypeError on every circuit with at least one qubit. Proved: with the basis states passed as lists run returns the columns of a matrix whose product with the initial state is the result."
  },
  {
   "property": "C35",
   "status": "partial",
   "theorems": [
    "C35_refuted",
    "C35_negative_refuted",
    "C35_beyond_refuted",
    "C35_front_partial",
    "C35_single_partial",
    "C35_default_partial"
   ],
   "note": "Refuted for contexts with several qubits (split_context pops the positions one after the other without adjusting them): C35_refuted shows for every op what happens. Proved for every nesting of contexts that hold one qubit each, at any position that exists, for every op that can be built. C35_default_partial: without positions the context comes first, whatever its size. C35_negative_refuted: a context of one qubit at a negative position gets the output of the following input after every call, for every op; only the position -(number of arguments + 1) is right (C35_front_partial). C35_beyond_refuted: with a position beyond the ends no call of any op returns."
  },
  {
   "property": "C36",
   "status": "partial",
   "theorems": [
    "C36_refuted",
    "C36_others_partial"
   ],
   "note": "Refuted: C(f) appends a wrapper to f itself. C36_refuted shows it for every circuit: f(a, b) flips a before C(f) and acts as controlled-Not after it. Proved: C of an op changes nothing and other functions keep their wrappers."
  },
  {
   "property": "C37",
   "status": "partial",
   "theorems": [
    "C37_refuted",
    "C37_stored_partial"
   ],
   "note": "Refuted: keyword arguments of the call are dropped (call_kwargs returns the stored ones). Proved: the ones stored when the op object is made are used (one-qubit gates, R, Rm)."
  },
  {
   "property": "C38",
   "status": "proved",
   "theorems": [
    "C38_fourier",
    "C38_in_circuits",
    "C38_controlled"
   ],
   "note": "For every register size and every initial state, over the real numbers, with exact sines and cosines; sign +. Also inside any circuit, on several arguments, and controlled any number of times. QFFT() without arguments raises IndexError."
  },
  {
   "property": "C39",
   "status": "partial",
   "theorems": [
    "C39_partial",
    "C39_send",
    "C39_refuted",
    "C39_empty_refuted"
   ],
   "note": "False as stated: C39_refuted (first header byte alone), C39_empty_refuted (empty last message). C39_partial: every segmentation in which no segment lies inside the 4 length bytes."
  },
  {
   "property": "C40",
   "status": "proved",
   "theorems": [
    "C40_matop",
    "C40_vector",
    "C40_kronprod",
    "C40_states"
   ],
   "note": "Matrices of every nesting, vectors, dictionaries and initial states; integers must fit their int32/int64 fields; protobuf's binary encoding is trusted."
  },
  {
   "property": "C41",
   "status": "partial",
   "theorems": [
    "C41_refuted",
    "C41_partial"
   ],
   "note": "False for the uncontrolled single-qubit gates (C41_refuted); C41_partial covers swaps and controlled ops of every depth."
  },
  {
   "property": "C42",
   "status": "partial",
   "theorems": [
    "C42_tiles",
    "C42_made",
    "C42_fails_partial",
    "C42_exception_refuted"
   ],
   "note": "Tiling, conservation, capacity and maximal block size proved (C42_tiles); a pool is made exactly when the workers suffice (C42_made, C42_fails_partial). The exception is not always InsufficientResources: C42_exception_refuted shows IndexError for any number >= 2 of equal insufficient workers."
  },
  {
   "property": "C43",
   "status": "partial",
   "theorems": [
    "C43_conserved",
    "C43_freed_partial",
    "C43_close_partial",
    "C43_freed_refuted"
   ],
   "note": "Proved: conservation for every history including all failures; a normally ended job holds nobody. Refuted: 'free again after its job ends' fails when a set-up message, the reply or the closing of the pool cannot be sent (the thread dies, nothing returns the workers). The shutdown of the server is in C85."
  },
  {
   "property": "C44",
   "status": "partial",
   "theorems": [
    "C44_transfers_partial",
    "C44_bounded_connection_refuted"
   ],
   "note": "Proved for every schedule, size, chunk size, window, sequence of transfers and leftovers, provided the connection for acknowledgements is large enough. Refuted for bounded connections: leftovers accumulate, after enough transfers no schedule completes."
  },
  {
   "property": "C45",
   "status": "partial",
   "theorems": [
    "C45_first_transfer_partial",
    "C45_later_transfers_refuted"
   ],
   "note": "Proved for the first transfer over a connection, every schedule. Refuted for later transfers: leftover acknowledgements enlarge the window without bound."
  },
  {
   "property": "C46",
   "status": "partial",
   "theorems": [
    "C46_kronprod_partial",
    "C46_whole_job_partial",
    "C46_nothing_fed_refuted"
   ],
   "note": "Proved: for every pool (C42), state, dictionaries the local backend accepts, connection order and every schedule of processes and parallel loops, the job ends and every worker holds its part of the local result; from the client's feeds too. Missing: connections of bounded capacity (C47_bounded_connections_refuted) and workers registered late (C48). Refuted when nothing is fed: every worker sets the first amplitude of its own part."
  },
  {
   "property": "C47",
   "status": "partial",
   "theorems": [
    "C47_sync_partial",
    "C47_bounded_connections_refuted"
   ],
   "note": "Proved: with all connections registered, in any order, one sync of a pool ends under every schedule with the same states. Needs room for one message per amplitude between workers. Refuted for bounded connections: acknowledgements pile up, a concrete job of three operations never ends in any execution."
  },
  {
   "property": "C48",
   "status": "partial",
   "theorems": [
    "C48_registered_partial",
    "C48_unregistered_refuted"
   ],
   "note": "Refuted in general: an off-diagonal worker that is not registered with the diagonal worker of its output range when the first kronprod is synced keeps the client waiting in every execution. Proved for connections registered before the sync, in any order."
  },
  {
   "property": "C49",
   "status": "partial",
   "theorems": [
    "C49_job_partial",
    "C49_possible_partial",
    "C49_born",
    "C49_unnormalised_refuted"
   ],
   "note": "Jobs of kronprods and measurements: every execution of the distributed job ends with the outcomes, probabilities and states of the same job on one computer, where the outcome is the one the manager's and the selected worker's draws determine; such an outcome exists, is unique and has positive probability for total probability 1; the areas of draws leading to an outcome add up to its Born probability. Missing: initialised accumulators and exact arithmetic are assumed. Refuted for total probability below 1: the manager fails with AttributeError where the local backend measures."
  },
  {
   "property": "C50",
   "status": "partial",
   "theorems": [
    "C50_sums_partial",
    "C50_refuted"
   ],
   "note": "Proved when all workers report the same largest outcome; refuted otherwise: res[-1] of an exhausted list raises IndexError."
  },
  {
   "property": "C51",
   "status": "partial",
   "theorems": [
    "C51_partial",
    "C51_refuted",
    "C51_again_refuted"
   ],
   "note": "True when blocks are no larger than the reduced state and it is the first reduction (C51_partial). False otherwise: with larger blocks (in particular a single worker) the pool is emptied (C51_refuted); a second reduction releases nobody because the recorded size is never updated (C51_again_refuted)."
  },
  {
   "property": "C52",
   "status": "partial",
   "theorems": [
    "C52_convergents_partial",
    "C52_last_partial",
    "C52_reduced",
    "C52_large_refuted"
   ],
   "note": "Proved for c, q < 2^53; refuted for larger numbers because int(c/q) is a floating point division. The coprimality of the convergents holds for all inputs."
  },
  {
   "property": "C53",
   "status": "proved",
   "theorems": [
    "C53_ops_accepted"
   ],
   "note": ""
  },
  {
   "property": "C54",
   "status": "partial",
   "theorems": [
    "C54_repeated_refuted",
    "C54_state_partial"
   ],
   "note": "Refuted: the reduced state is written 2^k times, the total is 2^k and n is unchanged. C54_state_partial and the second half of C54_repeated_refuted: the first 2^(n-k) amplitudes are the normalised reduced state."
  },
  {
   "property": "C55",
   "status": "partial",
   "theorems": [
    "C55_int_refuted"
   ],
   "note": "False of the code: any integer state makes make_state raise TypeError."
  },
  {
   "property": "C56",
   "status": "proved",
   "theorems": [
    "C56_in_order"
   ],
   "note": "Ops: Not, Y, Z, H, R with a fixed phase, Swap, and any nesting of C around them, without stored keyword arguments; arguments with disjoint qubits."
  },
  {
   "property": "C57",
   "status": "proved",
   "theorems": [
    "C57_controlled"
   ],
   "note": "Functions of C56; the controls are single qubits; the result is returned with the controls reversed (C58). For QFFT see C38_controlled."
  },
  {
   "property": "C58",
   "status": "partial",
   "theorems": [
    "C58_positions_partial",
    "C58_identity_partial",
    "C58_refuted",
    "C58_one_control_partial"
   ],
   "note": "Refuted for two controls (C58_refuted, every function of C56 and circuit): the controls come back swapped. Proved for at most one control, and for a function with one wrapper of any ascending positions."
  },
  {
   "property": "C59",
   "status": "partial",
   "theorems": [
    "C59_refuted"
   ],
   "note": "Refuted in general: every controlled op with a parameter raises, called directly or inside contexts of controls. Nothing of the property holds for them; R with the phase fixed in the constructor, as in qfft.py, can be controlled (C56, C57)."
  },
  {
   "property": "C60",
   "status": "partial",
   "theorems": [
    "C60_out_of_bounds_refuted",
    "C60_many_refuted",
    "C60_single_partial"
   ],
   "note": "False of the code: on a pool with several blocks the workers read out of bounds and no answer comes; more than 2048 outcomes are refused. Proved for a single worker when all outcomes are asked for."
  },
  {
   "property": "C61",
   "status": "partial",
   "theorems": [
    "C61_forced_refuted"
   ],
   "note": "False of the code: the forced outcome and probability are not sent. The theorem shows that the drawn outcomes are returned whatever is forced."
  },
  {
   "property": "C62",
   "status": "proved",
   "theorems": [
    "C62_print",
    "C62_aligned",
    "C62_readable",
    "C62_decimal"
   ],
   "note": "For opwidth of at least 1 (with 0 the boxes are wider than the wires, see C62_narrow)."
  },
  {
   "property": "C63",
   "status": "proved",
   "theorems": [
    "C63_svg"
   ],
   "note": "Coordinates are exact in quarters of a pixel; the width of rendered letters is not known to the program and is taken to be half the font size."
  },
  {
   "property": "C64",
   "status": "proved",
   "theorems": [
    "C64_swap_test"
   ],
   "note": "The amplitudes for any value of the factor of H; the probability for any factor s with s*s+s*s=1, stated without division: P+P = |a|^2 |b|^2 + |<a|b>|^2. C64_factor: 1/sqrt 2 is such a factor (real axioms are used in this example only)."
  },
  {
   "property": "C65",
   "status": "partial",
   "theorems": [
    "C65_refuted",
    "C65_list_partial"
   ],
   "note": "False of the code: C65_refuted. The returned state is a numpy array and run tests its truth value, so every such call on a circuit with a qubit raises ValueError, also the one in examples/grovers_iterative.py. C65_list_partial: with list(state) the two runs are one evolution. Missing: the array."
  },
  {
   "property": "C66",
   "status": "partial",
   "theorems": [
    "C66_refuted",
    "C66_list_partial",
    "C66_bits_refuted"
   ],
   "note": "False of the code as it stands: every iteration after the first run raises ValueError, because run tests the truth of the array it is given (C66_refuted), and if the state is passed as a list the item is printed with its bits reversed, 336 for 42 (C66_bits_refuted). C66_list_partial proves, for every size, item and number of runs, that with the state passed as a list the reported probabilities are sin^2((2j+1)t) for the marked item and equal for the others, at the positions with reversed bits, and that with the program's number of runs and at least 3 qubits the reversed marked item is printed. int(2 ** (n / 2)) is the integer square root of 2^n."
  },
  {
   "property": "C67",
   "status": "partial",
   "theorems": [
    "C67_odd_partial",
    "C67_product_partial",
    "C67_found_partial",
    "C67_prime_refuted",
    "C67_raises_refuted",
    "C67_product_refuted",
    "C67_even_refuted"
   ],
   "note": "Refuted: primes never end; N = 2 and N > 2^14 raise; 105 with a = 2 and 12288 measured returns (5, 3); even N can return (10, 4) for 20 and (2, 14) for 14. Proved: for odd N both results are proper factors for all draws and measured values; the product is N if the periods found are periods; the program ends when a draw shares a factor or an even period with a^(r/2) other than 1 and -1 is found. Measured values and draws are parameters; printing is left out."
  },
  {
   "property": "C68",
   "status": "partial",
   "theorems": [
    "C68_convergent",
    "C68_result",
    "C68_order_partial",
    "C68_ends",
    "C68_zeros_refuted",
    "C68_greater_refuted",
    "C68_first_refuted",
    "C68_odd_refuted"
   ],
   "note": "Refuted: 33 with a = 2 and 614 measured returns 1024, not the order 10; 21 with 85 measured returns 1 (d = 1 is not accepted); odd orders are never returned; runs that measure 0 are not counted and can go on forever. Proved: d/r is among the convergents (Legendre); the result is 1 or the greatest accepted even denominator; the order is returned for even r, d > 1 when no greater denominator is accepted; ten values other than 0 end the loop."
  },
  {
   "property": "C69",
   "status": "proved",
   "theorems": [
    "C69_balanced",
    "C69_top",
    "C69_counted",
    "C69_qfft"
   ],
   "note": "For all code closed under calls of ops, functions, C, explicit contexts, heap operations, sequencing, raising and catching; QFFT is shown to be such code. Inside of contexts the number of their qubits is counted right (C69_counted)."
  },
  {
   "property": "C70",
   "status": "proved",
   "theorems": [
    "C70_run",
    "C70_reachable"
   ],
   "note": "draws_ok: draws in (0, 1], the uninitialised accumulators are 0 (C20 describes what happens otherwise), exact inverse square root; draw 0.0 is C22"
  },
  {
   "property": "C71",
   "status": "proved",
   "theorems": [
    "C71_measured",
    "C71_probabilities"
   ],
   "note": "C71_measured: make_circuit succeeds and run(m) returns the value in whose part of (0, 1] the draw lies, the parts being as long as the probabilities of Shor's algorithm (stated as the textbook sums); C71_probabilities: they are not negative and add up to 1. Exact arithmetic; draws in (0, 1] as in C70; the circuit is built in a fresh process. N must fit into the second register: quantum() makes it so, the circuit drawn at the end of the file (4 qubits for N = 21) does not."
  },
  {
   "property": "C72",
   "status": "partial",
   "theorems": [
    "C72_peak",
    "C72_exact",
    "C72_found_partial",
    "C72_returned",
    "C72_wrong_refuted"
   ],
   "note": "C72_peak, C72_exact and C72_found_partial prove the bounds. C72_returned: when the order r is a power of two, the first measured value makes the program return r with probability exactly 1/2 - 1/r. C72_wrong_refuted: values that lead to a wrong result are measured with positive probability (1/4 for 20 and 17). Missing: the program returning r for the found fraction when r is no power of two, see C68."
  },
  {
   "property": "C73",
   "status": "partial",
   "theorems": [
    "C73_outside_refuted",
    "C73_unmeasured_refuted",
    "C73_deadlock_refuted",
    "C73_partial",
    "C73_after_refuted"
   ],
   "note": "False in general. C73_outside_refuted: if an amplitude of the outcome lies outside the first block, a worker runs out of bounds and the manager waits forever; C73_unmeasured_refuted: always so if a qubit that numbers the blocks is not measured. C73_deadlock_refuted: if exactly the block qubits are measured, deadlock. C73_partial: otherwise the client gets the outcome and the first worker the reduced state; C73_after_refuted: but a later measurement fails. Capacity of connections: one block plus one message for the deadlock and the partial theorem."
  },
  {
   "property": "C74",
   "status": "partial",
   "theorems": [
    "C74_soft_measure_refuted",
    "C74_func_apply_refuted"
   ],
   "note": "False: func_apply and soft_measure raise TypeError and send nothing, while the local backend carries them out. What the other operations do is C46, C49, C60, C61 and C73."
  },
  {
   "property": "C75",
   "status": "proved",
   "theorems": [
    "C75_connected",
    "C75_ready",
    "C75_one_job"
   ],
   "note": "For pools the manager makes from workers with different addresses, and histories in which all connections of the job are accepted and registered (C76 is about the others). C75_ready: the condition 'connected' of C46 to C49 and C60, C61 is met. Connecting does not fail or block; a connection and the first message over it are one event."
  },
  {
   "property": "C76",
   "status": "partial",
   "theorems": [
    "C76_refuted"
   ],
   "note": "False: while a diagonal worker has not accepted the connection of a partner, a matrix product that begins never ends, under any schedule (C76_refuted; the set of registered connections is taken not to change during the operation). With all connections accepted C46 and C75_ready apply."
  },
  {
   "property": "C77",
   "status": "partial",
   "theorems": [
    "C77_closed_partial",
    "C77_others",
    "C77_late_refuted"
   ],
   "note": "C77_closed_partial: if all connections of the job had been accepted and registered, nothing is left, ever. C77_late_refuted: a connection accepted after the closing is registered and kept forever. C77_others: other jobs keep their connections."
  },
  {
   "property": "C78",
   "status": "partial",
   "theorems": [
    "C78_refuted",
    "C78_later_refuted",
    "C78_top_refuted"
   ],
   "note": "False in the code: C78_refuted shows that for every pool, state, schedule and every rejected kronselect_dot call the manager neither answers nor fails; C78_later_refuted the same after any earlier calls but reduce_measure (no assumption on the states), C78_top_refuted for measure_probabilities with a negative top_k. Missing: a rejected call after a reduce_measure, and measure calls rejected for other reasons."
  },
  {
   "property": "C79",
   "status": "partial",
   "theorems": [
    "C79_refuted"
   ],
   "note": "False in the code: C79_refuted shows that after a failed job whose workers were given back, the next job of the same size gets exactly the same workers."
  },
  {
   "property": "C80",
   "status": "partial",
   "theorems": [
    "C80_in_order",
    "C80_served_partial",
    "C80_silent_refuted",
    "C80_garbage_refuted"
   ],
   "note": "C80_in_order holds always; C80_served_partial needs every other host to introduce itself or leave; without it the property is false: C80_silent_refuted, C80_garbage_refuted."
  },
  {
   "property": "C81",
   "status": "partial",
   "theorems": [
    "C81_mirrored_partial",
    "C81_order_refuted"
   ],
   "note": "False in the order of the positions: the values are right, but each is at the position with the binary digits of x in the opposite order (C81_mirrored_partial, for all n and psi). C81_order_refuted: for every n >= 2 a state with all its power at frequency 1 is reported at position 2^(n-1)."
  },
  {
   "property": "C82",
   "status": "proved",
   "theorems": [
    "C82_run",
    "C82_average"
   ],
   "note": "C82_run for every run of a circuit and every point of it; C82_average for measurements of other qubits. For circuits that meet circuit_ok (F within the sizes of C27, top_k as in C25) and exact gate scalars."
  },
  {
   "property": "C83",
   "status": "proved",
   "theorems": [
    "C83_op",
    "C83_function",
    "C83_measurements",
    "C83_possible"
   ],
   "note": "C83_op for all library ops on the qubits they do not change (controls included), any draw and any previous content of the accumulator; C83_function for F within the sizes of C27; C83_measurements and C83_possible over the reals with scale 1/sqrt p."
  },
  {
   "property": "C84",
   "status": "partial",
   "theorems": [
    "C84_partial",
    "C84_unread",
    "C84_drawn_again",
    "C84_refuted"
   ],
   "note": "False in the code: when a worker is lost, the confirmations of the workers after it in the pool stay unread (C84_unread), these workers are released and can be the only worker of the next job (C84_drawn_again), and a measurement of a job whose diagonal workers have an unread confirmation never has a result (C84_refuted). Proved: after a job without failures nothing is left unread (C84_partial)."
  },
  {
   "property": "C85",
   "status": "partial",
   "theorems": [
    "C85_partial",
    "C85_quiet_partial",
    "C85_busy_refuted",
    "C85_lost_refuted"
   ],
   "note": "False as stated. Proved: when a call of Manager.close ends, every registered worker has been disconnected unless a client thread was setting up its job or was moving the worker back to the free ones; an undisturbed call with no such thread disconnects everybody. Refuted: a worker held by a client thread at that time is not disconnected, then or later (C85_busy_refuted); and as soon as one worker in the pool of a job cannot be reached, no call of close disconnects anybody (C85_lost_refuted), because the exception leaves close before the sockets are closed. The closing of one pool is one step of the model."
  },
  {
   "property": "C86",
   "status": "partial",
   "theorems": [
    "C86_not_before",
    "C86_one_more",
    "C86_returns_partial",
    "C86_waits_refuted",
    "C86_late_refuted"
   ],
   "note": "False as stated. Proved: after the stop at most one more host is served, and run returns once a host has connected and the hosts have introduced themselves. Refuted: the loop only looks at the flag after tcpsock.accept(): with nobody connecting run never returns (C86_waits_refuted), and the next host that connects is still served (C86_late_refuted)."
  },
  {
   "property": "C87",
   "status": "partial",
   "theorems": [
    "C87_short_partial",
    "C87_long_refuted",
    "C87_twice_refuted",
    "C87_zero_refuted",
    "C87_same_key_refuted",
    "C87_default_list",
    "C87_default_array_refuted"
   ],
   "note": "False as stated. Proved: a list that is too short raises IndexError, whatever the other registers are, and a default given as python list must have the right length. (Feeding an object that is not a top level qubit raises KeyError: C33_unknown_feed.) Refuted in general: lists that are too long are accepted and their tail is ignored, numpy defaults are not checked at all, a qubit that is fed both alone and as a group of one is accepted and the amplitudes given first are dropped, and qubits that are fed twice in other ways are accepted; the theorem says which amplitudes result: in the earlier register a repeated qubit always counts as 1, so that feeding state 0 to it leaves no amplitude at all. The values of the feed are lists or arrays; an int raises TypeError (C55)."
  },
  {
   "property": "C88",
   "status": "partial",
   "theorems": [
    "C88_kron_partial",
    "C88_kron_same_partial",
    "C88_untouched_refuted",
    "C88_offset_refuted",
    "C88_dense_refuted",
    "C88_probabilities_partial",
    "C88_top_partial",
    "C88_soft_partial",
    "C88_measure_partial",
    "C88_reduce_partial",
    "C88_uncollapsed_refuted",
    "C88_func_partial",
    "C88_value_refuted"
   ],
   "note": "Proved with every variable, argument and intermediate result at its declared width: up to 30 qubits (explicit arrays on at most 15, groups of at most 30), all kernels agree with the unbounded model, to which the other claims refer, and matrix application with the specification of C01 directly. False beyond: with 31 qubits cdot_loop and measure leave the output array untouched, offsets from 2^31 on raise OverflowError, entries of a 2^16 x 2^16 array are read at undefined positions, and a function value of 2^31 raises although only its last bits are used. The measurement kernels need at least one qubit."
  },
  {
   "property": "C89",
   "status": "proved",
   "theorems": [
    "C89_row",
    "C89_exact_possible",
    "C89_exact_unique",
    "C89_circuit",
    "C89_double",
    "C89_probabilities",
    "C89_rounding",
    "C89_rounding_flush"
   ],
   "note": "Relational model of cdot_loop and measure_probabilities with every operation rounded (relative error u, absolute below w), sums in any order and grouping, fused or not, tiny results flushed or not; doubles rounded to nearest are shown to be an instance, using Flocq's definition of rounding. Scope: sequences of operations on the whole state and reported probabilities; the collapse after a measurement, infinities, NaNs and algebraic rewriting beyond reordering are not in the model."
  },
  {
   "property": "C90",
   "status": "proved",
   "theorems": [
    "C90_lines"
   ],
   "note": "The text of a line is represented by the numbers and the amplitude it is made of."
  },
  {
   "property": "C91",
   "status": "partial",
   "theorems": [
    "C91_sent",
    "C91_send_ends",
    "C91_received",
    "C91_recv_ends",
    "C91_partial",
    "C91_timeout_refuted"
   ],
   "note": "Proved for all schedules: the bytes on the connection are whole frames, in an order that respects every sender, plus a part of one frame while somebody is sending (C91_sent); concurrent recv calls return what the same number of calls by one thread returns (C91_received); threads always go on and finish (C91_send_ends, C91_recv_ends); end to end when no segment lies inside the length bytes of a message (C91_partial; without it see C39_refuted). Refuted for timeouts: the bytes read before are lost and the next call returns something nobody sent (C91_timeout_refuted)."
  },
  {
   "property": "C92",
   "status": "partial",
   "theorems": [
    "C92_born",
    "C92_same",
    "C92_possible_partial",
    "C92_impossible_refuted",
    "C92_same_loops",
    "C92_exact_possible",
    "C92_exact_unique",
    "C92_collapse",
    "C92_double"
   ],
   "note": "Proved: outcome, reported probability, draws (C92_born, C92_same), the collapsed state (C92_collapse), doubles up to 40 qubits (C92_double). False: an outcome of probability 0 can be reported when the rounded probabilities add up to less than the draw (C92_impossible_refuted, a run on IEEE doubles ending in a ZeroDivisionError); C92_possible_partial says when: the last outcome and a draw that reaches it, or the first and a draw of 0. reduce_measure and forced outcomes with rounding are not covered."
  },
  {
   "property": "C93",
   "status": "proved",
   "theorems": [
    "C93_start",
    "C93_run",
    "C93_draw",
    "C93_reports",
    "C93_double",
    "C93_start_possible"
   ],
   "note": "States are compared in the Euclidean norm. Outcomes are taken from the rounded run: exact evolution is conditioned on them. Outcomes that are not clearly possible (probability below 8 times the distance so far) are outside the statement; C92_impossible_refuted shows what may then happen. C93_reports: the probabilities that a StochasticMeasure in the run reports are close to those of the exactly evolved state. Function nodes move amplitudes without arithmetic, so they add nothing; they are those of C27. Registers are fed as arrays."
  },
  {
   "property": "C94",
   "status": "partial",
   "theorems": [
    "C94_series",
    "C94_only_partial",
    "C94_rejects_partial",
    "C94_leading_refuted",
    "C94_count_partial",
    "C94_count_refuted"
   ],
   "note": "C94_series: every series of doubles and triples is parsed into its entries. C94_only_partial, C94_rejects_partial: nothing else is accepted unless the first argument is a sequence. C94_leading_refuted: a sequence in place of the first constructor is accepted and used as constructor. C94_count_partial: contexts whose total numbers of qubits and positions differ make every op call raise. C94_count_refuted: two mismatches that cancel build a circuit with the wrong control qubits."
  },
  {
   "property": "C95",
   "status": "partial",
   "theorems": [
    "C95_again_partial",
    "C95_with_partial",
    "C95_nested_refuted",
    "C95_late_refuted"
   ],
   "note": "C95_again_partial: leaving and entering again changes nothing, for every program. C95_with_partial: the object model agrees with M_Context for contexts made in the with statement. C95_nested_refuted: an object entered twice at once makes every op raise ValueError. C95_late_refuted: add_context on an active object leaves the global count of context qubits wrong, and op calls in all later well-formed contexts raise."
  },
  {
   "property": "C96",
   "status": "partial",
   "theorems": [
    "C96_state_partial",
    "C96_reports_partial",
    "C96_measured_partial",
    "C96_possible_partial",
    "C96_probs_refuted",
    "C96_reuse_refuted"
   ],
   "note": "C96_state_partial: the same state, for circuits without Measure in which no qubit is passed to two calls. C96_reports_partial: and the same reports, for exact gates. C96_measured_partial: with Measure, given the same outcomes: the same state and the same joint probability. C96_possible_partial: and the same outcomes are possible. C96_probs_refuted: the probabilities a StochasticMeasure reports depend on whether the Measure of an entangled qubit was called before it. C96_reuse_refuted: a qubit may be passed to two gates, and then the order of the calls changes the state."
  },
  {
   "property": "C97",
   "status": "partial",
   "theorems": [
    "C97_run_partial",
    "C97_messages",
    "C97_gates_refuted",
    "C97_probs_refuted",
    "C97_measurements_decoded"
   ],
   "note": "Proved for circuits of qubits, splits, swaps, controlled operations and measurements with normalised initial amplitudes: the messages, every execution of the job, and the results agree with a local run. False for gates without controls, F and StochasticMeasure (refuted), and run returns the job handle in place of the state. Missing: circuits with nothing fed (C46_nothing_fed_refuted), uninitialised accumulators (C20), rounding."
  },
  {
   "property": "C98",
   "status": "partial",
   "theorems": [
    "C98_objects",
    "C98_serial_partial",
    "C98_ids_refuted",
    "C98_own_ids_refuted",
    "C98_cloning_refuted",
    "C98_run_refuted"
   ],
   "note": "C98_objects: for every schedule, existing objects stay as they are and only get more sinks, and every construction that returns gives a separate object with the class, inputs, width, default and id asked for, known to its inputs. C98_serial_partial: if never two threads are in a constructor, the effect is that of constructions one after the other, and no id is given out twice. The rest is false: two Qubit() in two threads may get the same id (C98_ids_refuted), a thread may give two of its own qubits the same id (C98_own_ids_refuted), both of two Qubit(q) may succeed (C98_cloning_refuted), and after that the state returned by run depends on the enumeration of a set (C98_run_refuted)."
  },
  {
   "property": "C99",
   "status": "partial",
   "theorems": [
    "C99_swaps_partial",
    "C99_after_error",
    "C99_old_message_refuted",
    "C99_mixed_refuted",
    "C99_rawrecv_partial",
    "C99_rawrecv_refuted",
    "C99_rawsend_refuted"
   ],
   "note": "C99_swaps_partial: any number of connections in turn, if each has been read to its last message or to its end. C99_after_error: after a recv that raised, a replaced connection is like that of a new object. C99_rawrecv_partial: the next bytes of the stream if recv has left none over. The rest is false: bytes that recv has read beyond its message stay (C99_old_message_refuted: a message of the old connection comes out of the new one; C99_mixed_refuted: half a message is completed with bytes of the new connection), rawrecv skips them (C99_rawrecv_refuted), and rawsend ignores how many bytes were accepted (C99_rawsend_refuted)."
  },
  {
   "property": "C100",
   "status": "partial",
   "theorems": [
    "C100_alone",
    "C100_terminates",
    "C100_runs_partial",
    "C100_warm",
    "C100_same",
    "C100_dagger_refuted",
    "C100_forever_refuted"
   ],
   "note": "False in the code: a dagger op first stores the matrices and then their adjoints, so a second thread may use the former (C100_dagger_refuted), or adjoin the adjoints for good (C100_forever_refuted). Proved for every schedule when ops that several runs need have been run before (C100_warm), or are not dagger ops and have the same input qubits (C100_runs_partial, C100_same); runs never wait for each other (C100_terminates); C100_alone ties the threads to the single threaded run. Not covered: threads that build while others run (C98), shared ops at different positions (false also one after the other, see C32)."
  },
  {
   "property": "C101",
   "status": "partial",
   "theorems": [
    "C101_circuits_partial",
    "C101_alone",
    "C101_no_deadlock",
    "C101_terminates",
    "C101_results_partial",
    "C101_shutdown_refuted"
   ],
   "note": "Proved for all schedules and all jobs that by themselves always end with their messages read: each job behaves as by itself (C101_alone), no deadlock, and a bound on all executions. For jobs of kronprods and measurements each client gets the results of the local backend (C101_results_partial), and for the circuits of C97_run_partial each client's run returns what a local run of its own circuit returns (C101_circuits_partial). Missing: soft_measure, reduce_measure (whose workers are free earlier in the code). Jobs with failures: C84. False in the code: shutdown ends a worker with a ValueError (C101_shutdown_refuted)."
  },
  {
   "property": "C102",
   "status": "partial",
   "theorems": [
    "C102_alone",
    "C102_functions",
    "C102_plain",
    "C102_turns_partial",
    "C102_leak_refuted",
    "C102_crossed_refuted",
    "C102_forever_refuted"
   ],
   "note": "Proved for contexts without qubits (C102_plain: in every schedule the threads do what they do with a library without contexts, each op call being one step) and for threads that take turns (C102_turns_partial); C102_alone and C102_functions tie the threads to the model of C95. The rest is false: while a thread is in a block, the calls of all other threads are controlled by its qubits (C102_leak_refuted); blocks that end in the order in which they began leave a thread in the context of the other (C102_crossed_refuted); a lost update of the counter makes every later op call in a context raise (C102_forever_refuted). The construction of an op is one step here; its own steps are in C98."
  },
  {
   "property": "C103",
   "status": "proved",
   "theorems": [
    "C103_text",
    "C103_escape_refuted"
   ],
   "note": "C103_text: a reader of XML and of svg elements, written independently of the program (S_SvgText.v), understands the text and sees the drawing of C63, with the given width and height. C103_escape_refuted: names are not escaped, so an Rm whose m prints with < gives no XML; the names of all other ops contain no such character."
  },
  {
   "property": "C104",
   "status": "partial",
   "theorems": [
    "C104_default",
    "C104_other_refuted",
    "C104_plain_partial"
   ],
   "note": "C104_default: complex128 gives the run of C28 to C33. C104_other_refuted: with any other type every circuit with an op or a measurement raises ValueError (the extension modules only take double complex buffers), so the documented use does not work; the failed run does not change the results of later runs. C104_plain_partial: a circuit without ops and measurements returns, with the same amplitudes if the type keeps those that are fed and their products. Missing: types of real numbers, for which numpy may already refuse to store the fed amplitudes; the distributed backend."
  },
  {
   "property": "C105",
   "status": "proved",
   "theorems": [
    "C105_controlled_bell"
   ],
   "note": "C105_controlled_bell, for any value used for 1/sqrt(2). The drawing the program makes is not part of the claim (drawings: C103)."
  },
  {
   "property": "C106",
   "status": "partial",
   "theorems": [
    "C106_refuted",
    "C106_partial",
    "C106_next_refuted"
   ],
   "note": "False in the code. C106_refuted: whenever the local make_state raises, the distributed make_state returns a handle, and after the first call (kronselect_dot, measure, reduce_measure, or measure_probabilities for at most 2048 outcomes) the manager neither answers nor fails, for all pools, capacities, interleavings and initial states of equal number of groups that fit the wire format. C106_next_refuted: a client that closes without a call has all its workers given back, and the next job on them waits for ever. C106_partial: some worker refuses the states exactly when the local backend does; missing: the client is told."
  },
  {
   "property": "C107",
   "status": "partial",
   "theorems": [
    "C107_refuted",
    "C107_order_partial",
    "C107_distinct_partial",
    "C107_clone_refuted"
   ],
   "note": "False as stated. Refuted: a given id does not advance the counter, so that a later register can get the same id; registers with equal ids come in the order a set happens to list them, and run returns different states for different orders. Also refuted: Qubit(q, qid=k) is accepted a second time for the same q and k, because set_sink compares ids only. Proved for every list of registers and ids: the registers have their widths and ids, and a run returns the product of the fed states with the registers side by side by increasing id, in one of the orders that allow this; with distinct ids there is only one. Registers that are not fed are in state 0; with strict they are an error. Circuits of registers only, without defaults."
  },
  {
   "property": "C108",
   "status": "partial",
   "theorems": [
    "C108_agree_partial",
    "C108_encrypted",
    "C108_messages_partial",
    "C108_introduced_partial",
    "C108_refuted",
    "C108_introduced_refuted"
   ],
   "note": "False as stated. Proved for every cut of the stream: the host takes exactly the one byte, and wraps its socket exactly when the manager does; on plain connections all later messages arrive, and the introduction is read, under the condition on the cut that recv needs (C39). Refuted: a connection closed before the greeting is taken for one that asks for encryption; an introduction of which one byte arrives first is misread. What TLS does with the bytes is not modelled."
  },
  {
   "property": "C109",
   "status": "partial",
   "theorems": [
    "C109_one_host_partial",
    "C109_public_partial",
    "C109_exact_partial",
    "C109_main_partial",
    "C109_refuted",
    "C109_mistaken_refuted"
   ],
   "note": "False of the code (C109_refuted): a worker reports the address it binds to, 'localhost' by default, and the manager passes it on instead of the address it sees the worker at, so no worker on another host reaches it; if the port is in use there, the wrong worker is taken for the partner (C109_mistaken_refuted). Proved for workers on one host and for workers started with public names; C109_exact_partial says exactly when a worker is found. The main program has no argument for the address, so its workers find each other only on one host (C109_main_partial)."
  }
 ]
}