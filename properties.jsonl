{"id": "C01", "title": "Encrypting then decrypting a ring element is the identity", "statement": "If party `src` encrypts a 64-bit integer tensor with precision 0, then decrypting it returns exactly that tensor to every party, whatever the world size, the source rank and the state of the pseudo-random generators.", "quantifier": "all world sizes n>=1, all src<n, all tensors, all generator states and all earlier call histories", "why_tests_cant": "The shares are random; a test sees one seed and a few world sizes.", "anchors": ["crypten/mpc/primitives/arithmetic.py: ArithmeticSharedTensor.__init__, PRZS, reveal, get_plain_text", "crypten/__init__.py: _setup_prng, _sync_seeds"]}
{"id": "C02", "title": "Pseudo-random zero sharing stays a sharing of zero for ever", "statement": "After any sequence of collective calls that draw from the shared generators (arithmetic or binary, any sizes), the next arithmetic zero sharing produced by the parties sums to 0 mod 2^64 in every element.", "quantifier": "all world sizes, all seeds, all finite call histories executed by all parties", "why_tests_cant": "Depends on generators staying in lockstep over unbounded histories.", "anchors": ["crypten/mpc/primitives/arithmetic.py: PRZS", "crypten/__init__.py: _sync_seeds, _setup_prng", "crypten/common/rng.py: generate_random_ring_element"]}
{"id": "C03", "title": "Binary encryption round trip and XOR zero sharing", "statement": "Encrypting a 64-bit tensor as a binary (XOR) sharing and revealing it returns it exactly, for every source party and generator history; the binary zero sharing XORs to 0.", "quantifier": "all world sizes, sources, tensors, call histories", "why_tests_cant": "Same as C01/C02: randomised shares and unbounded histories.", "anchors": ["crypten/mpc/primitives/binary.py: BinarySharedTensor.__init__, PRZS, reveal"]}
{"id": "C04", "title": "Fixed-point encode/decode error is below one unit in the last place for non-negative values, and the negative values for which it is not are known exactly", "statement": "For every real x>=0 whose scaled value fits in 63 bits, 0 <= x - decode(encode(x)) < 1/scale. For negative encoded values t = -(q*scale + r), the decoded value equals t/scale exactly when q + r <= scale-1 (and is otherwise wrong); the exact condition is stated and a witness of a wrong decode is exhibited.", "quantifier": "all rationals x, all precisions >= 1, all encoded 64-bit values", "why_tests_cant": "The failing negative values form an unbounded two-parameter family; tests use small magnitudes.", "anchors": ["crypten/encoder.py: FixedPointEncoder.encode, FixedPointEncoder.decode"]}
{"id": "C05", "title": "Integer decode rounding: nearest integer, ties toward zero", "statement": "nearest_integer_division(t, k) returns an integer nearest to t/k, with exact ties rounded toward zero, for every t and k whose intermediate values do not overflow.", "quantifier": "all 64-bit t and positive k with 2k and k-t representable", "why_tests_cant": "Range over pairs of 64-bit integers.", "anchors": ["crypten/encoder.py: nearest_integer_division"]}
{"id": "C06", "title": "A fixed-point encoder never has inconsistent scale and precision, and temporarily ignoring encodings always restores them", "statement": "After any sequence of precision / power-of-two scale assignments, scale == 2**precision. A Beaver protocol run (normal or exceptional exit) leaves the scale and precision of every tensor object as it was, even when several tensors share one encoder object.", "quantifier": "all assignment histories; all heaps, alias patterns and tensor lists", "why_tests_cant": "Aliasing patterns and histories are unbounded.", "anchors": ["crypten/encoder.py: FixedPointEncoder.__setattr__", "crypten/mpc/primitives/beaver.py: IgnoreEncodings"]}
{"id": "C07", "title": "Linear operations on arithmetic sharings are exact modulo 2^64", "statement": "add, sub, neg and multiplication by a public integer on encrypted tensors (operand public or encrypted, equal scales) reveal to the corresponding ring operation on the revealed inputs.", "quantifier": "all share vectors, all world sizes, all public operands", "why_tests_cant": "Must hold for every split of a value into shares, including those that wrap.", "anchors": ["crypten/mpc/primitives/arithmetic.py: _arithmetic_function, neg_, mul, mul_, __rsub__"]}
{"id": "C08", "title": "Adding tensors of different precision is exact and keeps the value of both operands", "statement": "If x and y have power-of-two scales, x+y (x-y) reveals to the exact sum (difference) at the larger scale; the re-encoding done on an operand changes its share and scale but not the number it stands for, provided the scaled value fits in 64 bits. If the operand's share is a view of another tensor, that other tensor is silently multiplied (exhibited).", "quantifier": "all scales, share vectors, world sizes, and heaps with aliasing", "why_tests_cant": "Effect on aliased storage is invisible to value-only tests.", "anchors": ["crypten/mpc/primitives/arithmetic.py: encode_, encode_as_, _arithmetic_function"]}
{"id": "C09", "title": "Beaver multiplication is exact for every bilinear operation", "statement": "With a valid triple, encrypted mul / matmul / conv (any operation bilinear mod 2^64) reveals, before rescaling, exactly the operation on the revealed inputs, for every triple and every split into shares.", "quantifier": "all world sizes, shares, valid triples and bilinear index tables", "why_tests_cant": "Correctness must hold for every random triple and share split.", "anchors": ["crypten/mpc/primitives/beaver.py: __beaver_protocol, mul, matmul, conv1d, conv2d"]}
{"id": "C10", "title": "Beaver squaring is exact", "statement": "With a valid square pair, encrypted square reveals, before rescaling, the square of the revealed input mod 2^64.", "quantifier": "all world sizes, shares, valid pairs", "why_tests_cant": "as C09", "anchors": ["crypten/mpc/primitives/beaver.py: square"]}
{"id": "C11", "title": "Fixed-point product error bound", "statement": "The product of two encrypted values of equal scale s (after rescaling) differs from x*y/s by less than 1 unit for one party, at most 1 unit plus truncation for two parties whose shares do not wrap, and at most the stated n-party bound for three or more when the random mask does not wrap; the exact wrap conditions are part of the statement.", "quantifier": "all values with |x*y| in range, all shares", "why_tests_cant": "Depends on the share split; failure has tiny probability in tests.", "anchors": ["crypten/mpc/primitives/arithmetic.py: _arithmetic_function, div_", "crypten/mpc/primitives/beaver.py: truncate"]}
{"id": "C12", "title": "Products of differently scaled tensors are correct only when the scales agree or one of them is 1", "statement": "For encrypted x,y with scales sx, sy, the product decodes to x*y (up to truncation) iff sx==sy or one of them is 1; with two different scales above 1 the decoded result is x*y*sy/sx.", "quantifier": "all scales, values", "why_tests_cant": "Tests use the default precision only.", "anchors": ["crypten/mpc/primitives/arithmetic.py: _arithmetic_function"]}
{"id": "C13", "title": "Triple verification accepts honest triples and accepts a forged one only if the forgery cancels", "statement": "With active_security on and elementwise multiplication, valid triples always pass verification; a triple with c = a*b+e and a check triple with h = f*g+e' passes exactly when t*e == e' mod 2^64. For matrix multiplication the same check rejects honest triples (exhibited).", "quantifier": "all triples, masks t, world sizes", "why_tests_cant": "Needs every adversarial error, not sampled ones.", "anchors": ["crypten/mpc/primitives/beaver.py: __beaver_protocol (active_security block)"]}
{"id": "C14", "title": "Opened Beaver values carry no information beyond one excluded value", "statement": "For each opened value e and each secret x there is exactly one mask a with x - a = e in the ring; since the generator never draws 2^63-1, exactly one opened value per secret is impossible. Other parties' shares of an encrypted tensor do not depend on the secret.", "quantifier": "all secrets and openings", "why_tests_cant": "Statement about distributions over 2^64 outcomes.", "anchors": ["crypten/common/rng.py: generate_random_ring_element", "crypten/mpc/primitives/beaver.py: __beaver_protocol", "crypten/mpc/primitives/arithmetic.py: __init__"]}
{"id": "C15", "title": "Division by a public integer with one or two parties", "statement": "With one party x/y reveals to the truncated quotient; with two parties it is within 1 of the truncated quotient whenever the two shares do not wrap, and is off by about 2^64/y when they do (exact characterisation).", "quantifier": "all x, y>0, share splits", "why_tests_cant": "The bad event has probability |x|/2^63 and cannot be sampled.", "anchors": ["crypten/mpc/primitives/arithmetic.py: div_"]}
{"id": "C16", "title": "Wrap counting", "statement": "count_wraps(l)*2^64 + (sum of l wrapped) equals the integer sum of l, for every list of 64-bit values in which no step adds -2^63 to a running value -2^63; each such step makes it off by exactly one.", "quantifier": "all lists of 64-bit integers", "why_tests_cant": "Unbounded list, corner value -2^63.", "anchors": ["crypten/common/util.py: count_wraps"]}
{"id": "C17", "title": "Private wrap protocol computes the wraps of the shares up to the mask overflow", "statement": "For any number of parties the revealed result of the wrap protocol equals the wrap count of the shares of x plus the overflow of x+r (0 when x+r does not overflow).", "quantifier": "all n, shares, masks", "why_tests_cant": "Depends on random mask r.", "anchors": ["crypten/mpc/primitives/beaver.py: wraps"]}
{"id": "C18", "title": "Division by a public integer with three or more parties", "statement": "For n>=1 shares and 1<=y, when the mask does not overflow, the revealed quotient differs from x/y by less than n + 4*|wraps| (less than n when y divides 2^62), hence the result is close for every split into shares.", "quantifier": "all n, shares, y, masks", "why_tests_cant": "Depends on shares/masks; error bound for all.", "anchors": ["crypten/mpc/primitives/beaver.py: truncate", "crypten/mpc/primitives/arithmetic.py: div_"]}
{"id": "C19", "title": "Replicated three-party multiplication, squaring and AND", "statement": "With three parties the replicated protocol reveals exactly the bilinear operation, square and bitwise AND of the revealed inputs; with four or more parties it does not (exhibited), with fewer it raises.", "quantifier": "all shares", "why_tests_cant": "All share splits; world-size generality.", "anchors": ["crypten/mpc/primitives/replicated.py: __replicated_secret_sharing_protocol, square, AND, replicate_shares"]}
{"id": "C20", "title": "Replicated three-party truncation", "statement": "With exactly three parties the replicated division is within 1 of x/y whenever share0 + (share1+share2) does not wrap; other world sizes raise NotImplementedError.", "quantifier": "all shares, y>0", "why_tests_cant": "as C15", "anchors": ["crypten/mpc/primitives/replicated.py: truncate"]}
{"id": "C21", "title": "Bitwise operations on XOR sharings", "statement": "&, |, ^, ~, <<, >> (arithmetic) and where() on binary-shared tensors reveal to the bitwise operation on the revealed inputs, for public and encrypted operands and any valid binary triple.", "quantifier": "all world sizes, shares, triples", "why_tests_cant": "every split and triple", "anchors": ["crypten/mpc/primitives/binary.py: __ixor__, __iand__, __or__, __invert__, lshift_, rshift_, where", "crypten/mpc/primitives/beaver.py: AND"]}
{"id": "C22", "title": "The shared adder circuit adds modulo 2^64", "statement": "Adding two binary-shared tensors reveals to the wrapped 64-bit sum for all operands, shares and triples.", "quantifier": "all pairs of 64-bit words, shares, triples", "why_tests_cant": "2^128 operand pairs.", "anchors": ["crypten/mpc/primitives/circuit.py: add, __SPK_circuit"]}
{"id": "C23", "title": "The shared comparison circuits are signed comparisons", "statement": "eq, ne, lt, le, gt, ge on binary-shared tensors reveal to 1 exactly when the signed 64-bit comparison holds and 0 otherwise.", "quantifier": "all pairs of 64-bit words, shares, triples", "why_tests_cant": "2^128 operand pairs.", "anchors": ["crypten/mpc/primitives/circuit.py: eq, lt, le, gt, ge", "crypten/mpc/primitives/binary.py: ne"]}
{"id": "C24", "title": "Log-reduction sum of binary sharings", "statement": "Summing any number of binary-shared tensors reveals to their wrapped sum.", "quantifier": "all list lengths >= 1", "why_tests_cant": "odd/even splitting at every length", "anchors": ["crypten/mpc/primitives/binary.py: sum"]}
{"id": "C25", "title": "Arithmetic to binary conversion is exact", "statement": "Converting an arithmetic sharing to a binary sharing keeps the revealed 64-bit value, for any number of parties.", "quantifier": "all n, shares", "why_tests_cant": "every split", "anchors": ["crypten/mpc/primitives/converters.py: _A2B"]}
{"id": "C26", "title": "Binary to arithmetic conversion is exact", "statement": "Converting a binary sharing to an arithmetic sharing with `bits=k` reveals the low k bits of the value (all 64 as the signed value when bits is omitted), times the integer ratio of the scales.", "quantifier": "all n, shares, k, correlated random bits", "why_tests_cant": "every split, every bit pattern", "anchors": ["crypten/mpc/primitives/converters.py: _B2A", "crypten/mpc/primitives/beaver.py: B2A_single_bit"]}
{"id": "C27", "title": "Conversion round trip", "statement": "Arithmetic -> binary -> arithmetic at an unchanged precision reveals the original value; at a different precision the value is multiplied by (new scale // old scale), which is 0 when the new scale is smaller.", "quantifier": "all n, shares, scales", "why_tests_cant": "scale mismatch untested", "anchors": ["crypten/mpc/primitives/converters.py: _A2B, _B2A", "crypten/mpc/mpc.py: MPCTensor._to_ptype"]}
{"id": "C28", "title": "Order comparisons of encrypted numbers", "statement": "x<y, x<=y, x>y, x>=y return (as an encrypted 0/1) the comparison of the represented numbers whenever the scaled difference fits in 64 bits and the common scale is 1 or the default scale; for another scale s the result is the 0/1 value times (default//s).", "quantifier": "all values, scales, n", "why_tests_cant": "difference overflow and scale corner cases", "anchors": ["crypten/mpc/mpc.py: MPCTensor._ltz", "crypten/common/functions/logic.py: lt, le, gt, ge"]}
{"id": "C29", "title": "Equality of encrypted numbers", "statement": "x==y and x!=y return 0/1 correctly for every number of parties when the scale of the difference is the default (and, except in two-party equality, 1); with two parties equality of scale-1 tensors returns the default scale instead of 1; a difference of exactly -2^63 makes != return 2 outside two-party mode.", "quantifier": "all values, n", "why_tests_cant": "special-case world sizes and corner differences", "anchors": ["crypten/mpc/mpc.py: MPCTensor.eq, ne, _eqz_2PC"]}
{"id": "C30", "title": "sign, abs, relu, where and hardtanh are exact", "statement": "On encrypted values with scale 1 or the default scale, sign, abs, relu and hardtanh reveal exactly the mathematical piecewise-linear function (no truncation error) whenever the negation/differences fit in 64 bits; where() with an encrypted condition and encrypted alternatives reveals exactly the chosen alternative; with a float alternative the fraction of that alternative is lost.", "quantifier": "all values", "why_tests_cant": "all split/values", "anchors": ["crypten/common/functions/logic.py: sign, abs, relu, where, hardtanh"]}
{"id": "C31", "title": "max/min return a true maximum for every method", "statement": "For each of the four configured methods and every non-empty vector with scale 1 or the default scale, max reveals the maximum element (min the minimum), whenever pairwise differences fit in 64 bits and the vector is short enough for the tie-break (length * 2^precision below 2^63); at other scales the result need not be an element of the vector.", "quantifier": "all vectors of length >= 1, all methods", "why_tests_cant": "all lengths (odd, square, non-square)", "anchors": ["crypten/common/functions/maximum.py: max, min, _max_helper_*"]}
{"id": "C32", "title": "argmax is one-hot on a maximal element", "statement": "argmax (one_hot) reveals a 0/1 vector with exactly one 1, placed at an element attaining the maximum, whatever the random tie-breaking draw; the index form returns that position; argmin likewise for the minimum. (Scale 1 or default; at a larger scale argmax may point to a smaller element.)", "quantifier": "all vectors, all random draws in [0,1)", "why_tests_cant": "tie-breaking is random", "anchors": ["crypten/common/functions/maximum.py: _argmax_helper, _one_hot_to_index", "crypten/common/functions/sampling.py: weighted_index"]}
{"id": "C33", "title": "Shared random numbers are in [0,1)", "statement": "MPCTensor.rand reveals a multiple of 2^-precision in [0,1) for every local generator output, and each value is attained for exactly the same number of a party's draws.", "quantifier": "all local draws, n", "why_tests_cant": "distribution claim", "anchors": ["crypten/mpc/mpc.py: rand", "crypten/mpc/primitives/binary.py: rand"]}
{"id": "C34", "title": "Trusted-first-party tuples are valid", "statement": "Every tuple type produced by the first-party provider satisfies its defining relation (c=op(a,b), r2=r*r, c=a&b, theta=wraps(r), rA=rB bit), whatever was requested before.", "quantifier": "all request histories, sizes, n, seeds", "why_tests_cant": "histories unbounded", "anchors": ["crypten/mpc/provider/tfp_provider.py"]}
{"id": "C35", "title": "Trusted-third-party server and clients never desynchronise", "statement": "For every history of CPU requests with two or more parties, the server's generator for party i is in the same state as party i's generator after each request, and every tuple handed out satisfies its correlation (triples, squares, binary triples, wrap counts, B2A bits). With one party the first request makes the server raise. A CUDA wrap request on a tensor with dimensions stops the server; on a zero-dimensional tensor it is answered with a wrong wrap count (both exhibited). What a party draws on one device does not depend on the draws on the other.", "quantifier": "all n>=2, seeds, request histories", "why_tests_cant": "histories unbounded", "anchors": ["crypten/mpc/provider/ttp_provider.py: TrustedThirdParty, TTPClient, TTPServer"]}
{"id": "C36", "title": "The tuple cache hands out each tuple at most once and only for matching requests", "statement": "For every history of trace / fill / request / save / load, each cached tuple is handed out at most once and only for the request it was generated for, an answered request gets the tuple the provider made for it, a request for an exhausted key fails, and saving then loading a cache gives the same cache.", "quantifier": "all traces / request sequences", "why_tests_cant": "unbounded histories", "anchors": ["crypten/mpc/provider/provider.py: TupleProvider"]}
{"id": "C37", "title": "Temporary configuration overrides are always undone", "statement": "After a temp_override block exits, normally or by an exception, and however nested, the configuration is what it was on entry; inside, exactly the overridden keys differ. A change made through a config object remembered from before the block escapes this (exhibited).", "quantifier": "all nested programs with assignments and exceptions", "why_tests_cant": "all nestings", "anchors": ["crypten/config/config.py: temp_override"]}
{"id": "C38", "title": "In-process collectives deliver the right values under every thread schedule", "statement": "For any program of all_gather, gather and scatter on the in-process communicator, any number of parties and any thread schedule: every call returns the parties' tensors in rank order (or the party's own piece), no schedule deadlocks, and every schedule ends.", "quantifier": "all interleavings, all n", "why_tests_cant": "schedules cannot be enumerated by tests", "anchors": ["crypten/communicator/in_process_communicator.py: all_gather, gather, scatter"]}
{"id": "C39", "title": "In-process broadcast has no ordering guarantee", "statement": "broadcast omits the barrier, so with two parties there are complete schedules in which a party's own broadcast returns another collective's tensor, or a later all_gather raises (exhibited). With a barrier every program of collectives is right; as it is, broadcasts that all come from one source are right.", "quantifier": "schedules", "why_tests_cant": "race", "anchors": ["crypten/communicator/in_process_communicator.py: broadcast"]}
{"id": "C40", "title": "Seed synchronisation pairs neighbours", "statement": "After initialisation with n>=2 parties, party i's `next` seed equals party (i+1 mod n)'s `prev` seed, and all parties have the same global seed.", "quantifier": "all n, all local seeds", "why_tests_cant": "all n", "anchors": ["crypten/__init__.py: _setup_prng, _sync_seeds"]}
{"id": "C41", "title": "Oblivious transfer delivers exactly the chosen message", "statement": "For all message pairs of at most 64 characters, all choice bits and all random exponents, the receiver obtains the chosen message of each pair; longer messages or lists of different lengths raise. The other message is padded with the hash of a different number for every exponent alpha that is not a multiple of 3432591758899352; the sender's range includes two exponents, 0 and prime-1, with which the receiver can read both (exhibited).", "quantifier": "all exponents, messages, choices, hash functions", "why_tests_cant": "exponents range over a 128-bit group", "anchors": ["crypten/mpc/primitives/ot/baseOT.py: BaseOT"]}
{"id": "C42", "title": "GPU integer products via float64 blocks are exact within the stated sizes", "statement": "matmul on a GPU equals the 64-bit wrapped integer product for all operands with inner dimension up to 2^21, and a convolution does as long as no output element adds more than 512 products (fewer than 256 kernel elements) or 2^21 products (otherwise), for every rounding mode and order of summation; the block count is chosen from the kernel size only, ignoring input channels, so a 1x1 convolution over 1023 channels gives a wrong result (exhibited). avg_pool2d gives the truncated quotient of the exact window sums for windows up to 2^31 elements.", "quantifier": "all operands, all inner lengths in range", "why_tests_cant": "2^64 ranges, all lengths", "anchors": ["crypten/cuda/cuda_tensor.py: __encode_as_fp64, __decode_as_int64, matmul, __patched_conv_ops, avg_pool2d"]}
{"id": "C43", "title": "Integer powers", "statement": "x.pow(p) for p>0 computes x**q where q=p exactly when p = 2^k or 3*2^k, and q>p for every other p (pow(5) computes x**6); exact mod 2^64 at scale 1, and within (q-1)*E units in the last place at fixed point when every truncation is within E units; pow(0) is one.", "quantifier": "all p>=0", "why_tests_cant": "all exponents", "anchors": ["crypten/common/functions/power.py: pow"]}
{"id": "C44", "title": "Product and polynomial log-reductions", "statement": "prod over any number of encrypted values reveals their product and polynomial evaluates sum c_i x^i for any number of coefficients: exactly mod 2^64 at scale 1, and within (k-1)*E, respectively sum (1+(i-1)|c_i|)*E, units in the last place at fixed point when every truncation is within E units.", "quantifier": "all lengths", "why_tests_cant": "odd/even at each level", "anchors": ["crypten/common/functions/regular.py: prod", "crypten/common/functions/power.py: polynomial"]}
{"id": "C45", "title": "Mean and variance divisors", "statement": "mean divides by the number of reduced elements and is accurate to E units; var divides the sum of squared deviations by N when unbiased=True and by N-1 when unbiased=False (inverted relative to its documentation), not at all when the divisor is 0 or 1, and ignores a dim given by keyword.", "quantifier": "all shapes", "why_tests_cant": "all sizes/flags", "anchors": ["crypten/common/functions/regular.py: mean, var"]}
{"id": "C46", "title": "Concatenation and stacking keep every operand", "statement": "cat of encrypted tensors of one scale reveals the concatenation of all operands in order; a list containing a plain tensor or number at any position always raises (the helper converts it at the wrong index), so it is never silently dropped; tensors of different scale are all labelled with the first tensor's scale.", "quantifier": "all lists", "why_tests_cant": "mixed lists", "anchors": ["crypten/common/functions/regular.py: __cat_stack_helper", "crypten/mpc/primitives/arithmetic.py: stack"]}
{"id": "C47", "title": "Padding adds the public value once", "statement": "pad with a public value reveals that (encoded) value at every padded position for any number of parties; max_pool2d's own padding writes -2^24 into every party's share, so the padded value is n*(-2^24).", "quantifier": "all n, shares", "why_tests_cant": "n-party generality", "anchors": ["crypten/mpc/primitives/arithmetic.py: pad", "crypten/common/functions/pooling.py: max_pool2d, _pool2d_reshape"]}
{"id": "C48", "title": "Backpropagation sums over all paths of an arbitrary graph", "statement": "On a freshly built computation graph of any shape, backward() from the output leaves in every leaf that requires gradients the sum over all paths of the product of local derivatives, each node's local backward being run exactly once.", "quantifier": "all finite DAGs with any fan-out", "why_tests_cant": "all graph shapes", "anchors": ["crypten/cryptensor.py: CrypTensor.backward, _identify_required_grads, autograd_forward"]}
{"id": "C49", "title": "Backpropagation history dependence", "statement": "A second backward() through an already-consumed intermediate silently propagates nothing below it; detach_() on an intermediate keeps its children registered so that gradients of shared ancestors are never propagated (exhibited).", "quantifier": "histories of backward calls", "why_tests_cant": "call order", "anchors": ["crypten/cryptensor.py: backward, detach_"]}
{"id": "C50", "title": "Reducing a broadcast gradient", "statement": "_inverse_broadcast(grad, shape) sums the gradient over exactly the broadcast dimensions: it is the adjoint of broadcasting for every pair of compatible shapes.", "quantifier": "all shapes", "why_tests_cant": "all shape pairs", "anchors": ["crypten/gradients.py: _inverse_broadcast"]}
{"id": "C51", "title": "Gradient-mode contexts nest and restore", "statement": "After no_grad/enable_grad blocks exit, normally or exceptionally, in any nesting, the gradient mode is what it was on entry.", "quantifier": "all nestings", "why_tests_cant": "all nestings", "anchors": ["crypten/cryptensor.py: CrypTensorMetaclass, no_grad, enable_grad"]}
{"id": "C52", "title": "SGD follows the momentum recursion for any number of steps", "statement": "For every sequence of gradients the parameter trajectory is that of the reference momentum/dampening/Nesterov/weight-decay recursion. The optimizer accepts exactly the options without negative lr, momentum and weight_decay, and with Nesterov's method only those with momentum and no dampening.", "quantifier": "all gradient sequences", "why_tests_cant": "all step counts", "anchors": ["crypten/optim/sgd.py: SGD.step"]}
{"id": "C53", "title": "Graph module evaluates every well-formed graph", "statement": "nn.Graph.forward returns the value of the output node for every acyclic graph with one output whose nodes do not use an input twice, whatever the insertion order, within one loop iteration per node. Outside this class: a node that uses one value twice is never computed; two output names of one input raise KeyError; a node's second output named as graph output raises KeyError; a multi-output module without an output of its own name loops forever (each exhibited).", "quantifier": "all DAGs, insertion orders", "why_tests_cant": "all graphs", "anchors": ["crypten/nn/module.py: Graph.forward"]}
{"id": "C54", "title": "State dictionary round trip", "statement": "state_dict holds exactly the current tensors of all parameters and buffers of a module tree under their dotted paths; loading it into a module with the same parameters restores every parameter (tied ones too), keeps sizes and encryption, and changes nothing else. Hence buffers are not restored, strict loading accepts unexpected keys, strict=False still raises on missing keys, a failing load may have overwritten parameters, and dotted names can collide (each exhibited).", "quantifier": "all module trees, heaps, state dictionaries", "why_tests_cant": "all trees", "anchors": ["crypten/nn/module.py: state_dict, load_state_dict, _load_from_state_dict_crypten"]}
{"id": "C55", "title": "Multi-process results are in rank order", "statement": "run_multiprocess returns the parties' return values in rank order for every completion order, or None if some party failed.", "quantifier": "all completion orders", "why_tests_cant": "schedules", "anchors": ["crypten/mpc/context.py: run_multiprocess"]}
{"id": "C56", "title": "Deserialisation only resolves allow-listed classes", "statement": "After any sequence of register_safe_class calls, unpickling resolves a full class name to the class last registered under it, else to the built-in allow-list entry, else raises; whatever the byte stream, every callable invoked, its arguments and the result are built only from such objects. Registering a built-in class has no effect, and the hook check covers only a tensor or module at the top level (exhibited).", "quantifier": "all pickles, registration histories", "why_tests_cant": "adversarial inputs", "anchors": ["crypten/common/serial.py: RestrictedUnpickler"]}
{"id": "C57", "title": "Communication counters", "statement": "With verbose accounting, after any history of collectives each party's round and byte counters have grown by the number of operations it took part in and the bytes it sent and received, so the counters of all parties sum to twice the bytes communicated, as documented. Exceptions exhibited: broadcast_obj, broadcasts by the trusted third party, roots passed by keyword (IndexError only when verbose), batched passed positionally, and the single-party shortcut of scatter and recv_obj.", "quantifier": "all call histories", "why_tests_cant": "histories", "anchors": ["crypten/communicator/communicator.py: _logging, _log_communication, reset_communication_stats"]}
{"id": "C58", "title": "Label privacy in split learning", "statement": "Flipping public label bits yields label XOR mask. The encrypted branch computes t + p - 2mt, which is never a label and determines the true one (exhibited); the caller's labels are overwritten, so later epochs flip flipped labels (exhibited); noise_src=0 is treated as absent (exhibited). Without noise, layer estimation recovers the gradient of the logits exactly when the rows of the last layer's input are independent.", "quantifier": "all labels, masks, probabilities in (0, 1/2), numbers of epochs, layer sizes", "why_tests_cant": "The unit tests never enable randomised response, and a run only shows one noisy label.", "anchors": ["crypten/nn/privacy/dp_split.py: _process_targets, _add_dp_if_necessary, _compute_last_layer_grad, _solve_dLdZ"]}
{"id": "C59", "title": "Weighted sampling picks by interval", "statement": "weighted_index with non-negative integer weights of positive sum W reveals the indicator of the index whose cumulative-weight interval contains u*W/2^precision, u being the shared random number: never a zero-weight index, and the number of draws picking an index of weight w differs from w*2^precision/W by less than one.", "quantifier": "all weights with W*2^precision < 2^63, all local draws, any number of parties", "why_tests_cant": "distribution claim over all draws; off-by-one at interval ends needs specific draws", "anchors": ["crypten/common/functions/sampling.py: weighted_index", "crypten/mpc/mpc.py: rand"]}
{"id": "C62", "title": "Validation mode of square", "statement": "With debug.validation_mode on, x.square() raises whenever x*x is not an exact multiple of the scale, for any number of parties, while x.mul(x) is accepted whenever its truncation is off by less than one unit (always, with one party).", "quantifier": "all tensors, scales, parties and correlated randomness", "why_tests_cant": "depends on the residue of every square modulo the scale", "anchors": ["crypten/mpc/primitives/arithmetic.py: square_, div_", "crypten/mpc/primitives/beaver.py: square"]}
{"id": "C60", "title": "Adaptive pooling windows", "statement": "adaptive_max_pool2d / adaptive_avg_pool2d pool, for output (i, j), exactly the elements overlapping the intervals [i*H/h, (i+1)*H/h) and [j*W/w, (j+1)*W/w), as PyTorch does: the resized input has the same set of values (max) and, in exact arithmetic, the same mean (avg) in every block. The window boundaries are computed in float64; they are right when the output size divides the input size, otherwise right except possibly where the boundary should be an integer, and then off by one element outwards; 29 -> 7 yields 6 outputs.", "quantifier": "all matrices, all output sizes (float statement: sizes up to 2^50)", "why_tests_cant": "depends on the rounding of every j*(in/out); wrong for rare size pairs only", "anchors": ["crypten/common/functions/pooling.py: _adaptive_pool2d_helper, adaptive_max_pool2d, adaptive_avg_pool2d"]}
{"id": "C61", "title": "Pooling windows and gradient routing", "statement": "max_pool2d sees, for every plane and output position, exactly the elements under the dilated kernel of the padded image, in row-major order, and the number of positions is the number of kernels that fit (floor) or start inside (ceil). The backward pass adds every window's gradient to the element at which its maximum was found. Fails for different row and column padding (exception or wrong windows) and, in ceil mode, for kernels that differ between the dimensions (exception).", "quantifier": "all image sizes, leading dimensions, kernels, strides, dilations, paddings, floor and ceil mode", "why_tests_cant": "infinite family of geometries; failing combinations are asymmetric", "anchors": ["crypten/common/functions/pooling.py: _pool2d_reshape, _pooling_output_shape, _max_pool2d_backward"]}
{"id": "C63", "title": "Gradients of structural operations", "statement": "For every structural or linear operation (t, transpose, permute, flip, roll, view, reshape, flatten, squeeze, unsqueeze, narrow, pad, take, index_select, gather, cat, stack, sum, cumsum, trace, neg, add, sub, mul with broadcasting) the registered gradient function returns, for every input on which the operation is defined, one tensor per input, of exactly the input's shape, that is the exact gradient of every weighted sum of the output. Fails for negative dimensions of permute and narrow (exception), negative start of narrow (wrong gradient), cropping pads (exception), repeated indices of take (gradients lost) and the trace of rectangular matrices (wrong shape).", "quantifier": "all shapes, dimensions, index lists, inputs and output gradients", "why_tests_cant": "infinite family of shapes and arguments; numerical gradient checks compare single points", "anchors": ["crypten/gradients.py: AutogradT, AutogradTranspose, AutogradPermute, AutogradFlip, AutogradCat, AutogradStack, AutogradView, AutogradReshape, AutogradFlatten, AutogradNarrow, AutogradTake, AutogradIndexSelect, AutogradGather, AutogradRoll, AutogradSqueeze, AutogradUnsqueeze, AutogradNeg, AutogradAdd, AutogradSub, AutogradRSub, AutogradMul, AutogradSum, AutogradCumsum, AutogradTrace, AutogradPad"]}
{"id": "C64", "title": "Gradients of matrix products", "statement": "For matmul of matrices, of broadcast batches of matrices, and of vectors with vectors or matrices, and for dot and ger, the backward function returns for each operand a tensor of the operand's shape that is the exact gradient. Fails for a vector times a batch of matrices and a batch of matrices times a vector: the forward product is defined, the backward function raises.", "quantifier": "all shapes including batch broadcasting and sizes 0 and 1, all operands and output gradients", "why_tests_cant": "infinite family of shape pairs", "anchors": ["crypten/gradients.py: AutogradMatMul, AutogradDot, AutogradGer"]}
{"id": "C65", "title": "Gradients of convolutions and average pooling", "statement": "For conv1d and conv2d without groups, or with one input channel per group, the backward function returns a gradient for the input and one for the kernel, each of the operand's shape and each the exact gradient, for every stride, padding and dilation, also when the stride leaves input elements unused. The same holds for avg_pool2d. Fails for grouped convolutions with several input channels per group: the forward result is defined, the backward function raises.", "quantifier": "all batch sizes, channel numbers, spatial sizes, kernels, strides, paddings, dilations, operands and output gradients", "why_tests_cant": "infinite family of geometries; errors show only for combinations of stride, dilation and leftover elements", "anchors": ["crypten/gradients.py: AutogradConv1D, AutogradConv2D, AutogradAvgPool2D", "crypten/common/util.py: _grad_input_padding"]}
{"id": "C66", "title": "Gradients of elementwise functions", "statement": "relu, abs, sign, tanh, sigmoid, exp, log, reciprocal, sqrt, square, sin, cos, hardtanh, relu6, dropout, division and polynomials compute the named function, and for every incoming gradient the backward function returns the transposed derivative of the forward function, at every point where that function is differentiable. Integer powers are right exactly when pow gets p-1 right. Fails: pow for the other exponents, pos_pow with a fractional exponent, and the caller's coefficient tensor, which polynomial's backward multiplies.", "quantifier": "all tensor sizes, entries in the domain, incoming gradients, directions, coefficient lists and exponents", "why_tests_cant": "a derivative is a limit; numerical comparison at sample points tolerates wrong formulas that agree there (pos_pow's gradient agrees for exponent 1)", "anchors": ["crypten/gradients.py: AutogradReLU, AutogradDropout, AutogradTanh, AutogradHardtanh, AutogradReLU6, AutogradDiv, AutogradRDiv, AutogradPolynomial, AutogradPow, AutogradPosPow, AutogradSquare, AutogradSqrt, AutogradExp, AutogradLog, AutogradReciprocal, AutogradSin, AutogradCos, AutogradAbs, AutogradSign, AutogradSigmoid", "crypten/common/functions/power.py: pow, polynomial"]}
{"id": "C67", "title": "Softmax and loss gradients", "statement": "softmax along a dimension gives positive numbers with sum 1, exp(x_i)/sum_j exp(x_j), and log_softmax their logarithms; the gradients of both are exact, also for 0-d tensors and dimensions of size 1. Binary cross entropy (of probabilities, of logits, and RAPPOR with 0 < alpha <= 1) and cross entropy compute the documented loss and their gradients are exact; for cross entropy the targets must be distributions over the classes, otherwise the gradient is wrong. Fails for RAPPOR with alpha = 0, which is treated as alpha = 1.", "quantifier": "all tensor sizes, scores, targets, incoming gradients and directions", "why_tests_cant": "a derivative is a limit over all directions; tests use one-hot targets only, where the missing factor is 1", "anchors": ["crypten/common/functions/approximations.py: softmax, log_softmax", "crypten/gradients.py: AutogradSoftmax, AutogradLogSoftmax, AutogradBinaryCrossEntropy, AutogradBinaryCrossEntropyWithLogits, AutogradRAPPORLoss, AutogradCrossEntropy"]}
{"id": "C68", "title": "Reductions and their gradients", "statement": "mean, var, max, min, norm and cosine_similarity compute the documented function over all entries or along one dimension, and their backward passes are the exact derivative (max and min: where each group has a single extremal entry, a subgradient otherwise; norm and cosine_similarity: where no norm is zero). Fails in four ways: var's unbiased flag is inverted (unbiased=True divides by N, the default by N-1); norm along dimension 1 without keepdim raises in backward or returns a wrong gradient; the 5-norm of one number is not that number (pow); cosine_similarity with a negative dim is wrong.", "quantifier": "all tensor sizes, entries, dimensions, incoming gradients and directions", "why_tests_cant": "a derivative is a limit over all directions, and the tests compare var with unbiased=False against torch's unbiased value", "anchors": ["crypten/gradients.py: AutogradMean, AutogradVar, AutogradMin, AutogradMax, AutogradNorm, AutogradCosineSimilarity", "crypten/common/functions/regular.py: mean, var", "crypten/common/functions/power.py: norm"]}
{"id": "C69", "title": "Batch normalisation", "statement": "In training mode batchnorm normalises every channel by the mean and the biased variance of the batch, and its backward pass is the exact derivative with respect to input, weight and bias, including the dependence of mean and variance on the input; in evaluation mode it uses the running statistics and the gradients are exact with these constant. Running statistics move by momentum towards the statistics of the batch. Fails to match PyTorch in the running variance, which is the biased one.", "quantifier": "all batch sizes and shapes, channels, entries, weights, biases, eps, momentum, incoming gradients and directions", "why_tests_cant": "the gradient couples all entries of a channel; tests check a few random batches up to a tolerance", "anchors": ["crypten/gradients.py: AutogradBatchNorm"]}
{"id": "C70", "title": "Accuracy of the exponential", "statement": "exp() is (1 + x/2^d)^(2^d) with d = functions.exp_iterations: never negative, at most e^x for x >= -2^d, and at least e^x (1 - x^2/2^d); it tends to e^x as d grows. It is refuted for very negative inputs: from x = -2^(d+1) on the result is at least 1 (with the default 8 iterations, exp(-512) is 1).", "quantifier": "all real inputs and all numbers of iterations d >= 1, rounding aside", "why_tests_cant": "a bound on the error for every input and every configuration; tests compare a few inputs with a tolerance", "anchors": ["crypten/common/functions/approximations.py: exp"]}
{"id": "C71", "title": "Accuracy and domain of the reciprocal", "statement": "With the Newton method the result r satisfies 1 - x r = (1 - |x| y0)^(2^iterations) where y0 is the first estimate; hence the iterations tend to 1/x exactly if 0 < |x| y0 < 2. With the built-in estimate this holds for 0 < |x| <= 166 as long as 2|x| <= 2^exp_iterations + 1; in the default configuration 0 <= 1 - x r <= 2^-14 for every 0.01 <= |x| <= 250. Beyond 2^exp_iterations + 1/2 the method diverges and the sign is wrong. The setting reciprocal_log_iters has no effect.", "quantifier": "all real inputs, signs, iteration counts, first estimates and configurations, rounding aside", "why_tests_cant": "convergence for a whole range of inputs, and divergence outside; tests sample inputs", "anchors": ["crypten/common/functions/approximations.py: reciprocal"]}
{"id": "C72", "title": "Convergence of sqrt and inv_sqrt", "statement": "Once the first estimate y0 is positive with x y0^2 < 3, every further iteration satisfies 0 <= 1 - x y^2 <= q^(2^k) with q < 1, and inv_sqrt and sqrt tend to 1/sqrt(x) and sqrt(x). With the default estimate this is so for 0 < x <= 204. Refuted from 205 to 300: every number of iterations gives a negative square root, tending to -sqrt(x); from 195 to 204 the default three iterations give less than half the root. A configured sqrt_nr_initial always raises AttributeError.", "quantifier": "all real inputs and iteration counts, rounding aside", "why_tests_cant": "convergence and its exact limit on intervals of inputs; the failing range is outside what tests sample", "anchors": ["crypten/common/functions/approximations.py: inv_sqrt, sqrt"]}
{"id": "C73", "title": "Accuracy of cosine and sine", "statement": "cos and sin are the real and imaginary part of (1 + i x/N)^N with N = 2^trig_iterations; the error is at most exp(x^2/(2N)) - 1 + |x|^3/(3N^2), the results tend to cos x and sin x as the iterations grow, and the sum of their squares is between 1 + x^2/N and exp(x^2/N). Refuted far from zero: from |x| = 100 on one of the two exceeds 2 in the default configuration; and for trig_iterations = 0 one squaring is done all the same.", "quantifier": "all real inputs and iteration counts, rounding aside", "why_tests_cant": "bounds for every input and configuration", "anchors": ["crypten/common/functions/approximations.py: _eix, cossin, cos, sin"]}
{"id": "C74", "title": "Documented accuracy of the logarithm", "statement": "With the default configuration log() is within 2% of ln x plus 0.001 for every x from 0.0001 to 250 (the documentation promises less than 2% on this interval; at x = 1, where ln x = 0, a purely relative bound is refuted). With input_in_01 the bound is that of 100x, for x from 0.000001 to 1. The iteration rests at N(1 - x^(-1/N)), N = 2^log_exp_iterations, which is below ln x by at most (ln x)^2/N.", "quantifier": "every real input of the interval, rounding aside", "why_tests_cant": "a bound over a whole interval; tests and the documentation's plot sample it", "anchors": ["crypten/common/functions/approximations.py: log"]}
{"id": "C75", "title": "Accuracy and symmetry of sigmoid and tanh", "statement": "By the reciprocal method, for |x| <= N = 2^exp_iterations, sigmoid is between 0 and 1 and within 1/256 + 1/N of the exact one; for 2|x| <= N tanh is between -1 and 1 and within twice that. sigmoid(-x) = 1 - sigmoid(x) and tanh(-x) = -tanh(x) hold exactly away from 0; at 0 they are refuted (255/512 and -1/256 for any number of exp iterations), and at |x| = 2N the sigmoid is that of 0 again.", "quantifier": "all real inputs in the ranges and all iteration counts, rounding aside", "why_tests_cant": "bounds for all inputs; the asymmetry is below the tolerance of tests", "anchors": ["crypten/common/functions/approximations.py: sigmoid, tanh"]}
{"id": "C76", "title": "tanh and sigmoid by Chebyshev polynomials", "statement": "For an even number of terms from 6 on the polynomials computed are T_1, T_3, ..., T_(terms-1) at every x, and tanh is exact at each Chebyshev node of [-1, 1], sigmoid at twice each node; any other number of terms raises ValueError in both.", "quantifier": "all real inputs, all numbers of terms, all nodes, rounding aside", "why_tests_cant": "exactness of an interpolation for every number of terms", "anchors": ["crypten/common/functions/approximations.py: tanh, sigmoid, _chebyshev_polynomials", "crypten/common/util.py: chebyshev_series"]}
{"id": "C77", "title": "Error function", "statement": "With at most one iteration erf is the Taylor polynomial of the error function. From two iterations on this is refuted: the term of degree 5 is computed with x^6 (positive odd powers from 5 on are wrong in pow, C43), and in the default configuration erf is not an odd function: erf(x) + erf(-x) > 0 for 0 < |x| <= 1.", "quantifier": "all real inputs, rounding aside", "why_tests_cant": "the difference is within the tolerance of tests for small inputs", "anchors": ["crypten/common/functions/approximations.py: erf", "crypten/common/functions/power.py: pow"]}
{"id": "C78", "title": "softmax and log_softmax", "statement": "In the default configuration, for 2 to 250 entries at most 256 apart, softmax values are between 0 and 1, their total is between 1 - 1/16384 and 1, and each is within n/256 + 1/16384 of the exact value; log_softmax is within 2% of ln n plus 0.001 plus n/256. For any configuration with an iteration the total never exceeds 1. Refuted for many entries: 257 or more equal entries give negative results with a total below -1.", "quantifier": "all lines of real entries in the ranges, rounding aside", "why_tests_cant": "bounds for all inputs and sizes; tests use a few classes", "anchors": ["crypten/common/functions/approximations.py: softmax, log_softmax"]}
{"id": "C79", "title": "Rounding error of exp on shares", "statement": "exp of an encrypted x at scale s with d iterations, in a run whose truncations are each off by less than E units in the last place, is (1 + x/2^d)^(2^d) up to (1 + E/s)^(2^(d+1)-1) - 1 (relative above 1), provided the squares stay below 2^63. At the defaults (s = 65536, d = 8, E <= 2) it is within 0.004 + 0.0079 E of e^x for -256 <= x <= 0 and within the relative error x^2/256 + 0.0079 E for 0 <= x <= 22. With one party every run qualifies with E = 1. From 23 on the result is wrong: exp(23) comes out below -600000000.", "quantifier": "all encrypted inputs, sharings, valid providers, numbers of parties, scales and iteration counts", "why_tests_cant": "error accumulation over squarings and overflow thresholds depend on every input and on the truncation noise", "anchors": ["crypten/common/functions/approximations.py: exp", "crypten/mpc/primitives/arithmetic.py: div_, square_"]}
{"id": "C80", "title": "Rounding error of reciprocal on shares", "statement": "reciprocal of an encrypted x (Newton method) of either sign: one iteration takes a relative error q to q^2 + X(X+1)E/D with X = |x|, starting from that of 3 exp(1-2X) + 0.003 computed on shares. At the defaults and for 0.01 <= X <= 30, the final relative error is at most X(X+1)E/65536 + 1/500. Outside, it is wrong: 1/250 comes out 70 per cent too large and 1/256 below -1000000.", "quantifier": "all encrypted inputs, sharings, valid providers, numbers of parties, iteration counts", "why_tests_cant": "the growth of the rounding error with X and the divergence threshold need all inputs", "anchors": ["crypten/common/functions/approximations.py: reciprocal", "crypten/mpc/primitives/arithmetic.py: div_, square_"]}
{"id": "C81", "title": "Rounding error of sigmoid and tanh on shares", "statement": "sigmoid by the reciprocal method on an encrypted |x| <= 2^d is within 1/256 + 3/2 (g + 2^-d) + 16 E/D of the exact value, where g is the error growth of exp; tanh for 2|x| <= 2^d within twice that. At the defaults: 1/100 + E/80 and 1/50 + E/40; with one party 1/40 and 1/20. sigmoid(0) is 255/512, tanh(0) is -1/256 and sigmoid(513) is below -27.", "quantifier": "all encrypted inputs in the ranges, sharings, valid providers, numbers of parties, exp iterations", "why_tests_cant": "bound over all inputs and truncation noise", "anchors": ["crypten/common/functions/approximations.py: sigmoid, tanh, reciprocal", "crypten/common/functions/logic.py: where"]}
{"id": "C82", "title": "encrypt and decrypt convert a whole model", "statement": "For a tree (or acyclic graph with shared modules) of modules, model.encrypt(src) on an unencrypted model ends with every module below it marked encrypted, every parameter and tensor buffer replaced by an encryption of the source's value, with the same names, order, requires_grad, training state and structure; other modules and existing tensors are untouched, constants keep their value. decrypt is the same in the other direction, so encrypt then decrypt leaves every party with the source's values as rounded by the encoder. Calling encrypt on an encrypted model does nothing at all. Refuted: it does not encrypt a module added since; an already encrypted buffer of an unencrypted module is revealed by encrypt; a weight shared by two modules becomes two independent tensors.", "quantifier": "all module graphs without cycles, parameters, buffers, sources and stack depths that suffice", "why_tests_cant": "tests encrypt a few fixed models; sharing, nesting and mixed states are unbounded", "anchors": ["crypten/nn/module.py: Module.encrypt, decrypt, _apply, named_children, Constant.encrypt"]}
{"id": "C83", "title": "train and eval, and any sequence of mode changes", "statement": "model.train(mode) sets training and requires_grad of every parameter of every module below and changes no contents; batch normalisation recomputes the inverse deviation it keeps on eval and drops it on train. After any sequence of encrypt, decrypt, train and eval calls, every module's encrypted and training flags are those of the last calls, contents are the composition of the conversions, requires_grad is that of the last train or eval call. Refuted: after eval followed by encrypt, batch normalisation keeps a plaintext inverse deviation computed by each party from its own statistics, not from the source's; train() makes frozen parameters trainable again.", "quantifier": "all module graphs without cycles, all finite sequences of calls", "why_tests_cant": "orders of calls and model shapes are unbounded", "anchors": ["crypten/nn/module.py: Module.train, eval, encrypt, decrypt, _BatchNorm.train"]}
{"id": "C84", "title": "Slice, Expand, Flatten, Reshape and Gather of an imported model follow ONNX", "statement": "nn.Slice returns exactly for ranges inside the tensor and then gives ONNX's slice; nn.Expand gives ONNX's broadcast when the number of dimensions agrees (-1 keeps a size) or no size is 1; nn.Flatten gives the matrix of ONNX's definition for every non-negative axis; nn.Reshape gives ONNX's result when no size is zero; nn.Gather along an axis gives ONNX's result, also for negative indices. Refuted: x[-k:0] returns the last k entries instead of none; x[-k:] with the end 2^63-1 given as a tensor loses the last entry, because the bounds are reduced to 32 bits; expanding a vector of n entries to (1, n) gives (n, n); a zero in Reshape, ONNX's way to keep a size, fails; Gather without an axis attribute reads the flattened tensor instead of axis 0.", "quantifier": "all shapes, values, attributes and index tensors", "why_tests_cant": "tests import single-operator models on a few shapes; signs, defaults and ranks combine without bound", "anchors": ["crypten/nn/module.py: Slice, Expand, Flatten, Reshape, Gather", "crypten/common/functions/regular.py: take"]}
{"id": "C85", "title": "padding, strides and bounds of imported nodes follow ONNX", "statement": "Pad gives ONNX's result when the list of pads means the same in PyTorch's order, Conv (1-D, 2-D, grouped, with bias) when all pads are equal, AveragePool when kernel, strides and pads are square, Clip when both bounds are given, Equal on equal shapes. Refuted: pads of a batch of images pad the batch; Conv2d(padding=(p, q)) is imported with padding (p, p); a kh by kw pooling kernel becomes kh by kh since the check for square kernels compares a literal; dilations of MaxPool are ignored; a missing bound of Clip becomes -1 or 1; Equal of broadcast shapes returns Python's False; Cast picks the wrong type for every type number.", "quantifier": "all shapes, values and attributes", "why_tests_cant": "tests use square and symmetric attributes, where the two conventions agree", "anchors": ["crypten/nn/module.py: _ConstantPad, Conv, _Pool2d.from_onnx, Hardtanh.from_onnx, Equal, Cast.from_onnx"]}
{"id": "C86", "title": "an imported ONNX model computes what the ONNX model computes", "statement": "For every valid ONNX model with one output whose operators have modules that compute them, from_onnx builds a graph, and calling it returns the value that evaluating the nodes in order gives to the output, whatever the order in which the graph happens to run its modules; unused Dropout masks are dropped. Refuted: a model with an omitted optional input, or whose output uses one value twice, is imported but never returns a value; a model that lists its initializers among its inputs refuses the data alone; a model that returns its input raises.", "quantifier": "all models, operators, names and arguments", "why_tests_cant": "tests import a handful of networks; graphs are unbounded", "anchors": ["crypten/nn/onnx_converter.py: _to_crypten, _get_input_output_names", "crypten/nn/module.py: Graph.add_module, Graph.forward"]}
{"id": "C87", "title": "with the trusted third party a coalition sees nothing beyond its inputs and what is revealed", "statement": "For any sequence of local computations, encryptions, masked openings (multiplication, squaring, bitwise and, bit conversion, wrap count) and reveals, by any number of parties and with any coalition that leaves out one party: the coalition's registers and all messages can be computed from its own inputs, the shares revealed by the others and fresh uniform randomness, through a one-to-one correspondence of the randomness. Without reveals, states that differ only in honest registers give the same distribution of views. All parties but one learn nothing beyond the values the reveals return; two secrets with the same revealed values cannot be told apart. The protocols are those of beaver.py: their last registers are the results of the multiplication, squaring, and, conversion and wrap count proved correct in other properties, with correct correlated randomness.", "quantifier": "all programs, parties, coalitions, inputs and draws", "why_tests_cant": "tests compare decrypted results; they say nothing about what the messages reveal, and a distribution over 2^64 masks cannot be sampled", "anchors": ["crypten/mpc/primitives/beaver.py", "crypten/mpc/primitives/arithmetic.py: ArithmeticSharedTensor.__init__, reveal", "crypten/mpc/primitives/binary.py", "crypten/mpc/provider/ttp_provider.py"]}
{"id": "C88", "title": "pairwise zero sharings hide a sum only up to the stretches between corrupted parties", "statement": "When every party encrypts a number and the sum is revealed, a coalition learns the sum of the numbers of each stretch of parties between its members and nothing else; one party alone learns only the sum. Refuted: that a coalition learns only the sum: the two neighbours of a party learn its number. With the trusted first party, whose masks are shared with the same generators, the two neighbours of any other party read the number it encrypted from its message in a single multiplication, and party 0 reads every operand.", "quantifier": "all numbers of parties, coalitions, inputs, generators and histories", "why_tests_cant": "tests run two or three parties and only look at the decrypted results", "anchors": ["crypten/__init__.py: _sync_seeds", "crypten/mpc/primitives/arithmetic.py: PRZS", "crypten/mpc/provider/tfp_provider.py"]}
{"id": "C89", "title": "the replicated protocol does not hide operands from party 1", "statement": "In a three-party product with the replicated protocol and truncation, party 1 learns (x - x0)(y - y0) modulo 2^64, where x0, y0 are shares it receives. If it knows y and y - y0 is odd, its view determines x; after a square with x - x0 odd, x is known up to a sign and the top bit. Refuted: that other operands are compatible with the messages it gets.", "quantifier": "all sharings of all operands", "why_tests_cant": "tests check the product, not the messages", "anchors": ["crypten/mpc/primitives/replicated.py: replicate_shares, __replicated_secret_sharing_protocol, square, truncate"]}
{"id": "C90", "title": "views, in-place operations and assignments behave as in PyTorch", "statement": "For every program of encryptions, views (view, indexing, transpose, expand, ...), clones, out-of-place operations, additions of public tensors, in-place operations (x.add_(y), x += y) and assignments (x[i] = y): if writes go only to storages not made by a broadcasting addition of a public tensor, keep the precision (or nothing else refers to the elements written), and assigned values have the target's precision, then every tensor decrypts to the elements PyTorch's views would have, and the program raises at all parties exactly where PyTorch raises. Out-of-place calls never change an existing tensor, and a write never changes a tensor without common elements, in any program. Without the conditions it is false: after z = x + y with x broadcast, z[0] = w also changes the other elements of z to essentially random numbers, and z += w succeeds at party 0 and raises at the others; an in-place operation that changes the precision leaves views with the old precision; an assigned value is read with the precision of its target.", "quantifier": "all programs (by induction), numbers of parties, share values, view positions and operations that implement their meaning", "why_tests_cant": "aliasing bugs need particular combinations of a view, a broadcast and a write; tests compare single calls with fresh tensors", "anchors": ["crypten/cryptensor.py: __getattribute__ (oop_and_copy), detach", "crypten/mpc/mpc.py: clone, shallow_copy, copy_", "crypten/mpc/primitives/arithmetic.py: shallow_copy, clone, copy_, __setitem__, _arithmetic_function", "crypten/common/functions/regular.py: __setitem__, _add_regular_function"]}
{"id": "C91", "title": "loading, saving and printing across parties", "statement": "For any number of parties and any schedule: crypten.load_from_party gives every party a share of the source's tensor (the shares add up to the encoded tensor, whatever the other parties pass), or, for a module, the module at the source and the same module with zero parameters at every party that accepts its classes; what the source sends depends only on a tensor's size or on a module's classes, names, sizes and buffers; wrong arguments and unsupported objects make every party raise. save_from_party leaves the source's object in the file before any party goes on; print_in_order prints in the order of the ranks. crypten.save/load with a file per party gives every party its own share back. False: the other parties learn a module's buffers (running statistics) in plaintext; if the source fails to load, all other parties wait for ever; the reported type is always int; with a shared file name crypten.save/load gives a party another party's share, depending on the schedule.", "quantifier": "all numbers of parties, objects, arguments at every party, schedules, pickle functions that give the broadcast object back", "why_tests_cant": "the tests load matching files at all parties and look at the source's object; leaking buffers, blocking parties and races over a file need a model of all parties and schedules", "anchors": ["crypten/__init__.py: load_from_party, load, save_from_party, save, print", "crypten/communicator/distributed_communicator.py: broadcast_obj"]}
{"id": "C92", "title": "parties on a network end in one outcome, and the communicator's calls mean what they say", "statement": "For every list of party programs made of sends, receives and collectives, every run ends, all runs have the same length and end in the same state, whatever the schedule. In every such network all_reduce (also of a list), reduce, gather, all_gather, broadcast, scatter and barrier can be replaced by their results: the reduction over the parties (for a sum, modulo 2^64), the tensors in the order of the ranks, the source's tensor. Any number of objects sent from one party to another arrive whole and in order, whatever the others do meanwhile. Parties that enter different collectives all stay there. False: an object of 2^31 bytes or more makes its sender raise and its receiver wait for ever, and so does a broadcast whose source fails, or a gather of tensors that are not int64; scatter with a single party returns the whole list.", "quantifier": "all programs, numbers of parties, schedules, tensors, objects and continuations", "why_tests_cant": "a test sees one schedule; determinism and absence of deadlock are statements about all interleavings", "anchors": ["crypten/communicator/distributed_communicator.py: send, recv, scatter, reduce, all_reduce, gather, all_gather, broadcast, barrier, send_obj, recv_obj, broadcast_obj", "crypten/communicator/communicator.py: _logging"]}
{"id": "C93", "title": "a private computation decrypts to the plaintext computation's result within a computable error", "statement": "Take any program of additions, subtractions, products, squares, divisions by integers, elements of matrix products and convolutions, sums, relu, abs, hardtanh and maxima (dimension-wise or pooling) on encrypted numbers of the default encoder. An analysis on integers bounds the magnitude of every intermediate number and its distance from the number the same program computes over the rationals. If it succeeds, every run whose truncations are each off by less than E units in the last place (with one party: every run) decrypts at every step to the exact value up to that bound. In particular the forward pass of a network of linear, convolution, relu, average- and max-pooling layers, with encrypted or public parameters, decrypts to the network's function up to the bound, and ranks two classes as the network does when their scores differ by more than the two bounds. False when the analysis fails: 2^24 squared decrypts to 0.", "quantifier": "all programs, networks, inputs, sharings, correlated randomness and numbers of parties", "why_tests_cant": "a test runs one network on a few inputs with one tolerance; the bound must hold for every composition of operations and for every randomness", "anchors": ["crypten/mpc/primitives/arithmetic.py: _arithmetic_function, div_, square, avg_pool2d, sum", "crypten/mpc/mpc.py, crypten/common/functions/logic.py: relu, abs, hardtanh", "crypten/common/functions/maximum.py: max", "crypten/common/functions/pooling.py: max_pool2d", "crypten/nn/module.py: Linear, Conv1d, Conv2d, ReLU, AvgPool2d, MaxPool2d"]}
{"id": "C94", "title": "Rounding error of cos and sin on shares", "statement": "cos and sin of an encrypted x at scale s with k iterations, in a run whose truncations are each off by less than E units in the last place, are the coordinates of a point within r((1 + E/s)^(3*2^k-3) - 1) of the point at radius r = (1 + (x/N)^2)^(N/2) and angle N atan(x/N), N = 2^k, provided the squares stay below 2^63. At the defaults (s = 65536, k = 10, E <= 2) and |x| <= 32 both are within x^2/1024 + |x|^3/(3*1024^2) + (1 + x^2/1024) E/20 of cos x and sin x: about five percent of the unit circle is lost to rounding even near zero. With one party every run qualifies with E = 1. Refuted far from zero: cos(100) comes out above 84.", "quantifier": "all encrypted inputs, sharings, valid providers, numbers of parties, scales and iteration counts", "why_tests_cant": "the error doubles with every squaring and depends on every input and on the truncation noise; tests compare at a few points with a tolerance", "anchors": ["crypten/common/functions/approximations.py: _eix, cossin, cos, sin", "crypten/mpc/primitives/arithmetic.py: div_, square_, mul_"]}
{"id": "C95", "title": "How likely truncation goes wrong", "statement": "There are (2^64 - 1)^k tapes of k draws of the random generators. With two parties, exactly |v + 1| of the 2^64 sharings of v make div_ by y (2 <= y <= 2^61) wrong by more than one unit. With n > 2 parties at most the fraction (|v| + 2n)/(2^64 - 1) of the masks of truncate make it wrong by n units or more. Consequently a program of additions, subtractions, encrypted products, squares, matrix-product and convolution entries, sums, relu, abs and hardtanh (with three or more parties also products by public numbers and divisions by integers) computes every value within the error found by the analysis of C93 except for a fraction of the draws of at most the sum over its truncations of (a bound on the truncated number + 1, or + 2n) / (2^64 - 1), whatever every other random value and the inputs' sharings are.", "quantifier": "all programs, encrypted inputs, sharings, valid providers, party counts up to 2^32 and scales; all tapes of draws are counted", "why_tests_cant": "the failing draws are a few in 10^10, so tests never see one, and a failure is off by 2^48 or more; counting them needs all 2^64 draws of each truncation", "anchors": ["crypten/mpc/primitives/arithmetic.py: div_, truncate, PRZS", "crypten/mpc/primitives/beaver.py: truncate, mul, square", "crypten/mpc/provider/tfp_provider.py: generate_additive_triple, square, wrap_rng", "crypten/common/rng.py: generate_random_ring_element"]}
{"id": "C96", "title": "Requiring a gradient changes what some operations compute", "statement": "When an argument requires a gradient, x.f(...) runs the forward of f's gradient function. relu is still max(x, 0) except that it leaves -2^63 as it is; relu6 clamps to [0, 6]; hardtanh keeps numbers strictly inside the interval but outside gives the integer part of the bound (cut off towards zero), so it equals the ordinary hardtanh for integral bounds and differs for every too large number when the upper bound has a fraction; with equal bounds it gives the bound at the default scale. Multiplying by a Python int becomes a fixed-point multiplication: accurate within the truncation error, exact with one party just when the product encoded twice fits, and possibly off by 2^48 units with two. pow(p), p >= 2, computes x^q with q >= p, and q = p just when p - 1 is 2^k or 3*2^k; its exponent agrees with that of the ordinary pow just up to p = 4. min without dim gives the least element, or, when one_hot=False, the index times the sum of all elements; max without dim gives the greatest, and raises for one_hot=False with several elements.", "quantifier": "all encrypted values, sharings, bounds, powers, vectors, valid providers and party counts", "why_tests_cant": "tests compare each variant with the plaintext function on a few values within a tolerance; they use integral bounds and small powers, never the corner values, and never compare tracked with untracked calls for all inputs", "anchors": ["crypten/gradients.py: AutogradReLU, AutogradHardtanh, AutogradReLU6, AutogradMul, AutogradPow, AutogradMin, AutogradMax", "crypten/cryptensor.py: __getattribute__, _get_autograd_forward_function", "crypten/common/functions/logic.py: relu, hardtanh", "crypten/common/functions/power.py: pow", "crypten/common/functions/maximum.py: min, max"]}
{"id": "C97", "title": "Sampling and dropout follow their probabilities up to the fixed-point precision", "statement": "x.bernoulli() and crypten.bernoulli(x) give bits, and whatever the other parties draw, exactly as many of the 2^p draws of any one party give one as the encoded probability says (none for probabilities below 0, all from 1 on). weighted_sample returns the weight at the index picked by weighted_index and the indicator of that index. x.dropout(q) in training with 0 < q < 1 drops for exactly floor(q 2^p) + 1 of the 2^p draws, so slightly more often than documented, and otherwise gives x / (1 - q) up to the truncation error and |x| / 2^p; an integer tensor is instead multiplied by the integer part of 1 / (1 - q). Outside training dropout is the identity, except that for q = 1 it returns 0, unlike dropout of a tensor requiring a gradient; it raises unless 0 <= q <= 1. When x requires a gradient the mask is public and the accuracy the same.", "quantifier": "all encrypted values, probabilities, draws of the other parties, valid providers and party counts", "why_tests_cant": "tests check averages of a few thousand samples within a tolerance, so they can see neither the exact number of draws nor its independence of what the other parties draw, and they call dropout with a few probabilities below 1 on fixed-point tensors", "anchors": ["crypten/common/functions/sampling.py: bernoulli, weighted_sample", "crypten/common/functions/dropout.py: dropout", "crypten/__init__.py: bernoulli", "crypten/gradients.py: AutogradDropout"]}
{"id": "C98", "title": "Softmax on shares is close to the exact softmax", "statement": "In the default configuration x.softmax(dim) of m = 2 to 29 numbers that are at most 256 apart returns m numbers, each within (1/40 + m/300) E of the exact softmax and together within 1/500 + m E/2000 of 1, whatever method finds the maximum, provided every truncation is off by less than E = 1 or 2 units (always so with one party and E = 1). The softmax of a single number is exactly 1. This does not extend to long lines: 200 equal numbers give a total above 3/2 even with one party.", "quantifier": "all encrypted lines of 2 to 29 numbers, party counts, valid providers, maximum methods", "why_tests_cant": "the error of the reciprocal grows with the square of the denominator and the errors of the exponentials add up, so a few random lines of at most five entries within a tolerance of 0.04 say nothing about longer or extreme lines", "anchors": ["crypten/common/functions/approximations.py: softmax, exp, reciprocal", "crypten/common/functions/maximum.py: max"]}
{"id": "C99", "title": "Backpropagation through a program computes its derivative", "statement": "Take a program made of any number of tracked operations in any arrangement (elementwise functions, broadcast arithmetic, matrix products, sums, means, softmax, losses), a tensor t of it, and a seed. t.backward(seed) succeeds, and the gradients it leaves on the inputs give the derivative of the function the program computes: along every direction of all inputs together the derivative is the sum of the inner products with the gradients, and each entry of a gradient is the partial derivative by that entry. backward() without an argument does so for tensors of one element. Inputs that do not require a gradient get none. A small enough step of gradient descent on all inputs lowers the loss unless all gradients are zero. The operations must be used away from kinks and poles, on results that are not empty, and targets of losses must be inputs that require no gradient; a target that does require one gets none although the loss depends on it.", "quantifier": "all programs of the listed operations, all inputs, all seeds, all directions", "why_tests_cant": "tests compare single operations or one or two fixed networks with autograd of PyTorch at random points; how gradients combine in arbitrary graphs (shared tensors, broadcasting, several paths) needs an induction over programs", "anchors": ["crypten/cryptensor.py: backward, autograd_forward", "crypten/gradients.py"]}
{"id": "C100", "title": "Which calls are recorded for backpropagation, and which silently are not", "statement": "Calling a function that has a gradient on an encrypted tensor records the tensor and all encrypted tensors among the positional arguments (also in nested lists), in order, exactly if autograd is on and one of them requires a gradient; otherwise nothing is recorded and the method of the tensor is run if there is one. crypten.cat and crypten.stack do the same. x.f_(...) raises an error if autograd is on and x requires a gradient, and else computes x.f(...) and copies it into x. An operator of the class does what its function does. It is not so that gradients are never lost silently: x.f_(y) where only y requires a gradient gives a result that does not; functions on shares without a gradient (expand, repeat, unfold, unbind, split, transposed convolutions) give one that does not, and the NotImplementedError of the documentation is never raised; tensors passed by keyword or in a dict are not recorded. x ** p and c / x are type errors although __pow__ and __rtruediv__ are in the tables. In backpropagation every encrypted argument gets its own gradient exactly if no plain argument that the function has a gradient for comes before an encrypted one; batchnorm with a plain weight and an encrypted bias gives the bias the gradient of the weight. The attributes of the tape, backward and detach_ included, are always the object's own; a required function that a subclass lacks is an error and not a recursion; c - x is not recorded as one function, though x.__rsub__(c) is.", "quantifier": "all registered functions, all argument lists, all sets of tensors that require a gradient", "why_tests_cant": "tests call each function on one or two argument shapes with all tensors tracked, and reach operators through getattr, which hides that the operators are missing; that nothing else is recorded, and when a gradient is lost, needs all arguments", "anchors": ["crypten/cryptensor.py: __getattribute__, autograd_forward, _find_all_cryptensors, backward", "crypten/gradients.py: register_function", "crypten/common/functions/regular.py", "crypten/mpc/mpc.py: _add_unary_passthrough_function"]}
{"id": "C101", "title": "Error of inv_sqrt and sqrt on encrypted numbers, with all rounding", "statement": "inv_sqrt and sqrt of an encrypted number X > 0: if the first estimate lies between (1-b)/sqrt(X) and (1+a)/sqrt(X), then after k iterations the relative error is below k applications of b -> b^2(3-b)/2 + 3(E/s)(X+1) to b, where s is the scale and E the error of a truncation in units; it exceeds the truth by at most 3/2 (E/s)(X+1). More iterations only lower this bound. In the default configuration and for X from 1/10 to 150 the relative error of both is at most 1.3% plus 9/2 (E/65536)(X+1). With one party this holds of every run. It is false outside: sqrt(200) is given as 3.1, sqrt(256) as -16 and sqrt(0.01) as 0.06.", "quantifier": "all sharings of all numbers in the range, all numbers of parties, all valid providers and their randomness, all numbers of iterations", "why_tests_cant": "tests compare a few values with a tolerance; that the rounding does not build up over the iterations, that every number in the range converges and where the range ends needs an error analysis over all of them", "anchors": ["crypten/common/functions/approximations.py: inv_sqrt, sqrt"]}
{"id": "C102", "title": "Error of polynomial on encrypted numbers of any size", "statement": "polynomial with k float coefficients of size at most C on an encrypted number X of size at most M (M, C >= 1) gives c1 X + ... + ck X^k up to k (e + C M^k ((1 + e)^k - 1)), where e = E/s, s is the scale and E the error of a truncation in units, provided s^2 2C (M (1 + e))^(2k) < 2^63. With one party this holds of every run. It is false without that room: x^4 at 256 is given as 0.", "quantifier": "all sharings of all numbers, all coefficient lists, all numbers of parties, all valid providers and their randomness", "why_tests_cant": "tests use a few numbers and a tolerance; the growth of the error with the degree and the size, and where the powers wrap around, need an analysis of every round of the doubling scheme", "anchors": ["crypten/common/functions/power.py: polynomial"]}
{"id": "C103", "title": "Error of log and log_softmax on encrypted numbers, with all rounding", "statement": "log of an encrypted number X in the default configuration, with E the error of a truncation in units: for X from 1/1000 to 127 (E = 1) or 1/5 to 127 (E = 2) the result is within 2% of ln(X) plus 1/1000 + E(15/1000 + X/5000); with input_in_01 the same of 100 X. log_softmax of 2 to 100 numbers at most 256 apart is within 2% of ln(m) plus 1/1000 + E(1/40 + m/260) of the true value, m the number of entries; of a single number it is exactly 0. With one party this holds of every run. It is false outside: log(256) is given as -189 million, log(1/65536) as -9.6 instead of -11.1, log(0) as an ordinary number and log(-1) as -355 million. log_exp_iterations and log_order are read by the Householder steps only; the first estimate uses exp_iterations.", "quantifier": "all sharings of all numbers in the range, all lists of 2 to 100 numbers, all numbers of parties, all valid providers and their randomness, all maximum methods", "why_tests_cant": "tests compare a few values with a tolerance; the rounding of 8 squarings and 8 polynomial terms at every point of the range, and the composition of maximum, exponential, sum and logarithm, need an error analysis", "anchors": ["crypten/common/functions/approximations.py: log, log_softmax"]}
{"id": "C104", "title": "Error of erf on encrypted numbers, with all rounding", "statement": "erf of an encrypted number X from -1 to 1 in the default configuration gives what the method gives (C77) up to (12 E + 11)/65536, E the error of a truncation in units; for X from 0 to 1 the result is within 1/100 + (12 E + 11)/65536 of the error function, the function with erf(0) = 0 and derivative 2/sqrt(pi) exp(-x^2). With one party this holds of every run. The Taylor polynomial of degree 2k+1 is the error function up to 2/sqrt(pi)/(k+1)!. For negative numbers the accuracy is refuted: at -1 the method exceeds the error function by more than 0.23; outside [-1, 1] too: erf(2) is given as -175 and erf(3) as -277837.", "quantifier": "all sharings of all numbers in the range, all numbers of parties, all valid providers and their randomness; all functions with that derivative", "why_tests_cant": "tests compare a few values with a tolerance of the order of the error; where the wrong powers stay harmless and where not, and the rounding of eight terms, need an analysis over all numbers", "anchors": ["crypten/common/functions/approximations.py: erf", "crypten/common/functions/power.py: pow, pos_pow"]}
{"id": "C105", "title": "Accuracy of tanh and sigmoid by Chebyshev polynomials", "statement": "With any valid number of terms (even, at least 6) the Chebyshev method is within 2 / 2^terms of tanh at every point of [-1, 1], and sigmoid is within 1 / 2^terms of 1 / (1 + exp(-x)) at every point of [-2, 2]; at any x at all tanh is off by at most 2 |T_terms(x)| / 2^terms, T_terms being the Chebyshev polynomial. The documented truncation to 1 and -1 outside [-1, 1] does not take place: at 41/40 the result is less than 1 with every valid number of terms.", "quantifier": "for all configurations with the chebyshev method and a valid number of terms, all real inputs", "why_tests_cant": "Tests compare a few grid points with a tolerance for one number of terms; that the bound holds between the points and for every number of terms needs the interpolation remainder and a bound on all derivatives of tanh.", "anchors": ["crypten/common/functions/approximations.py:276-323", "crypten/common/functions/approximations.py:326-392", "crypten/common/util.py:32-53"]}
{"id": "C106", "title": "Rounding of tanh and sigmoid by Chebyshev polynomials on shares", "statement": "With the chebyshev method and 2N terms, tanh of an encrypted number in [-1, 1] decrypts to a number in [-1, 1] that differs from tanh by at most 18 E/s + 3/2 N (1/s + g) + 2/4^N, where s is the encoder's scale, each truncation is off by less than E, and the float coefficients are off by at most g; sigmoid inside [-2, 2] is within half of that and 3/2 E/s + 1/s of the logistic function. The error does not grow with the number of polynomials, although each is computed from the two before it. With one party nothing is assumed about truncations; with 32 terms and the default precision tanh is within 43/65536 and sigmoid within 25/65536. An odd number of terms or less than 6 raises ValueError. Far outside the interval nothing is truncated to the right side: tanh(8) decrypts to -1 and sigmoid(16) to 0.", "quantifier": "for all numbers of parties, providers, sharings, scales, even numbers of terms from 6 on with 7 E N^2 <= s, and float coefficients within g of the exact ones", "why_tests_cant": "Tests compare a grid of inputs with a tolerance of 5 percent; that rounding errors in a three-term recurrence stay bounded for every input, every sharing and every number of terms is a statement about all runs.", "anchors": ["crypten/common/functions/approximations.py:276-323", "crypten/common/functions/approximations.py:326-392", "crypten/common/util.py:32-53", "crypten/mpc/primitives/arithmetic.py:338-404"]}
{"id": "C107", "title": "Error of reciprocal on shares by both methods, with all_pos and input_in_01", "statement": "For an encrypted number x of either sign, reciprocal with the method NR or log decrypts to a number z with |1 - x z| at most an explicit error of |x|: X(X+1) E/65536 + 1/500 by NR for X between 0.01 and 30, and 5/4 (error of log + (|ln X| + 1/5)^2/256 + 0.0079 E) + 0.00014 E X by log for X between 0.001 (0.2 with several parties) and 127, where each truncation is off by less than E units. all_pos gives the same for positive numbers; input_in_01 gives the error of 64 x in place of x. With one party nothing is assumed about truncations. Outside the ranges the results are meaningless: by the log method 1/256 decrypts to less than -1.7 thousand million and 1/0 to 14512, all_pos with -1 and input_in_01 with 4 give huge negative numbers. The result depends only on the settings of the chosen method: reciprocal_nr_iters does not matter for the log method, nor the settings of log for Newton's.", "quantifier": "for all numbers of parties, providers, sharings and random tapes, at the default scale and iteration counts, both methods", "why_tests_cant": "Tests compare a grid of inputs with a tolerance for the default method; the bound must hold for every input in the range, every sharing and every run.", "anchors": ["crypten/common/functions/approximations.py:34-175", "crypten/mpc/primitives/arithmetic.py:338-404"]}
{"id": "C108", "title": "Training a network on encrypted data follows gradient descent on the mean squared error", "statement": "Let a network of Linear and ReLU modules, encrypted parameters, encrypted batches and encrypted targets be given, and for every batch run the forward pass, MSELoss, backward() and update_parameters(rate, threshold). If the analysis of magnitudes and errors succeeds, the decrypted parameters after all batches, and every decrypted loss, equal those of gradient descent over the rationals up to the errors the analysis gives; each truncation may be off by less than E units, with one party E = 1 is guaranteed. The gradient used is the gradient of the loss: moving the parameters by -t h changes the loss by -t <gradient, h> up to a multiple of t^2, wherever no ReLU receives exactly zero, so a small enough exact step decreases the loss unless the gradient vanishes. A mask is certain only if the ReLU's input is farther from zero than its error: with an input of half a unit the encrypted gate loses the whole gradient.", "quantifier": "for all numbers of parties, providers, sharings, random tapes, scales 2^p, network shapes, batch sizes, numbers of steps, learning rates, thresholds and values", "why_tests_cant": "Tests train one small network for a few steps and compare the loss or a few gradients with a tolerance; the bound must hold for every network, every batch and every run, and errors accumulate over steps.", "anchors": ["crypten/nn/module.py:317-346", "crypten/nn/module.py:1885-1898", "crypten/nn/loss.py:50-67", "crypten/gradients.py:480-492", "crypten/gradients.py:654-690", "crypten/gradients.py:729-772", "crypten/gradients.py:885-895", "crypten/gradients.py:1187-1221", "crypten/cryptensor.py:213-267"]}
{"id": "C109", "title": "Norms, cosine similarity and batch normalisation of encrypted vectors, with all their rounding", "statement": "norm(p=1) of an encrypted vector decrypts exactly to the sum of the absolute values and norm(p=inf) exactly to the greatest of them. With the default configuration norm(p=2) is within a computed error (about 1.3 per cent for short vectors) of the true norm as long as the squares sum to between 1/10 and 150; so is cosine_similarity of vectors of two or more elements. Of vectors with one element it is 1 or -1, the sign of the product unless that is within the error of one multiplication of zero. batchnorm in evaluation and in training mode is within a computed error of (x - mean) / sqrt(variance + eps) * weight + bias, with eps as it is encoded and the variance divided by N, as long as the variance with eps lies between 1/10 and 150; the running statistics follow (1 - momentum) * running + momentum * batch. Outside of these ranges the results are wrong: with one party norm(12, 12) comes out below -16, the cosine of (0.1, 0.1) with itself below 0.6, that of the opposite 1/512 and -1/512 as 1; eps below 1/65536, such as the default 1e-5, is dropped, and a batch (0.1, -0.1) is normalised to 0.605 instead of 1.", "quantifier": "for all numbers of parties, providers, sharings, random tapes, vectors, batches, parameters, momenta and eps, all methods of the maximum, each truncation being off by less than E units (E = 1, 2; guaranteed for one party)", "why_tests_cant": "Tests compare random vectors of moderate norm with a tolerance of 0.1 and batches of a few sizes; they do not say for which norms and variances the results can be relied on, and cannot try all sharings and random tapes.", "anchors": ["crypten/common/functions/power.py:100-126", "crypten/gradients.py:1007-1035", "crypten/gradients.py:1750-1835", "crypten/common/functions/approximations.py:178-221", "crypten/common/functions/regular.py:151-199"]}
{"id": "C110", "title": "How likely training on encrypted data goes wrong with three or more parties", "statement": "With three or more parties every truncation draws a mask, and some masks make the truncation wrong by about 2^64/scale. Train a network of Linear and ReLU modules with MSELoss, backward() and update_parameters(rate, threshold) on encrypted batches. If the analysis of magnitudes and errors succeeds for truncations off by at most E >= n units, then among all draws of the shares of all masks of the whole training loop the fraction for which the decrypted parameters or losses are not those of gradient descent up to the analysed errors is at most the sum, over the truncations, of (magnitude of what is truncated + 2n), divided by 2^64 - 1. The number of terms of the loss must divide 2^62, or E be at least 3n+2. Comparisons and products with masks add nothing to that sum.", "quantifier": "for all numbers of parties n with 2 < n <= 2^32, providers, sharings, scales 2^p, network shapes, batch sizes, numbers of steps, learning rates, thresholds and values; a count over all draws of the truncation masks", "why_tests_cant": "Tests train one small network a few times; draws that break the loop are about one in 10^8 or rarer, so tests neither see one nor can bound their number, which grows with the network and the number of steps.", "anchors": ["crypten/mpc/primitives/arithmetic.py:446-482", "crypten/mpc/primitives/beaver.py:129-168", "crypten/nn/module.py:317-346", "crypten/nn/loss.py:50-67", "crypten/gradients.py:480-492", "crypten/gradients.py:729-772"]}
{"id": "C111", "title": "Rounding error of the classification losses and their gradients on shares", "statement": "On encrypted predictions and targets in the default configuration, with every truncation off by at most E = 1 or 2 units: L1Loss of up to 2^20 elements of size up to 2^18 is the mean absolute difference within E/65536. BCELoss is the exact mean of -(y ln p + (1-y) ln(1-p)) within the errors of the logarithms, each weighted by its target, plus 3 units; a logarithm whose weight is 0 may be out of range. The gradient of BCELoss is the exact derivative times the incoming gradient, within the errors of the reciprocals, by Newton's method and by the log method. BCEWithLogitsLoss and CrossEntropyLoss (2 to 29 classes, two or more examples) give the loss of the exact sigmoid or softmax and its exact derivative, within the error of sigmoid or softmax carried through logarithm, weighting, sum and division. With one party nothing can fail. Two documented expectations are false: with a single example squeeze() drops the batch dimension and CrossEntropyLoss and its gradient are divided by the number of classes; and a confidently wrong logit does not get a large loss: 20 and 200 get the same, less than 12.", "quantifier": "for all numbers of parties, providers, sharings, batch sizes, numbers of classes 2 to 29, predictions and targets in the stated ranges, incoming gradients up to 1000, methods of max and of reciprocal", "why_tests_cant": "Tests compare a few random batches with a tolerance; the bounds hold for every batch, all share values and both truncation protocols, and the one-example batch is not tested.", "anchors": ["crypten/nn/loss.py:70-169", "crypten/gradients.py:1900-1951", "crypten/gradients.py:2001-2025", "crypten/common/functions/approximations.py:55-104", "crypten/common/functions/approximations.py:107-175", "crypten/common/functions/approximations.py:409-424"]}
{"id": "C112", "title": "Logistic regression on encrypted data follows gradient descent and converges", "statement": "Training nn.Linear with one output by BCEWithLogitsLoss and SGD (no momentum) on encrypted data, the whole data set as one batch, in the default configuration and with every truncation off by at most E = 1 or 2 units: one epoch moves the bias and every weight to where one exact step of gradient descent on the logistic loss, at the encoded learning rate r, puts it, within step_error = r (M (sigmoid error + E/4 + 2 E N) + E) + E (E in units of 1/65536, N examples, features up to M). If r times the mean squared length of the examples is at most 8, errors do not grow: after t epochs the parameters are within t sqrt(k+1) step_error of those of t exact steps. If it is at most 4, training converges: the exact loss of the trained parameters is at most that of any other parameters v plus |start - v|^2 / (2 r t) plus M (k+1) t step_error. With one party training always comes out. The condition that scores stay below 200 follows from a bound on the start. A learning rate of 1/100000 is encoded as 0, and then no number of epochs moves the parameters.", "quantifier": "for all numbers of parties, providers, sharings, numbers of features k >= 1 and of examples up to 2^20, features up to M <= 2^10, labels in [0,1], start parameters, rates, numbers of epochs in the stated ranges", "why_tests_cant": "Tests train for a few epochs and check that the loss has fallen on one data set; that rounding errors do not pile up over epochs, and convergence for every data set, need a proof about all executions.", "anchors": ["crypten/nn/module.py:1867-1898", "crypten/gradients.py:1929-1951", "crypten/gradients.py:729-772", "crypten/gradients.py:656-671", "crypten/cryptensor.py:213-267", "crypten/optim/sgd.py:94-139"]}
{"id": "C113", "title": "Gradients that share memory: in-place accumulation and views give the right gradients, if no gradient tensor is passed twice", "statement": "backward stores the gradient tensor it is given by reference (self.grad = grad_input), adds later ones in place (self.grad.add_), and many backward functions (t, transpose, permute, view, reshape, flatten, squeeze, unsqueeze, cat, stack, pad, dropout in evaluation mode) return views of the gradient they are given. Nevertheless, for every computation graph and every sequence of backward calls, with or without a gradient argument, the gradient in memory of every tensor is the one of a run in which all gradients are separate values - for one call the sum over all paths, for calls on losses without a common intermediate tensor the sum of these - and no memory that was in use changes except that of the gradients passed by the caller. This holds because views returned for one gradient do not overlap, add and sub clone, and the gradient of an intermediate tensor is not read after it was handed on; without the clones it fails. The passed gradient itself is taken over: x.backward(g) on an input stores g as x.grad, a second call changes g, and three calls with the same g give x.grad = g = 4g instead of 3g.", "quantifier": "All graphs and sizes, all backward functions whose gradients have the sizes of the children and whose views do not overlap, all memories, all sequences of calls with gradients that share no memory; any entries with a commutative and associative sum.", "why_tests_cant": "Tests check gradients of single functions and of a few small graphs, in which a gradient that shares memory is hardly ever added to; a wrong alias only shows in graphs where one branch hands on a view and another adds to it, and none passes one gradient tensor to several calls.", "anchors": ["crypten/cryptensor.py:214-272", "crypten/cryptensor.py:396-413", "crypten/mpc/mpc.py:94-98", "crypten/mpc/primitives/arithmetic.py:206-209", "crypten/gradients.py:159-283", "crypten/gradients.py:408-452", "crypten/gradients.py:657-709", "crypten/gradients.py:1426-1441"]}
{"id": "C114", "title": "Parties that run as threads share one set of random generators, so encrypted tensors need not decrypt to themselves", "statement": "crypten.init_thread(rank, world_size) makes parties of threads of one process, but the generators of crypten/__init__.py are one dictionary for the process: each thread replaces and seeds the same entries. For any number of threads and any order of their steps in which the initialisations end without an exception, the process is left with one prev generator and one next generator, each seeded with the seed of some party. A zero sharing then has all threads draw from these two: whatever the order of the draws, the shares add up to the sum of the first n draws of prev minus the sum of the first n draws of next, and an encrypted tensor decrypts to the tensor plus that difference. It is right exactly if the two sums agree, which depends on the order in which the threads initialised: with two threads there is an order in which prev and next end with the seeds of different parties, and one in which every tensor decrypts rightly. Binary sharings behave the same way with exclusive or in place of sums. Dropout masks, which parties should have in common, are successive draws, one for each thread. With two threads the initialisation always ends without an exception: no order of steps makes one fail, one of the two can always go on, and under any fair scheduler both end. With three threads the initialisation can also end with an exception in one thread, because the broadcast of the global seed can overtake a seed in the mailbox.", "quantifier": "All numbers of threads, all orders of steps, all generators, all seeds, all tensors of 64-bit words, all sources.", "why_tests_cant": "The outcome depends on the order in which threads initialise and draw; the repository's tests for threads are switched off, and a test that happens to run in a good order passes.", "anchors": ["crypten/__init__.py:35-41", "crypten/__init__.py:82-84", "crypten/__init__.py:167-265", "crypten/communicator/in_process_communicator.py:67-109", "crypten/communicator/in_process_communicator.py:183-194", "crypten/mpc/primitives/arithmetic.py:97-104", "crypten/mpc/primitives/arithmetic.py:158-178", "crypten/gradients.py:505-520", "crypten/mpc/primitives/binary.py:90-93", "crypten/mpc/primitives/binary.py:112-133"]}
{"id": "C115", "title": "The RAPPOR loss on encrypted logits is the documented one and its gradient the derivative of it, except for alpha = 0", "statement": "With default settings, RAPPORLoss(alpha)(x, y) of encrypted logits x and encrypted targets y in [0, 1], for 0 < alpha <= 1, is the mean of -(y log r + (1 - y) log (1 - r)) with r = alpha p + (1 - alpha)(1 - p), p = sigmoid(x), within an error given by alpha, x and y; backward() with the incoming gradient g gives for each of the N elements g / N times the derivative of its term, (r - y)(2 alpha - 1) p (1 - p) / (r (1 - r)), within a given error. This needs |x| <= 256, the logarithms that are weighted by a nonzero target in the range of log, and r (1 - r) not below 1/6400 plus its error; with alpha from 1/20 to 19/20 every logit up to 256 meets this. With alpha from 1/4 to 3/4 the error of the loss is at most 0.28, most of it from log, and that of the gradient at most |g| (1 / (5 N) + 1/4000) + 1/10000. With one party nothing can go wrong in a truncation, so the result always exists. With alpha = 0 the code takes r = p, so loss and gradient are those of BCEWithLogitsLoss; the documented formula has r = 1 - p there: for the logit 2 and the target 1 it gives more than 2, the code less than 1/2.", "quantifier": "All numbers of parties, all valid providers of tuples, all sharings, all lists of up to 2^20 logits and targets in the stated range, all rational alpha in [0, 1], all incoming gradients up to 1000, errors of truncation of one or two units.", "why_tests_cant": "The test compares one random tensor for a few values of alpha with a tolerance; it cannot bound the error over all logits, alpha and sharings, and it does not compare alpha = 0 with the documented formula.", "anchors": ["crypten/nn/loss.py:172-200", "crypten/gradients.py:1954-1998", "crypten/common/functions/approximations.py:55-104", "crypten/common/functions/approximations.py:107-175", "crypten/common/functions/approximations.py:409-424"]}
{"id": "C116", "title": "Integer powers with negative exponents", "statement": "With default settings and either method of reciprocal, x.pow(-p) of an encrypted x for p > 1 computes 1/x**q, where q = p exactly when p = 2^k or 3*2^k and q > p for every other p (pow(-5) computes x**-6). For |x| in the range of reciprocal and large enough that the computed reciprocal stays below 1, the error is at most ((1+e)^q - 1)/|x|^q, with e the relative error of reciprocal, plus q-1 times the error of one truncation. pow(-2) has relative error at most (1+e)^2 - 1 plus x**2 times the error of one truncation over the whole range of reciprocal, and pow(-1) that of reciprocal. With one party nothing can go wrong in a truncation, so the result always exists. pow(0) is one, and positive powers of integers at scale 1 are exact modulo 2^64, whatever the method.", "quantifier": "All integer exponents, all numbers of parties, all valid providers of tuples, all sharings of numbers in the stated range, errors of truncation of one or two units", "why_tests_cant": "all exponents, inputs, sharings and random tuples", "anchors": ["crypten/common/functions/power.py: pow", "crypten/common/functions/approximations.py: reciprocal"]}
{"id": "C117", "title": "pos_pow with fractional and encrypted exponents", "statement": "With default settings, x.pos_pow(p) of an encrypted positive x with a float p that is no whole number, or with an encrypted p, is x**p within an error given by p and x: the error of log times p, the encoding of p and one truncation move the argument of exp, whose own error is quadratic in p log x. This needs x in the range of log, the argument of exp moved by at most 1/5 and |p log x| <= 20; every x from 1/5 to 127 and p from -1 to 1 meets this. With one party nothing can go wrong in a truncation, so the result always exists. A whole number, as an int or a float, goes to pow. So 2 to the power 5.0 is 64 while an encrypted exponent 5 gives less than 31, and the square root of 256, which is outside the range of log, comes out as -5.9 million.", "quantifier": "All numbers of parties, all valid providers of tuples, all sharings of numbers and exponents in the stated range, all rational exponents, errors of truncation of one or two units", "why_tests_cant": "all inputs, exponents, sharings and random tuples", "anchors": ["crypten/common/functions/power.py: pos_pow", "crypten/common/functions/approximations.py: log, exp"]}
{"id": "C118", "title": "Norms with exponents other than 1, 2 and infinity", "statement": "With default settings, x.norm(p) of an encrypted vector for a float p > 1 that is no whole number is s**(1/p), up to the error of pos_pow, for a number s that differs from the sum of |x_i|**p by at most the sum of the errors of the powers; this needs every |x_i| in the range of pos_pow with p and every such s in that with 1/p. For an int k > 1 and elements below 1 the same holds with the sum of |x_i|**q, where q = k exactly when k = 2^j or 3*2^j and q > k otherwise, so norm(5) takes the fifth root of sixth powers. With one party nothing can go wrong in a truncation, so the result always exists. Exponents below 1 are refused. norm(5) of [2] is more than 2.25, norm(3) of [8] is more than 127 million as 512 is outside the range of log, and norm(3) of [0] is more than 1/50.", "quantifier": "All numbers of parties, all valid providers of tuples, all vectors of all lengths in the stated range, all rational exponents, errors of truncation of one or two units", "why_tests_cant": "all vectors, lengths, exponents, sharings and random tuples", "anchors": ["crypten/common/functions/power.py: norm, pos_pow"]}
