# Formal model of CrypTen: design

Source: `/repo` (facebookresearch/CrypTen, Python).  Model: Rocq (Coq 8.16.1), `rocq/theories`, logical root `Verif`.

## Modelling conventions

* **Ring.** A torch `int64` element is a `Z` in `[-2^63, 2^63)`.  Every arithmetic step that torch performs in 64 bits is
  followed by an explicit `wrap` (two's complement reduction).  Bit operations are `Z.land/lor/lxor/shift` on the signed
  value (two's complement), so bit `k<64` of a torch word is `Z.testbit x k`.
* **Parties.** A secret-shared element is a list of shares, one per party, in rank order.  `reveal` is the wrapped sum
  (arithmetic) or the XOR (binary).  Code of the form "`if rank == 0`" acts on the head of the list.
* **Tensors.** Element-wise operations are modelled on one element; operations that mix elements (sum, matmul, conv, max,
  cat ...) are modelled on lists.  A bilinear torch op is an index table `T`: output `k` is the sum of `x_i*y_j` over
  `(i,j)` in `T_k`.  mul, matmul, conv and transposed conv are all of this form.
* **Randomness.** torch generators are deterministic functions of a state: `draw : gstate -> nat -> list Z * gstate`
  is a Section variable (an oracle); seeds map to initial states.  Theorems hold for every such function.  When the range of the
  generator matters it is an explicit hypothesis.
* **Exceptions** are values (`option` / a result type).
* **Floats.** Real-valued encoder inputs and outputs are rationals (`Q`); float32 rounding is *not* modelled.
* **Schedules.** Thread interleavings are a small-step transition system; theorems quantify over reachable states.

## Files

For each area there is a model file `X.v` (definitions only, every definition cites file and lines), lemmas in `X_proofs.v`
(large areas have more than one, e.g. `Circuit_proofs`, `Convert_proofs`, `Regular_num_proofs`), the specification
vocabulary and the final step of each proof in `X_claims.v` (lemmas `k_Cnn_...`), and `P_X.v` holding only the property
theorems (each `exact lemma`), their `Print Assumptions`, and satisfiability `Example`s.  Theorems named `..._refuted` show
that a plausible or documented claim is false of the code as modelled.

| area | source |
|------|--------|
| Ring64 | torch int64 arithmetic |
| Sharing | mpc/primitives constructors, PRZS, reveal, seed exchange |
| Encoder | encoder.py |
| Arith | arithmetic.py add/sub/encoder aliasing |
| Beaver | beaver.py, matmul/conv/square, verification |
| Trunc | div_, count_wraps, truncate, replicated.py |
| Provider, Tfp | provider interface, tfp_provider.py |
| Binary | binary.py, circuit.py, converters.py |
| Compare | mpc.py comparisons, logic.py, where/relu/sign/abs, piecewise functions |
| Maximum | maximum.py, sampling.py, rand |
| Regular | power.py, regular.py, pad, cat, validation mode |
| Ttp | ttp_provider.py: clients, server, request loop |
| Cache | provider.py: trace, fill_cache, cached requests, save_cache, load_cache |
| Config | config.py: CrypTenConfig, temp_override |
| Inproc | in_process_communicator.py: all_gather, gather, scatter, broadcast (all_reduce and reduce are sums of the gathered list) |
| Ot | ot/baseOT.py |
| Cuda | cuda/cuda_tensor.py: block encoding, matmul, convolutions, avg_pool2d |
| Pool | common/functions/pooling.py: _pooling_output_shape, _pool2d_reshape, _max_pool2d_backward |
| Adaptive | common/functions/pooling.py: _adaptive_pool2d_helper (float64 as dyadic rationals rounded to nearest even, no overflow; the mean used to extend a window in exact arithmetic) |
| Autograd | cryptensor.py: backward, _identify_required_grads, detach_, the recording part of autograd_forward (tensors and gradient functions abstract; gradients of different tensors never the same object, which C113 justifies; no recursion limit) |
| Gradmode | cryptensor.py: no_grad, enable_grad, set_grad_enabled; the same with several threads |
| Optim | optim/sgd.py: step (elementwise, tensors abstract or rationals); nn/module.py: update_parameters; the thresholding of encrypted gradients on shares |
| Launch | mpc/context.py: run_multiprocess as interleavings of processes that return, fail, or block on the queue's pipe; the parent that joins before it reads |
| Tensor | the torch operations used by the gradient functions, as operations on (shape, index function) pairs: broadcasting, reordering, reshaping, selecting, padding, reductions |
| Gradfn | gradients.py: _inverse_broadcast and the gradient functions of the structural and linear operations (t, transpose, permute, flip, clone, cat, stack, view, reshape, flatten, narrow, take without dim, index_select, gather, roll, squeeze, unsqueeze, neg, add, sub, rsub, mul, sum over one or all dimensions, cumsum, trace, pad); elements are exact integers |
| Matmul | gradients.py: AutogradMatMul, AutogradDot, AutogradGer; torch.matmul with batch broadcasting and vectors |
| Conv | gradients.py: AutogradConv1D, AutogradConv2D, AutogradAvgPool2D backward; common/util.py: _grad_input_padding; torch's conv and conv_transpose as sums over connected positions, any number of spatial dimensions |
| Graphmod | nn/module.py: Graph.forward, its loop with fuel, modules as an arbitrary function of the input values |
| Statedict | nn/module.py: named_children, named_parameters, state_dict, load_state_dict; tensors as references into a heap (a plaintext detach() shares storage with the live tensor, here the values are those at the time of saving) |
| Modstate | nn/module.py: Module.encrypt, decrypt, _apply, train, eval, parameters, named_children; Constant.encrypt, ConstantOfShape.encrypt, _BatchNorm.train; modules and tensors as objects with identity, a plaintext tensor has a value per party, recursion with a stack depth. Not: `to`, `cuda`, `__setattr__`, warnings |
| Onnx | nn/module.py: Slice, Expand, Flatten, Reshape, Gather (regular.py: take), _ConstantPad with the pads as input, Conv, AvgPool2d and MaxPool2d from_onnx, Hardtanh from_onnx (Clip), Equal, Cast from_onnx; nn/onnx_converter.py: _to_crypten, with modules as functions of their inputs. Not: reading the protobuf file, attribute types, the export from PyTorch |
| Secrecy | executions of the protocols of mpc/primitives/beaver.py with the registers and messages of every party: masked openings with correlated values from ttp_provider.py, encryption, reveal; every message is given to every party (some go to one party only in the code) |
| Leak | the numbers neighbouring parties share through their generators (crypten/__init__.py, PRZS), one multiplication with tfp_provider.py, one product or square with replicated.py: only what is sent and received |
| Views | cryptensor.py: in-place calls; mpc.py, arithmetic.py: clone, shallow_copy, copy_, __setitem__, add of a public tensor; regular.py: views; the storages and positions of every party's shares. Operations are functions on shares; shapes and strides are lists of positions. Not: copies that broadcast their source, overlaps made by unfold, assignment between overlapping tensors, mixed-precision additions that re-encode an operand (C08) |
| Commstats | communicator/communicator.py: statistics and the _logging decorator; values by their numbers of elements or bytes, times left out |
| Serial | common/serial.py: the table of safe classes, find_class, the hook check; the opcodes of pickle's machine, with values by provenance. torch's legacy loader and what the called objects do are not modelled |
| Rtensor | tensors of real numbers (shape, index function), sums and reductions |
| Realgrad | gradients.py: the elementwise functions (relu, dropout, tanh, hardtanh, relu6, div, rdiv, polynomial, pow, pos_pow, square, sqrt, exp, log, reciprocal, sin, cos, abs, sign, sigmoid), with the secure primitives as the ideal real functions; rounding and in-place updates of saved tensors other than polynomial's coefficients are left out |
| Realloss | gradients.py: softmax, log_softmax, binary_cross_entropy (with and without logits), rappor_loss, cross_entropy; approximations.py: softmax, log_softmax; with ideal exp, log and reciprocal |
| Realred | gradients.py: mean, var, min, max, norm, cosine_similarity, batchnorm; regular.py: mean, var; power.py: norm; with ideal square roots, reciprocals and an argmax assumed to return a largest entry (C32). Not: norm with p = inf, the `inv_var` argument of batchnorm |
| Chain | cryptensor.py: programs of tracked operations over the reals, whose recording is run by the tape of Autograd; gradients.py: neg, relu, tanh, sigmoid, exp, log, reciprocal, sqrt, square, sin, cos, abs, add, sub, mul, div (also with Python numbers), matmul and t of matrices, sum, mean, softmax, log_softmax, the three losses. Not: the other operations, rounding |
| Dispatch | cryptensor.py: __getattribute__, autograd_forward, autograd_forward_no_ctx, _find_all_cryptensors, the operators, the handing out of gradients in backward; the tables of names of gradients.py, regular.py, mpc.py. Not: the values, validation mode, cryptensor types other than MPCTensor |
| Approx | common/functions/approximations.py (exp, log, reciprocal, inv_sqrt, sqrt, _eix, cossin, cos, sin, sigmoid, tanh, _chebyshev_polynomials, erf, softmax, log_softmax), util.py: chebyshev_series, configs/default.yaml: functions; at one element (softmax: one line), over the reals: rounding and overflow omitted. Not: softmax of an empty line |
| Shareapprox | common/functions/approximations.py: exp, reciprocal (Newton method, no configured initial value or a number, input_in_01 only through sigmoid), sigmoid and tanh by the reciprocal method; logic.py: where; on shares, every truncation included, one element |
| Sharetrig | common/functions/approximations.py: _eix, cossin, cos, sin on shares, every truncation included, one element |
| Sharesoft | common/functions/approximations.py: softmax on shares, every truncation and the maximum protocol included, one line |
| Shareroot | common/functions/approximations.py: inv_sqrt and sqrt on shares, no initial value configured, every truncation included, one element |
| Sharelog | common/functions/approximations.py: log and log_softmax on shares, every truncation and the maximum protocol included (polynomial is that of Regular), one element and one line |
| Shareerf | common/functions/approximations.py: erf on shares, every truncation included, one element |
| Training | the training loop of a network of Linear and ReLU modules with MSELoss on encrypted data: forward pass, backward pass of cryptensor.py and gradients.py (add, sub, matmul, t, relu, square, mean), thresholding and update of nn/module.py update_parameters; element by element, masks with scale 1; public floats are exact rationals, in-place updates are new registers |
| Sharerecip | common/functions/approximations.py: reciprocal on shares with its methods NR and log, all_pos and input_in_01, every truncation included, one element, no configured initial value |
| Sharepow | common/functions/power.py: pow on shares with every integer exponent, by the configured reciprocal, every truncation included, one element |
| Sharepospow | common/functions/power.py: pos_pow on shares with int, float and encrypted exponents, every truncation included, one element; not public tensors as exponents |
| Sharepnorm | common/functions/power.py: norm with the exponents that Sharenorm leaves out, on shares, every truncation included; one vector at a time |
| Sharenorm | common/functions/power.py: norm with p = 1, 2, inf; gradients.py: forward of cosine_similarity and batchnorm, on shares with every truncation included; one vector or channel at a time; encrypted statistics and parameters; no other exponents, no `inv_var` argument |
| Trainchance | the number of draws of truncation masks of a training loop (Training) |
| Shareloss | nn/loss.py: L1Loss, BCELoss, BCEWithLogitsLoss, CrossEntropyLoss with gradients.py: their forward and backward on shares, every truncation included; flat lists of elements, rows of classes; not skip_forward (RAPPORLoss: Sharerappor) |
| Logit | nn/module.py: Linear with one output, gradients.py: its backward pass, optim/sgd.py: SGD.step without momentum, weight decay and threshold, repeated for several epochs on one batch, on shares, every truncation included; one triple per product, new values where the code updates in place; not mini-batches, not lists of parameter groups |
| Gradmem | cryptensor.py: backward as in Autograd, with gradients as tensors in memory (a tensor is the list of its cells): storing references, add_ in place, copy_, views; which functions of gradients.py return views; sums of gradients of different sizes are an error, torch's strides and storages only as lists of cells; reshape always a view (a copy is a new tensor) |
| Threadgen | __init__.py: init_thread, _setup_prng, _sync_seeds with parties as threads that share the dictionary `generators`, on the mailboxes of in_process_communicator.py; PRZS and dropout's draw from it; steps (one statement each) in any order, one device; looking a generator up and drawing from it is one step; a new generator's default seed is an arbitrary state; the seeds the threads choose arbitrary |
| Threadbin | mpc/primitives/binary.py: PRZS and the constructor in threads that share generators (the draws are those of Threadgen), 64 bits |
| Sharerappor | nn/loss.py: RAPPORLoss with gradients.py: its forward and backward on shares, every truncation included; alpha a rational, `1 - alpha` and `2 * alpha - 1` exact before they are encoded; not skip_forward |
| Sharecheb | common/functions/approximations.py: _chebyshev_polynomials, tanh and sigmoid by the chebyshev method on shares, every truncation included, one element; the float coefficients of util.py: chebyshev_series are a parameter with an accuracy |
| Chance | which random draws decide a truncation: rng.py: generate_random_ring_element as a tape of draws; how the products of triples and squares are shared (two parties), the masks of truncate (three or more); all other randomness from an arbitrary valid provider.  A matrix-product entry reads one draw per product, where the code shares the entry's sum with a single one |
| Tracked | gradients.py: the forwards of relu, hardtanh, relu6, mul by a Python int, pow, min and max without dim where they differ from the methods they replace, on shares; not the rounding of Python floats to float32 |
| Sampling | common/functions/sampling.py: bernoulli, weighted_sample; common/functions/dropout.py: dropout; __init__.py: bernoulli; gradients.py: AutogradDropout.forward; on shares, given the parties' local draws (or the public one), without the feature-dropout variants that repeat one mask over a channel |
| Enclose | nothing of the code: interval arithmetic on integers with a fixed scale, with its soundness proof, used to prove C74 |
| Net | communicator/distributed_communicator.py: the point-to-point calls, collectives and object transfers of a group of all parties, as programs on a network under any schedule; communicator.py: the short cut for one party. Not: groups, the trusted third party, asynchronous sends and receives, floating point reductions |
| Load | __init__.py: load_from_party, load, save_from_party, save, print (in_order, dst); files and output as a shared world, modules by their classes, parameters and buffers |
| Program | programs made of the operations of Compare, Maximum and Regular on numbers of the default scale, and the layers Linear, Conv1d, Conv2d, ReLU, AvgPool2d, MaxPool2d of nn/module.py as such programs (windows and connected positions are data; a matrix product takes one Beaver triple per product) |
| Dpsplit | nn/privacy/dp_split.py: _process_targets, _add_dp_if_necessary, _compute_last_layer_grad, _solve_dLdZ (as a least-squares minimiser) over the rationals |

## Trusted base

* Coq's kernel (and `vm_compute` in the examples, in some refutations, in the interval computation of C74 and for the listed coefficients of C106).
* `Print Assumptions` reports "Closed under the global context" for every property theorem up to C65, and for C82 to C93, C95 to C97, C100, C108, C110, C113 and C114: no axiom of
  the standard library or of our own is used.  The theorems C66 to C81, C94, C98, C99, C101 to C107, C109, C111, C112 and C115 to C118 speak about Coq's real numbers and depend on (some of) the axioms of
  the standard library behind them, and on nothing else: `ClassicalDedekindReals.sig_forall_dec`,
  `ClassicalDedekindReals.sig_not_dec`, `FunctionalExtensionality.functional_extensionality_dep`, and, for a few theorems using
  the standard library's `ln`, `sqrt`, `sin`/`cos` or `exp` bounds, `Classical_Prop.classic`.
* Section variables and hypotheses of the theorems (generalised on closing the section, so they are ordinary premises):
  random generators as functions of a state (`draw`), the range of `torch.randint`-like draws, a *valid* provider (its correlated
  randomness satisfies the correlations; discharged for the trusted first party provider by C34 and for the trusted third party by C35), `int(math.sqrt(m))` and the
  number of halving steps of the max methods as functions with stated bounds, the re-parsing of configuration values, SHA-256 digests,
  float64 rounding as any map onto representable values that keeps representable values, summation order in GPU kernels as any tree.
* Of gloo (C91, C92): messages between two parties arrive whole and in order, a send does not wait, a collective happens when all parties have
  entered one of the same kind, root, type and number of elements, and otherwise the parties stay where they are; pickle.dumps and
  restricted_loads are functions, and where a theorem says so give back the object that is broadcast.
* `torch.save` followed by `torch.load` gives the object back; `threading.Barrier` opens for all threads at once; `queue.Queue` is FIFO.
* The reading of the Python source into Gallina (comments cite the lines) and of torch's semantics: int64 wrap-around,
  truncating `div(rounding_mode="trunc")`, arithmetic right shift, broadcasting done before the modelled operation; the operations of Tensor.v; `expand`, `view` and indexing with a tensor as in Onnx.v; the order of
  `torch.onnx.symbolic_helper.scalar_type_to_pytorch_type`.
* C87 and the positive part of C88 speak of distributions as one-to-one maps on the set of all draws: the draws are taken as independent and
  uniform over all 64-bit integers (torch.randint never returns 2^63-1, see C14), and the network between two honest parties is not private.
* The specification of ONNX's operators in Onnx_claims*.v is our reading of the ONNX documentation.

## Not modelled

Float32/float64 rounding (encoder inputs and outputs are rationals, the validation check is exact), except the window boundaries of
adaptive pooling; devices other than the
CPU except for the block arithmetic of CUDALongTensor; networking below the calls of torch.distributed; autograd and nn except where a property names them; shapes
and broadcasting of the share operations (they take the element lists they would see; the gradient functions are modelled with shapes).

## Plan per property

| id | modelled | proof |
|----|----------|-------|
| C01-C03 | constructors, PRZS with per-party generator states, reveal | telescoping sum over the ring of parties; invariant by induction over the history |
| C04, C05 | encode/decode over Q and Z | floor/trunc arithmetic; iff characterisation |
| C06 | encoder attribute setters; a heap of encoder objects | induction over assignments; list induction with aliasing |
| C07, C08 | `_arithmetic_function` add/sub, encode_, aliasing heap | congruence mod 2^64 |
| C09-C12 | Beaver protocol on index-table bilinear ops, rescaling | bilinearity mod 2^64; truncation bounds |
| C13, C14 | verification block; mask bijection | ring identity; unique solution mod 2^64 |
| C15-C18 | div_, count_wraps, wraps, truncate | integer division bounds; list induction |
| C19, C20 | replicated protocols | expansion of (x0+x1+x2)(y0+y1+y2) |
| C21-C24 | XOR sharing, Beaver AND, SPK circuit, comparisons, sum | testbit extensionality; prefix-tree invariant per stage |
| C25-C27 | converters | C22/C24 plus bit decomposition |
| C28-C30 | _ltz, eq, ne, logic functions on shares | C25/C26 |
| C31, C32 | four max methods, weighted_index, argmax | list induction; tournament invariant |
| C33-C36 | rand, TFP, TTP, cache | history induction |
| C37, C51 | temp_override / no_grad programs, interleavings of threads | induction over a block-structured program syntax; stack invariant |
| C38, C39 | in-process mailbox + barrier transition system | inductive invariant; explicit bad run |
| C40 | seed exchange | modular arithmetic on ranks |
| C41 | BaseOT with hash as oracle | modular exponentiation; order of the generator from prime factors of p-1 (trial division by computation) |
| C42 | block encode/decode, exactness bound | digit decomposition mod 2^64 |
| C43-C47 | pow, prod, polynomial, mean/var divisor, cat/stack, pad | induction |
| C48, C49 | tape of nodes with counters | invariant over the recursive backward |
| C52 | step over groups, one store; inexact multiplications; thresholding on shares | fold induction to a closed form; error recursion; C28 and the accuracy of the square |
| C55 | transition system of processes, pipe and queue | invariant over reachable states; decreasing measure; uniqueness of sorted lists |
| C50, C63-C65 | tensors as index functions; gradient functions | adjointness by exchanging finite sums and bijections of index sets |
| C53 | graph evaluation as a relation on names | rank induction, loop invariant |
| C54 | parameter paths as an inductive relation | induction over module trees |
| C56 | table lookups, pickle machine | induction over opcodes with a safety invariant |
| C57 | messages of group operations | induction over histories |
| C58 | bits and exclusive or; least squares | case analysis, sums of squares |
| C60 | float64 window boundaries, row extension and repetition | error analysis of two roundings; loop invariant: blocks of equal size |
| C61 | index arithmetic of windows; fold of the backward pass | div/mod reasoning on flat indices; linearity of the fold |
| C66-C69 | gradient functions and losses over the reals | derivative along every direction; sums of derivatives |
| C70-C73, C75-C78 | approximations over the reals | closed forms of the iterations, monotonicity and mean value bounds of exp, ln, atan; discrete orthogonality of cosines |
| C74 | logarithm over the reals | Taylor form of the iteration, verified interval arithmetic over a cover of the range |
| C79-C81 | exp, reciprocal, sigmoid, tanh on shares | error recursions over the reals along the run; a run is followed through `within E`, which records that each truncation is off by less than E units |
| C82, C83 | heap of modules and tensors | induction on the rank in an acyclic graph; preorder of partial conversions; induction over sequences of calls |
| C84, C85, C86 | ONNX operators and converter | pointwise on tensors against ONNX's definitions; refinement of sequential evaluation by the graph loop (C53), rank = position; invariant for stuck names |
| C87 | views | bijection on the draws by recursion over the program: masks become messages, party 0's correlated shares trade places with an honest party's; the programs' last registers equal the protocol functions of Beaver.v and Trunc.v |
| C90 | storages and views | simulation of PyTorch's heap by induction over programs, with a layout of each storage per party; concrete programs with arbitrary shares for the differences |
| C92 | transition system of parties, channels and collectives | diamond property and a well-founded order on programs, hence one outcome under every schedule; every collective as an equation between networks |
| C91 | load_from_party and others as programs on the network | the equations of C92; invariants over runs for the effects that do not commute |
| C93 | straight-line programs with an integer analysis of magnitudes and errors | soundness of every rule by exact rational error propagation, then induction over the program; compilation of networks by blocks of independent instructions |
| C94 | cos and sin on shares | error recursion for points of the plane: the modulus is multiplicative, so relative errors square like the point itself |
| C95 | how likely truncation goes wrong | explicit sets of bad sharings and masks; counting tapes: a draw shifts the truncated number's share, so every other draw fixed at most the bad set is hit; union bound by induction over the program |
| C96 | forwards run instead of the methods when an argument requires a gradient | composition of C07, C12, C28-C31, C43; strong induction on the exponents |
| C97 | count of draws giving one; dropout factor by factor | xor with a constant permutes the draws (C59); composition of comparison, selection and public product |
| C98 | softmax of one line on shares | the error of exp of a negative number is a part in proportion to it plus a few units (C79_negative), summed over the line; then the reciprocal (C80) and the products |
| C99 | backward through a program of tracked operations | each gradient function is the adjoint of the derivative of its operation along curves; induction over the program with the sum over paths of C48 |
| C100 | dispatch and recording of calls | induction over nested argument lists; the registered names by computation; refuted forms for calls that lose gradients |
| C101 | inv_sqrt and sqrt on shares | the error u of Newton's method becomes u^2(3-u)/2 plus the rounding of one step; invariant 0 <= error <= b; the first estimate of the default configuration by monotonicity on 19 pieces of [0.1, 150], each checked in integers |
| C102 | Error of polynomial at numbers of any size | invariant of the doubling loop: term k is within M^(k+1) ((1+e)^k - 1) of h^(k+1); sum of the terms |
| C103 | Error of log and log_softmax on shares | error of exp (C79) and of the polynomial (C102) propagated through the iterations; the bound is evaluated by interval arithmetic with a soundness proof over pieces that cover the range |
| C104 | Error of erf on shares | powers of a number of size at most 1 by induction on the binary digits of the exponent; the alternating series of exp(-u) by integrating its remainder; the error function by the mean value theorem; pi by Machin's formula of the standard library |
| C105 | Approx.v, as in C76 | n + 1 zeros of a function give a zero of its n-th derivative (mean value theorem, induction); the derivatives of the Chebyshev polynomials by their recurrence; \|tanh^(n)\| <= n! from tanh' = 1 - tanh^2 by strong induction |
| C106 | Error of tanh and sigmoid by Chebyshev polynomials on shares | the errors obey the recurrence of the polynomials with a disturbance in each step; its fundamental solution grows linearly by an energy invariant (induction); the coefficients decay like 4/4^p by discrete orthogonality and C105; listed coefficients are checked through the residual of p' = 1 - p^2 |
| C107 | Error of reciprocal on shares by both methods | the error of log (C103) moves the argument of exp, whose error is in proportion to the result but for 9 units; case analysis of methods and signs |
| C108 | Training on encrypted data follows gradient descent | the analysis of C93 extended by masks that are certain when their argument is farther from zero than its error, gates and clipping; the compiled loop computes gradient descent by induction over layers and batches with registers that stand for given values; first-order expansions with bounded second-order term give the gradient |
| C109 | Norms, cosine similarity, batch normalisation on shares | the relative error of inv_sqrt (C101) composed with the error of its argument; Cauchy's inequality for the dot product; variance about a shifted mean; exact absolute values and maxima (C31, C32) |
| C110 | How likely training goes wrong with three or more parties | the count of C95 for every instruction of the loop of C108 (comparisons and gates truncate nothing, clipping squares once), composed by induction over the program; the only division of the compiled loop is the loss's |
| C111 | Classification losses and their gradients on shares | the errors of log, reciprocal, sigmoid and softmax on shares (C81, C98, C103, C107) composed; a factor out of range with weight 0 contributes one unit only; the sigmoid's and softmax's error d goes through the logarithm as d/(q - d); Newton's reciprocal is extended to 64 by a second estimate; runs that refute the documented one-example and far-logit behaviour |
| C112 | Logistic regression on encrypted data follows gradient descent and converges | one epoch on shares against one exact step (dot products, C81 and C111 composed); an exact step is non-expansive when r times the spread is at most 8 (the sigmoid is increasing with slope at most 1/4, Cauchy's inequality), so errors add up and do not grow; descent lemma and telescoping for the loss; induction over epochs for the scores; a fixed point for the learning rate that is encoded as 0 |
| C113 | Gradients that share memory | simulation of the value-level run of C48 by the run in memory, by induction on the nesting of backward calls; invariant: the gradients of tensors whose backward function is not running and those on their way share no cell and hold the values of the value-level run; views are taken from a gradient that is not read again; a graph that is wrong without clones; three calls with one gradient tensor |
| C114 | Parties as threads | invariant over any interleaving of the initialisations: messages and received seeds are honest, each key is seeded by some thread or one is still to do so; invariant over any interleaving of draws: what all threads drew from a generator is a permutation of its successive draws; hence the sum of zero shares and what decryption gives; schedules with which it is wrong; with two threads, invariant on how far each is and what kinds of messages the mailboxes hold, hence no failure and no deadlock |
| C115 | RAPPOR loss on shares | as C111: the error of sigmoid carried through the affine map, the products, the reciprocal and the logarithm; the slope is the derivative of the documented loss; explicit bounds for alpha in the middle; refuted for alpha = 0 |
| C116 | Negative integer powers on shares | the relative error of the reciprocal (C107) compounded by induction on the exponent; the error of the power itself is that of C43 |
| C117 | Error of pos_pow on shares | the error of log (C103) and of the product moves the argument of exp, whose error is that used for C107 |
| C118 | Error of norms with other exponents on shares | the errors of the powers (C43, C117) add up in the sum; that of the root is the error of pos_pow at a number near the sum |
| C88, C89 | leakage | telescoping sums around the ring, both directions; explicit recovery functions; cancellation of odd factors modulo 2^64 |

Status of each claim is in `MANIFEST.json`; this document is updated as the work proceeds.
