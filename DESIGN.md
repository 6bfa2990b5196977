# Formal model of komm in Coq 8.16.1

## 1. Method

Each Python function of interest becomes a total, computable Gallina function that mirrors it
branch by branch (`*_Model.v` or the `Model` part of a file).  Conventions:

* exceptions are values (`option`, `None` = the Python code raises);
* `while` loops become structural recursion or recursion on explicit fuel; running out of fuel is
  an error value, and the theorems show it never happens for the fuel the model supplies;
* numpy integer arrays are `list`s; bits are `bool` (or `N`/`nat` where the code does arithmetic on them);
* Python `int` is `nat`/`N`/`Z`, unbounded; numpy int64 overflow is *not* modelled;
* floating point probabilities/LLRs are elements of `Q`/`R`/an abstract ordered domain - rounding is
  *not* modelled (stated at each definition), except in `Float_Model` and `FloatViterbi_Model` (C110); `ceil(log(n, b))` computed in floating point in the
  Lempel-Ziv codes is an oracle `w` with the hypothesis `n <= b ^ w n` (what the real code needs from it);
* random draws are explicit arguments (oracles); theorems quantify over them.

Property theorems live in `Props_*.v`, which contain only statements, `exact lemma`, an `Example`
showing that the hypotheses are satisfiable.
Names: `..._partial` = weaker than the English property (missing part in a comment);
`..._refuted` = the English property is false of the faithful model, with a witness.

## 2. Plan per property

| id | model | proof |
|----|-------|-------|
| C01 | list-of-bit functions | induction on width |
| C02,C03 | encoders/decoders as scans over bit lists | induction on sequence; Zeckendorf uniqueness |
| C04-C09 | `util.py` functions on `list nat` words | Sardinas-Patterson soundness/completeness by induction on word lengths; termination by finiteness of suffix set; Kraft by integer arithmetic at the max length |
| C10,C11 | heap as multiset with deterministic minimum extraction | forest invariant; exchange argument |
| C12 | rational pmf | Kraft by halving; `canonical_code` theorem of C06 |
| C13 | heap choice = arbitrary oracle of a leaf | trie invariant |
| C14-C17 | encoder and decoder state machines | simulation: decoder dictionary tracks encoder dictionary |
| C18-C26 | `N` bit patterns, xor/shift | bridge to mathcomp `{poly 'F_2}` |
| C27,C28 | list-of-bool-lists, pivot loop | row-operation invariants |
| C29-C34,C64 | generic linear code over list matrices | linear algebra facts of C27/C28 |
| C35 | polynomial strategies | C18-C20 |
| C36-C40 | matrix constructions | induction on parameters |
| C41 | Reed decoding | majority logic counting |
| C42 | butterfly vs kron | induction on mu |
| C43,C44 | BCH generator, Berlekamp-Massey | BCH bound (Vandermonde) ; key equation |
| C45 | Wagner on rationals | exchange |
| C46-C51 | FSM, state space | induction over sequences / DP optimality |
| C52-C55 | labelings, sequences | induction on m |
| C56,C60 | quantizers, constellations over Q/R | order reasoning |
| C57,C58 | Markov chain graph algorithms | reachability invariants, gcd of closed walks |
| C59,C61,C62,C63 | direct | direct |
| C65 | forward-backward in an extended log domain over `R` (`Fin x | MInf`) | sum over paths, semiring induction; normalisation |
| C66 | ViterbiDecoder = viterbi of the code's machine + strategy's start/end states | C47 + C49/C50 (paths = codewords) |
| C67 | the seven tabulated sequences | C62 formula + exhaustive evaluation of the finite table |
| C68 | complex pairs over `R`, `cexp` | geometric sum of roots of unity, gcd argument |
| C69 | Lloyd-Max loop with arbitrary (float) iteration count | order invariant kept by midpoints/centroids |
| C70,C71 | constellations as lists of real vectors | finite sums, induction on the order |
| C72-C75 | transition matrices over mathcomp `rat` matrices/lists | walks, Wielandt bound, (I-Q) invertible, oracle for `random()` |
| C76-C79 | pmfs over `R`, `ln` | Gibbs inequality, concavity, Karush-Kuhn-Tucker certificate, Arimoto-Blahut monotonicity |
| C80,C81 | rates over `Q`/`R` | McMillan + Gibbs; tree exchange for Tunstall |
| C82 | `Cat_Model`: generator matrices, `_minors_gcd`, `invariant_factors` (E1-E3 as coded), `is_catastrophic`; `Cat_Spec`: infinite inputs through `conv_encode` | minors over F_2[X] up to divisibility, adjugates + Bezout, dependencies modulo a common divisor, power series modulo X^T |
| C83 | `BCJR_Model`: BCJRDecoder (metric, initial/final distributions, post-processing, marginalization); `BCJR_Spec`: likelihoods summed over all messages | C65 on the encoder's machine, re-indexing runs by bit sequences (permutation), unique terminating tails |
| C84 | `BCJR_Model`: Labeling.marginalize with infinities and NaN | sums over label tables, product tables by induction |
| C85-C90 | `Pulse_Model`: all pulses, `taps`, square-root pulses; `Pulse_Spec`: improper Riemann integrals (Coquelicot), Fourier pairs, autocorrelation, Nyquist criterion | antiderivatives on each band, uniqueness of limits; Gaussian integral by differentiation under the integral sign; Taylor bounds inside the `np.isclose` windows |
| C91,C92 | `Special_Model`: gaussian_q, its inverse, logcosh, marcum_q with its loop and stopping test; `Special_Spec`: improper integrals, Bessel series, Marcum's integral | antiderivatives with limits (Gaussian integral of C88), termwise derivative of the Poisson-mixture power series, Poisson tail bounds |
| C93 | `Mse_Model`: mean_squared_error with its cells, linspace and trapezoid; `Mse_Spec`: improper integral of (quantize x - x)^2 pdf | trapezoid sums are averages of Riemann sums (Coquelicot's filter), the cells tile the line; cell-wise Lipschitz bound; closed sum of squares |
| C94 | `Array_Model`: N-d arrays (shape, row-major data), apply_along_axis, reshape, blockwise, vectorize; `Nd_Model`: encode/check/inverse_encode and the table and exhaustive decoders on N-d arrays; `Array_Spec`: indexing a[p,:,q], blocks | multi-index arithmetic; acts_blockwise is closed under the decorators and under composition, then instantiated per method |
| C95 | `SignalNd_Model`: sampling_rate_compress/expand with axis | element-wise: get of the result in terms of get of the input |
| C96 | `SignalNd_Model`: convolve and the three loops of numpy's correlate, generic in the dtype; `SignalNd_Spec`: convolution sum, modes | window lemma for the sum; semiring algebra (commutativity, associativity); apply_along_axis lemma of C94 |
| C97 | `Fourier_Model`: fft (definition), fftshift, fftfreq, fourier_transform along an axis; `Fourier_Spec`: Riemann sum of the Fourier integral | index arithmetic of the shift, orthogonality of roots of unity: inversion, Parseval, convolution theorem |
| C98 | `Eval_Model`: ring protocol as a record, horner, binary_horner, power, evaluate, the four rings; `Eval_Spec`: ring axioms, power sums | generic proof from the axioms by induction on the coefficients; instances from C18, C24, C25 |
| C99 | `Eval_Model`: coefficients, exponents, from_*, reciprocal, shifts | bitwise reasoning; multiplicativity of the reversal by induction on one factor |
| C100 | `Eval_Model`: Integer divmod, domain.gcd/xgcd/lcm on integers | induction on the absolute value of the remainder |
| C101 | `History_Model`: BlockCode objects and table/exhaustive decoders with their caches, flags and references, on a heap of arrays; `History_Spec`: histories of calls by a caller who does not write into shared arrays, expected answers | invariant of the world (contents of all owned arrays), preserved by every call; frame lemma for all calls |
| C102 | `NdMaps_Model`: the methods of labelings and constellations on shaped arrays, with the code's own reshapes, fancy indexing and element-wise shortcuts; `NdMaps_Spec.lifts`: an array method is a one-dimensional method applied to every line of the last axis, raising exactly when a line raises | row-major rows of an array; block lemmas for the checked and unchecked reshapes; composition of lifts |
| C103 | `Rng_Model`: validators, numpy's choice (tolerance, cumulative sums, searchsorted), transmit of the five channels, emit, simulate, as functions of an abstract generator state; `Rng_Spec`: symbolwise rule, share of the weight, streams, expectations | prefix counting lemma for searchsorted; induction on the loops; linearity for the noise power |
| C104 | `Rng_Model`: generators, the global one, objects with references; programs of operations; `Rng_Spec`: script of a generator, replay alone | induction on the program with the generator's state generalised |
| C105 | `BitsNd_Model`: numpy's choice of the buffer dtype from the first row and the unsafe cast of the others; two's complement shifts | exact behaviour by rows (`C105_exact`), the ranges where it is the identity, round trips; refuted instance for 64- and 65-bit words |
| C106 | `DecodersNd_Model`: each decoder's body under the two decorators, `np.apply_along_axis` with a body that may raise; hard outputs of the SC and BCJR decoders as ufuncs of the whole soft output | `maps_blocks` (also says when the call fails) for each decoder, `recovers` (encode, corrupt, decode an array) from the per-word correction theorems C32, C33, C41, C42, C44, C45, C66, C83 |
| C107 | `Stream_Model`: the ViterbiStreamDecoder object (code, metric, memory), `decode` with its reshape check, and a program that calls it on pieces of the stream; `Stream_Spec`: windows, sparse errors, delayed message, silent loops | difference between survivor and transmitted path as a path of the encoder (linearity); error events between visits to the zero state: weight at least D and at least one per 2^d blocks, at most (r+1) times the noise by optimality of the survivor (C47/C48), so no event reaches back more than the bound; segmentation by C48_streaming; hard and soft metrics are instances of one abstract cost; `C107_catastrophic_refuted` shows that the hypothesis on loops is needed |
| C108 | `LosslessCons_Model`: from_enc_mapping and from_dec_mapping (max() of nothing raises); the other constructors are those of `Prefix_Model`; `LosslessCons_Spec`: largest symbol, value of a block in a base | acceptance as an iff for every constructor (`C108_*`), enumeration of `product(range(s), repeat=k)` = blocks by value (`tuples_values`), least block size; `C108_from_codewords_encodes` for the observable effect, `C108_enc_mapping_round_trip` |
| C109 | `Reconf_Model`: a channel (kind, parameter, cached matrix) and a uniform quantizer (three attributes, two caches) as state machines; `Reconf_Spec`: value last assigned, value at the first read | invariant over the run (`crun_state`, `urun_state`), then each method's answer; histories with the stale cache as counterexamples |
| C110 | `FloatViterbi_Model`: the algorithms of `FSM_Model`/`Conv_Model`/`Stream_Model` on the metric type `xF` of binary64 numbers with +inf (Flocq rounding to nearest even); `FloatViterbi_Spec`: exact cost of a path | hard metrics: simulation with exact numbers, integers below 2^53 are added exactly; real metrics: induction on the path with a quadratic error bound, then optimality for the rounded metric (C47 instance) |
| C111 | `Repr_Model`: argument binding, constructors and `__repr__` of 38 classes; `Repr_Spec`: reader for Python literals, containers and calls; `Repr_Spec2`: `built`, `prints_back`, `exceptional` | reader inverts printer by induction on the expression with fuel from the text length; constructors re-accept the stored attributes (invariant `inv`); converse by evaluating the printed expression |
| C112 | `Eq_Model`: `__eq__`/`__hash__` with Python's fallback rules, int hash modulo 2^61-1, set lookup; `Eq_Spec`: `same`, `clash` | case analysis, arithmetic of the hash |
| C113 | `FloatShannon_Model`: lengths, block products and constructor with every operation rounded to binary64 (Flocq), log2 a parameter; `FloatShannon_Spec`: `ideal_length`, `log2_like`, `clear_of_powers` | monotonicity and relative error of rounding, ln(1+t) bounds, canonical_kraft |
| C114 | `FloatCodes_Model`: huffman_tree, fano_code_lengths, tunstall_code with every operation rounded to binary64, np.sum and heappop parameters; `FloatCodes_Spec`: `double_prob`, `sum_like`, `heap_like`, `grid53`, `computed_prob` | reuse of the tree invariant with ghost weights; error bound of running sums; simulation of the exact run on the grid |
| C115 | compositions of `Labeling_Model`, `Const_Model`, `BlockCode_Model`, `PmfCodes` (no new model); `Chain_Spec`: `modulate`, `demodulate`, `hits`, `steps`, `displacement` | one symbol: nearest point, label difference = index difference of reflected labels (cyclic for PSK); sum over symbols; then C33/C39 decoders and C12 |
| C116 | compositions of `Const_Model.posteriors`, `BCJR_Model.marginalize` and the soft decoders; `Soft_Spec`: `soft_demodulate`, `bit_density`, `antipodal`, `euclid2` | Bayes rows cancel in the ratio; Euclidean distance = constant - 2 A correlation; parallelogram bound for the half-distance guarantee; C83 for BCJR |
| C117 | `FloatConst_Model`: `np.linspace`, PAM/QAM/ASK decisions and `UniformQuantizer` arrays with one `binary64` per operation, `astype(int)` with a platform parameter for values outside int64 | one-rounding lemma in units of the spacing (`b64_scaled`), composed per expression; monotonicity of rounding for the ends; C56 for quantizers once interleaving is proved |
| C118 | `FloatSoft_Model`: the exhaustive, Wagner, Reed (soft) and SC decoders with one `binary64` per operation, np.sum/np.dot as parameters, exp and log1p of `boxplus` as parameters; `FloatSoft_Spec`: `rounded_sum`, `any_order`, `clear_word`, `sane_library` | error bound of a sum by induction on the summation tree; exactness on a grid; Wagner by embedding doubles into the rationals (C45); Reed by the majority argument of C41 with an error term; SC by the recursion of C42 with `min - correction` bounded below |
| C119 | `FloatPhase_Model`: the PSK/APSK tables with `.round(15)`, the PSK decision and the generic nearest-point search, one `binary64` per operation; cos, sin, atan2, hypot and the complex product are fields of `library`; `FloatPhase_Spec`: `polar`, `accurate_library` | rotation by approximate unit numbers tracked as modulus/argument errors, `arg_near` (a disc seen from the origin) by concavity of the sine, decision by uniqueness of rounding; the search by relative errors of sums of squares and a weighted parallelogram inequality |
| C120 | `FloatRate_Model`: entropy, Kraft parameter and rate, one `binary64` per operation, np.dot/np.sum/np.prod as relations over every order (`rounded_dot`, `rounded_product`); log, log2, pow are parameters (`accurate_logs`, `accurate_power`) | relative errors of sums of non-negative numbers in any order; near 1 the logarithm's condition number makes an absolute term per unit of probability; exactness by multiples of a fixed power of two below 2^53; the two refutations by explicit rounding; relative entropy (`FloatRate_Divergence`): the same with terms of either sign, bounded by the sum of their absolute values; binary_entropy (`Props_FloatBinary`): the rounded 1 - p is a relative error of its second term's argument |
| C121 | `SC_Model` (as C42); `SC_Spec`: the polar matrix entry by entry, `word_prob`, `evidence` (the sum over all continuations of the decided bits) | the loop equals a recursion (C42); induction on mu: the sum over the second half of the input, re-indexed by the bijection of the transform, turns every pair of L-values into boxplus, the sum given the first half turns it into the g-node; then normalisation; erasures by a three-valued version of the noiseless induction (`SC_Erasure`) |
| C13-C17 `_float` | `Float_Model`: math.log(n, b) as two library calls and a rounded division (Flocq binary64), ceil; `Float_Spec.accurate`: relative error 2^-52 | error propagation over R, ln(n-1) <= ln n - 1/n; the codes evaluate widths only at sizes they reach |

## 3. Trusted base

* Coq 8.16.1 kernel including its `vm_compute` reduction machine (used for finite computations such as
  the table of primitive polynomials and the Golay weight distribution); no `native_compute`.
* The Coq standard library, mathcomp, Coquelicot (real integrals only); no plugin beyond those they load.
* The reading of /repo recorded in the comments (file and lines cited at each definition).  Nothing was
  executed: the model was written from the text.
* The axioms of section 5.

## 4. What is modelled, what is not

Every definition in a `*_Model.v` file cites the lines it models.  By module of /repo/src/komm:

| module | modelled | not modelled |
|---|---|---|
| `_util/bit_operations.py` | all | - |
| `_util/matrices.py` | rref, xrref, rank, pseudo_inverse, null_matrix, block_diagonal, invariant_factors | in-place aliasing (`rref` overwrites an integer array given by the caller) |
| `_util/information_theory.py` | entropy, binary_entropy(_inv), relative_entropy, mutual_information, arimoto_blahut | rounding (except that of entropy, binary_entropy and relative_entropy: C120) |
| `_util/sequences.py`, `_sequences_*` | all non-stub classes | Gold/Kasami (empty stubs) |
| `_util/signal_processing.py` | all functions, along any axis | the FFT algorithm (its definition as a sum is used) |
| `_util/decorators.py` | blockwise, vectorize | with_pbar (progress bar) |
| `_util/special_functions.py` | boxplus, gaussian_q, gaussian_q_inv, logcosh, marcum_q | `erfc` is the exact function, `NormalDist().inv_cdf` a parameter with its specification (C91_inverse_exists), the overflow of `math.gamma` for orders above 171 is not modelled |
| `_util/validators.py` | all checks, as part of the constructors that call them (exact sums instead of `isclose` unless a theorem is about the tolerance) | - |
| `_integer_coding`, `_lossless_coding` | all encoders, decoders, predicates, constructors, rates | `ceil(log(n,b))` is an oracle with hypothesis `n <= b^w` in C14-C17; `Float_Model` has the binary64 computation (Flocq), for which the hypothesis is proved up to 2^44 from a 1-ulp `log` (C14_float_width, C13-C17 `_float`) |
| `_algebra` | BinaryPolynomial, BinaryPolynomialFraction, FiniteBifield, Integers (prime factors), ring.power/horner/binary_horner/determinant, domain.gcd/xgcd/lcm (polynomials and integers), == and hash (C112), printing (C111) | caches beyond C101 |
| `_error_control_block` | all classes; caches and array sharing of BlockCode (C101) | progress bars |
| `_error_control_decoders` | all decoders | progress bars |
| `_error_control_convolutional` | constructors, state space, machine, encoders, free distance, termination strategies, stream decoder | - |
| `_finite_state_machine` | process, input/output_edges, viterbi, viterbi_streaming, forward_backward | - |
| `_labelings`, `_constellations`, `_quantization`, `_sources`, `_channels` | see the C52-C53, C56-C61, C69-C79 comments | numpy's bit generators (an abstract state with two next functions, C103-C104), `scipy`-like numerics |
| `_pulses` | all pulses, `taps`, square-root pulses | the nodes and weights of `np.polynomial.legendre.leggauss` (parameter `rule`; C88_root_beaulieu is relative to the quadrature error) |

Global simplifications: floating point is exact real/rational arithmetic (except in `Float_Model` and in C110, C113, C114, C117, C118, C119 and C120, where it is IEEE binary64 rounded by Flocq); numpy int64 does not wrap;
numpy broadcasting over extra leading axes is modelled for the block-code methods and all decoders (C94, C106), rate conversion (C95), labelings and constellations (C102), bits and integers (C105), elsewhere only where stated;
`functools.cache` is transparent except in C101; tqdm bars are dropped.

## 5. Axioms (`Print Assumptions` of every theorem; the per-theorem output is in ASSUMPTIONS.md)

"Closed under the global context" for every theorem except those that mention the standard library's
real numbers.  Those depend on (and on nothing else):

* `ClassicalDedekindReals.sig_forall_dec`, `ClassicalDedekindReals.sig_not_dec` (stdlib Reals),
* `FunctionalExtensionality.functional_extensionality_dep` (stdlib),
* `Classical_Prop.classic` (stdlib; via lemmas on limits/derivatives).

They are: C42_boxplus, C42_sc_*, C55_autocorrelation, C55_maximum_length_sequence, C56_*, C60_*, C62_*, C65_*, C67_*,
C68_*, C69_*, C70_*, C71_*, C76_*-C79_*, C80_rate, C80_entropy_bound, C80_huffman_rate,
C80_shannon_rate, C81_* and every later property about real numbers.
No axiom of our own, no `Admitted`, no functor/module type, no kernel switch.
(`coqchk` additionally lists the sealed module fields of mathcomp and of the stdlib `Reals` that the
libraries themselves define inside modules; they are not axioms of the theorems.)

## 6. Places where the code does not do what it documents

Found while proving; each has a `_refuted` theorem (or an exact characterisation) unless marked (prose).

1. `BinaryPolynomial.lcm` is product // gcd: wrong for one argument other than 1 and for three or more arguments unless they are pairwise coprime or include 0 (C21_lcm_characterisation).
2. `SyndromeTableDecoder` with `CyclicCode(systematic=False)`: wrong correction (C35).
3. `coset_leaders()` does not terminate when the redundancy is zero (C31).
4. `MealyMachine.viterbi` / `forward_backward` lose parallel edges (C47, C65).
5. LZ77/LZSS reject source symbols >= 256 (C16, C17).
6. `FixedToVariableCode` accepts empty codewords (C05).
7. `SystematicBlockCode` information-set validation off by one, no duplicate check (C34).
8. Tunstall's number of expansions is not maximal in a boundary case (C13).
9. The pmf tolerance lets Shannon's lengths violate Kraft (C12).
10. `rref` overwrites the caller's array (prose).
11. `ZeroTermination` of a memoryless code (C50_memoryless).
12. `FiniteBifield(value)` does not reduce (C25_constructor); `SingleParityCheckCode(1)` claims distance 2 (C37).
13. `null_matrix` errors for rank-deficient input (C28_null_matrix_rejects).
14. `from_exponents` with repeated exponents (prose).
15. `CyclicCode` with g = 1 (C35_no_redundancy_refuted).
16.-17. Streaming Viterbi releases symbols of the best *new* state and forgets a non-zero initial state (C48).
18. Tail-biting with feedback when A^h + I is singular (C50).
19. `ConvolutionalCode` does not check q(0) = 1 (C49).
20. Zero-terminated Viterbi decoding with unequal constraint lengths (C66).
21. Labelings: empty bit list raises, out-of-range indices wrap (C52).
22. `invariant_factors` lacks the divisibility step and can leave the first row unreduced; `is_catastrophic` can answer False for a catastrophic encoder with two or more inputs (C82_refuted_false, C82_refuted_factors).
23. LFSR with even feedback polynomial (C55).
24. Constellations: single-axis QAM distance, PSK(1) mean, negative amplitude (C60, C70).
25. MarkovChain `allclose` tolerance for absorbing states (C57).
26. `FixedToVariableCode.rate` depends on the insertion order of the mapping (C80).
27. BSC/BEC/Z `mutual_information` accept pmfs of the wrong length (C77); `binary_entropy_inv` with tol <= 0 diverges (C76).
28. `BCJRDecoder` labels input symbols most-significant-bit first while the finite-state machine uses least-significant-bit first: with k >= 2 input bits every block of k output bits is reversed (C83_block_order_refuted).
29. `RectangularPulse` does not enforce the documented 0 < w <= 1, and for w > 1 the default span of `taps` cuts the waveform off (C90_default_span_cuts).
30. `marcum_q` stops at the first term below 1e-16, which for large arguments comes before the significant terms: marcum_q(1, 20, 10) is about 0, the true value is above 0.8 (C92_early_stop_refuted).
31. `marcum_q` runs its loop over k in range(m, 100): for orders m >= 100 the parameter a is ignored (C92_large_order_ignores_a, C92_large_order_refuted).
32. `mean_squared_error` integrates backwards over the last cell when a threshold exceeds the given range: with a density that does not vanish there the result can be negative (C93_range_refuted).
33. An empty array (0 blocks) is encoded to an empty array by the matmul-based codes, but raises for the codes whose methods carry @vectorize, such as CyclicCode (C94_empty).
34. FiniteBifield(k)(value) does not reduce or reject values of degree k or more: in GF(16), field(0b10000) and field(0b11) are the same element but compare different, 1 * x != x, and field(0b10000) gets five conjugates (C25_one_neutral_iff_reduced, C25_unreduced_refuted).
35. `BlockCode` does not copy the array it is given and returns its cached arrays themselves: a caller who writes into them changes the code or makes it inconsistent (C101_argument_alias_refuted, C101_table_alias_refuted).
36. `Constellation.indices_to_symbols` accepts negative indices and counts them from the end (C102_negative_index), unlike the labelings.
37. A pmf or transition matrix whose sum is off by more than 2^-26 but less than 1e-5 is accepted by the constructors of DiscreteMemorylessSource, DiscreteMemorylessChannel and MarkovChain, and then every emit / transmit / simulate raises (C103_tolerance_refuted). DiscreteMemorylessChannel.transmit counts negative symbols from the end (C103_dmc_raises).
38. `bits_to_int` on an array with several axes chooses the integer type from the first row only: 64-bit words from 2^63 come out negative, wider words raise or not depending on their order (C105_exact, C105_wide_refuted).  `NdMaps_Model` (C102) models the conversion without this, so C102 for `NaturalLabeling`/`ReflectedLabeling` is meant for at most 63 bits per symbol.
39. Assigning the parameter of a `BinarySymmetricChannel`, `BinaryErasureChannel` or `ZChannel` after `transition_matrix` was read leaves the old matrix in place while `capacity` etc. use the new value, and assignments are not validated (C109_stale_matrix_refuted, C109_unchecked_assignment).
40. Assigning `step` of a `UniformQuantizer` between the first use of `levels` and that of `thresholds` mixes both: with 2 levels at -1/2 and 1/2 the input 1 is quantized to -1/2 (C109_quantizer_mixed_refuted).
41. `repr()` of a `LempelZiv77Code`/`LempelZivSSCode` omits the search buffer: the text builds a code with a zero buffer (C111_lz_buffer_lost).
42. `repr()` of a `ProductLabeling` prints the tuple of labelings as one argument: the text always builds another object (C111_product_lost).
43. `repr()` of a `FiniteBifield` of degree above 24 (legal with an explicit modulus) raises (C111_large_field).
44. `CyclicCode(length, g, h)` with both polynomials is accepted whatever they are, and builds an object with neither attribute (C111_both_polynomials).
45. `BinarySequence(polar_sequence=...)` accepts entries other than +1 and -1, and prints bits of another sequence (C111_polar_lost).
46. Objects built from arrays without rows print `[]`, which the constructor refuses (C111_empty_matrix).
47. `BinaryPolynomial(v) == v` for an int `v`, but their hashes differ from 2^61 - 1 up to 2^63 - 1, so a set of polynomials does not contain the equal int (C112_hash_contract_fails).
48. `ShannonCode` rejects (ValueError from the Kraft check) the pmf of sixteen entries (1 - 2^-53)/16 and one entry 2^-53, all doubles adding up to exactly 1: log2(1/p) rounds to 4.0 for p just below 1/16, so sixteen codewords get length 4 instead of 5 and no room is left (C113_exact_sum_rejected).
49. `PAMConstellation` and `ASKConstellation` convert the rounded index to int64 before clipping: on x86-64 a received value of 2^64 spacings or more (still far from float overflow) becomes -2^63 and is decided as index 0 instead of M-1 (C117_pam_overflow_refuted, C117_ask_overflow_refuted). `QAMConstellation` clips first and is right.
50. `mutual_information` can reject (ValueError) a pmf and a transition matrix each of which is accepted: the tolerances of the two validations compound in the output pmf (C77_tolerance_refuted).
51. `SCDecoder` in double precision loses weak L-values: `boxplus` returns 0 for two values of magnitude 2^-60, and 0 is decided as the bit 0, so correctly signed L-values are decoded wrongly (C118_sc_weak_refuted; the exact decoder of C42 recovers the message).
52. `PSKConstellation.matrix` (and so `APSKConstellation.matrix`) is rounded to 15 decimals whatever the amplitude: with an amplitude of at most 2^-52 all points are 0, and near 1e-14 they are distorted, while `minimum_distance` still reports 2 A sin(pi/M) (C119_psk_tiny_refuted; C119_psk_points bounds the distortion by 2^-49).
53. `FixedToVariableCode.kraft_parameter` of a complete code can be below 1 when the target alphabet is not a power of two: for the six one-symbol words over six symbols it is 0.9999999999999999 with a correctly rounded pow and a sum from left to right (C120_kraft_refuted), so `kraft_parameter() == 1` is not a test of completeness.
54. `entropy` takes the logarithm of 1/p: for a pmf such as [1, 5e-324], which passes validate_pmf, 1/p is infinite in binary64 and the result is infinite instead of about 1e-320 (C120_entropy_overflow_refuted: 1/p is beyond the range of binary64).
