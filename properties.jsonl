{"id": "C01", "title": "Integer/bit conversions are mutually inverse", "statement": "For every width w, bit order and non-negative integer i < 2^w, converting i to a w-bit array and back returns i; for every bit array b, converting b to an integer and back at width len(b) returns b. MSB-first and LSB-first outputs are reversals of each other.", "quantifier": "all widths, all integers below 2^width, all bit arrays, both bit orders", "why_tests_cant": "Infinitely many widths; tests try a few literals.", "anchors": ["src/komm/_util/bit_operations.py: int_to_bits, bits_to_int"]}
{"id": "C02", "title": "UnaryCode is a lossless code", "statement": "UnaryCode().decode(UnaryCode().encode(xs)) == xs for every sequence of non-negative integers; decode rejects (ValueError) exactly the bit strings that end inside a codeword; and encode(decode(bits)) == bits whenever decode accepts.", "quantifier": "all finite sequences of non-negative integers; all bit strings", "why_tests_cant": "Unbounded sequences of unbounded integers.", "anchors": ["src/komm/_integer_coding/UnaryCode.py: UnaryCode.encode, UnaryCode.decode"]}
{"id": "C03", "title": "FibonacciCode is a lossless code", "statement": "FibonacciCode().decode(FibonacciCode().encode(xs)) == xs for every sequence of positive integers; every codeword ends in its only occurrence of '11'.", "quantifier": "all finite sequences of positive integers", "why_tests_cant": "Needs existence and uniqueness of Zeckendorf representations for every integer.", "anchors": ["src/komm/_integer_coding/FibonacciCode.py: FibonacciCode.encode, FibonacciCode.decode"]}
{"id": "C04", "title": "is_prefix_free answers the definition", "statement": "FixedToVariableCode.is_prefix_free() (and the sourceword version is_prefix_free of VariableToFixedCode) is True exactly when no word is a prefix of another word at a different position, for lists of non-empty words.", "quantifier": "all finite lists of non-empty words over any alphabet", "why_tests_cant": "Universally quantified over codes.", "anchors": ["src/komm/_lossless_coding/util.py: is_prefix_free, is_prefix_of", "src/komm/_lossless_coding/FixedToVariableCode.py: is_prefix_free"]}
{"id": "C05", "title": "is_uniquely_decodable answers the definition (Sardinas-Patterson)", "statement": "For every list of non-empty codewords, is_uniquely_decodable() terminates and returns True exactly when different sequences of codeword indices always have different concatenations.", "quantifier": "all finite lists of non-empty words; all pairs of index sequences", "why_tests_cant": "The definition itself quantifies over infinitely many message pairs.", "anchors": ["src/komm/_lossless_coding/util.py: is_uniquely_parsable", "src/komm/_lossless_coding/FixedToVariableCode.py: is_uniquely_decodable"]}
{"id": "C06", "title": "from_lengths builds a prefix-free code iff Kraft's inequality holds", "statement": "FixedToVariableCode.from_lengths(cardinality, lengths) succeeds exactly when sum base^-l <= 1; on success the i-th codeword has length lengths[i], all symbols are below the base, and the code is prefix-free.", "quantifier": "all bases >= 2, all lists of positive lengths", "why_tests_cant": "Kraft's theorem for all length profiles.", "anchors": ["src/komm/_lossless_coding/util.py: canonical_code, integer_to_symbols", "src/komm/_lossless_coding/FixedToVariableCode.py: from_lengths"]}
{"id": "C07", "title": "Fixed-to-variable decode inverts encode", "statement": "For every FixedToVariableCode whose code is prefix-free (and has no empty codeword) and every source sequence whose length is a multiple of the source block size with symbols in range, decode(encode(xs)) == xs.", "quantifier": "all prefix-free codes, all admissible source sequences of any length", "why_tests_cant": "Unbounded sequences and codes.", "anchors": ["src/komm/_lossless_coding/FixedToVariableCode.py: encode, decode", "src/komm/_lossless_coding/util.py: parse_fixed_length, parse_prefix_free"]}
{"id": "C08", "title": "Variable-to-fixed decode inverts encode up to completion", "statement": "For every VariableToFixedCode that is prefix-free and fully covering, encode accepts every source sequence, decode(encode(xs)) starts with xs, adds strictly fewer symbols than the longest sourceword, and equals xs when xs is a concatenation of sourcewords.", "quantifier": "all codes with prefix-free fully covering sourcewords, all source sequences", "why_tests_cant": "Unbounded sequences and dictionaries, including the incomplete last word.", "anchors": ["src/komm/_lossless_coding/VariableToFixedCode.py: encode, decode", "src/komm/_lossless_coding/util.py: parse_prefix_free"]}
{"id": "C09", "title": "is_fully_covering answers the definition", "statement": "VariableToFixedCode.is_fully_covering() is True exactly when every infinite source sequence has some sourceword as a prefix.", "quantifier": "all finite non-empty lists of non-empty words over any finite alphabet; all infinite sequences", "why_tests_cant": "Quantifies over infinite sequences.", "anchors": ["src/komm/_lossless_coding/util.py: is_fully_covering"]}
{"id": "C10", "title": "Huffman codes are complete prefix-free codes", "statement": "For every pmf with at least two symbols and each policy, HuffmanCode yields a prefix-free code with one codeword per (block) source symbol, no codeword empty and Kraft sum exactly 1.", "quantifier": "all probability vectors of size >= 2, both tie policies", "why_tests_cant": "All pmfs and sizes.", "anchors": ["src/komm/_lossless_coding/HuffmanCode.py: HuffmanCode, huffman_code"]}
{"id": "C11", "title": "Huffman codes are optimal", "statement": "The expected codeword length of the HuffmanCode of a pmf is at most that of any prefix-free binary code for the same pmf.", "quantifier": "all probability vectors of size >= 2, both policies, all competing prefix-free codes", "why_tests_cant": "Optimality is a statement against all other codes.", "anchors": ["src/komm/_lossless_coding/HuffmanCode.py: huffman_code"]}
{"id": "C12", "title": "Fano and Shannon codes are prefix-free with the documented lengths", "statement": "FanoCode always yields lengths meeting Kraft's inequality, so construction never fails and the code is prefix-free; ShannonCode uses the least l>=1 with 2^-l <= p(x), which meets Kraft's inequality whenever probabilities sum to at most 1, and the code is prefix-free.", "quantifier": "all probability vectors", "why_tests_cant": "All pmfs and sizes.", "anchors": ["src/komm/_lossless_coding/FanoCode.py: fano_code_lengths", "src/komm/_lossless_coding/ShannonCode.py"]}
{"id": "C13", "title": "Tunstall sourcewords are prefix-free, fully covering and fit the target block size", "statement": "For every pmf of size S >= 2 and every n with 2^n >= S, TunstallCode builds a dictionary of at most 2^n sourcewords that is prefix-free and fully covering, so that encode never rejects a source sequence.", "quantifier": "all pmfs, all target block sizes with 2^n >= S", "why_tests_cant": "Unbounded.", "anchors": ["src/komm/_lossless_coding/TunstallCode.py"]}
{"id": "C14", "title": "LZ78 round trip", "statement": "LempelZiv78Code decode(encode(xs)) == xs for every source sequence over the source alphabet.", "quantifier": "all alphabets, all finite source sequences", "why_tests_cant": "Adaptive dictionary grows with input; unbounded histories.", "anchors": ["src/komm/_lossless_coding/LempelZiv78Code.py: encode, decode"]}
{"id": "C15", "title": "LZW round trip", "statement": "LempelZivWelchCode decode(encode(xs)) == xs for every source sequence over the source alphabet, including the KwKwK case.", "quantifier": "all alphabets, all finite source sequences", "why_tests_cant": "Adaptive dictionary, decoder lags the encoder by one entry.", "anchors": ["src/komm/_lossless_coding/LempelZivWelchCode.py: encode, decode"]}
{"id": "C16", "title": "LZ77 round trip", "statement": "LempelZiv77Code decode(encode(xs)) == xs for every source sequence over the source alphabet, any window and lookahead size and any initial search buffer, as long as symbols and buffer values are below 256 (the encoder goes through bytes and rejects larger symbols even when source_cardinality allows them).", "quantifier": "all parameters, all finite source sequences", "why_tests_cant": "Self-overlapping matches, unbounded histories.", "anchors": ["src/komm/_lossless_coding/LempelZiv77Code.py: source_to_tokens, tokens_to_source, encode, decode"]}
{"id": "C17", "title": "LZSS round trip", "statement": "LempelZivSSCode decode(encode(xs)) == xs for every source sequence over the source alphabet, any window and lookahead size and any initial search buffer, as long as symbols and buffer values are below 256 (the encoder goes through bytes and rejects larger symbols even when source_cardinality allows them).", "quantifier": "all parameters, all finite source sequences", "why_tests_cant": "Variable-width tokens, self-overlapping matches, unbounded histories.", "anchors": ["src/komm/_lossless_coding/LempelZivSSCode.py"]}
{"id": "C18", "title": "Binary polynomials form the ring GF(2)[X]", "statement": "+, *, ** of BinaryPolynomial satisfy the commutative-ring laws, and coefficients(p*q) is the mod-2 convolution of the coefficients; degree(p*q) = degree(p)+degree(q).", "quantifier": "all pairs/triples of binary polynomials", "why_tests_cant": "Unbounded degree.", "anchors": ["src/komm/_algebra/BinaryPolynomial.py: __add__, __mul__, __pow__, degree, coefficients"]}
{"id": "C19", "title": "Polynomial division with remainder", "statement": "For d != 0, divmod(p, d) terminates and returns the unique (q, r) with p = q*d + r and degree(r) < degree(d); division by zero raises.", "quantifier": "all pairs of binary polynomials", "why_tests_cant": "Unbounded degree.", "anchors": ["src/komm/_algebra/BinaryPolynomial.py: __divmod__, __floordiv__, __mod__"]}
{"id": "C20", "title": "Polynomial gcd and extended gcd", "statement": "gcd(p, q) divides both and every common divisor divides it; xgcd(p, q) = (d, s, t) with d = gcd and s*p + t*q = d.", "quantifier": "all pairs of binary polynomials", "why_tests_cant": "Unbounded Euclid runs.", "anchors": ["src/komm/_algebra/BinaryPolynomial.py: gcd, xgcd", "src/komm/_algebra/domain.py"]}
{"id": "C21", "title": "Polynomial lcm", "statement": "domain.lcm(x, y) is divisible by both arguments and divides every common multiple. BinaryPolynomial.lcm(p1, ..., pn), documented as the least common multiple, is one exactly for two arguments not both zero, for three or more arguments that include zero (not all zero) or are pairwise coprime, and for the single argument 1; without a non-zero argument it raises, and in every other case it returns a wrong polynomial.", "quantifier": "all argument lists", "why_tests_cant": "Arity and degree unbounded.", "anchors": ["src/komm/_algebra/BinaryPolynomial.py: lcm", "src/komm/_algebra/domain.py: lcm"]}
{"id": "C22", "title": "is_irreducible and is_primitive answer their definitions", "statement": "is_irreducible() is True exactly for polynomials of degree >= 1 without a factor of degree strictly between 0 and theirs; is_primitive() is True exactly for irreducible polynomials whose root generates the multiplicative group of the field.", "quantifier": "all binary polynomials", "why_tests_cant": "Unbounded degree; Rabin's test is a theorem.", "anchors": ["src/komm/_algebra/BinaryPolynomial.py: is_irreducible, is_primitive", "src/komm/_algebra/Integers.py: prime_factors"]}
{"id": "C23", "title": "Every tabulated default primitive polynomial is primitive", "statement": "default_primitive_polynomial(n) has degree n and is primitive for each supported degree.", "quantifier": "all 24 tabulated degrees (each a statement over up to 2^24-1 powers)", "why_tests_cant": "Primitivity ranges over all powers below the order.", "anchors": ["src/komm/_algebra/BinaryPolynomial.py: default_primitive_polynomial"]}
{"id": "C24", "title": "Rational functions over GF(2) form a field", "statement": "BinaryPolynomialFraction +, *, /, - satisfy the field laws up to ==, results are in lowest terms, and inverse(x)*x == 1 for x != 0.", "quantifier": "all fractions with non-zero denominator", "why_tests_cant": "Unbounded degree.", "anchors": ["src/komm/_algebra/BinaryPolynomialFraction.py"]}
{"id": "C25", "title": "FiniteBifield arithmetic is field arithmetic", "statement": "For an irreducible modulus of degree k, the elements 0..2^k-1 with the module's +, *, inverse form a field: closure, commutative-ring laws, x*inverse(x) == 1 for x != 0; x ** (2^k) == x. x.logarithm(base) is the least n with base ** n == x and raises exactly when there is none. Values of degree k or more are accepted unreduced by the constructor: products of them are right and reduced, but 1 * x == x holds exactly for reduced values.", "quantifier": "all irreducible moduli, all elements", "why_tests_cant": "All fields and elements.", "anchors": ["src/komm/_algebra/FiniteBifield.py: FiniteBifieldElement.__mul__, inverse, __truediv__"]}
{"id": "C26", "title": "find_roots and minimal_polynomial", "statement": "find_roots(field, coefficients) returns exactly the roots of a non-zero polynomial, once each; minimal_polynomial of x is a binary polynomial having x as a root and dividing every binary polynomial that has x as a root. conjugates() lists x, x^2, x^4, ... once each until the sequence returns to x; their number divides k and is the degree of the minimal polynomial.", "quantifier": "all fields, all polynomials, all elements", "why_tests_cant": "All fields and polynomials.", "anchors": ["src/komm/_algebra/FiniteBifield.py: find_roots, minimal_polynomial, conjugates"]}
{"id": "C27", "title": "rref/xrref/rank", "statement": "rref(M) is in reduced row echelon form and has the same row space as M; xrref returns an invertible P with P*M = rref(M); rank(M) is the number of non-zero rows of it and equals the dimension of the row space.", "quantifier": "all binary matrices of all shapes", "why_tests_cant": "All shapes and contents.", "anchors": ["src/komm/_util/matrices.py: rref, xrref, rank"]}
{"id": "C28", "title": "pseudo_inverse and null_matrix", "statement": "For M with full row rank, M * pseudo_inverse(M) = I, and null_matrix(M) has independent rows spanning exactly the vectors orthogonal to every row of M.", "quantifier": "all full-row-rank binary matrices", "why_tests_cant": "All shapes and contents.", "anchors": ["src/komm/_util/matrices.py: pseudo_inverse, null_matrix"]}
{"id": "C29", "title": "BlockCode encode / inverse_encode / check", "statement": "For every block code: encode is linear and injective; inverse_encode(encode(u)) == u; check(encode(u)) == 0; check(v) == 0 exactly when v is a codeword; inverse_encode rejects exactly the non-codewords.", "quantifier": "all full-rank generator matrices, all messages and words", "why_tests_cant": "All codes and words.", "anchors": ["src/komm/_error_control_block/base.py: encode, inverse_encode, check, project_word", "src/komm/_error_control_block/BlockCode.py"]}
{"id": "C30", "title": "codewords() enumerates the code; distance of a linear code", "statement": "codewords() lists each codeword exactly once (2^k rows, row j the encoding of the bits of j); minimum_distance() equals the minimum Hamming distance between distinct codewords; codeword_weight_distribution()[w] counts the codewords of weight w.", "quantifier": "all block codes with k >= 1", "why_tests_cant": "All codes.", "anchors": ["src/komm/_error_control_block/base.py: codewords, codeword_weight_distribution, minimum_distance"]}
{"id": "C31", "title": "coset_leaders() lists a minimum-weight member of every coset", "statement": "For a code with at least one check, coset_leaders()[s] has syndrome s (bits of s) and weight at most that of every word with this syndrome; coset_leader_weight_distribution, packing radius and covering radius agree with it.", "quantifier": "all full-rank check matrices with at least one row, all syndromes, all words", "why_tests_cant": "All codes and words.", "anchors": ["src/komm/_error_control_block/base.py: coset_leaders, coset_leader_weight_distribution, packing_radius, covering_radius"]}
{"id": "C32", "title": "Syndrome-table decoding is minimum-distance decoding", "statement": "SyndromeTableDecoder on a block code returns, for every received word, the message of a codeword at minimum Hamming distance; hence it corrects every pattern of at most floor((d-1)/2) errors.", "quantifier": "all codes, messages and error patterns", "why_tests_cant": "All codes and words.", "anchors": ["src/komm/_error_control_decoders/SyndromeTableDecoder.py"]}
{"id": "C33", "title": "Exhaustive-search decoding is minimum-distance / maximum-correlation decoding", "statement": "ExhaustiveSearchDecoder hard output is the message of a codeword at minimum Hamming distance; soft output is that of a codeword of maximum correlation metric; ties go to the lowest message index.", "quantifier": "all codes, all received words", "why_tests_cant": "All codes and words.", "anchors": ["src/komm/_error_control_decoders/ExhaustiveSearchDecoder.py"]}
{"id": "C34", "title": "Systematic codes carry the message in the information set", "statement": "For a SystematicBlockCode with parity submatrix P and information set I: encode(u)[I] == u, encode(u) == u*G, G*H^T = 0, and check/inverse_encode agree with H and with the generic block code.", "quantifier": "all parity submatrices, all information sets (permutations), all messages and words", "why_tests_cant": "All codes.", "anchors": ["src/komm/_error_control_block/SystematicBlockCode.py"]}
{"id": "C35", "title": "Cyclic codes", "statement": "For g dividing X^n+1: every codeword produced by CyclicCode (systematic or not) is a multiple of g of degree < n, every such multiple is a codeword, cyclic shifts of codewords are codewords, inverse_encode(encode(u)) == u, and check(v) == 0 iff v is a codeword; in systematic form the message appears in the information positions.", "quantifier": "all lengths n, all divisors g, all messages and words, both strategies", "why_tests_cant": "All codes.", "anchors": ["src/komm/_error_control_block/CyclicCode.py"]}
{"id": "C36", "title": "Hamming and simplex codes", "statement": "HammingCode(m): length 2^m-1, dimension 2^m-m-1, minimum distance 3, perfect (covering radius 1); SimplexCode(m): every non-zero codeword has weight 2^(m-1).", "quantifier": "all m >= 2", "why_tests_cant": "All m.", "anchors": ["src/komm/_error_control_block/HammingCode.py", "src/komm/_error_control_block/SimplexCode.py"]}
{"id": "C37", "title": "Repetition, single-parity-check and Cordaro-Wagner codes", "statement": "The closed-form minimum distances, weight distributions and coset-leader weight distributions returned by RepetitionCode, SingleParityCheckCode and CordaroWagnerCode are those of the code the class actually encodes.", "quantifier": "all n", "why_tests_cant": "All n.", "anchors": ["src/komm/_error_control_block/RepetitionCode.py", "src/komm/_error_control_block/SingleParityCheckCode.py", "src/komm/_error_control_block/CordaroWagnerCode.py"]}
{"id": "C38", "title": "Golay code", "statement": "GolayCode() is a (23,12) code with minimum distance 7, perfect; the extended version is (24,12) with minimum distance 8 and self-dual.", "quantifier": "all messages / all words of length 23 and 24", "why_tests_cant": "Finite but a statement about all 2^23 words.", "anchors": ["src/komm/_error_control_block/GolayCode.py"]}
{"id": "C39", "title": "Lexicodes", "statement": "Lexicode(n, d): the generated code is exactly the greedy lexicographic code, it is linear, and its minimum distance is at least d.", "quantifier": "all n, d", "why_tests_cant": "All n, d.", "anchors": ["src/komm/_error_control_block/Lexicode.py"]}
{"id": "C40", "title": "Reed-Muller codes", "statement": "ReedMullerCode(rho, mu) has length 2^mu, dimension sum of binomials and minimum distance 2^(mu-rho).", "quantifier": "all 0 <= rho < mu", "why_tests_cant": "All parameters.", "anchors": ["src/komm/_error_control_block/ReedMullerCode.py"]}
{"id": "C41", "title": "Reed decoding corrects up to half the minimum distance", "statement": "ReedDecoder (hard input) returns u for every received word at Hamming distance < 2^(mu-rho-1) from encode(u).", "quantifier": "all parameters, messages, error patterns", "why_tests_cant": "All parameters and error patterns.", "anchors": ["src/komm/_error_control_decoders/ReedDecoder.py", "src/komm/_error_control_block/ReedMullerCode.py: reed_partitions"]}
{"id": "C42", "title": "Polar encoding and successive cancellation", "statement": "PolarCode.encode (butterfly) equals multiplication by the generator matrix; inverse_encode(encode(u)) == u; check(encode(u)) == 0; SCDecoder returns u from the noiseless LLRs of encode(u).", "quantifier": "all mu, all frozen sets, all messages", "why_tests_cant": "All sizes.", "anchors": ["src/komm/_error_control_block/PolarCode.py", "src/komm/_error_control_decoders/SCDecoder.py"]}
{"id": "C43", "title": "BCH codes have at least the designed distance", "statement": "Every non-zero codeword of BCHCode(mu, delta) has weight at least delta, and the generator polynomial is the least common multiple of the minimal polynomials of alpha..alpha^(delta-1).", "quantifier": "all mu >= 2, all admissible delta", "why_tests_cant": "The BCH bound for all parameters.", "anchors": ["src/komm/_error_control_block/BCHCode.py"]}
{"id": "C44", "title": "Berlekamp decoding corrects up to the designed number of errors", "statement": "BerlekampDecoder returns u for every received word within floor((delta-1)/2) of encode(u).", "quantifier": "all BCH codes, messages and error patterns", "why_tests_cant": "All parameters and error patterns.", "anchors": ["src/komm/_error_control_decoders/BerlekampDecoder.py"]}
{"id": "C45", "title": "Wagner decoding is maximum-likelihood", "statement": "WagnerDecoder on a single-parity-check code returns the message of an even-weight word with maximum correlation with the soft input.", "quantifier": "all n, all soft inputs", "why_tests_cant": "All real inputs.", "anchors": ["src/komm/_error_control_decoders/WagnerDecoder.py"]}
{"id": "C46", "title": "Mealy and Moore machines process in a streaming fashion", "statement": "Processing xs ++ ys from state s equals processing xs from s then ys from the resulting state; outputs have the length of the inputs; states stay in range.", "quantifier": "all machines, states, sequences and split points", "why_tests_cant": "All split points.", "anchors": ["src/komm/_finite_state_machine/MealyMachine.py: process", "src/komm/_finite_state_machine/MooreMachine.py: process"]}
{"id": "C47", "title": "Viterbi returns a minimum-metric input sequence", "statement": "For machines without parallel edges, MealyMachine.viterbi returns, for each final state reachable at finite cost, an input sequence driving the machine from a permitted initial state to that state with the minimum total metric among all input sequences, together with this metric; the metric is optimal for every machine. (With parallel edges the returned inputs can be wrong.)", "quantifier": "all machines, observation sequences, metric functions", "why_tests_cant": "Optimality over exponentially many paths.", "anchors": ["src/komm/_finite_state_machine/MealyMachine.py: viterbi, input_edges"]}
{"id": "C48", "title": "Streaming Viterbi", "statement": "viterbi_streaming fed block by block produces the same outputs as when fed all at once; after the traceback delay, the decision at step t is the input at time t - traceback_length of the survivor path over the first t observations that ends in the state with the best metric after t+1 observations. (It is not always the decision of the best path, and a non-zero initial state is forgotten.)", "quantifier": "all machines, splits, observation sequences", "why_tests_cant": "All histories.", "anchors": ["src/komm/_finite_state_machine/MealyMachine.py: viterbi_streaming", "src/komm/_error_control_convolutional/ViterbiStreamDecoder.py"]}
{"id": "C49", "title": "Convolutional encoders implement their generator/state-space description", "statement": "Encoding through the finite-state machine equals the state-space recursion x' = xA+uB, y = xC+uD; encoding is linear in (state, input), streaming, and for feedforward codes output i is the mod-2 convolution of the inputs with the generator polynomials.", "quantifier": "all codes, initial states and input sequences", "why_tests_cant": "All sequences.", "anchors": ["src/komm/_error_control_convolutional/base.py: encode_with_state, finite_state_machine", "src/komm/_error_control_convolutional/ConvolutionalCode.py: state_space_representation"]}
{"id": "C50", "title": "Termination modes", "statement": "Zero-termination: the tail drives every state to zero, so each terminated codeword ends in state 0; tail-biting: the chosen initial state equals the final state; direct truncation is plain encoding. inverse encoding returns the message.", "quantifier": "all codes, message lengths, messages", "why_tests_cant": "All messages.", "anchors": ["src/komm/_error_control_convolutional/TerminatedConvolutionalCode.py"]}
{"id": "C51", "title": "Free distance", "statement": "free_distance() is the minimum output weight over all non-trivial paths leaving and returning to the zero state.", "quantifier": "all codes", "why_tests_cant": "Minimum over infinitely many paths.", "anchors": ["src/komm/_error_control_convolutional/base.py: free_distance"]}
{"id": "C52", "title": "Labelings are bijections", "statement": "For every labeling accepted by the constructor, bits_to_indices(indices_to_bits(i)) == i for every index sequence and conversely for every bit sequence of a multiple of m bits; Natural, Reflected, Product and ReflectedRectangular matrices are accepted.", "quantifier": "all m, all sequences", "why_tests_cant": "All m.", "anchors": ["src/komm/_labelings/base.py", "src/komm/_labelings/NaturalLabeling.py", "src/komm/_labelings/ReflectedLabeling.py", "src/komm/_labelings/ProductLabeling.py"]}
{"id": "C53", "title": "Reflected labeling is a Gray code", "statement": "Labels of cyclically adjacent indices differ in exactly one bit; in the rectangular version, labels of horizontally or vertically adjacent points differ in exactly one bit.", "quantifier": "all m, all adjacent pairs", "why_tests_cant": "All m.", "anchors": ["src/komm/_labelings/ReflectedLabeling.py", "src/komm/_labelings/ReflectedRectangularLabeling.py"]}
{"id": "C54", "title": "Walsh-Hadamard sequences are orthogonal", "statement": "Distinct Walsh-Hadamard sequences of the same length are orthogonal, in both orderings; in sequency ordering the sequence of index i has exactly i sign changes.", "quantifier": "all lengths 2^m, all index pairs", "why_tests_cant": "All m.", "anchors": ["src/komm/_sequences_binary/WalshHadamardSequence.py"]}
{"id": "C55", "title": "LFSR sequences satisfy their recurrence; primitive feedback gives maximal period", "statement": "The 2^n-1 bits produced by LFSRSequence start with the start state and satisfy the linear recurrence of the feedback polynomial (degree n, constant term 1). For a primitive feedback polynomial and a non-zero start state, read cyclically, every non-zero n-bit word occurs at exactly one position, exactly 2^(n-1) bits are 1, and the cyclic autocorrelation of the polar sequence is L at multiples of L and -1 at every other shift; maximum_length_sequence gives such a sequence for every degree from 1 to 24.", "quantifier": "all polynomials with non-zero constant term, all start states", "why_tests_cant": "Unbounded.", "anchors": ["src/komm/_sequences_binary/LFSRSequence.py: lfsr_sequence"]}
{"id": "C56", "title": "Scalar quantizers", "statement": "digitize is monotone and returns the index of the cell containing the input, quantize(level) == level, and UniformQuantizer maps every input to a nearest level.", "quantifier": "all quantizers, all real inputs", "why_tests_cant": "Continuum of inputs.", "anchors": ["src/komm/_quantization/base.py", "src/komm/_quantization/UniformQuantizer.py", "src/komm/_quantization/ScalarQuantizer.py"]}
{"id": "C57", "title": "Markov chain classification", "statement": "accessible_states_from(i) is exactly the set of states reachable from i with positive probability; communicating_classes partitions the states by mutual reachability; recurrent/transient states are classified by closed classes; is_irreducible, is_absorbing agree.", "quantifier": "all finite chains", "why_tests_cant": "Reachability over unbounded paths.", "anchors": ["src/komm/_sources/MarkovChain.py"]}
{"id": "C58", "title": "Markov chain period", "statement": "period(i) is the gcd of the lengths of all closed walks through i.", "quantifier": "all finite chains and states", "why_tests_cant": "Gcd over infinitely many walks.", "anchors": ["src/komm/_sources/MarkovChain.py: period"]}
{"id": "C59", "title": "Rate compression inverts expansion", "statement": "sampling_rate_compress(sampling_rate_expand(x, L, offset), L, offset) == x for every L >= 1 and offset < L; expansion keeps energy and inserts only zeros.", "quantifier": "all signals, factors, offsets", "why_tests_cant": "All lengths.", "anchors": ["src/komm/_util/signal_processing.py: sampling_rate_compress, sampling_rate_expand"]}
{"id": "C60", "title": "Constellation decisions are nearest-point decisions", "statement": "closest_indices returns the index of a nearest constellation point, both for the generic implementation and for the closed-form PAM/QAM ones; in particular demodulating an unperturbed symbol sequence returns the indices.", "quantifier": "all constellations, all received points", "why_tests_cant": "Continuum of inputs.", "anchors": ["src/komm/_constellations/base.py", "src/komm/_constellations/PAMConstellation.py", "src/komm/_constellations/QAMConstellation.py"]}
{"id": "C61", "title": "Discrete channels act symbol-wise and stay in the alphabet", "statement": "For any random draws, BSC output differs from the input only where an error was drawn, BEC output is the input or the erasure symbol, Z-channel never changes a 0, DMC output is an admissible output with positive transition probability; lengths preserved.", "quantifier": "all inputs and all random outcomes", "why_tests_cant": "All random outcomes.", "anchors": ["src/komm/_channels/"]}
{"id": "C62", "title": "Correlation functions", "statement": "autocorrelation and cyclic_autocorrelation return the values of their defining sums at every shift (the linear one vanishing for |shift| >= L, the cyclic one periodic), are conjugate symmetric, equal the energy at shift zero and are bounded by it; normalized=True gives 1 at shift zero and values of modulus at most 1.", "quantifier": "all sequences and shifts", "why_tests_cant": "All sequences.", "anchors": ["src/komm/_util/sequences.py", "src/komm/_sequences_binary/BinarySequence.py"]}
{"id": "C63", "title": "Integer prime factorisation and integer determinants", "statement": "prime_factors(n) is a list of primes in non-decreasing order whose product is n; determinant of an integer/polynomial matrix satisfies the Leibniz formula.", "quantifier": "all positive integers, all square matrices", "why_tests_cant": "Unbounded.", "anchors": ["src/komm/_algebra/Integers.py", "src/komm/_algebra/ring.py: determinant"]}
{"id": "C64", "title": "Slepian array", "statement": "row(s) is the coset of the code with syndrome s, the rows partition all words, and row(0) is the code.", "quantifier": "all codes", "why_tests_cant": "All codes.", "anchors": ["src/komm/_error_control_block/SlepianArray.py"]}
{"id": "C65", "title": "Forward-backward (BCJR) returns exact posteriors", "statement": "For machines without parallel edges, MealyMachine.forward_backward returns, for every time and input symbol, the exact posterior probability: the total weight of all runs having that symbol at that time divided by the total weight of all runs.", "quantifier": "all machines without parallel edges, observation sequences, metric functions, priors and state distributions with positive total weight", "why_tests_cant": "The number of runs is exponential in the length and the metric is an arbitrary function.", "anchors": ["src/komm/_finite_state_machine/MealyMachine.py: forward_backward"]}
{"id": "C66", "title": "Viterbi decoding of terminated convolutional codes is optimal", "statement": "For a terminated convolutional code (direct truncation or zero termination) whose rows all have the same positive memory, ViterbiDecoder returns, for every hard (soft) received word, a message whose codeword is at minimum Hamming distance from it (has maximum correlation with it).", "quantifier": "all convolutional codes with equal positive constraint lengths, all numbers of blocks, all received words", "why_tests_cant": "Optimality over exponentially many messages for every received word; unequal memories, found wrong, only show up on particular words.", "anchors": ["src/komm/_error_control_decoders/ViterbiDecoder.py", "src/komm/_error_control_convolutional/TerminatedConvolutionalCode.py"]}
{"id": "C67", "title": "Barker sequences", "statement": "For every accepted length the Barker sequence has that length and every autocorrelation value of its polar form at a non-zero shift is -1, 0 or 1.", "quantifier": "all accepted lengths, all shifts", "why_tests_cant": "All shifts; the table is easy to mistype.", "anchors": ["src/komm/_sequences_binary/BarkerSequence.py", "src/komm/_sequences_binary/sequences.py: barker_sequence"]}
{"id": "C68", "title": "Zadoff-Chu sequences", "statement": "Every accepted Zadoff-Chu sequence has constant amplitude 1; if the root index is coprime to the length the cyclic autocorrelation is zero at every shift not divisible by the length; if the difference of two root indices is coprime to the length their cyclic cross-correlation has constant modulus sqrt(L).", "quantifier": "all odd lengths, all root indices, all shifts", "why_tests_cant": "Unbounded lengths; statements about exact real-number values that floating-point tests can only approximate.", "anchors": ["src/komm/_sequences_complex/ZadoffChuSequence.py", "src/komm/_sequences_complex/sequences.py"]}
{"id": "C69", "title": "Lloyd-Max design is always interleaved", "statement": "LloydMaxQuantizer yields num_levels levels and num_levels-1 thresholds with x_min <= y_0 <= t_0 <= y_1 <= ... <= x_max for every non-negative density, so digitize always returns the containing cell and quantize stays in the input range.", "quantifier": "all non-negative densities, ranges, numbers of levels and outcomes of the stopping test", "why_tests_cant": "The density is an arbitrary function and the iteration may stop at any of 1000 steps.", "anchors": ["src/komm/_quantization/LloydMaxQuantizer.py"]}
{"id": "C70", "title": "Constellation statistics agree with their definitions", "statement": "For every constellation class, order is the number of points, mean() and mean_energy() without priors are the arithmetic means of the points and of their energies, and minimum_distance() is the least distance between two points.", "quantifier": "all orders, amplitudes, spacings and phases", "why_tests_cant": "Closed formulas for unbounded orders and real parameters; degenerate parameters, found wrong, are not tested.", "anchors": ["src/komm/_constellations/"]}
{"id": "C71", "title": "Constellation posteriors follow Bayes' rule", "statement": "posteriors(received, noise_power, priors) is, for every received point, Bayes' rule with the Gaussian density of that noise power (real or complex); rows sum to one; with uniform priors the closest point has the greatest posterior.", "quantifier": "all constellations, received sequences, noise powers and priors (including zero priors)", "why_tests_cant": "Continuum of inputs; the log-domain computation must be exact for all of them.", "anchors": ["src/komm/_constellations/base.py: posteriors"]}
{"id": "C72", "title": "Regular chains and index of primitivity", "statement": "is_regular() holds iff some positive power of the transition matrix has only positive entries; index_of_primitivity() returns the smallest such power and raises exactly when the chain is not regular (the search limit (n-1)^2+1 is always enough).", "quantifier": "all finite chains", "why_tests_cant": "Needs Wielandt's theorem: no test can show that the search limit is enough for every chain.", "anchors": ["src/komm/_sources/MarkovChain.py: is_regular, index_of_primitivity"]}
{"id": "C73", "title": "Stationary distribution", "statement": "For an irreducible chain stationary_distribution() is the unique pmf pi with pi P = pi, and all its entries are positive, whichever least-squares solution the linear algebra routine returns.", "quantifier": "all irreducible finite chains", "why_tests_cant": "Existence and uniqueness over all chains.", "anchors": ["src/komm/_sources/MarkovChain.py: stationary_distribution"]}
{"id": "C74", "title": "Absorbing chains", "statement": "For an absorbing chain the matrix inverted by mean_number_of_visits is never singular; its inverse holds the expected numbers of visits; mean_time_to_absorption the expected absorption times; absorption_probabilities the limits of the probabilities of being in each absorbing state, and its rows sum to one.", "quantifier": "all absorbing finite chains, any enumeration order of the states", "why_tests_cant": "Statements about infinite sums, for all chains.", "anchors": ["src/komm/_sources/MarkovChain.py: mean_number_of_visits, mean_time_to_absorption, absorption_probabilities"]}
{"id": "C75", "title": "Sampling follows the transition probabilities", "statement": "For every uniform draw the sampled index is the one whose cumulative-probability interval contains the draw (so it has positive probability); simulate returns the requested number of states with every transition of positive probability; simulate_until_absorption stops exactly at the first absorbing state.", "quantifier": "all chains, initial states and random draws", "why_tests_cant": "All random outcomes.", "anchors": ["src/komm/_sources/MarkovChain.py: simulate, simulate_until_absorption"]}
{"id": "C76", "title": "Entropy functions equal their definitions and respect their bounds", "statement": "entropy(pmf, base) is sum p log_b(1/p), lies in [0, log_b n] for b > 1, is 0 exactly for a deterministic pmf and maximal exactly for the uniform one, and adds up over independent sources; binary_entropy is the two-point case, symmetric and strictly increasing on [0, 1/2]; binary_entropy_inv terminates for tol > 0 and is within tol/2 of the unique inverse in [0, 1/2]; relative_entropy is infinite exactly when q vanishes where p does not, otherwise non-negative and 0 only for p = q.", "quantifier": "all pmfs, all bases, all h in [0, 1], all tolerances", "why_tests_cant": "Real-valued inequalities over all pmfs; termination of the bisection.", "anchors": ["src/komm/_util/information_theory.py"]}
{"id": "C77", "title": "Mutual information equals its definition", "statement": "mutual_information(pmf, W) is sum p(x) W(y|x) log (W(y|x)/P(y)), between 0 and the entropy of the input and log of either alphabet size; the closed forms of the BSC, BEC and Z channel give the same value as the general formula applied to their transition matrix.", "quantifier": "all channels, all input pmfs, all bases", "why_tests_cant": "All real channel parameters and pmfs, including the degenerate ones.", "anchors": ["src/komm/_util/information_theory.py:mutual_information", "src/komm/_channels/"]}
{"id": "C78", "title": "Closed-form capacities are attained maxima", "statement": "capacity() of BSC, BEC and ZChannel is the maximum of the mutual information over all input pmfs, and is attained.", "quantifier": "all channel parameters, all input pmfs", "why_tests_cant": "A maximum over a continuum of pmfs.", "anchors": ["src/komm/_channels/BinarySymmetricChannel.py:capacity", "src/komm/_channels/BinaryErasureChannel.py:capacity", "src/komm/_channels/ZChannel.py:capacity"]}
{"id": "C79", "title": "Arimoto-Blahut converges from below", "statement": "In exact arithmetic every pass of the Arimoto-Blahut loop keeps a positive pmf and does not decrease the mutual information; the value returned by DiscreteMemorylessChannel.capacity() is never above the capacity, never below the mutual information of the uniform pmf, and within log(n)/k of the capacity after k passes.", "quantifier": "all transition matrices, all bases", "why_tests_cant": "Convergence over all real matrices.", "anchors": ["src/komm/_util/information_theory.py:arimoto_blahut", "src/komm/_channels/DiscreteMemorylessChannel.py:capacity"]}
{"id": "C80", "title": "Rates of fixed-to-variable codes and the source coding theorem", "statement": "rate(pmf) is the mean codeword length per source symbol of the memoryless source; for a uniquely decodable code it is at least the entropy in units of the target alphabet and kraft_parameter is at most one; Huffman codes are within 1/k bit of the entropy and Shannon codes strictly below H + 1/k.", "quantifier": "all codes, block sizes, pmfs", "why_tests_cant": "A real inequality over all pmfs and all codes.", "anchors": ["src/komm/_lossless_coding/FixedToVariableCode.py: rate, kraft_parameter", "src/komm/_lossless_coding/HuffmanCode.py", "src/komm/_lossless_coding/ShannonCode.py"]}
{"id": "C81", "title": "Rates of variable-to-fixed codes and optimality of Tunstall's dictionary", "statement": "rate(pmf) is n divided by the mean parse length; for complete prefix-free dictionaries it is at least the entropy; the Tunstall dictionary has the greatest mean parse length among all complete prefix-free dictionaries that are not larger, and its rate tends to the entropy as n grows.", "quantifier": "all dictionaries, pmfs and block sizes, all heap tie-breaks", "why_tests_cant": "Optimality over all dictionaries and all pmfs.", "anchors": ["src/komm/_lossless_coding/VariableToFixedCode.py: rate", "src/komm/_lossless_coding/TunstallCode.py"]}
{"id": "C82", "title": "Catastrophic convolutional encoders", "statement": "is_catastrophic() answers True only for encoders with an infinite-weight input whose output has finite weight, and raises exactly when some non-zero input has an all-zero output; for encoders with one input (and for high-rate systematic encoders) the answer False is right too. For feedforward encoders, an encoder is catastrophic iff the library's gcd of the maximal minors is not a power of D; invariant_factors returns k factors iff some k x k minor is non-zero, and their product is that gcd.", "quantifier": "all generator matrices (polynomial or rational with odd feedback), all infinite input sequences", "why_tests_cant": "Ranges over infinite input sequences and all polynomial matrices.", "anchors": ["src/komm/_error_control_convolutional/base.py:is_catastrophic", "src/komm/_error_control_convolutional/base.py:_minors_gcd", "src/komm/_util/matrices.py:invariant_factors", "src/komm/_error_control_convolutional/ConvolutionalCode.py:generator_matrix"]}
{"id": "C83", "title": "BCJR decoding gives the exact a-posteriori L-values", "statement": "For a direct-truncated or zero-terminated convolutional code with one input bit and every block of input L-values of a memoryless channel, BCJRDecoder's soft output for message bit i is ln(P(bit i = 0 | received) / P(bit i = 1 | received)) with all messages equally likely, and the hard output is the more likely value of every bit. For k input bits the same values come out with the bits of each block of k in reverse order.", "quantifier": "all codes with distinct successors (and unique terminating tails), all numbers of blocks, all real L-values, all memoryless channels", "why_tests_cant": "A sum over 2^K messages for every code and every real input; tests compare a few published examples with one input bit.", "anchors": ["src/komm/_error_control_decoders/BCJRDecoder.py", "src/komm/_error_control_convolutional/TerminatedConvolutionalCode.py: bcjr_*", "src/komm/_labelings/base.py: marginalize", "src/komm/_finite_state_machine/MealyMachine.py: forward_backward"]}
{"id": "C84", "title": "Labeling.marginalize sums over labels", "statement": "marginalize(metrics) rejects sizes that are not a multiple of the number of labels, and otherwise returns for every block and every bit position ln(total metric of the labels with bit 0 / total metric of the labels with bit 1) (plus or minus infinity or NaN when totals vanish), finite for positive metrics; for a product labeling and metrics that factor, each factor is marginalized separately.", "quantifier": "all labelings, all non-negative metrics", "why_tests_cant": "All real metrics and all label tables, including all products of labelings.", "anchors": ["src/komm/_labelings/base.py: marginalize"]}
{"id": "C85", "title": "Rectangular and Manchester pulses: every method describes the same waveform", "statement": "For every width w > 0, spectrum(f) is the Fourier transform of waveform(t), autocorrelation(tau) is the integral of p(t+tau)p(t), energy() the integral of p(t)^2 and energy_spectral_density(f) is |spectrum(f)|^2; the same for the Manchester pulse.", "quantifier": "all widths, all real f, t, tau", "why_tests_cant": "Integrals over the real line for every real frequency and lag; tests sample a few points with numerical quadrature.", "anchors": ["src/komm/_pulses/RectangularPulse.py", "src/komm/_pulses/ManchesterPulse.py", "src/komm/_pulses/util.py"]}
{"id": "C86", "title": "Band-limited pulses: waveform, spectrum, energy and autocorrelation agree", "statement": "For SincPulse, RaisedCosinePulse(a) and BeaulieuPulse(a), accepted exactly for 0 <= a <= 1, the waveform is the inverse Fourier transform of the spectrum, the energy is the integral of the energy spectral density |spectrum|^2 and the autocorrelation is the inverse transform of the energy spectral density (for the raised cosine: exactly outside the np.isclose window at |tau| = 1/a and within 1e-4 inside it).", "quantifier": "all roll-off factors, all real t, f, tau", "why_tests_cant": "Closed forms with removable singularities against integrals, for every real argument.", "anchors": ["src/komm/_pulses/SincPulse.py", "src/komm/_pulses/RaisedCosinePulse.py", "src/komm/_pulses/BeaulieuPulse.py", "src/komm/_pulses/util.py"]}
{"id": "C87", "title": "Nyquist pulses have no intersymbol interference", "statement": "The waveforms of SincPulse, RaisedCosinePulse and BeaulieuPulse are 1 at time 0 and 0 at every other integer, and the translates of their spectra by all integers add up to one at every frequency.", "quantifier": "all roll-off factors, all integers, all frequencies", "why_tests_cant": "All integers and all real frequencies.", "anchors": ["src/komm/_pulses/SincPulse.py", "src/komm/_pulses/RaisedCosinePulse.py", "src/komm/_pulses/BeaulieuPulse.py"]}
{"id": "C88", "title": "Square-root pulses", "statement": "The square-root version of a Nyquist pulse has a spectrum that is the non-negative square root of the original spectrum, its waveform is the inverse Fourier transform of that spectrum (within 1e-4 in the np.isclose windows of the root raised cosine, within the quadrature error for the root Beaulieu pulse), its autocorrelation is the Nyquist waveform and its energy is one.", "quantifier": "all roll-off factors, all real t, f; all quadrature rules for the Beaulieu pulse", "why_tests_cant": "Closed forms with two removable singularities, compared with integrals for every real argument.", "anchors": ["src/komm/_pulses/base.py: RootPulse", "src/komm/_pulses/RaisedCosinePulse.py: _RootRaisedCosinePulse", "src/komm/_pulses/BeaulieuPulse.py: _RootBeaulieuPulse", "src/komm/_pulses/SincPulse.py"]}
{"id": "C89", "title": "Gaussian pulse", "statement": "GaussianPulse(B) is accepted exactly for B > 0; its spectrum is the Fourier transform of its waveform, its autocorrelation, energy and energy spectral density are those of the waveform, and the energy spectral density falls to half its maximum exactly at |f| = B.", "quantifier": "all positive bandwidths, all real t, f, tau", "why_tests_cant": "Improper integrals for every real parameter.", "anchors": ["src/komm/_pulses/GaussianPulse.py"]}
{"id": "C90", "title": "Pulse taps", "statement": "taps(sps, span) returns the (b-a) sps + 1 samples of the waveform at a, a + 1/sps, ..., b; without a span it raises for pulses of infinite support and uses (0, 1) otherwise, which covers the whole support when it is within [0, 1]; the taps of a Nyquist pulse at multiples of the symbol period are zero except at time zero.", "quantifier": "all pulses, all sps > 0, all integer spans", "why_tests_cant": "All spans, sampling rates and pulses.", "anchors": ["src/komm/_pulses/base.py: taps", "src/komm/_pulses/RectangularPulse.py: taps"]}
{"id": "C91", "title": "The Gaussian Q-function and its inverse, logcosh", "statement": "gaussian_q(x) is the integral of the standard normal density from x to infinity; it takes values in (0,1), is strictly decreasing, is 1/2 at 0, satisfies Q(-x) = 1 - Q(x) and is at most exp(-x^2/2)/2 for x >= 0. gaussian_q_inv inverts it on (0,1), is +/- infinity at 0 and 1 and raises outside [0,1]. logcosh(x) is ln cosh x for every real x.", "quantifier": "all real arguments", "why_tests_cant": "Equality of a function with an improper integral at every real argument.", "anchors": ["src/komm/_util/special_functions.py: gaussian_q, gaussian_q_inv, logcosh"]}
{"id": "C92", "title": "Marcum's Q-function: one-sided error and guaranteed accuracy", "statement": "marcum_q(m, a, x) raises exactly for m = 0 or negative a or x; otherwise it returns a number between 0 and the true value (the documented integral of u^m exp(-(u^2+a^2)/2) I_{m-1}(a u) / a^(m-1) from x to infinity, with the chi tail as the a = 0 case), and the shortfall is bounded by an explicit function of x only; for x <= 4 the result is right to nine decimals for every order m and every a.", "quantifier": "all orders m, all real a and x", "why_tests_cant": "The truncation test of the series depends on the arguments; accuracy has to hold for every a, m and x in a region.", "anchors": ["src/komm/_util/special_functions.py: marcum_q"]}
{"id": "C93", "title": "Mean squared quantization error", "statement": "For every accepted ScalarQuantizer / UniformQuantizer / Lloyd-Max quantizer and every density that is continuous on the given range and zero outside it, mean_squared_error tends to the integral of (y - x)^2 f(x) over the whole line as points_per_interval grows (also when thresholds lie outside the range); if the thresholds lie in the range and the density is Lipschitz, an explicit O(1/points) bound holds; with a non-negative density the result is non-negative. For a uniform quantizer with the uniform density on its granular region the true value is step^2/12 and the computed one is exactly step^2/12 (1 + 2/(points-1)^2).", "quantifier": "all quantizers, all densities, all ranges, all numbers of points", "why_tests_cant": "Convergence of a numerical integral for every density and quantizer.", "anchors": ["src/komm/_quantization/base.py: mean_squared_error"]}
{"id": "C94", "title": "Methods act independently on every block of an array of any shape", "statement": "encode, check, inverse_encode and the syndrome-table and exhaustive decoders accept arrays with any number of axes: the last axis is cut into blocks, each block is processed as if it were passed alone, the results are concatenated in order, and the other axes are kept; encode followed by inverse_encode returns the input; inverse_encode raises exactly when some block is not a codeword; a last dimension that is not a multiple of the block size raises", "quantifier": "every shape, every number of blocks, every content, every valid block code, matmul-based or vectorized implementation", "why_tests_cant": "shapes and numbers of axes are unbounded", "anchors": ["_util/decorators.py: vectorize, blockwise", "_error_control_block/base.py: encode, inverse_encode, check", "_error_control_decoders/SyndromeTableDecoder.py: decode", "_error_control_decoders/ExhaustiveSearchDecoder.py: decode"]}
{"id": "C95", "title": "Sampling-rate conversion along any axis", "statement": "sampling_rate_compress keeps exactly the samples offset, offset + factor, ... of the chosen axis and sampling_rate_expand inserts zeros around them, for every position of the other axes; compressing an expanded array with the same parameters returns it; bad factors, offsets and axes are rejected", "quantifier": "every array shape and content, every axis from the front or the back, every factor and offset", "why_tests_cant": "shapes, factors and axes are unbounded", "anchors": ["_util/signal_processing.py: sampling_rate_compress, sampling_rate_expand"]}
{"id": "C96", "title": "Convolution", "statement": "convolve computes the convolution sum of a signal with every line along the chosen axis of the other argument; the modes full, same and valid return all samples, the central max(n1, n2) samples, and the samples that need no zero padding; the order of the arguments does not matter and full convolution is associative; it is rejected when neither input is one-dimensional or one is empty", "quantifier": "every dtype that is a commutative semiring (integers, reals, complex), every length, shape, axis and mode", "why_tests_cant": "unbounded lengths and shapes; numpy computes the sum in three separate loops after swapping operands", "anchors": ["_util/signal_processing.py: convolve"]}
{"id": "C97", "title": "Fourier transform of sampled waveforms", "statement": "fourier_transform returns the frequencies (j - n//2)/(n dt) in increasing order and, for every line along the axis, dt times the sum of x[m] exp(-j 2 pi f m dt) at those frequencies; the waveform can be recovered from them, energy is preserved (Parseval), real waveforms give conjugate-symmetric spectra, and spectra of convolutions are products", "quantifier": "every shape, axis, number of samples, nfft (cropping or zero padding, even or odd) and time step", "why_tests_cant": "the shift arithmetic depends on parity and on nfft; the sums are over arbitrary complex samples", "anchors": ["_util/signal_processing.py: fourier_transform"]}
{"id": "C98", "title": "Polynomial evaluation in any ring", "statement": "For every ring whose elements implement the documented operations (in particular Integer, BinaryPolynomial, BinaryPolynomialFraction and FiniteBifield elements), p.evaluate(x) is the sum of x**i over the terms X^i of p, and Horner's method with integer coefficients c gives sum c_i x**i. In characteristic 2, evaluation is a ring homomorphism sending X to x and respects composition, p.evaluate(X) == p, and in a finite field p.evaluate(a) == 0 exactly when the minimal polynomial of a divides p. Powers (negative ones for fractions) are repeated products.", "quantifier": "all rings, all polynomials, all points, all exponents", "why_tests_cant": "Infinitely many rings, polynomials and points; a table of values cannot show a homomorphism.", "anchors": ["src/komm/_algebra/ring.py: power, binary_horner, horner", "src/komm/_algebra/BinaryPolynomial.py: evaluate", "src/komm/_algebra/field.py: power", "src/komm/_algebra/Integers.py: Integer"]}
{"id": "C99", "title": "Polynomials, coefficient arrays and exponent arrays", "statement": "coefficients(width), exponents(), from_coefficients and from_exponents are mutually inverse descriptions of the same polynomial (a width below the number of coefficients truncates, a negative exponent raises); reciprocal() reverses the coefficients, is multiplicative, and is an involution exactly on 0 and the polynomials with constant term 1; p << n is p X^n and p >> n is the quotient by X^n.", "quantifier": "all polynomials, widths, coefficient and exponent arrays", "why_tests_cant": "All polynomials of all degrees.", "anchors": ["src/komm/_algebra/BinaryPolynomial.py: from_coefficients, from_exponents, coefficients, exponents, reciprocal, __lshift__, __rshift__"]}
{"id": "C100", "title": "Integers as a Euclidean domain", "statement": "For Integer elements of either sign, division is floor division (the remainder has the sign of the divisor, division by zero raises), and the package's generic Euclidean algorithms terminate and return a greatest common divisor (with the sign of the second argument), Bezout coefficients and a least common multiple.", "quantifier": "all pairs of integers", "why_tests_cant": "All pairs of integers; termination for negative remainders.", "anchors": ["src/komm/_algebra/Integers.py: Integer", "src/komm/_algebra/domain.py: gcd, xgcd, lcm"]}
{"id": "C101", "title": "Answers do not depend on the history of calls", "statement": "A block code object answers every attribute and method call with the value determined by the matrix it was constructed from, whatever was called before, in whatever order, on whatever other codes and decoders, even if they share arrays. No call changes an array that already exists, the word-processing methods return new arrays, and a caller who never writes into an array passed to a constructor or returned by a keeping attribute cannot disturb any object.", "quantifier": "all finite sequences of constructions, attribute and method calls, decoder constructions, decodings and writes by the caller, over any number of objects", "why_tests_cant": "the answers come from caches, flags and shared arrays, so the number of states is unbounded and depends on the order of calls", "anchors": ["src/komm/_error_control_block/BlockCode.py:BlockCode", "src/komm/_error_control_block/base.py:BlockCode", "src/komm/_error_control_decoders/SyndromeTableDecoder.py:SyndromeTableDecoder", "src/komm/_error_control_decoders/ExhaustiveSearchDecoder.py:ExhaustiveSearchDecoder"]}
{"id": "C102", "title": "Labelings and constellations work along the last axis of arrays of any shape", "statement": "indices_to_bits, bits_to_indices and marginalize of every labeling, and indices_to_symbols, closest_indices, closest_symbols and posteriors of every constellation class, called on an array with any number of axes, keep all axes but the last and give on each line along the last axis exactly what the same call gives on that line alone; they raise exactly when the call raises for one of the lines (in particular, the classes that do not test the length of the last axis still reject exactly the lengths that are not a multiple of the block size). Mapping bits to indices and back returns the same array. An index without axes is treated as a sequence of one; an axis of length zero makes the reshaping methods raise; indices_to_symbols accepts negative indices, counted from the end.", "quantifier": "every constructible labeling, every constellation class with usable parameters, every array shape with non-empty leading axes and every content", "why_tests_cant": "tests use one or two axes and a few sizes; the claim is about all shapes, all contents and all lengths that must be rejected", "anchors": ["src/komm/_labelings/base.py: Labeling.indices_to_bits, bits_to_indices, marginalize", "src/komm/_labelings/NaturalLabeling.py", "src/komm/_labelings/ReflectedLabeling.py", "src/komm/_constellations/base.py", "src/komm/_constellations/*Constellation.py: closest_indices", "src/komm/_util/bit_operations.py: int_to_bits, bits_to_int"]}
{"id": "C103", "title": "Channels and sources turn their variates into symbols as documented", "statement": "transmit of the binary symmetric, erasure and Z channels draws exactly one uniform variate for every element in row-major order, keeps the shape, and changes an element if and only if its variate is below the probability (probability 0 returns the input, probability 1 changes everything that the channel can change). DiscreteMemorylessChannel.transmit, DiscreteMemorylessSource.emit and MarkovChain.simulate choose the symbol in whose share of the row's total weight the variate lies (so a symbol's set of variates is an interval of length p_y / sum p), draw one variate for each symbol, and raise exactly for out-of-range symbols or rows whose sum differs from 1 by more than numpy's 2^-26, although the constructors accept a difference of 1e-5. GaussianChannel.transmit adds sqrt(P) z (real) or sqrt(P/2)(z + j z') (complex) to every element: for every distribution under which the variates are white, the noise has mean 0 and power exactly P and is uncorrelated between elements and between real and imaginary part. Transmitting a sequence in two pieces gives the same symbols as transmitting it at once.", "quantifier": "all channels and sources that the constructors accept, all array shapes and contents, all generators and generator states", "why_tests_cant": "tests check statistics of a few long runs with a tolerance; these statements are exact and for every variate sequence", "anchors": ["src/komm/_channels/BinarySymmetricChannel.py: transmit", "src/komm/_channels/BinaryErasureChannel.py: transmit", "src/komm/_channels/ZChannel.py: transmit", "src/komm/_channels/DiscreteMemorylessChannel.py: transmit", "src/komm/_channels/GaussianChannel.py: transmit", "src/komm/_sources/DiscreteMemorylessSource.py: emit", "src/komm/_sources/MarkovChain.py: simulate", "src/komm/_util/validators.py"]}
{"id": "C104", "title": "Objects that share generators do not disturb anyone else", "statement": "In every program that creates generators, sets the global generator, constructs channels and sources (with their own generator or with the default, the global one at construction time) and calls their methods in any order, the calls that use one generator get exactly the answers that they would get from that generator if they were the only calls of the program, and leave it in the same state; so equal seeds and equal requests give equal answers. Seeding a new generator, making it the global one, constructing objects without naming a generator and calling them gives the same answers from every program state. global_rng.set does not affect objects that exist already.", "quantifier": "all finite programs of such operations, over any number of generators and objects, and all generator implementations", "why_tests_cant": "the number of interleavings and sharings is unbounded", "anchors": ["src/komm/_util/global_rng.py", "src/komm/_channels/*.py: rng", "src/komm/_sources/DiscreteMemorylessSource.py: __init__", "src/komm/_sources/MarkovChain.py: __init__"]}
{"id": "C105", "title": "Bits and integers on arrays of any shape", "statement": "bits_to_int and int_to_bits act word by word on arrays with any number of axes: bits_to_int removes the last axis and each entry of the result is the value of the corresponding word (LSB-first or MSB-first), int_to_bits appends a last axis with the two's complement bits of each integer. With words of at most 63 bits the two are mutually inverse (integers come back modulo 2^width); bits come back for words of up to 64 bits. For wider words in arrays with at least two axes the behaviour depends on the first word of the array: values from 2^63 may come out negative, and the call may raise; exactly when is stated.", "quantifier": "all array shapes with non-empty leading axes, all bit contents, all integers (also negative), all widths, both bit orders", "why_tests_cant": "the result dtype is chosen from the first row only, so whether the answer is right depends on the order of the rows; tests use small words, where nothing overflows", "anchors": ["src/komm/_util/bit_operations.py: bits_to_int, int_to_bits"]}
{"id": "C106", "title": "Every decoder on arrays of any shape, and recovery of arrays of messages", "statement": "The decoders of block codes (Reed hard and soft, Berlekamp, Wagner, successive cancellation, syndrome table, exhaustive hard and soft) and of terminated convolutional codes (Viterbi hard and soft, BCJR) act independently on every block along the last axis of an array with any number of leading axes; the call raises only if some block, somewhere, makes the decoder raise. Consequently encoding an array of messages and decoding a received array of the same shape gives back the whole array of messages, as soon as each received block satisfies the decoder's condition: at most t errors per block (t = (d-1)/2, 2^(mu-rho-1)-1 for Reed, (delta-1)/2 for Berlekamp), or L-values with the right signs for the soft decoders.", "quantifier": "all codes the constructors accept (for Viterbi: codes without parallel edges, direct truncation or zero termination), all numbers and sizes of leading axes, all numbers of blocks per line, all messages, all error patterns within the condition", "why_tests_cant": "the condition is per block while the array mixes arbitrarily many blocks; tests decode a handful of words, mostly one at a time", "anchors": ["src/komm/_util/decorators.py: blockwise, vectorize", "src/komm/_error_control_decoders: ReedDecoder, BerlekampDecoder, WagnerDecoder, SCDecoder, SyndromeTableDecoder, ExhaustiveSearchDecoder, ViterbiDecoder, BCJRDecoder", "src/komm/_error_control_convolutional/TerminatedConvolutionalCode.py: encode"]}
{"id": "C107", "title": "Stream decoding corrects sparse errors with a long enough traceback", "statement": "A ViterbiStreamDecoder created with initial_state 0 for a convolutional code with d state bits, k inputs, n outputs and free distance D, whose traceback_length is at least 2^d (4E + 2dn + 1) + 1 with 2E < D, corrects every stream in which no 2^d (4E + 1) consecutive blocks contain more than E wrong bits: the bits returned by decode, however the stream is cut into calls (at block boundaries), are the message delayed by traceback_length blocks, for messages of any length and any number of errors in total. With soft values the same holds if the transmitted bits are supported with reliability m except at E doubtful positions in a window, no value exceeds r m in magnitude and (r+1)E < D (with the corresponding longer window and traceback). The code must have no zero-output loop other than the zero loop at the zero state, which holds for feedforward encoders that are not catastrophic (for rate 1/n: whenever is_catastrophic() returns False) and for HighRateConvolutionalCode; and distinct inputs must lead to distinct states. A piece whose length is not a multiple of n is rejected.", "quantifier": "all codes with those properties, all messages of any length, all received streams with sparse errors (hard) or sparse doubtful values (soft), all segmentations of the stream into calls, all traceback lengths above the bound", "why_tests_cant": "The guarantee is about infinitely many streams, with unboundedly many errors in total, and about a finite traceback window in a decoder that keeps its state between calls; simulations at some error rate cannot separate a truncation bug from channel noise.", "anchors": ["src/komm/_error_control_convolutional/ViterbiStreamDecoder.py: ViterbiStreamDecoder.decode", "src/komm/_finite_state_machine/MealyMachine.py: viterbi_streaming", "src/komm/_error_control_convolutional/base.py: ConvolutionalCode.free_distance, is_catastrophic"]}
{"id": "C108", "title": "The constructors of the lossless codes accept exactly the documented arguments and build the code they describe", "statement": "FixedToVariableCode(...), from_enc_mapping, from_codewords, from_lengths and VariableToFixedCode(...), from_dec_mapping, from_sourcewords succeed exactly when their arguments meet stated conditions (cardinalities at least 2, blocks of one length over the right alphabet, a number of codewords that is a power of the source cardinality, non-empty words, Kraft's inequality for lengths) and the resulting cardinalities, block size and mapping are the stated ones; from_codewords assigns the i-th codeword to the block whose value in the source base is i, from_sourcewords uses the shortest possible target block, and from_enc_mapping(code.enc_mapping) is the code again whenever its largest target symbol is used.", "quantifier": "every mapping, list of words, list of lengths and cardinality (symbols are non-negative integers)", "why_tests_cant": "tests construct a few well-formed codes; the exact boundary between accepted and rejected arguments and the placement of every codeword are statements about all inputs", "anchors": ["src/komm/_lossless_coding/FixedToVariableCode.py:FixedToVariableCode.from_enc_mapping", "src/komm/_lossless_coding/FixedToVariableCode.py:FixedToVariableCode.from_codewords", "src/komm/_lossless_coding/FixedToVariableCode.py:FixedToVariableCode.from_lengths", "src/komm/_lossless_coding/VariableToFixedCode.py:VariableToFixedCode.from_dec_mapping", "src/komm/_lossless_coding/VariableToFixedCode.py:VariableToFixedCode.from_sourcewords", "src/komm/_lossless_coding/util.py:infer_block_size"]}
{"id": "C109", "title": "Reassigning attributes of channels and quantizers", "statement": "A channel object's parameter and a uniform quantizer's num_levels, step and offset may be assigned after construction. Whatever sequence of assignments and method calls came before, a channel's mutual_information, capacity and transmit follow the current value, as a freshly constructed channel would; transition_matrix is the matrix for the value the parameter had when it was first read, so it agrees with the other methods exactly if the two values are equal. A quantizer's levels are those of the attributes at its first use of an array and its thresholds those of the step at the first use of the thresholds; if all assignments precede the first use, digitize and quantize behave as for a quantizer constructed with the new attributes.", "quantifier": "every channel kind, initial value, generator and finite sequence of assignments and calls; every quantizer and finite sequence of assignments and calls", "why_tests_cant": "the property is about all finite histories of an object with caches", "anchors": ["src/komm/_channels/BinarySymmetricChannel.py:BinarySymmetricChannel", "src/komm/_channels/BinaryErasureChannel.py:BinaryErasureChannel", "src/komm/_channels/ZChannel.py:ZChannel", "src/komm/_quantization/UniformQuantizer.py:UniformQuantizer"]}
{"id": "C110", "title": "Viterbi decoding in float64 arithmetic", "statement": "ViterbiDecoder and ViterbiStreamDecoder compute path metrics in IEEE float64. With input_type='hard', as long as fewer than 2^53 bits are received (in total, for the stream decoder, whatever the pieces), the decoders answer exactly what the algorithm on exact numbers answers, so the returned message is one whose codeword is at minimum Hamming distance, and the stream decoder's error-correcting guarantee holds. For metrics that are arbitrary float64 numbers of magnitude at most A over T steps, MealyMachine.viterbi returns, for each final state, inputs whose exact cost exceeds the cost of no other path by more than T^2 A / 2^51, with a reported metric within T^2 A / 2^52 of the exact cost, and reports +inf exactly for the states no path reaches. With input_type='soft', the decoded message has maximum correlation with the received values up to an explicit term proportional to the unit roundoff.", "quantifier": "every convolutional code (with the hypotheses of C66 on terminations), every received word or stream and every split of it into calls, every Mealy machine without parallel edges and every bounded real metric; rounding to nearest even, overflow to +inf", "why_tests_cant": "rounding errors accumulate along the trellis and can change which of two paths survives; tests compare a handful of decoded words and never reach long streams or near ties", "anchors": ["src/komm/_finite_state_machine/MealyMachine.py: MealyMachine.viterbi, viterbi_streaming", "src/komm/_error_control_decoders/ViterbiDecoder.py: ViterbiDecoder", "src/komm/_error_control_convolutional/ViterbiStreamDecoder.py: ViterbiStreamDecoder"]}
{"id": "C111", "title": "What an object prints evaluates back to it", "statement": "For every object built by constructor calls of the classes whose attributes are integers, booleans, strings, integer arrays or mappings (algebra, block and convolutional codes, finite-state machines, labelings, fixed/variable-length and Lempel-Ziv codes, sequences): evaluating the text returned by repr() with the library's names in scope builds an object with the same attributes, so two such objects with the same text are the same; the exact exceptions are products of labelings, Lempel-Ziv codes with a non-zero search buffer, fields of degree above 24, cyclic codes given both polynomials, binary sequences given polar values other than +1/-1, and objects built from arrays without rows.", "quantifier": "every object reachable by (nested) constructor calls with any arguments, of any size", "why_tests_cant": "A test evaluates the text of a few objects; the claim concerns every object, numbers of any length and arrays of any size, and that the list of exceptions is complete.", "anchors": ["src/komm/_algebra", "src/komm/_error_control_block", "src/komm/_error_control_convolutional", "src/komm/_finite_state_machine", "src/komm/_labelings", "src/komm/_lossless_coding", "src/komm/_sequences", "__repr__", "__init__"]}
{"id": "C112", "title": "Equality and hashing of algebra objects", "statement": "== between Python ints, binary polynomials, polynomial fractions, ring integers, finite fields, field elements and rings is an equivalence relation that holds exactly between objects of one class with the same attributes, and between a polynomial and the int of its coefficients; polynomials and field elements can be set elements, fractions, fields and rings cannot; equal hashable objects have equal hashes (and are found in sets) except that a polynomial and its int disagree from 2^61-1 up to 2^63-1 in absolute value.", "quantifier": "all pairs and triples of such values, of any magnitude; all sets of polynomials or field elements", "why_tests_cant": "Transitivity across classes and the hash contract are statements about all values; the failing range lies far beyond the values tests use.", "anchors": ["src/komm/_algebra/BinaryPolynomial.py: __eq__, __hash__", "src/komm/_algebra/BinaryPolynomialFraction.py: __eq__", "src/komm/_algebra/FiniteBifield.py: __eq__, __hash__", "src/komm/_algebra/Integers.py: __eq__"]}
{"id": "C113", "title": "Shannon codes built in double precision", "statement": "ShannonCode(pmf, k) computes each codeword length as max(1, ceil(log2(1/p))) in float64. With a base-2 logarithm that is within one unit in the last place and ordered correctly at powers of two, the computed length is never above the documented one (the least l >= 1 with 2^-l <= p) and at most one below; it is the documented one whenever p is not within a relative distance 2^-40 below a power of two. If all block probabilities (as computed) satisfy that and add up to at most 1, the constructor accepts and returns a prefix-free code with exactly the documented lengths. In every case it either refuses or returns a prefix-free code; it refuses exactly when the computed lengths violate the Kraft inequality, and this does happen for a pmf of doubles that adds up to exactly 1.", "quantifier": "all pmfs of positive doubles, all block sizes, all logarithm implementations meeting the accuracy hypothesis", "why_tests_cant": "the failing pmfs lie within one rounding error of powers of two, where sampled pmfs never fall; the accuracy statement quantifies over all doubles", "anchors": ["src/komm/_lossless_coding/ShannonCode.py: ShannonCode.__init__, shannon_code_lengths, shannon_code", "src/komm/_lossless_coding/util.py: canonical_code"]}
{"id": "C114", "title": "Huffman, Fano and Tunstall codes built in double precision", "statement": "HuffmanCode adds probabilities in float64, FanoCode compares rounded running sums with half of a rounded total, TunstallCode multiplies probabilities in float64. Whatever the rounding does: HuffmanCode always returns a complete prefix-free code (Kraft sum exactly 1) for either policy and assignment, and the optimal one of exact arithmetic when all block probabilities are multiples of 2^-53; FanoCode's splitting loop always ends, no part is ever empty, and the code is a complete prefix-free code, for any summation routine with relative error up to 1/8; TunstallCode returns a prefix-free, fully covering dictionary that fits the target block size and round-trips every input, whichever node its heap returns, and the number attached to each word is its probability with one rounding per multiplication.", "quantifier": "all pmfs of doubles (Fano: zero or at least 2^-1000, up to 2^48 blocks), all block sizes, policies, assignments, summation orders and heap orders", "why_tests_cant": "an empty part would make the Fano loop run forever; whether rounding can cause it depends on all bit patterns of the probabilities", "anchors": ["src/komm/_lossless_coding/HuffmanCode.py: huffman_tree, tree_lengths, tree_codewords, huffman_code", "src/komm/_lossless_coding/FanoCode.py: fano_code_lengths, fano_code", "src/komm/_lossless_coding/TunstallCode.py: tunstall_code"]}
{"id": "C115", "title": "Transmission chains with hard decisions", "statement": "Bits mapped by a labeling and a constellation, disturbed, decided and demapped come back with at most num_bits errors per symbol that the channel moved by half the minimum distance or more, and without error if no symbol is. With reflected (Gray) labels on PAM, rectangular QAM and PSK, with no bound on the noise, the number of bit errors is at most the number of decision thresholds the symbols were pushed over (for PSK only the phase error counts). Consequently a block code of minimum distance d with the table or exhaustive-search decoder recovers the message whenever those counts total at most (d-1)/2, and a source encoded by a prefix-free code in front of the chain is recovered as well.", "quantifier": "every labeling and every constellation of matching order, every message length, every received sequence of the right length; every block code with its minimum distance; every prefix-free code", "why_tests_cant": "the guarantee joins four classes whose tests run separately, and it ranges over a continuum of received values", "anchors": ["src/komm/_labelings/base.py: Labeling.bits_to_indices, indices_to_bits", "src/komm/_constellations/base.py: indices_to_symbols, closest_indices", "src/komm/_labelings/ReflectedLabeling.py: ReflectedLabeling", "src/komm/_error_control_decoders/SyndromeTableDecoder.py: SyndromeTableDecoder"]}
{"id": "C116", "title": "Transmission chains with soft decisions", "statement": "Labeling.marginalize applied to Constellation.posteriors gives, for every labeling, constellation and positive priors, the logarithm of the ratio of the total Gaussian densities of each bit being 0 and being 1. For antipodal PAM it is the received value times -delta/noise_power, for rectangular QPSK the coordinates of the derotated symbol times -2 delta/noise_power. Fed with these L-values, the exhaustive-search, Wagner and Viterbi decoders answer a message whose signal is nearest to the received values in Euclidean distance; so with a code of minimum distance d every disturbance of energy below d A^2 (half the distance of the signals) is corrected, including patterns that hard decisions do not correct; and the BCJR decoder outputs the exact a-posteriori L-values of the message bits for the Gaussian channel.", "quantifier": "every labeling, constellation, priors and noise power; every block code, single parity-check code and convolutional code (with the hypotheses of C66 and C83); every received real sequence", "why_tests_cant": "the sign convention and the scaling of L-values must agree between constellation, labeling and every decoder; tests of one class cannot see the others, and the inputs are a continuum", "anchors": ["src/komm/_labelings/base.py: Labeling.marginalize", "src/komm/_constellations/base.py: posteriors", "src/komm/_error_control_decoders/ExhaustiveSearchDecoder.py: ExhaustiveSearchDecoder", "src/komm/_error_control_decoders/WagnerDecoder.py: WagnerDecoder", "src/komm/_error_control_decoders/ViterbiDecoder.py: ViterbiDecoder", "src/komm/_error_control_decoders/BCJRDecoder.py: BCJRDecoder"]}
{"id": "C117", "title": "Amplitude constellations and uniform quantizers in double precision", "statement": "PAM points, PAM/ASK/QAM decisions (phase offset 0) and the levels and thresholds of UniformQuantizer are computed with float64 rounding at every operation. A received value nearer than half a spacing to a point, by a margin of M 2^-50 spacings (2^-48 for QAM), is decided as that point; every decision is the nearest point up to that margin and is monotone in the received value; the stored points increase, are within M 2^-49 spacings of the documented ones and have exactly opposite ends; a stored point plus noise below 15/32 of a spacing is decided as itself. For PAM and ASK this needs |x| <= 2^61 spacings: the conversion to int precedes the clipping, so that on x86-64 a value of 2^64 spacings or more is decided as the smallest point; QAM clips first and needs no such bound. A uniform quantizer's rounded levels and thresholds are strictly interleaved and within (L+|offset|) 2^-50 steps of the documented ones, so the cell of an input is unique, quantize is monotone and idempotent and levels are fixed points exactly; the output index is the documented one outside that margin around the thresholds, the output is nearest, and the granular error at most half a step, up to a few such margins; offset 0 gives exactly antisymmetric levels; every mid-tread quantizer has the level 0 and every mid-riser quantizer the threshold 0 exactly.", "quantifier": "all orders and level counts up to 2^48 (2^42 for the noisy round trip, 2^46 for increasing points), all spacings and steps of at least 2^-900 (any positive spacing for PAM decisions), all offsets with L+|offset| <= 2^48, all real received values in the stated range, every platform conversion of out-of-range floats to int", "why_tests_cant": "tests use small orders, dyadic spacings and a handful of received values, for which no rounding occurs", "anchors": ["src/komm/_constellations/PAMConstellation.py:PAMConstellation", "src/komm/_constellations/QAMConstellation.py:QAMConstellation.closest_indices", "src/komm/_constellations/ASKConstellation.py:ASKConstellation.closest_indices", "src/komm/_quantization/UniformQuantizer.py:UniformQuantizer"]}
{"id": "C118", "title": "Soft-decision block decoders in double precision", "statement": "The soft decoders compute with float64 rounding and numpy adds array entries in an unspecified order. A sum of N doubles of magnitude at most a is within N^2 a 2^-52 of the exact one in every order, and exact when the entries are fixed-point numbers whose magnitudes total less than 2^53 units. Hence ExhaustiveSearchDecoder answers a message whose correlation with the received values is within n^2 a 2^-51 of the best one, the sent message whenever it wins by that margin (in particular whenever all signs are right and n^2 a < d m 2^52), and exactly what exact arithmetic answers for fixed-point input. WagnerDecoder is maximum-likelihood without any margin. ReedDecoder with soft input has its guarantee (C41) with the rounding error added to the mass of wrong positions, and recovers every message from values of the right sign. SCDecoder always answers; L-values of the right sign and of magnitude at least mu+1+k are decoded without error and its output L-values have magnitude at least 1+k, for any exp and log1p that stay within [0, 1]. Weak L-values are lost: boxplus returns 0 for two values of magnitude 2^-60, which is decided as the bit 0 although the exact decoder recovers the message.", "quantifier": "all block codes, single parity-check codes of every length, Reed-Muller codes with mu <= 52, polar codes of every length and frozen set; all received vectors of doubles in the stated ranges, all orders of summation, all exp/log1p libraries satisfying the range condition", "why_tests_cant": "rounding errors and ties depend on all bit patterns of the received values and on numpy's order of summation; tests use small integers or a few decimals", "anchors": ["src/komm/_error_control_decoders/ExhaustiveSearchDecoder.py: ExhaustiveSearchDecoder", "src/komm/_error_control_decoders/WagnerDecoder.py: WagnerDecoder", "src/komm/_error_control_decoders/ReedDecoder.py: ReedDecoder", "src/komm/_error_control_decoders/SCDecoder.py: SCDecoder", "src/komm/_util/special_functions.py: boxplus"]}
{"id": "C119", "title": "Phase constellations and nearest-point search in double precision", "statement": "PSKConstellation, APSKConstellation and the generic nearest-point search compute with float64 rounding, an elementary-function library that is only nearly exact, complex products that may be contracted, and sums added in an unspecified order. For every library whose cos, sin, atan2, hypot and complex product are accurate to a unit or two in the last place (correctly rounded functions and the textbook product are such a library): the stored point of a PSK symbol is within 2^-49 + (1 + |phi|) A 2^-46 of A exp(2 pi j (i/M + phi)); a received number whose argument deviates from a point's by less than half a sector minus (1 + |phi|) 2^-46 turns is decided as that point, and every decision is a point nearest in argument up to that margin; a stored point plus noise below 7/16 of the minimum distance 2 A sin(pi/M) is decided as itself when (1 + |phi|) M <= 2^40 and A >= M 2^-44. The generic search decides a point whose squared distance is minimal up to a relative error (N + 5) 2^-51, so everything within 15/32 of the spacing of a point is decided as it, and for APSK rings not too large for the spacing everything within 7/16 of the spacing of a stored point is decided as it. Because the table is rounded to 15 decimals, amplitudes of at most 2^-52 give constellations all of whose points are 0.", "quantifier": "all accurate libraries, all orders of summation, all orders M up to 2^48 (PSK, APSK rings), all amplitudes, all phase offsets within the stated range, all lists of rings, all received numbers and noise, all constellations of double points of any number of dimensions", "why_tests_cant": "tests run one C library on one processor with a few orders and offsets; the claims are about the worst-case accumulation of rounding errors near every sector boundary", "anchors": ["src/komm/_constellations/PSKConstellation.py: PSKConstellation.matrix, closest_indices", "src/komm/_constellations/APSKConstellation.py: APSKConstellation.matrix, closest_indices", "src/komm/_constellations/base.py: Constellation.closest_indices"]}
{"id": "C120", "title": "Entropy, Kraft parameter and rate in double precision", "statement": "The entropy function, kraft_parameter and rate compute with float64 rounding, sums and products in an unspecified order with or without fused multiply-add, and log, log2 and pow that are only nearly exact. For every C library whose logarithms are within 2^-50 and whose powers are within 2^-52 relative (correctly rounded functions are such a library): the entropy of a pmf of N entries, each 0 or at least 2^-1000, is non-negative and within (N + 16) 2^-51 relative plus 2^-51/ln(base) absolute of the true one, exactly 0 for a deterministic source, and exactly the mean of the exponents for a pmf of powers of 1/2 in base 2; the Kraft parameter is non-negative and within (N + 1) 2^-51 relative of the sum of T^-l, and exactly that sum for alphabets of a power of two and lengths of at most 52 bits; the rate is non-negative and within (n + k + 1) 2^-51 relative of the mean codeword length per source symbol, for a dyadic source it is the correctly rounded quotient, and for a code of lengths -log2 p it equals the entropy as a floating-point number; the rate of a variable-to-fixed code with N sourcewords of at most K symbols and a mean length of at least 1/2 is within (N + K + 2) 2^-51 relative of n over that mean. The relative entropy of two pmfs of N entries, each at least 2^-500 where the first is positive, is within (N + 16) 2^-51 times the sum of the absolute values of its terms, plus 2^-51/ln(base), of the true one, for logarithms within 2^-50 at all positive doubles (the correctly rounded ones are), and exactly 0 when the two pmfs are equal, however small their entries. The binary entropy of every double p in [0, 1] is non-negative and within 2^-49 relative plus 2^-50 of the true one, exactly 0 at 0 and 1 and, if the logarithm of 1/2 is exact, exactly 1 at 1/2. The restrictions are needed: the complete code of the six one-symbol words over six symbols has a Kraft parameter of 1 - 2^-53, and for the pmf [1, 2^-1074] the quotient 1/p that the logarithm is applied to is beyond the range of binary64, although the pmf sums to exactly 1.", "quantifier": "all accurate libraries, all orders of summation and multiplication, all pmfs with entries 0 or at least 2^-1000, all bases that are 'e' or a double above 1, all codes (lengths), all block sizes", "why_tests_cant": "tests compare a few pmfs and codes with a tolerance on one machine; the claims are about the worst-case accumulation of rounding errors over every order of evaluation", "anchors": ["src/komm/_util/information_theory.py: entropy, binary_entropy, relative_entropy", "src/komm/_lossless_coding/FixedToVariableCode.py: FixedToVariableCode.kraft_parameter, rate", "src/komm/_lossless_coding/VariableToFixedCode.py: VariableToFixedCode.rate"]}
{"id": "C121", "title": "Soft outputs of successive cancellation", "statement": "SCDecoder's answer belongs to one input word u of the polar transform that is zero at the frozen positions. For every vector of L-values the soft output of each active position i is exactly ln(P0/P1), where Pb is the total probability, given the received L-values, of all codewords whose input word starts with the bits decided before position i followed by b, whatever the later bits are; the hard decision is the likelier value, 0 in a tie. These totals form a probability: 1 before any bit is known, each splitting in two with every further bit. The first active bit is therefore a maximum-a-posteriori decision given the frozen bits before it. Over erasures (L-value 0 where a symbol is missing, otherwise any number of the right sign) the decoder recovers every message when the usual recursion (or on the sums, and on the second bits) leaves no active position unknown, and otherwise decodes the message of ones wrongly.", "quantifier": "all mu, all frozen sets, all vectors of real L-values, all messages, all erasure patterns", "why_tests_cant": "the value of a soft output is a sum over exponentially many continuations of the decided bits; tests compare a few decoders' numbers with stored ones", "anchors": ["src/komm/_error_control_decoders/SCDecoder.py: SCDecoder.decode", "src/komm/_error_control_block/PolarCode.py: PolarCode"]}
