{"id": "C01", "title": "is_permutation is exact", "statement": "is_permutation(word) returns True exactly when word is a rearrangement of 0, 1, ..., len(word)-1.", "quantifier": "every finite sequence of Python integers, including negative, repeated and huge entries", "why_tests_cant": "The bitmask argument has to hold for every length and every integer; tests list five words.", "anchors": ["peyl/permutations.py:is_permutation"]}
{"id": "C02", "title": "Permutations form a group under compose/inverse", "statement": "For permutations of one size, compose is associative and closed, identity(n) is neutral on both sides, inverse is a two-sided inverse, and compose(x,y) maps i to x[y[i]]; different sizes raise ValueError.", "quantifier": "every n and all permutations x, y, z of size n", "why_tests_cant": "n! cases per size and every size.", "anchors": ["peyl/permutations.py:compose", "peyl/permutations.py:inverse", "peyl/permutations.py:identity", "peyl/permutations.py:Permutation.__mul__", "peyl/permutations.py:Permutation.inv"]}
{"id": "C03", "title": "length is the Coxeter length", "statement": "length(x) is the least number of adjacent transpositions whose product is x; it is 0 only for the identity, is unchanged by inversion, and its maximum n(n-1)/2 is reached exactly at longest_element(n).", "quantifier": "every n and every permutation of size n; all words in the generators", "why_tests_cant": "Minimality quantifies over all words of all lengths.", "anchors": ["peyl/permutations.py:length", "peyl/permutations.py:longest_element", "peyl/permutations.py:is_longest_element", "peyl/permutations.py:is_identity"]}
{"id": "C04", "title": "Descent sets are exactly the length-lowering generators", "statement": "i is in right_descent_set(x) iff multiplying x on the right by (i,i+1) lowers length by one (otherwise it raises it by one); left_descent_set likewise on the left; is_right_descent/is_left_descent agree with the sets.", "quantifier": "every n, every permutation x of size n, every i in [0, n-1)", "why_tests_cant": "Holds for every size; examples cover S3.", "anchors": ["peyl/permutations.py:right_descent_set", "peyl/permutations.py:left_descent_set", "peyl/permutations.py:is_right_descent", "peyl/permutations.py:is_left_descent"]}
{"id": "C05", "title": "parity is the sign", "statement": "parity(x) = length(x) mod 2, and parity is a homomorphism: parity(xy) = parity(x)+parity(y) mod 2.", "quantifier": "every n and all permutations x, y of size n", "why_tests_cant": "The cycle count and the inversion count are computed by unrelated algorithms that must agree for all inputs.", "anchors": ["peyl/permutations.py:parity", "peyl/permutations.py:cycle_type", "peyl/permutations.py:length"]}
{"id": "C06", "title": "disjoint_cycles is the cycle decomposition", "statement": "disjoint_cycles(x) terminates; each point occurs in exactly one cycle; each cycle lists the orbit in traversal order starting at its least element; cycles are ordered by least element; cycle_type lists their lengths in decreasing order and sums to n.", "quantifier": "every n and every permutation of size n", "why_tests_cant": "Termination of `while True` and the partition property are for all inputs.", "anchors": ["peyl/permutations.py:disjoint_cycles", "peyl/permutations.py:cycle_type"]}
{"id": "C07", "title": "shortlex is the lexicographically least reduced word", "statement": "shortlex(x) terminates without tripping its assertion, from_cox(n, shortlex(x)) = x, its length is length(x), and it is lexicographically least among all words of that length that from_cox sends to x.", "quantifier": "every n, every permutation x, and every competing word in the generators", "why_tests_cant": "Leastness quantifies over all reduced words.", "anchors": ["peyl/permutations.py:shortlex", "peyl/permutations.py:from_cox"]}
{"id": "C08", "title": "is_parallel_descending_cycles recognises noncrossing partitions", "statement": "It returns True exactly when every cycle of the permutation visits its elements in cyclically descending order and no two distinct cycles cross.", "quantifier": "every n and every permutation of size n", "why_tests_cant": "The test only counts results for n < 6; the predicate itself is never compared with a definition.", "anchors": ["peyl/permutations.py:is_parallel_descending_cycles", "peyl/permutations.py:is_descending_cycles"]}
{"id": "C09", "title": "SymmetricGroup.from_cycle builds the cycle", "statement": "from_cycle(c) returns the permutation sending c[i] to c[i+1] cyclically and fixing everything else, for every list of distinct points c in range.", "quantifier": "every n and every duplicate-free list of points below n", "why_tests_cant": "No test calls it; wrong for every cycle whose length differs from n.", "anchors": ["peyl/permutations.py:SymmetricGroup.from_cycle", "peyl/permutations.py:SymmetricGroup.from_cycles"]}
{"id": "C10", "title": "The Permutation constructor only admits permutations", "statement": "Permutation(word) raises an error whenever word is not a permutation, so every Permutation object satisfies is_permutation.", "quantifier": "every word passed to the constructor", "why_tests_cant": "Must hold for every value ever wrapped.", "anchors": ["peyl/permutations.py:Permutation.__post__init__", "peyl/permutations.py:SymmetricGroup.__post__init__"]}
{"id": "C11", "title": "SymmetricGroup.elements enumerates S_n once each, in lexicographic order", "statement": "elements() yields every permutation of size n exactly once, n! in total, in increasing lexicographic order, so table indices are a bijection with S_n.", "quantifier": "every n", "why_tests_cant": "Completeness for all n.", "anchors": ["peyl/permutations.py:SymmetricGroup.elements", "peyl/braid.py:PermTable.create"]}
{"id": "C12", "title": "LPoly values are canonical", "statement": "Two LPoly objects compare equal iff they have the same coefficient at every power of v; the stored form never has a zero first or last coefficient, and zero is (0, ()).", "quantifier": "all valuations and all coefficient sequences, and every value produced by the arithmetic", "why_tests_cant": "Equality of matrices, kernels and dictionary keys rests on it for every value.", "anchors": ["peyl/lpoly.py:LPoly.__init__", "peyl/lpoly.py:LPoly.is_zero", "peyl/lpoly.py:LPoly.valuation", "peyl/lpoly.py:LPoly.degree"]}
{"id": "C13", "title": "LPoly is a commutative ring", "statement": "+, -, unary -, * on LPoly (and int operands, on either side) satisfy the commutative ring laws and compute sums and convolutions of coefficients.", "quantifier": "all Laurent polynomials and integers", "why_tests_cant": "Infinitely many operands.", "anchors": ["peyl/lpoly.py:LPoly.__add__", "peyl/lpoly.py:LPoly.__mul__", "peyl/lpoly.py:LPoly.__neg__", "peyl/lpoly.py:LPoly.__sub__", "peyl/lpoly.py:LPoly.__rsub__"]}
{"id": "C14", "title": "LPoly powers", "statement": "x**n is the n-fold product for n >= 0; for n < 0 it is the inverse power when x is +-v^k and raises ValueError otherwise; x**(m+n) = x**m * x**n wherever defined.", "quantifier": "all Laurent polynomials x and all integers m, n", "why_tests_cant": "Recursion by halving must be right for every exponent.", "anchors": ["peyl/lpoly.py:LPoly.__pow__", "peyl/lpoly.py:LPoly.is_unit"]}
{"id": "C15", "title": "LPoly division is exact or refused", "statement": "a / b returns q with q*b = a whenever it returns; it raises ValueError/AssertionError otherwise, and it does return for every product a = q*b with b nonzero.", "quantifier": "all pairs of Laurent polynomials", "why_tests_cant": "Needs the division loop to be right for all inputs.", "anchors": ["peyl/lpoly.py:LPoly.__truediv__", "peyl/poly.py:Poly.__truediv__"]}
{"id": "C16", "title": "Poly.__divmod__ is Euclidean division over Z", "statement": "divmod(n, d) terminates; when it returns (q, r) then n = d*q + r with deg r < deg d, and such a pair is unique; d = 0 is refused; the only other refusal is a leading coefficient that is not divisible.", "quantifier": "all integer polynomials n, d", "why_tests_cant": "Termination and uniqueness for all inputs.", "anchors": ["peyl/poly.py:Poly.__divmod__"]}
{"id": "C17", "title": "cyclotomic never fails and factors x^n - 1", "statement": "For every n >= 1, Poly.cyclotomic(n) returns (its divisions are exact, its assertion never fires), and the product of cyclotomic(d) over the divisors d of n is x^n - 1; n <= 0 raises ValueError.", "quantifier": "every integer n", "why_tests_cant": "Exactness of all divisions for all n is number theory, not sampling.", "anchors": ["peyl/poly.py:Poly.cyclotomic"]}
{"id": "C18", "title": "quantum_integer", "statement": "quantum_integer(n) * (v - v^-1) = v^n - v^-n and quantum_integer(-n) = -quantum_integer(n).", "quantifier": "every integer n", "why_tests_cant": "The test loops over ten values.", "anchors": ["peyl/lpoly.py:LPoly.quantum_integer"]}
{"id": "C19", "title": "Reduction mod p is a ring homomorphism", "statement": "Mapping c -> c % p over coefficients commutes with + and * up to a final reduction, is idempotent, and yields coefficients in [0,p).", "quantifier": "all Laurent polynomials and every p >= 1", "why_tests_cant": "All operands and all moduli.", "anchors": ["peyl/lpoly.py:LPoly.map", "peyl/jonesrep.py:RepBase.evaluate_artin_word"]}
{"id": "C20", "title": "Poly.__repr__ shows the polynomial", "statement": "Two different polynomials have different repr strings.", "quantifier": "all pairs of integer polynomials", "why_tests_cant": "Injectivity over all values.", "anchors": ["peyl/poly.py:Poly.__repr__"]}
{"id": "C21", "title": "Chebyshev polynomials", "statement": "Poly.chebyshevT(n) evaluated at cos(t) is cos(n t); equivalently T_n satisfies the recurrence and T_m(T_n(x)) = T_{mn}(x). n < 0 raises ValueError.", "quantifier": "every n >= 0 and every real t", "why_tests_cant": "All degrees.", "anchors": ["peyl/poly.py:Poly.chebyshevT"]}
{"id": "C22", "title": "Poly arithmetic is a commutative ring with evaluation homomorphism", "statement": "Poly +,-,* satisfy the commutative ring laws, ** is the iterated product, and evaluate(x) respects + and *.", "quantifier": "all integer polynomials and evaluation points", "why_tests_cant": "All operands.", "anchors": ["peyl/poly.py:Poly.__add__", "peyl/poly.py:Poly.__mul__", "peyl/poly.py:Poly.__pow__", "peyl/poly.py:Poly.evaluate"]}
{"id": "C23", "title": "Matrix multiplication", "statement": "Matrix product is the usual one: associative, identity neutral, entry (i,j) = sum_k a[i,k] b[k,j]; incompatible shapes raise ValueError.", "quantifier": "all shapes and all entries in a commutative ring", "why_tests_cant": "All shapes and sizes.", "anchors": ["peyl/matrix.py:Matrix.__mul__", "peyl/matrix.py:Matrix.identity", "peyl/matrix.py:Matrix.__getitem__"]}
{"id": "C24", "title": "Matrix powers", "statement": "M**k is the k-fold product for square M and k >= 0; non-square raises ValueError, k < 0 raises NotImplementedError.", "quantifier": "all square matrices and all integers k", "why_tests_cant": "Square-and-multiply for every exponent.", "anchors": ["peyl/matrix.py:Matrix.__pow__"]}
{"id": "C25", "title": "Matrix.row returns each row", "statement": "row(i) returns the i-th row for every 0 <= i < nrows and raises IndexError otherwise; column(j) likewise; transpose swaps indices.", "quantifier": "all matrices and indices", "why_tests_cant": "All shapes, in particular tall ones.", "anchors": ["peyl/matrix.py:Matrix.row", "peyl/matrix.py:Matrix.column", "peyl/matrix.py:Matrix.transpose"]}
{"id": "C26", "title": "Matrix.is_symmetric decides symmetry", "statement": "is_symmetric() returns True iff M[i,j] = M[j,i] for all i, j.", "quantifier": "all square matrices", "why_tests_cant": "All entries must be compared.", "anchors": ["peyl/matrix.py:Matrix.is_symmetric"]}
{"id": "C27", "title": "is_crossingless_matching is exact", "statement": "It returns True iff seq is a fixed-point-free involution of [0,N) with no i < j < seq[i] < seq[j]; it never raises (its stack.pop never underflows).", "quantifier": "every integer sequence", "why_tests_cant": "All lengths and entries, including malformed ones.", "anchors": ["peyl/tl.py:is_crossingless_matching"]}
{"id": "C28", "title": "generate_sequences enumerates all crossingless matchings once", "statement": "generate_sequences(n) yields every crossingless matching of n points exactly once, catalan(n/2) in total; odd or negative n raises ValueError.", "quantifier": "every even n >= 0", "why_tests_cant": "Completeness and counting for all n.", "anchors": ["peyl/tl.py:generate_sequences", "peyl/noncrossing.py:catalan", "peyl/noncrossing.py:NPar.all_of_size"]}
{"id": "C29", "title": "Composition of TL diagrams is total and crossingless", "statement": "compose(upper, lower, mid) terminates on every pair of crossingless matchings of compatible size, its internal assertion never fires, and the result joins two boundary points iff they are joined by a path through the stacked diagram.", "quantifier": "all n, m, k and all diagrams", "why_tests_cant": "Path-following loops have data-dependent length.", "anchors": ["peyl/tl.py:compose", "peyl/tl.py:TLDiag.__mul__"]}
{"id": "C30", "title": "Diagram composition is associative with bubble count, with identities", "statement": "(x*y)*z and x*(y*z) give the same diagram and the same total number of bubbles; id is neutral with no bubbles.", "quantifier": "all composable triples of diagrams", "why_tests_cant": "All sizes.", "anchors": ["peyl/tl.py:compose", "peyl/tl.py:TLDiag.id"]}
{"id": "C31", "title": "Temperley-Lieb relations", "statement": "e_i*e_i = (v+v^-1) e_i, e_i e_j e_i = e_i for |i-j|=1, e_i e_j = e_j e_i for |i-j|>=2 in TLMor, hence gens[i]*invs[i] = id (the assertion in tl_gens_invs never fires) and the gens satisfy the braid relations.", "quantifier": "every n and all i, j", "why_tests_cant": "Tested for n < 6 only.", "anchors": ["peyl/tl.py:TLMor.e", "peyl/jonesrep.py:tl_gens_invs", "peyl/braidsearch.py:tl_gens_invs"]}
{"id": "C32", "title": "cell_basis is the basis of the cell module", "statement": "cell_basis(n,r) lists every crossingless diagram of type (n, n-2r) with n-2r through strands exactly once, in increasing order, and its length is cell_dimension(n,r) = JonesCellRep.dimension().", "quantifier": "every n and r with 2r <= n", "why_tests_cant": "Recursive construction must be complete for all n, r.", "anchors": ["peyl/tl.py:cell_basis", "peyl/tl.py:cell_dimension", "peyl/jonesrep.py:JonesCellRep.dimension"]}
{"id": "C33", "title": "Horizontal composition", "statement": "x @ y is crossingless of type (sum, sum), is associative, and satisfies the interchange law (x@y)*(z@w) = (x*z)@(y*w).", "quantifier": "all diagrams", "why_tests_cant": "All sizes.", "anchors": ["peyl/tl.py:insert", "peyl/tl.py:TLDiag.__matmul__"]}
{"id": "C34", "title": "TLExtDiag multiplication stacks the left operand on top", "statement": "For TLExtDiag, x * y is x on top of y, the same diagram TLDiag multiplication gives.", "quantifier": "all composable diagrams", "why_tests_cant": "The tested relations are symmetric under reversal, so they cannot see the order.", "anchors": ["peyl/tl.py:TLExtDiag.__mul__"]}
{"id": "C35", "title": "flip", "statement": "flip is an involution that reverses products; TLMor.flip(twist_v=False) leaves coefficients unchanged, twist_v=True maps v to v^-1.", "quantifier": "all morphisms and both flag values", "why_tests_cant": "All values.", "anchors": ["peyl/tl.py:TLDiag.flip", "peyl/tl.py:TLMor.flip"]}
{"id": "C36", "title": "TLMor is a category enriched in Laurent polynomials", "statement": "TLMor +, scalar multiples and * are bilinear and associative, id is neutral, zero coefficients are never stored, equality is equality of all coefficients.", "quantifier": "all morphisms", "why_tests_cant": "All sizes.", "anchors": ["peyl/tl.py:TLMor.__mul__", "peyl/tl.py:TLMor.__add__", "peyl/tl.py:TLMor.__pow__"]}
{"id": "C37", "title": "Complements are inverse bijections", "statement": "left_complement and right_complement of a noncrossing partition are noncrossing partitions, are mutually inverse, and to_permutation satisfies perm(*p) perm(p) = perm(p) perm(p*) = perm(coarsest).", "quantifier": "every n and every noncrossing partition", "why_tests_cant": "All n.", "anchors": ["peyl/noncrossing.py:NPar.left_complement", "peyl/noncrossing.py:NPar.right_complement", "peyl/noncrossing.py:NPar.to_permutation"]}
{"id": "C38", "title": "Partition round trips", "statement": "from_components(n, p.components()) = p; from_permutation(p.to_permutation()) = p; components() is a partition into blocks in increasing order; invalid inputs (overlap, out of range, crossing) raise ValueError.", "quantifier": "every n and every noncrossing partition / component list", "why_tests_cant": "All n.", "anchors": ["peyl/noncrossing.py:NPar.from_components", "peyl/noncrossing.py:NPar.components", "peyl/noncrossing.py:NPar.from_permutation", "peyl/noncrossing.py:NPar.to_permutation"]}
{"id": "C39", "title": "BKL generators satisfy the Birman-Ko-Lee relations", "statement": "The Artin words of the BKL generators satisfy a_ts a_sr = a_tr a_ts = a_sr a_tr for r<s<t and commute when the chords do not cross, in the braid group; the word for NPar.coarsest is sigma_{n-2}...sigma_0.", "quantifier": "every n and all r<s<t, all noncrossing chords", "why_tests_cant": "Group identities for all n.", "anchors": ["peyl/noncrossing.py:bkl_gen_to_artin_word", "peyl/noncrossing.py:npar_component_to_artin_word", "peyl/noncrossing.py:NPar.artin_word"]}
{"id": "C40", "title": "The renormalisation table does not depend on set iteration order", "statement": "Filling renorm[x][y] terminates whatever element each set.pop() returns, and all orders give the same pair (w, z).", "quantifier": "every n, every pair of permutations, every sequence of pop choices", "why_tests_cant": "Pop order is an adversarial schedule (hash order).", "anchors": ["peyl/braid.py:PermTable.create"]}
{"id": "C41", "title": "Renormalised pairs are normal and represent the same braid", "statement": "renorm[x][y] = (w,z) satisfies beta(w)beta(z) = beta(x)beta(y) in the braid group and L(z) is a subset of R(w); is_normalised[x][y] iff L(y) is a subset of R(x).", "quantifier": "every n and every pair of permutations", "why_tests_cant": "Equality in an infinite group.", "anchors": ["peyl/braid.py:PermTable.create"]}
{"id": "C42", "title": "normalise_factors always returns a normal form of the same braid", "statement": "For every sequence of factors, normalise_factors returns (k, f) with f in normal form (the GNF constructor's assertion never fires) and Delta^k f equal in the braid group to the product of the sequence.", "quantifier": "every n and every finite sequence of factors", "why_tests_cant": "Sequences of every length; the combing order is subtle.", "anchors": ["peyl/braid.py:NFTable.normalise_factors", "peyl/braid.py:NFTable.is_factors_normalised"]}
{"id": "C43", "title": "product_normalised_factors agrees with full normalisation", "statement": "For normal left and right sequences, product_normalised_factors (with its early exits) returns the same result as normalising the concatenation.", "quantifier": "every n and all normal sequences", "why_tests_cant": "Early exits must be safe for every input.", "anchors": ["peyl/braid.py:NFTable.product_normalised_factors"]}
{"id": "C44", "title": "GNF equality decides braid equality", "statement": "For n >= 2, from_artin_word(n,u) == from_artin_word(n,w) iff u and w are equal in the braid group B_n given by Artin's presentation.", "quantifier": "every n >= 2 and all words u, w with arbitrary integer exponents", "why_tests_cant": "The word problem over all words.", "anchors": ["peyl/braid.py:GNF.from_artin_word", "peyl/braid.py:GNF"]}
{"id": "C45", "title": "GNF multiplication and inversion are the braid group operations", "statement": "artin_word(a*b) equals artin_word(a)artin_word(b) in B_n; * is associative with identity(n) neutral; a*a.inv() = a.inv()*a = identity; the results satisfy the constructor assertion.", "quantifier": "every n and all GNF values reachable through the API", "why_tests_cant": "All braids.", "anchors": ["peyl/braid.py:NFBase.__mul__", "peyl/braid.py:NFBase.inv", "peyl/braid.py:NFBase.identity"]}
{"id": "C46", "title": "GNF powers", "statement": "b**k is the k-fold product for every integer k (negative k: the product of inverses).", "quantifier": "all braids and all integers k", "why_tests_cant": "All exponents.", "anchors": ["peyl/braid.py:NFBase.__pow__"]}
{"id": "C47", "title": "Artin word round trip", "statement": "from_artin_word(n, b.artin_word()) = b, and from_artin_word(n,w).artin_word() is equal to w in B_n; magma_artin_word never trips its assertion and encodes the same word with 1-based signed generators.", "quantifier": "all braids and all words", "why_tests_cant": "All braids.", "anchors": ["peyl/braid.py:NFBase.artin_word", "peyl/braid.py:GNF.from_artin_word", "peyl/braid.py:NFBase.magma_artin_word"]}
{"id": "C48", "title": "from_gnf_pair inverts canonical_decomposition", "statement": "B.from_gnf_pair((b.inf(), [perm words of b])) = b; and from_gnf_pair of any pair represents Delta^inf times the product of the positive lifts. positive_lift(x) is the positive lift of x.", "quantifier": "all braids and all lists of permutations", "why_tests_cant": "This is how published kernel elements are re-read.", "anchors": ["peyl/braid.py:BraidGroup.from_gnf_pair", "peyl/braid.py:BraidGroup.positive_lift", "peyl/braid.py:NFBase.canonical_decomposition"]}
{"id": "C49", "title": "normal_forms enumerates normal forms; count_normal_forms counts them", "statement": "normal_forms(length) yields exactly the normal sequences of that length without id/Delta, each once (those that can follow the given factor when one is given), count_normal_forms returns how many, and sample returns one of them for any random choices.", "quantifier": "every n, length, starting factor, random draws", "why_tests_cant": "Exponential enumeration, every length.", "anchors": ["peyl/braid.py:NFTable.normal_forms", "peyl/braid.py:NFTable.count_normal_forms", "peyl/braid.py:NFTable.sample", "peyl/braid.py:NFBase.all_of_length"]}
{"id": "C50", "title": "nf_suffixes gives cancellation-free suffixes", "statement": "For every braid b and every x in b.nf_suffixes(k), b*x has canonical length len(b)+k and starts with the canonical factors of b.", "quantifier": "every braid b and every k", "why_tests_cant": "Searches only use power 0; other powers are never exercised.", "anchors": ["peyl/braid.py:NFBase.nf_suffixes", "peyl/braid.py:NFBase.nf_descendants"]}
{"id": "C51", "title": "all_of_garside_length honours its power argument", "statement": "BraidGroup.all_of_garside_length(length, power) yields the braids Delta^power times the normal forms of that length.", "quantifier": "every n, length, power", "why_tests_cant": "All powers.", "anchors": ["peyl/braid.py:BraidGroup.all_of_garside_length", "peyl/braid.py:NFBase.all_of_length"]}
{"id": "C52", "title": "The GNF constructor only admits normal forms", "statement": "GNF(n, power, factors) raises unless factors are indices of permutations in normal form.", "quantifier": "every tuple of integers", "why_tests_cant": "Every integer tuple.", "anchors": ["peyl/braid.py:NFBase.__post_init__", "peyl/braid.py:NFTable.is_factors_normalised"]}
{"id": "C53", "title": "gens() works in every braid group", "statement": "BraidGroup(n).gens() returns the n-1 Artin generators for every n >= 1 accepted by the constructor, and invs() their inverses.", "quantifier": "every n >= 1", "why_tests_cant": "Boundary n = 2 is not tested.", "anchors": ["peyl/braid.py:BraidGroup.gens", "peyl/braid.py:NFBase.artin_gens"]}
{"id": "C54", "title": "inf and sup", "statement": "b.inf() is the largest k such that Delta^-k b is a positive braid; b.sup() is the least k such that b^-1 Delta^k is positive; canonical_length = sup - inf.", "quantifier": "all braids, all k and all positive words", "why_tests_cant": "Maximality over all positive words.", "anchors": ["peyl/braid.py:NFBase.inf", "peyl/braid.py:NFBase.sup", "peyl/braid.py:NFBase.canonical_length"]}
{"id": "C55", "title": "DGNF equality decides braid equality", "statement": "For 2 <= n <= 9 (the size guard; n < 2 raises IndexError, n >= 10 ValueError), DGNF.from_artin_word(n,u) == DGNF.from_artin_word(n,w) iff u and w are equal in B_n; DGNF *, inv, ** are the group operations and never trip an assertion.", "quantifier": "every n >= 2 and all words", "why_tests_cant": "The word problem in the dual structure.", "anchors": ["peyl/braid.py:DGNF", "peyl/braid.py:NParTable.create"]}
{"id": "C56", "title": "Conversion between GNF and DGNF", "statement": "b.to_DGNF() represents the same braid as b, and to_GNF/to_DGNF are mutually inverse.", "quantifier": "all braids", "why_tests_cant": "All braids.", "anchors": ["peyl/braid.py:GNF.to_DGNF", "peyl/braid.py:DGNF.to_GNF"]}
{"id": "C57", "title": "SQLite round trip", "statement": "convert_braid(adapt_braid(b)) = b for every GNF and DGNF.", "quantifier": "all braids (any n, any power, any number of factors)", "why_tests_cant": "All values, including negative powers, empty and one-element tuples.", "anchors": ["peyl/braid.py:adapt_braid", "peyl/braid.py:convert_braid"]}
{"id": "C58", "title": "Cell matrices satisfy the braid relations", "statement": "The matrices JonesCellRep(n,r,p).artin_gens_invs() satisfy the braid relations and gens[i]*invs[i] = identity (mod p).", "quantifier": "every n, r with 2r <= n, every p", "why_tests_cant": "Tested on five (n,r).", "anchors": ["peyl/jonesrep.py:cell_matrix", "peyl/jonesrep.py:cell_matrices", "peyl/jonesrep.py:JonesCellRep.artin_gens_invs"]}
{"id": "C59", "title": "evaluate is a homomorphism on braids", "statement": "evaluate_artin_word(u) = evaluate_artin_word(w) whenever u and w are the same braid; evaluate(a*b) is the product of evaluate(a) and evaluate(b) (mod p); hence evaluate(b) does not depend on the word or normal form used.", "quantifier": "every n, r, p and all words / braids", "why_tests_cant": "All braids; kernel claims of the paper rest on it.", "anchors": ["peyl/jonesrep.py:RepBase.evaluate_artin_word", "peyl/jonesrep.py:RepBase.evaluate"]}
{"id": "C60", "title": "polymat_evaluate_artin_word evaluates words", "statement": "polymat_evaluate_artin_word(w) returns the projectivised image of w.", "quantifier": "all words and all representations", "why_tests_cant": "Never called in tests.", "anchors": ["peyl/jonesrep.py:RepBase.polymat_artin_gens_invs", "peyl/jonesrep.py:RepBase.polymat_evaluate_artin_word", "peyl/jonesrep.py:RepBase.polymat_evaluate"]}
{"id": "C61", "title": "polymat evaluation agrees with matrix evaluation", "statement": "polymat_evaluate_braids_of_same_length(bs)[i] is evaluate(bs[i]) divided by a power of v (mod p), with no leading zero matrix.", "quantifier": "every n, r, p and all equal-length lists of braids", "why_tests_cant": "Relies on Delta^2 acting by a power of v for all n, r.", "anchors": ["peyl/jonesrep.py:RepBase.polymat_evaluate_braids_of_same_length", "peyl/jonesrep.py:RepBase._polymat_delta_power", "peyl/braidsearch.py:evaluate_braids_of_same_length"]}
{"id": "C62", "title": "LKBRep is a representation", "statement": "The LKBRep generator matrices satisfy the braid relations for every n and all units q, t; artin_gens_invs returns matrices and their inverses.", "quantifier": "every n and all units q, t", "why_tests_cant": "One n is tested, inverses never.", "anchors": ["peyl/jonesrep.py:LKBRep.artin_gens_invs"]}
{"id": "C63", "title": "JonesSummand handles every r it accepts", "statement": "For every n >= 1 and 0 <= 2r <= n, JonesSummand(n,r,p).dimension() returns the dimension of the representation.", "quantifier": "every n, r, p accepted by the constructor and by search.py", "why_tests_cant": "Boundary r = 0 is not tested.", "anchors": ["peyl/braidsearch.py:JonesSummand.dimension", "search.py:args"]}
{"id": "C64", "title": "polymat.mul is multiplication of polynomial matrices", "statement": "mul(A,B) represents the product of the matrices A and B represent, batch entry by batch entry; with quotdeg it is the product truncated below that degree.", "quantifier": "all shapes and entries", "why_tests_cant": "All shapes.", "anchors": ["peyl/polymat.py:mul", "peyl/polymat.py:to_matrix"]}
{"id": "C65", "title": "projectivise divides by the right power of v", "statement": "projectivise(A) represents v^-d A where d is the least degree with a nonzero entry, for each matrix of the batch; its constant term is nonzero; it is idempotent; two matrices have the same image iff they differ by a power of v.", "quantifier": "all batches of nonzero polynomial matrices", "why_tests_cant": "All batches.", "anchors": ["peyl/polymat.py:projectivise", "peyl/polymat.py:proj_starts_ends", "peyl/polymat.py:trim", "peyl/polymat.py:trim_left"]}
{"id": "C66", "title": "projlen is degmax - valmin + 1, and zero for the zero matrix", "statement": "projlen(A) = degmax(A) - valmin(A) + 1 for nonzero A and 0 for A = 0; it is unchanged by multiplying A by v^k and by zero padding.", "quantifier": "all polynomial matrices", "why_tests_cant": "All matrices, including zero.", "anchors": ["peyl/polymat.py:projlen", "peyl/polymat.py:degmax", "peyl/polymat.py:valmin", "peyl/polymat.py:efflen"]}
{"id": "C67", "title": "pack, zeropad, concatenate keep every matrix", "statement": "pack(As)[i], zeropad(A, D) and concatenate(As) represent the same polynomial matrices in the same order; from_matrix and to_matrix are inverse on polynomial matrices.", "quantifier": "all lists of matrices", "why_tests_cant": "All shapes.", "anchors": ["peyl/polymat.py:pack", "peyl/polymat.py:zeropad", "peyl/polymat.py:concatenate", "peyl/polymat.py:from_matrix", "peyl/polymat.py:to_matrix"]}
{"id": "C68", "title": "int32 arithmetic mod p does not overflow for small p", "statement": "If dim * min(D,E) * (p-1)^2 < 2^31 then the int32 product of reduced matrices equals the exact product; for larger p it can be wrong.", "quantifier": "all p, shapes and reduced matrices", "why_tests_cant": "Overflow needs adversarial sizes.", "anchors": ["peyl/jonesrep.py:RepBase.polymat_mul", "peyl/jonesrep.py:RepBase.polymat_dtype", "peyl/polymat.py:mul"]}
{"id": "C69", "title": "Buckets never exceed capacity and stay parallel", "statement": "After any sequence of additions and discards, with any random draws and any reservoir method, every bucket holds at most capacity braids, and braids, images and weights are parallel.", "quantifier": "all operation histories and random draws", "why_tests_cant": "All histories.", "anchors": ["peyl/bucketing.py:Bucket", "peyl/bucketing.py:Tracker.add_braids_images", "peyl/braidsearch.py:Tracker.add_braids_images"]}
{"id": "C70", "title": "Every stored image is the image of its braid, in the right bucket", "statement": "If every pair added satisfies image = rho(braid) up to a power of v, then in every bucket each stored image is the projectivised rho(braid) and the bucket tag is (length, projlen) of that braid.", "quantifier": "all operation histories and random draws", "why_tests_cant": "All histories.", "anchors": ["peyl/bucketing.py:Tracker.add_braids_images", "peyl/braidsearch.py:Tracker.add_braids_images", "peyl/bucketing.py:Tracker.valiate_buckets"]}
{"id": "C71", "title": "reservoir_count counts offers", "statement": "reservoir_count of a bucket equals the number of pairs offered with that tag since it was (re)created, and reservoir_weight their total weight.", "quantifier": "all operation histories", "why_tests_cant": "All histories.", "anchors": ["peyl/bucketing.py:Bucket.show_reservoir", "peyl/braidsearch.py:Tracker.add_braids_images"]}
{"id": "C72", "title": "Uniform reservoir sampling is uniform", "statement": "After N >= capacity distinct offers to a bucket, each offered item is retained with probability exactly capacity/N.", "quantifier": "every capacity and every N, exact probability over all random draws", "why_tests_cant": "A probability statement over all draw sequences.", "anchors": ["peyl/bucketing.py:Tracker.add_braids_images", "peyl/braidsearch.py:Tracker.add_braids_images"]}
{"id": "C73", "title": "EvictMin keeps the heaviest items", "statement": "With EvictMin, after any offers the bucket holds items whose weights are the capacity largest weights offered (as a multiset).", "quantifier": "all offer sequences", "why_tests_cant": "All sequences and ties.", "anchors": ["peyl/bucketing.py:Tracker.add_braids_images", "peyl/bucketing.py:Bucket.replace_braid"]}
{"id": "C74", "title": "GreedyFirst keeps the first items", "statement": "With GreedyFirst a bucket holds exactly the first capacity items offered, in order.", "quantifier": "all offer sequences", "why_tests_cant": "All sequences.", "anchors": ["peyl/bucketing.py:Tracker.add_braids_images"]}
{"id": "C75", "title": "batched splits without loss", "statement": "The chunks of batched(xs, k) concatenate to xs, none is empty, each has at most k items and all but the last exactly k; k < 1 raises AssertionError.", "quantifier": "all iterables and k", "why_tests_cant": "All lengths.", "anchors": ["peyl/bucketing.py:batched", "peyl/braidsearch.py:batched"]}
{"id": "C76", "title": "nf_descendants pairs each product with its own image", "statement": "nf_descendants(tag) offers, for every stored braid b and every suffix x, the braid b*x with the image rho(b)rho(x); no product is paired with another product's image.", "quantifier": "all buckets and lengths", "why_tests_cant": "Index arithmetic over reshaped tensors, sorting and grouping, for all sizes.", "anchors": ["peyl/bucketing.py:Tracker.nf_descendants", "peyl/braidsearch.py:Tracker.nf_descendants"]}
{"id": "C77", "title": "search.py never moves more than use_best braids and discards what it has processed", "statement": "In each step the selected buckets all have the current length, are the lowest-projlen ones, and hold at most use_best braids in total; afterwards no bucket of length <= current remains.", "quantifier": "all tracker states, all use_best", "why_tests_cant": "All states.", "anchors": ["search.py:main"]}
{"id": "C78", "title": "Database saves are atomic per step", "statement": "If the process dies at any point, the database holds exactly the rows of a whole number of completed save steps, and each row decodes to a braid of the recorded length, whose matrix in the representation (n, r) modulo p has the recorded projlen.", "quantifier": "every crash point", "why_tests_cant": "Crash points.", "anchors": ["search.py:main"]}
{"id": "C79", "title": "bootstrap_exhaustive offers every braid once", "statement": "bootstrap_exhaustive(L) offers to the buckets each normal form with power 0 of each length 1..L exactly once.", "quantifier": "every n and L", "why_tests_cant": "Exponential enumeration.", "anchors": ["peyl/bucketing.py:Tracker.bootstrap_exhaustive", "peyl/braidsearch.py:Tracker.bootstrap_exhaustive"]}
{"id": "C80", "title": "evaluate_braids returns images in input order", "statement": "evaluate_braids(rep, bs)[i] is the image of bs[i] although the braids are regrouped by length.", "quantifier": "all lists of braids", "why_tests_cant": "All mixtures of lengths.", "anchors": ["peyl/braidsearch.py:evaluate_braids"]}
{"id": "C81", "title": "LPoly.fmt and repr determine the polynomial", "statement": "Two LPoly objects with the same repr (or the same fmt(), in plain or latex mode) are equal.", "quantifier": "all pairs of Laurent polynomials", "why_tests_cant": "All pairs of coefficient lists, valuations and integer sizes.", "anchors": ["peyl/lpoly.py:LPoly.fmt", "peyl/lpoly.py:LPoly.__repr__"]}
{"id": "C82", "title": "Matrix.rows and Matrix.from_rows are inverse", "statement": "from_rows of a non-empty list of equally long rows gives a matrix whose rows() is that list, and from_rows(m.rows()) is m for every matrix with at least one row; from_rows of an empty list raises IndexError.", "quantifier": "all row lists and matrices", "why_tests_cant": "All shapes.", "anchors": ["peyl/matrix.py:Matrix.from_rows", "peyl/matrix.py:Matrix.rows"]}
{"id": "C83", "title": "Matrix trace and transpose", "statement": "trace is the sum of the diagonal (ValueError exactly for non-square), trace(ab) = trace(ba) whenever both products exist, and transpose reverses products.", "quantifier": "all matrices over a commutative ring", "why_tests_cant": "All shapes and entries.", "anchors": ["peyl/matrix.py:Matrix.trace", "peyl/matrix.py:Matrix.transpose"]}
{"id": "C84", "title": "reflections lists every transposition once", "statement": "SymmetricGroup(n).reflections() returns n(n-1)/2 distinct permutations, exactly the ones that exchange two points and fix the others.", "quantifier": "every n", "why_tests_cant": "All n and all pairs of points.", "anchors": ["peyl/permutations.py:SymmetricGroup.reflections", "peyl/permutations.py:transposition"]}
{"id": "C85", "title": "substring slices the canonical factors", "statement": "For 0 <= i <= j <= canonical length, b.substring(i, j) is a valid normal form with the same power of Delta whose canonical factors are those of b from i to j-1, and its constructor check never fails; other i, j raise AssertionError.", "quantifier": "every GNF value b and all i, j >= 0", "why_tests_cant": "All braids and all slices; the slice of a normal form must again be normal.", "anchors": ["peyl/braid.py:NFBase.substring"]}
{"id": "C86", "title": "Matrix entrywise operations, constructors and equality", "statement": "a - b, a * scalar, map, Matrix.zero(r, c), Matrix.scalar(n, x) have the entries M[i, j] their names say; subtraction raises ValueError exactly for different shapes and the constructors exactly for negative sizes; == holds exactly for matrices of the same shape with equal entries.", "quantifier": "all matrices, shapes and scalars", "why_tests_cant": "All shapes and entries.", "anchors": ["peyl/matrix.py:Matrix.__sub__", "peyl/matrix.py:Matrix.map", "peyl/matrix.py:Matrix.zero", "peyl/matrix.py:Matrix.scalar", "peyl/matrix.py:Matrix.__eq__"]}
{"id": "C87", "title": "Evaluating integer sequences gives one matrix per sequence", "statement": "polymat_evaluate_braid_integers_of_same_length(cls, sequences) returns a batch with one matrix for each sequence, in order: the image of the product of the positive lifts of the sequence's table entries, up to a power of v, modulo p, projectivised. The sequences need not be normal. No sequences raise IndexError; sequences of different lengths or indices out of range raise AssertionError.", "quantifier": "every n >= 2, r, p, both normal form classes, every list of sequences of one length", "why_tests_cant": "All n, lengths, numbers of sequences and entries; broadcasting a batch of one against N.", "anchors": ["peyl/jonesrep.py: RepBase.polymat_evaluate_braid_integers_of_same_length", "peyl/jonesrep.py: RepBase._polymat_braid_factor"]}
{"id": "C88", "title": "TLExtDiag operations keep diagrams and bubbles apart", "statement": "The TLExtDiag constructor accepts exactly the crossingless matchings of top + bot points (AssertionError otherwise); e(i, n), id(n) and @ give the diagrams of TLDiag, adding the bubbles of both factors; add_bubbles(k) changes only the number of bubbles by k, and split() returns the diagram without bubbles and their number, so that adding them again gives the original.", "quantifier": "all diagrams, all numbers of bubbles and all i, n", "why_tests_cant": "All diagrams.", "anchors": ["peyl/tl.py:TLExtDiag.e", "peyl/tl.py:TLExtDiag.id", "peyl/tl.py:TLExtDiag.__matmul__", "peyl/tl.py:TLExtDiag.add_bubbles", "peyl/tl.py:TLExtDiag.split"]}
{"id": "C89", "title": "The diagrammatic trace counts loops and is linear and cyclic", "statement": "trace_count(s) is the number of loops obtained by joining every point of the matching s with the point vertically opposite; TLMor.trace() is the sum over the terms c d of c (v + v^-1)^(loops of d), is linear, and satisfies trace(x y) = trace(y x), also for rectangular x and y.", "quantifier": "all crossingless matchings and morphisms", "why_tests_cant": "All matchings, all pairs of morphisms and coefficients.", "anchors": ["peyl/tl.py:trace_count", "peyl/tl.py:TLMor.trace"]}
{"id": "C90", "title": "TLMor.basis, is_zero and the projections of TLCell", "statement": "TLMor.basis(top, bot) gives one morphism for each diagram, with coefficient 1; is_zero holds exactly when every coefficient is zero; TLCell(n, r).project_leftmult_matrix(m) is the matrix of left multiplication by m on the cell module; project_vector(m) drops the diagrams with fewer than n - 2r through strands, for the elements of the cell module.", "quantifier": "all n, r and morphisms", "why_tests_cant": "All morphisms.", "anchors": ["peyl/tl.py:TLMor.basis", "peyl/tl.py:TLMor.is_zero", "peyl/tl.py:TLCell.project_vector", "peyl/tl.py:TLCell.project_leftmult_matrix"]}
{"id": "C93", "title": "The Markov trace is the weighted sum of the cell traces", "statement": "For every morphism m of type (n, n), m.trace() is the sum over r = 0 .. n//2 of TLCell(n, r).trace_scalar() times the matrix trace of TLCell(n, r).project_leftmult_matrix(m).", "quantifier": "every n and every morphism of type (n, n)", "why_tests_cant": "All n and all linear combinations of diagrams.", "anchors": ["peyl/tl.py:TLCell.trace_scalar", "peyl/tl.py:TLMor.trace", "peyl/tl.py:TLCell.project_leftmult_matrix"]}
{"id": "C94", "title": "JonesRep(n) contains all cell modules", "statement": "JonesRep(n).cells lists TLCell(n, r) exactly once for every r with 2r <= n.", "quantifier": "every n", "why_tests_cant": "All n.", "anchors": ["peyl/tl.py:JonesRep"]}
{"id": "C95", "title": "The full twist acts by a scalar", "statement": "JonesCellRep(n, r, p).evaluate_artin_word maps every word for Delta^2 (the square of the Garside element, i.e. of the positive lift of the permutation reversing the strands) to v^(2r(n-r+1)) times the identity matrix modulo p; hence multiplying a braid by Delta^2 multiplies its image by that power of v. The polymat evaluation, which drops powers of Delta modulo the order of tau, relies on it.", "quantifier": "every n >= 1, 2r <= n, every modulus p >= 0, every word spelling Delta^2", "why_tests_cant": "n and r are unbounded, and there are infinitely many words", "anchors": ["peyl/jonesrep.py: JonesCellRep.artin_gens_invs, RepBase.evaluate_artin_word, RepBase.polymat_delta_power", "peyl/braid.py: tau_order"]}
{"id": "C96", "title": "BKL generators and lifts of noncrossing partitions are the right braids", "statement": "DGNF.bkl_gens(n) and BraidGroup(n).bkl_gens() map (i, j) to the braid of bkl_gen_to_artin_word(i, j), for exactly the keys i, j < n; DGNF.from_npar, from_npar_seq and BraidGroup.from_npar give the braid of the partition's artin_word (products for sequences).", "quantifier": "every n >= 2, every noncrossing partition, every sequence of them", "why_tests_cant": "All n, all partitions; boundary n = 2.", "anchors": ["peyl/braid.py:DGNF.bkl_gens", "peyl/braid.py:DGNF.from_npar", "peyl/braid.py:DGNF.from_npar_seq", "peyl/braid.py:BraidGroup.bkl_gens", "peyl/braid.py:BraidGroup.from_npar"]}
{"id": "C97", "title": "delta^n is the full twist", "statement": "In the dual normal form, multiplying on either side by the power delta^(kn) only adds kn to the exponent (it is central), and converting DGNF(n, kn, ()) to GNF gives GNF(n, 2k, ()), converting back gives the same DGNF: delta^n = Delta^2.", "quantifier": "every n >= 2, every integer k, every DGNF braid", "why_tests_cant": "All n, all powers, all braids.", "anchors": ["peyl/braid.py:DGNF.to_GNF", "peyl/braid.py:GNF.to_DGNF", "peyl/braid.py:NormalForm.__mul__", "peyl/braid.py:NParTable"]}
{"id": "C98", "title": "Enumeration and sampling of dual normal forms", "statement": "DGNF.all_of_length(n, length, power) yields, once each, exactly the DGNF braids of that power and canonical length; count_all_of_length is their number; sample(n, length) returns a braid of power 0 and that length, and can return each of them.", "quantifier": "every n >= 2, every length and power, every random source", "why_tests_cant": "All n, lengths and braids.", "anchors": ["peyl/braid.py:NormalForm.all_of_length", "peyl/braid.py:NormalForm.count_all_of_length", "peyl/braid.py:NormalForm.sample"]}
{"id": "C99", "title": "inf and sup of dual normal forms", "statement": "For a DGNF braid b, inf(b) is the greatest k such that delta^-k b is a product of band generators, sup(b) is the least k such that b^-1 delta^k is a product of band generators, and canonical_length is sup - inf.", "quantifier": "every n >= 2, every DGNF braid", "why_tests_cant": "All n, all braids, all products of band generators.", "anchors": ["peyl/braid.py:NormalForm.inf", "peyl/braid.py:NormalForm.sup", "peyl/braid.py:NormalForm.canonical_length", "peyl/braid.py:DGNF"]}
{"id": "C92", "title": "minpolycos returns minimal polynomials", "statement": "For n >= 1, Poly.minpolycos(n) returns the minimal polynomial of 2 cos(2 pi / n): a polynomial P with integer coefficients and leading coefficient 1, with P(2 cos(2 pi / n)) = 0, such that every integer polynomial vanishing at 2 cos(2 pi / n) is P times an integer polynomial; no other monic polynomial has these properties. For n <= 0 it raises ValueError. In particular none of the exact divisions raises.", "quantifier": "every integer n", "why_tests_cant": "All n: the recursion runs over all proper divisors, and minimality quantifies over all integer polynomials.", "anchors": ["peyl/poly.py:Poly.minpolycos", "peyl/poly.py:Poly.chebyshevT", "peyl/poly.py:Poly.__truediv__", "peyl/poly.py:Poly.evaluate"]}
{"id": "C91", "title": "The identity polymat is neutral and % reduces", "statement": "polymat.eye(n) is one n x n int64 matrix of constants with ones on the diagonal; mul(A, eye(J)) returns exactly A for every batch A (any batch shape, width, dtype), mul(eye(I), A) the same matrices as int64; A % p keeps shape and dtype and puts every coefficient in [0, p) without overflow, and reducing twice is reducing once.", "quantifier": "every array and modulus that fits the dtype", "why_tests_cant": "All shapes, widths and values.", "anchors": ["peyl/polymat.py:eye", "peyl/polymat.py:mul"]}
{"id": "C100", "title": "The near-kernel elements search.py prints are the ones it holds", "statement": "In every iteration of search.py the printed pairs (inf, permutations) are exactly the canonical decompositions of the stored braids whose matrix, modulo p, is a power of v times a matrix of constants; each printed pair reads back as that braid. With --stop-at-projlen-1 the search stops at the end of the first iteration that prints one, and only then; without it all lengths are processed.", "quantifier": "every run: all n, r, p, bucket sizes, random choices, set orders, iteration counts", "why_tests_cant": "All histories of the search and all random choices.", "anchors": ["search.py:main", "peyl/braidsearch.py:Tracker.stats"]}
{"id": "C101", "title": "Accepted search arguments run to the end", "statement": "If the argument checks of search.py accept n, r, p and the coefficients stay within int32, main() raises no error: bootstrap, all iterations, printing and saving complete.", "quantifier": "all accepted arguments, random choices and set orders", "why_tests_cant": "All argument combinations and histories; the loop runs hundreds of iterations.", "anchors": ["search.py:main", "peyl/braidsearch.py:Tracker.bootstrap_exhaustive", "peyl/braidsearch.py:Tracker.nf_descendants"]}
{"id": "C102", "title": "AChao sampling favours heavy pairs in proportion to weight", "statement": "A bucketing Tracker with reservoir_method 'AChao' offers a new pair of weight w to a full bucket with acceptance chance w/W (W the total weight offered so far, including w) and puts it at a uniformly random position; with capacity c the i-th distinct pair offered is stored with the resulting product of chances, which is w_i/W (proportional to the weights, as the docstring promises) for capacity 1.", "quantifier": "all histories of additions and discards, positive weights, capacities and draw sequences", "why_tests_cant": "A statement about the distribution over all draw sequences and all histories.", "anchors": ["peyl/bucketing.py:Tracker.add_braids_images", "peyl/bucketing.py:Bucket.show_reservoir"]}
{"id": "C103", "title": "bucket_product multiplies every pair of two buckets", "statement": "On a braidsearch Tracker filled with braids and their images, bucket_product(b1, b2) makes exactly one addition: the braids a*b for every a stored in b1 and b stored in b2, in that order, each next to its own (projectivised, reduced) image. It raises no error if the filter gives one answer per pair, afterwards every bucket again holds braids next to their own images under the right tag, and a bucket that does not exist gives an AssertionError.", "quantifier": "all n, r, p, trackers reached by any history of additions and discards, buckets and filters within the int32/int64 range", "why_tests_cant": "All trackers, buckets and representations.", "anchors": ["peyl/braidsearch.py:Tracker.bucket_product", "peyl/braidsearch.py:Tracker.bucket_braids_images", "peyl/jonesrep.py:JonesSummand.mul"]}
{"id": "C104", "title": "substrings tries all substrings of length two or more", "statement": "On a braidsearch Tracker filled with braids and their images, substrings(bucket) offers, for every stored braid, all of its substrings (consecutive factors i..j of the normal form) of length 2 or more, each next to its image; it leaves the bucket itself unchanged and raises no error.", "quantifier": "all n, r, p, trackers reached by any history of additions and discards, and buckets within the int32/int64 range", "why_tests_cant": "All trackers, buckets and lengths.", "anchors": ["peyl/braidsearch.py:Tracker.substrings", "peyl/braid.py:GNF.substring", "peyl/braidsearch.py:evaluate_prefixes_of_same_length"]}
{"id": "C105", "title": "The reports of the trackers are the truth about the history", "statement": "After any sequence of add_braids_images and discard_bucket calls, stats() of both trackers has exactly one row for each bucket that has been offered something since it was last discarded. bucketing: count is min(capacity, number of offers), reservoir_count is the number of offers, the two averages are the mean weights of the stored and of all offered pairs. braidsearch: count is min(bucket_size, number of different braids offered), reservoir_count (only with a random generator) the number of offers, rhogap/length is (projlen-1)/2/length. stats_reservoir() also lists the discarded buckets, each with the count it had at its last offer.", "quantifier": "all sequences of calls with matrices of one size and dtype, capacities >= 1, methods, statistics, weights and random draws", "why_tests_cant": "All histories and random draws.", "anchors": ["peyl/bucketing.py:Tracker.stats", "peyl/braidsearch.py:Tracker.stats", "peyl/braidsearch.py:Tracker.stats_reservoir"]}
{"id": "C106", "title": "bucket_stats recomputes the tag of the bucket", "statement": "In a bucketing Tracker whose statistics are built-in ones, bucket_stats(tag) of an existing bucket has, for each statistic, the component of the tag in every row (although it is computed from the projectivised stored images, not from the images that were added), and as many rows as stored braids; a missing tag raises ValueError.", "quantifier": "all sequences of additions and discards, capacities >= 1, lists of built-in statistics and tags", "why_tests_cant": "All histories and statistics.", "anchors": ["peyl/bucketing.py:Tracker.bucket_stats", "peyl/bucketing.py:Tracker.braid_image_stats", "peyl/bucketing.py:CanonicalLength", "peyl/bucketing.py:ProjectiveLength", "peyl/bucketing.py:NonzeroTerms", "peyl/bucketing.py:NFKind"]}
{"id": "C107", "title": "hash_bucket groups the stored braids by their images", "statement": "hash_bucket(tag) of a bucketing Tracker returns a dict whose keys are exactly the hashes of the stored images, each once, and whose list under a key consists of the stored braids with that hash, in the order of storage. So no stored braid is lost, braids with equal images are in one list, and if the hash separates the images then the braids of one list have equal images. A tag without bucket raises AssertionError.", "quantifier": "all sequences of additions and discards, capacities >= 1, methods, random draws, hash functions and tags", "why_tests_cant": "All histories and hash functions.", "anchors": ["peyl/bucketing.py:Tracker.hash_bucket"]}
{"id": "C108", "title": "valiate_buckets tells the truth", "statement": "valiate_buckets() returns \"All bucket entries are sound.\" for a tracker that was only given braids with their own images; if it returns a triple, then it is a stored braid, its value under the representation and its stored matrix, and the two differ; if it says that all is sound, every stored matrix is the value of its braid.", "quantifier": "all sequences of additions and discards, representations, moduli, capacities, methods and random draws", "why_tests_cant": "All histories and representations.", "anchors": ["peyl/bucketing.py:Tracker.valiate_buckets", "peyl/braidsearch.py:Tracker.valiate_buckets"]}
{"id": "C109", "title": "all_of_length_below_1 returns exactly the braids below 1", "statement": "all_of_length_below_1(rep, length) goes through every braid of B_n with Delta-power 0 and the given number of factors, once, and returns in that order exactly those whose image modulo p has its non-zero coefficients within 2*length consecutive degrees (rhogap/length < 1), with their images in the same order; if there is none, the list is empty and the batch is an empty one.", "quantifier": "all JonesSummands (n, r, p), tables and lengths", "why_tests_cant": "All representations and lengths; the number of braids is exponential in the length, and the batches are of 1000.", "anchors": ["peyl/braidsearch.py:all_of_length_below_1", "peyl/braidsearch.py:batched"]}
{"id": "C110", "title": "sampled batches consist of braids of the asked length with their images", "statement": "sample_braids_images(rep, length, count) returns count braids with Delta-power 0 and the given number of factors, together with their images in the same order; any list of such braids can be drawn. sample_braids_images_upto_length does so for each length of the range in turn, count for each. count = 0 raises IndexError.", "quantifier": "all JonesSummands with n >= 3, lengths, counts >= 1 and random draws", "why_tests_cant": "All random draws.", "anchors": ["peyl/braidsearch.py:sample_braids_images", "peyl/braidsearch.py:sample_braids_images_upto_length"]}
{"id": "C111", "title": "repr and str of a matrix determine it", "statement": "Two matrices with int and LPoly entries have the same repr exactly when they are equal (same shape, same entries, an int and a constant LPoly being told apart). They have the same str exactly when they are equal or both have no rows: str shows everything except the number of columns of a matrix without rows.", "quantifier": "all pairs of matrices of ints and LPolys, of any shapes including empty ones", "why_tests_cant": "All shapes and entries, including the separate layouts for one row, one column and empty matrices.", "anchors": ["peyl/matrix.py:Matrix.__repr__", "peyl/matrix.py:Matrix.__str__", "peyl/lpoly.py:LPoly.__repr__"]}
{"id": "C112", "title": "vectors, scalar matrices and the matrix predicates mean what they say", "statement": "row_vector and col_vector hold the given entries and are each other's transpose; col_coord_vector(n, i) is 1 at i and 0 elsewhere (all zero if i is out of range), and M times the j-th one is column j of M; scalar(nrows, x) * M = M * scalar(ncols, x) = M * x; indices() lists every position once, in the order of entries(); is_square() is exactly the condition for trace and power not to raise ValueError; is_integral() holds exactly when all entries are ints and is kept by products and differences.", "quantifier": "all matrices over any commutative ring, and all vectors", "why_tests_cant": "All sizes and entries.", "anchors": ["peyl/matrix.py:Matrix.row_vector", "peyl/matrix.py:Matrix.col_vector", "peyl/matrix.py:Matrix.col_coord_vector", "peyl/matrix.py:Matrix.scalar", "peyl/matrix.py:Matrix.indices", "peyl/matrix.py:Matrix.entries", "peyl/matrix.py:Matrix.is_square", "peyl/matrix.py:Matrix.is_integral"]}
{"id": "C113", "title": "Artin words index generators as Python lists do, everywhere alike", "statement": "In GNF.from_artin_word, DGNF.from_artin_word and evaluate_artin_word a letter (i, e) with 0 <= i < n-1 names the i-th generator, one with -(n-1) <= i < 0 the generator n-1+i counted from the end, and any other index raises IndexError. So the image of from_artin_word(w) is the value of w whenever the former does not raise.", "quantifier": "all n >= 2, words with any integer indices and exponents, and (n, r, p)", "why_tests_cant": "All words, with indices of both signs and out of range at any position.", "anchors": ["peyl/braid.py:GNF.from_artin_word", "peyl/braid.py:DGNF.from_artin_word", "peyl/jonesrep.py:JonesCellRep.evaluate_artin_word"]}
{"id": "C114", "title": "the representation of B_3 is faithful, and its images grow by 2 per factor", "statement": "In the 2-dimensional representation of B_3 (n = 3, r = 1), modulo any p other than 1, two words have images equal modulo p exactly when they are the same braid. The image of a normal form with l factors has its non-zero coefficients in degrees spanning exactly 2l (both ends attained), so its projlen is 2l + 1; the image is concentrated in a single degree exactly for the powers of Delta, which sit in degree 3 * power; and all_of_length_below_1 finds nothing at any length.", "quantifier": "all p (0 or >= 2, prime or not), words, normal forms and lengths", "why_tests_cant": "There are infinitely many braids and words; a test sees finitely many, and the searches for kernel elements rely on what can and cannot be found.", "anchors": ["peyl/jonesrep.py:JonesCellRep.evaluate", "peyl/jonesrep.py:JonesCellRep.evaluate_artin_word", "peyl/jonesrep.py:JonesCellRep.polymat_evaluate_braids_of_same_length", "peyl/polymat.py:projlen", "peyl/braidsearch.py:all_of_length_below_1"]}
{"id": "C115", "title": "JonesCellRep(n, 1) is the reduced Burau representation", "statement": "For every n >= 2 and every modulus p, JonesCellRep(n, 1, p) has dimension n - 1 and its generators are, coefficient by coefficient modulo p, the reduced Burau matrices: row s is -v, -v^2, -v around the diagonal and the other rows are those of the identity; the inverses are the same with v^-1. Over the integers they are the very objects to_matrix(burau_generator_v2(n, s)). burau_generator_v2 raises AssertionError exactly outside 1 <= n, 0 <= s < n - 1. Multiplying a word by sigma_s^+-1 changes column s and its neighbours in the stated way.", "quantifier": "all n, p, s, words", "why_tests_cant": "The generators are computed from Temperley-Lieb diagrams, of which there are exponentially many; tests compare a few small n.", "anchors": ["peyl/jonesrep.py:JonesCellRep.artin_gens_invs", "peyl/polymat.py:burau_generator_v2", "peyl/polymat.py:to_matrix", "peyl/jonesrep.py:JonesCellRep.evaluate_artin_word"]}
{"id": "C116", "title": "the published kernel elements are kernel elements", "statement": "The elements a, b, c (n = 4, p = 5) and d (n = 6) of the notebook and the p = 2 and p = 5 elements of the README are in Garside normal form with the stated factors, from_gnf_pair and canonical_decomposition are inverse to each other on them, and with the right power of Delta they are sent to the identity matrix modulo p (d over the integers and modulo every p; the p = 2 element with all its powers). Hence in these representations every braid shares its image with another braid.", "quantifier": "all pairs in normal form (round trip); all p (d); all powers (p = 2); all braids (unfaithfulness)", "why_tests_cant": "The claims of the README and notebook are statements about one run; whether they hold for every p, for all powers, and whether the elements are non-trivial braids is not visible in a run.", "anchors": ["p=5 kernel elements.ipynb:a_seq", "p=5 kernel elements.ipynb:d_seq", "README.md:near-kernel element", "peyl/braid.py:BraidGroup.from_gnf_pair", "peyl/braid.py:GNF.canonical_decomposition", "peyl/jonesrep.py:JonesCellRep.evaluate"]}
{"id": "C117", "title": "no braid except the identity has finite order", "statement": "A power b ** k of a braid object is the identity object only if k = 0 or b is the identity; the powers of any other braid are pairwise different objects; two commuting braids with the same k-th power (k != 0) are equal. For GNF and DGNF objects and for words. Consequently, if a representation sends two different braids to the same matrix, then every matrix in its image comes from infinitely many braids; this holds for the published kernels.", "quantifier": "all n, braids, exponents; all representations JonesCellRep(n, r, p)", "why_tests_cant": "A test can only look at finitely many powers; that none of them is the identity needs an argument about all of them.", "anchors": ["peyl/braid.py:GNF.__pow__", "peyl/braid.py:DGNF.__pow__", "peyl/braid.py:GNF.__eq__", "peyl/jonesrep.py:JonesCellRep.evaluate"]}
{"id": "C118", "title": "braids_images_to_dataframe has one true row per pair", "statement": "For an array or a list of as many images as braids, row k of the dataframe holds braid k and image k; its length is the number of canonical factors of the braid, nz_terms the number of non-zero coefficients, valmin and degmax the least and greatest degree with a non-zero coefficient, rhogap half their difference and the last column rhogap divided by length. With the images of JonesSummand.evaluate_braids the last column is below 1 exactly when the evaluated matrix modulo p has its non-zero coefficients in fewer than 2 length + 1 consecutive degrees. Images of the wrong number, shape or type are refused.", "quantifier": "all lists of braids, all batches and lists of images, all n, r, p of the evaluated case", "why_tests_cant": "The columns are computed separately and only lined up by position; every batch size and every degree range has to agree.", "anchors": ["peyl/braidsearch.py:braids_images_to_dataframe", "peyl/braid.py:GNF.garside_length", "peyl/polymat.py:rhogap", "peyl/polymat.py:degmax", "peyl/polymat.py:valmin", "peyl/polymat.py:nz_terms"]}
{"id": "C119", "title": "The picture of a diagram draws every arc once, between its own ends, inside the frame", "statement": "For every matching of bot + top points, draw_svg(seq, bot) succeeds with one Bezier curve per arc, in order of the smaller ends; each curve starts and ends at the places of the two ends of its arc; the points of the two rows have pairwise different places, 15 apart and centred; every point of every curve is inside the picture, at least 10 from its left and right borders.", "quantifier": "all numbers of points, all matchings", "why_tests_cant": "The loop marks both ends as drawn; that no arc is drawn twice or forgotten, and that curves stay inside, concerns every diagram and every real parameter.", "anchors": ["peyl/tl.py:draw_svg", "peyl/tl.py:TLDiag._repr_html_"]}
{"id": "C120", "title": "The picture of a crossingless diagram has no crossings", "statement": "For every crossingless matching the curves draw_svg draws for two different arcs have no common point.", "quantifier": "all crossingless matchings, all pairs of arcs", "why_tests_cant": "Concerns every diagram and all real points of the curves.", "anchors": ["peyl/tl.py:draw_svg", "peyl/tl.py:TLDiag._repr_html_", "peyl/tl.py:TLMor._repr_html_"]}
{"id": "C121", "title": "What the small representations can and cannot tell apart", "statement": "For every prime or zero modulus: JonesCellRep(4, 2, p) evaluates a word to the very matrix to which JonesCellRep(3, 1, p) evaluates the word with sigma_2 replaced by sigma_0 (a homomorphism B_4 -> B_3), so for p != 1 two words have congruent images exactly when those words are equal in B_3, and every image is the image of infinitely many braids; JonesCellRep(n, 0, p) has dimension 1 and sends every word to the unit matrix; JonesCellRep(2, 1, p) has dimension 1 and sends a word of exponent sum s to (-1)^s v^(2s), so for p != 1 it is faithful.", "quantifier": "all p, all n (for r = 0), all words", "why_tests_cant": "A description of the kernel concerns all pairs of words, infinitely many for each image.", "anchors": ["peyl/jonesrep.py:JonesCellRep.artin_gens_invs", "peyl/jonesrep.py:RepBase.evaluate_artin_word"]}
{"id": "C122", "title": "Adding strands changes neither equality of braids nor what the Burau matrices see", "statement": "For 2 <= m <= n and words u, w in the generators of B_m: GNF.from_artin_word(m, u) == GNF.from_artin_word(m, w) exactly when GNF.from_artin_word(n, u) == GNF.from_artin_word(n, w) (B_m is a subgroup of B_n); and the images of u and w under JonesCellRep(m, 1, p) are congruent exactly when their images under JonesCellRep(n, 1, p) are. Consequently JonesCellRep(n, 1, p) is not faithful for all n >= 6 and every p, nor for n >= 4 and p = 2 or 5.", "quantifier": "all m <= n, all p, all pairs of words", "why_tests_cant": "Ranges over all numbers of strands, including those for which the code has no normal form table, and all words.", "anchors": ["peyl/braid.py:GNF.from_artin_word", "peyl/jonesrep.py:JonesCellRep.artin_gens_invs", "peyl/jonesrep.py:RepBase.evaluate_artin_word"]}
{"id": "C123", "title": "A braid of projective length 1 is a power of the Garside element times a kernel element", "statement": "README.md:46: with --stop-at-projlen-1 the search stops at a braid whose image has projlen 1, 'which is necessarily in the kernel times a power of the Garside element'. For every representation JonesCellRep(n, r, p) and every braid b: the image of b is, modulo p, v^e times a matrix of constants exactly when b = Delta^k * g with g in the kernel; so the elements that search.py prints are exactly the stored braids of this form.", "quantifier": "all numbers of strands n, all p, all braids, all searches", "why_tests_cant": "The kernels are infinite, and the statement needs a converse over all braids: that no other braid has a homogeneous image.", "anchors": ["peyl/braidsearch.py:BraidSearch", "peyl/braid.py:GNF.canonical_decomposition", "peyl/jonesrep.py:JonesCellRep", "peyl/polymat.py:projlens"]}
{"id": "C124", "title": "The LaTeX displays determine what they display", "statement": "In a notebook, two permutations of n points, two normal forms (GNF or DGNF) of B_n, two noncrossing partitions or two matrices with at least one row and column are displayed alike (_repr_latex_) only if they are equal (for matrices: same shape and same entries, an int and the constant LPoly of that value looking alike); two braids are displayed alike exactly if they are the same braid. The display never fails.", "quantifier": "all n, all permutations, all braids, all noncrossing partitions (of any sizes), all matrices of ints and LPolys", "why_tests_cant": "Injectivity of a printer over infinitely many values; nested separators (', ' inside and between sets) could collide for values no test prints.", "anchors": ["peyl/permutations.py:Permutation._repr_latex_", "peyl/braid.py:GNF._repr_latex_", "peyl/braid.py:DGNF._repr_latex_", "peyl/noncrossing.py:NPar._repr_latex_", "peyl/matrix.py:Matrix._repr_latex_", "peyl/lpoly.py:LPoly._repr_latex_"]}
{"id": "C125", "title": "repr of a noncrossing partition determines it", "statement": "repr(NPar) lists n and the blocks with more than one point, each in the order in which Python iterates over a set. Two noncrossing partitions, of any sizes, with the same repr are equal, whatever these iteration orders are.", "quantifier": "all n, all noncrossing partitions, all iteration orders of sets", "why_tests_cant": "All partitions of all sizes and all set orders: the order in which a set of ints is printed depends on the interpreter.", "anchors": ["peyl/noncrossing.py:NPar.__repr__", "peyl/noncrossing.py:NPar.components"]}
{"id": "C126", "title": "FramedMatrix shows every entry in its cell and leaves zeros blank", "statement": "FramedMatrix(rows, cols, entries) displays a table in which, for given labels, two matrices of ints and LPolys give the same HTML exactly if they are equal; zero entries are left blank, and no other entry is; the display fails (AttributeError) exactly if a column label has no _repr_html_.", "quantifier": "all labels, all matrices of ints and LPolys of the matching shape", "why_tests_cant": "All matrices; blank cells could hide differences.", "anchors": ["peyl/show.py:FramedMatrix", "peyl/show.py:html_repr"]}
{"id": "C127", "title": "Projective length 1 always leads to the kernel, after a power", "statement": "In every representation JonesCellRep(n, r) with r >= 1, over the integers or modulo any p: if the matrix of a braid b is v^e times a non-zero matrix of constants (projective length 1), then some positive power of b, at most the (n! 2r(n-r+1))-th, times an even power of the Garside element, is in the kernel. In particular every element that the search prints with --stop-at-projlen-1 has this property, and a braid with projective length 1 that is not periodic proves that the representation is not faithful.", "quantifier": "all n >= 2, all 1 <= r <= n/2, all p, all braids, all runs of the search (all random draws, all orders)", "why_tests_cant": "Statement about all braids and all representations: the power and the twist are not known in advance, and the README's stronger claim (no power needed) is false for r = 2 (C123).", "anchors": ["peyl/braidsearch.py:BraidSearch", "peyl/jonesrep.py:JonesCellRep", "peyl/jonesrep.py:RepBase.evaluate", "peyl/polymat.py:projlens", "search.py:main", "README.md"]}
{"id": "C128", "title": "What a representation of B_n says about the braids of B_m", "statement": "For all m <= n: two words of B_m have congruent images in JonesCellRep(n, r) exactly when they have congruent images in JonesCellRep(m, s) for every s with r - (n - m) <= s <= r (and 2s <= m). The image in such a JonesCellRep(m, s) is a submatrix of the image in JonesCellRep(n, r), at rows and columns that do not depend on the word; for m = n - 1 the matrix is, after a reordering of the basis, block triangular with exactly the blocks (n - 1, r) and (n - 1, r - 1). In particular every JonesCellRep(n, r) with r >= 1 is faithful on three-strand braids modulo every p other than 1.", "quantifier": "all m <= n, all r, all p, all words of B_m", "why_tests_cant": "Relates the representations of different groups on all words; a test compares one pair of words in one pair of representations.", "anchors": ["peyl/jonesrep.py:JonesCellRep", "peyl/jonesrep.py:RepBase.evaluate_artin_word", "peyl/tl.py:cell_basis", "peyl/tl.py:TLDiag.__mul__"]}
{"id": "C129", "title": "Symmetries: the Garside element reflects, mirror images invert v", "statement": "In JonesCellRep(n, r) the matrix of every word for Delta is (-1)^(r(n-1)) v^(r(n-r+1)) times the permutation matrix that reflects the basis diagrams in a vertical line (mod p). Multiplying a word by Delta on the left or right therefore permutes rows or columns up to that monomial; replacing every sigma_i by sigma_(n-2-i) permutes rows and columns; inverting every letter in place replaces v by 1/v. So two words have congruent matrices iff their flips do iff their mirror images do, and the projective length of a braid does not change under these symmetries nor under Delta^k: it depends on the canonical factors only, which is why searching braids with inf = 0 loses nothing.", "quantifier": "all n, r, p, all words and all GNF values, all powers of Delta", "why_tests_cant": "An identity of matrices for every word and every representation, and the reason why the search space can be cut down; a test checks one word in one representation.", "anchors": ["peyl/jonesrep.py:JonesCellRep", "peyl/jonesrep.py:RepBase.evaluate_artin_word", "peyl/tl.py:cell_basis", "peyl/braid.py:GNF", "peyl/braidsearch.py:Tracker"]}
{"id": "C130", "title": "With large enough limits search.py is exhaustive", "statement": "If the bucket size is larger than the number of positive normal forms (GNF with inf = 0) of each length 1..K, and use_best is at least that number, then whatever the random generator does, at the start of the iteration of search.py with process_length k <= K every positive normal form of length k is in a bucket. So that iteration prints the canonical factors of every braid of canonical length k, whatever its infimum, whose matrix is modulo p a power of v times a matrix of constants; an iteration that prints nothing proves that there is none; and if save_best is that large too, all the normal forms of length k are saved.", "quantifier": "all n, r, p, bootstrap lengths, step sizes, bucket sizes, limits, random generators, orders of the stats table and iterations", "why_tests_cant": "Completeness of a search over all braids of a length, for every random generator and every number of iterations; a test runs one small search.", "anchors": ["search.py:main", "peyl/braidsearch.py:Tracker.add_braids_images", "peyl/braidsearch.py:Tracker.nf_descendants", "peyl/braidsearch.py:Tracker.bootstrap_exhaustive", "peyl/braid.py:GNF.count_all_of_garside_length"]}
{"id": "C131", "title": "A run of search.py is determined by its arguments and its random draws", "statement": "Two runs of search.py with the same arguments and the same random draws, in which the set of buckets is listed in different orders in any iterations: if one finishes so does the other, they save the same rows in the same order, end with the same buckets, and each iteration reports the same near-kernel elements up to order. The database goes through the same states, so a crash at the same point leaves the same rows.", "quantifier": "all arguments, random generators, numbers of iterations and orders of the stats table in every iteration", "why_tests_cant": "Python and pandas may list the buckets in any order, which changes between versions and runs; a test sees one order.", "anchors": ["search.py:main", "peyl/braidsearch.py:Tracker.stats", "peyl/braidsearch.py:Tracker.discard_bucket"]}
{"id": "C132", "title": "Comparing and sorting braids", "statement": "For two braids in Garside normal form on the same strands exactly one of a < b, b < a and 'the same braid' holds; <=, >, >= agree with <; < is transitive; comparing a GNF with a DGNF raises TypeError. Fewer strands, then a smaller power of Delta come first, then the first factors that differ decide, and a braid comes before its extensions by further factors. sorted() of braids returns them in ascending order, and two lists give the same sorted list exactly if they contain the same braids with the same multiplicities, whatever words they came from.", "quantifier": "all n >= 2, all braids given by any words, all lists of braids", "why_tests_cant": "Total order and canonical sorted lists range over all pairs, triples and lists of braids; tests compare a few.", "anchors": ["peyl/braid.py:GNF", "peyl/braid.py:DGNF"]}
{"id": "C133", "title": "Degrees are bounded by inf and sup, and so is the memory of the search", "statement": "In every JonesCellRep(n, r), over the integers or modulo p, every power of v that occurs in the matrix of a braid b lies between r(n-r+1) inf(b) and r(n-r+1) sup(b). So the projective length of a braid is at most r(n-r+1) times its canonical length, plus 1. In every state of search.py there are therefore at most r(n-r+1)k + 1 buckets of length k, which together hold at most that number times the bucket size of braids.", "quantifier": "all n, r, p, all braids; all limits, filters, random generators, orders of the stats table and numbers of iterations", "why_tests_cant": "A bound over all braids of the group, and on the memory of every run.", "anchors": ["peyl/jonesrep.py:RepBase.evaluate", "peyl/braid.py:NFBase.inf", "peyl/braid.py:NFBase.sup", "peyl/polymat.py:projlen", "peyl/braidsearch.py:Tracker.add_braids_images", "search.py:main"]}
{"id": "C134", "title": "Projective lengths are subadditive, and one search step changes them by a bounded amount", "statement": "For braids a, b in Garside normal form: inv(b) has inf(inv(b)) = -sup(b), sup(inv(b)) = -inf(b) and the same canonical length. In JonesCellRep(n, r) over the integers or modulo p <> 1, the image of every braid has exactly one projective length, which is at least 1; projlen(ab) <= projlen(a) + projlen(b) - 1; and |projlen(ab) - projlen(a)| <= r(n-r+1) * canonical_length(b). So a braid of projective length u is at least (u-1)/(r(n-r+1)) canonical factors away from every braid of projective length 1.", "quantifier": "all n >= 2, r, p, all braids a, b", "why_tests_cant": "An inequality over all pairs of braids of the group.", "anchors": ["peyl/jonesrep.py:RepBase.evaluate", "peyl/braid.py:NFBase.inv", "peyl/braid.py:NFBase.__mul__", "peyl/braid.py:NFBase.inf", "peyl/braid.py:NFBase.sup", "peyl/polymat.py:projlen", "search.py:main"]}
{"id": "C135", "title": "nf_descendants lists exactly the children in the tree of normal forms", "statement": "For every GNF or DGNF braid b (any power, n >= 2), b.nf_descendants() never raises, repeats nothing, and lists exactly the braids with the power of b whose canonical factors are those of b followed by one more; each is b * x for a braid x with power 0 and one canonical factor, and every product b * x of that shape is listed. Every braid with at least one canonical factor is a descendant of exactly one braid, and the descendants of all_of_length(k, power) are together all_of_length(k+1, power), each once. canonical_factor(i) reads the list of canonical factors with Python's index rules.", "quantifier": "all n >= 2, all braids of both classes, all powers, lengths and indices", "why_tests_cant": "The tree is infinite.", "anchors": ["peyl/braid.py:NFBase.nf_descendants", "peyl/braid.py:NFBase.all_of_length", "peyl/braid.py:NFBase.canonical_factor", "peyl/braid.py:NFTable.normal_forms"]}
{"id": "C136", "title": "inf, sup and canonical length obey the triangle inequalities", "statement": "For every product c = a * b of GNF or DGNF braids (n >= 2): inf a + inf b <= inf c <= min(inf a + sup b, sup a + inf b), max(inf a + sup b, sup a + inf b) <= sup c <= sup a + sup b, and none of the three canonical lengths exceeds the sum of the other two. The inverse has inf = -sup and sup = -inf of the original and the same canonical length. For every integer k, the canonical length of a**k is at most |k| times that of a; for k >= 0, k inf a <= inf(a**k) and sup(a**k) <= k sup a, and for k <= 0 the same with inf and sup exchanged.", "quantifier": "all n >= 2, all pairs of braids of both classes, all integer exponents", "why_tests_cant": "The bounds range over infinitely many pairs of braids; examples only show when they are attained.", "anchors": ["peyl/braid.py:NFBase.__mul__", "peyl/braid.py:NFBase.__pow__", "peyl/braid.py:NFBase.inv", "peyl/braid.py:NFBase.inf", "peyl/braid.py:NFBase.sup", "peyl/braid.py:NFBase.canonical_length"]}
{"id": "C137", "title": "max(sup, 0) - min(inf, 0) is the geodesic length over simple braids", "statement": "Call a braid x simple if 0 <= inf(x) and sup(x) <= 1 (by C54 and C99: x and x^-1 Delta are positive). Every GNF or DGNF braid b (n >= 2) is a product of exactly max(sup b, 0) - min(inf b, 0) braids each of which is simple or the inverse of a simple braid, and it is not a product of fewer.", "quantifier": "all n >= 2, all braids of both classes, all factorisations into simple braids and inverses", "why_tests_cant": "Minimality quantifies over all factorisations of all braids.", "anchors": ["peyl/braid.py:NFBase.inf", "peyl/braid.py:NFBase.sup", "peyl/braid.py:NFBase.__mul__", "peyl/braid.py:NFBase.inv", "peyl/braid.py:NFBase.canonical_length"]}
