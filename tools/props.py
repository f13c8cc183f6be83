#!/usr/bin/env python3
"""Writes /verif/properties.jsonl from the table below (one property per entry)."""
import json, os

P = []
def p(id, title, statement, quantifier, why, *anchors):
    P.append(dict(id=id, title=title, statement=statement, quantifier=quantifier,
                  why_tests_cant=why, anchors=list(anchors)))

PERM = "peyl/permutations.py"; BR = "peyl/braid.py"; LP = "peyl/lpoly.py"; PO = "peyl/poly.py"
MX = "peyl/matrix.py"; TL = "peyl/tl.py"; NC = "peyl/noncrossing.py"; JR = "peyl/jonesrep.py"
PM = "peyl/polymat.py"; BK = "peyl/bucketing.py"; BS = "peyl/braidsearch.py"; SE = "search.py"

# ---------------------------------------------------------------- permutations
p("C01", "is_permutation is exact",
  "is_permutation(word) returns True exactly when word is a rearrangement of 0, 1, ..., len(word)-1.",
  "every finite sequence of Python integers, including negative, repeated and huge entries",
  "The bitmask argument has to hold for every length and every integer; tests list five words.",
  f"{PERM}:is_permutation")
p("C02", "Permutations form a group under compose/inverse",
  "For permutations of one size, compose is associative and closed, identity(n) is neutral on both sides, inverse is a two-sided inverse, and compose(x,y) maps i to x[y[i]]; different sizes raise ValueError.",
  "every n and all permutations x, y, z of size n",
  "n! cases per size and every size.",
  f"{PERM}:compose", f"{PERM}:inverse", f"{PERM}:identity", f"{PERM}:Permutation.__mul__", f"{PERM}:Permutation.inv")
p("C03", "length is the Coxeter length",
  "length(x) is the least number of adjacent transpositions whose product is x; it is 0 only for the identity, is unchanged by inversion, and its maximum n(n-1)/2 is reached exactly at longest_element(n).",
  "every n and every permutation of size n; all words in the generators",
  "Minimality quantifies over all words of all lengths.",
  f"{PERM}:length", f"{PERM}:longest_element", f"{PERM}:is_longest_element", f"{PERM}:is_identity")
p("C04", "Descent sets are exactly the length-lowering generators",
  "i is in right_descent_set(x) iff multiplying x on the right by (i,i+1) lowers length by one (otherwise it raises it by one); left_descent_set likewise on the left; is_right_descent/is_left_descent agree with the sets.",
  "every n, every permutation x of size n, every i in [0, n-1)",
  "Holds for every size; examples cover S3.",
  f"{PERM}:right_descent_set", f"{PERM}:left_descent_set", f"{PERM}:is_right_descent", f"{PERM}:is_left_descent")
p("C05", "parity is the sign",
  "parity(x) = length(x) mod 2, and parity is a homomorphism: parity(xy) = parity(x)+parity(y) mod 2.",
  "every n and all permutations x, y of size n",
  "The cycle count and the inversion count are computed by unrelated algorithms that must agree for all inputs.",
  f"{PERM}:parity", f"{PERM}:cycle_type", f"{PERM}:length")
p("C06", "disjoint_cycles is the cycle decomposition",
  "disjoint_cycles(x) terminates; each point occurs in exactly one cycle; each cycle lists the orbit in traversal order starting at its least element; cycles are ordered by least element; cycle_type lists their lengths in decreasing order and sums to n.",
  "every n and every permutation of size n",
  "Termination of `while True` and the partition property are for all inputs.",
  f"{PERM}:disjoint_cycles", f"{PERM}:cycle_type")
p("C07", "shortlex is the lexicographically least reduced word",
  "shortlex(x) terminates without tripping its assertion, from_cox(n, shortlex(x)) = x, its length is length(x), and it is lexicographically least among all words of that length that from_cox sends to x.",
  "every n, every permutation x, and every competing word in the generators",
  "Leastness quantifies over all reduced words.",
  f"{PERM}:shortlex", f"{PERM}:from_cox")
p("C08", "is_parallel_descending_cycles recognises noncrossing partitions",
  "It returns True exactly when every cycle of the permutation visits its elements in cyclically descending order and no two distinct cycles cross.",
  "every n and every permutation of size n",
  "The test only counts results for n < 6; the predicate itself is never compared with a definition.",
  f"{PERM}:is_parallel_descending_cycles", f"{PERM}:is_descending_cycles")
p("C09", "SymmetricGroup.from_cycle builds the cycle",
  "from_cycle(c) returns the permutation sending c[i] to c[i+1] cyclically and fixing everything else, for every list of distinct points c in range.",
  "every n and every duplicate-free list of points below n",
  "No test calls it; wrong for every cycle whose length differs from n.",
  f"{PERM}:SymmetricGroup.from_cycle", f"{PERM}:SymmetricGroup.from_cycles")
p("C10", "The Permutation constructor only admits permutations",
  "Permutation(word) raises an error whenever word is not a permutation, so every Permutation object satisfies is_permutation.",
  "every word passed to the constructor",
  "Must hold for every value ever wrapped.",
  f"{PERM}:Permutation.__post__init__", f"{PERM}:SymmetricGroup.__post__init__")
p("C11", "SymmetricGroup.elements enumerates S_n once each, in lexicographic order",
  "elements() yields every permutation of size n exactly once, n! in total, in increasing lexicographic order, so table indices are a bijection with S_n.",
  "every n", "Completeness for all n.",
  f"{PERM}:SymmetricGroup.elements", f"{BR}:PermTable.create")

# ---------------------------------------------------------------- polynomials
p("C12", "LPoly values are canonical",
  "Two LPoly objects compare equal iff they have the same coefficient at every power of v; the stored form never has a zero first or last coefficient, and zero is (0, ()).",
  "all valuations and all coefficient sequences, and every value produced by the arithmetic",
  "Equality of matrices, kernels and dictionary keys rests on it for every value.",
  f"{LP}:LPoly.__init__", f"{LP}:LPoly.is_zero", f"{LP}:LPoly.valuation", f"{LP}:LPoly.degree")
p("C13", "LPoly is a commutative ring",
  "+, -, unary -, * on LPoly (and int operands, on either side) satisfy the commutative ring laws and compute sums and convolutions of coefficients.",
  "all Laurent polynomials and integers", "Infinitely many operands.",
  f"{LP}:LPoly.__add__", f"{LP}:LPoly.__mul__", f"{LP}:LPoly.__neg__", f"{LP}:LPoly.__sub__", f"{LP}:LPoly.__rsub__")
p("C14", "LPoly powers",
  "x**n is the n-fold product for n >= 0; for n < 0 it is the inverse power when x is +-v^k and raises ValueError otherwise; x**(m+n) = x**m * x**n wherever defined.",
  "all Laurent polynomials x and all integers m, n", "Recursion by halving must be right for every exponent.",
  f"{LP}:LPoly.__pow__", f"{LP}:LPoly.is_unit")
p("C15", "LPoly division is exact or refused",
  "a / b returns q with q*b = a whenever it returns; it raises ValueError/AssertionError otherwise, and it does return for every product a = q*b with b nonzero.",
  "all pairs of Laurent polynomials", "Needs the division loop to be right for all inputs.",
  f"{LP}:LPoly.__truediv__", f"{PO}:Poly.__truediv__")
p("C16", "Poly.__divmod__ is Euclidean division over Z",
  "divmod(n, d) terminates; when it returns (q, r) then n = d*q + r with deg r < deg d, and such a pair is unique; d = 0 is refused; the only other refusal is a leading coefficient that is not divisible.",
  "all integer polynomials n, d", "Termination and uniqueness for all inputs.",
  f"{PO}:Poly.__divmod__")
p("C17", "cyclotomic never fails and factors x^n - 1",
  "For every n >= 1, Poly.cyclotomic(n) returns (its divisions are exact, its assertion never fires), and the product of cyclotomic(d) over the divisors d of n is x^n - 1; n <= 0 raises ValueError.",
  "every integer n", "Exactness of all divisions for all n is number theory, not sampling.",
  f"{PO}:Poly.cyclotomic")
p("C18", "quantum_integer",
  "quantum_integer(n) * (v - v^-1) = v^n - v^-n and quantum_integer(-n) = -quantum_integer(n).",
  "every integer n", "The test loops over ten values.",
  f"{LP}:LPoly.quantum_integer")
p("C19", "Reduction mod p is a ring homomorphism",
  "Mapping c -> c % p over coefficients commutes with + and * up to a final reduction, is idempotent, and yields coefficients in [0,p).",
  "all Laurent polynomials and every p >= 1", "All operands and all moduli.",
  f"{LP}:LPoly.map", f"{JR}:RepBase.evaluate_artin_word")
p("C20", "Poly.__repr__ shows the polynomial",
  "Two different polynomials have different repr strings.",
  "all pairs of integer polynomials", "Injectivity over all values.",
  f"{PO}:Poly.__repr__")
p("C21", "Chebyshev polynomials",
  "Poly.chebyshevT(n) evaluated at cos(t) is cos(n t); equivalently T_n satisfies the recurrence and T_m(T_n(x)) = T_{mn}(x). n < 0 raises ValueError.",
  "every n >= 0 and every real t", "All degrees.",
  f"{PO}:Poly.chebyshevT")
p("C22", "Poly arithmetic is a commutative ring with evaluation homomorphism",
  "Poly +,-,* satisfy the commutative ring laws, ** is the iterated product, and evaluate(x) respects + and *.",
  "all integer polynomials and evaluation points", "All operands.",
  f"{PO}:Poly.__add__", f"{PO}:Poly.__mul__", f"{PO}:Poly.__pow__", f"{PO}:Poly.evaluate")

# ---------------------------------------------------------------- matrix
p("C23", "Matrix multiplication",
  "Matrix product is the usual one: associative, identity neutral, entry (i,j) = sum_k a[i,k] b[k,j]; incompatible shapes raise ValueError.",
  "all shapes and all entries in a commutative ring", "All shapes and sizes.",
  f"{MX}:Matrix.__mul__", f"{MX}:Matrix.identity", f"{MX}:Matrix.__getitem__")
p("C24", "Matrix powers",
  "M**k is the k-fold product for square M and k >= 0; non-square raises ValueError, k < 0 raises NotImplementedError.",
  "all square matrices and all integers k", "Square-and-multiply for every exponent.",
  f"{MX}:Matrix.__pow__")
p("C25", "Matrix.row returns each row",
  "row(i) returns the i-th row for every 0 <= i < nrows and raises IndexError otherwise; column(j) likewise; transpose swaps indices.",
  "all matrices and indices", "All shapes, in particular tall ones.",
  f"{MX}:Matrix.row", f"{MX}:Matrix.column", f"{MX}:Matrix.transpose")
p("C26", "Matrix.is_symmetric decides symmetry",
  "is_symmetric() returns True iff M[i,j] = M[j,i] for all i, j.",
  "all square matrices", "All entries must be compared.",
  f"{MX}:Matrix.is_symmetric")

# ---------------------------------------------------------------- Temperley-Lieb
p("C27", "is_crossingless_matching is exact",
  "It returns True iff seq is a fixed-point-free involution of [0,N) with no i < j < seq[i] < seq[j]; it never raises (its stack.pop never underflows).",
  "every integer sequence", "All lengths and entries, including malformed ones.",
  f"{TL}:is_crossingless_matching")
p("C28", "generate_sequences enumerates all crossingless matchings once",
  "generate_sequences(n) yields every crossingless matching of n points exactly once, catalan(n/2) in total; odd or negative n raises ValueError.",
  "every even n >= 0", "Completeness and counting for all n.",
  f"{TL}:generate_sequences", f"{NC}:catalan", f"{NC}:NPar.all_of_size")
p("C29", "Composition of TL diagrams is total and crossingless",
  "compose(upper, lower, mid) terminates on every pair of crossingless matchings of compatible size, its internal assertion never fires, and the result joins two boundary points iff they are joined by a path through the stacked diagram.",
  "all n, m, k and all diagrams", "Path-following loops have data-dependent length.",
  f"{TL}:compose", f"{TL}:TLDiag.__mul__")
p("C30", "Diagram composition is associative with bubble count, with identities",
  "(x*y)*z and x*(y*z) give the same diagram and the same total number of bubbles; id is neutral with no bubbles.",
  "all composable triples of diagrams", "All sizes.",
  f"{TL}:compose", f"{TL}:TLDiag.id")
p("C31", "Temperley-Lieb relations",
  "e_i*e_i = (v+v^-1) e_i, e_i e_j e_i = e_i for |i-j|=1, e_i e_j = e_j e_i for |i-j|>=2 in TLMor, hence gens[i]*invs[i] = id (the assertion in tl_gens_invs never fires) and the gens satisfy the braid relations.",
  "every n and all i, j", "Tested for n < 6 only.",
  f"{TL}:TLMor.e", f"{JR}:tl_gens_invs", f"{BS}:tl_gens_invs")
p("C32", "cell_basis is the basis of the cell module",
  "cell_basis(n,r) lists every crossingless diagram of type (n, n-2r) with n-2r through strands exactly once, in increasing order, and its length is cell_dimension(n,r) = JonesCellRep.dimension().",
  "every n and r with 2r <= n", "Recursive construction must be complete for all n, r.",
  f"{TL}:cell_basis", f"{TL}:cell_dimension", f"{JR}:JonesCellRep.dimension")
p("C33", "Horizontal composition",
  "x @ y is crossingless of type (sum, sum), is associative, and satisfies the interchange law (x@y)*(z@w) = (x*z)@(y*w).",
  "all diagrams", "All sizes.",
  f"{TL}:insert", f"{TL}:TLDiag.__matmul__")
p("C34", "TLExtDiag multiplication stacks the left operand on top",
  "For TLExtDiag, x * y is x on top of y, the same diagram TLDiag multiplication gives.",
  "all composable diagrams", "The tested relations are symmetric under reversal, so they cannot see the order.",
  f"{TL}:TLExtDiag.__mul__")
p("C35", "flip",
  "flip is an involution that reverses products; TLMor.flip(twist_v=False) leaves coefficients unchanged, twist_v=True maps v to v^-1.",
  "all morphisms and both flag values", "All values.",
  f"{TL}:TLDiag.flip", f"{TL}:TLMor.flip")
p("C36", "TLMor is a category enriched in Laurent polynomials",
  "TLMor +, scalar multiples and * are bilinear and associative, id is neutral, zero coefficients are never stored, equality is equality of all coefficients.",
  "all morphisms", "All sizes.",
  f"{TL}:TLMor.__mul__", f"{TL}:TLMor.__add__", f"{TL}:TLMor.__pow__")

# ---------------------------------------------------------------- noncrossing partitions
p("C37", "Complements are inverse bijections",
  "left_complement and right_complement of a noncrossing partition are noncrossing partitions, are mutually inverse, and to_permutation satisfies perm(*p) perm(p) = perm(p) perm(p*) = perm(coarsest).",
  "every n and every noncrossing partition", "All n.",
  f"{NC}:NPar.left_complement", f"{NC}:NPar.right_complement", f"{NC}:NPar.to_permutation")
p("C38", "Partition round trips",
  "from_components(n, p.components()) = p; from_permutation(p.to_permutation()) = p; components() is a partition into blocks in increasing order; invalid inputs (overlap, out of range, crossing) raise ValueError.",
  "every n and every noncrossing partition / component list", "All n.",
  f"{NC}:NPar.from_components", f"{NC}:NPar.components", f"{NC}:NPar.from_permutation", f"{NC}:NPar.to_permutation")
p("C39", "BKL generators satisfy the Birman-Ko-Lee relations",
  "The Artin words of the BKL generators satisfy a_ts a_sr = a_tr a_ts = a_sr a_tr for r<s<t and commute when the chords do not cross, in the braid group; the word for NPar.coarsest is sigma_{n-2}...sigma_0.",
  "every n and all r<s<t, all noncrossing chords", "Group identities for all n.",
  f"{NC}:bkl_gen_to_artin_word", f"{NC}:npar_component_to_artin_word", f"{NC}:NPar.artin_word")

# ---------------------------------------------------------------- braids
p("C40", "The renormalisation table does not depend on set iteration order",
  "Filling renorm[x][y] terminates whatever element each set.pop() returns, and all orders give the same pair (w, z).",
  "every n, every pair of permutations, every sequence of pop choices", "Pop order is an adversarial schedule (hash order).",
  f"{BR}:PermTable.create")
p("C41", "Renormalised pairs are normal and represent the same braid",
  "renorm[x][y] = (w,z) satisfies beta(w)beta(z) = beta(x)beta(y) in the braid group and L(z) is a subset of R(w); is_normalised[x][y] iff L(y) is a subset of R(x).",
  "every n and every pair of permutations", "Equality in an infinite group.",
  f"{BR}:PermTable.create")
p("C42", "normalise_factors always returns a normal form of the same braid",
  "For every sequence of factors, normalise_factors returns (k, f) with f in normal form (the GNF constructor's assertion never fires) and Delta^k f equal in the braid group to the product of the sequence.",
  "every n and every finite sequence of factors", "Sequences of every length; the combing order is subtle.",
  f"{BR}:NFTable.normalise_factors", f"{BR}:NFTable.is_factors_normalised")
p("C43", "product_normalised_factors agrees with full normalisation",
  "For normal left and right sequences, product_normalised_factors (with its early exits) returns the same result as normalising the concatenation.",
  "every n and all normal sequences", "Early exits must be safe for every input.",
  f"{BR}:NFTable.product_normalised_factors")
p("C44", "GNF equality decides braid equality",
  "For n >= 2, from_artin_word(n,u) == from_artin_word(n,w) iff u and w are equal in the braid group B_n given by Artin's presentation.",
  "every n >= 2 and all words u, w with arbitrary integer exponents", "The word problem over all words.",
  f"{BR}:GNF.from_artin_word", f"{BR}:GNF")
p("C45", "GNF multiplication and inversion are the braid group operations",
  "artin_word(a*b) equals artin_word(a)artin_word(b) in B_n; * is associative with identity(n) neutral; a*a.inv() = a.inv()*a = identity; the results satisfy the constructor assertion.",
  "every n and all GNF values reachable through the API", "All braids.",
  f"{BR}:NFBase.__mul__", f"{BR}:NFBase.inv", f"{BR}:NFBase.identity")
p("C46", "GNF powers",
  "b**k is the k-fold product for every integer k (negative k: the product of inverses).",
  "all braids and all integers k", "All exponents.",
  f"{BR}:NFBase.__pow__")
p("C47", "Artin word round trip",
  "from_artin_word(n, b.artin_word()) = b, and from_artin_word(n,w).artin_word() is equal to w in B_n; magma_artin_word never trips its assertion and encodes the same word with 1-based signed generators.",
  "all braids and all words", "All braids.",
  f"{BR}:NFBase.artin_word", f"{BR}:GNF.from_artin_word", f"{BR}:NFBase.magma_artin_word")
p("C48", "from_gnf_pair inverts canonical_decomposition",
  "B.from_gnf_pair((b.inf(), [perm words of b])) = b; and from_gnf_pair of any pair represents Delta^inf times the product of the positive lifts. positive_lift(x) is the positive lift of x.",
  "all braids and all lists of permutations", "This is how published kernel elements are re-read.",
  f"{BR}:BraidGroup.from_gnf_pair", f"{BR}:BraidGroup.positive_lift", f"{BR}:NFBase.canonical_decomposition")
p("C49", "normal_forms enumerates normal forms; count_normal_forms counts them",
  "normal_forms(length) yields exactly the normal sequences of that length without id/Delta, each once (those that can follow the given factor when one is given), count_normal_forms returns how many, and sample returns one of them for any random choices.",
  "every n, length, starting factor, random draws", "Exponential enumeration, every length.",
  f"{BR}:NFTable.normal_forms", f"{BR}:NFTable.count_normal_forms", f"{BR}:NFTable.sample", f"{BR}:NFBase.all_of_length")
p("C50", "nf_suffixes gives cancellation-free suffixes",
  "For every braid b and every x in b.nf_suffixes(k), b*x has canonical length len(b)+k and starts with the canonical factors of b.",
  "every braid b and every k", "Searches only use power 0; other powers are never exercised.",
  f"{BR}:NFBase.nf_suffixes", f"{BR}:NFBase.nf_descendants")
p("C51", "all_of_garside_length honours its power argument",
  "BraidGroup.all_of_garside_length(length, power) yields the braids Delta^power times the normal forms of that length.",
  "every n, length, power", "All powers.",
  f"{BR}:BraidGroup.all_of_garside_length", f"{BR}:NFBase.all_of_length")
p("C52", "The GNF constructor only admits normal forms",
  "GNF(n, power, factors) raises unless factors are indices of permutations in normal form.",
  "every tuple of integers", "Every integer tuple.",
  f"{BR}:NFBase.__post_init__", f"{BR}:NFTable.is_factors_normalised")
p("C53", "gens() works in every braid group",
  "BraidGroup(n).gens() returns the n-1 Artin generators for every n >= 1 accepted by the constructor, and invs() their inverses.",
  "every n >= 1", "Boundary n = 2 is not tested.",
  f"{BR}:BraidGroup.gens", f"{BR}:NFBase.artin_gens")
p("C54", "inf and sup",
  "b.inf() is the largest k such that Delta^-k b is a positive braid; b.sup() is the least k such that b^-1 Delta^k is positive; canonical_length = sup - inf.",
  "all braids, all k and all positive words", "Maximality over all positive words.",
  f"{BR}:NFBase.inf", f"{BR}:NFBase.sup", f"{BR}:NFBase.canonical_length")
p("C55", "DGNF equality decides braid equality",
  "For 2 <= n <= 9 (the size guard; n < 2 raises IndexError, n >= 10 ValueError), DGNF.from_artin_word(n,u) == DGNF.from_artin_word(n,w) iff u and w are equal in B_n; DGNF *, inv, ** are the group operations and never trip an assertion.",
  "every n >= 2 and all words", "The word problem in the dual structure.",
  f"{BR}:DGNF", f"{BR}:NParTable.create")
p("C56", "Conversion between GNF and DGNF",
  "b.to_DGNF() represents the same braid as b, and to_GNF/to_DGNF are mutually inverse.",
  "all braids", "All braids.",
  f"{BR}:GNF.to_DGNF", f"{BR}:DGNF.to_GNF")
p("C57", "SQLite round trip",
  "convert_braid(adapt_braid(b)) = b for every GNF and DGNF.",
  "all braids (any n, any power, any number of factors)", "All values, including negative powers, empty and one-element tuples.",
  f"{BR}:adapt_braid", f"{BR}:convert_braid")

# ---------------------------------------------------------------- representations
p("C58", "Cell matrices satisfy the braid relations",
  "The matrices JonesCellRep(n,r,p).artin_gens_invs() satisfy the braid relations and gens[i]*invs[i] = identity (mod p).",
  "every n, r with 2r <= n, every p", "Tested on five (n,r).",
  f"{JR}:cell_matrix", f"{JR}:cell_matrices", f"{JR}:JonesCellRep.artin_gens_invs")
p("C59", "evaluate is a homomorphism on braids",
  "evaluate_artin_word(u) = evaluate_artin_word(w) whenever u and w are the same braid; evaluate(a*b) is the product of evaluate(a) and evaluate(b) (mod p); hence evaluate(b) does not depend on the word or normal form used.",
  "every n, r, p and all words / braids", "All braids; kernel claims of the paper rest on it.",
  f"{JR}:RepBase.evaluate_artin_word", f"{JR}:RepBase.evaluate")
p("C60", "polymat_evaluate_artin_word evaluates words",
  "polymat_evaluate_artin_word(w) returns the projectivised image of w.",
  "all words and all representations", "Never called in tests.",
  f"{JR}:RepBase.polymat_artin_gens_invs", f"{JR}:RepBase.polymat_evaluate_artin_word", f"{JR}:RepBase.polymat_evaluate")
p("C61", "polymat evaluation agrees with matrix evaluation",
  "polymat_evaluate_braids_of_same_length(bs)[i] is evaluate(bs[i]) divided by a power of v (mod p), with no leading zero matrix.",
  "every n, r, p and all equal-length lists of braids", "Relies on Delta^2 acting by a power of v for all n, r.",
  f"{JR}:RepBase.polymat_evaluate_braids_of_same_length", f"{JR}:RepBase._polymat_delta_power", f"{BS}:evaluate_braids_of_same_length")
p("C62", "LKBRep is a representation",
  "The LKBRep generator matrices satisfy the braid relations for every n and all units q, t; artin_gens_invs returns matrices and their inverses.",
  "every n and all units q, t", "One n is tested, inverses never.",
  f"{JR}:LKBRep.artin_gens_invs")
p("C63", "JonesSummand handles every r it accepts",
  "For every n >= 1 and 0 <= 2r <= n, JonesSummand(n,r,p).dimension() returns the dimension of the representation.",
  "every n, r, p accepted by the constructor and by search.py", "Boundary r = 0 is not tested.",
  f"{BS}:JonesSummand.dimension", f"{SE}:args")

# ---------------------------------------------------------------- polymat
p("C64", "polymat.mul is multiplication of polynomial matrices",
  "mul(A,B) represents the product of the matrices A and B represent, batch entry by batch entry; with quotdeg it is the product truncated below that degree.",
  "all shapes and entries", "All shapes.",
  f"{PM}:mul", f"{PM}:to_matrix")
p("C65", "projectivise divides by the right power of v",
  "projectivise(A) represents v^-d A where d is the least degree with a nonzero entry, for each matrix of the batch; its constant term is nonzero; it is idempotent; two matrices have the same image iff they differ by a power of v.",
  "all batches of nonzero polynomial matrices", "All batches.",
  f"{PM}:projectivise", f"{PM}:proj_starts_ends", f"{PM}:trim", f"{PM}:trim_left")
p("C66", "projlen is degmax - valmin + 1, and zero for the zero matrix",
  "projlen(A) = degmax(A) - valmin(A) + 1 for nonzero A and 0 for A = 0; it is unchanged by multiplying A by v^k and by zero padding.",
  "all polynomial matrices", "All matrices, including zero.",
  f"{PM}:projlen", f"{PM}:degmax", f"{PM}:valmin", f"{PM}:efflen")
p("C67", "pack, zeropad, concatenate keep every matrix",
  "pack(As)[i], zeropad(A, D) and concatenate(As) represent the same polynomial matrices in the same order; from_matrix and to_matrix are inverse on polynomial matrices.",
  "all lists of matrices", "All shapes.",
  f"{PM}:pack", f"{PM}:zeropad", f"{PM}:concatenate", f"{PM}:from_matrix", f"{PM}:to_matrix")
p("C68", "int32 arithmetic mod p does not overflow for small p",
  "If dim * min(D,E) * (p-1)^2 < 2^31 then the int32 product of reduced matrices equals the exact product; for larger p it can be wrong.",
  "all p, shapes and reduced matrices", "Overflow needs adversarial sizes.",
  f"{JR}:RepBase.polymat_mul", f"{JR}:RepBase.polymat_dtype", f"{PM}:mul")

# ---------------------------------------------------------------- trackers
p("C69", "Buckets never exceed capacity and stay parallel",
  "After any sequence of additions and discards, with any random draws and any reservoir method, every bucket holds at most capacity braids, and braids, images and weights are parallel.",
  "all operation histories and random draws", "All histories.",
  f"{BK}:Bucket", f"{BK}:Tracker.add_braids_images", f"{BS}:Tracker.add_braids_images")
p("C70", "Every stored image is the image of its braid, in the right bucket",
  "If every pair added satisfies image = rho(braid) up to a power of v, then in every bucket each stored image is the projectivised rho(braid) and the bucket tag is (length, projlen) of that braid.",
  "all operation histories and random draws", "All histories.",
  f"{BK}:Tracker.add_braids_images", f"{BS}:Tracker.add_braids_images", f"{BK}:Tracker.valiate_buckets")
p("C71", "reservoir_count counts offers",
  "reservoir_count of a bucket equals the number of pairs offered with that tag since it was (re)created, and reservoir_weight their total weight.",
  "all operation histories", "All histories.",
  f"{BK}:Bucket.show_reservoir", f"{BS}:Tracker.add_braids_images")
p("C72", "Uniform reservoir sampling is uniform",
  "After N >= capacity distinct offers to a bucket, each offered item is retained with probability exactly capacity/N.",
  "every capacity and every N, exact probability over all random draws", "A probability statement over all draw sequences.",
  f"{BK}:Tracker.add_braids_images", f"{BS}:Tracker.add_braids_images")
p("C73", "EvictMin keeps the heaviest items",
  "With EvictMin, after any offers the bucket holds items whose weights are the capacity largest weights offered (as a multiset).",
  "all offer sequences", "All sequences and ties.",
  f"{BK}:Tracker.add_braids_images", f"{BK}:Bucket.replace_braid")
p("C74", "GreedyFirst keeps the first items",
  "With GreedyFirst a bucket holds exactly the first capacity items offered, in order.",
  "all offer sequences", "All sequences.",
  f"{BK}:Tracker.add_braids_images")
p("C75", "batched splits without loss",
  "The chunks of batched(xs, k) concatenate to xs, none is empty, each has at most k items and all but the last exactly k; k < 1 raises AssertionError.",
  "all iterables and k", "All lengths.",
  f"{BK}:batched", f"{BS}:batched")
p("C76", "nf_descendants pairs each product with its own image",
  "nf_descendants(tag) offers, for every stored braid b and every suffix x, the braid b*x with the image rho(b)rho(x); no product is paired with another product's image.",
  "all buckets and lengths", "Index arithmetic over reshaped tensors, sorting and grouping, for all sizes.",
  f"{BK}:Tracker.nf_descendants", f"{BS}:Tracker.nf_descendants")
p("C77", "search.py never moves more than use_best braids and discards what it has processed",
  "In each step the selected buckets all have the current length, are the lowest-projlen ones, and hold at most use_best braids in total; afterwards no bucket of length <= current remains.",
  "all tracker states, all use_best", "All states.",
  f"{SE}:main")
p("C78", "Database saves are atomic per step",
  "If the process dies at any point, the database holds exactly the rows of a whole number of completed save steps, and each row decodes to a braid of the recorded length, whose matrix in the representation (n, r) modulo p has the recorded projlen.",
  "every crash point", "Crash points.",
  f"{SE}:main")
p("C79", "bootstrap_exhaustive offers every braid once",
  "bootstrap_exhaustive(L) offers to the buckets each normal form with power 0 of each length 1..L exactly once.",
  "every n and L", "Exponential enumeration.",
  f"{BK}:Tracker.bootstrap_exhaustive", f"{BS}:Tracker.bootstrap_exhaustive")
p("C80", "evaluate_braids returns images in input order",
  "evaluate_braids(rep, bs)[i] is the image of bs[i] although the braids are regrouped by length.",
  "all lists of braids", "All mixtures of lengths.",
  f"{BS}:evaluate_braids")

p("C81", "LPoly.fmt and repr determine the polynomial",
  "Two LPoly objects with the same repr (or the same fmt(), in plain or latex mode) are equal.",
  "all pairs of Laurent polynomials", "All pairs of coefficient lists, valuations and integer sizes.",
  "peyl/lpoly.py:LPoly.fmt", "peyl/lpoly.py:LPoly.__repr__")

p("C82", "Matrix.rows and Matrix.from_rows are inverse",
  "from_rows of a non-empty list of equally long rows gives a matrix whose rows() is that list, and from_rows(m.rows()) is m for every matrix with at least one row; from_rows of an empty list raises IndexError.",
  "all row lists and matrices", "All shapes.",
  "peyl/matrix.py:Matrix.from_rows", "peyl/matrix.py:Matrix.rows")
p("C83", "Matrix trace and transpose",
  "trace is the sum of the diagonal (ValueError exactly for non-square), trace(ab) = trace(ba) whenever both products exist, and transpose reverses products.",
  "all matrices over a commutative ring", "All shapes and entries.",
  "peyl/matrix.py:Matrix.trace", "peyl/matrix.py:Matrix.transpose")

p("C84", "reflections lists every transposition once",
  "SymmetricGroup(n).reflections() returns n(n-1)/2 distinct permutations, exactly the ones that exchange two points and fix the others.",
  "every n", "All n and all pairs of points.",
  "peyl/permutations.py:SymmetricGroup.reflections", "peyl/permutations.py:transposition")
p("C85", "substring slices the canonical factors",
  "For 0 <= i <= j <= canonical length, b.substring(i, j) is a valid normal form with the same power of Delta whose canonical factors are those of b from i to j-1, and its constructor check never fails; other i, j raise AssertionError.",
  "every GNF value b and all i, j >= 0", "All braids and all slices; the slice of a normal form must again be normal.",
  "peyl/braid.py:NFBase.substring")

p("C86", "Matrix entrywise operations, constructors and equality",
  "a - b, a * scalar, map, Matrix.zero(r, c), Matrix.scalar(n, x) have the entries M[i, j] their names say; subtraction raises ValueError exactly for different shapes and the constructors exactly for negative sizes; == holds exactly for matrices of the same shape with equal entries.",
  "all matrices, shapes and scalars", "All shapes and entries.",
  "peyl/matrix.py:Matrix.__sub__", "peyl/matrix.py:Matrix.map", "peyl/matrix.py:Matrix.zero", "peyl/matrix.py:Matrix.scalar", "peyl/matrix.py:Matrix.__eq__")

p("C87", "Evaluating integer sequences gives one matrix per sequence",
  "polymat_evaluate_braid_integers_of_same_length(cls, sequences) returns a batch with one matrix for each sequence, in order: the image of the product of the positive lifts of the sequence's table entries, up to a power of v, modulo p, projectivised. The sequences need not be normal. No sequences raise IndexError; sequences of different lengths or indices out of range raise AssertionError.",
  "every n >= 2, r, p, both normal form classes, every list of sequences of one length", "All n, lengths, numbers of sequences and entries; broadcasting a batch of one against N.",
  "peyl/jonesrep.py: RepBase.polymat_evaluate_braid_integers_of_same_length", "peyl/jonesrep.py: RepBase._polymat_braid_factor")
p("C88", "TLExtDiag operations keep diagrams and bubbles apart",
  "The TLExtDiag constructor accepts exactly the crossingless matchings of top + bot points (AssertionError otherwise); e(i, n), id(n) and @ give the diagrams of TLDiag, adding the bubbles of both factors; add_bubbles(k) changes only the number of bubbles by k, and split() returns the diagram without bubbles and their number, so that adding them again gives the original.",
  "all diagrams, all numbers of bubbles and all i, n", "All diagrams.",
  "peyl/tl.py:TLExtDiag.e", "peyl/tl.py:TLExtDiag.id", "peyl/tl.py:TLExtDiag.__matmul__", "peyl/tl.py:TLExtDiag.add_bubbles", "peyl/tl.py:TLExtDiag.split")
p("C89", "The diagrammatic trace counts loops and is linear and cyclic",
  "trace_count(s) is the number of loops obtained by joining every point of the matching s with the point vertically opposite; TLMor.trace() is the sum over the terms c d of c (v + v^-1)^(loops of d), is linear, and satisfies trace(x y) = trace(y x), also for rectangular x and y.",
  "all crossingless matchings and morphisms", "All matchings, all pairs of morphisms and coefficients.",
  "peyl/tl.py:trace_count", "peyl/tl.py:TLMor.trace")
p("C90", "TLMor.basis, is_zero and the projections of TLCell",
  "TLMor.basis(top, bot) gives one morphism for each diagram, with coefficient 1; is_zero holds exactly when every coefficient is zero; TLCell(n, r).project_leftmult_matrix(m) is the matrix of left multiplication by m on the cell module; project_vector(m) drops the diagrams with fewer than n - 2r through strands, for the elements of the cell module.",
  "all n, r and morphisms", "All morphisms.",
  "peyl/tl.py:TLMor.basis", "peyl/tl.py:TLMor.is_zero", "peyl/tl.py:TLCell.project_vector", "peyl/tl.py:TLCell.project_leftmult_matrix")
p("C93", "The Markov trace is the weighted sum of the cell traces",
  "For every morphism m of type (n, n), m.trace() is the sum over r = 0 .. n//2 of TLCell(n, r).trace_scalar() times the matrix trace of TLCell(n, r).project_leftmult_matrix(m).",
  "every n and every morphism of type (n, n)", "All n and all linear combinations of diagrams.",
  "peyl/tl.py:TLCell.trace_scalar", "peyl/tl.py:TLMor.trace", "peyl/tl.py:TLCell.project_leftmult_matrix")
p("C94", "JonesRep(n) contains all cell modules",
  "JonesRep(n).cells lists TLCell(n, r) exactly once for every r with 2r <= n.",
  "every n", "All n.",
  "peyl/tl.py:JonesRep")

p("C95", "The full twist acts by a scalar",
  "JonesCellRep(n, r, p).evaluate_artin_word maps every word for Delta^2 (the square of the Garside element, i.e. of the positive lift of the permutation reversing the strands) to v^(2r(n-r+1)) times the identity matrix modulo p; hence multiplying a braid by Delta^2 multiplies its image by that power of v. The polymat evaluation, which drops powers of Delta modulo the order of tau, relies on it.",
  "every n >= 1, 2r <= n, every modulus p >= 0, every word spelling Delta^2", "n and r are unbounded, and there are infinitely many words",
  "peyl/jonesrep.py: JonesCellRep.artin_gens_invs, RepBase.evaluate_artin_word, RepBase.polymat_delta_power", "peyl/braid.py: tau_order")

p("C96", "BKL generators and lifts of noncrossing partitions are the right braids",
  "DGNF.bkl_gens(n) and BraidGroup(n).bkl_gens() map (i, j) to the braid of bkl_gen_to_artin_word(i, j), for exactly the keys i, j < n; DGNF.from_npar, from_npar_seq and BraidGroup.from_npar give the braid of the partition's artin_word (products for sequences).",
  "every n >= 2, every noncrossing partition, every sequence of them", "All n, all partitions; boundary n = 2.",
  f"{BR}:DGNF.bkl_gens", f"{BR}:DGNF.from_npar", f"{BR}:DGNF.from_npar_seq", f"{BR}:BraidGroup.bkl_gens", f"{BR}:BraidGroup.from_npar")

p("C97", "delta^n is the full twist",
  "In the dual normal form, multiplying on either side by the power delta^(kn) only adds kn to the exponent (it is central), and converting DGNF(n, kn, ()) to GNF gives GNF(n, 2k, ()), converting back gives the same DGNF: delta^n = Delta^2.",
  "every n >= 2, every integer k, every DGNF braid", "All n, all powers, all braids.",
  f"{BR}:DGNF.to_GNF", f"{BR}:GNF.to_DGNF", f"{BR}:NormalForm.__mul__", f"{BR}:NParTable")
p("C98", "Enumeration and sampling of dual normal forms",
  "DGNF.all_of_length(n, length, power) yields, once each, exactly the DGNF braids of that power and canonical length; count_all_of_length is their number; sample(n, length) returns a braid of power 0 and that length, and can return each of them.",
  "every n >= 2, every length and power, every random source", "All n, lengths and braids.",
  f"{BR}:NormalForm.all_of_length", f"{BR}:NormalForm.count_all_of_length", f"{BR}:NormalForm.sample")
p("C99", "inf and sup of dual normal forms",
  "For a DGNF braid b, inf(b) is the greatest k such that delta^-k b is a product of band generators, sup(b) is the least k such that b^-1 delta^k is a product of band generators, and canonical_length is sup - inf.",
  "every n >= 2, every DGNF braid", "All n, all braids, all products of band generators.",
  f"{BR}:NormalForm.inf", f"{BR}:NormalForm.sup", f"{BR}:NormalForm.canonical_length", f"{BR}:DGNF")

p("C92", "minpolycos returns minimal polynomials",
  "For n >= 1, Poly.minpolycos(n) returns the minimal polynomial of 2 cos(2 pi / n): a polynomial P with integer coefficients and leading coefficient 1, with P(2 cos(2 pi / n)) = 0, such that every integer polynomial vanishing at 2 cos(2 pi / n) is P times an integer polynomial; no other monic polynomial has these properties. For n <= 0 it raises ValueError. In particular none of the exact divisions raises.",
  "every integer n", "All n: the recursion runs over all proper divisors, and minimality quantifies over all integer polynomials.",
  "peyl/poly.py:Poly.minpolycos", "peyl/poly.py:Poly.chebyshevT", "peyl/poly.py:Poly.__truediv__", "peyl/poly.py:Poly.evaluate")

p("C91", "The identity polymat is neutral and % reduces",
  "polymat.eye(n) is one n x n int64 matrix of constants with ones on the diagonal; mul(A, eye(J)) returns exactly A for every batch A (any batch shape, width, dtype), mul(eye(I), A) the same matrices as int64; A % p keeps shape and dtype and puts every coefficient in [0, p) without overflow, and reducing twice is reducing once.",
  "every array and modulus that fits the dtype", "All shapes, widths and values.",
  "peyl/polymat.py:eye", "peyl/polymat.py:mul")
p("C100", "The near-kernel elements search.py prints are the ones it holds",
  "In every iteration of search.py the printed pairs (inf, permutations) are exactly the canonical decompositions of the stored braids whose matrix, modulo p, is a power of v times a matrix of constants; each printed pair reads back as that braid. With --stop-at-projlen-1 the search stops at the end of the first iteration that prints one, and only then; without it all lengths are processed.",
  "every run: all n, r, p, bucket sizes, random choices, set orders, iteration counts", "All histories of the search and all random choices.",
  f"{SE}:main", f"{BS}:Tracker.stats")
p("C101", "Accepted search arguments run to the end",
  "If the argument checks of search.py accept n, r, p and the coefficients stay within int32, main() raises no error: bootstrap, all iterations, printing and saving complete.",
  "all accepted arguments, random choices and set orders", "All argument combinations and histories; the loop runs hundreds of iterations.",
  f"{SE}:main", f"{BS}:Tracker.bootstrap_exhaustive", f"{BS}:Tracker.nf_descendants")

p("C102", "AChao sampling favours heavy pairs in proportion to weight",
  "A bucketing Tracker with reservoir_method 'AChao' offers a new pair of weight w to a full bucket with acceptance chance w/W (W the total weight offered so far, including w) and puts it at a uniformly random position; with capacity c the i-th distinct pair offered is stored with the resulting product of chances, which is w_i/W (proportional to the weights, as the docstring promises) for capacity 1.",
  "all histories of additions and discards, positive weights, capacities and draw sequences", "A statement about the distribution over all draw sequences and all histories.",
  f"{BK}:Tracker.add_braids_images", f"{BK}:Bucket.show_reservoir")

p("C103", "bucket_product multiplies every pair of two buckets",
  "On a braidsearch Tracker filled with braids and their images, bucket_product(b1, b2) makes exactly one addition: the braids a*b for every a stored in b1 and b stored in b2, in that order, each next to its own (projectivised, reduced) image. It raises no error if the filter gives one answer per pair, afterwards every bucket again holds braids next to their own images under the right tag, and a bucket that does not exist gives an AssertionError.",
  "all n, r, p, trackers reached by any history of additions and discards, buckets and filters within the int32/int64 range", "All trackers, buckets and representations.",
  f"{BS}:Tracker.bucket_product", f"{BS}:Tracker.bucket_braids_images", f"{JR}:JonesSummand.mul")
p("C104", "substrings tries all substrings of length two or more",
  "On a braidsearch Tracker filled with braids and their images, substrings(bucket) offers, for every stored braid, all of its substrings (consecutive factors i..j of the normal form) of length 2 or more, each next to its image; it leaves the bucket itself unchanged and raises no error.",
  "all n, r, p, trackers reached by any history of additions and discards, and buckets within the int32/int64 range", "All trackers, buckets and lengths.",
  f"{BS}:Tracker.substrings", f"{BR}:GNF.substring", f"{BS}:evaluate_prefixes_of_same_length")

p("C105", "The reports of the trackers are the truth about the history",
  "After any sequence of add_braids_images and discard_bucket calls, stats() of both trackers has exactly one row for each bucket that has been offered something since it was last discarded. bucketing: count is min(capacity, number of offers), reservoir_count is the number of offers, the two averages are the mean weights of the stored and of all offered pairs. braidsearch: count is min(bucket_size, number of different braids offered), reservoir_count (only with a random generator) the number of offers, rhogap/length is (projlen-1)/2/length. stats_reservoir() also lists the discarded buckets, each with the count it had at its last offer.",
  "all sequences of calls with matrices of one size and dtype, capacities >= 1, methods, statistics, weights and random draws", "All histories and random draws.",
  f"{BK}:Tracker.stats", f"{BS}:Tracker.stats", f"{BS}:Tracker.stats_reservoir")
p("C106", "bucket_stats recomputes the tag of the bucket",
  "In a bucketing Tracker whose statistics are built-in ones, bucket_stats(tag) of an existing bucket has, for each statistic, the component of the tag in every row (although it is computed from the projectivised stored images, not from the images that were added), and as many rows as stored braids; a missing tag raises ValueError.",
  "all sequences of additions and discards, capacities >= 1, lists of built-in statistics and tags", "All histories and statistics.",
  f"{BK}:Tracker.bucket_stats", f"{BK}:Tracker.braid_image_stats", f"{BK}:CanonicalLength", f"{BK}:ProjectiveLength", f"{BK}:NonzeroTerms", f"{BK}:NFKind")

p("C107", "hash_bucket groups the stored braids by their images",
  "hash_bucket(tag) of a bucketing Tracker returns a dict whose keys are exactly the hashes of the stored images, each once, and whose list under a key consists of the stored braids with that hash, in the order of storage. So no stored braid is lost, braids with equal images are in one list, and if the hash separates the images then the braids of one list have equal images. A tag without bucket raises AssertionError.",
  "all sequences of additions and discards, capacities >= 1, methods, random draws, hash functions and tags", "All histories and hash functions.",
  f"{BK}:Tracker.hash_bucket")
p("C108", "valiate_buckets tells the truth",
  "valiate_buckets() returns \"All bucket entries are sound.\" for a tracker that was only given braids with their own images; if it returns a triple, then it is a stored braid, its value under the representation and its stored matrix, and the two differ; if it says that all is sound, every stored matrix is the value of its braid.",
  "all sequences of additions and discards, representations, moduli, capacities, methods and random draws", "All histories and representations.",
  f"{BK}:Tracker.valiate_buckets", f"{BS}:Tracker.valiate_buckets")

p("C109", "all_of_length_below_1 returns exactly the braids below 1",
  "all_of_length_below_1(rep, length) goes through every braid of B_n with Delta-power 0 and the given number of factors, once, and returns in that order exactly those whose image modulo p has its non-zero coefficients within 2*length consecutive degrees (rhogap/length < 1), with their images in the same order; if there is none, the list is empty and the batch is an empty one.",
  "all JonesSummands (n, r, p), tables and lengths", "All representations and lengths; the number of braids is exponential in the length, and the batches are of 1000.",
  f"{BS}:all_of_length_below_1", f"{BS}:batched")
p("C110", "sampled batches consist of braids of the asked length with their images",
  "sample_braids_images(rep, length, count) returns count braids with Delta-power 0 and the given number of factors, together with their images in the same order; any list of such braids can be drawn. sample_braids_images_upto_length does so for each length of the range in turn, count for each. count = 0 raises IndexError.",
  "all JonesSummands with n >= 3, lengths, counts >= 1 and random draws", "All random draws.",
  f"{BS}:sample_braids_images", f"{BS}:sample_braids_images_upto_length")

p("C111", "repr and str of a matrix determine it",
  "Two matrices with int and LPoly entries have the same repr exactly when they are equal (same shape, same entries, an int and a constant LPoly being told apart). They have the same str exactly when they are equal or both have no rows: str shows everything except the number of columns of a matrix without rows.",
  "all pairs of matrices of ints and LPolys, of any shapes including empty ones", "All shapes and entries, including the separate layouts for one row, one column and empty matrices.",
  f"{MX}:Matrix.__repr__", f"{MX}:Matrix.__str__", f"{LP}:LPoly.__repr__")
p("C112", "vectors, scalar matrices and the matrix predicates mean what they say",
  "row_vector and col_vector hold the given entries and are each other's transpose; col_coord_vector(n, i) is 1 at i and 0 elsewhere (all zero if i is out of range), and M times the j-th one is column j of M; scalar(nrows, x) * M = M * scalar(ncols, x) = M * x; indices() lists every position once, in the order of entries(); is_square() is exactly the condition for trace and power not to raise ValueError; is_integral() holds exactly when all entries are ints and is kept by products and differences.",
  "all matrices over any commutative ring, and all vectors", "All sizes and entries.",
  f"{MX}:Matrix.row_vector", f"{MX}:Matrix.col_vector", f"{MX}:Matrix.col_coord_vector", f"{MX}:Matrix.scalar", f"{MX}:Matrix.indices", f"{MX}:Matrix.entries", f"{MX}:Matrix.is_square", f"{MX}:Matrix.is_integral")
p("C113", "Artin words index generators as Python lists do, everywhere alike",
  "In GNF.from_artin_word, DGNF.from_artin_word and evaluate_artin_word a letter (i, e) with 0 <= i < n-1 names the i-th generator, one with -(n-1) <= i < 0 the generator n-1+i counted from the end, and any other index raises IndexError. So the image of from_artin_word(w) is the value of w whenever the former does not raise.",
  "all n >= 2, words with any integer indices and exponents, and (n, r, p)", "All words, with indices of both signs and out of range at any position.",
  f"{BR}:GNF.from_artin_word", f"{BR}:DGNF.from_artin_word", f"{JR}:JonesCellRep.evaluate_artin_word")

p("C114", "the representation of B_3 is faithful, and its images grow by 2 per factor",
  "In the 2-dimensional representation of B_3 (n = 3, r = 1), modulo any p other than 1, two words have images equal modulo p exactly when they are the same braid. The image of a normal form with l factors has its non-zero coefficients in degrees spanning exactly 2l (both ends attained), so its projlen is 2l + 1; the image is concentrated in a single degree exactly for the powers of Delta, which sit in degree 3 * power; and all_of_length_below_1 finds nothing at any length.",
  "all p (0 or >= 2, prime or not), words, normal forms and lengths", "There are infinitely many braids and words; a test sees finitely many, and the searches for kernel elements rely on what can and cannot be found.",
  f"{JR}:JonesCellRep.evaluate", f"{JR}:JonesCellRep.evaluate_artin_word", f"{JR}:JonesCellRep.polymat_evaluate_braids_of_same_length", f"{PM}:projlen", f"{BS}:all_of_length_below_1")

p("C115", "JonesCellRep(n, 1) is the reduced Burau representation",
  "For every n >= 2 and every modulus p, JonesCellRep(n, 1, p) has dimension n - 1 and its generators are, coefficient by coefficient modulo p, the reduced Burau matrices: row s is -v, -v^2, -v around the diagonal and the other rows are those of the identity; the inverses are the same with v^-1. Over the integers they are the very objects to_matrix(burau_generator_v2(n, s)). burau_generator_v2 raises AssertionError exactly outside 1 <= n, 0 <= s < n - 1. Multiplying a word by sigma_s^+-1 changes column s and its neighbours in the stated way.",
  "all n, p, s, words", "The generators are computed from Temperley-Lieb diagrams, of which there are exponentially many; tests compare a few small n.",
  f"{JR}:JonesCellRep.artin_gens_invs", f"{PM}:burau_generator_v2", f"{PM}:to_matrix", f"{JR}:JonesCellRep.evaluate_artin_word")
p("C116", "the published kernel elements are kernel elements",
  "The elements a, b, c (n = 4, p = 5) and d (n = 6) of the notebook and the p = 2 and p = 5 elements of the README are in Garside normal form with the stated factors, from_gnf_pair and canonical_decomposition are inverse to each other on them, and with the right power of Delta they are sent to the identity matrix modulo p (d over the integers and modulo every p; the p = 2 element with all its powers). Hence in these representations every braid shares its image with another braid.",
  "all pairs in normal form (round trip); all p (d); all powers (p = 2); all braids (unfaithfulness)", "The claims of the README and notebook are statements about one run; whether they hold for every p, for all powers, and whether the elements are non-trivial braids is not visible in a run.",
  "p=5 kernel elements.ipynb:a_seq", "p=5 kernel elements.ipynb:d_seq", "README.md:near-kernel element", f"{BR}:BraidGroup.from_gnf_pair", f"{BR}:GNF.canonical_decomposition", f"{JR}:JonesCellRep.evaluate")

p("C117", "no braid except the identity has finite order",
  "A power b ** k of a braid object is the identity object only if k = 0 or b is the identity; the powers of any other braid are pairwise different objects; two commuting braids with the same k-th power (k != 0) are equal. For GNF and DGNF objects and for words. Consequently, if a representation sends two different braids to the same matrix, then every matrix in its image comes from infinitely many braids; this holds for the published kernels.",
  "all n, braids, exponents; all representations JonesCellRep(n, r, p)", "A test can only look at finitely many powers; that none of them is the identity needs an argument about all of them.",
  f"{BR}:GNF.__pow__", f"{BR}:DGNF.__pow__", f"{BR}:GNF.__eq__", f"{JR}:JonesCellRep.evaluate")

p("C118", "braids_images_to_dataframe has one true row per pair",
  "For an array or a list of as many images as braids, row k of the dataframe holds braid k and image k; its length is the number of canonical factors of the braid, nz_terms the number of non-zero coefficients, valmin and degmax the least and greatest degree with a non-zero coefficient, rhogap half their difference and the last column rhogap divided by length. With the images of JonesSummand.evaluate_braids the last column is below 1 exactly when the evaluated matrix modulo p has its non-zero coefficients in fewer than 2 length + 1 consecutive degrees. Images of the wrong number, shape or type are refused.",
  "all lists of braids, all batches and lists of images, all n, r, p of the evaluated case", "The columns are computed separately and only lined up by position; every batch size and every degree range has to agree.",
  f"{BS}:braids_images_to_dataframe", f"{BR}:GNF.garside_length", f"{PM}:rhogap", f"{PM}:degmax", f"{PM}:valmin", f"{PM}:nz_terms")

p("C119", "The picture of a diagram draws every arc once, between its own ends, inside the frame",
  "For every matching of bot + top points, draw_svg(seq, bot) succeeds with one Bezier curve per arc, in order of the smaller ends; each curve starts and ends at the places of the two ends of its arc; the points of the two rows have pairwise different places, 15 apart and centred; every point of every curve is inside the picture, at least 10 from its left and right borders.",
  "all numbers of points, all matchings", "The loop marks both ends as drawn; that no arc is drawn twice or forgotten, and that curves stay inside, concerns every diagram and every real parameter.",
  f"{TL}:draw_svg", f"{TL}:TLDiag._repr_html_")
p("C120", "The picture of a crossingless diagram has no crossings",
  "For every crossingless matching the curves draw_svg draws for two different arcs have no common point.",
  "all crossingless matchings, all pairs of arcs", "Concerns every diagram and all real points of the curves.",
  f"{TL}:draw_svg", f"{TL}:TLDiag._repr_html_", f"{TL}:TLMor._repr_html_")

p("C121", "What the small representations can and cannot tell apart",
  "For every prime or zero modulus: JonesCellRep(4, 2, p) evaluates a word to the very matrix to which JonesCellRep(3, 1, p) evaluates the word with sigma_2 replaced by sigma_0 (a homomorphism B_4 -> B_3), so for p != 1 two words have congruent images exactly when those words are equal in B_3, and every image is the image of infinitely many braids; JonesCellRep(n, 0, p) has dimension 1 and sends every word to the unit matrix; JonesCellRep(2, 1, p) has dimension 1 and sends a word of exponent sum s to (-1)^s v^(2s), so for p != 1 it is faithful.",
  "all p, all n (for r = 0), all words", "A description of the kernel concerns all pairs of words, infinitely many for each image.",
  f"{JR}:JonesCellRep.artin_gens_invs", f"{JR}:RepBase.evaluate_artin_word")

p("C122", "Adding strands changes neither equality of braids nor what the Burau matrices see",
  "For 2 <= m <= n and words u, w in the generators of B_m: GNF.from_artin_word(m, u) == GNF.from_artin_word(m, w) exactly when GNF.from_artin_word(n, u) == GNF.from_artin_word(n, w) (B_m is a subgroup of B_n); and the images of u and w under JonesCellRep(m, 1, p) are congruent exactly when their images under JonesCellRep(n, 1, p) are. Consequently JonesCellRep(n, 1, p) is not faithful for all n >= 6 and every p, nor for n >= 4 and p = 2 or 5.",
  "all m <= n, all p, all pairs of words", "Ranges over all numbers of strands, including those for which the code has no normal form table, and all words.",
  f"{BR}:GNF.from_artin_word", f"{JR}:JonesCellRep.artin_gens_invs", f"{JR}:RepBase.evaluate_artin_word")

p("C123", "A braid of projective length 1 is a power of the Garside element times a kernel element",
  "README.md:46: with --stop-at-projlen-1 the search stops at a braid whose image has projlen 1, 'which is necessarily in the kernel times a power of the Garside element'. For every representation JonesCellRep(n, r, p) and every braid b: the image of b is, modulo p, v^e times a matrix of constants exactly when b = Delta^k * g with g in the kernel; so the elements that search.py prints are exactly the stored braids of this form.",
  "all numbers of strands n, all p, all braids, all searches", "The kernels are infinite, and the statement needs a converse over all braids: that no other braid has a homogeneous image.",
  f"{BS}:BraidSearch", f"{BR}:GNF.canonical_decomposition", f"{JR}:JonesCellRep", f"{PM}:projlens")

p("C124", "The LaTeX displays determine what they display",
  "In a notebook, two permutations of n points, two normal forms (GNF or DGNF) of B_n, two noncrossing partitions or two matrices with at least one row and column are displayed alike (_repr_latex_) only if they are equal (for matrices: same shape and same entries, an int and the constant LPoly of that value looking alike); two braids are displayed alike exactly if they are the same braid. The display never fails.",
  "all n, all permutations, all braids, all noncrossing partitions (of any sizes), all matrices of ints and LPolys",
  "Injectivity of a printer over infinitely many values; nested separators (', ' inside and between sets) could collide for values no test prints.",
  f"{PERM}:Permutation._repr_latex_", f"{BR}:GNF._repr_latex_", f"{BR}:DGNF._repr_latex_", f"{NC}:NPar._repr_latex_", f"{MX}:Matrix._repr_latex_", f"{LP}:LPoly._repr_latex_")
p("C125", "repr of a noncrossing partition determines it",
  "repr(NPar) lists n and the blocks with more than one point, each in the order in which Python iterates over a set. Two noncrossing partitions, of any sizes, with the same repr are equal, whatever these iteration orders are.",
  "all n, all noncrossing partitions, all iteration orders of sets", "All partitions of all sizes and all set orders: the order in which a set of ints is printed depends on the interpreter.",
  f"{NC}:NPar.__repr__", f"{NC}:NPar.components")
p("C126", "FramedMatrix shows every entry in its cell and leaves zeros blank",
  "FramedMatrix(rows, cols, entries) displays a table in which, for given labels, two matrices of ints and LPolys give the same HTML exactly if they are equal; zero entries are left blank, and no other entry is; the display fails (AttributeError) exactly if a column label has no _repr_html_.",
  "all labels, all matrices of ints and LPolys of the matching shape", "All matrices; blank cells could hide differences.",
  "peyl/show.py:FramedMatrix", "peyl/show.py:html_repr")

p("C127", "Projective length 1 always leads to the kernel, after a power",
  "In every representation JonesCellRep(n, r) with r >= 1, over the integers or modulo any p: if the matrix of a braid b is v^e times a non-zero matrix of constants (projective length 1), then some positive power of b, at most the (n! 2r(n-r+1))-th, times an even power of the Garside element, is in the kernel. In particular every element that the search prints with --stop-at-projlen-1 has this property, and a braid with projective length 1 that is not periodic proves that the representation is not faithful.",
  "all n >= 2, all 1 <= r <= n/2, all p, all braids, all runs of the search (all random draws, all orders)", "Statement about all braids and all representations: the power and the twist are not known in advance, and the README's stronger claim (no power needed) is false for r = 2 (C123).",
  f"{BS}:BraidSearch", f"{JR}:JonesCellRep", f"{JR}:RepBase.evaluate", f"{PM}:projlens", f"{SE}:main", "README.md")

p("C128", "What a representation of B_n says about the braids of B_m",
  "For all m <= n: two words of B_m have congruent images in JonesCellRep(n, r) exactly when they have congruent images in JonesCellRep(m, s) for every s with r - (n - m) <= s <= r (and 2s <= m). The image in such a JonesCellRep(m, s) is a submatrix of the image in JonesCellRep(n, r), at rows and columns that do not depend on the word; for m = n - 1 the matrix is, after a reordering of the basis, block triangular with exactly the blocks (n - 1, r) and (n - 1, r - 1). In particular every JonesCellRep(n, r) with r >= 1 is faithful on three-strand braids modulo every p other than 1.",
  "all m <= n, all r, all p, all words of B_m", "Relates the representations of different groups on all words; a test compares one pair of words in one pair of representations.",
  f"{JR}:JonesCellRep", f"{JR}:RepBase.evaluate_artin_word", f"{TL}:cell_basis", f"{TL}:TLDiag.__mul__")

p("C129", "Symmetries: the Garside element reflects, mirror images invert v",
  "In JonesCellRep(n, r) the matrix of every word for Delta is (-1)^(r(n-1)) v^(r(n-r+1)) times the permutation matrix that reflects the basis diagrams in a vertical line (mod p). Multiplying a word by Delta on the left or right therefore permutes rows or columns up to that monomial; replacing every sigma_i by sigma_(n-2-i) permutes rows and columns; inverting every letter in place replaces v by 1/v. So two words have congruent matrices iff their flips do iff their mirror images do, and the projective length of a braid does not change under these symmetries nor under Delta^k: it depends on the canonical factors only, which is why searching braids with inf = 0 loses nothing.",
  "all n, r, p, all words and all GNF values, all powers of Delta", "An identity of matrices for every word and every representation, and the reason why the search space can be cut down; a test checks one word in one representation.",
  f"{JR}:JonesCellRep", f"{JR}:RepBase.evaluate_artin_word", f"{TL}:cell_basis", f"{BR}:GNF", f"{BS}:Tracker")

p("C130", "With large enough limits search.py is exhaustive",
  "If the bucket size is larger than the number of positive normal forms (GNF with inf = 0) of each length 1..K, and use_best is at least that number, then whatever the random generator does, at the start of the iteration of search.py with process_length k <= K every positive normal form of length k is in a bucket. So that iteration prints the canonical factors of every braid of canonical length k, whatever its infimum, whose matrix is modulo p a power of v times a matrix of constants; an iteration that prints nothing proves that there is none; and if save_best is that large too, all the normal forms of length k are saved.",
  "all n, r, p, bootstrap lengths, step sizes, bucket sizes, limits, random generators, orders of the stats table and iterations", "Completeness of a search over all braids of a length, for every random generator and every number of iterations; a test runs one small search.",
  f"{SE}:main", f"{BS}:Tracker.add_braids_images", f"{BS}:Tracker.nf_descendants", f"{BS}:Tracker.bootstrap_exhaustive", f"{BR}:GNF.count_all_of_garside_length")

p("C131", "A run of search.py is determined by its arguments and its random draws",
  "Two runs of search.py with the same arguments and the same random draws, in which the set of buckets is listed in different orders in any iterations: if one finishes so does the other, they save the same rows in the same order, end with the same buckets, and each iteration reports the same near-kernel elements up to order. The database goes through the same states, so a crash at the same point leaves the same rows.",
  "all arguments, random generators, numbers of iterations and orders of the stats table in every iteration", "Python and pandas may list the buckets in any order, which changes between versions and runs; a test sees one order.",
  f"{SE}:main", f"{BS}:Tracker.stats", f"{BS}:Tracker.discard_bucket")
p("C132", "Comparing and sorting braids",
  "For two braids in Garside normal form on the same strands exactly one of a < b, b < a and 'the same braid' holds; <=, >, >= agree with <; < is transitive; comparing a GNF with a DGNF raises TypeError. Fewer strands, then a smaller power of Delta come first, then the first factors that differ decide, and a braid comes before its extensions by further factors. sorted() of braids returns them in ascending order, and two lists give the same sorted list exactly if they contain the same braids with the same multiplicities, whatever words they came from.",
  "all n >= 2, all braids given by any words, all lists of braids", "Total order and canonical sorted lists range over all pairs, triples and lists of braids; tests compare a few.",
  f"{BR}:GNF", f"{BR}:DGNF")

p("C133", "Degrees are bounded by inf and sup, and so is the memory of the search",
  "In every JonesCellRep(n, r), over the integers or modulo p, every power of v that occurs in the matrix of a braid b lies between r(n-r+1) inf(b) and r(n-r+1) sup(b). So the projective length of a braid is at most r(n-r+1) times its canonical length, plus 1. In every state of search.py there are therefore at most r(n-r+1)k + 1 buckets of length k, which together hold at most that number times the bucket size of braids.",
  "all n, r, p, all braids; all limits, filters, random generators, orders of the stats table and numbers of iterations", "A bound over all braids of the group, and on the memory of every run.",
  f"{JR}:RepBase.evaluate", f"{BR}:NFBase.inf", f"{BR}:NFBase.sup", f"{PM}:projlen", f"{BS}:Tracker.add_braids_images", f"{SE}:main")

p("C134", "Projective lengths are subadditive, and one search step changes them by a bounded amount",
  "For braids a, b in Garside normal form: inv(b) has inf(inv(b)) = -sup(b), sup(inv(b)) = -inf(b) and the same canonical length. In JonesCellRep(n, r) over the integers or modulo p <> 1, the image of every braid has exactly one projective length, which is at least 1; projlen(ab) <= projlen(a) + projlen(b) - 1; and |projlen(ab) - projlen(a)| <= r(n-r+1) * canonical_length(b). So a braid of projective length u is at least (u-1)/(r(n-r+1)) canonical factors away from every braid of projective length 1.",
  "all n >= 2, r, p, all braids a, b", "An inequality over all pairs of braids of the group.",
  f"{JR}:RepBase.evaluate", f"{BR}:NFBase.inv", f"{BR}:NFBase.__mul__", f"{BR}:NFBase.inf", f"{BR}:NFBase.sup", f"{PM}:projlen", f"{SE}:main")

p("C135", "nf_descendants lists exactly the children in the tree of normal forms",
  "For every GNF or DGNF braid b (any power, n >= 2), b.nf_descendants() never raises, repeats nothing, and lists exactly the braids with the power of b whose canonical factors are those of b followed by one more; each is b * x for a braid x with power 0 and one canonical factor, and every product b * x of that shape is listed. Every braid with at least one canonical factor is a descendant of exactly one braid, and the descendants of all_of_length(k, power) are together all_of_length(k+1, power), each once. canonical_factor(i) reads the list of canonical factors with Python's index rules.",
  "all n >= 2, all braids of both classes, all powers, lengths and indices", "The tree is infinite.",
  f"{BR}:NFBase.nf_descendants", f"{BR}:NFBase.all_of_length", f"{BR}:NFBase.canonical_factor", f"{BR}:NFTable.normal_forms")

p("C136", "inf, sup and canonical length obey the triangle inequalities",
  "For every product c = a * b of GNF or DGNF braids (n >= 2): inf a + inf b <= inf c <= min(inf a + sup b, sup a + inf b), max(inf a + sup b, sup a + inf b) <= sup c <= sup a + sup b, and none of the three canonical lengths exceeds the sum of the other two. The inverse has inf = -sup and sup = -inf of the original and the same canonical length. For every integer k, the canonical length of a**k is at most |k| times that of a; for k >= 0, k inf a <= inf(a**k) and sup(a**k) <= k sup a, and for k <= 0 the same with inf and sup exchanged.",
  "all n >= 2, all pairs of braids of both classes, all integer exponents", "The bounds range over infinitely many pairs of braids; examples only show when they are attained.",
  f"{BR}:NFBase.__mul__", f"{BR}:NFBase.__pow__", f"{BR}:NFBase.inv", f"{BR}:NFBase.inf", f"{BR}:NFBase.sup", f"{BR}:NFBase.canonical_length")

p("C137", "max(sup, 0) - min(inf, 0) is the geodesic length over simple braids",
  "Call a braid x simple if 0 <= inf(x) and sup(x) <= 1 (by C54 and C99: x and x^-1 Delta are positive). Every GNF or DGNF braid b (n >= 2) is a product of exactly max(sup b, 0) - min(inf b, 0) braids each of which is simple or the inverse of a simple braid, and it is not a product of fewer.",
  "all n >= 2, all braids of both classes, all factorisations into simple braids and inverses", "Minimality quantifies over all factorisations of all braids.",
  f"{BR}:NFBase.inf", f"{BR}:NFBase.sup", f"{BR}:NFBase.__mul__", f"{BR}:NFBase.inv", f"{BR}:NFBase.canonical_length")

if __name__ == "__main__":
    out = os.path.join(os.path.dirname(os.path.abspath(__file__)), "..", "properties.jsonl")
    with open(out, "w") as f:
        for q in P:
            f.write(json.dumps(q) + "\n")
    print(len(P), "properties")
