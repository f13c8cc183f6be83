STATUS['C40'] = ('proved', 'for every n and every behaviour of set.pop')
STATUS['C41'] = ('proved', 'for every n')
STATUS['C42'] = ('proved', 'for every n >= 2 (size guard n < 7 abstracted; see C44_size_guard)')
STATUS['C43'] = ('proved', 'for every n >= 2')
STATUS['C44'] = ('proved', 'for every n >= 2 for the table algorithm; with the code\'s guard, n >= 7 raises ValueError (C44_size_guard)')
STATUS['C45'] = ('proved', '')
STATUS['C46'] = ('proved', '')
STATUS['C47'] = ('proved', '')
STATUS['C48'] = ('proved', '')
STATUS['C49'] = ('proved', 'for lengths >= 0; sampling total for n >= 3 (n = 2 has no proper divisors, so sampling a positive length raises IndexError); a negative length is refused by normal_forms but count_normal_forms answers as for length 1')
STATUS['C50'] = ('partial', 'true exactly for even powers of Delta; refuted for odd powers (nf_suffixes copies self.power): C50_nf_suffixes_refuted')
STATUS['C51'] = ('partial', 'refuted: the power argument is ignored (C51_power_refuted); all_of_length itself is proved correct for every power')
STATUS['C52'] = ('partial', 'exact for factors in table range; refuted for a single out-of-range factor, which is never looked up (C52_constructor_refuted)')
STATUS['C53'] = ('partial', 'proved for n >= 3 and n = 1; refuted for n = 2, where gens() raises AssertionError (C53_gens_two_refuted)')
STATUS['C54'] = ('proved', '')
STATUS['C01'] = ('proved', 'arbitrary integers, any length')
STATUS['C02'] = ('proved', '')
STATUS['C03'] = ('proved', '')
STATUS['C04'] = ('proved', '')
STATUS['C05'] = ('proved', '')
STATUS['C06'] = ('proved', '')
STATUS['C07'] = ('proved', '')
STATUS['C08'] = ('proved', '')
STATUS['C09'] = ('partial', 'refuted: every non-empty cycle shorter than n raises IndexError and the empty one ValueError; proved correct exactly for cycles through all n points; from_cycles never returns a permutation')
STATUS['C10'] = ('partial', 'refuted: __post__init__ is misspelt and never runs; proved instead that every permutation-producing operation is closed')
STATUS['C11'] = ('proved', 'itertools.permutations is modelled by its documented lexicographic enumeration')
STATUS['C12'] = ('proved', '')
STATUS['C13'] = ('proved', 'including int operands on either side; additionally no zero divisors')
STATUS['C14'] = ('proved', 'ValueError for n < 0 exactly for the non-invertible elements')
STATUS['C15'] = ('proved', '')
STATUS['C16'] = ('proved', '')
STATUS['C17'] = ('proved', 'for every n; also identified with mathcomp\'s cyclotomic polynomial')
STATUS['C18'] = ('proved', '')
STATUS['C19'] = ('proved', 'moduli m >= 1')
STATUS['C20'] = ('partial', 'refuted: the constant term always prints as 1 (C20_refuted); proved instead exactly what the printed form determines')
STATUS['C21'] = ('proved', 'the cosine form uses the standard library\'s real numbers (and their axioms); recurrence and composition are axiom-free')
STATUS['C22'] = ('proved', '')
STATUS['C81'] = ('proved', 'both modes')
STATUS['C23'] = ('proved', 'for entries in any commutative ring, instantiated at int and at mixed int/LPoly')
STATUS['C24'] = ('proved', 'M**0 has int entries, so Python == with an LPoly identity is False (C24_zeroth_power_is_int)')
STATUS['C25'] = ('partial', 'row refuted: its bounds test uses ncols, so tall matrices raise IndexError; proved exactly for i < min(nrows, ncols); getitem, column and transpose proved')
STATUS['C26'] = ('partial', 'refuted: zip pairs each index with itself, so the answer is always True; proved exactly that')
STATUS['C82'] = ('proved', '')
STATUS['C83'] = ('proved', '')
STATUS['C27'] = ('proved', 'for every sequence of Python ints')
STATUS['C28'] = ('proved', 'including the Catalan count')
STATUS['C29'] = ('proved', 'termination, planarity, path connectivity and loop count against an independent specification')
STATUS['C30'] = ('proved', '')
STATUS['C32'] = ('proved', '')
STATUS['C33'] = ('proved', '')
STATUS['C34'] = ('partial', 'refuted: compose is called with its arguments reversed (C34_ext_mul_refuted); proved instead that on square diagrams it is the opposite product')
STATUS['C35'] = ('partial', 'TLDiag.flip proved; TLMor.flip ignores twist_v')
STATUS['C31'] = ('proved', 'relations of the e_i in TLMor; tl_gens_invs(n) always returns n-1 generators 1 - v e_i and inverses 1 - v^-1 e_i, its assertion never fires, and they satisfy the braid relations')
STATUS['C35'] = ('partial', 'TLDiag.flip proved; TLMor.flip is an involution reversing products and maps v to v^-1, also when twist_v=False, so the documented twist_v=False is refuted (C35_twist_v_refuted)')
STATUS['C36'] = ('proved', 'coefficients of sums, multiples and products; associativity, identities, distributivity, powers, quotient; stored terms are nonzero, distinct and sorted; == is equality of coefficients')
STATUS['C58'] = ('proved', 'For every n >= 1, 2r <= n, p >= 0: the matrices of JonesCellRep(n, r, p) exist, have the stated size and entries (C58_cell_matrix: coefficient of basis[i] in x*basis[j]) and satisfy the braid relations and gens[i]*invs[i] = 1 modulo p; exactly, as objects, for p = 0.')
STATUS['C59'] = ('proved', 'All words and all GNFs/permutations; equality of entries modulo p, and equality of the returned objects for words with a non-zero exponent. Python == between the int identity returned for the empty word and the LPoly identity is False (C59_python_equality_refuted).')
STATUS['C62'] = ('partial', 'Braid relations, sizes, invertibility and invariance on positive words are proved for every n, p and all units q, t. The clause that artin_gens_invs returns the inverses is false of the code (it returns the generators twice): C62_inverse_refuted.')
STATUS['C64'] = ('proved', 'All shapes incl. broadcasting, both dtypes: coefficients of the product modulo 2^bits, exact when nothing overflows, truncation with quotdeg, error cases; to_matrix(mul(A,B)) is the product of the Matrix objects.')
STATUS['C65'] = ('proved', 'projectivise divides every matrix of the batch by the right power of v, is idempotent, equal images iff equal up to a power of v; trim and trim_left; error cases.')
STATUS['C66'] = ('partial', 'Proved for non-zero matrices (degmax, valmin, projlen, efflen, invariance under v^k and padding). The clause for the zero matrix is false of the code: projlen returns D, not 0 (C66_projlen_zero_refuted); efflen is 0.')
STATUS['C67'] = ('proved', 'pack, zeropad, concatenate keep every coefficient and the order; to_matrix / from_matrix are inverse on polynomial matrices; proj=True divides by the least power; the refused and None cases are exact. Int matrices outside int64 and empty int matrices are not modelled.')
STATUS['C68'] = ('proved', 'Exactness under dim*min(D,E)*(p-1)^2 < 2^(bits-1) for both dtypes; C68_overflow is a reduced int32 example (p = 65537) where the product is wrong.')
STATUS['C84'] = ('proved', 'every n')
STATUS['C85'] = ('proved', 'GNF, every n >= 2 (tables exist for n <= 6); negative i or j are not modelled (naturals)')
STATUS['C86'] = ('proved', 'any entry type; entries observed through M[i, j]')
STATUS['C69'] = ('partial', 'bucketing.Tracker: for any history, any draws and all four methods, sizes and parallel lists proved, and no call fails when the capacity is positive (and AChao weights are positive); capacity 0 and AChao with total weight 0 raise (refuted). braidsearch.Tracker still to do.')
STATUS['C70'] = ('partial', 'bucketing.Tracker proved for any history; braidsearch.Tracker still to do.')
STATUS['C71'] = ('partial', 'bucketing.Tracker proved for any history; braidsearch.Tracker still to do.')
STATUS['C73'] = ('proved', 'For any history of additions and discards: the stored items dominate the items not stored.')
STATUS['C74'] = ('proved', 'For any history of additions and discards.')
STATUS['C75'] = ('proved', 'Both copies of batched have the same code.')
STATUS['C69'] = ('proved', 'Both trackers, for any history of additions and discards, any draws and all methods. No call fails when the capacity is positive (and AChao weights are positive; braidsearch: images have a constant term); the exceptions outside that domain are the _refuted theorems.')
STATUS['C70'] = ('proved', 'Both trackers, for any history. C70_duplicates_refuted: a full braidsearch bucket with a random generator can hold the same braid twice.')
STATUS['C71'] = ('proved', 'Both trackers, for any history; in braidsearch the count of a discarded bucket stays in the dict but is reset when the bucket is created again. The count includes offers of braids already in the bucket.')
STATUS['C72'] = ('partial', 'braidsearch: exact, for every history, with other buckets interleaved and their draws arbitrary. bucketing: exact if u <= c/s has probability c/s (such distributions exist, C72_midpoints), refuted for random.random() with M equally likely multiples of 1/M (C72_grid_refuted): the comparison <= is too likely by 1/M.')
STATUS['C88'] = ('proved', '')
STATUS['C89'] = ('proved', 'loops are connected components of the closure, defined separately from the walk')
STATUS['C90'] = ('partial', 'proved except project_vector, which refuses every element of TLCell(n, r) for r >= 1 (C90_project_vector_refuted: it asserts mor.bot == n where the cell module lives in bot = n - 2r); C90_project_vector states what it does')
STATUS['C93'] = ('proved', 'every n, every morphism; the sum includes r = n//2')
STATUS['C94'] = ('partial', 'refuted for every n: r = n//2 is missing (C94_all_cells_refuted), and only it (C94_missing_one)')
STATUS['C57'] = ('proved', 'Every braid of length >= 1 or not, every n; literal_eval is modelled for tuples of decimal integers (the int digit limit of 4300 is not), sqlite3 itself is not modelled. C57_search_text: the text search.py stores (JSON-like repr) is read by literal_eval but refused by convert_braid.')
STATUS['C77'] = ('proved', 'exact set of selected and saved buckets, for every state of a run (C77_reachable) and every order of the rows; counts are exact integers, pandas is not modelled')
STATUS['C78'] = ('proved', 'every prefix of the sequence of database events, including runs that end by an exception; that SQLite keeps exactly the committed rows is trusted')
STATUS['C79'] = ('proved', 'both trackers, GNF')
STATUS['C63'] = ('partial', 'refuted for r = 0: dimension, identity and every evaluation raise ValueError (C63_r_zero_refuted); for 1 <= r the dimension is the number of basis elements (C63_dimension)')
STATUS['C95'] = ('proved', 'all n, r, p and all words for Delta^2')
STATUS['C37'] = ('proved', 'every n and every noncrossing partition')
STATUS['C38'] = ('proved', 'every n; from_components and from_permutation accept exactly the uncrossed inputs. The constructor itself checks nothing (C38_constructor_unchecked_refuted: __post__init__ is misspelt). Components given as a one-shot iterator are not modelled.')
STATUS['C39'] = ('proved', 'every n')
STATUS['C55'] = ('proved', 'the table without its size guard, every n >= 2; C55_table_domain: the guard admits exactly 2 <= n <= 9')
STATUS['C56'] = ('proved', 'tables without size guards, every n >= 2 (both tables exist for n <= 6)')
STATUS['C96'] = ('partial', 'proved for n >= 3 (partitions: n >= 2); refuted for n = 2, where both bkl_gens raise AssertionError (C96_bkl_gens_two_refuted)')
STATUS['C61'] = ('partial', 'proved for GNF braids of the Jones representation, every n >= 2, r and p <> 1, under the stated bounds that keep the arithmetic inside int64 (C61_gnf, C61_gnf_one) and for the rejected inputs (C61_rejects). Missing: DGNF braids, and the JonesSummand copy of the algorithm.')
STATUS['C61'] = ('partial', 'proved for GNF and DGNF braids of the Jones representation, every n >= 2, r and p <> 1, under the stated bounds that keep the arithmetic inside int64 (C61_gnf, C61_gnf_one, C61_dgnf) and for the rejected inputs (C61_rejects). Missing: the JonesSummand copy of the algorithm.')
STATUS['C50'] = ('partial', 'GNF: true exactly for even powers of Delta; DGNF: true for powers of delta divisible by n (C50_dgnf_suffixes_partial); refuted for the others (nf_suffixes copies self.power): C50_nf_suffixes_refuted, C50_dgnf_nf_suffixes_refuted')
STATUS['C59'] = ('proved', 'All words, all GNFs, DGNFs and permutations; equality of entries modulo p, and equality of the returned objects for words with a non-zero exponent. Python == between the int identity returned for the empty word and the LPoly identity is False (C59_python_equality_refuted).')
STATUS['C85'] = ('proved', 'GNF and DGNF, every n >= 2 (tables exist for n <= 6 and n <= 9); negative i or j are not modelled (naturals)')
STATUS['C97'] = ('proved', 'every n >= 2, all powers and braids')
STATUS['C98'] = ('proved', 'every n >= 2; the counterpart of C48/C49 for DGNF')
STATUS['C99'] = ('proved', 'every n >= 2, all braids; band generators and delta are given as Artin words')
STATUS['C60'] = ('partial', 'refuted: for every n >= 2, r >= 1 and p <> 1, p <= 2^31, polymat_artin_gens_invs and polymat_evaluate_artin_word raise ValueError for every word, also the empty one (C60_evaluate_artin_word_refuted); n = 1 raises AssertionError. True for r = 0, n >= 2, p < 2^31 (C60_r_zero).')
STATUS['C61'] = ('proved', 'GNF and DGNF braids of the Jones representation (C61_gnf, C61_gnf_one, C61_dgnf) and the JonesSummand copy in braidsearch.py (C61_summand_prefixes, C61_summand, C61_summand_one), every n >= 2, r and p <> 1, under the stated bounds that keep the arithmetic inside int64 / int32; rejected inputs in C61_rejects and C61_summand_rejects. JonesSummand with r = 0 raises ValueError (C63).')
STATUS['C80'] = ('proved', 'every list of GNF braids of any mixture of lengths, with the same bounds as C61 (r >= 1: r = 0 raises ValueError, C63); the list of no braids in C80_empty.')
STATUS['C76'] = ('partial', "bucketing.py: nf_descendants is a run of additions in each of which the k-th matrix is the projectivised image (mod p) of the k-th product, for every argsort, cache, bucket, length and power; with powers 0 the offered braids are exactly the products of each stored braid with each of its suffixes (each normal form extending it, once); any number of calls keeps every stored braid paired with its own image. Refuted for non-zero powers (the suffix cache ignores the power). Hypotheses: JonesRep, GNF, coefficients within int64.")
STATUS['C76'] = ('partial', "bucketing.py: nf_descendants is a run of additions in each of which the k-th matrix is the projectivised image (mod p) of the k-th product, for every argsort, cache, bucket, length and power; with powers 0 the offered braids are exactly the products of each stored braid with each of its suffixes (each normal form extending it, once); any number of calls keeps every stored braid paired with its own image. Refuted for non-zero powers (the suffix cache ignores the power). braidsearch.py: nf_descendants is a run of additions of products with their images, the products being those of each stored braid with each non-empty prefix of each suffix (C76_braidsearch, C76_prefix_descendants); it raises no error (C76_total_braidsearch); after bootstrap_exhaustive and any number of iterations of search.py every stored braid is next to its own image and its tag is its length and the projlen of its Jones matrix mod p (C76_search). Hypotheses: Jones representation, GNF, coefficients within the dtype.")
STATUS['C87'] = ('partial', 'GNF and DGNF, every non-empty list of non-empty sequences of one length (C87_gnf_partial, C87_dgnf_partial), under the int64 bounds of C61; rejections in C87_rejects. Refuted for empty sequences: the result is a batch of one matrix whatever the number of sequences (C87_empty_refuted).')
STATUS['C92'] = ('proved', 'every integer n; 2 cos(2 pi / n) is the real number of Coq (Reals), so the axioms of the real numbers are used, and those of mathcomp algC. The recursion limit of Python is not modelled.')
STATUS['C91'] = ('proved', 'every well-formed array; p positive and within the dtype.')
STATUS['C78'] = ('proved', 'every prefix of the sequence of database events, including runs that end by an exception (C78_atomic, C78_complete); each row names a positive braid of the recorded length whose Jones matrix spans, mod p, exactly the recorded projlen (C78_true_rows: r >= 1, coefficients within int32). That SQLite keeps exactly the committed rows is trusted.')
STATUS['C100'] = ('proved', 'every run of the model of search.py from a new tracker (r >= 1, coefficients within int32; p = 0 also covered under int64 bounds); printing itself (formatting) and the sleep are not modelled.')
STATUS['C101'] = ('partial', 'Proved for r >= 1 and n <= 6 (any n for which the permutation table exists), p >= 2, coefficient bound dim ((step+1) n (n-1) + 1)(p-1)^2 < 2^31 (C101_total). Refuted on the rest of the accepted domain: n = 7 always raises ValueError (C101_n7_refuted), r = 0 raises ValueError (C101_r0_refuted).')
STATUS['C102'] = ('partial', 'Exact storage chances for every capacity proved under an exactly calibrated random() (C102_chance; the 53-bit bias of C72 applies to the real one); proportional to the weights for capacity 1 (C102_single). For capacity >= 2 proportionality is refuted: the last pair is stored with chance w/W, not c w/W (C102_last_refuted), and a heavier pair can be stored less often than lighter ones (C102_heavier_refuted).')
STATUS['C103'] = ('proved', '')
STATUS['C104'] = ('partial', 'Proved: exactly the windows 1 <= i, i+2 <= j <= length-2 are offered, each with its image, without error and without changing the bucket. Refuted: the docstring promises all substrings of length 2 or more, but no window that contains the first, the last or the second last factor is ever tried (C104_all_refuted; nothing happens for length <= 4, C104_short).')
STATUS['C105'] = ('proved', 'the weights are rationals (Python floats round the averages). A bucket with nothing stored cannot occur for capacity >= 1.')
STATUS['C106'] = ('proved', 'other_braidstats and the column of the braids are not modelled.')
STATUS['C107'] = ('proved', 'the hash of the bytes of an image is an arbitrary function of its dtype and cells. C107_case is a run with two groups.')
STATUS['C108'] = ('partial', 'bucketing: C108_sound (JonesRep, GNF braids with at least one factor, bounds of C61_gnf) and C108_checks (both directions, whenever the evaluation has as many coefficients as the stored batch). Refuted: the comparison broadcasts the degree axis, so a wrong matrix of another length can be declared sound (C108_broadcast_refuted); the braidsearch version reads self.p, which does not exist, and raises AttributeError as soon as there is a bucket (C108_braidsearch_refuted).')
STATUS['C109'] = ('proved', 'for r >= 1 and p <> 1 within the int32 bound of C61, and for p = 0 when the coefficients fit in int64; a length of 0 gives inf or nan, so nothing. C109_case: 4 of 22 braids of B_4.')
STATUS['C110'] = ('proved', 'bounds as in C109. C110_sample and C110_upto are total in the draws, C110_every says that every list of braids can be drawn; an empty range of lengths gives the empty batch.')
STATUS['C111'] = ('proved', 'C111_repr for int/LPoly entries, C111_repr_int for ints, C111_str with the exact exception; C111_case shows the layouts.')
STATUS['C112'] = ('proved', 'over an abstract commutative ring with setoid equality (the LPoly and int instances are those of C22); C112_integral for the mixed int/LPoly entries.')
STATUS['C113'] = ('proved', 'C113_gnf, C113_dgnf, C113_evaluate give both directions (value and IndexError); C113_same relates them modulo p.')
STATUS['C114'] = ('proved', 'C114_faithful and C114_faithful_gnf in both directions; C114_span for every normal form; C114_projlen and C114_below within the integer bounds of C61 and C109 (needed by numpy, not by the mathematics).')
STATUS['C115'] = ('proved', 'C115_generators (every n, p, s and coefficient), C115_same_matrices (the objects, over the integers), C115_burau_generator with its errors, C115_step and C115_step_id for words.')
STATUS['C116'] = ('proved', 'C116_round_trip for every normal form; the elements by a certified calculator (BurauKernel.same_image_ok) evaluated in the kernel; C116_notebook_d for every p, C116_readme_powers for every power; C116_kernel_translates and C116_unfaithful.')
STATUS['C117'] = ('proved', 'Greatest lower bounds for left division are constructed in the group (TorsionFree.glb_list) and give C117_words for every n; C117_gnf_* and C117_dgnf_* for the objects; C117_infinite_fibres for every representation.')
STATUS['C118'] = ('proved', 'The quotient of the last column is exact in the model (a float in the code); division by length 0 (nan or inf in the code) is None.')
STATUS['C119'] = ('proved', 'Coordinates are real numbers in the model (floats in the code); the text of the SVG file is not modelled.')
STATUS['C120'] = ('partial', 'False: C120_refuted (six nested arcs in each row of a diagram of TL(12): the outermost arcs cross) and C120_nested_refuted (an arc over thirteen small ones passes under the top of the first). Proved for arcs beside each other, strands between the rows, concentric arcs, and arcs of different rows of length at most 10; arcs of one row with different centres and a strand next to an arc are not covered.')
STATUS['C121'] = ('proved', '')
STATUS['C122'] = ('proved', '')
STATUS['C123'] = ('partial', 'Proved as an equivalence for the reduced Burau representations (r = 1), every n >= 2, every p <> 1 and every braid, and for what search.py prints; refuted for JonesCellRep(4, 2) and every p <> 1, where sigma_1 sigma_2 sigma_1 has projective length 1 but is not of this form.')
STATUS['C124'] = ('proved', 'Permutations, GNF, DGNF, noncrossing partitions and matrices. The number of points of a permutation and the number of strands are not displayed (C124_permutation_size).')
STATUS['C125'] = ('proved', '')
STATUS['C126'] = ('partial', 'The table determines the matrix, int zeros are blank and nothing else is; refuted for LPoly zeros, which are displayed as 0 because their LaTeX is wrapped in dollars before it is compared with 0 (show.py:62-63, 82, 101-102).')
STATUS['C127'] = ('proved', 'The part of the README claim (C123) that holds for every r.')
STATUS['C128'] = ('proved', 'The branching rule of the cell modules, with the converse (the pieces determine the matrix) from the full twist of C95.')
STATUS['C129'] = ('proved', 'The action of Delta on half diagrams by induction on the number of cups; the other symmetries follow from it and from the bar involution.')
STATUS['C130'] = ('proved', 'For p >= 2, images within int32 (the hypotheses of C101). The bucket size must exceed the count: a full bucket replaces a random entry even by a braid it already holds.')
STATUS['C131'] = ('proved', 'The random generator is given by its sequence of draws (as in C101).')
STATUS['C132'] = ('proved', 'The comparison methods that dataclass(order=True) generates; the clause that equal means the same braid is proved for GNF. The order depends on the numbering of the simple elements, so on the process that built the table.')
STATUS['C133'] = ('proved', 'The bound on the memory under the hypotheses of C76_search: images within int32 for p >= 2, within int64 for p = 0.')
STATUS['C134'] = ('proved', '')
STATUS['C135'] = ('proved', '')
STATUS['C136'] = ('proved', '')
STATUS['C137'] = ('proved', '')
