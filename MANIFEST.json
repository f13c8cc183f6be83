{
 "claims": [
  {
   "property": "C01",
   "status": "proved",
   "theorems": [
    "C01_is_permutation"
   ],
   "note": "arbitrary integers, any length"
  },
  {
   "property": "C02",
   "status": "proved",
   "theorems": [
    "C02_compose",
    "C02_assoc",
    "C02_identity",
    "C02_inverse",
    "C02_size_mismatch"
   ],
   "note": ""
  },
  {
   "property": "C03",
   "status": "proved",
   "theorems": [
    "C03_least_word",
    "C03_zero",
    "C03_inverse",
    "C03_maximum"
   ],
   "note": ""
  },
  {
   "property": "C04",
   "status": "proved",
   "theorems": [
    "C04_right",
    "C04_left",
    "C04_predicates",
    "C04_range"
   ],
   "note": ""
  },
  {
   "property": "C05",
   "status": "proved",
   "theorems": [
    "C05_parity_length",
    "C05_parity_hom"
   ],
   "note": ""
  },
  {
   "property": "C06",
   "status": "proved",
   "theorems": [
    "C06_disjoint_cycles",
    "C06_cycle_type"
   ],
   "note": ""
  },
  {
   "property": "C07",
   "status": "proved",
   "theorems": [
    "C07_shortlex",
    "C07_from_cox"
   ],
   "note": ""
  },
  {
   "property": "C08",
   "status": "proved",
   "theorems": [
    "C08_parallel_descending"
   ],
   "note": ""
  },
  {
   "property": "C09",
   "status": "partial",
   "theorems": [
    "C09_full_cycle",
    "C09_short_cycle_refuted",
    "C09_empty_cycle_refuted",
    "C09_bad_cycle",
    "C09_from_cycles_refuted"
   ],
   "note": "refuted: every non-empty cycle shorter than n raises IndexError and the empty one ValueError; proved correct exactly for cycles through all n points; from_cycles never returns a permutation"
  },
  {
   "property": "C10",
   "status": "partial",
   "theorems": [
    "C10_constructor_refuted",
    "C10_ops_closed"
   ],
   "note": "refuted: __post__init__ is misspelt and never runs; proved instead that every permutation-producing operation is closed"
  },
  {
   "property": "C11",
   "status": "proved",
   "theorems": [
    "C11_elements"
   ],
   "note": "itertools.permutations is modelled by its documented lexicographic enumeration"
  },
  {
   "property": "C12",
   "status": "proved",
   "theorems": [
    "C12_represents",
    "C12_canonical",
    "C12_equality",
    "C12_queries"
   ],
   "note": ""
  },
  {
   "property": "C13",
   "status": "proved",
   "theorems": [
    "C13_add_coefficients",
    "C13_sub_coefficients",
    "C13_neg_coefficients",
    "C13_mul_coefficients",
    "C13_int_operands",
    "C13_ring",
    "C13_domain"
   ],
   "note": "including int operands on either side; additionally no zero divisors"
  },
  {
   "property": "C14",
   "status": "proved",
   "theorems": [
    "C14_nonnegative",
    "C14_negative_unit",
    "C14_negative_other",
    "C14_additive"
   ],
   "note": "ValueError for n < 0 exactly for the non-invertible elements"
  },
  {
   "property": "C15",
   "status": "proved",
   "theorems": [
    "C15_division",
    "C15_of_product",
    "C15_zero"
   ],
   "note": ""
  },
  {
   "property": "C16",
   "status": "proved",
   "theorems": [
    "C16_sound",
    "C16_total",
    "C16_unique",
    "C16_complete",
    "C16_truediv",
    "C16_degree"
   ],
   "note": ""
  },
  {
   "property": "C17",
   "status": "proved",
   "theorems": [
    "C17_is_cyclotomic",
    "C17_product",
    "C17_refuses"
   ],
   "note": "for every n; also identified with mathcomp's cyclotomic polynomial"
  },
  {
   "property": "C18",
   "status": "proved",
   "theorems": [
    "C18_quotient",
    "C18_negate",
    "C18_unique"
   ],
   "note": ""
  },
  {
   "property": "C19",
   "status": "proved",
   "theorems": [
    "C19_coefficients",
    "C19_homomorphism",
    "C19_decides"
   ],
   "note": "moduli m >= 1"
  },
  {
   "property": "C20",
   "status": "partial",
   "theorems": [
    "C20_refuted",
    "C20_repr_partial"
   ],
   "note": "refuted: the constant term always prints as 1 (C20_refuted); proved instead exactly what the printed form determines"
  },
  {
   "property": "C21",
   "status": "proved",
   "theorems": [
    "C21_recurrence",
    "C21_composition",
    "C21_cosine"
   ],
   "note": "the cosine form uses the standard library's real numbers (and their axioms); recurrence and composition are axiom-free"
  },
  {
   "property": "C22",
   "status": "proved",
   "theorems": [
    "C22_ring",
    "C22_equality",
    "C22_mul_coefficients",
    "C22_power",
    "C22_evaluate_int",
    "C22_evaluate_poly"
   ],
   "note": ""
  },
  {
   "property": "C23",
   "status": "proved",
   "theorems": [
    "C23_entries",
    "C23_associative",
    "C23_identity",
    "C23_identity_entries",
    "C23_int_associative",
    "C23_num_associative"
   ],
   "note": "for entries in any commutative ring, instantiated at int and at mixed int/LPoly"
  },
  {
   "property": "C24",
   "status": "proved",
   "theorems": [
    "C24_power",
    "C24_num_power",
    "C24_int_power",
    "C24_zeroth_power_is_int"
   ],
   "note": "M**0 has int entries, so Python == with an LPoly identity is False (C24_zeroth_power_is_int)"
  },
  {
   "property": "C25",
   "status": "partial",
   "theorems": [
    "C25_getitem",
    "C25_column",
    "C25_row_partial",
    "C25_row_refuted",
    "C25_transpose"
   ],
   "note": "row refuted: its bounds test uses ncols, so tall matrices raise IndexError; proved exactly for i < min(nrows, ncols); getitem, column and transpose proved"
  },
  {
   "property": "C26",
   "status": "partial",
   "theorems": [
    "C26_partial",
    "C26_refuted"
   ],
   "note": "refuted: zip pairs each index with itself, so the answer is always True; proved exactly that"
  },
  {
   "property": "C27",
   "status": "proved",
   "theorems": [
    "C27_is_crossingless_matching"
   ],
   "note": "for every sequence of Python ints"
  },
  {
   "property": "C28",
   "status": "proved",
   "theorems": [
    "C28_generate_sequences",
    "C28_generate_sequences_error",
    "C28_no_odd_matching"
   ],
   "note": "including the Catalan count"
  },
  {
   "property": "C29",
   "status": "proved",
   "theorems": [
    "C29_compose",
    "C29_compose_error",
    "C29_constructor",
    "C29_mul"
   ],
   "note": "termination, planarity, path connectivity and loop count against an independent specification"
  },
  {
   "property": "C30",
   "status": "proved",
   "theorems": [
    "C30_associative",
    "C30_identity"
   ],
   "note": ""
  },
  {
   "property": "C31",
   "status": "proved",
   "theorems": [
    "C31_e_defined",
    "C31_e_squared",
    "C31_e_zigzag",
    "C31_e_far",
    "C31_gens_invs",
    "C31_inverse",
    "C31_braid_relation",
    "C31_far_commutation"
   ],
   "note": "relations of the e_i in TLMor; tl_gens_invs(n) always returns n-1 generators 1 - v e_i and inverses 1 - v^-1 e_i, its assertion never fires, and they satisfy the braid relations"
  },
  {
   "property": "C32",
   "status": "proved",
   "theorems": [
    "C32_cell_basis",
    "C32_through_strands",
    "C32_cell_dimension_outside",
    "C32_binomial",
    "C32_tl_basis",
    "C32_tableaux_is_cell_basis"
   ],
   "note": ""
  },
  {
   "property": "C33",
   "status": "proved",
   "theorems": [
    "C33_tensor",
    "C33_tensor_associative",
    "C33_interchange",
    "C33_tensor_identity"
   ],
   "note": ""
  },
  {
   "property": "C34",
   "status": "partial",
   "theorems": [
    "C34_ext_mul_refuted",
    "C34_ext_mul_opposite_partial"
   ],
   "note": "refuted: compose is called with its arguments reversed (C34_ext_mul_refuted); proved instead that on square diagrams it is the opposite product"
  },
  {
   "property": "C35",
   "status": "partial",
   "theorems": [
    "C35_flip",
    "C35_flip_product",
    "C35_flip_tensor",
    "C35_flip_identity",
    "C35_mor_flip",
    "C35_mor_flip_product",
    "C35_twist_v_refuted"
   ],
   "note": "TLDiag.flip proved; TLMor.flip is an involution reversing products and maps v to v^-1, also when twist_v=False, so the documented twist_v=False is refuted (C35_twist_v_refuted)"
  },
  {
   "property": "C36",
   "status": "proved",
   "theorems": [
    "C36_constructor",
    "C36_stored_terms",
    "C36_equality",
    "C36_eqb",
    "C36_add",
    "C36_sub",
    "C36_scale",
    "C36_neg",
    "C36_mul",
    "C36_associative",
    "C36_identity",
    "C36_distributive_left",
    "C36_distributive_right",
    "C36_scalars",
    "C36_add_scalar",
    "C36_power",
    "C36_quotient"
   ],
   "note": "coefficients of sums, multiples and products; associativity, identities, distributivity, powers, quotient; stored terms are nonzero, distinct and sorted; == is equality of coefficients"
  },
  {
   "property": "C37",
   "status": "proved",
   "theorems": [
    "C37_complements",
    "C37_complement_permutations",
    "C37_extremes"
   ],
   "note": "every n and every noncrossing partition"
  },
  {
   "property": "C38",
   "status": "proved",
   "theorems": [
    "C38_components",
    "C38_from_components",
    "C38_from_components_rejects",
    "C38_permutation",
    "C38_from_permutation",
    "C38_from_permutation_rejects",
    "C38_all_of_size",
    "C38_constructor_unchecked_refuted"
   ],
   "note": "every n; from_components and from_permutation accept exactly the uncrossed inputs. The constructor itself checks nothing (C38_constructor_unchecked_refuted: __post__init__ is misspelt). Components given as a one-shot iterator are not modelled."
  },
  {
   "property": "C39",
   "status": "proved",
   "theorems": [
    "C39_triangle",
    "C39_commute",
    "C39_symmetric",
    "C39_adjacent",
    "C39_coarsest_word",
    "C39_split",
    "C39_atoms"
   ],
   "note": "every n"
  },
  {
   "property": "C40",
   "status": "proved",
   "theorems": [
    "C40_renorm_order_independent",
    "C40_table_order_independent"
   ],
   "note": "for every n and every behaviour of set.pop"
  },
  {
   "property": "C41",
   "status": "proved",
   "theorems": [
    "C41_renorm_correct"
   ],
   "note": "for every n"
  },
  {
   "property": "C42",
   "status": "proved",
   "theorems": [
    "C42_normalise_factors"
   ],
   "note": "for every n >= 2 (size guard n < 7 abstracted; see C44_size_guard)"
  },
  {
   "property": "C43",
   "status": "proved",
   "theorems": [
    "C43_product_is_normalise"
   ],
   "note": "for every n >= 2"
  },
  {
   "property": "C44",
   "status": "proved",
   "theorems": [
    "C44_size_guard",
    "C44_gnf_decides_braid_equality"
   ],
   "note": "for every n >= 2 for the table algorithm; with the code's guard, n >= 7 raises ValueError (C44_size_guard)"
  },
  {
   "property": "C45",
   "status": "proved",
   "theorems": [
    "C45_gnf_mul",
    "C45_gnf_assoc",
    "C45_gnf_identity",
    "C45_gnf_inverse"
   ],
   "note": ""
  },
  {
   "property": "C46",
   "status": "proved",
   "theorems": [
    "C46_gnf_pow"
   ],
   "note": ""
  },
  {
   "property": "C47",
   "status": "proved",
   "theorems": [
    "C47_artin_round_trip",
    "C47_artin_round_trip_word",
    "C47_magma_word"
   ],
   "note": ""
  },
  {
   "property": "C48",
   "status": "proved",
   "theorems": [
    "C48_positive_lift",
    "C48_from_gnf_pair",
    "C48_from_gnf_pair_inverts",
    "C48_from_perm_seq",
    "C48_positive_lift_wrong_size"
   ],
   "note": ""
  },
  {
   "property": "C49",
   "status": "proved",
   "theorems": [
    "C49_normal_forms",
    "C49_normal_forms_following",
    "C49_sample",
    "C49_sample_two",
    "C49_negative_length"
   ],
   "note": "for lengths >= 0; sampling total for n >= 3 (n = 2 has no proper divisors, so sampling a positive length raises IndexError); a negative length is refused by normal_forms but count_normal_forms answers as for length 1"
  },
  {
   "property": "C50",
   "status": "partial",
   "theorems": [
    "C50_dgnf_suffixes_partial",
    "C50_dgnf_nf_suffixes_refuted",
    "C50_nf_suffixes_partial",
    "C50_nf_suffixes_refuted"
   ],
   "note": "GNF: true exactly for even powers of Delta; DGNF: true for powers of delta divisible by n (C50_dgnf_suffixes_partial); refuted for the others (nf_suffixes copies self.power): C50_nf_suffixes_refuted, C50_dgnf_nf_suffixes_refuted"
  },
  {
   "property": "C51",
   "status": "partial",
   "theorems": [
    "C51_all_of_length_partial",
    "C51_power_ignored",
    "C51_power_refuted"
   ],
   "note": "refuted: the power argument is ignored (C51_power_refuted); all_of_length itself is proved correct for every power"
  },
  {
   "property": "C52",
   "status": "partial",
   "theorems": [
    "C52_constructor_partial",
    "C52_constructor_single",
    "C52_constructor_refuted"
   ],
   "note": "exact for factors in table range; refuted for a single out-of-range factor, which is never looked up (C52_constructor_refuted)"
  },
  {
   "property": "C53",
   "status": "partial",
   "theorems": [
    "C53_gens_partial",
    "C53_gens_two_refuted",
    "C53_gens_one",
    "C53_constructor"
   ],
   "note": "proved for n >= 3 and n = 1; refuted for n = 2, where gens() raises AssertionError (C53_gens_two_refuted)"
  },
  {
   "property": "C54",
   "status": "proved",
   "theorems": [
    "C54_inf_sup"
   ],
   "note": ""
  },
  {
   "property": "C55",
   "status": "proved",
   "theorems": [
    "C55_table_domain",
    "C55_size_guard",
    "C55_table_order_independent",
    "C55_dgnf_decides_braid_equality",
    "C55_dgnf_mul",
    "C55_dgnf_assoc",
    "C55_dgnf_identity",
    "C55_dgnf_inverse",
    "C55_dgnf_pow",
    "C55_dgnf_artin_round_trip",
    "C55_dgnf_artin_round_trip_word"
   ],
   "note": "the table without its size guard, every n >= 2; C55_table_domain: the guard admits exactly 2 <= n <= 9"
  },
  {
   "property": "C56",
   "status": "proved",
   "theorems": [
    "C56_to_DGNF",
    "C56_to_GNF",
    "C56_homomorphism"
   ],
   "note": "tables without size guards, every n >= 2 (both tables exist for n <= 6)"
  },
  {
   "property": "C57",
   "status": "proved",
   "theorems": [
    "C57_round_trip",
    "C57_injective",
    "C57_search_text",
    "C57_other"
   ],
   "note": "Every braid of length >= 1 or not, every n; literal_eval is modelled for tuples of decimal integers (the int digit limit of 4300 is not), sqlite3 itself is not modelled. C57_search_text: the text search.py stores (JSON-like repr) is read by literal_eval but refused by convert_braid."
  },
  {
   "property": "C58",
   "status": "proved",
   "theorems": [
    "C58_cell_matrix",
    "C58_cell_matrix_mul",
    "C58_constructor",
    "C58_generators",
    "C58_inverse",
    "C58_far_commutation",
    "C58_braid_relation",
    "C58_relations_exact"
   ],
   "note": "For every n >= 1, 2r <= n, p >= 0: the matrices of JonesCellRep(n, r, p) exist, have the stated size and entries (C58_cell_matrix: coefficient of basis[i] in x*basis[j]) and satisfy the braid relations and gens[i]*invs[i] = 1 modulo p; exactly, as objects, for p = 0."
  },
  {
   "property": "C59",
   "status": "proved",
   "theorems": [
    "C59_dgnf_word",
    "C59_dgnf_mul",
    "C59_conversion",
    "C59_braid_invariant",
    "C59_braid_invariant_object",
    "C59_concatenation",
    "C59_generators",
    "C59_empty_word",
    "C59_gnf_word",
    "C59_gnf_mul",
    "C59_perm",
    "C59_gnf_inverse",
    "C59_python_equality_refuted"
   ],
   "note": "All words, all GNFs, DGNFs and permutations; equality of entries modulo p, and equality of the returned objects for words with a non-zero exponent. Python == between the int identity returned for the empty word and the LPoly identity is False (C59_python_equality_refuted)."
  },
  {
   "property": "C60",
   "status": "partial",
   "theorems": [
    "C60_evaluate_artin_word_refuted",
    "C60_one_strand_refuted",
    "C60_r_zero"
   ],
   "note": "refuted: for every n >= 2, r >= 1 and p <> 1, p <= 2^31, polymat_artin_gens_invs and polymat_evaluate_artin_word raise ValueError for every word, also the empty one (C60_evaluate_artin_word_refuted); n = 1 raises AssertionError. True for r = 0, n >= 2, p < 2^31 (C60_r_zero)."
  },
  {
   "property": "C61",
   "status": "proved",
   "theorems": [
    "C61_summand_prefixes",
    "C61_summand",
    "C61_summand_one",
    "C61_summand_rejects",
    "C61_gnf",
    "C61_gnf_one",
    "C61_rejects",
    "C61_dgnf"
   ],
   "note": "GNF and DGNF braids of the Jones representation (C61_gnf, C61_gnf_one, C61_dgnf) and the JonesSummand copy in braidsearch.py (C61_summand_prefixes, C61_summand, C61_summand_one), every n >= 2, r and p <> 1, under the stated bounds that keep the arithmetic inside int64 / int32; rejected inputs in C61_rejects and C61_summand_rejects. JonesSummand with r = 0 raises ValueError (C63)."
  },
  {
   "property": "C62",
   "status": "partial",
   "theorems": [
    "C62_constructor",
    "C62_generators",
    "C62_far_commutation",
    "C62_braid_relation",
    "C62_invertible",
    "C62_positive_words",
    "C62_inverse_refuted"
   ],
   "note": "Braid relations, sizes, invertibility and invariance on positive words are proved for every n, p and all units q, t. The clause that artin_gens_invs returns the inverses is false of the code (it returns the generators twice): C62_inverse_refuted."
  },
  {
   "property": "C63",
   "status": "partial",
   "theorems": [
    "C63_constructor",
    "C63_r_zero_refuted",
    "C63_dimension"
   ],
   "note": "refuted for r = 0: dimension, identity and every evaluation raise ValueError (C63_r_zero_refuted); for 1 <= r the dimension is the number of basis elements (C63_dimension)"
  },
  {
   "property": "C64",
   "status": "proved",
   "theorems": [
    "C64_mul",
    "C64_mul_exact",
    "C64_quotdeg",
    "C64_errors",
    "C64_to_matrix"
   ],
   "note": "All shapes incl. broadcasting, both dtypes: coefficients of the product modulo 2^bits, exact when nothing overflows, truncation with quotdeg, error cases; to_matrix(mul(A,B)) is the product of the Matrix objects."
  },
  {
   "property": "C65",
   "status": "proved",
   "theorems": [
    "C65_projectivise",
    "C65_idempotent",
    "C65_complete",
    "C65_errors",
    "C65_trim",
    "C65_trim_left"
   ],
   "note": "projectivise divides every matrix of the batch by the right power of v, is idempotent, equal images iff equal up to a power of v; trim and trim_left; error cases."
  },
  {
   "property": "C66",
   "status": "partial",
   "theorems": [
    "C66_nonzero",
    "C66_zero",
    "C66_projlen_zero_refuted",
    "C66_invariant",
    "C66_empty_degree",
    "C66_nz_terms"
   ],
   "note": "Proved for non-zero matrices (degmax, valmin, projlen, efflen, invariance under v^k and padding). The clause for the zero matrix is false of the code: projlen returns D, not 0 (C66_projlen_zero_refuted); efflen is 0."
  },
  {
   "property": "C67",
   "status": "proved",
   "theorems": [
    "C67_zeropad",
    "C67_zeropad_error",
    "C67_pack",
    "C67_pack_errors",
    "C67_concatenate",
    "C67_concatenate_empty",
    "C67_concatenate_errors",
    "C67_to_matrix",
    "C67_to_matrix_errors",
    "C67_from_matrix",
    "C67_from_matrix_proj",
    "C67_from_matrix_negative",
    "C67_from_matrix_int",
    "C67_from_matrix_mixed",
    "C67_round_trip",
    "C67_round_trip_array"
   ],
   "note": "pack, zeropad, concatenate keep every coefficient and the order; to_matrix / from_matrix are inverse on polynomial matrices; proj=True divides by the least power; the refused and None cases are exact. Int matrices outside int64 and empty int matrices are not modelled."
  },
  {
   "property": "C68",
   "status": "proved",
   "theorems": [
    "C68_exact",
    "C68_overflow"
   ],
   "note": "Exactness under dim*min(D,E)*(p-1)^2 < 2^(bits-1) for both dtypes; C68_overflow is a reduced int32 example (p = 65537) where the product is wrong."
  },
  {
   "property": "C69",
   "status": "proved",
   "theorems": [
    "C69_bucketing",
    "C69_total",
    "C69_case",
    "C69_capacity_zero_refuted",
    "C69_zero_weight_refuted",
    "C69_braidsearch",
    "C69_total_braidsearch",
    "C69_braidsearch_refuted"
   ],
   "note": "Both trackers, for any history of additions and discards, any draws and all methods. No call fails when the capacity is positive (and AChao weights are positive; braidsearch: images have a constant term); the exceptions outside that domain are the _refuted theorems."
  },
  {
   "property": "C70",
   "status": "proved",
   "theorems": [
    "C70_stored",
    "C70_images",
    "C70_stored_braidsearch",
    "C70_images_braidsearch",
    "C70_duplicates_refuted"
   ],
   "note": "Both trackers, for any history. C70_duplicates_refuted: a full braidsearch bucket with a random generator can hold the same braid twice."
  },
  {
   "property": "C71",
   "status": "proved",
   "theorems": [
    "C71_bucketing",
    "C71_braidsearch"
   ],
   "note": "Both trackers, for any history; in braidsearch the count of a discarded bucket stays in the dict but is reset when the bucket is created again. The count includes offers of braids already in the bucket."
  },
  {
   "property": "C72",
   "status": "partial",
   "theorems": [
    "C72_braidsearch",
    "C72_case",
    "C72_bucketing_partial",
    "C72_midpoints",
    "C72_grid_refuted",
    "C72_uniform_refuted"
   ],
   "note": "braidsearch: exact, for every history, with other buckets interleaved and their draws arbitrary. bucketing: exact if u <= c/s has probability c/s (such distributions exist, C72_midpoints), refuted for random.random() with M equally likely multiples of 1/M (C72_grid_refuted): the comparison <= is too likely by 1/M."
  },
  {
   "property": "C73",
   "status": "proved",
   "theorems": [
    "C73_evict_min"
   ],
   "note": "For any history of additions and discards: the stored items dominate the items not stored."
  },
  {
   "property": "C74",
   "status": "proved",
   "theorems": [
    "C74_greedy_first"
   ],
   "note": "For any history of additions and discards."
  },
  {
   "property": "C75",
   "status": "proved",
   "theorems": [
    "C75_batched",
    "C75_case"
   ],
   "note": "Both copies of batched have the same code."
  },
  {
   "property": "C76",
   "status": "partial",
   "theorems": [
    "C76_bucketing_partial",
    "C76_stored_bucketing",
    "C76_descendants",
    "C76_calls_bucketing",
    "C76_power_refuted",
    "C76_braidsearch",
    "C76_prefix_descendants",
    "C76_stored_braidsearch",
    "C76_search",
    "C76_total_braidsearch"
   ],
   "note": "bucketing.py: nf_descendants is a run of additions in each of which the k-th matrix is the projectivised image (mod p) of the k-th product, for every argsort, cache, bucket, length and power; with powers 0 the offered braids are exactly the products of each stored braid with each of its suffixes (each normal form extending it, once); any number of calls keeps every stored braid paired with its own image. Refuted for non-zero powers (the suffix cache ignores the power). braidsearch.py: nf_descendants is a run of additions of products with their images, the products being those of each stored braid with each non-empty prefix of each suffix (C76_braidsearch, C76_prefix_descendants); it raises no error (C76_total_braidsearch); after bootstrap_exhaustive and any number of iterations of search.py every stored braid is next to its own image and its tag is its length and the projlen of its Jones matrix mod p (C76_search). Hypotheses: Jones representation, GNF, coefficients within the dtype."
  },
  {
   "property": "C77",
   "status": "proved",
   "theorems": [
    "C77_step",
    "C77_lowest",
    "C77_reachable"
   ],
   "note": "exact set of selected and saved buckets, for every state of a run (C77_reachable) and every order of the rows; counts are exact integers, pandas is not modelled"
  },
  {
   "property": "C78",
   "status": "proved",
   "theorems": [
    "C78_atomic",
    "C78_complete",
    "C78_rows",
    "C78_true_rows"
   ],
   "note": "every prefix of the sequence of database events, including runs that end by an exception (C78_atomic, C78_complete); each row names a positive braid of the recorded length whose Jones matrix spans, mod p, exactly the recorded projlen (C78_true_rows: r >= 1, coefficients within int32). That SQLite keeps exactly the committed rows is trusted."
  },
  {
   "property": "C79",
   "status": "proved",
   "theorems": [
    "C79_braidsearch",
    "C79_bucketing"
   ],
   "note": "both trackers, GNF"
  },
  {
   "property": "C80",
   "status": "proved",
   "theorems": [
    "C80_order",
    "C80_empty"
   ],
   "note": "every list of GNF braids of any mixture of lengths, with the same bounds as C61 (r >= 1: r = 0 raises ValueError, C63); the list of no braids in C80_empty."
  },
  {
   "property": "C81",
   "status": "proved",
   "theorems": [
    "C81_fmt_injective",
    "C81_repr_injective"
   ],
   "note": "both modes"
  },
  {
   "property": "C82",
   "status": "proved",
   "theorems": [
    "C82_from_rows",
    "C82_rows",
    "C82_empty"
   ],
   "note": ""
  },
  {
   "property": "C83",
   "status": "proved",
   "theorems": [
    "C83_trace",
    "C83_trace_cyclic",
    "C83_transpose_product"
   ],
   "note": ""
  },
  {
   "property": "C84",
   "status": "proved",
   "theorems": [
    "C84_reflections"
   ],
   "note": "every n"
  },
  {
   "property": "C85",
   "status": "proved",
   "theorems": [
    "C85_dgnf_substring",
    "C85_substring"
   ],
   "note": "GNF and DGNF, every n >= 2 (tables exist for n <= 6 and n <= 9); negative i or j are not modelled (naturals)"
  },
  {
   "property": "C86",
   "status": "proved",
   "theorems": [
    "C86_sub",
    "C86_scale",
    "C86_map",
    "C86_zero",
    "C86_scalar",
    "C86_equality"
   ],
   "note": "any entry type; entries observed through M[i, j]"
  },
  {
   "property": "C87",
   "status": "partial",
   "theorems": [
    "C87_gnf_partial",
    "C87_dgnf_partial",
    "C87_empty_refuted",
    "C87_rejects"
   ],
   "note": "GNF and DGNF, every non-empty list of non-empty sequences of one length (C87_gnf_partial, C87_dgnf_partial), under the int64 bounds of C61; rejections in C87_rejects. Refuted for empty sequences: the result is a batch of one matrix whatever the number of sequences (C87_empty_refuted)."
  },
  {
   "property": "C88",
   "status": "proved",
   "theorems": [
    "C88_constructor",
    "C88_e",
    "C88_id",
    "C88_tensor",
    "C88_add_bubbles",
    "C88_split"
   ],
   "note": ""
  },
  {
   "property": "C89",
   "status": "proved",
   "theorems": [
    "C89_trace_count",
    "C89_trace",
    "C89_trace_linear",
    "C89_trace_cyclic"
   ],
   "note": "loops are connected components of the closure, defined separately from the walk"
  },
  {
   "property": "C90",
   "status": "partial",
   "theorems": [
    "C90_basis",
    "C90_is_zero",
    "C90_project_vector",
    "C90_project_vector_refuted",
    "C90_leftmult_matrix"
   ],
   "note": "proved except project_vector, which refuses every element of TLCell(n, r) for r >= 1 (C90_project_vector_refuted: it asserts mor.bot == n where the cell module lives in bot = n - 2r); C90_project_vector states what it does"
  },
  {
   "property": "C93",
   "status": "proved",
   "theorems": [
    "C93_markov_trace",
    "C93_weights"
   ],
   "note": "every n, every morphism; the sum includes r = n//2"
  },
  {
   "property": "C94",
   "status": "partial",
   "theorems": [
    "C94_cells",
    "C94_all_cells_refuted",
    "C94_missing_one"
   ],
   "note": "refuted for every n: r = n//2 is missing (C94_all_cells_refuted), and only it (C94_missing_one)"
  },
  {
   "property": "C95",
   "status": "proved",
   "theorems": [
    "C95_full_twist",
    "C95_multiply"
   ],
   "note": "all n, r, p and all words for Delta^2"
  },
  {
   "property": "C96",
   "status": "partial",
   "theorems": [
    "C96_from_npar_seq",
    "C96_from_npar",
    "C96_dgnf_bkl_gens",
    "C96_bkl_gens",
    "C96_bkl_gens_two_refuted"
   ],
   "note": "proved for n >= 3 (partitions: n >= 2); refuted for n = 2, where both bkl_gens raise AssertionError (C96_bkl_gens_two_refuted)"
  },
  {
   "property": "C97",
   "status": "proved",
   "theorems": [
    "C97_central",
    "C97_full_twist"
   ],
   "note": "every n >= 2, all powers and braids"
  },
  {
   "property": "C98",
   "status": "proved",
   "theorems": [
    "C98_all_of_length",
    "C98_sample"
   ],
   "note": "every n >= 2; the counterpart of C48/C49 for DGNF"
  },
  {
   "property": "C99",
   "status": "proved",
   "theorems": [
    "C99_inf_sup"
   ],
   "note": "every n >= 2, all braids; band generators and delta are given as Artin words"
  },
  {
   "property": "C92",
   "status": "proved",
   "theorems": [
    "C92_minimal_polynomial",
    "C92_unique",
    "C92_refuses"
   ],
   "note": "every integer n; 2 cos(2 pi / n) is the real number of Coq (Reals), so the axioms of the real numbers are used, and those of mathcomp algC. The recursion limit of Python is not modelled."
  },
  {
   "property": "C91",
   "status": "proved",
   "theorems": [
    "C91_eye",
    "C91_neutral_right",
    "C91_neutral_left",
    "C91_mod"
   ],
   "note": "every well-formed array; p positive and within the dtype."
  },
  {
   "property": "C100",
   "status": "proved",
   "theorems": [
    "C100_near_kernel"
   ],
   "note": "every run of the model of search.py from a new tracker (r >= 1, coefficients within int32; p = 0 also covered under int64 bounds); printing itself (formatting) and the sleep are not modelled."
  },
  {
   "property": "C101",
   "status": "partial",
   "theorems": [
    "C101_total",
    "C101_n7_refuted",
    "C101_r0_refuted"
   ],
   "note": "Proved for r >= 1 and n <= 6 (any n for which the permutation table exists), p >= 2, coefficient bound dim ((step+1) n (n-1) + 1)(p-1)^2 < 2^31 (C101_total). Refuted on the rest of the accepted domain: n = 7 always raises ValueError (C101_n7_refuted), r = 0 raises ValueError (C101_r0_refuted)."
  },
  {
   "property": "C102",
   "status": "partial",
   "theorems": [
    "C102_chance",
    "C102_single",
    "C102_last_refuted",
    "C102_heavier_refuted",
    "C102_case"
   ],
   "note": "Exact storage chances for every capacity proved under an exactly calibrated random() (C102_chance; the 53-bit bias of C72 applies to the real one); proportional to the weights for capacity 1 (C102_single). For capacity >= 2 proportionality is refuted: the last pair is stored with chance w/W, not c w/W (C102_last_refuted), and a heavier pair can be stored less often than lighter ones (C102_heavier_refuted)."
  },
  {
   "property": "C103",
   "status": "proved",
   "theorems": [
    "C103_product",
    "C103_total",
    "C103_missing"
   ],
   "note": ""
  },
  {
   "property": "C104",
   "status": "partial",
   "theorems": [
    "C104_substrings",
    "C104_total",
    "C104_short",
    "C104_missing",
    "C104_all_refuted"
   ],
   "note": "Proved: exactly the windows 1 <= i, i+2 <= j <= length-2 are offered, each with its image, without error and without changing the bucket. Refuted: the docstring promises all substrings of length 2 or more, but no window that contains the first, the last or the second last factor is ever tried (C104_all_refuted; nothing happens for length <= 4, C104_short)."
  },
  {
   "property": "C105",
   "status": "proved",
   "theorems": [
    "C105_bucketing",
    "C105_braidsearch",
    "C105_reservoir",
    "C105_case",
    "C105_case_braidsearch"
   ],
   "note": "the weights are rationals (Python floats round the averages). A bucket with nothing stored cannot occur for capacity >= 1."
  },
  {
   "property": "C106",
   "status": "proved",
   "theorems": [
    "C106_bucket_stats",
    "C106_missing"
   ],
   "note": "other_braidstats and the column of the braids are not modelled."
  },
  {
   "property": "C107",
   "status": "proved",
   "theorems": [
    "C107_groups",
    "C107_images",
    "C107_missing"
   ],
   "note": "the hash of the bytes of an image is an arbitrary function of its dtype and cells. C107_case is a run with two groups."
  },
  {
   "property": "C108",
   "status": "partial",
   "theorems": [
    "C108_checks",
    "C108_braidsearch_refuted",
    "C108_sound",
    "C108_broadcast_refuted"
   ],
   "note": "bucketing: C108_sound (JonesRep, GNF braids with at least one factor, bounds of C61_gnf) and C108_checks (both directions, whenever the evaluation has as many coefficients as the stored batch). Refuted: the comparison broadcasts the degree axis, so a wrong matrix of another length can be declared sound (C108_broadcast_refuted); the braidsearch version reads self.p, which does not exist, and raises AttributeError as soon as there is a bucket (C108_braidsearch_refuted)."
  },
  {
   "property": "C109",
   "status": "proved",
   "theorems": [
    "C109_below"
   ],
   "note": "for r >= 1 and p <> 1 within the int32 bound of C61, and for p = 0 when the coefficients fit in int64; a length of 0 gives inf or nan, so nothing. C109_case: 4 of 22 braids of B_4."
  },
  {
   "property": "C110",
   "status": "proved",
   "theorems": [
    "C110_sample",
    "C110_every",
    "C110_upto",
    "C110_none"
   ],
   "note": "bounds as in C109. C110_sample and C110_upto are total in the draws, C110_every says that every list of braids can be drawn; an empty range of lengths gives the empty batch."
  },
  {
   "property": "C111",
   "status": "proved",
   "theorems": [
    "C111_repr",
    "C111_repr_int",
    "C111_str"
   ],
   "note": "C111_repr for int/LPoly entries, C111_repr_int for ints, C111_str with the exact exception; C111_case shows the layouts."
  },
  {
   "property": "C112",
   "status": "proved",
   "theorems": [
    "C112_vectors",
    "C112_transposed",
    "C112_coord",
    "C112_entries",
    "C112_square",
    "C112_column",
    "C112_scalar",
    "C112_integral"
   ],
   "note": "over an abstract commutative ring with setoid equality (the LPoly and int instances are those of C22); C112_integral for the mixed int/LPoly entries."
  },
  {
   "property": "C113",
   "status": "proved",
   "theorems": [
    "C113_gnf",
    "C113_dgnf",
    "C113_evaluate",
    "C113_same"
   ],
   "note": "C113_gnf, C113_dgnf, C113_evaluate give both directions (value and IndexError); C113_same relates them modulo p."
  },
  {
   "property": "C114",
   "status": "proved",
   "theorems": [
    "C114_span",
    "C114_faithful",
    "C114_faithful_gnf",
    "C114_flat",
    "C114_projlen",
    "C114_below"
   ],
   "note": "C114_faithful and C114_faithful_gnf in both directions; C114_span for every normal form; C114_projlen and C114_below within the integer bounds of C61 and C109 (needed by numpy, not by the mathematics)."
  },
  {
   "property": "C115",
   "status": "proved",
   "theorems": [
    "C115_burau_generator",
    "C115_generators",
    "C115_same_matrices",
    "C115_step",
    "C115_step_id"
   ],
   "note": "C115_generators (every n, p, s and coefficient), C115_same_matrices (the objects, over the integers), C115_burau_generator with its errors, C115_step and C115_step_id for words."
  },
  {
   "property": "C116",
   "status": "proved",
   "theorems": [
    "C116_round_trip",
    "C116_notebook_a",
    "C116_notebook_b",
    "C116_notebook_c",
    "C116_readme",
    "C116_notebook_d",
    "C116_readme_powers",
    "C116_kernel_translates",
    "C116_unfaithful"
   ],
   "note": "C116_round_trip for every normal form; the elements by a certified calculator (BurauKernel.same_image_ok) evaluated in the kernel; C116_notebook_d for every p, C116_readme_powers for every power; C116_kernel_translates and C116_unfaithful."
  },
  {
   "property": "C117",
   "status": "proved",
   "theorems": [
    "C117_words",
    "C117_words_powers",
    "C117_gnf_order",
    "C117_gnf_powers",
    "C117_gnf_roots",
    "C117_dgnf_order",
    "C117_dgnf_powers",
    "C117_dgnf_roots",
    "C117_infinite_fibres",
    "C117_published_fibres"
   ],
   "note": "Greatest lower bounds for left division are constructed in the group (TorsionFree.glb_list) and give C117_words for every n; C117_gnf_* and C117_dgnf_* for the objects; C117_infinite_fibres for every representation."
  },
  {
   "property": "C118",
   "status": "proved",
   "theorems": [
    "C118_list",
    "C118_array",
    "C118_rejects",
    "C118_evaluated"
   ],
   "note": "The quotient of the last column is exact in the model (a float in the code); division by length 0 (nan or inf in the code) is None."
  },
  {
   "property": "C119",
   "status": "proved",
   "theorems": [
    "C119_arcs",
    "C119_once",
    "C119_each_once",
    "C119_places",
    "C119_inside"
   ],
   "note": "Coordinates are real numbers in the model (floats in the code); the text of the SVG file is not modelled."
  },
  {
   "property": "C120",
   "status": "partial",
   "theorems": [
    "C120_beside_partial",
    "C120_strands_partial",
    "C120_concentric_partial",
    "C120_rows_partial",
    "C120_refuted",
    "C120_nested_refuted"
   ],
   "note": "False: C120_refuted (six nested arcs in each row of a diagram of TL(12): the outermost arcs cross) and C120_nested_refuted (an arc over thirteen small ones passes under the top of the first). Proved for arcs beside each other, strands between the rows, concentric arcs, and arcs of different rows of length at most 10; arcs of one row with different centres and a strand next to an arc are not covered."
  },
  {
   "property": "C121",
   "status": "proved",
   "theorems": [
    "C121_hom",
    "C121_quotient",
    "C121_decides",
    "C121_fibres",
    "C121_trivial",
    "C121_two",
    "C121_two_faithful"
   ],
   "note": ""
  },
  {
   "property": "C122",
   "status": "proved",
   "theorems": [
    "C122_burau",
    "C122_subgroup",
    "C122_gnf",
    "C122_unfaithful"
   ],
   "note": ""
  },
  {
   "property": "C123",
   "status": "partial",
   "theorems": [
    "C123_burau",
    "C123_search",
    "C123_readme_claim_refuted"
   ],
   "note": "Proved as an equivalence for the reduced Burau representations (r = 1), every n >= 2, every p <> 1 and every braid, and for what search.py prints; refuted for JonesCellRep(4, 2) and every p <> 1, where sigma_1 sigma_2 sigma_1 has projective length 1 but is not of this form."
  },
  {
   "property": "C124",
   "status": "proved",
   "theorems": [
    "C124_permutation",
    "C124_gnf",
    "C124_gnf_braid",
    "C124_npar",
    "C124_dgnf",
    "C124_dgnf_braid",
    "C124_matrix"
   ],
   "note": "Permutations, GNF, DGNF, noncrossing partitions and matrices. The number of points of a permutation and the number of strands are not displayed (C124_permutation_size)."
  },
  {
   "property": "C125",
   "status": "proved",
   "theorems": [
    "C125_repr"
   ],
   "note": ""
  },
  {
   "property": "C126",
   "status": "partial",
   "theorems": [
    "C126_entries",
    "C126_zeros_blank_partial",
    "C126_zeros_blank_refuted",
    "C126_lpoly_never_blank",
    "C126_columns_need_html"
   ],
   "note": "The table determines the matrix, int zeros are blank and nothing else is; refuted for LPoly zeros, which are displayed as 0 because their LaTeX is wrapped in dollars before it is compared with 0 (show.py:62-63, 82, 101-102)."
  },
  {
   "property": "C127",
   "status": "proved",
   "theorems": [
    "C127_power",
    "C127_not_faithful",
    "C127_search"
   ],
   "note": "The part of the README claim (C123) that holds for every r."
  },
  {
   "property": "C128",
   "status": "proved",
   "theorems": [
    "C128_restriction",
    "C128_submatrix",
    "C128_blocks",
    "C128_three"
   ],
   "note": "The branching rule of the cell modules, with the converse (the pieces determine the matrix) from the full twist of C95."
  },
  {
   "property": "C129",
   "status": "proved",
   "theorems": [
    "C129_basis",
    "C129_garside",
    "C129_multiply",
    "C129_flip",
    "C129_mirror",
    "C129_relations",
    "C129_projlen",
    "C129_factors",
    "C129_same_span"
   ],
   "note": "The action of Delta on half diagrams by induction on the number of cups; the other symmetries follow from it and from the bar involution."
  },
  {
   "property": "C130",
   "status": "proved",
   "theorems": [
    "C130_stored",
    "C130_program",
    "C130_none",
    "C130_equal_size_refuted"
   ],
   "note": "For p >= 2, images within int32 (the hypotheses of C101). The bucket size must exceed the count: a full bucket replaces a random entry even by a braid it already holds."
  },
  {
   "property": "C131",
   "status": "proved",
   "theorems": [
    "C131_program",
    "C131_database"
   ],
   "note": "The random generator is given by its sequence of draws (as in C101)."
  },
  {
   "property": "C132",
   "status": "proved",
   "theorems": [
    "C132_total",
    "C132_transitive",
    "C132_mixed",
    "C132_power",
    "C132_extension",
    "C132_factors",
    "C132_strands",
    "C132_sorted",
    "C132_sorted_braids"
   ],
   "note": "The comparison methods that dataclass(order=True) generates; the clause that equal means the same braid is proved for GNF. The order depends on the numbering of the simple elements, so on the process that built the table."
  },
  {
   "property": "C133",
   "status": "proved",
   "theorems": [
    "C133_degrees",
    "C133_projlen",
    "C133_memory"
   ],
   "note": "The bound on the memory under the hypotheses of C76_search: images within int32 for p >= 2, within int64 for p = 0."
  },
  {
   "property": "C134",
   "status": "proved",
   "theorems": [
    "C134_inverse",
    "C134_subadditive",
    "C134_step",
    "C134_exists",
    "C134_distance"
   ],
   "note": ""
  },
  {
   "property": "C135",
   "status": "proved",
   "theorems": [
    "C135_gnf",
    "C135_dgnf",
    "C135_gnf_parent",
    "C135_dgnf_parent",
    "C135_gnf_level",
    "C135_dgnf_level",
    "C135_canonical_factor"
   ],
   "note": ""
  },
  {
   "property": "C136",
   "status": "proved",
   "theorems": [
    "C136_gnf_mul",
    "C136_dgnf_mul",
    "C136_dgnf_inverse",
    "C136_gnf_pow",
    "C136_dgnf_pow"
   ],
   "note": ""
  },
  {
   "property": "C137",
   "status": "proved",
   "theorems": [
    "C137_gnf",
    "C137_dgnf"
   ],
   "note": ""
  }
 ]
}