# Formal model of geordw/braids-project (package `peyl`) in Rocq/Coq 8.16.1

## Layout

`rocq/theories/`

* `Base.v` – Python-level values: exceptions as values (`res`), list/tuple helpers.
* `Model*.v` – one file per source module; executable Gallina, function by function, every definition citing
  the file and lines it models. No proofs beyond what Coq needs to accept the definitions.
* `Spec*.v` – small specifications that do not mention the model: rearrangement of 0..n-1, braid group by
  Artin's presentation, crossingless matching, coefficient functions of Laurent polynomials, ...
* other files – lemmas.
* `Props*.v` – only the property theorems, each closed by `exact <lemma>` (or a one line application), each with
  `Print Assumptions` underneath and an `Example` showing that the hypotheses are met by a non trivial value.

Conventions: Python ints are `Z` (or `nat` where the code's own range check makes them non-negative indices); tuples and lists
are `list`; an exception is `Err e`; a `while` loop is recursion on fuel returning `Err OutOfFuel` when it is exhausted and the
theorems prove `Ok`, so termination is part of the statement; `set.pop()`, dictionary order, random draws are
oracles/relations that the theorems quantify over universally.

If the full property is false of the code, the file proves `..._refuted` (a concrete witness on the model) and the exact
domain on which it does hold; the manifest then says `partial`.

## Plan per property

| id | model | proof |
|---|---|---|
| C01 | `permutations.is_permutation` on arbitrary `list Z`, bit mask via `Z.lor`/`Z.shiftl` | equivalence with "rearrangement of 0..n-1" (`Permutation w (seq 0 n)`) |
| C02 | `identity, inverse, compose` | pointwise on lists, pigeonhole |
| C03-C04 | `length`, descent sets | inversion counting; exchange by adjacent swap; least word length by induction |
| C05 | `parity` through `cycle_type` | each adjacent swap changes the number of cycles by one |
| C06 | `disjoint_cycles`, `cycle_type` while loops on fuel | orbit invariant; fuel never runs out |
| C07 | `shortlex` loop | loop invariant "prefix sorted"; greedy smallest left descent is lexicographically least |
| C08 | `is_parallel_descending_cycles` | equivalence with the definition of noncrossing descending cycles |
| C09,C10 | `from_cycle`, `Permutation(...)` | refuted by witness; theorem on the domain where it holds |
| C11 | `itertools.permutations(range(n))` as the documented lexicographic enumeration | membership, NoDup, sortedness, index bijection |
| C12-C15, C18, C19 | `lpoly.py` | coefficient function `Z -> Z`; extensionality of canonical forms |
| C16,C17,C20-C22 | `poly.py` | coefficient function; Euclidean division by loop invariant; cyclotomic by strong induction (exactness of the divisions from the known factorisation, mathcomp `Cyclotomic`), Chebyshev recurrence |
| C23-C26 | `matrix.py` over an abstract commutative ring | sums |
| C27-C36 | `tl.py` | crossingless matchings as involutions; path following as graph connectivity |
| C37-C39 | `noncrossing.py`, NPar part of `braid.py` | partitions as label lists; BKL relations in the presented group |
| C40-C48, C54 | `braid.py` tables, normalisation, GNF | abstract Garside germ theory (heads, dominoes, action on normal forms), instance for permutations by inversion sets |
| C49-C53 | enumerations, constructors | path counting; refutations |
| C55, C56 | `NParTable`, DGNF | second instance of the germ theory |
| C57 | `adapt_braid`/`convert_braid` | printing/parsing of decimal integers round trip |
| C58-C63 | `jonesrep.py` | TL relations on the cell module; Krammer matrices by entrywise case analysis |
| C64-C68 | `polymat.py` as maps on coefficient arrays | coefficientwise |
| C69-C74 | `bucketing.py`, `braidsearch.py` trackers | invariants over operation sequences; counting of random outcomes |
| C75-C80 | `braidsearch.py`, `search.py` | invariants; prefix-of-steps atomicity model |
| C81 | `LPoly.fmt`, `LPoly.__repr__` (`ModelRepr.v`) | an explicit reader of the printed text recovers the polynomial |
| C82, C83, C86, C111, C112 | the rest of `matrix.py` (`ModelMatrix.v`, `ModelText.v`) | entrywise; a reader of the printed text |
| C84, C85, C113 | `reflections`, `substring`, negative letters of Artin words | list lemmas; the same index convention in all four readers of words |
| C60, C61, C80, C87, C91 | batched evaluation (`ModelPolyRep.v`) | an invariant "this array represents this matrix up to a power of v", carried through every numpy operation (`PolyRepTheory`, `PolyRepSpan`, `JSTheory`) |
| C76, C103, C104 | `nf_descendants`, `bucket_product`, `substrings` (`ModelTracker.v`, `ModelTools.v`) | each offered product equals the braid product and its image the image of that product (`DescTheory*`) |
| C88-C90, C93, C94 | extended diagrams, trace, `TLCell` projections, `JonesRep` | loop counting; Markov trace by induction on the basis (`MarkovTheory`) |
| C92 | `minpolycos` | the divisions of Chebyshev differences are exact because those differences factor (`CosTheory`, over algebraic numbers in mathcomp), so the code computes these factors (`CosCode`); root and irreducibility follow |
| C95, C97 | full twist in `GNF`, `DGNF`, `JonesCellRep` | Delta^2 in Artin's presentation (`FullTwistBraid`), central, acts by a scalar (`FullTwistRep`); delta^n = Delta^2 (`DualTwist`) |
| C96, C98, C99 | dual normal forms: lifts, enumeration, inf/sup | `NFGeneric` (statements for any table that presents the braid group) instantiated at the dual table |
| C100, C101 | `search.py` `main`: arguments, printed report (`search_main`, `search_program`) | unfolding the loop; witness for the refuted part |
| C102, C105-C110, C118 | A-Chao weights, reports, `bucket_stats`, `hash_bucket`, `valiate_buckets`, `all_of_length_below_1`, samplers, data frame | invariants over histories; exact rational arithmetic |
| C114-C116, C121, C122 | consequences a user of the kernel search relies on | faithfulness for n = 3 by a leading-term invariant of the normal form (`BurauThree`); cell r = 1 is Burau (`TLBurau`); the published elements are evaluated inside Coq (`KernelData`); the small cells computed; B_m embeds in B_n (`EmbedTheory`) |
| C123 | README.md:46, the elements with projective length 1 | the invariant form of the Burau matrices gives the image of the inverse of a homogeneous image; the value at v = 1 gives its permutation, which is the identity or the reversal; the exponent follows from the vector that B_n fixes in the matrices of B_(n+1) (`BurauScalar`, `BurauForm`); counterexample for r = 2 from C121 |
| C124 | the `_repr_latex_` methods of permutations, normal forms, noncrossing partitions and matrices | each text is a joined list of codes that cannot contain the separator; generic injectivity of such joins (`jn_inj`), then C-level facts (shortlex words, canonical forms, component lists) |
| C125 | `NPar.__repr__`, the iteration order of a set being an arbitrary permutation | the text gives the big blocks as sets; the small ones are the remaining points |
| C126 | `show.py:FramedMatrix`, `html_repr` | the table as joined cells; the blank cell is refuted for LPoly zeros (`_refuted`) |
| C127 | the same objects as C123, any r | at v = 1 the matrices of sigma_i and its inverse agree, so they give a representation of the symmetric group, and a power of every braid becomes the identity there (`SymWords`); with a homogeneous image that power is a scalar v^e, which the full twist (C95) cancels after a further power |
| C128 | the objects of C58/C59 for two numbers of strands | adding a strand on the right, or bending the last bottom point up, embeds cell modules and commutes with the first generators (`StrandRes`, on the stacked-diagram semantics of C29); Pascal's rule shows that the two embeddings fill the basis; the full twist of B_(n-1) is a different power of v on the two blocks, which determines the off-diagonal block (`StrandBlocks`) |
| C129 | the objects of C58, C59, C95 | Delta conjugates sigma_i to sigma_(n-2-i), and moves through a cup at height k to the cup at n-2-k, losing two strands (`HalfTwist`); induction on the number of cups gives the reflection of every half diagram with the monomial; flips by cancelling Delta, mirror images by the involution v -> 1/v; spans of the powers of v by transport along a signed, shifted permutation (`PropsReflect2`) |
| C130 | the objects of C76, C77, C79, C100 | invariant of the tracker: the buckets of the lengths 1..K hold no braid twice and are not full, so every braid that is offered is stored; every normal form of length k+1 is offered as a descendant of its prefix of length k, whose bucket is selected because the stored braids of length k, being distinct, are at most use_best (`PropsExhaust`) |
| C131 | search_main and search_events with two orders of the stats table | the rows of one length have distinct projective lengths, so their sorted list does not depend on the order; discarding buckets commutes; induction over iterations (`PropsSeed`) |
| C132 | comparison of the tuples (n, power, factors) (`ModelOrder`) | lexicographic order; equality of objects is equality of braids (C44); uniqueness of sorted permutations (`PropsOrder`) |
| C133 | evaluation on the cell module (as in C58, C59, C129) | positive words have no negative powers of v, inverses of positive words no positive ones; Delta shifts by r(n-r+1) (C129), and Delta^-inf b, b^-1 Delta^sup are positive (C54) (`PropsDegree`); tags of distinct buckets of a length are distinct numbers in that range, each bucket holds at most size braids (C69, C76) (`PropsMemory`) |
| C134 | evaluation of normal forms (C59, C133) | conjugation by Delta preserves positivity, so C54 gives inf and sup of the inverse; degrees of an entry of a product lie in the sum of the two degree windows; the lower bound on projlen(ab) is the upper bound for (ab) inv(b) (`PropsSubadd`) |
| C135 | `ModelBraid.v`: nf_descendants, normal_forms, canonical_factor | the enumeration lemma behind C49 with a last factor; appending one factor keeps validity; unlike nf_suffixes (C50) the new factor is multiplied with power 0, so no parity condition (`PropsTree`, which also holds C16_degree and C53_constructor, added after mutants that survived) |
| C136 | `ModelBraid.v`: nf_mul, nf_inv, nf_pow, inf, sup, canonical_length | the inf/sup characterisations by products of simple elements (behind C54, C99), powers of Delta pass such products (`gliftl_taupow`); the lower bounds from a = c b^-1 and b = a^-1 c; powers by induction (`PropsLength`) |
| C137 | `ModelBraid.v`: inf, sup, nf_mul, nf_inv | lower bound by C136; a shortest factorisation by peeling the last canonical factor while sup > 0, and the first of the inverse when sup <= 0 (`PropsGeodesic`) |
| C117 | powers of `GNF` objects | exponent sum and conjugation to a form whose powers are normal (`TorsionFree`) |
| C119, C120 | the SVG pictures of diagrams (`ModelSvg.v`) | real plane geometry of the arcs; witness for the refuted part |

## Trusted base

* The Coq 8.16.1 kernel (and `coqchk`, which `vcheck` runs).
* The reading of the Python source into `Model*.v`. Each definition cites file and lines, and says where it simplifies.
* No axiom is declared in this development. The axioms below are the standard library's.
  The theorems that speak of real numbers (the real cosine in C21 and C92, the plane in C120) use the axioms of `Coq.Reals`
  (`ClassicalDedekindReals.sig_forall_dec`, `sig_not_dec`, `functional_extensionality_dep`, where listed
  `Classical_Prop.classic`); the list at the end says which theorem uses which. Every other theorem is closed under the global
  context. `coqchk` lists all axioms of all *loaded* libraries, hence also the opaque fields of sealed standard library / mathcomp
  modules; no theorem here depends on them, as `Print Assumptions` shows.
* mathcomp is used only for cyclotomic polynomials and minimal polynomials (`CycBridge.v`, `PropsCyc.v`, `CosTheory.v`,
  `CosCode.v`, `PropsCos.v`), Coq's standard library for the rest. No mathcomp axiom is used: mathcomp has none here.

### What is modelled

| source | model | not modelled |
|---|---|---|
| `permutations.py` | `ModelPerm.v`, all functions; `ModelShow.v` (`_repr_latex_`) | – |
| `lpoly.py`, `poly.py` | `ModelPoly.v`, `ModelRepr.v` (`repr`, `fmt`), `ModelShow.v` (`LPoly._repr_latex_`) | hashing; floats as coefficients |
| `matrix.py` | `ModelMatrix.v` over an abstract ring (`LPoly`, `int` and both mixed: `ModelRep.v`), `ModelText.v` (small constructors, predicates, `__repr__`, `__str__`), `ModelShow.v` (`_repr_latex_`) | – |
| `tl.py` | `ModelTL.v`, `ModelTLMor.v`, `ModelSvg.v` (paths and frame of the picture) | the literal XML text around the path data; `_repr_latex_` |
| `noncrossing.py` | `ModelNPar.v`, `ModelShow.v` (`__repr__`, `_repr_latex_`) | – |
| `braid.py` | `ModelBraid.v` (tables, normalisation, `NFBase`, `GNF`, `BraidGroup`), `ModelNPar.v` (`NPar`, `NParTable`, `DGNF`), `ModelSql.v` (adapters), `ModelOrder.v` (comparison) | `lru_cache` (transparent: cached values are immutable); `register_sqlite3_adapters` (one registration call) |
| `jonesrep.py` | `ModelRep.v`, `ModelLKB.v`, `ModelPolyRep.v` | `__repr__` |
| `polymat.py` | `ModelPolymat.v`: an array is an element type, a batch shape, a matrix shape and the coefficients of a rectangular block; wrap-around of int32/int64 is modelled | strides, views and aliasing; floating dtypes |
| `bucketing.py`, `braidsearch.py` | `ModelTracker.v`, `ModelTools.v` (reports, `substrings`, `hash_bucket`, `bucket_product`, list builders), `ModelFrame.v` (data frame); random draws and dictionary/argsort ties are universally quantified | progress bars, timing, pandas display |
| `search.py` | `ModelSearch.v` (arguments, the loop, its database events, the printed report) | `argparse`'s own reading of the command line; logging format |
| `show.py`, notebooks | `ModelShow.v` (`html_repr`, `FramedMatrix`); the kernel elements published in the README and a notebook are data: `KernelData.v` | `Row`, `Latex`; rendering in the browser |

Python `int` is unbounded (`Z`); recursion limits and memory exhaustion are not modelled. A Python exception is an `Err` value
carrying its class, so "raises" is a statement, not a gap. SQLite's own durability is represented by an event log with an arbitrary crash point.

### `Print Assumptions`

<!-- generated by tools/assumptions.py -->

Closed under the global context: every theorem of MANIFEST.json except those listed here (567 of 579 are closed).

* `C120_concentric_partial`, `C120_rows_partial`, `C120_refuted`, `C120_nested_refuted`: `ClassicalDedekindReals.sig_forall_dec`, `ClassicalDedekindReals.sig_not_dec`, `Classical_Prop.classic`, `FunctionalExtensionality.functional_extensionality_dep`

* `C21_cosine`, `C92_minimal_polynomial`, `C92_unique`, `C119_arcs`, `C119_inside`, `C120_beside_partial`, `C120_strands_partial`: `ClassicalDedekindReals.sig_forall_dec`, `ClassicalDedekindReals.sig_not_dec`, `FunctionalExtensionality.functional_extensionality_dep`

* `C119_places`: `ClassicalDedekindReals.sig_forall_dec`, `FunctionalExtensionality.functional_extensionality_dep`

Closed theorems: `C01_is_permutation`, `C02_compose`, `C02_assoc`, `C02_identity`, `C02_inverse`, `C02_size_mismatch`, `C03_least_word`, `C03_zero`, `C03_inverse`, `C03_maximum`, `C04_right`, `C04_left`, `C04_predicates`, `C04_range`, `C05_parity_length`, `C05_parity_hom`, `C06_disjoint_cycles`, `C06_cycle_type`, `C07_shortlex`, `C07_from_cox`, `C08_parallel_descending`, `C09_full_cycle`, `C09_short_cycle_refuted`, `C09_empty_cycle_refuted`, `C09_bad_cycle`, `C09_from_cycles_refuted`, `C10_constructor_refuted`, `C10_ops_closed`, `C11_elements`, `C12_represents`, `C12_canonical`, `C12_equality`, `C12_queries`, `C13_add_coefficients`, `C13_sub_coefficients`, `C13_neg_coefficients`, `C13_mul_coefficients`, `C13_int_operands`, `C13_ring`, `C13_domain`, `C14_nonnegative`, `C14_negative_unit`, `C14_negative_other`, `C14_additive`, `C15_division`, `C15_of_product`, `C15_zero`, `C16_sound`, `C16_total`, `C16_unique`, `C16_complete`, `C16_truediv`, `C18_quotient`, `C18_negate`, `C18_unique`, `C19_coefficients`, `C19_homomorphism`, `C19_decides`, `C22_ring`, `C22_equality`, `C22_mul_coefficients`, `C22_power`, `C22_evaluate_int`, `C22_evaluate_poly`, `C16_degree`, `C53_constructor`, `C135_gnf`, `C135_dgnf`, `C135_gnf_parent`, `C135_dgnf_parent`, `C135_gnf_level`, `C135_dgnf_level`, `C135_canonical_factor`, `C17_is_cyclotomic`, `C17_product`, `C17_refuses`, `C20_refuted`, `C20_repr_partial`, `C81_fmt_injective`, `C81_repr_injective`, `C21_recurrence`, `C21_composition`, `C23_entries`, `C23_associative`, `C23_identity`, `C23_identity_entries`, `C23_int_associative`, `C23_num_associative`, `C24_power`, `C24_num_power`, `C24_int_power`, `C24_zeroth_power_is_int`, `C25_getitem`, `C25_column`, `C25_row_partial`, `C25_row_refuted`, `C25_transpose`, `C26_partial`, `C26_refuted`, `C82_from_rows`, `C82_rows`, `C82_empty`, `C83_trace`, `C83_trace_cyclic`, `C83_transpose_product`, `C27_is_crossingless_matching`, `C28_generate_sequences`, `C28_generate_sequences_error`, `C28_no_odd_matching`, `C29_compose`, `C29_compose_error`, `C29_constructor`, `C29_mul`, `C30_associative`, `C30_identity`, `C32_cell_basis`, `C32_through_strands`, `C32_cell_dimension_outside`, `C32_binomial`, `C32_tl_basis`, `C32_tableaux_is_cell_basis`, `C33_tensor`, `C33_tensor_associative`, `C33_interchange`, `C33_tensor_identity`, `C34_ext_mul_refuted`, `C34_ext_mul_opposite_partial`, `C35_flip`, `C35_flip_product`, `C35_flip_tensor`, `C35_flip_identity`, `C31_e_defined`, `C31_e_squared`, `C31_e_zigzag`, `C31_e_far`, `C31_gens_invs`, `C31_inverse`, `C31_braid_relation`, `C31_far_commutation`, `C35_mor_flip`, `C35_mor_flip_product`, `C35_twist_v_refuted`, `C36_constructor`, `C36_stored_terms`, `C36_equality`, `C36_eqb`, `C36_add`, `C36_sub`, `C36_scale`, `C36_neg`, `C36_mul`, `C36_associative`, `C36_identity`, `C36_distributive_left`, `C36_distributive_right`, `C36_scalars`, `C36_add_scalar`, `C36_power`, `C36_quotient`, `C37_complements`, `C37_complement_permutations`, `C37_extremes`, `C38_components`, `C38_from_components`, `C38_from_components_rejects`, `C38_permutation`, `C38_from_permutation`, `C38_from_permutation_rejects`, `C38_all_of_size`, `C38_constructor_unchecked_refuted`, `C39_triangle`, `C39_commute`, `C39_symmetric`, `C39_adjacent`, `C39_coarsest_word`, `C39_split`, `C39_atoms`, `C40_renorm_order_independent`, `C40_table_order_independent`, `C41_renorm_correct`, `C42_normalise_factors`, `C43_product_is_normalise`, `C44_size_guard`, `C44_gnf_decides_braid_equality`, `C45_gnf_mul`, `C45_gnf_assoc`, `C45_gnf_identity`, `C45_gnf_inverse`, `C46_gnf_pow`, `C47_artin_round_trip`, `C47_artin_round_trip_word`, `C47_magma_word`, `C48_positive_lift`, `C48_from_gnf_pair`, `C48_from_gnf_pair_inverts`, `C48_from_perm_seq`, `C48_positive_lift_wrong_size`, `C49_normal_forms`, `C49_normal_forms_following`, `C49_sample`, `C49_sample_two`, `C49_negative_length`, `C50_nf_suffixes_partial`, `C50_nf_suffixes_refuted`, `C51_all_of_length_partial`, `C51_power_ignored`, `C51_power_refuted`, `C52_constructor_partial`, `C52_constructor_single`, `C52_constructor_refuted`, `C53_gens_partial`, `C53_gens_two_refuted`, `C53_gens_one`, `C54_inf_sup`, `C50_dgnf_suffixes_partial`, `C50_dgnf_nf_suffixes_refuted`, `C59_dgnf_word`, `C59_dgnf_mul`, `C59_conversion`, `C85_dgnf_substring`, `C97_central`, `C97_full_twist`, `C98_all_of_length`, `C98_sample`, `C99_inf_sup`, `C55_table_domain`, `C55_size_guard`, `C55_table_order_independent`, `C55_dgnf_decides_braid_equality`, `C55_dgnf_mul`, `C55_dgnf_assoc`, `C55_dgnf_identity`, `C55_dgnf_inverse`, `C55_dgnf_pow`, `C55_dgnf_artin_round_trip`, `C55_dgnf_artin_round_trip_word`, `C56_to_DGNF`, `C56_to_GNF`, `C56_homomorphism`, `C96_from_npar_seq`, `C96_from_npar`, `C96_dgnf_bkl_gens`, `C96_bkl_gens`, `C96_bkl_gens_two_refuted`, `C57_round_trip`, `C57_injective`, `C57_search_text`, `C57_other`, `C58_cell_matrix`, `C58_cell_matrix_mul`, `C58_constructor`, `C58_generators`, `C58_inverse`, `C58_far_commutation`, `C58_braid_relation`, `C58_relations_exact`, `C59_braid_invariant`, `C59_braid_invariant_object`, `C59_concatenation`, `C59_generators`, `C59_empty_word`, `C59_gnf_word`, `C59_gnf_mul`, `C59_perm`, `C59_gnf_inverse`, `C59_python_equality_refuted`, `C60_evaluate_artin_word_refuted`, `C60_one_strand_refuted`, `C60_r_zero`, `C61_summand_prefixes`, `C61_summand`, `C61_summand_one`, `C61_summand_rejects`, `C80_order`, `C80_empty`, `C61_gnf`, `C61_gnf_one`, `C61_rejects`, `C61_dgnf`, `C62_constructor`, `C62_generators`, `C62_far_commutation`, `C62_braid_relation`, `C62_invertible`, `C62_positive_words`, `C62_inverse_refuted`, `C63_constructor`, `C63_r_zero_refuted`, `C63_dimension`, `C64_mul`, `C64_mul_exact`, `C64_quotdeg`, `C64_errors`, `C65_projectivise`, `C65_idempotent`, `C65_complete`, `C65_errors`, `C65_trim`, `C65_trim_left`, `C66_nonzero`, `C66_zero`, `C66_projlen_zero_refuted`, `C66_invariant`, `C66_empty_degree`, `C66_nz_terms`, `C64_to_matrix`, `C67_to_matrix`, `C67_to_matrix_errors`, `C67_from_matrix`, `C67_from_matrix_proj`, `C67_from_matrix_negative`, `C67_from_matrix_int`, `C67_from_matrix_mixed`, `C67_round_trip`, `C67_round_trip_array`, `C68_exact`, `C68_overflow`, `C67_zeropad`, `C67_zeropad_error`, `C67_pack`, `C67_pack_errors`, `C67_concatenate`, `C67_concatenate_empty`, `C67_concatenate_errors`, `C69_bucketing`, `C69_total`, `C69_case`, `C69_capacity_zero_refuted`, `C69_zero_weight_refuted`, `C70_stored`, `C70_images`, `C71_bucketing`, `C73_evict_min`, `C74_greedy_first`, `C75_batched`, `C75_case`, `C69_braidsearch`, `C69_total_braidsearch`, `C69_braidsearch_refuted`, `C70_stored_braidsearch`, `C70_images_braidsearch`, `C70_duplicates_refuted`, `C71_braidsearch`, `C72_braidsearch`, `C72_case`, `C72_bucketing_partial`, `C72_midpoints`, `C72_grid_refuted`, `C72_uniform_refuted`, `C76_bucketing_partial`, `C76_stored_bucketing`, `C76_descendants`, `C76_calls_bucketing`, `C76_power_refuted`, `C76_braidsearch`, `C76_prefix_descendants`, `C76_stored_braidsearch`, `C76_search`, `C76_total_braidsearch`, `C77_step`, `C77_lowest`, `C77_reachable`, `C78_atomic`, `C78_complete`, `C78_rows`, `C79_braidsearch`, `C79_bucketing`, `C78_true_rows`, `C100_near_kernel`, `C101_total`, `C101_n7_refuted`, `C101_r0_refuted`, `C84_reflections`, `C85_substring`, `C86_sub`, `C86_scale`, `C86_map`, `C86_zero`, `C86_scalar`, `C86_equality`, `C87_gnf_partial`, `C87_dgnf_partial`, `C87_empty_refuted`, `C87_rejects`, `C88_constructor`, `C88_e`, `C88_id`, `C88_tensor`, `C88_add_bubbles`, `C88_split`, `C89_trace_count`, `C89_trace`, `C89_trace_linear`, `C89_trace_cyclic`, `C90_basis`, `C90_is_zero`, `C90_project_vector`, `C90_project_vector_refuted`, `C90_leftmult_matrix`, `C93_markov_trace`, `C93_weights`, `C94_cells`, `C94_all_cells_refuted`, `C94_missing_one`, `C95_full_twist`, `C95_multiply`, `C92_refuses`, `C91_eye`, `C91_neutral_right`, `C91_neutral_left`, `C91_mod`, `C102_chance`, `C102_single`, `C102_last_refuted`, `C102_heavier_refuted`, `C102_case`, `C103_product`, `C103_total`, `C103_missing`, `C104_substrings`, `C104_total`, `C104_short`, `C104_missing`, `C104_all_refuted`, `C105_bucketing`, `C105_braidsearch`, `C105_reservoir`, `C105_case`, `C105_case_braidsearch`, `C106_bucket_stats`, `C106_missing`, `C107_groups`, `C107_images`, `C107_missing`, `C108_checks`, `C108_braidsearch_refuted`, `C108_sound`, `C108_broadcast_refuted`, `C109_below`, `C110_sample`, `C110_every`, `C110_upto`, `C110_none`, `C111_repr`, `C111_repr_int`, `C111_str`, `C112_vectors`, `C112_transposed`, `C112_coord`, `C112_entries`, `C112_square`, `C112_column`, `C112_scalar`, `C112_integral`, `C113_gnf`, `C113_dgnf`, `C113_evaluate`, `C113_same`, `C114_span`, `C114_faithful`, `C114_faithful_gnf`, `C114_flat`, `C114_projlen`, `C114_below`, `C115_burau_generator`, `C115_generators`, `C115_same_matrices`, `C115_step`, `C115_step_id`, `C116_round_trip`, `C116_notebook_a`, `C116_notebook_b`, `C116_notebook_c`, `C116_readme`, `C116_notebook_d`, `C116_readme_powers`, `C116_kernel_translates`, `C116_unfaithful`, `C117_words`, `C117_words_powers`, `C117_gnf_order`, `C117_gnf_powers`, `C117_gnf_roots`, `C117_dgnf_order`, `C117_dgnf_powers`, `C117_dgnf_roots`, `C117_infinite_fibres`, `C117_published_fibres`, `C118_list`, `C118_array`, `C118_rejects`, `C118_evaluated`, `C119_once`, `C119_each_once`, `C121_hom`, `C121_quotient`, `C121_decides`, `C121_fibres`, `C121_trivial`, `C121_two`, `C121_two_faithful`, `C122_burau`, `C122_subgroup`, `C122_gnf`, `C122_unfaithful`, `C123_burau`, `C123_search`, `C123_readme_claim_refuted`, `C124_permutation`, `C124_gnf`, `C124_gnf_braid`, `C124_npar`, `C124_dgnf`, `C124_dgnf_braid`, `C125_repr`, `C124_matrix`, `C126_entries`, `C126_zeros_blank_partial`, `C126_zeros_blank_refuted`, `C126_lpoly_never_blank`, `C126_columns_need_html`, `C127_power`, `C127_not_faithful`, `C127_search`, `C128_restriction`, `C128_submatrix`, `C128_blocks`, `C128_three`, `C129_basis`, `C129_garside`, `C129_multiply`, `C129_flip`, `C129_mirror`, `C129_relations`, `C129_projlen`, `C129_factors`, `C129_same_span`, `C130_stored`, `C130_program`, `C130_none`, `C130_equal_size_refuted`, `C131_program`, `C131_database`, `C132_total`, `C132_transitive`, `C132_mixed`, `C132_power`, `C132_extension`, `C132_factors`, `C132_strands`, `C132_sorted`, `C132_sorted_braids`, `C133_degrees`, `C133_projlen`, `C133_memory`, `C134_inverse`, `C134_subadditive`, `C134_step`, `C134_exists`, `C134_distance`.
