# Formal model of kws-eval in Rocq (Coq 8.16.1)

## Layout

`rocq/theories/Model/*.v` — the model: total, computable Gallina functions, one per C++ function, each
with a comment citing file and lines. No proofs there except the ones Gallina needs to define floats.
`rocq/theories/Spec/*.v` — small specifications written without the model's helpers (cells of a box,
abstract sets, textbook average precision, command-line grammar, ...).
`rocq/theories/Proofs/*.v` — lemmas.
`rocq/theories/Props/*.v` — property theorems only, each closed by `exact lemma`, with
`Print Assumptions` beneath and an `Example` that meets the hypotheses.
`rocq/theories/Proofs/UnitTests.v` — the unit tests of /repo as `Example`s about the model: boxes, events, event
sets, scorers, assessment, matcher (with the mocked set and scorer), mappers, reader, options and parser. The tests
that instantiate `Real = float` are run with double there and with float in `Props/P41_Single.v`; the expected values
are the ones in the tests. Left out:
tests that only construct an object, and streams of mock locations.

## Modelling decisions

* **Undefined behaviour** is an outcome: `outcome A := Ok a | UB | Throw e`. Dereferencing an absent
  ref/hyp, reading a vector out of range, signed overflow, reading an uninitialised counter, casting a
  negative or too large double to `size_t`, calling `std::sort` with a comparator that is not a strict weak
  order on the range: all give `UB`.
* **Integers.** `uint32_t` is `Z` with `mod 2^32` written into every operation. `int` is `Z` with a range
  check giving `UB`. `size_t` counters of objects in memory are `nat` (no wrap: a vector cannot have 2^64
  elements); `size_t` values read from text wrap mod 2^64.
* **float / double** are Flocq `binary_float 24 128` / `53 1024` (one NaN, signed zeros, infinities), round
  to nearest even, each operation rounded (FLT_EVAL_METHOD = 0, no fused operations). `fp_`, `fn_`,
  `score_` and the scorers are always modelled in float32. The template parameter `Real` of Assessment.h
  is an interface `Arith` with two instances used by theorems: exact reals `R` and `binary64`; and a third,
  `Q`, for executable examples. The functions for `Real = float`, which only the tests use and which mix the two
  formats, are written out in Single.v (without NDCG).
* **std::sort** is an arbitrary function meeting the C++ contract (a sorted permutation when the comparator
  is a strict weak order on the range); theorems quantify over it. `std::set`/`std::map` are sorted lists,
  `std::unordered_map` an association list whose iteration order is never observed.
* **Randomness** (`std::default_random_engine`, `uniform_int_distribution`) is an arbitrary state machine (`rng`)
  that draws numbers within the requested range; theorems quantify over it. `Model/Engine.v` has the one of
  libstdc++ (`minstd_rand0` and the rejection loop), which C85 and C86 are about.
* **istream** is modelled at the level of libstdc++: remaining bytes, eofbit, failbit; `getline`, `ws`,
  `peek`, `>>` for string, integers and floats including libstdc++'s `num_get` accumulation rules and
  the "C" locale. Decimal to float conversion is correctly rounded (glibc `strtof`/`strtod`).
* **Files** are a partial function from names to bytes; output is a log of effects: messages, statistics,
  file writes. `Model/Text.v` turns the log into bytes: standard error, standard output, dump and curve
  files. `operator<<(double)` prints six significant digits (`%g`), curve files use `%e`; the decimal digits
  are those of the exact binary value, rounded half to even (glibc). Writing never fails half way.

Not modelled: `ComputeNDCG<float>`, glog tracing, OpenMP (the pragma is commented out), allocation failure, locale changes,
CMake, the GoogleMock classes, `typeid` names.

## Plan per property

| Id | Modelled | Proof |
|---|---|---|
| C01, C02 | box operations over wrapped Z | count of cells as length of a filtered grid; product/interval counting lemmas; inclusion–exclusion on `filter` |
| C03 | same | symmetry by min/max commutativity, bounds from C01 |
| C04 | same | witnesses by `vm_compute`; guard shown necessary and sufficient |
| C05 | same functions with checked arithmetic | case analysis |
| C06 | comparison operators as written | lexicographic order lemma, instantiated at each level |
| C07, C08 | ScoredEvent operators on float32 | order embedding of non-NaN floats; witnesses for NaN and for `<=` |
| C09, C10, C11 | both EventSets as state machines | invariant + refinement to an abstract set by induction over operations |
| C12 | range constructor with an indeterminate counter | every Size after it is UB |
| C13 | heap of ref/hyp cells with pointers | frame lemma; self-assignment and leak witnesses, general leak theorem |
| C14 | `!=` as fuelled recursion | never returns for any fuel; `==` equivalence |
| C15–C19 | scorers on float32 | Flocq `round` monotonicity, exactness below 2^24 |
| C20–C28 | SimpleMatcher generic in event set and scorer | invariants over the hypothesis loop, functional specification |
| C29 | GroupMatchesByQueryGroup with the position map | invariant: map and vector in step; characterisation by filters |
| C30, C31 | CollapseMatches with float32 sums | run invariants; block sums are permutation invariant for 0/1 errors below 2^24 |
| C32–C38 | precision/recall/AP at `Real = R` | induction, telescoping, nra |
| C39 | NDCG at `R` with float32 gain | convexity of 2^x, rearrangement inequality |
| C40–C45 | means, curves, sampling, sorting | induction |
| C46, C47 | same functions at binary64 | Flocq rounding lemmas, witness for AP > 1 by `vm_compute`, error bound by induction |
| C48–C51 | samplers and CI, random oracle | induction; index arithmetic in binary64 |
| C52–C56 | mappers as state machines, ownership heap | invariants over histories |
| C57–C61 | stream and reader | parser/printer inversion, per-line characterisation |
| C62–C67 | option table, RegisterOption, RegisterArgument, RegisterOptArgument, Parse, Help | grammar as inductive relation, iff by induction; the parser after a list of registrations by induction on the list |
| C68 | `Main` of both programs as a function of argv, file system and stdin; every way to end a run | phases load, filter, sort, match, dump, report; status characterised by case analysis |
| C69, C70 | `--query_set`, `--query_groups` | the map built line by line refines `assigns`, the filter refines `selects`; witness for the empty set |
| C71 | the order of input lines, `--sort` | uniqueness of sorted permutations up to equal events; witness with ids in order of appearance |
| C72 | definedness of a whole run | composition of the definedness of each phase; witnesses with 0 samples |
| C73 | gAP, mAP of a run | C32–C38, C46, C47 at the evaluation of C68; shipped example by `vm_compute` |
| C74 | strings and their ids in SimpleKwsEval | evaluation commutes with injective renaming |
| C75, C76 | curve files and dump as effects | composition with C41–C45 and the matcher |
| C77 | argv to configuration | grammar of Spec/Options.v at the option table of the tools |
| C78 | `operator<<` of float and double | digits by exact integer division, uniqueness and monotonicity of rounding |
| C79 | dump file as bytes | injectivity of the format, by counting blanks and cutting words |
| C80 | standard output and curve files as bytes | C78 at the results of C73 |
| C81, C82 | standard error as bytes | per phase: lines printed so far and what they say (`told`), composed |
| C83 | NDCG at binary64; `exp2` and `log2` any functions meeting `Spec/Libm.v` | error of each term, sum invariant of C47, quotient with the ideal sum at least 1/2 |
| C84 | whole runs with `--bootstrap_ci_*` | C50 with a statistic that is only defined on the samples; samples of n groups of n matches have at most n^2 matches |
| C85 | `minstd_rand0` seeded and stepped, `uniform_int_distribution` with its loop as binary fuel | 2^31 - 1 prime by trial division, the order of 7^5 from the factors of 2^31 - 2, so the loop ends within a period |
| C86 | whole runs with that engine | the engine only enters through its state after seeding |
| C87 | MatchError and MatchErrorCounts on float32 | case analysis on floats |
| C88 | runs of SimpleKwsEval on reordered lines | the hits are the best hypotheses of their events, so the matches are a permutation up to the sign of zeros and collapse to the same points (C31); sums of reals permute; witness in doubles |
| C89 | runs of both programs on the queries of single groups | hits and misses pair events of one query only, so selecting the matches of a group is the matching of its events; groups are in order of first appearance |
| C90 | runs of both programs with one group | one grouping of all the matches; 0 + v and v / 1 are exact in double |
| C91 | `better` (swaps of a false alarm and a hit), `raised` (one score higher); AP, NDCG on lists, runs of SimpleKwsEval | a swap moves one step of the curve up; the errors of a ranking by score are a function of the references and of the order of the hypotheses, which changes by swaps; witnesses by computation in rational arithmetic |
| C92 | `raised`, permutations of a ranking with one match changed; AP and NDCG of collapsed lists, runs of SimpleKwsEval | a score goes up in steps between neighbouring scores; in each, the match leaves its run and then joins the one above, which adds or removes one point of the curve; NDCG witness with bounds of logarithms |
| C93 | `added`; AP and NDCG of lists of errors, runs of both programs | wrong: the other matches are the same without it, and one more false alarm moves the rest down; right: it shifts which hypotheses take which references, but the errors change by one hit more and one miss less; with collapsing, a false alarm below all others whose score goes up (C92), a point with one more hit (all later precisions and recalls go up), or a hit that goes up (C92, so with interpolation; an example shows that without it AP may fall) |
| C94 | `reordered` with the same file of references; runs of SimpleKwsEval | strings of the references have the same ids below a bound and all others have ids from the bound on; sorting is unique up to ids from the bound on, so the errors are the same |
| C95 | `one_more`, `dilutes`; runs of both programs | the reference accepts no hypothesis, so the matching is the same without it and there is one more miss; every recall is multiplied by n / (n + 1) and precisions stay, so the area scales; in SimpleKwsEval ids change, but with collapsing the errors of equal scores are summed |
| C96 | `hits_first`, `hits_above`, `found`, `found_above`, `half_covered`; rankings and runs of both programs | the area under precisions of at most 1 is at most the last recall, with equality just if no false alarm came before a gain of recall; precision at the end bounds interpolated ones from below; a sum of discounted gains is greatest with the gains first; the matches are one hit for each reference found and one false alarm for each other hypothesis |
| C97 | `comes_first`, `too_late`, `shares_half`; runs of both programs | at its place in the ranking, every reference that accepts the hypothesis was taken: the hypothesis before it that only this reference accepts either took it or found it taken; so it only goes to the log |
| C98 | `map_event`, `moved`, `one_to_one`, `keeps_order`, `stays`; runs of both programs | SimpleKwsEval: the mapper hands out the same ids for the renamed strings, so everything after it is the same; Icdar17KwsEval: the renaming maps searches, scores, the order of events, matching and grouping of one evaluation to those of the other, which the second run agrees with up to the sign of zero scores; the statistics do not look at the events |
| C99 | `same_settings`, `inputs`; runs of both programs | loading is the mapping of the listed events plus messages, whatever the source; the rest of the run does not look at the names of inputs except in messages, which `outputs` removes |
| C100 | `resized`, `fits`, `covers`; runs of Icdar17KwsEval | areas and intersections are multiplied by the square of the factor, which keeps the order of overlaps and the order of events; up to 2^24 cells the acceptance test is exact, and rounding commutes with powers of two; then as C98. Counterexample by computation |
| C101 | `looser`, `hits_early`; runs of both tools and lists of matches | the recalls rise, so the area is monotone in the heights; interpolation is a maximum over later points, the mean of two descending heights is above the lower one; the collapsed curve leaves out points of the uncollapsed one, and the points left out change nothing when hits come last; an order with the hits last exists. Counterexamples by computation |
| C102 | `submits_references`, `all_found`, `not_within`; runs of both tools | every hypothesis has an acceptable reference, so there is no false positive; a reference that comes first in the search for a hypothesis is taken after it, so there is no miss; a list of hits has precision 1 at all points. Counterexample by computation |
| C103 | `keeps`, `same_groups`, `listed_together`, `same_results`, `same_global`; runs of both tools | the evaluation gets the kept events, which are the same; the groups are the classes of the kept queries, in order of their first match, whatever the keys; the identifiers of the events do not depend on the file of queries, which is mapped last |
| C104 | `same_but_level`, `encloses`, `wider`, `reflected`, `point`, `prints_intervals`; runs of both tools | the differences do not depend on the level and the percentile positions are monotone in it, rounding included; the statistics of samples are from 0 to 1, so the differences are from -v to 1-v; samples of groups of hits are hits; witnesses with the engine of the programs (`c104_inside_refuted`) |
| C105 | `nearest32`, `is_single`, `close32`, `u32`; Single.v, the float instances with their intermediate doubles | counts up to 2^24 are exact floats; each operation is the rounding of the exact one (Flocq), the difference from 1 is rounded twice but exact in double up to 2^-53; the sums lose half a unit per step; witnesses by computation |
| C106 | `raised`, `rejected`, `shares`, `covers`; runs of both tools | without the hypothesis the two runs find equal matches, so its false alarm moves up or down past matches that are hits or false alarms, and swapping a hit and a false alarm moves every statistic one way; with collapsing the groups of equal scores are compared as in C92 |
| C107 | `shares_half`, `accepted`; runs of both tools | by induction on the ranking, the matching without the hypothesis is that with it less its hit, and the set of taken references less its reference; the runs without it find equal matches, so only its hit moves; with collapsing the groups of equal scores are compared as in C92 |
| C108 | `sample_curve`, `even_points`, `write_global_curve`, `write_mean_curve` in `DArith`; runs of both tools | the differences to the neighbours are nonnegative and one is not 0, so the weight t is in [0,1]; the products are at most t and fl(1-t), whose sum exceeds 1 by at most 2^-54 and rounds to at most 1; the sum of k values is at most k, a double; rounding is monotone, so sums and quotients keep the order; the counterexample is computed |
| C109 | `sample_curve`, `even_points`, `write_global_curve`, `write_mean_curve` in `DArith` against the exact curves (`RArith`); runs of both tools | different fractions k/q and i/m are at least 1/(qm) apart, which exceeds the rounding errors if qm is at most 2^49, so rounded comparisons have the exact outcome and both programs pick the same two neighbours; the divisor of the weight is the distance of two recall levels, at least 1/q, so the interpolated value has an error of at most 32 q 2^-53; the mean adds the error of the sum and of the division |
| C110 | `write_global_curve`, `write_mean_curve`; runs of both tools in `RArith` and `DArith` | the only group is the list of all matches, so its samples are those of the global curve; the mean of one value y is (0 + y) / 1, which is y in both arithmetics |
| C111 | runs of both tools in any `Arith`; `write_mean_curve`, `write_global_curve` | as for C89: the matches of a group have the same points as the matches of the run on that group alone; the samples depend on the points only; the program adds the samples of the groups from the left and divides by their number |
| C112 | `precision_recall_matches`, `sample_curve`; runs of `simple_kws` in `RArith` | a swap changes one precision and one recall; the samples are compared at each recall; for runs, the matches of the raised hypothesis move as for C91, globally and in each group, and the mean is monotone; refuted with collapsing by the files of C91, computed in rational arithmetic |

## What is modelled

Every line of these files, except includes, declarations, accessors without behaviour and glog calls, is cited
by a definition in `Model/`:

| Code | Model |
|---|---|
| core/BoundingBox.h, core/DocumentBoundingBox.h | Box.v |
| core/Event.h, core/ScoredEvent.h, core/ShapedEvent.h | Events.v (reading: Reader.v; writing: Text.v) |
| core/EventSet.h, core/DocumentBoundingBoxEventSet.h | EventSets.v |
| core/Match.h, core/MatchError.h, core/MatchErrorCounts.h | Matches.v (writing: Text.v) |
| scorer/*.h | Scorers.v |
| matcher/SimpleMatcher.h | Matcher.v |
| core/Assessment.h | Assessment.v, Single.v (`Real = float`) |
| core/Bootstrapping.h | Bootstrap.v, Engine.v (the library's engine) |
| core/Statistic.h | Tool.v (`report`) |
| mapper/*.h | Mapper.v |
| reader/*.h | Stream.v, Reader.v |
| cmd/*.h | Options.v, Output.v |
| tools/GenericKwsEvalTool.h, tools/*.cc | Tool.v, Text.v |

Not modelled: the virtual base classes as such (calls are resolved), CMake, GoogleTest and GoogleMock classes, DummyLocation.h,
the output of `typeid(...).name()` for types the tools do not use, `ComputeNDCG<float>`, glog tracing, OpenMP (the pragma is commented
out), allocation failure, locale changes, write errors after a file was opened.

## Reading seeded/LOG.jsonl

* A name with its module (`Proofs.Curves.sample_loop_cons`) is a proof seen to fail after the edit.
* A plain theorem name under `failed` comes from a script that replaces each failing proof by an assumption, goes on,
  and then adds every theorem that uses one of them according to the `.glob` files. Such a theorem lost its proof; that
  its statement is false after the edit was not proved.
* `uses_failed_lemma_not_rechecked` lists theorems that use a lemma seen to fail and were not tried on their own.
* Edits that the model or a specification does not typecheck with are not logged.

## Trusted base

* Coq's kernel (and coqchk).
* The axioms `Print Assumptions` lists, all from Coq's standard library, where they come with `Reals` (Flocq is
  built on it). No axiom is added here.
* The faithfulness of the model to /repo and to the C++ library behaviour described above.
* For C83, C84 and the comparison of levels in C104 only, as an explicit hypothesis `accurate T` of the theorems (not an axiom): `exp2` and `log2` have a
  relative error of at most 2^-52 on the arguments that occur and results of at least 1. A correctly rounding library
  meets it (`GainD.ideal_accurate`).

**Closed under the global context** (no axioms): c01_intersection_is_cell_count, c01_cell_count_unique, c01_area_is_cell_count_iff, c01_generic_code_at_u32, c02_union_is_cell_count, c03_intersection_symmetric, c03_other_document, c03_bounds, c04_area_refuted, c04_intersection_refuted, c04_overflow_intersects_nothing, c05_signed_intersection, c05_signed_undefined_iff, c05_negative_size, c06_box_total_order, c06_box_lexicographic, c06_string_total_order, c06_string_lexicographic, c06_docbox_total_order, c06_docbox_lexicographic, c06_event_total_order, c06_event_lexicographic, c06_derived_operators, c06_sort_deterministic, c06_contract_satisfiable, c07_scored_operators, c07_nan_breaks_order, c09_generic_size, c09_generic_find, c09_generic_range, c10_docbox_size, c10_docbox_membership, c11_find_overlapping, c11_order_determines, c12_range_size_undefined, c12_range_size_refuted, c13_programs_run, c13_live_has_value, c13_copy_construct, c13_assign_other, c13_move_assign, c13_self_assign_loses, c13_assign_leaks, c13_leaks_forever, c13_no_leak_without_assign, c13_self_assign_refuted, c14_match_ne_never_returns, c14_match_ne_refuted, c20_generic_set_searches, c20_box_set_searches, c29_groups, c29_partition, c29_no_event, c34_lengths, c48_sound, c48_complete, c48_draws, c49_shape, c49_size_refuted, c52_answers, c52_seen, c52_faithful, c53_capacity_refuted, c54_given_table, c54_necessary, c54_given_table_refuted, c55_runs, c55_no_leak, c55_assign_refuted, c55_copy_outlives_refuted, c56_numbering, c56_equal, c56_total, c59_unopened_refuted, c66_two_dashes_refuted, c67_register, c67_sorted, c67_help, c67_arguments, c67_options, c69_listed, c69_lists, c70_last_line, c75_write, c85_period, c85_draw, c85_fair, c85_samples, c85_seed, c89_single.

**`ClassicalDedekindReals.sig_forall_dec`, `ClassicalDedekindReals.sig_not_dec`, `Classical_Prop.classic`, `FunctionalExtensionality.functional_extensionality_dep`**: c07_scored_strict_weak_order, c07_scored_order, c07_scored_ties, c08_scored_le_refuted, c08_scored_le_right_iff_equal, c14_match_eq_equivalence, c15_outcomes, c15_accepted_is_one_reference, c15_nh_zero, c15_nr_zero, c15_never_both_zero, c15_at_most_one, c16_half_is_accepted, c16_other_query_rejected, c16_empty_rejected, c16_exact_rule, c16_any_threshold, c16_rounding_bound, c16_large_areas_refuted, c17_any_threshold, c17_half, c17_symmetric, c18_fractions, c18_other_query, c18_nothing_shared, c18_identical, c18_exact_extremes, c18_counts, c18_counts_refuted, c19_equality, c20_pairs, c20_reference_once, c20_hypothesis_once, c21_references, c22_greedy, c22_each_hypothesis, c23_reference_count, c23_hypothesis_count, c24_first_free, c24_largest_overlap, c25_reuse, c26_reference_order, c27_prefix_stable, c28_log, c30_points, c30_totals, c30_distinct, c31_points, c31_metrics, c31_no_collapse_refuted, c32_bounds, c34_bounds, c35_textbook, c36_agree, c36_soft_refuted, c37_perfect, c38_no_refs, c38_no_hits, c38_long_run_refuted, c38_ndcg_no_refs, c38_ndcg_no_hyps, c38_ndcg_no_hits, c39_textbook, c39_bounds, c39_bounds_collapsed, c39_perfect, c39_pure_ties, c40_mean_ap, c40_mean_ndcg, c40_no_groups, c40_ap_order, c40_ndcg_order, c40_map_01, c41_metrics, c41_pipeline, c42_best, c44_mean_curve, c44_bounds, c44_no_groups_refuted, c45_comparator, c45_sort, c45_matcher, c45_nan_refuted, c46_bounds, c46_error, c47_error, c47_mean_error, c47_at_most_one_refuted, c47_perfect_is_one_refuted, c49_hits_refuted, c50_definition, c50_indices, c50_safe, c50_unsafe, c50_order, c51_same, c51_ascending_refuted, c51_no_collapse_refuted, c57_shaped, c57_strings, c57_necessary, c58_layout, c58_last_newline, c59_result, c59_every_file, c59_success, c60_value, c60_monotone, c60_too_large, c60_events, c61_hash_refuted, c61_hash_strings_refuted, c62_grammar, c62_missing, c62_too_many, c62_bad_positional, c62_value, c62_order, c63_unmentioned, c63_last, c64_integers, c64_doubles, c64_in_range, c64_garbage, c64_validated_refuted, c64_doubles_refuted, c65_help, c65_unknown, c65_invalid, c66_negative_refuted, c68_icdar17, c68_simple, c68_success, c69_icdar17, c69_simple, c69_supersedes, c69_empty_refuted, c70_broken, c70_groups, c70_groups_simple, c71_icdar17, c71_printed, c71_dump_refuted, c71_simple_refuted, c72_icdar17, c72_simple, c72_bootstrap_refuted, c73_icdar17, c73_simple, c73_double, c73_defaults, c73_shipped, c74_simple, c75_icdar17, c75_simple, c75_lines, c75_double_x, c75_no_matches_refuted, c76_icdar17, c76_simple, c77_accepted, c77_help, c77_rejected, c77_command, c78_short, c78_score, c78_scientific, c78_equal, c78_monotone, c78_exact, c78_error, c78_score_kept, c78_score_again, c79_shaped, c79_ids, c79_unambiguous, c79_recover, c79_icdar17, c79_simple, c80_lines, c80_points, c80_icdar17, c80_simple, c80_shipped, c80_curves, c80_curves_simple, c81_icdar17, c81_simple, c81_newline_refuted, c81_stdin_refuted, c82_icdar17, c82_simple, c83_global, c83_finite, c83_mean, c83_icdar17, c83_simple, c84_icdar17, c84_simple, c84_undefined, c84_simple_undefined, c86_icdar17, c86_simple, c86_unused, c87_errors, c87_counts, c87_compatible, c87_commutative, c87_text, c88_simple, c88_real, c88_mean_refuted, c89_icdar17, c89_simple, c89_real, c89_simple_real, c90_icdar17, c90_simple, c90_icdar17_double, c90_simple_double, c91_better, c91_strict, c91_simple, c91_collapse_refuted, c91_icdar17_refuted, c92_hit, c92_alarm, c92_simple, c92_ndcg_refuted, c93_alarm, c93_hit, c93_icdar17_rejected, c93_icdar17_wrong, c93_icdar17_accepted, c93_icdar17_right, c93_simple_wrong, c93_simple_right, c94_simple, c94_real, c95_icdar17_rejecting, c95_icdar17, c95_simple, c96_ap, c96_ndcg, c96_simple, c96_icdar17_accepting, c96_icdar17, c97_icdar17_accepting, c97_icdar17, c97_simple, c97_printed, c98_simple, c98_icdar17, c98_printed, c98_order_refuted, c99_files, c99_places, c100_icdar17, c100_printed, c100_large_refuted, c101_worst_order, c101_gain_order, c101_icdar17, c101_simple, c101_trapezoids_refuted, c101_plain_refuted, c102_simple, c102_icdar17_found, c102_icdar17, c102_nested_refuted, c103_icdar17, c103_simple, c103_partition, c103_filtered, c103_all, c103_global, c104_nested_icdar17, c104_nested_simple, c104_range_icdar17, c104_range_simple, c104_perfect_icdar17, c104_perfect_simple, c104_inside_refuted, c105_bounds, c105_error, c105_ap_error, c105_errors_error, c105_at_most_one_refuted, c105_perfect_is_one_refuted, c106_icdar17_rejected, c106_icdar17_wrong, c106_simple_ascending, c107_icdar17_accepted, c107_icdar17_right, c107_simple_ascending, c108_icdar17, c108_simple, c108_trapezoid_refuted, c109_icdar17, c109_simple, c110_icdar17, c110_simple, c110_icdar17_double, c110_simple_double, c111_icdar17, c111_simple, c112_better, c112_simple, c112_collapse_refuted, c112_icdar17_refuted.

**`ClassicalDedekindReals.sig_forall_dec`, `FunctionalExtensionality.functional_extensionality_dep`**: c32_values, c33_interpolation, c34_area, c40_between, c40_unique, c42_sample, c42_line, c42_range, c42_hits, c42_order_refuted, c43_even, c43_increasing, c43_ends, c78_unique, c78_decimal, c80_close.

