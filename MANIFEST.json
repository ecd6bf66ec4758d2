{
 "claims": [
  {
   "property": "C01",
   "status": "proved",
   "theorems": [
    "C01_factor_init"
   ],
   "note": ""
  },
  {
   "property": "C02",
   "status": "proved",
   "theorems": [
    "C02_multiply",
    "C02_sepset"
   ],
   "note": ""
  },
  {
   "property": "C03",
   "status": "proved",
   "theorems": [
    "C03_commutative",
    "C03_associative"
   ],
   "note": ""
  },
  {
   "property": "C04",
   "status": "proved",
   "theorems": [
    "C04_argument_preserved",
    "C04_argument_spoiled",
    "C04_refuted"
   ],
   "note": "Exact condition under which the argument survives, and a network on which it does not (the code violates the natural expectation)."
  },
  {
   "property": "C05",
   "status": "proved",
   "theorems": [
    "C05_sumout"
   ],
   "note": ""
  },
  {
   "property": "C06",
   "status": "proved",
   "theorems": [
    "C06_sumout_order",
    "C06_sumover"
   ],
   "note": ""
  },
  {
   "property": "C07",
   "status": "proved",
   "theorems": [
    "C07_maxout",
    "C07_negative_refuted"
   ],
   "note": "Non-negative tables; the log-space failure is C07_negative_refuted."
  },
  {
   "property": "C08",
   "status": "proved",
   "theorems": [
    "C08_reduce",
    "C08_unknown_value",
    "C08_unknown_variable"
   ],
   "note": ""
  },
  {
   "property": "C09",
   "status": "proved",
   "theorems": [
    "C09_evidence_order",
    "C09_reduce_mul",
    "C09_reduce_sumout"
   ],
   "note": ""
  },
  {
   "property": "C10",
   "status": "proved",
   "theorems": [
    "C10_distributive"
   ],
   "note": ""
  },
  {
   "property": "C11",
   "status": "proved",
   "theorems": [
    "C11_normalize",
    "C11_normalize_scalar",
    "C11_wrong_length",
    "C11_no_values"
   ],
   "note": ""
  },
  {
   "property": "C12",
   "status": "proved",
   "theorems": [
    "C12_invariant"
   ],
   "note": ""
  },
  {
   "property": "C13",
   "status": "proved",
   "theorems": [
    "C13_sum_product_step",
    "C13_no_factor"
   ],
   "note": ""
  },
  {
   "property": "C14",
   "status": "proved",
   "theorems": [
    "C14_marginal",
    "C14_name_error",
    "C14_root_target_raises",
    "C14_unknown_target",
    "C14_target_in_evidence"
   ],
   "note": ""
  },
  {
   "property": "C15",
   "status": "proved",
   "theorems": [
    "C15_distribution",
    "C15_evidence_mass",
    "C15_evidence_refuted"
   ],
   "note": ""
  },
  {
   "property": "C16",
   "status": "proved",
   "theorems": [
    "C16_ve_map"
   ],
   "note": ""
  },
  {
   "property": "C17",
   "status": "proved",
   "theorems": [
    "C17_map_probability",
    "C17_name_error",
    "C17_root_evidence_raises"
   ],
   "note": ""
  },
  {
   "property": "C18",
   "status": "proved",
   "theorems": [
    "C18_hash_order"
   ],
   "note": ""
  },
  {
   "property": "C20",
   "status": "proved",
   "theorems": [
    "C20_topsort_reachable",
    "C20_topsort_root",
    "C20_topsort_acyclic",
    "C20_topsort_drops",
    "C20_missing_root",
    "C20_dfs_postorder"
   ],
   "note": ""
  },
  {
   "property": "C21",
   "status": "proved",
   "theorems": [
    "C21_after_some_parent",
    "C21_forest",
    "C21_refuted"
   ],
   "note": "The natural claim (topological order) is false: C21_refuted. Proved: forests, and every non-root comes after some parent."
  },
  {
   "property": "C22",
   "status": "proved",
   "theorems": [
    "C22_set_structure"
   ],
   "note": ""
  },
  {
   "property": "C23",
   "status": "proved",
   "theorems": [
    "C23_cpt_indices",
    "C23_full_assignment",
    "C23_unknown_value"
   ],
   "note": ""
  },
  {
   "property": "C24",
   "status": "proved",
   "theorems": [
    "C24_strides_agree",
    "C24_same_index"
   ],
   "note": ""
  },
  {
   "property": "C25",
   "status": "proved",
   "theorems": [
    "C25_moral_graph"
   ],
   "note": ""
  },
  {
   "property": "C26",
   "status": "proved",
   "theorems": [
    "C26_markov_blanket",
    "C26_symmetric",
    "C26_irreflexive"
   ],
   "note": ""
  },
  {
   "property": "C27",
   "status": "proved",
   "theorems": [
    "C27_edge_history",
    "C27_constructor",
    "C27_remove_undoes_add",
    "C27_remove_absent",
    "C27_reverse_arc_refuted",
    "C27_new_source_refuted",
    "C27_shared_defaults_refuted"
   ],
   "note": "Proved for histories on existing nodes of an unshared network (established by the constructor); the parts of the natural claim that the code violates are the _refuted theorems."
  },
  {
   "property": "C28",
   "status": "proved",
   "theorems": [
    "C28_copy_same",
    "C28_copy_independent",
    "C28_copy_history",
    "C28_default_argument_refuted"
   ],
   "note": "Omitted default arguments are excluded by plain_history; C28_default_argument_refuted shows why."
  },
  {
   "property": "C29",
   "status": "proved",
   "theorems": [
    "C29_edges_count",
    "C29_handshake",
    "C29_adj_list",
    "C29_has_edge",
    "C29_node_idx",
    "C29_scope_size"
   ],
   "note": ""
  },
  {
   "property": "C30",
   "status": "proved",
   "theorems": [
    "C30_same_nodes_refuted",
    "C30_not_reflexive",
    "C30_different_nodes",
    "C30_true_iff_empty"
   ],
   "note": "The natural claim is false: equality raises TypeError for every pair of networks over the same non-empty node set."
  },
  {
   "property": "C31",
   "status": "proved",
   "theorems": [
    "C31_dual",
    "C31_missing_counts",
    "C31_missing_nodes_counted_twice",
    "C31_hamming_symmetric",
    "C31_hamming_zero",
    "C31_hamming_triangle",
    "C31_hamming_sum"
   ],
   "note": ""
  },
  {
   "property": "C32",
   "status": "proved",
   "theorems": [
    "C32_always_zero_refuted"
   ],
   "note": "The natural claim is false: the count is always 0."
  },
  {
   "property": "C33",
   "status": "proved",
   "theorems": [
    "C33_mst_tree"
   ],
   "note": ""
  },
  {
   "property": "C34",
   "status": "proved",
   "theorems": [
    "C34_mst_minimum"
   ],
   "note": ""
  },
  {
   "property": "C35",
   "status": "proved",
   "theorems": [
    "C35_add",
    "C35_reverse",
    "C35_reverse_missing"
   ],
   "note": "networkx.find_cycle is represented by its documented answer (a cycle reachable from the source)."
  },
  {
   "property": "C36",
   "status": "proved",
   "theorems": [
    "C36_hc",
    "C36_always_a_dag",
    "C36_local_optimum",
    "C36_restriction",
    "C36_restriction_debug",
    "C36_restriction_debug_refuted"
   ],
   "note": "Mutual information is an arbitrary function of the column list (nan included), so the result holds for every score. The restriction list is respected with debug off; with debug on only up to orientation (C36_restriction_debug_refuted). What \"score difference\" means for a reversal is what the code computes (see DESIGN.md)."
  },
  {
   "property": "C37",
   "status": "proved",
   "theorems": [
    "C37_refuted",
    "C37_same_without_reversals",
    "C37_stuck"
   ],
   "note": "The natural claim is false: C37_refuted (for some score function); proved: the results agree when no reversal is chosen, and with debug off a chosen reversal repeats until the limit."
  },
  {
   "property": "C38",
   "status": "proved",
   "theorems": [
    "C38_tabu",
    "C38_not_undone",
    "C38_at_most_five",
    "C38_short_list",
    "C38_reversal_undone_refuted",
    "C38_six_refuted"
   ],
   "note": "Additions and deletions: proved for k >= 5. Reversals: false, C38_reversal_undone_refuted (for some score function). k < 5: C38_short_list; k > 5 is the same as 5: C38_at_most_five, C38_six_refuted."
  },
  {
   "property": "C39",
   "status": "proved",
   "theorems": [
    "C39_hc_rr",
    "C39_never_returns_refuted",
    "C39_restriction_refuted"
   ],
   "note": "DAG for every sequence of draws; the only ways not to return a network are listed. Non-termination and ignored restriction: the _refuted theorems."
  },
  {
   "property": "C40",
   "status": "proved",
   "theorems": [
    "C40_counts_are_frequencies"
   ],
   "note": ""
  },
  {
   "property": "C41",
   "status": "proved",
   "theorems": [
    "C41_mle_probabilities",
    "C41_unseen_parents_get_zero",
    "C41_close_to_frequency"
   ],
   "note": ""
  },
  {
   "property": "C42",
   "status": "proved",
   "theorems": [
    "C42_values_by_position",
    "C42_refuted",
    "C42_in_order"
   ],
   "note": "The natural claim is false (C42_refuted, found with naive_bayes target 1); proved: what the values are in general, and the claim for nodes() = 0..n-1."
  },
  {
   "property": "C43",
   "status": "proved",
   "theorems": [
    "C43_bayes_estimator",
    "C43_positive_normalised"
   ],
   "note": ""
  },
  {
   "property": "C44",
   "status": "proved",
   "theorems": [
    "C44_forward_sample",
    "C44_frequencies_sum_to_one",
    "C44_sample_is_determined",
    "C44_exact_distribution",
    "C44_misordered_raises"
   ],
   "note": "numpy choice modelled as cumsum/searchsorted on one uniform draw per call; exact arithmetic."
  },
  {
   "property": "C45",
   "status": "proved",
   "theorems": [
    "C45_gibbs_sample",
    "C45_refuted",
    "C45_no_chain",
    "C45_burn_equals_n"
   ],
   "note": "The natural claim is false: C45_gibbs_sample gives the exact sum, C45_refuted the extreme case. C45_no_chain shows the sampler is not a Gibbs chain."
  },
  {
   "property": "C46",
   "status": "proved",
   "theorems": [
    "C46_lw_sample",
    "C46_no_samples",
    "C46_target",
    "C46_exact_weighting"
   ],
   "note": "Total weight 0 gives nan entries (None in the model)."
  },
  {
   "property": "C47",
   "status": "proved",
   "theorems": [
    "C47_random_sample",
    "C47_misordered_refuted"
   ],
   "note": "Needs nodes() topological; without it uninitialised memory is read: C47_misordered_refuted."
  },
  {
   "property": "C48",
   "status": "proved",
   "theorems": [
    "C48_roundtrip",
    "C48_distribution",
    "C48_order_refuted"
   ],
   "note": "json.dump/json.loads are represented by their documented effect on the written values (see IO.v). C48_order_refuted: node order is not preserved."
  },
  {
   "property": "C49",
   "status": "proved",
   "theorems": [
    "C49_keyerror",
    "C49_edgeless_renamed"
   ],
   "note": "The natural claim is false: the theorems state what happens for every network with integer names."
  },
  {
   "property": "C50",
   "status": "proved",
   "theorems": [
    "C50_read",
    "C50_value_error",
    "C50_network",
    "C50_fewer_refuted",
    "C50_more_refuted",
    "C50_keyword_refuted"
   ],
   "note": "Document level: C50_read is exact for every printable document; the natural claim holds under the stated condition (C50_network) and fails without it (_refuted)."
  },
  {
   "property": "C51",
   "status": "proved",
   "theorems": [
    "C51_codes",
    "C51_order",
    "C51_collision",
    "C51_unique_bins"
   ],
   "note": "Item width given; C51_collision is the excluded case, for every such column."
  },
  {
   "property": "C52",
   "status": "proved",
   "theorems": [
    "C52_discretize",
    "C52_codes",
    "C52_bins_by_column",
    "C52_no_rows"
   ],
   "note": "Exact arithmetic for np.linspace and np.digitize."
  },
  {
   "property": "C53",
   "status": "proved",
   "theorems": [
    "C53_mi_test",
    "C53_one_column",
    "C53_no_column",
    "C53_strings",
    "C53_mutual_information",
    "C53_gaps_refuted"
   ],
   "note": "Codes are natural numbers. C53_gaps_refuted: the natural claim fails for gaps."
  },
  {
   "property": "C54",
   "status": "proved",
   "theorems": [
    "C54_merge",
    "C54_as_one_column",
    "C54_two_digits_refuted"
   ],
   "note": "C54_two_digits_refuted is the excluded case. C83, C85 show that the merged code is then binned together again. C54_as_one_column: conditioning on several columns is conditioning on the one column of the numbers they write."
  },
  {
   "property": "C55",
   "status": "proved",
   "theorems": [
    "C55_skeleton",
    "C55_terminates",
    "C55_network",
    "C55_finds",
    "C55_complete_refuted",
    "C55_nodes_refuted"
   ],
   "note": "Tests are an arbitrary function of the column list (errors included). Two parts of the natural claim are false: C55_complete_refuted, C55_nodes_refuted; what pc does find, for separating sets of every size, is C55_finds."
  },
  {
   "property": "C56",
   "status": "proved",
   "theorems": [
    "C56_resolve",
    "C56_full_refuted"
   ],
   "note": "The exact edge set; the omission of the full blanket is C56_full_refuted."
  },
  {
   "property": "C57",
   "status": "proved",
   "theorems": [
    "C57_grow",
    "C57_shrink",
    "C57_gs",
    "C57_terminates_refuted",
    "C57_two_refuted"
   ],
   "note": "The natural claim is false: C57_terminates_refuted, C57_two_refuted; C57_shrink says exactly when the loop ends."
  },
  {
   "property": "C58",
   "status": "proved",
   "theorems": [
    "C58_grow",
    "C58_adds_last",
    "C58_best_refuted"
   ],
   "note": "The natural claim is false: C58_best_refuted; C58_adds_last says what is added."
  },
  {
   "property": "C59",
   "status": "proved",
   "theorems": [
    "C59_exact",
    "C59_adjacencies",
    "C59_directed_refuted"
   ],
   "note": "The exact edge set; C59_directed_refuted shows an edge directed both ways."
  },
  {
   "property": "C60",
   "status": "proved",
   "theorems": [
    "C60_make_chordal",
    "C60_given_graph",
    "C60_given_graph_ignored"
   ],
   "note": "networkx.is_chordal is a parameter assumed sound."
  },
  {
   "property": "C61",
   "status": "proved",
   "theorems": [
    "C61_points",
    "C61_every_assignment",
    "C61_objective",
    "C61_optimum",
    "C61_evidence_ignored",
    "C61_evidence_refuted"
   ],
   "note": "Integer points = full assignments, objective = total weight of the entries used, optimum = least total weight, for any weight function; the evidence argument is ignored and the answer can contradict it."
  },
  {
   "property": "C62",
   "status": "proved",
   "theorems": [
    "C62_potential",
    "C62_one_node",
    "C62_doubled",
    "C62_refuted"
   ],
   "note": "The natural claim is false: the exact potential is proved (with the doubled tables) and that every network with an edge is affected."
  },
  {
   "property": "C63",
   "status": "proved",
   "theorems": [
    "C63_sender",
    "C63_refuted"
   ],
   "note": "The natural claim is false: the message is right, but the belief and psi of the sender are relabelled and malformed afterwards."
  },
  {
   "property": "C64",
   "status": "proved",
   "theorems": [
    "C64_flat_cpt",
    "C64_by_parents_roots",
    "C64_by_parents_windows",
    "C64_by_parents_refuted"
   ],
   "note": "by_parents is wrong in general: C64_by_parents_refuted."
  },
  {
   "property": "C65",
   "status": "proved",
   "theorems": [
    "C65_sumout_var",
    "C65_reduce_var",
    "C65_maxout_stale",
    "C65_parents",
    "C65_rest_of_scope"
   ],
   "note": ""
  },
  {
   "property": "C66",
   "status": "proved",
   "theorems": [
    "C66_caller_dict_is_the_network",
    "C66_two_networks_refuted"
   ],
   "note": ""
  },
  {
   "property": "C67",
   "status": "proved",
   "theorems": [
    "C67_setters"
   ],
   "note": ""
  },
  {
   "property": "C68",
   "status": "proved",
   "theorems": [
    "C68_refuted"
   ],
   "note": "The natural claim is false: C68_refuted. C41 proves it for parent lists in nodes() order."
  },
  {
   "property": "C69",
   "status": "proved",
   "theorems": [
    "C69_counts_wipe_the_network"
   ],
   "note": "The natural claim is false: the theorem states what happens for every input."
  },
  {
   "property": "C70",
   "status": "proved",
   "theorems": [
    "C70_other_nodes_are_dropped"
   ],
   "note": "The natural claim is false: the theorem states what happens for every input."
  },
  {
   "property": "C71",
   "status": "proved",
   "theorems": [
    "C71_structure"
   ],
   "note": ""
  },
  {
   "property": "C72",
   "status": "proved",
   "theorems": [
    "C72_unnormalised_root_raises",
    "C72_learned_three_values",
    "C72_refuted"
   ],
   "note": "The natural claim is false: C72_refuted; the general theorems say when."
  },
  {
   "property": "C73",
   "status": "proved",
   "theorems": [
    "C73_metric_ignored"
   ],
   "note": "The natural claim is false: the theorem states the opposite for every input."
  },
  {
   "property": "C74",
   "status": "proved",
   "theorems": [
    "C74_marginal",
    "C74_two_columns",
    "C74_vstructure_refuted"
   ],
   "note": "The natural claim is false: the theorems state the opposite for every test."
  },
  {
   "property": "C75",
   "status": "proved",
   "theorems": [
    "C75_only_removes",
    "C75_coupled",
    "C75_gs2",
    "C75_no_error_refuted",
    "C75_keeps_refuted"
   ],
   "note": "The parts of the natural claim that fail are the _refuted theorems."
  },
  {
   "property": "C76",
   "status": "proved",
   "theorems": [
    "C76_removes_dependent",
    "C76_keeps_independent",
    "C76_blanket_refuted",
    "C76_iamb",
    "C76_two_columns"
   ],
   "note": "The natural claim is false: C76_removes_dependent, C76_keeps_independent state the opposite for every test."
  },
  {
   "property": "C77",
   "status": "proved",
   "theorems": [
    "C77_gs",
    "C77_gs_error",
    "C77_iamb",
    "C77_iamb_error"
   ],
   "note": "The natural claim is false: no selection ever returns."
  },
  {
   "property": "C78",
   "status": "proved",
   "theorems": [
    "C78_truncated_diverges"
   ],
   "note": "The natural claim is false: the theorem states non-termination (no fuel is enough)."
  },
  {
   "property": "C79",
   "status": "proved",
   "theorems": [
    "C79_labels_ignored",
    "C79_order_refuted"
   ],
   "note": "The natural claim is false: C79_labels_ignored states the opposite."
  },
  {
   "property": "C80",
   "status": "proved",
   "theorems": [
    "C80_malformed"
   ],
   "note": "The natural claim is false: an empty network is returned."
  },
  {
   "property": "C81",
   "status": "proved",
   "theorems": [
    "C81_same_format",
    "C81_bif_directory_refuted",
    "C81_unknown"
   ],
   "note": "C81_bif_directory_refuted is the excluded case."
  },
  {
   "property": "C82",
   "status": "proved",
   "theorems": [
    "C82_edgeless"
   ],
   "note": "The natural claim is false: no edge is ever read."
  },
  {
   "property": "C83",
   "status": "proved",
   "theorems": [
    "C83_first_parent_only"
   ],
   "note": "The natural claim (all parents count) is false: the theorem states the opposite."
  },
  {
   "property": "C84",
   "status": "proved",
   "theorems": [
    "C84_hc",
    "C84_tabu"
   ],
   "note": ""
  },
  {
   "property": "C85",
   "status": "proved",
   "theorems": [
    "C85_second_condition_ignored"
   ],
   "note": "The natural claim is false: the theorem states the opposite."
  },
  {
   "property": "C86",
   "status": "proved",
   "theorems": [
    "C86_least_informative"
   ],
   "note": "The natural claim (most informative parent) is false."
  },
  {
   "property": "C87",
   "status": "proved",
   "theorems": [
    "C87_conditional_constant",
    "C87_coded_from_one",
    "C87_zero_column_raises",
    "C87_mi_from_en",
    "C87_mi_from_en_one_row",
    "C87_conditional_few_columns",
    "C87_mi_from_en_ignores",
    "C87_mi_from_en_value",
    "C87_no_columns"
   ],
   "note": "The natural claims are false: the theorems state what happens instead."
  },
  {
   "property": "C88",
   "status": "proved",
   "theorems": [
    "C88_chi2_raises",
    "C88_chi2_name_error",
    "C88_chi2_one_column"
   ],
   "note": "The natural claim is false: it always raises."
  },
  {
   "property": "C89",
   "status": "proved",
   "theorems": [
    "C89_are_independent"
   ],
   "note": "The natural claim is false: the answer is inverted."
  },
  {
   "property": "C90",
   "status": "proved",
   "theorems": [
    "C90_row_text"
   ],
   "note": ""
  },
  {
   "property": "C91",
   "status": "proved",
   "theorems": [
    "C91_parents",
    "C91_refuted"
   ],
   "note": "The natural claim is false."
  },
  {
   "property": "C92",
   "status": "proved",
   "theorems": [
    "C92_exactly_one"
   ],
   "note": ""
  },
  {
   "property": "C93",
   "status": "proved",
   "theorems": [
    "C93_assertion",
    "C93_refuted"
   ],
   "note": "The natural claim is false; the exact condition is proved."
  },
  {
   "property": "C94",
   "status": "proved",
   "theorems": [
    "C94_root_only",
    "C94_refuted"
   ],
   "note": "The natural claim is false: what the repaired function would compute is proved."
  },
  {
   "property": "C95",
   "status": "proved",
   "theorems": [
    "C95_upward",
    "C95_exact"
   ],
   "note": "networkx is a parameter with the contract clique_list (shown satisfiable)."
  },
  {
   "property": "C96",
   "status": "proved",
   "theorems": [
    "C96_isolated",
    "C96_refuted"
   ],
   "note": ""
  },
  {
   "property": "C97",
   "status": "proved",
   "theorems": [
    "C97_running_intersection"
   ],
   "note": "Includes a proof of Dirac theorem (chordal graphs have perfect elimination orders) and of the maximum-weight spanning tree theorem for junction trees."
  },
  {
   "property": "C98",
   "status": "proved",
   "theorems": [
    "C98_mutual_information",
    "C98_conditional",
    "C98_symmetric"
   ],
   "note": "Over the reals (floats exact, natural logarithm); uses the axioms of Coq.Reals."
  },
  {
   "property": "C99",
   "status": "proved",
   "theorems": [
    "C99_independent",
    "C99_two_degrees",
    "C99_above_one",
    "C99_conditionally_independent",
    "C99_reversed_refuted"
   ],
   "note": "The natural claim is false: the exact value on independent data is proved, with _refuted for the order."
  },
  {
   "property": "C100",
   "status": "proved",
   "theorems": [
    "C100_two",
    "C100_three"
   ],
   "note": "The natural claim is false."
  },
  {
   "property": "C101",
   "status": "proved",
   "theorems": [
    "C101_value",
    "C101_unimodal"
   ],
   "note": "The natural claim is false below k-2."
  },
  {
   "property": "C102",
   "status": "proved",
   "theorems": [
    "C102_scores",
    "C102_metric",
    "C102_uniform_is_best",
    "C102_larger_wins"
   ],
   "note": "The natural claim is false: exact values, optimality of uniform tables and dominance of larger networks are proved. Floats are exact reals."
  },
  {
   "property": "C103",
   "status": "proved",
   "theorems": [
    "C103_never",
    "C103_import_is_not_enough",
    "C103_distances",
    "C103_euclidean_wrong",
    "C103_sizes",
    "C103_js",
    "C103_js_attribute",
    "C103_kl",
    "C103_kl_nan",
    "C103_hellinger",
    "C103_node_order_refuted"
   ],
   "note": "The natural claim is false: nothing returns as shipped; the theorems about python -O show what the formulas would give."
  },
  {
   "property": "C104",
   "status": "proved",
   "theorems": [
    "C104_entropy",
    "C104_nan"
   ],
   "note": "Exact for non-nan; nan sufficient conditions. Floats are exact reals."
  },
  {
   "property": "C105",
   "status": "proved",
   "theorems": [
    "C105_conditional_entropy",
    "C105_three_columns",
    "C105_three_from_one",
    "C105_flag_two"
   ],
   "note": "Two columns right; three columns coded from 1 right; three 0/1 columns constant 0."
  },
  {
   "property": "C106",
   "status": "proved",
   "theorems": [
    "C106_never",
    "C106_tree",
    "C106_network",
    "C106_three_columns",
    "C106_not_maximal"
   ],
   "note": "The natural claim is false for four or more columns (and the shipped call raises); exact results for the repaired call."
  },
  {
   "property": "C107",
   "status": "proved",
   "theorems": [
    "C107_names",
    "C107_undefined_names",
    "C107_constructor",
    "C107_fresh",
    "C107_mpd",
    "C107_stale"
   ],
   "note": "The natural claim is false (names refused, joint off by 1/1000 per cell, stale cache); exact description proved for all histories."
  },
  {
   "property": "C108",
   "status": "proved",
   "theorems": [
    "C108_never",
    "C108_list",
    "C108_runtime",
    "C108_diverges",
    "C108_too_little_data",
    "C108_lambda",
    "C108_lambda_errors"
   ],
   "note": "The natural claim is false: no call returns; the causes are characterised for arbitrary tests."
  },
  {
   "property": "C109",
   "status": "proved",
   "theorems": [
    "C109_learners",
    "C109_exceptions",
    "C109_predict",
    "C109_scores",
    "C109_fast_and_graphs"
   ],
   "note": "The natural claim is false: the calls raise; exceptions are proved from the control flow up to the undefined name."
  },
  {
   "property": "C110",
   "status": "proved",
   "theorems": [
    "C110_unbiased",
    "C110_mean_squared_error",
    "C110_consistent",
    "C110_denominator_exists"
   ],
   "note": "Exact law: averages over all equiprobable grid cells with arbitrary positions inside the cells, for every common denominator M of the tables (one exists: C110_denominator_exists)."
  },
  {
   "property": "C111",
   "status": "proved",
   "theorems": [
    "C111_independent_rows"
   ],
   "note": "Probability of every possible returned table."
  },
  {
   "property": "C112",
   "status": "proved",
   "theorems": [
    "C112_lw_converges"
   ],
   "note": "Explicit rate with the evidence probability in the denominator; includes the nan answer and the rounding to 4 decimals."
  },
  {
   "property": "C113",
   "status": "proved",
   "theorems": [
    "C113_gibbs_bias",
    "C113_unbiased_refuted"
   ],
   "note": "The natural claim is false: bias factor (n-burn-1)/(n-burn), proved up to the 4-decimal rounding."
  },
  {
   "property": "C114",
   "status": "proved",
   "theorems": [
    "C114_mle_converges",
    "C114_recovers_cpt",
    "C114_recovers_network"
   ],
   "note": "Two modules composed: random_sample then mle_estimator; union bound over all entries for the whole network."
  },
  {
   "property": "C115",
   "status": "proved",
   "theorems": [
    "C115_same_program",
    "C115_relative_error",
    "C115_marginal_ve_e",
    "C115_double_precision"
   ],
   "note": "Same program with a rounding function after every product and sum; identity rounding gives back the exact model (C115_same_program). IEEE binary64 is defined and shown to meet the accuracy hypothesis."
  },
  {
   "property": "C116",
   "status": "proved",
   "theorems": [
    "C116_same_program",
    "C116_near_optimal",
    "C116_clear_winner",
    "C116_double_precision",
    "C116_exact_optimum_refuted",
    "C116_same_program_prob",
    "C116_probability",
    "C116_probability_disconnected",
    "C116_probability_double"
   ],
   "note": "Near-optimality with the explicit factor, exact recovery of clear winners, a refutation by computation on doubles of exact optimality, and the accuracy of the probability reported with prob=True."
  },
  {
   "property": "C117",
   "status": "proved",
   "theorems": [
    "C117_event",
    "C117_event_normalised",
    "C117_bounds_attained",
    "C117_marginal_ve_e",
    "C117_posterior",
    "C117_map",
    "C117_relative"
   ],
   "note": "Total-variation argument by induction along a topological order; bounds shown attained; printed marginals, posteriors and MAP derived."
  },
  {
   "property": "C118",
   "status": "proved",
   "theorems": [
    "C118_learn_then_infer",
    "C118_learn_then_map"
   ],
   "note": "C114 (all entries learned) composed with C117 (stability) for random_sample, mle_estimator and marginal_ve_e / ve_map."
  },
  {
   "property": "C119",
   "status": "proved",
   "theorems": [
    "C119_near_optimal",
    "C119_clear_winner",
    "C119_exact_refuted"
   ],
   "note": "C61 (correspondence of solutions and assignments) instantiated with the real weights; rounding error n/2000 on each side; the refutation is a two node network. Reals axioms."
  },
  {
   "property": "C120",
   "status": "proved",
   "theorems": [
    "C120_to_log",
    "C120_round_trip",
    "C120_max_of_logs",
    "C120_product_of_logs"
   ],
   "note": "Exact ln/exp followed by the modelled rounding; misuse theorems for all tables in (0,1]. Reals axioms."
  },
  {
   "property": "C121",
   "status": "proved",
   "theorems": [
    "C121_fitness",
    "C121_single_target_refuted",
    "C121_zero_division",
    "C121_lower_bound"
   ],
   "note": "For an arbitrary test function; nan and inf p-values included."
  },
  {
   "property": "C122",
   "status": "proved",
   "theorems": [
    "C122_expression",
    "C122_reuse_refuted",
    "C122_argument_survives",
    "C122_alias_refuted"
   ],
   "note": "Objects with addresses (heap of CliqueTree.v); structural induction over expressions with a disjointness invariant; the two misuse theorems hold for all factors."
  },
  {
   "property": "C123",
   "status": "proved",
   "theorems": [
    "C123_marginal",
    "C123_map",
    "C123_map_prob"
   ],
   "note": "Lockstep simulation between the heap model (FactorHeap.v) and the value model (Factorization.v), exceptions included, without hypotheses."
  },
  {
   "property": "C124",
   "status": "proved",
   "theorems": [
    "C124_marginal_refuses",
    "C124_marginal_outcomes",
    "C124_map_refuses"
   ],
   "note": "Complete description of the outcomes, no hypothesis on the query except that the evidence is a dict."
  },
  {
   "property": "C125",
   "status": "proved",
   "theorems": [
    "C125_map_answers",
    "C125_target_value_refuted"
   ],
   "note": "All four branches of ve_map; the reading of target as most probable value of the target is refuted."
  },
  {
   "property": "C126",
   "status": "proved",
   "theorems": [
    "C126_history",
    "C126_whole_network",
    "C126_not_mentioned"
   ],
   "note": "Induction over the history; the meaning of a history is a separate specification on functions (SpecHistory.v)."
  },
  {
   "property": "C127",
   "status": "proved",
   "theorems": [
    "C127_score_goes_up",
    "C127_never_the_same_graph",
    "C127_bounded",
    "C127_end",
    "C127_max_iter",
    "C127_tabu",
    "C127_tabu_max_iter",
    "C127_reversals_cycle_refuted"
   ],
   "note": "Induction over the run; the graph score is a separate specification (SpecClimb.v); the number of graphs is bounded by counting parent lists."
  },
  {
   "property": "C128",
   "status": "proved",
   "theorems": [
    "C128_an_edge",
    "C128_returns",
    "C128_unrelated_columns_joined_refuted",
    "C128_weakest_parent_refuted",
    "C128_prefers_unrelated_refuted",
    "C128_copies_not_joined_refuted"
   ],
   "note": "The searches of StructScore.v run with the real-number model of mutual_information (HcReal.v), rounding and smoothing included. The natural claim is refuted for every table of the kind described."
  },
  {
   "property": "C129",
   "status": "proved",
   "theorems": [
    "C129_exact",
    "C129_order_free",
    "C129_iamb",
    "C129_acyclic_refuted",
    "C129_network_refuted",
    "C129_deterministic_refuted"
   ],
   "note": "Invariant over the two nested loops: which pairs have been processed. Acyclicity and independence of the hash order are refuted."
  },
  {
   "property": "C130",
   "status": "proved",
   "theorems": [
    "C130_shape",
    "C130_no_restarts",
    "C130_no_moves",
    "C130_draws",
    "C130_end",
    "C130_never_worse_refuted"
   ],
   "note": "The loop is taken apart into runs of the hc loop and random walks; the specification (SpecScore.v: random_walk, restarts) is stated on climbs and legal moves. \"Never worse than hc\" is refuted."
  },
  {
   "property": "C131",
   "status": "proved",
   "theorems": [
    "C131_mixture",
    "C131_difference",
    "C131_fixed_converges",
    "C131_default_weight",
    "C131_default_apart",
    "C131_refuted",
    "C131_zero"
   ],
   "note": "mixture with weight e/(e+qD) exactly; difference of the two estimators; convergence for a fixed equivalent sample size; no convergence with the default (C131_refuted: any number of rows); equivalent sample size 0: frequencies or ZeroDivisionError. Positional columns as in C43."
  },
  {
   "property": "C132",
   "status": "proved",
   "theorems": [
    "C132_ignores_other_columns",
    "C132_others_kept",
    "C132_first_nodes",
    "C132_refuted"
   ],
   "note": "others kept; only the columns read; first nodes closed under parents as if all were learned (bayes_estimator); refuted for one node with a parent, for every iteration order."
  },
  {
   "property": "C133",
   "status": "proved",
   "theorems": [
    "C133_nodes_are_columns",
    "C133_no_rows"
   ],
   "note": "Both directions: success and IndexError; no rows: ValueError / ZeroDivisionError / empty counts."
  },
  {
   "property": "C134",
   "status": "proved",
   "theorems": [
    "C134_d_separation",
    "C134_moral_graph",
    "C134_markov_blanket",
    "C134_answers",
    "C134_lw_sample",
    "C134_parents_observed_raises"
   ],
   "note": "SpecMarkov.v defines active trails and d-separation on the parent lists only. Soundness of d-separation for every acyclic normalised network; moral graph and Markov blanket versions without those hypotheses; answers; law of lw_sample. Completeness of d-separation (which needs a choice of tables) is not claimed; C134_nonvacuous shows a network where an unseparated observation matters."
  },
  {
   "property": "C135",
   "status": "proved",
   "theorems": [
    "C135_only_ancestors",
    "C135_answers"
   ],
   "note": "ancestral set shared by two networks; answers equal."
  },
  {
   "property": "C136",
   "status": "proved",
   "theorems": [
    "C136_tables_are_conditionals",
    "C136_lw_sample"
   ],
   "note": "local Markov property plus the value of the conditional; the example shows that evidence on a descendant breaks it."
  },
  {
   "property": "C137",
   "status": "proved",
   "theorems": [
    "C137_perfect_test",
    "C137_grow",
    "C137_shrink",
    "C137_blankets",
    "C137_diverges"
   ],
   "note": "SpecFaithful.v: graph, blanket, faithful test. C137_perfect_test shows that faithful tests exist for every graph (the boolean d-separation test of SpecConstraint.v is proved equal to the trail definition of SpecMarkov.v)."
  },
  {
   "property": "C138",
   "status": "proved",
   "theorems": [
    "C138_skeleton",
    "C138_gs",
    "C138_directions_refuted"
   ],
   "note": "exact skeleton for every graph; C138_directions_refuted records the wrong directions."
  },
  {
   "property": "C139",
   "status": "proved",
   "theorems": [
    "C139_keeps",
    "C139_separates"
   ],
   "note": "pc may keep more edges than the graph has (C55_complete_refuted), never fewer."
  },
  {
   "property": "C140",
   "status": "proved",
   "theorems": [
    "C140_grow",
    "C140_shrink_first",
    "C140_never_exact"
   ],
   "note": "growing phase complete; shrinking phase inverted; never exact."
  },
  {
   "property": "C141",
   "status": "proved",
   "theorems": [
    "C141_bayes_converges",
    "C141_recovers_network",
    "C141_learn_then_infer",
    "C141_learn_then_map",
    "C141_default_refuted",
    "C141_default_limit",
    "C141_default_parents_refuted"
   ],
   "note": "fixed equivalent sample size: convergence, recovery, inference and MAP after learning; default equivalent sample size: C141_default_refuted (limit is the midpoint with the uniform table for root nodes), C141_default_limit and C141_default_parents_refuted (nodes with any number of parents: the limit is the mixture with weight 1/(1 + q P(parents)); almost no run comes near the truth)."
  },
  {
   "property": "C142",
   "status": "proved",
   "theorems": [
    "C142_add_node_defaults",
    "C142_empty_network_stays_without_edges",
    "C142_no_edges_without_a_dict"
   ],
   "note": "HeapDefaults.v: heap invariant over whole programs; fair programs do not put the default objects into their own dicts and do not pass a network attribute F as an edge dict."
  },
  {
   "property": "C143",
   "status": "proved",
   "theorems": [
    "C143_swap",
    "C143_total_probability",
    "C143_more_evidence",
    "C143_joint_decides_marginals",
    "C143_joint_decides_maxima"
   ],
   "note": "swap and total-probability laws; non-negative tables for the monotonicity and MAP parts. Networks with the same joint may differ in which queries raise NameError (C14)."
  },
  {
   "property": "C144",
   "status": "proved",
   "theorems": [
    "C144_marginals",
    "C144_explanations",
    "C144_samples",
    "C144_weighted_samples"
   ],
   "note": "exact arithmetic; the iteration orders of the two runs are unrelated. The samplers are functions of the uniform numbers; networks whose distributions sum to 1 up to 1e-8."
  },
  {
   "property": "C145",
   "status": "proved",
   "theorems": [
    "C145_most_probable",
    "C145_chosen_nodes",
    "C145_best_value",
    "C145_refresh",
    "C145_late_observation_refuted"
   ],
   "note": "Marginal MAP by hand: prob_of the event named by the values returned is maximal among all values of the maximised nodes (C145_most_probable; C145_chosen_nodes for the nodes argument, in terms of the product of the chosen tables; C145_best_value for one node). Traceback with its effect on the stored factors; a second call returns the same dict. C145_refresh from any history. C145_late_observation_refuted: // A then - (B, x) makes traceback_map return values of probability 0."
  },
  {
   "property": "C146",
   "status": "proved",
   "theorems": [
    "C146_marginal",
    "C146_map",
    "C146_reloaded",
    "C146_same_law",
    "C146_sampling_refuted"
   ],
   "note": "Queries: C146_marginal, C146_map, C146_reloaded; C146_same_law for random_sample with topological node lists. That a loaded network can still be sampled is false: C146_sampling_refuted."
  },
  {
   "property": "C147",
   "status": "proved",
   "theorems": [
    "C147_operations",
    "C147_marginal",
    "C147_map",
    "C147_samples",
    "C147_gibbs",
    "C147_flat"
   ],
   "note": "Invariant: every table containing the variable records cardinality 0; the exception itself is stated for the single operations."
  },
  {
   "property": "C148",
   "status": "proved",
   "theorems": [
    "C148_initial_message",
    "C148_once",
    "C148_not_initialised"
   ],
   "note": "The tree is newly built (C62, C63); the print in send_initial_message is left out."
  },
  {
   "property": "C149",
   "status": "proved",
   "theorems": [
    "C149_found",
    "C149_lost",
    "C149_changed",
    "C149_copy",
    "C149_identity",
    "C149_empty"
   ],
   "note": "The hash of the two printed strings is an arbitrary function of the node list and the edge dict in iteration order; the dictionary lookup follows CPython 2.7."
  },
  {
   "property": "C150",
   "status": "proved",
   "theorems": [
    "C150_printed",
    "C150_node",
    "C150_without_its_variable",
    "C150_len",
    "C150_tree_index"
   ],
   "note": "The printed head reads like a conditional table, which the remaining numbers in general are not (C65, C150_without_its_variable)."
  },
  {
   "property": "C151",
   "status": "proved",
   "theorems": [
    "C151_layout",
    "C151_preamble",
    "C151_document",
    "C151_glued_refuted"
   ],
   "note": "C151_layout, C151_preamble and C151_document (C50_network for every layout); layout is defined in SpecIO.v on the text alone. C151_glued_refuted: a parenthesis glued to the child name makes the reader raise KeyError."
  },
  {
   "property": "C152",
   "status": "proved",
   "theorems": [
    "C152_marginals",
    "C152_explanations",
    "C152_tie_refuted",
    "C152_same_law"
   ],
   "note": "C152_marginals, C152_explanations and C152_same_law; the reordering is stated through assignments of value names (reordered, pick). C152_tie_refuted: the explanation returned among equally probable ones depends on the order of the values."
  },
  {
   "property": "C153",
   "status": "proved",
   "theorems": [
    "C153_tests",
    "C153_constraint",
    "C153_search",
    "C153_parameters"
   ],
   "note": "C153_tests (any function of the histogram), C153_constraint, C153_search, C153_parameters. For a fixed choice of order; C153_constraint and C153_search use functional_extensionality."
  }
 ]
}