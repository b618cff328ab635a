{
 "claims": [
  {
   "property": "C01",
   "status": "proved",
   "theorems": [
    "C01_recovery",
    "C01_parse_total",
    "C01_parse_linear"
   ],
   "note": ""
  },
  {
   "property": "C02",
   "status": "proved",
   "theorems": [
    "C02_parse_sound"
   ],
   "note": ""
  },
  {
   "property": "C03",
   "status": "proved",
   "theorems": [
    "C03_parse_complete",
    "C03_unambiguous"
   ],
   "note": ""
  },
  {
   "property": "C04",
   "status": "proved",
   "theorems": [
    "C04_token_class",
    "C04_keyword_not_id",
    "C04_html_refuted",
    "C04_html_deviation"
   ],
   "note": ""
  },
  {
   "property": "C05",
   "status": "proved",
   "theorems": [
    "C05_lossless",
    "C05_ends"
   ],
   "note": ""
  },
  {
   "property": "C06",
   "status": "proved",
   "theorems": [
    "C06_positions"
   ],
   "note": ""
  },
  {
   "property": "C07",
   "status": "proved",
   "theorems": [
    "C07_first_error"
   ],
   "note": ""
  },
  {
   "property": "C08",
   "status": "proved",
   "theorems": [
    "C08_layout"
   ],
   "note": ""
  },
  {
   "property": "C09",
   "status": "proved",
   "theorems": [
    "C09_print_parse",
    "C09_parse_print_parse",
    "C09_parsed_ids",
    "C09_norm_invisible",
    "C09_fixed_point",
    "C09_print_injective",
    "C09_print_parse_exact",
    "C09_parsed_exact",
    "C09_special_case",
    "C09_bare_injective"
   ],
   "note": ""
  },
  {
   "property": "C10",
   "status": "proved",
   "theorems": [
    "C10_print_destroys",
    "C10_print_renames",
    "C10_exposed_lost",
    "C10_print_retypes",
    "C10_settles"
   ],
   "note": ""
  },
  {
   "property": "C11",
   "status": "proved",
   "theorems": [
    "C11_name_text",
    "C11_anonymous_names"
   ],
   "note": ""
  },
  {
   "property": "C12",
   "status": "proved",
   "theorems": [
    "C12_draws_in_lock_order",
    "C12_none_lost",
    "C12_mutual_exclusion",
    "C12_progress",
    "C12_goroutine_view",
    "C12_turns_disjoint",
    "C12_turns_increasing",
    "C12_turns_all",
    "C12_parse_uses_only_its_draws"
   ],
   "note": ""
  },
  {
   "property": "C13",
   "status": "proved",
   "theorems": [
    "C13_node_index"
   ],
   "note": ""
  },
  {
   "property": "C14",
   "status": "proved",
   "theorems": [
    "C14_edge_index"
   ],
   "note": ""
  },
  {
   "property": "C15",
   "status": "proved",
   "theorems": [
    "C15_relations_mirror"
   ],
   "note": ""
  },
  {
   "property": "C16",
   "status": "proved",
   "theorems": [
    "C16_only_valid_attributes",
    "C16_new_attr",
    "C16_names"
   ],
   "note": ""
  },
  {
   "property": "C17",
   "status": "proved",
   "theorems": [
    "C17_add_node",
    "C17_merge"
   ],
   "note": ""
  },
  {
   "property": "C18",
   "status": "proved",
   "theorems": [
    "C18_remove_node",
    "C18_remove_unknown"
   ],
   "note": ""
  },
  {
   "property": "C19",
   "status": "proved",
   "theorems": [
    "C19_failure_is_atomic",
    "C19_when_calls_fail"
   ],
   "note": ""
  },
  {
   "property": "C20",
   "status": "proved",
   "theorems": [
    "C20_add_subgraph",
    "C20_add_subgraph_root",
    "C20_add_subgraph_failure",
    "C20_order_dependent"
   ],
   "note": ""
  },
  {
   "property": "C21",
   "status": "proved",
   "theorems": [
    "C21_remove_subgraph",
    "C21_remove_subgraph_failure"
   ],
   "note": ""
  },
  {
   "property": "C22",
   "status": "proved",
   "theorems": [
    "C22_stale_subgraph_relations",
    "C22_stale_node_relations",
    "C22_string_after_readding",
    "C22_string_after_remove_node"
   ],
   "note": ""
  },
  {
   "property": "C23",
   "status": "proved",
   "theorems": [
    "C23_refinement",
    "C23_refinement_step",
    "C23_queries",
    "C23_spec_exact"
   ],
   "note": ""
  },
  {
   "property": "C24",
   "status": "proved",
   "theorems": [
    "C24_analyse",
    "C24_calls_unique",
    "C24_visitors"
   ],
   "note": ""
  },
  {
   "property": "C25",
   "status": "proved",
   "theorems": [
    "C25_read_total",
    "C25_when_read_fails"
   ],
   "note": ""
  },
  {
   "property": "C26",
   "status": "proved",
   "theorems": [
    "C26_read_content",
    "C26_last_writer",
    "C26_node_statement",
    "C26_subgraph",
    "C26_no_leak"
   ],
   "note": ""
  },
  {
   "property": "C27",
   "status": "proved",
   "theorems": [
    "C27_edges",
    "C27_arrows",
    "C27_edge_statement"
   ],
   "note": ""
  },
  {
   "property": "C28",
   "status": "proved",
   "theorems": [
    "C28_read",
    "C28_order_irrelevant_api"
   ],
   "note": ""
  },
  {
   "property": "C29",
   "status": "proved",
   "theorems": [
    "C29_endpoints"
   ],
   "note": ""
  },
  {
   "property": "C30",
   "status": "proved",
   "theorems": [
    "C30_canonical",
    "C30_deterministic",
    "C30_empty_values_refuted"
   ],
   "note": ""
  },
  {
   "property": "C31",
   "status": "proved",
   "theorems": [
    "C31_less",
    "C31_strict_weak_order",
    "C31_incomparable",
    "C31_sorted"
   ],
   "note": ""
  },
  {
   "property": "C32",
   "status": "proved",
   "theorems": [
    "C32_shape",
    "C32_complete",
    "C32_clash_refuted"
   ],
   "note": ""
  },
  {
   "property": "C33",
   "status": "proved",
   "theorems": [
    "C33_read",
    "C33_no_panic",
    "C33_errors",
    "C33_iff",
    "C33_string"
   ],
   "note": ""
  },
  {
   "property": "C34",
   "status": "proved",
   "theorems": [
    "C34_read",
    "C34_read_diverges",
    "C34_fuel",
    "C34_terminates",
    "C34_iff",
    "C34_self_nested"
   ],
   "note": ""
  },
  {
   "property": "C35",
   "status": "proved",
   "theorems": [
    "C35_round_trip",
    "C35_cluster_refuted",
    "C35_unwritten_refuted",
    "C35_top_nodes_refuted",
    "C35_exact"
   ],
   "note": ""
  },
  {
   "property": "C36",
   "status": "proved",
   "theorems": [
    "C36_normal_form",
    "C36_ports_refuted",
    "C36_exact"
   ],
   "note": ""
  },
  {
   "property": "C37",
   "status": "proved",
   "theorems": [
    "C37_printed",
    "C37_printed_unique",
    "C37_edge_text",
    "C37_read_ports",
    "C37_read_ports_lost",
    "C37_loss"
   ],
   "note": ""
  },
  {
   "property": "C38",
   "status": "proved",
   "theorems": [
    "C38_panics",
    "C38_blank"
   ],
   "note": ""
  },
  {
   "property": "C39",
   "status": "proved",
   "theorems": [
    "C39_idempotent"
   ],
   "note": ""
  },
  {
   "property": "C40",
   "status": "proved",
   "theorems": [
    "C40_ascii_id_kept",
    "C40_id_kept",
    "C40_unicode_refuted"
   ],
   "note": ""
  },
  {
   "property": "C41",
   "status": "proved",
   "theorems": [
    "C41_result",
    "C41_when_id",
    "C41_no_backslash",
    "C41_not_id",
    "C41_printed_as_is"
   ],
   "note": ""
  },
  {
   "property": "C42",
   "status": "proved",
   "theorems": [
    "C42_delegates",
    "C42_panics",
    "C42_valid_attrs",
    "C42_reachable",
    "C42_escaped_form",
    "C42_is_node",
    "C42_is_subgraph",
    "C42_spellings",
    "C42_remove_refuted"
   ],
   "note": ""
  },
  {
   "property": "C43",
   "status": "proved",
   "theorems": [
    "C43_get_map_last",
    "C43_put_map",
    "C43_get_put"
   ],
   "note": ""
  },
  {
   "property": "C44",
   "status": "proved",
   "theorems": [
    "C44_attrs",
    "C44_new_attrs"
   ],
   "note": ""
  },
  {
   "property": "C45",
   "status": "proved",
   "theorems": [
    "C45_sorted_views"
   ],
   "note": ""
  },
  {
   "property": "C46",
   "status": "proved",
   "theorems": [
    "C46_stable",
    "C46_settles",
    "C46_ports_refuted"
   ],
   "note": ""
  },
  {
   "property": "C47",
   "status": "proved",
   "theorems": [
    "C47_print_read"
   ],
   "note": ""
  },
  {
   "property": "C48",
   "status": "proved",
   "theorems": [
    "C48_walk",
    "C48_deterministic",
    "C48_visits_all",
    "C48_no_panic",
    "C48_nil_at_attributes_panics"
   ],
   "note": ""
  },
  {
   "property": "C49",
   "status": "proved",
   "theorems": [
    "C49_message",
    "C49_one_line",
    "C49_string",
    "C49_quote"
   ],
   "note": ""
  },
  {
   "property": "C50",
   "status": "proved",
   "theorems": [
    "C50_valid_text",
    "C50_illegible_refuted"
   ],
   "note": ""
  },
  {
   "property": "C51",
   "status": "proved",
   "theorems": [
    "C51_graph_text",
    "C51_escape_ids",
    "C51_escape_text",
    "C51_refuted"
   ],
   "note": ""
  },
  {
   "property": "C52",
   "status": "proved",
   "theorems": [
    "C52_no_sharing",
    "C52_own_maps",
    "C52_reachable",
    "C52_escape"
   ],
   "note": ""
  },
  {
   "property": "C53",
   "status": "proved",
   "theorems": [
    "C53_edges_snapshot",
    "C53_nodes_snapshot",
    "C53_removed_node",
    "C53_nodes_refuted"
   ],
   "note": ""
  },
  {
   "property": "C54",
   "status": "proved",
   "theorems": [
    "C54_range_loop",
    "C54_range_loop_all",
    "C54_sorted_loop"
   ],
   "note": ""
  },
  {
   "property": "C55",
   "status": "proved",
   "theorems": [
    "C55_any",
    "C55_graph",
    "C55_escape",
    "C55_keeper_refuted"
   ],
   "note": ""
  },
  {
   "property": "C56",
   "status": "proved",
   "theorems": [
    "C56_same_form",
    "C56_no_nul",
    "C56_new_node",
    "C56_nul_refuted"
   ],
   "note": ""
  },
  {
   "property": "C57",
   "status": "proved",
   "theorems": [
    "C57_result",
    "C57_no_panic",
    "C57_draws",
    "C57_no_deadlock",
    "C57_terminates",
    "C57_completes"
   ],
   "note": ""
  },
  {
   "property": "C58",
   "status": "proved",
   "theorems": [
    "C58_direct_calls",
    "C58_graph_calls",
    "C58_attribute_names",
    "C58_invalid_name",
    "C58_pointers"
   ],
   "note": ""
  },
  {
   "property": "C59",
   "status": "proved",
   "theorems": [
    "C59_leave_out",
    "C59_separators"
   ],
   "note": ""
  },
  {
   "property": "C60",
   "status": "proved",
   "theorems": [
    "C60_adds",
    "C60_calls",
    "C60_direct",
    "C60_recipe",
    "C60_copy"
   ],
   "note": ""
  },
  {
   "property": "C61",
   "status": "proved",
   "theorems": [
    "C61_linear",
    "C61_same",
    "C61_scan"
   ],
   "note": ""
  },
  {
   "property": "C62",
   "status": "proved",
   "theorems": [
    "C62_count",
    "C62_once",
    "C62_exponential"
   ],
   "note": ""
  },
  {
   "property": "C63",
   "status": "proved",
   "theorems": [
    "C63_same_message",
    "C63_any_order",
    "C63_statements",
    "C63_contradiction_refuted",
    "C63_rename_refuted"
   ],
   "note": ""
  },
  {
   "property": "C64",
   "status": "proved",
   "theorems": [
    "C64_write",
    "C64_string",
    "C64_analyse",
    "C64_rename",
    "C64_rename_refuted"
   ],
   "note": ""
  },
  {
   "property": "C65",
   "status": "proved",
   "theorems": [
    "C65_node",
    "C65_block",
    "C65_sub",
    "C65_used_refuted"
   ],
   "note": ""
  },
  {
   "property": "C66",
   "status": "proved",
   "theorems": [
    "C66_nothing_follows",
    "C66_prefix_free",
    "C66_error_stable",
    "C66_incomplete",
    "C66_completable"
   ],
   "note": ""
  },
  {
   "property": "C67",
   "status": "proved",
   "theorems": [
    "C67_concurrent",
    "C67_ends",
    "C67_sort",
    "C67_same_results",
    "C67_race_example"
   ],
   "note": ""
  },
  {
   "property": "C68",
   "status": "proved",
   "theorems": [
    "C68_history",
    "C68_keeps",
    "C68_analyse_into",
    "C68_twice",
    "C68_parts",
    "C68_parts_refuted",
    "C68_rename_refuted",
    "C68_alone_refuted"
   ],
   "note": ""
  },
  {
   "property": "C69",
   "status": "proved",
   "theorems": [
    "C69_edit",
    "C69_gone",
    "C69_seen",
    "C69_calls",
    "C69_own_maps",
    "C69_built",
    "C69_edges_snapshot",
    "C69_removed_node",
    "C69_share_refuted"
   ],
   "note": ""
  },
  {
   "property": "C70",
   "status": "proved",
   "theorems": [
    "C70_parse",
    "C70_read",
    "C70_string",
    "C70_same_text",
    "C70_untouched",
    "C70_error_refuted"
   ],
   "note": ""
  },
  {
   "property": "C71",
   "status": "proved",
   "theorems": [
    "C71_node_text",
    "C71_node_string",
    "C71_node_calls",
    "C71_sub_text",
    "C71_sub_nested",
    "C71_sub_lost",
    "C71_sub_calls",
    "C71_node_panics_refuted",
    "C71_sub_lost_refuted",
    "C71_names_text",
    "C71_names_nested",
    "C71_names_lost",
    "C71_prefix"
   ],
   "note": ""
  },
  {
   "property": "C72",
   "status": "proved",
   "theorems": [
    "C72_built",
    "C72_index",
    "C72_text",
    "C72_history",
    "C72_repaired"
   ],
   "note": ""
  },
  {
   "property": "C73",
   "status": "proved",
   "theorems": [
    "C73_top_level",
    "C73_tree",
    "C73_outcome",
    "C73_first_error"
   ],
   "note": ""
  },
  {
   "property": "C74",
   "status": "proved",
   "theorems": [
    "C74_calls",
    "C74_direct",
    "C74_after_panic",
    "C74_after_panic_direct",
    "C74_nil_stays",
    "C74_no_nil",
    "C74_all_graphs",
    "C74_write",
    "C74_write_panics",
    "C74_write_relations",
    "C74_zero_graph"
   ],
   "note": ""
  },
  {
   "property": "C75",
   "status": "proved",
   "theorems": [
    "C75_call",
    "C75_history",
    "C75_queries",
    "C75_analyse",
    "C75_parse",
    "C75_read",
    "C75_write",
    "C75_text",
    "C75_from_new"
   ],
   "note": ""
  },
  {
   "property": "C76",
   "status": "proved",
   "theorems": [
    "C76_calls",
    "C76_panics",
    "C76_escaped_form",
    "C76_tree",
    "C76_text",
    "C76_ascii",
    "C76_text_panic",
    "C76_ports_refuted",
    "C76_total_refuted"
   ],
   "note": ""
  },
  {
   "property": "C77",
   "status": "proved",
   "theorems": [
    "C77_into",
    "C77_analyse",
    "C77_read",
    "C77_chain_refuted",
    "C77_merge_refuted",
    "C77_merge_nodes_refuted",
    "C77_attr_refuted"
   ],
   "note": ""
  },
  {
   "property": "C78",
   "status": "proved",
   "theorems": [
    "C78_call",
    "C78_others",
    "C78_sharing",
    "C78_new",
    "C78_copy_is",
    "C78_assign",
    "C78_alone",
    "C78_independent",
    "C78_copies",
    "C78_copy_removed",
    "C78_built",
    "C78_copy_unwritable"
   ],
   "note": ""
  },
  {
   "property": "C79",
   "status": "proved",
   "theorems": [
    "C79_call",
    "C79_others",
    "C79_through_pointers",
    "C79_new_ones",
    "C79_give_node",
    "C79_give_known_node",
    "C79_give_edge",
    "C79_node_attr",
    "C79_edge_attr",
    "C79_edges_are",
    "C79_nodes_are",
    "C79_has_all",
    "C79_shared_equal",
    "C79_new",
    "C79_maps",
    "C79_nothing",
    "C79_stays",
    "C79_linked",
    "C79_alone",
    "C79_alone_apart",
    "C79_built",
    "C79_copy_nodes"
   ],
   "note": ""
  },
  {
   "property": "C80",
   "status": "proved",
   "theorems": [
    "C80_seen",
    "C80_content",
    "C80_together",
    "C80_redirected",
    "C80_new",
    "C80_calls",
    "C80_edits",
    "C80_fields",
    "C80_assignments",
    "C80_built",
    "C80_determined"
   ],
   "note": ""
  },
  {
   "property": "C81",
   "status": "proved",
   "theorems": [
    "C81_shown",
    "C81_stable",
    "C81_plain",
    "C81_inner_refuted"
   ],
   "note": ""
  },
  {
   "property": "C82",
   "status": "proved",
   "theorems": [
    "C82_reader",
    "C82_reader_fails",
    "C82_reader_endless",
    "C82_open_fails",
    "C82_file",
    "C82_chunks",
    "C82_close_refuted",
    "C82_lexer_file",
    "C82_again",
    "C82_without_reset",
    "C82_reset_refuted"
   ],
   "note": ""
  },
  {
   "property": "C83",
   "status": "proved",
   "theorems": [
    "C83_shows_one",
    "C83_parse",
    "C83_parse_keeps",
    "C83_program",
    "C83_room_unseen",
    "C83_append_twice",
    "C83_append_twice_parsed_refuted"
   ],
   "note": ""
  },
  {
   "property": "C84",
   "status": "proved",
   "theorems": [
    "C84_nil_or_ast",
    "C84_string",
    "C84_stmt_string",
    "C84_walk",
    "C84_walk_ast",
    "C84_walk_nil",
    "C84_analyse",
    "C84_new_analysed_graph",
    "C84_calls_before",
    "C84_rest_unseen",
    "C84_stops",
    "C84_constructor_ends",
    "C84_constructor_draws",
    "C84_made_exact",
    "C84_rebuild",
    "C84_made_safe"
   ],
   "note": ""
  },
  {
   "property": "C85",
   "status": "proved",
   "theorems": [
    "C85_completed",
    "C85_without_nil",
    "C85_calls",
    "C85_history",
    "C85_panics",
    "C85_left",
    "C85_no_new_nil",
    "C85_looks",
    "C85_write"
   ],
   "note": ""
  },
  {
   "property": "C86",
   "status": "proved",
   "theorems": [
    "C86_heading",
    "C86_same_line",
    "C86_join",
    "C86_join_all",
    "C86_subgraph",
    "C86_anonymous",
    "C86_list_string",
    "C86_string",
    "C86_node",
    "C86_edge",
    "C86_defaults",
    "C86_own_line_needed",
    "C86_newline_needed",
    "C86_semicolon_refuted",
    "C86_not_alone"
   ],
   "note": ""
  },
  {
   "property": "C87",
   "status": "proved",
   "theorems": [
    "C87_into",
    "C87_read",
    "C87_string",
    "C87_endpoints_refuted",
    "C87_top_refuted",
    "C87_parent_refuted",
    "C87_port_refuted",
    "C87_path_refuted"
   ],
   "note": ""
  },
  {
   "property": "C88",
   "status": "proved",
   "theorems": [
    "C88_equal",
    "C88_shown",
    "C88_back",
    "C88_exact",
    "C88_tidy",
    "C88_names_refuted",
    "C88_ports_refuted",
    "C88_written_refuted"
   ],
   "note": ""
  },
  {
   "property": "C89",
   "status": "proved",
   "theorems": [
    "C89_removal",
    "C89_remove_node",
    "C89_top_node",
    "C89_remove_sub",
    "C89_tree",
    "C89_tree_succeeds",
    "C89_unrelate",
    "C89_mended"
   ],
   "note": ""
  },
  {
   "property": "C90",
   "status": "proved",
   "theorems": [
    "C90_edit",
    "C90_text",
    "C90_sessions",
    "C90_removal_refuted",
    "C90_stale_refuted"
   ],
   "note": ""
  }
 ]
}