{
 "claims": [
  {
   "property": "C01",
   "status": "proved",
   "theorems": [
    "C01_escaped_text_inert",
    "C01_escape_lossless",
    "C01_escape_injective",
    "C01_unescape_decodes"
   ],
   "note": ""
  },
  {
   "property": "C02",
   "status": "proved",
   "theorems": [
    "C02_get_after_set",
    "C02_self_closing_refuted",
    "C02_far_refuted"
   ],
   "note": "Canonical documents, plain paths that Get follows like Set (indexes below 1000, a leading indexed name written like the root); refuted for self-closing targets."
  },
  {
   "property": "C03",
   "status": "proved",
   "theorems": [
    "C03_set_content",
    "C03_set_value",
    "C03_spaced_end_tag_refuted"
   ],
   "note": "Exact bytes of the result, for string values and for any other value kind; refuted when a closing tag contains white space."
  },
  {
   "property": "C04",
   "status": "proved",
   "theorems": [
    "C04_create_below",
    "C04_create_root",
    "C04_create_document",
    "C04_missing_index_refuted",
    "C04_created_refuted"
   ],
   "note": "Below an existing ancestor (self-closing or not), as a further root, and in the empty document; a missing index writes an element without a name."
  },
  {
   "property": "C05",
   "status": "proved",
   "theorems": [
    "C05_set_attribute",
    "C05_create_with_attribute"
   ],
   "note": "Existing elements, and creation of missing elements with the attribute; the order of the rewritten attributes is not claimed."
  },
  {
   "property": "C06",
   "status": "proved",
   "theorems": [
    "C06_delete_element",
    "C06_delete_attribute",
    "C06_sole_root_refuted",
    "C06_later_sibling_refuted",
    "C06_longer_refuted"
   ],
   "note": "Exact bytes for elements and attributes; the two limits of the statement are refuted instances."
  },
  {
   "property": "C07",
   "status": "proved",
   "theorems": [
    "C07_delete_absent_element",
    "C07_delete_absent_attribute",
    "C07_delete_absent_index_refuted",
    "C07_canonical",
    "C07_canonical_attribute"
   ],
   "note": "Any valid document with paths of names optionally ending in an attribute (map iteration order not changing between Get and Delete); canonical documents with any plain path and any order; refuted for paths with an index on other documents."
  },
  {
   "property": "C08",
   "status": "proved",
   "theorems": [
    "C08_append",
    "C08_append_self_closing",
    "C08_append_root"
   ],
   "note": "Exact bytes, value under the next index and count, for a parent with two tags, a self-closing parent and the top level."
  },
  {
   "property": "C09",
   "status": "proved",
   "theorems": [
    "C09_failed_edit_changes_nothing",
    "C09_failed_set_bytes_changes_nothing"
   ],
   "note": ""
  },
  {
   "property": "C10",
   "status": "proved",
   "theorems": [
    "C10_set_many_success",
    "C10_set_many_failure",
    "C10_set_many_refused"
   ],
   "note": ""
  },
  {
   "property": "C11",
   "status": "proved",
   "theorems": [
    "C11_delete_many_success",
    "C11_delete_many_failure",
    "C11_distinct_paths"
   ],
   "note": ""
  },
  {
   "property": "C12",
   "status": "proved",
   "theorems": [
    "C12_set_nil_is_delete"
   ],
   "note": ""
  },
  {
   "property": "C13",
   "status": "proved",
   "theorems": [
    "C13_delete_refuses",
    "C13_set_refuses",
    "C13_set_raw_refuses",
    "C13_big_value_refused",
    "C13_empty_refuted",
    "C13_nil_bytes"
   ],
   "note": ""
  },
  {
   "property": "C14",
   "status": "proved",
   "theorems": [
    "C14_get_panics_only_on_lone_quote",
    "C14_get_without_quotes_returns",
    "C14_get_panic_depends_on_path_only",
    "C14_delete_returns",
    "C14_set_returns",
    "C14_set_attribute_returns",
    "C14_get_no_panic_refuted",
    "C14_set_no_panic_refuted",
    "C14_delete_no_panic_refuted",
    "C64_crash"
   ],
   "note": "The promised absence of panics is refuted for Get, Set and Delete. Get is characterised exactly; Set and Delete return on canonical documents."
  },
  {
   "property": "C15",
   "status": "proved",
   "theorems": [
    "C15_get_terminates",
    "C15_get_many_terminates",
    "C15_get_with_options_terminates",
    "C15_result_get_terminates",
    "C15_result_map_returns",
    "C15_set_terminates",
    "C15_set_raw_terminates",
    "C15_delete_terminates",
    "C15_batch_terminates"
   ],
   "note": ""
  },
  {
   "property": "C16",
   "status": "proved",
   "theorems": [
    "C16_grammar"
   ],
   "note": ""
  },
  {
   "property": "C17",
   "status": "proved",
   "theorems": [
    "C17_canonical"
   ],
   "note": ""
  },
  {
   "property": "C18",
   "status": "proved",
   "theorems": [
    "C18_limits",
    "C18_depth"
   ],
   "note": ""
  },
  {
   "property": "C19",
   "status": "proved",
   "theorems": [
    "C19_no_error",
    "C19_position"
   ],
   "note": ""
  },
  {
   "property": "C20",
   "status": "proved",
   "theorems": [
    "C20_exact",
    "C20_canonical",
    "C20_declarations",
    "C20_balanced",
    "C20_lower_case_refuted",
    "C20_lax_refuted"
   ],
   "note": "SetRaw takes exactly the fragments of an inductive grammar; behind any canonical forest, at any depth, declarations and unbalanced tags are refused. Lower-case declarations and a cut-off end tag are accepted (refuted instances)."
  },
  {
   "property": "C21",
   "status": "proved",
   "theorems": [
    "C21_edit_keeps_valid",
    "C21_edit_keeps_element",
    "C21_edit_keeps_shallow",
    "C21_bad_paths_refuted",
    "C21_path_markup_refuted",
    "C21_outgrown",
    "C21_limit_refuted"
   ],
   "note": "Canonical documents and edits by plain paths; the general statement is refuted."
  },
  {
   "property": "C22",
   "status": "proved",
   "theorems": [
    "C22_split_quoted_names",
    "C22_parse_quoted_names",
    "C22_parse_quoted_names_defined",
    "C22_parse_steps",
    "C22_parse_steps_defined"
   ],
   "note": ""
  },
  {
   "property": "C23",
   "status": "proved",
   "theorems": [
    "C23_get_long_path",
    "C23_set_long_path",
    "C23_segment_bound"
   ],
   "note": ""
  },
  {
   "property": "C24",
   "status": "proved",
   "theorems": [
    "C24_cache_transparent",
    "C24_cache_panic",
    "C24_calls_finish"
   ],
   "note": ""
  },
  {
   "property": "C25",
   "status": "proved",
   "theorems": [
    "C25_cache_bounded"
   ],
   "note": ""
  },
  {
   "property": "C26",
   "status": "proved",
   "theorems": [
    "C26_unprefixed_step",
    "C26_prefixed_step",
    "C26_empty_prefix_step"
   ],
   "note": ""
  },
  {
   "property": "C27",
   "status": "proved",
   "theorems": [
    "C27_case_insensitive",
    "C27_exact_match_is_ci_match",
    "C27_case_sensitive",
    "C27_lower_laws"
   ],
   "note": ""
  },
  {
   "property": "C28",
   "status": "proved",
   "theorems": [
    "C28_tree_query",
    "C28_greater_refuted",
    "C28_cdata_refuted",
    "C28_whitespace_refuted",
    "C28_indexed_text_refuted",
    "C28_indexed_attribute_refuted"
   ],
   "note": "Map order: any permutation, different for every call. Text and CDATA with angle brackets are excluded: the library drops or reinterprets them (refuted instances)."
  },
  {
   "property": "C29",
   "status": "proved",
   "theorems": [
    "C29_count_index",
    "C29_backtracking_refuted"
   ],
   "note": ""
  },
  {
   "property": "C30",
   "status": "proved",
   "theorems": [
    "C30_children",
    "C30_first_refuted"
   ],
   "note": ""
  },
  {
   "property": "C31",
   "status": "proved",
   "theorems": [
    "C31_bound",
    "C31_one",
    "C31_none",
    "C31_nested_refuted",
    "C31_options",
    "C31_any_case_refuted"
   ],
   "note": "Arbitrary documents and options; paths without modifiers. With k multiplying steps the bound is 1000^k, and two wildcards do exceed 1000 (refuted instance); when case does not count it is 100 * 1000^k, and one wildcard does exceed 1000 (refuted instance)."
  },
  {
   "property": "C32",
   "status": "proved",
   "theorems": [
    "C32_first_of_all",
    "C32_all_matches"
   ],
   "note": "First-of-all for every path of plain names; the exact selection for top-level elements, with a map iteration order that does not change between calls."
  },
  {
   "property": "C33",
   "status": "proved",
   "theorems": [
    "C33_matcher_decides",
    "C33_matcher_gives_up",
    "C33_no_match_when_giving_up"
   ],
   "note": ""
  },
  {
   "property": "C34",
   "status": "proved",
   "theorems": [
    "C34_decision",
    "C34_laws",
    "C34_number_text"
   ],
   "note": "strconv.ParseFloat is a parameter."
  },
  {
   "property": "C35",
   "status": "proved",
   "theorems": [
    "C35_empty_chain",
    "C35_one",
    "C35_split_chain",
    "C35_long_chain",
    "C35_unknown_modifier",
    "C35_get_then_modify",
    "C35_built_in_keep",
    "C35_fragment_index_refuted"
   ],
   "note": "Any chain, registry and result; through Get for paths of names ending in a name, attribute, text, index or count, with the modifier-free chain semantics. Modifiers are ignored in one fragment-root branch: refuted instance."
  },
  {
   "property": "C36",
   "status": "proved",
   "theorems": [
    "C36_reverse",
    "C36_first_last",
    "C36_sort",
    "C36_sort_twice",
    "C36_flatten",
    "C36_not_an_array",
    "C36_sort_contract_satisfiable"
   ],
   "note": "sort.Slice is a parameter assumed to return an ordered permutation; the comparison is the modelled one, with no NaN among the keys."
  },
  {
   "property": "C37",
   "status": "proved",
   "theorems": [
    "C37_builtin_fixed",
    "C37_custom_binding",
    "C37_query_uses_registry"
   ],
   "note": ""
  },
  {
   "property": "C38",
   "status": "proved",
   "theorems": [
    "C38_get_many",
    "C38_default_options",
    "C38_set_bytes"
   ],
   "note": ""
  },
  {
   "property": "C39",
   "status": "proved",
   "theorems": [
    "C39_array",
    "C39_exists",
    "C39_foreach",
    "C39_int",
    "C39_int_number",
    "C39_int_zero",
    "C39_int_other",
    "C39_float",
    "C39_count_int",
    "C39_bool",
    "C39_value"
   ],
   "note": "Any result, callback and callback state."
  },
  {
   "property": "C40",
   "status": "proved",
   "theorems": [
    "C40_map"
   ],
   "note": ""
  },
  {
   "property": "C41",
   "status": "proved",
   "theorems": [
    "C41_get_oversize",
    "C41_get_empty_path",
    "C41_malformed_refuted"
   ],
   "note": ""
  },
  {
   "property": "C42",
   "status": "proved",
   "theorems": [
    "C42_prolog",
    "C42_comment_refuted",
    "C42_instruction_refuted",
    "C42_invisible_refuted",
    "C42_declaration_refuted"
   ],
   "note": "Comments with end tags and processing instructions inside elements do have an influence (refuted instances)."
  },
  {
   "property": "C43",
   "status": "proved",
   "theorems": [
    "C43_order_independent",
    "C43_any_query",
    "C43_raw_refuted",
    "C43_set_refuted",
    "C43_cdata_refuted"
   ],
   "note": ""
  },
  {
   "property": "C44",
   "status": "proved",
   "theorems": [
    "C44_chained"
   ],
   "note": ""
  },
  {
   "property": "C45",
   "status": "proved",
   "theorems": [
    "C45_only_white_space",
    "C45_idempotent",
    "C45_pieces",
    "C45_words_refuted",
    "C45_string_refuted"
   ],
   "note": "Any byte string; exact effect on texts cut into tags, CDATA and character data. Words of text run together: refuted instance."
  },
  {
   "property": "C46",
   "status": "proved",
   "theorems": [
    "C46_decode",
    "C46_bytes_refuted"
   ],
   "note": "Well-formed UTF-8 entries; with invalid bytes two lists can have one text: refuted instance."
  },
  {
   "property": "C47",
   "status": "proved",
   "theorems": [
    "C47_history",
    "C47_language"
   ],
   "note": "Any sequence of content (text, integer, truth value, raw forest), attribute, append and removal edits, including creation of missing elements; queries afterwards answer from the edited tree."
  },
  {
   "property": "C48",
   "status": "proved",
   "theorems": [
    "C48_numeral_value",
    "C48_get_numeral",
    "C48_leading_zeros",
    "C48_dashes_refuted"
   ],
   "note": ""
  },
  {
   "property": "C49",
   "status": "proved",
   "theorems": [
    "C49_bad_index_refused",
    "C49_bad_index_error",
    "C49_three_kinds",
    "C65_set_append",
    "C08_append"
   ],
   "note": ""
  },
  {
   "property": "C50",
   "status": "proved",
   "theorems": [
    "C50_condition",
    "C50_existence_condition",
    "C50_long_condition_refused",
    "C50_accepted_shape",
    "C50_filter_step",
    "C50_dot_refuted"
   ],
   "note": ""
  },
  {
   "property": "C51",
   "status": "proved",
   "theorems": [
    "C51_options_irrelevant",
    "C51_modifiers_refuted",
    "C51_wildcard_field_refuted"
   ],
   "note": ""
  },
  {
   "property": "C52",
   "status": "proved",
   "theorems": [
    "C52_set_raw",
    "C52_tree",
    "C52_attribute_refuted",
    "C52_escape_refuted"
   ],
   "note": "Exact bytes for any accepted fragment; for canonical fragments the result is valid and queries answer from the new tree. Into attributes raw text goes unescaped (refuted instance)."
  },
  {
   "property": "C53",
   "status": "proved",
   "theorems": [
    "C53_as_text",
    "C53_int_read_back",
    "C53_bool_read_back",
    "C53_attribute_read_back"
   ],
   "note": "All documents and paths for the reduction to text; read-back on canonical documents."
  },
  {
   "property": "C54",
   "status": "proved",
   "theorems": [
    "C54_language",
    "C54_conditions_decided"
   ],
   "note": "Canonical documents with at most 100 levels and fewer than 9999 elements; the meaning of conditions is a relation, shown decidable."
  },
  {
   "property": "C55",
   "status": "proved",
   "theorems": [
    "C55_search",
    "C55_everywhere",
    "C55_order"
   ],
   "note": ""
  },
  {
   "property": "C56",
   "status": "proved",
   "theorems": [
    "C56_selected"
   ],
   "note": ""
  },
  {
   "property": "C57",
   "status": "proved",
   "theorems": [
    "C57_fields",
    "C57_wildcard_refuted"
   ],
   "note": ""
  },
  {
   "property": "C58",
   "status": "proved",
   "theorems": [
    "C58_any_case",
    "C58_spelling",
    "C58_ambiguous_refuted",
    "C58_conditions_refuted",
    "C58_search_fields_refuted"
   ],
   "note": ""
  },
  {
   "property": "C59",
   "status": "proved",
   "theorems": [
    "C59_modify",
    "C59_built_in",
    "C59_chain",
    "C59_sort",
    "C59_search_refuted",
    "C59_nested_refuted",
    "C59_twice_refuted"
   ],
   "note": "Where several elements are chosen before the last step, or by **, the library applies modifiers to the entries, twice, or not at all (refuted instances)."
  },
  {
   "property": "C60",
   "status": "proved",
   "theorems": [
    "C60_canonical",
    "C60_tree_query",
    "C60_language",
    "C60_any_case",
    "C60_chain",
    "C60_same",
    "C60_valid",
    "C60_set_refuted",
    "C60_delete_refuted"
   ],
   "note": "Text without angle brackets; comments and CDATA without angle brackets. The corresponding claim about edits is false (two refuted instances)."
  },
  {
   "property": "C61",
   "status": "proved",
   "theorems": [
    "C61_designated",
    "C61_unique",
    "C61_set",
    "C61_set_attribute",
    "C61_delete",
    "C61_delete_attribute",
    "C61_delete_missing",
    "C61_create",
    "C61_create_root",
    "C61_create_document",
    "C61_create_attribute",
    "C61_create_attribute_root",
    "C61_create_attribute_document",
    "C61_append",
    "C61_append_self_closing",
    "C61_append_root",
    "C61_append_place",
    "C61_get_after_set",
    "C61_get_after_set_attribute",
    "C61_spelling_refuted"
   ],
   "note": "Canonical documents. New names are written in lower case without CaseSensitive (refuted instance). An element written with a self-closing tag gets its text behind the tag, as without options."
  },
  {
   "property": "C62",
   "status": "proved",
   "theorems": [
    "C62_get",
    "C62_entries",
    "C62_get_many",
    "C62_any_case",
    "C62_options_irrelevant",
    "C62_map",
    "C62_value",
    "C62_condition_refuted",
    "C62_empty_path_refuted"
   ],
   "note": "Queries on results must not begin with a condition (refuted instance); the document leaves room for the 29 bytes of the wrapper."
  },
  {
   "property": "C63",
   "status": "proved",
   "theorems": [
    "C63_exact",
    "C63_unclosed",
    "C63_mismatch",
    "C63_outside"
   ],
   "note": "Exact characterisation of all reports; message texts are reduced to constructors, one per kind of message."
  },
  {
   "property": "C64",
   "status": "proved",
   "theorems": [
    "C64_one_meaning",
    "C64_parsed",
    "C64_same_answers",
    "C64_same_edits",
    "C64_no_steps",
    "C64_crash"
   ],
   "note": "Complete grammar of paths as inductive relations, proved total, functional and computed by the parser; consequences for Get, GetWithOptions, Set and Delete."
  },
  {
   "property": "C65",
   "status": "proved",
   "theorems": [
    "C65_delete",
    "C65_set_nil",
    "C65_set_document",
    "C65_set_path",
    "C65_set_value",
    "C65_set_index",
    "C65_set_append",
    "C65_set_element",
    "C65_set_attribute",
    "C65_many",
    "C65_malformed_refuted"
   ],
   "note": "Exact for Delete and for Set on paths that do not end in an attribute; for attribute paths: never ErrInvalidValue, and ErrInvalidPath for a lone attribute. C65_malformed_refuted shows a document accepted by Valid that Set calls malformed."
  },
  {
   "property": "C66",
   "status": "proved",
   "theorems": [
    "C66_seen",
    "C66_one_sight",
    "C66_children"
   ],
   "note": "Complete description of the scanner as inductive relations, proved total, functional up to attribute order, and computed by the scanner; wildcard query as consequence."
  },
  {
   "property": "C67",
   "status": "proved",
   "theorems": [
    "C67_answer",
    "C67_options",
    "C67_only"
   ],
   "note": "Complete description of the query engine on arbitrary texts as an inductive relation on the elements seen (C66) and the steps meant (C64); proved for Get and GetWithOptions, and proved unique when attributes have a fixed order and names are compared as written."
  },
  {
   "property": "C68",
   "status": "proved",
   "theorems": [
    "C68_set",
    "C68_delete",
    "C68_nil",
    "C68_only"
   ],
   "note": "Complete description of editing on arbitrary accepted documents as inductive relations over the elements seen (C66) and the steps meant (C64), including the places where positions found in normalised content are used in the document as written; proved for SetWithOptions and DeleteBytesWithOptions and proved unique when attributes have a fixed order."
  },
  {
   "property": "C69",
   "status": "proved",
   "theorems": [
    "C69_pretty",
    "C69_unreadable",
    "C69_same_value",
    "C69_collision_refuted"
   ],
   "note": "The decoder and encoder of encoding/xml are parameters. C69_collision_refuted: the keys of deduplication collide for unusual namespace URIs, so that an attribute that duplicates nothing is lost; the positive theorem therefore excludes namespaces that begin with xmlns."
  },
  {
   "property": "C70",
   "status": "proved",
   "theorems": [
    "C70_report",
    "C70_silent",
    "C70_text",
    "C70_mismatch",
    "C70_names",
    "C70_written_mismatch"
   ],
   "note": "Complete: C70_report and C70_text are equivalences. The sentences themselves are constants of both model and specification."
  },
  {
   "property": "C71",
   "status": "proved",
   "theorems": [
    "C71_place",
    "C71_set",
    "C71_delete",
    "C71_attr",
    "C71_history",
    "C71_written",
    "C71_canonical",
    "C71_end_tag_refuted",
    "C71_shorter_refuted",
    "C71_delete_attr",
    "C71_raw",
    "C71_append"
   ],
   "note": "Generalises C47 and the splice theorems from canonical texts. The refuted cases show what shifts when end tags have white space or tags below the root have another length."
  },
  {
   "property": "C72",
   "status": "proved",
   "theorems": [
    "C72_kinds",
    "C72_general",
    "C72_document",
    "C72_path",
    "C72_type",
    "C72_size",
    "C72_set",
    "C72_only",
    "C72_delete",
    "C72_raw",
    "C72_set_many",
    "C72_delete_many",
    "C72_registry",
    "C72_bytes"
   ],
   "note": "The functions with texts are shown to return the same documents and kinds of errors as the functions of all other theorems (C72_kinds). C72_set holds for every order of map iteration; C72_only, the converse, when attributes are always listed in the same order."
  },
  {
   "property": "C73",
   "status": "proved",
   "theorems": [
    "C73_frame",
    "C73_separate",
    "C73_commute",
    "C73_last",
    "C73_undo",
    "C73_set_again",
    "C73_renumber",
    "C73_fields_refuted",
    "C73_creation_order_refuted",
    "C73_removal_order_refuted"
   ],
   "note": "Three refuted theorems show why the hypotheses are needed: lists of fields turn from Null into an empty list where a parent is created, two created elements stand in the order of the calls, and removals by number are not independent."
  },
  {
   "property": "C74",
   "status": "proved",
   "theorems": [
    "C74_compare",
    "C74_out_of_range",
    "C74_short",
    "C74_exact",
    "C74_integers",
    "C74_selected",
    "C74_float",
    "C74_sort",
    "C74_contract",
    "C74_set_float",
    "C74_set_float_attribute",
    "C74_printing_contract",
    "C74_long_refuted",
    "C74_huge_refuted"
   ],
   "note": "strconv.ParseFloat is a parameter; the theorems assume of it that a decimal text in range gives a nearest float64 that depends on the value only, and one out of range an error. A function with this contract is constructed (C74_contract). Of fmt.Sprintf(\"%g\") it is assumed that ParseFloat reads the text of a float64 back (C74_printing_contract constructs such a function; float32 values are outside). Exponents of 10000 and more are outside the claim, since ParseFloat stops reading their digits. Refuted: longer integers are not told apart (C74_long_refuted), a number beyond the range is not <= itself (C74_huge_refuted)."
  },
  {
   "property": "C75",
   "status": "proved",
   "theorems": [
    "C75_no_race",
    "C75_writes",
    "C75_reads",
    "C75_right",
    "C75_panics",
    "C75_bounded",
    "C75_no_deadlock",
    "C75_calls_end",
    "C75_registry_no_race",
    "C75_registry_linearizable",
    "C75_registry_no_deadlock",
    "C75_get_names",
    "C75_get_stable"
   ],
   "note": "Assumed of Go: sync.RWMutex excludes as modelled, and a program without data races is sequentially consistent (the Go memory model). The absence of races is proved of sequentially consistent executions, which is what that guarantee asks for. The other package variables are never written (error values, two strings.Replacers, which are safe for concurrent use); everything else is local to a call. A query is modelled with one view of the registry; what a query does while a name it mentions is being registered is outside the claim."
  },
  {
   "property": "C76",
   "status": "proved",
   "theorems": [
    "C76_tree",
    "C76_unique",
    "C76_plain",
    "C76_valid",
    "C76_get",
    "C76_get_plain",
    "C76_edit"
   ],
   "note": "Ordinary documents may have `>` in quoted attribute values; the simpler description by plain bytes excludes it. C76_get needs fewer than 9999 `<` (the limit on elements for `**`)."
  },
  {
   "property": "C77",
   "status": "proved",
   "theorems": [
    "C77_kinds",
    "C77_flat",
    "C77_one",
    "C77_barren",
    "C77_live",
    "C77_promised",
    "C77_all_named",
    "C77_reverse_refuted"
   ],
   "note": "C77_promised and C77_all_named list documented examples that no document answers as documented; C77_reverse_refuted is a concrete one. C77_live needs the specimen document to be below the limits (fewer than 9999 elements, 10 MiB)."
  },
  {
   "property": "C78",
   "status": "proved",
   "theorems": [
    "C78_template",
    "C78_markup",
    "C78_shorter",
    "C78_errors",
    "C78_bytes_refuted"
   ],
   "note": "Texts over 5 MiB are refused by Set (C13). nil deletes. Bytes are markup by intention (C78_bytes_refuted)."
  },
  {
   "property": "C79",
   "status": "proved",
   "theorems": [
    "C79_modest",
    "C79_attributes",
    "C79_control",
    "C79_ignored_refuted",
    "C79_entity_refuted",
    "C79_depth_refuted",
    "C79_trimmed_refuted",
    "C79_exists_refuted",
    "C79_token_refuted"
   ],
   "note": "Six promises of docs/security.md about what happens beyond the limits are refuted: excess attributes and the rest of an over-long value become text, entities stay in the text, elements deeper than 100 levels are found, and white space around a condition may contain control characters."
  },
  {
   "property": "C80",
   "status": "proved",
   "theorems": [
    "C80_count",
    "C80_none",
    "C80_single",
    "C80_upper",
    "C80_lower",
    "C80_limit_refuted"
   ],
   "note": "The documented bound (search stops after 10,000 operations) is refuted for paths with several `**`: C80_limit_refuted gives a valid document of 700 bytes and a path of 249 bytes that take more than 10^29 operations, since every search below another starts a new count. Queries under options are counted for C84."
  },
  {
   "property": "C81",
   "status": "proved",
   "theorems": [
    "C81_valid",
    "C81_found",
    "C81_skip",
    "C81_count"
   ],
   "note": "C81_found leaves out the bare count at the top (`name.#`), which C81_count states: there the numbers add up (up to 1000)."
  },
  {
   "property": "C82",
   "status": "proved",
   "theorems": [
    "C82_count",
    "C82_effort",
    "C82_path",
    "C82_searches",
    "C82_linear"
   ],
   "note": "The count is of elements and passes, not of seconds or bytes: contents are rewritten when they are extracted, so their length is not bounded by the document's, but the number of `<` is."
  },
  {
   "property": "C83",
   "status": "proved",
   "theorems": [
    "C83_count",
    "C83_delete",
    "C83_set",
    "C83_linear"
   ],
   "note": "The count is of elements and passes over texts when locating and creating elements. Checking that the document is well-formed, parsing the path, converting the value and copying the document are not counted; each is one pass over its input."
  },
  {
   "property": "C84",
   "status": "proved",
   "theorems": [
    "C84_count",
    "C84_effort",
    "C84_searches",
    "C84_linear"
   ],
   "note": "As for C82, the count is of elements and passes, not of seconds or bytes."
  },
  {
   "property": "C85",
   "status": "proved",
   "theorems": [
    "C85_paths",
    "C85_language",
    "C85_without_comments",
    "C85_text_refuted"
   ],
   "note": "Comments are decompositions of their text into elements with end tags and texts without `<`; a comment with an unmatched tag is refused by Valid or misread (C42_comment_refuted). C85_text_refuted: text of the comment turns up in String()."
  },
  {
   "property": "C86",
   "status": "proved",
   "theorems": [
    "C86_history",
    "C86_edit",
    "C86_attribute_refuted"
   ],
   "note": "Comments as in C85, for the sequences also without double hyphens inside (the validator's rule). C86_attribute_refuted: `>` inside an attribute value."
  },
  {
   "property": "C87",
   "status": "proved",
   "theorems": [
    "C87_build",
    "C87_read",
    "C87_set_many",
    "C87_drain",
    "C87_left"
   ],
   "note": "For parents with a start and an end tag; self-closing parents are in C08_append_self_closing."
  },
  {
   "property": "C88",
   "status": "proved",
   "theorems": [
    "C88_table",
    "C88_read"
   ],
   "note": "The element is reached by names each borne by one child (otherwise a lookup that fails goes on in later elements of the name); values are read without white space at their ends; Get looks at the first 1000 rows."
  },
  {
   "property": "C89",
   "status": "proved",
   "theorems": [
    "C89_session",
    "C89_layout",
    "C89_plain"
   ],
   "note": "Contents are texts; the queries without CaseSensitive are asked of trees without siblings of attributes that differ in case only (apart), as in C58."
  },
  {
   "property": "C90",
   "status": "proved",
   "theorems": [
    "C90_tail",
    "C90_alike",
    "C90_open_refuted",
    "C90_before_refuted",
    "C90_count_refuted"
   ],
   "note": "Paths of names and indexes; the first step has no index (at the top level an index compares names literally). Refuted: C90_open (an element left open), C90_before (damage before the element), C90_count (counts of siblings)."
  },
  {
   "property": "C91",
   "status": "proved",
   "theorems": [
    "C91_copy",
    "C91_attributes_refuted",
    "C91_comment_refuted"
   ],
   "note": "Refuted: C91_attributes (attributes of the element itself), C91_comment (a valid document with `<` inside a comment: Raw loses bytes and the copy is written over a start tag)."
  },
  {
   "property": "C92",
   "status": "proved",
   "theorems": [
    "C92_after",
    "C92_report",
    "C92_concat",
    "C92_cut",
    "C92_one_root",
    "C92_between_refuted"
   ],
   "note": "Refuted: C92_between (a cut between two root elements goes unnoticed)."
  },
  {
   "property": "C93",
   "status": "proved",
   "theorems": [
    "C93_store",
    "C93_possible",
    "C93_from_nothing",
    "C93_nested_refuted"
   ],
   "note": "Refuted: C93_nested (setting a key that leads to another one wipes the other out)."
  },
  {
   "property": "C94",
   "status": "proved",
   "theorems": [
    "C94_part",
    "C94_edit",
    "C94_wrap",
    "C94_prefix_refuted"
   ],
   "note": "Refuted: C94_prefix (a count at the beginning of a path takes prefixed names literally, below an element it does not)."
  },
  {
   "property": "C95",
   "status": "proved",
   "theorems": [
    "C95_count",
    "C95_sum",
    "C95_sum_delete",
    "C95_delete",
    "C95_append",
    "C95_once_refuted"
   ],
   "note": "Refuted: C95_once (docs/performance.md:138, batches parse the XML once)."
  },
  {
   "property": "C96",
   "status": "proved",
   "theorems": [
    "C96_twice",
    "C96_budget",
    "C96_store",
    "C96_rounds"
   ],
   "note": "What happens beyond the limit is C21_outgrown and C21_limit_refuted."
  },
  {
   "property": "C97",
   "status": "proved",
   "theorems": [
    "C97_transform",
    "C97_transform_closed",
    "C97_from_nothing"
   ],
   "note": "Self-closing elements need the extra first call, since a Set on them inserts beside, not inside (C02_self_closing_refuted)."
  },
  {
   "property": "C98",
   "status": "proved",
   "theorems": [
    "C98_update_all",
    "C98_delete_where",
    "C98_outcomes",
    "C98_forward_refuted"
   ],
   "note": "At most 1000 elements, since counts and numbers end there (C31); for updates the elements have two tags (C02_self_closing_refuted)."
  },
  {
   "property": "C99",
   "status": "proved",
   "theorems": [
    "C99_queue",
    "C99_orders",
    "C99_sole_refuted"
   ],
   "note": "At most 1000 entries, since counts and numbers end there (C31)."
  },
  {
   "property": "C100",
   "status": "proved",
   "theorems": [
    "C100_trim",
    "C100_trimmed",
    "C100_get",
    "C100_set_get",
    "C100_chars",
    "C100_glob",
    "C100_read",
    "C100_encode"
   ],
   "note": "The functions of Go's library (strings.TrimSpace, conversion to runes) are modelled in GoStr.v; the theorems show that the model of them is what the Unicode standard and RFC 3629 say, so that all statements with trim_space and runes can be read with trimmed and reads_chars."
  },
  {
   "property": "C101",
   "status": "proved",
   "theorems": [
    "C101_rearrange",
    "C101_any_order",
    "C101_sort",
    "C101_less",
    "C101_attributes_refuted",
    "C101_self_closing_refuted"
   ],
   "note": "Refuted for entries with a single tag: SetRaw puts the content after the tag, beside the entry, without an error (C101_self_closing_refuted); the attributes of entries stay (C101_attributes_refuted)."
  },
  {
   "property": "C102",
   "status": "proved",
   "theorems": [
    "C102_rollback",
    "C102_bytes",
    "C102_savepoint",
    "C102_notation",
    "C102_self_closing_refuted",
    "C102_attributes_refuted"
   ],
   "note": "Deleting an element is not among the edits that can be taken back (an element can only be put back behind the last of its name). Refuted: the order of several attributes is not restored (C102_attributes_refuted), and a self-closing element does not become self-closing again (C102_self_closing_refuted)."
  },
  {
   "property": "C103",
   "status": "proved",
   "theorems": [
    "C103_transfer",
    "C103_conserved",
    "C103_drain",
    "C103_attributes_refuted"
   ],
   "note": "The lists are written with two tags in the theorem. Refuted: the attributes of an entry do not move with it (C103_attributes_refuted)."
  },
  {
   "property": "C104",
   "status": "proved",
   "theorems": [
    "C104_ledger",
    "C104_counters",
    "C104_counters_any_order",
    "C104_counters_total",
    "C104_total",
    "C104_any_order",
    "C104_fraction_refuted",
    "C104_overflow_refuted"
   ],
   "note": "Refuted: numbers with a fraction (C104_fraction_refuted) and numbers beyond int64 (C104_overflow_refuted) silently count as zero."
  },
  {
   "property": "C105",
   "status": "proved",
   "theorems": [
    "C105_count",
    "C105_linear",
    "C105_whole",
    "C105_oversize",
    "C105_bounded",
    "C105_tight"
   ],
   "note": "The count is of bytes looked at (ModelCheck.v says of each function what counts); the text of the error message is not counted."
  },
  {
   "property": "C106",
   "status": "proved",
   "theorems": [
    "C106_copy",
    "C106_exact",
    "C106_at_once",
    "C106_blanks_refuted",
    "C106_repeated_refuted"
   ],
   "note": "Refuted: white space around texts (C106_blanks_refuted), siblings of the same name (C106_repeated_refuted)."
  },
  {
   "property": "C107",
   "status": "proved",
   "theorems": [
    "C107_layers",
    "C107_again",
    "C107_any_order",
    "C107_nested_refuted"
   ],
   "note": "Refuted: keys with elements inside keep them (C107_nested_refuted)."
  },
  {
   "property": "C108",
   "status": "proved",
   "theorems": [
    "C108_get",
    "C108_get_any_case",
    "C108_delete",
    "C108_set",
    "C108_indent",
    "C108_reserved",
    "C108_zero_refuted",
    "C108_markup_refuted"
   ],
   "note": "Refuted: Options{} as the default (C108_zero_refuted), Indent with markup (C108_markup_refuted)."
  },
  {
   "property": "C109",
   "status": "proved",
   "theorems": [
    "C109_sync",
    "C109_edits",
    "C109_repeated_refuted"
   ],
   "note": "Refuted for repeated elements (C109_repeated_refuted)."
  },
  {
   "property": "C110",
   "status": "proved",
   "theorems": [
    "C110_history",
    "C110_agent",
    "C110_indistinguishable",
    "C110_any_time",
    "C110_continued"
   ],
   "note": ""
  },
  {
   "property": "C111",
   "status": "proved",
   "theorems": [
    "C111_actor",
    "C111_plain",
    "C111_notations",
    "C111_answers",
    "C111_language",
    "C111_findings"
   ],
   "note": ""
  },
  {
   "property": "C112",
   "status": "proved",
   "theorems": [
    "C112_sessions",
    "C112_many",
    "C112_shared_refuted"
   ],
   "note": "Refuted for programs that share a key (C112_shared_refuted: a lost update)."
  },
  {
   "property": "C113",
   "status": "proved",
   "theorems": [
    "C113_delete",
    "C113_set_nil",
    "C113_delete_many",
    "C113_few",
    "C113_ends",
    "C113_rounds",
    "C113_document",
    "C113_attribute_refuted",
    "C113_gone_refuted"
   ],
   "note": "Refuted for attributes, whose deletion may lengthen the document (C113_attribute_refuted); the loop may end with the element still there (C113_gone_refuted)."
  }
 ]
}