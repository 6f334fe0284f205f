{
 "claims": [
  {
   "property": "C01",
   "status": "proved",
   "theorems": [
    "C01_fs_path_round_trip",
    "C01_negative_index_refuted",
    "C01_empty_key_refuted",
    "C01_quote_bracket_refuted",
    "C01_trailing_newline_refuted"
   ],
   "note": "Round trip on the stated domain for arbitrary non-ASCII Unicode tables; the four refuted theorems are the witnesses outside the domain."
  },
  {
   "property": "C02",
   "status": "proved",
   "theorems": [
    "C02_lt_is_lexicographic",
    "C02_strict_order",
    "C02_derived",
    "C02_sorted_indices_increase"
   ],
   "note": ""
  },
  {
   "property": "C03",
   "status": "proved",
   "theorems": [
    "C03_add_is_fresh_concatenation",
    "C03_add_assoc",
    "C03_neutral_len_slices",
    "C03_startswith"
   ],
   "note": "Selectors are references into a heap of list objects, so 'no operand is altered' is a real statement."
  },
  {
   "property": "C04",
   "status": "proved",
   "theorems": [
    "C04_part_ways_complete",
    "C04_put_get",
    "C04_put_get_same",
    "C04_put_frame",
    "C04_failed_put_changes_nothing",
    "C04_wildcard_put",
    "C04_put_all_items",
    "C04_negative_index_alias_refuted"
   ],
   "note": "The refuted theorem shows why indices counted from the end are excluded from the frame."
  },
  {
   "property": "C05",
   "status": "proved",
   "theorems": [
    "C05_wildcard_get",
    "C05_other_exceptions_escape",
    "C05_path_to_wildcard",
    "C05_get_or_none",
    "C05_dict_wildcard_sees_keys"
   ],
   "note": ""
  },
  {
   "property": "C06",
   "status": "proved",
   "theorems": [
    "C06_deleted_is_gone",
    "C06_list_item",
    "C06_delete_all_items",
    "C06_delete_frame",
    "C06_unset_is_noop",
    "C06_failed_delete_changes_nothing",
    "C06_wildcard_delete",
    "C06_wildcard_not_atomic_refuted"
   ],
   "note": "The refuted theorem: an exception that is no selector exception leaves the items before it deleted."
  },
  {
   "property": "C07",
   "status": "proved",
   "theorems": [
    "C07_post_get",
    "C07_post_frame",
    "C07_list_growth",
    "C07_out_of_order",
    "C07_wildcard_post_refuted",
    "C07_missing_dict_key_refuted",
    "C07_missing_dict_key_clobbers_refuted"
   ],
   "note": "Refuted without the proviso on dict keys: after creating a missing dict entry post continues in the dict instead of the new entry."
  },
  {
   "property": "C08",
   "status": "proved",
   "theorems": [
    "C08_denotes_union",
    "C08_value_error_exactly_on_mixed_level",
    "C08_iteration_denotes_same_set",
    "C08_depends_only_on_path_set",
    "C08_rebuild"
   ],
   "note": "For every set iteration order. The empty path counts as a wildcard at the top level when deciding the ValueError."
  },
  {
   "property": "C09",
   "status": "proved",
   "theorems": [
    "C09_residual",
    "C09_composes",
    "C09_none_iff_nothing_below",
    "C09_complete_is_absorbing",
    "C09_bare_key"
   ],
   "note": "C09_bare_key contains the exact difference between bare-key and path subscripting."
  },
  {
   "property": "C10",
   "status": "proved",
   "theorems": [
    "C10_mfs_path_round_trip",
    "C10_empty_selector_refuted"
   ],
   "note": "The refuted theorem is the witness outside the domain: the selector without paths."
  },
  {
   "property": "C11",
   "status": "proved",
   "theorems": [
    "C11_selected_is_kept",
    "C11_above_is_there",
    "C11_nothing_else",
    "C11_complete_copies",
    "C11_list_indices",
    "C11_list_index_refuted",
    "C11_defaults_refuted",
    "C11_below_plain_value_refuted"
   ],
   "note": "The refuted theorems are the findings named in the claim."
  },
  {
   "property": "C12",
   "status": "proved",
   "theorems": [
    "C12_missing_raises_unchanged",
    "C12_removes_exactly",
    "C12_force",
    "C12_list_items_refuted",
    "C12_list_items_midway_refuted",
    "C12_required_midway_refuted",
    "C12_force_dict_refuted"
   ],
   "note": "C12_missing_raises_unchanged holds for all selectors; the rest for paths of names. The refuted theorems are the findings named in the claim."
  },
  {
   "property": "C13",
   "status": "proved",
   "theorems": [
    "C13_type_safe",
    "C13_reads"
   ],
   "note": "Defaults may be methods using the record re-entrantly."
  },
  {
   "property": "C14",
   "status": "proved",
   "theorems": [
    "C14_required_present",
    "C14_constructor_rejects",
    "C14_lazy_required_refuted"
   ],
   "note": "Holds for non-lazy properties; the refuted theorem shows that required is not enforced on lazy ones."
  },
  {
   "property": "C15",
   "status": "proved",
   "theorems": [
    "C15_failed_write_changes_nothing",
    "C15_write_frame"
   ],
   "note": ""
  },
  {
   "property": "C16",
   "status": "proved",
   "theorems": [
    "C16_read_only",
    "C16_raises"
   ],
   "note": ""
  },
  {
   "property": "C17",
   "status": "proved",
   "theorems": [
    "C17_set_slot_read",
    "C17_read_stores",
    "C17_computed_once",
    "C17_unset_read_calls",
    "C17_function_called_once",
    "C17_set_slot_never_called",
    "C17_bad_default_not_stored",
    "C17_lazy_without_default_refuted"
   ],
   "note": "Calls are counted by a ghost trace. The refuted theorem: a lazy property without default and type reads as the private marker."
  },
  {
   "property": "C18",
   "status": "proved",
   "theorems": [
    "C18_unset_reads_none",
    "C18_assign_none",
    "C18_other_rejected",
    "C18_unset_none_keyerror"
   ],
   "note": ""
  },
  {
   "property": "C19",
   "status": "proved",
   "theorems": [
    "C19_reassign_own_value"
   ],
   "note": ""
  },
  {
   "property": "C20",
   "status": "proved",
   "theorems": [
    "C20_exact",
    "C20_unknown_rejected",
    "C20_ambiguous_rejected",
    "C20_dict_or_keywords",
    "C20_order_independent"
   ],
   "note": "C20_exact for classes whose defaults are not methods of the instance."
  },
  {
   "property": "C21",
   "status": "proved",
   "theorems": [
    "C21_list_items_typed",
    "C21_dict_values_typed",
    "C21_bad_coercion_refuted"
   ],
   "note": "The refuted theorem is the witness without the assumption on the coercion."
  },
  {
   "property": "C22",
   "status": "proved",
   "theorems": [
    "C22_same_as_builtin",
    "C22_insert_spreads",
    "C22_pop_far_below",
    "C22_index_divergence",
    "C22_failure_atomic",
    "C22_refused_item_raises",
    "C22_add",
    "C22_from_sequence",
    "C22_from_mapping"
   ],
   "note": "One more divergence than the claim lists: index/remove of an absent tuple raises TypeError from the message formatting; it is in C22_index_divergence."
  },
  {
   "property": "C23",
   "status": "proved",
   "theorems": [
    "C23_refines_finite_map",
    "C23_failing_update",
    "C23_key_order"
   ],
   "note": "update coerces every value twice; the specification says so."
  },
  {
   "property": "C24",
   "status": "proved",
   "theorems": [
    "C24_meaning",
    "C24_reflexive",
    "C24_symmetric",
    "C24_terminates",
    "C24_transitive",
    "C24_negation",
    "C24_false_across_types",
    "C24_extraneous_ignored",
    "C24_collection_props_ignored",
    "C24_transitive_refuted"
   ],
   "note": "== is modelled as it evaluates (order of comparison, coercion of plain lists and dicts, exceptions); C24_meaning ties every answer to an inductive definition. Transitivity holds where plain and typed collections do not share a place, and is refuted otherwise."
  },
  {
   "property": "C25",
   "status": "proved",
   "theorems": [
    "C25_equal_hash",
    "C25_equal_id",
    "C25_containers",
    "C25_record_with_container",
    "C25_dict_order_refuted",
    "C25_extraneous_key_refuted",
    "C25_empty_collection_unhashable"
   ],
   "note": "Hashes of opaque values, text and tuples are arbitrary functions respecting ==. The two stated exceptions are proved as refutations; C25_empty_collection_unhashable is an additional finding."
  },
  {
   "property": "C26",
   "status": "proved",
   "theorems": [
    "C26_words_unique",
    "C26_normal_form",
    "C26_normalised_reads_same",
    "C26_alike_iff_same_words",
    "C26_idempotent",
    "C26_no_stray_blanks",
    "C26_case_ignored",
    "C26_case_kept",
    "C26_nothing_ignored",
    "C26_same_words_alike"
   ],
   "note": ""
  },
  {
   "property": "C27",
   "status": "proved",
   "theorems": [
    "C27_only_unchanged",
    "C27_empty",
    "C27_succeeds",
    "C27_nan_refuted"
   ],
   "note": "C27_only_unchanged and C27_empty hold for all options, filters and compare_as functions; C27_succeeds (no exception) without filter and compare_as."
  },
  {
   "property": "C28",
   "status": "proved",
   "theorems": [
    "C28_entries",
    "C28_no_duplicates",
    "C28_empty_iff_same_multiset",
    "C28_positions_once",
    "C28_lonely_is_surplus",
    "C28_lengths",
    "C28_repr_confusion_refuted"
   ],
   "note": "Lengths are those of the items compared (ignore_empty_slots leaves out empty ones). The repr confusion is recorded as a finding."
  },
  {
   "property": "C29",
   "status": "proved",
   "theorems": [
    "C29_swap",
    "C29_order_of_sets",
    "C29_simple",
    "C29_duck_refuted",
    "C29_set_order_refuted",
    "C29_swap_set_order_refuted"
   ],
   "note": "All options and filters but duck_type, for which it is refuted. Fuzzy matching is symmetric for corresponding set orders and refuted for others."
  },
  {
   "property": "C30",
   "status": "proved",
   "theorems": [
    "C30_empty_iff_agree",
    "C30_entries",
    "C30_paths",
    "C30_no_path_twice",
    "C30_fuzzy_refuted",
    "C30_mixed_refuted",
    "C30_no_change_refuted",
    "C30_subtype_refuted"
   ],
   "note": "With the default options (text normalisation, extraneous and, without fuzzy matching, unchanged/moved are arbitrary). == is assumed to be an equivalence; C30_empty_iff_agree with fuzzy matching on assumes that agreeing records have equal identities (C30_fuzzy_refuted shows that this is needed), C30_no_path_twice that no key of a DictCollection is the name of a property of it (C30_mixed_refuted). Findings recorded as _refuted."
  },
  {
   "property": "C31",
   "status": "proved",
   "theorems": [
    "C31_only_selected",
    "C31_no_influence",
    "C31_exactly_selected",
    "C31_identity_no_influence",
    "C31_identity_by_key",
    "C31_identity_whole",
    "C31_list_items_refuted",
    "C31_one_item_refuted",
    "C31_nested_identity_refuted",
    "C31_empty_identity_refuted"
   ],
   "note": "Without duck typing. A path is selected if a selector of the filter lies at, below or above it. C31_only_selected assumes that no selector picks single items of a plain list (refuted otherwise); C31_no_influence that the identities of items, as far as selected, agree (C31_identity_* say when; the two identity refutations show that it can fail); C31_exactly_selected is the converse: nothing selected is lost. Findings recorded as _refuted."
  },
  {
   "property": "C32",
   "status": "proved",
   "theorems": [
    "C32_pairs_share",
    "C32_each_once",
    "C32_best_first",
    "C32_maximal"
   ],
   "note": ""
  },
  {
   "property": "C33",
   "status": "proved",
   "theorems": [
    "C33_composed",
    "C33_untouched",
    "C33_terminates",
    "C33_completes",
    "C33_has",
    "C33_again",
    "C33_property_call",
    "C33_call",
    "C33_history_refuted",
    "C33_clash_refuted",
    "C33_uninitialised_refuted",
    "C33_unsafe_refuted",
    "C33_ambiguous_refuted"
   ],
   "note": "All registries that class statements can bring about (good), among them the library's own (stock_good). Class creation includes Python's C3 linearisation and the chain of __new__ calls. Findings recorded as _refuted."
  },
  {
   "property": "C34",
   "status": "proved",
   "theorems": [
    "C34_properties",
    "C34_accepted",
    "C34_rejected",
    "C34_primary_key",
    "C34_eager",
    "C34_sorted",
    "C34_bound",
    "C34_invariant",
    "C34_accessors",
    "C34_redeclared",
    "C34_diamond_refuted",
    "C34_key_inherited_refuted",
    "C34_own_name_refuted",
    "C34_accessor_clobbers_refuted",
    "C34_hidden_refuted"
   ],
   "note": "All class bodies, bases and heaps of property objects. C34_bound and C34_accessors ask that no fresh property object is used under two names (refuted without: C34_own_name_refuted)."
  },
  {
   "property": "C35",
   "status": "proved",
   "theorems": [
    "C35_isinstance",
    "C35_parts",
    "C35_unchanged",
    "C35_result",
    "C35_nonconforming",
    "C35_idempotent",
    "C35_property",
    "C35_property_conforming",
    "C35_none_at_construction",
    "C35_none_on_assignment",
    "C35_no_coercion",
    "C35_slots",
    "C35_coercion_inherited_refuted"
   ],
   "note": "Subtypes of subtypes to any depth; arbitrary predicates (may raise) and coercions (may raise, change the world, be subtypes themselves). C35_slots covers every reachable state of every record class."
  },
  {
   "property": "C36",
   "status": "proved",
   "theorems": [
    "C36_itertypes",
    "C36_itertypes_once",
    "C36_persistent",
    "C36_same_object",
    "C36_kept",
    "C36_any",
    "C36_any_absorbs",
    "C36_attribute",
    "C36_item",
    "C36_call",
    "C36_repeatable",
    "C36_not_writable",
    "C36_accessor",
    "C36_set_of_types_refuted",
    "C36_iteration_refuted",
    "C36_slice_refuted",
    "C36_inherited_refuted",
    "C36_writable_refuted",
    "C36_lazy_masked_refuted"
   ],
   "note": "All class tables and all histories of requests and accesses. That a placeholder is false is the constant __bool__ (empty.py:127), nothing to prove."
  },
  {
   "property": "C37",
   "status": "proved",
   "theorems": [
    "C37_round_trip",
    "C37_text",
    "C37_default_output",
    "C37_excluded",
    "C37_big_int_refuted",
    "C37_plain_record_refuted",
    "C37_null_refuted",
    "C37_json_in_record_refuted",
    "C37_attribute_error_refuted",
    "C37_same_key_refuted"
   ],
   "note": "Which records are representable is the inductive predicate fits (JsonSpec.v), independent of the marshalling functions. Lazy properties are not modelled."
  },
  {
   "property": "C38",
   "status": "proved",
   "theorems": [
    "C38_loaded",
    "C38_marshalled",
    "C38_document",
    "C38_to_json_refuted"
   ],
   "note": "Exact characterisations (equivalences) of the unknown keys after loading and of the keys of the output."
  },
  {
   "property": "C39",
   "status": "proved",
   "theorems": [
    "C39_exact",
    "C39_position",
    "C39_type_error_refuted",
    "C39_plain_record_refuted"
   ],
   "note": "An equivalence: the loader raises a path and error iff that is the first position at which a json_in function or a class raises. Type errors are raised by the class, hence the stated exception."
  },
  {
   "property": "C40",
   "status": "proved",
   "theorems": [
    "C40_round_trip",
    "C40_injective",
    "C40_documents",
    "C40_nc_documents",
    "C40_collision_refuted",
    "C40_nested_object_lost",
    "C40_nested_refuted",
    "C40_mixed_list_refuted"
   ],
   "note": "Keys: an equivalence (round trip iff no such place). Also whole documents, and what the classes do to nested objects."
  },
  {
   "property": "C41",
   "status": "proved",
   "theorems": [
    "C41_round_trip",
    "C41_anywhere",
    "C41_injective",
    "C41_none_refuted",
    "C41_none_item_refuted",
    "C41_subclass_refuted",
    "C41_untyped_refuted",
    "C41_no_properties_refuted"
   ],
   "note": "For every value that holds (VisitSpec.v), every other option setting and without a filter. The refuted forms show why each restriction of holds is needed."
  },
  {
   "property": "C42",
   "status": "proved",
   "theorems": [
    "C42_present",
    "C42_nested",
    "C42_only_shown",
    "C42_selected",
    "C42_no_influence",
    "C42_positions",
    "C42_all_visited",
    "C42_items_shift_refuted",
    "C42_items_unfiltered_refuted",
    "C42_empty_filter_refuted",
    "C42_cast_positions_refuted"
   ],
   "note": "Visit with arbitrary apply hook; the default unpack, aggregate and reduce. Places in the output are related to positions in the value by the relation leads (VisitSpec.v). Type unions and apply_empty_slots are not modelled."
  },
  {
   "property": "C43",
   "status": "proved",
   "theorems": [
    "C43_records",
    "C43_round_trip",
    "C43_generic",
    "C43_only_items_matter",
    "C43_unregistered",
    "C43_python2_names",
    "C43_extra_property_refuted",
    "C43_extra_default_refuted",
    "C43_required_refuted",
    "C43_subclass_refuted",
    "C43_items_coerced_refuted"
   ],
   "note": "Trees of values (pickle's memo for shared or cyclic references is not modelled). The stated exception for generic collections is proved as C43_generic (exact content after loading) and the refutations."
  },
  {
   "property": "C44",
   "status": "proved",
   "theorems": [
    "C44_same_type",
    "C44_items",
    "C44_collection",
    "C44_distinct",
    "C44_rejected",
    "C44_same_name_rejected",
    "C44_granted",
    "C44_names",
    "C44_same_named_class_refuted",
    "C44_lists_of_lists_refuted",
    "C44_missing_module_refuted",
    "C44_dotted_refuted"
   ],
   "note": "All histories of requests interleaved with arbitrary changes to sys.modules."
  },
  {
   "property": "C45",
   "status": "proved",
   "theorems": [
    "C45_key_parsing_exponential",
    "C45_cost_model_adequate"
   ],
   "note": "Lower bound 2^n on the ticks of a step-counting backtracking engine."
  },
  {
   "property": "C46",
   "status": "proved",
   "theorems": [
    "C46_fs_constructor",
    "C46_rejects_every_invalid_element_refuted"
   ],
   "note": ""
  },
  {
   "property": "C47",
   "status": "proved",
   "theorems": [
    "C47_patch",
    "C47_frame",
    "C47_unreadable_source"
   ],
   "note": "For records containing records and lists (no dicts, because of the findings of C07 on dicts). That patch without copy shares the values with the source is outside the model (trees)."
  },
  {
   "property": "C48",
   "status": "proved",
   "theorems": [
    "C48_text",
    "C48_sites",
    "C48_attributes",
    "C48_missing",
    "C48_families",
    "C48_copy",
    "C48_copy_lost",
    "C48_undefined_refuted",
    "C48_unpack_refuted",
    "C48_union_refuted",
    "C48_text_lost_refuted",
    "C48_name_refuted",
    "C48_copy_refuted"
   ],
   "note": "All 74 classes and 75 raise sites are transcribed. Values are arbitrary, with arbitrary formatting, repr and attributes; formatting text gives the text."
  },
  {
   "property": "C49",
   "status": "proved",
   "theorems": [
    "C49_date_only",
    "C49_date",
    "C49_datetime",
    "C49_calendar",
    "C49_exact",
    "C49_date_text",
    "C49_datetime_text",
    "C49_datetime_refused",
    "C49_round_trip",
    "C49_short_refuted",
    "C49_utc_refuted"
   ],
   "note": "strptime is modelled for the seven directives used, with the backtracking of its regular expressions; dateutil's parser is an arbitrary function. Digits outside ASCII are an arbitrary partial function; C49_exact is about ASCII text."
  },
  {
   "property": "C50",
   "status": "proved",
   "theorems": [
    "C50_round_trip",
    "C50_injective",
    "C50_text",
    "C50_record_text",
    "C50_jsondict_refuted",
    "C50_unsafe_refuted",
    "C50_deleted_refuted",
    "C50_json_data_refuted"
   ],
   "note": "Python's evaluator is modelled for literals and calls of classes; float text is an arbitrary function with the promised round trip; the constructors are those of JsonModel (C37-C39). Lazy properties and opaque values are outside rebuildable."
  },
  {
   "property": "C51",
   "status": "proved",
   "theorems": [
    "C51_complete",
    "C51_only",
    "C51_terminates",
    "C51_recursive_refuted",
    "C51_covers_output",
    "C51_union_refuted",
    "C51_undeclared_refuted"
   ],
   "note": "Without a filter; the default hooks; type unions of properties are modelled, of items not (collections do not support them)."
  },
  {
   "property": "C52",
   "status": "proved",
   "theorems": [
    "C52_summary",
    "C52_error",
    "C52_prints",
    "C52_below",
    "C52_entry_text",
    "C52_json_round_trip",
    "C52_json_injective",
    "C52_moved_refuted",
    "C52_hidden_refuted",
    "C52_none_key_refuted",
    "C52_reloaded_refuted",
    "C52_path_text_refuted"
   ],
   "note": "Paths with text forms that read back (C01) where texts are concerned; no such condition for C52_prints, C52_below and the JSON form."
  },
  {
   "property": "C53",
   "status": "proved",
   "theorems": [
    "C53_integer_text",
    "C53_number_text",
    "C53_text_round_trip",
    "C53_kept",
    "C53_float_of_int",
    "C53_float_round_trip",
    "C53_int_of_float",
    "C53_typed",
    "C53_unicode",
    "C53_string_refuted",
    "C53_truncates_refuted",
    "C53_float_refuted"
   ],
   "note": "float(text) and str(float) are parameters; sub-classes of int, float and str other than bool are not distinguished."
  },
  {
   "property": "C54",
   "status": "proved",
   "theorems": [
    "C54_collection_declared",
    "C54_declared",
    "C54_declared_type",
    "C54_converted_once",
    "C54_same_object",
    "C54_fresh",
    "C54_holds",
    "C54_isa_alone_refuted",
    "C54_narrower_of_refuted",
    "C54_replaced_itemtype_refuted",
    "C54_typed_dict_lost_refuted",
    "C54_falsy_is_empty"
   ],
   "note": "Properties with the default coercion; item coercions return items of the item type (C21_bad_coercion_refuted without that) and do not change collections."
  },
  {
   "property": "C55",
   "status": "proved",
   "theorems": [
    "C55_read",
    "C55_missing",
    "C55_read_declared",
    "C55_unset",
    "C55_not_consulted",
    "C55_assign",
    "C55_results",
    "C55_never_changes",
    "C55_assigned_refuted",
    "C55_shadowed_refuted"
   ],
   "note": "The record's unknown keys are a dict in its slot, as after construction (C40). Assignments made inside default methods are outside the statement."
  },
  {
   "property": "C56",
   "status": "proved",
   "theorems": [
    "C56_first",
    "C56_error",
    "C56_applied",
    "C56_last",
    "C56_cases",
    "C56_one_class",
    "C56_order",
    "C56_round_trip",
    "C56_subclass_refuted",
    "C56_cast_refuted",
    "C56_cast_text_refuted",
    "C56_visit_text_refuted",
    "C56_lost_error_refuted"
   ],
   "note": "The theorems take the mapping of the value as each class as given, so nested unions are included; the round trip and the refutations use the visitors of C41."
  },
  {
   "property": "C57",
   "status": "proved",
   "theorems": [
    "C57_get_object",
    "C57_get_changes_nothing",
    "C57_put",
    "C57_put_raised",
    "C57_put_get",
    "C57_put_get_refuted",
    "C57_delete",
    "C57_delete_raised",
    "C57_put_all_share"
   ],
   "note": "Paths with wildcards: get keeps all objects; put is stated for a list of records. setattr and coerce_value may create objects but do not change existing ones; lazy properties are left out."
  },
  {
   "property": "C58",
   "status": "proved",
   "theorems": [
    "C58_get",
    "C58_copy_changed",
    "C58_original_changed",
    "C58_patch",
    "C58_patch_source",
    "C58_patch_shares",
    "C58_delete",
    "C58_patch_source_refuted",
    "C58_get_sharing_refuted",
    "C58_get_default_refuted"
   ],
   "note": "copy.deepcopy is a parameter that gives new objects only; which values are copied or patched is C11 and C47."
  },
  {
   "property": "C59",
   "status": "proved",
   "theorems": [
    "C59_no_change",
    "C59_no_difference",
    "C59_alike",
    "C59_own_property_refuted",
    "C59_dict_in_list_refuted",
    "C59_same_key_refuted",
    "C59_extraneous_key_refuted",
    "C59_order_refuted",
    "C59_keys_refuted",
    "C59_plain_keys_refuted",
    "C59_space_refuted"
   ],
   "note": "Both comparisons are the models of C24 and C30; the comparison of leaves is any equivalence that holds of values which are ==."
  },
  {
   "property": "C60",
   "status": "proved",
   "theorems": [
    "C60_identity",
    "C60_primary_key",
    "C60_none_refuted",
    "C60_subclass_refuted",
    "C60_union_refuted",
    "C60_dict_refuted",
    "C60_item_types_refuted",
    "C60_other_fields_refuted"
   ],
   "note": "record_id without selector and normaliser, as __pk__ calls it."
  },
  {
   "property": "C61",
   "status": "proved",
   "theorems": [
    "C61_off",
    "C61_cast_off",
    "C61_called",
    "C61_only",
    "C61_placed",
    "C61_same",
    "C61_default",
    "C61_ends",
    "C61_endless",
    "C61_cast_same",
    "C61_cast_absent",
    "C61_not_called_refuted",
    "C61_phantom_refuted",
    "C61_collection_refuted",
    "C61_cyclic_refuted",
    "C61_cast_refuted"
   ],
   "note": "The exception object is a value without attributes; a stack of bounded depth stands for Python's."
  },
  {
   "property": "C62",
   "status": "proved",
   "theorems": [
    "C62_field_selector",
    "C62_multi_field_selector",
    "C62_injective",
    "C62_multi_injective",
    "C62_iteration"
   ],
   "note": "Python's syntax is the fragment of ReprModel (C50)."
  },
  {
   "property": "C63",
   "status": "proved",
   "theorems": [
    "C63_agree_afterwards",
    "C63_no_difference_left",
    "C63_exactly_the_reported",
    "C63_removed_items_refuted",
    "C63_removed_last_item_refuted",
    "C63_moved_records_refuted"
   ],
   "note": "default options without compare_as; lists and dicts in corresponding slots agree, and the refuted theorems show why; slot values are stored as they are."
  },
  {
   "property": "C64",
   "status": "proved",
   "theorems": [
    "C64_position",
    "C64_filter",
    "C64_kept",
    "C64_own_visitor",
    "C64_pop",
    "C64_late_refuted"
   ],
   "note": "transition system over visitors, generator objects and the call stack with arbitrary user code; generators must be begun in time, and the refuted theorem shows why."
  },
  {
   "property": "C65",
   "status": "proved",
   "theorems": [
    "C65_changes",
    "C65_uncached",
    "C65_same",
    "C65_one_answer",
    "C65_library",
    "C65_repr_refuted",
    "C65_stale_refuted"
   ],
   "note": "lazy defaults only read properties and depend on nothing else; slots hold atoms and records; collections are not represented."
  },
  {
   "property": "C66",
   "status": "proved",
   "theorems": [
    "C66_given",
    "C66_nothing_else",
    "C66_same_type",
    "C66_as_written",
    "C66_late",
    "C66_trait_name_refuted",
    "C66_default_refuted"
   ],
   "note": "__init__ methods are modelled as what they take, supply and pass on; the checks of argument values are not, nor are the collection property types (those are C54). C66_as_written is for types made directly from Property; the case of trait names that do not sort first is refuted by C66_trait_name_refuted."
  },
  {
   "property": "C67",
   "status": "proved",
   "theorems": [
    "C67_call",
    "C67_default",
    "C67_compare",
    "C67_bound",
    "C67_bound_refuted",
    "C67_keyword_only_refuted",
    "C67_compare_value_refuted",
    "C67_json_data",
    "C67_json_caches",
    "C67_json_refuted",
    "C67_json_caches_refuted"
   ],
   "note": "Python's binding of arguments and inspect.getfullargspec are transcribed from CPython 3.11; what functions do with their arguments is not modelled."
  },
  {
   "property": "C68",
   "status": "proved",
   "theorems": [
    "C68_sound",
    "C68_complete",
    "C68_inherited",
    "C68_tidy",
    "C68_mixin_refuted",
    "C68_mixin_hides_refuted",
    "C68_sorted_name_refuted",
    "C68_accessor_refuted"
   ],
   "note": "Class attributes are not assigned after the class statement; plain classes have no attribute called properties."
  },
  {
   "property": "C69",
   "status": "proved",
   "theorems": [
    "C69_document",
    "C69_again",
    "C69_extraneous",
    "C69_json_out_refuted",
    "C69_json_out_extraneous_refuted"
   ],
   "note": "Keys of dicts are text, as in the model of C37; floats and Decimals are not distinguished."
  },
  {
   "property": "C70",
   "status": "proved",
   "theorems": [
    "C70_fits",
    "C70_again",
    "C70_plain_prop",
    "C70_typed_prop",
    "C70_default_refuted"
   ],
   "note": "The condition on properties is about their own conversions and coerce functions, which are parameters of the model; C70_plain_prop and C70_typed_prop give the usual cases. Properties excluded from JSON may have no default here."
  },
  {
   "property": "C71",
   "status": "proved",
   "theorems": [
    "C71_silent",
    "C71_attribute",
    "C71_text",
    "C71_collection_refuted",
    "C71_count_refuted",
    "C71_repr_refuted"
   ],
   "note": "The conditions on objects (no collections of records, items with a hash) are those whose failure the refutations show. C71_text assumes of str.upper and NFC what its hypotheses say."
  },
  {
   "property": "C72",
   "status": "proved",
   "theorems": [
    "C72_stop",
    "C72_calls",
    "C72_once",
    "C72_errors",
    "C72_unread",
    "C72_fusion",
    "C72_default",
    "C72_collect_none_refuted"
   ],
   "note": "Hooks are functions without state which read their generators to the end. C72_calls and C72_once are for properties of one type (type unions: C56)."
  },
  {
   "property": "C73",
   "status": "proved",
   "theorems": [
    "C73_own",
    "C73_determined",
    "C73_grows",
    "C73_valid",
    "C73_copy_shares",
    "C73_copy_refuted",
    "C73_equal",
    "C73_set",
    "C73_set_refuted"
   ],
   "note": "Nobody but the methods touches the attribute selectors; slices have step 1."
  },
  {
   "property": "C74",
   "status": "proved",
   "theorems": [
    "C74_counted",
    "C74_once",
    "C74_hash_once",
    "C74_union_refuted",
    "C74_object_refuted"
   ],
   "note": "Counts calls of record_id, not time; bound for identities that are computed without an exception, no selector, no normalizing function."
  },
  {
   "property": "C75",
   "status": "proved",
   "theorems": [
    "C75_same",
    "C75_no_cycle",
    "C75_from_record",
    "C75_lost",
    "C75_pickle_refuted",
    "C75_deepcopy_refuted"
   ],
   "note": "pickle and copy.deepcopy themselves are transcribed from CPython (memo, save_reduce, _reconstruct); lists and dicts of at most 1000 items; what a generic collection drops besides is C43."
  },
  {
   "property": "C76",
   "status": "proved",
   "theorems": [
    "C76_honest",
    "C76_no_error",
    "C76_only_attribute_error",
    "C76_settled",
    "C76_first_alone",
    "C76_assigned",
    "C76_twice_refuted",
    "C76_two_types_refuted",
    "C76_lost_assignment_refuted",
    "C76_key_error_refuted"
   ],
   "note": "dict operations are atomic; coercions are part of making the value and do not fail; V1 properties (which return instead of raising) are left out."
  },
  {
   "property": "C77",
   "status": "proved",
   "theorems": [
    "C77_json_depth",
    "C77_hash_depth",
    "C77_json",
    "C77_hash",
    "C77_repr",
    "C77_eq_ends",
    "C77_eq_copy",
    "C77_order_refuted",
    "C77_shared_exponential"
   ],
   "note": "properties are typed and not lazy; values which are neither records nor collections are atoms; depth counts nested objects."
  },
  {
   "property": "C78",
   "status": "proved",
   "theorems": [
    "C78_others",
    "C78_effect",
    "C78_made",
    "C78_kept",
    "C78_failed",
    "C78_extend_other",
    "C78_extend_self",
    "C78_copy_shares",
    "C78_extend_self_refuted",
    "C78_copy_refuted"
   ],
   "note": "Lists and items in steps of one (no stride); one item type; coercions return and do not change the collections."
  },
  {
   "property": "C79",
   "status": "proved",
   "theorems": [
    "C79_entries",
    "C79_places",
    "C79_identities",
    "C79_recurse_refuted"
   ],
   "note": "As C30, on DiffModel; the exceptions are those of C30."
  },
  {
   "property": "C80",
   "status": "proved",
   "theorems": [
    "C80_one_sided",
    "C80_other_side",
    "C80_base_properties",
    "C80_slot",
    "C80_list_slot",
    "C80_silent",
    "C80_blind_refuted",
    "C80_dict_slot_refuted"
   ],
   "note": "As C30, on DiffModel; the slots of dict collections are covered by C80_one_sided and C80_other_side only, since a key can read like the name of a property (C80_dict_slot_refuted)."
  },
  {
   "property": "C81",
   "status": "proved",
   "theorems": [
    "C81_one_sided",
    "C81_other_side",
    "C81_slot",
    "C81_list_slot",
    "C81_same",
    "C81_unset",
    "C81_more_refuted"
   ],
   "note": "As C30, on DiffModel; the slots of dict collections are covered by C81_one_sided and C81_other_side only."
  },
  {
   "property": "C82",
   "status": "proved",
   "theorems": [
    "C82_identity",
    "C82_dict_absent",
    "C82_dict_alone",
    "C82_list_unmentioned",
    "C82_list_absent",
    "C82_place",
    "C82_compared_refuted",
    "C82_moved_refuted"
   ],
   "note": "DiffModel with the identities of EqModel. For list collections C82_list_absent (the entries are those of the lists without blank items, with positions told of the lists as they are) is for comparisons without moves and without recurse, and with one iteration order of sets at all places; C82_list_unmentioned is without these assumptions."
  },
  {
   "property": "C83",
   "status": "proved",
   "theorems": [
    "C83_words",
    "C83_merge",
    "C83_same",
    "C83_again",
    "C83_str",
    "C83_str_fails",
    "C83_str_key",
    "C83_distinct_refuted",
    "C83_str_total_refuted",
    "C83_str_distinct_refuted"
   ],
   "note": "repr() of a key is a function of the key which does not fail. Decimal digits beyond ASCII are any set of characters from 128 on."
  },
  {
   "property": "C84",
   "status": "proved",
   "theorems": [
    "C84_load",
    "C84_apart",
    "C84_dump",
    "C84_later",
    "C84_document_later",
    "C84_written_later",
    "C84_independent_refuted"
   ],
   "note": "Classes of the Json kinds without json_in, json_out, coercions and defaults."
  },
  {
   "property": "C85",
   "status": "proved",
   "theorems": [
    "C85_others",
    "C85_effect",
    "C85_keys",
    "C85_made",
    "C85_kept",
    "C85_failed",
    "C85_failed_update",
    "C85_update_self",
    "C85_copy_shares",
    "C85_make_refuted",
    "C85_copy_refuted"
   ],
   "note": "The two refutations show where typed dicts differ from what one would expect: copies share, and a typed dict made of a typed dict is empty."
  },
  {
   "property": "C86",
   "status": "proved",
   "theorems": [
    "C86_round_trip",
    "C86_injective",
    "C86_classes",
    "C86_tuple_fails",
    "C86_value_fails",
    "C86_tuple_refuted",
    "C86_keyword_refuted"
   ],
   "note": "The refutations are findings: the % operator takes a tuple apart; keywords which are no names."
  }
 ]
}