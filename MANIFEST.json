{"claims": [
{"property": "C01", "status": "proved", "theorems": ["C01_strict_search"], "note": ""},
{"property": "C02", "status": "proved", "theorems": ["C02_ordered_search"], "note": ""},
{"property": "C03", "status": "proved", "theorems": ["C03_unordered_search"], "note": ""},
{"property": "C04", "status": "proved", "theorems": ["C04_no_child_taken_twice", "C04_values_stand_for_own_children"], "note": ""},
{"property": "C05", "status": "proved", "theorems": ["C05_read_position_in_bounds", "C05_no_index_error"], "note": ""},
{"property": "C06", "status": "proved", "theorems": ["C06_documented_errors", "C06_pi_in_raw_refuted"], "note": ""},
{"property": "C07", "status": "proved", "theorems": ["C07_from_xml_terminates", "C07_always_ok_without_empty_as_string", "C07_text_collection_refuted"], "note": ""},
{"property": "C08", "status": "proved", "theorems": ["C08_to_xml_terminates"], "note": ""},
{"property": "C09", "status": "proved", "theorems": ["C09_text_consumed_once", "C09_attribute_consumed_once", "C09_field_leaves_no_text", "C09_field_leaves_no_attribute", "C09_mapping_leaves_no_attributes"], "note": ""},
{"property": "C10", "status": "proved", "theorems": ["C10_datum_bound_at_most_once", "C10_field_takes_what_it_yields"], "note": ""},
{"property": "C11", "status": "proved", "theorems": ["C11_forbid_exact", "C11_forbid_accepts_no_more"], "note": ""},
{"property": "C12", "status": "proved", "theorems": ["C12_forbid_ignores_empty_unknown", "C12_ordered_ignores_bare_strays", "C12_unordered_ignores_bare_strays"], "note": ""},
{"property": "C13", "status": "proved", "theorems": ["C13_qname_round_trip", "C13_qname_round_trip_no_namespace", "C13_qname_injective"], "note": ""},
{"property": "C14", "status": "proved", "theorems": ["C14_alias_resolution", "C14_alias_errors"], "note": ""},
{"property": "C15", "status": "proved", "theorems": ["C15_merge_priority", "C15_select_ns_first"], "note": ""},
{"property": "C16", "status": "proved", "theorems": ["C16_inherited_tag", "C16_inherited_ns", "C16_inherited_skip_empty", "C16_inherited_ns_attrs", "C16_inherited_search_mode", "C16_inherited_nsmap"], "note": ""},
{"property": "C17", "status": "proved", "theorems": ["C17_attr_declares", "C17_element_declares", "C17_wrapped_declares", "C17_wrapped_around", "C17_nothing_declared", "C17_merge_last_wins", "C17_merge_nsmap_last_wins", "C17_merge_associative", "C17_merge_neutral_right", "C17_merge_neutral_left"], "note": ""},
{"property": "C18", "status": "proved", "theorems": ["C18_class_names", "C18_root_model_names", "C18_choice_is_unique"], "note": ""},
{"property": "C19", "status": "proved", "theorems": ["C19_element_namespace", "C19_attribute_namespace", "C19_submodel_namespace", "C19_wrapper_namespace", "C19_nearest_map_refuted"], "note": ""},
{"property": "C20", "status": "proved", "theorems": ["C20_round_trip", "C20_round_trip_identity"], "note": ""},
{"property": "C21", "status": "proved", "theorems": ["C21_nil_item_refuted", "C21_list_is_cut", "C21_tuple_shifts", "C21_empty_text_is_lost", "C21_empty_text_as_string", "C21_empty_list_is_lost", "C21_none_attribute_is_empty", "C21_none_mapping_is_empty", "C21_computed_and_forbid_refuted", "C21_wrapped_text_becomes_empty_refuted", "C21_nil_text_of_submodel_refuted", "C21_split_wrapper_refuted", "C21_same_name_refuted", "C21_list_of_union_refuted", "C21_nil_attribute_refuted", "C21_mapping_values_refuted"], "note": ""},
{"property": "C22", "status": "proved", "theorems": ["C22_wrapped_raw_refuted", "C22_direct_raw_kept", "C22_class_setting_decides", "C22_class_setting_replaces_argument", "C22_empty_values", "C22_skip_empty", "C22_empty_wrapper_refuted"], "note": ""},
{"property": "C23", "status": "proved", "theorems": ["C23_none_writes_nothing", "C23_none_fields_are_not_written", "C23_mapping_element_refuted", "C23_tagged_union_refuted"], "note": ""},
{"property": "C24", "status": "proved", "theorems": ["C24_computed_dropped_refuted", "C24_unset_fields_are_not_written", "C24_unset_values_do_not_matter"], "note": ""},
{"property": "C25", "status": "proved", "theorems": ["C25_computed_reads_nothing", "C25_computed_fields_irrelevant"], "note": ""},
{"property": "C26", "status": "proved", "theorems": ["C26_writing_only_appends", "C26_children_in_field_order", "C26_children_in_item_order"], "note": ""},
{"property": "C27", "status": "proved", "theorems": ["C27_path_parts", "C27_wrapped_path", "C27_no_value_no_wrapper", "C27_adjacent_fields_share"], "note": ""},
{"property": "C28", "status": "proved", "theorems": ["C28_wrapped_reads_path"], "note": ""},
{"property": "C29", "status": "proved", "theorems": ["C29_list_of_texts", "C29_until_absent", "C29_document_order_refuted"], "note": ""},
{"property": "C30", "status": "proved", "theorems": ["C30_union_item_twice_refuted", "C30_list_reports_all", "C30_tuple_reports_all", "C30_model_reports_all", "C30_from_xml_reports_all", "C30_root_model_reports_all"], "note": ""},
{"property": "C31", "status": "proved", "theorems": ["C31_read_tuples_fit", "C31_tuple_length", "C31_wrong_length_raises", "C31_written_tuples_fit", "C31_none_tuple"], "note": ""},
{"property": "C32", "status": "proved", "theorems": ["C32_written_as_own_class", "C32_other_classes_dropped", "C32_first_fitting_variant", "C32_same_class_names_refuted"], "note": ""},
{"property": "C33", "status": "proved", "theorems": ["C33_snapshot_isolated", "C33_element_isolated", "C33_apply_shows_snapshot", "C33_methods_agree", "C33_search_agrees", "C33_paths_agree", "C33_create_agrees", "C33_pop_agrees", "C33_union_loop_agrees", "C33_reading_agrees", "C33_writing_agrees"], "note": ""},
{"property": "C34", "status": "proved", "theorems": ["C34_dispatches_on_attribute", "C34_looking_consumes_nothing", "C34_variant_takes_the_element", "C34_shared_name", "C34_output_selected_by_discriminator"], "note": ""},
{"property": "C35", "status": "proved", "theorems": ["C35_nil_attribute_taken_refuted", "C35_not_nil_primitive_read", "C35_not_nil_model_read", "C35_nil_primitive_written", "C35_nil_model_written", "C35_nil_primitive_read", "C35_nil_model_read", "C35_nil_1_refuted"], "note": ""},
{"property": "C36", "status": "proved", "theorems": ["C36_mapping_replaces_attributes", "C36_mapping_round_trip", "C36_attribute_before_mapping_refuted"], "note": ""},
{"property": "C37", "status": "proved", "theorems": ["C37_comments_ignored", "C37_text_after_comment_lost_refuted", "C37_instruction_refuted"], "note": ""},
{"property": "C38", "status": "proved", "theorems": ["C38_attribute_order_ignored", "C38_local_name_clash_refuted"], "note": ""},
{"property": "C39", "status": "proved", "theorems": ["C39_ordered_ignores_strays", "C39_unordered_ignores_strays", "C39_strict_refuted", "C39_unordered_duplicates_refuted"], "note": ""},
{"property": "C40", "status": "proved", "theorems": ["C40_root_tag"], "note": ""},
{"property": "C41", "status": "proved", "theorems": ["C41_alias_refuted", "C41_error_lines", "C41_line_is_unique"], "note": ""},
{"property": "C42", "status": "proved", "theorems": ["C42_lines_of_document", "C42_std_no_lines", "C42_line_of_element", "C42_item_lines", "C42_wrapped_line", "C42_wrapped_item_lines", "C42_component_lines", "C42_attribute_line", "C42_line_within_model", "C42_reported_within_model", "C42_own_line", "C42_nested_model_refuted", "C42_sibling_refuted"], "note": ""},
{"property": "C43", "status": "proved", "theorems": ["C43_serializer_replaces_default", "C43_serializer_called", "C43_only_for_its_field", "C43_validator_replaces_default", "C43_validator_only_for_its_field", "C43_root_model_refuted"], "note": ""},
{"property": "C44", "status": "proved", "theorems": ["C44_import_export", "C44_export_import"], "note": ""},
{"property": "C45", "status": "proved", "theorems": ["C45_backends_write_alike"], "note": ""},
{"property": "C46", "status": "proved", "theorems": ["C46_definition_errors_only", "C46_definition_terminates", "C46_everything_named", "C46_attributes_are_primitive", "C46_attributes_no_default", "C46_collections_hold_elements", "C46_built_classes_read", "C46_arbitrary_union_refuted", "C46_plain_validator_refuted", "C46_empty_path_refuted", "C46_recursive_tuple_refuted"], "note": ""},
{"property": "C47", "status": "proved", "theorems": ["C47_registered_prefixes"], "note": ""},
{"property": "C48", "status": "proved", "theorems": ["C48_switch_values"], "note": ""},
{"property": "C49", "status": "proved", "theorems": ["C49_backends_read_alike", "C49_pi_in_raw_refuted"], "note": ""},
{"property": "C50", "status": "proved", "theorems": ["C50_first_model_base_decides", "C50_last_given_wins", "C50_linearisation", "C50_linearisation_found", "C50_later_base_tag_refuted", "C50_diamond_refuted"], "note": ""},
{"property": "C51", "status": "proved", "theorems": ["C51_method_is_used", "C51_annotation_is_used", "C51_no_annotation", "C51_nothing_else", "C51_order_irrelevant", "C51_nearest_definition", "C51_two_methods_refuted", "C51_shadowed_name_refuted"], "note": ""},
{"property": "C52", "status": "proved", "theorems": ["C52_new_class", "C52_rebuild_history", "C52_never_lost", "C52_functions_collected", "C52_unusable_asserts", "C52_forced_rebuild_refuted", "C52_late_annotations_refuted"], "note": ""},
{"property": "C53", "status": "proved", "theorems": ["C53_alias_arguments", "C53_wrapped_uses_inner", "C53_wrapped_any_depth", "C53_wrapped_alias_refuted", "C53_wrapped_declares"], "note": ""},
{"property": "C54", "status": "proved", "theorems": ["C54_three_numbers", "C54_two_numbers", "C54_comparison", "C54_new_merge_from_2_12", "C54_leading_letter_refuted"], "note": ""},
{"property": "C55", "status": "proved", "theorems": ["C55_as_if_not_declared", "C55_not_among_fields", "C55_output_ignores_it", "C55_never_supplied", "C55_root_field_refuted"], "note": ""},
{"property": "C56", "status": "proved", "theorems": ["C56_like_a_class_statement", "C56_module_refuted", "C56_cls_kwargs_refuted"], "note": ""},
{"property": "C57", "status": "proved", "theorems": ["C57_decorator_describes", "C57_decorator_reuse", "C57_decorator_reuse_refuted"], "note": ""},
{"property": "C58", "status": "proved", "theorems": ["C58_empty_text_is_no_text", "C58_text_round_trip", "C58_text_identity", "C58_indented_refuted"], "note": ""},
{"property": "C59", "status": "proved", "theorems": ["C59_prefix_declarations", "C59_raw_prefixes_refuted"], "note": ""},
{"property": "C60", "status": "proved", "theorems": ["C60_reading_ignores_output_settings", "C60_writing_ignores_input_settings"], "note": ""},
{"property": "C61", "status": "proved", "theorems": ["C61_excluded_fields", "C61_excluded_not_written", "C61_excluded_values_do_not_matter", "C61_excluded_are_read"], "note": ""},
{"property": "C62", "status": "proved", "theorems": ["C62_bound_by_type", "C62_root_bound_by_type", "C62_accepted_exactly", "C62_root_accepted_exactly", "C62_one_meaning"], "note": ""},
{"property": "C63", "status": "proved", "theorems": ["C63_attribute_text", "C63_text_text", "C63_element_text", "C63_mapping_text", "C63_integers_apart"], "note": ""},
{"property": "C64", "status": "proved", "theorems": ["C64_reading_leaves_no_trace", "C64_writing_leaves_no_trace", "C64_calls_independent"], "note": ""},
{"property": "C65", "status": "proved", "theorems": ["C65_modes_agree", "C65_without_forbid_refuted", "C65_out_of_turn_refuted", "C65_list_of_tuples_refuted", "C65_list_of_unions_refuted", "C65_bare_elements_refuted"], "note": "Documents with processing instructions and classes with custom field validators are left out."},
{"property": "C66", "status": "proved", "theorems": ["C66_unordered_ignores_order", "C66_repeated_names_refuted", "C66_ordered_refuted"], "note": ""},
{"property": "C67", "status": "proved", "theorems": ["C67_new_fields_unseen", "C67_shared_path_refuted"], "note": ""},
{"property": "C68", "status": "proved", "theorems": ["C68_values_from_document", "C68_submodels_alone"], "note": "every document and family of classes whose custom field validators only read; values returned by custom validators are not traced"},
{"property": "C69", "status": "proved", "theorems": ["C69_default", "C69_default_sound", "C69_alias", "C69_strict", "C69_frozen", "C69_other_statements", "C69_annotation_only", "C69_classes", "C69_names_refuted", "C69_wrapped_default_refuted", "C69_factory_refuted", "C69_frozen_refuted"], "note": "every declaration; the _refuted theorems show that the function names the plugin looks for are not where the functions are defined, and defaults and frozen fields it misses"},
{"property": "C70", "status": "proved", "theorems": ["C70_document", "C70_pieces_written", "C70_one_document", "C70_submodel_alone", "C70_raw_kept_refuted"], "note": "C70_document: to_xml_tree and the relation `document` (SpecOut.v, no fuel, no element operations) coincide; C70_pieces_written without the condition on raw elements; C70_one_document: at most one; C70_submodel_alone: a sub-model's element is its own document. No custom field serializers (they may do anything to the element). C70_raw_kept_refuted: a raw element is changed by a later wrapper of the same name."},
{"property": "C71", "status": "proved", "theorems": ["C71_context_reaches_all", "C71_no_other_context", "C71_from_xml"], "note": "Context.v models every deserialize method once more with its context argument and shows that it is Read.v with the context built into the pydantic oracle. Custom field validators (xml_field_validator) are not given the context by the code."},
{"property": "C72", "status": "proved", "theorems": ["C72_validator_called", "C72_serializer_called", "C72_other_fields", "C72_documented_forms", "C72_serializer_on_classmethod_refuted", "C72_classmethod_on_top_refuted", "C72_two_decorators_refuted"], "note": "A class method around a class or static method is left out (its meaning depends on the Python version); every function is decorated in one place. Three refuted expectations: a serializer on a classmethod or staticmethod is ignored, a classmethod on top passes the class twice, of two equal decorators only the upper one counts."},
{"property": "C73", "status": "proved", "theorems": ["C73_unread_text_ignored", "C73_indentation_ignored", "C73_pretty_round_trip", "C73_forbidden_text_refuted", "C73_raw_tail_refuted"], "note": "Text whose presence the models forbid and the tails of raw elements are the stated exceptions, each with a witness."},
{"property": "C74", "status": "proved", "theorems": ["C74_any_schedule", "C74_shared_data_unchanged", "C74_same_program"], "note": "Threads of calls as trees of single memory accesses, any schedule. One access is one element, dict or list. Defining classes in several threads, and registering prefixes, is outside."},
{"property": "C75", "status": "proved", "theorems": ["C75_same_declarations", "C75_same_classes", "C75_same_documents", "C75_same_values", "C75_default_refuted", "C75_merged_refuted"], "note": "Custom field serializers are assumed not to look at prefixes. The prefixes ElementTree registers globally (C47) are outside."},
{"property": "C76", "status": "proved", "theorems": ["C76_what_was_read_is_kept", "C76_kept_as_text", "C76_normal_form", "C76_no_flags_refuted", "C76_default_refuted", "C76_missing_mapping_refuted", "C76_skip_empty_refuted", "C76_nil_text_refuted", "C76_stripped_refuted", "C76_tuple_refuted"], "note": "No field computed, excluded or with user-written functions; fields that are always read (a mapping over all attributes, a text with empty_as_string) are required; attribute names as XML allows, no processing instructions inside, no mapping entry xsi:nil. The text version excludes raw elements."},
{"property": "C77", "status": "proved", "theorems": ["C77_reading", "C77_writing", "C77_not_swallowed", "C77_validation_error_refuted"], "note": "User code is what the program supplies: field validators and serializers, and the code pydantic calls while validating (Crashed). Two programs with the same classes are compared, one of which raises instead in any set of cases. Property getters and the encoding step of to_xml are functions in the model and cannot raise. A ValidationError raised while reading is collected or makes the next variant be tried; the refutation shows it."},
{"property": "C78", "status": "proved", "theorems": ["C78_only_recorded_calls", "C78_recorded_calls_are_made", "C78_validated_last", "C78_validations_linear", "C78_field_validator_linear", "C78_validations_unions", "C78_field_validator_unions", "C78_exponential_refuted"], "note": "calls are modelled as a list next to the readers of Read.v; that the list is complete and contains nothing else is proved (C78_only_recorded_calls, C78_recorded_calls_are_made). Field validators are assumed to read only; with unions validation is assumed not to return None. C78_exponential_refuted: reading nested unions of recursive models takes exponentially many validations"},
{"property": "C79", "status": "proved", "theorems": ["C79_switches_only_leave_out", "C79_switches_never_fail", "C79_mapping_overwrites_refuted", "C79_wrappers_merge_refuted", "C79_none_mapping_refuted"], "note": "classes without custom serializers; conditions on the declarations only (neat). Prefix declarations are not compared. The three refutations show that the conditions, and the TypeError for mappings bound to an element, are needed."},
{"property": "C80", "status": "proved", "theorems": ["C80_only_recorded_calls", "C80_recorded_calls_are_made", "C80_called_properly", "C80_at_most_once", "C80_number", "C80_each_field", "C80_root_serializer_ignored_refuted"], "note": "calls are modelled as a list next to the writers of Write.v; that the list is complete and contains nothing else is proved. An instance referenced from two places is two instances. The refutation shows that serializers for the root of a root model are ignored; C80_each_field is about the instance to_xml is called on."},
{"property": "C81", "status": "proved", "theorems": ["C81_nothing_made_up", "C81_nothing_lost", "C81_all_accepted", "C81_same_title_refuted", "C81_extra_not_reported_refuted"], "note": "in terms of the calls of user code recorded in Calls.v (C78). PydanticCustomError is taken to keep the text. Locations are checked against the declarations (class_leads); that indices are those of the items is C30. Two refutations: variants with the same title, unbound data next to a field error."},
{"property": "C82", "status": "proved", "theorems": ["C82_declarations", "C82_classes", "C82_writing", "C82_reading", "C82_own_prefixes_refuted", "C82_lines_refuted"], "note": "Two programs are compared by their form with every path written out as nested wrappers (SpecNest), so any two ways to split the paths are covered. Runs are compared whenever both end. Two refutations: prefixes declared by the wrapper, line numbers."},
{"property": "C83", "status": "proved", "theorems": ["C83_unread_attributes_ignored", "C83_later_versions_readable", "C83_mapping_refuted", "C83_forbidden_refuted"], "note": "C83_unread_attributes_ignored: equal outcomes, error and lines included. C83_later_versions_readable: any number of revisions by unread attributes and unknown elements, ordered mode. Limits: C83_mapping_refuted, C83_forbidden_refuted."},
{"property": "C84", "status": "proved", "theorems": ["C84_read", "C84_refused", "C84_stopped", "C84_one_answer", "C84_built_classes"], "note": "C84_read, C84_refused and C84_stopped: from_xml returns v / raises a ValidationError with a title and errors (locations, types, texts up to line numbers, inputs, in order) / lets a user exception through iff the rules of SpecPage give v / refuse with them / stop with it. C84_one_answer: at most one answer. C84_built_classes: every program of accepted class declarations without custom field validators meets the hypothesis. Classes with custom field validators are outside (they see the element itself)."},
{"property": "C85", "status": "proved", "theorems": ["C85_old_classes_read_new_documents", "C85_old_fields_recovered", "C85_new_field_inside_wrapper_refuted", "C85_skip_empty_refuted", "C85_strict_or_forbidden_refuted"], "note": "C85_old_classes_read_new_documents: same result from the document of the new classes and from that of the old ones for the trimmed value. C85_old_fields_recovered: with C20, the trimmed value itself. Both for classes without custom field validators and serializers. Limits: C85_new_field_inside_wrapper_refuted, C85_skip_empty_refuted, C85_strict_or_forbidden_refuted. C85_trees: trees of any depth."},
{"property": "C86", "status": "proved", "theorems": ["C86_trailing_elements_ignored", "C86_revisions_ignored", "C86_appended_fields_ignored", "C86_old_fields_recovered", "C86_raw_or_forbidden_refuted"], "note": "C86_trailing_elements_ignored: equal results, errors included, in any mode. C86_revisions_ignored: with C83, any number of changes of unread attributes and trailing elements. C86_appended_fields_ignored, C86_old_fields_recovered: new fields behind the old ones (documents as in C85). Limits: C86_raw_or_forbidden_refuted, and C39_strict_refuted for elements elsewhere. C86_trees: trees of any depth in any mode."},
{"property": "C87", "status": "proved", "theorems": ["C87_reading", "C87_writing", "C87_round_trip", "C87_declarations", "C87_classes", "C87_unnamed_refuted", "C87_lines_refuted"], "note": "C87_reading, C87_writing, C87_round_trip: values, documents and errors up to renaming. C87_declarations: the builder, for renamed core schemas; C87_classes: what it builds are renamed classes as the other theorems ask for. The validation of the renamed class is taken to be the same up to renaming; inputs shown in errors are not compared. Limits: C87_lines_refuted, C87_unnamed_refuted. C87_trees: trees of any depth."},
{"property": "C88", "status": "proved", "theorems": ["C88_only_fields_matter", "C88_declared_part", "C88_unbound_attributes", "C88_union_refuted"], "note": "C88_only_fields_matter: values that look alike through the fields give the same document. C88_declared_part: an instance of any class looks like its part named by the fields of the declared class. C88_unbound_attributes: the plain case. Limit: C88_union_refuted (an instance of a subclass of a union variant is silently left out). C88_trees: trees of any depth with nodes of any classes."},
{"property": "C89", "status": "proved", "theorems": ["C89_reading", "C89_writing", "C89_writing_alike", "C89_elements_refuted", "C89_mapping_refuted", "C89_lines_refuted"], "note": "C89_reading, C89_writing, C89_writing_alike (the values the two versions read, whose attributes are in different orders, are written alike). Limits: C89_elements_refuted, C89_mapping_refuted, C89_lines_refuted. Termination of both runs is C07/C08; fuel is not part of the code."},
{"property": "C90", "status": "proved", "theorems": ["C90_same_document_same_data", "C90_different_documents", "C90_different_texts", "C90_none_and_empty_refuted"], "note": "C90_same_document_same_data, C90_different_documents, C90_different_texts (under the same assumption on printer and parser as C58). Limit: C90_none_and_empty_refuted. C90_ex_trees: trees of any depth."},
{"property": "C91", "status": "proved", "theorems": ["C91_declaration_order", "C91_lists_refuted", "C91_other_modes_refuted"], "note": "C91_declaration_order. Limits: C91_lists_refuted (the condition that names do not repeat is needed), C91_other_modes_refuted. The order of declaration is changed in the class of the root element; the classes of sub-elements are the same for both. Which errors are reported is not compared."},
{"property": "C92", "status": "proved", "theorems": ["C92_reading", "C92_writing", "C92_same_name_refuted", "C92_other_modes_refuted", "C92_other_modes_tagged_refuted"], "note": "C92_reading, C92_writing (equalities of the results, with any fuel). Limits: C92_same_name_refuted, C92_other_modes_refuted, C92_other_modes_tagged_refuted. The theorems start from built classes; the builder keeps the order of the members."},
{"property": "C93", "status": "proved", "theorems": ["C93_reading", "C93_writing", "C93_twice_refuted", "C93_none_refuted"], "note": "C93_reading, both directions, for instances, ValidationErrors and exceptions of user code; C93_writing for documents. pydantic is taken to make of a list of one value what it makes of the value (relisted). Fields directly of the class, not inside of wrappers, tuples or unions. Limits: C93_twice_refuted, C93_none_refuted."},
{"property": "C94", "status": "proved", "theorems": ["C94_reading", "C94_writing", "C94_called_refuted"], "note": "C94_reading, an equivalence, for values, ValidationErrors (title, locations, types, messages, inputs) and exceptions of user code; C94_writing for unions of models, not for discriminated ones. Classes without field validators or serializers of their own. Limit: C94_called_refuted."},
{"property": "C95", "status": "proved", "theorems": ["C95_reading", "C95_writing", "C95_nil_refuted", "C95_errors_refuted", "C95_derived_refuted"], "note": "C95_reading, an equivalence of the values; failing reads are equivalent only in that they fail. C95_writing, an equation. Classes without field validators or serializers of their own, validators of the sub-models that do not give None. Limits: C95_nil_refuted, C95_errors_refuted, C95_derived_refuted."},
{"property": "C96", "status": "proved", "theorems": ["C96_reading", "C96_unions_refuted"], "note": "C96_reading, for every change of the oracle for pydantic that keeps what is accepted. Classes without field validators of their own. Limit: C96_unions_refuted."}
]}
