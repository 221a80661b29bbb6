{
 "claims": [
  {
   "property": "C01",
   "status": "proved",
   "theorems": [
    "C01_print_parse_roundtrip"
   ],
   "note": ""
  },
  {
   "property": "C02",
   "status": "proved",
   "theorems": [
    "C02_parse_grammar",
    "C02_accepted_wellformed",
    "C02_split_exact",
    "C02_parser_terminates",
    "C02_is_ancestor_of"
   ],
   "note": "acceptance is equivalent to an independent grammar"
  },
  {
   "property": "C04",
   "status": "proved",
   "theorems": [
    "C04_history_independent",
    "C04_same_object"
   ],
   "note": ""
  },
  {
   "property": "C06",
   "status": "proved",
   "theorems": [
    "C06_accepts_exactly",
    "C06_canonical",
    "C06_case_insensitive",
    "C06_dimension_bounded",
    "C06_multi_digit_refuted"
   ],
   "note": "finding: a name with a dimension of several digits is accepted with its first digit"
  },
  {
   "property": "C03",
   "status": "partial",
   "theorems": [
    "C03_fortran_index",
    "C03_zero_index_refuted"
   ],
   "note": "false of the code: index (0) denotes the last element (refuted); the exact meaning of every Fortran style index is proved"
  },
  {
   "property": "C05",
   "status": "proved",
   "theorems": [
    "C05_own_path",
    "C05_path_is_location",
    "C05_distinct_paths",
    "C05_full_path"
   ],
   "note": "for histories that insert a node only where it is in no container yet; C05_full_path is about get_full_path with IDSToplevel told by its class, for IDSs of which no array of structures contains a whole IDS (a finding otherwise: C67_nested_refuted)"
  },
  {
   "property": "C07",
   "status": "proved",
   "theorems": [
    "C07_resize",
    "C07_negative_refused"
   ],
   "note": ""
  },
  {
   "property": "C08",
   "status": "proved",
   "theorems": [
    "C08_list_refinement",
    "C08_length",
    "C08_out_of_range"
   ],
   "note": ""
  },
  {
   "property": "C09",
   "status": "partial",
   "theorems": [
    "C09_parent_is_container",
    "C09_setitem_refuted",
    "C09_append_refuted"
   ],
   "note": "proved for histories that insert only nodes that are in no container yet (and element assignment of nodes that have this array as parent); false for element assignment and for appending an element of another array (refuted)"
  },
  {
   "property": "C10",
   "status": "partial",
   "theorems": [
    "C10_same_contents",
    "C10_copy_unaffected",
    "C10_original_unaffected",
    "C10_node_copy_unaffected",
    "C10_node_original_unaffected",
    "C10_node_copy_refuted"
   ],
   "note": "proved for copies of IDSs; copies of nodes inside an IDS keep the parent of the original: proved for programs that do not assign by path or use index paths, refuted otherwise"
  },
  {
   "property": "C12",
   "status": "proved",
   "theorems": [
    "C12_has_value_iff_content",
    "C12_reads_keep_has_value",
    "C12_reads_keep_iteration",
    "C12_reads_keep_equality",
    "C12_reads_keep_hash"
   ],
   "note": ""
  },
  {
   "property": "C13",
   "status": "proved",
   "theorems": [
    "C13_leaves_exact",
    "C13_nodes_exact",
    "C13_visit_empty_exact",
    "C13_include_node",
    "C13_document_order",
    "C13_skips_empty_nodes_refuted"
   ],
   "note": "finding: empty elements of arrays of structures are listed without visit_empty"
  },
  {
   "property": "C14",
   "status": "partial",
   "theorems": [
    "C14_no_difference_iff",
    "C14_same_contents_no_report",
    "C14_reports_are_real",
    "C14_differences_are_reported",
    "C14_array_size_refuted"
   ],
   "note": "false as stated for array sizes inside a sub-structure that is empty on the other side (refuted); the exact condition is proved"
  },
  {
   "property": "C15",
   "status": "partial",
   "theorems": [
    "C15_reflexive",
    "C15_symmetric",
    "C15_transitive_solid",
    "C15_transitive_refuted"
   ],
   "note": "transitivity is false in general (refuted); proved for structures whose non-empty sub-structures all hold data"
  },
  {
   "property": "C16",
   "status": "partial",
   "theorems": [
    "C16_hash_determines_contents",
    "C16_prefix_free_names",
    "C16_same_contents_same_hash",
    "C16_dictionary_order",
    "C16_version_put",
    "C16_bytes_determine_contents_refuted",
    "C16_version_put_ignored_refuted",
    "C16_hash_total_refuted",
    "C16_equal_same_hash_refuted"
   ],
   "note": "the injectivity of the hash input is false in general (two sibling names where one ends in the bytes of the other data can be confused, refuted); proved outside that exact confusion, modulo collisions of the digest function; version_put, totality and equality findings"
  },
  {
   "property": "C28",
   "status": "partial",
   "theorems": [
    "C28_members",
    "C28_structure",
    "C28_not_an_identifier",
    "C28_symmetric_structure",
    "C28_symmetric_members",
    "C28_description_refuted",
    "C28_symmetric_refuted"
   ],
   "note": "members of one enumeration and symmetry for structures proved; false: the description is not compared and an empty name is accepted (refuted), and equality of members of two enumerations is not symmetric (refuted); the exact condition is proved"
  },
  {
   "property": "C29",
   "status": "proved",
   "theorems": [
    "C29_assign",
    "C29_assigned_is_equal",
    "C29_refused",
    "C29_no_identifier",
    "C29_one_element",
    "C29_repeated_index_refuted",
    "C29_repeated_name_refuted"
   ],
   "note": "for definitions without repeated indices or names; both conditions are needed (refuted without), one unconditional theorem"
  },
  {
   "property": "C39",
   "status": "partial",
   "theorems": [
    "C39_listed",
    "C39_write_once",
    "C39_listed_iff_stored",
    "C39_refused",
    "C39_any_file",
    "C39_failed_put_refuted"
   ],
   "note": "proved for histories of complete puts and for files read from outside; false when a put fails half way: the occurrence is listed and blocks another put (refuted)"
  },
  {
   "property": "C44",
   "status": "partial",
   "theorems": [
    "C44_counts",
    "C44_rows",
    "C44_frequencies",
    "C44_file_name",
    "C44_overview",
    "C44_frequencies_refuted"
   ],
   "note": "counts proved for all files; frequencies proved for files that list no path twice in one occurrence (as h5py does), false for hand written files that do (refuted)"
  },
  {
   "property": "C45",
   "status": "partial",
   "theorems": [
    "C45_exact",
    "C45_empty_path_refuted"
   ],
   "note": "exact contents and document order proved; false for elements without a path: the empty path is returned when the query matches it (refuted)"
  },
  {
   "property": "C30",
   "status": "proved",
   "theorems": [
    "C30_open_iff",
    "C30_data",
    "C30_sessions",
    "C30_close",
    "C30_failed_open",
    "C30_uri_once",
    "C30_with",
    "C30_put",
    "C30_get",
    "C30_get_no_type_error",
    "C30_failed_close_refuted",
    "C30_refused_put_changes_ids_refuted",
    "C30_destination_refuted"
   ],
   "note": "findings: a close that raises leaves the entry open; a refused put_slice of a constant IDS has changed the IDS; get into a destination of another version of the dictionary fails with a TypeError"
  },
  {
   "property": "C33",
   "status": "proved",
   "theorems": [
    "C33_stack_order",
    "C33_right_index",
    "C33_right_array",
    "C33_available",
    "C33_closed",
    "C33_closed_once"
   ],
   "note": "for all access histories, all failures of calls and all lifetimes of weakly referenced contexts"
  },
  {
   "property": "C40",
   "status": "partial",
   "theorems": [
    "C40_complete_partial",
    "C40_never_partly_written",
    "C40_who_removes",
    "C40_why_failing",
    "C40_all_or_nothing",
    "C40_complete_model_removed_refuted",
    "C40_incomplete_returned_refuted",
    "C40_own_model_removed_refuted",
    "C40_programmer_error_refuted"
   ],
   "note": "false as stated: a process whose own attempt fails removes the complete model of another one, and a third process may return the directory while it is being removed; proved for all schedules and crash points without such a failure during the call"
  },
  {
   "property": "C41",
   "status": "partial",
   "theorems": [
    "C41_version_read",
    "C41_malformed",
    "C41_window",
    "C41_complete_partial",
    "C41_repairs",
    "C41_right_version",
    "C41_repaired_iff",
    "C41_never_repaired",
    "C41_truncated_returned_refuted"
   ],
   "note": "false as stated: a file truncated after its version element is accepted for good; exact characterisation of the crash points that are repaired (C41_repaired_iff; C41_window for files that begin with the version), and of the version that is read (C41_version_read)"
  },
  {
   "property": "C17",
   "status": "partial",
   "theorems": [
    "C17_validate_iff_valid",
    "C17_time_mode",
    "C17_no_dynamic_data",
    "C17_fixed_size",
    "C17_single_reference",
    "C17_homogeneous_time",
    "C17_alternatives",
    "C17_coordinate_found_refuted",
    "C17_error_kind_refuted",
    "C17_coordinate_of_spec"
   ],
   "note": "false as stated: errors while looking for a coordinate are ignored, so a node whose coordinate cannot be found is accepted; full characterisation (iff) of what validate accepts, for all data dictionaries and trees, with that exception spelled out"
  },
  {
   "property": "C18",
   "status": "partial",
   "theorems": [
    "C18_lookup_iff_coordinate",
    "C18_one_filled",
    "C18_none_filled",
    "C18_none_filled_index",
    "C18_several_filled",
    "C18_homogeneous_time",
    "C18_alternatives_agree",
    "C18_ambiguity_refuted"
   ],
   "note": "holds for alternatives in the coordinate itself; false for alternative_coordinates (DD 4): several filled ones of the same size are resolved silently"
  },
  {
   "property": "C19",
   "status": "proved",
   "theorems": [
    "C19_validate_keeps_data",
    "C19_lookup_keeps_data",
    "C19_validate_again",
    "C19_lookup_after_validate"
   ],
   "note": "for all trees and data dictionaries, whatever the outcome"
  },
  {
   "property": "C11",
   "status": "partial",
   "theorems": [
    "C11_assign_iff",
    "C11_state",
    "C11_has_value",
    "C11_read",
    "C11_reads_irrelevant",
    "C11_arrays",
    "C11_empty_float",
    "C11_assigned_value_refuted",
    "C11_text_refuted",
    "C11_string_node_refuted",
    "C11_lazy",
    "C11_stored_type",
    "C11_array_assign",
    "C11_array_copy",
    "C11_read_array",
    "C11_list_step",
    "C11_edit_fun"
   ],
   "note": "holds for the value after conversion to the type of the node; false for the value as assigned (-999999999.5 is truncated to the empty integer)"
  },
  {
   "property": "C20",
   "status": "partial",
   "theorems": [
    "C20_no_exception",
    "C20_renames_exact",
    "C20_reciprocal",
    "C20_round_trip",
    "C20_reuse_refuted",
    "C20_source_refuted",
    "C20_contexts"
   ],
   "note": "proved for pairs of versions without reuse of names, captured names, sibling prefixes, double successors or unsupported type changes of renamed quantities (a verified checker decides this); false in general and for the additional DD 3 to 4 rules (refuted)"
  },
  {
   "property": "C21",
   "status": "partial",
   "theorems": [
    "C21_only_below",
    "C21_all_below",
    "C21_siblings_untouched",
    "C21_sibling_refuted"
   ],
   "note": "false in general: startswith without a slash renames siblings too (refuted); exact under the conditions of C20"
  },
  {
   "property": "C22",
   "status": "partial",
   "theorems": [
    "C22_one_source",
    "C22_one_source_back",
    "C22_taken_name_refuted",
    "C22_description_refuted",
    "C22_names_3to4",
    "C22_version_map_3to4"
   ],
   "note": "false in general (refuted twice); proved under the conditions of C20"
  },
  {
   "property": "C23",
   "status": "partial",
   "theorems": [
    "C23_recorded",
    "C23_build_map",
    "C23_nested_refuted"
   ],
   "note": "_map_missing proved for all maps and path sets; for the complete map under the conditions of C20, false when a renamed structure changes to an unsupported type (refuted)"
  },
  {
   "property": "C24",
   "status": "partial",
   "theorems": [
    "C24_has_place",
    "C24_copied",
    "C24_exactly",
    "C24_finishes",
    "C24_converts",
    "C24_there_and_back",
    "C24_finishes_without_structures_refuted"
   ],
   "note": "For all trees, all pairs of metadata and all rename maps that fit them (a record of conditions on paths only, decided by fits_b in ConvCheck.v). That the conversion raises no exception is proved for data without special rules when structures found by name are structures in the target too (refuted without this); with special rules the statement is for conversions that finish. Two conversions, there and back, give exactly the values that exist in both versions, for maps that rename back. What special rules write is only delimited, not described (see C25). The extra steps are in C26 (pulse_schedule), C46 (provenance) and C47 (equilibrium); convert_ids as a whole is in C48."
  },
  {
   "property": "C27",
   "status": "partial",
   "theorems": [
    "C27_deepcopy",
    "C27_later_modifications",
    "C27_assign",
    "C27_deepcopy_refuted",
    "C27_later_modifications_refuted",
    "C27_convert_ids"
   ],
   "note": "Which arrays share memory is part of the model's state. With deepcopy no array is shared unless the map has one of four handlers, and then any sequence of modifications of both IDSs shows in each what it shows without those of the other; with one of the four handlers the claim is false. That the source is not changed holds by construction of the model: it is not part of the state."
  },
  {
   "property": "C25",
   "status": "proved",
   "theorems": [
    "C25_sign_rules",
    "C25_sign_flip",
    "C25_sign_flip_refuted",
    "C25_connections",
    "C25_connections_refuted",
    "C25_close_open",
    "C25_open_close",
    "C25_contour",
    "C25_contour_refuted",
    "C25_unset_flag_closes",
    "C25_0d_1d",
    "C25_1d_0d",
    "C25_1d_0d_refuted",
    "C25_int_flt",
    "C25_flt_int",
    "C25_structure_array",
    "C25_longer_array",
    "C25_contours",
    "C25_centreline",
    "C25_centreline_older",
    "C25_centreline_refuted",
    "C25_identifiers",
    "C25_identifiers_older"
   ],
   "note": "Each rule function of ids_convert.py (870-1172) on all values: sign flips (every numeric value whose opposite does not stand for empty), connection matrices with at most one side connected, contours (points and flag), 0D/1D with one element, integer/float, structure/array of one, contours in arrays with their time, thickness along a centreline, identifiers: applying the rule and then the opposite one gives back the same value and changes no other node. Refuted without these conditions: 999999999 flipped is unset; a supply connected on both sides; an open contour with equal end points loses a point; arrays of two elements are left out; the last value along an open centreline is lost in version 4. These are statements about each rule; the composition of two whole conversions is not part of them."
  },
  {
   "property": "C42",
   "status": "partial",
   "theorems": [
    "C42_get_exact",
    "C42_get_succeeds",
    "C42_get_converted",
    "C42_timebase_refuted",
    "C42_common_types",
    "C42_type_inside_rename_refuted"
   ],
   "note": "Access Layer get with any version map: the IDS holds exactly what is stored at the positions of its nodes, removed and type-changed nodes are skipped and nothing else; what is read of an IDS stored by another version.  The map: a quantity that is copied has the same type or a type change for which both maps contain the conversion; the types inside renamed structures are not checked (refuted).  The time base of a renamed quantity can differ from the one it was stored with (refuted).  Not covered: reading netCDF files with conversion"
  },
  {
   "property": "C31",
   "status": "proved",
   "theorems": [
    "C31_round_trip",
    "C31_put_exact",
    "C31_put_succeeds",
    "C31_erases",
    "C31_put_slice"
   ],
   "note": "put_children, delete_children, get_children and the metadata they use, against an ideal store in which the time base is part of the position; all data dictionaries, all IDSs, all earlier contents"
  },
  {
   "property": "C32",
   "status": "partial",
   "theorems": [
    "C32_lazy_get",
    "C32_seen_unique",
    "C32_shows_stored",
    "C32_any_time",
    "C32_on_request",
    "C32_second_access_refuted"
   ],
   "note": "Any sequence of accesses (attributes, indices, lengths) and closes, for the ideal store, with lazy contexts represented by the position they stand for (C33 proves that the real chain of contexts leads there). While open every access gives what it gives after a full get; only what is asked for is loaded, and nothing after the close. The refusal is an exception only the first time: a second access to the same data node shows it as unset (refuted). Not covered: lazy IDSs from netCDF (C35)."
  },
  {
   "property": "C43",
   "status": "partial",
   "theorems": [
    "C43_resample",
    "C43_succeeds",
    "C43_latest",
    "C43_dynamic_aos_refuted"
   ],
   "note": "resample_impl with kind='previous' on any IDS tree and any time bases (also unsorted or with repeated times), with scipy's interp1d modelled by its definition for times without NaN: exactly when it succeeds, and the whole result. Refuted: data inside a time-dependent array of structures make the call raise."
  },
  {
   "property": "C26",
   "status": "partial",
   "theorems": [
    "C26_time_base",
    "C26_resampled",
    "C26_no_loss",
    "C26_accepts",
    "C26_converted",
    "C26_own_times",
    "C26_repeated_time_refuted",
    "C26_sign_flip_lost_refuted"
   ],
   "note": "The conversion of a whole pulse_schedule, with any renames: every group gets a strictly increasing time base with exactly the points of its time bases, every 1D quantity over time arrives on that time base (its own values at its own times, the rule for times outside and in between), everything else arrives unchanged and nothing is invented. numpy.unique and interp1d are modelled by their definitions for times without NaN, interpolation between two points is left open. Needs strictly increasing times of the quantity; refuted for repeated points. The sign flip rule of such a quantity is lost (refuted)."
  },
  {
   "property": "C36",
   "status": "partial",
   "theorems": [
    "C36_dimensions",
    "C36_no_dimensions",
    "C36_rank",
    "C36_circular",
    "C36_circular_error",
    "C36_terminates",
    "C36_long_chain_refuted"
   ],
   "note": "NCMetadata for all data dictionaries: dimensions of every quantity, own names follow the sharing graph of the dictionary, circular references never give a result. Dictionaries with sensible references (record good_references, decided by good_b) and without circles give a result if the number of dimensions is below Python's recursion limit; a longer chain of shared dimensions is reported as circular (refuted)."
  },
  {
   "property": "C34",
   "status": "partial",
   "theorems": [
    "C34_round_trip_partial",
    "C34_fill_values_refuted",
    "C34_complex_refuted"
   ],
   "note": "For every dictionary without structures that have error bars and every tree (regular or ragged, both time modes) with 32-bit integers: put succeeds, get succeeds, all array of structure sizes are equal, every value is read back unless it is a scalar inside an array of structures equal to the netCDF fill value (or the empty string), and nothing else is read back except complex scalars inside arrays of structures. Both exceptions are shown to happen (refuted theorems). Dictionary conversion while reading and the storage of bytes by netCDF are not modelled."
  },
  {
   "property": "C37",
   "status": "proved",
   "theorems": [
    "C37_valid",
    "C37_written",
    "C37_structure_errors_refuted"
   ],
   "note": "For every dictionary in which structures have no error bars (true for the data dictionary; the refuted theorem shows that it is needed), every tree with a valid time mode: if put writes a file, it passes validate_variables and the time mode is read back. A file is written iff all integers fit in 32 bits."
  },
  {
   "property": "C35",
   "status": "proved",
   "theorems": [
    "C35_lazy_get",
    "C35_any_time",
    "C35_after_put",
    "C35_second_access_refuted"
   ],
   "note": "For every file that the eager get can read (not only those written by the library) and every sequence of accesses while the file is open, each access gives the value, size or exception that it gives for the eagerly loaded IDS; combined with C34: the values and sizes that were put. With the file closed at any time, an access may also raise, or show an empty node where an earlier access raised (shown to happen by the refuted theorem). Conversion between dictionary versions is covered by C54."
  },
  {
   "property": "C38",
   "status": "partial",
   "theorems": [
    "C38_terminates",
    "C38_closure",
    "C38_contents",
    "C38_succeeds_partial",
    "C38_foreign_coordinate_refuted"
   ],
   "note": "The search ends for every coordinate graph, also circular ones, and finds exactly the least set with the given paths, the arrays of structures around them and all coordinates of what is in it. Every dataset that to_xarray returns has exactly one variable for each included quantity with data, with the data at the right index and fill values elsewhere, the dimension sizes are the largest of the included data, and coordinates are exactly the variables that others refer to. It succeeds if coordinates lie in no other arrays of structures than the quantity; without this to_xarray raises KeyError (refuted theorem). xarray.Dataset itself, lazy loaded IDSs and the specification of the coordinate lists of NCMetadata are not covered."
  },
  {
   "property": "C46",
   "status": "proved",
   "theorems": [
    "C46_reference",
    "C46_sources",
    "C46_no_provenance",
    "C46_in_order",
    "C46_text"
   ],
   "note": "_add_provenance_entry for every target dictionary with references, with sources only and without provenance, and every target IDS: the call succeeds, where the entry goes, and everything else is unchanged; any number of calls. The time is a parameter."
  },
  {
   "property": "C47",
   "status": "proved",
   "theorems": [
    "C47_contour_tree",
    "C47_axis_kind",
    "C47_axis_kind_refuted"
   ],
   "note": "_equilibrium_boundary_3to4 for all dictionaries with the nodes it uses, with and without a secondary separatrix, every source and target: it succeeds, the nodes of each contour tree are exactly the listed critical points with exactly the given data, and nothing else changes. The refuted theorem shows that the type of the axis is wrong if psi_boundary is missing."
  },
  {
   "property": "C48",
   "status": "proved",
   "theorems": [
    "C48_forward",
    "C48_backward",
    "C48_there_and_back",
    "C48_same_version",
    "C48_provenance",
    "C48_refused"
   ],
   "note": "convert_ids from the two dictionaries alone: the conditions on the rename map that C24 assumes are derived from those on the dictionaries (C20), so nothing about the map is assumed. Both directions, there and back, the same version, and the provenance entry. Out of scope: steps from major version 3 to 4 (C21, C25, C26, C47), values inside something that a special rule applies to, and the resampling of pulse_schedule (C26)."
  },
  {
   "property": "C49",
   "status": "proved",
   "theorems": [
    "C49_builds",
    "C49_nodes",
    "C49_getitem",
    "C49_map_context",
    "C49_map_time_base",
    "C49_map_time_base_refuted",
    "C49_map_signs",
    "C49_store",
    "C49_conversion"
   ],
   "note": "IDSMetadata.__init__ for every XML tree: when it succeeds, and every attribute of every node against a specification on the XML only; __getitem__; the context path of the version map and the context path and time base of StoreModel.v are the same. The time base of the version map is the same for arrays of structures, and for data exactly if its attribute is empty or the quantity varies and nothing around it does (refuted without this condition). C49_conversion derives the conditions of C48 on metadata and fields from the XML. Not covered: attributes without a meaning of their own (copied as they are), the cache, the guard against changes."
  },
  {
   "property": "C50",
   "status": "proved",
   "theorems": [
    "C50_sequential",
    "C50_exclusive",
    "C50_any_interleaving",
    "C50_permanent",
    "C50_threads_refuted",
    "C50_spurious_error_refuted"
   ],
   "note": "get_toplevel_metadata as steps on the dictionary of the class, any number of calls and any interleaving. Without overlap the guard is always back when no call is under way. Refuted for overlapping calls: a second thread can save object.__setattr__ while the first one builds and put that back, after which all metadata can be assigned for good (C50_permanent); and a correct definition can fail with AttributeError. The cache of the function is not modelled."
  },
  {
   "property": "C51",
   "status": "proved",
   "theorems": [
    "C51_get_into",
    "C51_no_ids",
    "C51_round_trip",
    "C51_new",
    "C51_succeeds",
    "C51_first_byte",
    "C51_clean",
    "C51_errors",
    "C51_overwrite_refuted",
    "C51_failure_refuted"
   ],
   "note": "get with a destination, serialize and deserialize for every dictionary, IDS, destination and file system. The backend formats are functions from outside, assumed to give back the one store that was written (not all stores). Deserializing into an IDS with data is a merge, stated exactly; a failing put leaves its temporary file and its entry, refuted with witnesses."
  },
  {
   "property": "C52",
   "status": "proved",
   "theorems": [
    "C52_forward",
    "C52_backward",
    "C52_there_and_back",
    "C52_names",
    "C52_opposite_refuted"
   ],
   "note": "convert_ids from major version 3 to 4 and back, from the two dictionaries alone: changes of sign, names and identifiers, renames and everything else. Left out: 3.42.0 and later, the equilibrium contour tree (C47), ids_properties/source, the connections of circuits (C25), structures with a sign, and what C48 leaves out. The refuted theorem shows that a value whose opposite stands for no value is lost."
  },
  {
   "property": "C53",
   "status": "proved",
   "theorems": [
    "C53_coordinates",
    "C53_no_coordinates",
    "C53_time_dimensions",
    "C53_fit",
    "C53_fit_homogeneous",
    "C53_alternative_time_refuted"
   ],
   "note": "Coordinates and time dimensions of every variable from the dictionary alone; conditions (one_owner, fitting, fitting_times) are on the dictionary and are checked for the example. The refuted theorem shows that the CF condition fails with homogeneous time when an alternative coordinate is a time and the main one is not."
  },
  {
   "property": "C54",
   "status": "proved",
   "theorems": [
    "C54_converted",
    "C54_written",
    "C54_forward",
    "C54_backward",
    "C54_needs_place",
    "C54_as_convert",
    "C54_removed_structure_refuted",
    "C54_type_refuted"
   ],
   "note": "NC2IDS.run with nbc_map for every file that can be read with its own version; C54_written for the files that put makes. The setter of data nodes is assumed to keep values of the right type. The two refuted theorems show why the condition is there: data inside a removed structure makes the read fail although convert_ids leaves it out, and a renamed quantity of another type inside an array of structures is stored with the wrong type. Lazy reading with conversion is not covered."
  },
  {
   "property": "C55",
   "status": "proved",
   "theorems": [
    "C55_definition",
    "C55_exact",
    "C55_map",
    "C55_nc_map",
    "C55_nc_unknown",
    "C55_same",
    "C55_nc_newer",
    "C55_nc_older",
    "C55_stale_refuted",
    "C55_own_refuted",
    "C55_own_unreleased_refuted",
    "C55_third_refuted"
   ],
   "note": "dd_etree with its cache, IDSFactory, the choice of versions and maps in DBEntry._get and in the netCDF backend; C55_nc_newer and C55_nc_older compose this with C54. The package of released versions and the comparison of version numbers are parameters with stated conditions. Refuted: a changed file gives the old definition; an entry with an own definition reads its own data with another one, or not at all, with autoconvert=False; a destination of a third version gets values in the wrong place."
  },
  {
   "property": "C56",
   "status": "proved",
   "theorems": [
    "C56_accepted",
    "C56_readable",
    "C56_values",
    "C56_written",
    "C56_readable_refuted",
    "C56_error_refuted",
    "C56_groups_refuted",
    "C56_disabled_refuted"
   ],
   "note": "Conditions: the dictionary is well formed with distinct names, and the file obeys netCDF (distinct names, declared dimensions, cells of the type of their variable). Without the condition on sizes there are accepted files that cannot be read (C56_readable_refuted). Also refuted: some bad files raise other exceptions than InvalidNetCDFEntry, a group 01 beside 1 is never checked, and with IMAS_DISABLE_NC_VALIDATE every variable is accepted."
  },
  {
   "property": "C57",
   "status": "proved",
   "theorems": [
    "C57_exact",
    "C57_failed",
    "C57_same",
    "C57_values",
    "C57_newer",
    "C57_older",
    "C57_occurrence_refuted",
    "C57_lost_refuted",
    "C57_default_refuted",
    "C57_retry_refuted",
    "C57_custom_refuted"
   ],
   "note": "Both entries are ideal Access Layer stores; the conditions on the two versions are those of C48 (no step from major version 3 to 4 in C57_newer; C57_values takes any conversion described by a relation between paths). The refuted theorems are findings about the choice of occurrences, the default version, partial output and custom definition files."
  },
  {
   "property": "C58",
   "status": "proved",
   "theorems": [
    "C58_slices",
    "C58_succeeds",
    "C58_elements",
    "C58_times",
    "C58_static",
    "C58_gap_refuted",
    "C58_lost_refuted",
    "C58_version_refuted"
   ],
   "note": "What the Access Layer does with the calls of a slice action is not in the repository; it is modelled by the documented behaviour (append along time, do not touch what is stored). The refuted theorems are findings: a quantity that is empty in one slice gets the values of later slices at the times of earlier ones; data of appended elements that are not dynamic are lost; a slice of another dictionary version is mixed into the stored data."
  },
  {
   "property": "C59",
   "status": "proved",
   "theorems": [
    "C59_any_time",
    "C59_lazy_get",
    "C59_moved",
    "C59_forward",
    "C59_backward",
    "C59_moved_refuted",
    "C59_removed_structure"
   ],
   "note": "Conditions on the file and the versions as in C54; moved arrays of structures must have paths that the version of the file does not know. C59_moved_refuted: an array of structures inside a renamed structure cannot be loaded lazily and appears to be empty afterwards, because the dimensions of the new path are looked up in the metadata of the old version. C59_removed_structure: the file of C54_removed_structure_refuted can be read lazily."
  },
  {
   "property": "C60",
   "status": "proved",
   "theorems": [
    "C60_arguments",
    "C60_uri",
    "C60_open",
    "C60_modes",
    "C60_uda",
    "C60_nc",
    "C60_not_nc",
    "C60_legacy_init",
    "C60_legacy",
    "C60_scheme_refuted",
    "C60_uda_path_refuted"
   ],
   "note": "The library functions that the code relies on (binding of arguments, urllib.parse.urlparse, re.split, str.partition) are modelled from their documentation and source; the Access Layer, netCDF4 and the extraction of dictionaries are arbitrary parameters, for C60_uda with the condition that extract_idsdef gives a file of the version that was asked for (C41). The refuted theorems are findings: a URI with the scheme in capital letters that ends in .nc is opened as a netCDF file; a pathlib.Path as xml_path cannot be used with UDA."
  },
  {
   "property": "C61",
   "status": "proved",
   "theorems": [
    "C61_refines",
    "C61_unique",
    "C61_independent",
    "C61_copy",
    "C61_kinds",
    "C61_fits",
    "C61_shared_refuted",
    "C61_lazy_refuted",
    "C61_in_place_refuted"
   ],
   "note": "Views and subclasses of numpy arrays are left out; the casts of numpy are parameters. The refuted theorems are findings: assigning a node to a node of the same type makes both hold the same list or array; a lazy loaded IDS can be changed in place; methods of the list that are passed on put in objects that are not strings."
  },
  {
   "property": "C62",
   "status": "proved",
   "theorems": [
    "C62_tree",
    "C62_tree_all",
    "C62_line_unique",
    "C62_values",
    "C62_leaf",
    "C62_metadata",
    "C62_text",
    "C62_highlight",
    "C62_diff",
    "C62_rows",
    "C62_hidden_refuted"
   ],
   "note": "Colours and the layout of the terminal are left out; repr of a node and the matching blocks of difflib are parameters, the latter with what difflib documents. Not for lazy loaded IDSs. The refuted theorem is a finding: with hide_empty_nodes the empty elements of arrays of structures are shown."
  },
  {
   "property": "C63",
   "status": "proved",
   "theorems": [
    "C63_discipline",
    "C63_ended_once",
    "C63_stops",
    "C63_read_only",
    "C63_get",
    "C63_get_all",
    "C63_version",
    "C63_opened",
    "C63_put_prefix",
    "C63_put",
    "C63_paths",
    "C63_gc",
    "C63_delete",
    "C63_gc_refuted",
    "C63_write_error_refuted",
    "C63_delete_refuted"
   ],
   "note": "The Access Layer is an arbitrary function of the calls made so far; that a context number is never given twice is part of the model (they are counted). For get_slice and get_sample C63_get is relative to what the Access Layer shows for these parameters (an arbitrary function). Not for lazy loading (C32). The refuted theorems are findings: a get that fails while reading leaves the garbage collector of the process switched off; a write that fails is reported as TypeError because LowlevelError cannot be made with one argument; delete_data never deletes anything and always raises."
  },
  {
   "property": "C64",
   "status": "proved",
   "theorems": [
    "C64_binary",
    "C64_excepted",
    "C64_expression",
    "C64_bool",
    "C64_bool_array",
    "C64_in_node",
    "C64_in_list",
    "C64_others",
    "C64_augment",
    "C64_augment_array",
    "C64_local_array",
    "C64_bool_refuted",
    "C64_in_refuted",
    "C64_npbool_refuted",
    "C64_augment_refuted",
    "C64_lazy_refuted"
   ],
   "note": "The operators of Python and numpy on plain objects, casting and storing into an array are parameters; which method Python calls for an operator is modelled. Hypothesis: a comparison agrees with its mirrored one (v < w and w > v), as for all types that nodes hold. The refuted theorems are findings: an array node is true when it is not empty (numpy: the only element, or an error), node in 'text' raises TypeError, numpy.bool_ op array raises TypeError, += on an int array with a float raises, and += through a variable changes the array of a lazy loaded IDS."
  },
  {
   "property": "C65",
   "status": "proved",
   "theorems": [
    "C65_run",
    "C65_accumulates",
    "C65_recorded",
    "C65_tree",
    "C65_table",
    "C65_stable",
    "C65_master_refuted",
    "C65_datasets"
   ],
   "note": "h5py gives names of datasets or raises; writing the output file succeeds. Fractions are compared as rational numbers. Colours, the prompt and completion of names are left out. The refuted theorem is a finding: a folder without master.h5 is not skipped, because the condition lacks the call of exists()."
  },
  {
   "property": "C66",
   "status": "proved",
   "theorems": [
    "C66_factory",
    "C66_dir",
    "C66_shadow_refuted",
    "C66_identifiers",
    "C66_enum",
    "C66_enum_refuted"
   ],
   "note": "names of attributes Python finds first, the constructor of an IDS and parsing of the XML of an identifier are parameters. Refuted theorems are findings: an IDS named like a method or attribute of the factory cannot be made by attribute; identifier_enum raises KeyError for an identifier that is not in the list, where the documentation says None."
  },
  {
   "property": "C67",
   "status": "proved",
   "theorems": [
    "C67_fields",
    "C67_ancestors",
    "C67_toplevel",
    "C67_disjoint",
    "C67_time_mode",
    "C67_time_mode_new",
    "C67_dd_parent",
    "C05_full_path",
    "C67_nested_refuted"
   ],
   "note": "for histories of C05 in which no whole IDS is put into an array of structures of another IDS. The code does not refuse that: then parent, toplevel and path are wrong (C67_nested_refuted, a finding)."
  },
  {
   "property": "C68",
   "status": "proved",
   "theorems": [
    "C68_table",
    "C68_exception"
   ],
   "note": "times are integers; the formatting with three decimals and the drawing of the table are left out."
  },
  {
   "property": "C69",
   "status": "partial",
   "theorems": [
    "C69_versions",
    "C69_total",
    "C69_without",
    "C69_calls",
    "C69_needed",
    "C69_others",
    "C69_version",
    "C69_guard",
    "C69_uda",
    "C69_compat",
    "C69_delete",
    "C69_delete_lazy",
    "C69_never_deletes",
    "C69_message_refuted",
    "C69_deleteData_refuted"
   ],
   "note": "true except for deleteData, which never deletes anything: it hands the IDS to delete_data in place of its name, which raises TypeError for every IDS and occurrence (C69_never_deletes, C69_deleteData_refuted); without the Access Layer the methods for compatibility refuse netCDF entries too (C69_compat). Another finding: the error for a missing function does not name it (C69_message_refuted). Versions of final releases only."
  }
 ]
}