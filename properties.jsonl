{"id": "C01", "title": "Path strings: printing then parsing gives back the same steps", "statement": "For every sequence of steps (a valid node name with an optional non-negative index), the string written in Python style (name[i]/...) or in Fortran style (name(i+1)/...) is accepted by IDSPath, and the resulting path has exactly those names and those 0-based indices, in order.", "quantifier": "all finite sequences of valid names and naturals", "why_tests_cant": "the set of path strings is infinite; a test can only sample lengths, index magnitudes and separators", "anchors": ["imas/ids_path.py:_parse_path", "imas/ids_path.py:IDSPath.__init__"]}
{"id": "C02", "title": "Path strings: what is accepted is well formed", "statement": "Whenever IDSPath accepts a string, every opening bracket in it is closed by a bracket of the same kind in properly nested order, the number of names equals the number of indices, every name is a lower-case identifier without double underscore, and no index bracket is left unparsed.", "quantifier": "all strings", "why_tests_cant": "soundness of a parser over all strings; malformed inputs cannot be enumerated", "anchors": ["imas/ids_path.py:_split_on_matching_parens", "imas/ids_path.py:_parse_path"]}
{"id": "C03", "title": "Fortran style index 0 is rejected", "statement": "A 1-based (Fortran style) index of 0 does not denote any element: a path containing `(0)` is rejected rather than silently denoting some element.", "quantifier": "all path strings with a Fortran style index", "why_tests_cant": "needs the whole pipeline parse + navigate for every array size", "anchors": ["imas/ids_path.py:_parse_path", "imas/ids_path.py:IDSPath.goto"]}
{"id": "C04", "title": "Path objects do not depend on the history of earlier path constructions", "statement": "The names and indices of a path obtained for a string (or the fact that it is rejected) are the same after any sequence of earlier constructions, including failed ones; two constructions of the same accepted string give the same object.", "quantifier": "all sequences of path constructions followed by one construction", "why_tests_cant": "depends on an unbounded history of a global cache", "anchors": ["imas/ids_path.py:IDSPath.__new__", "imas/ids_path.py:IDSPath.__init__"]}
{"id": "C05", "title": "Navigating to a node's own path returns that node", "statement": "For every node reachable inside an IDS (through any nesting of structures and arrays of structures), evaluating the node's full path from the IDS top level returns exactly that node, and distinct nodes have distinct full paths.", "quantifier": "all data dictionaries, all IDS trees of that dictionary, all nodes in them", "why_tests_cant": "trees of unbounded depth, width and array sizes", "anchors": ["imas/ids_path.py:IDSPath.goto", "imas/util.py:get_full_path", "imas/ids_base.py:IDSBase._path"]}
{"id": "C06", "title": "Data type names round trip", "statement": "For every elementary type and dimension 0..9 the canonical data dictionary type name is parsed to exactly that type and dimension, and legacy names (str_type, int_type, ...) parse to dimension 0 of the right kind; any accepted name has a type out of the fixed list.", "quantifier": "all elementary types and all dimensions, all accepted strings", "why_tests_cant": "parser soundness over all strings", "anchors": ["imas/ids_data_type.py:IDSDataType.parse"]}
{"id": "C07", "title": "resize keeps exactly what it promises", "statement": "After `resize(n, keep=True)` an array of structures has n elements: the first min(n, old size) elements are the very same elements as before, the others are empty; `resize(n, keep=False)` gives n empty elements. A negative size is refused and changes nothing.", "quantifier": "all array contents, all n, both keep modes", "why_tests_cant": "all sizes and all prior contents", "anchors": ["imas/ids_struct_array.py:IDSStructArray.resize"]}
{"id": "C08", "title": "Arrays of structures behave as a list", "statement": "Any sequence of append, assignment by (possibly negative) index, resize, length and indexing operations on an array of structures gives the results of the same operations on a mathematical list; out-of-range access is refused and changes nothing.", "quantifier": "all operation sequences", "why_tests_cant": "unbounded histories", "anchors": ["imas/ids_struct_array.py:IDSStructArray.__getitem__", "imas/ids_struct_array.py:IDSStructArray.__setitem__", "imas/ids_struct_array.py:IDSStructArray.append"]}
{"id": "C09", "title": "Every node's parent is its container", "statement": "After any sequence of attribute access, structure assignment, append, resize and element assignment operations, a node that is contained in exactly one container has that container as its parent, so its full path points back at it.", "quantifier": "all operation histories on all trees", "why_tests_cant": "aliasing invariant over unbounded histories", "anchors": ["imas/ids_structure.py:IDSStructure.__setattr__", "imas/ids_struct_array.py:IDSStructArray.append", "imas/ids_struct_array.py:IDSStructArray.resize"]}
{"id": "C10", "title": "Deep copies are independent", "statement": "A deep copy has the same contents as the original, shares no mutable node with it, and no later operation on one is visible in the other.", "quantifier": "all trees and all later operation sequences on either copy", "why_tests_cant": "non-interference over unbounded histories", "anchors": ["imas/ids_structure.py:IDSStructure.__deepcopy__", "imas/ids_struct_array.py:IDSStructArray.__deepcopy__", "imas/ids_primitive.py:IDSPrimitive.__deepcopy__"]}
{"id": "C11", "title": "Setting a scalar to its empty value is the same as never setting it", "statement": "For every scalar node, after any history of assignments, has_value is true iff the last assigned value differs from the data dictionary's empty value for the type; reading an unset node gives the empty value; reading never changes has_value.", "quantifier": "all histories of reads and writes", "why_tests_cant": "unbounded histories", "anchors": ["imas/ids_primitive.py:IDSPrimitive.value", "imas/ids_primitive.py:IDSPrimitive.has_value"]}
{"id": "C12", "title": "Emptiness does not depend on which children were looked at", "statement": "has_value of a structure, iteration over non-empty children, equality and the content hash are unchanged by merely accessing (and thereby creating) children that hold no value.", "quantifier": "all trees and all sets of accessed paths", "why_tests_cant": "all subsets of accessed nodes", "anchors": ["imas/ids_structure.py:IDSStructure.__getattr__", "imas/ids_structure.py:IDSStructure.has_value", "imas/ids_structure.py:IDSStructure.iter_nonempty_", "imas/ids_structure.py:IDSStructure._xxhash"]}
{"id": "C13", "title": "tree_iter visits every data node exactly once", "statement": "tree_iter over a node yields every leaf below it that is filled (or, with visit_empty, every leaf of every existing element) exactly once, in document order, and with leaf_only=False exactly the ancestors as well.", "quantifier": "all trees, all flag combinations", "why_tests_cant": "unbounded trees", "anchors": ["imas/util.py:tree_iter", "imas/util.py:_tree_iter"]}
{"id": "C14", "title": "idsdiffgen reports a difference whenever the contents differ", "statement": "If two IDS structures of the same type differ in any filled value or in the size of any array of structures, idsdiffgen yields at least one difference; if they do not differ, it yields none.", "quantifier": "all pairs of trees of one data dictionary", "why_tests_cant": "quantifies over all pairs of trees", "anchors": ["imas/util.py:idsdiffgen", "imas/ids_structure.py:IDSStructure.__eq__"]}
{"id": "C15", "title": "IDS equality is an equivalence relation", "statement": "`==` between structures is reflexive (absent NaN), symmetric and transitive.", "quantifier": "all triples of structures", "why_tests_cant": "transitivity over all triples", "anchors": ["imas/ids_structure.py:IDSStructure.__eq__", "imas/util.py:idsdiffgen"]}
{"id": "C16", "title": "Content hash is determined by the filled contents", "statement": "calc_hash gives equal results for two structures with the same filled contents whatever their construction history, does not depend on the order in which children were created nor on ids_properties/version_put, and the byte string fed to the hash function determines the filled contents (so only a collision of the hash function itself can identify different contents of the same type).", "quantifier": "all pairs of trees", "why_tests_cant": "injectivity over all pairs", "anchors": ["imas/util.py:calc_hash", "imas/ids_structure.py:IDSStructure._xxhash", "imas/ids_struct_array.py:IDSStructArray._xxhash", "imas/ids_primitive.py:IDSPrimitive._xxhash"]}
{"id": "C17", "title": "validate accepts exactly the coordinate-consistent IDSs", "statement": "ids.validate() succeeds iff the time mode is valid and, for every filled node, each dimension has the fixed size demanded by the data dictionary, and equals the size of the (one) filled coordinate it refers to, and no time-dependent node is filled in a time-independent IDS.", "quantifier": "all data dictionaries and all trees", "why_tests_cant": "soundness and completeness of a recursive checker over all trees", "anchors": ["imas/ids_toplevel.py:IDSToplevel.validate", "imas/ids_coordinates.py:IDSCoordinates._validate", "imas/ids_structure.py:IDSStructure._validate"]}
{"id": "C18", "title": "Coordinate lookup picks the unique filled alternative or reports ambiguity", "statement": "For a coordinate with alternatives: if exactly one alternative is filled it is returned; if none or several, CoordinateLookupError is raised (never an arbitrary choice); in homogeneous time mode a time coordinate is always the top-level time.", "quantifier": "all alternatives lists and fill states", "why_tests_cant": "all subsets of filled alternatives", "anchors": ["imas/ids_coordinates.py:IDSCoordinates.__getitem__"]}
{"id": "C19", "title": "Validation and reading coordinates never modify the data", "statement": "Running validate or looking up coordinates leaves every filled value unchanged and makes no unfilled node filled.", "quantifier": "all trees", "why_tests_cant": "all trees, including lazily created children", "anchors": ["imas/ids_coordinates.py:IDSCoordinates", "imas/ids_toplevel.py:IDSToplevel.validate"]}
{"id": "C20", "title": "Renames between DD versions are reciprocal", "statement": "In the map between two DD versions, if an old path is renamed to a new path then that new path is renamed back to the old one, and following a rename forward and backward is the identity on all paths that exist in both versions and have no type change.", "quantifier": "all pairs of data dictionaries", "why_tests_cant": "quantifies over all pairs of dictionaries, not the released ones only", "anchors": ["imas/ids_convert.py:DDVersionMap._build_map", "imas/ids_convert.py:DDVersionMap._add_rename"]}
{"id": "C21", "title": "A rename of a structure does not touch its siblings", "statement": "When a structure or array is renamed between DD versions, exactly the paths at or below it are renamed; a sibling whose name merely starts with the same characters is not affected.", "quantifier": "all pairs of data dictionaries", "why_tests_cant": "depends on all possible name sets", "anchors": ["imas/ids_convert.py:DDVersionMap._add_rename"]}
{"id": "C22", "title": "No two old quantities are converted into the same new quantity", "statement": "Conversion never maps two distinct filled quantities of the source version to one quantity of the target version (which would silently lose one of them).", "quantifier": "all pairs of data dictionaries, all IDSs", "why_tests_cant": "injectivity over all dictionaries", "anchors": ["imas/ids_convert.py:DDVersionMap._build_map", "imas/ids_convert.py:DDVersionMap._apply_3to4_conversion"]}
{"id": "C23", "title": "Missing quantities are reported at the highest missing ancestor only", "statement": "Of the paths recorded as not existing in the other version, none lies inside another one, and every path that exists in one version only (and is not renamed or retyped) lies at or below exactly one recorded path.", "quantifier": "all pairs of data dictionaries", "why_tests_cant": "all dictionaries", "anchors": ["imas/ids_convert.py:DDVersionMap._map_missing", "imas/ids_convert.py:iter_parents"]}
{"id": "C24", "title": "Converting copies every convertible value and invents none", "statement": "After convert_ids, every filled source value whose path exists in the target (after renames, without type change) is found at the mapped path with the same array indices and the same value; and every filled value in the target comes from a filled source value (or a documented conversion rule).", "quantifier": "all version maps, all IDS trees", "why_tests_cant": "all trees and all maps", "anchors": ["imas/ids_convert.py:convert_ids", "imas/ids_convert.py:_copy_structure", "imas/ids_convert.py:_get_target_item"]}
{"id": "C25", "title": "Conversion rules that change the representation are inverse to each other", "statement": "Each representation change applied by convert_ids in one direction is undone by the opposite direction on all values it may legitimately be applied to: closed contours (append first point / drop last point), 0D/1D type changes, structure/array-of-one changes, sign flips (COCOS, Ip), and circuit connection matrices.", "quantifier": "all values", "why_tests_cant": "all array lengths and contents", "anchors": ["imas/ids_convert.py:_type_changed", "imas/ids_convert.py:_repeat_children_first_point", "imas/ids_convert.py:_remove_last_point_conditional", "imas/ids_convert.py:_circuit_connections_3to4", "imas/ids_convert.py:_cocos_change"]}
{"id": "C26", "title": "pulse_schedule time bases are merged without loss", "statement": "Converting pulse_schedule from DD3 to DD4 gives a strictly increasing common time base that contains exactly the time points of the source quantities, and each quantity resampled on it agrees with the original at its own time points.", "quantifier": "all numbers of quantities and time bases", "why_tests_cant": "all array contents", "anchors": ["imas/ids_convert.py:_pulse_schedule_3to4", "imas/ids_convert.py:_pulse_schedule_resample_callback"]}
{"id": "C27", "title": "Converting never modifies the source when deepcopy is requested, and never changes values otherwise", "statement": "convert_ids leaves the source IDS's values unchanged; with deepcopy=True later modification of either IDS's arrays is not visible in the other.", "quantifier": "all trees, all later modification sequences", "why_tests_cant": "non-interference over histories", "anchors": ["imas/ids_convert.py:convert_ids", "imas/ids_convert.py:_copy_structure"]}
{"id": "C28", "title": "Identifier equality", "statement": "Two identifiers of one enumeration are equal iff they are the same member; comparison with a structure is true iff index matches and its name is the name or an alias and the description is the documented one or empty; comparison is symmetric.", "quantifier": "all identifier definitions and structures", "why_tests_cant": "all definitions", "anchors": ["imas/ids_identifiers.py:IDSIdentifier.__eq__"]}
{"id": "C29", "title": "Identifier lookup", "statement": "Assigning an identifier to a structure by name, alias, index or member fills name, index and description with the values of that one member; unknown names and indices are refused and change nothing.", "quantifier": "all identifier definitions and assigned values", "why_tests_cant": "all definitions", "anchors": ["imas/ids_identifiers.py:IDSIdentifier._from_xml", "imas/ids_structure.py:IDSStructure._assign_identifier"]}
{"id": "C30", "title": "A data entry is open between a successful open and the next close", "statement": "For every sequence of open/create/close/get/put/delete calls: data operations succeed only while the entry is open; closing twice is harmless; after a failed open the entry is closed.", "quantifier": "all call sequences", "why_tests_cant": "unbounded histories", "anchors": ["imas/db_entry.py:DBEntry"]}
{"id": "C31", "title": "put then get returns what was stored (Access Layer backends)", "statement": "For a backend that stores what it is given, get after put of an IDS gives an IDS with the same filled contents (dynamic nodes excepted in time-independent mode); an earlier put to the same occurrence leaves no trace.", "quantifier": "all dictionaries, all trees, all earlier contents of the entry", "why_tests_cant": "round trip over all trees and all prior states", "anchors": ["imas/backends/imas_core/db_entry_helpers.py:put_children", "imas/backends/imas_core/db_entry_helpers.py:get_children", "imas/backends/imas_core/db_entry_helpers.py:delete_children"]}
{"id": "C32", "title": "Lazy loading returns the same data as a full get", "statement": "For every sequence of accesses, in any order, the values seen through a lazily loaded IDS equal those of a non-lazy get of the same entry, as long as the entry stays open; after it is closed further loading is refused.", "quantifier": "all access sequences over all trees", "why_tests_cant": "all access orders", "anchors": ["imas/backends/imas_core/db_entry_helpers.py:_get_child", "imas/backends/imas_core/al_context.py:LazyALContext", "imas/ids_struct_array.py:IDSStructArray._load"]}
{"id": "C33", "title": "Lazy contexts are opened and closed in stack order and always read at the right index", "statement": "Whatever the order in which lazily loaded elements are accessed, every Access Layer context opened is closed exactly once, children before parents, and a read through the context of array element i happens while every enclosing array context stands at the element's own index.", "quantifier": "all access sequences", "why_tests_cant": "state machine over unbounded histories", "anchors": ["imas/backends/imas_core/al_context.py:LazyALContext.get_context", "imas/backends/imas_core/al_context.py:LazyALArrayStructChildContext.get_context", "imas/backends/imas_core/al_context.py:ALArrayStructContext.iterate_to_index"]}
{"id": "C34", "title": "netCDF put then get returns the same IDS", "statement": "Storing an IDS in a netCDF file and reading it back gives an IDS with the same filled contents: same array of structure sizes, same shapes and same values everywhere.", "quantifier": "all dictionaries, all trees (regular or ragged), both time modes", "why_tests_cant": "ragged trees of unbounded size; the sparse and dense encodings interact", "anchors": ["imas/backends/netcdf/ids_tensorizer.py:IDSTensorizer", "imas/backends/netcdf/ids2nc.py:IDS2NC", "imas/backends/netcdf/nc2ids.py:NC2IDS.run"]}
{"id": "C35", "title": "netCDF lazy get agrees with eager get", "statement": "For any node, in any order of access, the value loaded lazily from a netCDF file equals the value loaded by the eager get.", "quantifier": "all files, all access orders", "why_tests_cant": "all access orders and sparsity patterns", "anchors": ["imas/backends/netcdf/nc2ids.py:LazyContext", "imas/backends/netcdf/nc2ids.py:NC2IDS.run"]}
{"id": "C36", "title": "netCDF dimension names", "statement": "For every node, the netCDF dimensions are those of its nearest enclosing array of structures followed by one dimension per own dimension; resolving shared coordinates terminates for every dictionary without circular references and fails (instead of looping) for those with circular references.", "quantifier": "all data dictionaries", "why_tests_cant": "termination and shape over all dictionaries", "anchors": ["imas/backends/netcdf/nc_metadata.py:NCMetadata"]}
{"id": "C37", "title": "netCDF files written are accepted by the validator", "statement": "Every file produced by put passes the library's own netCDF validation.", "quantifier": "all trees", "why_tests_cant": "writer/validator agreement over all trees", "anchors": ["imas/backends/netcdf/ids2nc.py:IDS2NC.create_variables", "imas/backends/netcdf/nc2ids.py:NC2IDS.validate_variables"]}
{"id": "C38", "title": "to_xarray includes all coordinates", "statement": "to_xarray of a set of paths gives exactly these paths' filled data plus, transitively, the filled coordinates of everything included; the search terminates.", "quantifier": "all path sets and dictionaries", "why_tests_cant": "transitive closure over all coordinate graphs", "anchors": ["imas/_to_xarray.py:to_xarray", "imas/backends/netcdf/ids_tensorizer.py:IDSTensorizer.include_coordinate_paths"]}
{"id": "C39", "title": "netCDF occurrences", "statement": "list_all_occurrences returns exactly the stored occurrence numbers in increasing order after any sequence of puts; an occurrence is never overwritten.", "quantifier": "all put sequences", "why_tests_cant": "unbounded histories", "anchors": ["imas/backends/netcdf/db_entry_nc.py:NCDBEntryImpl.put", "imas/backends/netcdf/db_entry_nc.py:NCDBEntryImpl.list_all_occurrences"]}
{"id": "C40", "title": "MDSplus model cache: a returned model directory is complete", "statement": "Whatever the interleaving of several processes requesting the same model, and whichever of them fail or crash, a call that returns normally returns a directory that contains the complete model at that moment, and no process ever removes a complete model.", "quantifier": "all schedules of any number of processes, all crash points", "why_tests_cant": "concurrency and crashes", "anchors": ["imas/backends/imas_core/mdsplus_model.py:mdsplus_model_dir", "imas/backends/imas_core/mdsplus_model.py:safe_replace"]}
{"id": "C41", "title": "UDA definition cache: a returned definition file is complete", "statement": "Whatever crash interrupted an earlier extraction, the definition file returned by the cache is the complete file for the requested version.", "quantifier": "all crash points", "why_tests_cant": "crash points", "anchors": ["imas/backends/imas_core/uda_support.py:extract_idsdef"]}
{"id": "C42", "title": "Implicit conversion on get only reads matching quantities", "statement": "When an IDS is read with implicit conversion, a value is stored at a target path only if the version map sends the stored path there and the types agree; type-changed and removed quantities are skipped; nothing else is skipped.", "quantifier": "all version maps, all stored IDSs", "why_tests_cant": "all maps", "anchors": ["imas/backends/imas_core/db_entry_helpers.py:get_children", "imas/backends/netcdf/nc2ids.py:NC2IDS.run", "imas/db_entry.py:DBEntry._get"]}
{"id": "C43", "title": "Resampling selects existing time slices", "statement": "Previous-interpolation resampling of an IDS gives, for each requested time within range, the data of the last stored time not later than it, and leaves time-independent data unchanged.", "quantifier": "all time bases and requested times", "why_tests_cant": "all arrays", "anchors": ["imas/_util.py:resample_impl"]}
{"id": "C44", "title": "Usage statistics count each entry and occurrence once", "statement": "The usage statistics computed from analysis files count, for each IDS, every entry that has it exactly once and every occurrence exactly once, and every frequency lies in [0, 1].", "quantifier": "all sets of analysis files", "why_tests_cant": "all inputs", "anchors": ["imas/command/db_analysis.py:process_db_analysis"]}
{"id": "C45", "title": "Search of paths", "statement": "find_paths returns exactly the data dictionary paths matched by the query, in document order.", "quantifier": "all dictionaries and queries", "why_tests_cant": "all dictionaries", "anchors": ["imas/util.py:find_paths"]}
{"id": "C46", "title": "A conversion records its origin", "statement": "With an origin uri a conversion adds exactly one provenance entry, at the end of the first provenance node about the whole IDS or in a new last node, and changes nothing else; entries of successive conversions stay in order. If the target dictionary has no provenance nothing changes.", "quantifier": "all target dictionaries of the three kinds, all target IDSs, all sequences of conversions", "why_tests_cant": "all earlier provenance contents and sequences", "anchors": ["imas/ids_convert.py:_add_provenance_entry"]}
{"id": "C47", "title": "The plasma boundary becomes a contour tree", "statement": "For every equilibrium of version 3 the conversion to version 4 fills the contour tree of each time slice with psi on the axis with the magnetic axis, then the first point of the separatrix and of the second separatrix, then their other X-points, each with its type, position, psi with the sign of version 4 and, on the first node of a separatrix, the outline; slices without psi on the axis and everything outside the contour trees are unchanged.", "quantifier": "all version 3 and version 4 dictionaries with these nodes, all equilibria (any slices, X-points and missing values), all states of the target", "why_tests_cant": "any number of slices and X-points, every combination of missing values", "anchors": ["imas/ids_convert.py:_equilibrium_boundary_3to4"]}
{"id": "C48", "title": "A conversion keeps what both versions have", "statement": "convert_ids between two versions of the data dictionary (any pair that is not a step from major version 3 to 4, dictionaries that meet the conditions of C20) raises no exception for an IDS in which nothing is filled that changes in another way than its path, and the new IDS holds exactly the values and arrays of structures whose quantity exists in the target version, at its path there with the same indices; converting back gives exactly the values that exist in both versions where they were; converting to the same version gives the same values; with an origin uri exactly one provenance entry that names both versions is added.", "quantifier": "all pairs of dictionaries that meet the conditions, all IDSs, all enumeration orders of the sets of paths, all behaviours of the number conversions", "why_tests_cant": "all dictionaries with their renames, and all contents", "anchors": ["imas/ids_convert.py:convert_ids", "imas/ids_convert.py:DDVersionMap", "imas/ids_convert.py:_copy_structure"]}
{"id": "C49", "title": "The metadata is what the XML definition says", "statement": "get_toplevel_metadata gives metadata for exactly the definitions in which every element has a name, a known data type and dimension, a valid path, type and maxoccur, and the IDS itself has no time base. Every element then has exactly one node, found with metadata[path] for the names joined with slashes or dots in any mixture, with its children in the order of the definition and: context path from the nearest array of structures, units inherited through as_parent, time base, time dependence, coordinates, alternative coordinates, number of dimensions for the access layer. What conversion (the context path and time base of the map) and storing use is the same, and the conditions on metadata and fields under which conversions keep their data (C48) hold for every such definition.", "quantifier": "all XML definitions", "why_tests_cant": "the tests compare the implementations on the shipped definitions only", "anchors": ["imas/ids_metadata.py:IDSMetadata.__init__", "imas/ids_metadata.py:get_toplevel_metadata", "imas/ids_metadata.py:IDSMetadata.__getitem__", "imas/ids_convert.py:_get_ctxpath", "imas/ids_convert.py:_get_tbp"]}
{"id": "C50", "title": "Metadata stays read-only", "statement": "Building metadata takes away the __setattr__ of the class IDSMetadata and puts it back. For every sequence of calls, also with definitions that raise, each call gives what its definition gives and afterwards attributes cannot be assigned; the same for calls in several threads that do not overlap. With overlapping calls a call gives the result of its definition or fails with AttributeError, never with another error of the guard, and at most one builds at a time.", "quantifier": "all definitions, all sequences of calls, all numbers of threads and all interleavings of their steps", "why_tests_cant": "interleavings of threads cannot be enumerated by running them", "anchors": ["imas/ids_metadata.py:get_toplevel_metadata", "imas/ids_metadata.py:IDSMetadata.__setattr__"]}
{"id": "C51", "title": "Serialized IDSs come back", "statement": "For every IDS that can be put, serialize followed by deserialize into a new IDS gives an IDS with the same filled nodes and the same sizes of arrays of structures (without the dynamic nodes in time-independent mode), for both formats. Into an IDS with data, the data of the buffer replace what is at the same nodes, and whole arrays of structures, and everything else stays. The first byte names the format. No temporary file and no open entry remain as long as nothing fails.", "quantifier": "all dictionaries, all IDSs, all destination IDSs, both protocols, all states of the file system", "why_tests_cant": "tests cover a few IDSs and new destinations only; the frame condition speaks about every node of the destination", "anchors": ["imas/ids_toplevel.py:serialize", "imas/ids_toplevel.py:deserialize", "imas/backends/imas_core/db_entry_helpers.py:get_children"]}
{"id": "C52", "title": "Conversion between DD 3 and DD 4", "statement": "For two versions of an IDS, one of major version 3 and one of major version 4, convert_ids succeeds in both directions. Every value of a quantity that both have arrives, at the same indices: with the opposite sign if its quantity has a psi-like COCOS label or is listed as changing sign, unchanged otherwise; names and identifiers of DD 3 arrive as descriptions and names. Nothing else arrives, and converting there and back restores all values of quantities that DD 4 has.", "quantifier": "all pairs of dictionaries that meet conditions on the dictionaries, all IDSs", "why_tests_cant": "tests convert a few quantities; the order in which three passes of _apply_3to4 and the renames of the dictionary act on every path is not tested", "anchors": ["imas/ids_convert.py:_apply_3to4", "imas/ids_convert.py:convert_ids", "imas/ids_convert.py:_cocos_change"]}
{"id": "C53", "title": "Coordinates of netCDF variables", "statement": "For every dictionary for which NCMetadata can be built, the coordinates attribute of a variable lists, in order: the coordinates of the arrays of structures around it, for each dimension with a coordinate attribute the coordinate quantities of the dimension it is (the main one and its alternatives), and the name, identifier and label of an array of structures. In homogeneous time mode exactly the time coordinates become time, and exactly the dimensions that stand for time become time. If the references of the dictionary fit, every coordinate of a variable is a quantity whose dimensions are all dimensions of the variable, in both modes, as the CF conventions ask.", "quantifier": "all dictionaries, all quantities, both time modes", "why_tests_cant": "tests compare a few variables of one dictionary; which coordinates a variable gets depends on chains of references through the whole dictionary", "anchors": ["imas/backends/netcdf/nc_metadata.py:NCMetadata._parse_dimensions", "imas/backends/netcdf/nc_metadata.py:NCMetadata._tensorize_dimensions", "imas/backends/netcdf/nc_metadata.py:NCMetadata.get_coordinates", "imas/backends/netcdf/nc_metadata.py:NCMetadata.get_dimensions"]}
{"id": "C54", "title": "Reading a netCDF file of another data dictionary version", "statement": "For every pair of versions of the dictionary with the same major number and every valid file written with one of them, reading it with the other one gives exactly the values and array sizes that reading with the own version gives, each at the place of its counterpart, provided every quantity in the file has a counterpart of the same kind, or is itself declared to have none. The result is the same as reading with the own version and converting explicitly. A quantity without counterpart and without entry in the map makes the read fail; it never gives a part of the data.", "quantifier": "all dictionaries and version pairs, all files, all IDSs that can be written, both directions", "why_tests_cant": "tests read one file with a rename; the paths in the file, the two dictionaries and the arrays of structures around a rename vary independently", "anchors": ["imas/backends/netcdf/nc2ids.py:NC2IDS.run", "imas/backends/netcdf/iterators.py:indexed_tree_iter", "imas/backends/netcdf/db_entry_nc.py:NCDBEntryImpl.get"]}
{"id": "C55", "title": "Definitions and maps that a read uses", "statement": "For every history of environment variables, files and factories: a factory has the definition that its arguments, else the environment, else the latest release ask for, with the version it reports, and the cache of definitions cannot be seen as long as files do not change. For every entry, stored version, destination of the version of the entry or of the data, and options: the data is read without map exactly if it has (or has to be taken to have) the version of the destination, and otherwise with the map between the definition of the data and that of the destination, in the direction that the backend needs; so a netCDF file of another version of the same major version is read with every value at the place of its counterpart.", "quantifier": "all histories of factories, environments and files; all entries, stored versions, destinations and options", "why_tests_cant": "tests use a handful of combinations of version, environment and options in a fresh process; the cache and third versions need histories that tests do not make", "anchors": ["imas/dd_zip.py:dd_etree", "imas/dd_zip.py:_load_etree", "imas/ids_factory.py:IDSFactory.__init__", "imas/db_entry.py:DBEntry._get", "imas/ids_convert.py:dd_version_map_from_factories", "imas/backends/netcdf/db_entry_nc.py:NCDBEntryImpl.get"]}
{"id": "C56", "title": "Checked netCDF files", "statement": "For every file, validate_netcdf_file accepts it exactly if its name ends in .nc, it names a known dictionary version, it has nothing but groups <IDS name>/<occurrence number>, and in every occurrence each variable is a quantity of that IDS with its type, dimensions, units, allowed coordinates, a fitting shape variable and no unknown attributes. Every file made by putting IDSs into a new file is accepted. An occurrence of an accepted file can be read if the sizes of its arrays of structures are within their dimensions, and then every value and every array size of the IDS is what the variables contain, and nothing else.", "quantifier": "all files (group trees, variables, attributes, contents), all dictionary definitions, all sequences of puts", "why_tests_cant": "tests check one wrong file per rule; whether the rules together are enough to read the file, and what is read, needs all files", "anchors": ["imas/backends/netcdf/nc_validate.py:validate_netcdf_file", "imas/backends/netcdf/nc2ids.py:NC2IDS.validate_variables", "imas/backends/netcdf/nc2ids.py:NC2IDS._validate_variable", "imas/backends/netcdf/nc2ids.py:NC2IDS._validate_sparsity", "imas/backends/netcdf/nc2ids.py:NC2IDS.run"]}
{"id": "C57", "title": "The command imas convert", "statement": "For every input entry, target version and choice of IDS and occurrence: if the command succeeds, the output has exactly the selected occurrences, each of them read, converted and put. For an occurrence that holds an IDS put with version A, reading the output gives an IDS of the target version with that version stored in it; outside what put sets and the provenance entry, a value is there exactly if the quantity it stands for in the target version had that value in the IDS that was put, and it is not left out as dynamic data of a time-independent IDS. If the command fails, every occurrence in the output but the one it failed at is complete.", "quantifier": "all input entries, dictionaries, version pairs, IDS trees, occurrence numbers, options, conversion times", "why_tests_cant": "the test converts one small entry and compares it with itself; losing data needs a combination of renames, time modes, occurrences and dictionaries that no fixed file covers", "anchors": ["imas/command/cli.py:convert_ids", "imas/db_entry.py:DBEntry._get", "imas/db_entry.py:DBEntry._put", "imas/backends/imas_core/db_entry_al.py:ALDBEntryImpl.get", "imas/backends/imas_core/db_entry_al.py:ALDBEntryImpl.put"]}
{"id": "C58", "title": "Appending time slices", "statement": "For every sequence of IDSs stored with put_slice in an occurrence without data (same dictionary, same homogeneous_time, equal sizes of the arrays of structures that do not depend on time): a get afterwards returns exactly the first IDS extended by the following ones. Element number (elements of the slices before + i) of a time dependent array of structures is element i of its slice, with its dynamic data (everything, for the first slice); column (times of the slices before + t) of an array with a time dimension is column t of its slice; data that do not depend on time are those of the first slice. The sequence succeeds if the arrays agree in their other dimensions.", "quantifier": "all dictionaries, sequences of IDS trees, sizes, values, both time modes, prior contents of the store", "why_tests_cant": "the tests append a few slices to two small IDSs with all quantities filled; where a value ends up depends on the sizes and on what is empty in all the slices before, which no finite set of sequences covers", "anchors": ["imas/db_entry.py:DBEntry.put_slice", "imas/db_entry.py:DBEntry._put", "imas/backends/imas_core/db_entry_al.py:ALDBEntryImpl.put", "imas/backends/imas_core/db_entry_helpers.py:put_children", "imas/backends/imas_core/al_context.py:ALContext.arraystruct_action"]}
{"id": "C59", "title": "Lazy loading of a netCDF file of another version", "statement": "For every netCDF file that can be read with the version it was written with, opened lazily with another version: every access, in any order and with the file being closed at any time, gives what it gives for the IDS that is read at once and converted, or raises because the file is closed. The only exception are arrays of structures (stored without a shape variable) whose path differs between the versions: the first access to one, or to anything in it, raises.", "quantifier": "all pairs of dictionaries and maps between them, files, sequences of accesses and closes", "why_tests_cant": "the tests load one small file lazily with another version and look at a few nodes; which metadata a lazy access uses depends on the renames above and inside the node, and on the order of the accesses", "anchors": ["imas/backends/netcdf/nc2ids.py:NC2IDS.run", "imas/backends/netcdf/nc2ids.py:LazyContext.lazy_load_child", "imas/backends/netcdf/nc2ids.py:LazyArrayStructContext", "imas/backends/netcdf/db_entry_nc.py:NCDBEntryImpl.get"]}
{"id": "C60", "title": "Opening a data entry", "statement": "DBEntry takes its arguments as a URI and a mode exactly if they fit these two parameters, otherwise as legacy parameters (shot being another name of pulse that may not be given beside it), otherwise it raises. Opening with a URI of the documented form succeeds exactly if the mode is one of the four documented ones, the backend can be prepared and the Access Layer opens the entry; then the Access Layer is called once, with the unchanged URI and the documented mode, backend and options are the ones that the URI says (the last value counts), and nothing in the environment is changed but ids_path (mdsplus, not for reading) and IDSDEF_PATH (uda), which names the dictionary of the entry. Another mode is refused before anything is done. A name that ends in .nc and does not start with imas: is opened once by netCDF4, with x never over an existing file. Legacy parameters get the documented defaults.", "quantifier": "all argument lists, URIs, modes, environments and factories; all behaviours of the Access Layer, netCDF4 and the extraction of dictionaries", "why_tests_cant": "the tests open a few URIs of one form; order and number of arguments, repeated options, capital letters, hosts, fragments and the environment give unboundedly many cases", "anchors": ["imas/db_entry.py:30-42", "imas/db_entry.py:134-198", "imas/db_entry.py:233-303", "imas/backends/imas_core/db_entry_al.py:44-158", "imas/backends/netcdf/db_entry_nc.py:29-85"]}
{"id": "C61", "title": "Changes in place", "statement": "After any sequence of assignments, in-place changes, deep copies and loads, every data node with dimensions (and every variable of the program that holds its list or array) shows exactly what is determined by contents per holder and a relation of sharing: two holders share after one was assigned from the other with the same type (or an array of the type of the node from a variable), and an in-place change changes exactly the holders that share. In particular what is done with holders that share with nothing else changes nothing else, and a deep copy and its original never influence each other. A node always holds an object of the kind of its type; as long as objects are changed through the node itself, lists of strings hold strings only and arrays have the right number of dimensions.", "quantifier": "all sequences of operations, types of nodes, contents and casts", "why_tests_cant": "aliasing shows only in sequences of several operations on several nodes; the number of sequences is unbounded", "anchors": ["imas/ids_primitive.py:79-85", "imas/ids_primitive.py:129-189", "imas/ids_primitive.py:216-227", "imas/ids_primitive.py:246-317", "imas/ids_primitive.py:486-500", "imas/ids_structure.py:129-156"]}
{"id": "C62", "title": "What the printing functions show", "statement": "print_tree shows, in document order and each exactly once, the filled data nodes with their values, the non-empty structures and all elements of arrays of structures (with hide_empty_nodes=False: every node, also those never accessed), each line below the lines of the structures that contain it. print_metadata_tree shows exactly the descendants with at most maxdepth steps (all for 0). idsdiff says that the structures are identical exactly if they are equal; otherwise it has one row per difference with the complete text of both sides, and the text that is not highlighted is the same on both sides.", "quantifier": "all metadata, trees, paths of the starting node, values of maxdepth, texts and matching blocks", "why_tests_cant": "the printed trees are unbounded in size and nesting; the tests of the functions only look at a few lines of the output", "anchors": ["imas/_util.py:90-160", "imas/_util.py:215-260", "imas/ids_base.py:55-93", "imas/ids_structure.py:196-270"]}
{"id": "C63", "title": "Calls of the Access Layer", "statement": "In any sequence of get, get_slice, get_sample, put, put_slice, read_dd_version and delete_data the calls of the Access Layer obey its rules, whatever calls fail: an IDS is opened when nothing else is open, data are read and written with the innermost context only, at an element of an array that exists, and every context that was opened is ended exactly once. After a failed call nothing is done but ending contexts, and the failure is reported. Reading changes nothing in the database. With a database that does what the calls say, a get gives, and a put leaves, what the function-level model (C31, C42) says, and no other occurrence is touched; if a call fails, what was written is the beginning of what would have been written.", "quantifier": "all metadata, trees, sequences of operations, occurrences and answers of the Access Layer (also failures at any call)", "why_tests_cant": "failures can happen at every single call of an unbounded sequence; the tests never make a call of the Access Layer fail", "anchors": ["imas/backends/imas_core/al_context.py:45-218", "imas/backends/imas_core/db_entry_al.py:179-347", "imas/backends/imas_core/db_entry_helpers.py:21-212"]}
{"id": "C64", "title": "Operators with data nodes", "statement": "An expression with data nodes in it, of any operators and nesting, has the value, or raises the exception, of the same expression with the values of the nodes; the only exceptions are str % node and a numpy array, scalar or bool on the left of a node, for which it is said what happens. bool of a number or string, and the operator in, are those of the value where this is possible. For numbers and strings ids.x op= e is ids.x = ids.x op e; for arrays the array is changed in place exactly if the result can be stored in it, and nothing is changed otherwise. Other nodes keep their values.", "quantifier": "all expressions, operators, values of nodes and behaviours of the operators of Python and numpy on plain objects", "why_tests_cant": "the number of combinations of operators, operand types and orders is unbounded; the tests try each operator for one or two pairs of operands", "anchors": ["imas/ids_primitive.py:24-53", "imas/ids_primitive.py:154-229", "imas/ids_primitive.py:319-330", "imas/ids_primitive.py:426-466"]}
{"id": "C65", "title": "Reports about the use of the data dictionary", "statement": "After any sequence of runs of analyze-db the output file has exactly the results of the folders of all runs that finished, in order; a run that fails changes nothing. The table of process-db-analysis has exactly one row per IDS that is found in the files and in the data dictionary (without --show-empty-ids: that has filled nodes), with the numbers of its data nodes and of those filled in some occurrence, the greatest fraction first and otherwise in the order found. The tree of an IDS shows, in document order and below the structures around them, exactly the filled data nodes, and the structures whose surrounding structures all have filled nodes, with the right numbers.", "quantifier": "all sequences of runs, folders, files, metadata and data dictionaries", "why_tests_cant": "the tests analyse one small entry once; numbers and nesting of nodes, entries and runs are unbounded", "anchors": ["imas/command/db_analysis.py:44-141", "imas/command/db_analysis.py:260-344", "imas/command/db_analysis.py:348-385"]}
{"id": "C66", "title": "Names of IDSs and of identifiers", "statement": "All ways to ask a factory for an IDS (attribute, new, exists, ids_names, iteration) agree: they give the last element of that name in the definition, names come in the order of the definition and each once, and dir() is sorted. In any sequence of lookups a name of an identifier always gives the same enumeration, made from its own definition, which is read at most once; the enumeration of a node is that named by its doc_identifier, and None if it has none.", "quantifier": "all definitions, names, sequences of lookups, documentation paths", "why_tests_cant": "the tests look up a few names once; definitions and sequences of lookups are unbounded", "anchors": ["imas/ids_factory.py:46-111", "imas/ids_identifiers.py:95-116", "imas/ids_metadata.py:291-307"]}
{"id": "C67", "title": "Navigation upwards", "statement": "For every node of an IDS, get_parent again and again gives exactly the nodes on its place in the IDS, from the innermost to the IDS itself, and there None; get_toplevel gives the IDS, so that no node is in two IDSs; get_time_mode gives the one node ids_properties/homogeneous_time of the IDS, and makes it when it does not exist without changing any other place; the parent in the data dictionary of an element is that of its array; get_full_path leads back to the node.", "quantifier": "all histories of operations on nodes, all nodes of all IDSs", "why_tests_cant": "depth, widths and histories are unbounded", "anchors": ["imas/util.py:410-508", "imas/ids_base.py:37-114", "imas/ids_toplevel.py:64-95", "imas/ids_toplevel.py:368-372"]}
{"id": "C68", "title": "The table of timings", "statement": "The table of a Timer with two axes has a column and a row for every name of a block that ended without exception, in the order in which they first ended; a cell shows the time of the last such block with its names, and '-' if there is none; the total of a column is the sum of the times shown in it; making the table raises no KeyError; a block that raises leaves no trace.", "quantifier": "all sequences of timed blocks", "why_tests_cant": "there are no tests of the timer; names, repetitions and exceptions are unbounded", "anchors": ["imas/command/timer.py:31-78"]}
{"id": "C69", "title": "The interface to the Access Layer", "statement": "Every method of the interface is the function of that name of the Access Layer module whenever the module has it, and otherwise raises an error and calls nothing; without the Access Layer every method raises an error. Versions are compared number by number with zeros at the end ignored; a command that needs a version goes on iff the Access Layer is there and at least that version; at most one warning is given for a read with UDA. The methods of an IDS for compatibility (get, getSlice, put, putSlice, deleteData) do what the methods of the data entry do with that IDS.", "quantifier": "all Access Layer modules (any set of functions, any version), all versions of final releases, all entries, IDSs and occurrences", "why_tests_cant": "tests run with the one version of the Access Layer that is installed", "anchors": ["imas/backends/imas_core/imas_interface.py:67-180", "imas/command/helpers.py:32-45", "imas/backends/imas_core/db_entry_al.py:336-383", "imas/ids_toplevel.py:292-361"]}
