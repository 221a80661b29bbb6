# Formal model of IMAS-Python: design

Everything here is about a *model* of the source tree in /repo (read as text, never executed).
The model is in `rocq/theories`, Coq 8.16.1, standard library only.

## Method

* Each area has four kinds of files: `*Model.v` (functions transcribed from the Python source, every definition
  cites file and lines, exceptions are values), `*Spec.v` (small specifications that do not use the model's helpers),
  `*Proofs.v` (lemmas) and `*Props.v` (property theorems, closed by `exact`, each with `Print Assumptions`, and
  `Example`s showing that hypotheses are satisfiable).
* Floats are 64-bit patterns (`Z`), with IEEE equality/order defined on the patterns; no float axioms are used.
* Python strings are Coq `string`s (byte strings). Python ints are `Z`.
* Exceptions are constructors of a result type. Loops without an obvious bound run on explicit fuel; running out of
  fuel is an error value and the theorems exclude it.
* Objects whose identity matters (elements of arrays, shared arrays, contexts) carry explicit identities.
* A property that is false of the faithful model is recorded as `..._refuted` with a concrete witness together with
  the strongest true statement found; these are findings about the code.

## Plan per property

* **C01 Path strings: printing then parsing gives back the same steps** — PathModel: byte-exact model of _split_on_matching_parens, the four regular expressions and _parse_path over Coq strings. Spec: a printer for step lists. Proof: induction over the step list.
* **C02 Path strings: what is accepted is well formed** — PathModel + an independent inductive grammar of nested brackets. Proof: correctness of the bracket splitter by strong induction on the string.
* **C03 Fortran style index 0 is rejected** — PathModel + HeapModel (negative Python index semantics). Expected to be false: witness, plus the strongest true statement.
* **C04 Path objects do not depend on the history of earlier path constructions** — PathModel: cache as a finite map from string to initialised/uninitialised object; invariant over all construction sequences.
* **C05 Navigating to a node's own path returns that node** — HeapModel: nodes are locations in (dictionary tree, instance tree); goto and _path transcribed. Round trip by induction over the location.
* **C06 Data type names round trip** — DataTypeModel: IDSDataType.parse transcribed.
* **C07 resize keeps exactly what it promises** — HeapModel: list model with explicit element identities.
* **C08 Arrays of structures behave as a list** — HeapModel: refinement of a Python-list specification over operation sequences.
* **C09 Every node's parent is its container** — HeapModel: object heap with parent pointers; invariant over operations; element assignment is expected to break it (finding).
* **C10 Deep copies are independent** — HeapModel: deepcopy on the heap; disjointness + frame theorem.
* **C11 Setting a scalar to its empty value is the same as never setting it** — PrimModel: value setter/getter, has_value on operation histories.
* **C12 Emptiness does not depend on which children were looked at** — TreeModel: instance trees with explicitly created children; `touch` operation; invariance proofs.
* **C13 tree_iter visits every data node exactly once** — TreeModel: tree_iter transcribed; spec = set of leaf locations.
* **C14 idsdiffgen reports a difference whenever the contents differ** — TreeModel: idsdiffgen transcribed. Expected to be partly false (arrays of empty structures below an absent structure).
* **C15 IDS equality is an equivalence relation** — TreeModel: reflexivity and symmetry proved, transitivity expected to fail (finding).
* **C16 Content hash is determined by the filled contents** — HashModel: serialisation fed to xxh3 (hash function = Section variable, collision freedom hypothesis explicit).
* **C17 validate accepts exactly the coordinate-consistent IDSs** — ValModel: validate / _validate / IDSCoordinates._validate transcribed over locations; declarative specification; iff proof.
* **C18 Coordinate lookup picks the unique filled alternative or reports ambiguity** — ValModel: __getitem__ transcribed.
* **C19 Validation and reading coordinates never modify the data** — ValModel returns the touched tree; invariance with respect to filled contents.
* **C20 Renames between DD versions are reciprocal** — VmapModel: DDVersionMap construction transcribed on flat path lists with change attributes.
* **C21 A rename of a structure does not touch its siblings** — VmapModel: prefix test of _add_rename; expected finding (string prefix instead of path prefix).
* **C22 No two old quantities are converted into the same new quantity** — VmapModel: GH#59 name->description rule; expected finding.
* **C23 Missing quantities are reported at the highest missing ancestor only** — VmapModel: _map_missing + iter_parents.
* **C24 Converting copies every convertible value and invents none** — ConvModel: _copy_structure over trees and a path map.
* **C25 Conversion rules that change the representation are inverse to each other** — ConvModel/ResampleModel: each handler as a function on arrays, both directions.
* **C26 pulse_schedule time bases are merged without loss** — ResampleModel/PulseModel: the common time base over ordered floats; the whole conversion of pulse_schedule.
* **C27 Converting never modifies the source when deepcopy is requested, and never changes values otherwise** — HeapModel/ConvModel: array buffers as heap locations.
* **C28 Identifier equality** — IdentModel.
* **C29 Identifier lookup** — IdentModel.
* **C30 A data entry is open between a successful open and the next close** — DBEntryModel: state machine; backend open/close results are oracle inputs.
* **C31 put then get returns what was stored (Access Layer backends)** — StoreModel: a store keyed by (context path, indices); put_children/get_children/delete_children transcribed.
* **C32 Lazy loading returns the same data as a full get** — StoreModel + LazyModel: _get_child and _load; simulation with the eager result.
* **C33 Lazy contexts are opened and closed in stack order and always read at the right index** — CtxModel: context stack, weak references, curindex; invariant over access sequences.
* **C34 netCDF put then get returns the same IDS** — NcFileModel: tensorizer, writer and reader over path-indexed tensors; round trip. The fill-value collision for sparse scalars is an expected finding.
* **C35 netCDF lazy get agrees with eager get** — NcFileModel: LazyContext.get_child against the eager reader.
* **C36 netCDF dimension names** — NcMetaModel: pending resolution as a fuelled loop; acyclicity <-> success.
* **C37 netCDF files written are accepted by the validator** — NcFileModel: validate_variables against writer output.
* **C38 to_xarray includes all coordinates** — NcMetaModel: include_coordinate_paths work-list; closure specification.
* **C39 netCDF occurrences** — NcEntryModel: groups as finite map; history refinement.
* **C40 MDSplus model cache: a returned model directory is complete** — MdsModel: transition system of processes over a file system state; expected finding (rmtree of a complete cache by a failing process).
* **C41 UDA definition cache: a returned definition file is complete** — UdaModel: extract with crash prefix of the byte string; expected finding (only the version element is checked).
* **C42 Implicit conversion on get only reads matching quantities** — StoreModel with a map argument.
* **C43 Resampling selects existing time slices** — ConvModel/ResampleModel: resample index selection.
* **C44 Usage statistics count each entry and occurrence once** — AnalysisModel: counters over lists.
* **C45 Search of paths** — TreeModel: find_paths over dictionary trees; regular expression matching is an oracle.
* **C46 A conversion records its origin** — ProvModel: _add_provenance_entry for the three kinds of data dictionary.
* **C47 The plasma boundary becomes a contour tree** — EqModel: _equilibrium_boundary_3to4; EqSpec lists the critical points.
* **C48 A conversion keeps what both versions have** — EndModel: convert_ids as a whole, from the two data dictionaries; EndSpec relates the fields of
  a definition to its metadata.
* **C49 The metadata is what the XML definition says** — MetaModel: IDSMetadata built from an XML element, recursively; MetaSpec states every attribute
  on paths in the XML.  Connects the fields of VmapModel, the metadata tree of TreeModel and the positions of StoreModel to one definition.
* **C50 Metadata stays read-only** — GuardModel: the calls of get_toplevel_metadata as steps on the attribute of the class, interleaved in any order.
* **C51 Buffers and reading into an IDS** — SerModel: get with a destination that has data, serialize and deserialize on top of StoreModel, with the
  temporary files and open entries as state.  The two formats are functions between stores and bytes that keep the store at hand.
* **C52 A conversion between DD 3 and DD 4** — the theorems of C48 for a step from major version 3 to 4, in terms of the two dictionaries: values of
  quantities with a psi-like COCOS label or in the list of sign changes arrive with the opposite sign, names and identifiers become descriptions and
  names (SignNames declares them as renamings and shows that the map of the code is that of the dictionary with these declarations), all other
  values arrive unchanged, and converting there and back restores everything that DD 4 has.  Left out: DD 3.42.0 and later (the map from
  3.41.0 is used as well), equilibrium (C47), data inside ids_properties/source, the connections of circuits (C25), structures with a sign, and
  what C48 leaves out.  Conditions: quantities in the list of sign changes exist in DD 3 or not in DD 4; the opposite of a value is not EMPTY
  (C52_opposite_refuted).
* **C53 Coordinates of netCDF variables** — NcMetaModel as it is; NcCoordSpec says which quantities are the coordinates of a dimension, which dimensions
  stand for time, and when the references of a dictionary fit (NcCoordExample has boolean checks for these conditions).
* **C54 Reading a netCDF file of another version** — NcConvModel is NC2IDS.run with a map.  NcConvProofs*.v carry the relation between the tree read with
  the own version and the tree read with the other one through the variables of the file; NcConvProps states the result by the two dictionaries
  (counterpart and changes as in C48) and compares with convert_ids.
* **C55 Definitions and maps that a read uses** — VersionModel has the choice of a definition, its cache (the 8 last used), factories with identity,
  and the version logic of DBEntry._get and of the netCDF backend.  VersionSpec says which definition is asked for.  VersionEnd composes with C54.
* **C56 Checked netCDF files** — NcValidModel is validate_netcdf_file over a whole file.  NcValidSpec says what a netCDF file is, which contents are valid
  and what a valid group contains (`file_leaf`, `file_aos`), by the variables alone.  NcValidProofs has the check, NcValidProofs2 reading without
  assuming that the library wrote the file.
* **C57 The command `imas convert`** — CliModel is the command with its get (no conversion), convert_ids and put, on entries with one ideal store per
  occurrence.  CliSpec says which occurrences are selected and what put sets.  CliProofs shows that what put stores is read back as a conforming tree,
  CliProofs2 the same with what put sets, CliProofs3 the loop; CliProps combines them with C48 into a statement from the IDS that was put into the input
  to the IDS that is read from the output.
* **C58 Appending time slices** — SliceModel: the calls of put_slice (StoreModel) applied to the ideal store as the documentation says: appended along
  time, elements behind the stored ones.  SliceSpec says by location what the occurrence contains (`extend`), without contexts and paths.  SliceProofs has
  that no position is written twice, SliceProofs2 arrays and contents, SliceProofs3 one put_slice, SliceProofs4 a sequence, SliceProofs5 the closed form.
* **C59 Lazy loading with another version** — NcLazyConvModel: the lazy map by target paths and the accesses of NcLazyModel with the metadata of both
  versions.  NcLazyConvProofs carries the relation between the partly loaded tree and the converted one through any sequence of accesses, NcLazyConvProofs2
  has what the lazy map contains, NcLazyConvProps2 states it for pairs of dictionaries (as C54).
* **C60 Opening a data entry** — OpenModel: the arguments of the constructor, the choice of the implementation, the URI (with urllib.parse.urlparse), the
  preparation of the backend in the environment, the calls to the Access Layer and netCDF4 as a list of events.  OpenSpec has the relation between the
  arguments and the parameters of a Python call and the grammar of the documented URI; neither mentions the parser.
* **C61 Changes in place** — AliasModel: lists and arrays as objects in a heap, held by data nodes and by variables of the program.  AliasSpec has no
  objects: contents per holder and a relation of sharing.  The proof is a simulation; independence, deep copies and types follow from the specification.
* **C62 Printing** — PrintModel: the tree of labels that is handed to rich, and the pieces of text of a difference.  PrintSpec: the line of a location in
  the tree with the lines above it.  The proof annotates the nodes of tree_iter (C13) with their lines.
* **C63 Calls of the Access Layer** — EagerModel: the eager operations of an entry as programs that make calls one by one; the Access Layer is an arbitrary
  function from the calls made so far to the next reply.  EagerSpec has the rules for contexts as a stack machine, where a call reads or writes, and an
  ideal database that answers by that.  EagerProofs has a triple for programs (accepted by the rules, halts at a failure), EagerProofs2-3 the reads and
  writes against StoreModel, EagerProofs4 the whole operations.  What get_slice and get_sample show is an arbitrary view of the database, chosen by the
  parameters of the call that opens the IDS (C63_opened says which).
* **C64 Operators with data nodes** — OperModel: which method Python calls for `a op b`, with plain objects and their operators as parameters.  The
  specification `plain` evaluates the expression with the values only.  A small instance (ints, halves, strings, arrays) shows the findings.
* **C65 Reports about the use of the data dictionary** — ReportModel: analyze-db as a function of the output file and the folders, and the nodes, table and
  tree of process-db-analysis on top of the statistics of C44.  The specification lists the nodes of the metadata in document order and filters them.
* **C66 Names of IDSs and of identifiers** — LookupModel: the factory as a dictionary of elements, the cache of identifiers as a state machine over any
  sequence of lookups.
* **C67 Navigation upwards** — NavModel over the objects of HeapModel: get_parent, get_toplevel, get_time_mode, get_full_path, told by the class of an object
  whether it is an IDS.  The specification is `located` (C05): the places of nodes found from above.
* **C68 The table of timings** — TimerModel: blocks in the order in which they end.  The specification reads the list of blocks that ended.
* **C69 The interface to the Access Layer** — LowModel: the module is any list of functions.  The specification of versions reads them as endless sequences of numbers.  Expected finding: deleteData hands the IDS itself to delete_data, which needs a name.

## Modelled code

Paths are relative to /repo.  Each definition in the model files cites its own lines; this table is the overview.

| Model file | Code | Simplifications |
|---|---|---|
| PathModel.v | imas/ids_path.py 16-168, 225-254 (parsing, cache, items) | the weak reference cache is a map that may lose any entry at any time |
| DataTypeModel.v | imas/ids_data_type.py 23-115 | none |
| HeapModel.v | ids_path.py 170-224 (goto), ids_base.py 43-94, ids_structure.py 57-183, 275-307, ids_struct_array.py 56-207, ids_primitive.py setters and deepcopy | numpy arrays are values (the sharing of arrays is in ConvShare*.v); lazy loading is in LazyModel.v |
| PrimModel.v | ids_primitive.py (setters, getters, has_value), ids_data_type.py 65-71 | numpy casts are oracles, see below |
| TreeModel.v | ids_structure.py 57-68, 161-270, ids_struct_array.py 209-213, ids_primitive.py 108-169, util.py 73-133, 151-246 | a tree holds the created children only; arrays are shape and row-major data |
| HashModel.v | util.py 345-407, ids_structure.py 315-332, ids_struct_array.py 229-233, ids_primitive.py 285-286, 492-499 | the digest function is an oracle |
| ValModel.v | ids_toplevel.py 216-290, ids_coordinates.py 24-99, 171-267, 344-392, the _validate methods, ids_base.py 42-53, 116-131 | not for lazy loaded IDSs |
| VmapModel.v | ids_convert.py 35-524 | the XML elements are two lists of records (path, type and the change attributes) |
| EndModel.v | ids_convert.py 127-148, 330-336, 396-405, 527-629 (convert_ids: which map, which steps) | a dictionary is given, not looked up by its version or file; a version is its rank |
| MetaModel.v | ids_metadata.py 20-289; the attributes that ids_convert.py 207-330, 487-506 read | XML as tag, attributes, children; __repr__, copy and the cache left out |
| GuardModel.v | ids_metadata.py 60-77, 263-264 | each line is one atomic step; the cache left out |
| SerModel.v | ids_toplevel.py 103-214; db_entry_helpers.py 21-77 and db_entry.py 549-630 with a destination | the formats are functions given from outside; the validation and the stamps of put are parameters |
| ConvModel.v | ids_convert.py 671-1172 (_copy_structure, all handlers) | lazy loaded sources left out; the warnings are not modelled |
| ConvShare.v, ConvShare2.v | the same code, and numpy assignment, as seen by array identities | views are identified with their base array |
| ProvModel.v | ids_convert.py 632-668 (_add_provenance_entry); ids_struct_array.py 178-207 with keep=True; ids_primitive.py 299-301 | the time of the conversion is a parameter |
| EqModel.v | ids_convert.py 1254-1318 (_equilibrium_boundary_3to4) | sharing of the outlines as in ConvModel; floating point numbers are bit patterns |
| PulseModel.v | ids_convert.py 709-755 with a callback, 1175-1251 (_pulse_schedule_3to4) | as ConvModel.v and ResampleModel.v |
| ResampleModel.v | imas/_util.py 37-87, util.py 23-70, ids_convert.py 1175-1251, ids_coordinates.py 269-279 | interp1d and unique by their definitions for times without NaN; integers that pass through float64 left out |
| IdentModel.v | ids_identifiers.py 18-92, ids_structure.py 70-165 | ElementTree gives a list of elements |
| DBEntryModel.v | db_entry.py 134-802 | the backend is an oracle |
| CtxModel.v | backends/imas_core/al_context.py 182-404, db_entry_al.py 160-177, db_entry_helpers.py 76-125, ids_struct_array.py 78-113 | the Access Layer is an oracle, its calls are recorded |
| StoreModel.v | backends/imas_core/db_entry_helpers.py, db_entry_al.py 179-331, al_context.py 107-179, ids_metadata.py 149-253 | the Access Layer is an ideal store keyed by position |
| LazyModel.v | al_context.py 221-404, db_entry_helpers.py 80-130, ids_structure.py 38-68, ids_struct_array.py 30-150 | a lazy context is the position it stands for (CtxModel.v proves that the chain leads there) |
| NcMetaModel.v | backends/netcdf/nc_metadata.py, ids_coordinates.py 60-94 | none; the recursion limit of Python is modelled |
| NcFileModel.v | backends/netcdf/ids2nc.py, nc2ids.py 66-311, ids_tensorizer.py 28-205, iterators.py, db_entry_nc.py 95-165 | a netCDF group is a map of dimensions and of variables; no conversion of DD version |
| NcLazyModel.v | nc2ids.py 83-130, 314-420, ids_structure.py 57-68, ids_struct_array.py 72-131 | no conversion of DD version |
| OpenModel.v | db_entry.py 30-42, 134-198, 233-303; db_entry_al.py 44-158; db_entry_nc.py 29-55, 83-85 | urlparse, re.split and argument binding of Python as far as used; a bracketed host and legacy URIs are parameters |
| PrintModel.v | imas/_util.py 90-160, 215-260; ids_base.py 55-93 | colours and layout left out; repr and difflib are parameters; not lazy |
| OperModel.v | ids_primitive.py 24-53, 154-229, 319-330, 426-466 | operators of plain objects, numpy's ufuncs, casts and out= are parameters; pow with three arguments, ufunc methods (reduce, at) and numpy functions left out |
| ReportModel.v | command/db_analysis.py 68-141, 260-315, 338-385 | h5py gives names or raises; fractions are rational numbers; prompt and colours left out |
| EagerModel.v | al_context.py 45-218; db_entry_al.py 179-347; db_entry_helpers.py 21-212 | numbers of contexts are counted; not lazy; UDA only as the choice of datapath; argument checks of get as in C60 and StoreModel |
| LookupModel.v | ids_factory.py 46-111; ids_identifiers.py 95-116; ids_metadata.py 291-307 | constructor of IDSs, XML of identifiers and attributes found first by Python are parameters |
| NavModel.v | util.py 410-508; ids_base.py 37-114; ids_toplevel.py 64, 92-95, 368-372 | not lazy; an IDSToplevel is an object with an empty path in the dictionary |
| TimerModel.v | command/timer.py 31-78 | two axes; times are integers; formatting and drawing left out |
| LowModel.v | backends/imas_core/imas_interface.py 67-180; ids_defs.py 161-171; command/helpers.py 32-45; backends/imas_core/db_entry_al.py 336-347, 360-383; ids_toplevel.py 292-361 | versions of final releases only; the texts of warnings and the deletion after the action is begun are left out (C63) |
| AliasModel.v | ids_primitive.py 79-85, 129-189, 216-227, 246-317, 486-500; ids_structure.py 129-156 | data nodes with dimensions; views and subclasses of arrays left out |
| NcLazyConvModel.v | nc2ids.py 83-130, 314-420 with nbc_map | as NcLazyModel.v |
| NcConvModel.v | nc2ids.py 31-172 with nbc_map, iterators.py 12-88, db_entry_nc.py 120-135 | the setter of data nodes is a parameter; not lazy |
| NcValidModel.v | backends/netcdf/nc_validate.py 7-55, db_entry_nc.py 61-81, 94-122, 173-185 | groups inside an occurrence are left out; own version only |
| CliModel.v | command/cli.py 112-222, db_entry.py 549-629, 692-742, db_entry_al.py 179-275, 349-358 | progress bar and timer left out; both entries on an ideal Access Layer backend |
| SliceModel.v | db_entry.py 647-690, backends/imas_core/db_entry_al.py 276-347, db_entry_helpers.py 142-196 | the Access Layer appends as documented; same version of entry and IDS in the theorems |
| VersionModel.v | dd_zip.py 41-109, ids_factory.py 32-62, db_entry.py 549-629, ids_convert.py 509-524, backends/netcdf/db_entry_nc.py 42-138 | the package imas_data_dictionaries is a list; versions are ranks |
| NcEntryModel.v | backends/netcdf/db_entry_nc.py 94-189 | the contents of an IDS are opaque |
| XarrayModel.v | imas/_to_xarray.py, ids_tensorizer.py, iterators.py | xarray.Dataset keeps what it is given |
| AnalysisModel.v | command/db_analysis.py 109-192, 222-242, 275-293, util.py 314-342 | h5py gives a list of names |
| MdsModel.v | backends/imas_core/mdsplus_model.py 33-332 | one step per system call, any interleaving and crashes; see the file header |
| UdaModel.v | backends/imas_core/uda_support.py 13-56 | an XML document is a list of tokens; text after a child is not text of the element |

## Trusted base

* Coq's kernel (re-checked with coqchk by `vcheck`).
* `Print Assumptions` is printed under each property theorem.  All theorems in MANIFEST.json are "Closed under the global
  context": no axiom, neither of the standard library nor of our own.
* The transcription from Python to Gallina (by reading).
* Oracles.  Behaviour of other libraries enters as Section variables, so that each theorem is proved for *every* behaviour that
  satisfies the hypotheses in its statement:
  * number conversions of Python and numpy: `str_of`, `parse_float`, `parse_cpx`, `flt_of_int`, `np_cast`, `array_items`,
    `np_int32` (PrimModel, ConvModel); `cast` (HeapModel);
  * numpy.isclose: `close`; the enumeration of an identifier: `enum_of` (ConvModel);
  * the digest function: `H` (HashModel);
  * failures of the Access Layer: `lingers`, `succeeds` (CtxModel); outcomes of backend calls are part of each operation
    (DBEntryModel); the ideal store `s` (StoreModel, LazyModel); the size of an array of structures without time base that is opened
    again with another size in a slice action: `resize` (SliceModel; only `resize n n = n` is used);
  * attributes of the data dictionary (`at_`, `dynamic`, `xml_tbp`, `maxoccur`, `units`): arbitrary functions of the path;
  * linear interpolation between two points: `lin` (ResampleModel);
  * scheduling, crashes, timeouts and external tools: `timeout`, `xdev`, `good_tools` (MdsModel).

## Tests of the theorems against wrong programs

`seeded/LOG.jsonl` has one line per seeded edit of a model definition.  Each edit is applied to a scratch copy of the committed
tree; every lemma whose proof script breaks is admitted in the scratch copy so that the build finishes, and `Print Assumptions`
of every theorem in MANIFEST.json then shows which theorems depend on a broken lemma (`theorems_failed`; the lemmas themselves
are in `lemmas_broken`).  This is measured, not guessed, but a broken script does not prove that the statement has become false:
the list is an upper bound of what the edit breaks.  An empty list is a certain sign of a theorem that is too weak (or of an edit
without effect on the property).

## Findings

What the proofs (R: a `_refuted` theorem) or the reading (N: noticed, outside the model or not stated as a theorem) show about the
code.

* Paths and trees
  * R `path(0)` denotes the last element (C03).
  * R Assigning to an element of an array, or appending an element of another array, leaves a wrong parent (C09); deep copies of inner
    nodes keep the parent of the original (C10).
  * R Sizes of arrays of structures below a sub-structure that is empty on the other side are not reported by idsdiffgen (C14); equality is not
    transitive (C15).
  * R The hash input is not injective (C16).
  * N `ids["aos[0]"] = struct` always raises ValueError, `ids[""] = x` IndexError; `goto` from a node that is not the root ignores explicit
    indices in the common prefix; `aos.append(aos.value)` does not end; IDSIdentifier defines `__eq__` without `__hash__`.
  * N Numeric text outside 64 bits makes numpy.isnan raise TypeError; INT_0D accepts integers outside 32 bits.
* Validation
  * R Errors while a coordinate is looked for are ignored (C17); several alternative_coordinates of one size silently give the first (C18).
  * N `same_as` a quantity with fewer dimensions lets an IndexError escape.
* Version maps
  * R Renames with `startswith` also hit siblings (C21); name reuse gives maps that are not reciprocal (C20); collisions by a taken name
    and by the GH#59 rule (C22); nested entries for missing quantities (C23); types inside renamed structures are not checked and the time base
    can differ (C42).
  * N The entries for GH#55 and ids_properties/source set `path` without `tbp`/`ctxpath`; line 461 overrides an existing rename.
* Conversion
  * R A structure inside one whose name is that of a data node of the target makes the conversion raise (C24).
  * R An open centreline loses its last thickness value on the way to DD 4 (C25); four handlers ignore `deepcopy=True` (C27); repeated time points lose a value, and the sign flip of a quantity that is resampled is lost, because the resampled source values overwrite it (C26).
  * R A value of 9e40 (or 999999999) that changes sign is lost, because its opposite stands for no value (C52_opposite_refuted).
  * R An equilibrium without psi_boundary: the magnetic axis always becomes a minimum of psi in the contour tree (C47).
  * N An array of structures absent from the target that contains renamed items makes `target.resize` raise; post_process is skipped when a type handler returned None; connection (1, 1) is lost;
    an open contour with equal end points loses its last point; an unset `closed` counts as closed; arrays with more than one element are
    left out (C25_longer_array).
* Access Layer backend
  * R After the close a second access to a lazy node shows it as unset (C32).
  * R A get that fails while it reads the data leaves the garbage collector of the process switched off (C63_gc_refuted; C63_gc says exactly when).
    R ALContext.write_data makes a LowlevelError with one argument, so a failed write is reported as TypeError (C63_write_error_refuted).  R delete_data
    passes three arguments to a function of two: it never deletes and always raises TypeError (C63_delete_refuted).
  * N timerange_action gets no status and relies on an exception; list_all_occurrences does not clear the lazy context cache; an entry opened by URI cannot be opened again.
  * R put_slice: a quantity that is empty in one slice gets the values of the later slices at the times of earlier ones, without an error
    (C58_gap_refuted); data of appended elements that are not dynamic themselves are lost, though the first put_slice stores them (C58_lost_refuted);
    the version of the stored data is not checked, a slice of another version is mixed in and the version is not updated (C58_version_refuted).
  * N ALDBEntryImpl._setup_backend assigns `factory._xml_path` to os.environ, which fails for a pathlib path.
  * R A failing process removes the complete MDSplus model of another one (C40); a truncated UDA definition file is accepted (C41).
* netCDF backend
  * R Scalars inside arrays of structures equal to the fill value (or "") are lost; unset complex scalars there are read back as
    the fill value (C34); the ancillary variables of structures with error bars are rejected by the validator (C37); chains of shared dimensions longer than the
    recursion limit are reported as circular (C36); a put that fails half way blocks the occurrence (C39); the second lazy access after the
    close shows unset (C35).
  * R A coordinate inside an array of structures that is not around the requested path makes to_xarray raise KeyError (C38); resampling raises for
    dynamic data inside dynamic arrays of structures (C43).
  * R With homogeneous time, an alternative coordinate that is a time is written as `time` also when the dimension is not time (C53).
  * R A file with data inside a structure that the other version does not have cannot be read with that version: the map has only the path of the
    structure, and NC2IDS looks for the path of the variable (C54_removed_structure_refuted); convert_ids leaves such data out.
  * R Lazy loading with another version: the size of an array of structures is looked up with its new path in the metadata of the version of the file
    (nc2ids.py 343-345); if the path changed the first access raises IndexError, and after that the array appears to be empty (C59_moved_refuted).
  * R A URI with the scheme in capital letters (or after a blank) that ends in .nc is opened as a netCDF file, although the URI parser finds the backend
    in it (C60_scheme_refuted).  R A pathlib.Path as xml_path makes opening with UDA raise TypeError (C60_uda_path_refuted).
  * R print_tree with hide_empty_nodes shows the empty elements of arrays of structures (C62_hidden_refuted).  N print_metadata_tree takes a
    negative maxdepth as 1.  N idsdiff can have a row without anything highlighted: the texts of two different long arrays can be the same.
  * R After `ids.a = ids.b` for nodes of the same type both hold the same list or array, a later change of one shows in the other (C61_shared_refuted).
    R Lists and arrays of a lazy loaded, "read-only" IDS can be changed in place (C61_lazy_refuted).  R `ids.names.insert(0, 5)` puts a number in a list of
    strings, and an array can be given another number of dimensions in place (C61_in_place_refuted).
  * R A whole IDS can be appended to an array of structures of another one ("just blindly append"); get_parent, get_toplevel and get_full_path of its nodes
    are then those of an IDS of its own, and its parent in the dictionary is the array instead of the parent of that (C67_nested_refuted).
  * R ids.deleteData never deletes anything: it hands the IDS to delete_data in place of its name and TypeError is raised (C69_deleteData_refuted,
    C69_never_deletes).  R The error for a function that the Access Layer does not have names the Python module instead of it (C69_message_refuted).
  * R An IDS with the name of a method or attribute of the factory cannot be made as `factory.name()` (C66_shadow_refuted).  R identifier_enum raises
    KeyError for an identifier that is not in the list, where its documentation says None (C66_enum_refuted).
  * R `imas analyze-db` does not skip folders without master.h5 as it says: `.exists` is not called (C65_master_refuted).
  * R `bool(node)` of an array says whether it is not empty: [0.0] is true, and two elements give no error (C64_bool_refuted).  R `ids.name in "text"`
    raises TypeError (C64_in_refuted); so does `np.True_ * node`, though `node * np.True_` works (C64_npbool_refuted).  R `ids.a += 0.5` of an integer
    array raises though `ids.a = ids.a + 0.5` stores a value (C64_augment_refuted).  R `ids.a += 1` of a lazy loaded IDS raises "read-only" after it has
    changed the array (C64_lazy_refuted).
  * R A quantity inside an array of structures that was renamed and got another type is stored with its old type, past the setter (C54_type_refuted).
  * R Accepted files that cannot be read: a size in a shape variable that is larger than the dimension (IndexError) or negative (ValueError), an array of
    structures without its dimension (KeyError) (C56_readable_refuted).
  * R A sparse variable without its shape variable makes the check raise AttributeError, a lone occurrence "01" makes it fail on a missing group, instead of
    InvalidNetCDFEntry (C56_error_refuted); beside a valid "1", the group "01" is never checked (C56_groups_refuted).
  * R `imas convert --occurrence N` without `--ids` fails at the first IDS without that occurrence (C57_occurrence_refuted); IDSs that the target version
    does not have are left out without a message (C57_lost_refuted); an IDS that the default version of the library does not have cannot be converted
    although the data and the target have it (C57_default_refuted); after a failure the output is partial and a second run is refused
    (C57_retry_refuted); a definition file with the version number of the data is not converted to (C57_custom_refuted).
  * N Data without a stored version are read as the default version of the library, also by `imas convert`.
  * N `validate_netcdf_file("imas:….nc")` opens an Access Layer entry and then fails on `_dataset`; a missing netCDF group may raise IndexError, of which
    only KeyError is caught.
  * R With IMAS_DISABLE_NC_VALIDATE the explicit check `imas validate_nc` accepts everything as well (C56_disabled_refuted).
  * N The functions in the map for values (`post_process`) are not applied when reading netCDF files of another version.
  * N STR_1D inside arrays of structures is read back as an object array; lazy loading with conversion looks up a renamed array of structures by its
    target path.
  * R The time base in the version map is the attribute of the definition also for data inside a time dependent array of structures, where the
    metadata has none (C49; effect on reading in C42).
  * R Two threads that build metadata at the same time can leave all metadata writable, or fail with AttributeError (C50).
  * R deserialize and get with a destination do not clear the destination: its data stay wherever the buffer or entry has none, so the result can mix two
    IDSs (C51_overwrite_refuted).
  * R When the put inside an ASCII serialization fails (validation, size limits), its entry stays open and its temporary file on disk; a failing get inside
    deserialize leaves the entry open (C51_failure_refuted).
  * N db_entry_al.py 240-246 switches the garbage collector off around get_children without try/finally: after a failing get it stays off.
* Versions
  * R A destination of a version that is neither that of the entry nor that of the data: the map between the data and the entry is used, and values can
    end up in another quantity (C55_third_refuted); if the data has the version of the entry the read fails with TypeError (C30_destination_refuted).
  * R An entry made with `xml_path` (or IMAS_PREFIX) reads data that it wrote itself, with `autoconvert=False`, with the released definition of the
    same version number (C55_own_refuted), or raises UnknownDDVersion (C55_own_unreleased_refuted).  N The same holds for serialize and deserialize,
    which make a DBEntry from the version number of the IDS.
  * R After an XML file was changed, new factories for it have the old definition (C55_stale_refuted).
  * N A netCDF file of an unknown version cannot be opened, so `ignore_unknown_dd_version` has no effect there (C55_nc_unknown).
  * N IDSToplevel.deleteData passes the IDS, not its name, to DBEntry.delete_data.
* Analysis
  * R Files that list a path twice (C44); elements without a path (C45).
  * N `(entry / "master.h5").exists` is not called; a folder given twice counts twice; division by zero in fill_fraction.

## Not modelled

numpy beyond arrays as shape and row-major data, netCDF4 and HDF5 storage, the Access Layer C library, XML parsing, xarray, logging and
warnings, the command line except `convert` (C57) and the analysis of files (C44, C65), training data, the file system beyond what C40 and C41 need, and performance.  Of imas/ids_convert.py:
that a lazy loaded source is refused is in EndModel.  The bytes of the ASCII and flexbuffers formats.  Unicode: strings
are byte strings.
