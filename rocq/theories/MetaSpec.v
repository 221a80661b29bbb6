(** What the metadata of an IDS should be, stated on its XML definition only. *)
From Verif Require Import Base DataTypeModel PathModel PathSpec ConvSpec ValModel MetaModel.
From Verif Require NcEntryModel.

Definition attr (k : string) (y : xml) : option str := alookup (strs k) (xattrib y).
Definition attr_or (k : string) (y : xml) : str := match attr k y with Some s => s | None => [] end.

(** [y] is [x] or one of the elements inside it *)
Inductive part_of : xml -> xml -> Prop :=
| part_here : forall x, part_of x x
| part_in : forall x c y, In c (xchildren x) -> part_of c y -> part_of x y.
(** the element with this path from the IDS *)
Inductive elem_at : xml -> list str -> xml -> Prop :=
| elem_here : forall x, elem_at x [] x
| elem_child : forall x c n p y, In c (xchildren x) -> attr "name" c = Some n -> elem_at c p y -> elem_at x (n :: p) y.
(** no two elements side by side have the same name *)
Definition distinct_names (x : xml) : Prop := forall y, part_of x y -> NoDup (map (attr "name") (xchildren y)).

Definition is_array_of_structures (y : xml) : Prop := attr "data_type" y = Some (strs "struct_array").
Definition varies (y : xml) : Prop := attr "type" y = Some (strs "dynamic").

(** ** When a definition can be used *)
(** no type (the IDS itself), a structure, an array of structures, or data with the number of dimensions that exist for it *)
Definition known_type (t : option ids_dtype) (n : N) : Prop :=
  (t = None /\ n = 0%N) \/ (t = Some T_STRUCTURE /\ n = 0%N) \/ (t = Some T_STRUCT_ARRAY /\ n = 1%N) \/ (t = Some T_STR /\ (n <= 1)%N)
  \/ ((t = Some T_INT \/ t = Some T_FLT \/ t = Some T_CPX) /\ (n <= 6)%N).
Record usable (y : xml) : Prop := {
  us_name : exists n, attr "name" y = Some n;
  us_occur : forall s, attr "maxoccur" y = Some s -> s = strs "unbounded" \/ exists z, NcEntryModel.py_int s = Some z;
  us_type : exists t n, dt_parse (attr "data_type" y) = Ok (t, n) /\ known_type t n;
  us_path : exists p, parse (attr_or "path" y) = Ok p;
  us_time : forall s, attr "type" y = Some s -> In s (map strs ["dynamic"; "constant"; "static"]%string);
  us_alts : forall s, attr "alternative_coordinate1" y = Some s -> forall a, In a (split_on ";"%char s) -> exists p, parse a = Ok p }.
(** the IDS itself has no time base *)
Definition no_own_time (x : xml) : Prop := varies x -> ~ is_array_of_structures x -> attr_or "timebasepath" x = [].

(** ** The attributes of a node *)
Section At.
Variable x : xml.

(** path from the nearest array of structures around the node, or from the IDS *)
Definition context (p : list str) (c : str) : Prop := exists a r, p = a ++ r /\ r <> [] /\ c = slashed r /\
  (a = [] \/ exists y, elem_at x a y /\ is_array_of_structures y) /\
  (forall r1 r2 y, r = r1 ++ r2 -> r1 <> [] -> r2 <> [] -> elem_at x (a ++ r1) y -> ~ is_array_of_structures y).
(** the units of the nearest element, from the node upwards, that does not refer to its parent *)
Definition units_are (p : list str) (u : str) : Prop := exists a b y, p = a ++ b /\ elem_at x a y /\ u = attr_or "units" y /\
  (a = [] \/ u <> strs "as_parent") /\
  (forall b1 b2 y', b = b1 ++ b2 -> b1 <> [] -> elem_at x (a ++ b1) y' -> attr_or "units" y' = strs "as_parent").
(** something around the node, below the IDS, is time dependent *)
Definition inside_varying (p : list str) : Prop := exists a b y, p = a ++ b /\ a <> [] /\ b <> [] /\ elem_at x a y /\ varies y.
(** where the time base of the node is: an array of structures that varies has its own time; data that varies has the one of the
    definition, unless it is inside something that varies *)
Definition time_base (p : list str) (y : xml) (c t : str) : Prop :=
  (is_array_of_structures y -> (varies y -> t = c ++ strs "/time") /\ (~ varies y -> t = [])) /\
  (~ is_array_of_structures y -> (varies y -> ~ inside_varying p -> t = attr_or "timebasepath" y) /\ (~ varies y \/ inside_varying p -> t = [])).
(** the coordinate of dimension [i + 1] *)
Definition coordinate (suffix : string) (y : xml) (i : nat) (c : coord) : Prop :=
  (forall s, alookup (strs "coordinate" ++ show_N (N.of_nat (i + 1)) ++ strs suffix) (xattrib y) = Some s -> c = coord_of_spec s) /\
  (alookup (strs "coordinate" ++ show_N (N.of_nat (i + 1)) ++ strs suffix) (xattrib y) = None -> c = no_coord).

Record node_is (p : list str) (y : xml) (i : minfo) : Prop := {
  ni_name : attr "name" y = Some (x_name i);
  ni_context : (p = [] /\ x_ctx i = []) \/ context p (x_ctx i);
  ni_type : dt_parse (attr "data_type" y) = Ok (x_dtype i, x_ndim i);
  ni_path : x_path_string i = attr_or "path" y /\ parse (attr_or "path" y) = Ok (x_path i);
  ni_doc : x_path_doc i = attr_or "path_doc" y /\ x_doc i = attr "documentation" y;
  ni_varies : x_type i = TDynamic <-> varies y;
  ni_inside : x_is_dynamic i = true <-> p <> [] /\ (varies y \/ inside_varying p);
  ni_time : time_base p y (x_ctx i) (x_tbp i);
  ni_units : units_are p (x_units i);
  ni_occur : forall z, x_maxoccur i = Some z <-> exists s, attr "maxoccur" y = Some s /\ s <> strs "unbounded" /\ NcEntryModel.py_int s = Some z;
  ni_coords : length (x_coords i) = N.to_nat (x_ndim i) /\ forall k c, nth_error (x_coords i) k = Some c -> coordinate "" y k c;
  ni_same : length (x_same i) = N.to_nat (x_ndim i) /\ forall k c, nth_error (x_same i) k = Some c -> coordinate "_same_as" y k c;
  ni_alts : match attr "alternative_coordinate1" y with
            | None => x_alts i = []
            | Some s => Forall2 (fun a q => parse a = Ok q) (split_on ";"%char s) (x_alts i)
            end;
  ni_string : (x_dtype i = Some T_STR -> x_al_ndim i = (x_ndim i + 1)%N) /\ (x_dtype i <> Some T_STR -> x_al_ndim i = x_ndim i) }.
End At.

(** ** Definitions of the data dictionary *)
(** every element below the IDS is a field with a proper name, its path and a type; data has no elements inside *)
Record definition (x : xml) : Prop := {
  df_distinct : distinct_names x;
  df_top : attr "data_type" x = None;
  df_tag : forall p y, elem_at x p y -> p <> [] -> xtag y = strs "field";
  df_names : forall p y, elem_at x p y -> Forall is_name p;
  df_named : forall y, part_of x y -> exists n, attr "name" y = Some n;
  df_path : forall p y, elem_at x p y -> p <> [] -> attr "path" y = Some (slashed p);
  df_type : forall p y, elem_at x p y -> p <> [] -> attr "data_type" y <> None;
  df_leaf : forall y t n, part_of x y -> dt_parse (attr "data_type" y) = Ok (Some t, n) -> t <> T_STRUCTURE -> t <> T_STRUCT_ARRAY -> xchildren y = [] }.
