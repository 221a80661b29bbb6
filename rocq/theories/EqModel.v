(** Model of the conversion of the plasma boundary to a contour tree: imas/ids_convert.py:1254-1318 (_equilibrium_boundary_3to4).

    The source is only read; the target, into which the rest has been copied before, is the state.  [node.x = other.y] assigns the value
    of the other data node (ids_primitive.py:171-191). *)
From Verif Require Import Base PathModel TreeModel ValModel PrimModel ConvModel ProvModel.

(** [a < b] *)
Definition flt_lt (a b : flt) : bool := negb (is_nan a) && negb (is_nan b) && (f_key a <? f_key b)%Z.

Section Equilibrium.
Variables (sm tm : meta).
Variable src : node.
Variable deepcopy : bool.
Variable str_of : pyval -> str.
Variable parse_float : str -> option flt.
Variable parse_cpx : str -> option (flt * flt).
Variable flt_of_int : Z -> option flt.
Variable np_cast : dtype -> pyval -> result pexn value.
Variable array_items : value -> list pyval.
Notation assign := (assign tm str_of parse_float parse_cpx flt_of_int np_cast array_items).
Notation getattr := (getattr tm).

(** ** Reading the source *)
Definition src_value (l : loc) : CM value :=
  match source_at sm src l with Some (m, NLeaf v) => cret (leaf_value m (NLeaf v)) | _ => cfail CAttribute end.
Definition src_filled (l : loc) : CM bool :=
  match source_at sm src l with Some (m, NLeaf v) => cret (has_value m (NLeaf v)) | _ => cfail CAttribute end.
Definition src_length (l : loc) : CM nat :=
  match source_at sm src l with Some (_, NAoS els) => cret (length els) | _ => cfail CAttribute end.
Definition src_has (l : loc) (name : str) : bool := match source_attr sm src l name with Some _ => true | None => false end.
(** [-node] of a floating point data node *)
Definition src_negated (l : loc) : CM flt :=
  doc v <- src_value l; match v with VFlt f => cret (fneg f) | _ => cfail CType end.

(** ** Writing the target *)
Definition names (l : list string) : loc := map (fun x => Child (strs x)) l.
Fixpoint getattrs (l : loc) (p : list string) : CM loc :=
  match p with [] => cret l | x :: p => doc a <- getattr l (strs x); getattrs a p end.
Definition put (e : loc) (p : list string) (from : option loc) (v : pyval) : CM unit := doc a <- getattrs e p; assign a from v.
Definition put_critical (e : loc) (z : Z) : CM unit := put e ["critical_type"%string] None (PInt z).
Definition put_psi (e sl : loc) : CM unit := doc f <- src_negated sl; put e ["psi"%string] None (PFlt f).
(** r and z of a point *)
Definition put_point (e sl : loc) : CM unit :=
  doc r <- src_value (sl ++ names ["r"%string]); doc _ <- put e ["r"%string] None (of_value r);
  doc z <- src_value (sl ++ names ["z"%string]); put e ["z"%string] None (of_value z).
(** r and z of a line, 1300-1301, 1317-1318; copied if [deepcopy] *)
Definition put_line (e sl : loc) : CM unit :=
  let share (l : loc) := if deepcopy then None else Some l in
  doc r <- src_value (sl ++ names ["r"%string]); doc _ <- put e ["levelset"; "r"]%string (share (sl ++ names ["r"%string])) (of_value r);
  doc z <- src_value (sl ++ names ["z"%string]); put e ["levelset"; "z"]%string (share (sl ++ names ["z"%string])) (of_value z).
(** the points after the first, 1293-1298 and 1310-1315; [s]: the separatrix *)
Definition more_points (node s : loc) (n : nat) : CM unit :=
  citer (fun i =>
    doc k <- length_of tm node;
    doc _ <- resize_keep tm node (S k);
    let e := node ++ [Elem k] in
    doc _ <- put_critical e 1;
    doc _ <- put_point e (s ++ [Child (strs "x_point"); Elem i]);
    put_psi e (s ++ names ["psi"%string])) (seq 1 (n - 1)).

(** one time slice, 1259-1318 *)
Definition boundary_slice (ts tt4 : loc) : CM unit :=
  let gq := ts ++ names ["global_quantities"%string] in
  let bs := ts ++ names ["boundary_separatrix"%string] in
  let b2 := ts ++ names ["boundary_secondary_separatrix"%string] in
  doc h <- src_filled (gq ++ names ["psi_axis"%string]);
  if negb h then cret tt else
  doc h1 <- src_filled (bs ++ names ["psi"%string]);
  doc h2 <- (if h1 : bool then
               if src_has ts (strs "boundary_secondary_separatrix") then src_filled (b2 ++ names ["psi"%string]) else cret false
             else cret false);
  let n := if h1 then (if h2 : bool then 3 else 2) else 1 in
  doc node <- getattrs tt4 ["contour_tree"; "node"]%string;
  doc _ <- resize tm node n;
  doc pa <- src_negated (gq ++ names ["psi_axis"%string]);
  doc pb <- src_negated (gq ++ names ["psi_boundary"%string]);
  let low := flt_lt pa pb in
  doc _ <- put_critical (node ++ [Elem 0]) (if low then 0 else 2)%Z;
  doc _ <- put_point (node ++ [Elem 0]) (gq ++ names ["magnetic_axis"%string]);
  doc _ <- put_psi (node ++ [Elem 0]) (gq ++ names ["psi_axis"%string]);
  doc _ <- (if h1 then
    doc ty <- src_value (bs ++ names ["type"%string]);
    doc _ <- (if match ty with VInt z => (z =? 0)%Z | _ => false end then
      doc _ <- put_critical (node ++ [Elem 1]) (if low then 2 else 0)%Z;
      put_point (node ++ [Elem 1]) (bs ++ names ["active_limiter_point"%string])
    else
      doc _ <- put_critical (node ++ [Elem 1]) 1;
      doc k <- src_length (bs ++ names ["x_point"%string]);
      doc _ <- (if 0 <? k then put_point (node ++ [Elem 1]) (bs ++ [Child (strs "x_point"); Elem 0]) else cret tt);
      more_points node bs k);
    doc _ <- put_psi (node ++ [Elem 1]) (bs ++ names ["psi"%string]);
    put_line (node ++ [Elem 1]) (bs ++ names ["outline"%string])
   else cret tt);
  if h2 then
    doc _ <- put_critical (node ++ [Elem 2]) 1;
    doc k <- src_length (b2 ++ names ["x_point"%string]);
    doc _ <- (if 0 <? k then
      doc _ <- put_point (node ++ [Elem 2]) (b2 ++ [Child (strs "x_point"); Elem 0]);
      more_points node b2 k
     else cret tt);
    doc _ <- put_psi (node ++ [Elem 2]) (b2 ++ names ["psi"%string]);
    put_line (node ++ [Elem 2]) (b2 ++ names ["outline"%string])
  else cret tt.

(** the loop over the time slices of both, 1258 *)
Definition boundary_3to4 : CM unit :=
  doc k3 <- src_length (names ["time_slice"%string]);
  doc a <- getattr [] (strs "time_slice");
  doc k4 <- length_of tm a;
  citer (fun i => boundary_slice (names ["time_slice"%string] ++ [Elem i]) (a ++ [Elem i])) (seq 0 (Nat.min k3 k4)).
End Equilibrium.
