(** Specification of the contour tree that the conversion of an equilibrium to version 4 makes. *)
From Verif Require Import Base PathModel TreeModel TreeSpec ValModel PrimModel PrimSpec ConvModel ConvSpec EqModel.

Definition slice (i : nat) : loc := [Child (strs "time_slice"); Elem i].
Definition in_slice (i : nat) (p : list string) : loc := slice i ++ names p.
Definition x_point (i : nat) (s : string) (j : nat) : loc := in_slice i [s; "x_point"%string] ++ [Elem j].
(** the nodes of the contour tree of a slice *)
Definition tree_nodes (i : nat) : loc := in_slice i ["contour_tree"; "node"]%string.

(** ** A critical point: its type (0: minimum, 1: saddle point, 2: maximum) and where the data are in the source *)
Record point := { pt_type : Z; pt_at : option loc; pt_psi : loc; pt_line : option loc }.

Section Spec.
(** the filled values and the sizes of the source, and whether the version has a secondary separatrix *)
Variable V : loc -> option value.
Variable K : loc -> nat.
Variable secondary : bool.

Definition number (l : loc) : flt := match V l with Some (VFlt f) => f | _ => EMPTY_FLOAT end.
Definition filled (l : loc) : bool := match V l with Some _ => true | None => false end.

Section Slice.
Variable i : nat.
(** psi on the axis is lower than at the boundary, in the sign convention of version 4 *)
Definition axis_low : bool :=
  flt_lt (fneg (number (in_slice i ["global_quantities"; "psi_axis"]%string))) (fneg (number (in_slice i ["global_quantities"; "psi_boundary"]%string))).
Definition limiter : bool := match V (in_slice i ["boundary_separatrix"; "type"]%string) with Some (VInt z) => (z =? 0)%Z | _ => false end.
Definition axis : point :=
  {| pt_type := if axis_low then 0 else 2; pt_at := Some (in_slice i ["global_quantities"; "magnetic_axis"]%string);
     pt_psi := in_slice i ["global_quantities"; "psi_axis"]%string; pt_line := None |}.
(** an X-point of a separatrix; the first one carries the line *)
Definition saddle (s : string) (at_ : option loc) (line : bool) : point :=
  {| pt_type := 1; pt_at := at_; pt_psi := in_slice i [s; "psi"%string]; pt_line := if line then Some (in_slice i [s; "outline"%string]) else None |}.
Definition first_saddle (s : string) : point := saddle s (if 0 <? K (in_slice i [s; "x_point"%string]) then Some (x_point i s 0) else None) true.
Definition other_saddles (s : string) : list point := map (fun j => saddle s (Some (x_point i s j)) false) (seq 1 (K (in_slice i [s; "x_point"%string]) - 1)).
Definition primary : point :=
  if limiter then
    {| pt_type := if axis_low then 2 else 0; pt_at := Some (in_slice i ["boundary_separatrix"; "active_limiter_point"]%string);
       pt_psi := in_slice i ["boundary_separatrix"; "psi"]%string; pt_line := Some (in_slice i ["boundary_separatrix"; "outline"]%string) |}
  else first_saddle "boundary_separatrix".
Definition has_primary : bool := filled (in_slice i ["boundary_separatrix"; "psi"]%string).
Definition has_second : bool := has_primary && secondary && filled (in_slice i ["boundary_secondary_separatrix"; "psi"]%string).
Definition critical_points : list point :=
  axis :: (if has_primary then [primary] else []) ++ (if has_second then [first_saddle "boundary_secondary_separatrix"] else [])
  ++ (if has_primary && negb limiter then other_saddles "boundary_separatrix" else [])
  ++ (if has_second then other_saddles "boundary_secondary_separatrix" else []).
End Slice.

(** ** The data of a node *)
Definition at_point (p : point) (x : string) : option value := match pt_at p with Some l => V (l ++ names [x]) | None => None end.
Definition on_line (p : point) (x : string) : option value := match pt_line p with Some l => V (l ++ names [x]) | None => None end.
Definition negated (l : loc) : option value :=
  if feq (fneg (number l)) EMPTY_FLOAT then None else Some (VFlt (fneg (number l))).
Definition point_data (p : point) (r : loc) : option value :=
  if loc_eqb r (names ["critical_type"%string]) then Some (VInt (pt_type p))
  else if loc_eqb r (names ["r"%string]) then at_point p "r"
  else if loc_eqb r (names ["z"%string]) then at_point p "z"
  else if loc_eqb r (names ["psi"%string]) then negated (pt_psi p)
  else if loc_eqb r (names ["levelset"; "r"]%string) then on_line p "r"
  else if loc_eqb r (names ["levelset"; "z"]%string) then on_line p "z"
  else None.
End Spec.

(** ** The data dictionaries *)
Definition leaf_ok (m : meta) (l : loc) (dt : dtype) (nd : nat) : Prop := exists nm cs, loc_ok m l (Meta nm (KLeaf dt nd) cs).
Definition rz_ok (m : meta) (l : loc) (nd : nat) : Prop := leaf_ok m (l ++ names ["r"%string]) FLT nd /\ leaf_ok m (l ++ names ["z"%string]) FLT nd.
Definition aos_ok (m : meta) (l : loc) : Prop := exists nm cs, loc_ok m l (Meta nm KAoS cs).
Definition separatrix_ok (m : meta) (s : string) : Prop := forall i,
  leaf_ok m (in_slice i [s; "psi"%string]) FLT 0 /\ aos_ok m (in_slice i [s; "x_point"%string]) /\
  (forall j, rz_ok m (x_point i s j) 0) /\ rz_ok m (in_slice i [s; "outline"%string]) 1.
(** version 3 *)
Definition equilibrium3 (m : meta) : Prop :=
  aos_ok m (names ["time_slice"%string]) /\
  (forall i, leaf_ok m (in_slice i ["global_quantities"; "psi_axis"]%string) FLT 0 /\ leaf_ok m (in_slice i ["global_quantities"; "psi_boundary"]%string) FLT 0 /\
             rz_ok m (in_slice i ["global_quantities"; "magnetic_axis"]%string) 0 /\
             leaf_ok m (in_slice i ["boundary_separatrix"; "type"]%string) INT 0 /\ rz_ok m (in_slice i ["boundary_separatrix"; "active_limiter_point"]%string) 0) /\
  separatrix_ok m "boundary_separatrix".
Definition has_secondary (m : meta) : Prop := separatrix_ok m "boundary_secondary_separatrix".
Definition no_secondary (m : meta) : Prop := forall i m', ~ loc_ok m (in_slice i ["boundary_secondary_separatrix"%string]) m'.
(** version 4 *)
Definition equilibrium4 (m : meta) : Prop :=
  aos_ok m (names ["time_slice"%string]) /\ (forall i, aos_ok m (tree_nodes i)) /\
  (forall i q, leaf_ok m (tree_nodes i ++ [Elem q] ++ names ["critical_type"%string]) INT 0 /\ rz_ok m (tree_nodes i ++ [Elem q]) 0 /\
               leaf_ok m (tree_nodes i ++ [Elem q] ++ names ["psi"%string]) FLT 0 /\ rz_ok m (tree_nodes i ++ [Elem q] ++ names ["levelset"%string]) 1).
