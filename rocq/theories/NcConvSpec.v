(** What is to be expected when a netCDF file is read with another version of the data dictionary: paths only. *)
From Verif Require Import Base TreeModel TreeSpec ConvSpec NcFileModel.
From Verif Require VmapModel.
Import VmapModel(nmap).

(** the path of a variable *)
Definition vpath (v : ncvar) : list str := split_on "."%char (v_name v).
(** the quantity has no counterpart, or one of another type: it is not read *)
Definition skipped (rm : nmap) (p : list str) : Prop :=
  ConvSpec.entry rm p = Some None \/ (ConvSpec.entry rm p = None /\ alookup (slashed p) (VmapModel.m_type rm) <> None).
(** neither the path nor anything it is in is without counterpart or has a special rule *)
Definition kept (rm : nmap) (p : list str) : Prop := ~ removed rm p /\ ~ ruled rm p.
(** the time mode is the same quantity in both versions *)
Definition same_mode (m m' : meta) (units units' : list str -> str) : Prop :=
  let p := [strs "ids_properties"; strs "homogeneous_time"] in
  exists c c', at_path m p c /\ at_path m' p c' /\ mkind c = mkind c' /\ units p = units' p.
(** values of the right type are stored as they are *)
Definition keeps_values (cast : meta -> value -> result fexn value) : Prop := forall c dt nd v, mkind c = KLeaf dt nd -> val_ok dt nd v -> cast c v = Ok v.
