(** Specification of lazily loading a netCDF file of another version of the data dictionary (C59): which arrays of structures change their
    path.  What an access gives for the fully loaded IDS is LazySpec.seen, with NcLazySpec.shows. *)
From Verif Require Import Base PathSpec TreeModel TreeSpec ConvSpec NcFileModel NcConvSpec.
From Verif Require VmapModel.
Import VmapModel(nmap).

(** [moved m rm g q]: q is the path that an array of structures of the file (one that is not sparse) has in the other version, and it is
    not the path of this array in the file *)
Definition moved (m : meta) (rm : nmap) (g : group) (q : list str) : Prop :=
  exists v c, In v (g_vars g) /\ v_sparse v = false /\ at_path m (vpath v) c /\ mkind c = KAoS /\ mapped rm (vpath v) q /\ q <> vpath v /\ Forall is_name q.
