(** C49, continued: which quantities change their sign, from the XML definition. *)
From Verif Require Import Base DataTypeModel TreeModel TreeSpec EndSpec MetaModel MetaSpec MetaProofs MetaProofs2 MetaProofs3 MetaProofs4.
From Verif Require Import PathSpec ConvSpec PathProofs3.
From Verif Require VmapModel VmapSpec VmapProofs VmapProps3 MetaProps.

(** Between version 3 and 4 exactly the quantities that the definition calls psi_like or dodpsi_like change their sign, and those of the
    fixed list ([VmapProps3.flipped] is what C18 and C26 are about). *)
Theorem C49_map_signs : forall version x t flips, definition x -> toplevel_metadata x = Ok t -> forall p y, p <> [] -> elem_at x p y ->
  (VmapProps3.flipped (fields_of version x) flips (slashed p) <->
   attr "cocos_label_transformation" y = Some (strs "psi_like") \/ attr "cocos_label_transformation" y = Some (strs "dodpsi_like") \/ In (slashed p) flips).
Proof.
  intros version x t flips DF B p y NP EY. pose proof (lookup_def version x DF t B p y EY NP) as L. unfold VmapProps3.flipped.
  assert (Y : VmapModel.e_psi (elem_of version (xattrib y)) = true <->
     attr "cocos_label_transformation" y = Some (strs "psi_like") \/ attr "cocos_label_transformation" y = Some (strs "dodpsi_like")).
  { cbn [elem_of VmapModel.e_psi]. change (att "cocos_label_transformation" (xattrib y)) with (attr "cocos_label_transformation" y).
    destruct (attr "cocos_label_transformation" y) as [s|].
    - rewrite orb_true_iff, !str_eqb_eq. split; (intros [E|E]; [left|right]; congruence).
    - split; [discriminate|intros [E|E]; discriminate]. }
  split.
  - intros [(e & I & Ep & Es)|I]; [|tauto]. apply or_assoc. left. apply Y.
    assert (L2 : alookup (slashed p) (VmapModel.by_path (fields_of version x)) = Some e).
    { apply VmapProofs.by_path_lookup; auto. apply (VmapSpec.wf_nodup _ (def_wf_fields version x DF t B)). }
    congruence.
  - intros H. apply or_assoc in H as [H|H]; [|tauto]. left. exists (elem_of version (xattrib y)). split; [apply (field_iff version x DF); eauto|]. split; [|now apply Y].
    apply (elem_path version x DF); auto.
Qed.
Print Assumptions C49_map_signs.
(** a quantity of both kinds and one of neither *)
Definition sx : xml := Xml (strs "IDS") [MetaProps.mk "name" "ids"]
  [MetaProps.fld "psi" "psi" "FLT_0D" [MetaProps.mk "cocos_label_transformation" "psi_like"] [];
   MetaProps.fld "dpsi" "dpsi" "FLT_0D" [MetaProps.mk "cocos_label_transformation" "dodpsi_like"] [];
   MetaProps.fld "b0" "b0" "FLT_0D" [MetaProps.mk "cocos_label_transformation" "b0_like"] []].
Example C49_example_signs : definition sx /\ (exists t, toplevel_metadata sx = Ok t) /\
  map (fun e => (VmapModel.e_path e, VmapModel.e_psi e)) (fields_of (fun _ => None) sx) = [(strs "psi", true); (strs "dpsi", true); (strs "b0", false)].
Proof. split; [apply MetaProps.def_b_sound; vm_compute; reflexivity|]. split; [eexists; vm_compute; reflexivity|vm_compute; reflexivity]. Qed.
