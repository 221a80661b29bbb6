(** Conversions with changes of sign: the same as a plain conversion of the IDS with the opposite values. *)
From Verif Require Import Base PathModel PathSpec TreeModel TreeSpec TreeProofs TreeProofs2 TreeProofs4 ValModel ValProofs ValProofs2 ValProofs5 PrimModel PrimSpec PrimProps ConvModel ConvSpec ConvProofs ConvProofs2 ConvProofs3 ConvProofs4 ConvProofs5 ConvProgress ConvProps ConvInverse ConvProps2 SignSpec.
From Verif Require VmapModel.
Import VmapModel(handler(..), nmap).

(** ** The IDS with opposite values at some paths *)
Section Flip.
Variable fl : list str -> bool.
Fixpoint flip (p : list str) (n : node) : node :=
  match n with
  | NStruct fs => NStruct (map (fun kv : str * node => let (x, ch) := kv in (x, flip (p ++ [x]) ch)) fs)
  | NAoS els => NAoS (map (flip p) els)
  | NLeaf (Some v) => NLeaf (Some (if fl p then match negate v with Some w => w | None => v end else v))
  | NLeaf None => n
  end.
Definition flip_value (p : list str) (v : value) : value := if fl p then match negate v with Some w => w | None => v end else v.
Lemma flip_lookup : forall p x fs, alookup x (map (fun kv : str * node => let (x, ch) := kv in (x, flip (p ++ [x]) ch)) fs) = option_map (flip (p ++ [x])) (alookup x fs).
Proof. intros p x fs. induction fs as [|[y ch] fs IH]; [reflexivity|]. cbn [map alookup]. destruct (str_eqb x y) eqn:E; [apply str_eqb_eq in E; subst; reflexivity|exact IH]. Qed.
Lemma flip_keys : forall p fs, akeys (map (fun kv : str * node => let (x, ch) := kv in (x, flip (p ++ [x]) ch)) fs) = akeys fs.
Proof. intros p fs. unfold akeys. rewrite map_map. apply map_ext. intros [x ch]. reflexivity. Qed.

(** where the sign changes, it can *)
Definition flippable (m : meta) (p : list str) (n : node) : Prop := forall l m' v, node_at m n l m' (NLeaf (Some v)) -> filled_value v -> fl (p ++ loc_names l) = true -> can_flip m' v.
Lemma flippable_child : forall nm cs fs p c ch, flippable (Meta nm KStruct cs) p (NStruct fs) -> In c cs -> alookup (mname c) fs = Some ch -> flippable c (p ++ [mname c]) ch.
Proof.
  intros nm cs fs p c ch H I L l m' v N FV F. apply (H (Child (mname c) :: l) m' v); [econstructor; eauto|exact FV|]. rewrite <- app_assoc in F. exact F.
Qed.
Lemma flippable_elem : forall nm cs els p i e, flippable (Meta nm KAoS cs) p (NAoS els) -> nth_error els i = Some e -> flippable (Meta nm KStruct cs) p e.
Proof. intros nm cs els p i e H I l m' v N FV F. apply (H (Elem i :: l) m' v); [econstructor; eauto|exact FV|]. exact F. Qed.
Lemma flip_leaf : forall p v, flip p (NLeaf (Some v)) = NLeaf (Some (flip_value p v)). Proof. reflexivity. Qed.
Lemma filled_dec : forall v, filled_value v \/ ~ filled_value v.
Proof. intros [x|x|x|x y|l|sh d|sh d|sh d]; cbn; auto; [destruct l|destruct d..]; auto; left; discriminate. Qed.
Lemma unfilled_same : forall p v, ~ filled_value v -> flip_value p v = v.
Proof.
  intros p v H. unfold flip_value. destruct (fl p); [|reflexivity]. destruct v as [x|x|x|x y|l|sh d|sh d|sh d]; cbn in *; try tauto; [destruct d as [|y d]..]; try reflexivity; exfalso; apply H; discriminate.
Qed.
(** the value: the opposite one, or the same *)
Lemma flip_value_spec : forall m p v dt nd, mkind m = KLeaf dt nd -> val_ok dt nd v -> (filled_value v -> fl p = true -> can_flip m v) ->
  val_ok dt nd (flip_value p v) /\ (filled_value v -> fl p = true -> negate v = Some (flip_value p v) /\ opposite v (flip_value p v) /\ (nd = 0 -> ~ empty dt (flip_value p v))) /\ (fl p = false -> flip_value p v = v).
Proof.
  intros m p v dt nd K VO CF. destruct (filled_dec v) as [FV|NF].
  - unfold flip_value. destruct (fl p) eqn:E.
    + destruct (CF FV eq_refl) as (dt' & nd' & K' & NS & I & NE). rewrite K in K'. injection K' as <- <-. destruct (negate_spec _ _ _ VO NS I) as (w & N1 & OP & _ & VW & _). rewrite N1. split; auto. split; [|discriminate]. auto 6.
    + split; auto. split; [discriminate|auto].
  - rewrite (unfilled_same p v NF). split; auto. split; [tauto|auto].
Qed.
Lemma flip_size : forall m p v dt nd, mkind m = KLeaf dt nd -> val_ok dt nd v -> (filled_value v -> fl p = true -> can_flip m v) ->
  filled_value (flip_value p v) <-> filled_value v.
Proof.
  intros m p v dt nd K VO CF. destruct (filled_dec v) as [FV|NF]; [|rewrite (unfilled_same p v NF); tauto]. destruct (flip_value_spec _ _ _ _ _ K VO CF) as (_ & A & B). destruct (fl p); [|rewrite (B eq_refl); tauto].
  destruct (A FV eq_refl) as (_ & OP & _). destruct OP as [z|f g O|r i r' i' O1 O2|sh d d' FA|sh d d' FA|sh d d' FA]; cbn; try tauto;
    inversion FA; subst; cbn; split; congruence.
Qed.
Lemma flip_conf : forall m p n, conf m n -> flippable m p n -> conf m (flip p n).
Proof.
  intros m. induction m as [nm k cs IH] using meta_ind'.
  assert (ST : forall p n, conf (Meta nm KStruct cs) n -> flippable (Meta nm KStruct cs) p n -> conf (Meta nm KStruct cs) (flip p n)).
  { intros p n CF FB. inversion CF as [| |? ? fs H1 H2 H3|]; subst. cbn [flip]. constructor.
    - intros c ch I L. rewrite flip_lookup in L. destruct (alookup (mname c) fs) as [ch0|] eqn:E; [|discriminate]. injection L as <-. apply IH; auto. eapply flippable_child; eauto.
    - intros x. rewrite flip_keys. apply H2.
    - rewrite flip_keys. assumption. }
  intros p n CF FB. destruct k as [| |dt nd].
  - apply ST; assumption.
  - inversion CF as [| | |? ? els H]; subst. cbn [flip]. constructor. intros e I. apply in_map_iff in I. destruct I as (e0 & <- & I). apply ST; auto. apply In_nth_error in I. destruct I as (i & I). eapply flippable_elem; eauto.
  - inversion CF as [|? ? ? ? v VO| |]; subst; [constructor|]. rewrite flip_leaf. constructor. apply (flip_value_spec (Meta nm (KLeaf dt nd) cs) p v dt nd eq_refl VO). intros FV F. apply (FB [] _ v); [constructor|exact FV|]. rewrite app_nil_r. exact F.
Qed.
Lemma flip_node : forall m n l m' n', node_at m n l m' n' -> forall p, node_at m (flip p n) l m' (flip (p ++ loc_names l) n').
Proof.
  intros m n l m' n' H. induction H as [m n|nm cs fs c ch l m' n' I L N IH|nm cs els i e l m' n' NE N IH]; intros p; cbn [flip].
  - cbn. rewrite app_nil_r. constructor.
  - econstructor; [exact I|rewrite flip_lookup, L; reflexivity|]. change (loc_names (Child (mname c) :: l)) with (mname c :: loc_names l). specialize (IH (p ++ [mname c])). rewrite <- app_assoc in IH. exact IH.
  - econstructor; [rewrite nth_error_map, NE; reflexivity|]. exact (IH p).
Qed.
Lemma flip_node_inv : forall l m n p m' n', node_at m (flip p n) l m' n' -> exists n0, node_at m n l m' n0 /\ n' = flip (p ++ loc_names l) n0.
Proof.
  induction l as [|x l IH]; intros m n p m' n' H.
  - inversion H; subst. exists n. cbn. rewrite app_nil_r. split; [constructor|reflexivity].
  - destruct n as [fs|els|[v|]]; cbn [flip] in H; try (inversion H; fail).
    + inversion H as [|? ? ? c ch ? ? ? I L N|]; subst. rewrite flip_lookup in L. destruct (alookup (mname c) fs) as [ch0|] eqn:E; [|discriminate]. injection L as <-.
      destruct (IH _ _ _ _ _ N) as (n0 & N0 & ->). exists n0. split; [econstructor; eauto|]. rewrite <- app_assoc. reflexivity.
    + inversion H as [| |? ? ? i e ? ? ? NE N]; subst. rewrite nth_error_map in NE. destruct (nth_error els i) as [e0|] eqn:E; [|discriminate]. injection NE as <-.
      destruct (IH _ _ _ _ _ N) as (n0 & N0 & ->). exists n0. split; [econstructor; eauto|reflexivity].
Qed.
Lemma flip_leaf_at : forall m n p, wf_meta m -> conf m n -> flippable m p n -> forall l w, leaf_at m (flip p n) l w <-> exists v, leaf_at m n l v /\ w = flip_value (p ++ loc_names l) v.
Proof.
  intros m n p WF CF FB l w. split.
  - intros (m' & (dt & nd & K) & N & FV). apply flip_node_inv in N. destruct N as (n0 & N & E). destruct n0 as [?|?|[v|]]; try discriminate. rewrite flip_leaf in E. injection E as ->.
    assert (C0 : conf m' (NLeaf (Some v))) by (eapply node_at_conf; eauto). exists v. split; [|reflexivity]. exists m'. split; [do 2 eexists; eauto|]. split; [exact N|].
    eapply (flip_size m' _ v dt nd K ltac:(inversion C0; subst; cbn in K; injection K as <- <-; assumption) ltac:(intros FV' F; eapply FB; eauto)). exact FV.
  - intros (v & (m' & (dt & nd & K) & N & FV) & ->). assert (C0 : conf m' (NLeaf (Some v))) by (eapply node_at_conf; eauto). exists m'. split; [do 2 eexists; eauto|]. split; [apply (flip_node _ _ _ _ _ N p)|].
    eapply (flip_size m' _ v dt nd K ltac:(inversion C0; subst; cbn in K; injection K as <- <-; assumption) ltac:(intros FV' F; eapply FB; eauto)). exact FV.
Qed.
Lemma flip_aos_at : forall m n p l k, aos_at m (flip p n) l k <-> aos_at m n l k.
Proof.
  intros m n p l k. split.
  - intros (m' & els & N & K & E & G). apply flip_node_inv in N. destruct N as (n0 & N & E'). destruct n0 as [?|els0|[?|]]; try discriminate. injection E' as ->. rewrite map_length in E. exists m', els0. auto.
  - intros (m' & els & N & K & E & G). exists m'. eexists. split; [exact (flip_node _ _ _ _ _ N p)|]. rewrite map_length. auto.
Qed.
Lemma flip_has_value : forall m p n, wf_meta m -> conf m n -> flippable m p n -> has_value m (flip p n) = has_value m n.
Proof.
  intros m p n WF CF FB. pose proof (flip_conf _ _ _ CF FB) as CF'.
  assert (X : nonempty m (flip p n) <-> nonempty m n).
  { split; intros (l & [(v & L)|(k & L)]); exists l.
    - apply (flip_leaf_at m n p WF CF FB) in L. destruct L as (v0 & L & _). left. exists v0. exact L.
    - right. exists k. exact (proj1 (flip_aos_at m n p l k) L).
    - left. exists (flip_value (p ++ loc_names l) v). apply (flip_leaf_at m n p WF CF FB). exists v. auto.
    - right. exists k. exact (proj2 (flip_aos_at m n p l k) L). }
  destruct (has_value m n) eqn:E1, (has_value m (flip p n)) eqn:E2; auto; exfalso.
  - apply has_value_nonempty in E1; auto. apply X in E1. apply has_value_nonempty in E1; auto. congruence.
  - apply has_value_nonempty in E2; auto. apply X in E2. apply has_value_nonempty in E2; auto. congruence.
Qed.
End Flip.
