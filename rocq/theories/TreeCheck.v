(** Decision procedures for well-formedness, used to show that concrete examples meet the hypotheses of theorems. *)
From Verif Require Import Base TreeModel TreeSpec TreeProofs.

Fixpoint nodupb (l : list str) : bool :=
  match l with [] => true | x :: t => negb (existsb (str_eqb x) t) && nodupb t end.
Lemma nodupb_sound : forall l, nodupb l = true -> NoDup l.
Proof.
  induction l as [|x l IH]; simpl; intros H; constructor; apply andb_true_iff in H as (H1 & H2); auto.
  intros Hin. apply negb_true_iff in H1. assert (existsb (str_eqb x) l = true); [|congruence].
  apply existsb_exists. exists x. split; auto. apply str_eqb_refl.
Qed.

Fixpoint wf_metab (m : meta) : bool :=
  match m with
  | Meta _ k cs => nodupb (map mname cs) && forallb wf_metab cs && match k, cs with KLeaf _ _, _ :: _ => false | _, _ => true end
  end.
Lemma wf_metab_sound : forall m, wf_metab m = true -> wf_meta m.
Proof.
  intros m. meta_induction m. cbn [wf_metab]. intros H. apply andb_true_iff in H as (H & H3). apply andb_true_iff in H as (H1 & H2).
  constructor.
  - apply nodupb_sound; auto.
  - intros c Hc. apply IH; auto. rewrite forallb_forall in H2. auto.
  - intros dt nd ->. destruct cs; [auto|discriminate].
Qed.

Fixpoint str_okb (m : meta) : bool :=
  match m with Meta _ k cs => match k with KLeaf STR nd => nd <=? 1 | _ => true end && forallb str_okb cs end.
Lemma str_okb_sound : forall m, str_okb m = true -> str_ok m.
Proof.
  intros m. meta_induction m. cbn [str_okb]. intros H. apply andb_true_iff in H as (H1 & H2). constructor.
  - intros nd ->. apply Nat.leb_le. auto.
  - intros c Hc. apply IH; auto. rewrite forallb_forall in H2. auto.
Qed.

Definition val_okb (dt : dtype) (nd : nat) (v : value) : bool :=
  match dt, v with
  | STR, VStr _ => nd =? 0 | INT, VInt _ => nd =? 0 | FLT, VFlt _ => nd =? 0 | CPX, VCpx _ _ => nd =? 0
  | STR, VStrs _ => nd =? 1
  | INT, VIntA ((_ :: _) as sh) d => (nd =? length sh) && (prod sh =? length d)
  | FLT, VFltA ((_ :: _) as sh) d => (nd =? length sh) && (prod sh =? length d)
  | CPX, VCpxA ((_ :: _) as sh) d => (nd =? length sh) && (prod sh =? length d)
  | _, _ => false
  end.
Lemma val_okb_sound : forall dt nd v, val_okb dt nd v = true -> val_ok dt nd v.
Proof.
  intros dt nd v H.
  destruct v as [s|z|f|re im|ls|sh d|sh d|sh d]; destruct dt; cbn [val_okb] in H; try discriminate H.
  1-5: apply Nat.eqb_eq in H; subst nd; constructor.
  all: destruct sh as [|a sh]; [discriminate H|]; apply andb_true_iff in H as (H1 & H2);
    apply Nat.eqb_eq in H1; apply Nat.eqb_eq in H2; subst nd; constructor; [discriminate|exact H2].
Qed.

Fixpoint confb (m : meta) (n : node) {struct m} : bool :=
  match m with
  | Meta nm k cs =>
    let sb (e : node) := match e with
      | NStruct fs => forallb (fun c => match alookup (mname c) fs with Some ch => confb c ch | None => true end) cs
                      && forallb (fun k => existsb (str_eqb k) (map mname cs)) (akeys fs) && nodupb (akeys fs)
      | _ => false end in
    match k, n with
    | KLeaf dt nd, NLeaf None => true
    | KLeaf dt nd, NLeaf (Some v) => val_okb dt nd v
    | KStruct, NStruct _ => sb n
    | KAoS, NAoS els => forallb sb els
    | _, _ => false
    end
  end.
Lemma confb_sound : forall m n, confb m n = true -> conf m n.
Proof.
  intros m. meta_induction m.
  assert (Hs : forall nm' e, match e with
      | NStruct fs => forallb (fun c => match alookup (mname c) fs with Some ch => confb c ch | None => true end) cs
                      && forallb (fun k => existsb (str_eqb k) (map mname cs)) (akeys fs) && nodupb (akeys fs)
      | _ => false end = true -> conf (Meta nm' KStruct cs) e).
  { intros nm' [fs|?|?] H; try discriminate. apply andb_true_iff in H as (H & H3). apply andb_true_iff in H as (H1 & H2). constructor.
    - intros c ch Hc E. rewrite forallb_forall in H1. specialize (H1 c Hc). rewrite E in H1. apply IH; auto.
    - intros x Hx. rewrite forallb_forall in H2. specialize (H2 x Hx). apply existsb_exists in H2 as (y & Hy & Ey).
      apply str_eqb_eq in Ey. subst. auto.
    - apply nodupb_sound; auto. }
  intros x H. cbn [confb] in H. destruct k as [| |dt nd].
  - destruct x; try discriminate. apply Hs. exact H.
  - destruct x as [|els|]; try discriminate. constructor. intros e He. rewrite forallb_forall in H. apply Hs. apply H. auto.
  - destruct x as [| |[v|]]; try discriminate; constructor. apply val_okb_sound. auto.
Qed.

Ltac by_check := first
  [ apply wf_metab_sound; vm_compute; reflexivity
  | apply confb_sound; vm_compute; reflexivity
  | apply str_okb_sound; vm_compute; reflexivity ].
