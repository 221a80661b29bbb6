(** Reading with conversion, variable by variable, next to reading without. *)
From Verif Require Import Base PathSpec TreeModel TreeSpec TreeProofs ValProofs StoreProofs2 ConvSpec ConvProofs3 NcMetaModel NcMetaSpec NcMetaProofs2
  NcFileModel NcFileSpec NcFileProofs NcFileProofs2 NcFileProofs3 NcFileProofs4 NcFileProofs6 NcConvModel NcConvSpec NcConvProofs NcConvProofs2.
From Verif Require ConvProofs4.
From Verif Require VmapModel.
From Coq Require Import Lia Permutation.
Import VmapModel(nmap).

Lemma indices_length : forall sh, length (indices sh) = prod sh.
Proof. intros sh. rewrite <- (map_length (ravel sh)), ravel_indices, seq_length. reflexivity. Qed.
Lemma build_val_ok : forall dt nd sh f, length sh = nd -> (dt = STR -> nd <= 1) -> val_ok dt nd (build dt nd sh f).
Proof.
  intros dt nd sh f L ST. destruct nd as [|nd]; cbn [build].
  - destruct dt; constructor.
  - assert (NE : sh <> []) by (destruct sh; discriminate). rewrite <- L. destruct dt.
    + specialize (ST eq_refl). assert (length sh = 1) by lia. rewrite H. constructor.
    + constructor; auto. now rewrite map_length, indices_length.
    + constructor; auto. now rewrite map_length, indices_length.
    + constructor; auto. now rewrite map_length, indices_length.
Qed.
Lemma name_noslash : forall s, is_name s -> ~ In "/"%char s.
Proof.
  intros s (x & t & -> & L & N & _) [E|I].
  - subst x. discriminate.
  - apply N in I. destruct I as [I|[I|I]]; discriminate.
Qed.
Lemma Forall2_nth : forall A B (R : A -> B -> Prop) l l', Forall2 R l l' -> forall j b, nth_error l' j = Some b -> exists a, nth_error l j = Some a /\ R a b.
Proof. intros A B R l l' H. induction H as [|x y l l' Rxy H IH]; intros [|j] b N; try discriminate; cbn in N; [inversion N; subst; exists x; auto|]. apply IH. exact N. Qed.
Lemma Forall2_nth_l : forall A B (R : A -> B -> Prop) l l', Forall2 R l l' -> forall j a, nth_error l j = Some a -> exists b, nth_error l' j = Some b /\ R a b.
Proof. intros A B R l l' H. induction H as [|x y l l' Rxy H IH]; intros [|j] b N; try discriminate; cbn in N; [inversion N; subst; exists y; auto|]. apply IH. exact N. Qed.

Lemma Forall2_len : forall A B (R : A -> B -> Prop) l l', Forall2 R l l' -> length l = length l'.
Proof. intros A B R l l' H. induction H; cbn; auto. Qed.

Notation pv := vpath.
Section Sim.
Variables (at_ : path -> nattr) (fuel : nat) (m : meta) (r : ncmeta) (m' : meta) (rm : nmap) (cast : meta -> value -> result fexn value) (g : group) (h : bool).
Hypothesis W : wf_meta m.
Hypothesis W' : wf_meta m'.
Hypothesis K : mkind m = KStruct.
Hypothesis K' : mkind m' = KStruct.
Hypothesis R : nc_metadata at_ fuel m = Ok r.
Hypothesis NO : names_ok m.
Hypothesis ND : NoDup (map v_name (g_vars g)).
Hypothesis F : fits m m' rm.
Hypothesis ST : forall p c nd, at_path m p c -> mkind c = KLeaf STR nd -> nd <= 1.
Hypothesis CAST : forall c dt nd v, mkind c = KLeaf dt nd -> val_ok dt nd v -> cast c v = Ok v.
Hypothesis HANDLED : forall v c, In v (g_vars g) -> at_path m (pv v) c -> mkind c <> KStruct -> skipped rm (pv v) \/ kept rm (pv v).
Hypothesis DIMS : forall v c dt nd, In v (g_vars g) -> at_path m (pv v) c -> mkind c = KLeaf dt nd -> v_dims v = get_dimensions r h (pv v).

Lemma kept_up : forall a b, kept rm (a ++ b) -> kept rm a.
Proof.
  intros a b [R1 R2]. split; intros (x & y & E & NX & H); [apply R1|apply R2]; exists x, (y ++ b); rewrite E, <- app_assoc; auto.
Qed.
(** a path that is kept *)
Lemma kept_target : forall p c, at_path m p c -> p <> [] -> mkind c <> KStruct -> kept rm p ->
  exists q mt fl, target_of m m' rm p = Ok (Some fl) /\ map fst fl = q /\ q <> [] /\ mapped rm p q /\ at_path m' q mt /\ mkind mt = mkind c /\
    Forall2 (mapped rm) (arrays m [] p) (arrays m' [] q) /\ flags_ok (mchildren m') fl.
Proof.
  intros p c A NP KC [NR NU].
  destruct (ft_target _ _ _ F p c A NP NR (ConvProofs4.not_ruled_above rm p NU) (or_introl KC)) as (q & mt & MP & NQ & AQ & EK & FA).
  assert (RA : ~ rule_at rm p) by (apply (ConvProofs4.not_ruled_at rm p NU NP)).
  assert (NT : alookup (slash_path p) (VmapModel.m_type rm) = None) by (destruct (alookup (slash_path p) (VmapModel.m_type rm)) eqn:E; auto; exfalso; apply RA; left; unfold slashed; unfold slash_path in E; congruence).
  pose proof (ft_names_t _ _ _ F q mt AQ) as NMQ.
  destruct MP as [MP|(MP & E)].
  - exists q, mt, (combine q (aos_flags m' q)). unfold target_of. unfold ConvSpec.entry, slashed in MP. unfold slash_path. rewrite MP.
    assert (SP : split_on "/"%char (join_with "/"%char q) = q). { apply split_join; auto. intros x I. rewrite Forall_forall in NMQ. apply name_noslash, NMQ, I. }
    rewrite SP. rewrite (proj2 (meta_at_path q m' mt W') AQ). split; [reflexivity|]. split; [apply names_flags|]. split; [exact NQ|]. split; [left; exact MP|]. split; [exact AQ|]. split; [auto|]. split; [exact FA|].
    eapply (flags_same q m' m' []); eauto.
  - subst q. exists p, mt, (combine p (aos_flags m p)). unfold target_of. rewrite NT. unfold ConvSpec.entry, slashed in MP. unfold slash_path at 1. rewrite MP. split; [reflexivity|]. split; [apply names_flags|]. split; [exact NP|].
    split; [right; split; auto|]. split; [exact AQ|]. split; [auto|]. split; [exact FA|]. eapply (flags_same p m m' []); eauto.
    assert (PL : forall a b, p = a ++ b -> a <> [] -> ConvSpec.entry rm a = None). { apply (ft_plain _ _ _ F p c A NR (ConvProofs4.not_ruled_above rm p NU) (or_introl KC)). exact MP. }
    assert (EQ : forall L L', Forall2 (mapped rm) L L' -> (forall a, In a L -> exists b, p = a ++ b /\ a <> []) -> L = L').
    { intros L L' H. induction H as [|a a' L L' M H IH]; intros HP; auto. f_equal; [|apply IH; intros; apply HP; now right]. destruct (HP a (or_introl eq_refl)) as (b & E1 & E2). destruct M as [M|(_ & M)]; auto. rewrite (PL a b E1 E2) in M. discriminate. }
    apply EQ; auto. intros a I. apply (arrays_in p m [] c a W A) in I. destruct I as (a0 & b & ca & -> & E1 & N1 & _). cbn. eauto.
Qed.

Definition tgt (v : ncvar) : option path :=
  match var_meta m (v_name v) with
  | Some (p, c) => match mkind c with KStruct => None | _ => match target_of m m' rm p with Ok (Some fl) => Some (map fst fl) | _ => None end end
  | None => None
  end.
Definition path_dec : forall a b : path, {a = b} + {a <> b} := list_eq_dec str_dec.
Definition goes (q : path) (v : ncvar) : bool := match tgt v with Some q' => if path_dec q' q then true else false | None => false end.
Definition src (vs : list ncvar) (q : path) : option ncvar := List.find (goes q) vs.
Lemma goes_iff : forall q v, goes q v = true <-> tgt v = Some q.
Proof. intros q v. unfold goes. destruct (tgt v) as [q'|]; [|split; discriminate]. destruct (path_dec q' q) as [->|N]; split; auto; try discriminate. intros E. congruence. Qed.

(** what the target of a variable tells *)
Lemma tgt_some : forall v q, In v (g_vars g) -> tgt v = Some q ->
  exists c c', at_path m (pv v) c /\ mkind c <> KStruct /\ kept rm (pv v) /\ mapped rm (pv v) q /\ at_path m' q c' /\ mkind c' = mkind c /\ Forall2 (mapped rm) (arrays m [] (pv v)) (arrays m' [] q).
Proof.
  intros v q I T. unfold tgt, var_meta in T. fold (pv v) in T. destruct (meta_at m (pv v)) as [c|] eqn:M; [|discriminate]. cbn [option_map] in T. apply meta_at_path in M; auto.
  assert (KC : mkind c <> KStruct) by (intros E; rewrite E in T; discriminate).
  assert (T' : match target_of m m' rm (pv v) with Ok (Some fl) => Some (map fst fl) | _ => None end = Some q) by (destruct (mkind c); [congruence|exact T|exact T]). clear T.
  destruct (HANDLED v c I M KC) as [SK|KP].
  - exfalso. unfold target_of, slash_path in T'. unfold skipped, ConvSpec.entry, slashed in SK. destruct SK as [SK|(SK & TY)]; rewrite SK in T'; [discriminate|].
    destruct (alookup (join_with "/"%char (pv v)) (VmapModel.m_type rm)); [discriminate|congruence].
  - destruct (kept_target (pv v) c M (split_on_nonnil _ _) KC KP) as (q' & mt & fl & T & E & NQ & MP & AQ & EK & FA & FO). rewrite T, E in T'. assert (q' = q) by congruence. clear T' E. subst q'. exists c, mt. split; [exact M|]. split; [exact KC|]. split; [exact KP|]. split; [exact MP|]. split; [exact AQ|]. split; [exact EK|exact FA].
Qed.
Lemma tgt_kept : forall v c q c', In v (g_vars g) -> at_path m (pv v) c -> mkind c <> KStruct -> kept rm (pv v) -> mapped rm (pv v) q -> at_path m' q c' -> tgt v = Some q.
Proof.
  intros v c q c' I A KC KP MP AQ. destruct (kept_target (pv v) c A (split_on_nonnil _ _) KC KP) as (q' & mt & fl & T & E & NQ & MP' & AQ' & _).
  unfold tgt, var_meta. fold (pv v). rewrite (proj2 (meta_at_path (pv v) m c W) A). cbn [option_map]. rewrite T, E.
  assert (EQ : q' = q) by (eapply ConvProofs4.mapped_fun; eauto). rewrite EQ. destruct (mkind c); [congruence|reflexivity|reflexivity].
Qed.
Lemma pv_dotted : forall v, dotted (pv v) = v_name v. Proof. intros v. apply dotted_split. Qed.
Lemma pv_nodots : forall p c, at_path m p c -> p <> [] -> split_on "."%char (dotted p) = p.
Proof.
  intros p c A N. apply meta_at_path in A; auto. destruct (meta_at_below p m [] None 0 c W N A) as (a & n & B). cbn in B. exact (var_path m W NO p c a n B).
Qed.

(** the variable whose target is the counterpart of p *)
Lemma src_var : forall vs p c q c', incl vs (g_vars g) -> at_path m p c -> p <> [] -> mkind c <> KStruct -> kept rm p -> mapped rm p q -> at_path m' q c' ->
  src vs q = in_vars vs (dotted p).
Proof.
  intros vs p c q c' IN A NP KC KP MP AQ. unfold src, in_vars. induction vs as [|v vs IH]; auto. cbn [List.find]. rewrite IH by (intros x X; apply IN; now right).
  assert (Iv : In v (g_vars g)) by (apply IN; now left).
  destruct (goes q v) eqn:G.
  - apply goes_iff in G. destruct (tgt_some v q Iv G) as (cv & cv' & Av & KV & KPv & MPv & _). destruct KPv as [R1 R2]. destruct KP as [R3 R4].
    assert (E : pv v = p) by (apply (ft_inj _ _ _ F (pv v) p cv c q); auto). rewrite <- E, pv_dotted, str_eqb_refl. reflexivity.
  - destruct (str_eqb (v_name v) (dotted p)) eqn:E; auto. exfalso. apply str_eqb_eq in E. assert (EP : pv v = p) by (unfold pv; rewrite E; eapply pv_nodots; eauto).
    subst p. assert (T : tgt v = Some q) by (eapply tgt_kept; eauto). apply goes_iff in T. congruence.
Qed.
Lemma src_some : forall vs q v, src vs q = Some v -> In v vs /\ tgt v = Some q.
Proof. intros vs q v H. apply find_some in H. destruct H as [I G]. apply goes_iff in G. auto. Qed.
Lemma src_app : forall vs v q, src (vs ++ [v]) q = match src vs q with Some x => Some x | None => if goes q v then Some v else None end.
Proof. intros vs v q. unfold src. induction vs as [|x vs IH]; cbn; [destruct (goes q v); auto|]. destruct (goes q x); auto. Qed.

Definition val' (vs : list ncvar) (q : path) (dt : dtype) (nd : nat) (idx : list nat) : option value :=
  match src vs q with Some v => match leaf_value g v dt nd idx with Ok x => x | Err _ => None end | None => None end.
Definition size' (vs : list ncvar) (q : path) (idx : list nat) : nat :=
  match src vs q with Some v => match aos_size r g h v (pv v) idx with Ok k => k | Err _ => 0 end | None => 0 end.

Lemma val_eq : forall vs p c q c' dt nd idx, incl vs (g_vars g) -> at_path m p c -> p <> [] -> mkind c <> KStruct -> kept rm p -> mapped rm p q -> at_path m' q c' ->
  val' vs q dt nd idx = val_at g vs p dt nd idx.
Proof. intros. unfold val', val_at. now rewrite (src_var vs p c q c'). Qed.
Lemma size_eq : forall vs p c q c' idx, incl vs (g_vars g) -> at_path m p c -> p <> [] -> mkind c <> KStruct -> kept rm p -> mapped rm p q -> at_path m' q c' ->
  size' vs q idx = size_at r g h vs p idx.
Proof.
  intros vs p c q c' idx IN A NP KC KP MP AQ. unfold size', size_at. rewrite (src_var vs p c q c'); auto. destruct (in_vars vs (dotted p)) as [v|] eqn:E; auto.
  apply in_vars_some in E. destruct E as [_ E]. assert (EP : pv v = p) by (unfold pv; rewrite E; eapply pv_nodots; eauto). now rewrite EP.
Qed.

(** locations of a path and of its target *)
Lemma sizes_match : forall vs p c q c' idx s t cs ct, incl vs (g_vars g) -> at_path m p c -> mkind c <> KStruct -> kept rm p -> at_path m' q c' ->
  Forall2 (mapped rm) (arrays m [] p) (arrays m' [] q) -> loc_ok m s cs -> loc_ok m' t ct -> ~ is_elem s -> ~ is_elem t -> loc_names s = p -> loc_names t = q -> loc_idx s = idx -> loc_idx t = idx ->
  (in_sizes (size_at r g h vs) [] [] s <-> in_sizes (size' vs) [] [] t).
Proof.
  intros vs p c q c' idx s t cs ct IN A KC KP AQ FA Ls Lt Es Et Ns Nt Is It.
  rewrite (in_sizes_arrays (size_at r g h vs) m s cs W K Ls Es), (in_sizes_arrays (size' vs) m' t ct W' K' Lt Et). rewrite Ns, Nt, Is, It.
  assert (EQ : forall j a a', nth_error (arrays m [] p) j = Some a -> nth_error (arrays m' [] q) j = Some a' -> mapped rm a a' -> forall ix, size' vs a' ix = size_at r g h vs a ix).
  { intros j a a' N1 N2 M ix. apply nth_error_In in N1, N2. apply (arrays_in p m [] c a W A) in N1. apply (arrays_in q m' [] c' a' W' AQ) in N2. cbn [app] in N1, N2.
    destruct N1 as (a0 & b & ca & -> & E1 & NA & NB & AA & KA). destruct N2 as (a1 & b1 & ca' & -> & _ & _ & _ & AA' & _).
    apply (size_eq vs a0 ca a1 ca'); auto; [congruence|]. rewrite E1 in KP. eapply kept_up; eauto. }
  split; intros H j a i N1 N2.
  - destruct (Forall2_nth _ _ _ _ _ FA j a N1) as (a0 & A0 & M). rewrite (EQ j a0 a A0 N1 M). eapply H; eauto.
  - destruct (Forall2_nth_l _ _ _ _ _ FA j a N1) as (a0 & A0 & M). rewrite <- (EQ j a a0 N1 A0 M). eapply H; eauto.
Qed.

Definition reads' (vs : list ncvar) (fs : fields) : Prop := forall c, In c (mchildren m') -> same c (field c fs) (gen (val' vs) (size' vs) c [mname c] []).
Lemma reads_nil' : reads' [] [].
Proof. intros c I. change (field c []) with (new_node c). apply gen_empty; auto. eapply wf_child; eauto. Qed.
Lemma reads_ext' : forall vs vs' fs, (forall q, src vs q = src vs' q) -> reads' vs fs -> reads' vs' fs.
Proof.
  intros vs vs' fs E H c I. specialize (H c I).
  assert (X : forall c p idx, gen (val' vs') (size' vs') c p idx = gen (val' vs) (size' vs) c p idx).
  { clear - E. induction c as [nm k cs IH] using meta_ind'. intros p idx. cbn [gen].
    assert (B : forall idx, map (fun d => (mname d, gen (val' vs') (size' vs') d (p ++ [mname d]) idx)) cs = map (fun d => (mname d, gen (val' vs) (size' vs) d (p ++ [mname d]) idx)) cs).
    { intros idx'. apply map_ext_in. intros d I. f_equal. now apply IH. }
    destruct k; [now rewrite B| |unfold val'; now rewrite E]. assert (Z : size' vs' p idx = size' vs p idx) by (unfold size'; now rewrite E). rewrite Z. f_equal. apply map_ext. intros i. now rewrite B. }
  now rewrite X.
Qed.
Lemma meta_root : forall q, meta_at (Meta [] KStruct (mchildren m')) q = match q with [] => Some (Meta [] KStruct (mchildren m')) | _ => meta_at m' q end.
Proof. intros [|x q]; reflexivity. Qed.
Lemma loc_root : forall mm l c, wf_meta mm -> mkind mm = KStruct -> loc_names l <> [] -> loc_ok (Meta [] KStruct (mchildren mm)) l c <-> loc_ok mm l c.
Proof. intros [nm k cs] l c _ E N. cbn in E. subst k. cbn [mchildren]. split; apply loc_ok_name; exact N. Qed.

Lemma conv_step : forall done v rest fs fs1 fs', sorted_vars g = done ++ v :: rest -> reads m r g h done fs -> reads' done fs' -> read_var m r g h v fs = Ok fs1 ->
  exists fs1', conv_var m r m' rm cast g h v fs' = Ok fs1' /\ reads' (done ++ [v]) fs1'.
Proof.
  intros done v rest fs fs1 fs' E RS RT RV.
  assert (IN : incl (done ++ [v]) (g_vars g)). { intros x X. apply (Permutation_in _ (sorted_perm g)). rewrite E. apply in_app_or in X. apply in_or_app. destruct X as [X|[<-|[]]]; [now left|right; now left]. }
  assert (Iv : In v (g_vars g)) by (apply IN, in_or_app; right; now left).
  assert (IND : incl done (g_vars g)) by (intros x X; apply IN, in_or_app; now left).
  assert (NEW : ~ In (v_name v) (map v_name done)). { pose proof (sorted_nodup g ND) as N. rewrite E, map_app in N. apply NoDup_remove_2 in N. intros Q. apply N. apply in_or_app. now left. }
  unfold read_var, var_meta in RV. unfold conv_var, var_meta. fold (pv v) in *. destruct (meta_at m (pv v)) as [c|] eqn:M; [|discriminate]. cbn [option_map] in *.
  pose proof M as A. apply meta_at_path in A; auto.
  assert (SAME : tgt v = None -> reads' (done ++ [v]) fs').
  { intros T. apply (reads_ext' done); auto. intros q. rewrite src_app. destruct (src done q); auto. unfold goes. now rewrite T. }
  destruct (match mkind c with KStruct => true | _ => false end) eqn:IS.
  { destruct (mkind c) eqn:KC; try discriminate. exists fs'. split; auto. apply SAME. unfold tgt, var_meta. fold (pv v). rewrite M. cbn [option_map]. now rewrite KC. }
  assert (KC : mkind c <> KStruct) by (destruct (mkind c); congruence).
  assert (U : update_at (mchildren m) fs (pv v) [] FKey (read_node r g h v (pv v)) = Ok fs1) by (destruct (mkind c); [congruence|exact RV|exact RV]). clear RV IS.
  destruct (HANDLED v c Iv A KC) as [SK|KP].
  { assert (T : target_of m m' rm (pv v) = Ok None). { unfold target_of, slash_path. unfold skipped, ConvSpec.entry, slashed in SK. destruct SK as [SK|(SK & TY)]; rewrite SK; auto. destruct (alookup (join_with "/"%char (pv v)) (VmapModel.m_type rm)); [reflexivity|congruence]. }
    exists fs'. split.
    - destruct (mkind c); [congruence| |]; rewrite T; reflexivity.
    - apply SAME. unfold tgt, var_meta. fold (pv v). rewrite M. cbn [option_map]. rewrite T. destruct (mkind c); reflexivity. }
  destruct (kept_target (pv v) c A (split_on_nonnil _ _) KC KP) as (q & c' & fl & T & EF & NQ & MP & AQ & EK & FA & FO).
  assert (TG : tgt v = Some q) by (eapply tgt_kept; eauto).
  assert (SQ : src done q = None). { rewrite (src_var done (pv v) c q c'); auto; [|apply split_on_nonnil]. apply in_vars_none. now rewrite pv_dotted. }
  assert (SQ' : src (done ++ [v]) q = Some v) by (rewrite src_app, SQ; now rewrite (proj2 (goes_iff q v) TG)).
  assert (SO : forall q2, q2 <> q -> src (done ++ [v]) q2 = src done q2). { intros q2 N. rewrite src_app. destruct (src done q2); auto. destruct (goes q2 v) eqn:G; auto. apply goes_iff in G. congruence. }
  (* the index of a node that is reached, in the file *)
  assert (IDX : forall l, loc_ok m' l c' -> loc_names l = q -> ~ is_elem l -> in_sizes (size' done) [] [] l -> length (loc_idx l) = length (arrays m [] (pv v)) /\ exists n x, read_node r g h v (pv v) (loc_idx l) c n = Ok x).
  { intros l L N NE IS. assert (LL : length (loc_idx l) = length (arrays m [] (pv v))). { rewrite (Forall2_len _ _ _ _ _ FA). rewrite <- N, (arrays_root m' l c' W' K' L NE). rewrite map_length. symmetry. apply befores_len. }
    split; auto. destruct (make_loc (pv v) m [] c (loc_idx l) W K A LL) as (s & S1 & S2 & S3 & S4).
    assert (IS2 : in_sizes (size_at r g h done) [] [] s) by (apply (sizes_match done (pv v) c q c' (loc_idx l) s l c c'); auto).
    rewrite <- S3. apply (update_inv (val_at g done) (size_at r g h done) (read_node r g h v (pv v)) c (pv v) (mchildren m) fs [] [] fs1); auto.
    - apply wf_nodup; auto.
    - intros d Id. exact (wf_child m d W Id).
    - intros d Id. cbn [app]. rewrite <- den_gen. apply RS. exact Id.
    - apply (proj2 (loc_root m s c W K ltac:(rewrite S2; apply split_on_nonnil))). exact S1.
    - intros ->. cbn in S2. symmetry in S2. exact (split_on_nonnil _ _ S2). }
  assert (LEN : forall dt nd, mkind c = KLeaf dt nd -> length (v_dims v) = length (arrays m [] (pv v)) + nd /\ (pget (pv v) (nc_aos r) = None <-> arrays m [] (pv v) = [])).
  { intros dt nd KL. destruct (meta_at_below (pv v) m [] None 0 c W (split_on_nonnil _ _) M) as (a & n & B). cbn [app] in B. rewrite (DIMS v c dt nd Iv A KL), (dims_length at_ fuel m r W R h (pv v) c a n B KC), (aos_at_path at_ fuel m r W R (pv v) c a n B).
    destruct (arrays_below _ _ _ _ _ _ _ _ B W) as (t & Et & _ & _ & En & E1 & E2). cbn [app] in Et. rewrite <- Et in *. unfold ndim. rewrite KL. split; [lia|].
    split; [|auto]. intros ->. destruct (arrays m [] (pv v)); auto. exfalso. apply E2; [discriminate|reflexivity]. }
  assert (VL : forall dt nd l, mkind c = KLeaf dt nd -> length (loc_idx l) = length (arrays m [] (pv v)) -> conv_value g v dt nd (loc_idx l) = leaf_value g v dt nd (loc_idx l)).
  { intros dt nd l KL LL. unfold conv_value. destruct (LEN dt nd KL) as [LD _]. replace (length (v_dims v) - nd) with (length (loc_idx l)) by lia. now rewrite Nat.eqb_refl. }
  (* one node *)
  assert (GO : forall (f : list nat -> meta -> node -> result fexn node) fl2, map fst fl2 = q -> flags_ok (mchildren m') fl2 ->
    (forall l n, loc_ok m' l c' -> loc_names l = q -> ~ is_elem l -> in_sizes (size' done) [] [] l -> same c' n (gen (val' done) (size' done) c' q (loc_idx l)) ->
       exists n', f (loc_idx l) c' n = Ok n' /\ same c' n' (gen (val' (done ++ [v])) (size' (done ++ [v])) c' q (loc_idx l))) ->
    exists fs1', update_split (mchildren m') fs' fl2 [] f = Ok fs1' /\ reads' (done ++ [v]) fs1').
  { intros f fl2 EF2 FO2 HF. destruct (update_gen (val' done) (val' (done ++ [v])) (size' done) (size' (done ++ [v])) q) with (f := f) (c0 := c') (p := fl2) (cs := mchildren m') (fs := fs') (idx := @nil nat) (names := @nil str) as (fs1' & U1 & U2); auto.
    - intros q2 dt nd ix N. unfold val'. now rewrite SO.
    - intros q2 ix N. unfold size'. now rewrite SO.
    - apply wf_nodup; auto.
    - intros d Id. exact (wf_child m' d W' Id).
    - intros ->. cbn in EF2. congruence.
    - rewrite EF2, meta_root. destruct q as [|x q']; [congruence|]. now apply meta_at_path.
    - intros l n L1 L2 L3 L4 L5. cbn [app] in *. apply HF; auto; [|congruence]. apply (proj1 (loc_root m' l c' W' K' ltac:(rewrite L2, EF2; exact NQ))). exact L1.
    - exists fs1'. split; auto. }
  destruct c' as [cn' ck' cc']. cbn [mkind] in EK.
  assert (CONV : mkind c = KAoS \/ (exists dt nd, mkind c = KLeaf dt nd) -> exists fs1', update_split (mchildren m') fs' fl [] (conv_node r g h v (pv v) c) = Ok fs1' /\ reads' (done ++ [v]) fs1').
  { intros KK. apply GO; auto. intros l n L1 L2 L3 L4 SN. destruct (IDX l L1 L2 L3 L4) as (LL & n0 & x0 & RN). unfold conv_node. unfold read_node in RN. assert (MK : mkind (Meta cn' ck' cc') = mkind c) by exact EK. rewrite MK.
    destruct KK as [KA|(dt & nd & KL)].
    - rewrite KA in RN |- *. destruct (aos_size r g h v (pv v) (loc_idx l)) as [k|e] eqn:Z; [|discriminate]. cbn [rbind]. eexists. split; [reflexivity|]. rewrite EK, KA. cbn [gen]. unfold size' at 2. rewrite SQ', Z.
      constructor; [now rewrite repeat_length, map_length, seq_length|]. intros i a b NA NB. apply nth_error_In in NA. apply repeat_spec in NA. subst a.
      rewrite nth_error_map in NB. destruct (nth_error (seq 0 k) i) as [j|]; [|discriminate]. cbn in NB. inversion NB; subst b. constructor. intros d Id.
      assert (Wc : wf_meta (Meta cn' ck' cc')) by (eapply at_path_wf; eauto). pose proof (wf_nodup _ Wc) as NDc. pose proof (fun d => wf_child _ d Wc) as WCc. cbn [mchildren] in NDc, WCc.
      change (map _ cc') with (gen_fields (val' (done ++ [v])) (size' (done ++ [v])) cc' (q) (loc_idx l ++ [j])). rewrite gen_field by auto. change (field d []) with (new_node d).
      assert (LATE : forall t, src (done ++ [v]) ((q ++ [mname d]) ++ t) = None).
      { intros t. rewrite SO by (intros Q; rewrite <- app_assoc in Q; rewrite <- (app_nil_r (q)) in Q at 2; apply app_inv_head in Q; discriminate).
        destruct (src done ((q ++ [mname d]) ++ t)) as [w|] eqn:SW; auto. exfalso. apply src_some in SW. destruct SW as [Iw TW].
        destruct (tgt_some w _ (IND w Iw) TW) as (cw & cw' & Aw & KW & KPw & MPw & AQw & EKw & FAw).
        assert (Q : In (q) (arrays m' [] ((q ++ [mname d]) ++ t))).
        { apply (arrays_in _ m' [] cw' _ W' AQw). exists (q), ([mname d] ++ t), (Meta cn' ck' cc'). rewrite <- app_assoc. cbn [app]. split; [reflexivity|]. split; [reflexivity|]. split; [exact NQ|]. split; [discriminate|]. split; [exact AQ|]. cbn [mkind]. congruence. }
        apply In_nth_error in Q. destruct Q as [j0 Q]. destruct (Forall2_nth _ _ _ _ _ FAw j0 _ Q) as (a & Na & Ma). apply nth_error_In in Na. apply (arrays_in _ m [] cw _ W Aw) in Na.
        destruct Na as (a0 & b & ca & -> & E1 & NA & NB1 & AA & KAA). cbn [app] in *. rewrite E1 in KPw. pose proof (kept_up _ _ KPw) as [R1 R2]. destruct KP as [R3 R4].
        assert (a0 = pv v) by (apply (ft_inj _ _ _ F a0 (pv v) ca c (q)); auto; congruence). subst a0.
        pose proof (late g ND done v rest b E NB1) as LT. fold (pv v) in LT. rewrite <- E1, pv_dotted in LT. apply in_vars_none in LT. apply LT. now apply List.in_map. }
      apply gen_empty; auto.
      + intros t dt nd ix. unfold val'. now rewrite LATE.
      + intros t ix. unfold size'. now rewrite LATE.
    - rewrite KL in RN |- *. destruct (leaf_value g v dt nd (loc_idx l)) as [o|e] eqn:Z; [|discriminate]. rewrite (VL dt nd l KL LL), Z. cbn [rbind]. eexists. split; [reflexivity|].
      assert (E1 : gen (val' (done ++ [v])) (size' (done ++ [v])) (Meta cn' ck' cc') q (loc_idx l) = NLeaf o) by (rewrite EK, KL; cbn [gen]; unfold val'; rewrite SQ', Z; reflexivity).
      assert (E2 : gen (val' done) (size' done) (Meta cn' ck' cc') q (loc_idx l) = NLeaf None) by (rewrite EK, KL; cbn [gen]; unfold val'; rewrite SQ; reflexivity).
      rewrite E1. rewrite E2 in SN. rewrite EK, KL in SN |- *. inversion SN; subst. destruct o; constructor. }
  destruct (mkind c) as [| |dt nd] eqn:KL; [congruence| |].
  - rewrite T. cbn [rbind]. apply CONV. now left.
  - rewrite T. cbn [rbind]. destruct (v_sparse v) eqn:SP; [apply CONV; eauto|]. destruct (pget (pv v) (nc_aos r)) as [a|] eqn:PA; [apply CONV; eauto|].
    destruct (LEN dt nd eq_refl) as [LD AN]. assert (AR : arrays m [] (pv v) = []) by (apply AN; reflexivity). rewrite AR in FA. assert (AR' : arrays m' [] q = []) by (inversion FA; auto).
    apply GO.
    + rewrite map_map. cbn [fst]. exact EF.
    + rewrite (flags_map fl (combine q (aos_flags m' q))) by (rewrite names_flags; exact EF). eapply flags_none; eauto.
    + intros l n L1 L2 L3 L4 SN. destruct (IDX l L1 L2 L3 L4) as (LL & n0 & x0 & RN). unfold set_node. unfold read_node in RN. rewrite KL in RN.
      destruct (leaf_value g v dt nd (loc_idx l)) as [o|e] eqn:Z; [|discriminate]. rewrite (VL dt nd l eq_refl LL), Z. cbn [rbind].
      assert (E1 : gen (val' (done ++ [v])) (size' (done ++ [v])) (Meta cn' ck' cc') q (loc_idx l) = NLeaf o) by (rewrite EK; cbn [gen]; unfold val'; rewrite SQ', Z; reflexivity).
      assert (E2 : gen (val' done) (size' done) (Meta cn' ck' cc') q (loc_idx l) = NLeaf None) by (rewrite EK; cbn [gen]; unfold val'; rewrite SQ; reflexivity).
      rewrite E1. rewrite E2 in SN. rewrite EK in SN |- *. inversion SN; subst. destruct o as [y|]; [|eexists; split; [reflexivity|constructor]].
      rewrite AR in LL. assert (IX : loc_idx l = []) by (destruct (loc_idx l); [reflexivity|discriminate]). rewrite IX in Z. unfold leaf_value, var_sizes in Z.
      destruct (sizes FKey (g_sizes g) (v_dims v)) as [sh|e] eqn:SZ; [|discriminate]. cbn [rbind] in Z. rewrite SP in Z. destruct (index_ok sh []); [|discriminate]. inversion Z. clear Z. cbn [length skipn] in *. subst y.
      rewrite (CAST _ dt nd).
      * cbn [rbind]. eexists. split; [reflexivity|constructor].
      * reflexivity.
      * apply build_val_ok; [|intros ->; eapply ST; eauto]. rewrite (sizes_length _ _ _ _ _ SZ), LD, AR. reflexivity.
Qed.
Lemma conv_all : forall rest done fs fs1 fs', sorted_vars g = done ++ rest -> reads m r g h done fs -> reads' done fs' -> read_vars m r g h rest fs = Ok fs1 ->
  exists fs1', conv_vars m r m' rm cast g h rest fs' = Ok fs1' /\ reads' (sorted_vars g) fs1'.
Proof.
  induction rest as [|v rest IH]; intros done fs fs1 fs' E RS RT H; cbn [read_vars] in H; cbn [conv_vars].
  - exists fs'. split; auto. rewrite E, app_nil_r. exact RT.
  - destruct (read_var m r g h v fs) as [fs2|e] eqn:V; [|discriminate]. cbn [rbind] in H. destruct (conv_step done v rest fs fs2 fs' E RS RT V) as (fs2' & C & RT2). rewrite C. cbn [rbind].
    apply (IH (done ++ [v]) fs2 fs1 fs2'); auto; [now rewrite <- app_assoc|]. eapply read_var_step; eauto. eapply clean_m; eauto.
Qed.
End Sim.
