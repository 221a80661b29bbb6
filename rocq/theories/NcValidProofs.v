(** What is accepted can be read, and what is read. *)
From Verif Require Import Base TreeModel TreeSpec TreeProofs ValProofs StoreProofs2 ConvSpec ConvProofs3 NcMetaModel NcMetaSpec NcMetaProofs NcMetaProofs2 NcMetaProofs3 NcMetaProofs4 NcFileModel NcFileSpec NcFileProofs NcFileProofs2 NcFileProofs3 NcFileProofs4 NcFileProofs6 NcFileProofs8 NcConvProofs NcConvProofs2 NcConvProofs3 NcValidModel NcValidSpec.
From Verif Require NcMetaProps NcFileProps.
From Coq Require Import Lia.

(** ** sizes and indices *)
Lemma sizes_total : forall (ds : list (str * nat)) dims, (forall d, In d dims -> exists k, sget d ds = Some k) -> exists A, sizes FKey ds dims = Ok A.
Proof.
  induction dims as [|d t IH]; intros H; cbn [sizes]; [eauto|]. destruct (H d (or_introl eq_refl)) as [k ->]. destruct IH as [A ->]; [intros; apply H; now right|]. cbn [rbind]. eauto.
Qed.
Lemma sizes_forall2 : forall (ds : list (str * nat)) dims A, sizes FKey ds dims = Ok A <-> Forall2 (fun d k => sget d ds = Some k) dims A.
Proof.
  induction dims as [|d t IH]; intros A; cbn [sizes].
  - split; [intros H; inversion H; constructor|intros H; inversion H; reflexivity].
  - split.
    + destruct (sget d ds) as [k|] eqn:E; [|discriminate]. destruct (sizes FKey ds t) as [B|] eqn:SB; [|discriminate]. cbn [rbind]. intros H. inversion H; subst. constructor; auto. apply IH. reflexivity.
    + intros H. inversion H as [|? k ? B E F]; subst. rewrite E. apply IH in F. rewrite F. reflexivity.
Qed.
Lemma within_sizes : forall g dims ix, within g dims ix <-> exists A, sizes FKey (g_sizes g) dims = Ok A /\ in_range A ix = true.
Proof.
  intros g. unfold within. induction dims as [|d t IH]; intros ix.
  - split; [intros H; inversion H; exists []; auto|]. intros (A & E & R). inversion E; subst. destruct ix; [constructor|discriminate].
  - split.
    + intros H. inversion H as [|? i ? ix' (k & S1 & L) F]; subst. apply IH in F. destruct F as (A & E & R). exists (k :: A). cbn [sizes]. unfold size_of in S1. rewrite S1, E. cbn [rbind in_range]. split; auto. rewrite R. apply Nat.ltb_lt in L. now rewrite L.
    + intros (A & E & R). apply sizes_forall2 in E. inversion E as [|? k ? B S1 F]; subst. destruct ix as [|i ix]; [discriminate|]. cbn [in_range] in R. apply Bool.andb_true_iff in R. destruct R as [R1 R2]. apply Nat.ltb_lt in R1.
      constructor; [exists k; auto|]. apply IH. exists B. split; auto. now apply sizes_forall2.
Qed.
Lemma forall2_firstn : forall A B (P : A -> B -> Prop) n l l', Forall2 P l l' -> Forall2 P (firstn n l) (firstn n l').
Proof. induction n as [|n IH]; intros l l' F; [constructor|]. destruct F; cbn; constructor; auto. Qed.
Lemma forall2_skipn : forall A B (P : A -> B -> Prop) n l l', Forall2 P l l' -> Forall2 P (skipn n l) (skipn n l').
Proof. induction n as [|n IH]; intros l l' F; [exact F|]. destruct F; cbn; [constructor|auto]. Qed.
Lemma index_sizes : forall g dims A ix, sizes FKey (g_sizes g) dims = Ok A -> (index_in g dims ix <-> index_ok A ix = true).
Proof.
  intros g dims A ix E. unfold index_in, index_ok. rewrite within_sizes. apply sizes_forall2 in E. apply (forall2_firstn _ _ _ (length ix)) in E. apply sizes_forall2 in E. split.
  - intros (B & SB & R). rewrite E in SB. inversion SB; subst. exact R.
  - intros R. eauto.
Qed.
Lemma index_app : forall A B ix, in_range A ix = true -> index_ok (A ++ B) ix = true.
Proof. intros A B ix R. unfold index_ok. pose proof (in_range_length _ _ R) as L. rewrite L, firstn_app, Nat.sub_diag, firstn_all, firstn_O, app_nil_r. exact R. Qed.
Lemma find_in : forall A (key : A -> str) l x, NoDup (map key l) -> In x l -> List.find (fun y => str_eqb (key y) (key x)) l = Some x.
Proof.
  induction l as [|a l IH]; intros x ND I; [destruct I|]. cbn [map] in ND. inversion ND as [|? ? NI ND']; subst. cbn [List.find]. destruct I as [-> |I]; [now rewrite str_eqb_refl|].
  destruct (str_eqb (key a) (key x)) eqn:E; [|auto]. apply str_eqb_eq in E. exfalso. apply NI. rewrite E. now apply List.in_map.
Qed.
Lemma get_var_iff : forall g nm v, netcdf g -> (get_var g nm = Some v <-> In v (g_vars g) /\ v_name v = nm).
Proof.
  intros g nm v N. unfold get_var. split.
  - intros H. apply find_some in H. destruct H as [I E]. apply str_eqb_eq in E. auto.
  - intros [I <-]. apply (find_in _ v_name); auto. apply N.
Qed.
Lemma get_shape_iff : forall g nm s, netcdf g -> (get_shape g nm = Some s <-> In s (g_shapes g) /\ s_name s = nm).
Proof.
  intros g nm v N. unfold get_shape. split.
  - intros H. apply find_some in H. destruct H as [I E]. apply str_eqb_eq in E. auto.
  - intros [I <-]. apply (find_in _ s_name); auto. apply N.
Qed.

(** ** what has been checked *)
Lemma subset_iff : forall a b, subset a b = true <-> forall x, In x a -> In x b.
Proof.
  intros a b. unfold subset. rewrite forallb_forall. split; intros H x I; specialize (H x I); [destruct (in_dec str_dec x b); [auto|discriminate]|destruct (in_dec str_dec x b); [reflexivity|contradiction]].
Qed.
Section Check.
Variables (at_ : path -> nattr) (fuel : nat) (m : meta) (r : ncmeta) (units : path -> str) (g : group).
Hypothesis W : wf_meta m.
Hypothesis R : nc_metadata at_ fuel m = Ok r.
Hypothesis N : netcdf g.

Lemma sparsity_iff : forall h v p c a n, in_ids m p c a n -> (validate_sparsity r g h v p c = Ok tt <-> (ndim c > 0 -> valid_shape r g h v a c)).
Proof.
  intros h v p c a n I. unfold validate_sparsity. destruct (ndim c) as [|nd] eqn:ND; [split; auto; intros _ Q; lia|]. unfold valid_shape. rewrite ND.
  assert (AD : aos_dims r h p = match a with Some q => get_dimensions r h q | None => [] end) by (unfold aos_dims; now rewrite (aos_at_path at_ fuel m r W R p c a n I)).
  split.
  - intros H _. destruct (get_shape g (v_name v)) as [s|] eqn:GS; [|discriminate]. apply get_shape_iff in GS; auto. destruct GS as [Is Ns].
    destruct (rev (s_dims s)) as [|d t] eqn:RV; [discriminate|]. destruct (dims_dec (rev t) (aos_dims r h p)) as [ED|]; [|discriminate]. destruct (sget d (g_sizes g)) as [k|] eqn:K; [|discriminate].
    destruct (k =? S nd) eqn:EK; [|discriminate]. destruct (s_integer s) eqn:SI; [|discriminate]. apply Nat.eqb_eq in EK. subst k.
    exists s, d. split; auto. split; auto. split; auto. split; auto. rewrite <- AD, <- ED. rewrite <- (rev_involutive (s_dims s)), RV. reflexivity.
  - intros H. destruct H as (s & d & Is & Ns & SI & SZ & SD); [lia|]. rewrite (proj2 (get_shape_iff g (v_name v) s N) (conj Is Ns)). rewrite SD, rev_app_distr. cbn [rev app]. rewrite rev_involutive, AD.
    destruct (dims_dec _ _); [|congruence]. unfold size_of in SZ. rewrite SZ. rewrite Nat.eqb_refl, SI. reflexivity.
Qed.
Lemma variable_iff : forall h v p c a n, in_ids m p c a n -> (validate_variable r units g h v p c = Ok tt <-> valid_variable r units g h v p c a).
Proof.
  intros h v p c a n I. unfold validate_variable, valid_variable, valid_attributes. pose proof (sparsity_iff h v p c a n I) as SP.
  assert (UN : match units p, v_units v with [], _ => Ok tt | u, Some w => if str_eqb u w then Ok tt else Err FInvalid | _, None => @Err fexn unit FInvalid end = Ok tt <-> (units p = [] \/ v_units v = Some (units p))).
  { destruct (units p) as [|x u] eqn:U; [split; auto|]. destruct (v_units v) as [w|]; [|split; [discriminate|intros [Q|Q]; discriminate]]. destruct (str_eqb (x :: u) w) eqn:E.
    - apply str_eqb_eq in E. subst w. split; auto.
    - split; [discriminate|]. intros [Q|Q]; [discriminate|]. injection Q as Q. subst w. rewrite str_eqb_refl in E. discriminate. }
  assert (SPB : (if v_sparse v then validate_sparsity r g h v p c else Ok tt) = Ok tt <-> (v_sparse v = true -> ndim c > 0 -> valid_shape r g h v a c)).
  { destruct (v_sparse v); [rewrite SP; tauto|split; auto; discriminate]. }
  destruct (match units p, v_units v with [], _ => Ok tt | u, Some w => if str_eqb u w then Ok tt else Err FInvalid | _, None => @Err fexn unit FInvalid end) as [[]|] eqn:EU.
  2:{ assert (NU : ~ (units p = [] \/ v_units v = Some (units p))) by (intros Q; apply UN in Q; discriminate). split; [|tauto]. intros Q. exfalso. destruct (match mkind c with KLeaf _ _ => _ | _ => _ end) in Q; discriminate. }
  destruct (if v_sparse v then validate_sparsity r g h v p c else Ok tt) as [[]|] eqn:ES.
  2:{ assert (NS : ~ (v_sparse v = true -> ndim c > 0 -> valid_shape r g h v a c)) by (intros Q; apply SPB in Q; discriminate). split; [|tauto]. intros Q. exfalso. destruct (match mkind c with KLeaf _ _ => _ | _ => _ end) in Q; discriminate. }
  assert (UU : units p = [] \/ v_units v = Some (units p)) by now apply UN. assert (SS : v_sparse v = true -> ndim c > 0 -> valid_shape r g h v a c) by now apply SPB. clear EU ES UN SPB SP.
  destruct (mkind c) as [| |dt nd] eqn:KC.
  - cbn [rbind]. destruct (v_coords v), (v_anc v), (v_extra v); split; try discriminate; auto; try (intros ((Q1 & Q2) & Q3 & _); discriminate).
  - cbn [rbind]. destruct (v_coords v), (v_anc v), (v_extra v); split; try discriminate; auto; try (intros ((Q1 & Q2) & Q3 & _); discriminate).
  - destruct (v_type v) as [t|]; [|split; [discriminate|intros ((Q & _) & _); discriminate]]. destruct (dtype_dec t dt) as [ET|NT]; [|split; [discriminate|intros ((Q & _) & _); congruence]].
    destruct (dims_dec (v_dims v) (get_dimensions r h p)) as [ED|NDm]; [|split; [discriminate|intros ((_ & Q & _) & _); congruence]].
    destruct (subset (match v_coords v with Some l => l | None => [] end) (get_coordinates r h p)) eqn:S1.
    2:{ split; [discriminate|]. intros ((_ & _ & Q & _) & _). exfalso. assert (X : subset (match v_coords v with Some l => l | None => [] end) (get_coordinates r h p) = true); [|congruence]. apply subset_iff. intros x Ix. destruct (v_coords v) as [l|]; [eauto|destruct Ix]. }
    destruct (subset (match v_anc v with Some l => l | None => [] end) [v_name v ++ upper; v_name v ++ lower]) eqn:S2.
    2:{ split; [discriminate|]. intros ((_ & _ & _ & Q) & _). exfalso. assert (X : subset (match v_anc v with Some l => l | None => [] end) [v_name v ++ upper; v_name v ++ lower] = true); [|congruence]. apply subset_iff. intros x Ix. destruct (v_anc v) as [l|]; [|destruct Ix].
        destruct (Q l x eq_refl Ix) as [-> | ->]; [now left|right; now left]. }
    cbn [rbind]. rewrite subset_iff in S1, S2. destruct (v_extra v) as [|e0 et]; [|split; [destruct (v_coords v), (v_anc v); discriminate|intros (_ & Q & _); discriminate]].
    split; [|intros _; destruct (v_coords v), (v_anc v); reflexivity]. intros _. split; [|auto]. split; [congruence|]. split; [exact ED|]. split.
    + intros l x El Ix. apply S1. rewrite El. exact Ix.
    + intros l x El Ix. specialize (S2 x). rewrite El in S2. destruct (S2 Ix) as [<- |[<- |[]]]; auto.
Qed.
Lemma all_ok_iff : forall A (f : A -> result fexn unit) l, all_ok f l = Ok tt <-> forall x, In x l -> f x = Ok tt.
Proof. intros A f l. split; [apply NcFileProps.all_ok_inv|apply all_ok_all]. Qed.
Hypothesis NO : names_ok m.
Lemma contents_iff : forall h, validate_variables m r units g h = Ok tt <-> valid_contents m r units g h.
Proof.
  intros h. unfold validate_variables, valid_contents.
  assert (S1 : all_ok (validate_shape g) (g_shapes g) = Ok tt <-> forall s, In s (g_shapes g) -> exists v, In v (g_vars g) /\ v_name v = s_name s /\ v_sparse v = true).
  { rewrite all_ok_iff. split; intros H s I; specialize (H s I); unfold validate_shape in *.
    - destruct (get_var g (s_name s)) as [v|] eqn:G; [|discriminate]. apply get_var_iff in G; auto. destruct G as [Iv E]. exists v. split; auto. split; auto. destruct (v_sparse v); [reflexivity|discriminate].
    - destruct H as (v & Iv & E & SP). rewrite (proj2 (get_var_iff g (s_name s) v N) (conj Iv E)), SP. reflexivity. }
  assert (S2 : all_ok (validate_var m r units g h) (g_vars g) = Ok tt <-> forall v, In v (g_vars g) -> exists p c a n, in_ids m p c a n /\ v_name v = dotted p /\ valid_variable r units g h v p c a).
  { rewrite all_ok_iff. split; intros H v I; specialize (H v I); unfold validate_var, var_meta in *.
    - destruct (meta_at m (split_on "."%char (v_name v))) as [c|] eqn:M; [|discriminate]. cbn [option_map] in H. destruct (NcFileProofs4.meta_at_below _ m [] None 0 c W (split_on_nonnil _ _) M) as (a & n & B). cbn [app] in B.
      exists (split_on "."%char (v_name v)), c, a, n. split; auto. split; [symmetry; apply dotted_split|]. now apply (variable_iff h v _ c a n B).
    - destruct H as (p & c & a & n & B & E & V). rewrite E, (var_path m W NO p c a n B). rewrite (meta_at_in m W p c a n B). cbn [option_map]. now apply (variable_iff h v p c a n B). }
  destruct (all_ok (validate_shape g) (g_shapes g)) as [[]|]; cbn [rbind].
  - rewrite S2. tauto.
  - split; [discriminate|]. intros [Q _]. apply S1 in Q. discriminate.
Qed.
Lemma mode_iff : forall h, read_homogeneous m r units g = Ok h <-> valid_mode m r units g h.
Proof.
  intros h. unfold read_homogeneous, valid_mode. change HOMOGENEOUS_TIME with mode_path. split.
  - destruct (get_var g (dotted mode_path)) as [v|] eqn:G; [|discriminate]. apply get_var_iff in G; auto. destruct G as [Iv E]. destruct (meta_at m mode_path) as [c|] eqn:M; [|discriminate].
    destruct (NcFileProofs4.meta_at_below mode_path m [] None 0 c W ltac:(discriminate) M) as (a & n & B). change ([] ++ mode_path) with mode_path in B.
    destruct (validate_variable r units g true v mode_path c) as [[]|] eqn:V; [|discriminate]. cbn [rbind]. destruct (v_data v []) as [s|z|f|x y] eqn:D; try discriminate. intros H.
    destruct ((z =? 0) || (z =? 1) || (z =? 2))%Z eqn:Z; [|discriminate]. exists v, c, a, n, z. split; auto. split; auto. split; auto. split; [now apply (variable_iff true v mode_path c a n B)|]. split; auto. injection H as H.
    rewrite !Bool.orb_true_iff, !Z.eqb_eq in Z. split; [tauto|]. rewrite <- H. apply Z.eqb_eq.
  - intros (v & c & a & n & z & Iv & E & B & V & D & Z & H). rewrite (proj2 (get_var_iff g _ v N) (conj Iv E)). rewrite (meta_at_in m W _ _ _ _ B). rewrite (proj2 (variable_iff true v mode_path c a n B) V). cbn [rbind]. rewrite D.
    assert (X : ((z =? 0) || (z =? 1) || (z =? 2))%Z = true) by (rewrite !Bool.orb_true_iff, !Z.eqb_eq; tauto). rewrite X. f_equal. destruct (z =? 1)%Z eqn:Q; [apply Z.eqb_eq in Q; symmetry; now apply H|]. apply Z.eqb_neq in Q. destruct h; auto. exfalso. apply Q. now apply H.
Qed.
End Check.

(** ** levels *)
Lemma below_kind : forall nm k k' cs names parent lv p c a n, below (Meta nm k cs) names parent lv p c a n -> below (Meta nm k' cs) names parent lv p c a n.
Proof. intros nm k k' cs names parent lv p c a n B. inversion B; subst; [apply bl_child; auto|eapply bl_struct; eauto|eapply bl_aos; eauto]. Qed.
Lemma loc_below : forall k l m c names parent lv, length l <= k -> loc_ok m l c -> ~ is_elem l -> l <> [] -> mkind m = KStruct -> exists a, below m names parent lv (names ++ loc_names l) c a (lv + length (loc_idx l)).
Proof.
  induction k as [|k IH]; intros l m c names parent lv LK L NE NN K; [destruct l; [congruence|cbn in LK; lia]|]. destruct l as [|[x|i] t]; [congruence| |].
  - apply loc_ok_child in L. destruct L as (nm & cs & d & -> & I & <- & L). cbn [length] in LK.
    assert (NEt : ~ is_elem t) by (intros (a & i & ->); apply NE; exists (Child (mname d) :: a), i; reflexivity).
    destruct t as [|[y|i] t].
    + inversion L; subst. exists parent. cbn. rewrite Nat.add_0_r. apply bl_child; auto.
    + assert (KD : mkind d = KStruct) by (apply loc_ok_child in L; destruct L as (? & ? & ? & -> & _); reflexivity).
      destruct (IH (Child y :: t) d c (names ++ [mname d]) parent lv) as [a B]; auto; [lia|discriminate|]. exists a. eapply bl_struct; eauto. rewrite <- app_assoc in B. exact B.
    + apply loc_ok_elem in L. destruct L as (dn & dc & -> & L). cbn [mname] in *. assert (NT : t <> []) by (intros ->; apply NEt; exists [], i; reflexivity).
      assert (NE2 : ~ is_elem t) by (intros (a & j & ->); apply NEt; exists (Elem i :: a), j; reflexivity). cbn [length] in LK.
      destruct (IH t (Meta dn KStruct dc) c (names ++ [dn]) (Some (names ++ [dn])) (S lv)) as [a B]; auto; [lia|]. exists a. eapply (bl_aos nm KStruct cs names parent lv (Meta dn KAoS dc)); auto.
      apply (below_kind dn KStruct). rewrite <- app_assoc in B. change (loc_names (Child dn :: Elem i :: t)) with (dn :: loc_names t). change (length (loc_idx (Child dn :: Elem i :: t))) with (S (length (loc_idx t))).
      replace (lv + S (length (loc_idx t))) with (S lv + length (loc_idx t)) by lia. exact B.
  - apply loc_ok_elem in L. destruct L as (nm & cs & -> & _). discriminate.
Qed.
