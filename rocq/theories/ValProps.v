(** C17-C19: what validate accepts, which coordinate is found, and that neither changes the data. *)
From Verif Require Import Base PathModel TreeModel TreeSpec TreeProofs TreeProofs2 TreeProofs4 TreeCheck.
From Verif Require Import ValModel ValSpec ValProofs ValProofs2 ValProofs3 ValProofs4 ValProofs5.

(** * An example data dictionary *)
Definition leaf (nm : string) (dt : dtype) (nd : nat) : meta := Meta (strs nm) (KLeaf dt nd) [].
Definition ex_m : meta :=
  Meta (strs "ids") KStruct
    [ Meta (strs "ids_properties") KStruct [leaf "homogeneous_time" INT 0];
      leaf "x" FLT 1; leaf "y" FLT 1; leaf "x_alt" FLT 1; leaf "z" FLT 1; leaf "v" FLT 1; leaf "w" FLT 2; leaf "u" FLT 1;
      leaf "q" FLT 1; leaf "s" FLT 2; leaf "d" FLT 1;
      Meta (strs "prof") KAoS [leaf "time" FLT 0; leaf "r" FLT 1; leaf "t" FLT 1];
      leaf "time" FLT 1 ].
Definition sp (c : string) : coord := coord_of_spec (strs c).
Definition at0 (dyn : bool) (cs same : list string) (alts : list path) : attrs :=
  {| a_dynamic := dyn; a_coords := map sp cs; a_same := map sp same; a_alts := alts |}.
Definition ex_at (p : list str) : attrs :=
  let is s := list_eqb str_eqb p (map strs s) in
  if is ["x"]%string then at0 false ["1...N"%string] [] [([strs "x_alt"], [INone])]
  else if is ["y"]%string then at0 false ["1...N"%string] [] []
  else if is ["x_alt"]%string then at0 false ["1...N"%string] [] []
  else if is ["z"]%string then at0 false ["y OR v"%string] [] []
  else if is ["v"]%string then at0 false ["y OR 1...2"%string] [] []
  else if is ["w"]%string then at0 false ["x"%string; "1...3"%string] [] []
  else if is ["u"]%string then at0 false ["prof(i1)/r"%string] [] []
  else if is ["q"]%string then at0 false ["1...N"%string] ["y"%string] []
  else if is ["s"]%string then at0 false ["1...N"%string; "1...N"%string] [""%string; "y"%string] []
  else if is ["d"]%string then at0 true ["time"%string] [] []
  else if is ["prof"]%string then at0 true ["prof(itime)/time"%string] [] []
  else if is ["prof"; "t"]%string then at0 true ["prof(itime)/r"%string] [] []
  else at0 false [] [] [].
Definition fl (k : nat) : node := NLeaf (Some (VFltA [k] (repeat 0%Z k))).
Definition fl2 (a b : nat) : node := NLeaf (Some (VFltA [a; b] (repeat 0%Z (a * b)))).
Definition ex_n (mode : Z) (fs : list (string * node)) : node :=
  NStruct ((strs "ids_properties", NStruct [(strs "homogeneous_time", NLeaf (Some (VInt mode)))]) ::
           map (fun f => (strs (fst f), snd f)) fs).
Definition ex_ok : node := ex_n 1
  [ ("time"%string, fl 2); ("d"%string, fl 2); ("x_alt"%string, fl 4); ("w"%string, fl2 4 3); ("y"%string, fl 5); ("z"%string, fl 5); ("q"%string, fl 5);
    ("prof"%string, NAoS [ NStruct [(strs "r", fl 2); (strs "t", fl 2)]; NStruct [(strs "r", fl 1)] ]) ].
Lemma ex_wf : wf_meta ex_m. Proof. by_check. Qed.
Lemma ex_str : str_ok ex_m. Proof. by_check. Qed.
Lemma ex_ok_conf : conf ex_m ex_ok. Proof. by_check. Qed.

(** * C17 *)

(** validate returns without an exception iff the IDS is valid (ValSpec.v): the time mode is one of the three, and every node
    holding something is not time-dependent in a time-independent IDS and has in each dimension the size demanded. *)
Theorem C17_validate_iff_valid : forall m at_ n const, wf_meta m -> str_ok m -> conf m n -> mkind m = KStruct ->
  (snd (validate m at_ const n) = Ok tt <-> valid m at_ n const).
Proof. intros m at_ n const Hw Hs Hc Hr. apply run_validate; auto. Qed.
Print Assumptions C17_validate_iff_valid.

Example C17_example : wf_meta ex_m /\ str_ok ex_m /\ conf ex_m ex_ok /\ mkind ex_m = KStruct /\
  snd (validate ex_m ex_at false ex_ok) = Ok tt /\ snd (validate ex_m ex_at true ex_ok) = Err VInvalid /\
  (* each of these does not agree with the data dictionary *)
  snd (validate ex_m ex_at false (ex_n 3 [])) = Err VInvalid /\
  snd (validate ex_m ex_at false (ex_n 2 [("d"%string, fl 2)])) = Err VInvalid /\
  snd (validate ex_m ex_at false (ex_n 1 [("d"%string, fl 2); ("time"%string, fl 3)])) = Err VInvalid /\
  snd (validate ex_m ex_at false (ex_n 1 [("w"%string, fl2 4 2); ("x"%string, fl 4)])) = Err VInvalid /\
  snd (validate ex_m ex_at false (ex_n 1 [("w"%string, fl2 4 3); ("x"%string, fl 3)])) = Err VInvalid /\
  snd (validate ex_m ex_at false (ex_n 1 [("w"%string, fl2 4 3); ("x"%string, fl 4); ("x_alt"%string, fl 5)])) = Err VInvalid /\
  snd (validate ex_m ex_at false (ex_n 1 [("z"%string, fl 4)])) = Err VInvalid /\
  snd (validate ex_m ex_at false (ex_n 1 [("z"%string, fl 2); ("y"%string, fl 2); ("v"%string, fl 2)])) = Err VInvalid /\
  snd (validate ex_m ex_at false (ex_n 1 [("v"%string, fl 3)])) = Err VInvalid /\
  snd (validate ex_m ex_at false (ex_n 1 [("q"%string, fl 3)])) = Err VInvalid /\
  snd (validate ex_m ex_at false (ex_n 0 [("prof"%string, NAoS [NStruct [(strs "time", NLeaf (Some (VFlt 0%Z)))]; NStruct []])])) = Err VInvalid.
Proof. split; [exact ex_wf|]. split; [exact ex_str|]. split; [exact ex_ok_conf|]. repeat (split; [vm_compute; reflexivity|]). vm_compute. reflexivity. Qed.

Lemma resolves_time : forall m n l nd, wf_meta m -> mkind m = KStruct -> l <> [] -> (exists m' n', vnode_at m n l m' n') ->
  In (Meta (strs "time") (KLeaf FLT nd) []) (mchildren m) ->
  resolves m n l toplevel_time (Ok [Child (strs "time")]).
Proof.
  intros m n l nd Hw Hr Hl (m' & n' & Vl) I. unfold resolves. simpl combine.
  destruct l as [|[x|i] t]; [congruence| |inversion Vl; subst; discriminate].
  destruct (list_eq_dec ascii_dec x (strs "time")) as [->|N].
  - assert (T : t = []).
    { inversion Vl; subst. simpl in I. assert (c = Meta (strs "time") (KLeaf FLT nd) []) as ->.
      { inversion Hw; subst. eapply nodup_name; eauto. }
      match goal with X : vnode_at _ _ t _ _ |- _ => inversion X; auto end. }
    subst t. apply (ld_follow m n [Child (strs "time")] [(strs "time", INone)] [] [Child (strs "time")]); simpl; auto.
    + intros; discriminate.
    + intros y [<-|[]] (? & ? & E). discriminate.
    + exists []. repeat split; auto.
    + constructor.
  - apply (ld_follow m n (Child x :: t) [] [(strs "time", INone)] []); simpl; auto; try lia.
    + intros y u [= <- <-]. intros Q. apply N. injection Q. auto.
    + exists (Child x :: t). repeat split; auto. right; eauto.
    + apply fw_child; [|constructor]. destruct m as [nm kk cs]. simpl in *. subst kk. exists (Meta nm KStruct cs), n, (Meta (strs "time") (KLeaf FLT nd) []).
      repeat split; auto. constructor.
Qed.
Lemma dims_vnode : forall m n l sh, dims_at m n l sh -> exists m' n', vnode_at m n l m' n'.
Proof. intros m n l sh [(k & (m' & els & V & _) & _)|(v & (m' & x & dt & nd & V & _) & _)]; eauto. Qed.
Lemma time_not_inside : forall m n l, mkind m = KStruct -> l <> [] -> (exists m' n', vnode_at m n l m' n') -> ~ inside m n l toplevel_time.
Proof.
  intros m n l Hr Hl (m' & n' & Vl) (_ & nm & t & E). destruct l as [|[x|i] t']; [congruence| |inversion Vl; subst; discriminate].
  simpl in E. inversion E. destruct (loc_names t'); discriminate.
Qed.

(** What that means for the different kinds of coordinates.  In all of these [l] is a node of a validated IDS that holds
    something, k its size in dimension dim, and c the coordinate given for it in the data dictionary. *)
Section Validated.
Variables (m : meta) (at_ : list str -> attrs) (n : node) (const : bool).
Hypothesis Hw : wf_meta m.
Hypothesis Hs : str_ok m.
Hypothesis Hc : conf m n.
Hypothesis Hr : mkind m = KStruct.
Hypothesis Hv : snd (validate m at_ const n) = Ok tt.
Let V : valid m at_ n const := proj1 (C17_validate_iff_valid m at_ n const Hw Hs Hc Hr) Hv.
Variables (l : loc) (sh : list nat) (dim k : nat).
Hypothesis Hl : l <> [].
Hypothesis Hne : nonempty_at m n l.
Hypothesis Hd : dims_at m n l sh.
Hypothesis Hk : nth_error sh dim = Some k.
Notation c := (nth dim (a_coords (at_ (loc_names l))) no_coord).
Let Dok : dim_ok m at_ n l dim k c.
Proof. destruct V as (t & _ & _ & _ & H). exact (proj1 (proj2 (H l Hl Hne) _ _ _ Hd Hk)). Qed.

Let found_fun : forall r r', coordinate m at_ n l dim c r -> coordinate m at_ n l dim c r' -> r = r'.
Proof. intros r r' A B. apply (run_lookup m at_ n Hw Hs Hc) in A, B; eauto. congruence. Qed.

Theorem C17_time_mode : exists t, mode m n t /\ (t = 0 \/ t = 1 \/ t = 2)%Z /\ (const = true -> t = 2%Z).
Proof. destruct V as (t & A & B & C & _). eauto. Qed.
Theorem C17_no_dynamic_data : mode m n 2 -> a_dynamic (at_ (loc_names l)) = false.
Proof.
  intros M2. destruct V as (t & A & B & C & H). destruct (a_dynamic (at_ (loc_names l))) eqn:D; auto.
  destruct (H l Hl Hne) as (K & _). destruct (K D). eapply mode_fun; eauto.
Qed.
Theorem C17_fixed_size : forall z, c_size c = Some z -> c_refs c = [] -> Z.of_nat k = z.
Proof.
  intros z Z R. destruct Dok as [A B|A B|r A B C]; congruence.
Qed.
Lemma mode_notime : forall c r, ~ time_coord c -> coordinate m at_ n l dim c r -> c_refs c <> [] ->
  (exists p, c_refs c = [p] /\ c_size c = None /\ by_path m at_ n l p r) \/ one_of m n l dim c r.
Proof. intros c0 r N C R. inversion C; subst; try contradiction; eauto. Qed.
(** one reference, which can be found outside of the node itself: same size *)
Theorem C17_single_reference : forall p q, ~ time_coord c -> c_refs c = [p] -> c_size c = None -> ~ inside m n l p ->
  resolves m n l p (Ok q) -> a_alts (at_ (loc_names q)) = [] -> forall d ds, dims_at m n q (d :: ds) -> d = k.
Proof.
  intros p q N R Z I G Al d ds D. destruct Dok as [A B|A B|r A C Ac]; try congruence.
  assert (C' : coordinate m at_ n l dim c (Ok (CNode q))) by (eapply co_single; eauto; apply bp_node; auto).
  pose proof (found_fun _ _ C C') as E. subst r. inversion Ac; subst.
  - edestruct H0; eauto.
  - match goal with X : dims_at _ _ q (k :: _) |- _ => pose proof (dims_at_fun m n Hw Hc _ _ _ D X) as E; congruence end.
Qed.
(** homogeneous time: same size as the toplevel time *)
Theorem C17_homogeneous_time : forall nd, In (Meta (strs "time") (KLeaf FLT nd) []) (mchildren m) -> a_alts (at_ [strs "time"]) = [] ->
  mode m n 1 -> time_coord c -> c_size c = None -> forall d ds, dims_at m n [Child (strs "time")] (d :: ds) -> d = k.
Proof.
  intros nd I Al M1 T Z d ds D. destruct Dok as [A B|A B|r A C Ac]; try congruence.
  - destruct T as (p & a & Ip & _). rewrite B in Ip. destruct Ip.
  - assert (C' : coordinate m at_ n l dim c (Ok (CNode [Child (strs "time")]))).
    { apply co_homogeneous; auto. apply bp_node; auto; [eapply time_not_inside|eapply resolves_time]; eauto using dims_vnode. }
    pose proof (found_fun _ _ C C') as E. subst r. inversion Ac; subst.
    + match goal with X : forall sh, ~ dims_at _ _ _ sh |- _ => destruct (X _ D) end.
    + match goal with X : dims_at _ _ _ (k :: _) |- _ => pose proof (dims_at_fun m n Hw Hc _ _ _ D X) as E; congruence end.
Qed.
(** several references: never is more than one of them filled, and the filled one has the same size *)
Theorem C17_alternatives : forall qs ks, ~ time_coord c -> length (c_refs c) > 1 -> c_size c = None ->
  each (resolves m n l) (c_refs c) (Ok qs) -> each (items_of m n) qs (Ok ks) ->
  exists i q, nth_error qs i = Some q /\ (forall j kj, nth_error ks j = Some kj -> (kj > 0 <-> j = i)) /\
              forall d ds, dims_at m n q (d :: ds) -> d = k.
Proof.
  intros qs ks N Ln Z Rq Rk. destruct Dok as [A B|A B|r A C Ac]; try congruence; [rewrite B in Ln; simpl in Ln; lia|].
  destruct (mode_notime _ _ N C A) as [(p & R & _)|O]; [rewrite R in Ln; simpl in Ln; lia|].
  assert (Fq : forall r', each (resolves m n l) (c_refs c) r' -> r' = Ok qs) by (intros r' X; eapply each_fun; eauto; intros; eapply resolves_fun; eauto).
  assert (Fk : forall r', each (items_of m n) qs r' -> r' = Ok ks) by (intros r' X; eapply each_fun; eauto; intros; eapply items_of_fun; eauto).
  inversion O as [e X|qs' e X Y|qs' ks' i q X Y Ni Hi|qs' ks' sh' z X Y H0 Hz|qs' ks' X Y H0 Hz|qs' ks' i j ki kj X Y Ni Nj Nij Ki Kj]; subst r;
    pose proof (Fq _ X) as E; try discriminate; inversion E; subst qs'; try (pose proof (Fk _ Y) as E2; try discriminate; inversion E2; subst ks').
  - exists i, q. repeat split; auto; try (apply Hi; auto). intros d ds D. inversion Ac; subst.
    + match goal with H : forall sh, ~ dims_at _ _ _ sh |- _ => destruct (H _ D) end.
    + match goal with H : dims_at _ _ _ (k :: _) |- _ => pose proof (dims_at_fun m n Hw Hc _ _ _ D H) as E3; congruence end.
  - congruence.
  - inversion Ac.
  - inversion Ac.
Qed.
End Validated.
Print Assumptions C17_time_mode.
Print Assumptions C17_no_dynamic_data.
Print Assumptions C17_fixed_size.
Print Assumptions C17_single_reference.
Print Assumptions C17_homogeneous_time.
Print Assumptions C17_alternatives.

Example C17_alternatives_example : let l := [Child (strs "z")] in let c := nth 0 (a_coords (ex_at (loc_names l))) no_coord in
  snd (validate ex_m ex_at false ex_ok) = Ok tt /\ nonempty_at ex_m ex_ok l /\ dims_at ex_m ex_ok l [5] /\ ~ time_coord c /\
  length (c_refs c) > 1 /\ c_size c = None /\ each (resolves ex_m ex_ok l) (c_refs c) (Ok [[Child (strs "y")]; [Child (strs "v")]]) /\
  each (items_of ex_m ex_ok) [[Child (strs "y")]; [Child (strs "v")]] (Ok [5; 0]).
Proof.
  intros l c. split; [vm_compute; reflexivity|].
  assert (Vz : vnode_at ex_m ex_ok l (leaf "z" FLT 1) (fl 5)) by (apply look_vnode; [exact ex_wf|vm_compute; reflexivity]).
  split; [exists (leaf "z" FLT 1), (fl 5); split; auto; apply has_value_nonempty; [by_check|reflexivity]|].
  split; [right; exists (VFltA [5] (repeat 0%Z 5)); split; auto; exists (leaf "z" FLT 1), (Some (VFltA [5] (repeat 0%Z 5))), FLT, 1; auto|].
  split. { rewrite <- is_time_spec. vm_compute. discriminate. }
  split; [vm_compute; lia|]. split; [reflexivity|].
  split.
  - change (c_refs c) with [([strs "y"], [INone]); ([strs "v"], [INone])].
    repeat (apply ea_cons || apply ea_nil); apply run_goto; try exact ex_wf; try exact ex_str; try exact ex_ok_conf; vm_compute; reflexivity.
  - repeat (apply ea_cons || apply ea_nil); apply run_len_value; try exact ex_wf; try exact ex_str; try exact ex_ok_conf; vm_compute; reflexivity.
Qed.
Example C17_time_example : let l := [Child (strs "d")] in
  mode ex_m ex_ok 1 /\ time_coord (nth 0 (a_coords (ex_at (loc_names l))) no_coord) /\ nonempty_at ex_m ex_ok l /\
  dims_at ex_m ex_ok l [2] /\ dims_at ex_m ex_ok [Child (strs "time")] [2].
Proof.
  intros l. split.
  { exists (leaf "homogeneous_time" INT 0), (Some (VInt 1)), INT, 0. split; auto. apply look_vnode; [exact ex_wf|vm_compute; reflexivity]. }
  split; [apply is_time_spec; vm_compute; reflexivity|].
  split; [exists (leaf "d" FLT 1), (fl 2); split; [apply look_vnode; [exact ex_wf|vm_compute; reflexivity]|apply has_value_nonempty; [by_check|reflexivity]]|].
  split; apply (shape_ok ex_m ex_ok ex_wf ex_ok_conf); vm_compute; reflexivity.
Qed.

(** Errors while looking for a coordinate are ignored (other than an index out of range or an ambiguity), so a node is also
    accepted when its coordinate cannot be found at all: here a reference into an array of structures that the node itself
    is not part of. *)
Theorem C17_coordinate_found_refuted : exists m at_ n l k, wf_meta m /\ str_ok m /\ conf m n /\ mkind m = KStruct /\
  snd (validate m at_ false n) = Ok tt /\ l <> [] /\ nonempty_at m n l /\ dims_at m n l [k] /\
  let c := nth 0 (a_coords (at_ (loc_names l))) no_coord in
  c_refs c <> [] /\ c_size c = None /\ forall r, coordinate m at_ n l 0 c r -> r = Err EOther.
Proof.
  exists ex_m, ex_at, (ex_n 1 [("u"%string, fl 7)]), [Child (strs "u")], 7.
  assert (C : conf ex_m (ex_n 1 [("u"%string, fl 7)])) by by_check.
  split; [exact ex_wf|]. split; [exact ex_str|]. split; [exact C|]. split; [reflexivity|]. split; [vm_compute; reflexivity|].
  split; [discriminate|].
  split; [exists (leaf "u" FLT 1), (fl 7); split; [apply look_vnode; [exact ex_wf|vm_compute; reflexivity]|apply has_value_nonempty; [by_check|reflexivity]]|].
  assert (D : dims_at ex_m (ex_n 1 [("u"%string, fl 7)]) [Child (strs "u")] [7]) by (apply (shape_ok ex_m _ ex_wf C); vm_compute; reflexivity).
  split; [exact D|]. split; [vm_compute; discriminate|]. split; [reflexivity|].
  intros r R. apply (run_lookup ex_m ex_at _ ex_wf ex_str C) in R; [|eauto]. rewrite <- R. vm_compute. reflexivity.
Qed.
Print Assumptions C17_coordinate_found_refuted.

(** validate does not only raise ValidationErrors: when [coordinate_same_as] refers to a node with fewer dimensions, an
    IndexError escapes. *)
Theorem C17_error_kind_refuted : exists m at_ n, wf_meta m /\ str_ok m /\ conf m n /\ mkind m = KStruct /\
  snd (validate m at_ false n) = Err VUncaught.
Proof.
  exists ex_m, ex_at, (ex_n 1 [("s"%string, fl2 2 2); ("y"%string, fl 2)]).
  split; [exact ex_wf|]. split; [exact ex_str|]. split; [by_check|]. split; [reflexivity|]. vm_compute. reflexivity.
Qed.
Print Assumptions C17_error_kind_refuted.

(** * C18 *)

(** [node.coordinates[dim]] gives exactly the coordinate described in ValSpec.v, or fails as described there. *)
Theorem C18_lookup_iff_coordinate : forall m at_ n l dim r, wf_meta m -> str_ok m -> conf m n -> (exists sh, dims_at m n l sh) ->
  (snd (lookup m at_ l dim n) = r <-> coordinate m at_ n l dim (nth dim (a_coords (at_ (loc_names l))) no_coord) r).
Proof. intros m at_ n l dim r Hw Hs Hc D. apply run_lookup; auto. Qed.
Print Assumptions C18_lookup_iff_coordinate.

Section Lookup.
Variables (m : meta) (at_ : list str -> attrs) (n : node) (l : loc) (dim : nat).
Hypothesis Hw : wf_meta m.
Hypothesis Hs : str_ok m.
Hypothesis Hc : conf m n.
Hypothesis Hd : exists sh, dims_at m n l sh.
Notation c := (nth dim (a_coords (at_ (loc_names l))) no_coord).
Variables (qs : list loc) (ks : list nat).
(** the references lead to the nodes qs, which hold ks items *)
Hypothesis Hn : ~ time_coord c.
Hypothesis Hlen : length (c_refs c) > 1 \/ (c_refs c <> [] /\ c_size c <> None).
Hypothesis Hq : each (resolves m n l) (c_refs c) (Ok qs).
Hypothesis Hks : each (items_of m n) qs (Ok ks).
Let R : c_refs c <> []. Proof. intros E. rewrite E in *. simpl in *. destruct Hlen as [X|(X & _)]; [lia|auto]. Qed.
Let byone : forall r, one_of m n l dim c r -> snd (lookup m at_ l dim n) = r.
Proof. intros r O. apply C18_lookup_iff_coordinate; auto. apply co_one_of; auto. tauto. Qed.

Theorem C18_one_filled : forall i q, nth_error qs i = Some q -> (forall j k, nth_error ks j = Some k -> (k > 0 <-> j = i)) ->
  snd (lookup m at_ l dim n) = Ok (CNode q).
Proof. intros i q Q K. apply byone. eapply oo_one; eauto. Qed.
Theorem C18_none_filled : (forall k, In k ks -> k = 0) -> c_size c = None -> snd (lookup m at_ l dim n) = Err ELookup.
Proof. intros K Z. apply byone. eapply oo_none; eauto. Qed.
Theorem C18_none_filled_index : forall sh z, (forall k, In k ks -> k = 0) -> c_size c = Some z -> dims_at m n l sh ->
  snd (lookup m at_ l dim n) = Ok (CRange (nth dim sh 0)).
Proof. intros sh z K Z D. apply byone. eapply oo_index; eauto. Qed.
Theorem C18_several_filled : forall i j ki kj, nth_error ks i = Some ki -> nth_error ks j = Some kj -> i <> j -> ki > 0 -> kj > 0 ->
  snd (lookup m at_ l dim n) = Err ELookup.
Proof. intros i j ki kj I J N Ki Kj. apply byone. exact (oo_several m n l dim c qs ks i j ki kj Hq Hks I J N Ki Kj). Qed.
End Lookup.
Print Assumptions C18_one_filled.
Print Assumptions C18_none_filled.
Print Assumptions C18_none_filled_index.
Print Assumptions C18_several_filled.

(** In a homogeneous IDS every time coordinate is the toplevel time. *)
Theorem C18_homogeneous_time : forall m at_ n l dim nd, wf_meta m -> str_ok m -> conf m n -> mkind m = KStruct -> l <> [] ->
  (exists sh, dims_at m n l sh) -> In (Meta (strs "time") (KLeaf FLT nd) []) (mchildren m) -> a_alts (at_ [strs "time"]) = [] ->
  mode m n 1 -> time_coord (nth dim (a_coords (at_ (loc_names l))) no_coord) ->
  snd (lookup m at_ l dim n) = Ok (CNode [Child (strs "time")]).
Proof.
  intros m at_ n l dim nd Hw Hs Hc Hr Hl (sh & D) I Al M1 T. apply C18_lookup_iff_coordinate; eauto.
  apply co_homogeneous; auto. apply bp_node; auto; [eapply time_not_inside|eapply resolves_time]; eauto using dims_vnode.
Qed.
Print Assumptions C18_homogeneous_time.

(** The examples of C17 (C17_alternatives_example, C17_time_example) meet these hypotheses; the results there: *)
Example C18_example : snd (lookup ex_m ex_at [Child (strs "z")] 0 ex_ok) = Ok (CNode [Child (strs "y")]) /\
  snd (lookup ex_m ex_at [Child (strs "d")] 0 ex_ok) = Ok (CNode [Child (strs "time")]) /\
  snd (lookup ex_m ex_at [Child (strs "prof")] 0 ex_ok) = Ok (CNode [Child (strs "time")]) /\
  snd (lookup ex_m ex_at [Child (strs "w")] 0 ex_ok) = Ok (CNode [Child (strs "x_alt")]) /\
  snd (lookup ex_m ex_at [Child (strs "w")] 1 ex_ok) = Ok (CRange 3) /\
  snd (lookup ex_m ex_at [Child (strs "z")] 0 (ex_n 1 [("z"%string, fl 4)])) = Err ELookup /\
  snd (lookup ex_m ex_at [Child (strs "z")] 0 (ex_n 1 [("v"%string, fl 4); ("y"%string, fl 4)])) = Err ELookup /\
  snd (lookup ex_m ex_at [Child (strs "v")] 0 (ex_n 1 [("v"%string, fl 4)])) = Ok (CRange 4).
Proof. repeat split; vm_compute; reflexivity. Qed.

(** Alternatives of the other kind ([alternative_coordinates] of the coordinate, DD 4) are chosen silently: with several of
    them filled, the first one is used as long as their sizes agree. *)
Theorem C18_ambiguity_refuted : exists m at_ n l q q' v v', wf_meta m /\ str_ok m /\ conf m n /\ (exists sh, dims_at m n l sh) /\
  c_refs (nth 0 (a_coords (at_ (loc_names l))) no_coord) = [(loc_names q, [INone])] /\
  a_alts (at_ (loc_names q)) = [(loc_names q', [INone])] /\ leaf_at m n q v /\ leaf_at m n q' v' /\ v <> v' /\
  snd (lookup m at_ l 0 n) = Ok (CNode q).
Proof.
  set (n := ex_n 1 [("x"%string, fl 2); ("x_alt"%string, NLeaf (Some (VFltA [2] [1%Z; 2%Z]))); ("w"%string, fl2 2 3)]).
  exists ex_m, ex_at, n, [Child (strs "w")], [Child (strs "x")], [Child (strs "x_alt")], (VFltA [2] [0%Z; 0%Z]), (VFltA [2] [1%Z; 2%Z]).
  assert (C : conf ex_m n) by (unfold n; by_check).
  split; [exact ex_wf|]. split; [exact ex_str|]. split; [exact C|].
  split; [eexists; apply (shape_ok ex_m _ ex_wf C); vm_compute; reflexivity|].
  split; [vm_compute; reflexivity|]. split; [vm_compute; reflexivity|].
  assert (In (leaf "x" FLT 1) (mchildren ex_m) /\ In (leaf "x_alt" FLT 1) (mchildren ex_m)) as (I1 & I2) by (simpl; auto 20).
  split; [exists (leaf "x" FLT 1); split; [exists FLT, 1; reflexivity|split; [|vm_compute; discriminate]]; eapply (na_child _ _ _ (leaf "x" FLT 1)); [exact I1|reflexivity|constructor]|].
  split; [exists (leaf "x_alt" FLT 1); split; [exists FLT, 1; reflexivity|split; [|vm_compute; discriminate]]; eapply (na_child _ _ _ (leaf "x_alt" FLT 1)); [exact I2|reflexivity|constructor]|].
  split; [discriminate|]. vm_compute. reflexivity.
Qed.
Print Assumptions C18_ambiguity_refuted.
(** What does hold of them: never an arbitrary size. *)
Theorem C18_alternatives_agree : forall m at_ n l dim p q k qs q', wf_meta m -> str_ok m -> conf m n -> (exists sh, dims_at m n l sh) ->
  let c := nth dim (a_coords (at_ (loc_names l))) no_coord in
  ~ time_coord c -> c_refs c = [p] -> c_size c = None -> ~ inside m n l p -> resolves m n l p (Ok q) ->
  a_alts (at_ (loc_names q)) <> [] -> size_of m n q (Ok k) -> each (alternative m n q) (a_alts (at_ (loc_names q))) (Ok qs) ->
  snd (lookup m at_ l dim n) = Ok (CNode q') ->
  exists k', In (q', k') ((q, k) :: qs) /\ forall x, In x ((q, k) :: qs) -> snd x = 0 \/ snd x = k'.
Proof.
  intros m at_ n l dim p q k qs q' Hw Hs Hc D c T R Z I G Al S E L.
  pose proof (proj1 (choose_spec q ((q, k) :: qs) _) eq_refl) as Ch.
  assert (L' : snd (lookup m at_ l dim n) = match filter (fun x : loc * nat => 0 <? snd x) ((q, k) :: qs) with
   | [] => Ok (CNode q)
   | (q', _) :: _ => if all_equal (map snd (filter (fun x => 0 <? snd x) ((q, k) :: qs))) then Ok (CNode q') else Err ELookup
   end).
  { apply C18_lookup_iff_coordinate; auto. fold c. eapply co_single; eauto. eapply bp_alts; eauto. }
  rewrite <- L', L in Ch. remember ((q, k) :: qs) as all eqn:Ea. inversion Ch as [qs0 Hz|a q0 k0 b Ha Hk Hb|]; subst.
  - exists k. split; [left; auto|]. intros x Ix. left. auto.
  - exists k0. match goal with X : _ ++ _ = (q, k) :: qs |- _ => rewrite <- X | _ => idtac end. split; [apply in_or_app; right; left; auto|]. intros x Ix. apply in_app_or in Ix. destruct Ix as [Ix|[<-|Ix]]; auto.
Qed.
Print Assumptions C18_alternatives_agree.

(** * C19 *)

(** Validating or looking up a coordinate leaves every filled data node and every non-empty array of structures as it was,
    and fills nothing.  (Children may be created and defaults stored: the trees themselves can differ.) *)
Definition same_content (m : meta) (n n' : node) : Prop :=
  (forall l v, leaf_at m n' l v <-> leaf_at m n l v) /\ (forall l k, aos_at m n' l k <-> aos_at m n l k) /\
  (forall l, nonempty_at m n' l <-> nonempty_at m n l).
Lemma good_content : forall m n {E A} (c : M E A), wf_meta m -> str_ok m -> conf m n -> good m c ->
  conf m (fst (c n)) /\ same_content m n (fst (c n)).
Proof.
  intros m n E A c Hw Hs Hc G. pose proof (good_conf m Hw Hs c n G Hc) as (C' & (_ & F)). destruct (G n Hc) as ((ls & Eq) & _).
  destruct (reads_item ls m n Hw Hs Hc) as (_ & It). rewrite <- Eq in It. split; auto. split; [intros l v; apply (It l (inl v))|]. split; [intros l k; apply (It l (inr k))|].
  assert (X : forall n0, conf m n0 -> forall l, nonempty_at m n0 l <-> filled_at m n0 l = true).
  { intros n0 C0 l. unfold filled_at. split.
    - intros (m' & n' & V & N). pose proof (proj2 (look_vnode _ _ _ _ _ Hw) V) as ->.
      apply has_value_nonempty; auto. eapply vnode_conf; eauto.
    - destruct (look m n0 l) as [(m', n')|] eqn:L; [|discriminate]. intros H. apply look_vnode in L; auto. exists m', n'. split; auto.
      apply has_value_nonempty; auto. eapply vnode_conf; eauto. }
  intros l. rewrite !X, F by auto. tauto.
Qed.

Theorem C19_validate_keeps_data : forall m at_ n const, wf_meta m -> str_ok m -> conf m n ->
  conf m (fst (validate m at_ const n)) /\ same_content m n (fst (validate m at_ const n)).
Proof. intros. apply good_content; auto. apply good_validate; auto. Qed.
Print Assumptions C19_validate_keeps_data.
Theorem C19_lookup_keeps_data : forall m at_ n l dim, wf_meta m -> str_ok m -> conf m n ->
  conf m (fst (lookup m at_ l dim n)) /\ same_content m n (fst (lookup m at_ l dim n)).
Proof. intros. apply good_content; auto. apply good_lookup; auto. Qed.
Print Assumptions C19_lookup_keeps_data.
(** The outcome does not depend on what was validated or looked up before. *)
Theorem C19_validate_again : forall m at_ at' n const const', wf_meta m -> str_ok m -> conf m n ->
  snd (validate m at_ const (fst (validate m at' const' n))) = snd (validate m at_ const n).
Proof.
  intros m at_ at' n const const' Hw Hs Hc. destruct (good_conf m Hw Hs _ n (good_validate m Hw Hs at' const') Hc) as (C & S).
  apply (good_validate m Hw Hs at_ const n Hc); auto.
Qed.
Print Assumptions C19_validate_again.
Theorem C19_lookup_after_validate : forall m at_ at' n l dim const, wf_meta m -> str_ok m -> conf m n ->
  snd (lookup m at_ l dim (fst (validate m at' const n))) = snd (lookup m at_ l dim n).
Proof.
  intros m at_ at' n l dim const Hw Hs Hc. destruct (good_conf m Hw Hs _ n (good_validate m Hw Hs at' const) Hc) as (C & S).
  apply (good_lookup m Hw Hs at_ l dim n Hc); auto.
Qed.
Print Assumptions C19_lookup_after_validate.
Example C19_example : wf_meta ex_m /\ str_ok ex_m /\ conf ex_m ex_ok /\ fst (validate ex_m ex_at false ex_ok) <> ex_ok.
Proof. split; [exact ex_wf|]. split; [exact ex_str|]. split; [exact ex_ok_conf|]. vm_compute. discriminate. Qed.
