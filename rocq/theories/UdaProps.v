(* C41: the cache of data dictionary definitions for UDA. *)

From Coq Require Import List Arith Bool Ascii String Lia.
Require Import Verif.Base Verif.UdaModel.
Import ListNotations.

(* what the parser has found it keeps finding, whatever follows *)
Lemma scan_app : forall l st f v r, scan st f l = Some v -> scan st f (l ++ r) = Some v.
Proof.
  induction l as [|t l IH]; intros st f v r H; [discriminate|].
  destruct t as [t|x|t]; cbn [scan app] in *.
  - now apply IH.
  - destruct st as [|[t' y] st']; now apply IH.
  - destruct st as [|[t' y] st']; [discriminate|].
    destruct (str_eqb t t'); [|discriminate].
    destruct (str_eqb t (strs "version")); [easy|now apply IH].
Qed.

(* Documents, independently of the parser: an element has a tag, the pieces of
   text before its first child, and its children, each followed by text. *)
Inductive elem := El (t : str) (x : list str) (ks : kids)
with kids := KNil | KCons (e : elem) (tail : list str) (ks : kids).
Scheme elem_ind2 := Induction for elem Sort Prop with kids_ind2 := Induction for kids Sort Prop.
Combined Scheme elem_kids_ind from elem_ind2, kids_ind2.

Fixpoint tokens (e : elem) : list tok :=
  match e with El t x ks => Open t :: map Text x ++ ktokens ks ++ [Close t] end
with ktokens (ks : kids) : list tok :=
  match ks with KNil => [] | KCons e tl ks => tokens e ++ map Text tl ++ ktokens ks end.

(* the elements of a document in the order of their end tags, each with its text *)
Fixpoint ended (e : elem) : list (str * list str) :=
  match e with El t x ks => kended ks ++ [(t, x)] end
with kended (ks : kids) : list (str * list str) :=
  match ks with KNil => [] | KCons e _ ks => ended e ++ kended ks end.

Definition text_of (x : list str) : option str :=
  match x with [] => None | _ => Some (concat x) end.

(* the text of the first of these elements that is called version *)
Definition first_version (l : list (str * list str)) : option (option str) :=
  match filter (fun p => str_eqb (fst p) (strs "version")) l with
  | p :: _ => Some (text_of (snd p))
  | [] => None
  end.

Lemma scan_text : forall x t y st r,
  scan ((t, y) :: st) true (map Text x ++ r)
  = scan ((t, match x with [] => y | _ => Some (match y with Some y => y | None => [] end ++ concat x) end) :: st) true r.
Proof.
  induction x as [|a x IH]; intros; cbn [map app scan]; [easy|].
  rewrite IH. do 3 f_equal. destruct x, y; cbn; now rewrite ?app_nil_r, ?app_assoc.
Qed.

Lemma scan_tail : forall x st r, scan st false (map Text x ++ r) = scan st false r.
Proof.
  induction x as [|a x IH]; intros; cbn [map app scan]; [easy|].
  destruct st as [|[t y] st]; apply IH.
Qed.

Lemma first_version_app : forall a b,
  first_version (a ++ b) = match first_version a with Some x => Some x | None => first_version b end.
Proof. intros. unfold first_version. rewrite filter_app. now destruct (filter _ a). Qed.

Lemma scan_tokens :
  (forall e st f r, scan st f (tokens e ++ r)
     = match first_version (ended e) with Some x => x | None => scan st false r end) /\
  (forall ks st f r, scan st f (ktokens ks ++ r)
     = match first_version (kended ks) with
       | Some x => x
       | None => scan st (match ks with KNil => f | _ => false end) r
       end).
Proof.
  apply elem_kids_ind.
  - intros t x ks IH st f r. cbn [tokens ended]. cbn [app scan].
    rewrite <- app_assoc, scan_text, <- app_assoc, IH, first_version_app.
    destruct (first_version (kended ks)); [easy|].
    cbn [app scan]. rewrite str_eqb_refl. unfold first_version. cbn [filter fst snd].
    destruct (str_eqb t (strs "version")); [|easy]. cbn [snd]. now destruct x.
  - intros. cbn. easy.
  - intros e IHe tl ks IHk st f r. cbn [ktokens kended].
    rewrite <- app_assoc, IHe, first_version_app.
    destruct (first_version (ended e)); [easy|].
    rewrite <- app_assoc, scan_tail, IHk.
    destruct (first_version (kended ks)); [easy|]. now destruct ks.
Qed.

(* The version that is read from a complete document is the text of the first
   element called version, in the order of the end tags; nothing when there is
   no such element, or it has no text. *)
Theorem C41_version_read : forall e,
  version_of (tokens e) = match first_version (ended e) with Some x => x | None => None end.
Proof.
  intros e. unfold version_of. rewrite <- (app_nil_r (tokens e)), (proj1 scan_tokens).
  destruct (first_version (ended e)); easy.
Qed.

(* Nothing is read from a file in which a wrong end tag comes before the end of
   every version element. *)
Theorem C41_malformed : forall a x ks b r,
  a <> b -> first_version (kended ks) = None ->
  version_of (Open a :: map Text x ++ ktokens ks ++ Close b :: r) = None.
Proof.
  intros a x ks b r Hab Hk. unfold version_of. cbn [scan].
  rewrite scan_text, (proj2 scan_tokens), Hk. cbn [scan].
  destruct (str_eqb b a) eqn:E; [|easy]. apply str_eqb_eq in E. congruence.
Qed.
Example C41_malformed_ex :
  version_of (Open (strs "version") :: map Text [strs "4"] ++ ktokens (KCons (El (strs "p") [] KNil) [] KNil) ++ [Close (strs "v")]) = None.
Proof. apply C41_malformed; [discriminate|reflexivity]. Qed.

(* The crash points that go unnoticed, in a file whose first element is the
   version (as in every data dictionary): all those after its end tag. *)
Theorem C41_window : forall root x v tail ks n,
  let data := tokens (El root x (KCons (El (strs "version") [v] KNil) tail ks)) in
  version_of (firstn n data) = (if n <? 4 + length x then None else Some v).
Proof.
  intros root x v tail ks n data. subst data.
  cbn [tokens ktokens]. cbn [map app].
  set (rest := (map Text tail ++ ktokens ks) ++ [Close root]).
  replace (Open root :: map Text x ++ (Open (strs "version") :: Text v :: Close (strs "version") :: map Text tail ++ ktokens ks) ++ [Close root])
    with (Open root :: map Text x ++ Open (strs "version") :: Text v :: Close (strs "version") :: rest) by reflexivity.
  clearbody rest.
  assert (S : forall l y st, scan ((root, y) :: st) true (firstn l (map Text x ++ Open (strs "version") :: Text v :: Close (strs "version") :: rest))
              = if l <? 3 + length x then None else Some v).
  { clear n. induction x as [|a x IH]; intros l y st.
    - cbn [map app length]. destruct l as [|[|[|l]]]; reflexivity.
    - destruct l as [|l]; [reflexivity|]. cbn [map app firstn scan]. rewrite IH. reflexivity. }
  destruct n as [|n]; [reflexivity|]. cbn [firstn]. unfold version_of. cbn [scan].
  rewrite S. reflexivity.
Qed.

Lemma must_extract_false : forall v l,
  must_extract v (Some l) = false <-> version_of l = Some v.
Proof.
  intros. unfold must_extract. destruct (version_of l) as [v'|].
  - rewrite negb_false_iff, str_eqb_eq. split; congruence.
  - split; easy.
Qed.

(* the interruptions of a history all happened before the version element had
   been written *)
Definition early (data : list tok) (h : list (option nat)) : Prop :=
  forall n, In (Some n) h -> version_of (firstn n data) = None.

(* C41 where it holds: when every interrupted extraction was interrupted before
   the end of the version element (the first few bytes of the file), the file
   that a call returns is the complete one.  Missing: later interruptions. *)
Theorem C41_complete_partial : forall data v h,
  version_of data = Some v -> early data h ->
  forall c f' , extract data v (calls data v None h) c = (f', true) ->
  f' = Some data.
Proof.
  intros data v h Hv He c0 f' H.
  assert (I : forall h f, early data h ->
            (f = None \/ f = Some data \/ exists n, f = Some (firstn n data) /\ version_of (firstn n data) = None) ->
            let f'' := calls data v f h in
            f'' = None \/ f'' = Some data \/ exists n, f'' = Some (firstn n data) /\ version_of (firstn n data) = None).
  { clear H He f' h c0. induction h as [|c h IH]; intros f He Hf; cbn; [easy|].
    assert (He' : early data h) by (intros n Hn; apply He; now right).
    apply IH; [easy|].
    unfold extract. destruct (must_extract v f) eqn:E; [|easy].
    destruct c as [n|]; cbn; [|auto].
    right. right. exists n. split; [easy|]. apply He. now left. }
  specialize (I h None He (or_introl eq_refl)). cbn in I.
  unfold extract in H.
  destruct (must_extract v (calls data v None h)) eqn:E; [destruct c0; congruence|].
  inversion H; subst f'. destruct I as [I|[I|(n & I & In)]].
  - rewrite I in E. discriminate.
  - easy.
  - rewrite I in E. apply must_extract_false in E. congruence.
Qed.

(* a call that returns (a call that is interrupted does not) and found no usable
   file leaves the complete file; a file whose version cannot be read is never returned as it is *)
Theorem C41_repairs : forall data v f c f' ,
  version_of data = Some v ->
  (forall l, f = Some l -> version_of l <> Some v) ->
  extract data v f c = (f', true) -> f' = Some data.
Proof.
  intros data v f c f' Hv Hf H. unfold extract in H.
  destruct (must_extract v f) eqn:E; [destruct c; congruence|].
  destruct f as [l|]; [|discriminate]. apply must_extract_false in E.
  exfalso. now apply (Hf l).
Qed.

(* the returned file always names the requested version *)
Theorem C41_right_version : forall data v f c f',
  version_of data = Some v ->
  extract data v f c = (f', true) ->
  exists l, f' = Some l /\ version_of l = Some v.
Proof.
  intros data v f c f' Hv H. unfold extract in H.
  destruct (must_extract v f) eqn:E.
  - destruct c; inversion H. eauto.
  - inversion H; subst. destruct f' as [l|]; [|discriminate].
    apply must_extract_false in E. eauto.
Qed.

(* Exactly which crash points are repaired: after an extraction interrupted
   after n tokens, the next call returns the complete file iff the version
   element was not yet written, or everything was. *)
Theorem C41_repaired_iff : forall data v n f',
  version_of data = Some v ->
  extract data v (fst (extract data v None (Some n))) None = (f', true) ->
  (f' = Some data <-> version_of (firstn n data) = None \/ length data <= n).
Proof.
  intros data v n f' Hv H.
  change (fst (extract data v None (Some n))) with (Some (firstn n data)) in H.
  unfold extract in H.
  destruct (must_extract v (Some (firstn n data))) eqn:E.
  - assert (f' = Some data) by congruence. subst f'. split; [|easy]. intros _. left.
    destruct (version_of (firstn n data)) as [v'|] eqn:Ev; [|easy].
    exfalso. assert (Hd : version_of data = Some v').
    { unfold version_of in *. apply (scan_app _ _ _ _ (skipn n data)) in Ev.
      now rewrite firstn_skipn in Ev. }
    assert (v' = v) by congruence. subst v'.
    apply must_extract_false in Ev. congruence.
  - assert (f' = Some (firstn n data)) by congruence. subst f'.
    apply must_extract_false in E.
    split.
    + intros Hq. right. assert (Hl : length (firstn n data) = length data) by congruence.
      rewrite firstn_length in Hl. lia.
    + intros [Hn|Hn]; [congruence|]. now rewrite firstn_all2.
Qed.

(* every interruption after the version element goes unnoticed for good *)
Theorem C41_never_repaired : forall data v n h,
  version_of (firstn n data) = Some v ->
  calls data v (Some (firstn n data)) h = Some (firstn n data).
Proof.
  intros data v n h H. induction h as [|c h IH]; cbn; [easy|].
  unfold extract. apply must_extract_false in H. rewrite H. cbn. exact IH.
Qed.

(* a definition file in the form the data dictionary has: the version comes
   first, the IDSs follow *)
Definition sample : list tok :=
  [Open (strs "IDSs"); Open (strs "version"); Text (strs "4.0.0"); Close (strs "version");
   Open (strs "IDS"); Open (strs "field"); Close (strs "field"); Close (strs "IDS");
   Close (strs "IDSs")].

(* the text after a child and later text of the version are not lost or mixed up *)
Definition sample_doc : elem :=
  El (strs "IDSs") [strs "a"]
    (KCons (El (strs "version") [strs "4.0"; strs ".0"] KNil) [strs "b"]
    (KCons (El (strs "version") [strs "3"] KNil) [] KNil)).
Example C41_version_ex :
  version_of (tokens sample_doc) = Some (strs "4.0.0") /\
  version_of (tokens (El (strs "version") [strs "1"] (KCons (El (strs "p") [] KNil) [strs "2"] KNil))) = Some (strs "1") /\
  sample = tokens (El (strs "IDSs") [] (KCons (El (strs "version") [strs "4.0.0"] KNil) []
             (KCons (El (strs "IDS") [] (KCons (El (strs "field") [] KNil) [] KNil)) [] KNil))).
Proof. repeat split. Qed.

Example C41_hypotheses :
  version_of sample = Some (strs "4.0.0") /\
  early sample [Some 0; Some 2; Some 3; None; None] /\
  (exists f, extract sample (strs "4.0.0")
     (calls sample (strs "4.0.0") None [Some 0; Some 2; Some 3; None; None]) None = (f, true)).
Proof.
  split; [reflexivity|]. split.
  - intros n H. cbn in H. intuition; try discriminate;
    match goal with H : Some _ = Some n |- _ => inversion H; reflexivity end.
  - eexists. reflexivity.
Qed.

(* Finding: C41 is false.  An extraction interrupted after the version element
   leaves a truncated file that later calls return. *)
Theorem C41_truncated_returned_refuted :
  exists data v n f',
    version_of data = Some v /\
    extract data v (fst (extract data v None (Some n))) None = (f', true) /\
    f' <> Some data.
Proof.
  exists sample, (strs "4.0.0"), 6. eexists.
  split; [reflexivity|]. split; [reflexivity|]. discriminate.
Qed.

Print Assumptions C41_version_read.
Print Assumptions C41_malformed.
Print Assumptions C41_window.
Print Assumptions C41_complete_partial.
Print Assumptions C41_repairs.
Print Assumptions C41_right_version.
Print Assumptions C41_repaired_iff.
Print Assumptions C41_never_repaired.
Print Assumptions C41_truncated_returned_refuted.
