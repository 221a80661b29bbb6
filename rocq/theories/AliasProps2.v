(** C61: examples, and what is false *)
From Verif Require Import Base AliasModel AliasSpec AliasProofs AliasProofs2 AliasProps.

(** nodes 0, 1: STR_1D; 2: FLT_1D; 3: INT_1D; 4, 5: copies of 0, 1; from 10: lazy loaded, STR_1D *)
Definition ex_ty (n : nat) : ty := match n with 2 => TNum NFlt 1 | 3 => TNum NInt 1 | _ => TStr end.
Definition ex_lazy (n : nat) : bool := 10 <=? n.
Definition ex_str (z : Z) : str := strs "number".
Definition ex_run := run Z ex_ty ex_lazy ex_str (fun _ _ z => z) (fun _ _ d => map IOther d) (fun _ _ => None) (start Z).
Definition ex_show (l : list (op Z)) := show Z ex_ty (fst (ex_run l)).
Definition txt (s : string) : item := IStr (strs s).
Notation L l := (OList Z l).

(** node 0 and its list in a variable, two deep copies, then a change of each *)
Definition ex_ops : list (op Z) :=
  [Set_ Z 0 (FromNew Z (L [txt "a"; IOther 5])); Set_ Z 1 (FromNode Z 0); Get Z 7 0; Make Z 8 (L [txt "x"]); AliasModel.Copy Z [(0, 4); (1, 5)]; Extend Z 0 [txt "b"]; SetItem Z 4 0 (txt "c"); Set_ Z 1 (FromVar Z 8); Mutate Z (HVar 8) (L [])].
Example C61_example : Forall (copy_ok Z ex_ty) ex_ops /\ snd (ex_run ex_ops) = map (fun _ => None) ex_ops /\
  map (ex_show ex_ops) [HNode 0; HNode 1; HVar 7; HVar 8; HNode 4; HNode 5] =
  [Some (L [txt "a"; txt "number"; txt "b"]); Some (L [txt "x"]); Some (L [txt "a"; txt "number"; txt "b"]); Some (L []); Some (L [txt "c"; txt "number"]); Some (L [txt "c"; txt "number"])].
Proof.
  split; [|split; reflexivity]. unfold ex_ops. repeat (apply Forall_cons; [try exact I|]); [|apply Forall_nil].
  split; [|split; [|split]].
  - repeat (constructor; [cbn; intros H; repeat (destruct H as [H|H]; [discriminate H|]); destruct H|]). constructor.
  - repeat (constructor; [cbn; intros H; repeat (destruct H as [H|H]; [discriminate H|]); destruct H|]). constructor.
  - intros n H1 H2. cbn in H1, H2. destruct H1 as [<-|[<-|[]]], H2 as [H|[H|[]]]; discriminate H.
  - intros p H. cbn in H. destruct H as [<-|[<-|[]]]; reflexivity.
Qed.
(** an array of the type of the node is taken as it is and stays shared with the variable; another one is copied *)
Example C61_arrays : map (ex_show [Make Z 7 (OArr Z NFlt [2] [1; 2]%Z); Set_ Z 2 (FromVar Z 7); Set_ Z 3 (FromVar Z 7); Mutate Z (HVar 7) (OArr Z NFlt [2] [5; 6]%Z)]) [HNode 2; HNode 3] =
  [Some (OArr Z NFlt [2] [5; 6]%Z); Some (OArr Z NInt [2] [1; 2]%Z)].
Proof. reflexivity. Qed.
Example C61_independent_example : exists A, A (HNode 0) = true /\ A (HNode 1) = false /\ forall s es, sruns Z ex_ty ex_lazy ex_str (fun _ _ z => z) (fun _ _ d => map IOther d) (fun _ _ => None) (sstart Z ex_ty) [] s es -> apart Z A s.
Proof.
  exists (fun h => is h (HNode 0)). split; [reflexivity|]. split; [reflexivity|]. intros s es R. inversion R; subst. intros x y X Y. apply holder_eqb_eq in X. subst x. cbn [sstart AliasSpec.share].
  destruct (is_spec (HNode 0) y) as [(_ & <-)|(E1 & _)]; [discriminate Y|]. auto.
Qed.
Example C61_types_example : Forall (load_ok fits ex_ty) (firstn 8 ex_ops) /\ Forall tame (firstn 8 ex_ops) /\ load_ok fits ex_ty (Load Z 2 (OArr Z NFlt [1] [7]%Z)).
Proof. split; [|split]; cbn; repeat constructor. Qed.

(** Finding: after ids.a = ids.b, for two nodes of the same type, both hold the same list or array: a change of one of them changes the
    other one too, although a list or tuple that is assigned is copied. *)
Theorem C61_shared_refuted : exists l n m o, n <> m /\ names o = [HNode n] /\ ex_show (l ++ [o]) (HNode m) <> ex_show l (HNode m).
Proof. exists [Set_ Z 1 (FromNode Z 0)], 0, 1, (Extend Z 0 [txt "a"]). split; [discriminate|]. split; [reflexivity|]. vm_compute. discriminate. Qed.
Print Assumptions C61_shared_refuted.
(** Finding: a lazy loaded IDS is said to be read-only and refuses assignments, but lists and arrays in it can be changed in place. *)
Theorem C61_lazy_refuted : exists n l o, ex_lazy n = true /\ (forall s, snd (ex_run (l ++ [Set_ Z n s])) = map (fun _ => None) l ++ [Some ReadOnly]) /\
  snd (ex_run (l ++ [o])) = map (fun _ => None) (l ++ [o]) /\ ex_show (l ++ [o]) (HNode n) <> ex_show l (HNode n).
Proof.
  exists 10, [Load Z 10 (L [txt "a"])], (Extend Z 10 [txt "b"]). split; [reflexivity|]. split; [intros [m|a|o]; reflexivity|]. split; [reflexivity|]. vm_compute. discriminate.
Qed.
Print Assumptions C61_lazy_refuted.
(** Finding: methods of the list other than append and extend (insert) are passed on to the list: what they put in is not made a string.  An
    array can be given another number of dimensions in place. *)
Theorem C61_in_place_refuted : (exists l o, ex_show l (HNode 0) = Some o /\ ~ fits (ex_ty 0) o) /\ (exists l o, ex_show l (HNode 2) = Some o /\ ~ fits (ex_ty 2) o).
Proof.
  split.
  - exists [Mutate Z (HNode 0) (L [IOther 5])], (L [IOther 5]). split; [reflexivity|]. cbn. intros H. destruct (H _ (or_introl eq_refl)) as (s & E). discriminate E.
  - exists [Set_ Z 2 (FromNew Z (OArr Z NFlt [4] [1; 2; 3; 4]%Z)); Mutate Z (HNode 2) (OArr Z NFlt [2; 2] [1; 2; 3; 4]%Z)], (OArr Z NFlt [2; 2] [1; 2; 3; 4]%Z). split; [reflexivity|]. cbn. intros (_ & E). discriminate E.
Qed.
Print Assumptions C61_in_place_refuted.
