(** What the content hash is about, independent of the encoding. *)
From Coq Require Import Permutation.
From Verif Require Import Base TreeModel TreeSpec HashModel.

(** Locations inside ids_properties/version_put *)
Inductive masked : meta -> loc -> Prop :=
| mk_here : forall cs l, masked (Meta (strs "ids_properties") KStruct cs) (Child (strs "version_put") :: l)
| mk_child : forall nm cs c l, In c cs -> masked c l -> masked (Meta nm KStruct cs) (Child (mname c) :: l)
| mk_elem : forall nm cs i l, masked (Meta nm KStruct cs) l -> masked (Meta nm KAoS cs) (Elem i :: l).

(** Same filled values bit by bit, same array sizes, same non-empty children, all outside version_put. *)
Record same_hashed (m : meta) (n1 n2 : node) : Prop := {
  sh_leaf : forall l v, ~ masked m l -> (leaf_at m n1 l v <-> leaf_at m n2 l v);
  sh_size : forall l k, ~ masked m l -> (aos_at m n1 l k <-> aos_at m n2 l k);
  sh_present : forall l x, ~ masked m (l ++ [Child x]) -> (present m n1 (l ++ [Child x]) <-> present m n2 (l ++ [Child x]))
}.

(** The value can be held by a numpy array of its type (int32, 64-bit floats). *)
Definition is_flt (f : flt) : Prop := (0 <= f < 2 ^ 64)%Z.
Definition storable (v : value) : Prop :=
  match v with
  | VFlt f => is_flt f
  | VCpx r i => is_flt r /\ is_flt i
  | VIntA _ d => Forall (fun z => - 2 ^ 31 <= z < 2 ^ 31)%Z d
  | VFltA _ d => Forall is_flt d
  | VCpxA _ d => Forall (fun c => is_flt (fst c) /\ is_flt (snd c)) d
  | VStr _ | VInt _ | VStrs _ => True
  end.
Definition all_storable (m : meta) (n : node) : Prop := forall l v, leaf_at m n l v -> storable v.

(** [hashed H m n x]: x is one of the byte strings given to the hash function when the hash of n is computed. *)
Inductive hashed (H : str -> str) : meta -> node -> str -> Prop :=
| hd_node : forall m n l m' n' x, ~ masked m l -> node_at m n l m' n' -> nonempty m' n' \/ is_elem l \/ l = [] -> enc H m' n' = Ok x ->
    hashed H m n x
| hd_str : forall m n l ss x, ~ masked m l -> leaf_at m n l (VStrs ss) -> In x ss -> hashed H m n x.

(** Two different strings among them with the same digest *)
Definition collision (H : str -> str) (m : meta) (n1 n2 : node) : Prop :=
  exists x y, hashed H m n1 x /\ hashed H m n2 y /\ x <> y /\ H x = H y.

(** Names of two children of one structure, one a proper prefix of the other, and a digest that continues the shorter name
    like the longer one (as far as it goes).  There is no separator between names and digests. *)
Inductive sub_meta : meta -> meta -> Prop :=
| sm_refl : forall m, sub_meta m m
| sm_child : forall n k cs c m', In c cs -> sub_meta c m' -> sub_meta (Meta n k cs) m'.
Definition common_start (a b : str) : Prop := exists t u, a ++ t = b ++ u.
Definition confusion (H : str -> str) (m : meta) (n1 n2 : node) : Prop :=
  exists m' c c' r x, sub_meta m m' /\ In c (mchildren m') /\ In c' (mchildren m') /\ mname c' = mname c ++ r /\ r <> [] /\
    (hashed H m n1 x \/ hashed H m n2 x) /\ common_start (H x) r.

(** The same dictionary with the children listed in another order *)
Inductive reorder : meta -> meta -> Prop :=
| ro : forall n k cs cs' cs'', Permutation cs cs'' -> Forall2 reorder cs'' cs' -> reorder (Meta n k cs) (Meta n k cs').
