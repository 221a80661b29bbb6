(** What reading into an IDS does to what is there already. *)
From Verif Require Import Base TreeModel TreeSpec.

(** Something has been read at [l]: the data node itself, or an array of structures that is at or around [l]. *)
Definition taken (m : meta) (g : node) (l : loc) : Prop := exists a b, l = a ++ b /\
  ((exists m' v, b = [] /\ is_leaf m' /\ node_at m g a m' (NLeaf (Some v))) \/ exists k, aos_at m g a k).
