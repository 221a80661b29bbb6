(** Specification of resampling in time, without the interpolation functions of the model. *)
From Coq Require Import Sorting.Sorted.
From Verif Require Import Base TreeModel TreeSpec.

Definition strictly_increasing (x : list flt) : Prop := StronglySorted (fun a b => (f_key a < f_key b)%Z) x.

(** k is the index of the last time that is not later than t (the last such index if that time occurs more than once) *)
Definition latest (x : list flt) (t : flt) (k : nat) : Prop :=
  exists u, nth_error x k = Some u /\ (f_key u <= f_key t)%Z /\
    forall k' u', nth_error x k' = Some u' -> (f_key u' <= f_key t)%Z -> (f_key u' < f_key u)%Z \/ (f_key u' = f_key u /\ k' <= k).

(** t lies between the first and the last of the times x *)
Definition in_range (x : list flt) (t : flt) : Prop :=
  (exists u, In u x /\ (f_key u <= f_key t)%Z) /\ (exists u, In u x /\ (f_key t <= f_key u)%Z).

(** the array (sh', d') holds the time slices of (sh, d): for each new time the slice of the latest old time *)
Definition slices {A} (old new : list flt) (axis : nat) (sh : list nat) (d : list A) (sh' : list nat) (d' : list A) : Prop :=
  exists pre post, sh = pre ++ length old :: post /\ length pre = axis /\ sh' = pre ++ length new :: post /\ length d' = prod sh' /\
    forall q t k, nth_error new q = Some t -> latest old t k ->
      forall i j, i < prod pre -> j < prod post ->
        nth_error d' ((i * length new + q) * prod post + j) = nth_error d ((i * length old + k) * prod post + j).

Inductive resampled (old new : list flt) (axis : nat) : value -> value -> Prop :=
| rs_int : forall sh d sh' d', slices old new axis sh d sh' d' -> resampled old new axis (VIntA sh d) (VIntA sh' d')
| rs_flt : forall sh d sh' d', slices old new axis sh d sh' d' -> resampled old new axis (VFltA sh d) (VFltA sh' d')
| rs_cpx : forall sh d sh' d', slices old new axis sh d sh' d' -> resampled old new axis (VCpxA sh d) (VCpxA sh' d').
