(** Specification of lazy loading from netCDF files (C35): what an access gives for the fully loaded IDS, see LazySpec.seen. *)
From Verif Require Import Base TreeModel LazyModel LazySpec NcLazyModel.

(** an exception of an ordinary access *)
Definition lift (x : result lexn obs) : result qexn obs := match x with Ok o => Ok o | Err e => Err (QLazy e) end.
(** [shows m e path look x]: x is the result of an access to the fully loaded IDS e *)
Definition shows (m : meta) (e : node) (path : list acc) (look : bool) (x : result qexn obs) : Prop := exists y, seen m e path look y /\ x = lift y.
