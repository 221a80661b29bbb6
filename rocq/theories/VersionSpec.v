(** Which definition a factory should have. *)
From Verif Require Import Base TreeModel VersionModel.
From Verif Require VmapModel EndModel.

(** from the package with all released versions, or from a file *)
Inductive origin := Package (v : str) | InFile (p : str).
Definition empty (o : option str) : Prop := o = None \/ o = Some [].

Section Spec.
Variable bundled : list (str * xml).
Variable idsdef : str -> str.
Definition released (v : str) : Prop := exists x, In (v, x) bundled.
(** A requested version or file; otherwise the version that the environment names, from the package or else from its installation; otherwise the
    latest version. *)
Inductive wants (w : world) : option str -> option str -> origin -> Prop :=
| wants_version : forall v p, v <> [] -> empty p -> wants w (Some v) p (Package v)
| wants_path : forall v p, p <> [] -> empty v -> wants w v (Some p) (InFile p)
| wants_env : forall v p iv, empty v -> empty p -> w_version w = Some iv -> released iv -> wants w v p (Package iv)
| wants_prefix : forall v p iv pre, empty v -> empty p -> w_version w = Some iv -> ~ released iv -> w_prefix w = Some pre ->
    w_file w (idsdef pre) <> Missing -> wants w v p (InFile (idsdef pre))
| wants_latest : forall v p l lv x, empty v -> empty p ->
    (forall iv, w_version w = Some iv -> ~ released iv /\ forall pre, w_prefix w = Some pre -> w_file w (idsdef pre) = Missing) ->
    bundled = l ++ [(lv, x)] -> wants w v p (Package lv).
Definition contains (w : world) (g : origin) (x : xml) : Prop :=
  match g with Package v => In (v, x) bundled | InFile p => w_file w p = Good x end.
(** the version that a factory with definition x reports *)
Definition reports (version : option str) (x : xml) (v : str) : Prop :=
  (x_version x = Some v \/ (x_version x = None /\ version = Some v /\ v <> []) \/ (x_version x = None /\ empty version /\ v = strs "-1")) /\
  (forall u, version = Some u -> u <> [] -> u = v).
End Spec.
