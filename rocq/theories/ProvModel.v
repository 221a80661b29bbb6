(** Model of the provenance entry that a conversion adds: imas/ids_convert.py:632-668 (_add_provenance_entry); with
    imas/ids_struct_array.py:178-207 (resize with keep=True) and imas/ids_primitive.py:299-301 (append).

    The target is the state, as in ConvModel.v.  The time of the conversion is a parameter; log messages are left out. *)
From Verif Require Import Base PathModel TreeModel ValModel PrimModel ConvModel.

Section Prov.
Variable tm : meta.
Variable str_of : pyval -> str.
Variable parse_float : str -> option flt.
Variable parse_cpx : str -> option (flt * flt).
Variable flt_of_int : Z -> option flt.
Variable np_cast : dtype -> pyval -> result pexn value.
Variable array_items : value -> list pyval.
Notation assign := (assign tm str_of parse_float parse_cpx flt_of_int np_cast array_items).
Notation getattr := (getattr tm).
Notation cview := (cview tm).

(** [resize(k, keep=True)] *)
Definition resize_keep (l : loc) (k : nat) : CM unit :=
  fun s =>
    match look tm (c_tree s) l with
    | Some (Meta _ KAoS _, NAoS els) =>
      ({| c_tree := update tm (c_tree s) l (fun _ => NAoS (firstn k els ++ repeat (NStruct []) (k - length els))); c_shared := c_shared s |}, Ok tt)
    | _ => (s, Err CAttribute)
    end.
(** [append] of a list of strings *)
Definition append_str (l : loc) (p : pyval) : CM unit :=
  fun s =>
    match look tm (c_tree s) l with
    | Some (Meta _ (KLeaf STR (S _)) _, NLeaf old) =>
      let (v, r) := append str_of old p in
      ({| c_tree := update tm (c_tree s) l (fun _ => NLeaf v); c_shared := c_shared s |},
       match r with Ok _ => Ok tt | Err e => Err (CPrim e) end)
    | _ => (s, Err CAttribute)
    end.
(** [hasattr(node, name)] *)
Definition has_child (l : loc) (name : str) : CM bool :=
  doc i <- cview l;
  cret (match i with IStruct cs => match child_meta name cs with Some _ => true | None => false end | _ => false end).
Definition length_of (l : loc) : CM nat :=
  doc i <- cview l; match i with IAoS k => cret k | _ => cfail CType end.

(** the first node with an empty path, 643-645 *)
Fixpoint whole_node (a : loc) (i rest : nat) : CM (option nat) :=
  match rest with
  | O => cret None
  | S r =>
    doc p <- getattr (a ++ [Elem i]) (strs "path");
    doc v <- target_value tm p;
    match v with VStr [] => cret (Some i) | _ => whole_node a (S i) r end
  end.

(** 653-657 *)
Definition source_text (uri source_version target_version library_version : str) : str :=
  uri ++ strs "; This IDS has been converted from DD " ++ source_version ++ strs " to DD " ++ target_version ++ strs " by IMAS-Python " ++ library_version ++ strs ".".

(** 632-668; [stamp]: the time, as text *)
Definition add_provenance (text stamp : str) : CM unit :=
  doc ip <- getattr [] (strs "ids_properties");
  doc h <- has_child ip (strs "provenance");
  if negb h then cret tt else
  doc pv <- getattr ip (strs "provenance");
  doc a <- getattr pv (strs "node");
  doc k <- length_of a;
  doc o <- whole_node a 0 k;
  doc i <- match o with Some i => cret i | None => doc _ <- resize_keep a (S k); cret k end;
  doc h <- has_child (a ++ [Elem i]) (strs "reference");
  if h : bool then
    doc b <- getattr (a ++ [Elem i]) (strs "reference");
    doc j <- length_of b;
    doc _ <- resize_keep b (S j);
    doc c <- getattr (b ++ [Elem j]) (strs "name"); doc _ <- assign c None (PStr text);
    doc d <- getattr (b ++ [Elem j]) (strs "timestamp"); assign d None (PStr stamp)
  else
    doc c <- getattr (a ++ [Elem i]) (strs "sources"); append_str c (PStr text).
End Prov.
