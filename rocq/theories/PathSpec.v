(** Specification of IDS paths, independent of the parsing functions of PathModel. *)
From Verif Require Import Base PathModel.

(** Properly nested strings over one kind of bracket. *)
Inductive balanced (o c : ascii) : str -> Prop :=
| bal_nil : balanced o c []
| bal_chr : forall x s, x <> o -> x <> c -> balanced o c s -> balanced o c (x :: s)
| bal_wrap : forall i s, balanced o c i -> balanced o c s -> balanced o c (o :: i ++ c :: s).

(** [splits o c s r]: r = [before_first, inside, between, inside, ..., after_last] for the top-level brackets of s. *)
Inductive splits (o c : ascii) : str -> list str -> Prop :=
| splits_last : forall p, ~ In o p -> splits o c p [p]
| splits_cons : forall p i rest r,
    ~ In o p -> ~ In c p -> balanced o c i -> splits o c rest r ->
    splits o c (p ++ o :: i ++ c :: rest) (p :: i :: r).

(** A data dictionary node name: lower case letter, then lower case letters, digits and underscores, but no two
    consecutive underscores. *)
Definition name_char (x : ascii) : Prop := is_lower x = true \/ is_digit x = true \/ x = "_"%char.
Definition is_name (s : str) : Prop :=
  exists x t, s = x :: t /\ is_lower x = true /\ (forall y, In y t -> name_char y)
              /\ ~ exists u v, s = u ++ "_"%char :: "_"%char :: v.

(** A step: a node name with an optional (0-based) index. *)
Definition step := (str * option N)%type.

(** Printing of steps in Python style [name[i]/...] and in Fortran style [name(i+1)/...]. *)
Definition print_step (fortran : bool) (s : step) : str :=
  match snd s with
  | None => fst s
  | Some i => fst s ++ (if fortran then "("%char :: show_N (i + 1) ++ [")"%char]
                        else "["%char :: show_N i ++ ["]"%char])
  end.
Fixpoint print_steps (fortran : bool) (l : list step) : str :=
  match l with
  | [] => []
  | [s] => print_step fortran s
  | s :: t => print_step fortran s ++ "/"%char :: print_steps fortran t
  end.

Definition step_index (s : step) : index := match snd s with None => INone | Some i => INum (Z.of_N i) end.

(** Indices that contain a well formed path: every nested path is made of valid names, one index per name. *)
Inductive wf_path : list str -> list index -> Prop :=
| wf_nil : wf_path [] []
| wf_cons : forall n i ns is, is_name n -> wf_index i -> wf_path ns is -> wf_path (n :: ns) (i :: is)
with wf_index : index -> Prop :=
| wf_none : wf_index INone
| wf_gen : forall s, wf_index (IGen s)
| wf_num : forall z, wf_index (INum z)
| wf_slice : forall a b, wf_index (ISlice a b)
| wf_ipath : forall ps ix, wf_path ps ix -> wf_index (IPath ps ix).

(** ** Grammar of IDS paths, with the meaning of each accepted string. *)
Definition digits (s : str) : Prop := forall x, In x s -> is_digit x = true.

(** A generic (placeholder) index. *)
Definition generic (s : str) : Prop := s = strs "itime" \/ exists d, is_digit d = true /\ s = ["i"%char; d].

(** Names between two brackets: an optional leading '/', then names separated by '/'. *)
Inductive names_of : str -> list str -> Prop :=
| names_plain : forall l, l <> [] -> Forall is_name l -> names_of (join_with "/" l) l
| names_slash : forall l, l <> [] -> Forall is_name l -> names_of ("/"%char :: join_with "/" l) l.

Definition bound (fortran : bool) (s : str) : option Z :=
  match s with [] => None | _ => Some (Z.of_N (dec_value s) - (if fortran then 1 else 0))%Z end.

Inductive parses : str -> list str -> list index -> Prop :=
| parses_python : forall s pieces ps ix,
    ~ In "("%char s -> splits "[" "]" s pieces -> pieces_path false pieces ps ix -> parses s ps ix
| parses_fortran : forall s pieces ps ix,
    In "("%char s -> ~ In "["%char s -> splits "(" ")" s pieces -> pieces_path true pieces ps ix -> parses s ps ix
with pieces_path : bool -> list str -> list str -> list index -> Prop :=
| pp_empty : forall f, pieces_path f [[]] [] []
| pp_last : forall f last l, names_of last l -> pieces_path f [last] l (repeat INone (length l))
| pp_index : forall f part idx rest l n i ps ix,
    names_of part (l ++ [n]) -> index_of f idx i -> pieces_path f rest ps ix ->
    pieces_path f (part :: idx :: rest) (l ++ n :: ps) (repeat INone (length l) ++ i :: ix)
with index_of : bool -> str -> index -> Prop :=
| io_generic : forall f s, generic s -> index_of f s (IGen s)
| io_number : forall f s, s <> [] -> digits s ->
    index_of f s (INum (Z.of_N (dec_value s) - (if f then 1 else 0))%Z)
| io_slice : forall f a b, digits a -> digits b ->
    index_of f (a ++ ":"%char :: b) (ISlice (bound f a) (bound false b))
| io_path : forall f s ps ix, ~ generic s -> parses s ps ix -> index_of f s (IPath ps ix).

Scheme parses_ind3 := Minimality for parses Sort Prop
  with pieces_path_ind3 := Minimality for pieces_path Sort Prop
  with index_of_ind3 := Minimality for index_of Sort Prop.
Combined Scheme parses_mutind from parses_ind3, pieces_path_ind3, index_of_ind3.

(** A history of path constructions (successful or failing), starting from an empty cache. *)
Fixpoint history (ca : cache) (h : list str) : cache :=
  match h with [] => ca | s :: t => history (fst (ids_path ca s)) t end.

Definition outcome (r : result path_exn (nat * path)) : result path_exn path :=
  match r with Ok (_, p) => Ok p | Err e => Err e end.

(** Brackets of a single style only, properly nested. *)
Definition one_style (s : str) : Prop :=
  (balanced "[" "]" s /\ ~ In "("%char s /\ ~ In ")"%char s)
  \/ (balanced "(" ")" s /\ ~ In "["%char s /\ ~ In "]"%char s).

