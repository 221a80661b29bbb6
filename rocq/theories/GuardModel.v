(** The guard that makes metadata read-only: imas/ids_metadata.py 60-77 and 263-267.  Building metadata takes the guard away for the
    whole class; calls in several threads interleave.  The result of building is that of MetaModel.v. *)
From Verif Require Import Base MetaModel.

(** 263-264 [__setattr__] raises RuntimeError; [object.__setattr__] assigns *)
Inductive setter := Refuse | Assign.
(** ["__setattr__"] in the dictionary of the class *)
Definition slot := option setter.
(** [IDSMetadata.__setattr__]: without an own one, that of [object] *)
Definition lookup (s : slot) : setter := match s with Some f => f | None => Assign end.

(** what a call of [get_toplevel_metadata] gives: metadata, the exception of the definition, AttributeError of line 71, RuntimeError of line 264 *)
Inductive outcome := Built (t : mtree) | Wrong (e : me_exn) | NoAttribute | ReadOnly.
Definition of_definition (r : result me_exn mtree) : outcome := match r with Ok t => Built t | Err e => Wrong e end.

(** a call: how many attributes are assigned until it ends, and what the definition gives *)
Record job := { sets : nat; gives : result me_exn mtree }.
(** where it is: before line 70, 71, in 73 with that many assignments to go, before 76, after it *)
Inductive call := Start (j : job) | Saved (f : setter) (j : job) | Building (f : setter) (n : nat) (r : result me_exn mtree) | Restore (f : setter) (o : outcome) | Done (o : outcome).
Definition step (s : slot) (c : call) : option (slot * call) :=
  match c with
  | Start j => Some (s, Saved (lookup s) j)
  | Saved f j => match s with
                 | None => Some (s, Done NoAttribute)
                 | Some _ => Some (None, Building f (sets j) (gives j))
                 end
  | Building f (S n) r => match lookup s with
                          | Assign => Some (s, Building f n r)
                          | Refuse => Some (s, Restore f ReadOnly)
                          end
  | Building f O r => Some (s, Restore f (of_definition r))
  | Restore f o => Some (Some f, Done o)
  | Done _ => None
  end.

(** one call after another *)
Fixpoint complete (fuel : nat) (s : slot) (c : call) : slot * call :=
  match fuel with
  | O => (s, c)
  | S k => match step s c with Some (s', c') => complete k s' c' | None => (s, c) end
  end.
Definition call_once (s : slot) (j : job) : slot * call := complete (5 + sets j) s (Start j).
Fixpoint call_all (s : slot) (js : list job) : slot * list call :=
  match js with
  | [] => (s, [])
  | j :: r => let '(s, c) := call_once s j in let '(s, cs) := call_all s r in (s, c :: cs)
  end.

(** several calls at the same time: each step is one of any call *)
Inductive move : slot * list call -> slot * list call -> Prop :=
| move_one : forall s a c b s' c', step s c = Some (s', c') -> move (s, a ++ c :: b) (s', a ++ c' :: b).
Inductive moves : slot * list call -> slot * list call -> Prop :=
| moves_none : forall w, moves w w
| moves_more : forall w w' w'', moves w w' -> move w' w'' -> moves w w''.
