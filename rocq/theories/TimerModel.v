(** Model of imas/command/timer.py: the timings shown by [imas convert --timeit].  Durations are integers (a unit of time; rounding
    of floating point numbers and the formatting with three decimals are not modelled). *)
From Verif Require Import Base.
Open Scope Z_scope.

(** 31-34; two axes (others: [get_table] raises NotImplementedError, 77-78).  Dictionaries in order of insertion. *)
Record timer := { cols : list (str * unit); rows : list (str * unit); data : list ((str * str) * Z) }.
Definition init : timer := {| cols := []; rows := []; data := [] |}.
Definition pair_eqb (a b : str * str) : bool := str_eqb (fst a) (fst b) && str_eqb (snd a) (snd b).
Fixpoint plookup (k : str * str) (l : list ((str * str) * Z)) : option Z :=
  match l with [] => None | (k', v) :: t => if pair_eqb k k' then Some v else plookup k t end.
Fixpoint pset (k : str * str) (v : Z) (l : list ((str * str) * Z)) : list ((str * str) * Z) :=
  match l with [] => [(k, v)] | (k', v') :: t => if pair_eqb k k' then (k', v) :: t else (k', v') :: pset k v t end.

(** 36-44 [__call__], a context manager: a block [with timer(c, r): ...] that ends after a time, or (None) with an exception, which
    is raised at the [yield] so that the statements after it are not reached *)
Definition block (t : timer) (b : (str * str) * option Z) : timer :=
  match b with
  | (_, None) => t
  | ((c, r), Some d) => {| cols := aset c tt (cols t); rows := aset r tt (rows t); data := pset (c, r) d (data t) |}
  end.
(** Blocks in the order in which they end (blocks may be nested) *)
Definition run (l : list ((str * str) * option Z)) : timer := fold_left block l init.

(** 46-76 [get_table]: columns with their totals; for every row the name and the cells (None: "-").  None: a KeyError. *)
Definition totals (t : timer) : option (list (str * Z)) :=
  fold_left (fun acc e => match acc with
                          | None => None
                          | Some tot => match alookup (fst (fst e)) tot with
                                        | Some x => Some (aset (fst (fst e)) (x + snd e) tot)
                                        | None => None
                                        end
                          end) (data t) (Some (map (fun c => (fst c, 0)) (cols t))).
Definition columns (t : timer) : option (list (str * option Z)) :=
  option_map (fun tot => map (fun c => (fst c, alookup (fst c) tot)) (cols t)) (totals t).
Definition body (t : timer) : list (str * list (option Z)) :=
  map (fun r => (fst r, map (fun c => plookup (fst c, fst r) (data t)) (cols t))) (rows t).
