(** Specification of opening a data entry (C60): which parameters of a function get which arguments, the documented form of the URI of a
    data entry, and what may be done to the environment. *)
From Verif Require Import Base OpenModel.

(** [takes ps args kw vs]: a Python call with positional arguments [args] and keyword arguments [kw] gives the parameters [ps] (name, default)
    the values [vs]: each of them is given once, by position or by name, or has its default; and nothing else is given *)
Definition takes {A} (ps : list (str * option A)) (args : list A) (kw : list (str * A)) (vs : list A) : Prop :=
  length args <= length ps /\ (forall n v, In (n, v) kw -> exists i d, length args <= i /\ nth_error ps i = Some (n, d)) /\ length vs = length ps /\
  forall i n d v, nth_error ps i = Some (n, d) -> nth_error vs i = Some v ->
    nth_error args i = Some v \/ (length args <= i /\ (In (n, v) kw \/ (~ In n (map fst kw) /\ d = Some v))).
(** the two forms of the constructor, db_entry.py:74-99 *)
Definition uri_form : list (str * option arg) := [(strs "uri", None); (strs "mode", None)].
Definition legacy_form : list (str * option arg) :=
  [(strs "backend_id", None); (strs "db_name", None); (strs "pulse", None); (strs "run", None); (strs "user_name", Some ANone); (strs "data_version", Some ANone)].
(** shot is another name of pulse *)
Definition as_pulse (kw : list (str * arg)) : list (str * arg) := map (fun k => (if str_eqb (fst k) (strs "shot") then strs "pulse" else fst k, snd k)) kw.

(** The URI imas:backend?name=value;name=value#fragment, or with //host/ before the backend; options are separated by ; or & (or ?) *)
Definition blank : list ascii := ["009"; "010"; "013"]%char.
Definition without (bad : list ascii) (s : str) : Prop := forall c, In c s -> ~ In c (blank ++ bad).
Definition option_text (o : str * str) : str := fst o ++ "="%char :: snd o.
Fixpoint more_text (l : list (ascii * (str * str))) : str := match l with [] => [] | (c, o) :: l => c :: option_text o ++ more_text l end.
Inductive imas_uri (backend : str) : list (str * str) -> str -> Prop :=
| imas_uri_intro : forall host first more frag,
    without ["?"; "#"; "/"]%char backend -> (forall h, host = Some h -> without ["/"; "?"; "#"; "["; "]"]%char h) ->
    (forall o, In o (first :: map snd more) -> without ["="; "&"; ";"; "?"; "#"]%char (fst o) /\ without ["&"; ";"; "?"; "#"]%char (snd o)) ->
    (forall c, In c (map fst more) -> In c ["&"; ";"; "?"]%char) ->
    imas_uri backend (first :: map snd more)
      (strs "imas:" ++ match host with Some h => strs "//" ++ h ++ strs "/" | None => [] end ++ backend ++ "?"%char :: option_text first ++ more_text more ++
       match frag with Some f => "#"%char :: f | None => [] end).
(** the value of an option: the last one that is given *)
Definition last_value (opts : list (str * str)) (n v : str) : Prop := exists l1 l2, opts = l1 ++ (n, v) :: l2 /\ ~ In n (map fst l2).
(** the same name in small letters *)
Definition small (c d : ascii) : Prop :=
  (exists i, (i < 26)%N /\ c = ascii_of_N (65 + i) /\ d = ascii_of_N (97 + i)) \/ (~ (exists i, (i < 26)%N /\ c = ascii_of_N (65 + i)) /\ d = c).
(** the documented modes, db_entry.py:118-131 *)
Inductive mode_of : str -> pmode -> Prop :=
| mode_r : mode_of (strs "r") Open | mode_a : mode_of (strs "a") ForceOpen | mode_w : mode_of (strs "w") ForceCreate | mode_x : mode_of (strs "x") Create.
(** what opening with a backend may change in the environment *)
Definition may_set (backend : str) (m : pmode) (n : str) : Prop :=
  (backend = strs "mdsplus" /\ m <> Open /\ n = strs "ids_path") \/ (backend = strs "uda" /\ n = strs "IDSDEF_PATH").
