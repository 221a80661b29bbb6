(** Property theorems about IDS paths (C01, C02, C04). *)
From Verif Require Import Base PathModel PathSpec PathProofs PathProofs2 PathProofs3.

(** C01: a path printed from names and 0-based indices, in either style, parses to those names and indices. *)
Theorem C01_print_parse_roundtrip : forall (fortran : bool) (l : list step),
  l <> [] -> Forall (fun s => is_name (fst s)) l ->
  parse (print_steps fortran l) = Ok (map fst l, map step_index l).
Proof. exact print_parse. Qed.
Print Assumptions C01_print_parse_roundtrip.

Definition ex_steps : list step := [(strs "profiles_1d", Some 41%N); (strs "ion", Some 0%N); (strs "t_i", None)].
Example C01_example : ex_steps <> [] /\ Forall (fun s => is_name (fst s)) ex_steps
  /\ print_steps true ex_steps = strs "profiles_1d(42)/ion(1)/t_i"
  /\ print_steps false ex_steps = strs "profiles_1d[41]/ion[0]/t_i".
Proof.
  split; [discriminate|]. split; [|split; vm_compute; reflexivity].
  repeat constructor; apply valid_field_spec; vm_compute; reflexivity.
Qed.

(** C02: the parser accepts exactly the strings of the grammar, with the meaning given by the grammar. *)
Theorem C02_parse_grammar : forall s ps ix, parse s = Ok (ps, ix) <-> parses s ps ix.
Proof. exact parse_iff. Qed.
Print Assumptions C02_parse_grammar.

(** ... and whatever is accepted is well formed: one index per name, valid names at every nesting level, brackets of
    one style only and properly nested. *)
Theorem C02_accepted_wellformed : forall s ps ix, parse s = Ok (ps, ix) ->
  wf_path ps ix /\ length ps = length ix /\ Forall is_name ps /\ one_style s.
Proof.
  intros s ps ix H. apply parse_iff in H. split; [exact (parses_wf _ _ _ H)|].
  split; [exact (wf_path_length _ _ (parses_wf _ _ _ H))|]. split; [exact (parses_names _ _ _ H)|].
  exact (parses_brackets _ _ _ H).
Qed.
Print Assumptions C02_accepted_wellformed.

(** The bracket splitter computes the top-level decomposition, fails exactly when there is none, and always terminates. *)
Theorem C02_split_exact : forall o c s r, o <> c -> (split_on_matching_parens s o c = Ok r <-> splits o c s r).
Proof. exact split_correct. Qed.
Print Assumptions C02_split_exact.

Theorem C02_parser_terminates : forall s, parse s <> Err OutOfFuel.
Proof. intros s. rewrite parse_pparse. exact (pparse_no_fuel s). Qed.
Print Assumptions C02_parser_terminates.

Example C02_example_accept : exists p, parse (strs "a(b(i1)/c(2))/d(1:)/e") = Ok p.
Proof. eexists. vm_compute. reflexivity. Qed.
Example C02_example_reject : parse (strs "a(1]") = Err UnmatchedParens /\ parse (strs "a(1)/b[2]") = Err MixedStyle
  /\ parse (strs "a[1][2]") = Err EmptyNodeName /\ parse (strs "a__b") = Err InvalidNodeName.
Proof. repeat split; vm_compute; reflexivity. Qed.

(** C04: any history of constructions (including failed ones) leaves the outcome for a string unchanged. *)
Theorem C04_history_independent : forall (h : list str) (s : str),
  outcome (snd (ids_path (history empty_cache h) s)) = parse s.
Proof. exact history_independent. Qed.
Print Assumptions C04_history_independent.

(** ... and two accepted constructions give the same object iff they are for the same string. *)
Theorem C04_same_object : forall h1 h2 s1 s2 id1 p1 id2 p2,
  let ca1 := history empty_cache h1 in
  snd (ids_path ca1 s1) = Ok (id1, p1) ->
  snd (ids_path (history (fst (ids_path ca1 s1)) h2) s2) = Ok (id2, p2) ->
  (id1 = id2 <-> s1 = s2).
Proof. exact history_same_object. Qed.
Print Assumptions C04_same_object.

Example C04_example : let h := [strs "a["; strs "b(c(1)/d)/e"; strs "a/b"; strs "c(1)/d"] in
  outcome (snd (ids_path (history empty_cache h) (strs "c(1)/d"))) = Ok ([strs "c"; strs "d"], [INum 0; INone])
  /\ outcome (snd (ids_path (history empty_cache h) (strs "a["))) = Err UnmatchedParens.
Proof. split; vm_compute; reflexivity. Qed.

(** Ancestor test on parsed paths: proper prefix of the names. *)
Theorem C02_is_ancestor_of : forall p q, is_ancestor_of p q = true <-> exists n t, fst q = fst p ++ n :: t.
Proof. exact is_ancestor_spec. Qed.
Print Assumptions C02_is_ancestor_of.
