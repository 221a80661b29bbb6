(** Model of imas/backends/netcdf/nc_metadata.py: the netCDF dimensions and coordinates of all quantities of an IDS.

    Paths are lists of names ("/".join, path_string: joined by '/').  Dictionaries of the code are association lists in order of insertion.
    The references in coordinate attributes are given as parsed paths (IDSPath, modelled in PathModel); references to other IDSs and
    invalid ones are not among them, as in the code (ids_coordinates.py:60-83).
    The recursion of _resolve_pending is bounded by Python's recursion limit: [fuel]. *)
From Verif Require Import Base TreeModel.

(** * Dictionaries *)
Section Dict.
Variables K V : Type.
Variable dec : forall a b : K, {a = b} + {a <> b}.
Fixpoint dget (k : K) (l : list (K * V)) : option V :=
  match l with [] => None | (k', v) :: t => if dec k k' then Some v else dget k t end.
Fixpoint dset (k : K) (v : V) (l : list (K * V)) : list (K * V) :=
  match l with [] => [(k, v)] | (k', w) :: t => if dec k k' then (k', v) :: t else (k', w) :: dset k v t end.
End Dict.
Arguments dget {K V}. Arguments dset {K V}.

Definition path := list str.
Definition path_dec : forall a b : path, {a = b} + {a <> b} := list_eq_dec str_dec.
Definition axis := (path * nat)%type.
Definition axis_dec : forall a b : axis, {a = b} + {a <> b}.
Proof. decide equality; [apply Nat.eq_dec|apply path_dec]. Defined.
Definition pget {V} := @dget path V path_dec.
Definition pset {V} := @dset path V path_dec.
Definition aget {V} := @dget axis V axis_dec.
Definition axset {V} := @dset axis V axis_dec.
Definition sget {V} := @dget str V str_dec.
Definition sset {V} := @dset str V str_dec.

Inductive nexn := KeyErr | IndexErr | AssertErr | Circular.

(** Coordinate attributes of one quantity: per dimension the references of its coordinate and of coordinate_same_as; alternative_coordinates. *)
Record nattr := { n_refs : nat -> list path; n_same : nat -> list path; n_alts : list path }.

Definition dotted (p : path) : str := join_with "."%char p.
Fixpoint prefixb (a b : path) : bool :=
  match a, b with [], _ => true | x :: a', y :: b' => str_eqb x y && prefixb a' b' | _, [] => false end.
(** ids_path.py:251-254 *)
Definition is_ancestor (a b : path) : bool := (length a <? length b) && prefixb a b.
(** ids_coordinates.py:94 with ids_path.py: the last part is "time" *)
Definition is_time_ref (p : path) : bool := str_eqb (last p []) (strs "time").
Definition is_time_coordinate (refs : list path) : bool := existsb is_time_ref refs.
Definition ndim (c : meta) : nat := match mkind c with KStruct => 0 | KAoS => 1 | KLeaf _ nd => nd end.
Definition is_aos (c : meta) : bool := match mkind c with KAoS => true | _ => false end.

(** 14-23 *)
Definition label_coordinates (p : path) (c : meta) : list str :=
  flat_map (fun nm => match List.find (fun d => str_eqb (mname d) nm) (mchildren c) with
                      | Some d => match mkind d with KLeaf STR 0 => [dotted (p ++ [nm])] | _ => [] end
                      | None => []
                      end) [strs "name"; strs "identifier"; strs "label"].

(** 45-66: the state while parsing *)
Record ncs := {
  time_dims : list str;                        (* a set *)
  ut : list (path * list (option str));        (* _ut_dims *)
  pend : list (axis * axis);                   (* _pending *)
  dimc : list (str * list str);                (* _dim_coordinates *)
  alts : list (path * list path);              (* _alternatives *)
  aosm : list (path * path);                   (* aos *)
  npaths : list path }.
Definition nc0 : ncs := {| time_dims := []; ut := []; pend := []; dimc := []; alts := []; aosm := []; npaths := [] |}.

Definition set_time (d : str) (s : ncs) : ncs := {| time_dims := d :: time_dims s; ut := ut s; pend := pend s; dimc := dimc s; alts := alts s; aosm := aosm s; npaths := npaths s |}.
Definition set_ut (p : path) (l : list (option str)) (s : ncs) : ncs := {| time_dims := time_dims s; ut := pset p l (ut s); pend := pend s; dimc := dimc s; alts := alts s; aosm := aosm s; npaths := npaths s |}.
Definition set_pend (a b : axis) (s : ncs) : ncs := {| time_dims := time_dims s; ut := ut s; pend := axset a b (pend s); dimc := dimc s; alts := alts s; aosm := aosm s; npaths := npaths s |}.
Definition set_dimc (d : str) (l : list str) (s : ncs) : ncs := {| time_dims := time_dims s; ut := ut s; pend := pend s; dimc := sset d l (dimc s); alts := alts s; aosm := aosm s; npaths := npaths s |}.
Definition set_alts (p : path) (l : list path) (s : ncs) : ncs := {| time_dims := time_dims s; ut := ut s; pend := pend s; dimc := dimc s; alts := pset p l (alts s); aosm := aosm s; npaths := npaths s |}.
Definition set_aos (p q : path) (s : ncs) : ncs := {| time_dims := time_dims s; ut := ut s; pend := pend s; dimc := dimc s; alts := alts s; aosm := pset p q (aosm s); npaths := npaths s |}.
Definition add_path (p : path) (s : ncs) : ncs := {| time_dims := time_dims s; ut := ut s; pend := pend s; dimc := dimc s; alts := alts s; aosm := aosm s; npaths := npaths s ++ [p] |}.

Definition is_some {A} (o : option A) : bool := match o with Some _ => true | None => false end.

Section NcMeta.
Variable at_ : path -> nattr.

(** 276-284 *)
Definition handle_alternatives (refs : list path) (s : ncs) : path * ncs :=
  match refs with
  | [] => ([], s)                                (* not reached: called with references only *)
  | main :: others =>
    match others with
    | [] => (main, s)
    | _ => match pget main (alts s) with
           | Some l => (main, set_alts main (l ++ others) s)
           | None => (main, set_alts main others s)
           end
    end
  end.

(** 200-206: names that end in _error_upper or _error_lower, without this suffix *)
Definition error_suffixes : list str := [strs "_error_upper"; strs "_error_lower"].
Definition strip_suffix (suf s : str) : option str :=
  let n := length s - length suf in
  if (length suf <=? length s) && str_eqb (skipn n s) suf then Some (firstn n s) else None.
Definition error_base (nm : str) : option str :=
  match strip_suffix (strs "_error_upper") nm with
  | Some b => Some b
  | None => strip_suffix (strs "_error_lower") nm
  end.
Definition error_of (p : path) : option path :=
  match rev p with
  | nm :: r => match error_base nm with Some b => Some (rev r ++ [b]) | None => None end
  | [] => None
  end.

Definition new_dim (d : str) (time : bool) (coords : list str) (s : ncs) : ncs :=
  set_dimc d coords (if time then set_time d s else s).

(** 211-260: one dimension of a quantity.  Result: the name of the dimension if it is created here *)
Definition parse_dim (c : meta) (p : path) (level i : nat) (s : ncs) : result nexn (option str * ncs) :=
  match n_refs (at_ p) i with
  | r0 :: _ =>
    if is_ancestor p r0 then Ok (Some (dotted r0), new_dim (dotted r0) (is_time_coordinate (n_refs (at_ p) i)) [dotted r0] s)
    else let x := handle_alternatives (n_refs (at_ p) i) s in Ok (None, set_pend (p, i) (fst x, 0) (snd x))
  | [] =>
    match n_same (at_ p) i with
    | [] =>
      let coords := if is_aos c then label_coordinates p c else [dotted p] in
      let time := str_eqb (mname c) (strs "time") in
      if negb (level + ndim c =? 1) || is_aos c then
        match nth_error ["i"; "j"; "k"; "l"; "m"; "n"]%char i with
        | None => Err IndexErr
        | Some x => let d := dotted p ++ [":"%char; x] in Ok (Some d, new_dim d time coords s)
        end
      else Ok (Some (dotted p), new_dim (dotted p) time coords s)
    | [r] => let x := handle_alternatives [r] s in Ok (None, set_pend (p, i) (fst x, i) (snd x))
    | _ => Err AssertErr
    end
  end.
Fixpoint parse_dims (c : meta) (p : path) (level : nat) (is : list nat) (s : ncs) : result nexn (list (option str) * ncs) :=
  match is with
  | [] => Ok ([], s)
  | i :: t => do x <- parse_dim c p level i s; do y <- parse_dims c p level t (snd x); Ok (fst x :: fst y, snd y)
  end.
Fixpoint set_pends (p q : path) (is : list nat) (s : ncs) : ncs :=
  match is with [] => s | i :: t => set_pends p q t (set_pend (p, i) (q, i) s) end.

(** 199-274 *)
Definition parse_dimensions (c : meta) (p : path) (level : nat) (s : ncs) : result nexn ncs :=
  match error_of p with
  | Some q => Ok (set_pends p q (seq 0 (ndim c)) (set_ut p (repeat None (ndim c)) s))
  | None =>
    do x <- parse_dims c p level (seq 0 (ndim c)) s;
    match n_alts (at_ p) with
    | [] => Ok (set_ut p (fst x) (snd x))
    | al =>
      let s1 := set_alts p (match pget p (alts (snd x)) with Some l => l ++ al | None => al end) (snd x) in
      match last (fst x) None with
      | None => Err KeyErr
      | Some d => match sget d (dimc s1) with
                  | None => Err KeyErr
                  | Some l => Ok (set_ut p (fst x) (set_dimc d (l ++ map dotted al) s1))
                  end
      end
    end
  end.

(** 132-150, one child *)
Definition parse_one (c : meta) (p : path) (parent : option path) (level : nat) (s : ncs) : result nexn ncs :=
  let s1 := add_path p s in
  let s2 := match parent with Some q => set_aos p q s1 | None => s1 end in
  match mkind c with
  | KStruct => Ok s2
  | _ => if 0 <? ndim c then parse_dimensions c p level s2
         else Ok (match parent with Some _ => set_ut p [] s2 | None => s2 end)
  end.
Fixpoint parse (m : meta) (names : path) (parent : option path) (level : nat) (s : ncs) {struct m} : result nexn ncs :=
  match m with
  | Meta _ _ cs =>
    (fix go cs s := match cs with
                    | [] => Ok s
                    | c :: t =>
                      let p := names ++ [mname c] in
                      do s1 <- parse_one c p parent level s;
                      do s2 <- match mkind c with
                               | KStruct => parse c p parent level s1
                               | KAoS => parse c p (Some p) (S level) s1
                               | KLeaf _ _ => Ok s1
                               end;
                      go t s2
                    end) cs s
  end.

(** 286-307 *)
Fixpoint merge_path (p : path) (al : list path) (s : ncs) : result nexn ncs :=
  match al with
  | [] => Ok s
  | a :: t =>
    match pget a (ut s) with
    | None => Err KeyErr
    | Some [None] => match aget (a, 0) (pend s) with
                     | None => Err KeyErr
                     | Some x => if axis_dec x (p, 0) then merge_path p t s else Err AssertErr
                     end
    | Some [Some _] => merge_path p t (set_pend (a, 0) (p, 0) (set_ut a [None] s))
    | Some _ => Err AssertErr
    end
  end.
Fixpoint add_missing (l new : list str) : list str :=
  match new with [] => l | x :: t => if in_dec str_dec x l then add_missing l t else add_missing (l ++ [x]) t end.
Definition merge_one (p : path) (al : list path) (s : ncs) : result nexn ncs :=
  match pget p (ut s) with
  | None => Err KeyErr
  | Some [_] =>
    do s1 <- merge_path p al s;
    match pget p (ut s1) with
    | Some (Some d :: _) => match sget d (dimc s1) with
                            | None => Err KeyErr
                            | Some l => Ok (set_dimc d (add_missing l (map dotted al)) s1)
                            end
    | Some (None :: _) => Err KeyErr
    | _ => Err IndexErr
    end
  | Some _ => Err AssertErr
  end.
Fixpoint merge_alternatives (l : list (path * list path)) (s : ncs) : result nexn ncs :=
  match l with [] => Ok s | (p, al) :: t => do s1 <- merge_one p al s; merge_alternatives t s1 end.

(** 309-328: one call of _resolve_pending on the dimensions; result: dimensions and what is still pending *)
Fixpoint set_nth {A} (i : nat) (x : A) (l : list A) : list A :=
  match l, i with [], _ => [] | _ :: t, 0 => x :: t | y :: t, S i => y :: set_nth i x t end.
Fixpoint resolve_round (items : list (axis * axis)) (d : list (path * list (option str))) : result nexn (list (path * list (option str)) * list (axis * axis)) :=
  match items with
  | [] => Ok (d, [])
  | (k, x) :: t =>
    match pget (fst x) d with
    | None => Err KeyErr
    | Some l => match nth_error l (snd x) with
                | None => Err IndexErr
                | Some None => do r <- resolve_round t d; Ok (fst r, (k, x) :: snd r)
                | Some (Some nm) =>
                  match pget (fst k) d with
                  | None => Err KeyErr
                  | Some lk => resolve_round t (pset (fst k) (set_nth (snd k) (Some nm) lk) d)
                  end
                end
    end
  end.
Fixpoint resolve_pending (fuel : nat) (items : list (axis * axis)) (d : list (path * list (option str))) : result nexn (list (path * list (option str))) :=
  match fuel with
  | 0 => Err Circular
  | S fuel => do r <- resolve_round items d;
              match snd r with [] => Ok (fst r) | items' => resolve_pending fuel items' (fst r) end
  end.

(** The finished object *)
Record ncmeta := { nc_dims : list (path * list str); nc_coords : list (path * list str); nc_aos : list (path * path); nc_paths : list path; nc_time : list str }.

(** 330-357.  The metadata of a path is found in the tree. *)
Fixpoint meta_at (m : meta) (p : path) : option meta :=
  match p with
  | [] => Some m
  | nm :: r => match List.find (fun d => str_eqb (mname d) nm) (mchildren m) with Some d => meta_at d r | None => None end
  end.
Fixpoint own_coordinates (p : path) (i : nat) (own : list (option str)) (dc : list (str * list str)) : result nexn (list str) :=
  match own with
  | [] => Ok []
  | o :: t =>
    match n_refs (at_ p) i with
    | [] => own_coordinates p (S i) t dc
    | _ => match match o with Some d => sget d dc | None => None end with
           | None => Err KeyErr
           | Some l => do r <- own_coordinates p (S i) t dc; Ok (l ++ r)
           end
    end
  end.
Definition dim_name (o : option str) : str := match o with Some d => d | None => [] end.
Fixpoint tensorize (m : meta) (items : list (path * list (option str))) (s : ncs) (dims coords : list (path * list str)) : result nexn (list (path * list str) * list (path * list str)) :=
  match items with
  | [] => Ok (dims, coords)
  | (p, own) :: t =>
    do a <- match pget p (aosm s) with
            | None => Ok ([], [])
            | Some q => match pget q dims with
                        | None => Err KeyErr
                        | Some d => Ok (d, match pget q coords with Some l => l | None => [] end)
                        end
            end;
    match meta_at m p with
    | None => Err KeyErr
    | Some c =>
      do oc <- own_coordinates p 0 own (dimc s);
      let cl := snd a ++ oc ++ (if is_aos c then label_coordinates p c else []) in
      tensorize m t s (pset p (fst a ++ map dim_name own) dims) (match cl with [] => coords | _ => pset p cl coords end)
    end
  end.

(** 40-90 *)
Definition nc_metadata (fuel : nat) (m : meta) : result nexn ncmeta :=
  do s <- parse m [] None 0 nc0;
  do s <- merge_alternatives (alts s) s;
  do d <- resolve_pending fuel (pend s) (ut s);
  do r <- tensorize m d s [] [];
  Ok {| nc_dims := fst r; nc_coords := snd r; nc_aos := aosm s; nc_paths := npaths s; nc_time := time_dims s |}.
End NcMeta.

(** 92-130; time_coordinates 85-87 *)
Definition before_colon (s : str) : str :=
  (fix go s := match s with [] => [] | x :: t => if Ascii.eqb x ":"%char then [] else x :: go t end) s.
Definition get_dimensions (r : ncmeta) (homogeneous : bool) (p : path) : list str :=
  match pget p (nc_dims r) with
  | None => []
  | Some l => if homogeneous then map (fun d => if in_dec str_dec d (nc_time r) then strs "time" else d) l else l
  end.
Definition get_coordinates (r : ncmeta) (homogeneous : bool) (p : path) : list str :=
  match pget p (nc_coords r) with
  | None => []
  | Some l => if homogeneous then map (fun d => if in_dec str_dec d (map before_colon (nc_time r)) then strs "time" else d) l else l
  end.
