(** Model of assignment to data nodes.
    Source: imas/ids_primitive.py (value getter and setter 155-194, _cast_value of the subclasses, list methods of IDSString1D).

    What is not modelled is given by parameters: [str(x)] of anything but a string, the parsers of float() and complex(),
    the rounding of large integers to floats, and the conversion of arrays by numpy.
    Simplified: a numpy array of one element and 1 or more dimensions is not accepted for a scalar (numpy has deprecated that);
    numpy scalars are the Python scalars they are equal to; log messages are left out. *)
From Verif Require Import Base TreeModel.
From Verif Require NcEntryModel.

(** Python objects that can be assigned.  [PBytes]: what decoding as UTF-8 gives, if it can be decoded; [PNd]: numpy array with 0
    dimensions; [PArr]: numeric numpy array with 1 or more dimensions; [PNode]: another data node and its [value]. *)
Inductive pyval :=
| PStr (s : str) | PBytes (s : option str) | PInt (z : Z) | PBool (b : bool) | PFlt (f : flt) | PCpx (re im : flt)
| PNone | PList (l : list pyval) | PNd (v : pyval) | PArr (v : value) | PNode (dt : dtype) (nd : nat) (v : value).
Inductive pexn := TypeErr | ValueErr | OverflowErr | IndexErr.

(** int(f) for a float *)
Definition trunc (f : flt) : result pexn Z :=
  if (f_exp f =? 2047)%Z then Err (if (f_man f =? 0)%Z then OverflowErr else ValueErr)
  else Ok (if (0 <=? f_pow f)%Z then f_frac f * 2 ^ f_pow f else Z.quot (f_frac f) (2 ^ (- f_pow f)))%Z.

Section Prim.
Variable str_of : pyval -> str.
Variable parse_float : str -> option flt.
Variable parse_cpx : str -> option (flt * flt).
Variable flt_of_int : Z -> option flt.                       (* None: OverflowError *)
Variable np_cast : dtype -> pyval -> result pexn value.      (* np.asarray(np.asanyarray(value), dtype) *)
Variable array_items : value -> list pyval.                  (* iteration over an array *)

Definition of_opt {A} (e : pexn) (o : option A) : result pexn A := match o with Some a => Ok a | None => Err e end.

(** 262-272 *)
Definition cast_str (p : pyval) : result pexn str :=
  match p with
  | PStr s => Ok s
  | PBytes (Some s) => Ok s
  | PBytes None => Err ValueErr
  | PNode STR 0 (VStr s) => Ok s                             (* __str__, 283-284 *)
  | p => Ok (str_of p)
  end.

(** python_type(value), ids_data_type.py:65-71 *)
Definition to_int (p : pyval) : result pexn Z :=
  match p with
  | PStr s | PBytes (Some s) => of_opt ValueErr (NcEntryModel.py_int s)
  | PBytes None => Err ValueErr
  | PInt z => Ok z
  | PBool b => Ok (if b then 1 else 0)%Z
  | PFlt f => trunc f
  | PNode _ O (VInt z) => Ok z
  | PNode _ O (VFlt f) => trunc f
  | _ => Err TypeErr
  end.
Definition int_to_flt (z : Z) : result pexn flt := of_opt OverflowErr (flt_of_int z).
Definition to_flt (p : pyval) : result pexn flt :=
  match p with
  | PStr s | PBytes (Some s) => of_opt ValueErr (parse_float s)
  | PBytes None => Err ValueErr
  | PInt z => int_to_flt z
  | PBool b => int_to_flt (if b then 1 else 0)%Z
  | PFlt f => Ok f
  | PNode _ O (VInt z) => int_to_flt z
  | PNode _ O (VFlt f) => Ok f
  | _ => Err TypeErr
  end.
Definition to_cpx (p : pyval) : result pexn (flt * flt) :=
  match p with
  | PStr s => of_opt ValueErr (parse_cpx s)
  | PBytes _ => Err TypeErr
  | PCpx r i => Ok (r, i)
  | PNode _ O (VCpx r i) => Ok (r, i)
  | p => match to_flt p with Ok f => Ok (f, 0%Z) | Err e => Err e end
  end.
Definition python_type (dt : dtype) (p : pyval) : result pexn value :=
  match dt with
  | STR => match cast_str p with Ok s => Ok (VStr s) | Err e => Err e end
  | INT => match to_int p with Ok z => Ok (VInt z) | Err e => Err e end
  | FLT => match to_flt p with Ok f => Ok (VFlt f) | Err e => Err e end
  | CPX => match to_cpx p with Ok (r, i) => Ok (VCpx r i) | Err e => Err e end
  end.

(** 357-364.  The check whether to log a message raises a TypeError itself: np.isnan is not defined for strings, nor for
    integers that do not fit in 64 bits; it is evaluated only when the value has changed, which for these casts is the case
    for text only. *)
Definition is_text (p : pyval) : bool := match p with PStr _ | PBytes _ => true | _ => false end.
Definition not_isnan_able (v : value) : bool :=
  match v with
  | VInt z => (z <? - 2 ^ 63)%Z || (2 ^ 64 <=? z)%Z          (* np.isnan(cast_value) *)
  | VFlt f => is_nan f                                       (* np.isnan(value) *)
  | VCpx r i => is_nan r || is_nan i
  | _ => false
  end.
Definition cast_num (dt : dtype) (p : pyval) : result pexn value :=
  let p := match p with PNd v => v | p => p end in           (* value.item() *)
  match python_type dt p with
  | Ok v => if is_text p && not_isnan_able v then Err TypeErr else Ok v
  | Err e => Err e
  end.

(** 325-333.  Iterating over a data node iterates over its value (148-149); strings are iterated by character. *)
Definition items (p : pyval) : option (list pyval) :=
  match p with
  | PList l => Some l
  | PArr v => Some (array_items v)
  | PNode _ _ (VStr s) => Some (map (fun c => PStr [c]) s)
  | PNode _ _ (VStrs l) => Some (map PStr l)
  | PNode _ _ ((VIntA _ _ | VFltA _ _ | VCpxA _ _) as v) => Some (array_items v)
  | _ => None
  end.
Fixpoint cast_strs (l : list pyval) : result pexn (list str) :=
  match l with
  | [] => Ok []
  | x :: t => match cast_str x with
              | Ok s => match cast_strs t with Ok ss => Ok (s :: ss) | Err e => Err e end
              | Err e => Err e
              end
  end.
Definition cast_list (p : pyval) : result pexn value :=
  match items p with
  | Some l => match cast_strs l with Ok ss => Ok (VStrs ss) | Err e => Err e end
  | None => match cast_str p with Ok s => Ok (VStrs [s]) | Err e => Err e end
  end.

(** 503-516 *)
Definition cast_array (dt : dtype) (nd : nat) (p : pyval) : result pexn value :=
  match np_cast dt p with
  | Ok v => if length (value_shape v) =? nd then Ok v else Err ValueErr
  | Err e => Err e
  end.

Definition cast_value (dt : dtype) (nd : nat) (p : pyval) : result pexn value :=
  match dt, nd with
  | STR, O => python_type STR p
  | STR, S _ => cast_list p
  | _, O => cast_num dt p
  | _, S _ => cast_array dt nd p
  end.

Definition dtype_eqb (a b : dtype) : bool :=
  match a, b with STR, STR | INT, INT | FLT, FLT | CPX, CPX => true | _, _ => false end.
(** isinstance(setter_value, type(self)) *)
Definition same_class (dt : dtype) (nd : nat) (dt' : dtype) (nd' : nat) : bool :=
  match nd, nd' with
  | O, O => dtype_eqb dt dt'
  | S _, S _ => match dt, dt' with STR, STR => true | STR, _ | _, STR => false | _, _ => true end
  | _, _ => false
  end.
Definition of_value (v : value) : pyval :=
  match v with
  | VStr s => PStr s | VInt z => PInt z | VFlt f => PFlt f | VCpx r i => PCpx r i
  | VStrs l => PList (map PStr l) | v => PArr v
  end.
(** comparison with the empty value, 192-194 *)
Definition is_empty (dt : dtype) (v : value) : bool :=
  match dt, v with
  | STR, VStr s => str_eqb s []
  | INT, VInt z => (z =? EMPTY_INT)%Z
  | FLT, VFlt f => feq f EMPTY_FLOAT
  | CPX, VCpx r i => feq r EMPTY_FLOAT && feq i EMPTY_FLOAT
  | _, _ => false
  end.

(** the value setter, 171-194; [st] is [__value] *)
Definition assigned (dt : dtype) (nd : nat) (p : pyval) : result pexn value :=
  match p with
  | PNode dt' nd' v =>
    if same_class dt nd dt' nd' then
      if dtype_eqb dt dt' && (nd =? nd') then Ok v else cast_value dt nd (of_value v)
    else cast_value dt nd p
  | p => cast_value dt nd p
  end.
Definition set_value (lazy : bool) (dt : dtype) (nd : nat) (st : option value) (p : pyval) : option value * result pexn unit :=
  if lazy then (st, Err ValueErr) else
  match assigned dt nd p with
  | Ok v => (if (nd =? 0) && is_empty dt v then None else Some v, Ok tt)
  | Err e => (st, Err e)
  end.
(** the getter, 155-169 *)
Definition get_value (dt : dtype) (nd : nat) (st : option value) : option value * value :=
  match st with
  | Some v => (st, v)
  | None => match nd with O => (None, default_value dt 0) | S _ => (Some (default_value dt nd), default_value dt nd) end
  end.

(** list methods of a list of strings, 306-323 *)
Definition list_of (v : value) : list str := match v with VStrs l => l | _ => [] end.
Definition append (st : option value) (p : pyval) : option value * result pexn unit :=
  let (st', v) := get_value STR 1 st in
  match cast_str p with
  | Ok s => (Some (VStrs (list_of v ++ [s])), Ok tt)
  | Err e => (st', Err e)
  end.
(** [list.extend] of a generator: the items before an error are kept *)
Fixpoint extend_list (acc : list str) (l : list pyval) : list str * result pexn unit :=
  match l with
  | [] => (acc, Ok tt)
  | x :: t => match cast_str x with Ok s => extend_list (acc ++ [s]) t | Err e => (acc, Err e) end
  end.
(* bytes, which are iterated as integers, are left out *)
Definition extend (st : option value) (p : pyval) : option value * result pexn unit :=
  let (st', v) := get_value STR 1 st in
  match (match p with PStr s => Some (map (fun c => PStr [c]) s) | p => items p end) with
  | Some l => let (acc, r) := extend_list (list_of v) l in (Some (VStrs acc), r)
  | None => (st', Err TypeErr)
  end.
Definition py_pos (z : Z) (k : nat) : option nat :=
  if (0 <=? z)%Z && (z <? Z.of_nat k)%Z then Some (Z.to_nat z)
  else if (- Z.of_nat k <=? z)%Z && (z <? 0)%Z then Some (Z.to_nat (z + Z.of_nat k)) else None.
Definition setitem (st : option value) (i : Z) (p : pyval) : option value * result pexn unit :=
  match cast_str p with
  | Err e => (st, Err e)
  | Ok s =>
    let (st', v) := get_value STR 1 st in
    match py_pos i (length (list_of v)) with
    | Some j => (Some (VStrs (list_set j s (list_of v))), Ok tt)
    | None => (st', Err IndexErr)
    end
  end.

(** Histories *)
Inductive op := OAssign (p : pyval) | ORead | OAppend (p : pyval) | OExtend (p : pyval) | OSetItem (i : Z) (p : pyval).
Definition step (dt : dtype) (nd : nat) (st : option value) (o : op) : option value :=
  match o with
  | OAssign p => fst (set_value false dt nd st p)
  | ORead => fst (get_value dt nd st)
  | OAppend p => fst (append st p)
  | OExtend p => fst (extend st p)
  | OSetItem i p => fst (setitem st i p)
  end.
Definition run (dt : dtype) (nd : nat) (ops : list op) : option value := fold_left (step dt nd) ops None.
End Prim.
