(** What it means to assign a Python object to a scalar data node, and what an empty value is.  No functions of PrimModel.v are used. *)
From Verif Require Import Base TreeModel TreeSpec PrimModel.
From Verif Require NcEntryModel.

(** The float f is the number s * 2^e (which is how the format is defined); see TreeModel.f_frac, f_pow. *)
Definition finite (f : flt) : Prop := f_exp f <> 2047%Z.
(** z is f without its fractional part: |z| <= |f| < |z| + 1, and z has the sign of f (or is 0) *)
Definition truncates (f : flt) (z : Z) : Prop :=
  finite f /\
  let s := f_frac f in let e := f_pow f in
  ((0 <= e -> z = s * 2 ^ e) /\
   (e < 0 -> Z.abs z * 2 ^ (- e) <= Z.abs s < (Z.abs z + 1) * 2 ^ (- e) /\ 0 <= z * s))%Z.

Section Spec.
Variable str_of : pyval -> str.
Variable parse_float : str -> option flt.
Variable parse_cpx : str -> option (flt * flt).
Variable flt_of_int : Z -> option flt.

(** numbers that appear in p *)
Inductive holds_int : pyval -> Z -> Prop :=
| hi_int : forall z, holds_int (PInt z) z
| hi_true : holds_int (PBool true) 1
| hi_false : holds_int (PBool false) 0
| hi_node : forall dt z, holds_int (PNode dt 0 (VInt z)) z.
Inductive holds_flt : pyval -> flt -> Prop :=
| hf_flt : forall f, holds_flt (PFlt f) f
| hf_node : forall dt f, holds_flt (PNode dt 0 (VFlt f)) f.
Inductive holds_cpx : pyval -> flt -> flt -> Prop :=
| hc_cpx : forall r i, holds_cpx (PCpx r i) r i
| hc_node : forall dt r i, holds_cpx (PNode dt 0 (VCpx r i)) r i.
Inductive text : pyval -> str -> Prop :=
| tx_str : forall s, text (PStr s) s
| tx_bytes : forall s, text (PBytes (Some s)) s.
Definition textual (p : pyval) : Prop := (exists s, p = PStr s) \/ (exists s, p = PBytes s) \/ (exists s, p = PNode STR 0 (VStr s)).

Inductive means : dtype -> pyval -> value -> Prop :=
| mn_text : forall p s, text p s -> means STR p (VStr s)
| mn_text_node : forall s, means STR (PNode STR 0 (VStr s)) (VStr s)
| mn_repr : forall p, ~ textual p -> means STR p (VStr (str_of p))
| mn_int : forall p z, holds_int p z -> means INT p (VInt z)
| mn_trunc : forall p f z, holds_flt p f -> truncates f z -> means INT p (VInt z)
| mn_int_text : forall p s z, text p s -> NcEntryModel.py_int s = Some z -> (- 2 ^ 63 <= z < 2 ^ 64)%Z -> means INT p (VInt z)
| mn_flt : forall p f, holds_flt p f -> means FLT p (VFlt f)
| mn_flt_int : forall p z f, holds_int p z -> flt_of_int z = Some f -> means FLT p (VFlt f)
| mn_flt_text : forall p s f, text p s -> parse_float s = Some f -> is_nan f = false -> means FLT p (VFlt f)
| mn_cpx : forall p r i, holds_cpx p r i -> means CPX p (VCpx r i)
| mn_cpx_flt : forall p f, holds_flt p f -> means CPX p (VCpx f 0%Z)
| mn_cpx_int : forall p z f, holds_int p z -> flt_of_int z = Some f -> means CPX p (VCpx f 0%Z)
| mn_cpx_text : forall s r i, parse_cpx s = Some (r, i) -> is_nan r = false -> is_nan i = false -> means CPX (PStr s) (VCpx r i)
| mn_array : forall dt p v, dt <> STR -> means dt p v -> (forall q, p <> PNd q) -> means dt (PNd p) v.
End Spec.

(** the empty value of each type: ids_defs.py:148-151 *)
Inductive empty : dtype -> value -> Prop :=
| em_str : empty STR (VStr [])
| em_int : empty INT (VInt (-999999999))
| em_flt : forall f, same_flt f EMPTY_FLOAT -> empty FLT (VFlt f)
| em_cpx : forall r i, same_flt r EMPTY_FLOAT -> same_flt i EMPTY_FLOAT -> empty CPX (VCpx r i).
