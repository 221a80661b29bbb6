(** Data nodes as operands: imas/ids_primitive.py:24-53, 192-229, 319-390, 426-466.  What Python and numpy do with plain objects is a
    parameter; how Python finds the method that handles [a op b] is modelled (Python Reference Manual, 3.3.8 "Emulating numeric types" and
    3.3.1 "rich comparison"; numpy: binary operators of arrays and numpy scalars call the ufunc, which asks [__array_ufunc__] of its
    operands and converts operands without it by [__array__]). *)
From Verif Require Import Base.

Inductive cmp := Eq | Ne | Lt | Le | Gt | Ge.
Inductive nop := Add | Sub | Mul | MatMul | TrueDiv | FloorDiv | Mod | DivMod | Pow | LShift | RShift | And | Xor | Or.
Inductive bop := Cmp (c : cmp) | Num (k : nop).
Inductive uop := Neg | Pos | Abs | Invert.
(** the method of the other operand that Python tries for a comparison *)
Definition mirror (c : cmp) : cmp := match c with Eq => Eq | Ne => Ne | Lt => Gt | Le => Ge | Gt => Lt | Ge => Le end.

(** Classes of plain objects: [Number]: int, float, complex; [Text]: str; [Plain]: list and others whose operators return NotImplemented for
    objects they do not know; [Array]: numpy.ndarray; [Scalar]: numpy scalars that are registered as numbers; [NpBool]: numpy.bool_, which
    is not. *)
Inductive cls := Number | Text | Plain | Array | Scalar | NpBool.
(** Classes of data nodes: IDSNumeric0D (int, float, complex), IDSString0D and IDSString1D, IDSNumericArray *)
Inductive kind := Numeric0D | Strings | Arrays.
Inductive exn := Raised (e : nat) (* by the operation on plain objects *) | TypeErr | ReadOnly (* ValueError: lazy loaded *) | NoAttribute.

Section Operators.
Variable V : Type.                                   (* plain objects *)
Variable class_of : V -> cls.
Variable prim : bop -> V -> V -> result exn V.       (* v op w *)
Variable prim1 : uop -> V -> result exn V.
Variable prim_in : V -> V -> result exn bool.        (* w in v *)
Variable item : V -> V -> result exn V.              (* v[i] *)
Variable truth : V -> result exn bool.               (* bool(v) *)
Variable len : V -> nat.
Variable zero : V.                                   (* the int 0 *)
Variable format : V -> V -> kind -> result exn V.    (* str % node *)
Variable zero_d : V -> V.                            (* numpy.array(v) of a number *)

Record node := { n_kind : kind; n_val : option V; n_default : V; n_lazy : bool }.
(** 154-166; that an unset array is set to its default, which is empty, is left out (see AliasModel) *)
Definition value (n : node) : V := match n_val n with Some v => v | None => n_default n end.

Inductive operand := P (v : V) | N (n : node).
(** [other.value if isinstance(other, IDSPrimitive) else other] *)
Definition unwrap (x : operand) : V := match x with P v => v | N n => value n end.

(** 24-31, 34-41, 48-53 *)
Definition binary_wrapper (o : bop) (self : node) (other : operand) : result exn V := prim o (value self) (unwrap other).
Definition reflected_wrapper (k : nop) (self : node) (other : operand) : result exn V := prim (Num k) (unwrap other) (value self).
Definition unary_wrapper (u : uop) (self : node) : result exn V := prim1 u (value self).

(** IDSNumericArray.__array_ufunc__, 440-465, without [out]; a ufunc raises TypeError when all return NotImplemented *)
Definition handled (x : operand) : bool :=
  match x with N _ => true | P v => match class_of v with Array | Scalar | Number => true | Text | Plain | NpBool => false end end.
Definition array_ufunc (o : bop) (x y : operand) : result exn V :=
  if handled x && handled y then prim o (unwrap x) (unwrap y) else Err TypeErr.
(** the operator of an array or numpy scalar [v] with a node on its right: IDSNumericArray has [__array_ufunc__], IDSNumeric0D has
    [__array__] (328-329); for nodes with strings it is left to numpy *)
Variable np_strings : bop -> V -> node -> result exn V.
Definition np_operator (o : bop) (v : V) (n : node) : result exn V :=
  match n_kind n with
  | Arrays => array_ufunc o (P v) (N n)
  | Numeric0D => prim o v (zero_d (value n))
  | Strings => np_strings o v n
  end.

(** [x op y] *)
Definition binop (o : bop) (x y : operand) : result exn V :=
  match x, y with
  | P v, P w => prim o v w
  | N n, _ => binary_wrapper o n y
  | P v, N n =>
    match class_of v with
    | Array | Scalar | NpBool => np_operator o v n
    | Text => match o with
              | Num Mod => format v (value n) (n_kind n)      (* str.__mod__ takes everything *)
              | Num k => reflected_wrapper k n x
              | Cmp c => binary_wrapper (Cmp (mirror c)) n x
              end
    | Number | Plain => match o with
                        | Num k => reflected_wrapper k n x
                        | Cmp c => binary_wrapper (Cmp (mirror c)) n x
                        end
    end
  end.
Definition unop (u : uop) (x : operand) : result exn V := match x with P v => prim1 u v | N n => unary_wrapper u n end.

(** [y in x]: __contains__ of a node, 199; a str refuses everything that is not a str; a list compares its elements *)
Variable elements : V -> list V.
Fixpoint any_equal (l : list V) (y : operand) : result exn bool :=
  match l with
  | [] => Ok false
  | e :: l => do r <- binop (Cmp Eq) (P e) y; do b <- truth r; if (b : bool) then Ok true else any_equal l y
  end.
Definition contains (x y : operand) : result exn bool :=
  match x, y with
  | P v, P w => prim_in v w
  | N n, _ => prim_in (value n) (unwrap y)
  | P v, N n => match class_of v with Text => Err TypeErr | _ => any_equal (elements v) y end
  end.

(** [bool(x)]: numbers.Complex.__bool__ is [self != 0]; the other nodes have __len__ (129-134, 285-286) and no __bool__ *)
Definition bool_of (x : operand) : result exn bool :=
  match x with
  | P v => truth v
  | N n => match n_kind n with
           | Numeric0D => do r <- binary_wrapper (Cmp Ne) n (P zero); truth r
           | Strings | Arrays => Ok (negb (Nat.eqb (len (value n)) 0))
           end
  end.
(** 220-221 *)
Definition getitem (x : operand) (i : V) : result exn V := match x with P v => item v i | N n => item (value n) i end.

(** ** Expressions over the nodes of a structure *)
Inductive expr := Const (v : V) | Attr (name : str) | Bin (o : bop) (a b : expr) | Un (u : uop) (a : expr) | Item (a i : expr).
Definition state := list (str * node).
Fixpoint eval (st : state) (e : expr) : result exn operand :=
  match e with
  | Const v => Ok (P v)
  | Attr a => match alookup a st with Some n => Ok (N n) | None => Err NoAttribute end
  | Bin o a b => do x <- eval st a; do y <- eval st b; do r <- binop o x y; Ok (P r)
  | Un u a => do x <- eval st a; do r <- unop u x; Ok (P r)
  | Item a i => do x <- eval st a; do y <- eval st i; do r <- getitem x (unwrap y); Ok (P r)
  end.

(** ** Assignment *)
Variable cast : kind -> V -> V -> result exn V.      (* _cast_value for a node with this default *)
Variable is_default : V -> V -> bool.                (* the value equals the default of a node without dimensions *)
Variable out_cast : V -> V -> result exn V.          (* storing the result of a ufunc in the array given as [out] *)
(** the setter, 168-189 *)
Definition set_value (n : node) (v : V) : result exn node :=
  if n_lazy n then Err ReadOnly else
  do c <- cast (n_kind n) (n_default n) v;
  Ok {| n_kind := n_kind n; n_val := if match n_kind n with Arrays => false | _ => is_default (n_default n) c end then None else Some c;
        n_default := n_default n; n_lazy := n_lazy n |}.
(** [a op= y] of Python for [a] a node: only IDSNumericArray has these methods (of numpy's NDArrayOperatorsMixin): the ufunc is called with
    the node as [out], 441-457, and gives the array back; otherwise [a op y].  Result: the node afterwards and the new value of [a]. *)
Definition inplace (k : nop) (n : node) (y : operand) : node * result exn V :=
  match n_kind n with
  | Arrays =>
    match k with
    | DivMod => (n, binop (Num k) (N n) y)    (* there is no in-place divmod *)
    | _ =>
      match rbind (array_ufunc (Num k) (N n) y) (out_cast (value n)) with
      | Ok v => ({| n_kind := n_kind n; n_val := Some v; n_default := n_default n; n_lazy := n_lazy n |}, Ok v)
      | Err e => (n, Err e)
      end
    end
  | _ => (n, binop (Num k) (N n) y)
  end.

Inductive stmt :=
| Assign (name : str) (e : expr)               (* ids.name = e *)
| Augment (name : str) (k : nop) (e : expr)    (* ids.name op= e *)
| Local (name : str) (k : nop) (e : expr).     (* a = ids.name; a op= e *)
(** the state after the statement, and the exception if it raises *)
Definition assign (st : state) (name : str) (v : V) : state * option exn :=
  match alookup name st with
  | None => (st, Some NoAttribute)
  | Some n => match set_value n v with Ok n => (aset name n st, None) | Err e => (st, Some e) end
  end.
Definition exec (st : state) (s : stmt) : state * option exn :=
  match s with
  | Assign name e => match eval st e with Ok x => assign st name (unwrap x) | Err e => (st, Some e) end
  | Augment name k e =>
    match alookup name st with
    | None => (st, Some NoAttribute)
    | Some n =>
      match eval st e with
      | Err e => (st, Some e)
      | Ok y => match inplace k n y with
                | (n, Ok v) => assign (aset name n st) name v
                | (n, Err e) => (aset name n st, Some e)
                end
      end
    end
  | Local name k e =>
    match alookup name st with
    | None => (st, Some NoAttribute)
    | Some n => match eval st e with
                | Err e => (st, Some e)
                | Ok y => match inplace k n y with (n, Ok _) => (aset name n st, None) | (n, Err e) => (aset name n st, Some e) end
                end
    end
  end.
End Operators.
