(** Model of the content hash: util.py:345-407 [calc_hash] and the [_xxhash] methods.
    The hash function xxh3_64 is a parameter [H] from byte strings to digests.  Strings are their UTF-8 bytes. *)
From Verif Require Import Base TreeModel.

(** OverflowError of int.to_bytes, struct.error of struct.pack *)
Inductive hash_exn := HOverflow | HStructError.

(** [k] bytes of the unsigned integer [z], least significant first *)
Fixpoint le (k : nat) (z : Z) : str :=
  match k with
  | O => []
  | S j => ascii_of_N (Z.to_N (z mod 256)) :: le j (z / 256)
  end.

(** [int.to_bytes(k, "little")] *)
Definition to_bytes (k : nat) (z : Z) : result hash_exn str :=
  if ((0 <=? z) && (z <? 256 ^ Z.of_nat k))%Z then Ok (le k z) else Err HOverflow.
(** [int.to_bytes(k, "little", signed=True)] *)
Definition to_bytes_signed (k : nat) (z : Z) : result hash_exn str :=
  let m := (256 ^ Z.of_nat k)%Z in
  if ((- m <=? 2 * z) && (2 * z <? m))%Z then Ok (le k (z mod m)) else Err HOverflow.
(** [struct.pack("<q", n)] for n >= 0 *)
Definition pack_q (n : nat) : result hash_exn str :=
  if (Z.of_nat n <? 2 ^ 63)%Z then Ok (le 8 (Z.of_nat n)) else Err HStructError.

(** Row-major offsets of the elements of an array in Fortran order ([tobytes(order="F")]): the first index varies
    fastest. *)
Fixpoint f_indices (shape : list nat) : list nat :=
  match shape with
  | [] => [0]
  | n :: rest => flat_map (fun o => map (fun i => i * prod rest + o) (seq 0 n)) (f_indices rest)
  end.
Definition f_order {A} (d0 : A) (shape : list nat) (d : list A) : list A := map (fun i => nth i d d0) (f_indices shape).

(** Memory of one element of a numpy array: int32, float64, complex128 *)
Definition mem_int (z : Z) : str := le 4 (z mod 2 ^ 32).
Definition mem_flt (f : flt) : str := le 8 f.
Definition mem_cpx (c : flt * flt) : str := le 8 (fst c) ++ le 8 (snd c).

(** Lexicographic order of strings and [sorted] (ids_structure.py:317) on pairs (name, digest) *)
Fixpoint str_leb (a b : str) : bool :=
  match a, b with
  | [], _ => true
  | _ :: _, [] => false
  | x :: a', y :: b' => if Ascii.eqb x y then str_leb a' b' else (N_of_ascii x <? N_of_ascii y)%N
  end.
Fixpoint insert {A} (x : str * A) (l : list (str * A)) : list (str * A) :=
  match l with
  | [] => [x]
  | y :: t => if str_leb (fst x) (fst y) then x :: l else y :: insert x t
  end.
Fixpoint isort {A} (l : list (str * A)) : list (str * A) :=
  match l with [] => [] | x :: t => insert x (isort t) end.

(** The updates of ids_structure.py:329-330 for the sorted children *)
Fixpoint join_pieces (l : list (str * result hash_exn str)) : result hash_exn str :=
  match l with
  | [] => Ok []
  | (name, d) :: t => do d' <- d; do r <- join_pieces t; Ok (name ++ d' ++ r)
  end.

(** Names left out in a structure with the given name, ids_structure.py:319-322 *)
Definition skipped (struct_name child : str) : bool :=
  str_eqb struct_name (strs "ids_properties") && str_eqb child (strs "version_put").

Section Hash.
Variable H : str -> str.

(** Concatenation of the arguments of all [update] calls for an array, ids_primitive.py:492-499 *)
Definition enc_array (shape : list nat) (data : str) : result hash_exn str :=
  do nd <- to_bytes 1 (Z.of_nat (length shape));
  do sh <- rmap pack_q shape;
  Ok (nd ++ concat sh ++ data).

(** The byte string fed to the hash function for the value of a data node: ids_primitive.py:285-286 (STR_0D), 324-328
    (STR_1D), 373-374 (CPX_0D), 401-402 (FLT_0D), 426-427 (INT_0D), 492-499 (arrays). *)
Definition enc_value (v : value) : result hash_exn str :=
  match v with
  | VStr s => Ok s
  | VInt z => to_bytes_signed 4 z
  | VFlt f => Ok (le 8 f)
  | VCpx r i => Ok (le 8 r ++ le 8 i)
  | VStrs l => do n <- to_bytes 8 (Z.of_nat (length l)); Ok (n ++ flat_map H l)
  | VIntA sh d => enc_array sh (flat_map mem_int (f_order 0%Z sh d))
  | VFltA sh d => enc_array sh (flat_map mem_flt (f_order 0%Z sh d))
  | VCpxA sh d => enc_array sh (flat_map mem_cpx (f_order (0%Z, 0%Z) sh d))
  end.

(** The byte string fed to the hash function for a node: ids_structure.py:315-332, ids_struct_array.py:229-233.
    Simplification: the digests of all children are computed before the names are sorted (there is no state). *)
Fixpoint enc (m : meta) (n : node) {struct m} : result hash_exn str :=
  match m with
  | Meta name k cs =>
    let enc_fields (fs : fields) :=
      join_pieces (isort (flat_map (fun c =>
        if skipped name (mname c) then []
        else match alookup (mname c) fs with
             | Some ch => if has_value c ch then [(mname c, do b <- enc c ch; Ok (H b))] else []
             | None => []
             end) cs)) in
    match k, n with
    | KLeaf dt nd, NLeaf v => enc_value (match v with Some v => v | None => default_value dt nd end)
    | KAoS, NAoS els =>
      do l <- to_bytes 8 (Z.of_nat (length els));
      do ds <- rmap (fun e => do b <- enc_fields (node_fields e); Ok (H b)) els;
      Ok (l ++ concat ds)
    | KStruct, NStruct fs => enc_fields fs
    | _, _ => Ok []
    end
  end.

(** util.py:345-407 [calc_hash] *)
Definition calc_hash (m : meta) (n : node) : result hash_exn str := do b <- enc m n; Ok (H b).
End Hash.
