(** Model of imas/ids_data_type.py: [IDSDataType] and [IDSDataType.parse]. *)
From Verif Require Import Base.

(** ids_data_type.py:23-43, the members of the enumeration *)
Inductive ids_dtype := T_STRUCTURE | T_STRUCT_ARRAY | T_STR | T_INT | T_FLT | T_CPX.

(** Exceptions: ValueError (106, or from [IDSDataType(...)] at 115), IndexError ([rest[0][0]] of an empty string at 109). *)
Inductive dt_exn := DTValueError | DTIndexError.

(** [str.upper] on ASCII; characters outside ASCII are not modelled. *)
Definition upper_chr (c : ascii) : ascii := if is_lower c then ascii_of_N (N_of_ascii c - 32) else c.
Definition upper (s : str) : str := map upper_chr s.

(** [IDSDataType(value)]: lookup by value *)
Definition dtype_of_value (s : str) : result dt_exn ids_dtype :=
  if str_eqb s (strs "structure") then Ok T_STRUCTURE
  else if str_eqb s (strs "struct_array") then Ok T_STRUCT_ARRAY
  else if str_eqb s (strs "STR") then Ok T_STR
  else if str_eqb s (strs "INT") then Ok T_INT
  else if str_eqb s (strs "FLT") then Ok T_FLT
  else if str_eqb s (strs "CPX") then Ok T_CPX
  else Err DTValueError.

(** ids_data_type.py:79-115 [IDSDataType.parse] *)
Definition dt_parse (data_type : option str) : result dt_exn (option ids_dtype * N) :=
  match data_type with
  | None => Ok (None, 0%N)
  | Some s =>
    if str_eqb s (strs "structure") then do t <- dtype_of_value s; Ok (Some t, 0%N)
    else if str_eqb s (strs "struct_array") then do t <- dtype_of_value s; Ok (Some t, 1%N)
    else
      match split_on "_" (upper s) with
      | [] => Err DTValueError                         (* unreachable: split never gives [] *)
      | dtype :: rest =>
        match rest with
        | [] => Err DTValueError
        | r0 :: rt =>
          if str_eqb r0 (strs "TYPE") && match rt with [] => true | _ => false end then
            do t <- dtype_of_value dtype; Ok (Some t, 0%N)
          else
            match r0 with
            | [] => Err DTIndexError
            | c :: _ => if is_digit c then do t <- dtype_of_value dtype; Ok (Some t, digit_val c)
                        else Err DTValueError
            end
        end
      end
  end.

Example dt_ex1 : dt_parse (Some (strs "STR_1D")) = Ok (Some T_STR, 1%N). Proof. reflexivity. Qed.
Example dt_ex2 : dt_parse (Some (strs "flt_3d_type")) = Ok (Some T_FLT, 3%N). Proof. reflexivity. Qed.
Example dt_ex3 : dt_parse (Some (strs "int_type")) = Ok (Some T_INT, 0%N). Proof. reflexivity. Qed.
Example dt_ex4 : dt_parse (Some (strs "STR_")) = Err DTIndexError. Proof. reflexivity. Qed.
