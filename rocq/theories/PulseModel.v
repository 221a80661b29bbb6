(** Model of the conversion of pulse_schedule to version 4: imas/ids_convert.py:709-755 (_copy_structure with a callback) and 1175-1251
    (_pulse_schedule_3to4, _pulse_schedule_resample_callback).

    As in ConvModel.v the source is only read and the target is the state.  The common time base and the interpolation are those of
    ResampleModel.v, the coordinate of a quantity is looked up as in ValModel.v.
    Simplified: an array of structures with a time coordinate is a TypeError (interp1d of structures); [time = ...] of a target that is
    not a structure is an AttributeError. *)
From Verif Require Import Base PathModel TreeModel PrimModel ConvModel.
From Verif Require VmapModel ValModel ResampleModel.
Import VmapModel(handler(..), nmap).

Section Pulse.
Variables (sm tm : meta).
Variable src : node.
Variable rm : nmap.
Variable deepcopy : bool.
Variable str_of : pyval -> str.
Variable parse_float : str -> option flt.
Variable parse_cpx : str -> option (flt * flt).
Variable flt_of_int : Z -> option flt.
Variable np_cast : dtype -> pyval -> result pexn value.
Variable array_items : value -> list pyval.
Variable close : pyval -> pyval -> bool.
Variable np_int32 : flt -> result pexn Z.
Variable enum_of : list str -> option (Z -> option (str * str)).

Notation assign := (assign tm str_of parse_float parse_cpx flt_of_int np_cast array_items).
Notation resize := (resize tm).
Notation getattr := (getattr tm).
Notation type_change := (type_change sm tm src str_of parse_float parse_cpx flt_of_int np_cast array_items close np_int32 enum_of).
Notation post_process := (post_process tm str_of parse_float parse_cpx flt_of_int np_cast array_items).
Notation target_item := (target_item tm rm).

(** ** _copy_structure with a callback, 709-755 *)
Section Callback.
(** metadata, node and location of the item, location of the target item; called after the item has been copied (754-755) *)
Variable callback : meta -> node -> loc -> loc -> CM unit.

(** one item of the loop, as ConvModel.copy_item *)
Fixpoint copy_item_cb (c : meta) (n : node) (sl tl : loc) {struct c} : CM unit :=
  match c with
  | Meta name k cs =>
    let copy_structure (fs : fields) (sl tl : loc) : CM unit :=
      citer (fun d => match alookup (mname d) fs with
                      | Some ch => if has_value d ch then copy_item_cb d ch (sl ++ [Child (mname d)]) tl else cret tt
                      | None => cret tt
                      end) cs in
    let p := path_string sl in
    doc t <- target_item p name tl;
    match t with
    | None => cret tt
    | Some tl1 =>
      doc r <- match alookup p (VmapModel.m_type rm) with
               | None => cret (Some (n, sl, tl1))
               | Some None => cfail CType
               | Some (Some h) => type_change h c n sl tl1
               end;
      match r with
      | None => cret tt
      | Some (n2, sl2, tl2) =>
        doc _ <- match n2 with
          | NAoS els =>
            doc _ <- resize tl2 (length els);
            citer (fun x => copy_structure (node_fields (snd x)) (sl2 ++ [Elem (fst x)]) (tl2 ++ [Elem (fst x)])) (enum els)
          | NStruct fs => copy_structure fs sl2 tl2
          | NLeaf _ => assign tl2 (if deepcopy then None else Some sl2) (of_value (leaf_value c n2))
          end;
        doc _ <- match alookup p (VmapModel.m_post rm) with
                 | Some h => post_process h tl2
                 | None => cret tt
                 end;
        callback c n2 sl2 tl2
      end
    end
  end.
Definition copy_structure_cb (cs : list meta) (fs : fields) (sl tl : loc) : CM unit :=
  citer (fun d => match alookup (mname d) fs with
                  | Some ch => if has_value d ch then copy_item_cb d ch (sl ++ [Child (mname d)]) tl else cret tt
                  | None => cret tt
                  end) cs.
End Callback.
Definition no_callback (c : meta) (n : node) (sl tl : loc) : CM unit := cret tt.

(** ** Resampling *)
Variable at_ : list str -> ValModel.attrs.                      (* coordinates, by path *)
Variable lin : flt -> flt -> flt -> flt -> flt -> flt.          (* linear interpolation, see ResampleModel.v *)

(** [item.metadata.coordinates[0].is_time_coordinate], for an item with one dimension *)
Definition over_time (p : list str) : bool := ValModel.is_time (nth 0 (ValModel.a_coords (at_ p)) ValModel.no_coord).
(** [item.coordinates[0].value] *)
Definition own_time (sl : loc) : result cexn (list flt) :=
  match snd (ValModel.lookup sm at_ sl 0 src) with
  | Err e => Err (CPath e)
  | Ok (ValModel.CNode l) => match source_at sm src l with
                             | Some (m, NLeaf v) => match leaf_value m (NLeaf v) with VFltA [_] d => Ok d | _ => Err CType end
                             | _ => Err CAttribute
                             end
  | Ok _ => Err CAttribute                                      (* a numpy array has no attribute [value] *)
  end.
(** 1232-1251 *)
Definition resample_cb (timebase : list flt) (c : meta) (n : node) (sl tl : loc) : CM unit :=
  match mkind c with
  | KLeaf _ 1 =>
    if over_time (loc_names sl) then
      match own_time sl with
      | Err e => cfail e
      | Ok time => match ResampleModel.resample_callback lin timebase time (leaf_value c n) with
                   | Ok w => assign tl None (PArr w)
                   | Err _ => cfail CType                       (* ValueError if the lengths differ *)
                   end
      end
    else cret tt
  | KAoS => if over_time (loc_names sl) then cfail CType else cret tt
  | _ => cret tt
  end.

(** 1199-1224, one item.  [time_bases] of the item: ResampleModel.v *)
Definition named (l : list string) (x : str) : bool := existsb (fun y => str_eqb (strs y) x) l.
Definition pulse_item (c : meta) (n : node) : CM unit :=
  let name := mname c in
  let sl := [Child name] in
  doc t <- target_item (path_string sl) name [];
  match t with
  | None => cret tt
  | Some tl =>
    if named ["ids_properties"; "code"]%string name then
      match n with NStruct fs => copy_structure_cb no_callback (mchildren c) fs sl tl | _ => cfail CAttribute end
    else if named ["time"]%string name then
      match n with
      | NLeaf _ => assign tl (if deepcopy then None else Some sl) (of_value (leaf_value c n))
      | _ => cfail CAttribute
      end
    else if named ["event"]%string name then
      match n with
      | NAoS els =>
        doc _ <- resize tl (length els);
        citer (fun x => copy_structure_cb no_callback (mchildren c) (node_fields (snd x)) (sl ++ [Elem (fst x)]) (tl ++ [Elem (fst x)])) (enum els)
      | _ => cfail CType
      end
    else
      match n with
      | NStruct fs =>
        match ResampleModel.common_time_base c n with
        | Err _ => cfail CType
        | Ok tb =>
          doc a <- getattr tl (strs "time");
          doc _ <- assign a None (PArr (VFltA [length tb] tb));
          copy_structure_cb (resample_cb tb) (mchildren c) fs sl tl
        end
      | _ => cfail CAttribute
      end
  end.
Definition pulse_3to4 : CM unit :=
  citer (fun d => match alookup (mname d) (node_fields src) with
                  | Some ch => if has_value d ch then pulse_item d ch else cret tt
                  | None => cret tt
                  end) (mchildren sm).
End Pulse.

(** Without a callback the copy is that of ConvModel.v. *)
Lemma copy_item_no_callback : forall sm tm src rm deepcopy str_of parse_float parse_cpx flt_of_int np_cast array_items close np_int32 enum_of c n sl tl s,
  copy_item_cb sm tm src rm deepcopy str_of parse_float parse_cpx flt_of_int np_cast array_items close np_int32 enum_of no_callback c n sl tl s
  = copy_item sm tm src rm deepcopy str_of parse_float parse_cpx flt_of_int np_cast array_items close np_int32 enum_of c n sl tl s.
Proof.
  intros sm tm src rm deepcopy str_of parse_float parse_cpx flt_of_int np_cast array_items close np_int32 enum_of.
  assert (B : forall A B (c : CM A) (f g : A -> CM B) s, (forall a s', f a s' = g a s') -> cbind c f s = cbind c g s).
  { intros A B c f g s H. unfold cbind. destruct (c s) as [s1 [a|e]]; auto. }
  assert (B2 : forall A B (c d : CM A) (f g : A -> CM B) s, c s = d s -> (forall a s', f a s' = g a s') -> cbind c f s = cbind d g s).
  { intros A B0 c d f g s E H. unfold cbind. rewrite E. destruct (d s) as [s1 [a|e]]; auto. }
  assert (I : forall A (f g : A -> CM unit) l s, (forall a s', In a l -> f a s' = g a s') -> citer f l s = citer g l s).
  { intros A f g l. induction l as [|x l IH]; intros s H; [reflexivity|]. simpl. apply B2; [apply H; left; auto|].
    intros _ s'. apply IH. intros a s0 IA. apply H. right; auto. }
  fix IH 1. intros [name k cs] n sl tl s.
  assert (KIDS : forall fs sl tl s, citer (fun d => match alookup (mname d) fs with
                  | Some ch => if has_value d ch then copy_item_cb sm tm src rm deepcopy str_of parse_float parse_cpx flt_of_int np_cast array_items close np_int32 enum_of no_callback d ch (sl ++ [Child (mname d)]) tl else cret tt
                  | None => cret tt end) cs s =
                 citer (fun d => match alookup (mname d) fs with
                  | Some ch => if has_value d ch then copy_item sm tm src rm deepcopy str_of parse_float parse_cpx flt_of_int np_cast array_items close np_int32 enum_of d ch (sl ++ [Child (mname d)]) tl else cret tt
                  | None => cret tt end) cs s).
  { intros fs sl0 tl0. clear - IH B2. induction cs as [|d cs IHc]; intros s; [reflexivity|]. simpl. apply B2.
    - destruct (alookup (mname d) fs); auto. destruct (has_value d n); auto.
    - intros _ s'. apply IHc. }
  cbn [copy_item_cb copy_item]. apply B. intros [t|] s1; [|reflexivity]. apply B. intros [[[n2 sl2] tl2]|] s2; [|reflexivity].
  apply B2.
  - destruct n2 as [fs|els|v]; [apply KIDS| |reflexivity]. apply B. intros _ s3. apply I. intros x s4 _. apply KIDS.
  - intros _ s3. assert (R : forall (c : CM unit), cbind c (fun _ => no_callback (Meta name k cs) n2 sl2 tl2) s3 = c s3).
    { intros c. unfold cbind, no_callback. destruct (c s3) as [s4 [[]|e]]; reflexivity. }
    apply R.
Qed.
