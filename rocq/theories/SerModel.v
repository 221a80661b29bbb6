(** Reading into an IDS that exists already, and IDSs as byte buffers: imas/backends/imas_core/db_entry_helpers.py 21-77 with a
    destination, imas/ids_toplevel.py 40-55, 103-214.

    The ASCII and flexbuffers formats belong to the Access Layer; they are functions between the store of StoreModel.v and bytes. *)
From Verif Require Import Base TreeModel VmapModel StoreModel.
From Verif Require PrimModel.

Section Into.
Variable dynamic : list str -> bool.
Variable xml_tbp : list str -> str.
Variable nbc : option nmap.
Variable mode : Z.
Variable s : store.

(** the loop over the children (31-76): [f] gives the child afterwards, from the child so far *)
Definition fill (f : meta -> option node -> result exn (option node)) : list meta -> TreeModel.fields -> result exn TreeModel.fields :=
  fix go l fs := match l with
                 | [] => Ok fs
                 | d :: t => do x <- f d (alookup (mname d) fs); go t (match x with Some n => aset (mname d) n fs | None => fs end)
                 end.
Definition fields_of_node (o : option node) : TreeModel.fields := match o with Some (NStruct fs) => fs | _ => [] end.
(** One child.  What is not stored is left as it was; [resize] (58) gives new elements, so those are as in StoreModel.get_node. *)
Fixpoint into_node (m : meta) (p : pos) (c : ctx) (old : option node) {struct m} : result exn (option node) :=
  match m with
  | Meta nm k cs =>
    let m := Meta nm k cs in
    if omitted dynamic mode p m then Ok old else
    do r <- locate dynamic xml_tbp nbc mode p m;
    match r with
    | None => Ok old
    | Some pl =>
      match k with
      | KAoS =>
        match s_size s (c, pl) with
        | None | Some O => Ok old
        | Some n =>
          do els <- rmap (fun i => do fs <- gather cs (fun d => get_node dynamic xml_tbp nbc mode s d (below dynamic p m) (c ++ [(pl, i)])); Ok (NStruct fs)) (seq 0 n);
          Ok (Some (NAoS els))
        end
      | KStruct => do fs <- fill (fun d o => into_node d (below dynamic p m) c o) cs (fields_of_node old); Ok (Some (NStruct fs))
      | KLeaf dt nd =>
        do v <- read s (c, pl) dt nd;
        Ok (match v with
            | None => old
            | Some v => if (nd =? 0) && PrimModel.is_empty dt v then old else Some (NLeaf (Some v))
            end)
      end
    end
  end.
Definition into_children (m : meta) (n : node) : result exn node :=
  do fs <- fill (fun d o => into_node d top [] o) (mchildren m) (fields_of_node (Some n)); Ok (NStruct fs).
End Into.

(** db_entry_al.py:179-248 with a destination *)
Definition al_get_into (dynamic : list str -> bool) (xml_tbp : list str -> str) (nbc : option nmap) (s : store) (m : meta) (n : node) : result exn node :=
  do mode <- read_mode s;
  if is_mode mode then into_children dynamic xml_tbp nbc mode s m n else Err TimeMode.

(** ** ids_toplevel.py *)
Definition bytes := list Z.
(** the file system, and the data entries that are open *)
Record world := { w_files : list (str * bytes); w_open : nat }.
Definition with_files (w : world) (f : list (str * bytes)) : world := {| w_files := f; w_open := w_open w |}.
Definition remove (name : str) (f : list (str * bytes)) : list (str * bytes) := filter (fun kv => negb (str_eqb (fst kv) name)) f.

Inductive ser_exn :=
| SEmpty              (* 142 ValueError: homogeneous_time undefined *)
| SProtocol           (* 170, 214 ValueError *)
| SNoData             (* 182 ValueError *)
| SNotImplemented     (* 209 *)
| SNotValid           (* ValidationError of DBEntry.put *)
| STimeMode           (* ValueError of DBEntry.put *)
| SBackend (e : exn).

(** protocol numbers (ids_defs.py:129-133, 156-158) *)
Definition ASCII : Z := 60%Z.
Definition FLEX : Z := 61%Z.

Section Serialize.
Variable dynamic : list str -> bool.
Variable xml_tbp : list str -> str.
Variable maxoccur : list str -> option nat.
Variable verify : bool.
(** metadata of the IDS *)
Variable m : meta.
(** ids.validate(), or validation switched off *)
Variable valid : node -> bool.
(** what DBEntry._put assigns before it writes: version_put, the time mode of a constant IDS (db_entry.py:720-740) *)
Variable stamp : node -> node.
(** the formats, and whether flexbuffers is available; [default]: the protocol used for None *)
Variable ascii_write : store -> bytes.
Variable ascii_read : bytes -> store.
Variable flex_write : store -> bytes.
Variable flex_read : bytes -> store.
Variable flex : bool.
Variable default : Z.
(** what is in the file when a put ends with an exception *)
Variable partial : exn -> option bytes.

(** ids.ids_properties.homogeneous_time *)
Definition time_mode (n : node) : Z :=
  match n with
  | NStruct fs => match alookup (strs "ids_properties") fs with
                  | Some (NStruct ps) => match alookup (strs "homogeneous_time") ps with Some (NLeaf (Some (VInt z))) => z | _ => EMPTY_INT end
                  | _ => EMPTY_INT
                  end
  | _ => EMPTY_INT
  end.
(** DBEntry._put (db_entry.py:692-742) into a new entry *)
Definition put_new (n : node) : result ser_exn store :=
  if negb (valid n) then Err SNotValid
  else if negb (is_mode (time_mode n)) then Err STimeMode
  else match al_put dynamic xml_tbp maxoccur None (time_mode (stamp n)) verify dynamic m empty_store m (stamp n) with
       | (s, None) => Ok s
       | (_, Some e) => Err (SBackend e)
       end.
(** 103-170.  [tmp]: the name from tempfile.mktemp.  The entry of 147 is closed in 149 only if put returns; that of 162 always. *)
Definition serialize (w : world) (tmp : str) (protocol : option Z) (n : node) : world * result ser_exn bytes :=
  let protocol := match protocol with Some p => p | None => default end in
  if (time_mode n =? EMPTY_INT)%Z then (w, Err SEmpty)
  else if (protocol =? ASCII)%Z then
    match put_new n with
    | Err e => ({| w_files := match e with SBackend e => match partial e with Some b => aset tmp b (w_files w) | None => w_files w end | _ => w_files w end;
                   w_open := S (w_open w) |}, Err e)
    | Ok s => (with_files w (remove tmp (aset tmp (ascii_write s) (w_files w))), Ok (ASCII :: ascii_write s))
    end
  else if flex && (protocol =? FLEX)%Z then
    match put_new n with
    | Err e => (w, Err e)
    | Ok s => (w, Ok (flex_write s))
    end
  else (w, Err SProtocol).

(** the get of 194 and 207 *)
Definition get_into (s : store) (d : node) : result ser_exn node :=
  match al_get_into dynamic xml_tbp None s m d with Ok n => Ok n | Err e => Err (SBackend e) end.
(** 173-214; the entry of 193 is closed in 195 only if get returns *)
Definition deserialize (w : world) (tmp : str) (data : bytes) (d : node) : world * result ser_exn node :=
  match data with
  | [] | [_] => (w, Err SNoData)
  | p :: rest =>
    if (p =? ASCII)%Z then
      let files := remove tmp (aset tmp rest (w_files w)) in
      match get_into (ascii_read rest) d with
      | Ok n => (with_files w files, Ok n)
      | Err e => ({| w_files := files; w_open := S (w_open w) |}, Err e)
      end
    else if flex && (p =? FLEX)%Z then (w, get_into (flex_read data) d)
    else if (p =? FLEX)%Z then (w, Err SNotImplemented)
    else (w, Err SProtocol)
  end.
End Serialize.
