(** C60: examples, and what is false *)
From Verif Require Import Base OpenModel OpenSpec OpenProofs OpenProps OpenProps2.
From Coq Require Import Lia.

Definition ex_uri : str := strs "imas://host/HDF5?path=/data/a;cache_mode=none&path=/data/b#equilibrium".
Definition ex_opts : list (str * str) := [(strs "path", strs "/data/a"); (strs "cache_mode", strs "none"); (strs "path", strs "/data/b")].
Ltac plain := intros ?c ?I ?J; vm_compute in I, J; repeat (destruct I as [I|I]; [subst; repeat (destruct J as [J|J]; [discriminate J|]); destruct J|]); destruct I.
Example C60_uri_example : imas_uri (strs "HDF5") ex_opts ex_uri.
Proof.
  apply (imas_uri_intro (strs "HDF5") (Some (strs "host")) (strs "path", strs "/data/a") [(";"%char, (strs "cache_mode", strs "none")); ("&"%char, (strs "path", strs "/data/b"))] (Some (strs "equilibrium"))).
  - plain.
  - intros h [= <-]. plain.
  - intros o [<-|[<-|[<-|[]]]]; split; plain.
  - intros c [<-|[<-|[]]]; vm_compute; tauto.
Qed.
Example C60_uri_value : last_value ex_opts (strs "path") (strs "/data/b") /\ ~ last_value ex_opts (strs "path") (strs "/data/a").
Proof.
  split; [exists [(strs "path", strs "/data/a"); (strs "cache_mode", strs "none")], []; split; [reflexivity|intros []]|].
  destruct (C60_uri (fun _ => false) _ _ _ C60_uri_example) as (b & q & _ & _ & (p & P) & Q). intros H. apply Q in H. vm_compute in P. injection P as <- <-. vm_compute in H. discriminate H.
Qed.
(** the arguments of DBEntry(uri, mode=...), of DBEntry(backend, name, shot=..., run=...) *)
Example C60_arguments_uri : takes uri_form [AText ex_uri] [(strs "mode", AText (strs "r"))] [AText ex_uri; AText (strs "r")].
Proof. apply bind_takes; [constructor; [intros []|constructor]|reflexivity]. Qed.
Example C60_arguments_legacy : parse_args [ANum 13; AText (strs "db")] [(strs "shot", ANum 1); (strs "run", ANum 2)] =
  Ok (Legacy [ANum 13; AText (strs "db"); ANum 1; ANum 2; ANone; ANone]) /\
  parse_args [ANum 13; AText (strs "db")] [(strs "shot", ANum 1); (strs "pulse", ANum 1); (strs "run", ANum 2)] = Err ArgValue /\
  parse_args [AText ex_uri] [] = Err ArgType.
Proof. split; [reflexivity|split; reflexivity]. Qed.

(** a world: the dictionary 3.39.0 can be extracted, the Access Layer and netCDF4 open everything *)
Definition ex_f (xml : option arg) : factory := {| f_version := strs "3.39.0"; f_xml := xml |}.
Definition ex_file (p : str) : option str := if str_eqb p (strs "/cache/3.39.0.xml") then Some (strs "3.39.0") else if str_eqb p (strs "/imas/include/IDSDef.xml") then Some (strs "4.0.0") else None.
Definition ex_extract (v : str) : option str := if str_eqb v (strs "3.39.0") then Some (strs "/cache/3.39.0.xml") else None.
Definition ex_str (a : arg) : str := match a with AText s | APath s => s | ANum _ => strs "1" | ANone => strs "None" end.
Definition ex_init := init (fun _ => false) true true ex_file ex_extract (fun _ => Some (Some (strs "/mds"))) (fun _ _ => true) (fun _ _ _ => true) ex_str.
Definition ex_w : world := {| environ := [(strs "IMAS_PREFIX", strs "/imas"); (strs "HOME", strs "/home")]; calls := [] |}.
Example C60_open_example : exists e, ex_init [AText ex_uri; AText (strs "a")] [] (Some (ex_f None)) ex_w = ({| environ := environ ex_w; calls := [EBegin ex_uri ForceOpen] |}, Ok e) /\
  d_impl e = Some (ImplAL ex_uri (strs "hdf5") [(strs "path", strs "/data/b"); (strs "cache_mode", strs "none")]).
Proof. eexists. split; reflexivity. Qed.
Example C60_modes_example : ex_init [AText ex_uri; AText (strs "rw")] [] (Some (ex_f None)) ex_w = (ex_w, Err BadMode).
Proof. reflexivity. Qed.
Example C60_uda_example : (forall v p, ex_extract v = Some p -> ex_file p = Some v) /\ imas_uri (strs "uda") [(strs "path", strs "a")] (strs "imas:uda?path=a") /\
  exists e, ex_init [AText (strs "imas:uda?path=a"); AText (strs "r")] [] (Some (ex_f None)) ex_w =
    ({| environ := [(strs "IMAS_PREFIX", strs "/imas"); (strs "HOME", strs "/home"); (strs "IDSDEF_PATH", strs "/cache/3.39.0.xml")]; calls := [EBegin (strs "imas:uda?path=a") Open] |}, Ok e).
Proof.
  split.
  - intros v p H. unfold ex_extract in H. destruct (str_eqb v (strs "3.39.0")) eqn:E; [|discriminate H]. apply str_eqb_eq in E. subst v. injection H as <-. reflexivity.
  - split; [|eexists; reflexivity]. apply (imas_uri_intro (strs "uda") None (strs "path", strs "a") [] None); [plain|intros h Q; discriminate Q|intros o [<-|[]]; split; plain|intros c []].
Qed.
Example C60_mdsplus_example : exists e, ex_init [AText (strs "imas:mdsplus?path=a"); AText (strs "x")] [] (Some (ex_f None)) ex_w =
    ({| environ := environ ex_w ++ [(strs "ids_path", strs "/mds")]; calls := [EBegin (strs "imas:mdsplus?path=a") Create] |}, Ok e).
Proof. eexists. reflexivity. Qed.
Example C60_nc_example : exists e, ex_init [AText (strs "a.nc"); AText (strs "x")] [] (Some (ex_f None)) ex_w = ({| environ := environ ex_w; calls := [EDataset (strs "a.nc") (strs "w") false] |}, Ok e) /\
  forall r, strs "a.nc" <> strs "imas:" ++ r.
Proof. eexists. split; [reflexivity|]. intros r E. discriminate E. Qed.
Example C60_not_nc_example : exists e, ex_init [AText (strs "imas:hdf5?path=a.nc"); AText (strs "r")] [] (Some (ex_f None)) ex_w = ({| environ := environ ex_w; calls := [EBegin (strs "imas:hdf5?path=a.nc") Open] |}, Ok e).
Proof. eexists. reflexivity. Qed.
Definition ex_legacy (l : list arg) (o : arg) : option str :=
  match l with [ANum _; AText d; ANum _; ANum _; AText u; AText v] => Some (strs "imas:hdf5?user=" ++ u ++ strs ";db=" ++ d ++ strs ";version=" ++ v) | _ => None end.
Example C60_legacy_example : exists e e', ex_init [ANum 13; AText (strs "db"); ANum 1; ANum 2] [] (Some (ex_f None)) ex_w = (ex_w, Ok e) /\
  create (fun _ => false) true ex_file ex_extract (fun _ => None) (fun _ _ => true) ex_legacy (strs "me") false e ANone ex_w =
    ({| environ := environ ex_w; calls := [EBegin (strs "imas:hdf5?user=me;db=db;version=3.39.0") Create] |}, Ok e').
Proof. eexists. eexists. split; reflexivity. Qed.

(** Finding: the name of a URI scheme may be written in capital letters (the code itself finds the backend hdf5 in this URI), but the choice of
    the implementation compares the text: such a URI is taken for the name of a netCDF file if it ends in .nc. *)
Theorem C60_scheme_refuted : exists u, backend_of (fun _ => false) u = Ok (strs "hdf5") /\ map lower_chr (firstn 5 u) = strs "imas:" /\
  calls (fst (ex_init [AText u; AText (strs "r")] [] (Some (ex_f None)) ex_w)) = [EDataset u (strs "r") true].
Proof. exists (strs "IMAS:hdf5?path=/data/a.nc"). vm_compute. auto. Qed.
Print Assumptions C60_scheme_refuted.
(** Finding: xml_path may be a pathlib.Path (db_entry.py:81), but opening with the UDA backend then raises TypeError: the path is put in
    os.environ as it is. *)
Theorem C60_uda_path_refuted : exists p, ex_init [AText (strs "imas:uda?path=a"); AText (strs "r")] [] (Some (ex_f (Some (APath p)))) ex_w = (ex_w, Err EnvType) /\
  exists w e, ex_init [AText (strs "imas:uda?path=a"); AText (strs "r")] [] (Some (ex_f (Some (AText p)))) ex_w = (w, Ok e).
Proof. exists (strs "/data/IDSDef.xml"). split; [reflexivity|]. eexists. eexists. reflexivity. Qed.
Print Assumptions C60_uda_path_refuted.
