(* The cache of MDSplus models shared by all processes of a user
   (imas/backends/imas_core/mdsplus_model.py).

   Modelled, one step per system call (or per external tool event), so that the
   steps of several processes interleave arbitrarily:
   - mdsplus_model_dir   lines 77-199   (the control flow and every file access)
   - safe_replace        lines 33-74
   - wait_for_model      lines 202-218
   - model_exists        lines 220-233  (five separate isfile calls)
   - create_model_ids_xml, create_mdsplus_model lines 244-332: as external
     tools that write files into the private temporary directory in any order,
     whole or in part, and then succeed or fail at any point.
   A process that crashes is one that takes no further steps.

   Simplified: one cache directory (the name contains a checksum of the
   definition, lines 97-112; two definitions with the same file name and the
   same crc32 would share it); the parent of the cache directory exists; files
   are numbers 0..4 for the five components and other numbers for other files;
   a file is either whole or partly written; a tool that reports success leaves
   no partly written file; temporary names never collide (uuid4).  Opening a
   directory for rmtree remembers the directory itself (its inode), as the
   dir_fd based implementation of shutil.rmtree on Linux does. *)

From Coq Require Import List Arith Bool Lia.
Import ListNotations.

(* the contents of a directory: file number, and whether it is whole *)
Definition files := list (nat * bool).

(* os.path.isfile of a component (line 224) *)
Definition has (f : nat) (l : files) : bool := existsb (fun e => fst e =? f) l.

Definition rm_file (f : nat) (l : files) : files :=
  filter (fun e => negb (fst e =? f)) l.

(* creating or overwriting a file *)
Definition write (f : nat) (w : bool) (l : files) : files := (f, w) :: rm_file f l.

(* the components listed in model_exists (lines 226-231):
   0 ids.xml, 1 .characteristics, 2 .datafile, 3 .tree, 4 done.txt *)
Definition n_components : nat := 5.
Definition done_txt : nat := 4.

(* exceptions that leave the call *)
Inductive exn := ProgrammerError   (* RuntimeError, line 166 *)
               | Corrupted          (* MDSPlusModelError, line 158 *)
               | GenerationFailed   (* the exception ee re-raised, line 197 *)
               | OSErr.             (* FileNotFoundError and the like *)

(* where a process is *)
Inductive pc :=
| If1Dir | If1M (k : nat)          (* line 137 *)
| If2Dir | If2M (k : nat)          (* line 140 *)
| If3Dir | If3M (k : nat)          (* line 162 *)
| WaitM (n k : nat)                (* lines 209-212, n seconds waited *)
| ListDir                          (* line 151 *)
| CorruptM (k : nat)               (* line 152 *)
| Mkdir                            (* line 171 *)
| GenXml                           (* line 178 *)
| GenMds                           (* line 179 up to the touch *)
| Touch                            (* line 329 *)
| Replace                          (* line 186 / 50 *)
| CopyTree (todo : files)          (* line 60 *)
| Replace2                         (* line 64 *)
| RmSrc                            (* line 69 *)
| FinalM (k : nat)                 (* line 188 *)
| RmOpen                           (* line 196: open and list *)
| RmFiles (ino : nat) (todo : list nat)
| RmDir
| Returned                         (* line 199 *)
| Raised (e : exn).

Record proc := MkProc { p_pc : pc; p_tmp : files; p_tmp2 : files }.

Definition start : proc := MkProc If1Dir [] [].

(* the shared cache directory: its inode and contents, None when absent *)
Record state := MkState {
  d : option (nat * files);
  next_ino : nat;
  procs : nat -> proc }.

Definition dfiles (s : state) : files := match d s with Some (_, l) => l | None => [] end.

(* what the environment decides at a step *)
Inductive choice :=
| Go                                (* the call succeeds *)
| Fail                              (* the call fails *)
| Write (f : nat) (w : bool)        (* a tool writes a file *)
| Pick (n : nat).                   (* rmtree removes the n-th remaining file *)

Definition upd (g : nat -> proc) (p : nat) (x : proc) : nat -> proc :=
  fun q => if q =? p then x else g q.

Definition set_pc (s : state) (p : nat) (c : pc) : state :=
  MkState (d s) (next_ino s)
    (upd (procs s) p (MkProc c (p_tmp (procs s p)) (p_tmp2 (procs s p)))).

Definition set_d (s : state) (x : option (nat * files)) : state :=
  MkState x (next_ino s) (procs s).

(* one isfile call of model_exists (lines 220-233): all() stops at the first
   missing component *)
Definition exists_step (s : state) (k : nat) (next : nat -> pc) (yes no : pc) : pc :=
  if has k (dfiles s) then if S k =? n_components then yes else next (S k) else no.

Definition all_whole (l : files) : bool := forallb snd l.

Definition remove_nth (n : nat) (l : list nat) : list nat := firstn n l ++ skipn (S n) l.

(* rename(2) of a directory with contents l onto the cache directory: replaces
   an absent or empty one, otherwise ENOTEMPTY, which both callers ignore
   (lines 65-68, 70-72) *)
Definition rename_onto (s : state) (l : files) : state :=
  match d s with
  | None | Some (_, []) => MkState (Some (next_ino s, l)) (S (next_ino s)) (procs s)
  | Some (_, _ :: _) => s
  end.

Section Steps.

Variable timeout : nat.     (* MDSPLUS_MODEL_TIMEOUT, line 31 *)
Variable xdev : bool.       (* temporary and cache directory on different file systems *)
Variable good_tools : bool. (* a successful tool has written all of its files *)

(* the waiting loop, lines 209-218: n-th check, first component *)
Definition wait_from (n : nat) : pc := if n <? timeout then WaitM n 0 else ListDir.

(* one step of process p *)
Definition step (s : state) (p : nat) (c : choice) : state :=
  let q := procs s p in
  let goto := set_pc s p in
  match p_pc q, c with
  (* if cache_dir_path.is_dir() and model_exists(...): line 137 *)
  | If1Dir, Go => goto (match d s with Some _ => If1M 0 | None => If2Dir end)
  | If1M k, Go => goto (exists_step s k If1M Returned If2Dir)
  (* elif is_dir() and not model_exists(): line 140 *)
  | If2Dir, Go => goto (match d s with Some _ => If2M 0 | None => If3Dir end)
  | If2M k, Go => goto (exists_step s k If2M If3Dir (wait_from 0))
  (* elif not is_dir() and not model_exists(): line 162, else: line 166 *)
  | If3Dir, Go =>
      goto (match d s with Some _ => Raised ProgrammerError | None => If3M 0 end)
  | If3M k, Go => goto (exists_step s k If3M (Raised ProgrammerError) Mkdir)
  (* wait_for_model *)
  | WaitM n k, Go => goto (exists_step s k (WaitM n) Returned (wait_from (S n)))
  (* len(os.listdir(cache_dir_path)) > 1 *)
  | ListDir, Go =>
      goto (match d s with
            | None => Raised OSErr
            | Some (_, l) => if 1 <? length l then CorruptM 0 else Mkdir
            end)
  | CorruptM k, Go => goto (exists_step s k CorruptM Mkdir (Raised Corrupted))
  (* cache_dir_path.mkdir(parents=True, exist_ok=True) *)
  | Mkdir, Go =>
      match d s with
      | Some _ => goto GenXml
      | None =>
          set_pc (MkState (Some (next_ino s, [])) (S (next_ino s)) (procs s)) p GenXml
      end
  | Mkdir, Fail => goto RmOpen
  (* external tools *)
  | GenXml, Write f w =>
      MkState (d s) (next_ino s)
        (upd (procs s) p (MkProc GenXml (write f w (p_tmp q)) (p_tmp2 q)))
  | GenXml, Go =>
      if all_whole (p_tmp q) && (negb good_tools || has 0 (p_tmp q))
      then goto GenMds else s
  | GenXml, Fail => goto RmOpen
  | GenMds, Write f w =>
      if f =? done_txt then s else
      MkState (d s) (next_ino s)
        (upd (procs s) p (MkProc GenMds (write f w (p_tmp q)) (p_tmp2 q)))
  | GenMds, Go =>
      if all_whole (p_tmp q) &&
         (negb good_tools ||
          forallb (fun f => has f (p_tmp q)) (seq 0 4))
      then goto Touch else s
  | GenMds, Fail => goto RmOpen
  | Touch, Go =>
      MkState (d s) (next_ino s)
        (upd (procs s) p (MkProc Replace (write done_txt true (p_tmp q)) (p_tmp2 q)))
  | Touch, Fail => goto RmOpen
  (* safe_replace *)
  | Replace, Go =>
      if xdev then goto (CopyTree (p_tmp q))
      else set_pc (rename_onto s (p_tmp q)) p (FinalM 0)
  | Replace, Fail => goto RmOpen
  | CopyTree [], Go => goto Replace2
  | CopyTree ((f, w) :: todo), Go =>
      MkState (d s) (next_ino s)
        (upd (procs s) p (MkProc (CopyTree todo) (p_tmp q) (write f w (p_tmp2 q))))
  | CopyTree _, Fail => goto RmOpen
  | Replace2, Go => set_pc (rename_onto s (p_tmp2 q)) p RmSrc
  | Replace2, Fail => goto RmOpen
  | RmSrc, Go => goto (FinalM 0)
  | RmSrc, Fail => goto RmOpen
  (* if not model_exists(cache_dir_path): raise *)
  | FinalM k, Go => goto (exists_step s k FinalM Returned RmOpen)
  (* except: shutil.rmtree(cache_dir_path); raise *)
  | RmOpen, Go =>
      goto (match d s with
            | None => Raised OSErr
            | Some (i, l) => RmFiles i (map fst l)
            end)
  | RmOpen, Fail => goto (Raised OSErr)
  | RmFiles i [], Go => goto RmDir
  | RmFiles i todo, Pick n =>
      match nth_error todo n, d s with
      | Some f, Some (j, l) =>
          if (i =? j) && has f l
          then set_pc (set_d s (Some (j, rm_file f l))) p (RmFiles i (remove_nth n todo))
          else goto (Raised OSErr)
      | Some _, None => goto (Raised OSErr)
      | None, _ => s
      end
  | RmFiles _ _, Fail => goto (Raised OSErr)
  | RmDir, Go =>
      match d s with
      | Some (_, []) => set_pc (set_d s None) p (Raised GenerationFailed)
      | _ => goto (Raised OSErr)
      end
  | RmDir, Fail => goto (Raised OSErr)
  (* not a possible event here: nothing happens *)
  | _, _ => s
  end.

(* an execution: which process moves, and what its environment decides *)
Fixpoint run (s : state) (t : list (nat * choice)) : state :=
  match t with
  | [] => s
  | (p, c) :: t' => run (step s p c) t'
  end.

End Steps.

(* the state before anything has happened *)
Definition fresh : state := MkState None 0 (fun _ => start).
