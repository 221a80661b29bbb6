(* The cache of data dictionary definitions for UDA
   (imas/backends/imas_core/uda_support.py).

   Modelled: get_dd_version_from_idsdef_xml (lines 13-28) and extract_idsdef
   (lines 31-56), for one version, with a crash at any point of writing.

   Simplified: an XML document is a list of tokens (attributes, white space and
   comments left out); a file cut inside a token behaves as one cut before it
   (the parser reports the elements that are complete and then fails); the
   creation of the cache folder succeeds. *)

From Coq Require Import List Arith Bool Ascii String.
Require Import Verif.Base.
Import ListNotations.

Inductive tok := Open (tag : str) | Text (t : str) | Close (tag : str).

(* the elements being read: tag and text; iterparse builds them in this way *)
Definition stack := list (str * option str).

(* text that follows the start tag directly belongs to the element (elem.text) *)
Definition add_text (y : option str) (x : str) : option str :=
  match y with None => Some x | Some y => Some (y ++ x) end.

(* for _, elem in ET.iterparse(path): if elem.tag == "version": return elem.text
   (lines 21-23).  iterparse yields an element when its end tag has been read;
   a document that is not well formed, or ends early, raises an exception,
   which gives None (lines 24-28).  [fresh]: the innermost element has no child
   yet; text after a child is the tail of that child and is not used. *)
Fixpoint scan (st : stack) (fresh : bool) (l : list tok) : option str :=
  match l with
  | [] => None
  | Open t :: l' => scan ((t, None) :: st) true l'
  | Text x :: l' =>
      match st with
      | (t, y) :: st' => scan ((t, if fresh then add_text y x else y) :: st') fresh l'
      | [] => scan st fresh l'
      end
  | Close t :: l' =>
      match st with
      | (t', x) :: st' =>
          if str_eqb t t' then
            if str_eqb t (strs "version") then x
            else scan st' false l'
          else None
      | [] => None
      end
  end.

(* get_dd_version_from_idsdef_xml (lines 13-28) *)
Definition version_of (l : list tok) : option str := scan [] false l.

(* the cached file: None when absent *)
Definition file := option (list tok).

(* lines 42-49: is (re-)extraction needed? *)
Definition must_extract (v : str) (f : file) : bool :=
  match f with
  | None => true
  | Some l => match version_of l with
              | Some v' => negb (str_eqb v' v)
              | None => true
              end
  end.

(* extract_idsdef (lines 31-56): write_bytes truncates the file and writes the
   data; a crash after n tokens (Some n) leaves the first n.  The result is the
   file afterwards and whether the call returned. *)
Definition extract (data : list tok) (v : str) (f : file) (crash : option nat)
  : file * bool :=
  if must_extract v f then
    match crash with
    | None => (Some data, true)
    | Some n => (Some (firstn n data), false)
    end
  else (f, true).

(* a history of calls *)
Fixpoint calls (data : list tok) (v : str) (f : file) (h : list (option nat)) : file :=
  match h with
  | [] => f
  | c :: h' => calls data v (fst (extract data v f c)) h'
  end.
