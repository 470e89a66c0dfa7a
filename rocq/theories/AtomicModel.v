(** Model of files which are moved atomically (C93): [AtomicallyMovedFile],
    lib/Core/TransformationContext.cpp 66-126, and the release of transformed
    sources, lib/Frontend/Clang/TransformationContext.cpp 68-102.

    Operations on a file system are reused from OutFileModel.v. The version for
    systems other than Windows is modelled: a temporary file is renamed before its
    stream is destroyed. *)
From Coq Require Import PeanoNat Bool List.
From Verif Require Import OutFileModel.
Import ListNotations.

(** Decisions of the operating system for a file. *)
Record aenv := AEnv {
  a_canwrite : bool;   (* fs::can_write *)
  a_unique : bool;     (* fs::createUniqueFile succeeded *)
  a_open : bool;       (* raw_fd_ostream has opened the file *)
  a_rename : bool;     (* fs::rename succeeded *)
  a_rnd : nat }.       (* a random part of a name *)

(** A buffer of a rewriter: an (adjusted) file, written pieces with their results,
    the system, is it the main file? *)
Record buffer := Buffer { b_key : key; b_data : list (list nat * bool); b_env : aenv; b_main : bool }.

(** TransformationContext.cpp 94-99: "-%%%%%%%%" is added to a name. *)
Definition b_tmp (b : buffer) : key := (fst (b_key b), TmpOf (snd (b_key b)) (a_rnd (b_env b))).

Inductive wres := WOk | WErr | WFatal.

(** Destruction of a stream with an error is fatal, the stream is destroyed after
    the body of the destructor of a file. *)
Definition streamEnd (b : buffer) (r : wres) : wres := if io_error (b_data b) then WFatal else r.

(** TransformationContext.cpp 91-112 (a stream for the destination) and 114-120.
    If the file is not opened the stream exists, and an attempt to flush it is
    fatal. *)
Definition direct (b : buffer) : list op * wres :=
  if a_open (b_env b)
  then (OOpen (b_key b) :: write_ops (TFile (b_key b)) (b_data b), streamEnd b WOk)
  else ([], match bytes (b_data b) with [] => WErr | _ => WFatal end).

(** TransformationContext.cpp 91-126: creation, writing and destruction of a file. *)
Definition writeFile (s : fsys) (b : buffer) : list op * wres :=
  let viaTemp :=
    if a_unique (b_env b) then
      let w := ONew (b_tmp b) :: write_ops (TFile (b_tmp b)) (b_data b) in
      if a_rename (b_env b)
      then (w ++ [ORen (b_tmp b) (b_key b)], streamEnd b WOk)
      else (w ++ [ORm (b_tmp b)], streamEnd b WErr)
    else direct b in
  match node_of s (b_key b) with
  | None => viaTemp
  | Some f =>
      if a_canwrite (b_env b)
      then match f with Reg _ => viaTemp | Special => direct b end
      else ([], WErr)
  end.

(** Result of a release: flags "all is written" and the name of the main file, or
    a crash. *)
Inductive rres := RDone (all : bool) (main : option key) | RFatal.

(** Frontend/Clang/TransformationContext.cpp 68-102. *)
Fixpoint releaseLoop (s : fsys) (bs : list buffer) (all : bool) (main : option key) : list op * rres :=
  match bs with
  | [] => ([], RDone all main)
  | b :: rest =>
      let (ops, r) := writeFile s b in
      match r with
      | WFatal => (ops, RFatal)
      | WErr => let (ops', r') := releaseLoop (run ops s) rest false main in (ops ++ ops', r')
      | WOk =>
          let main' := if b_main b then Some (b_key b) else main in
          let (ops', r') := releaseLoop (run ops s) rest all main' in (ops ++ ops', r')
      end
  end.

Definition release (s : fsys) (bs : list buffer) : list op * rres := releaseLoop s bs true None.
