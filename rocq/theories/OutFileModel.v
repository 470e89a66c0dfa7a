(** Model of output files (C90): [OutputFile::create], [OutputFile::clear] and
    the destructor, lib/Support/Utils.cpp 178-312 and
    include/tsar/Support/OutputFile.h 36-100.

    A session is a list of operations on a file system, so that a crash point is
    a prefix of this list. LLVM ([TempFile], [raw_fd_ostream], [fs::remove]) is
    external: its decisions are the oracle [env]. *)
From Coq Require Import PeanoNat Bool List.
Import ListNotations.

(** Names of files. [TmpOf n r] is the name of a temporary file for the name [n]
    with a random part [r] (Utils.cpp 211-219: "-%%%%%%%%" and ".tmp" are added
    to the name). *)
Inductive name := Base (n : nat) | TmpOf (n : name) (r : nat).

(** A file is a directory and a name in it. *)
Definition key := (nat * name)%type.

Definition name_eq_dec (a b : name) : {a = b} + {a <> b}.
Proof. decide equality; apply Nat.eq_dec. Defined.
Definition key_eq_dec (a b : key) : {a = b} + {a <> b}.
Proof. decide equality; [apply name_eq_dec | apply Nat.eq_dec]. Defined.

(** Bytes are numbers. A special file (/dev/null) has no content. *)
Inductive node := Reg (c : list nat) | Special.

(** The file system: files, the standard output and files which LLVM removes
    when a signal arrives ([sys::RemoveFileOnSignal]). *)
Record fsys := FS { node_of : key -> option node; out_of : list nat; reg_of : key -> bool }.

Inductive op :=
| ONew (k : key)                  (* a new empty file *)
| OOpen (k : key)                 (* open to write: create or truncate *)
| OApp (k : key) (c : list nat)   (* append bytes *)
| ORm (k : key)                   (* fs::remove, it skips special files *)
| ORen (a b : key)                (* rename *)
| OOut (c : list nat)             (* write to the standard output *)
| OReg (k : key)                  (* RemoveFileOnSignal *)
| OUnreg (k : key).               (* DontRemoveFileOnSignal *)

Definition upd {A} (f : key -> A) (k : key) (v : A) : key -> A :=
  fun x => if key_eq_dec x k then v else f x.

Definition exec (s : fsys) (o : op) : fsys :=
  match o with
  | ONew k => FS (upd (node_of s) k (Some (Reg []))) (out_of s) (reg_of s)
  | OOpen k =>
      match node_of s k with
      | Some Special => s
      | _ => FS (upd (node_of s) k (Some (Reg []))) (out_of s) (reg_of s)
      end
  | OApp k c =>
      match node_of s k with
      | Some (Reg d) => FS (upd (node_of s) k (Some (Reg (d ++ c)))) (out_of s) (reg_of s)
      | _ => s
      end
  | ORm k =>
      match node_of s k with
      | Some (Reg _) => FS (upd (node_of s) k None) (out_of s) (reg_of s)
      | _ => s
      end
  | ORen a b =>
      match node_of s a with
      | Some f => FS (upd (upd (node_of s) b (Some f)) a None) (out_of s) (reg_of s)
      | None => s
      end
  | OOut c => FS (node_of s) (out_of s ++ c) (reg_of s)
  | OReg k => FS (node_of s) (out_of s) (upd (reg_of s) k true)
  | OUnreg k => FS (node_of s) (out_of s) (upd (reg_of s) k false)
  end.

Definition run (ops : list op) (s : fsys) : fsys := fold_left exec ops s.

(** A handler of a signal removes registered regular files. *)
Definition signalled (s : fsys) : fsys :=
  FS (fun k => if reg_of s k
               then match node_of s k with Some (Reg _) => None | x => x end
               else node_of s k)
     (out_of s) (reg_of s).

(** A path given by a user: "-", an absolute one, a relative one. *)
Inductive path := Dash | Abs (d : nat) (n : name) | Rel (n : name).

(** Result of [TempFile::create]. *)
Inductive tmpres := TmpOk | TmpNoDir | TmpErr.

(** Result of [TempFile::keep]: a file is renamed, or it is copied (the first
    [n] bytes, then the rest if [ok], [leave] means that the temporary file is
    not removed by LLVM), or nothing is stored ([removed] means that the
    temporary file is removed by LLVM). *)
Inductive keepres := KRename | KCopy (n : nat) (ok leave : bool) | KFail (removed : bool).

Record env := Env {
  e_cwd : nat;          (* the current directory *)
  e_canwrite : bool;    (* fs::can_write *)
  e_tmp1 : tmpres;      (* the first TempFile::create *)
  e_mkdirs : bool;      (* fs::create_directories succeeded *)
  e_tmp2 : bool;        (* the second TempFile::create succeeded *)
  e_open : bool;        (* raw_fd_ostream has opened a file *)
  e_rnd : nat;          (* the random part of the name of a temporary file *)
  e_keep : keepres }.

(** A file the operating system opens for a path in a directory. *)
Definition file_at (cwd : nat) (p : path) : option key :=
  match p with
  | Dash => None
  | Abs d n => Some (d, n)
  | Rel n => Some (cwd, n)
  end.

(** Where a stream writes to. *)
Inductive target := TStdout | TFile (k : key).

(** [OutputFile]: mFilename ([None] is the empty string), mTemp, mOS. *)
Record outfile := OutFile { o_name : option path; o_temp : option key; o_os : target }.

(** Outcome of a session. *)
Inductive outcome := Done | CreateErr | ClearErr | Fatal | AssertFail.

Inductive created := COk (f : outfile) | CErr | CAssert.

(** Utils.cpp 190-207: is a temporary file tried? [None] is an early error. *)
Definition try_temp (e : env) (s : fsys) (p : path) (useTmp : bool) : option bool :=
  if useTmp then
    match p with
    | Dash => Some false
    | _ =>
        match file_at (e_cwd e) p with
        | None => Some false
        | Some k =>
            match node_of s k with
            | None => Some true
            | Some f =>
                if e_canwrite e then
                  match f with Reg _ => Some true | Special => Some false end
                else None
            end
        end
    end
  else Some false.

(** Utils.cpp 219-247: has a temporary file been created? *)
Definition temp_ok (e : env) (mkd : bool) : bool :=
  match e_tmp1 e with
  | TmpOk => true
  | TmpNoDir => mkd && e_mkdirs e && e_tmp2 e
  | TmpErr => false
  end.

(** The name of a temporary file is built from the path, so it is in the same
    directory (Utils.cpp 214-219). *)
Definition temp_key (e : env) (k : key) : key := (fst k, TmpOf (snd k) (e_rnd e)).

(** Utils.cpp 178-280. The flag [rmsig] (RemoveFileOnSignal) is only stored.
    Simplification: directories are not files of the model, a special file can
    be opened and accepts all bytes, buffering is not modelled (a list of
    written pieces is arbitrary). *)
Definition create (e : env) (s : fsys) (p : path) (rmsig useTmp mkd : bool) : list op * created :=
  if mkd && negb useTmp then ([], CAssert)
  else
    match try_temp e s p useTmp with
    | None => ([], CErr)
    | Some t =>
        match file_at (e_cwd e) p with
        | None =>
            if e_open e then ([], COk (OutFile None None TStdout)) else ([], CErr)
        | Some k =>
            if t && temp_ok e mkd then
              ([ONew (temp_key e k); OReg (temp_key e k)],
               COk (OutFile (Some p) (Some (temp_key e k)) (TFile (temp_key e k))))
            else if e_open e then ([OOpen k], COk (OutFile (Some p) None (TFile k)))
            else ([], CErr)
        end
    end.

(** Pieces written to a stream; a piece may be not written (a full disk). *)
Definition write_op (t : target) (c : list nat) : op :=
  match t with TStdout => OOut c | TFile k => OApp k c end.

Definition write_ops (t : target) (cs : list (list nat * bool)) : list op :=
  flat_map (fun c : list nat * bool => if snd c then [write_op t (fst c)] else []) cs.

(** Destruction of a stream with an error is a fatal error of LLVM, which runs
    handlers of signals. *)
Definition io_error (cs : list (list nat * bool)) : bool := existsb (fun c => negb (snd c)) cs.

Definition bytes (cs : list (list nat * bool)) : list nat := concat (map fst cs).

(** Utils.cpp 299-303: a working directory is added to a relative path. *)
Definition new_out (e : env) (wd : option nat) (p : path) : option key :=
  match wd with
  | None => file_at (e_cwd e) p
  | Some d => file_at d p
  end.

(** [TempFile::keep]. *)
Definition keep_ops (e : env) (t dst : key) (c : list nat) : list op * bool :=
  match e_keep e with
  | KRename => ([ORen t dst; OUnreg t], true)
  | KCopy n ok leave =>
      ([OOpen dst; OApp dst (firstn n c)] ++ (if ok then [OApp dst (skipn n c)] else [])
         ++ (if leave then [] else [ORm t]) ++ [OUnreg t], ok)
  | KFail removed => ((if removed then [ORm t] else []) ++ [OUnreg t], false)
  end.

(** [TempFile::discard]: a file is removed and is not registered any more. *)
Definition discard_ops (t : key) : list op := [ORm t; OUnreg t].

(** Utils.cpp 282-312, the stream has been destroyed without errors. Simplification: the
    name of a temporary file is never empty here (294-298), [TempFile] clears it in
    keep and discard only. *)
Definition clear (e : env) (f : outfile) (c : list nat) (wd : option nat) (erase : bool)
  : list op * outcome :=
  if erase then
    ((match o_temp f with Some t => discard_ops t | None => [] end) ++
     (match o_name f with
      | Some p => match file_at (e_cwd e) p with Some k => [ORm k] | None => [] end
      | None => []
      end), Done)
  else
    match o_temp f with
    | None => ([], Done)
    | Some t =>
        match o_name f with
        | None => ([], Done)
        | Some p =>
            match new_out e wd p with
            | None => ([], Done)
            | Some dst =>
                let (ops, ok) := keep_ops e t dst c in
                if ok then (ops, Done) else (ops ++ [ORm t], ClearErr)
            end
        end
    end.

(** Calls of [clear] made by a user: a working directory and the flag EraseFile. *)
Definition call := (option nat * bool)%type.

(** A session: create, write, calls of [clear], the destructor
    (OutputFile.h 51-54: it erases a file if [clear] has not been called). *)
Definition session (e : env) (s : fsys) (p : path) (rmsig useTmp mkd : bool)
    (cs : list (list nat * bool)) (fin : list call) : list op * outcome :=
  match create e s p rmsig useTmp mkd with
  | (ops, CErr) => (ops, CreateErr)
  | (ops, CAssert) => (ops, AssertFail)
  | (ops, COk f) =>
      let w := ops ++ write_ops (o_os f) cs in
      if io_error cs then (w, Fatal)
      else
        match fin with
        | [] => let (o2, r) := clear e f (bytes cs) None true in (w ++ o2, r)
        | (wd, er) :: rest =>
            let (o2, r) := clear e f (bytes cs) wd er in
            (w ++ o2, match rest with [] => r | _ => AssertFail end)
        end
  end.

(** The state when a process has finished. *)
Definition final (s : fsys) (x : list op * outcome) : fsys :=
  match snd x with
  | Fatal => signalled (run (fst x) s)
  | _ => run (fst x) s
  end.
