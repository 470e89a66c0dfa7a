(** Specification of C90: what may be seen on a disk at each crash point. *)
From Coq Require Import PeanoNat Bool List.
From Verif Require Import OutFileModel.
Import ListNotations.

(** A file which a user means: a relative path starts in the working directory
    if it is given, and in the current one otherwise. *)
Definition meant (cwd : nat) (wd : option nat) (p : path) (k : key) : Prop :=
  match p with
  | Dash => False
  | Abs d n => k = (d, n)
  | Rel n => k = (match wd with Some d => d | None => cwd end, n)
  end.

(** A temporary file of a session: in the directory of the file opened for the
    path, with a random part in its name. *)
Definition temporary (e : env) (p : path) (k : key) : Prop :=
  match p with
  | Dash => False
  | Abs d n => k = (d, TmpOf n (e_rnd e))
  | Rel n => k = (e_cwd e, TmpOf n (e_rnd e))
  end.

(** LLVM chooses a name which is not in use, and nobody has asked to remove files
    on a signal yet. *)
Definition fresh (e : env) (s : fsys) (p : path) : Prop :=
  (forall k, temporary e p k -> node_of s k = None) /\ (forall k, reg_of s k = false).

(** A temporary file can be used: it is requested, the existing file is a regular
    one which can be written and a directory allows to create files (missing directories
    are created if it is allowed). *)
Definition temp_used (e : env) (s : fsys) (p : path) (useTmp mkd : bool) : Prop :=
  useTmp = true /\ e_canwrite e = true
  /\ (e_tmp1 e = TmpOk
      \/ (e_tmp1 e = TmpNoDir /\ mkd = true /\ e_mkdirs e = true /\ e_tmp2 e = true))
  /\ (forall k, meant (e_cwd e) None p k -> node_of s k <> Some Special).

(** LLVM renames a file or fails without effects on the destination. *)
Definition no_copy (e : env) : Prop := forall n ok l, e_keep e <> KCopy n ok l.

(** All bytes given by a user. *)
Definition whole (cs : list (list nat * bool)) : list nat := concat (map fst cs).

(** A file is as before, or it is the meant one with all bytes. *)
Definition old_or_new (e : env) (s : fsys) (p : path) (wd : option nat)
    (cs : list (list nat * bool)) (now : fsys) (k : key) : Prop :=
  node_of now k = node_of s k
  \/ (meant (e_cwd e) wd p k /\ node_of now k = Some (Reg (whole cs))
      /\ forall c, In c cs -> snd c = true).

(** If [clear] is asked to keep a file then at each crash point each file
    (besides the temporary one) is as before or complete. Guards: a temporary
    file is used ([gt]), it is not copied ([gc]), it is kept ([ge]). *)
Definition C90_atomic_claim (gt gc ge : bool) : Prop :=
  forall e s p rmsig useTmp mkd cs fin ops r n k wd,
    fresh e s p ->
    session e s p rmsig useTmp mkd cs fin = (ops, r) ->
    (gt = true -> temp_used e s p useTmp mkd) ->
    (gc = true -> no_copy e) ->
    (if ge then exists rest, fin = (wd, false) :: rest
     else fin = [] \/ exists er rest, fin = (wd, er) :: rest) ->
    ~ temporary e p k ->
    old_or_new e s p wd cs (run (firstn n ops) s) k.

(** A successful [clear] stores all bytes in the meant file and changes nothing
    else. Guards: a file is not written directly if a working directory is given
    ([gd]), LLVM does not leave a temporary file ([gl]). *)
Definition C90_success_claim (gd gl : bool) : Prop :=
  forall e s p rmsig useTmp mkd cs wd k x,
    fresh e s p ->
    session e s p rmsig useTmp mkd cs [(wd, false)] = x ->
    snd x = Done ->
    (gd = true -> temp_used e s p useTmp mkd \/ wd = None \/ (exists d n, p = Abs d n)) ->
    (gl = true -> forall n ok, e_keep e <> KCopy n ok true) ->
    (meant (e_cwd e) wd p k ->
       node_of (final s x) k = Some (Reg (whole cs))
       \/ (node_of s k = Some Special /\ node_of (final s x) k = Some Special))
    /\ (~ meant (e_cwd e) wd p k -> node_of (final s x) k = node_of s k).

(** A failed session changes no files. Guard: a file is not copied. *)
Definition C90_failed_claim (gc : bool) : Prop :=
  forall e s p rmsig useTmp mkd cs fin k x,
    fresh e s p ->
    session e s p rmsig useTmp mkd cs fin = x ->
    (snd x = CreateErr \/ snd x = ClearErr) ->
    (gc = true -> no_copy e) ->
    node_of (final s x) k = node_of s k.

(** A failed [create] does nothing at all. *)
Definition C90_create_error_claim : Prop :=
  forall e s p rmsig useTmp mkd cs fin ops,
    session e s p rmsig useTmp mkd cs fin = (ops, CreateErr) -> ops = [].

(** An abandoned output (the file is erased or [clear] is not called) leaves files
    as before. Guard: the file did not exist. *)
Definition C90_abandon_claim (gn : bool) : Prop :=
  forall e s p rmsig useTmp mkd cs fin k x,
    fresh e s p ->
    session e s p rmsig useTmp mkd cs fin = x ->
    snd x = Done ->
    (fin = [] \/ exists wd, fin = [(wd, true)]) ->
    (gn = true -> forall k', meant (e_cwd e) None p k' -> node_of s k' = None) ->
    node_of (final s x) k = node_of s k.

(** An abandoned output changes only the meant file. Guard: a relative path is not
    used with a working directory. *)
Definition C90_erase_claim (gw : bool) : Prop :=
  forall e s p rmsig useTmp mkd cs wd k x,
    fresh e s p ->
    session e s p rmsig useTmp mkd cs [(wd, true)] = x ->
    snd x = Done ->
    (gw = true -> wd = None \/ (exists d n, p = Abs d n)) ->
    ~ meant (e_cwd e) wd p k ->
    node_of (final s x) k = node_of s k.

(** A temporary file does not outlive a session which has not been killed.
    Guard: LLVM does not leave a temporary file after copying. *)
Definition C90_leftover_claim (gl : bool) : Prop :=
  forall e s p rmsig useTmp mkd cs fin k x,
    fresh e s p ->
    session e s p rmsig useTmp mkd cs fin = x ->
    (gl = true -> forall n ok, e_keep e <> KCopy n ok true) ->
    temporary e p k ->
    node_of (final s x) k = None.

(** If a file has to be removed on a signal then a signal at each point leaves
    old or complete files and no temporary ones. Guards: as for crashes ([gt],
    [gc]); a failed rename removes the temporary file itself ([gk]); a signal does
    not arrive between the creation of a temporary file and the request to remove
    it ([gs]). If a temporary file is not used the file may be removed. *)
Definition C90_signal_claim (gt gc gk gs : bool) : Prop :=
  forall e s p useTmp mkd cs wd rest ops r n k,
    fresh e s p ->
    session e s p true useTmp mkd cs ((wd, false) :: rest) = (ops, r) ->
    (gt = true -> temp_used e s p useTmp mkd) ->
    (gc = true -> no_copy e) ->
    (gk = true -> e_keep e <> KFail false) ->
    (gs = true -> n <> 1) ->
    (temporary e p k -> node_of (signalled (run (firstn n ops) s)) k = None)
    /\ (~ temporary e p k ->
        old_or_new e s p wd cs (signalled (run (firstn n ops) s)) k
        \/ (gt = false /\ node_of (signalled (run (firstn n ops) s)) k = None)).

(** The standard output: files are never changed, written bytes follow the previous
    ones in order. *)
Definition C90_stdout_claim : Prop :=
  forall e s rmsig useTmp mkd cs fin ops r n,
    session e s Dash rmsig useTmp mkd cs fin = (ops, r) ->
    (forall k, node_of (run (firstn n ops) s) k = node_of s k)
    /\ exists done rest, out_of (run (firstn n ops) s) = out_of s ++ done
         /\ concat (map fst (filter snd cs)) = done ++ rest
    /\ (r = Done -> out_of (run ops s) = out_of s ++ whole cs).

(** Assertions fail only if [clear] is called twice or flags are not compatible. *)
Definition C90_assert_claim : Prop :=
  forall e s p rmsig useTmp mkd cs fin,
    length fin <= 1 -> (mkd = true -> useTmp = true) ->
    snd (session e s p rmsig useTmp mkd cs fin) <> AssertFail.

(** If all bytes are written and LLVM reports no errors then a session succeeds. *)
Definition C90_works_claim : Prop :=
  forall e s p rmsig useTmp mkd cs wd er,
    (mkd = true -> useTmp = true) ->
    e_canwrite e = true -> e_open e = true -> (forall b, e_keep e <> KFail b) ->
    (forall n l, e_keep e <> KCopy n false l) ->
    (forall c, In c cs -> snd c = true) ->
    snd (session e s p rmsig useTmp mkd cs [(wd, er)]) = Done.

(** A special file (/dev/null) is never replaced or removed, and no other file is
    changed. *)
Definition C90_special_claim : Prop :=
  forall e s p rmsig useTmp mkd cs fin ops r n k k0,
    meant (e_cwd e) None p k0 -> node_of s k0 = Some Special ->
    session e s p rmsig useTmp mkd cs fin = (ops, r) ->
    node_of (run (firstn n ops) s) k = node_of s k.
