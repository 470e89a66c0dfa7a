(** Specification of C93. *)
From Coq Require Import PeanoNat Bool List.
From Verif Require Import OutFileModel AtomicModel.
Import ListNotations.

(** A name of a temporary file which belongs to a file. *)
Definition temp_of (b : buffer) (k : key) : Prop :=
  k = (fst (b_key b), TmpOf (snd (b_key b)) (a_rnd (b_env b))).

(** Names of temporary files are not in use and no output file has such a name. *)
Definition fresh_names (s : fsys) (bs : list buffer) : Prop :=
  forall b k, In b bs -> temp_of b k -> node_of s k = None /\ forall b', In b' bs -> b_key b' <> k.

(** All bytes of a transformed file. *)
Definition text (b : buffer) : list nat := concat (map fst (b_data b)).
(** A disk is not full. *)
Definition stored (b : buffer) : Prop := forall c, In c (b_data b) -> snd c = true.

(** A file is complete: it contains all bytes (a special file has no content). *)
Definition complete (s now : fsys) (b : buffer) : Prop :=
  node_of now (b_key b) = Some (Reg (text b))
  \/ (node_of s (b_key b) = Some Special /\ node_of now (b_key b) = Some Special).
Definition unchanged (s now : fsys) (k : key) : Prop := node_of now k = node_of s k.

(** Output files are different. *)
Definition different (bs : list buffer) : Prop := NoDup (map b_key bs).

(** At each crash point each file (besides temporary ones) is as before or contains all
    bytes of a buffer for this file. Guards: temporary files can be created ([gt]), a
    disk is not full ([gd]). *)
Definition C93_atomic_claim (gt gd : bool) : Prop :=
  forall s bs ops r n k,
    fresh_names s bs -> release s bs = (ops, r) ->
    (gt = true -> forall b, In b bs -> a_unique (b_env b) = true) ->
    (gd = true -> forall b, In b bs -> stored b) ->
    (forall b, In b bs -> ~ temp_of b k) ->
    unchanged s (run (firstn n ops) s) k
    \/ exists b, In b bs /\ b_key b = k /\ node_of (run (firstn n ops) s) k = Some (Reg (text b)).

(** A finished release: each file is complete or unchanged, the flag is true if and only if
    all files are written, other files are unchanged, there are no temporary files.
    Guard: output files are different. *)
Definition C93_result_claim (gn : bool) : Prop :=
  forall s bs ops all main,
    fresh_names s bs -> release s bs = (ops, RDone all main) ->
    (gn = true -> different bs) ->
    (forall b, In b bs -> complete s (run ops s) b \/ unchanged s (run ops s) (b_key b))
    /\ (all = true -> forall b, In b bs -> complete s (run ops s) b)
    /\ (all = false -> exists b, In b bs /\ unchanged s (run ops s) (b_key b)
          /\ (a_canwrite (b_env b) = false \/ a_open (b_env b) = false \/ a_rename (b_env b) = false))
    /\ (forall k, (forall b, In b bs -> b_key b <> k) -> unchanged s (run ops s) k).

(** The name of the main file is returned if and only if it is written. *)
Definition C93_main_claim (gn : bool) : Prop :=
  forall s bs ops all main k,
    fresh_names s bs -> release s bs = (ops, RDone all main) ->
    (gn = true -> different bs) ->
    (main = Some k -> exists b, In b bs /\ b_main b = true /\ b_key b = k /\ complete s (run ops s) b)
    /\ (main = None -> forall b, In b bs -> b_main b = true -> unchanged s (run ops s) (b_key b) /\ all = false).

(** If the operating system reports errors and a disk is not full then a release reports
    errors, it does not crash. Guard: files can be opened. *)
Definition C93_nofatal_claim (go : bool) : Prop :=
  forall s bs, (forall b, In b bs -> stored b) ->
    (go = true -> forall b, In b bs -> a_open (b_env b) = true) ->
    snd (release s bs) <> RFatal.

(** Without errors everything is written. *)
Definition C93_works_claim : Prop :=
  forall s bs, (forall b, In b bs -> stored b /\ a_canwrite (b_env b) = true
                 /\ a_open (b_env b) = true /\ a_rename (b_env b) = true) ->
    exists main, snd (release s bs) = RDone true main.

(** Files are handled on a signal: temporary files do not remain. Guard: a signal
    arrives when a release has been finished. *)
Definition C93_signal_claim (gf : bool) : Prop :=
  forall s bs ops r n b k,
    fresh_names s bs -> release s bs = (ops, r) -> (gf = true -> length ops <= n) ->
    In b bs -> temp_of b k -> node_of (signalled (run (firstn n ops) s)) k = None.

(** At each crash point all files are written or all files are unchanged. Guard: there is
    at most one file. *)
Definition C93_transaction_claim (go : bool) : Prop :=
  forall s bs ops r n,
    fresh_names s bs -> release s bs = (ops, r) ->
    (forall b, In b bs -> a_unique (b_env b) = true /\ stored b) -> different bs ->
    (go = true -> length bs <= 1) ->
    (forall b, In b bs -> unchanged s (run (firstn n ops) s) (b_key b))
    \/ (forall b, In b bs -> complete s (run (firstn n ops) s) b).
