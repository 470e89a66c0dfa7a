(** Model of an answer to a request for loops of a function (C96):
    tools/tsar-server/PrivateServerPass.cpp 1011-1033 (getLoopInfo), 1192-1245
    (an order of loops and their levels), tools/tsar-server/ClangMessages.cpp 35-57
    (getLocation).

    Tokens of a function after preprocessing are numbered. Traits of loops are not
    modelled here. *)
From Coq Require Import PeanoNat Bool List.
Import ListNotations.

(** A token: where it is expanded and where it is spelled. *)
Record token := Token { tFile : nat; tLine : nat; tCol : nat;
                        sLine : nat; sCol : nat; sScratch : bool }.
Record location := Location { lLine : nat; lCol : nat; lMacroLine : nat; lMacroCol : nat }.

(** ClangMessages.cpp 35-57, files are stored but they are not used below. *)
Definition getLocation (t : token) : location :=
  if sScratch t then Location (tLine t) (tCol t) (tLine t) (tCol t)
  else Location (tLine t) (tCol t) (sLine t) (sCol t).

(** PrivateServerPass.cpp 1195-1214 and 1219-1238. *)
Definition ltLoc (a b : location) : bool :=
  (lLine a <? lLine b)
  || ((lLine a =? lLine b) && (lCol a <? lCol b))
  || ((lLine a =? lLine b) && (lCol a =? lCol b) && (lMacroLine a <? lMacroLine b))
  || ((lLine a =? lLine b) && (lCol a =? lCol b) && (lMacroLine a =? lMacroLine b) && (lMacroCol a <? lMacroCol b)).

(** A statement which is a loop: an identifier, the first and the last tokens. *)
Record loop := Loop { oId : nat; oFirst : nat; oLast : nat }.

Section Levels.
  Variable text : nat -> token.
  Definition startLoc (p : loop) : location := getLocation (text (oFirst p)).
  Definition endLoc (p : loop) : location := getLocation (text (oLast p)).

  (** 1218-1239. *)
  Fixpoint popLevels (levels : list location) (e : location) : list location :=
    match levels with
    | [] => []
    | top :: rest => if ltLoc top e then popLevels rest e else levels
    end.
  (** 1216-1242: the head of a list is the back of Levels. *)
  Fixpoint setLevels (levels : list location) (ls : list loop) : list (loop * nat) :=
    match ls with
    | [] => []
    | p :: rest =>
        let levels' := popLevels levels (endLoc p) in
        (p, length levels' + 1) :: setLevels (endLoc p :: levels') rest
    end.
End Levels.
