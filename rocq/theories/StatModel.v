(** Model of statistics of a server (C98):
    - incrementTraitCount, /repo/tools/tsar-server/PrivateServerPass.cpp 961-1009;
    - PrivateServerPass::answerStatistic, 1059-1125.

    Files, functions, traits and extensions are numbers. A loop which has no ID or has no
    mapped ID on an analysis server is a loop without ID. A coverage of accesses (992-993) is
    a flag of a node (the coverage itself is modelled in C91). Counters do not overflow. *)
From Coq Require Import PeanoNat Bool List.
Import ListNotations.

Definition mem (x : nat) (l : list nat) : bool := existsb (Nat.eqb x) l.
(** Traits. *)
Definition tNoAccess := 0.
Definition tAddress := 1.
(** A node of an alias tree: is it in a coverage, traits of the node and of its memory. *)
Record tnode := TNode { nCovered : bool; nDesc : list nat; nMem : list (list nat) }.
Record loop := Loop { lParallel : bool; lId : bool; lNodes : list tnode }.
Record func := Func { fName : nat; fIntrinsic : bool; fBody : bool; fMatched : list loop; fUnmatched : nat }.
(** A declaration of a function in a unit: is it in a user file. A file and its extension. *)
Record unit := Unit { uInstance : bool; uFiles : list (nat * nat); uDecl : nat -> option bool }.

(** ** 961-1009 *)
Record counted := Counted { cParallel : nat; cSkipped : nat; cTraits : list nat }.
(** 994-1006: incremented counters. *)
Definition memTraits (n : tnode) (t : list nat) : list nat :=
  if mem tNoAccess t then (if mem tAddress t then [tAddress] else []) else nDesc n.
Definition nodeTraits (n : tnode) : list nat :=
  if nCovered n then flat_map (memTraits n) (nMem n) else [].
(** 977-1007. *)
Fixpoint incrementTraitCount (ls : list loop) : counted :=
  match ls with
  | [] => Counted 0 0 []
  | l :: r =>
      let c := incrementTraitCount r in
      Counted ((if lParallel l then 1 else 0) + cParallel c)
              ((if lId l then 0 else 1) + cSkipped c)
              ((if lId l then flat_map nodeTraits (lNodes l) else []) ++ cTraits c)
  end.

(** ** 1059-1125 *)
Record stat := Stat { sFiles : list (nat * nat); sVars : option (nat * nat); sFuncs : nat; sUser : nat;
                      sTraits : list nat; sParallel : nat; sLoops : option (nat * nat) }.
Definition kHeader := 0.
Definition kSource := 1.
Definition kOther := 2.
Section Stat.
  Variable headers sources : list nat.
  (** 1071-1081. *)
  Definition kind (ext : nat) : nat :=
    if mem ext headers then kHeader else if mem ext sources then kSource else kOther.
  (** 1082-1084. *)
  Fixpoint bump (k : nat) (m : list (nat * nat)) : list (nat * nat) :=
    match m with
    | [] => [(k, 1)]
    | (k', n) :: r => if k =? k' then (k', S n) :: r else (k', n) :: bump k r
    end.
  (** 1067-1085. *)
  Definition addFiles (fs : list (nat * nat)) (m : list (nat * nat)) : list (nat * nat) :=
    fold_left (fun m f => bump (kind (snd f)) m) fs m.
  (** An insertion into a map: the first value is stored. *)
  Definition insert (v : nat * nat) (o : option (nat * nat)) : option (nat * nat) :=
    match o with Some w => Some w | None => Some v end.
  (** 1093-1117: loops of a unit are the last ones. *)
  Fixpoint visit (u : unit) (fs : list func) (s : stat) (loops : nat * nat) : stat * (nat * nat) :=
    match fs with
    | [] => (s, loops)
    | f :: r =>
        if fIntrinsic f then visit u r s loops
        else
          let s1 := Stat (sFiles s) (sVars s) (S (sFuncs s)) (sUser s) (sTraits s) (sParallel s) (sLoops s) in
          match uDecl u (fName f) with
          | Some true =>
              let s2 := Stat (sFiles s1) (sVars s1) (sFuncs s1) (S (sUser s1)) (sTraits s1) (sParallel s1) (sLoops s1) in
              if fBody f then
                let c := incrementTraitCount (fMatched f) in
                let s3 := Stat (sFiles s2) (sVars s2) (sFuncs s2) (sUser s2) (sTraits s2 ++ cTraits c)
                               (sParallel s2 + cParallel c) (sLoops s2) in
                visit u r s3 ((fst loops + length (fMatched f)) - cSkipped c, snd loops + fUnmatched f + cSkipped c)
              else visit u r s2 loops
          | _ => visit u r s1 loops
          end
    end.
  (** Matched and unmatched variables of a module, functions of a module. *)
  Variable vars : nat * nat.
  Variable funcs : list func.
  (** 1061-1123. *)
  Definition step (s : stat) (u : unit) : stat :=
    if uInstance u then
      let s0 := Stat (addFiles (uFiles u) (sFiles s)) (insert vars (sVars s)) (sFuncs s) (sUser s) (sTraits s) (sParallel s) (sLoops s) in
      let '(s1, loops) := visit u funcs s0 (0, 0) in
      Stat (sFiles s1) (sVars s1) (sFuncs s1) (sUser s1) (sTraits s1) (sParallel s1) (insert loops (sLoops s1))
    else s.
  Definition answerStatistic (us : list unit) : stat :=
    fold_left step us (Stat [] None 0 0 [] 0 None).
End Stat.
