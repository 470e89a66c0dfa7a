(** Model of control-flow traits of loops and functions (C95):
    lib/Analysis/Clang/ControlFlowTraits.cpp 41-218,
    include/tsar/Analysis/Clang/ControlFlowTraits.h 39-60 and 295-325,
    and their report by a server, tools/tsar-server/PrivateServerPass.cpp 1480-1529.

    A statement is identified by a number (a pointer to a node of AST), its kind is
    determined by this number. Calls which are nested in expressions are statements
    in the order of their visits. C++ statements (range-based loops, exceptions,
    lambdas) and computed gotos are not modelled. *)
From Coq Require Import PeanoNat Bool List.
Import ListNotations.

(** ControlFlowTraits.h 44-54. *)
Record flags := Flags { fInOut : bool; fExit : bool; fEntry : bool;
                        fNoReturn : bool; fTwice : bool; fUnwind : bool }.
Definition none : flags := Flags false false false false false false.
Definition exit : flags := Flags false true false false false false.
Definition entry : flags := Flags false false true false false false.

(** Kinds of statements: a declaration of a callee is known or not. *)
Inductive kind := KOther | KBreak | KReturn | KGoto (l : nat) | KCall (d : option nat).

Inductive stmt :=
| SLeaf (x : nat)
| SLabel (l : nat) (s : stmt)
| SSeq (a b : stmt)               (* also branches of 'if' *)
| SLoop (i : nat) (s : stmt)      (* for, while, do *)
| SSwitch (s : stmt).

Inductive scope := ScLoop (i : nat) | ScSwitch.

(** Attributes of a function in LLVM IR. *)
Record attrs := Attrs { aAlwaysReturn : bool; aNoUnwind : bool; aReturnsTwice : bool; aNoIO : bool }.

(** A region is a key of a map of traits: the function or a statement. *)
Inductive region := RFunc | RStmt (x : nat) | RLoop (i : nat).
Record event := Event { eRegion : region; eStmt : nat; eFlags : flags }.

Section Visit.
  Variable what : nat -> kind.
  (** Functions which are called in LLVM IR (200-212). *)
  Variable callees : nat -> option attrs.

  (** LabelVisitor (44-53): labels and statements which branch to them. *)
  Fixpoint gotos (s : stmt) : list (nat * nat) :=
    match s with
    | SLeaf x => match what x with KGoto l => [(l, x)] | _ => [] end
    | SLabel _ t => gotos t
    | SSeq a b => gotos a ++ gotos b
    | SLoop _ t => gotos t
    | SSwitch t => gotos t
    end.
  Definition labelStmts (ls : list (nat * nat)) (l : nat) : list nat :=
    map snd (filter (fun p => fst p =? l) ls).

  (** Loops in the stack of scopes. *)
  Definition loopsOf (sc : list scope) : list nat :=
    flat_map (fun c => match c with ScLoop i => [i] | ScSwitch => [] end) sc.

  (** 83-89, the head of a list is the back of mScopes. *)
  Definition visitBreak (sc : list scope) (x : nat) : list event :=
    match sc with
    | ScLoop i :: _ => [Event (RLoop i) x exit]
    | _ => []
    end.
  (** 92-101. *)
  Definition visitReturn (sc : list scope) (x : nat) : list event :=
    Event RFunc x exit :: map (fun i => Event (RLoop i) x exit) (loopsOf sc).
  (** 103-137: elements of a list of a label are statements which branch to it, they are
      never in the stack of scopes. *)
  Definition visitGoto (ls : list (nat * nat)) (sc : list scope) (x l : nat) : list event :=
    Event RFunc x none ::
    match labelStmts ls l with
    | [] => map (fun i => Event (RLoop i) x exit) (loopsOf sc)
    | withLabel =>
        map (fun w => Event (RStmt w) x entry) withLabel
        ++ map (fun i => Event (RLoop i) x exit) (loopsOf sc)
    end.
  (** 140-159. *)
  Definition callFlags (d : option nat) : flags :=
    match d with
    | None => Flags true false false true true true
    | Some f =>
        match callees f with
        | None => none
        | Some a => Flags (negb (aNoIO a)) false false (negb (aAlwaysReturn a)) (aReturnsTwice a) (negb (aNoUnwind a))
        end
    end.
  (** 160-168. *)
  Definition visitCall (sc : list scope) (x : nat) (d : option nat) : list event :=
    map (fun i => Event (RLoop i) x (callFlags d)) (loopsOf sc) ++ [Event RFunc x (callFlags d)].

  (** 67-81. *)
  Fixpoint visit (ls : list (nat * nat)) (sc : list scope) (s : stmt) : list event :=
    match s with
    | SLeaf x =>
        match what x with
        | KOther => []
        | KBreak => visitBreak sc x
        | KReturn => visitReturn sc x
        | KGoto l => visitGoto ls sc x l
        | KCall d => visitCall sc x d
        end
    | SLabel _ t => visit ls sc t
    | SSeq a b => visit ls sc a ++ visit ls sc b
    | SLoop i t => visit ls (ScLoop i :: sc) t
    | SSwitch t => visit ls (ScSwitch :: sc) t
    end.

  (** A statement is a key in a set of traits, so that the first trait of it is stored. *)
  Definition region_eq_dec (a b : region) : {a = b} + {a <> b}.
  Proof. decide equality; apply Nat.eq_dec. Defined.
  Fixpoint insertAll (es : list event) (seen : list event) : list event :=
    match es with
    | [] => rev seen
    | e :: rest =>
        if existsb (fun p => if region_eq_dec (eRegion p) (eRegion e) then eStmt p =? eStmt e else false) seen
        then insertAll rest seen else insertAll rest (e :: seen)
    end.
  Definition analyze (s : stmt) : list event := insertAll (visit (gotos s) [] s) [].

  (** PrivateServerPass.cpp 1480-1529: statements of a region with specified flags. Slots
      for statements: a break, a return, a call; the kind of a slot is the last one. Calls
      of visible functions have slots of their own, they are not modelled. *)
  Definition meets (f q : flags) : bool :=
    (fInOut f && fInOut q) || (fExit f && fExit q) || (fEntry f && fEntry q)
    || (fNoReturn f && fNoReturn q) || (fTwice f && fTwice q) || (fUnwind f && fUnwind q).
  Definition isDefault (q : flags) : bool :=
    negb (fInOut q || fExit q || fEntry q || fNoReturn q || fTwice q || fUnwind q).
  Inductive rkind := ReBreak | ReReturn | ReGoto | ReCall.
  Record slot := Slot { slKind : option rkind; slStmts : list nat }.
  Definition emptySlot : slot := Slot None [].
  Definition addTo (k : rkind) (x : nat) (s : slot) : slot := Slot (Some k) (slStmts s ++ [x]).
  Definition selected (q : flags) (e : event) : bool :=
    meets (eFlags e) q || (isDefault q && match what (eStmt e) with KCall _ => true | _ => false end).
  Fixpoint fill (q : flags) (es : list event) (b r c : slot) : list slot :=
    match es with
    | [] => [b; r; c]
    | e :: rest =>
        if selected q e then
          match what (eStmt e) with
          | KBreak => fill q rest (addTo ReBreak (eStmt e) b) r c
          | KReturn => fill q rest b (addTo ReReturn (eStmt e) r) c
          | KGoto _ => fill q rest b (addTo ReGoto (eStmt e) r) c
          | KCall _ => fill q rest b r (addTo ReCall (eStmt e) c)
          | KOther => fill q rest b r c
          end
        else fill q rest b r c
    end.
  Definition report (q : flags) (g : region) (es : list event) : list slot :=
    filter (fun s => match slKind s with Some _ => true | None => false end)
      (fill q (filter (fun e => if region_eq_dec (eRegion e) g then true else false) es) emptySlot emptySlot emptySlot).
End Visit.
