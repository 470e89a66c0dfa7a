(** Specification of C95. *)
From Coq Require Import PeanoNat Bool List.
From Verif Require Import CFTraitModel.
Import ListNotations.

(** A part of a statement: loops and switches around it, the innermost one is the first. *)
Inductive part : stmt -> list scope -> stmt -> Prop :=
| part_self : forall s, part s [] s
| part_label : forall l s c t, part s c t -> part (SLabel l s) c t
| part_left : forall a b c t, part a c t -> part (SSeq a b) c t
| part_right : forall a b c t, part b c t -> part (SSeq a b) c t
| part_loop : forall i s c t, part s c t -> part (SLoop i s) (c ++ [ScLoop i]) t
| part_switch : forall s c t, part s c t -> part (SSwitch s) (c ++ [ScSwitch]) t.

(** A statement (a label) is inside a loop. *)
Definition inLoop (s : stmt) (i x : nat) : Prop := exists c, part s c (SLeaf x) /\ In (ScLoop i) c.
Definition labelIn (s : stmt) (i l : nat) : Prop := exists c t, part s c (SLabel l t) /\ In (ScLoop i) c.

Section Spec.
  Variable what : nat -> kind.

  (** Control leaves a loop. *)
  Definition leaves (s : stmt) (i x : nat) : Prop :=
    match what x with
    | KBreak => exists c, part s (ScLoop i :: c) (SLeaf x)
    | KReturn => inLoop s i x
    | KGoto l => inLoop s i x /\ ~ labelIn s i l
    | _ => False
    end.
  (** Control enters a loop from outside not through its beginning. *)
  Definition enters (s : stmt) (i x : nat) : Prop :=
    match what x with
    | KGoto l => ~ inLoop s i x /\ labelIn s i l
    | _ => False
    end.
End Spec.

(** A trait of a statement is known for a region. *)
Definition known (es : list event) (g : region) (x : nat) (f : flags) : Prop :=
  exists e, In e es /\ eRegion e = g /\ eStmt e = x /\ eFlags e = f.

(** Each way out of a loop is known. *)
Definition C95_exit_claim : Prop :=
  forall what callees s i x, leaves what s i x ->
    exists f, known (analyze what callees s) (RLoop i) x f /\ fExit f = true.
(** Each known way out is a way out. Guard: labels of gotos are outside of loops
    with these gotos. *)
Definition C95_exact_claim (gl : bool) : Prop :=
  forall what callees s i x f,
    (gl = true -> forall l j y, what y = KGoto l -> inLoop s j y -> ~ labelIn s j l) ->
    known (analyze what callees s) (RLoop i) x f -> fExit f = true -> leaves what s i x.
(** Each way into a loop is known. *)
Definition C95_entry_claim : Prop :=
  forall what callees s i x, enters what s i x ->
    exists f, known (analyze what callees s) (RLoop i) x f /\ fEntry f = true.
(** Moreover no way into a loop is known. *)
Definition C95_noentry_claim : Prop :=
  forall what callees s i x f, known (analyze what callees s) (RLoop i) x f -> fEntry f = false.
(** Only statements of a loop are known for it. *)
Definition C95_inside_claim : Prop :=
  forall what callees s i x f, known (analyze what callees s) (RLoop i) x f -> inLoop s i x.
(** There is a single trait for each statement. *)
Definition C95_single_claim : Prop :=
  forall what callees s g x f f',
    known (analyze what callees s) g x f -> known (analyze what callees s) g x f' -> f = f'.

(** What calls do in executions of a program. *)
Record behaviour := Behaviour { doesIO : bool; mayHang : bool; mayTwice : bool; mayThrow : bool }.
Definition covered (b : behaviour) (f : flags) : Prop :=
  (doesIO b = true -> fInOut f = true) /\ (mayHang b = true -> fNoReturn f = true)
  /\ (mayTwice b = true -> fTwice f = true) /\ (mayThrow b = true -> fUnwind f = true).
(** Attributes of functions are true. *)
Definition trueAttrs (what : nat -> kind) (callees : nat -> option attrs) (does : nat -> behaviour) : Prop :=
  forall x d a, what x = KCall (Some d) -> callees d = Some a ->
    (aNoIO a = true -> doesIO (does x) = false) /\ (aAlwaysReturn a = true -> mayHang (does x) = false)
    /\ (aReturnsTwice a = false -> mayTwice (does x) = false) /\ (aNoUnwind a = true -> mayThrow (does x) = false).
(** Each effect of a call is known for the function and for each loop with this call.
    Guard: each callee with a declaration is a function which is called in LLVM IR. *)
Definition C95_call_claim (gd : bool) : Prop :=
  forall what callees does s x d c,
    trueAttrs what callees does ->
    (gd = true -> forall y e, what y = KCall (Some e) -> callees e <> None) ->
    what x = KCall d -> part s c (SLeaf x) ->
    (exists f, known (analyze what callees s) RFunc x f /\ covered (does x) f)
    /\ forall i, In (ScLoop i) c -> exists f, known (analyze what callees s) (RLoop i) x f /\ covered (does x) f.

(** All returns and gotos of a function are known. *)
Definition C95_func_claim : Prop :=
  forall what callees s c x, part s c (SLeaf x) ->
    (what x = KReturn -> exists f, known (analyze what callees s) RFunc x f /\ fExit f = true)
    /\ (forall l, what x = KGoto l -> exists f, known (analyze what callees s) RFunc x f).

(** A report contains each statement with one of requested flags. *)
Definition common (f q : flags) : Prop :=
  exists p, In p [fInOut; fExit; fEntry; fNoReturn; fTwice; fUnwind] /\ p f = true /\ p q = true.
Definition C95_report_claim : Prop :=
  forall what callees s g q x f,
    known (analyze what callees s) g x f -> common f q ->
    exists sl, In sl (report what q g (analyze what callees s)) /\ In x (slStmts sl).
(** If there are requested flags, each reported statement has one of them and it is
    known for the requested region. *)
Definition C95_only_claim : Prop :=
  forall what callees s g q sl x,
    (exists p, In p [fInOut; fExit; fEntry; fNoReturn; fTwice; fUnwind] /\ p q = true) ->
    In sl (report what q g (analyze what callees s)) -> In x (slStmts sl) ->
    exists f, known (analyze what callees s) g x f /\ common f q.
(** Each reported statement has the reported kind. Guard: there are no gotos. *)
Definition kindIs (k : kind) (r : rkind) : Prop :=
  match r with
  | ReBreak => k = KBreak
  | ReReturn => k = KReturn
  | ReGoto => exists l, k = KGoto l
  | ReCall => exists d, k = KCall d
  end.
Definition C95_kind_claim (gg : bool) : Prop :=
  forall what callees s g q sl k x,
    (gg = true -> forall y l, what y <> KGoto l) ->
    In sl (report what q g (analyze what callees s)) -> slKind sl = Some k -> In x (slStmts sl) ->
    kindIs (what x) k.
