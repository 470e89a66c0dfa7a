(** C70: propagation of expressions keeps results. *)
From Coq Require Import List Bool Arith ZArith Lia.
From Verif Require Import PropagModel PropagSpec PropagProof.
Import ListNotations.

(** The transformed program computes the same values of all variables and calls functions with the same
    arguments in the same order, for all programs, initial states and numbers of steps. *)
Theorem C70_results_partial : C70_claim (Conds true true true true true true true true true true).
Proof. exact C70_main. Qed.
Print Assumptions C70_results_partial.

(** ** Examples.  Variables 0-9 are local, 10 is global, 20 is a function which does not access memory. *)
(** Operators: 0 is +, 1 is -, 2 is <, 3 is /; char is the type 4 *)
Definition opTy0 (f a b : nat) : nat :=
  if f =? 2 then 0 else if a =? 4 then (if b =? 4 then 0 else b) else if b =? 4 then a else Nat.max a b.
Definition uns (z : Z) : Z := Z.modulo z 4294967296.
Definition fl (t : nat) (z : Z) : Z := if t =? 2 then z else (4 * z)%Z.
Definition opZ0 (f a b : nat) (x y : Z) : Z :=
  let t := Nat.max a b in
  match f with
  | 0 => if opTy0 0 a b =? 2 then (fl a x + fl b y)%Z else (x + y)%Z
  | 1 => if opTy0 0 a b =? 2 then (fl a x - fl b y)%Z else (x - y)%Z
  | 2 => if (a =? 1) || (b =? 1) then (if Z.ltb (uns x) (uns y) then 1%Z else 0%Z) else if Z.ltb x y then 1%Z else 0%Z
  | _ => if t =? 2 then Z.quot (4 * fl a x) (fl b y) else Z.quot x y
  end.
Definition cvt0 (a b : nat) (z : Z) : Z :=
  if b =? 4 then (Z.modulo (z + 128) 256 - 128)%Z else if b =? 2 then fl a z else if a =? 2 then Z.quot z 4 else z.
Definition M0 : meaning := Meaning opTy0 opZ0 cvt0 (fun _ z => (z + 1)%Z)
  (fun f x _ => (word x + Z.of_nat f)%Z) (fun _ x _ => word x) (fun _ x _ _ => word x).
Definition knd0 (d : nat) : kind := if d <? 10 then KLocal else if d =? 10 then KGlobal false else KFun true.
Definition dec (n : nat -> nat) (t : nat -> nat) : decls := Decls knd0 n t (fun _ => true).
Definition ints : nat -> nat := fun _ => 0.
Definition D0 := dec (fun d => d) ints.
Definition st (D : decls) (f : nat -> Z) : state := fun d => Val (ty D d) (f d).
Definition s0 (D : decls) : state := st D (fun d => Z.of_nat (10 + d)).
Definition var (l d : nat) := RExpr (EVar l d).
Definition plus1 (l d : nat) := EBin l 0 (EVar (l + 1) d) (EConst (l + 2) 0 1).

Definition okCheck (X : conds) (D : decls) (F : facts) (params : list nat) (p : list stmt) (s : state) (n : nat) : bool :=
  wfProgCheck D params p && wfFactsCheck D F p && condsCheck X D M0 F p &&
  match exec D M0 n p (start s) with (Some _, evs) => forallb (factsCheck F) evs | _ => false end.
Definition wordsOf (vs : list nat) (o : option (state * list (nat * val))) : list Z :=
  match o with Some (s, _) => map (fun v => word (s v)) vs | None => [] end.
Definition differ (D : decls) (F : facts) (params : list nat) (p : list stmt) (s : state) (n v : nat) : Prop :=
  wordsOf [v] (result (exec D M0 n (propagate D F params p) (start s))) <> wordsOf [v] (result (exec D M0 n p (start s))).
Definition namesOk (X : conds) (D : decls) (F : facts) (params : list nat) (p : list stmt) : Prop :=
  (xShadow X = true -> forall d g, (In d params \/ exists r, In (d, r) (flat_map declared p)) -> isLocal D g = false -> nam D d <> nam D g) /\
  (xInit X = true -> forall v r us d, In (v, r) (flat_map declared p) -> In (locR r, us) (defs F) -> nam D d = nam D v -> d = v).
Lemma okCheck_ok : forall X D F params p f n, okCheck X D F params p (st D f) n = true -> namesOk X D F params p ->
  wfProg D params p /\ wfFacts D F p /\ typed D (st D f) /\ condsOk X D M0 F params p /\
  (forall k ev, In ev (snd (exec D M0 k p (start (st D f)))) -> factsOk F ev).
Proof.
  intros X D F params p f n H [N1 N2]. unfold okCheck in H. sp H.
  split; [apply wfProgCheck_ok; assumption |]. split; [apply wfFactsCheck_ok; assumption |].
  split; [intros d; exists (f d); reflexivity |]. split; [apply condsCheck_ok; assumption |].
  intros k ev I0. apply factsCheck_ok.
  destruct (exec D M0 n p (start (st D f))) as [[w |] evs] eqn:E; [| discriminate].
  rewrite forallb_forall in Q. apply Q. assert (F0 : fst (exec D M0 n p (start (st D f))) = Some w) by (rewrite E; reflexivity).
  pose proof (exec_all D M0 n p _ w F0 k ev I0) as H1. rewrite E in H1. exact H1.
Qed.
Lemma refute : forall X D F params p f n v, okCheck X D F params p (st D f) n = true -> namesOk X D F params p ->
  differ D F params p (st D f) n v -> ~ C70_claim X.
Proof.
  intros X D F params p f n v H N DF C. destruct (okCheck_ok _ _ _ _ _ _ _ H N) as (H1 & H2 & H3 & H4 & H5).
  apply DF. f_equal. apply C; assumption.
Qed.
Lemma names_id : forall X F params p, forallb (isLocal D0) params = true ->
  forallb (fun e : nat * rhs => isLocal D0 (fst e)) (flat_map declared p) = true -> namesOk X D0 F params p.
Proof.
  intros X F params p H1 H2. rewrite forallb_forall in H1, H2. split.
  - intros _ d g HD HG E. cbn [nam D0 dec] in E. subst g. destruct HD as [HD | [r HD]]; [rewrite (H1 _ HD) in HG | specialize (H2 _ HD); cbn [fst] in H2; rewrite H2 in HG]; discriminate.
  - intros _ v r us d _ _ E. exact E.
Qed.
Lemma names_ty : forall X t F params p, namesOk X D0 F params p -> namesOk X (dec (fun d => d) t) F params p.
Proof. intros X t F params p H. exact H. Qed.

(** A case which meets hypotheses: t = a + 1; g = t; { int x = t; v = x } with a while loop *)
Definition pGood : list stmt :=
  [SAssign 0 (RExpr (plus1 1 1));
   SStore 4 10 (var 5 0);
   SWhile (EBin 11 2 (EVar 12 2) (EVar 13 0)) [SDecl 3 (RExpr (EBin 14 0 (EVar 15 2) (EConst 16 0 8))); SAssign 2 (var 17 3)];
   SAssign 4 (RExpr (EBin 20 1 (EVar 21 5) (EVar 22 6)))].
Definition fGood : facts := Facts [(13, 0, TVar 6); (21, 5, TConst 15); (22, 6, TVar 0)]
  [(1, [Use 5 [(OSelf, [0]); (OVar 1, [1])]]); (14, [Use 17 [(OSelf, [3]); (OVal 3, [])]])].
Definition sGood : nat -> Z := fun d => match d with 1 => 11%Z | 2 => 0%Z | 5 => 15%Z | 6 => 12%Z | _ => 3%Z end.
Example C70_results_example :
  propagate D0 fGood [0; 1; 2; 4; 5; 6] pGood =
    [SAssign 0 (RExpr (plus1 1 1));
     SStore 4 10 (RExpr (plus1 1 1));
     SWhile (EBin 11 2 (EVar 12 2) (EVar 0 6)) [SDecl 3 (RExpr (EBin 14 0 (EVar 15 2) (EConst 16 0 8))); SAssign 2 (var 17 3)];
     SAssign 4 (RExpr (EBin 20 1 (EConst 0 0 15) (EVar 0 0)))] /\
  result (exec D0 M0 20 (propagate D0 fGood [0; 1; 2; 4; 5; 6] pGood) (start (st D0 sGood))) = result (exec D0 M0 20 pGood (start (st D0 sGood))).
Proof.
  split; [vm_compute; reflexivity |].
  destruct (okCheck_ok allConds D0 fGood [0; 1; 2; 4; 5; 6] pGood sGood 20) as (H1 & H2 & H3 & H4 & H5);
    [vm_compute; reflexivity | apply names_id; reflexivity |].
  apply C70_results_partial; assumption.
Qed.

Ltac ref D F params p f n v :=
  apply (refute _ D F params p f n v); [vm_compute; reflexivity | try (apply names_id; reflexivity); try (apply names_ty, names_id; reflexivity) | try (vm_compute; discriminate)].
Definition f0 : nat -> Z := fun d => Z.of_nat (10 + d).

(** Memory may be changed between a definition and a use: t = g + 1; g = 5; v = t *)
Theorem C70_memory_refuted : ~ C70_claim (Conds false true true true true true true true true true).
Proof.
  ref D0 (Facts [] [(1, [Use 6 [(OSelf, [0]); (OGlob 10, [])]])]) [0; 1; 2]
    [SAssign 0 (RExpr (plus1 1 10)); SStore 4 10 (RExpr (EConst 5 0 5)); SAssign 2 (var 6 0)] f0 10 2.
Qed.
Print Assumptions C70_memory_refuted.
(** Operands are checked for the first use only: t = a + 1; v = t; a = 7; w = t *)
Theorem C70_uses_refuted : ~ C70_claim (Conds true false true true true true true true true true).
Proof.
  ref D0 (Facts [] [(1, [Use 6 [(OSelf, [0]); (OVar 1, [1])]; Use 8 [(OSelf, [0])]])]) [0; 1; 2; 3]
    [SAssign 0 (RExpr (plus1 1 1)); SAssign 2 (var 6 0); SAssign 1 (RExpr (EConst 7 0 7)); SAssign 3 (var 8 0)] f0 10 3.
Qed.
Print Assumptions C70_uses_refuted.
(** A function is hidden by a local variable at a use: t = f(a); { int f = 3; v = t; } *)
Definition namF (d : nat) : nat := if d =? 5 then 20 else d.
Theorem C70_shadow_refuted : ~ C70_claim (Conds true true false true true true true true true true).
Proof.
  ref (dec namF ints) (Facts [] [(1, [Use 6 [(OSelf, [0]); (OVar 1, [1]); (OFun 20, [])]])]) [0; 1; 2]
    [SAssign 0 (RExpr (ECall 1 20 (EVar 2 1))); SIf (EConst 3 0 1) [SDecl 5 (RExpr (EConst 4 0 3)); SAssign 2 (var 6 0)] []] f0 10 2.
  split; [discriminate |]. intros _ v r us d H1 H2 H3. cbn in H1, H2.
  destruct H1 as [E | []]. injection E as <- <-. cbn in H2. destruct H2 as [E | []]. discriminate.
Qed.
Print Assumptions C70_shadow_refuted.
(** A declared variable hides a variable in its initialization: t = x + 1; { int x = t; } *)
Definition namX (d : nat) : nat := if d =? 5 then 3 else d.
Theorem C70_init_refuted : ~ C70_claim (Conds true true true false true true true true true true).
Proof.
  ref (dec namX ints) (Facts [] [(1, [Use 6 [(OSelf, [0]); (OVar 3, [3])]]); (6, [])]) [0; 3]
    [SAssign 0 (RExpr (plus1 1 3)); SIf (EConst 4 0 1) [SDecl 5 (var 6 0)] []] f0 10 5.
  split; [| discriminate]. intros _ d g HD HG E. cbn [nam dec] in E.
  assert (G : 10 <= g).
  { unfold isLocal in HG. cbn [knd dec] in HG. unfold knd0 in HG. destruct (g <? 10) eqn:Q; [discriminate | apply Nat.ltb_ge in Q; exact Q]. }
  assert (Dd : d < 10). { cbn in HD. destruct HD as [[<- | [<- | []]] | [r [Q | []]]]; [lia | lia | injection Q as <- _; lia]. }
  unfold namX in E. destruct (d =? 5); destruct (g =? 5) eqn:Q; try apply Nat.eqb_eq in Q; lia.
Qed.
Print Assumptions C70_init_refuted.
(** A value which is used in a switch is propagated into its body: t = a + 1; switch (t) { case 12: a = 7; v = t; } *)
Theorem C70_switch_refuted : ~ C70_claim (Conds true true true true false true true true true true).
Proof.
  ref D0 (Facts [] [(1, [Use 4 [(OSelf, [0]); (OVar 1, [1])]])]) [0; 1; 2]
    [SAssign 0 (RExpr (plus1 1 1)); SSwitch 4 (EVar 5 0) 12%Z [SAssign 1 (RExpr (EConst 6 0 7)); SAssign 2 (var 7 0)]] f0 10 2.
Qed.
Print Assumptions C70_switch_refuted.
(** An increment is repeated: t = ++i; i = i - 1; v = t *)
Theorem C70_increment_refuted : ~ C70_claim (Conds true true true true true false true true true true).
Proof.
  ref D0 (Facts [] [(1, [Use 7 [(OSelf, [0]); (OVar 1, [1])]])]) [0; 1; 2]
    [SAssign 0 (RInc 1 1); SAssign 1 (RExpr (EBin 4 1 (EVar 5 1) (EConst 6 0 1))); SAssign 2 (var 7 0)] f0 10 1.
Qed.
Print Assumptions C70_increment_refuted.
(** The type of a constant is lost: double t = 5.0; v = t / 2 *)
Definition tyD (d : nat) : nat := if (d =? 0) || (d =? 2) then 2 else 0.
Theorem C70_constant_refuted : ~ C70_claim (Conds true true true true true true false true true true).
Proof.
  ref (dec (fun d => d) tyD) (Facts [(7, 0, TConst 20)] []) [0; 2]
    [SAssign 0 (RExpr (EConst 1 2 20)); SAssign 2 (RExpr (EBin 6 3 (EVar 7 0) (EConst 8 0 2)))] f0 10 2.
Qed.
Print Assumptions C70_constant_refuted.
(** Signedness of a variable is lost: unsigned u = i; v = u < 1, where i is -1 *)
Definition fM : nat -> Z := fun _ => (-1)%Z.
Definition tyU (d : nat) : nat := if d =? 0 then 1 else 0.
Theorem C70_sign_refuted : ~ C70_claim (Conds true true true true true true true false true true).
Proof.
  ref (dec (fun d => d) tyU) (Facts [(7, 0, TVar 1)] []) [0; 1; 2]
    [SAssign 0 (var 1 1); SAssign 2 (RExpr (EBin 6 2 (EVar 7 0) (EConst 8 0 1)))] fM 10 2.
Qed.
Print Assumptions C70_sign_refuted.
(** A conversion is lost: char t = x + 300; v = t *)
Definition tyC (d : nat) : nat := if d =? 0 then 4 else 0.
Theorem C70_conversion_refuted : ~ C70_claim (Conds true true true true true true true true false true).
Proof.
  ref (dec (fun d => d) tyC) (Facts [] [(1, [Use 6 [(OSelf, [0]); (OVar 1, [1])]])]) [0; 1; 2]
    [SAssign 0 (RExpr (EBin 1 0 (EVar 2 1) (EConst 3 0 300))); SAssign 2 (var 6 0)] f0 10 2.
Qed.
Print Assumptions C70_conversion_refuted.
(** A variable which holds the result is taken for an operand: t = a + 1; a = t; v = t *)
Theorem C70_operand_refuted : ~ C70_claim (Conds true true true true true true true true true false).
Proof.
  ref D0 (Facts [] [(1, [Use 8 [(OSelf, [0; 1])]])]) [0; 1; 2]
    [SAssign 0 (RExpr (plus1 1 1)); SAssign 1 (var 6 0); SAssign 2 (var 8 0)] f0 10 2.
Qed.
Print Assumptions C70_operand_refuted.
