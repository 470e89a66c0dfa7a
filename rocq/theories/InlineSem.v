(** Lemmas about the semantics of programs (C72). *)
From Coq Require Import List Bool Arith ZArith Lia.
From Verif Require Import InlineModel InlineSpec.
Import ListNotations.

Definition dom (l : locals) : list nat := map fst l.
Lemma update_dom l x v l2 : update l x v = Some l2 -> dom l2 = dom l.
Proof.
  revert l2. induction l as [|[y w] l IH]; intros l2 E; [discriminate|]. cbn [update] in E. destruct (x =? y).
  - injection E as <-. reflexivity.
  - destruct (update l x v) as [l3|]; [|discriminate]. injection E as <-. cbn. f_equal. now apply IH.
Qed.
Lemma update_none l x v : update l x v = None <-> ~ In x (dom l).
Proof.
  induction l as [|[y w] l IH]; cbn [update dom map fst In]; [tauto|].
  destruct (x =? y) eqn:E; [apply Nat.eqb_eq in E; subst; split; [discriminate|intros []; now left]|].
  apply Nat.eqb_neq in E. change (map fst l) with (dom l). destruct (update l x v) as [l2|]; cbn [option_map].
  - split; [discriminate|]. intro N. exfalso. assert (X : ~ In x (dom l)) by (intro; apply N; now right). apply IH in X. discriminate.
  - split; [|reflexivity]. intros _ [F|F]; [now apply E|]. now apply (proj1 IH eq_refl).
Qed.
Lemma assignL_dom l x v : dom (assignL l x v) = dom l.
Proof. unfold assignL. destruct (update l x v) as [l2|] eqn:E; [|reflexivity]. exact (update_dom _ _ _ _ E). Qed.

Section Expr.
Variable opf : nat -> Z -> Z -> Z.
Section C1.
Variable C : nat -> Z -> Z -> globals -> Z -> globals -> Prop.
Notation step := (step opf C). Notation steps := (steps opf C).
Lemma steps_one g l e g2 l2 e2 : step g l e g2 l2 e2 -> steps g l e g2 l2 e2.
Proof. intro H. econstructor; [exact H|constructor]. Qed.
Lemma steps_trans g l e g1 l1 e1 : steps g l e g1 l1 e1 -> forall g2 l2 e2, steps g1 l1 e1 g2 l2 e2 -> steps g l e g2 l2 e2.
Proof. induction 1 as [|g l e g1 l1 e1 g2 l2 e2 H1 H2 IH]; intros g3 l3 e3 H; [exact H|]. econstructor; [exact H1|]. now apply IH. Qed.
Lemma step_dom g l e g2 l2 e2 : step g l e g2 l2 e2 -> dom l2 = dom l.
Proof. induction 1; try reflexivity; try assumption. apply assignL_dom. Qed.
Lemma steps_dom g l e g2 l2 e2 : steps g l e g2 l2 e2 -> dom l2 = dom l.
Proof. induction 1 as [|g l e g1 l1 e1 g2 l2 e2 H1 H2 IH]; [reflexivity|]. rewrite IH. exact (step_dom _ _ _ _ _ _ H1). Qed.
Lemma steps_bin1 w o b g l a g2 l2 a2 : steps g l a g2 l2 a2 -> steps g l (EBin w o a b) g2 l2 (EBin w o a2 b).
Proof. induction 1; [constructor|]. econstructor; [apply StBin1; eassumption|assumption]. Qed.
Lemma steps_bin2 w o a g l b g2 l2 b2 : steps g l b g2 l2 b2 -> steps g l (EBin w o a b) g2 l2 (EBin w o a b2).
Proof. induction 1; [constructor|]. econstructor; [apply StBin2; eassumption|assumption]. Qed.
Lemma steps_seq1 k b g l a g2 l2 a2 : steps g l a g2 l2 a2 -> steps g l (ESeq k a b) g2 l2 (ESeq k a2 b).
Proof. induction 1; [constructor|]. econstructor; [apply StSeq1; eassumption|assumption]. Qed.
Lemma steps_cond1 a b g l c g2 l2 c2 : steps g l c g2 l2 c2 -> steps g l (ECond c a b) g2 l2 (ECond c2 a b).
Proof. induction 1; [constructor|]. econstructor; [apply StCond1; eassumption|assumption]. Qed.
Lemma steps_assign1 x g l a g2 l2 a2 : steps g l a g2 l2 a2 -> steps g l (EAssign x a) g2 l2 (EAssign x a2).
Proof. induction 1; [constructor|]. econstructor; [apply StAssign1; eassumption|assumption]. Qed.
Lemma steps_call1 m f b g l a g2 l2 a2 : steps g l a g2 l2 a2 -> steps g l (ECall m f a b) g2 l2 (ECall m f a2 b).
Proof. induction 1; [constructor|]. econstructor; [apply StCall1; eassumption|assumption]. Qed.
Lemma steps_call2 m f a g l b g2 l2 b2 : steps g l b g2 l2 b2 -> steps g l (ECall m f a b) g2 l2 (ECall m f a b2).
Proof. induction 1; [constructor|]. econstructor; [apply StCall2; eassumption|assumption]. Qed.
End C1.
Lemma step_mono (C1 C2 : nat -> Z -> Z -> globals -> Z -> globals -> Prop) :
  (forall f a b g v g2, C1 f a b g v g2 -> C2 f a b g v g2) ->
  forall g l e g2 l2 e2, step opf C1 g l e g2 l2 e2 -> step opf C2 g l e g2 l2 e2.
Proof. intros H g l e g2 l2 e2 S1. induction S1; constructor; auto. Qed.
Lemma steps_mono (C1 C2 : nat -> Z -> Z -> globals -> Z -> globals -> Prop) :
  (forall f a b g v g2, C1 f a b g v g2 -> C2 f a b g v g2) ->
  forall g l e g2 l2 e2, steps opf C1 g l e g2 l2 e2 -> steps opf C2 g l e g2 l2 e2.
Proof. intros H g l e g2 l2 e2 S1. induction S1; econstructor; [eapply step_mono; eassumption|assumption]. Qed.
Lemma evalO_mono (C1 C2 : nat -> Z -> Z -> globals -> Z -> globals -> Prop) :
  (forall f a b g v g2, C1 f a b g v g2 -> C2 f a b g v g2) ->
  forall g l o v g2 l2, evalO opf C1 g l o v g2 l2 -> evalO opf C2 g l o v g2 l2.
Proof. intros H g l [e|] v g2 l2 E; [|exact E]. exact (steps_mono _ _ H _ _ _ _ _ _ E). Qed.
End Expr.

Section Stmt.
Variable opf : nat -> Z -> Z -> Z.
Variable ext : nat -> Z -> Z -> globals -> Z * globals.
Variable fn : nat -> option func.
Notation execN := (execN opf ext fn). Notation callN := (callN opf ext fn). Notation call := (call opf ext fn).
Definition next (n : nat) (o : outcome) (g2 : globals) (l2 : locals) (b : list stmt) (o1 : outcome) (g1 : globals) (l1 : locals) : Prop :=
  match o1 with ONormal => execN n b g1 l1 o g2 l2 | _ => o = o1 /\ g2 = g1 /\ l2 = l1 end.
Lemma execN_S n b g l o g2 l2 : execN (S n) b g l o g2 l2 =
  match b with
  | [] => o = ONormal /\ g2 = g /\ l2 = l
  | SExpr e :: b => exists v g1 l1, eval opf (callN n) g l e v g1 l1 /\ execN n b g1 l1 o g2 l2
  | SDecl [] :: b => execN n b g l o g2 l2
  | SDecl ((x, i) :: ds) :: b =>
    exists v g1 l1 l3, evalO opf (callN n) g l i v g1 l1 /\ execN n (SDecl ds :: b) g1 ((x, v) :: l1) o g2 l3 /\ l2 = tl l3
  | SIf e s1 s2 :: b =>
    exists v g1 l1 o1 g3 l3, eval opf (callN n) g l e v g1 l1 /\ execN n [if Z.eqb v 0 then s2 else s1] g1 l1 o1 g3 l3 /\ next n o g2 l2 b o1 g3 l3
  | SLoop c i s :: b =>
    exists v g1 l1, eval opf (callN n) g l c v g1 l1 /\
      if Z.eqb v 0 then execN n b g1 l1 o g2 l2
      else exists o1 g3 l3, execN n [s] g1 l1 o1 g3 l3 /\ next n o g2 l2 (SExpr i :: SLoop c i s :: b) o1 g3 l3
  | SFor init c i s :: b => exists o1 g1 l1, execN n [init; SLoop c i s] g l o1 g1 l1 /\ next n o g2 l2 b o1 g1 l1
  | SBlock b1 lab :: b => exists o1 g1 l1, execN n b1 g l o1 g1 l1 /\ next n o g2 l2 b (catch lab o1) g1 l1
  | SReturn i :: _ => exists v, evalO opf (callN n) g l i v g2 l2 /\ o = OReturn v
  | SGoto x :: _ => o = OGoto x /\ g2 = g /\ l2 = l
  end.
Proof. reflexivity. Qed.

Lemma callN_mono n m : (forall b g l o g2 l2, execN n b g l o g2 l2 -> execN m b g l o g2 l2) ->
  forall f a b g v g2, callN n f a b g v g2 -> callN m f a b g v g2.
Proof.
  intros H f a b g v g2. unfold InlineSpec.callN. destruct (fn f) as [F|]; [|tauto].
  intros (o & l2 & E & R). exists o, l2. split; [now apply H|exact R].
Qed.
Lemma next_mono n m o g2 l2 b o1 g1 l1 : (forall b g l o g2 l2, execN n b g l o g2 l2 -> execN m b g l o g2 l2) ->
  next n o g2 l2 b o1 g1 l1 -> next m o g2 l2 b o1 g1 l1.
Proof. intro H. destruct o1; cbn [next]; [apply H|tauto|tauto]. Qed.
Lemma execN_up n : forall b g l o g2 l2, execN n b g l o g2 l2 -> execN (S n) b g l o g2 l2.
Proof.
  induction n as [|n IH]; intros b g l o g2 l2 H; [destruct H|]. rewrite execN_S in *.
  pose proof (callN_mono n (S n) IH) as CM.
  destruct b as [|[e|[|[x i] ds]|e s1 s2|c i s|init c i s|b1 lab|i|x] b]; [exact H| | | | | | | | |exact H].
  - destruct H as (v & g1 & l1 & E & H). exists v, g1, l1. split; [exact (steps_mono _ _ _ CM _ _ _ _ _ _ E)|now apply IH].
  - now apply IH.
  - destruct H as (v & g1 & l1 & l3 & E & H & T). exists v, g1, l1, l3. split; [exact (evalO_mono _ _ _ CM _ _ _ _ _ _ E)|]. split; [now apply IH|exact T].
  - destruct H as (v & g1 & l1 & o1 & g3 & l3 & E & H & T). exists v, g1, l1, o1, g3, l3. split; [exact (steps_mono _ _ _ CM _ _ _ _ _ _ E)|].
    split; [now apply IH|]. exact (next_mono _ _ _ _ _ _ _ _ _ IH T).
  - destruct H as (v & g1 & l1 & E & H). exists v, g1, l1. split; [exact (steps_mono _ _ _ CM _ _ _ _ _ _ E)|].
    destruct (Z.eqb v 0); [now apply IH|]. destruct H as (o1 & g3 & l3 & H & T). exists o1, g3, l3. split; [now apply IH|].
    exact (next_mono _ _ _ _ _ _ _ _ _ IH T).
  - destruct H as (o1 & g1 & l1 & H & T). exists o1, g1, l1. split; [now apply IH|]. exact (next_mono _ _ _ _ _ _ _ _ _ IH T).
  - destruct H as (o1 & g1 & l1 & H & T). exists o1, g1, l1. split; [now apply IH|]. exact (next_mono _ _ _ _ _ _ _ _ _ IH T).
  - destruct H as (v & E & R). exists v. split; [exact (evalO_mono _ _ _ CM _ _ _ _ _ _ E)|exact R].
Qed.
Lemma execN_le n m : n <= m -> forall b g l o g2 l2, execN n b g l o g2 l2 -> execN m b g l o g2 l2.
Proof. induction 1 as [|m L IH]; intros b g l o g2 l2 H; [exact H|]. apply execN_up. now apply IH. Qed.
Lemma callN_le n m : n <= m -> forall f a b g v g2, callN n f a b g v g2 -> callN m f a b g v g2.
Proof. intro L. apply callN_mono. now apply execN_le. Qed.

(** ** Executions without a bound *)
Definition exec (b : list stmt) (g : globals) (l : locals) (o : outcome) (g2 : globals) (l2 : locals) : Prop := exists n, execN n b g l o g2 l2.
Lemma step_bound g l e g2 l2 e2 : step opf call g l e g2 l2 e2 -> exists n, step opf (callN n) g l e g2 l2 e2.
Proof.
  induction 1 as [ | | | | |? ? ? ? ? ? ? ? (n & H)| | | | | | | ];
    try (destruct IHstep as (n & IH); exists n; constructor; exact IH); try (exists 0; constructor; fail).
  exists n. constructor. exact H.
Qed.
Lemma steps_bound g l e g2 l2 e2 : steps opf call g l e g2 l2 e2 -> exists n, steps opf (callN n) g l e g2 l2 e2.
Proof.
  induction 1 as [|g l e g1 l1 e1 g2 l2 e2 H1 H2 (n & IH)]; [exists 0; constructor|].
  destruct (step_bound _ _ _ _ _ _ H1) as (m & S1). exists (n + m). econstructor.
  - apply (step_mono opf (callN m)); [apply callN_le; lia|exact S1].
  - apply (steps_mono opf (callN n)); [apply callN_le; lia|exact IH].
Qed.
Lemma evalO_bound g l o v g2 l2 : evalO opf call g l o v g2 l2 -> exists n, evalO opf (callN n) g l o v g2 l2.
Proof. destruct o as [e|]; [apply steps_bound|]. intro H. exists 0. exact H. Qed.
Definition nextE (o : outcome) (g2 : globals) (l2 : locals) (b : list stmt) (o1 : outcome) (g1 : globals) (l1 : locals) : Prop :=
  match o1 with ONormal => exec b g1 l1 o g2 l2 | _ => o = o1 /\ g2 = g1 /\ l2 = l1 end.
Lemma nextE_bound o g2 l2 b o1 g1 l1 : nextE o g2 l2 b o1 g1 l1 -> exists n, next n o g2 l2 b o1 g1 l1.
Proof. destruct o1; cbn [nextE next]; [intros (n & H); now exists n|intro H; now exists 0|intro H; now exists 0]. Qed.
Ltac up n := first [apply (execN_le n); [lia|assumption] | apply (steps_mono opf (callN n)); [apply callN_le; lia|assumption]
  | apply (evalO_mono opf (callN n)); [apply callN_le; lia|assumption] | eapply (next_mono n); [apply execN_le; lia|eassumption]].
Lemma exec_nil g l : exec [] g l ONormal g l.
Proof. exists 1. rewrite execN_S. now repeat split. Qed.
Lemma exec_expr e b g l v g1 l1 o g2 l2 : eval opf call g l e v g1 l1 -> exec b g1 l1 o g2 l2 -> exec (SExpr e :: b) g l o g2 l2.
Proof.
  intros E (m & H). destruct (steps_bound _ _ _ _ _ _ E) as (n & E1). exists (S (n + m)). rewrite execN_S.
  exists v, g1, l1. split; [unfold eval; up n|up m].
Qed.
Lemma exec_decl0 b g l o g2 l2 : exec b g l o g2 l2 -> exec (SDecl [] :: b) g l o g2 l2.
Proof. intros (n & H). exists (S n). rewrite execN_S. exact H. Qed.
Lemma exec_decl x i ds b g l v g1 l1 o g2 l3 : evalO opf call g l i v g1 l1 -> exec (SDecl ds :: b) g1 ((x, v) :: l1) o g2 l3 ->
  exec (SDecl ((x, i) :: ds) :: b) g l o g2 (tl l3).
Proof.
  intros E (m & H). destruct (evalO_bound _ _ _ _ _ _ E) as (n & E1). exists (S (n + m)). rewrite execN_S.
  exists v, g1, l1, l3. split; [up n|]. split; [up m|reflexivity].
Qed.
Lemma exec_if e s1 s2 b g l v g1 l1 o1 g3 l3 o g2 l2 : eval opf call g l e v g1 l1 -> exec [if Z.eqb v 0 then s2 else s1] g1 l1 o1 g3 l3 ->
  nextE o g2 l2 b o1 g3 l3 -> exec (SIf e s1 s2 :: b) g l o g2 l2.
Proof.
  intros E (m & H) N. destruct (steps_bound _ _ _ _ _ _ E) as (n & E1). destruct (nextE_bound _ _ _ _ _ _ _ N) as (j & N1).
  exists (S (n + m + j)). rewrite execN_S. exists v, g1, l1, o1, g3, l3. split; [unfold eval; up n|]. split; [up m|up j].
Qed.
Lemma exec_loop0 c i s b g l g1 l1 o g2 l2 : eval opf call g l c 0%Z g1 l1 -> exec b g1 l1 o g2 l2 -> exec (SLoop c i s :: b) g l o g2 l2.
Proof.
  intros E (m & H). destruct (steps_bound _ _ _ _ _ _ E) as (n & E1). exists (S (n + m)). rewrite execN_S.
  exists 0%Z, g1, l1. split; [unfold eval; up n|cbn [Z.eqb]; up m].
Qed.
Lemma exec_loop1 c i s b g l v g1 l1 o1 g3 l3 o g2 l2 : eval opf call g l c v g1 l1 -> Z.eqb v 0 = false -> exec [s] g1 l1 o1 g3 l3 ->
  nextE o g2 l2 (SExpr i :: SLoop c i s :: b) o1 g3 l3 -> exec (SLoop c i s :: b) g l o g2 l2.
Proof.
  intros E V (m & H) N. destruct (steps_bound _ _ _ _ _ _ E) as (n & E1). destruct (nextE_bound _ _ _ _ _ _ _ N) as (j & N1).
  exists (S (n + m + j)). rewrite execN_S. exists v, g1, l1. split; [unfold eval; up n|]. rewrite V. exists o1, g3, l3. split; [up m|up j].
Qed.
Lemma exec_for init c i s b g l o1 g1 l1 o g2 l2 : exec [init; SLoop c i s] g l o1 g1 l1 -> nextE o g2 l2 b o1 g1 l1 -> exec (SFor init c i s :: b) g l o g2 l2.
Proof.
  intros (m & H) N. destruct (nextE_bound _ _ _ _ _ _ _ N) as (j & N1). exists (S (m + j)). rewrite execN_S.
  exists o1, g1, l1. split; [up m|up j].
Qed.
Lemma exec_block b1 lab b g l o1 g1 l1 o g2 l2 : exec b1 g l o1 g1 l1 -> nextE o g2 l2 b (catch lab o1) g1 l1 -> exec (SBlock b1 lab :: b) g l o g2 l2.
Proof.
  intros (m & H) N. destruct (nextE_bound _ _ _ _ _ _ _ N) as (j & N1). exists (S (m + j)). rewrite execN_S.
  exists o1, g1, l1. split; [up m|up j].
Qed.
Lemma exec_return i b g l v g2 l2 : evalO opf call g l i v g2 l2 -> exec (SReturn i :: b) g l (OReturn v) g2 l2.
Proof.
  intro E. destruct (evalO_bound _ _ _ _ _ _ E) as (n & E1). exists (S n). rewrite execN_S. exists v. split; [exact E1|reflexivity].
Qed.
Lemma exec_goto x b g l : exec (SGoto x :: b) g l (OGoto x) g l.
Proof. exists 1. rewrite execN_S. now repeat split. Qed.

(** ** Names of local variables are not changed *)
Lemma execN_dom n : forall b g l o g2 l2, execN n b g l o g2 l2 -> dom l2 = dom l.
Proof.
  induction n as [|n IH]; intros b g l o g2 l2 H; [destruct H|]. rewrite execN_S in H.
  assert (NX : forall b o1 g1 l1, next n o g2 l2 b o1 g1 l1 -> dom l2 = dom l1).
  { intros b0 o1 g1 l1 N. destruct o1; cbn [next] in N; [exact (IH _ _ _ _ _ _ N)| |]; destruct N as (_ & _ & ->); reflexivity. }
  assert (EO : forall g l i v g1 l1, evalO opf (callN n) g l i v g1 l1 -> dom l1 = dom l).
  { intros g0 l0 [e|] v g1 l1 E; [exact (steps_dom _ _ _ _ _ _ _ _ E)|]. destruct E as (_ & ->). reflexivity. }
  destruct b as [|[e|[|[x i] ds]|e s1 s2|c i s|init c i s|b1 lab|i|x] b].
  - destruct H as (_ & _ & ->). reflexivity.
  - destruct H as (v & g1 & l1 & E & H). rewrite (IH _ _ _ _ _ _ H). exact (steps_dom _ _ _ _ _ _ _ _ E).
  - exact (IH _ _ _ _ _ _ H).
  - destruct H as (v & g1 & l1 & l3 & E & H & ->). apply IH in H. destruct l3 as [|y l3]; [discriminate|]. cbn in H.
    injection H as _ H. cbn [tl]. change (dom l3 = dom l). unfold dom at 1. rewrite H. exact (EO _ _ _ _ _ _ E).
  - destruct H as (v & g1 & l1 & o1 & g3 & l3 & E & H & T). rewrite (NX _ _ _ _ T), (IH _ _ _ _ _ _ H). exact (steps_dom _ _ _ _ _ _ _ _ E).
  - destruct H as (v & g1 & l1 & E & H). rewrite <- (steps_dom _ _ _ _ _ _ _ _ E). destruct (Z.eqb v 0); [exact (IH _ _ _ _ _ _ H)|].
    destruct H as (o1 & g3 & l3 & H & T). rewrite (NX _ _ _ _ T). exact (IH _ _ _ _ _ _ H).
  - destruct H as (o1 & g1 & l1 & H & T). rewrite (NX _ _ _ _ T). exact (IH _ _ _ _ _ _ H).
  - destruct H as (o1 & g1 & l1 & H & T). rewrite (NX _ _ _ _ T). exact (IH _ _ _ _ _ _ H).
  - destruct H as (v & E & _). exact (EO _ _ _ _ _ _ E).
  - destruct H as (_ & _ & ->). reflexivity.
Qed.
End Stmt.
