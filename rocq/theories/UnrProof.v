(** Proofs about elimination of unreachable code *)
From Coq Require Import List Bool Arith ZArith Lia.
From Verif Require Import UnrModel UnrSpec.
Import ListNotations.

Definition X1 : conds := Conds true true true true true true true.

Definition sim (s q : st) : Prop := sVars q = sVars s /\ sCalls q = sCalls s.
Lemma sim_refl s : sim s s. Proof. now split. Qed.
Lemma sim_visit s q r : sim s q -> sim (visit r s) q. Proof. now intros [A B]. Qed.
Lemma sim_visitr s q r : sim s q -> sim s (visit r q). Proof. now intros [A B]. Qed.
Lemma sim_set s q v z : sim s q -> sim (setVar v z s) (setVar v z q).
Proof. intros [A B]; split; cbn [setVar sVars sCalls]; [now rewrite A|exact B]. Qed.
Lemma sim_call s q v z : sim s q -> sim (addCall v z s) (addCall v z q).
Proof. intros [A B]; split; cbn [addCall sVars sCalls]; [exact A|now rewrite B]. Qed.

Section Proof.
Variable op : nat -> Z -> Z -> Z.
Variable conv : nat -> Z -> Z.
Variable oracle : nat -> Z -> list (nat * Z) -> Z.
Variable cmp : nat -> bool.
Variable count : nat -> nat.
Variable hm : nat -> bool.
Hypothesis Hcmp : forall f x y, cmp f = true -> op f x y = 0%Z \/ op f x y = 1%Z.
Hypothesis Hconv : forall z, conv 0 z = z.
Notation eval := (eval op conv oracle).
Notation evalC := (evalC op conv oracle).
Notation evalO := (evalO op conv oracle).
Notation exec := (exec op conv oracle).

(** visits are never forgotten *)
Definition sub (s s' : st) : Prop := forall r, In r (sVisits s) -> In r (sVisits s').
Lemma sub_refl s : sub s s. Proof. intros r H; exact H. Qed.
Lemma sub_trans a b c : sub a b -> sub b c -> sub a c.
Proof. intros H K r A; auto. Qed.
Lemma sub_visit r a b : sub (visit r a) b -> sub a b.
Proof. intros H x A; apply H; right; exact A. Qed.
Lemma sub_in r a b : sub (visit r a) b -> In r (sVisits b).
Proof. intros H; apply H; left; reflexivity. Qed.

Lemma eval_sub e : forall s z s', eval e s = (z, s') -> sub s s'.
Proof.
  induction e as [c|v|f a IHa b IHb|v e IHe|f e IHe|e IHe|a IHa b IHb|k a IHa r b IHb|c IHc rt t IHt kt rf f IHf kf];
    intros s z s' H; cbn [UnrSpec.eval] in H.
  - injection H as <- <-; apply sub_refl.
  - injection H as <- <-; apply sub_refl.
  - destruct (eval a s) as [x s1] eqn:A; destruct (eval b s1) as [y s2] eqn:B; injection H as <- <-.
    eapply sub_trans; [exact (IHa _ _ _ A)|exact (IHb _ _ _ B)].
  - destruct (eval e s) as [x s1] eqn:A; injection H as <- <-; exact (IHe _ _ _ A).
  - destruct (eval e s) as [x s1] eqn:A; injection H as <- <-; exact (IHe _ _ _ A).
  - exact (IHe _ _ _ H).
  - destruct (eval a s) as [x s1] eqn:A. eapply sub_trans; [exact (IHa _ _ _ A)|exact (IHb _ _ _ H)].
  - destruct k; destruct (eval a s) as [x s1] eqn:A; destruct (Z.eqb x 0);
      try (injection H as <- <-; exact (IHa _ _ _ A));
      destruct (eval b (visit r s1)) as [y s2] eqn:B; injection H as <- <-;
      (eapply sub_trans; [exact (IHa _ _ _ A)|exact (sub_visit _ _ _ (IHb _ _ _ B))]).
  - destruct (eval c s) as [x s1] eqn:A; destruct (Z.eqb x 0).
    + destruct (eval f (visit rf s1)) as [y s2] eqn:B; injection H as <- <-.
      eapply sub_trans; [exact (IHc _ _ _ A)|exact (sub_visit _ _ _ (IHf _ _ _ B))].
    + destruct (eval t (visit rt s1)) as [y s2] eqn:B; injection H as <- <-.
      eapply sub_trans; [exact (IHc _ _ _ A)|exact (sub_visit _ _ _ (IHt _ _ _ B))].
Qed.

(** an expression without side effects changes nothing *)
Lemma eval_pure e : forall s z s', sideEffect e = false -> eval e s = (z, s') -> sim s s'.
Proof.
  assert (T : forall a b c, sim a b -> sim b c -> sim a c).
  { intros a b c [A1 A2] [B1 B2]; split; congruence. }
  induction e as [c|v|f a IHa b IHb|v e IHe|f e IHe|e IHe|a IHa b IHb|k a IHa r b IHb|c IHc rt t IHt kt rf f IHf kf];
    intros s z s' E H; cbn [UnrSpec.eval sideEffect] in H, E; try discriminate E;
    rewrite ?orb_false_iff in E.
  - injection H as <- <-; apply sim_refl.
  - injection H as <- <-; apply sim_refl.
  - destruct E as [Ea Eb].
    destruct (eval a s) as [x s1] eqn:A; destruct (eval b s1) as [y s2] eqn:B; injection H as <- <-.
    eapply T; [exact (IHa _ _ _ Ea A)|exact (IHb _ _ _ Eb B)].
  - exact (IHe _ _ _ E H).
  - destruct E as [Ea Eb]. destruct (eval a s) as [x s1] eqn:A.
    eapply T; [exact (IHa _ _ _ Ea A)|exact (IHb _ _ _ Eb H)].
  - destruct E as [Ea Eb]. destruct k; destruct (eval a s) as [x s1] eqn:A; destruct (Z.eqb x 0);
      try (injection H as <- <-; exact (IHa _ _ _ Ea A));
      destruct (eval b (visit r s1)) as [y s2] eqn:B; injection H as <- <-;
      (eapply T; [exact (IHa _ _ _ Ea A)|]; exact (IHb _ _ _ Eb B)).
  - destruct E as [[Ec Et] Ef]. destruct (eval c s) as [x s1] eqn:A; destruct (Z.eqb x 0).
    + destruct (eval f (visit rf s1)) as [y s2] eqn:B; injection H as <- <-.
      eapply T; [exact (IHc _ _ _ Ec A)|exact (IHf _ _ _ Ef B)].
    + destruct (eval t (visit rt s1)) as [y s2] eqn:B; injection H as <- <-.
      eapply T; [exact (IHc _ _ _ Ec A)|exact (IHt _ _ _ Et B)].
Qed.

(** evaluation does not depend on visits *)
Lemma eval_sim e : forall s q z s', sim s q -> eval e s = (z, s') -> exists q', eval e q = (z, q') /\ sim s' q'.
Proof.
  induction e as [c|v|f a IHa b IHb|v e IHe|f e IHe|e IHe|a IHa b IHb|k a IHa r b IHb|c IHc rt t IHt kt rf f IHf kf];
    intros s q z s' E H; cbn [UnrSpec.eval] in H |- *.
  - injection H as <- <-; now exists q.
  - injection H as <- <-; exists q; split; [|exact E]. now rewrite (proj1 E).
  - destruct (eval a s) as [x s1] eqn:A; destruct (eval b s1) as [y s2] eqn:B; injection H as <- <-.
    destruct (IHa _ _ _ _ E A) as (q1 & -> & E1). destruct (IHb _ _ _ _ E1 B) as (q2 & -> & E2). now exists q2.
  - destruct (eval e s) as [x s1] eqn:A; injection H as <- <-.
    destruct (IHe _ _ _ _ E A) as (q1 & -> & E1). exists (setVar v x q1); split; [reflexivity|now apply sim_set].
  - destruct (eval e s) as [x s1] eqn:A; injection H as <- <-.
    destruct (IHe _ _ _ _ E A) as (q1 & -> & E1). exists (addCall f x q1); split; [now rewrite (proj2 E1)|now apply sim_call].
  - exact (IHe _ _ _ _ E H).
  - destruct (eval a s) as [x s1] eqn:A.
    destruct (IHa _ _ _ _ E A) as (q1 & -> & E1). exact (IHb _ _ _ _ E1 H).
  - destruct k; destruct (eval a s) as [x s1] eqn:A; destruct (IHa _ _ _ _ E A) as (q1 & -> & E1); destruct (Z.eqb x 0);
      try (injection H as <- <-; now exists q1);
      destruct (eval b (visit r s1)) as [y s2] eqn:B; injection H as <- <-;
      destruct (IHb (visit r s1) (visit r q1) _ _ E1 B) as (q2 & -> & E2); now exists q2.
  - destruct (eval c s) as [x s1] eqn:A; destruct (IHc _ _ _ _ E A) as (q1 & -> & E1); destruct (Z.eqb x 0).
    + destruct (eval f (visit rf s1)) as [y s2] eqn:B; injection H as <- <-.
      destruct (IHf (visit rf s1) (visit rf q1) _ _ E1 B) as (q2 & -> & E2); now exists q2.
    + destruct (eval t (visit rt s1)) as [y s2] eqn:B; injection H as <- <-.
      destruct (IHt (visit rt s1) (visit rt q1) _ _ E1 B) as (q2 & -> & E2); now exists q2.
Qed.

Definition covered (s : st) : Prop := forall r, In r (sVisits s) -> 0 < count r.
Lemma covered_sub s s' : sub s s' -> covered s' -> covered s.
Proof. intros H K r A; exact (K r (H r A)). Qed.
Lemma zero_in r l : zero count l = true -> In r l -> count r = 0.
Proof. unfold zero; rewrite forallb_forall; intros H A. now apply Nat.eqb_eq, H. Qed.
Lemma unrE_visit r e s s' : unrE count r e = true -> sub (visit r s) s' -> covered s' -> False.
Proof.
  intros U H K. apply sub_in in H. apply K in H. unfold unrE in U.
  rewrite (zero_in r _ U (or_introl eq_refl)) in H. lia.
Qed.

Lemma isBool_spec e : forall s z s', isBool cmp e = true -> eval e s = (z, s') -> z = 0%Z \/ z = 1%Z.
Proof.
  induction e as [c|v|f a IHa b IHb|v e IHe|f e IHe|e IHe|a IHa b IHb|k a IHa r b IHb|c IHc rt t IHt kt rf f IHf kf];
    intros s z s' E H; cbn [UnrSpec.eval isBool] in H, E; try discriminate E.
  - destruct (eval a s) as [x s1]; destruct (eval b s1) as [y s2]; injection H as <- <-. now apply Hcmp.
  - exact (IHe _ _ _ E H).
  - assert (W : forall b, b2z b = 0%Z \/ b2z b = 1%Z) by (intros []; cbn; auto).
    destruct k; destruct (eval a s) as [x s1]; destruct (Z.eqb x 0); try (injection H as <- <-; auto);
      destruct (eval b (visit r s1)) as [y s2]; injection H as <- <-; apply W.
Qed.

(** nothing is edited *)
Lemma trE_exposed e : forall last a b, trE count last e = Some (EComma a b) -> exposed count e = true.
Proof.
  assert (AS : forall v x a b, assignTo v x = EComma a b -> exists y z, x = EComma y z).
  { intros v x; destruct x; cbn [assignTo]; intros; try discriminate; eauto. }
  induction e as [c|v|f a IHa b IHb|v e IHe|f e IHe|e IHe|a IHa b IHb|k a IHa r b IHb|c IHc rt t IHt kt rf f IHf kf];
    intros last a0 b0 H; cbn [trE exposed] in H |- *; try discriminate H; auto.
  - unfold bind in H; destruct (trE count false a); [|discriminate H]; destruct (trE count false b); discriminate H.
  - unfold bind in H; destruct (trE count last e) as [e'|] eqn:E; [|discriminate H].
    injection H as H. destruct (AS _ _ _ _ H) as (x & y & ->). exact (IHe _ _ _ E).
  - unfold bind in H; destruct (trE count false e) as [e'|] eqn:E; [|discriminate H]. destruct e'; discriminate H.
  - unfold bind in H; destruct (trE count false e) as [e'|] eqn:E; discriminate H.
  - destruct (unrE count r b) eqn:U.
    + cbn [andb]. exact (IHa _ _ _ H).
    + unfold bind in H; destruct (trE count false a); [|discriminate H]; destruct (trE count false b); discriminate H.
  - destruct (unrE count rt t) eqn:U.
    + destruct (sideEffect c); cbn [negb andb].
      * destruct (_ || _); [|discriminate H].
        unfold bind in H; destruct (trE count false c); [|discriminate H]; destruct (trE count last f); discriminate H.
      * destruct (edits count c); [discriminate H|]. exact (IHf _ _ _ H).
    + destruct (unrE count rf f) eqn:U'.
      * destruct (sideEffect c); cbn [negb andb].
        -- destruct last; [|discriminate H].
           unfold bind in H; destruct (trE count false c); [|discriminate H]; destruct (trE count false t); discriminate H.
        -- destruct (edits count c); [discriminate H|]. exact (IHt _ _ _ H).
      * unfold bind in H; destruct (trE count false c); [|discriminate H]; destruct (trE count false t); [|discriminate H];
          destruct (trE count last f); discriminate H.
Qed.
Lemma assign_plain v e : (forall a b, e <> EComma a b) -> assignTo v e = EAssign v e.
Proof. destruct e; intros H; try reflexivity. now destruct (H e1 e2). Qed.

Ltac spl H := repeat (let A := fresh "K" in apply andb_true_iff in H; destruct H as [H A]).

(** ** Expressions *)
Notation exprOk := (exprOk cmp count X1).
Lemma expr_some e : forall val last, exprOk val last e = true -> exists e', trE count last e = Some e'.
Proof.
  induction e as [c|v|f a IHa b IHb|v e IHe|f e IHe|e IHe|a IHa b IHb|k a IHa r b IHb|c IHc rt t IHt kt rf f IHf kf];
    intros val last H; cbn [trE UnrSpec.exprOk demand X1 xOr xType xComma xPlace andb] in H |- *; eauto.
  - spl H. destruct (IHa _ _ H) as (a' & ->), (IHb _ _ K) as (b' & ->); cbn [bind]; eauto.
  - spl H. destruct (IHe _ _ H) as (e' & ->); cbn [bind]; eauto.
  - spl H. destruct (IHe _ _ H) as (e' & E); rewrite E; cbn [bind].
    destruct e'; eauto. rewrite (trE_exposed _ _ _ _ E) in K. discriminate K.
  - destruct (IHe _ _ H) as (e' & ->); cbn [bind]; eauto.
  - spl H. destruct (IHa _ _ H) as (a' & ->), (IHb _ _ K) as (b' & ->); cbn [bind]; eauto.
  - destruct (unrE count r b); spl H.
    + exact (IHa _ _ K).
    + destruct (IHa _ _ H) as (a' & ->), (IHb _ _ K) as (b' & ->); cbn [bind]; eauto.
  - apply andb_true_iff in H; destruct H as [Hc H]. destruct (IHc _ _ Hc) as (c' & ->).
    destruct (unrE count rt t); [|destruct (unrE count rf f)]; spl H.
    + destruct (IHf _ _ K) as (f' & ->). destruct (sideEffect c).
      * rewrite K0; cbn [bind]; eauto.
      * apply negb_true_iff in K0; rewrite K0; eauto.
    + destruct (IHt _ _ K) as (t' & ->). destruct (sideEffect c).
      * rewrite K0; cbn [bind]; eauto.
      * apply negb_true_iff in K0; rewrite K0; eauto.
    + destruct (IHt _ _ H) as (t' & ->), (IHf _ _ K) as (f' & ->); cbn [bind]; eauto.
Qed.

Definition agree (val : bool) (z z' : Z) : Prop := Z.eqb z' 0 = Z.eqb z 0 /\ (val = true -> z' = z).
Lemma agree_refl v z : agree v z z. Proof. now split. Qed.
Lemma agree_val z z' : agree true z z' -> z' = z. Proof. intros [_ H]; auto. Qed.

Lemma expr_main e : forall val last e' s q z s', exprOk val last e = true -> trE count last e = Some e' ->
  sim s q -> eval e s = (z, s') -> covered s' ->
  exists z' q', eval e' q = (z', q') /\ sim s' q' /\ agree val z z'.
Proof.
  induction e as [c|v|f a IHa b IHb|v e IHe|f e IHe|e IHe|a IHa b IHb|k a IHa r b IHb|c IHc rt t IHt kt rf f IHf kf];
    intros val last e' s q z s' H T E V C; cbn [trE UnrSpec.exprOk UnrSpec.eval demand X1 xOr xType xComma xPlace andb] in H, T, V.
  - injection T as <-; injection V as <- <-. exists c, q; repeat split; try apply E; auto.
  - injection T as <-; injection V as <- <-. exists (sVars q v), q. cbn [UnrSpec.eval]; rewrite (proj1 E).
    repeat split; try apply E; auto.
  - spl H. destruct (expr_some _ _ _ H) as (a' & Ta), (expr_some _ _ _ K) as (b' & Tb).
    rewrite Ta, Tb in T; cbn [bind] in T; injection T as <-.
    destruct (eval a s) as [x s1] eqn:A; destruct (eval b s1) as [y s2] eqn:B; injection V as <- <-.
    destruct (IHa _ _ _ _ _ _ _ H Ta E A (covered_sub _ _ (eval_sub _ _ _ _ B) C)) as (x' & q1 & A' & E1 & G1).
    destruct (IHb _ _ _ _ _ _ _ K Tb E1 B C) as (y' & q2 & B' & E2 & G2).
    exists (op f x' y'), q2. cbn [UnrSpec.eval]; rewrite A', B', (agree_val _ _ G1), (agree_val _ _ G2).
    split; [reflexivity|]; split; [exact E2|apply agree_refl].
  - spl H. destruct (expr_some _ _ _ H) as (a' & Ta). rewrite Ta in T; cbn [bind] in T; injection T as <-.
    destruct (eval e s) as [x s1] eqn:A; injection V as <- <-.
    destruct (IHe _ _ _ _ _ _ _ H Ta E A C) as (x' & q1 & A' & E1 & G1).
    rewrite assign_plain by (intros a b ->; rewrite (trE_exposed _ _ _ _ Ta) in K; discriminate K).
    exists x', (setVar v x' q1). cbn [UnrSpec.eval]; rewrite A', (agree_val _ _ G1).
    split; [reflexivity|]; split; [now apply sim_set|apply agree_refl].
  - spl H. destruct (expr_some _ _ _ H) as (a' & Ta). rewrite Ta in T; cbn [bind] in T.
    destruct (eval e s) as [x s1] eqn:A; injection V as <- <-.
    destruct (IHe _ _ _ _ _ _ _ H Ta E A C) as (x' & q1 & A' & E1 & G1).
    assert (e' = ECall f a') as -> by (destruct a'; congruence).
    exists (oracle f x' (sCalls q1)), (addCall f x' q1). cbn [UnrSpec.eval]; rewrite A', (agree_val _ _ G1), (proj2 E1).
    split; [reflexivity|]; split; [now apply sim_call|apply agree_refl].
  - destruct (expr_some _ _ _ H) as (a' & Ta). rewrite Ta in T; cbn [bind] in T; injection T as <-.
    exact (IHe _ _ _ _ _ _ _ H Ta E V C).
  - spl H. destruct (expr_some _ _ _ H) as (a' & Ta), (expr_some _ _ _ K) as (b' & Tb).
    rewrite Ta, Tb in T; cbn [bind] in T; injection T as <-.
    destruct (eval a s) as [x s1] eqn:A.
    destruct (IHa _ _ _ _ _ _ _ H Ta E A (covered_sub _ _ (eval_sub _ _ _ _ V) C)) as (x' & q1 & A' & E1 & G1).
    destruct (IHb _ _ _ _ _ _ _ K Tb E1 V C) as (y' & q2 & B' & E2 & G2).
    exists y', q2. cbn [UnrSpec.eval]; rewrite A', B'. auto.
  - destruct (eval a s) as [x s1] eqn:A. destruct (unrE count r b) eqn:U; spl H.
    + destruct k; destruct (Z.eqb x 0) eqn:X.
      * injection V as <- <-. destruct (IHa _ _ _ _ _ _ _ K T E A C) as (x' & q1 & A' & E1 & G1 & G2).
        exists x', q1; repeat split; try apply E1; auto; rewrite X in G1; cbn [Z.eqb]; auto.
        intros _. now apply Z.eqb_eq.
      * destruct (eval b (visit r s1)) as [y s2] eqn:B; injection V as <- <-.
        destruct (unrE_visit _ _ _ _ U (eval_sub _ _ _ _ B) C).
      * destruct (eval b (visit r s1)) as [y s2] eqn:B; injection V as <- <-.
        destruct (unrE_visit _ _ _ _ U (eval_sub _ _ _ _ B) C).
      * injection V as <- <-. destruct (IHa _ _ _ _ _ _ _ K T E A C) as (x' & q1 & A' & E1 & G1 & G2).
        exists x', q1; repeat split; try apply E1; auto; rewrite X in G1; auto.
        intros ->. cbn [orb negb andb demand] in H, G2. rewrite (G2 eq_refl).
        destruct (isBool_spec _ _ _ _ H A) as [-> | ->]; [discriminate X|reflexivity].
    + destruct (expr_some _ _ _ H) as (a' & Ta), (expr_some _ _ _ K) as (b' & Tb).
      rewrite Ta, Tb in T; cbn [bind] in T; injection T as <-.
      destruct k; destruct (Z.eqb x 0) eqn:X.
      * injection V as <- <-. destruct (IHa _ _ _ _ _ _ _ H Ta E A C) as (x' & q1 & A' & E1 & G1 & _).
        exists 0%Z, q1; cbn [UnrSpec.eval]; rewrite A', G1, X. repeat split; try apply E1; auto.
      * destruct (eval b (visit r s1)) as [y s2] eqn:B; injection V as <- <-.
        destruct (IHa _ _ _ _ _ _ _ H Ta E A (covered_sub _ _ (sub_visit _ _ _ (eval_sub _ _ _ _ B)) C)) as (x' & q1 & A' & E1 & G1 & _).
        destruct (IHb _ _ _ (visit r s1) (visit r q1) _ _ K Tb E1 B C) as (y' & q2 & B' & E2 & G2 & _).
        exists (b2z (negb (Z.eqb y' 0))), q2; cbn [UnrSpec.eval]; rewrite A', G1, X, B', G2. repeat split; try apply E2; auto.
      * destruct (eval b (visit r s1)) as [y s2] eqn:B; injection V as <- <-.
        destruct (IHa _ _ _ _ _ _ _ H Ta E A (covered_sub _ _ (sub_visit _ _ _ (eval_sub _ _ _ _ B)) C)) as (x' & q1 & A' & E1 & G1 & _).
        destruct (IHb _ _ _ (visit r s1) (visit r q1) _ _ K Tb E1 B C) as (y' & q2 & B' & E2 & G2 & _).
        exists (b2z (negb (Z.eqb y' 0))), q2; cbn [UnrSpec.eval]; rewrite A', G1, X, B', G2. repeat split; try apply E2; auto.
      * injection V as <- <-. destruct (IHa _ _ _ _ _ _ _ H Ta E A C) as (x' & q1 & A' & E1 & G1 & _).
        exists 1%Z, q1; cbn [UnrSpec.eval]; rewrite A', G1, X. repeat split; try apply E1; auto.
  - apply andb_true_iff in H; destruct H as [Hc H]. destruct (expr_some _ _ _ Hc) as (c' & Tc).
    destruct (eval c s) as [x s1] eqn:A.
    destruct (unrE count rt t) eqn:U; [|destruct (unrE count rf f) eqn:U']; spl H.
    + destruct (expr_some _ _ _ K) as (f' & Tf). apply Nat.eqb_eq in H; subst kf.
      destruct (Z.eqb x 0) eqn:X.
      2:{ destruct (eval t (visit rt s1)) as [y s2] eqn:B; injection V as <- <-.
          destruct (unrE_visit _ _ _ _ U (eval_sub _ _ _ _ B) C). }
      destruct (eval f (visit rf s1)) as [y s2] eqn:B; injection V as <- <-. rewrite Hconv.
      destruct (sideEffect c) eqn:SE.
      * rewrite K0, Tc, Tf in T; cbn [bind] in T; injection T as <-.
        destruct (IHc _ _ _ _ _ _ _ Hc Tc E A (covered_sub _ _ (sub_visit _ _ _ (eval_sub _ _ _ _ B)) C)) as (x' & q1 & A' & E1 & G1).
        destruct (IHf _ _ _ (visit rf s1) q1 _ _ K Tf E1 B C) as (y' & q2 & B' & E2 & G2).
        exists y', q2; cbn [UnrSpec.eval]; rewrite A', B'; auto.
      * apply negb_true_iff in K0; rewrite K0, Tf in T; injection T as <-.
        pose proof (eval_pure _ _ _ _ SE A) as P.
        apply (IHf _ _ _ (visit rf s1) q _ _ K Tf); auto. destruct E, P; split; cbn [visit sVars sCalls]; congruence.
    + destruct (expr_some _ _ _ K) as (t' & Tt). apply Nat.eqb_eq in H; subst kt.
      destruct (Z.eqb x 0) eqn:X.
      { destruct (eval f (visit rf s1)) as [y s2] eqn:B; injection V as <- <-.
        destruct (unrE_visit _ _ _ _ U' (eval_sub _ _ _ _ B) C). }
      destruct (eval t (visit rt s1)) as [y s2] eqn:B; injection V as <- <-. rewrite Hconv.
      destruct (sideEffect c) eqn:SE.
      * rewrite K0, Tc, Tt in T; cbn [bind] in T; injection T as <-.
        destruct (IHc _ _ _ _ _ _ _ Hc Tc E A (covered_sub _ _ (sub_visit _ _ _ (eval_sub _ _ _ _ B)) C)) as (x' & q1 & A' & E1 & G1).
        destruct (IHt _ _ _ (visit rt s1) q1 _ _ K Tt E1 B C) as (y' & q2 & B' & E2 & G2).
        exists y', q2; cbn [UnrSpec.eval]; rewrite A', B'; auto.
      * apply negb_true_iff in K0; rewrite K0, Tt in T; injection T as <-.
        pose proof (eval_pure _ _ _ _ SE A) as P.
        apply (IHt _ _ _ (visit rt s1) q _ _ K Tt); auto. destruct E, P; split; cbn [visit sVars sCalls]; congruence.
    + destruct (expr_some _ _ _ H) as (t' & Tt), (expr_some _ _ _ K) as (f' & Tf).
      rewrite Tc, Tt, Tf in T; cbn [bind] in T; injection T as <-.
      destruct (Z.eqb x 0) eqn:X.
      * destruct (eval f (visit rf s1)) as [y s2] eqn:B; injection V as <- <-.
        destruct (IHc _ _ _ _ _ _ _ Hc Tc E A (covered_sub _ _ (sub_visit _ _ _ (eval_sub _ _ _ _ B)) C)) as (x' & q1 & A' & E1 & G1 & _).
        destruct (IHf _ _ _ (visit rf s1) (visit rf q1) _ _ K Tf E1 B C) as (y' & q2 & B' & E2 & G2).
        exists (conv kf y), q2; cbn [UnrSpec.eval]; rewrite A', G1, X, B', (agree_val _ _ G2).
        split; [reflexivity|]; split; [exact E2|apply agree_refl].
      * destruct (eval t (visit rt s1)) as [y s2] eqn:B; injection V as <- <-.
        destruct (IHc _ _ _ _ _ _ _ Hc Tc E A (covered_sub _ _ (sub_visit _ _ _ (eval_sub _ _ _ _ B)) C)) as (x' & q1 & A' & E1 & G1 & _).
        destruct (IHt _ _ _ (visit rt s1) (visit rt q1) _ _ H Tt E1 B C) as (y' & q2 & B' & E2 & G2).
        exists (conv kt y), q2; cbn [UnrSpec.eval]; rewrite A', G1, X, B', (agree_val _ _ G2).
        split; [reflexivity|]; split; [exact E2|apply agree_refl].
Qed.

(** ** Executions without fuel *)
Definition branch (z : Z) (t : stmt) (f : option stmt) : list stmt :=
  if Z.eqb z 0 then match f with Some f => [f] | None => [] end else [t].
Inductive Run : list stmt -> st -> outcome -> st -> Prop :=
| Rnil s : Run [] s Normal s
| Rempty i l s o s' : Run l (visit i s) o s' -> Run (SEmpty i :: l) s o s'
| Rexpr i e l s z s1 o s' : eval e (visit i s) = (z, s1) -> Run l s1 o s' -> Run (SExpr i e :: l) s o s'
| Rdecl i v e l s z s1 o s2 : eval e (visit i s) = (z, s1) -> Run l (setVar v z s1) o s2 ->
    Run (SDecl i v e :: l) s o (setVar v (sVars s1 v) s2)
| Rret i e l s z s1 : eval e (visit i s) = (z, s1) -> Run (SRet i e :: l) s (Ret z) s1
| Rbrk i l s : Run (SBreak i :: l) s Brk (visit i s)
| Rblock i b l s s1 o s2 : Run b (visit i s) Normal s1 -> Run l s1 o s2 -> Run (SBlock i b :: l) s o s2
| RblockX i b l s o s1 : Run b (visit i s) o s1 -> o <> Normal -> Run (SBlock i b :: l) s o s1
| Rif i c t f l s z s1 s2 o s3 : eval c (visit i s) = (z, s1) -> Run (branch z t f) s1 Normal s2 -> Run l s2 o s3 ->
    Run (SIf i c t f :: l) s o s3
| RifX i c t f l s z s1 o s2 : eval c (visit i s) = (z, s1) -> Run (branch z t f) s1 o s2 -> o <> Normal ->
    Run (SIf i c t f :: l) s o s2
| Rwhile0 i c b l s z s1 o s2 : eval c (visit i s) = (z, s1) -> Z.eqb z 0 = true -> Run l s1 o s2 ->
    Run (SWhile i c b :: l) s o s2
| Rwhile i c b l s z s1 s2 o s3 : eval c (visit i s) = (z, s1) -> Z.eqb z 0 = false -> Run [b] s1 Normal s2 ->
    Run (SWhile i c b :: l) s2 o s3 -> Run (SWhile i c b :: l) s o s3
| RwhileB i c b l s z s1 s2 o s3 : eval c (visit i s) = (z, s1) -> Z.eqb z 0 = false -> Run [b] s1 Brk s2 ->
    Run l s2 o s3 -> Run (SWhile i c b :: l) s o s3
| RwhileX i c b l s z s1 s2 r : eval c (visit i s) = (z, s1) -> Z.eqb z 0 = false -> Run [b] s1 (Ret r) s2 ->
    Run (SWhile i c b :: l) s (Ret r) s2
| RforD i v e c inc b l s z s1 s2 o s3 : eval e (visit i s) = (z, s1) ->
    Run [SFor i None c inc b] (setVar v z s1) Normal s2 -> Run l (setVar v (sVars s1 v) s2) o s3 ->
    Run (SFor i (Some (IDecl v e)) c inc b :: l) s o s3
| RforDX i v e c inc b l s z s1 o s2 : eval e (visit i s) = (z, s1) ->
    Run [SFor i None c inc b] (setVar v z s1) o s2 -> o <> Normal ->
    Run (SFor i (Some (IDecl v e)) c inc b :: l) s o (setVar v (sVars s1 v) s2)
| RforE i e c inc b l s z s1 o s2 : eval e (visit i s) = (z, s1) -> Run (SFor i None c inc b :: l) s1 o s2 ->
    Run (SFor i (Some (IExpr e)) c inc b :: l) s o s2
| Rfor0 i c inc b l s z s1 o s2 : evalC c (visit i s) = (z, s1) -> Z.eqb z 0 = true -> Run l s1 o s2 ->
    Run (SFor i None c inc b :: l) s o s2
| Rfor i c inc b l s z s1 s2 o s3 : evalC c (visit i s) = (z, s1) -> Z.eqb z 0 = false -> Run [b] s1 Normal s2 ->
    Run (SFor i None c inc b :: l) (evalO inc s2) o s3 -> Run (SFor i None c inc b :: l) s o s3
| RforB i c inc b l s z s1 s2 o s3 : evalC c (visit i s) = (z, s1) -> Z.eqb z 0 = false -> Run [b] s1 Brk s2 ->
    Run l s2 o s3 -> Run (SFor i None c inc b :: l) s o s3
| RforX i c inc b l s z s1 s2 r : evalC c (visit i s) = (z, s1) -> Z.eqb z 0 = false -> Run [b] s1 (Ret r) s2 ->
    Run (SFor i None c inc b :: l) s (Ret r) s2.

Lemma exec_run n : forall l s o s', exec n l s = Some (o, s') -> Run l s o s'.
Proof.
  induction n as [|n IH]; intros l s o s' H; [discriminate H|].
  destruct l as [|x l]; [cbn [UnrSpec.exec] in H; injection H as <- <-; constructor|].
  destruct x as [i|i e|i v e|i e|i|i b|i c t f|i c b|i [[v e|e]|] c inc b]; cbn [UnrSpec.exec idOf] in H.
  - apply Rempty, IH, H.
  - destruct (eval e (visit i s)) as [z s1] eqn:E. eapply Rexpr; [exact E|apply IH, H].
  - destruct (eval e (visit i s)) as [z s1] eqn:E. destruct (exec n l _) as [[o1 s2]|] eqn:R; [|discriminate H].
    injection H as <- <-. eapply Rdecl; [exact E|apply IH, R].
  - destruct (eval e (visit i s)) as [z s1] eqn:E. injection H as <- <-. now apply Rret.
  - injection H as <- <-. apply Rbrk.
  - destruct (exec n b _) as [[[| |r] s1]|] eqn:R; [| | |discriminate H].
    + eapply Rblock; [apply IH, R|apply IH, H].
    + injection H as <- <-. apply RblockX; [apply IH, R|discriminate].
    + injection H as <- <-. apply RblockX; [apply IH, R|discriminate].
  - destruct (eval c (visit i s)) as [z s1] eqn:E. fold (branch z t f) in H.
    destruct (exec n (branch z t f) _) as [[[| |r] s2]|] eqn:R; [| | |discriminate H].
    + eapply Rif; [exact E|apply IH, R|apply IH, H].
    + injection H as <- <-. eapply RifX; [exact E|apply IH, R|discriminate].
    + injection H as <- <-. eapply RifX; [exact E|apply IH, R|discriminate].
  - destruct (eval c (visit i s)) as [z s1] eqn:E. destruct (Z.eqb z 0) eqn:Z0.
    + eapply Rwhile0; [exact E|exact Z0|apply IH, H].
    + destruct (exec n [b] _) as [[[| |r] s2]|] eqn:R; [| | |discriminate H].
      * eapply Rwhile; [exact E|exact Z0|apply IH, R|apply IH, H].
      * eapply RwhileB; [exact E|exact Z0|apply IH, R|apply IH, H].
      * injection H as <- <-. eapply RwhileX; [exact E|exact Z0|apply IH, R].
  - destruct (eval e (visit i s)) as [z s1] eqn:E. destruct (exec n _ _) as [[[| |r] s2]|] eqn:R; [| | |discriminate H].
    + eapply RforD; [exact E|apply IH, R|apply IH, H].
    + injection H as <- <-. eapply RforDX; [exact E|apply IH, R|discriminate].
    + injection H as <- <-. eapply RforDX; [exact E|apply IH, R|discriminate].
  - destruct (eval e (visit i s)) as [z s1] eqn:E. eapply RforE; [exact E|apply IH, H].
  - destruct (evalC c (visit i s)) as [z s1] eqn:E. destruct (Z.eqb z 0) eqn:Z0.
    + eapply Rfor0; [exact E|exact Z0|apply IH, H].
    + destruct (exec n [b] _) as [[[| |r] s2]|] eqn:R; [| | |discriminate H].
      * eapply Rfor; [exact E|exact Z0|apply IH, R|apply IH, H].
      * eapply RforB; [exact E|exact Z0|apply IH, R|apply IH, H].
      * injection H as <- <-. eapply RforX; [exact E|exact Z0|apply IH, R].
Qed.

Lemma exec_mono n : forall l s r, exec n l s = Some r -> exec (S n) l s = Some r.
Proof.
  induction n as [|n IH]; intros l s r H; [discriminate H|].
  destruct l as [|x l]; [exact H|]. remember (S n) as m.
  destruct x as [i|i e|i v e|i e|i|i b|i c t f|i c b|i [[v e|e]|] c inc b]; cbn [UnrSpec.exec idOf];
    rewrite Heqm in H; cbn [UnrSpec.exec idOf] in H; subst m.
  - now apply IH.
  - now apply IH.
  - destruct (eval e (visit i s)) as [z s1]. destruct (exec n l _) as [[o1 s2]|] eqn:R; [|discriminate H].
    now rewrite (IH _ _ _ R).
  - exact H.
  - exact H.
  - destruct (exec n b _) as [[[| |k] s1]|] eqn:R; [| | |discriminate H]; rewrite (IH _ _ _ R); auto.
  - destruct (eval c (visit i s)) as [z s1]. fold (branch z t f) in H |- *.
    destruct (exec n (branch z t f) _) as [[[| |k] s2]|] eqn:R; [| | |discriminate H]; rewrite (IH _ _ _ R); auto.
  - destruct (eval c (visit i s)) as [z s1]. destruct (Z.eqb z 0); [now apply IH|].
    destruct (exec n [b] _) as [[[| |k] s2]|] eqn:R; [| | |discriminate H]; rewrite (IH _ _ _ R); auto.
  - destruct (eval e (visit i s)) as [z s1].
    destruct (exec n [_] _) as [[[| |k] s2]|] eqn:R; [| | |discriminate H]; rewrite (IH _ _ _ R); auto.
  - destruct (eval e (visit i s)) as [z s1]. cbn [snd] in *. now apply IH.
  - destruct (evalC c (visit i s)) as [z s1]. destruct (Z.eqb z 0); [now apply IH|].
    destruct (exec n [b] _) as [[[| |k] s2]|] eqn:R; [| | |discriminate H]; rewrite (IH _ _ _ R); auto.
Qed.
Lemma exec_le n m l s r : n <= m -> exec n l s = Some r -> exec m l s = Some r.
Proof. intros L H; induction L; [exact H|now apply exec_mono]. Qed.
Lemma run_exec l s o s' : Run l s o s' -> exists n, exec n l s = Some (o, s').
Proof.
  induction 1 as [s|i l s o s' _ [n H]|i e l s z s1 o s' E _ [n H]|i v e l s z s1 o s2 E _ [n H]|i e l s z s1 E|i l s
    |i b l s s1 o s2 _ [n H] _ [m K]|i b l s o s1 _ [n H] O
    |i c t f l s z s1 s2 o s3 E _ [n H] _ [m K]|i c t f l s z s1 o s2 E _ [n H] O
    |i c b l s z s1 o s2 E Z0 _ [n H]|i c b l s z s1 s2 o s3 E Z0 _ [n H] _ [m K]|i c b l s z s1 s2 o s3 E Z0 _ [n H] _ [m K]|i c b l s z s1 s2 r E Z0 _ [n H]
    |i v e c inc b l s z s1 s2 o s3 E _ [n H] _ [m K]|i v e c inc b l s z s1 o s2 E _ [n H] O
    |i e c inc b l s z s1 o s2 E _ [n H]
    |i c inc b l s z s1 o s2 E Z0 _ [n H]|i c inc b l s z s1 s2 o s3 E Z0 _ [n H] _ [m K]|i c inc b l s z s1 s2 o s3 E Z0 _ [n H] _ [m K]|i c inc b l s z s1 s2 r E Z0 _ [n H]].
  - now exists 1.
  - now exists (S n).
  - exists (S n); cbn [UnrSpec.exec idOf]; now rewrite E.
  - exists (S n); cbn [UnrSpec.exec idOf]; now rewrite E, H.
  - exists 1; cbn [UnrSpec.exec idOf]; now rewrite E.
  - now exists 1.
  - exists (S (n + m)); cbn [UnrSpec.exec idOf].
    rewrite (exec_le n (n + m) _ _ _ ltac:(lia) H); exact (exec_le m (n + m) _ _ _ ltac:(lia) K).
  - exists (S n); cbn [UnrSpec.exec idOf]; rewrite H; destruct o; [now destruct O|reflexivity|reflexivity].
  - exists (S (n + m)); cbn [UnrSpec.exec idOf]. rewrite E; fold (branch z t f).
    rewrite (exec_le n (n + m) _ _ _ ltac:(lia) H); exact (exec_le m (n + m) _ _ _ ltac:(lia) K).
  - exists (S n); cbn [UnrSpec.exec idOf]; rewrite E; fold (branch z t f); rewrite H; destruct o; [now destruct O|reflexivity|reflexivity].
  - exists (S n); cbn [UnrSpec.exec idOf]; now rewrite E, Z0.
  - exists (S (n + m)); cbn [UnrSpec.exec idOf]; rewrite E, Z0.
    rewrite (exec_le n (n + m) _ _ _ ltac:(lia) H); exact (exec_le m (n + m) _ _ _ ltac:(lia) K).
  - exists (S (n + m)); cbn [UnrSpec.exec idOf]; rewrite E, Z0.
    rewrite (exec_le n (n + m) _ _ _ ltac:(lia) H); exact (exec_le m (n + m) _ _ _ ltac:(lia) K).
  - exists (S n); cbn [UnrSpec.exec idOf]; now rewrite E, Z0, H.
  - exists (S (n + m)); cbn [UnrSpec.exec idOf]; rewrite E.
    rewrite (exec_le n (n + m) _ _ _ ltac:(lia) H); exact (exec_le m (n + m) _ _ _ ltac:(lia) K).
  - exists (S n); cbn [UnrSpec.exec idOf]; rewrite E, H; destruct o; [now destruct O|reflexivity|reflexivity].
  - exists (S n); cbn [UnrSpec.exec idOf]; now rewrite E.
  - exists (S n); cbn [UnrSpec.exec idOf]; now rewrite E, Z0.
  - exists (S (n + m)); cbn [UnrSpec.exec idOf]; rewrite E, Z0.
    rewrite (exec_le n (n + m) _ _ _ ltac:(lia) H); exact (exec_le m (n + m) _ _ _ ltac:(lia) K).
  - exists (S (n + m)); cbn [UnrSpec.exec idOf]; rewrite E, Z0.
    rewrite (exec_le n (n + m) _ _ _ ltac:(lia) H); exact (exec_le m (n + m) _ _ _ ltac:(lia) K).
  - exists (S n); cbn [UnrSpec.exec idOf]; now rewrite E, Z0, H.
Qed.

Lemma evalC_sub c s z s' : evalC c s = (z, s') -> sub s s'.
Proof. destruct c as [e|]; cbn [UnrSpec.evalC]; [apply eval_sub|intros H; injection H as <- <-; apply sub_refl]. Qed.
Lemma evalO_sub c s : sub s (evalO c s).
Proof. destruct c as [e|]; cbn [UnrSpec.evalO]; [|apply sub_refl]. destruct (eval e s) as [z s1] eqn:E; exact (eval_sub _ _ _ _ E). Qed.
Lemma sub_set v z a : sub a (setVar v z a). Proof. intros r H; exact H. Qed.
Lemma Run_sub l s o s' : Run l s o s' -> sub s s' /\ match l with x :: _ => In (idOf x) (sVisits s') | [] => True end.
Proof.
  assert (T : forall i s s', sub (visit i s) s' -> sub s s' /\ In i (sVisits s')).
  { intros i s0 s1 H; split; [exact (sub_visit _ _ _ H)|exact (sub_in _ _ _ H)]. }
  induction 1 as [s|i l s o s' _ [H _]|i e l s z s1 o s' E _ [H _]|i v e l s z s1 o s2 E _ [H _]|i e l s z s1 E|i l s
    |i b l s s1 o s2 _ [H _] _ [K _]|i b l s o s1 _ [H _] O
    |i c t f l s z s1 s2 o s3 E _ [H _] _ [K _]|i c t f l s z s1 o s2 E _ [H _] O
    |i c b l s z s1 o s2 E Z0 _ [H _]|i c b l s z s1 s2 o s3 E Z0 _ [H _] _ [K _]|i c b l s z s1 s2 o s3 E Z0 _ [H _] _ [K _]|i c b l s z s1 s2 r E Z0 _ [H _]
    |i v e c inc b l s z s1 s2 o s3 E _ [H _] _ [K _]|i v e c inc b l s z s1 o s2 E _ [H _] O
    |i e c inc b l s z s1 o s2 E _ [H _]
    |i c inc b l s z s1 o s2 E Z0 _ [H _]|i c inc b l s z s1 s2 o s3 E Z0 _ [H _] _ [K _]|i c inc b l s z s1 s2 o s3 E Z0 _ [H _] _ [K _]|i c inc b l s z s1 s2 r E Z0 _ [H _]];
    cbn [idOf]; try (apply T; try apply eval_sub in E; try apply evalC_sub in E; eauto using sub_trans, sub_refl; fail).
  - split; [apply sub_refl|exact I].
  - apply T. apply evalC_sub in E. pose proof (evalO_sub inc s2). eauto using sub_trans.
Qed.

Lemma evalC_sim c s q z s' : sim s q -> evalC c s = (z, s') -> exists q', evalC c q = (z, q') /\ sim s' q'.
Proof. destruct c as [e|]; cbn [UnrSpec.evalC]; [apply eval_sim|intros H K; injection K as <- <-; now exists q]. Qed.
Lemma evalO_sim c s q : sim s q -> sim (evalO c s) (evalO c q).
Proof.
  destruct c as [e|]; cbn [UnrSpec.evalO]; auto. intros H. destruct (eval e s) as [z s1] eqn:E.
  destruct (eval_sim _ _ _ _ _ H E) as (q1 & -> & H1). exact H1.
Qed.
Lemma Run_sim l s o s' : Run l s o s' -> forall q, sim s q -> exists q', Run l q o q' /\ sim s' q'.
Proof.
  induction 1 as [s|i l s o s' _ H|i e l s z s1 o s' E _ H|i v e l s z s1 o s2 E _ H|i e l s z s1 E|i l s
    |i b l s s1 o s2 _ H _ K|i b l s o s1 _ H O
    |i c t f l s z s1 s2 o s3 E _ H _ K|i c t f l s z s1 o s2 E _ H O
    |i c b l s z s1 o s2 E Z0 _ H|i c b l s z s1 s2 o s3 E Z0 _ H _ K|i c b l s z s1 s2 o s3 E Z0 _ H _ K|i c b l s z s1 s2 r E Z0 _ H
    |i v e c inc b l s z s1 s2 o s3 E _ H _ K|i v e c inc b l s z s1 o s2 E _ H O
    |i e c inc b l s z s1 o s2 E _ H
    |i c inc b l s z s1 o s2 E Z0 _ H|i c inc b l s z s1 s2 o s3 E Z0 _ H _ K|i c inc b l s z s1 s2 o s3 E Z0 _ H _ K|i c inc b l s z s1 s2 r E Z0 _ H];
    intros q S0;
    try destruct (eval_sim _ (visit i s) (visit i q) _ _ S0 E) as (q1 & E1 & S1);
    try destruct (evalC_sim _ (visit i s) (visit i q) _ _ S0 E) as (q1 & E1 & S1).
  - exists q; split; [constructor|exact S0].
  - destruct (H (visit i q) S0) as (q' & R & S1). exists q'; split; [now apply Rempty|exact S1].
  - destruct (H q1 S1) as (q' & R & S2). exists q'; split; [eapply Rexpr; eauto|exact S2].
  - destruct (H _ (sim_set _ _ v z S1)) as (q' & R & S2). exists (setVar v (sVars q1 v) q').
    split; [eapply Rdecl; eauto|rewrite (proj1 S1); now apply sim_set].
  - exists q1; split; [now apply Rret|exact S1].
  - exists (visit i q); split; [apply Rbrk|exact S0].
  - destruct (H (visit i q) S0) as (q1 & R1 & S1), (K _ S1) as (q2 & R2 & S2). exists q2; split; [eapply Rblock; eauto|exact S2].
  - destruct (H (visit i q) S0) as (q1 & R1 & S1). exists q1; split; [eapply RblockX; eauto|exact S1].
  - destruct (H _ S1) as (q2 & R2 & S2), (K _ S2) as (q3 & R3 & S3). exists q3; split; [eapply Rif; eauto|exact S3].
  - destruct (H _ S1) as (q2 & R2 & S2). exists q2; split; [eapply RifX; eauto|exact S2].
  - destruct (H _ S1) as (q2 & R2 & S2). exists q2; split; [eapply Rwhile0; eauto|exact S2].
  - destruct (H _ S1) as (q2 & R2 & S2), (K _ S2) as (q3 & R3 & S3). exists q3; split; [eapply Rwhile; eauto|exact S3].
  - destruct (H _ S1) as (q2 & R2 & S2), (K _ S2) as (q3 & R3 & S3). exists q3; split; [eapply RwhileB; eauto|exact S3].
  - destruct (H _ S1) as (q2 & R2 & S2). exists q2; split; [eapply RwhileX; eauto|exact S2].
  - destruct (H _ (sim_set _ _ v z S1)) as (q2 & R2 & S2).
    destruct (K (setVar v (sVars q1 v) q2)) as (q3 & R3 & S3); [rewrite (proj1 S1); now apply sim_set|].
    exists q3; split; [eapply RforD; eauto|exact S3].
  - destruct (H _ (sim_set _ _ v z S1)) as (q2 & R2 & S2). exists (setVar v (sVars q1 v) q2).
    split; [eapply RforDX; eauto|rewrite (proj1 S1); now apply sim_set].
  - destruct (H _ S1) as (q2 & R2 & S2). exists q2; split; [eapply RforE; eauto|exact S2].
  - destruct (H _ S1) as (q2 & R2 & S2). exists q2; split; [eapply Rfor0; eauto|exact S2].
  - destruct (H _ S1) as (q2 & R2 & S2), (K _ (evalO_sim inc _ _ S2)) as (q3 & R3 & S3). exists q3; split; [eapply Rfor; eauto|exact S3].
  - destruct (H _ S1) as (q2 & R2 & S2), (K _ S2) as (q3 & R3 & S3). exists q3; split; [eapply RforB; eauto|exact S3].
  - destruct (H _ S1) as (q2 & R2 & S2). exists q2; split; [eapply RforX; eauto|exact S2].
Qed.

Definition noDecl (l : list stmt) : Prop := forall i v e, ~ In (SDecl i v e) l.
Lemma Run_app l1 s o s1 : Run l1 s o s1 -> noDecl l1 -> forall l2,
  (o = Normal -> forall o2 s2, Run l2 s1 o2 s2 -> Run (l1 ++ l2) s o2 s2) /\ (o <> Normal -> Run (l1 ++ l2) s o s1).
Proof.
  assert (T : forall x l, noDecl (x :: l) -> noDecl l) by (intros x l H i v e A; apply (H i v e); now right).
  induction 1 as [s|i l s o s' _ H|i e l s z s1 o s' E _ H|i v e l s z s1 o s2 E _ H|i e l s z s1 E|i l s
    |i b l s s1 o s2 B _ _ K|i b l s o s1 B _ O
    |i c t f l s z s1 s2 o s3 E B _ _ K|i c t f l s z s1 o s2 E B _ O
    |i c b l s z s1 o s2 E Z0 _ H|i c b l s z s1 s2 o s3 E Z0 B _ _ K|i c b l s z s1 s2 o s3 E Z0 B _ _ K|i c b l s z s1 s2 r E Z0 B _
    |i v e c inc b l s z s1 s2 o s3 E B _ _ K|i v e c inc b l s z s1 o s2 E B _ O
    |i e c inc b l s z s1 o s2 E _ H
    |i c inc b l s z s1 o s2 E Z0 _ H|i c inc b l s z s1 s2 o s3 E Z0 B _ _ K|i c inc b l s z s1 s2 o s3 E Z0 B _ _ K|i c inc b l s z s1 s2 r E Z0 B _];
    intros N l2; cbn [app].
  - split; [auto|congruence].
  - destruct (H (T _ _ N) l2) as [A B]; split; intros; apply Rempty; auto.
  - destruct (H (T _ _ N) l2) as [A B]; split; intros; eapply Rexpr; eauto.
  - now destruct (N i v e (or_introl eq_refl)).
  - split; [discriminate|intros _; now apply Rret].
  - split; [discriminate|intros _; now apply Rbrk].
  - destruct (K (T _ _ N) l2) as [A C]; split; intros; eapply Rblock; eauto.
  - split; [congruence|intros _; now apply RblockX].
  - destruct (K (T _ _ N) l2) as [A C]; split; intros; eapply Rif; eauto.
  - split; [congruence|intros _; eapply RifX; eauto].
  - destruct (H (T _ _ N) l2) as [A C]; split; intros; eapply Rwhile0; eauto.
  - destruct (K N l2) as [A C]; split; intros; (eapply Rwhile; [eauto|eauto|eauto|]).
    + apply A; auto.
    + apply C; auto.
  - destruct (K (T _ _ N) l2) as [A C]; split; intros; eapply RwhileB; eauto.
  - split; [discriminate|intros _; eapply RwhileX; eauto].
  - destruct (K (T _ _ N) l2) as [A C]; split; intros; eapply RforD; eauto.
  - split; [congruence|intros _; eapply RforDX; eauto].
  - destruct (H ltac:(intros j w x [A|A]; [discriminate A|exact (N j w x (or_intror A))]) l2) as [A C];
      split; intros; (eapply RforE; [eauto|]).
    + apply A; auto.
    + apply C; auto.
  - destruct (H (T _ _ N) l2) as [A C]; split; intros; eapply Rfor0; eauto.
  - destruct (K N l2) as [A C]; split; intros; (eapply Rfor; [eauto|eauto|eauto|]).
    + apply A; auto.
    + apply C; auto.
  - destruct (K (T _ _ N) l2) as [A C]; split; intros; eapply RforB; eauto.
  - split; [discriminate|intros _; eapply RforX; eauto].
Qed.

(** ** Remaining statements *)
Definition gE (last : bool) (e : expr) : expr := match trE count last e with Some e => e | None => e end.
Definition gO (last : bool) (o : option expr) : option expr := match o with Some e => Some (gE last e) | None => None end.
Definition gI (o : option forInit) : option forInit :=
  match o with Some (IDecl v e) => Some (IDecl v (gE true e)) | Some (IExpr e) => Some (IExpr (gE true e)) | None => None end.
Definition one (l : list stmt) : stmt := match l with [x] => x | _ => SEmpty 0 end.
Definition inner (l : list stmt) : list stmt := match l with [SBlock _ l] => l | l => l end.
Definition elseDead (f : option stmt) : bool := match f with Some f => unrS count f | None => false end.
Definition condS (c : expr) : list stmt := if sideEffect c then [SExpr 0 (gE false c)] else [].
Fixpoint ast (s : stmt) : list stmt :=
  if unrS count s then []
  else match s with
  | SEmpty _ => [SEmpty 0]
  | SExpr _ e => [SExpr 0 (gE true e)]
  | SDecl _ v e => [SDecl 0 v (gE true e)]
  | SRet _ e => [SRet 0 (gE true e)]
  | SBreak _ => [SBreak 0]
  | SBlock _ l => [SBlock 0 (flat_map ast l)]
  | SIf i c t f =>
    if (negb (unrS count t) && negb (elseDead f)) || hm i
    then [SIf 0 (gE false c) (one (ast t)) (match f with Some f => Some (one (ast f)) | None => None end)]
    else condS c ++
      match f with
      | None => []
      | Some f =>
        if unrS count t && unrS count f then []
        else if unrS count t then (if declChild f then ast f else inner (ast f))
        else (if declChild t then ast t else inner (ast t))
      end
  | SWhile i c b => if unrS count b then condS c else [SWhile 0 (gE false c) (one (ast b))]
  | SFor i init c inc b =>
    if unrS count b then
      if isDeclInit init || hm i then [SFor 0 (gI init) (gO true c) None (SEmpty 0)]
      else match optEffect c with
           | None => []
           | Some c => match optEffect (initExpr init) with Some e => [SExpr 0 (gE true e)] | None => [] end ++ [SExpr 0 (gE true c)]
           end
    else [SFor 0 (gI init) (gO true c) (gO false inc) (one (ast b))]
  end.
Fixpoint print (s : stmt) : list token :=
  match s with
  | SEmpty _ => [TSemi]
  | SExpr _ e => [TExpr e; TSemi]
  | SDecl _ v e => [TDecl v e; TSemi]
  | SRet _ e => [TRet e; TSemi]
  | SBreak _ => [TBreak; TSemi]
  | SBlock _ l => TOpen :: flat_map print l ++ [TClose]
  | SIf _ c t f => TIf c :: print t ++ match f with Some f => TElse :: print f | None => [] end
  | SWhile _ c b => TWhile c :: print b
  | SFor _ i c e b => TFor i c e :: print b
  end.
Inductive wf : stmt -> Prop :=
| WEmpty : wf (SEmpty 0)
| WExpr e : wf (SExpr 0 e)
| WDecl v e : wf (SDecl 0 v e)
| WRet e : wf (SRet 0 e)
| WBreak : wf (SBreak 0)
| WBlock l : (forall x, In x l -> wf x) -> wf (SBlock 0 l)
| WIf c t f : body t -> (forall x, f = Some x -> body x) -> wf (SIf 0 c t f)
| WWhile c b : body b -> wf (SWhile 0 c b)
| WFor i c e b : body b -> wf (SFor 0 i c e b)
with body : stmt -> Prop :=
| BEmpty : body (SEmpty 0)
| BBlock l : (forall x, In x l -> wf x) -> body (SBlock 0 l).
Lemma body_wf b : body b -> wf b. Proof. intros [|l H]; constructor; exact H. Qed.

(** *** Parsing *)
Definition noElse (r : list token) : Prop := match r with TElse :: _ => False | _ => True end.
Definition stops (r : list token) : Prop := match r with [] | TClose :: _ => True | _ => False end.
Lemma print_start s : exists t r, print s = t :: r /\ t <> TClose /\ t <> TElse.
Proof. destruct s; cbn [print]; eexists; eexists; (split; [reflexivity|split; discriminate]). Qed.
Lemma noElse_prints l r : stops r -> noElse (flat_map print l ++ r).
Proof.
  destruct l as [|x l]; cbn [flat_map].
  - destruct r as [|[] r]; cbn; auto.
  - destruct (print_start x) as (t & k & -> & _ & H). intros _. cbn [app]. destruct t; cbn; auto.
Qed.
Lemma parse_print n :
  (forall b, body b -> 2 * length (print b) <= n -> forall rest, parseS n (print b ++ rest) = Some (b, rest)) /\
  (forall s, wf s -> 2 * length (print s) <= n -> forall rest, noElse rest -> parseS n (print s ++ rest) = Some (s, rest)) /\
  (forall l, (forall x, In x l -> wf x) -> 2 * length (flat_map print l) + 1 <= n -> forall rest, stops rest ->
     parseL n (flat_map print l ++ rest) = Some (l, rest)).
Proof.
  induction n as [|n (IHb & IHs & IHl)]; (split; [|split]).
  - intros s _ H. destruct (print_start s) as (t & r & E & _). rewrite E in H. cbn [length] in H. lia.
  - intros s _ H. destruct (print_start s) as (t & r & E & _). rewrite E in H. cbn [length] in H. lia.
  - intros l _ H. lia.
  - intros b W L rest. destruct W as [|l W]; cbn [print app parseS]; [reflexivity|].
    rewrite <- app_assoc. cbn [print length] in L. rewrite app_length in L. cbn [length] in L.
    rewrite IHl; [reflexivity|exact W|lia|exact I].
  - intros s W L rest R. destruct W as [|e|v e|e| |l W|c t f Wt Wf|c b Wb|i c e b Wb]; cbn [print app parseS]; auto.
    + rewrite <- app_assoc. cbn [print length] in L. rewrite app_length in L. cbn [length] in L.
      rewrite IHl; [reflexivity|exact W|lia|exact I].
    + cbn [print length] in L. rewrite app_length in L. rewrite <- app_assoc.
      rewrite (IHb t Wt) by lia. destruct f as [f|].
      * cbn [length app] in L |- *. rewrite (IHb f (Wf f eq_refl)) by lia. reflexivity.
      * cbn [app]. destruct rest as [|[] rest]; try reflexivity. destruct R.
    + cbn [print length] in L. rewrite (IHb b Wb) by lia. reflexivity.
    + cbn [print length] in L. rewrite (IHb b Wb) by lia. reflexivity.
  - intros [|x l] W L rest R; cbn [flat_map app].
    + cbn [parseL]. destruct rest as [|[] rest]; try destruct R; reflexivity.
    + cbn [flat_map] in L. rewrite app_length in L. rewrite <- app_assoc.
      pose proof (IHs x (W x (or_introl eq_refl)) ltac:(lia) (flat_map print l ++ rest) (noElse_prints l rest R)) as P.
      destruct (print_start x) as (t & k & E & Nt & _). rewrite E in P, L |- *. cbn [app parseL] in P |- *.
      cbn [length] in L.
      pose proof (IHl l (fun y A => W y (or_intror A)) ltac:(lia) rest R) as P2.
      destruct t; try (now destruct Nt); rewrite P, P2; reflexivity.
Qed.
Lemma parse_all l : (forall x, In x l -> wf x) -> parse (flat_map print l) = Some l.
Proof.
  intros W. unfold parse.
  pose proof (proj2 (proj2 (parse_print (2 * length (flat_map print l) + 1))) l W ltac:(lia) [] I) as P.
  rewrite app_nil_r in P. now rewrite P.
Qed.

(** *** A new text consists of the remaining statements *)
Section StmtInd.
Variable P : stmt -> Prop.
Hypothesis Hempty : forall i, P (SEmpty i).
Hypothesis Hexpr : forall i e, P (SExpr i e).
Hypothesis Hdecl : forall i v e, P (SDecl i v e).
Hypothesis Hret : forall i e, P (SRet i e).
Hypothesis Hbrk : forall i, P (SBreak i).
Hypothesis Hblock : forall i l, (forall x, In x l -> P x) -> P (SBlock i l).
Hypothesis Hif : forall i c t f, P t -> (forall x, f = Some x -> P x) -> P (SIf i c t f).
Hypothesis Hwhile : forall i c b, P b -> P (SWhile i c b).
Hypothesis Hfor : forall i n c e b, P b -> P (SFor i n c e b).
Fixpoint stmt_rec' (s : stmt) : P s.
Proof.
  destruct s as [i|i e|i v e|i e|i|i l|i c t f|i c b|i n c e b].
  - apply Hempty.
  - apply Hexpr.
  - apply Hdecl.
  - apply Hret.
  - apply Hbrk.
  - apply Hblock. induction l as [|x l IH]; intros y A; [destruct A|].
    destruct A as [<-|A]; [apply stmt_rec'|exact (IH y A)].
  - apply Hif; [apply stmt_rec'|]. destruct f as [f|]; intros x A; [|discriminate A]. injection A as <-. apply stmt_rec'.
  - apply Hwhile, stmt_rec'.
  - apply Hfor, stmt_rec'.
Defined.
End StmtInd.

Notation stmtOk := (stmtOk cmp count hm X1).
Lemma tokE_ok val last e k : exprOk val last e = true -> tokE count last e k = k (gE last e).
Proof. intros H. destruct (expr_some _ _ _ H) as (e' & E). unfold tokE, gE. now rewrite E. Qed.
Lemma tokD_ok e k : declOk cmp count X1 e = true -> tokD count e k = k (gE true e).
Proof.
  unfold declOk. cbn [demand X1 xComma]. intros H. spl H. unfold tokD. rewrite (tokE_ok _ _ _ _ H).
  destruct (expr_some _ _ _ H) as (e' & E). unfold gE; rewrite E. destruct e'; auto.
  rewrite (trE_exposed _ _ _ _ E) in K. discriminate K.
Qed.
Lemma tokO_ok last o k : optOk cmp count X1 last o = true -> tokO count last o k = k (gO last o).
Proof. destruct o as [e|]; cbn [optOk tokO gO]; intros H; [now rewrite (tokE_ok _ _ _ _ H)|reflexivity]. Qed.
Lemma tokI_ok o k : initOk cmp count X1 o = true -> tokI count o k = k (gI o).
Proof.
  destruct o as [[v e|e]|]; cbn [initOk tokI gI]; intros H.
  - now rewrite (tokD_ok _ _ H).
  - now rewrite (tokE_ok _ _ _ _ H).
  - reflexivity.
Qed.
Definition good (s : stmt) : Prop :=
  trS count hm s = flat_map print (ast s) /\ (forall x, In x (ast s) -> wf x) /\
  (isBlock s = true -> unrS count s = false -> exists l, ast s = [SBlock 0 l] /\ trS count hm s = TOpen :: flat_map print l ++ [TClose] /\ forall x, In x l -> wf x).
Lemma isBlock_inv s : isBlock s = true -> exists i l, s = SBlock i l.
Proof. destruct s; try discriminate; eauto. Qed.
Lemma trS_unr s : unrS count s = true -> trS count hm s = [].
Proof. destruct s; cbn [trS]; intros ->; reflexivity. Qed.
Lemma ast_unr s : unrS count s = true -> ast s = [].
Proof. destruct s; cbn [ast]; intros ->; reflexivity. Qed.
(** a body or a branch *)
Lemma good_body s : good s -> isBlock s = true -> unrS count s = false ->
  trS count hm s = print (one (ast s)) /\ body (one (ast s)).
Proof.
  intros (A & B & C) K U. destruct (C K U) as (l & E & T & W). rewrite E, T; cbn [one print].
  split; [reflexivity|now apply BBlock].
Qed.
Lemma good_inner s : good s -> isBlock s = true -> unrS count s = false ->
  removelast (tl (trS count hm s)) = flat_map print (inner (ast s)) /\ (forall x, In x (inner (ast s)) -> wf x).
Proof.
  intros (A & B & C) K U. destruct (C K U) as (l & E & T & W). rewrite E, T; cbn [inner tl].
  now rewrite removelast_last.
Qed.
Lemma stmt_good s : stmtOk s = true -> good s.
Proof.
  assert (NB : forall x, isBlock x = false -> trS count hm x = flat_map print (ast x) -> (forall y, In y (ast x) -> wf y) -> good x).
  { intros x B T W; split; [exact T|split; [exact W|]]. rewrite B; discriminate. }
  induction s as [i|i e|i v e|i e|i|i l IHl|i c t f IHt IHf|i c b IHb|i n c e b IHb] using stmt_rec'; intros H;
    match goal with |- good ?x => destruct (unrS count x) eqn:U;
      [split; [now rewrite trS_unr, ast_unr|split; [rewrite (ast_unr _ U); intros ? []|congruence]]|] end;
    cbn [UnrSpec.stmtOk] in H; rewrite U in H; cbn [orb] in H.
  - apply NB; cbn [trS ast]; rewrite ?U; [reflexivity|reflexivity|]. intros y [<-|[]]; constructor.
  - apply NB; cbn [trS ast]; rewrite ?U; [reflexivity|now rewrite (tokE_ok _ _ _ _ H)|]. intros y [<-|[]]; constructor.
  - apply NB; cbn [trS ast]; rewrite ?U; [reflexivity|now rewrite (tokD_ok _ _ H)|]. intros y [<-|[]]; constructor.
  - apply NB; cbn [trS ast]; rewrite ?U; [reflexivity|now rewrite (tokE_ok _ _ _ _ H)|]. intros y [<-|[]]; constructor.
  - apply NB; cbn [trS ast]; rewrite ?U; [reflexivity|reflexivity|]. intros y [<-|[]]; constructor.
  - assert (F : flat_map (trS count hm) l = flat_map print (flat_map ast l) /\ forall x, In x (flat_map ast l) -> wf x).
    { clear U. induction l as [|x l IH]; [split; [reflexivity|intros ? []]|].
      cbn [forallb] in H. apply andb_true_iff in H; destruct H as [Hx H].
      destruct (IHl x (or_introl eq_refl) Hx) as (A & B & _).
      destruct (IH (fun y K => IHl y (or_intror K)) H) as [C D].
      cbn [flat_map]. rewrite A, C, flat_map_app. split; [reflexivity|].
      intros y Y. apply in_app_iff in Y. destruct Y; auto. }
    destruct F as [F W].
    assert (T : trS count hm (SBlock i l) = TOpen :: flat_map print (flat_map ast l) ++ [TClose]).
    { cbn [trS]; rewrite U, F; reflexivity. }
    assert (E : ast (SBlock i l) = [SBlock 0 (flat_map ast l)]) by (cbn [ast]; rewrite U; reflexivity).
    split; [|split].
    + rewrite T, E. cbn [flat_map print]. now rewrite app_nil_r.
    + rewrite E. intros x [<-|[]]. now apply WBlock.
    + intros _ _. exists (flat_map ast l). auto.
  - cbn [demand X1 xBraces] in H. apply andb_true_iff in H; destruct H as [H Hf]. spl H.
    specialize (IHt K0).
    assert (Gf : forall x, f = Some x -> good x /\ isBlock x = true).
    { intros x ->. spl Hf. split; [apply IHf; auto|exact K1]. }
    clear Hf IHf.
    apply NB; cbn [trS ast]; rewrite ?U; fold (elseDead f); [reflexivity| |].
    + destruct (unrS count t) eqn:Ut; destruct (elseDead f) eqn:Uf; cbn [negb andb orb].
      * destruct (hm i).
        -- rewrite (tokE_ok _ _ _ _ H). rewrite (ast_unr _ Ut). destruct f as [f|]; [|discriminate Uf].
           cbn [elseDead] in Uf. rewrite (ast_unr _ Uf). reflexivity.
        -- destruct f as [f|]; [|discriminate Uf]. cbn [elseDead] in Uf. rewrite Uf; cbn [andb].
           unfold condS; destruct (sideEffect c); cbn [app]; [|reflexivity]. now rewrite (tokE_ok _ _ _ _ H).
      * destruct f as [f|].
        -- cbn [elseDead] in Uf. destruct (Gf f eq_refl) as [G B]. destruct (hm i).
           ++ rewrite (tokE_ok _ _ _ _ H), (ast_unr _ Ut). cbn [one flat_map print app].
              rewrite (proj1 (good_body _ G B Uf)), app_nil_r. reflexivity.
           ++ rewrite Uf; cbn [andb]. rewrite flat_map_app, B.
              replace (if sideEffect c then tokE count false c (fun c0 => [TExpr c0; TSemi]) else []) with (flat_map print (condS c))
                by (unfold condS; destruct (sideEffect c); [now rewrite (tokE_ok _ _ _ _ H)|reflexivity]).
              f_equal. destruct (declChild f); [apply (proj1 G)|apply (proj1 (good_inner _ G B Uf))].
        -- destruct (hm i).
           ++ rewrite (tokE_ok _ _ _ _ H), (ast_unr _ Ut). reflexivity.
           ++ rewrite !app_nil_r. unfold condS; destruct (sideEffect c); [now rewrite (tokE_ok _ _ _ _ H)|reflexivity].
      * destruct f as [f|]; [|discriminate Uf]. cbn [elseDead] in Uf. destruct (Gf f eq_refl) as [G B]. destruct (hm i).
        -- rewrite (tokE_ok _ _ _ _ H), (ast_unr _ Uf). cbn [one flat_map print app].
           rewrite (proj1 (good_body _ IHt K Ut)), app_nil_r. reflexivity.
        -- rewrite flat_map_app, K.
           replace (if sideEffect c then tokE count false c (fun c0 => [TExpr c0; TSemi]) else []) with (flat_map print (condS c))
             by (unfold condS; destruct (sideEffect c); [now rewrite (tokE_ok _ _ _ _ H)|reflexivity]).
           f_equal. destruct (declChild t); [apply (proj1 IHt)|apply (proj1 (good_inner _ IHt K Ut))].
      * rewrite (tokE_ok _ _ _ _ H). cbn [flat_map print]. rewrite (proj1 (good_body _ IHt K Ut)), app_nil_r.
        destruct f as [f|]; [|reflexivity]. cbn [elseDead] in Uf. destruct (Gf f eq_refl) as [G B].
        now rewrite (proj1 (good_body _ G B Uf)).
    + assert (Bt : body (one (ast t))).
      { destruct (unrS count t) eqn:Ut; [rewrite (ast_unr _ Ut); constructor|exact (proj2 (good_body _ IHt K Ut))]. }
      assert (Wc : forall x, In x (condS c) -> wf x).
      { unfold condS; destruct (sideEffect c); [intros x [<-|[]]; constructor|intros x []]. }
      destruct (_ || _); intros y Y.
      * destruct Y as [<-|[]]. apply WIf; [exact Bt|]. intros x Ex. destruct f as [f|]; [|discriminate Ex].
        injection Ex as <-. destruct (Gf f eq_refl) as [G B].
        destruct (unrS count f) eqn:Uf; [rewrite (ast_unr _ Uf); constructor|exact (proj2 (good_body _ G B Uf))].
      * apply in_app_iff in Y. destruct Y as [Y|Y]; [auto|]. destruct f as [f|]; [|destruct Y].
        destruct (Gf f eq_refl) as [G B].
        destruct (unrS count t) eqn:Ut; [destruct (unrS count f) eqn:Uf|]; cbn [andb] in Y; [destruct Y| |].
        -- destruct (declChild f); [exact (proj1 (proj2 G) _ Y)|exact (proj2 (good_inner _ G B Uf) _ Y)].
        -- destruct (declChild t); [exact (proj1 (proj2 IHt) _ Y)|exact (proj2 (good_inner _ IHt K Ut) _ Y)].
  - cbn [demand X1 xBraces xMacro] in H. spl H. specialize (IHb K1).
    apply NB; cbn [trS ast]; rewrite ?U; [reflexivity| |].
    + destruct (unrS count b) eqn:Ub.
      * cbn [andb] in K. apply negb_true_iff in K. rewrite K. unfold condS.
        destruct (sideEffect c); [now rewrite (tokE_ok _ _ _ _ H)|reflexivity].
      * rewrite (tokE_ok _ _ _ _ H). cbn [flat_map print]. now rewrite (proj1 (good_body _ IHb K0 Ub)), app_nil_r.
    + destruct (unrS count b) eqn:Ub; intros y Y.
      * unfold condS in Y; destruct (sideEffect c); [destruct Y as [<-|[]]; constructor|destruct Y].
      * destruct Y as [<-|[]]. apply WWhile. exact (proj2 (good_body _ IHb K0 Ub)).
  - cbn [demand X1 xBraces xFor andb] in H. spl H. specialize (IHb K2).
    apply NB; cbn [trS ast]; rewrite ?U; [reflexivity| |].
    + destruct (unrS count b) eqn:Ub.
      * destruct (isDeclInit n || hm i) eqn:D.
        -- rewrite (tokI_ok _ _ H), (tokO_ok _ _ _ K4), K1. reflexivity.
        -- cbn [andb negb demand] in K, K0. destruct (optEffect c) as [c'|] eqn:Oc.
           ++ assert (c = Some c') as -> by (destruct c as [x|]; cbn [optEffect] in Oc; [destruct (sideEffect x)|]; congruence).
              cbn [isNone orb] in K. destruct e; [discriminate K|]. cbn [optOk] in K4.
              destruct (optEffect (initExpr n)) as [e|] eqn:Oi.
              ** destruct n as [[v x|x]|]; cbn [initExpr optEffect isDeclInit orb] in Oi, D; try discriminate.
                 destruct (sideEffect x); [|discriminate Oi]. injection Oi as <-. cbn [initOk] in H.
                 cbn [tokO]. rewrite (tokE_ok _ _ _ _ H), (tokE_ok _ _ _ _ K4). reflexivity.
              ** cbn [tokO]. rewrite (tokE_ok _ _ _ _ K4). reflexivity.
           ++ destruct (optEffect (initExpr n)); [discriminate K0|reflexivity].
      * rewrite (tokI_ok _ _ H), (tokO_ok _ _ _ K4), (tokO_ok _ _ _ K3).
        cbn [flat_map print]. now rewrite (proj1 (good_body _ IHb K1 Ub)), app_nil_r.
    + destruct (unrS count b) eqn:Ub; intros y Y.
      * destruct (isDeclInit n || hm i).
        -- destruct Y as [<-|[]]. apply WFor. constructor.
        -- destruct (optEffect c); [|destruct Y].
           apply in_app_iff in Y. destruct Y as [Y|[<-|[]]]; [|constructor].
           destruct (optEffect (initExpr n)); [destruct Y as [<-|[]]; constructor|destruct Y].
      * destruct Y as [<-|[]]. apply WFor. exact (proj2 (good_body _ IHb K1 Ub)).
Qed.

(** ** Simulation *)
Lemma sim_trans a b c : sim a b -> sim b c -> sim a c.
Proof. intros [A1 A2] [B1 B2]; split; congruence. Qed.
Lemma sim_sym a b : sim a b -> sim b a.
Proof. intros [A1 A2]; split; congruence. Qed.
Lemma gE_main val last e s q z s' : exprOk val last e = true -> sim s q -> eval e s = (z, s') -> covered s' ->
  exists z' q', eval (gE last e) q = (z', q') /\ sim s' q' /\ agree val z z'.
Proof.
  intros H S V C. destruct (expr_some _ _ _ H) as (e' & T). unfold gE; rewrite T.
  exact (expr_main _ _ _ _ _ _ _ _ H T S V C).
Qed.
Lemma gO_cond last c s q z s' : optOk cmp count X1 last c = true -> sim s q -> evalC c s = (z, s') -> covered s' ->
  exists z' q', evalC (gO last c) q = (z', q') /\ sim s' q' /\ Z.eqb z' 0 = Z.eqb z 0.
Proof.
  destruct c as [e|]; cbn [optOk UnrSpec.evalC gO]; intros H S V C.
  - destruct (gE_main _ _ _ _ _ _ _ H S V C) as (z' & q' & A & B & G & _). eauto.
  - injection V as <- <-. now exists 1%Z, q.
Qed.
Lemma gO_inc last c s q : optOk cmp count X1 last c = true -> sim s q -> covered (evalO c s) ->
  sim (evalO c s) (evalO (gO last c) q).
Proof.
  destruct c as [e|]; cbn [optOk UnrSpec.evalO gO]; intros H S C; [|exact S].
  destruct (eval e s) as [z s'] eqn:V. destruct (gE_main _ _ _ _ _ _ _ H S V C) as (z' & q' & A & B & G & _). now rewrite A.
Qed.
Definition live (l : list stmt) : Prop := match l with [] => True | x :: _ => unrS count x = false end.
Lemma id_in x : In (idOf x) (sregions x). Proof. destruct x; left; reflexivity. Qed.
Lemma Run_live l s o s' : Run l s o s' -> covered s' -> live l.
Proof.
  intros R C. destruct l as [|x l]; [exact I|]. destruct (Run_sub _ _ _ _ R) as [_ A]. apply C in A.
  cbn [live]. destruct (unrS count x) eqn:U; [|reflexivity]. unfold unrS in U.
  rewrite (zero_in _ _ U (id_in x)) in A. lia.
Qed.
Lemma Run_cov l s o s' : Run l s o s' -> covered s' -> covered s.
Proof. intros R. exact (covered_sub _ _ (proj1 (Run_sub _ _ _ _ R))). Qed.

Lemma noDecl_app a b : noDecl a -> noDecl b -> noDecl (a ++ b).
Proof. intros A B i v e K. apply in_app_iff in K. destruct K as [K|K]; [exact (A _ _ _ K)|exact (B _ _ _ K)]. Qed.
Lemma noDecl_one x : isDecl x = false -> noDecl [x].
Proof. intros A i v e [->|[]]. discriminate A. Qed.
Lemma noDecl_nil : noDecl []. Proof. intros i v e []. Qed.
Lemma noDecl_cond c : noDecl (condS c).
Proof. unfold condS; destruct (sideEffect c); [now apply noDecl_one|apply noDecl_nil]. Qed.
Lemma ast_noDecl y : stmtOk y = true ->
  (isDecl y = false -> noDecl (ast y)) /\ (isBlock y = true -> declChild y = false -> noDecl (inner (ast y))).
Proof.
  induction y as [i|i x|i w x|i x|i|i l IHl|i c t f IHt IHf|i c b IHb|i n c x b IHb] using stmt_rec'; intros H;
    match goal with |- context [isDecl ?x = false] => destruct (unrS count x) eqn:U;
      [rewrite (ast_unr _ U); split; intros; apply noDecl_nil|] end;
    cbn [UnrSpec.stmtOk] in H; rewrite U in H; cbn [orb] in H; cbn [ast]; rewrite U;
    try (split; [intros N; try discriminate N; now apply noDecl_one|discriminate]).
  - split; [intros _; now apply noDecl_one|]. intros _ D. cbn [inner]. cbn [declChild] in D.
    clear U. induction l as [|y l IH]; [apply noDecl_nil|]. cbn [flat_map forallb existsb] in *.
    apply andb_true_iff in H; destruct H as [Hy H]. apply orb_false_iff in D; destruct D as [Dy D].
    apply noDecl_app; [exact (proj1 (IHl y (or_introl eq_refl) Hy) Dy)|].
    exact (IH (fun z A => IHl z (or_intror A)) H D).
  - cbn [demand X1 xBraces] in H. apply andb_true_iff in H; destruct H as [H Hf]. spl H.
    split; [|discriminate]. intros _. destruct (_ || _); [now apply noDecl_one|].
    apply noDecl_app; [apply noDecl_cond|]. destruct f as [f|]; [|apply noDecl_nil]. spl Hf.
    destruct (_ && _); [apply noDecl_nil|].
    assert (G : forall y, isBlock y = true -> isDecl y = false) by (intros []; cbn; congruence).
    destruct (unrS count t).
    + destruct (IHf f eq_refl Hf) as [A B]. destruct (declChild f); auto.
    + destruct (IHt K0) as [A B]. destruct (declChild t); auto.
  - split; [|discriminate]. intros _. destruct (unrS count b); [apply noDecl_cond|now apply noDecl_one].
  - split; [|discriminate]. intros _. destruct (unrS count b); [|now apply noDecl_one].
    destruct (_ || _); [now apply noDecl_one|]. destruct (optEffect c); [|apply noDecl_nil].
    apply noDecl_app; [|now apply noDecl_one]. destruct (optEffect _); [now apply noDecl_one|apply noDecl_nil].
Qed.

Lemma block_one x : isBlock x = true -> unrS count x = false -> flat_map ast [x] = [one (ast x)].
Proof. intros B U. destruct (isBlock_inv _ B) as (i & l & ->). cbn [flat_map ast]. rewrite U. reflexivity. Qed.
(** a remaining branch of a conditional statement *)
Definition reach (r : stmt) : list stmt := if declChild r then ast r else inner (ast r).
Lemma reach_run r q o q1 : stmtOk r = true -> isBlock r = true -> unrS count r = false -> Run (flat_map ast [r]) q o q1 ->
  noDecl (reach r) /\ exists q2, sim q1 q2 /\ Run (reach r) q o q2.
Proof.
  intros OK B U R. unfold reach. destruct (ast_noDecl _ OK) as [N1 N2].
  destruct (declChild r) eqn:D.
  - split; [apply N1; destruct r; (discriminate B || reflexivity)|]. exists q1; split; [apply sim_refl|].
    cbn [flat_map] in R. now rewrite app_nil_r in R.
  - split; [now apply N2|]. rewrite (block_one _ B U) in R.
    destruct (isBlock_inv _ B) as (i & l & ->). cbn [ast] in R |- *. rewrite U in R |- *. cbn [one inner] in R |- *.
    assert (R' : Run (flat_map ast l) (visit 0 q) o q1).
    { inversion R as [| | | | | |? ? ? ? s1 ? ? R1 R2|? ? ? ? ? ? R1 O| | | | | | | | | | | | |]; subst; [|exact R1].
      inversion R2; subst. exact R1. }
    destruct (Run_sim _ _ _ _ R' q (sim_sym _ _ (sim_visitr _ _ 0 (sim_refl q)))) as (q2 & A & S). eauto.
Qed.
Lemma effect_run last c s q z s1 : exprOk false last c = true -> eval c s = (z, s1) -> sim s q -> covered s1 ->
  exists q1, sim s1 q1 /\ forall l o q2, Run l q1 o q2 -> Run ((if sideEffect c then [SExpr 0 (gE last c)] else []) ++ l) q o q2.
Proof.
  intros H V S C. destruct (sideEffect c) eqn:E.
  - destruct (gE_main _ _ _ _ (visit 0 q) _ _ H S V C) as (z' & q1 & A & B & _). exists q1; split; [exact B|].
    intros l o q2 R. cbn [app]. eapply Rexpr; [exact A|exact R].
  - exists q; split; [|auto]. exact (sim_trans _ _ _ (sim_sym _ _ (eval_pure _ _ _ _ E V)) S).
Qed.
Lemma branch_run z z' t f q o q1 :
  isBlock t = true -> (forall x, f = Some x -> isBlock x = true) -> live (branch z t f) -> Z.eqb z' 0 = Z.eqb z 0 ->
  Run (flat_map ast (branch z t f)) q o q1 ->
  Run (branch z' (one (ast t)) (match f with Some f => Some (one (ast f)) | None => None end)) q o q1.
Proof.
  intros Bt Bf L Z R. unfold branch in *. rewrite Z. destruct (Z.eqb z 0).
  - destruct f as [f|]; [|exact R]. cbn [live] in L. now rewrite (block_one _ (Bf f eq_refl) L) in R.
  - cbn [live] in L. now rewrite (block_one _ Bt L) in R.
Qed.
Lemma for_dead i c inc b l s o s' : unrS count b = true -> Run (SFor i None c inc b :: l) s o s' -> covered s' ->
  exists z s1, evalC c (visit i s) = (z, s1) /\ Z.eqb z 0 = true /\ Run l s1 o s'.
Proof.
  intros U R C.
  assert (D : forall s1 o1 s2, Run [b] s1 o1 s2 -> covered s2 -> False).
  { intros s1 o1 s2 A B. pose proof (Run_live _ _ _ _ A B) as L. cbn [live] in L. congruence. }
  inversion R as [| | | | | | | | | | | | | | | | |? ? ? ? ? ? z s1 ? ? E Z0 R1|? ? ? ? ? ? z s1 s2 ? ? E Z0 R1 R2|? ? ? ? ? ? z s1 s2 ? ? E Z0 R1 R2|? ? ? ? ? ? z s1 s2 r E Z0 R1]; subst.
  - eauto.
  - destruct (D _ _ _ R1). eapply covered_sub; [apply evalO_sub|]. exact (Run_cov _ _ _ _ R2 C).
  - destruct (D _ _ _ R1). exact (Run_cov _ _ _ _ R2 C).
  - destruct (D _ _ _ R1 C).
Qed.
Lemma ast_if i c t f l : unrS count (SIf i c t f) = false ->
  flat_map ast (SIf i c t f :: l) =
  (if (negb (unrS count t) && negb (elseDead f)) || hm i
   then [SIf 0 (gE false c) (one (ast t)) (match f with Some f => Some (one (ast f)) | None => None end)]
   else condS c ++
      match f with
      | None => []
      | Some f =>
        if unrS count t && unrS count f then []
        else if unrS count t then reach f else reach t
      end) ++ flat_map ast l.
Proof. intros U. cbn [flat_map ast]. rewrite U. reflexivity. Qed.
Lemma if_run i c t f s q z s1 o s2 :
  stmtOk (SIf i c t f) = true -> unrS count (SIf i c t f) = false -> sim s q ->
  eval c s = (z, s1) -> covered s1 -> live (branch z t f) ->
  (forall q1, sim s1 q1 -> exists q2, Run (flat_map ast (branch z t f)) q1 o q2 /\ sim s2 q2) ->
  exists q2, sim s2 q2 /\
    (o = Normal -> forall l o' q3, Run (flat_map ast l) q2 o' q3 -> Run (flat_map ast (SIf i c t f :: l)) q o' q3) /\
    (o <> Normal -> forall l, Run (flat_map ast (SIf i c t f :: l)) q o q2).
Proof.
  intros OK U S E C L IH. cbn [UnrSpec.stmtOk] in OK. rewrite U in OK. cbn [orb demand X1 xBraces] in OK.
  apply andb_true_iff in OK; destruct OK as [H Hf]. spl H.
  assert (Bf : forall x, f = Some x -> isBlock x = true) by (intros x ->; now spl Hf).
  destruct ((negb (unrS count t) && negb (elseDead f)) || hm i) eqn:M.
  - destruct (gE_main _ _ _ _ (visit 0 q) _ _ H S E C) as (z' & q1 & A & B & G & _).
    destruct (IH q1 B) as (q2 & R & S2). pose proof (branch_run _ _ _ _ _ _ _ K Bf L G R) as R'.
    exists q2; split; [exact S2|split].
    + intros O l o' q3 R2. subst o. rewrite (ast_if _ _ _ _ _ U), M. cbn [app]. eapply Rif; eauto.
    + intros O l. rewrite (ast_if _ _ _ _ _ U), M. cbn [app]. eapply RifX; eauto.
  - pose proof M as M0. apply orb_false_iff in M; destruct M as [M _].
    destruct (effect_run _ _ _ _ _ _ H E S C) as (q1 & B & X). fold (condS c) in X. destruct (IH q1 B) as (q2 & R & S2).
    assert (D : exists q3, sim q2 q3 /\ noDecl (match f with
      | None => [] | Some f => if unrS count t && unrS count f then [] else if unrS count t then reach f else reach t end) /\
      Run (match f with
      | None => [] | Some f => if unrS count t && unrS count f then [] else if unrS count t then reach f else reach t end) q1 o q3).
    { unfold branch in L, R. destruct f as [f|]; cbn [elseDead] in M.
      - spl Hf. destruct (Z.eqb z 0); cbn [live] in L.
        + rewrite L in M |- *. rewrite andb_false_r. destruct (unrS count t) eqn:Ut; [|discriminate M].
          destruct (reach_run _ _ _ _ Hf K1 L R) as [N (q3 & A1 & A2)]. eauto.
        + rewrite L in M |- *. cbn [andb].
          destruct (reach_run _ _ _ _ K0 K L R) as [N (q3 & A1 & A2)]. eauto.
      - destruct (Z.eqb z 0); cbn [live] in L.
        + exists q2; split; [apply sim_refl|]. split; [apply noDecl_nil|exact R].
        + rewrite L in M. discriminate M. }
    destruct D as (q3 & S3 & N & R3).
    exists q3; split; [exact (sim_trans _ _ _ S2 S3)|split].
    + intros O l o' q4 R4. rewrite (ast_if _ _ _ _ _ U), M0, <- app_assoc.
      apply X. exact (proj1 (Run_app _ _ _ _ R3 N _) O _ _ R4).
    + intros O l. rewrite (ast_if _ _ _ _ _ U), M0, <- app_assoc.
      apply X. exact (proj2 (Run_app _ _ _ _ R3 N _) O).
Qed.

Lemma ok_None i n c inc b : stmtOk (SFor i n c inc b) = true -> unrS count (SFor i n c inc b) = false ->
  (unrS count b = false \/ isDeclInit n = false) -> stmtOk (SFor i None c inc b) = true.
Proof.
  cbn [UnrSpec.stmtOk]. intros H U D. rewrite U in H. cbn [orb demand X1 xBraces xFor andb] in H. spl H.
  rewrite K4, K3, K2. cbn [initOk initExpr optEffect isNone orb andb demand X1 xBraces xFor isDeclInit]. rewrite K1.
  apply orb_true_iff; right. cbn [andb].
  destruct D as [D|D]; rewrite D in *; cbn [andb demand orb] in *; [reflexivity|].
  rewrite K. now destruct (_ && _).
Qed.
Lemma ast_while i c b l : unrS count (SWhile i c b) = false ->
  flat_map ast (SWhile i c b :: l) = (if unrS count b then condS c else [SWhile 0 (gE false c) (one (ast b))]) ++ flat_map ast l.
Proof. intros U. cbn [flat_map ast]. now rewrite U. Qed.
Lemma ast_for i n c inc b l : unrS count (SFor i n c inc b) = false ->
  flat_map ast (SFor i n c inc b :: l) =
  (if unrS count b then
      if isDeclInit n || hm i then [SFor 0 (gI n) (gO true c) None (SEmpty 0)]
      else match optEffect c with
           | None => []
           | Some c => match optEffect (initExpr n) with Some e => [SExpr 0 (gE true e)] | None => [] end ++ [SExpr 0 (gE true c)]
           end
    else [SFor 0 (gI n) (gO true c) (gO false inc) (one (ast b))]) ++ flat_map ast l.
Proof. intros U. cbn [flat_map ast]. now rewrite U. Qed.

Lemma simulate l s o s' : Run l s o s' -> covered s' -> forallb stmtOk l = true -> forall q, sim s q ->
  exists q', Run (flat_map ast l) q o q' /\ sim s' q'.
Proof.
  assert (HD : forall x l s o s', Run (x :: l) s o s' -> covered s' -> unrS count x = false).
  { intros x l0 s0 o0 s0' R C. exact (Run_live _ _ _ _ R C). }
  intros R0 C0 OK0 q0 S0. revert C0 OK0 q0 S0.
  induction R0 as [s|i l s o s' R1 H|i e l s z s1 o s' E R1 H|i v e l s z s1 o s2 E R1 H|i e l s z s1 E|i l s
    |i b l s s1 o s2 R1 H R2 K|i b l s o s1 R1 H O
    |i c t f l s z s1 s2 o s3 E R1 H R2 K|i c t f l s z s1 o s2 E R1 H O
    |i c b l s z s1 o s2 E Z0 R1 H|i c b l s z s1 s2 o s3 E Z0 R1 H R2 K|i c b l s z s1 s2 o s3 E Z0 R1 H R2 K|i c b l s z s1 s2 r E Z0 R1 H
    |i v e c inc b l s z s1 s2 o s3 E R1 H R2 K|i v e c inc b l s z s1 o s2 E R1 H O
    |i e c inc b l s z s1 o s2 E R1 H
    |i c inc b l s z s1 o s2 E Z0 R1 H|i c inc b l s z s1 s2 o s3 E Z0 R1 H R2 K|i c inc b l s z s1 s2 o s3 E Z0 R1 H R2 K|i c inc b l s z s1 s2 r E Z0 R1 H];
    intros C OK q S0; [exists q; split; [constructor|exact S0]|..].
  all: cbn [forallb] in OK; apply andb_true_iff in OK; destruct OK as [OKx OKl].
  - assert (U : unrS count (SEmpty i) = false) by (eapply HD; [apply Rempty; exact R1|exact C]).
    destruct (H C OKl (visit 0 q) S0) as (q' & A & B). exists q'; split; [|exact B].
    cbn [flat_map ast]; rewrite U. apply Rempty, A.
  - assert (U : unrS count (SExpr i e) = false) by (eapply HD; [eapply Rexpr; [exact E|exact R1]|exact C]).
    cbn [UnrSpec.stmtOk] in OKx; rewrite U in OKx; cbn [orb] in OKx.
    destruct (gE_main _ _ _ (visit i s) (visit 0 q) _ _ OKx S0 E (Run_cov _ _ _ _ R1 C)) as (z' & q1 & A1 & B1 & _).
    destruct (H C OKl q1 B1) as (q' & A & B). exists q'; split; [|exact B].
    cbn [flat_map ast]; rewrite U. eapply Rexpr; [exact A1|exact A].
  - assert (U : unrS count (SDecl i v e) = false) by (eapply HD; [eapply Rdecl; [exact E|exact R1]|exact C]).
    cbn [UnrSpec.stmtOk] in OKx; rewrite U in OKx; cbn [orb declOk] in OKx. unfold declOk in OKx. spl OKx.
    destruct (gE_main _ _ _ (visit i s) (visit 0 q) _ _ OKx S0 E (Run_cov _ _ _ _ R1 C)) as (z' & q1 & A1 & B1 & G).
    apply agree_val in G; subst z'.
    destruct (H C OKl _ (sim_set _ _ v z B1)) as (q' & A & B). exists (setVar v (sVars q1 v) q'); split.
    + cbn [flat_map ast]; rewrite U. eapply Rdecl; [exact A1|exact A].
    + rewrite (proj1 B1). now apply sim_set.
  - assert (U : unrS count (SRet i e) = false) by (eapply HD; [eapply (Rret i e l); exact E|exact C]).
    cbn [UnrSpec.stmtOk] in OKx; rewrite U in OKx; cbn [orb] in OKx.
    destruct (gE_main _ _ _ (visit i s) (visit 0 q) _ _ OKx S0 E C) as (z' & q1 & A1 & B1 & G).
    apply agree_val in G; subst z'. exists q1; split; [|exact B1]. cbn [flat_map ast]; rewrite U. now apply Rret.
  - assert (U : unrS count (SBreak i) = false) by (eapply HD; [eapply (Rbrk i l)|exact C]).
    exists (visit 0 q); split; [|exact S0]. cbn [flat_map ast]; rewrite U. apply Rbrk.
  - assert (U : unrS count (SBlock i b) = false) by (eapply HD; [eapply Rblock; [exact R1|exact R2]|exact C]).
    cbn [UnrSpec.stmtOk] in OKx; rewrite U in OKx; cbn [orb] in OKx.
    destruct (H (Run_cov _ _ _ _ R2 C) OKx (visit 0 q) S0) as (q1 & A1 & B1).
    destruct (K C OKl q1 B1) as (q2 & A2 & B2). exists q2; split; [|exact B2].
    cbn [flat_map ast]; rewrite U. eapply Rblock; [exact A1|exact A2].
  - assert (U : unrS count (SBlock i b) = false) by (eapply HD; [eapply (RblockX i b l); [exact R1|exact O]|exact C]).
    cbn [UnrSpec.stmtOk] in OKx; rewrite U in OKx; cbn [orb] in OKx.
    destruct (H C OKx (visit 0 q) S0) as (q1 & A1 & B1). exists q1; split; [|exact B1].
    cbn [flat_map ast]; rewrite U. apply RblockX; [exact A1|exact O].
  - assert (U : unrS count (SIf i c t f) = false) by (eapply HD; [eapply Rif; [exact E|exact R1|exact R2]|exact C]).
    assert (C2 : covered s2) by exact (Run_cov _ _ _ _ R2 C). assert (C1 : covered s1) by exact (Run_cov _ _ _ _ R1 C2).
    assert (OKb : forallb stmtOk (branch z t f) = true).
    { pose proof OKx as P. cbn [UnrSpec.stmtOk] in P; rewrite U in P; cbn [orb demand X1 xBraces] in P.
      apply andb_true_iff in P; destruct P as [P Pf]. spl P. unfold branch. destruct (Z.eqb z 0); cbn [forallb].
      - destruct f as [f|]; [|reflexivity]. spl Pf. cbn [forallb]. now rewrite Pf.
      - now rewrite K1. }
    destruct (if_run i c t f (visit i s) q z s1 Normal s2 OKx U S0 E C1 (Run_live _ _ _ _ R1 C2) (fun q1 B => H C2 OKb q1 B))
      as (q2 & B2 & A2 & _).
    destruct (K C OKl q2 B2) as (q3 & A3 & B3). exists q3; split; [|exact B3]. exact (A2 eq_refl _ _ _ A3).
  - assert (U : unrS count (SIf i c t f) = false) by (eapply HD; [eapply (RifX i c t f l); [exact E|exact R1|exact O]|exact C]).
    assert (C1 : covered s1) by exact (Run_cov _ _ _ _ R1 C).
    assert (OKb : forallb stmtOk (branch z t f) = true).
    { pose proof OKx as P. cbn [UnrSpec.stmtOk] in P; rewrite U in P; cbn [orb demand X1 xBraces] in P.
      apply andb_true_iff in P; destruct P as [P Pf]. spl P. unfold branch. destruct (Z.eqb z 0); cbn [forallb].
      - destruct f as [f|]; [|reflexivity]. spl Pf. cbn [forallb]. now rewrite Pf.
      - now rewrite K0. }
    destruct (if_run i c t f (visit i s) q z s1 o s2 OKx U S0 E C1 (Run_live _ _ _ _ R1 C) (fun q1 B => H C OKb q1 B))
      as (q2 & B2 & _ & A2).
    exists q2; split; [|exact B2]. exact (A2 O l).
  - assert (U : unrS count (SWhile i c b) = false) by (eapply HD; [eapply (Rwhile0 i c b); [exact E|exact Z0|exact R1]|exact C]).
    pose proof OKx as P. cbn [UnrSpec.stmtOk] in P; rewrite U in P; cbn [orb demand X1 xBraces xMacro] in P. spl P.
    assert (C1 : covered s1) by exact (Run_cov _ _ _ _ R1 C). rewrite (ast_while _ _ _ _ U). destruct (unrS count b).
    + destruct (effect_run _ _ (visit i s) q _ _ P E S0 C1) as (q1 & B & X).
      destruct (H C OKl q1 B) as (q2 & A2 & B2). exists q2; split; [|exact B2]. apply X, A2.
    + destruct (gE_main _ _ _ (visit i s) (visit 0 q) _ _ P S0 E C1) as (z' & q1 & A1 & B1 & G & _).
      destruct (H C OKl q1 B1) as (q2 & A2 & B2). exists q2; split; [|exact B2].
      eapply Rwhile0; [exact A1|congruence|exact A2].
  - assert (U : unrS count (SWhile i c b) = false) by (eapply HD; [exact R2|exact C]).
    pose proof OKx as P. cbn [UnrSpec.stmtOk] in P; rewrite U in P; cbn [orb demand X1 xBraces xMacro] in P. spl P.
    assert (C2 : covered s2) by exact (Run_cov _ _ _ _ R2 C). assert (C1 : covered s1) by exact (Run_cov _ _ _ _ R1 C2).
    pose proof (HD _ _ _ _ _ R1 C2) as Ub.
    destruct (gE_main _ _ _ (visit i s) (visit 0 q) _ _ P S0 E C1) as (z' & q1 & A1 & B1 & G & _).
    destruct (H C2 ltac:(cbn [forallb]; now rewrite K2) q1 B1) as (q2 & A2 & B2). rewrite (block_one _ K1 Ub) in A2.
    destruct (K C ltac:(cbn [forallb]; now rewrite OKx) q2 B2) as (q3 & A3 & B3). exists q3; split; [|exact B3].
    rewrite (ast_while _ _ _ _ U), Ub in A3 |- *. cbn [app] in A3 |- *.
    eapply Rwhile; [exact A1|congruence|exact A2|exact A3].
  - assert (U : unrS count (SWhile i c b) = false) by (eapply HD; [eapply (RwhileB i c b); [exact E|exact Z0|exact R1|exact R2]|exact C]).
    pose proof OKx as P. cbn [UnrSpec.stmtOk] in P; rewrite U in P; cbn [orb demand X1 xBraces xMacro] in P. spl P.
    assert (C2 : covered s2) by exact (Run_cov _ _ _ _ R2 C). assert (C1 : covered s1) by exact (Run_cov _ _ _ _ R1 C2).
    pose proof (HD _ _ _ _ _ R1 C2) as Ub.
    destruct (gE_main _ _ _ (visit i s) (visit 0 q) _ _ P S0 E C1) as (z' & q1 & A1 & B1 & G & _).
    destruct (H C2 ltac:(cbn [forallb]; now rewrite K2) q1 B1) as (q2 & A2 & B2). rewrite (block_one _ K1 Ub) in A2.
    destruct (K C OKl q2 B2) as (q3 & A3 & B3). exists q3; split; [|exact B3].
    rewrite (ast_while _ _ _ _ U), Ub. cbn [app].
    eapply RwhileB; [exact A1|congruence|exact A2|exact A3].
  - assert (U : unrS count (SWhile i c b) = false) by (eapply HD; [eapply (RwhileX i c b l); [exact E|exact Z0|exact R1]|exact C]).
    pose proof OKx as P. cbn [UnrSpec.stmtOk] in P; rewrite U in P; cbn [orb demand X1 xBraces xMacro] in P. spl P.
    assert (C1 : covered s1) by exact (Run_cov _ _ _ _ R1 C).
    pose proof (HD _ _ _ _ _ R1 C) as Ub.
    destruct (gE_main _ _ _ (visit i s) (visit 0 q) _ _ P S0 E C1) as (z' & q1 & A1 & B1 & G & _).
    destruct (H C ltac:(cbn [forallb]; now rewrite K1) q1 B1) as (q2 & A2 & B2). rewrite (block_one _ K0 Ub) in A2.
    exists q2; split; [|exact B2].
    rewrite (ast_while _ _ _ _ U), Ub. cbn [app].
    eapply RwhileX; [exact A1|congruence|exact A2].
  - (* a declaration in a loop *)
    assert (U : unrS count (SFor i (Some (IDecl v e)) c inc b) = false) by (eapply HD; [eapply RforD; [exact E|exact R1|exact R2]|exact C]).
    pose proof OKx as P. cbn [UnrSpec.stmtOk] in P; rewrite U in P; cbn [orb demand X1 xBraces xFor andb initOk declOk] in P.
    spl P. unfold declOk in P; spl P.
    assert (C2 : covered s2) by exact (Run_cov _ _ _ _ R2 C).
    assert (C1 : covered s1) by exact (Run_cov _ _ _ _ R1 C2).
    destruct (gE_main _ _ _ (visit i s) (visit 0 q) _ _ P S0 E C1) as (z' & q1 & A1 & B1 & G). apply agree_val in G; subst z'.
    rewrite (ast_for _ _ _ _ _ _ U). cbn [isDeclInit orb gI].
    assert (Z : exists q2, Run (if unrS count b then [SFor 0 None (gO true c) None (SEmpty 0)] else [SFor 0 None (gO true c) (gO false inc) (one (ast b))]) (setVar v z q1) Normal q2 /\ sim s2 q2).
    { destruct (unrS count b) eqn:Ub.
      - destruct (for_dead _ _ _ _ _ _ _ _ Ub R1 C2) as (zc & s1c & Ec & Z0 & Rn). assert (s1c = s2) as -> by (inversion Rn; reflexivity). clear Rn.
        destruct (gO_cond _ _ (visit i (setVar v z s1)) (visit 0 (setVar v z q1)) _ _ K5 (sim_set _ _ v z B1) Ec C2) as (zc' & q2 & A2 & B2 & G2).
        exists q2; split; [|exact B2]. eapply Rfor0; [exact A2|congruence|constructor].
      - destruct (H C2 ltac:(cbn [forallb]; rewrite (ok_None _ _ _ _ _ OKx U (or_introl Ub)); reflexivity) _ (sim_set _ _ v z B1)) as (q2 & A2 & B2).
        exists q2; split; [|exact B2].
        rewrite (ast_for _ _ _ _ _ _ (HD _ _ _ _ _ R1 C2)), Ub in A2. exact A2. }
    destruct Z as (q2 & A2 & B2).
    destruct (K C OKl (setVar v (sVars q1 v) q2)) as (q3 & A3 & B3); [rewrite (proj1 B1); now apply sim_set|].
    exists q3; split; [|exact B3].
    destruct (unrS count b); cbn [app]; (eapply RforD; [exact A1|exact A2|exact A3]).
  - assert (U : unrS count (SFor i (Some (IDecl v e)) c inc b) = false) by (eapply HD; [eapply (RforDX i v e c inc b l); [exact E|exact R1|exact O]|exact C]).
    pose proof OKx as P. cbn [UnrSpec.stmtOk] in P; rewrite U in P; cbn [orb demand X1 xBraces xFor andb initOk declOk] in P.
    spl P. unfold declOk in P; spl P.
    assert (C2 : covered s2) by exact C.
    assert (C1 : covered s1) by exact (Run_cov _ _ _ _ R1 C2).
    destruct (gE_main _ _ _ (visit i s) (visit 0 q) _ _ P S0 E C1) as (z' & q1 & A1 & B1 & G). apply agree_val in G; subst z'.
    rewrite (ast_for _ _ _ _ _ _ U). cbn [isDeclInit orb gI].
    destruct (unrS count b) eqn:Ub.
    + destruct (for_dead _ _ _ _ _ _ _ _ Ub R1 C2) as (zc & s1c & Ec & Z0 & Rn). inversion Rn; subst. now destruct O.
    + destruct (H C2 ltac:(cbn [forallb]; rewrite (ok_None _ _ _ _ _ OKx U (or_introl Ub)); reflexivity) _ (sim_set _ _ v z B1)) as (q2 & A2 & B2).
      rewrite (ast_for _ _ _ _ _ _ (HD _ _ _ _ _ R1 C2)), Ub in A2.
      exists (setVar v (sVars q1 v) q2); split; [|rewrite (proj1 B1); now apply sim_set].
      cbn [app]. eapply RforDX; [exact A1|exact A2|exact O].
  - assert (U : unrS count (SFor i (Some (IExpr e)) c inc b) = false) by (eapply HD; [eapply RforE; [exact E|exact R1]|exact C]).
    pose proof OKx as P. cbn [UnrSpec.stmtOk] in P; rewrite U in P; cbn [orb demand X1 xBraces xFor andb initOk] in P. spl P.
    assert (C1 : covered s1) by exact (Run_cov _ _ _ _ R1 C).
    pose proof (ok_None _ _ _ _ _ OKx U (or_intror eq_refl)) as OKn.
    pose proof (HD _ _ _ _ _ R1 C) as Un.
    assert (IH : forall q1, sim s1 q1 -> exists q2, Run (flat_map ast (SFor i None c inc b :: l)) q1 o q2 /\ sim s2 q2).
    { intros q1 B1. apply (H C); [|exact B1]. cbn [forallb]. now rewrite OKn, OKl. }
    rewrite (ast_for _ _ _ _ _ _ Un) in IH. rewrite (ast_for _ _ _ _ _ _ U).
    destruct (gE_main _ _ _ (visit i s) (visit 0 q) _ _ P S0 E C1) as (z' & q1 & A1 & B1 & _).
    destruct (effect_run _ _ (visit i s) q _ _ P E S0 C1) as (q1' & B1' & X).
    cbn [isDeclInit orb gI initExpr] in IH |- *. destruct (unrS count b).
    + destruct (hm i).
      * destruct (IH _ B1) as (q2 & A2 & B2). exists q2; split; [|exact B2]. eapply RforE; [exact A1|exact A2].
      * destruct (IH _ B1') as (q2 & A2 & B2). exists q2; split; [|exact B2]. apply X in A2.
        cbn [andb negb demand] in K0. cbn [optEffect] in K0 |- *.
        cbn [isDeclInit orb andb negb demand initExpr optEffect] in K0. destruct (optEffect c); destruct (sideEffect e); try discriminate K0; exact A2.
    + destruct (IH _ B1) as (q2 & A2 & B2). exists q2; split; [|exact B2]. eapply RforE; [exact A1|exact A2].
  - assert (U : unrS count (SFor i None c inc b) = false) by (eapply HD; [eapply (Rfor0 i c inc b); [exact E|exact Z0|exact R1]|exact C]).
    pose proof OKx as P. cbn [UnrSpec.stmtOk] in P; rewrite U in P; cbn [orb demand X1 xBraces xFor andb initOk] in P. spl P.
    assert (C1 : covered s1) by exact (Run_cov _ _ _ _ R1 C).
    rewrite (ast_for _ _ _ _ _ _ U). cbn [isDeclInit orb gI initExpr optEffect].
    destruct (gO_cond _ _ (visit i s) (visit 0 q) _ _ P S0 E C1) as (z' & q1 & A1 & B1 & G).
    destruct (H C OKl q1 B1) as (q2 & A2 & B2).
    destruct (unrS count b).
    + destruct (hm i).
      * exists q2; split; [|exact B2]. eapply Rfor0; [exact A1|congruence|exact A2].
      * destruct c as [c|].
        -- cbn [UnrSpec.evalC optOk] in E, P. destruct (effect_run _ _ (visit i s) q _ _ P E S0 C1) as (q1' & B1' & X).
           destruct (H C OKl q1' B1') as (q2' & A2' & B2'). apply X in A2'. exists q2'; split; [|exact B2'].
           cbn [optEffect]. destruct (sideEffect c); exact A2'.
        -- cbn [UnrSpec.evalC] in E. injection E as <- <-. discriminate Z0.
    + exists q2; split; [|exact B2]. eapply Rfor0; [exact A1|congruence|exact A2].
  - assert (U : unrS count (SFor i None c inc b) = false) by (eapply HD; [exact R2|exact C]).
    pose proof OKx as P. cbn [UnrSpec.stmtOk] in P; rewrite U in P; cbn [orb demand X1 xBraces xFor andb initOk] in P. spl P.
    assert (C2' : covered (evalO inc s2)) by exact (Run_cov _ _ _ _ R2 C).
    assert (C2 : covered s2) by exact (covered_sub _ _ (evalO_sub _ _) C2'). assert (C1 : covered s1) by exact (Run_cov _ _ _ _ R1 C2).
    pose proof (HD _ _ _ _ _ R1 C2) as Ub.
    destruct (gO_cond _ _ (visit i s) (visit 0 q) _ _ P S0 E C1) as (z' & q1 & A1 & B1 & G).
    destruct (H C2 ltac:(cbn [forallb]; now rewrite K3) q1 B1) as (q2 & A2 & B2). rewrite (block_one _ K2 Ub) in A2.
    destruct (K C ltac:(cbn [forallb]; now rewrite OKx) _ (gO_inc _ _ _ _ K4 B2 C2')) as (q3 & A3 & B3). exists q3; split; [|exact B3].
    rewrite (ast_for _ _ _ _ _ _ U), Ub in A3 |- *. cbn [app gI] in A3 |- *.
    eapply Rfor; [exact A1|congruence|exact A2|exact A3].
  - assert (U : unrS count (SFor i None c inc b) = false) by (eapply HD; [eapply (RforB i c inc b); [exact E|exact Z0|exact R1|exact R2]|exact C]).
    pose proof OKx as P. cbn [UnrSpec.stmtOk] in P; rewrite U in P; cbn [orb demand X1 xBraces xFor andb initOk] in P. spl P.
    assert (C2 : covered s2) by exact (Run_cov _ _ _ _ R2 C). assert (C1 : covered s1) by exact (Run_cov _ _ _ _ R1 C2).
    pose proof (HD _ _ _ _ _ R1 C2) as Ub.
    destruct (gO_cond _ _ (visit i s) (visit 0 q) _ _ P S0 E C1) as (z' & q1 & A1 & B1 & G).
    destruct (H C2 ltac:(cbn [forallb]; now rewrite K3) q1 B1) as (q2 & A2 & B2). rewrite (block_one _ K2 Ub) in A2.
    destruct (K C OKl q2 B2) as (q3 & A3 & B3). exists q3; split; [|exact B3].
    rewrite (ast_for _ _ _ _ _ _ U), Ub. cbn [app gI].
    eapply RforB; [exact A1|congruence|exact A2|exact A3].
  - assert (U : unrS count (SFor i None c inc b) = false) by (eapply HD; [eapply (RforX i c inc b l); [exact E|exact Z0|exact R1]|exact C]).
    pose proof OKx as P. cbn [UnrSpec.stmtOk] in P; rewrite U in P; cbn [orb demand X1 xBraces xFor andb initOk] in P. spl P.
    assert (C1 : covered s1) by exact (Run_cov _ _ _ _ R1 C).
    pose proof (HD _ _ _ _ _ R1 C) as Ub.
    destruct (gO_cond _ _ (visit i s) (visit 0 q) _ _ P S0 E C1) as (z' & q1 & A1 & B1 & G).
    destruct (H C ltac:(cbn [forallb]; now rewrite K2) q1 B1) as (q2 & A2 & B2). rewrite (block_one _ K1 Ub) in A2.
    exists q2; split; [|exact B2].
    rewrite (ast_for _ _ _ _ _ _ U), Ub. cbn [app gI].
    eapply RforX; [exact A1|congruence|exact A2].
Qed.

Theorem eliminate_ok p vars n o s :
  exec n p (St vars [] []) = Some (o, s) -> covered s -> forallb stmtOk p = true ->
  exists p' n' s', parse (eliminate count hm p) = Some p' /\ exec n' p' (St vars [] []) = Some (o, s') /\
    sVars s' = sVars s /\ sCalls s' = sCalls s.
Proof.
  intros E C OK.
  assert (F : eliminate count hm p = flat_map print (flat_map ast p) /\ forall x, In x (flat_map ast p) -> wf x).
  { clear E C. unfold eliminate. induction p as [|x p IH]; [split; [reflexivity|intros ? []]|].
    cbn [forallb] in OK. apply andb_true_iff in OK; destruct OK as [Hx OK]. destruct (stmt_good _ Hx) as (A & B & _).
    destruct (IH OK) as [D W]. cbn [flat_map]. rewrite flat_map_app, A, D. split; [reflexivity|].
    intros y Y. apply in_app_iff in Y. destruct Y; auto. }
  destruct F as [F W].
  destruct (simulate _ _ _ _ (exec_run _ _ _ _ _ E) C OK _ (sim_refl _)) as (q' & R & S).
  destruct (run_exec _ _ _ _ R) as (n' & E').
  exists (flat_map ast p), n', q'. rewrite F, (parse_all _ W). split; [reflexivity|]. split; [exact E'|exact S].
Qed.
End Proof.

(** ** Coverage *)
Lemma locLe_iff l1 c1 l2 c2 : locLe l1 c1 l2 c2 = true <-> l1 < l2 \/ (l1 = l2 /\ c1 <= c2).
Proof. unfold locLe. rewrite orb_true_iff, andb_true_iff, Nat.ltb_lt, Nat.eqb_eq, Nat.leb_le. tauto. Qed.
Lemma segLe_trans a b l c : segLe a (sgLine b) (sgCol b) = true -> segLe b l c = true -> segLe a l c = true.
Proof. unfold segLe. rewrite !locLe_iff. lia. Qed.
Lemma sorted_cons a l : sorted (a :: l) -> sorted l.
Proof. cbn [sorted]. destruct l; [intros; exact I|tauto]. Qed.
Lemma sorted_le segs : sorted segs -> forall i j a b, i <= j -> nth_error segs i = Some a -> nth_error segs j = Some b ->
  segLe a (sgLine b) (sgCol b) = true.
Proof.
  assert (R : forall a, segLe a (sgLine a) (sgCol a) = true) by (intros; apply locLe_iff; lia).
  assert (Z : forall segs a, sorted (a :: segs) -> forall j b, nth_error (a :: segs) j = Some b -> segLe a (sgLine b) (sgCol b) = true).
  { clear segs. induction segs as [|x segs IH]; intros a H [|j] b E; cbn [nth_error] in E; try (injection E as <-; apply R).
    - destruct j; discriminate E.
    - cbn [sorted] in H. destruct H as [H1 H2]. eapply segLe_trans; [exact H1|]. exact (IH x H2 j b E). }
  intros H i; revert segs H. induction i as [|i IH]; intros segs H j a b L Ea Eb.
  - destruct segs as [|x segs]; [discriminate Ea|]. injection Ea as ->. exact (Z _ _ H _ _ Eb).
  - destruct segs as [|x segs]; [discriminate Ea|]. destruct j as [|j]; [lia|].
    exact (IH segs (sorted_cons _ _ H) j a b ltac:(lia) Ea Eb).
Qed.
Lemma bsearch_spec segs l c : sorted segs -> forall fuel bi size, size <= fuel -> 0 < size -> bi + size <= length segs ->
  (exists a, nth_error segs bi = Some a /\ segLe a l c = true) ->
  (forall t, nth_error segs (bi + size) = Some t -> segLe t l c = false) ->
  exists r a, bsearch fuel segs bi size l c = Some r /\ nth_error segs r = Some a /\ segLe a l c = true /\
    (forall t, nth_error segs (S r) = Some t -> segLe t l c = false).
Proof.
  intros H fuel; induction fuel as [|fuel IH]; intros bi size F P L (a & Ea & La) N; [lia|].
  cbn [bsearch]. destruct (Nat.eqb_spec size 1) as [->|S1].
  - exists bi, a. replace (bi + 1) with (S bi) in N by lia. auto.
  - pose proof (Nat.div2_odd size) as D. destruct (Nat.odd size); cbn [Nat.b2n] in D.
    + assert (W : bi + Nat.div2 size < length segs) by lia. apply nth_error_Some in W.
      destruct (nth_error segs (bi + Nat.div2 size)) as [h|] eqn:Eh; [|congruence].
      destruct (segLe h l c) eqn:Lh.
      * apply IH; try lia; [eauto|]. intros t Et. apply N. rewrite <- Et. f_equal. lia.
      * apply IH; try lia; [eauto|]. intros t Et. rewrite Eh in Et. injection Et as <-. exact Lh.
    + assert (W : bi + Nat.div2 size < length segs) by lia. apply nth_error_Some in W.
      destruct (nth_error segs (bi + Nat.div2 size)) as [h|] eqn:Eh; [|congruence].
      destruct (segLe h l c) eqn:Lh.
      * apply IH; try lia; [eauto|]. intros t Et. apply N. rewrite <- Et. f_equal. lia.
      * apply IH; try lia; [eauto|]. intros t Et. rewrite Eh in Et. injection Et as <-. exact Lh.
Qed.
Lemma scan_spec segs el ec : sorted segs -> (exists t, In t segs /\ segLe t el ec = false) ->
  exists r, scan segs el ec = Some r /\
    (r = true <-> forall i s, nth_error segs i = Some s -> segLe s el ec = true -> notExecuted s).
Proof.
  induction segs as [|x segs IH]; intros H (t & A & Lt); [destruct A|]. cbn [scan].
  change ((sgLine x <? el) || (sgLine x =? el) && (sgCol x <=? ec)) with (segLe x el ec).
  destruct (segLe x el ec) eqn:Lx.
  - destruct (sgHas x) eqn:Hx; [destruct (Nat.eqb_spec (sgCount x) 0) as [Cx|Cx]|]; cbn [negb orb].
    + destruct A as [->|A]; [congruence|].
      destruct (IH (sorted_cons _ _ H) (ex_intro _ t (conj A Lt))) as (r & E & K). exists r; split; [exact E|].
      rewrite K; split; intros G.
      * intros [|i] s Es Ls; cbn [nth_error] in Es; [injection Es as <-; now split|exact (G i s Es Ls)].
      * intros i s Es Ls. exact (G (S i) s Es Ls).
    + exists false; split; [reflexivity|]. split; [discriminate|]. intros G. destruct (G 0 x eq_refl Lx) as [_ G0]. congruence.
    + exists false; split; [reflexivity|]. split; [discriminate|]. intros G. destruct (G 0 x eq_refl Lx) as [G0 _]. congruence.
  - exists true; split; [reflexivity|]. split; [|auto]. intros _ i s Es Ls. exfalso.
    rewrite (segLe_trans x s el ec) in Lx; [discriminate Lx| |exact Ls].
    exact (sorted_le _ H 0 i x s ltac:(lia) eq_refl Es).
Qed.
Lemma sorted_skipn n : forall segs, sorted segs -> sorted (skipn n segs).
Proof. induction n as [|n IH]; intros [|x segs] H; cbn [skipn]; auto. apply IH. exact (sorted_cons _ _ H). Qed.
Lemma nth_skipn {A} n : forall (l : list A) i, nth_error (skipn n l) i = nth_error l (n + i).
Proof. induction n as [|n IH]; intros [|x l] i; cbn [skipn Nat.add nth_error]; auto. now destruct i. Qed.
Lemma coverage_ok : C68_coverage_claim (fun segs bl bc el ec =>
  (exists s, nth_error segs 0 = Some s /\ segLe s bl bc = true) /\ exists t, In t segs /\ segLe t el ec = false).
Proof.
  intros segs bl bc el ec H L [(a & Ea & La) (t & At & Lt)]. unfold isUnreachable.
  destruct segs as [|x segs]; [discriminate Ea|]. cbn [nth_error] in Ea. injection Ea as ->.
  assert (F : (bl <? sgLine a) || ((sgLine a =? bl) && (bc <? sgCol a)) = false).
  { apply locLe_iff in La. apply orb_false_iff. rewrite Nat.ltb_ge, andb_false_iff, Nat.eqb_neq, Nat.ltb_ge. lia. }
  rewrite F. set (S0 := a :: segs) in *.
  destruct (bsearch_spec S0 bl bc H (length S0) 0 (length S0) ltac:(lia) ltac:(cbn; lia) ltac:(lia)) as (r & b & E & Eb & Lb & N).
  { exists a; split; [reflexivity|exact La]. }
  { intros u Eu. assert (nth_error S0 (0 + length S0) = None) by (apply nth_error_None; lia). congruence. }
  rewrite E.
  destruct (scan_spec (skipn r S0) el ec (sorted_skipn r _ H)) as (res & Er & K).
  { exists t; split; [|exact Lt]. apply In_nth_error in At. destruct At as (j & Ej).
    destruct (Nat.le_gt_cases r j) as [D|D].
    - apply (nth_error_In _ (j - r)). rewrite nth_skipn. replace (r + (j - r)) with j by lia. exact Ej.
    - exfalso. assert (W : segLe t bl bc = true).
      { eapply segLe_trans; [exact (sorted_le _ H j r t b ltac:(lia) Ej Eb)|exact Lb]. }
      assert (segLe t el ec = true); [|congruence]. unfold segLe in *. rewrite locLe_iff in *. lia. }
  exists res; split; [exact Er|]. rewrite K; split; intros G.
  - intros i s Es (s' & Es' & Le & Nx). assert (s' = s) by congruence. subst s'.
    destruct (Nat.le_gt_cases r i) as [D|D].
    + apply (G (i - r) s); [|exact Le]. rewrite nth_skipn. replace (r + (i - r)) with i by lia. exact Es.
    + exfalso. assert (W : exists u, nth_error S0 (S i) = Some u).
      { destruct (nth_error S0 (S i)) as [u|] eqn:Eu; [eauto|]. apply nth_error_None in Eu.
        assert (r < length S0) by (apply nth_error_Some; congruence). lia. }
      destruct W as (u & Eu). pose proof (Nx u Eu) as W.
      rewrite (segLe_trans u b bl bc) in W; [discriminate W| |exact Lb].
      exact (sorted_le _ H (S i) r u b ltac:(lia) Eu Eb).
  - intros i s Es Le. rewrite nth_skipn in Es. apply (G (r + i) s Es).
    exists s; split; [exact Es|split; [exact Le|]]. intros u Eu.
    destruct (nth_error S0 (S r)) as [w|] eqn:Ew.
    + pose proof (N w eq_refl) as Nw. destruct (segLe u bl bc) eqn:Lu; [|reflexivity].
      rewrite (segLe_trans w u bl bc) in Nw; [discriminate Nw| |exact Lu].
      exact (sorted_le _ H (S r) (S (r + i)) w u ltac:(lia) Ew Eu).
    + apply nth_error_None in Ew. assert (S (r + i) < length S0) by (apply nth_error_Some; congruence). lia.
Qed.
