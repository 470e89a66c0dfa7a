(** Proofs about checks of data dependencies before parallelization of a loop *)
From Coq Require Import List Bool Arith ZArith Permutation Sorted Lia.
From Verif Require Import ParLoopModel ParLoopSpec ParLoopSem.
Import ListNotations.

Inductive kind := KPriv | KLast | KFirst | KRed (k : nat) | KInd | KDep.
Definition inK (x : kind) (v : nat) (s : state) : Prop :=
  match x with
  | KPriv => In v (sPriv s) | KLast => In v (sLast s) | KFirst => In v (sFirst s)
  | KRed k => In (k, v) (sRed s) | KInd => In v (sInd s) | KDep => In v (sDeps s)
  end.
Definition mono (s s' : state) : Prop :=
  (forall x v, inK x v s -> inK x v s') /\ incl (sGlob s) (sGlob s') /\ (sDiag s = true -> sDiag s' = true).
Definition step (Q : kind -> nat -> Prop) (s s' : state) : Prop :=
  mono s s' /\ forall x v, inK x v s' -> inK x v s \/ Q x v.

Lemma mono_refl s : mono s s.
Proof. repeat split; auto. apply incl_refl. Qed.
Lemma mono_trans a b c : mono a b -> mono b c -> mono a c.
Proof. intros (A1 & A2 & A3) (B1 & B2 & B3). repeat split; auto. eapply incl_tran; eassumption. Qed.
Lemma step_refl Q s : step Q s s.
Proof. split; [apply mono_refl|auto]. Qed.
Lemma step_trans Q a b c : step Q a b -> step Q b c -> step Q a c.
Proof.
  intros [A1 A2] [B1 B2]. split; [eapply mono_trans; eassumption|]. intros x v H. destruct (B2 x v H) as [H1|H1]; [now apply A2|now right].
Qed.
Lemma step_weak (Q R : kind -> nat -> Prop) a b : (forall x v, Q x v -> R x v) -> step Q a b -> step R a b.
Proof. intros H [A B]. split; [exact A|]. intros x v K. destruct (B x v K); auto. Qed.
Lemma step_same Q s s' : (forall x v, inK x v s' <-> inK x v s) -> incl (sGlob s) (sGlob s') -> (sDiag s = true -> sDiag s' = true) -> step Q s s'.
Proof. intros H1 H2 H3. split; [repeat split; auto; intros; now apply H1|]. intros x v H. left. now apply H1. Qed.
Lemma step_setSlot Q k d s : step Q s (setSlot k d s).
Proof. apply step_same; [intros []; reflexivity|apply incl_refl|auto]. Qed.
Lemma step_diag Q s : step Q s (diag s).
Proof. apply step_same; [intros []; reflexivity|apply incl_refl|auto]. Qed.
Lemma step_addGlob Q n s : step Q s (addGlob n s).
Proof. apply step_same; [intros []; reflexivity|apply incl_tl, incl_refl|auto]. Qed.
Lemma step_findDecl Q q s : step Q s (findDecl q s).
Proof. destruct q as [v|v|v [[n k]|]| |v| |]; cbn [findDecl]; try apply step_refl; apply step_setSlot. Qed.
Definition addsTo (add : nat -> state -> state) (x : kind) : Prop :=
  (forall v s (Q : kind -> nat -> Prop), Q x v -> step Q s (add v s)) /\ (forall v s, inK x v (add v s)).
Lemma step_cons (x : kind) v s s' (Q : kind -> nat -> Prop) : Q x v ->
  (forall y w, inK y w s' <-> inK y w s \/ (y = x /\ w = v)) -> sGlob s' = sGlob s -> sDiag s' = sDiag s -> step Q s s'.
Proof.
  intros HQ H G D. split; [repeat split; [intros y w K; apply H; now left|rewrite G; apply incl_refl|rewrite D; auto]|].
  intros y w K. apply H in K as [K|[-> ->]]; [now left|now right].
Qed.
Ltac adds := split; [intros v s Q HQ; apply (step_cons _ v s _ Q HQ); [|reflexivity|reflexivity]; intros [] w; cbn; intuition congruence|intros v s; now left].
Lemma adds_priv : addsTo addPriv KPriv. Proof. adds. Qed.
Lemma adds_last : addsTo addLast KLast. Proof. adds. Qed.
Lemma adds_first : addsTo addFirst KFirst. Proof. adds. Qed.
Lemma adds_ind : addsTo addInd KInd. Proof. adds. Qed.
Lemma adds_dep : addsTo addDep KDep. Proof. adds. Qed.
Lemma adds_red k : addsTo (addRed k) (KRed k).
Proof.
  split; [|intros v s; now left]. intros v s Q HQ. apply (step_cons (KRed k) v s _ Q HQ); [|reflexivity|reflexivity].
  intros [] w; cbn; intuition congruence.
Qed.

Lemma in_isIn_iff x l : isIn x l = true <-> In x l.
Proof. symmetry. apply in_isIn. Qed.
Lemma isIn_false x l : isIn x l = false <-> ~ In x l.
Proof. rewrite in_isIn. destruct (isIn x l); intuition congruence. Qed.

Section Loop.
Variable l : loopInfo.
Notation localize := (localize l).
Notation localizeTo := (localizeTo l).

Lemma localize_spec n q s s' v ok loc : localize n q s = (s', (v, ok, loc)) ->
  (forall Q, step Q s s') /\ sDiag s' = sDiag s /\
  (ok = true ->
    (exists w, v = Some w /\ loc = true /\ varOfSearch q = Some w /\ In w (lLocals l))
    \/ (exists w, v = Some w /\ loc = false /\ coincides q w /\ ~ In w (lLocals l) /\ (q = SGlobal w -> In n (sGlob s')))
    \/ (v = None /\ q = SUnknown)).
Proof.
  intros H.
  assert (D : sDiag (findDecl q s) = sDiag s) by (destruct q as [w|w|w [[a b]|]| |w| |]; reflexivity).
  assert (SF : forall Q, step Q s (findDecl q s)) by (intros Q; apply step_findDecl).
  unfold ParLoopModel.localize in H.
  destruct (varOfSearch q) as [w|] eqn:E.
  - destruct (isIn w (lLocals l)) eqn:Hl.
    + injection H as <- <- <- <-. split; [exact SF|]. split; [exact D|]. intros _. left. exists w. repeat split; auto. now apply in_isIn_iff.
    + apply isIn_false in Hl. destruct q as [u|u|u sl| |u| |]; cbn in E; try discriminate; injection E as ->; injection H as <- <- <- <-.
      * split; [exact SF|]. split; [exact D|]. intros _. right. left. exists w. repeat split; auto; [now left|discriminate].
      * split; [intros Q; eapply step_trans; [apply SF|apply step_addGlob]|]. split; [exact D|]. intros _. right. left. exists w.
        repeat split; auto; [now right|]. intros _. now left.
      * split; [exact SF|]. split; [exact D|]. discriminate.
      * split; [exact SF|]. split; [exact D|]. discriminate.
  - destruct q as [u|u|u sl| |u| |]; cbn in E; try discriminate; injection H as <- <- <- <-.
    + split; [intros Q; apply step_refl|]. split; [reflexivity|]. discriminate.
    + split; [intros Q; apply step_refl|]. split; [reflexivity|]. discriminate.
    + split; [intros Q; apply step_refl|]. split; [reflexivity|]. intros _. right. right. now split.
Qed.

(** Memory is private, or it is declared in the loop, or it is unknown *)
Definition located (x : kind) (n : nat) (q : search) (s : state) : Prop :=
  (exists w, varOfSearch q = Some w /\ In w (lLocals l))
  \/ (exists w, coincides q w /\ ~ In w (lLocals l) /\ inK x w s /\ (q = SGlobal w -> In n (sGlob s)))
  \/ q = SUnknown.
Lemma located_mono x n q s s' : mono s s' -> located x n q s -> located x n q s'.
Proof.
  intros (A & B & _) [H|[(w & H1 & H2 & H3 & H4)|H]]; [now left| |right; now right].
  right. left. exists w. repeat split; auto.
Qed.
Lemma localizeTo_spec add x n q s s' ok (Q : kind -> nat -> Prop) : addsTo add x -> localizeTo add n q s = (s', ok) ->
  (forall w, coincides q w -> ~ In w (lLocals l) -> Q x w) ->
  step Q s s' /\ (ok = true -> located x n q s').
Proof.
  intros [Ad1 Ad2] H HQ. unfold ParLoopModel.localizeTo in H.
  destruct (localize n q s) as [s1 [[v ok1] loc]] eqn:E. destruct (localize_spec n q s s1 v ok1 loc E) as (S1 & _ & L).
  destruct ok1; cbn [negb] in H.
  - specialize (L eq_refl). destruct L as [(w & -> & -> & W1 & W2)|[(w & -> & -> & W1 & W2 & W3)|[-> ->]]].
    + injection H as <- <-. split; [apply S1|]. intros _. left. now exists w.
    + injection H as <- <-.
      assert (ST : step Q s1 (add w s1)) by (apply Ad1, HQ; assumption).
      split; [eapply step_trans; [apply S1|exact ST]|].
      intros _. right. left. exists w. split; [exact W1|]. split; [exact W2|]. split; [apply Ad2|].
      intros E2. apply (proj1 (proj2 (proj1 ST))). now apply W3.
    + injection H as <- <-. split; [apply S1|]. intros _. right. now right.
  - injection H as <- <-. split; [apply S1|discriminate].
Qed.
Lemma diag_or (ok : bool) s : sDiag (if ok then s else diag s) = false -> ok = true /\ sDiag s = false.
Proof. destruct ok; [auto|discriminate]. Qed.
Lemma step_or Q (ok : bool) s : step Q s (if ok then s else diag s).
Proof. destruct ok; [apply step_refl|apply step_diag]. Qed.
Lemma mono_diag s s' : mono s s' -> sDiag s' = false -> sDiag s = false.
Proof. intros (_ & _ & D) H. destruct (sDiag s); [rewrite D in H; [discriminate|reflexivity]|reflexivity]. Qed.

Lemma localizeAll_spec add x n (Q : kind -> nat -> Prop) : addsTo add x -> forall ts s,
  (forall t w, In t ts -> coincides (mSearch t) w -> ~ In w (lLocals l) -> Q x w) ->
  step Q s (localizeAll l add n ts s) /\
  (sDiag (localizeAll l add n ts s) = false -> forall t, In t ts -> located x n (mSearch t) (localizeAll l add n ts s)).
Proof.
  intros Had. induction ts as [|t ts IH]; intros s HQ; cbn [localizeAll]; [split; [apply step_refl|intros _ t []]|].
  destruct (localizeTo add n (mSearch t) s) as [s1 ok] eqn:E.
  destruct (localizeTo_spec add x n _ s s1 ok Q Had E) as [S1 L1]; [intros w; apply HQ; now left|].
  destruct (IH (if ok then s1 else diag s1)) as [S2 L2]; [intros t' w Ht; apply HQ; now right|].
  split; [eapply step_trans; [exact S1|]; eapply step_trans; [apply step_or|exact S2]|].
  intros D t' [<-|Ht]; [|now apply L2].
  pose proof (mono_diag _ _ (proj1 S2) D) as D1. apply diag_or in D1 as [-> _]. apply (located_mono _ _ _ s1); [exact (proj1 S2)|now apply L1].
Qed.

Lemma evalInduction_spec n (Q : kind -> nat -> Prop) : forall ts s,
  (forall t w, In t ts -> lHead l = Some w -> varOfSearch (mSearch t) = Some w -> In w (lLocals l) \/ coincides (mSearch t) w -> Q KInd w) ->
  step Q s (evalInduction l n ts s) /\
  (sDiag (evalInduction l n ts s) = false -> forall t, In t ts ->
    exists w, lHead l = Some w /\ inK KInd w (evalInduction l n ts s) /\ varOfSearch (mSearch t) = Some w /\ (In w (lLocals l) \/ coincides (mSearch t) w)).
Proof.
  induction ts as [|t ts IH]; intros s HQ; cbn [evalInduction]; [split; [apply step_refl|intros _ t []]|].
  destruct (localize n (mSearch t) s) as [s1 [[v ok] loc]] eqn:E. destruct (localize_spec n _ s s1 v ok loc E) as (S1 & _ & L).
  set (s2 := match v with Some v => match lHead l with Some h => if ok && (h =? v) then addInd v s1 else diag s1 | None => diag s1 end | None => diag s1 end).
  assert (K : step Q s1 s2 /\ (sDiag s2 = false -> exists w, lHead l = Some w /\ inK KInd w s2 /\ varOfSearch (mSearch t) = Some w /\ (In w (lLocals l) \/ coincides (mSearch t) w))).
  { subst s2. destruct v as [v|]; [|split; [apply step_diag|discriminate]].
    destruct (lHead l) as [h|] eqn:Hh; [|split; [apply step_diag|discriminate]].
    destruct ok; cbn [andb]; [|split; [apply step_diag|discriminate]].
    destruct (Nat.eqb_spec h v) as [->|Hn]; [|split; [apply step_diag|discriminate]].
    assert (V : varOfSearch (mSearch t) = Some v /\ (In v (lLocals l) \/ coincides (mSearch t) v)).
    { destruct (L eq_refl) as [(w & A & _ & B & C)|[(w & A & _ & B & C & _)|[A _]]]; try discriminate; injection A as <-.
      - split; [exact B|now left].
      - split; [destruct B as [-> | ->]; reflexivity|now right]. }
    split; [apply adds_ind; apply (HQ t v); [now left|reflexivity|apply V|apply V]|].
    intros _. exists v. repeat split; [now left|apply V|apply V]. }
  destruct K as [K1 K2]. destruct (IH s2) as [S2 L2]; [intros t' w Ht; apply HQ; now right|].
  split; [eapply step_trans; [apply S1|]; eapply step_trans; [exact K1|exact S2]|].
  intros D t' [<-|Ht]; [|now apply L2].
  destruct (K2 (mono_diag _ _ (proj1 S2) D)) as (w & W1 & W2 & W3). exists w. split; [exact W1|]. split; [now apply (proj1 (proj1 S2))|exact W3].
Qed.

Lemma evalReductionTail_spec n k (Q : kind -> nat -> Prop) : k <> 0 -> forall ts s,
  (forall t w, In t ts -> mRed t = Some k -> coincides (mSearch t) w -> ~ In w (lLocals l) -> Q (KRed k) w) ->
  step Q s (evalReductionTail l n k ts s) /\
  (sDiag (evalReductionTail l n k ts s) = false -> forall t, In t ts -> mRed t = Some k /\ located (KRed k) n (mSearch t) (evalReductionTail l n k ts s)).
Proof.
  intros Hk. pose proof Hk as Hk'. apply Nat.eqb_neq in Hk'. induction ts as [|t ts IH]; intros s HQ; cbn [evalReductionTail]; [split; [apply step_refl|intros _ t []]|].
  rewrite Hk'. set (s2 := if match mRed t with Some k' => k' =? k | None => false end then _ else _).
  assert (K : step Q s s2 /\ (sDiag s2 = false -> mRed t = Some k /\ located (KRed k) n (mSearch t) s2)).
  { subst s2. destruct (mRed t) as [k'|] eqn:Er; [|split; [eapply step_trans; [apply step_findDecl|apply step_diag]|discriminate]].
    destruct (Nat.eqb_spec k' k) as [->|Hn]; [|split; [eapply step_trans; [apply step_findDecl|apply step_diag]|discriminate]].
    destruct (localizeTo (addRed k) n (mSearch t) s) as [s1 ok] eqn:E.
    destruct (localizeTo_spec (addRed k) (KRed k) n _ s s1 ok Q (adds_red k) E) as [S1 L1]; [intros w; apply HQ; [now left|exact Er]|].
    split; [eapply step_trans; [exact S1|apply step_or]|]. intros D. apply diag_or in D as [-> _]. split; [reflexivity|now apply L1]. }
  destruct K as [K1 K2]. destruct (IH s2) as [S2 L2]; [intros t' w Ht; apply HQ; now right|].
  split; [eapply step_trans; [exact K1|exact S2]|].
  intros D t' [<-|Ht]; [|now apply L2]. destruct (K2 (mono_diag _ _ (proj1 S2) D)) as [W1 W2]. split; [exact W1|]. now apply (located_mono _ _ _ s2); [exact (proj1 S2)|].
Qed.
(** a diagnostic is never removed *)
Lemma localizeTo_mono add n q s : (forall v s, mono s (add v s)) -> mono s (fst (localizeTo add n q s)).
Proof.
  intros H. unfold ParLoopModel.localizeTo. destruct (localize n q s) as [s1 [[v ok1] loc]] eqn:E.
  destruct (localize_spec n q s s1 v ok1 loc E) as (S1 & _ & _).
  pose proof (proj1 (S1 (fun _ _ => False))) as M1. destruct ok1; cbn [negb fst]; [|exact M1].
  destruct v as [v|]; [|exact M1]. destruct loc; [exact M1|]. eapply mono_trans; [exact M1|apply H].
Qed.
Lemma noAdd_step Q n q s : step Q s (fst (localizeTo noAdd n q s)).
Proof.
  unfold ParLoopModel.localizeTo. destruct (localize n q s) as [s1 [[v ok1] loc]] eqn:E.
  destruct (localize_spec n q s s1 v ok1 loc E) as (S1 & _ & _). destruct ok1; cbn [negb fst]; [|apply S1].
  destruct v as [v|]; [|apply S1]. destruct loc; apply S1.
Qed.
Lemma evalReductionTail0 n (Q : kind -> nat -> Prop) ts : forall s, step Q s (evalReductionTail l n 0 ts s).
Proof.
  induction ts as [|t ts IH]; intros s; cbn [evalReductionTail]; [apply step_refl|]. eapply step_trans; [|apply IH].
  destruct (match mRed t with Some k' => k' =? 0 | None => false end); [|eapply step_trans; [apply step_findDecl|apply step_diag]].
  cbn [Nat.eqb]. destruct (localizeTo noAdd n (mSearch t) s) as [s1 ok] eqn:E. pose proof (noAdd_step Q n (mSearch t) s) as S1. rewrite E in S1. cbn [fst] in S1.
  eapply step_trans; [exact S1|apply step_or].
Qed.
Lemma evalReduction_spec n (Q : kind -> nat -> Prop) ts s :
  (forall k t w, In t ts -> k <> 0 -> mRed t = Some k -> coincides (mSearch t) w -> ~ In w (lLocals l) -> Q (KRed k) w) ->
  step Q s (evalReduction l n ts s) /\
  (sDiag (evalReduction l n ts s) = false -> forall t, In t ts -> exists k, k <> 0 /\ mRed t = Some k /\ located (KRed k) n (mSearch t) (evalReduction l n ts s)).
Proof.
  intros HQ. destruct ts as [|t ts]; cbn [evalReduction]; [split; [apply step_refl|intros _ t []]|].
  destruct (redKind t) as [|k0] eqn:Ek.
  - cbn [Nat.eqb]. destruct (localizeTo noAdd n (mSearch t) (diag (findDecl (mSearch t) s))) as [s1 ok] eqn:E.
    pose proof (noAdd_step Q n (mSearch t) (diag (findDecl (mSearch t) s))) as S1. rewrite E in S1. cbn [fst] in S1.
    assert (S2 : step Q s1 (evalReductionTail l n 0 ts (if ok then s1 else diag s1))) by (eapply step_trans; [apply step_or|apply evalReductionTail0]).
    split.
    + eapply step_trans; [apply step_findDecl|]. eapply step_trans; [apply step_diag|]. eapply step_trans; [exact S1|exact S2].
    + intros D. pose proof (mono_diag _ _ (proj1 S2) D) as D1. pose proof (mono_diag _ _ (proj1 S1) D1) as D2. discriminate.
  - set (k := S k0) in *. assert (Hk : k <> 0) by discriminate. pose proof Hk as Hk'. apply Nat.eqb_neq in Hk'. rewrite Hk'.
    assert (Er : mRed t = Some k). { unfold redKind in Ek. destruct (mRed t); [congruence|discriminate]. }
    destruct (localizeTo (addRed k) n (mSearch t) s) as [s1 ok] eqn:E.
    destruct (localizeTo_spec (addRed k) (KRed k) n _ s s1 ok Q (adds_red k) E) as [S1 L1]; [intros w; apply (HQ k t); [now left|exact Hk|exact Er]|].
    destruct (evalReductionTail_spec n k Q Hk ts (if ok then s1 else diag s1)) as [S2 L2]; [intros t' w Ht; apply (HQ k t'); [now right|exact Hk]|].
    split; [eapply step_trans; [exact S1|]; eapply step_trans; [apply step_or|exact S2]|].
    intros D t' [<-|Ht].
    + exists k. split; [exact Hk|]. split; [exact Er|]. pose proof (mono_diag _ _ (proj1 S2) D) as D1. apply diag_or in D1 as [-> _].
      apply (located_mono _ _ _ s1); [exact (proj1 S2)|now apply L1].
    + exists k. split; [exact Hk|]. now apply L2.
Qed.
Lemma evalDependence_step (Q : kind -> nat -> Prop) q ts : (forall v, Q KDep v) -> forall s, step Q s (evalDependence q ts s).
Proof.
  intros HQ. induction ts as [|t ts IH]; intros s; cbn [evalDependence]; [apply step_refl|]. eapply step_trans; [|apply IH].
  destruct (distOk (mFlow t) && distOk (mAnti t)); [|apply step_refl]. eapply step_trans; [apply step_findDecl|].
  destruct (varOfSearch q); [apply adds_dep, HQ|apply step_diag].
Qed.
Lemma evalDependence_dep q t ts s : distOk (mFlow t) && distOk (mAnti t) = true -> sDiag (evalDependence q (t :: ts) s) = false ->
  exists v, varOfSearch q = Some v /\ inK KDep v (evalDependence q (t :: ts) s).
Proof.
  intros H D. cbn [evalDependence] in *. rewrite H in *.
  destruct (varOfSearch q) as [v|].
  - exists v. split; [reflexivity|]. apply (proj1 (proj1 (evalDependence_step (fun _ _ => True) q ts (fun _ => Logic.I) (addDep v (findDecl q s))))). now left.
  - exfalso. pose proof (mono_diag _ _ (proj1 (evalDependence_step (fun _ _ => True) q ts (fun _ => Logic.I) _)) D). discriminate.
Qed.
Lemma findAllDecls_step Q ts : forall s, step Q s (findAllDecls ts s).
Proof.
  unfold findAllDecls. induction ts as [|t ts IH]; intros s; cbn [fold_left]; [apply step_refl|]. eapply step_trans; [apply step_findDecl|apply IH].
Qed.

(** ** Sources of variables in lists *)
Definition shOf (d : desc) : bool := dShared d || dReadonly d.
Definition src (n : node) (x : kind) (v : nat) : Prop :=
  nCov n = true /\ shOf (nDesc n) = false /\
  match x with
  | KPriv => dPrivate (nDesc n) = true /\ exists t, In t (nMems n) /\ coincides (mSearch t) v /\ ~ In v (lLocals l)
  | KLast => dInduction (nDesc n) || dPrivate (nDesc n) || dReduction (nDesc n) || ((dAnti (nDesc n) || dFlow (nDesc n)) && negb (dOutput (nDesc n))) = false
             /\ dSecond (nDesc n) = true /\ exists t, In t (nMems n) /\ coincides (mSearch t) v /\ ~ In v (lLocals l)
  | KFirst => dInduction (nDesc n) || dPrivate (nDesc n) || dReduction (nDesc n) || ((dAnti (nDesc n) || dFlow (nDesc n)) && negb (dOutput (nDesc n))) = false
              /\ dFirst (nDesc n) = true /\ exists t, In t (nMems n) /\ coincides (mSearch t) v /\ ~ In v (lLocals l)
  | KRed k => dReduction (nDesc n) = true /\ exists t, In t (nMems n) /\ mRed t = Some k /\ coincides (mSearch t) v /\ ~ In v (lLocals l)
  | KInd => dInduction (nDesc n) = true /\ lHead l = Some v /\ exists t, In t (nMems n) /\ (In v (lLocals l) \/ coincides (mSearch t) v)
  | KDep => True
  end.
(** What is known about memory of a node when there are no diagnostics *)
Definition complete (i : nat) (n : node) (s : state) : Prop :=
  let d := nDesc n in
  nCov n = true -> shOf d = false ->
  if dInduction d then forall t, In t (nMems n) -> exists w, lHead l = Some w /\ inK KInd w s /\ varOfSearch (mSearch t) = Some w /\ (In w (lLocals l) \/ coincides (mSearch t) w)
  else if dPrivate d then forall t, In t (nMems n) -> located KPriv i (mSearch t) s
  else if dReduction d then forall t, In t (nMems n) -> exists k, mRed t = Some k /\ located (KRed k) i (mSearch t) s
  else if (dAnti d || dFlow d) && negb (dOutput d) then
    match nMems n with [] => True | t :: _ => distOk (mFlow t) && distOk (mAnti t) = true -> exists v, varOfSearch (mSearch t) = Some v /\ inK KDep v s end
  else forall t, In t (nMems n) -> (dSecond d = true -> located KLast i (mSearch t) s) /\ (dFirst d = true -> located KFirst i (mSearch t) s).
Lemma complete_mono i n s s' : mono s s' -> complete i n s -> complete i n s'.
Proof.
  intros Hm H. unfold complete in *. intros Hc Hs. specialize (H Hc Hs).
  destruct (dInduction (nDesc n)).
  { intros t Ht. destruct (H t Ht) as (w & W1 & W2 & W3). exists w. split; [exact W1|]. split; [now apply Hm|exact W3]. }
  destruct (dPrivate (nDesc n)). { intros t Ht. now apply (located_mono _ _ _ s), H. }
  destruct (dReduction (nDesc n)). { intros t Ht. destruct (H t Ht) as (k & K1 & K2). exists k. split; [exact K1|]. now apply (located_mono _ _ _ s). }
  destruct ((dAnti (nDesc n) || dFlow (nDesc n)) && negb (dOutput (nDesc n))).
  { destruct (nMems n); [exact Logic.I|]. intros Hd. destruct (H Hd) as (v & Hv1 & Hv2). exists v. split; [exact Hv1|now apply Hm]. }
  intros t Ht. destruct (H t Ht) as [A B]. split; intros X; [apply (located_mono _ _ _ s); auto|apply (located_mono _ _ _ s); auto].
Qed.
Lemma evalNode_spec i n s : step (src n) s (evalNode l i n s) /\ (sDiag (evalNode l i n s) = false -> complete i n (evalNode l i n s)).
Proof.
  unfold evalNode, complete. destruct (nCov n) eqn:Hc; cbn [negb]; [|split; [apply step_refl|discriminate]].
  change (dShared (nDesc n) || dReadonly (nDesc n)) with (shOf (nDesc n)).
  destruct (shOf (nDesc n)) eqn:Hs; [split; [apply findAllDecls_step|discriminate]|].
  destruct (dInduction (nDesc n)) eqn:Hi.
  { destruct (evalInduction_spec i (src n) (nMems n) s) as [A B].
    - intros t w Ht Hh Hv Hw. split; [exact Hc|]. split; [exact Hs|]. split; [exact Hi|]. split; [exact Hh|]. now exists t.
    - split; [exact A|]. intros D _ _. now apply B. }
  destruct (dPrivate (nDesc n)) eqn:Hp.
  { destruct (localizeAll_spec addPriv KPriv i (src n) adds_priv (nMems n) s) as [A B].
    - intros t w Ht Hw Hl. split; [exact Hc|]. split; [exact Hs|]. split; [exact Hp|]. now exists t.
    - split; [exact A|]. intros D _ _. now apply B. }
  destruct (dReduction (nDesc n)) eqn:Hr.
  { destruct (evalReduction_spec i (src n) (nMems n) s) as [A B].
    - intros k t w Ht _ Hk Hw Hl. split; [exact Hc|]. split; [exact Hs|]. split; [exact Hr|]. now exists t.
    - split; [exact A|]. intros D _ _ t Ht. destruct (B D t Ht) as (k & _ & K). now exists k. }
  destruct ((dAnti (nDesc n) || dFlow (nDesc n)) && negb (dOutput (nDesc n))) eqn:Hd.
  { destruct (nMems n) as [|t ts] eqn:Em; [split; [apply step_refl|auto]|]. split.
    - apply evalDependence_step. intros v. split; [exact Hc|]. split; [exact Hs|exact Logic.I].
    - intros D _ _ Hdist. now apply evalDependence_dep. }
  set (s1 := if dSecond (nDesc n) then localizeAll l addLast i (nMems n) s else s).
  assert (K1 : step (src n) s s1 /\ (sDiag s1 = false -> forall t, In t (nMems n) -> dSecond (nDesc n) = true -> located KLast i (mSearch t) s1)).
  { subst s1. destruct (dSecond (nDesc n)) eqn:H2; [|split; [apply step_refl|discriminate]].
    destruct (localizeAll_spec addLast KLast i (src n) adds_last (nMems n) s) as [A B].
    - intros t w Ht Hw Hl. split; [exact Hc|]. split; [exact Hs|]. split; [now rewrite Hi, Hp, Hr, Hd|]. split; [exact H2|]. now exists t.
    - split; [exact A|]. intros D t Ht _. now apply B. }
  set (s2 := if dFirst (nDesc n) then localizeAll l addFirst i (nMems n) s1 else s1).
  assert (K2 : step (src n) s1 s2 /\ (sDiag s2 = false -> forall t, In t (nMems n) -> dFirst (nDesc n) = true -> located KFirst i (mSearch t) s2)).
  { subst s2. destruct (dFirst (nDesc n)) eqn:H2; [|split; [apply step_refl|discriminate]].
    destruct (localizeAll_spec addFirst KFirst i (src n) adds_first (nMems n) s1) as [A B].
    - intros t w Ht Hw Hl. split; [exact Hc|]. split; [exact Hs|]. split; [now rewrite Hi, Hp, Hr, Hd|]. split; [exact H2|]. now exists t.
    - split; [exact A|]. intros D t Ht _. now apply B. }
  destruct K1 as [A1 B1], K2 as [A2 B2]. split; [eapply step_trans; eassumption|].
  intros D _ _ t Ht. split; intros X; [|now apply B2]. apply (located_mono _ _ _ s1); [exact (proj1 A2)|]. apply B1; [exact (mono_diag _ _ (proj1 A2) D)|exact Ht|exact X].
Qed.
Lemma evalNodes_spec : forall xs i s,
  step (fun x v => exists j n, nth_error xs j = Some n /\ src n x v) s (evalNodes l i xs s)
  /\ (sDiag (evalNodes l i xs s) = false -> forall j n, nth_error xs j = Some n -> complete (i + j) n (evalNodes l i xs s)).
Proof.
  induction xs as [|n xs IH]; intros i s; cbn [evalNodes]; [split; [apply step_refl|intros _ [|j] n H; discriminate]|].
  destruct (evalNode_spec i n s) as [A1 B1]. destruct (IH (S i) (evalNode l i n s)) as [A2 B2]. split.
  - eapply step_trans.
    + eapply step_weak; [|exact A1]. intros x v H. now exists 0, n.
    + eapply step_weak; [|exact A2]. intros x v (j & m & H). now exists (S j), m.
  - intros D [|j] m H.
    + injection H as <-. rewrite Nat.add_0_r. apply (complete_mono _ _ (evalNode l i n s)); [exact (proj1 A2)|]. apply B1. exact (mono_diag _ _ (proj1 A2) D).
    + cbn [nth_error] in H. replace (i + S j) with (S i + j) by lia. now apply B2.
Qed.

Lemma sideEffects_in : forall xs i j n, nth_error xs j = Some n -> sideEffect n = true -> In (i + j) (sideEffects i xs).
Proof.
  induction xs as [|x xs IH]; intros i [|j] n H E; cbn [nth_error sideEffects] in *; try discriminate.
  - injection H as ->. rewrite E, Nat.add_0_r. now left.
  - replace (i + S j) with (S i + j) by lia. specialize (IH (S i) j n H E). destruct (sideEffect x); [now right|exact IH].
Qed.

Lemma evaluate_spec s : evaluate l = Some s ->
  sDiag s = false /\ globalsOk l s = true /\ (exists h, lHead l = Some h)
  /\ (forall x v, inK x v s -> exists j n, nth_error (lNodes l) j = Some n /\ src n x v)
  /\ (forall j n, nth_error (lNodes l) j = Some n -> complete j n s).
Proof.
  unfold evaluate. intros H. destruct (lHead l) as [h|] eqn:Hh; [|discriminate].
  destruct (evalNodes_spec (lNodes l) 0 state0) as [A B].
  destruct (sDiag (evalNodes l 0 (lNodes l) state0)) eqn:D; [discriminate|]. destruct (globalsOk l (evalNodes l 0 (lNodes l) state0)) eqn:G; [|discriminate].
  cbn [orb negb] in H. destruct (forallb _ _); [|discriminate]. cbn [negb] in H. injection H as <-.
  split; [exact D|]. split; [exact G|]. split; [now exists h|]. split.
  - intros x v Hx. destruct (proj2 A x v Hx) as [Hx0|K]; [|exact K]. destruct x; destruct Hx0.
  - intros j n Hj. exact (B eq_refl j n Hj).
Qed.

(** ** An accepted loop *)
Variable P : program.
Hypothesis T : truth l P.
Variable cl : clauses.
Variable deps : list nat.
Hypothesis Hcl : exploitAny l = Some (cl, deps).
Hypothesis HA : autoLocals l P.
Hypothesis HH : deadHead l P.
Hypothesis HL : lastKnown l.
Hypothesis HU : noUnknown l.

Lemma exploit_spec : exists s, evaluate l = Some s /\ parallelLoop l = true /\ sDeps s = deps
  /\ (forall v, In v (sInd s) <-> v = cInd cl)
  /\ cPriv cl = sPriv s /\ cLast cl = sLast s /\ cFirst cl = sFirst s /\ cRed cl = sRed s.
Proof.
  unfold exploitAny in Hcl. destruct (parallelLoop l); [|discriminate]. cbn [negb] in Hcl.
  destruct (evaluate l) as [s|]; [|discriminate]. destruct (nodup Nat.eq_dec (sInd s)) as [|v [|w r]] eqn:E; try discriminate.
  injection Hcl as <- <-. exists s. repeat split; auto.
  - intros Hv. apply (nodup_In Nat.eq_dec) in Hv. rewrite E in Hv. now destruct Hv as [<-|[]].
  - cbn [cInd]. intros ->. apply (nodup_In Nat.eq_dec). rewrite E. now left.
Qed.
Lemma varIn_spec vs c : varIn P vs c = true <-> exists v, pVar P c = Some v /\ In v vs.
Proof.
  unfold varIn. destruct (pVar P c) as [v|]; [|split; [discriminate|intros (v & H & _); discriminate]].
  rewrite in_isIn_iff. split; [intros H; now exists v|intros (w & H1 & H2); now injection H1 as ->].
Qed.

(** each private cell has a reason *)
Inductive reason (c : nat) : Prop :=
| RLocal v (_ : pVar P c = Some v) (_ : In v (lLocals l))
| RList x i n t v (_ : pVar P c = Some v) (_ : nth_error (lNodes l) i = Some n) (_ : src n x v) (_ : In t (nMems n))
    (_ : coincides (mSearch t) v) (_ : pHome P c = (i, t)) (_ : ~ In v (lLocals l))
    (_ : match x with KPriv => In v (cPriv cl) | KLast => In v (cLast cl) | KFirst => In v (cFirst cl) | KRed k => In (k, v) (cRed cl) /\ mRed t = Some k | KInd => v = cInd cl | KDep => False end).
Lemma in_map_snd (v : nat) (xs : list (nat * nat)) : In v (map snd xs) -> exists k, In (k, v) xs.
Proof. intros H. apply in_map_iff in H as ([k w] & <- & H). now exists k. Qed.
Lemma priv_reason c : privOf P l cl c = true -> reason c.
Proof.
  intros H. apply varIn_spec in H as (v & Hv & Hin).
  destruct exploit_spec as (s & He & _ & _ & EI & EP & EL & EF & ER).
  destruct (evaluate_spec s He) as (_ & _ & _ & SR & _).
  assert (K : In v (lLocals l) \/ exists x, inK x v s /\ match x with KPriv => In v (cPriv cl) | KLast => In v (cLast cl) | KFirst => In v (cFirst cl) | KRed k => In (k, v) (cRed cl) | KInd => v = cInd cl | KDep => False end).
  { destruct Hin as [Hin|Hin]; [right; exists KInd; split; [now apply EI|now symmetry]|].
    apply in_app_or in Hin as [Hin|Hin]; [left; now apply filter_In in Hin|right].
    apply in_app_or in Hin as [Hin|Hin]; [exists KPriv; split; [cbn; congruence|exact Hin]|].
    apply in_app_or in Hin as [Hin|Hin]; [exists KLast; split; [cbn; congruence|exact Hin]|].
    apply in_app_or in Hin as [Hin|Hin]; [exists KFirst; split; [cbn; congruence|exact Hin]|].
    apply in_map_snd in Hin as [k Hin]. exists (KRed k). split; [cbn; congruence|exact Hin]. }
  destruct K as [K|(x & K1 & K2)]; [now apply (RLocal c v)|].
  destruct (SR x v K1) as (i & n & Hn & HS). pose proof HS as (Hc & Hs & HS').
  destruct (in_dec Nat.eq_dec v (lLocals l)) as [Hl|Hl]; [now apply (RLocal c v)|].
  assert (X : exists t, In t (nMems n) /\ coincides (mSearch t) v /\ match x with KRed k => mRed t = Some k | _ => True end).
  { destruct x; cbv beta iota in HS'.
    - destruct HS' as (_ & t & A & B & _). now exists t.
    - destruct HS' as (_ & _ & t & A & B & _). now exists t.
    - destruct HS' as (_ & _ & t & A & B & _). now exists t.
    - destruct HS' as (_ & t & A & B & C & _). now exists t.
    - destruct HS' as (_ & _ & t & A & [B|B]); [contradiction|]. now exists t.
    - contradiction. }
  destruct X as (t & X1 & X2 & X3).
  assert (Hh : pHome P c = (i, t)) by (apply (tWhole l P T i n t v c Hn Hc X1 X2); exact Hv).
  apply (RList c x i n t v); auto. destruct x; auto.
Qed.
Lemma red_unique c k v : pVar P c = Some v -> In (k, v) (cRed cl) -> redOf P cl c = Some k.
Proof.
  intros Hv Hin. unfold redOf. rewrite Hv.
  destruct (find (fun x => snd x =? v) (cRed cl)) as [[k' v']|] eqn:E.
  - apply find_some in E as [E1 E2]. cbn [snd] in E2. apply Nat.eqb_eq in E2. subst v'. cbn [option_map fst]. f_equal.
    destruct exploit_spec as (s & He & _ & _ & _ & _ & _ & _ & ER). destruct (evaluate_spec s He) as (_ & _ & _ & SR & _).
    rewrite ER in Hin, E1.
    destruct (SR (KRed k) v Hin) as (i & n & Hn & Hc & _ & _ & t & A & B & C & _).
    destruct (SR (KRed k') v E1) as (i' & n' & Hn' & Hc' & _ & _ & t' & A' & B' & C' & _).
    pose proof (proj1 (tWhole l P T i n t v c Hn Hc A C) Hv) as H1. pose proof (proj1 (tWhole l P T i' n' t' v c Hn' Hc' A' C') Hv) as H2.
    rewrite H1 in H2. injection H2 as _ <-. congruence.
  - exfalso. pose proof (find_none _ _ E _ Hin) as X. cbn [snd] in X. now rewrite Nat.eqb_refl in X.
Qed.
Lemma redOf_in c k : redOf P cl c = Some k -> exists v, pVar P c = Some v /\ In (k, v) (cRed cl).
Proof.
  unfold redOf. destruct (pVar P c) as [v|]; [|discriminate]. destruct (find _ _) as [[k' v']|] eqn:E; [|discriminate].
  apply find_some in E as [E1 E2]. cbn [snd] in E2. apply Nat.eqb_eq in E2. subst. cbn. intros [= <-]. now exists v.
Qed.
Lemma src_cov n x v : src n x v -> nCov n = true. Proof. intros H. apply H. Qed.

Lemma home_eq c i (t : memT) : pHome P c = (i, t) -> fst (pHome P c) = i /\ snd (pHome P c) = t.
Proof. intros ->. now split. Qed.

(** calls do not access private variables *)
Lemma ok_orig i e : i < pN P -> In e (pTrace P i) -> origOf e = true -> privOf P l cl (cellOf e) = false.
Proof.
  intros Hi He Ho. destruct (privOf P l cl (cellOf e)) eqn:Hp; [|reflexivity]. exfalso.
  assert (Hex : exists e', In e' (pTrace P i) /\ cellOf e' = cellOf e /\ origOf e' = true) by now exists e.
  destruct (tCalls l P T i (cellOf e) Hi Hex) as (C1 & C2 & j & nj & C3 & C4 & C5).
  destruct (priv_reason _ Hp) as [v Hv Hl|x i' n t v Hv Hn HS Ht Hw Hh Hl Hx]; [exact (C1 v Hv Hl)|].
  destruct (home_eq _ _ _ Hh) as [H1 H2]. rewrite H1 in C5. rewrite H2 in C2.
  destruct Hw as [Hw|Hw]; [exact (C2 v Hw)|].
  destruct exploit_spec as (s & He' & _ & _ & EI & EP & EL & EF & ER).
  destruct (evaluate_spec s He') as (_ & G & (h & Hhd) & SR & CO). specialize (CO i' n Hn).
  assert (NG : ~ In i' (sGlob s)).
  { intros Hg. unfold globalsOk in G. rewrite forallb_forall in G. specialize (G i' Hg). rewrite forallb_forall in G.
    specialize (G j (sideEffects_in (lNodes l) 0 j nj C3 C4)). now rewrite C5 in G. }
  assert (NL : forall y, located y i' (mSearch t) s -> False).
  { intros y [(w & W1 & W2)|[(w & W1 & W2 & W3 & W4)|W]].
    - rewrite Hw in W1. cbn in W1. injection W1 as <-. contradiction.
    - assert (w = v) by (rewrite Hw in W1; destruct W1 as [W1|W1]; congruence). subst w. exact (NG (W4 Hw)).
    - congruence. }
  destruct HS as (Hc & Hs & HS). specialize (CO Hc Hs).
  destruct (dInduction (nDesc n)) eqn:Di.
  { destruct (CO t Ht) as (w & W1 & _ & W3 & _). rewrite Hw in W3. cbn in W3. injection W3 as <-.
    apply (tHead l P T v i (cellOf e) W1 Hv Hi). exact Hex. }
  destruct (dPrivate (nDesc n)) eqn:Dp; [exact (NL _ (CO t Ht))|].
  destruct (dReduction (nDesc n)) eqn:Dr; [destruct (CO t Ht) as (k & _ & K); exact (NL _ K)|].
  destruct ((dAnti (nDesc n) || dFlow (nDesc n)) && negb (dOutput (nDesc n))) eqn:Dd.
  { destruct x; cbv beta iota in HS, Hx.
    - destruct HS as [HS _]. congruence.
    - destruct HS as [HS _]. discriminate.
    - destruct HS as [HS _]. discriminate.
    - destruct HS as [HS _]. congruence.
    - destruct HS as [HS _]. congruence.
    - contradiction. }
  destruct (CO t Ht) as [CO1 CO2]. destruct x; cbv beta iota in HS.
  - destruct HS as [HS _]. congruence.
  - destruct HS as (_ & HS & _). exact (NL _ (CO1 HS)).
  - destruct HS as (_ & HS & _). exact (NL _ (CO2 HS)).
  - destruct HS as [HS _]. congruence.
  - destruct HS as [HS _]. congruence.
  - contradiction.
Qed.

(** regular dependencies *)
Definition depOf (d : desc) : bool :=
  negb (dInduction d) && negb (dPrivate d) && negb (dReduction d) && (dAnti d || dFlow d).
Lemma no_output i n : nth_error (lNodes l) i = Some n -> nCov n = true -> dOutput (nDesc n) = false.
Proof.
  intros Hn Hc. destruct exploit_spec as (s & He & PL & ND & _).
  assert (NP : nodeParallel n = true).
  { unfold parallelLoop in PL. apply andb_true_iff in PL as [_ PL]. rewrite forallb_forall in PL. apply PL. exact (nth_error_In _ _ Hn). }
  unfold nodeParallel in NP. rewrite Hc in NP. cbn [negb] in NP.
  destruct (dOutput (nDesc n)); [|reflexivity]. destruct (dAddr (nDesc n)); discriminate.
Qed.
(** a memory with regular dependencies is registered *)
Lemma dep_in i n : nth_error (lNodes l) i = Some n -> nCov n = true -> shOf (nDesc n) = false -> depOf (nDesc n) = true ->
  exists t v, nMems n = [t] /\ distOk (mFlow t) && distOk (mAnti t) = true /\ varOfSearch (mSearch t) = Some v /\ In v deps.
Proof.
  intros Hn Hc Hs Dd.
  destruct exploit_spec as (s & He & PL & ND & _). destruct (evaluate_spec s He) as (_ & _ & _ & _ & CO). specialize (CO i n Hn Hc Hs).
  pose proof (no_output i n Hn Hc) as DO. unfold depOf in Dd. apply andb_true_iff in Dd as [Dd D4]. apply andb_true_iff in Dd as [Dd D3]. apply andb_true_iff in Dd as [D1 D2].
  apply negb_true_iff in D1, D2, D3. rewrite D1, D2, D3, D4, DO in CO. cbn [negb andb] in CO.
  assert (NP : nodeParallel n = true).
  { unfold parallelLoop in PL. apply andb_true_iff in PL as [_ PL]. rewrite forallb_forall in PL. apply PL. exact (nth_error_In _ _ Hn). }
  unfold nodeParallel in NP. rewrite Hc in NP. cbn [negb] in NP.
  destruct (tNodes l P T n (nth_error_In _ _ Hn)) as [Hne Hdist]. destruct (nMems n) as [|t0 ts]; [now destruct Hne|].
  destruct (dAddr (nDesc n) || dOutput (nDesc n) || dDynamic (nDesc n) && negb (dShared (nDesc n))); [discriminate|].
  unfold shOf in Hs. rewrite Hs in NP. cbn [negb] in NP. rewrite andb_true_r in NP.
  destruct (Nat.ltb_spec 1 (length (t0 :: ts))) as [Hl|Hl]; [discriminate|]. destruct ts as [|t1 ts]; [|cbn [length] in Hl; lia].
  apply andb_true_iff in NP as [NP NA]. apply andb_true_iff in NP as [_ NF]. destruct (Hdist t0 (or_introl eq_refl)) as [E1 E2].
  assert (DK : distOk (mFlow t0) && distOk (mAnti t0) = true).
  { apply andb_true_iff. split.
    - destruct (mFlow t0) as [b|]; [|reflexivity]. rewrite E1 in NF by discriminate. exact NF.
    - destruct (mAnti t0) as [b|]; [|reflexivity]. rewrite E2 in NA by discriminate. exact NA. }
  destruct (CO DK) as (w & W1 & W2). exists t0, w. split; [reflexivity|]. split; [exact DK|]. split; [exact W1|]. cbn in W2. now rewrite <- ND.
Qed.

(** located memory is private *)
Lemma located_priv s x i n t c : evaluate l = Some s -> nth_error (lNodes l) i = Some n -> nCov n = true -> shOf (nDesc n) = false -> In t (nMems n) ->
  pHome P c = (i, t) -> located x i (mSearch t) s -> x <> KDep -> x <> KInd ->
  (exists v, pVar P c = Some v /\ In v (lLocals l)) \/ (exists v, pVar P c = Some v /\ inK x v s) .
Proof.
  intros He Hn Hc Hs Ht Hh [(w & W1 & W2)|[(w & W1 & W2 & W3 & W4)|W]] _ _.
  - left. exists w. split; [|exact W2]. exact (tLocals l P T i n t w c Hn Hc Ht W1 W2 Hh).
  - right. exists w. split; [|exact W3]. now apply (tWhole l P T i n t w c Hn Hc Ht W1).
  - exfalso. exact (HU n t (nth_error_In _ _ Hn) Hc Hs Ht W).
Qed.
Lemma inK_priv s x v c : evaluate l = Some s -> inK x v s -> pVar P c = Some v -> x <> KDep -> privOf P l cl c = true.
Proof.
  intros He Hx Hv Hd. destruct exploit_spec as (s2 & He2 & _ & _ & EI & EP & EL & EF & ER). assert (s2 = s) by congruence. subst s2.
  apply varIn_spec. exists v. split; [exact Hv|]. destruct x; cbn in Hx.
  - right. apply in_or_app. right. apply in_or_app. left. congruence.
  - right. apply in_or_app. right. apply in_or_app. right. apply in_or_app. left. congruence.
  - right. apply in_or_app. right. apply in_or_app. right. apply in_or_app. right. apply in_or_app. left. congruence.
  - right. apply in_or_app. right. apply in_or_app. right. apply in_or_app. right. apply in_or_app. right. rewrite ER. apply in_map_iff. now exists (k, v).
  - left. symmetry. now apply EI.
  - contradiction.
Qed.
Lemma local_priv c v : pVar P c = Some v -> In v (lLocals l) -> privOf P l cl c = true.
Proof. intros Hv Hl. apply varIn_spec. exists v. split; [exact Hv|]. right. apply in_or_app. left. apply filter_In. split; [exact Hl|now apply HA]. Qed.

(** a cell which is not private is shared, or it has regular dependencies *)
Lemma ok_public j c : privOf P l cl c = false -> j < pN P -> accessed (pOp P) (pBody P) (pMem P) j c ->
  sharedCell (pOp P) (pBody P) (pMem P) (pN P) c \/
  exists k n t, pHome P c = (k, t) /\ nth_error (lNodes l) k = Some n /\ In t (nMems n) /\ nCov n = true /\ shOf (nDesc n) = false /\ depOf (nDesc n) = true.
Proof.
  intros Hp Hj Ha.
  destruct (tCover l P T j c Hj Ha) as (n & Hn & Ht & Hc).
  destruct (pHome P c) as [k t] eqn:Hh. cbn [fst snd] in Hn, Ht.
  assert (Ht' : In (snd (pHome P c)) (nMems n)) by (now rewrite Hh). assert (Hk : fst (pHome P c) = k) by now rewrite Hh.
  destruct (shOf (nDesc n)) eqn:Hs.
  { left. unfold shOf in Hs. apply orb_true_iff in Hs as [Hs|Hs].
    - exact (tShared l P T k n c Hn Hc Ht' Hk Hs).
    - intros i i' Hi Hi' _ W _. exact (tReadonly l P T k n c Hn Hc Ht' Hk Hs i Hi W). }
  destruct exploit_spec as (s & He & _). destruct (evaluate_spec s He) as (_ & _ & _ & _ & CO). pose proof (CO k n Hn Hc Hs) as C.
  assert (LP : forall x, located x k (mSearch t) s -> x <> KDep -> x <> KInd -> False).
  { intros x Hx X1 X2. destruct (located_priv s x k n t c He Hn Hc Hs Ht Hh Hx X1 X2) as [(v & V1 & V2)|(v & V1 & V2)].
    - rewrite (local_priv c v V1 V2) in Hp. discriminate.
    - rewrite (inK_priv s x v c He V2 V1 X1) in Hp. discriminate. }
  destruct (depOf (nDesc n)) eqn:Dd; [right; now exists k, n, t|]. exfalso. unfold depOf in Dd.
  destruct (dInduction (nDesc n)) eqn:Di.
  { destruct (C t Ht) as (w & W1 & W2 & W3 & [W4|W4]).
    - rewrite (local_priv c w) in Hp; [discriminate| |exact W4]. exact (tLocals l P T k n t w c Hn Hc Ht W3 W4 Hh).
    - rewrite (inK_priv s KInd w c He W2) in Hp; [discriminate| |discriminate]. now apply (tWhole l P T k n t w c Hn Hc Ht W4). }
  destruct (dPrivate (nDesc n)) eqn:Dp; [apply (LP _ (C t Ht)); discriminate|].
  destruct (dReduction (nDesc n)) eqn:Dr; [destruct (C t Ht) as (r & _ & K); apply (LP _ K); discriminate|].
  cbn [negb andb] in Dd. rewrite Dd in C. cbn [andb] in C. destruct (C t Ht) as [C1 _].
  assert (D2 : dSecond (nDesc n) = true).
  { apply (HL n (nth_error_In _ _ Hn) Hc). unfold handled. unfold shOf in Hs. rewrite Hs, Di, Dp, Dr. cbn [orb]. now rewrite Dd, (no_output k n Hn Hc). }
  apply (LP _ (C1 D2)); discriminate.
Qed.
Lemma ok_shared c : deps = [] -> privOf P l cl c = false -> sharedCell (pOp P) (pBody P) (pMem P) (pN P) c.
Proof.
  intros Hd Hp i j Hi Hj Hij W Ha.
  destruct (ok_public j c Hp Hj Ha) as [S|(k & n & t & _ & Hn & _ & Hc & Hs & Dd)]; [exact (S i j Hi Hj Hij W Ha)|].
  destruct (dep_in k n Hn Hc Hs Dd) as (_ & v & _ & _ & _ & Hv). rewrite Hd in Hv. destruct Hv.
Qed.
Lemma ok_private c : privOf P l cl c = true -> redOf P cl c = None -> privateCell (pOp P) (pBody P) (pMem P) (pN P) c.
Proof.
  intros Hp Hr. destruct (priv_reason c Hp) as [v Hv Hl|x i n t v Hv Hn HS Ht Hw Hh Hl Hx]; [exact (proj1 (tAuto l P T c v Hv Hl (HA v Hl)))|].
  destruct (home_eq _ _ _ Hh) as [H1 H2]. destruct HS as (Hc & Hs & HS).
  apply (tPrivate l P T i n c Hn Hc); [now rewrite H2|exact H1|].
  destruct x; cbv beta iota in HS, Hx.
  - destruct HS as [-> _]. now rewrite !orb_true_r.
  - destruct HS as (_ & -> & _). now rewrite !orb_true_r.
  - destruct HS as (_ & -> & _). now rewrite !orb_true_r.
  - destruct Hx as [Hx _]. rewrite (red_unique c k v Hv Hx) in Hr. discriminate.
  - destruct HS as [-> _]. reflexivity.
  - contradiction.
Qed.
Lemma ok_red c k : redOf P cl c = Some k -> reductionCell (pOp P) (pBody P) (pMem P) (pN P) k c.
Proof.
  intros Hr. destruct (redOf_in c k Hr) as (v & Hv & Hin).
  destruct exploit_spec as (s & He & _ & _ & _ & _ & _ & _ & ER). destruct (evaluate_spec s He) as (_ & _ & _ & SR & _).
  rewrite ER in Hin. destruct (SR (KRed k) v Hin) as (i & n & Hn & Hc & _ & Dr & t & A & B & C & _).
  pose proof (proj1 (tWhole l P T i n t v c Hn Hc A C) Hv) as Hh. destruct (home_eq _ _ _ Hh) as [H1 H2].
  apply (tReduction l P T i n c k Hn Hc); [now rewrite H2|exact H1|exact Dr|now rewrite H2].
Qed.
Lemma ok_redp c k : redOf P cl c = Some k -> privOf P l cl c = true.
Proof.
  intros Hr. destruct (redOf_in c k Hr) as (v & Hv & Hin). destruct exploit_spec as (s & He & _ & _ & _ & _ & _ & _ & ER). rewrite ER in Hin.
  apply (inK_priv s (KRed k) v c He Hin Hv). discriminate.
Qed.
Lemma ok_last c : varIn P (cLast cl) c = true -> privOf P l cl c = true.
Proof.
  intros H. apply varIn_spec in H as (v & Hv & Hin). destruct exploit_spec as (s & He & _ & _ & _ & _ & EL & _). rewrite EL in Hin.
  apply (inK_priv s KLast v c He Hin Hv). discriminate.
Qed.
Lemma head_ind : lHead l = Some (cInd cl).
Proof.
  destruct exploit_spec as (s & He & _ & _ & EI & _). destruct (evaluate_spec s He) as (_ & _ & _ & SR & _).
  destruct (SR KInd (cInd cl)) as (i & n & _ & _ & _ & _ & H & _); [now apply EI|]. exact H.
Qed.
Lemma ok_live c : pLive P c = true -> privOf P l cl c = true -> redOf P cl c = None ->
  varIn P (cLast cl) c = true /\ lastCell (pOp P) (pBody P) (pMem P) (pN P) c.
Proof.
  intros Hlv Hp Hr. destruct (priv_reason c Hp) as [v Hv Hl|x i n t v Hv Hn HS Ht Hw Hh Hl Hx].
  { rewrite (proj2 (tAuto l P T c v Hv Hl (HA v Hl))) in Hlv. discriminate. }
  destruct (home_eq _ _ _ Hh) as [H1 H2]. destruct HS as (Hc & Hs & HS).
  assert (Ht' : In (snd (pHome P c)) (nMems n)) by now rewrite H2.
  destruct x; cbv beta iota in HS, Hx.
  - rewrite (tDead l P T i n c Hn Hc Ht' H1 (proj1 HS)) in Hlv. discriminate.
  - split; [apply varIn_spec; now exists v|]. exact (tLast l P T i n c Hn Hc Ht' H1 (proj1 (proj2 HS)) Hlv).
  - destruct HS as (HB & HF & _). apply orb_false_iff in HB as [HB Dd]. apply orb_false_iff in HB as [HB Dr]. apply orb_false_iff in HB as [Di Dp].
    pose proof (no_output i n Hn Hc) as N2. rewrite N2 in Dd. cbn [negb] in Dd. rewrite andb_true_r in Dd. rename Dd into N1.
    assert (D2 : dSecond (nDesc n) = true).
    { apply (HL n (nth_error_In _ _ Hn) Hc). unfold handled. unfold shOf in Hs. rewrite Hs, Di, Dp, Dr. cbn [orb]. now rewrite N1, N2. }
    split; [|exact (tLast l P T i n c Hn Hc Ht' H1 D2 Hlv)].
    destruct exploit_spec as (s & He & _ & _ & _ & _ & EL & _). destruct (evaluate_spec s He) as (_ & _ & _ & _ & CO). pose proof (CO i n Hn Hc Hs) as C.
    rewrite Di, Dp, Dr, N1 in C. cbn [andb] in C. destruct (C t Ht) as [C1 _].
    destruct (C1 D2) as [(w & W1 & W2)|[(w & W1 & W2 & W3 & W4)|W]].
    + exfalso. apply Hl. assert (w = v) by (destruct Hw as [Hw|Hw]; rewrite Hw in W1; cbn in W1; congruence). now subst w.
    + apply varIn_spec. exists v. split; [exact Hv|]. rewrite EL. assert (w = v) by (destruct Hw as [Hw|Hw], W1 as [W1|W1]; congruence). now subst w.
    + destruct Hw as [Hw|Hw]; congruence.
  - destruct Hx as [Hx _]. rewrite (red_unique c k v Hv Hx) in Hr. discriminate.
  - subst v. rewrite (HH _ c head_ind Hv) in Hlv. discriminate.
  - contradiction.
Qed.
End Loop.

Lemma exploit_any l cl : exploitLoop l = Some cl -> exploitAny l = Some (cl, []).
Proof. unfold exploitLoop. destruct (exploitAny l) as [[cl' [|d ds]]|]; try discriminate. intros H. now injection H as ->. Qed.
Theorem parLoop_ok : C66_claim (fun l P => autoLocals l P /\ deadHead l P /\ lastKnown l /\ noUnknown l).
Proof.
  intros l P cl parts ts sh ts' Hcl0 T (HA & HH & HL & HU) HD HS Hst Hfin c Hlv.
  pose proof (exploit_any l cl Hcl0) as Hcl.
  rewrite (parallel_ok (pOp P) (pIdent P) (pBody P) (pMem P) (privOf P l cl) (redOf P cl) (pN P) (tOps l P T)
    (fun i e Hi He Ho => ok_orig l P T cl [] Hcl i e Hi He Ho)
    (fun c Hc => ok_shared l P T cl [] Hcl HA HL HU c eq_refl Hc)
    (fun c Hc Hr => ok_private l P T cl [] Hcl HA c Hc Hr)
    (fun c k Hr => ok_red l P T cl [] Hcl c k Hr)
    (fun c k Hr => ok_redp l P cl [] Hcl c k Hr)
    (varIn P (cFirst cl)) (varIn P (cLast cl)) parts ts sh ts' HD HS Hst Hfin
    (fun c Hc => ok_last l P cl [] Hcl c Hc) c
    (fun Hp Hr => ok_live l P T cl [] Hcl HA HH HL c Hlv Hp Hr)).
  unfold seqFinal. destruct (varIn P [cInd cl] c) eqn:E; [|reflexivity]. exfalso.
  apply varIn_spec in E as (v & Hv & [<-|[]]). rewrite (HH _ c (head_ind l cl [] Hcl) Hv) in Hlv. discriminate.
Qed.
