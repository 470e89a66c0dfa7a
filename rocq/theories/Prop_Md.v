(** C69: variables which are reported as holding a value do hold it *)
From Coq Require Import List Bool Arith ZArith Lia.
From Verif Require Import MdModel MdSpec MdProof.
Import ListNotations.

Theorem C69_holds_partial : C69_claim (Conds true true true).
Proof.
  intros mem f domB V users l u h s W D DF (C1 & C2 & C3) Hl Hu E.
  apply (findMetadata_ok mem f domB V users l u h s W D DF); try assumption.
  - intros d Hd. pose proof (C1 eq_refl d) as P. pose proof (C2 eq_refl d Hd) as Q.
    destruct (dOp d) as [|z|]; [reflexivity| |congruence]. destruct (P z Hd eq_refl).
  - exact (C3 eq_refl).
Qed.
Print Assumptions C69_holds_partial.
Theorem C69_all_partial : C69_all_claim (Conds true true true) noPhiUse.
Proof.
  intros mem f domB V l u h s W D DF C NP Hl Hu E.
  refine (C69_holds_partial mem f domB V (usersOf f V) l u h s W D DF C Hl _ E).
  exact (usersOf_in f V u h W NP (exec_path _ _ _ _ _ E) Hu).
Qed.
Print Assumptions C69_all_partial.
Theorem C69_first : C69_first_claim.
Proof. exact findMetadata_first. Qed.
Print Assumptions C69_first.
Theorem C69_found : C69_found_claim.
Proof. exact findMetadata_found. Qed.
Print Assumptions C69_found.
(** The walk over predecessors always terminates: the model never runs out of fuel *)
Theorem C69_terminates : forall f V l dom b, walk f (S (length f)) V l dom [b] [] <> None.
Proof. intros f V l dom b. apply walk_fuel; [constructor|easy|cbn [length]; lia]. Qed.
Print Assumptions C69_terminates.
(** Fragments are reported as aliases if and only if they have a common bit *)
Theorem C69_fragments : forall a b, (b = None -> forall n, a <> Some (n, 0)) -> (a = None -> forall n, b <> Some (n, 0)) ->
  (mayAliasFragments a b = true <-> overlap a b).
Proof. intros a b A B. split; [intros H; apply mayAlias_exact; assumption|apply mayAlias_ok]. Qed.
Print Assumptions C69_fragments.
Example C69_fragments_example : overlap (Some (0, 32)) (Some (16, 32)) /\ ~ overlap (Some (0, 32)) (Some (32, 32)).
Proof. split; [exists 20; cbn; lia|intros (k & A & B); cbn in A, B; lia]. Qed.

(** ** Examples: a dominator tree is a list of pairs *)
Definition domL (t : list (nat * nat)) (a b : nat) : bool := existsb (fun e => (fst e =? a) && (snd e =? b)) t.
Definition domCheck (f : func) (t : list (nat * nat)) : bool :=
  forallb (fun e => negb (snd e =? 0) && forallb (fun c => (c =? fst e) || domL t (fst e) c) (preds f (snd e))) t.
Lemma domL_in t a b : domL t a b = true <-> In (a, b) t.
Proof.
  unfold domL. rewrite existsb_exists. split.
  - intros ([x y] & A & B). cbn in B. apply andb_true_iff in B. destruct B as [B C]. apply Nat.eqb_eq in B, C. now subst.
  - intros H. exists (a, b). split; [exact H|]. cbn. now rewrite !Nat.eqb_refl.
Qed.
Lemma domL_ok f t : wf f -> domCheck f t = true -> domOk f (domL t).
Proof.
  intros W C a b h i D N P. unfold domCheck in C. rewrite forallb_forall in C.
  remember (b, i) as p eqn:E. revert b i D N E. induction P as [|h b0 i0 is P IH A|h b0 i0 c P IH A B L]; intros b i D N E; injection E as <- <-.
  - apply domL_in in D. specialize (C (a, 0) D). cbn in C. discriminate.
  - destruct (IH b0 i0 D N eq_refl) as (j & J). exists j. right. exact J.
  - destruct (Nat.eq_dec b0 a) as [->|NE]; [exists i0; left; reflexivity|].
    apply domL_in in D. specialize (C (a, c) D). cbn [fst snd] in C. apply andb_true_iff in C. destruct C as [_ C].
    rewrite forallb_forall in C. subst i0. specialize (C b0 (path_preds _ _ _ _ W P B)).
    apply orb_true_iff in C. destruct C as [C|C]; [apply Nat.eqb_eq in C; contradiction|].
    destruct (IH b0 _ C (fun G => NE (eq_sym G)) eq_refl) as (j & J). exists j. right. exact J.
Qed.
Definition definesb (n : nat) (i : inst) : bool := match i with IDef m _ | IPhi m _ => m =? n | _ => false end.
Definition defCheck (f : func) (domB : nat -> nat -> bool) (n : nat) : bool :=
  forallb (fun b => forallb (fun j =>
    match instAt f (b, j) with
    | Some i => negb (definesb n i) ||
        forallb (fun e : pos * dbg => negb (value_eqb (dVal (snd e)) (VReg n)) || domI domB (b, j) (fst e)) (allDbgs f)
    | None => true
    end) (seq 0 (length (bIns (blk f b))))) (seq 0 (length f)).
Lemma defCheck_ok f domB n : wf f -> domOk f domB -> defCheck f domB n = true -> defFirst f (VReg n).
Proof.
  intros W D C m [b j] i e d h EV Ei Di Ee Ed P. injection EV as <-.
  unfold defCheck in C. rewrite forallb_forall in C.
  specialize (C b (proj2 (in_seq _ _ _) (conj (Nat.le_0_l b) (instAt_block _ _ _ _ Ei)))).
  rewrite forallb_forall in C.
  assert (L : j < length (bIns (blk f b))) by (apply nth_error_Some; unfold instAt in Ei; cbn [fst snd] in Ei; congruence).
  specialize (C j (proj2 (in_seq _ _ _) (conj (Nat.le_0_l j) L))). cbn beta in C. rewrite Ei in C.
  apply orb_true_iff in C. destruct C as [C|C].
  - exfalso. apply negb_true_iff in C. destruct i; cbn in Di, C; try contradiction; subst; rewrite Nat.eqb_refl in C; discriminate.
  - rewrite forallb_forall in C. specialize (C (e, d) (proj2 (allDbgs_in f e d) Ee)). cbn [fst snd] in C.
    rewrite Ed in C. cbn [value_eqb] in C. rewrite Nat.eqb_refl in C. cbn [negb orb] in C.
    apply (domI_sound f domB (b, j) e h i W D C Ei P).
Qed.
Definition condsCheck (X : conds) (f : func) : bool :=
  forallb (fun e : pos * dbg => match dOp (snd e) with OpNone => true | OpPlus _ => negb (xPlus X) | OpDeref => negb (xDeref X) end
    && forallb (fun g : pos * dbg => negb (xFrag X) || negb (dVar (snd e) =? dVar (snd g))
         || negb (mayAliasFragments (dFrag (snd e)) (dFrag (snd g))) || frag_eqb (dFrag (snd e)) (dFrag (snd g))) (allDbgs f)) (allDbgs f).
Lemma condsCheck_ok X f : condsCheck X f = true -> condsOk X f.
Proof.
  intros C. unfold condsCheck in C. rewrite forallb_forall in C.
  assert (G : forall d, dbgIn f d -> exists p, In (p, d) (allDbgs f)) by (intros d (p & Hp); exists p; now apply allDbgs_in).
  split; [|split].
  - intros Hx d z Hd Ez. destruct (G d Hd) as (p & Hp). specialize (C (p, d) Hp). cbn [snd] in C. rewrite Ez, Hx in C. discriminate.
  - intros Hx d Hd Ez. destruct (G d Hd) as (p & Hp). specialize (C (p, d) Hp). cbn [snd] in C. rewrite Ez, Hx in C. discriminate.
  - intros Hx d e Hd He Ev Ov. destruct (G d Hd) as (p & Hp), (G e He) as (q & Hq). specialize (C (p, d) Hp). cbn [snd] in C.
    apply andb_true_iff in C. destruct C as [_ C]. rewrite forallb_forall in C. specialize (C (q, e) Hq). cbn [snd] in C.
    rewrite Hx, Ev, Nat.eqb_refl, (mayAlias_ok _ _ Ov) in C. cbn [negb orb] in C. now apply frag_eqb_eq.
Qed.

(** A loop: the value is described for two variables before the loop, one of them obtains other values
    inside of the loop *)
Definition loopF : func :=
  [Block [IDef 0 []; IDbg (Dbg (VReg 0) 1 OpNone (Some (0, 32))); IDbg (Dbg (VConst 5) 1 OpNone (Some (32, 32))); IDbg (Dbg (VReg 0) 2 OpNone None)] [] [1];
   Block [IUse [VReg 0]] [VReg 0] [2; 3];
   Block [IDef 1 [VReg 0]; IDbg (Dbg (VReg 1) 2 OpNone None)] [] [1];
   Block [IUse [VReg 0]; IDbg (Dbg (VReg 0) 2 OpNone None); IUse [VReg 0]] [] []].
Definition loopT : list (nat * nat) := [(0, 1); (0, 2); (0, 3); (1, 2); (1, 3)].
Example C69_example :
  wf loopF /\ domOk loopF (domL loopT) /\ defFirst loopF (VReg 0) /\ condsOk (Conds true true true) loopF /\ noPhiUse loopF (VReg 0) /\
  findMetadata loopF (domL loopT) (VReg 0) [(1, 0); (3, 0)] = ([Loc 1 (Some (0, 32))], Some (Loc 1 (Some (0, 32)))) /\
  fst (findMetadata loopF (domL loopT) (VReg 0) [(3, 2)]) = [Loc 1 (Some (0, 32)); Loc 2 None] /\
  snd (findMetadata loopF (domL loopT) (VReg 0) [(3, 2)]) = Some (Loc 1 (Some (0, 32))) /\
  usersOf loopF (VReg 0) = [(1, 0); (1, 1); (2, 0); (3, 0); (3, 2)] /\
  fst (findMetadataAll loopF (domL loopT) (VReg 0)) = [Loc 1 (Some (0, 32))] /\
  exists mem h s, exec mem loopF h (3, 2) s /\ In (2, 1) h.
Proof.
  assert (W : wf loopF) by (unfold wf; cbn; lia).
  assert (D : domOk loopF (domL loopT)) by (apply domL_ok; [exact W|reflexivity]).
  split; [exact W|]. split; [exact D|]. split; [apply (defCheck_ok _ (domL loopT)); [exact W|exact D|reflexivity]|].
  split; [apply condsCheck_ok; reflexivity|].
  split. { intros [b j] n inc c H. unfold instAt, blk in H. destruct b as [|[|[|[|b]]]]; cbn in H; try (destruct b; cbn in H); repeat (destruct j as [|j]; cbn in H; try discriminate H). }
  repeat (split; [reflexivity|]).
  exists (fun z => z).
  eexists; eexists; split.
  - eapply ex_inst; [|reflexivity|apply st_dbg]. eapply ex_inst; [|reflexivity|apply st_use].
    eapply ex_jump with (b := 1); [|reflexivity|cbn; auto|cbn; lia]. eapply ex_inst; [|reflexivity|apply st_use].
    eapply ex_jump with (b := 2); [|reflexivity|cbn; auto|cbn; lia].
    eapply ex_inst; [|reflexivity|apply st_dbg]. eapply ex_inst; [|reflexivity|apply (st_def _ _ _ 9)].
    eapply ex_jump with (b := 1); [|reflexivity|cbn; auto|cbn; lia]. eapply ex_inst; [|reflexivity|apply st_use].
    eapply ex_jump with (b := 0); [|reflexivity|cbn; auto|cbn; lia].
    eapply ex_inst; [|reflexivity|apply st_dbg]. eapply ex_inst; [|reflexivity|apply st_dbg].
    eapply ex_inst; [|reflexivity|apply st_dbg]. eapply ex_inst; [|reflexivity|apply (st_def _ _ _ 4)].
    apply (ex_start _ _ (State (fun _ => 0%Z) (fun _ _ => None))).
  - cbn. tauto.
Qed.
(** Hypotheses of [C69_first] and [C69_found] *)
Example C69_first_example : exists p d,
  instAt loopF p = Some (IDbg d) /\ dVal d = VReg 0 /\ hasDeref d = false /\ getLoc d = Loc 2 None /\
  (forall u, In u [(3, 2)] -> domI (domL loopT) p u = true) /\ exists h, path loopF h p.
Proof.
  exists (0, 3), (Dbg (VReg 0) 2 OpNone None). repeat split.
  - intros u [<-|[]]. reflexivity.
  - eexists. repeat (eapply pa_inst; [|reflexivity]). apply pa_start.
Qed.
Example C69_found_example : exists p d,
  instAt loopF p = Some (IDbg d) /\ dVal d = VConst 5 /\ dOp d <> OpDeref /\ getLoc d = Loc 1 (Some (32, 32)) /\
  (forall u, In u [(1, 0)] -> domI (domL loopT) p u = true) /\
  In (Loc 1 (Some (32, 32))) (fst (findMetadata loopF (domL loopT) (VConst 5) [(1, 0)])).
Proof.
  exists (0, 2), (Dbg (VConst 5) 1 OpNone (Some (32, 32))). repeat split; try discriminate.
  - intros u [<-|[]]. reflexivity.
  - cbn. auto.
Qed.

(** ** Refutations *)
Definition memo (z : Z) : Z := 7%Z.
Definition s0 : state := State (fun _ => 0%Z) (fun _ _ => None).
(** An expression with an operation: the variable is [V + 1] *)
Definition plusF : func := [Block [IDef 0 []; IDbg (Dbg (VReg 0) 1 (OpPlus 1) None); IUse [VReg 0]] [] []].
Theorem C69_operation_refuted : ~ C69_claim (Conds false true true).
Proof.
  intros H.
  assert (W : wf plusF) by (unfold wf; cbn; lia).
  assert (D : domOk plusF (domL [])) by (apply domL_ok; [exact W|reflexivity]).
  assert (DF : defFirst plusF (VReg 0)) by (apply (defCheck_ok _ (domL [])); [exact W|exact D|reflexivity]).
  assert (E : exec memo plusF [(0, 1); (0, 0)] (0, 2) (setVar memo (Dbg (VReg 0) 1 (OpPlus 1) None) (setReg 0 3 s0))).
  { eapply ex_inst; [|reflexivity|apply st_dbg]. eapply ex_inst; [|reflexivity|apply (st_def _ _ _ 3)]. apply ex_start. }
  pose proof (H memo plusF (domL []) (VReg 0) [(0, 2)] (Loc 1 None) (0, 2) _ _ W D DF (condsCheck_ok (Conds false true true) plusF eq_refl)
    (or_introl eq_refl) (or_introl eq_refl) E 0 Logic.I) as G.
  cbv in G. discriminate.
Qed.
Print Assumptions C69_operation_refuted.
(** An expression with a dereference *)
Definition derefF : func :=
  [Block [IDef 0 []; IDbg (Dbg (VReg 0) 1 OpNone None); IDbg (Dbg (VConst 8) 1 OpDeref None); IUse [VReg 0]] [] []].
Theorem C69_deref_refuted : ~ C69_claim (Conds true false true).
Proof.
  intros H.
  assert (W : wf derefF) by (unfold wf; cbn; lia).
  assert (D : domOk derefF (domL [])) by (apply domL_ok; [exact W|reflexivity]).
  assert (DF : defFirst derefF (VReg 0)) by (apply (defCheck_ok _ (domL [])); [exact W|exact D|reflexivity]).
  assert (E : exec memo derefF [(0, 2); (0, 1); (0, 0)] (0, 3) (setVar memo (Dbg (VConst 8) 1 OpDeref None) (setVar memo (Dbg (VReg 0) 1 OpNone None) (setReg 0 3 s0)))).
  { eapply ex_inst; [|reflexivity|apply st_dbg]. eapply ex_inst; [|reflexivity|apply st_dbg].
    eapply ex_inst; [|reflexivity|apply (st_def _ _ _ 3)]. apply ex_start. }
  pose proof (H memo derefF (domL []) (VReg 0) [(0, 3)] (Loc 1 None) (0, 3) _ _ W D DF (condsCheck_ok (Conds true false true) derefF eq_refl)
    (or_introl eq_refl) (or_introl eq_refl) E 0 Logic.I) as G.
  cbv in G. discriminate.
Qed.
Print Assumptions C69_deref_refuted.
(** A part of the variable obtains another value in the block of the user *)
Definition fragF : func :=
  [Block [IDef 0 []; IDbg (Dbg (VReg 0) 1 OpNone None); IDbg (Dbg (VConst 8) 1 OpNone (Some (0, 16))); IUse [VReg 0]] [] []].
Theorem C69_fragment_refuted : ~ C69_claim (Conds true true false).
Proof.
  intros H.
  assert (W : wf fragF) by (unfold wf; cbn; lia).
  assert (D : domOk fragF (domL [])) by (apply domL_ok; [exact W|reflexivity]).
  assert (DF : defFirst fragF (VReg 0)) by (apply (defCheck_ok _ (domL [])); [exact W|exact D|reflexivity]).
  assert (E : exec memo fragF [(0, 2); (0, 1); (0, 0)] (0, 3) (setVar memo (Dbg (VConst 8) 1 OpNone (Some (0, 16))) (setVar memo (Dbg (VReg 0) 1 OpNone None) (setReg 0 3 s0)))).
  { eapply ex_inst; [|reflexivity|apply st_dbg]. eapply ex_inst; [|reflexivity|apply st_dbg].
    eapply ex_inst; [|reflexivity|apply (st_def _ _ _ 3)]. apply ex_start. }
  pose proof (H memo fragF (domL []) (VReg 0) [(0, 3)] (Loc 1 None) (0, 3) _ _ W D DF (condsCheck_ok (Conds true true false) fragF eq_refl)
    (or_introl eq_refl) (or_introl eq_refl) E 0 Logic.I) as G.
  cbv in G. discriminate.
Qed.
Print Assumptions C69_fragment_refuted.
(** The value is used in a phi-node, the variable obtains another value in the incoming block: the end of
    the block with the definition is checked instead of the end of the incoming block *)
Definition phiF : func :=
  [Block [IDef 0 []; IDbg (Dbg (VReg 0) 1 OpNone None)] [] [1];
   Block [IDbg (Dbg (VConst 8) 1 OpNone None)] [] [2];
   Block [IPhi 2 [(1, VReg 0)]] [] []].
Theorem C69_phi_refuted : ~ C69_all_claim (Conds true true true) (fun _ _ => True).
Proof.
  intros H.
  assert (W : wf phiF) by (unfold wf; cbn; lia).
  assert (D : domOk phiF (domL [(0, 1); (0, 2); (1, 2)])) by (apply domL_ok; [exact W|reflexivity]).
  assert (DF : defFirst phiF (VReg 0)) by (apply (defCheck_ok _ (domL [(0, 1); (0, 2); (1, 2)])); [exact W|exact D|reflexivity]).
  assert (E : exec memo phiF [(1, 0); (0, 2); (0, 1); (0, 0)] (1, 1) (setVar memo (Dbg (VConst 8) 1 OpNone None) (setVar memo (Dbg (VReg 0) 1 OpNone None) (setReg 0 3 s0)))).
  { eapply ex_inst; [|reflexivity|apply st_dbg]. eapply ex_jump with (b := 0); [|reflexivity|cbn; auto|cbn; lia].
    eapply ex_inst; [|reflexivity|apply st_dbg]. eapply ex_inst; [|reflexivity|apply (st_def _ _ _ 3)]. apply ex_start. }
  assert (U : usedAt phiF (VReg 0) (1, 1)).
  { apply (ua_phi phiF (VReg 0) (2, 0) 2 [(1, VReg 0)] 1); [reflexivity|left; reflexivity]. }
  pose proof (H memo phiF (domL [(0, 1); (0, 2); (1, 2)]) (VReg 0) (Loc 1 None) (1, 1) _ _ W D DF (condsCheck_ok (Conds true true true) phiF eq_refl)
    Logic.I (or_introl eq_refl) U E 0 Logic.I) as G.
  cbv in G. discriminate.
Qed.
Print Assumptions C69_phi_refuted.
