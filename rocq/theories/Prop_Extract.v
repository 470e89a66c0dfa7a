(** C77: each call is placed into a basic block of its own. *)
From Coq Require Import PeanoNat Bool List Lia.
From Verif Require Import ExtractModel ExtractSpec ExtractProof.
Import ListNotations.

Theorem C77_total : C77_total_claim.
Proof.
  intros fn _. exists (weight fn). apply loop_total. cbn [skipn]. lia.
Qed.
Print Assumptions C77_total.

Theorem C77_same : C77_same_claim.
Proof.
  intros m fn fuel fn' W H.
  destruct (loop_ok _ _ _ _ H (Forall_nil _)) as [SP _].
  destruct (splits_step _ _ W SP) as [W' S]. split; [exact W'|]. apply S.
Qed.
Print Assumptions C77_same.

Theorem C77_alone : C77_alone_claim.
Proof.
  intros fn fuel fn' _ H b c IB IC C.
  destruct (loop_ok _ _ _ _ H (Forall_nil _)) as [_ A].
  rewrite Forall_forall in A. exact (A b IB c IC C).
Qed.
Print Assumptions C77_alone.

(** A loop: PHI node, an operation, a call with a marker after it, the condition. *)
Definition ex : list block :=
  [ Block 1 [IOp 1; IOp 2] (TJump 2);
    Block 2 [IPhi [(1, 3); (2, 4)]; IOp 5; ICall false 6; IMark 7; ICall false 8] (TBr 9 [2; 3]);
    Block 3 [ICall true 10] (TRet 11) ].
Lemma ex_wf : wfFunction ex.
Proof.
  split.
  - cbn. repeat constructor; cbn; intuition discriminate.
  - intros b H p i q E PI j J. cbn in H.
    destruct H as [<-|[<-|[<-|[]]]]; cbn [bBody] in E;
      repeat (destruct p as [|? p]; cbn [app] in E;
        [injection E; intros; subst; cbn in PI; try discriminate; destruct J
        |injection E as <- E]);
      try (destruct p; discriminate E).
Qed.
Example C77_case : exists fn', runOnFunction 100 ex = Some fn' /\
  map bLabel fn' = [1; 2; 4; 5; 6; 3] /\
  map bBody fn' = [[IOp 1; IOp 2]; [IPhi [(1, 3); (6, 4)]; IOp 5]; [ICall false 6];
                   [IMark 7]; [ICall false 8]; [ICall true 10]].
Proof. eexists. split; [vm_compute; reflexivity|]. split; reflexivity. Qed.
(* an execution with two iterations *)
Definition counter : machine := Machine nat (fun _ n => S n) (fun _ n => if Nat.leb 10 n then 1 else 0).
Example C77_same_case : executes counter ex 0 [1; 2; 3; 5; 6; 7; 8; 9; 4; 5; 6; 7; 8; 9; 10; 11] 14.
Proof.
  cbn [executes ex bLabel bBody bTerm].
  do 2 (eapply r_instr; [reflexivity|]). eapply r_jump; [reflexivity|].
  do 5 (eapply r_instr; [reflexivity|]). eapply r_br; [reflexivity|reflexivity|].
  do 5 (eapply r_instr; [reflexivity|]). eapply r_br; [reflexivity|reflexivity|].
  eapply r_instr; [reflexivity|]. apply (r_ret counter).
Qed.

(** Markers: a part of the property. *)
Definition noMarkAfter (fn : list block) : Prop :=
  forall b p c x q, In b fn -> bBody b = p ++ c :: x :: q -> isCall c = true ->
    forall m, x <> IMark m.
Lemma noMark_ren ls a n b :
  (forall p c x q, bBody b = p ++ c :: x :: q -> isCall c = true -> forall m, x <> IMark m) ->
  forall p c x q, bBody (renameIn ls a n b) = p ++ c :: x :: q -> isCall c = true ->
    forall m, x <> IMark m.
Proof.
  intros H p c x q E C m EX. rewrite rename_body in E. unfold renBody in E.
  destruct (existsb (Nat.eqb (bLabel b)) ls); [|exact (H p c x q E C m EX)].
  apply map_eq_app in E. destruct E as (p' & r & E & _ & E2).
  apply map_eq_cons in E2. destruct E2 as (c' & r' & -> & <- & E2).
  apply map_eq_cons in E2. destruct E2 as (x' & q' & -> & <- & _).
  rewrite isCall_ren in C. destruct x'; try discriminate EX.
  exact (H p' c' _ q' E C _ eq_refl).
Qed.
Lemma useless_ren ls a n b : useless (renameIn ls a n b) -> useless b.
Proof.
  intros (c & is & E). rewrite rename_body in E. unfold renBody in E.
  destruct (existsb (Nat.eqb (bLabel b)) ls); [|now exists c, is].
  apply map_eq_cons in E. destruct E as (i & is' & E & E2 & _).
  destruct i; try discriminate E2. now exists code, is'.
Qed.
Lemma split_markers fn fn' : split fn fn' -> noMarkAfter fn ->
  noMarkAfter fn' /\
  forall b, In b fn' -> useless b -> exists b0, In b0 fn /\ useless b0 /\ bLabel b = bLabel b0.
Proof.
  intros H NM. destruct H as [Pre b0 Post j x y p q E J C].
  destruct (split_parts b0 (p ++ [x]) (y :: q) j E J) as [F S].
  assert (I0 : In b0 (Pre ++ b0 :: Post)) by (apply in_or_app; right; now left).
  unfold splitBlock. cbv zeta. rewrite F, S.
  set (ren := renameIn _ _ _). set (N := fresh _).
  assert (X : forall b, In b (map ren (Pre ++ Block (bLabel b0) (p ++ [x]) (TJump N)
      :: Block N (y :: q) (bTerm b0) :: Post)) ->
    exists b1, b = ren b1 /\ (In b1 (Pre ++ b0 :: Post) \/
      b1 = Block (bLabel b0) (p ++ [x]) (TJump N) \/ b1 = Block N (y :: q) (bTerm b0))).
  { intros b IB. apply in_map_iff in IB. destruct IB as (b1 & <- & IB). exists b1.
    split; [reflexivity|]. apply in_app_or in IB.
    destruct IB as [IB|[<-|[<-|IB]]]; auto; left; apply in_or_app; [now left|right; now right]. }
  split.
  - intros b r c z s IB. destruct (X b IB) as (b1 & -> & Y). apply noMark_ren.
    destruct Y as [Y|[->| ->]].
    + intros p1 c1 x1 q1. exact (NM b1 p1 c1 x1 q1 Y).
    + intros p1 c1 x1 q1 E1. cbn [bBody] in E1. apply (NM b0 p1 c1 x1 (q1 ++ y :: q) I0).
      rewrite E, E1, <- app_assoc. reflexivity.
    + intros p1 c1 x1 q1 E1. cbn [bBody] in E1. apply (NM b0 ((p ++ [x]) ++ p1) c1 x1 q1 I0).
      rewrite E, E1, <- !app_assoc. reflexivity.
  - intros b IB U. destruct (X b IB) as (b1 & -> & Y). apply useless_ren in U.
    unfold ren. rewrite rename_label. destruct Y as [Y|[->| ->]].
    + exists b1. auto.
    + exists b0. split; [exact I0|]. split; [|reflexivity].
      destruct U as (c & is & U). cbn [bBody] in U. unfold useless. rewrite E, U.
      cbn [app]. eauto.
    + exfalso. destruct U as (c & is & U). cbn [bBody] in U. injection U as -> _.
      destruct C as [C|C]; [|discriminate C].
      apply (NM b0 p x (IMark c) q I0) with (m := c); [|exact C|reflexivity].
      rewrite E, <- app_assoc. reflexivity.
Qed.
Theorem C77_markers_partial : C77_markers_claim true.
Proof.
  intros fn fuel fn' W H G. specialize (G eq_refl).
  destruct (loop_ok _ _ _ _ H (Forall_nil _)) as [SP _]. clear H W.
  assert (NM : noMarkAfter fn) by exact G. clear G.
  induction SP as [fn|fn fn1 fn2 S1 S2 IH].
  - intros b IB U. eauto.
  - destruct (split_markers _ _ S1 NM) as [NM1 M]. intros b IB U.
    destruct (IH NM1 b IB U) as (b1 & IB1 & U1 & L1).
    destruct (M b1 IB1 U1) as (b0 & IB0 & U0 & L0). exists b0. split; [exact IB0|].
    split; [exact U0|congruence].
Qed.
Print Assumptions C77_markers_partial.
Example C77_markers_case : exists fn', runOnFunction 100
    [Block 1 [IMark 1; ICall false 2; IOp 3] (TRet 4)] = Some fn' /\
  map bBody fn' = [[IMark 1]; [ICall false 2]; [IOp 3]].
Proof. eexists. split; [vm_compute; reflexivity|reflexivity]. Qed.
(** The instruction which is checked is always the call. *)
Theorem C77_markers_refuted : ~ C77_markers_claim false.
Proof.
  intro H.
  assert (W : wfFunction [Block 1 [ICall false 2; IMark 3] (TRet 4)]).
  { split; [repeat constructor; intros []|]. intros b [<-|[]] p i q E PI j J. cbn [bBody] in E.
    destruct p as [|? [|? p]]; cbn [app] in E; injection E; intros; subst;
      try discriminate PI; try (destruct p; discriminate). }
  destruct (runOnFunction 100 [Block 1 [ICall false 2; IMark 3] (TRet 4)]) as [fn'|] eqn:E;
    [|discriminate E].
  specialize (H _ _ _ W E ltac:(discriminate)). vm_compute in E. injection E as <-.
  destruct (H (Block 2 [IMark 3] (TRet 4))) as (b0 & [<-|[]] & (c & is & U) & _).
  - right. now left.
  - now exists 3, [].
  - discriminate U.
Qed.
Print Assumptions C77_markers_refuted.

(** Musttail calls: a part of the property. *)
Lemma split_tail fn fn' : split fn fn' -> tailOk true fn -> tailOk true fn'.
Proof.
  intros H TO. destruct H as [Pre b0 Post j x y p q E J C].
  destruct (split_parts b0 (p ++ [x]) (y :: q) j E J) as [F S].
  assert (I0 : In b0 (Pre ++ b0 :: Post)) by (apply in_or_app; right; now left).
  unfold splitBlock. cbv zeta. rewrite F, S.
  set (ren := renameIn _ _ _). set (N := fresh _).
  intros b r c s IB EB. apply in_map_iff in IB. destruct IB as (b1 & <- & IB).
  unfold ren in *. rewrite rename_term. rewrite rename_body in EB.
  assert (EB1 : exists r1 s1, bBody b1 = r1 ++ ICall true c :: s1 /\ (s1 = [] -> s = [])).
  { unfold renBody in EB. destruct (existsb (Nat.eqb (bLabel b1)) (succs (bTerm b0))).
    - apply map_eq_app in EB. destruct EB as (r1 & z & EB & _ & E2).
      apply map_eq_cons in E2. destruct E2 as (c1 & s1 & -> & EC & <-).
      exists r1, s1. split; [|now intros ->]. rewrite EB.
      destruct c1; try discriminate EC. now rewrite <- EC.
    - exists r, s. auto. }
  destruct EB1 as (r1 & s1 & EB1 & SS).
  assert (K : (exists r0, bTerm b1 = TRet r0) /\ s1 = []).
  { apply in_app_or in IB. destruct IB as [IB|[<-|[<-|IB]]].
    - destruct (TO b1 r1 c s1) as [T1 [T2|[T2 _]]]; [apply in_or_app; now left|exact EB1|auto|discriminate].
    - cbn [bBody] in EB1. exfalso.
      destruct (TO b0 r1 c (s1 ++ y :: q) I0) as [_ [T2|[T2 _]]]; [|destruct s1; discriminate T2|discriminate].
      rewrite E, EB1, <- app_assoc. reflexivity.
    - cbn [bBody bTerm] in *.
      destruct (TO b0 ((p ++ [x]) ++ r1) c s1 I0) as [T1 [T2|[T2 _]]]; [|auto|discriminate].
      rewrite E, EB1, <- !app_assoc. reflexivity.
    - destruct (TO b1 r1 c s1) as [T1 [T2|[T2 _]]];
        [apply in_or_app; right; now right|exact EB1|auto|discriminate]. }
  destruct K as [K1 K2]. split; [exact K1|]. left. exact (SS K2).
Qed.
Theorem C77_tail_partial : C77_tail_claim true.
Proof.
  intros fn fuel fn' W H TO.
  destruct (loop_ok _ _ _ _ H (Forall_nil _)) as [SP _]. clear H W.
  induction SP as [fn|fn fn1 fn2 S1 S2 IH]; [exact TO|]. apply IH. exact (split_tail _ _ S1 TO).
Qed.
Print Assumptions C77_tail_partial.
Example C77_tail_case : tailOk true ex.
Proof.
  intros b p c q IB E. cbn in IB.
  destruct IB as [<-|[<-|[<-|[]]]]; cbn [bBody bTerm] in *;
    repeat (destruct p as [|? p]; cbn [app] in E;
      [injection E; intros; subst; try discriminate; eauto|injection E as <- E]);
    try (destruct p; discriminate E); try discriminate E.
Qed.
(** A result of a musttail call is cast before it is returned. *)
Theorem C77_tail_refuted : ~ C77_tail_claim false.
Proof.
  intro H.
  assert (W : wfFunction [Block 1 [ICall true 2; IOp 3] (TRet 4)]).
  { split; [repeat constructor; intros []|]. intros b [<-|[]] p i q E PI j J. cbn [bBody] in E.
    destruct p as [|? [|? p]]; cbn [app] in E; injection E; intros; subst;
      try discriminate PI; try (destruct p; discriminate). }
  destruct (runOnFunction 100 [Block 1 [ICall true 2; IOp 3] (TRet 4)]) as [fn'|] eqn:E;
    [|discriminate E].
  assert (T : tailOk false [Block 1 [ICall true 2; IOp 3] (TRet 4)]).
  { intros b p c q [<-|[]] E2. cbn [bBody bTerm] in *. split; [eauto|]. right. split; [reflexivity|].
    destruct p as [|? [|? p]]; cbn [app] in E2; injection E2; intros; subst; try discriminate;
      [eauto|destruct p; discriminate]. }
  specialize (H _ _ _ W E T). vm_compute in E. injection E as <-.
  destruct (H _ [] 2 [] (or_introl eq_refl) eq_refl) as [[r Q] _]. discriminate Q.
Qed.
Print Assumptions C77_tail_refuted.
