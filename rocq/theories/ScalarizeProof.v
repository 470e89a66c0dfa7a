(** Proofs about the promotion of a pointer to a register (C57). *)
From Coq Require Import ZArith List Bool Lia.
From Verif Require Import ScalarizeModel ScalarizeSpec.
Import ListNotations.
Local Open Scope Z_scope.

Lemma upd_eq {T} (m : nat -> T) k v : upd m k v k = v.
Proof. unfold upd. rewrite Nat.eqb_refl. reflexivity. Qed.
Lemma upd_ne {T} (m : nat -> T) k v x : k <> x -> upd m k v x = m x.
Proof. intros H. unfold upd. destruct (Nat.eqb_spec k x); [contradiction|reflexivity]. Qed.
Lemma lvalEq_eq a b : lvalEq a b = true -> a = b.
Proof.
  destruct a, b; cbn [lvalEq]; try discriminate; try reflexivity; intros H.
  - apply Nat.eqb_eq in H. congruence.
  - apply Nat.eqb_eq in H. congruence.
  - apply Z.eqb_eq in H. congruence.
Qed.

Section C.
Variable C : cfg.
Hypothesis SH : loopShape C.
Let pre_out := sh_pre C SH.

(** ** Insertion of phi nodes *)
Definition linkRight (links : phiLinks) : Prop :=
  forall B q, links B = Some q -> q <> B -> exists p, preds C B = [p] /\ inL C p = true.
Definition lclosed (links : phiLinks) (X : nat) : Prop := forall s, In s (succs C X) -> inL C s = true -> links s <> None.
Lemma insertPhiNodes_spec : forall fuel B links links', insertPhiNodes C fuel B links = Some links' -> inL C B = true -> linkRight links ->
  linkRight links' /\ (forall X, links X <> None -> links' X <> None) /\ links' B <> None /\
  (forall X, links' X <> None -> links X = None -> lclosed links' X).
Proof.
  induction fuel as [|fuel IH]; intros B links links' H HB HR; cbn [insertPhiNodes] in H; [discriminate|].
  rewrite HB in H. destruct (links B) as [q|] eqn:EB.
  { injection H as <-. repeat split; auto; congruence. }
  set (l0 := upd links B (Some (linkOf C links B))) in H.
  assert (HR0 : linkRight l0).
  { intros X q. unfold l0. destruct (Nat.eq_dec B X) as [<-|Hne]; [|rewrite upd_ne by exact Hne; apply HR].
    rewrite upd_eq. intros E Hq. injection E as <-. unfold linkOf in Hq. destruct (preds C B) as [|p [|]]; try congruence.
    destruct (inL C p) eqn:Ep; [|congruence]. exists p. auto. }
  assert (M0 : forall X, links X <> None -> l0 X <> None).
  { intros X HX. unfold l0. destruct (Nat.eq_dec B X) as [<-|Hne]; [rewrite upd_eq; discriminate|rewrite upd_ne by exact Hne; exact HX]. }
  assert (N0 : forall X, l0 X <> None -> links X = None -> X = B).
  { intros X. unfold l0. destruct (Nat.eq_dec B X) as [<-|Hne]; [reflexivity|rewrite upd_ne by exact Hne; congruence]. }
  assert (B0 : l0 B <> None) by (unfold l0; rewrite upd_eq; discriminate).
  assert (Gen : forall l la links', fold_left (fun r s => match r with
        | Some links => if inL C s then insertPhiNodes C fuel s links else Some links
        | None => None end) l (Some la) = Some links' -> linkRight la ->
      linkRight links' /\ (forall X, la X <> None -> links' X <> None) /\
      (forall s, In s l -> inL C s = true -> links' s <> None) /\
      (forall X, links' X <> None -> la X = None -> lclosed links' X)).
  { clear - IH. induction l as [|s l IHl]; intros la links' H HR; cbn [fold_left] in H.
    - injection H as <-. split; [exact HR|]. split; [auto|]. split; [intros s []|congruence].
    - destruct (inL C s) eqn:Es.
      + destruct (insertPhiNodes C fuel s la) as [lb|] eqn:Eb.
        * destruct (IH s la lb Eb Es HR) as (R1 & R2 & R3 & R4). destruct (IHl lb links' H R1) as (S1 & S2 & S3 & S4).
          repeat split; auto.
          -- intros s' [<-|Hs'] Hi; [apply S2, R3|apply S3; assumption].
          -- intros X HX HN. destruct (lb X) as [q|] eqn:EX.
             ++ intros s' Hs' Hi. apply S2. apply (R4 X); [congruence|exact HN|exact Hs'|exact Hi].
             ++ apply S4; assumption.
        * exfalso. clear - H. induction l as [|s' l IHl]; cbn [fold_left] in H; [discriminate|apply IHl, H].
      + destruct (IHl la links' H HR) as (S1 & S2 & S3 & S4). repeat split; auto.
        intros s' [<-|Hs'] Hi; [congruence|apply S3; assumption]. }
  destruct (Gen _ l0 links' H HR0) as (S1 & S2 & S3 & S4). repeat split; auto.
  intros X HX HN. destruct (l0 X) as [q|] eqn:EX.
  - assert (X = B) by (apply N0; [congruence|exact HN]). subst X. intros s Hs Hi. apply S3; assumption.
  - apply S4; assumption.
Qed.
Lemma links_final fuel links : insertPhiNodes C fuel (header C) (fun _ => None) = Some links ->
  linkRight links /\ links (header C) <> None /\ forall X, links X <> None -> lclosed links X.
Proof.
  intros H. apply insertPhiNodes_spec in H.
  - destruct H as (H1 & _ & H3 & H4). repeat split; auto.
  - apply (sh_header C SH).
  - intros B q E. discriminate.
Qed.

(** ** Loads and stores *)
Variable links : phiLinks.
Hypothesis HL : linkRight links.
Hypothesis HLh : links (header C) <> None.
Hypothesis HLc : forall X, links X <> None -> lclosed links X.
Definition good (c : context) (X : nat) : Prop :=
  links X <> None /\
  cBody c X = fst (rewriteBody (firstValue C links c X) (body C X)) /\
  cLast c X = Some (snd (rewriteBody (firstValue C links c X) (body C X))) /\
  forall q p, links X = Some q -> q <> X -> preds C X = [p] -> cCompleted c p = true.
Record G (c : context) : Prop := mkG {
  g1 : forall X, cCompleted c X = true -> X = preheader C \/ inL C X = true;
  g2 : forall X, cCompleted c X = true -> inL C X = true -> good c X;
  g3 : cLast c (preheader C) = Some LLoad;
  g4 : forall e v, inL C e = false -> e <> preheader C -> cLast c e = Some v ->
       exists a, inL C a = true /\ cCompleted c a = true /\ In e (succs C a) /\ v = getLast c a;
  g5 : forall X, inL C X = true -> cLast c X <> None -> cCompleted c X = true }.
Definition ext (c c' : context) : Prop :=
  forall X, cCompleted c X = true -> cCompleted c' X = true /\ (X = preheader C \/ inL C X = true -> cLast c' X = cLast c X /\ cBody c' X = cBody c X).
Definition exitsKept (c c' : context) : Prop := forall e, cLast c e <> None -> cLast c' e <> None.
Definition closedAt (c : context) (X : nat) : Prop :=
  forall s, In s (succs C X) -> (inL C s = true -> cCompleted c s = true) /\ (inL C s = false -> cLast c s <> None).
Lemma ext_refl c : ext c c.
Proof. intros X H. auto. Qed.
Lemma ext_trans a b c : ext a b -> ext b c -> ext a c.
Proof.
  intros H1 H2 X HX. destruct (H1 X HX) as [A1 A2]. destruct (H2 X A1) as [B1 B2]. split; [exact B1|].
  intros H. destruct (A2 H) as [E1 E2], (B2 H) as [E3 E4]. split; congruence.
Qed.
Lemma closedAt_mono a b X : ext a b -> exitsKept a b -> closedAt a X -> closedAt b X.
Proof.
  intros E K H s Hs. destruct (H s Hs) as [H1 H2]. split; intros Hi; [apply E, H1, Hi|apply K, H2, Hi].
Qed.
Lemma firstValue_ext c c' X : ext c c' -> good c X -> firstValue C links c' X = firstValue C links c X.
Proof.
  intros E (L & _ & _ & H). unfold firstValue. destruct (links X) as [q|] eqn:Eq; [|reflexivity].
  destruct (Nat.eqb_spec q X) as [|Hne]; [reflexivity|]. destruct (HL X q Eq Hne) as (p & Hp & Hi). rewrite Hp.
  pose proof (H q p eq_refl Hne Hp) as Hc. destruct (E p Hc) as [_ E2]. unfold getLast. rewrite (proj1 (E2 (or_intror Hi))). reflexivity.
Qed.
Lemma good_ext c c' X : ext c c' -> inL C X = true -> cCompleted c X = true -> good c X -> good c' X.
Proof.
  intros E Hi Hc Hg. pose proof (firstValue_ext c c' X E Hg) as Ef. destruct Hg as (L & H1 & H2 & H3).
  destruct (E X Hc) as [_ E2]. destruct (E2 (or_intror Hi)) as [E3 E4].
  split; [exact L|]. rewrite Ef, E3, E4. repeat split; auto. intros q p Hq Hne Hp. apply E, (H3 q p Hq Hne Hp).
Qed.

Lemma handleLoads_spec : forall fuel B Init c c', handleLoads C links fuel B Init c = Some c' -> G c ->
  (Init = true /\ B = preheader C \/ Init = false /\ inL C B = true /\ links B <> None /\ exists A, cCompleted c A = true /\ In B (succs C A)) ->
  G c' /\ ext c c' /\ exitsKept c c' /\ cCompleted c' B = true /\
  (forall X, cCompleted c' X = true -> cCompleted c X = false -> closedAt c' X).
Proof.
  induction fuel as [|fuel IH]; intros B Init c c' H HG HB; cbn [handleLoads] in H; [discriminate|].
  destruct (cCompleted c B) eqn:EB.
  { injection H as <-. split; [exact HG|]. split; [apply ext_refl|]. split; [intros e He; exact He|]. split; [exact EB|]. congruence. }
  set (ca := if Init then c else handleMemoryAccess C links B c) in H.
  set (cb := mkCtx (cLast ca) (cBody ca) (upd (cCompleted ca) B true)) in H.
  assert (Hcomp : forall X, cCompleted cb X = if Nat.eqb B X then true else cCompleted c X).
  { intros X. unfold cb, upd. cbn [cCompleted]. destruct (Nat.eqb B X); [reflexivity|]. unfold ca. destruct Init; reflexivity. }
  assert (Eb : ext c cb).
  { intros X HX. split.
    - rewrite Hcomp. destruct (Nat.eqb B X); [reflexivity|exact HX].
    - intros _. unfold cb, ca. cbn [cLast cBody]. destruct Init; [auto|]. cbn [handleMemoryAccess cLast cBody].
      assert (Hne : B <> X) by congruence. rewrite !upd_ne by exact Hne. auto. }
  assert (Kb : exitsKept c cb).
  { intros e He. unfold cb, ca. cbn [cLast]. destruct Init; [exact He|]. cbn [handleMemoryAccess cLast]. unfold upd. destruct (Nat.eqb B e); [discriminate|exact He]. }
  assert (Hpre : inL C B = true -> cLast cb B = Some (snd (rewriteBody (firstValue C links c B) (body C B))) /\ cBody cb B = fst (rewriteBody (firstValue C links c B) (body C B))).
  { intros Hi. destruct HB as [[-> ->]|(-> & _)]; [congruence|]. unfold cb, ca. cbn [cLast cBody handleMemoryAccess]. rewrite !upd_eq. auto. }
  assert (Ge : forall a, cCompleted c a = true -> inL C a = true -> getLast cb a = getLast c a).
  { intros a Ha Hi. unfold getLast. destruct (Eb a Ha) as [_ E2]. rewrite (proj1 (E2 (or_intror Hi))). reflexivity. }
  assert (Gb : G cb).
  { split.
    - intros X. rewrite Hcomp. destruct (Nat.eqb_spec B X) as [<-|]; [intros _|apply (g1 c HG)]. destruct HB as [[_ ->]|(_ & Hi & _)]; auto.
    - intros X. rewrite Hcomp. destruct (Nat.eqb_spec B X) as [<-|Hne]; intros Hc Hi.
      + destruct HB as [[_ ->]|(HI & _ & Hl & A & HA & HAB)]; [congruence|].
        assert (Hq : forall q p, links B = Some q -> q <> B -> preds C B = [p] -> cCompleted c p = true).
        { intros q p _ _ Hp. apply (sh_preds C SH A B Hi) in HAB. rewrite Hp in HAB. destruct HAB as [<-|[]]. exact HA. }
        assert (Ef : firstValue C links cb B = firstValue C links c B).
        { unfold firstValue. destruct (links B) as [q|] eqn:Eq; [|reflexivity].
          destruct (Nat.eqb_spec q B) as [|Hne]; [reflexivity|]. destruct (HL B q Eq Hne) as (p & Hp & Hip). rewrite Hp.
          apply Ge; [apply (Hq q p eq_refl Hne Hp)|exact Hip]. }
        destruct (Hpre Hi) as [P1 P2]. split; [exact Hl|]. rewrite Ef, P1, P2. repeat split; auto.
        intros q p Hq1 Hq2 Hp. apply Eb, (Hq q p Hq1 Hq2 Hp).
      + apply (good_ext c cb); auto. apply (g2 c HG); assumption.
    - unfold cb, ca. cbn [cLast]. destruct HB as [[-> ->]|(-> & Hi & _)]; [apply (g3 c HG)|]. cbn [handleMemoryAccess cLast].
      rewrite upd_ne; [apply (g3 c HG)|]. intros ->. congruence.
    - intros e v He Hp. unfold cb at 1, ca at 1. cbn [cLast].
      assert (Q : cLast c e = Some v -> exists a, inL C a = true /\ cCompleted cb a = true /\ In e (succs C a) /\ v = getLast cb a).
      { intros Hv. destruct (g4 c HG e v He Hp Hv) as (a & A1 & A2 & A3 & ->). exists a. repeat split; auto; [apply Eb, A2|symmetry; apply Ge; assumption]. }
      destruct HB as [[-> ->]|(-> & Hi & _)]; [exact Q|]. cbn [handleMemoryAccess cLast]. rewrite upd_ne by (intros ->; congruence). exact Q.
    - intros X Hi. rewrite Hcomp. unfold cb, ca. cbn [cLast]. destruct (Nat.eqb_spec B X) as [<-|Hne]; [reflexivity|].
      destruct Init; [apply (g5 c HG); exact Hi|]. cbn [handleMemoryAccess cLast]. rewrite upd_ne by exact Hne. apply (g5 c HG); exact Hi. }
  assert (CB : cCompleted cb B = true) by (rewrite Hcomp, Nat.eqb_refl; reflexivity).
  assert (HBi : B = preheader C \/ (inL C B = true /\ links B <> None)) by (destruct HB as [[_ ->]|(_ & Hi & Hl & _)]; auto).
  assert (Gen : forall l, incl l (succs C B) -> forall cx c', fold_left (fun r s => match r with
        | Some c => if inL C s then handleLoads C links fuel s false c
                    else Some (mkCtx (upd (cLast c) s (Some (getLast c B))) (cBody c) (cCompleted c))
        | None => None end) l (Some cx) = Some c' -> G cx -> cCompleted cx B = true ->
      G c' /\ ext cx c' /\ exitsKept cx c' /\
      (forall s, In s l -> (inL C s = true -> cCompleted c' s = true) /\ (inL C s = false -> cLast c' s <> None)) /\
      (forall X, cCompleted c' X = true -> cCompleted cx X = false -> closedAt c' X)).
  { clear - IH SH HL HLh HLc HBi pre_out. induction l as [|s l IHl]; intros Hincl cx c' H HG HcB; cbn [fold_left] in H.
    - injection H as <-. split; [exact HG|]. split; [apply ext_refl|]. split; [intros e He; exact He|]. split; [intros s []|congruence].
    - assert (Hs : In s (succs C B)) by (apply Hincl; left; reflexivity).
      assert (Hincl' : incl l (succs C B)) by (intros x Hx; apply Hincl; right; exact Hx).
      destruct (inL C s) eqn:Es.
      + destruct (handleLoads C links fuel s false cx) as [cy|] eqn:Ey.
        2:{ exfalso. clear - H. induction l as [|s' l IHl]; cbn [fold_left] in H; [discriminate|apply IHl, H]. }
        assert (Hl : links s <> None).
        { destruct HBi as [->|[_ Hl]]; [|apply (HLc B Hl s Hs Es)]. rewrite (sh_pre_succ C SH) in Hs. destruct Hs as [<-|[]]. exact HLh. }
        destruct (IH s false cx cy Ey HG) as (R1 & R2 & R3 & R4 & R5).
        { right. repeat split; auto. exists B. auto. }
        destruct (IHl Hincl' cy c' H R1 (proj1 (R2 B HcB))) as (S1 & S2 & S3 & S4 & S5).
        split; [exact S1|]. split; [apply (ext_trans _ cy); assumption|]. split; [intros e He; apply S3, R3, He|]. split.
        * intros s' [<-|Hs']; [|apply S4, Hs']. split; [intros _; apply S2, R4|congruence].
        * intros X HX HN. destruct (cCompleted cy X) eqn:EX; [|apply S5; assumption].
          apply (closedAt_mono cy c'); auto.
      + assert (Hne : s <> preheader C).
        { intros ->. destruct HBi as [->|[Hi _]].
          - rewrite (sh_pre_succ C SH) in Hs. destruct Hs as [E|[]]. rewrite <- E in Es. rewrite (sh_header C SH) in Es. discriminate.
          - apply (sh_exit C SH B Hi Hs). }
        assert (HiB : inL C B = true).
        { destruct HBi as [->|[Hi _]]; [|exact Hi]. rewrite (sh_pre_succ C SH) in Hs. destruct Hs as [<-|[]]. rewrite (sh_header C SH) in Es. discriminate. }
        set (cy := mkCtx (upd (cLast cx) s (Some (getLast cx B))) (cBody cx) (cCompleted cx)) in H.
        assert (Ey : ext cx cy).
        { intros X HX. split; [exact HX|]. intros Hor. unfold cy. cbn [cLast cBody]. rewrite upd_ne; [auto|]. intros ->. destruct Hor; congruence. }
        assert (Ky : exitsKept cx cy).
        { intros e He. unfold cy, upd. cbn [cLast]. destruct (Nat.eqb s e); [discriminate|exact He]. }
        assert (Gly : forall a, inL C a = true -> getLast cy a = getLast cx a).
        { intros a Ha. unfold getLast, cy. cbn [cLast]. rewrite upd_ne; [reflexivity|]. intros ->. congruence. }
        assert (Gy : G cy).
        { split.
          - apply (g1 cx HG).
          - intros X HX Hi. apply (good_ext cx cy); auto. apply (g2 cx HG); assumption.
          - unfold cy. cbn [cLast]. rewrite upd_ne by exact Hne. apply (g3 cx HG).
          - intros e v He Hp. unfold cy at 1. cbn [cLast]. destruct (Nat.eq_dec s e) as [<-|Hse].
            + rewrite upd_eq. intros E. injection E as <-. exists B. repeat split; auto. symmetry. apply Gly, HiB.
            + rewrite upd_ne by exact Hse. intros Hv. destruct (g4 cx HG e v He Hp Hv) as (a & A1 & A2 & A3 & ->). exists a.
              repeat split; auto. symmetry. apply Gly, A1.
          - intros X Hi. unfold cy. cbn [cLast cCompleted]. rewrite upd_ne by (intros ->; congruence). apply (g5 cx HG X Hi). }
        destruct (IHl Hincl' cy c' H Gy HcB) as (S1 & S2 & S3 & S4 & S5).
        split; [exact S1|]. split; [apply (ext_trans _ cy); assumption|]. split; [intros e He; apply S3, Ky, He|]. split.
        * intros s' [<-|Hs']; [|apply S4, Hs']. split; [congruence|]. intros _. apply S3. unfold cy. cbn [cLast]. rewrite upd_eq. discriminate.
        * intros X HX HN. apply S5; assumption. }
  destruct (Gen _ (incl_refl _) cb c' H Gb CB) as (S1 & S2 & S3 & S4 & S5).
  split; [exact S1|]. split; [apply (ext_trans _ cb); assumption|]. split; [intros e He; apply S3, Kb, He|].
  split; [apply S2, CB|]. intros X HX HN. destruct (cCompleted cb X) eqn:EX.
  - rewrite Hcomp in EX. destruct (Nat.eqb_spec B X) as [<-|]; [|congruence]. exact S4.
  - apply S5; assumption.
Qed.
Definition ctx0 : context := mkCtx (upd (fun _ => None) (preheader C) (Some LLoad)) (fun _ => []) (fun _ => false).
Lemma handleLoads_final fuel c : handleLoads C links fuel (preheader C) true ctx0 = Some c ->
  G c /\ cCompleted c (preheader C) = true /\ forall X, cCompleted c X = true -> closedAt c X.
Proof.
  intros H. apply handleLoads_spec in H.
  - destruct H as (H1 & _ & _ & H4 & H5). split; [exact H1|]. split; [exact H4|]. intros X HX. apply (H5 X HX). reflexivity.
  - split; try discriminate.
    + unfold ctx0. cbn [cLast]. apply upd_eq.
    + intros e v He Hp. unfold ctx0. cbn [cLast]. rewrite upd_ne by congruence. discriminate.
    + intros X Hi. unfold ctx0. cbn [cLast]. rewrite upd_ne by congruence. congruence.
  - left. auto.
Qed.

(** ** Consistency of last values *)
Variable R : nat -> bool.
Record ok (P : tprog) (ds : list nat) (E En : nat -> lval) : Prop := mkOk {
  o_body : forall B, R B = true -> tBody P B = fst (rewriteBody (E B) (body C B)) /\ En B = snd (rewriteBody (E B) (body C B));
  o_phi : forall B inc, R B = true -> tPhi P B = Some inc -> E B = LPhi B /\
          forall a, R a = true \/ a = preheader C -> In B (succs C a) -> select inc a = Some (En a);
  o_nophi : forall B, R B = true -> tPhi P B = None -> forall a, R a = true \/ a = preheader C -> In B (succs C a) -> E B = En a;
  o_pre : En (preheader C) = LLoad;
  o_store : forall a e, R a = true -> inL C e = false -> In e (succs C a) -> isDeleted ds (tStore P e) = false -> tStore P e = En a }.
Lemma rewriteBody_subst b v : forall l e,
  rewriteBody (substL b v e) l = (map (substT b v) (fst (rewriteBody e l)), substL b v (snd (rewriteBody e l))).
Proof.
  induction l as [|[o|d|d f] l IH]; intros e; cbn [rewriteBody].
  - reflexivity.
  - rewrite <- IH. destruct o; reflexivity.
  - rewrite IH. destruct (rewriteBody e l) as [t w]. reflexivity.
  - rewrite IH. destruct (rewriteBody e l) as [t w]. reflexivity.
Qed.
Lemma select_map f inc a : select (map (fun e => (fst e, f (snd e))) inc) a = option_map f (select inc a).
Proof.
  unfold select. induction inc as [|[p v] inc IH]; [reflexivity|]. cbn [map find fst snd].
  destruct (Nat.eqb p a); [reflexivity|exact IH].
Qed.
Definition allSame (inc : list (nat * lval)) (v : lval) : Prop := forall p w, In (p, w) inc -> w = v.
Lemma select_in inc a v : select inc a = Some v -> In (a, v) inc.
Proof.
  unfold select. destruct (find _ inc) as [[p w]|] eqn:E; [|discriminate]. intros H. injection H as <-.
  apply find_some in E. destruct E as [E1 E2]. cbn [fst] in E2. apply Nat.eqb_eq in E2. subst p. exact E1.
Qed.
Lemma ok_replace P ds E En b v inc : ok P ds E En -> tPhi P b = Some inc -> allSame inc v -> v <> LPhi b ->
  ok (replacePhi b v P) (b :: ds) (fun x => substL b v (E x)) (fun x => substL b v (En x)).
Proof.
  intros O Hb Hs Hv. split.
  - intros B HB. destruct (o_body _ _ _ _ O B HB) as [H1 H2]. cbn [replacePhi tBody]. rewrite rewriteBody_subst. cbn [fst snd]. split; congruence.
  - intros B inc' HB. cbn [replacePhi tPhi]. destruct (Nat.eqb_spec b B) as [|Hne]; [discriminate|].
    destruct (tPhi P B) as [i|] eqn:Ei; [|discriminate]. cbn [option_map]. intros H. injection H as <-.
    destruct (o_phi _ _ _ _ O B i HB Ei) as [H1 H2]. rewrite H1. split.
    + cbn [substL]. destruct (Nat.eqb_spec b B); [contradiction|reflexivity].
    + intros a Ha Hs'. rewrite select_map, (H2 a Ha Hs'). reflexivity.
  - intros B HB. cbn [replacePhi tPhi]. destruct (Nat.eqb_spec b B) as [<-|Hne]; intros Hp a Ha Hs'.
    + destruct (o_phi _ _ _ _ O b inc HB Hb) as [H1 H2]. rewrite H1. cbn [substL]. rewrite Nat.eqb_refl.
      rewrite (Hs a _ (select_in _ _ _ (H2 a Ha Hs'))). clear - Hv. destruct v as [b'|x|c| |]; cbn [substL]; try reflexivity.
      destruct (Nat.eqb_spec b b') as [->|]; [congruence|reflexivity].
    + destruct (tPhi P B) eqn:Ei; [discriminate|]. f_equal. apply (o_nophi _ _ _ _ O B HB Ei a Ha Hs').
  - rewrite (o_pre _ _ _ _ O). reflexivity.
  - intros a e Ha He Hs'. cbn [replacePhi tStore]. intros Hd.
    assert (Hd' : isDeleted ds (tStore P e) = false /\ substL b v (tStore P e) = tStore P e).
    { destruct (tStore P e) as [b'|x|c| |]; cbn [isDeleted existsb substL] in *; auto.
      apply orb_false_iff in Hd. destruct Hd as [D1 D2]. rewrite Nat.eqb_sym in D1. rewrite D1. auto. }
    destruct Hd' as [D1 D2]. rewrite <- (o_store _ _ _ _ O a e Ha He Hs' D1). symmetry. exact D2.
Qed.
Lemma allSame_head p v inc w : allSame ((p, v) :: inc) w -> v = w.
Proof. intros H. apply (H p v). left. reflexivity. Qed.
Lemma ok_deleteAll : forall bs P ds E En P' ds', ok P ds E En ->
  (forall b inc, In b bs -> tPhi P b = Some inc -> exists v, allSame inc v) ->
  deleteAll bs P ds = Deleted P' ds' -> exists E' En', ok P' ds' E' En'.
Proof.
  induction bs as [|b bs IH]; intros P ds E En P' ds' O Hs H; cbn [deleteAll] in H.
  - injection H as <- <-. exists E, En. exact O.
  - destruct (tPhi P b) as [[|[p v] inc]|] eqn:Eb; try discriminate.
    destruct (Hs b _ (or_introl eq_refl) Eb) as (w & Hw). pose proof (allSame_head _ _ _ _ Hw) as <-.
    assert (Hs' : forall b' inc', In b' bs -> tPhi (replacePhi b v P) b' = Some inc' -> exists v', allSame inc' v').
    { intros b' inc' Hb'. cbn [replacePhi tPhi]. destruct (Nat.eqb b b'); [discriminate|].
      destruct (tPhi P b') as [i|] eqn:Ei; [|discriminate]. cbn [option_map]. intros Hi. injection Hi as <-.
      destruct (Hs b' i (or_intror Hb') Ei) as (w & Hw'). exists (substL b v w). intros q u Hu. apply in_map_iff in Hu.
      destruct Hu as ([q' u'] & Eu & Hu). cbn [fst snd] in Eu. injection Eu as <- <-. rewrite (Hw' q' u' Hu). reflexivity. }
    assert (Hd : v <> LPhi b -> deleteAll bs (replacePhi b v P) (b :: ds) = Deleted P' ds' -> exists E' En', ok P' ds' E' En').
    { intros Hv. apply (IH (replacePhi b v P) (b :: ds) (fun x => substL b v (E x)) (fun x => substL b v (En x))); [|exact Hs'].
      apply (ok_replace P ds E En b v ((p, v) :: inc) O Eb Hw Hv). }
    destruct v as [b'|x|c| |]; try discriminate; try (apply Hd; [discriminate|exact H]).
    destruct (Nat.eqb_spec b b') as [|Hne]; [discriminate|]. apply Hd; [congruence|exact H].
Qed.
Lemma redundant_same inc v : redundant inc = Some v -> allSame inc v.
Proof.
  unfold redundant. destruct inc as [|[p o] inc]; [discriminate|]. destruct (forallb _ _) eqn:E; [|discriminate].
  intros H. injection H as <-. intros q w Hw. rewrite forallb_forall in E. symmetry. apply lvalEq_eq. apply (E (q, w) Hw).
Qed.
Lemma ok_deleteRedundant : forall fuel bs P ds E En P' ds', ok P ds E En ->
  deleteRedundant fuel bs P ds = Some (Deleted P' ds') -> exists E' En', ok P' ds' E' En'.
Proof.
  induction fuel as [|fuel IH]; intros bs P ds E En P' ds' O H; cbn [deleteRedundant] in H; [discriminate|].
  destruct (deleteAll _ P ds) as [P1 ds1|] eqn:Ed; [|discriminate].
  assert (Ex : exists E' En', ok P1 ds1 E' En').
  { apply (ok_deleteAll (filter (isRedundant P) bs) P ds E En P1 ds1 O); [|exact Ed]. intros b inc Hb Hi. apply filter_In in Hb.
    destruct Hb as [_ Hb]. unfold isRedundant in Hb. rewrite Hi in Hb. destruct (redundant inc) as [v|] eqn:Er; [|discriminate].
    exists v. apply redundant_same, Er. }
  destruct Ex as (E' & En' & O'). destruct (filter _ bs).
  - injection H as <- <-. exists E', En'. exact O'.
  - apply (IH bs P1 ds1 E' En' P' ds' O' H).
Qed.
End C.

(** ** The loop after the transformation is consistent *)
Section Top.
Variable C : cfg.
Hypothesis SH : loopShape C.
Lemma promote_ok fuel UniqueNodes exits P : oneExiting C -> exitsListed C exits -> promote C fuel UniqueNodes exits = Done P ->
  exists R ds E En, ok C R P ds E En /\
  (forall a b, R a = true \/ a = preheader C -> In b (succs C a) -> inL C b = true -> R b = true) /\
  (forall a, R a = true -> inL C a = true) /\
  forall a e, R a = true -> inL C e = false -> In e (succs C a) -> isDeleted ds (tStore P e) = false.
Proof.
  intros H1 HE H. unfold promote in H.
  destruct (insertPhiNodes C fuel (header C) (fun _ => None)) as [links|] eqn:El; [|discriminate].
  destruct (links_final C SH fuel links El) as (L1 & L2 & L3).
  change (mkCtx (upd (fun _ => None) (preheader C) (Some LLoad)) (fun _ => []) (fun _ => false)) with (ctx0 C) in H.
  destruct (handleLoads C links fuel (preheader C) true (ctx0 C)) as [c|] eqn:Ec; [|discriminate].
  destruct (handleLoads_final C SH links L1 L2 L3 fuel c Ec) as (HG & Cp & Cl).
  destruct (deleteRedundant fuel UniqueNodes (fillPhiNodes C links c) []) as [[P' ds|]|] eqn:Ed; try discriminate.
  destruct (existsb _ exits) eqn:Ex; [discriminate|]. injection H as <-.
  set (R := fun X => inL C X && cCompleted c X).
  assert (RR : forall X, R X = true -> inL C X = true /\ cCompleted c X = true) by (intros X HX; apply andb_true_iff in HX; exact HX).
  assert (Comp : forall a, R a = true \/ a = preheader C -> cCompleted c a = true) by (intros a [Ha| ->]; [apply RR, Ha|exact Cp]).
  assert (LastSome : forall a, R a = true \/ a = preheader C -> cLast c a = Some (getLast c a)).
  { intros a [Ha| ->]; unfold getLast.
    - destruct (RR a Ha) as [A1 A2]. destruct (g2 C links c HG a A2 A1) as (_ & _ & E & _). rewrite E. reflexivity.
    - rewrite (g3 C links c HG). reflexivity. }
  assert (O : ok C R (fillPhiNodes C links c) [] (firstValue C links c) (getLast c)).
  { split.
    - intros B HB. destruct (RR B HB) as [A1 A2]. destruct (g2 C links c HG B A2 A1) as (_ & E1 & E2 & _). cbn [fillPhiNodes tBody].
      split; [exact E1|]. unfold getLast. rewrite E2. reflexivity.
    - intros B inc HB. cbn [fillPhiNodes tPhi]. destruct (links B) as [q|] eqn:Eq; [|discriminate].
      destruct (Nat.eqb_spec B q) as [<-|]; [|discriminate]. intros Hi. injection Hi as <-. split.
      + unfold firstValue. rewrite Eq, Nat.eqb_refl. reflexivity.
      + intros a Ha Hs. destruct (RR B HB) as [A1 _]. apply (sh_preds C SH a B A1) in Hs. unfold incoming.
        pose proof (LastSome a Ha) as Hv. clear - Hs Hv. induction (preds C B) as [|p ps IH]; [destruct Hs|].
        cbn [flat_map]. destruct (Nat.eq_dec p a) as [->|Hne].
        * rewrite Hv. unfold select. cbn [app find fst]. rewrite Nat.eqb_refl. reflexivity.
        * destruct Hs as [|Hs]; [contradiction|]. destruct (cLast c p) as [w|]; [|apply IH, Hs].
          unfold select. cbn [app find fst]. destruct (Nat.eqb_spec p a); [contradiction|]. apply IH, Hs.
    - intros B HB. cbn [fillPhiNodes tPhi]. destruct (RR B HB) as [A1 A2].
      destruct (g2 C links c HG B A2 A1) as (Ln & _). destruct (links B) as [q|] eqn:Eq; [|congruence].
      destruct (Nat.eqb_spec B q) as [|Hne]; [discriminate|]. intros _ a Ha Hs.
      destruct (L1 B q Eq (fun E => Hne (eq_sym E))) as (p & Hp & Hip). unfold firstValue. rewrite Eq.
      destruct (Nat.eqb_spec q B); [congruence|]. rewrite Hp. apply (sh_preds C SH a B A1) in Hs. rewrite Hp in Hs. destruct Hs as [->|[]]. reflexivity.
    - unfold getLast. rewrite (g3 C links c HG). reflexivity.
    - intros a e Ha He Hs _. cbn [fillPhiNodes tStore]. destruct (RR a Ha) as [A1 A2].
      assert (Hne : e <> preheader C) by (intros ->; apply (sh_exit C SH a A1 Hs)).
      destruct (cLast c e) as [v|] eqn:Ev; [|destruct (Cl a A2 e Hs) as [_ K]; destruct (K He Ev)].
      destruct (g4 C links c HG e v He Hne Ev) as (a' & B1 & B2 & B3 & ->).
      rewrite (H1 a a' e A1 B1 He Hs B3). unfold getLast at 1. rewrite Ev. reflexivity. }
  destruct (ok_deleteRedundant C R fuel UniqueNodes _ _ _ _ _ _ O Ed) as (E & En & O').
  exists R, ds, E, En. split; [exact O'|]. split; [|split].
  - intros a b Ha Hs Hi. unfold R. rewrite Hi. cbn [andb]. apply (Cl a (Comp a Ha) b Hs), Hi.
  - intros a Ha. apply RR, Ha.
  - intros a e Ha He Hs. destruct (isDeleted ds (tStore P' e)) eqn:Ei; [|reflexivity].
    assert (Hin : In e exits) by (apply (HE a e); [apply RR, Ha|exact He|exact Hs]).
    assert (Ht : existsb (fun e => isDeleted ds (tStore P' e)) exits = true) by (apply existsb_exists; exists e; auto). congruence.
Qed.

(** ** Simulation *)
Section Sim.
Variable R : nat -> bool.
Variable P : tprog.
Variable ds : list nat.
Variables E En : nat -> lval.
Hypothesis O : ok C R P ds E En.
Hypothesis HR : forall a b, R a = true \/ a = preheader C -> In b (succs C a) -> inL C b = true -> R b = true.
Hypothesis HRL : forall a, R a = true -> inL C a = true.
Hypothesis HD : forall a e, R a = true -> inL C e = false -> In e (succs C a) -> isDeleted ds (tStore P e) = false.
Hypothesis HS : ssa C.
Lemma path_R p b : path C p b -> R b = true \/ b = preheader C.
Proof. induction 1 as [|p b c H IH Hs Hi]; [right; reflexivity|left]. apply (HR b c IH Hs Hi). Qed.
Lemma last_reg : forall l e x, snd (rewriteBody e l) = LReg x -> e = LReg x \/ exists k, (k < length l)%nat /\ nth_error l k = Some (IStore (OReg x)).
Proof.
  induction l as [|[o|d|d f] l IH]; intros e x H; cbn [rewriteBody] in H.
  - left. exact H.
  - destruct (IH _ _ H) as [Ho|(k & Hk & Hn)].
    + right. exists 0%nat. cbn [length]. split; [lia|]. destruct o as [y|c]; [|discriminate]. injection Ho as ->. reflexivity.
    + right. exists (S k). cbn [length]. split; [lia|exact Hn].
  - destruct (rewriteBody e l) as [t w] eqn:Er. cbn [snd] in H. destruct (IH e x) as [Ho|(k & Hk & Hn)]; [rewrite Er; exact H|left; exact Ho|].
    right. exists (S k). cbn [length]. split; [lia|exact Hn].
  - destruct (rewriteBody e l) as [t w] eqn:Er. cbn [snd] in H. destruct (IH e x) as [Ho|(k & Hk & Hn)]; [rewrite Er; exact H|left; exact Ho|].
    right. exists (S k). cbn [length]. split; [lia|exact Hn].
Qed.
Lemma back x B j f : nth_error (body C B) j = Some (IOther x f) -> inL C B = true ->
  forall p a, path C p a -> ~ In B p -> En a <> LReg x.
Proof.
  intros HB Hi p a H. induction H as [|p b c H IH Hs Hc]; intros Hn He.
  - rewrite (o_pre _ _ _ _ _ _ O) in He. discriminate.
  - assert (Hn' : ~ In B p) by (intros Hp; apply Hn, in_or_app; left; exact Hp).
    assert (Rc : R c = true) by (apply (HR b c (path_R _ _ H) Hs Hc)).
    destruct (o_body _ _ _ _ _ _ O c Rc) as [_ H2]. rewrite H2 in He. apply last_reg in He. destruct He as [He|(k & _ & Hk)].
    + destruct (tPhi P c) as [inc|] eqn:Ep.
      * destruct (o_phi _ _ _ _ _ _ O c inc Rc Ep) as [H3 _]. rewrite H3 in He. discriminate.
      * apply (IH Hn'). rewrite <- He. symmetry. apply (o_nophi _ _ _ _ _ _ O c Rc Ep b); [apply (path_R _ _ H)|exact Hs].
    + destruct (HS c k x B j f Hk HB Hc Hi) as [[-> _]|[_ Hp]].
      * apply Hn, in_or_app. right. left. reflexivity.
      * apply Hn, Hp. constructor 2 with b; assumption.
Qed.
Lemma first_arrival : forall p b, path C p b -> forall c, In c p -> inL C c = true ->
  exists q a, path C q a /\ ~ In c q /\ In c (succs C a).
Proof.
  induction 1 as [|p b c0 H IH Hs Hi]; intros c Hc Hic.
  - destruct Hc as [<-|[]]. pose proof (sh_pre C SH). congruence.
  - destruct (in_dec Nat.eq_dec c p) as [Hp|Hp]; [apply IH; assumption|].
    apply in_app_or in Hc. destruct Hc as [Hc|[<-|[]]]; [contradiction|]. exists p, b. auto.
Qed.
(** the register which holds the last value is not changed *)
Lemma no_redefinition p B l1 l2 x f : path C p B -> inL C B = true -> body C B = l1 ++ IOther x f :: l2 ->
  snd (rewriteBody (E B) l1) <> LReg x.
Proof.
  intros Hp Hi Hb He.
  assert (HB : nth_error (body C B) (length l1) = Some (IOther x f)).
  { rewrite Hb, nth_error_app2 by lia. rewrite Nat.sub_diag. reflexivity. }
  assert (RB : R B = true).
  { destruct (path_R _ _ Hp) as [|E1]; [assumption|]. pose proof (sh_pre C SH). congruence. }
  apply last_reg in He. destruct He as [He|(k & Hlt & Hk)].
  - assert (Hin : In B p) by (destruct Hp; [left; reflexivity|apply in_or_app; right; left; reflexivity]).
    destruct (first_arrival p B Hp B Hin Hi) as (q & a & Hq & Hn & Hs).
    apply (back x B (length l1) f HB Hi q a Hq Hn).
    destruct (tPhi P B) as [inc|] eqn:Ep.
    + destruct (o_phi _ _ _ _ _ _ O B inc RB Ep) as [H3 _]. rewrite H3 in He. discriminate.
    + rewrite <- He. symmetry. apply (o_nophi _ _ _ _ _ _ O B RB Ep a (path_R _ _ Hq) Hs).
  - assert (Hk' : nth_error (body C B) k = Some (IStore (OReg x))) by (rewrite Hb, nth_error_app1 by exact Hlt; exact Hk).
    destruct (HS B k x B (length l1) f Hk' HB Hi Hi) as [[_ Hj]|[Hne _]]; [lia|congruence].
Qed.

Variable M : sem.
Hypothesis HBr : branchRight C M.
Lemma evalL_upd s d z w : w <> LReg d -> evalL M (mkTS M (upd (tEnv M s) d z) (tMem M s) (tPh M s) (tL M s)) w = evalL M s w.
Proof. intros H. destruct w as [b|x|c| |]; cbn [evalL tEnv tPh tL]; try reflexivity. rewrite upd_ne; [reflexivity|congruence]. Qed.
Lemma sim_body p B prev : path C p B -> inL C B = true -> forall l2 l1, body C B = l1 ++ l2 ->
  forall env m v ph l0, evalL M (mkTS M env m ph l0) (snd (rewriteBody (E B) l1)) = Some v ->
  exists env' m' v', fold_left (exec1 M prev) l2 (env, m, v) = (env', m', v') /\
    fold_left (texec1 M prev) (fst (rewriteBody (snd (rewriteBody (E B) l1)) l2)) (Some (mkTS M env m ph l0)) = Some (mkTS M env' m' ph l0) /\
    evalL M (mkTS M env' m' ph l0) (snd (rewriteBody (E B) (l1 ++ l2))) = Some v'.
Proof.
  intros Hp Hi. induction l2 as [|i l2 IH]; intros l1 Hb env m v ph l0 Hv.
  - exists env, m, v. rewrite app_nil_r. cbn [rewriteBody fst fold_left]. auto.
  - assert (App : forall l e, snd (rewriteBody e (l ++ [i])) = snd (rewriteBody (snd (rewriteBody e l)) [i])).
    { clear. induction l as [|[o|d|d f] l IH]; intros e; cbn [rewriteBody app snd]; try reflexivity; [apply IH|..];
        specialize (IH e); destruct (rewriteBody e (l ++ [i])), (rewriteBody e l); exact IH. }
    assert (Hb' : body C B = (l1 ++ [i]) ++ l2) by (rewrite <- app_assoc; exact Hb).
    specialize (IH (l1 ++ [i]) Hb'). rewrite <- app_assoc in IH. cbn [app] in IH. rewrite App in IH.
    set (cur := snd (rewriteBody (E B) l1)) in *.
    destruct i as [o|d|d f]; cbn [rewriteBody snd fold_left exec1] in *.
    + apply (IH env m (evalO env o) ph l0). destruct o; reflexivity.
    + destruct (rewriteBody cur l2) as [t w] eqn:Er. cbn [fst fold_left texec1]. rewrite Hv. cbn [tEnv tMem tPh tL]. cbn [fst] in IH.
      apply (IH (upd env d v) m v ph l0). destruct cur as [b|x|c| |] eqn:Ec; cbn [evalL tEnv tPh tL] in *; auto.
      unfold upd. destruct (Nat.eqb d x); [reflexivity|exact Hv].
    + destruct (rewriteBody cur l2) as [t w] eqn:Er. cbn [fst fold_left texec1]. cbn [tEnv tMem tPh tL]. cbn [fst] in IH.
      apply (IH (upd env d (fst (opSem M f prev env m))) (snd (opSem M f prev env m)) v ph l0).
      assert (Hne : cur <> LReg d) by (apply (no_redefinition p B l1 l2 d f Hp Hi Hb)).
      clear - Hne Hv. destruct cur as [b|x|c| |]; cbn [evalL tEnv tPh tL] in *; auto. rewrite upd_ne; [exact Hv|congruence].
Qed.
Lemma sim_run : forall n p prev b env m v ph l0, path C p prev -> In b (succs C prev) ->
  evalL M (mkTS M env m ph l0) (En prev) = Some v ->
  run C M true n prev b (env, m, v) = trun C M P n prev b (mkTS M env m ph l0).
Proof.
  induction n as [|n IH]; intros p prev b env m v ph l0 Hp Hs Hv; [reflexivity|]. cbn [run trun].
  pose proof (path_R _ _ Hp) as Rp. destruct (inL C b) eqn:Ei.
  - assert (Rb : R b = true) by (apply (HR prev b Rp Hs Ei)).
    assert (Pb : path C (p ++ [b]) b) by (constructor 2 with prev; assumption).
    rewrite andb_false_r.
    assert (Ent : exists ph', enter M P prev b (mkTS M env m ph l0) = Some (mkTS M env m ph' l0) /\ evalL M (mkTS M env m ph' l0) (E b) = Some v).
    { unfold enter. destruct (tPhi P b) as [inc|] eqn:Ep.
      - destruct (o_phi _ _ _ _ _ _ O b inc Rb Ep) as [H1 H2]. rewrite (H2 prev Rp Hs), Hv. cbn [tEnv tMem tPh tL].
        exists (upd ph b v). split; [reflexivity|]. rewrite H1. cbn [evalL tPh]. rewrite upd_eq. reflexivity.
      - exists ph. split; [reflexivity|]. rewrite (o_nophi _ _ _ _ _ _ O b Rb Ep prev Rp Hs). exact Hv. }
    destruct Ent as (ph' & -> & Hv').
    destruct (sim_body (p ++ [b]) b prev Pb Ei (body C b) [] eq_refl env m v ph' l0 Hv') as (env' & m' & v' & F1 & F2 & F3).
    cbn [rewriteBody snd app] in F2, F3. destruct (o_body _ _ _ _ _ _ O b Rb) as [B1 B2]. rewrite B1, F1, F2. cbn [fst snd tEnv tMem].
    apply (IH (p ++ [b])); [exact Pb|apply HBr, Ei|]. rewrite B2. exact F3.
  - assert (Rp' : R prev = true).
    { destruct Rp as [|E1]; [assumption|]. rewrite E1, (sh_pre_succ C SH) in Hs. destruct Hs as [<-|[]]. rewrite (sh_header C SH) in Ei. discriminate. }
    rewrite (o_store _ _ _ _ _ _ O prev b Rp' Ei Hs (HD prev b Rp' Ei Hs)), Hv. reflexivity.
Qed.
End Sim.
Theorem promoted fuel UniqueNodes exits P M n s : oneExiting C -> exitsListed C exits -> ssa C -> branchRight C M ->
  promote C fuel UniqueNodes exits = Done P -> runLoop C M true n s = trunLoop C M P true n s.
Proof.
  intros H1 HE HS HB H. destruct (promote_ok fuel UniqueNodes exits P H1 HE H) as (R & ds & E & En & O & HR & HRL & HD).
  destruct s as [[env m] v]. unfold runLoop, trunLoop.
  apply (sim_run R P ds E En O HR HD HS M HB n [preheader C]).
  - constructor.
  - rewrite (sh_pre_succ C SH). left. reflexivity.
  - rewrite (o_pre _ _ _ _ _ _ O). reflexivity.
Qed.
End Top.
