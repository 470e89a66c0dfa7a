(** Proofs for the inter-procedural analysis of live memory. *)
From Coq Require Import ZArith List Bool Arith Lia.
From Verif Require Import RangeModel RangeSpec MemSetModel MemSetSpec MemSetProof GlobalLiveModel GlobalLiveSpec.
Import ListNotations.
Local Open Scope nat_scope.

Lemma memb_spec x l : memb x l = true <-> In x l.
Proof. unfold memb. rewrite existsb_exists. split; [intros (y & H & E); apply Nat.eqb_eq in E; now subst|intros H; exists x; split; [exact H|apply Nat.eqb_refl]]. Qed.
Lemma exposed_app a t t' : exposed a (t ++ t') -> exposed a t \/ (~ written a t /\ exposed a t').
Proof.
  intros (t1 & t2 & E & W). revert t1 E W. induction t as [|x t IH]; intros t1 E W.
  - right. split; [intros []|]. exists t1, t2. auto.
  - destruct t1 as [|y t1]; cbn in E; injection E as -> E.
    + left. exists [], t. split; [reflexivity|intros []].
    + destruct (IH t1 E) as [(u1 & u2 & -> & U)|(N & X)]; [intros K; apply W; now right| |].
      * left. exists (y :: u1), u2. split; [reflexivity|]. intros [->|K]; [apply W; now left|auto].
      * right. split; [|exact X]. intros [->|K]; [apply W; now left|auto].
Qed.

Section Proof.
Variable dio : Z -> Z -> Z -> option (Z * Z * Z * Z).
Variable fn : nat -> func.
Variables isAlloca isGlobal : nat -> bool.
Variable under : nat -> nat.
Variable instrs : nat -> list instr.
Variable blockOf : nat -> nat.
Variable callLocs : nat -> list (nat * range).
Variable live : nat -> mset -> nat -> mset.
Variable noExternalCalls : bool.
Notation collect := (collect fn instrs blockOf noExternalCalls).
Notation mayLives := (mayLives dio fn isAlloca isGlobal under).
Notation recordCalls := (recordCalls dio fn blockOf callLocs live).
Notation process := (process dio fn isAlloca isGlobal under blockOf callLocs live).

Definition analyzed (n : node) : bool := match nFun n with Some f => negb (gLib (fn f) || gMarker (fn f)) | None => false end.
Definition outsideOf (n : node) : list nat := match nFun n with None => if noExternalCalls then [] else calleesOf n | Some _ => [] end.
Lemma collect_spec sccs : forall wl ext wl' ext', collect sccs wl ext = Some (wl', ext') ->
  wl' = wl ++ filter analyzed (map fst sccs) /\ ext' = ext ++ flat_map outsideOf (map fst sccs) /\
  (forall n r, In (n, r) sccs -> r = [] /\ (analyzed n = true -> checkCallsFrom instrs blockOf n = true)).
Proof.
  induction sccs as [|[n rest] sccs IH]; intros wl ext wl' ext' H; cbn [GlobalLiveModel.collect] in H.
  - injection H as <- <-. cbn. rewrite !app_nil_r. repeat split; contradiction.
  - destruct rest as [|]; [|discriminate]. cbn [map fst filter flat_map]. unfold analyzed at 1, outsideOf at 1. destruct (nFun n) as [f|] eqn:En.
    + destruct (gLib (fn f) || gMarker (fn f)) eqn:El.
      * cbn [negb app]. destruct (IH _ _ _ _ H) as (A1 & A2 & A3). split; [exact A1|]. split; [exact A2|]. intros m r [E|K]; [|now apply A3].
        injection E as <- <-. split; [reflexivity|]. unfold analyzed. rewrite En, El. discriminate.
      * cbn [negb app]. destruct (gEmpty (fn f) || negb (gDirect (fn f))); [discriminate|]. destruct (checkCallsFrom instrs blockOf n) eqn:Ec; [|discriminate]. cbn [negb] in H.
        destruct (IH _ _ _ _ H) as (A1 & A2 & A3). split; [rewrite A1, <- app_assoc; reflexivity|]. split; [exact A2|]. intros m r [E|K]; [|now apply A3]. injection E as <- <-. auto.
    + destruct (IH _ _ _ _ H) as (A1 & A2 & A3). split; [exact A1|]. split.
      * rewrite A2. destruct noExternalCalls; [reflexivity|]. now rewrite <- app_assoc.
      * intros m r [E|K]; [|now apply A3]. injection E as <- <-. split; [reflexivity|]. unfold analyzed. rewrite En. discriminate.
Qed.

(** The set which is recorded for a call *)
Definition callSet (f : nat) (out : mset) (c g : nat) : option mset :=
  if gVarArg (fn g) then Some (live f out (blockOf c)) else addArgs dio (gArgs (fn g)) (callLocs c) (live f out (blockOf c)).
Lemma recordCalls_spec f out es : forall moved LS LS', recordCalls f out es moved LS = Some LS' ->
  (forall h s, In s (LS h) -> In s (LS' h)) /\
  (forall c g, In (mkEdge (Some c) (Some g)) es -> exists s, callSet f out c g = Some s /\ In s (LS' g)) /\
  (forall h s, In s (LS' h) -> In s (LS h) \/ exists c, callSet f out c h = Some s).
Proof.
  induction es as [|e es IH]; intros moved LS LS' H; cbn [GlobalLiveModel.recordCalls] in H.
  - injection H as <-. split; [auto|]. split; [intros c g []|auto].
  - destruct e as [[c|] [g|]]; cbn [eCall eTo] in H.
    + destruct (memb (blockOf c) moved); [discriminate|]. fold (callSet f out c g) in H. destruct (callSet f out c g) as [s|] eqn:Es; [|discriminate].
      destruct (IH _ _ _ H) as (A1 & A2 & A3). split; [|split].
      * intros h t Ht. apply A1. cbv beta. destruct (Nat.eqb h g); [apply in_or_app; now left|exact Ht].
      * intros c' g' [E|K]; [|now apply A2]. injection E as <- <-. exists s. split; [exact Es|]. apply A1. cbv beta. rewrite Nat.eqb_refl. apply in_or_app. right. now left.
      * intros h t Ht. destruct (A3 h t Ht) as [K|K]; [|now right]. cbv beta in K. destruct (Nat.eqb_spec h g) as [->|]; [|now left].
        apply in_app_iff in K. destruct K as [K|[<-|[]]]; [now left|right; now exists c].
    + destruct (IH _ _ _ H) as (A1 & A2 & A3). split; [exact A1|]. split; [|exact A3]. intros c' g' [E|K]; [discriminate|now apply A2].
    + destruct (IH _ _ _ H) as (A1 & A2 & A3). split; [exact A1|]. split; [|exact A3]. intros c' g' [E|K]; [discriminate|now apply A2].
    + destruct (IH _ _ _ H) as (A1 & A2 & A3). split; [exact A1|]. split; [|exact A3]. intros c' g' [E|K]; [discriminate|now apply A2].
Qed.
Definition funOf (n : node) : list nat := match nFun n with Some f => [f] | None => [] end.
Lemma process_keys ext ns : forall LS res r, process ext ns LS res = Some r -> map fst r = map fst res ++ flat_map funOf ns.
Proof.
  induction ns as [|n ns IH]; intros LS res r H; cbn [GlobalLiveModel.process] in H; [injection H as <-; cbn; now rewrite app_nil_r|].
  cbn [flat_map]. unfold funOf at 1. destruct (nFun n) as [f|]; [|exact (IH _ _ _ H)]. destruct (recordCalls _ _ _ _ _) as [LS'|]; [|discriminate].
  rewrite (IH _ _ _ H), map_app, <- app_assoc. reflexivity.
Qed.
Section Sets.
Variable v : views.
Hypothesis Hdio : dioSpec dio.
Hypothesis Hv : viewsOk v.
Hypothesis DefsOk : forall f, setOk v (gDefs (fn f)) /\ setOk v (gMayDefs (fn f)).
Hypothesis LiveOk : forall f out b, setOk v out -> setOk v (live f out b).
(** Locations of actual arguments *)
Hypothesis LocsOk : forall c i r, In (i, r) (callLocs c) -> rCollapsed r = false /\ rLo r = precise 0 /\ (exists q, locOk v q r) /\
  forall p, locOk v p (argLoc p r).

Lemma insertIf_ok p ls : forall s, setOk v s -> Forall (fun r => exists q, locOk v q r) ls -> setOk v (fold_left (insertIf p) ls s) /\
  forall q b, setCovers (fold_left (insertIf p) ls s) q b <-> setCovers s q b \/ exists r, In r ls /\ p r = true /\ rPtr r = Some q /\ covers r b.
Proof.
  induction ls as [|x ls IH]; intros s Hs Hl; cbn [fold_left].
  - split; [exact Hs|]. intros q b. split; [auto|]. intros [K|(r & [] & _)]. exact K.
  - inversion Hl as [|? ? (p0 & Hx) Hl']; subst. unfold insertIf at 2 4. destruct (p x) eqn:Ep.
    + destruct (msInsert_ok v s p0 x Hv Hs Hx) as [A B]. destruct (IH _ A Hl') as [C D]. split; [exact C|]. intros q b. rewrite D, B. pose proof (sh_ptr _ _ _ _ Hx) as Px. split.
      * intros [[K|[-> K]]|(r & K & K')]; [now left|right; exists x; repeat split; auto; now left|right; exists r; split; [now right|exact K']].
      * intros [K|(r & [<-|K] & K1 & K2 & K3)]; [left; now left|left; right; split; [congruence|exact K3]|right; exists r; auto].
    + destruct (IH _ Hs Hl') as [C D]. split; [exact C|]. intros q b. rewrite D. split.
      * intros [K|(r & K & K')]; [now left|right; exists r; split; [now right|exact K']].
      * intros [K|(r & [<-|K] & K1 & K2 & K3)]; [now left|congruence|right; exists r; auto].
Qed.
Lemma defsOf_ok f : Forall (fun r => exists q, locOk v q r) (defsOf fn f).
Proof. destruct (DefsOk f) as [A B]. unfold defsOf. apply Forall_app. split; now apply allLocs_ok. Qed.
Lemma defines_loc f c : defines fn f c <-> exists r, In r (defsOf fn f) /\ rPtr r = Some (fst c) /\ covers r (snd c).
Proof.
  destruct (DefsOk f) as [A B]. unfold defines, inSet, defsOf. rewrite (allLocs_covers v _ _ _ A), (allLocs_covers v _ _ _ B). split.
  - intros [(r & K & K')|(r & K & K')]; exists r; (split; [apply in_or_app; auto|exact K']).
  - intros (r & K & K'). apply in_app_iff in K. destruct K as [K|K]; [left|right]; exists r; auto.
Qed.
Lemma mergeAll_ok ls : Forall (setOk v) ls -> setOk v (mergeAll ls) /\ forall q b, setCovers (mergeAll ls) q b <-> exists s, In s ls /\ setCovers s q b.
Proof.
  intros H. unfold mergeAll. assert (G : forall s0, setOk v s0 -> setOk v (fold_left (fun s t => fst (mmerge s t)) ls s0) /\
    forall q b, setCovers (fold_left (fun s t => fst (mmerge s t)) ls s0) q b <-> setCovers s0 q b \/ exists s, In s ls /\ setCovers s q b).
  { induction H as [|t ls Ht Hl IH]; intros s0 H0; cbn [fold_left].
    - split; [exact H0|]. intros q b. split; [auto|]. intros [K|(s & [] & _)]. exact K.
    - pose proof (mmerge_ok v s0 t Hv H0 Ht) as M. destruct (mmerge s0 t) as [s1 ch]. destruct M as (M1 & M2 & _). cbn [fst]. destruct (IH s1 M1) as [A B]. split; [exact A|].
      intros q b. rewrite B, M2. split; [intros [[K|K]|(s & K & K')]; [now left|right; exists t; split; [now left|exact K]|right; exists s; split; [now right|exact K']]|].
      intros [K|(s & [<-|K] & K')]; [left; now left|left; now right|right; now exists s]. }
  destruct (G [] (setOk_nil v)) as [A B]. split; [exact A|]. intros q b. rewrite B. split; [intros [(l & r & [] & _)|K]; exact K|now right].
Qed.
Lemma argLoc_covers p r z : rCollapsed r = false -> rLo r = precise 0 -> covers r z -> covers (argLoc p r) z.
Proof. intros H1 H2. unfold covers. rewrite H1, H2. cbn. auto. Qed.
Lemma addArgs_ok args ls : (forall i r, In (i, r) ls -> (exists q, locOk v q r) /\ forall p, locOk v p (argLoc p r)) -> forall s s', setOk v s -> addArgs dio args ls s = Some s' ->
  setOk v s' /\ (forall q b, setCovers s q b -> setCovers s' q b) /\
  forall i r q z p, In (i, r) ls -> rPtr r = Some q -> nth_error args i = Some p -> rCollapsed r = false -> rLo r = precise 0 -> covers r z -> setCovers s q z -> setCovers s' p z.
Proof.
  induction ls as [|[i r] ls IH]; intros HL s s' Hs H; cbn [addArgs] in H.
  - injection H as <-. split; [exact Hs|]. split; [auto|]. intros i r q z p [].
  - assert (HL' : forall i r, In (i, r) ls -> (exists q, locOk v q r) /\ forall p, locOk v p (argLoc p r)) by (intros; apply HL with i0; now right).
    destruct (HL i r (or_introl eq_refl)) as ((q0 & Hq0) & Ha). destruct (overlap dio s r) eqn:Eo.
    + destruct (nth_error args i) as [p|] eqn:En; [|discriminate]. destruct (msInsert_ok v s p (argLoc p r) Hv Hs (Ha p)) as [A B].
      destruct (IH HL' _ _ A H) as (C1 & C2 & C3). split; [exact C1|]. split; [intros q b K; apply C2, B; now left|].
      intros j t q z p' [E|K] Rp Np Rc Rl Cz Sz.
      * injection E as <- <-. assert (p' = p) by congruence. subst p'. apply C2, B. right. split; [reflexivity|]. now apply argLoc_covers.
      * eapply C3; eauto. apply B. now left.
    + destruct (IH HL' _ _ Hs H) as (C1 & C2 & C3). split; [exact C1|]. split; [exact C2|].
      intros j t q z p' [E|K] Rp Np Rc Rl Cz Sz; [|eapply C3; eauto]. injection E as <- <-. exfalso.
      pose proof (sh_ptr _ _ _ _ Hq0) as P0. assert (q0 = q) by congruence. subst q0. exact (overlap_ok dio Hdio v Hv s q r Hs Hq0 Eo z Cz Sz).
Qed.
Lemma callSet_ok f out c g s : setOk v out -> callSet f out c g = Some s -> setOk v s.
Proof.
  intros Ho. unfold callSet. destruct (gVarArg (fn g)); [intros H; injection H as <-; now apply LiveOk|]. intros H.
  refine (proj1 (addArgs_ok _ _ _ _ _ (LiveOk f out (blockOf c) Ho) H)). intros i r K. destruct (LocsOk c i r K) as (_ & _ & A & B). auto.
Qed.
Lemma mayLives_ok f ext calls : setOk v (mayLives f ext calls).
Proof.
  unfold GlobalLiveModel.mayLives, initMayLives. destruct (memb f ext); [apply insertIf_ok; [apply setOk_nil|apply defsOf_ok]|].
  destruct calls; [apply setOk_nil|]. apply insertIf_ok; [apply setOk_nil|apply defsOf_ok].
Qed.
Lemma process_spec ext ns : forall LS res r, process ext ns LS res = Some r -> (forall h s, In s (LS h) -> setOk v s) ->
  (forall x, In x res -> In x r) /\
  forall pre n post f, ns = pre ++ n :: post -> nFun n = Some f -> exists LSf, In (f, mayLives f ext (LSf f)) r /\
    (forall h s, In s (LS h) -> In s (LSf h)) /\ (forall h s, In s (LSf h) -> setOk v s) /\
    forall m g c, In m pre -> nFun m = Some g -> In (mkEdge (Some c) (Some f)) (nCalls m) ->
      exists out s, In (g, out) r /\ setOk v out /\ In s (LSf f) /\ callSet g out c f = Some s.
Proof.
  induction ns as [|n ns IH]; intros LS res r H HS; cbn [GlobalLiveModel.process] in H.
  - injection H as <-. split; [auto|]. intros [|? ?] n0 post f E; discriminate.
  - destruct (nFun n) as [f|] eqn:En.
    + set (out := mayLives f ext (LS f)) in *. destruct (recordCalls f out (nCalls n) [] LS) as [LS'|] eqn:Er; [|discriminate].
      destruct (recordCalls_spec _ _ _ _ _ _ Er) as (R1 & R2 & R3). assert (Ho : setOk v out) by apply mayLives_ok.
      assert (HS' : forall h s, In s (LS' h) -> setOk v s). { intros h s K. destruct (R3 h s K) as [K'|(c & K')]; [eapply HS; exact K'|eapply callSet_ok; eauto]. }
      destruct (IH _ _ _ H HS') as (A1 & A2). split; [intros x K; apply A1, in_or_app; now left|].
      intros pre m post g E Hm. destruct pre as [|p pre]; cbn in E; injection E as <- E.
      * assert (g = f) by congruence. subst g. exists LS. split; [apply A1, in_or_app; right; now left|]. split; [auto|]. split; [exact HS|]. intros m g c [].
      * destruct (A2 pre m post g E Hm) as (LSf & B1 & B2 & B3 & B4). exists LSf. split; [exact B1|]. split; [intros h s K; apply B2, R1, K|]. split; [exact B3|].
        intros m' g' c [<-|K] Hf Hc; [|eapply B4; eauto]. assert (g' = f) by congruence. subst g'. destruct (R2 c g Hc) as (s & S1 & S2).
        exists out, s. split; [apply A1, in_or_app; right; now left|]. split; [exact Ho|]. split; [now apply B2|exact S1].
    + destruct (IH _ _ _ H HS) as (A1 & A2). split; [exact A1|]. intros pre m post g E Hm. destruct pre as [|p pre]; cbn in E; injection E as <- E; [congruence|].
      destruct (A2 pre m post g E Hm) as (LSf & B1 & B2 & B3 & B4). exists LSf. split; [exact B1|]. split; [exact B2|]. split; [exact B3|].
      intros m' g' c [<-|K] Hf Hc; [congruence|eapply B4; eauto].
Qed.
End Sets.
End Proof.
