(** Proofs about the deduction of attributes (C54). *)
From Coq Require Import List Bool Arith String Lia.
From Verif Require Import AttrModel AttrSpec.
Import ListNotations.
Local Open Scope list_scope.

Lemma kindEq_true a b : kindEq a b = true <-> a = b.
Proof. destruct a, b; cbn; split; congruence. Qed.
Lemma addFnAttr_spec a k f k' f' : addFnAttr a k f k' f' = true <-> (k = k' /\ f = f') \/ a k' f' = true.
Proof.
  unfold addFnAttr. destruct (kindEq k k') eqn:E; cbn [andb].
  - apply kindEq_true in E. destruct (Nat.eqb_spec f f'); [tauto|]. split; [tauto|]. intros [[_ H]|H]; [contradiction|exact H].
  - split; [tauto|]. intros [[-> _]|H]; [|exact H]. assert (kindEq k' k' = true) by (apply kindEq_true; reflexivity). congruence.
Qed.
Definition three (k : attrKind) : Prop := k = NoIO \/ k = AlwaysReturn \/ k = DirectUserCallee.

Section M.
Variable M : module.

Lemma addDbg_spec a k f : addDbg M a k f = true <-> a k f = true \/ (In f (mFuncs M) /\ mDbgInfo M f = true /\ three k).
Proof.
  unfold addDbg. revert a. induction (mFuncs M) as [|x l IH]; intros a; cbn [fold_left]; [cbn [In]; tauto|].
  rewrite IH. cbn [In]. destruct (mDbgInfo M x) eqn:D.
  - rewrite !addFnAttr_spec. unfold three.
    split.
    + intros [[[H1 H2]|[[H1 H2]|[[H1 H2]|H]]]|H]; try tauto; subst; right; (split; [left; reflexivity|]); (split; [exact D|]); auto.
    + intros [H|([->|H]&H1&[H2|[H2|H2]])]; subst; tauto.
  - split; [tauto|]. intros [H|([->|H]&H1&H2)]; [tauto|congruence|tauto].
Qed.
Lemma addAll_spec fs ks : forall a k f, addAll a fs ks k f = true <-> a k f = true \/ (In f fs /\ In k ks).
Proof.
  unfold addAll. induction fs as [|x fs IH]; intros a k f; cbn [fold_left]; [cbn [In]; tauto|].
  rewrite IH. cbn [In].
  assert (G : forall ks a, fold_left (fun a k => addFnAttr a k x) ks a k f = true <-> a k f = true \/ (x = f /\ In k ks)).
  { clear. induction ks as [|y ks IH]; intros a; cbn [fold_left]; [cbn [In]; tauto|].
    rewrite IH, addFnAttr_spec. cbn [In]. tauto. }
  rewrite G. tauto.
Qed.
Lemma allFuncs_some ns : forall l, allFuncs ns = Some l -> ns = map Some l.
Proof.
  induction ns as [|[f|] ns IH]; intros l H; cbn [allFuncs] in H; [injection H as <-; reflexivity| |discriminate].
  destruct (allFuncs ns) as [l'|]; [|discriminate]. injection H as <-. cbn [map]. f_equal. apply IH. reflexivity.
Qed.
Lemma allFuncs_intro ns : (forall x, In x ns -> x <> None) -> exists l, allFuncs ns = Some l.
Proof.
  induction ns as [|[f|] ns IH]; intros H; cbn [allFuncs].
  - eexists; reflexivity.
  - destruct IH as [l Hl]; [intros x Hx; apply H; right; exact Hx|]. rewrite Hl. eexists; reflexivity.
  - destruct (H None (or_introl eq_refl) eq_refl).
Qed.
Lemma memb_spec f l : existsb (Nat.eqb f) l = true <-> In f l.
Proof. rewrite existsb_exists. split; [intros (x & Hx & E); apply Nat.eqb_eq in E; subst; exact Hx|intros H; exists f; split; [exact H|apply Nat.eqb_refl]]. Qed.
Lemma calleeFuncs_some fs cs : calleeFuncs M fs = Some cs ->
  (forall f o, In f fs -> In o (mEdges M f) -> exists g, o = Some g /\ (In g fs \/ In g cs)) /\
  (forall g, In g cs -> ~ In g fs /\ exists f, In f fs /\ In (Some g) (mEdges M f)).
Proof.
  unfold calleeFuncs. destruct (allFuncs _) as [l|] eqn:E; [|discriminate]. intros H. injection H as <-.
  apply allFuncs_some in E. split.
  - intros f o Hf Ho. assert (Hin : In o (map Some l)) by (rewrite <- E; apply in_flat_map; exists f; tauto).
    apply in_map_iff in Hin. destruct Hin as (g & <- & Hg). exists g. split; [reflexivity|].
    destruct (existsb (Nat.eqb g) fs) eqn:X; [left; apply memb_spec; exact X|right].
    apply filter_In. rewrite X. split; [exact Hg|reflexivity].
  - intros g Hg. apply filter_In in Hg. destruct Hg as [Hg X]. split.
    + intros C. apply memb_spec in C. rewrite C in X. discriminate.
    + assert (Hin : In (Some g) (flat_map (mEdges M) fs)) by (rewrite E; apply in_map; exact Hg).
      apply in_flat_map in Hin. exact Hin.
Qed.

(** What is checked for each function of a component. *)
Definition badFn (L : nat -> bool) (k : attrKind) (f : nat) : bool :=
  match k with
  | NoIO => ioCandidate M f
  | AlwaysReturn => mayNotReturn M (fun _ => L) f
  | _ => false
  end.
Definition newAttrs a fs cs := addNoIOAttr M a fs cs ++ addAlwaysReturnAttr M a fs cs ++ addDirectUserCalleeAttr a fs cs.
Lemma newAttrs_spec a fs cs k : In k (newAttrs a fs cs) <->
  three k /\ (forall f, In f fs -> badFn (a LibFunc) k f = false) /\ (forall f, In f cs -> a k f = true).
Proof.
  assert (N : forall (p : nat -> bool) l, existsb p l = false <-> forall x, In x l -> p x = false).
  { intros p l. induction l as [|y l IH]; cbn [existsb In]; [tauto|]. rewrite orb_false_iff, IH. split.
    - intros [H1 H2] x [->|Hx]; auto.
    - intros H. split; [apply H; left; reflexivity|intros; apply H; right; assumption]. }
  assert (Q : forall k l, (forall x, In x l -> negb (a k x) = false) <-> forall x, In x l -> a k x = true).
  { intros k0 l. split; intros H x Hx; specialize (H x Hx); destruct (a k0 x); cbn in *; congruence. }
  unfold newAttrs. rewrite !in_app_iff.
  assert (A1 : In k (addNoIOAttr M a fs cs) <-> k = NoIO /\ (forall f, In f fs -> ioCandidate M f = false) /\ (forall f, In f cs -> a NoIO f = true)).
  { unfold addNoIOAttr. rewrite <- Q, <- !N. destruct (existsb (ioCandidate M) fs), (existsb _ cs); cbn [In]; intuition congruence. }
  assert (A2 : In k (addAlwaysReturnAttr M a fs cs) <-> k = AlwaysReturn /\ (forall f, In f fs -> mayNotReturn M a f = false) /\ (forall f, In f cs -> a AlwaysReturn f = true)).
  { unfold addAlwaysReturnAttr. rewrite <- Q, <- !N. destruct (existsb (mayNotReturn M a) fs), (existsb _ cs); cbn [In]; intuition congruence. }
  assert (A3 : In k (addDirectUserCalleeAttr a fs cs) <-> k = DirectUserCallee /\ (forall f, In f cs -> a DirectUserCallee f = true)).
  { unfold addDirectUserCalleeAttr. rewrite <- Q, <- !N. destruct (existsb _ cs); cbn [In]; intuition congruence. }
  rewrite A1, A2, A3. unfold three. split.
  - intros [(-> & H1 & H2)|[(-> & H1 & H2)|(-> & H2)]]; cbn [badFn]; auto.
  - intros ([->|[->| ->]] & H1 & H2); cbn [badFn] in H1; auto.
Qed.

Definition components (SCC : list (option nat)) (fs cs : list nat) : Prop :=
  allFuncs SCC = Some fs /\ calleeFuncs M fs = Some cs.
Lemma runOnSCC_spec a SCC k f : runOnSCC M a SCC k f = true <->
  addDbg M a k f = true \/ exists fs cs, components SCC fs cs /\ In f fs /\ In k (newAttrs (addDbg M a) fs cs).
Proof.
  unfold runOnSCC, components. destruct (allFuncs SCC) as [fs|]; [|split; [tauto|intros [H|(fs & cs & [H _] & _)]; [exact H|discriminate]]].
  destruct (calleeFuncs M fs) as [cs|] eqn:C.
  - rewrite addAll_spec. split.
    + intros [H|[H1 H2]]; [tauto|]. right. exists fs, cs. repeat split; auto.
    + intros [H|(fs' & cs' & [H1 H2] & H3 & H4)]; [tauto|]. injection H1 as <-. rewrite C in H2. injection H2 as <-. right. split; [exact H3|exact H4].
  - split; [tauto|]. intros [H|(fs' & cs' & [H1 H2] & _)]; [exact H|]. injection H1 as <-. congruence.
Qed.
Lemma runOnSCC_lib a SCC : forall f, runOnSCC M a SCC LibFunc f = a LibFunc f.
Proof.
  intros f. apply eq_iff_eq_true. rewrite runOnSCC_spec, addDbg_spec. split.
  - intros [[H|(_ & _ & [H|[H|H]])]|(fs & cs & _ & _ & H)]; try discriminate; [exact H|].
    apply newAttrs_spec in H. destruct H as [[H|[H|H]] _]; discriminate.
  - tauto.
Qed.
Lemma addDbg_lib a f : addDbg M a LibFunc f = a LibFunc f.
Proof. apply eq_iff_eq_true. rewrite addDbg_spec. unfold three. intuition discriminate. Qed.
Lemma badFn_ext L L' k f : (forall f, L f = L' f) -> badFn L k f = badFn L' k f.
Proof. intros H. destruct k; cbn [badFn]; try reflexivity. unfold mayNotReturn. rewrite H. reflexivity. Qed.
Lemma runPO_lib SCCs : forall a f, runPO M a SCCs LibFunc f = a LibFunc f.
Proof. unfold runPO. induction SCCs as [|S l IH]; intros a f; cbn [fold_left]; [reflexivity|]. rewrite IH. apply runOnSCC_lib. Qed.

(** *** Soundness *)
Definition closed (L : nat -> bool) (a : attrs) : Prop := forall k f, three k -> a k f = true ->
  mDbgInfo M f = true \/
  (badFn L k f = false /\ forall o, In o (mEdges M f) -> exists g, o = Some g /\ a k g = true).
Lemma runOnSCC_closed a SCC : closed (a LibFunc) a -> closed (a LibFunc) (runOnSCC M a SCC).
Proof.
  intros Hc k f Hk H. apply runOnSCC_spec in H.
  assert (Mono : forall g, addDbg M a k g = true -> runOnSCC M a SCC k g = true) by (intros g Hg; apply runOnSCC_spec; left; exact Hg).
  assert (Mono0 : forall g, a k g = true -> runOnSCC M a SCC k g = true) by (intros g Hg; apply Mono, addDbg_spec; left; exact Hg).
  destruct H as [H|(fs & cs & HC & Hf & Hn)].
  - apply addDbg_spec in H. destruct H as [H|(_ & H & _)]; [|left; exact H].
    destruct (Hc k f Hk H) as [D|[B E]]; [left; exact D|right]. split; [exact B|].
    intros o Ho. destruct (E o Ho) as (g & -> & Hg). exists g. auto.
  - right. pose proof Hn as Hn'. apply newAttrs_spec in Hn'. destruct Hn' as (_ & H1 & H2). split.
    + rewrite <- (H1 f Hf). apply badFn_ext. intros x. symmetry. apply addDbg_lib.
    + intros o Ho. destruct HC as [HC1 HC2]. destruct (calleeFuncs_some fs cs HC2) as [E _].
      destruct (E f o Hf Ho) as (g & -> & [Hg|Hg]); exists g; (split; [reflexivity|]).
      * apply runOnSCC_spec. right. exists fs, cs. repeat split; assumption.
      * apply Mono, H2. exact Hg.
Qed.
Lemma closed_ext L L' a : (forall f, L f = L' f) -> closed L a -> closed L' a.
Proof.
  intros E H k f Hk Ha. destruct (H k f Hk Ha) as [D|[B G]]; [left; exact D|right]. split; [|exact G].
  rewrite <- B. apply badFn_ext. intros x. symmetry. apply E.
Qed.
Lemma runPO_closed SCCs : forall a, closed (a LibFunc) a -> closed (a LibFunc) (runPO M a SCCs).
Proof.
  unfold runPO. induction SCCs as [|S l IH]; intros a H; cbn [fold_left]; [exact H|].
  apply (closed_ext (runOnSCC M a S LibFunc)); [apply runOnSCC_lib|]. apply IH.
  apply (closed_ext (a LibFunc)); [intros; symmetry; apply runOnSCC_lib|]. apply runOnSCC_closed. exact H.
Qed.

Section Exec.
Variable P : program.
Variable S_ : nat -> Prop.
Variable bad : event.
Hypothesis Hdef : forall f, S_ f -> defined P f = true ->
  (forall pc g, code P f pc = Some (ICall g) -> S_ g \/ silent P g) /\ forall pc, code P f pc <> Some ICallPtr.
Hypothesis Hext : forall f, S_ f -> defined P f = false -> ~ extBack P f /\ (bad = EIO -> ~ extIO P f) /\ (bad = EExit -> ~ extExit P f).
Definition ok (fr : frame) : Prop := S_ (fst fr) \/ silent P (fst fr).
Lemma safe_step s o s' : step P s o s' -> Forall ok s -> o <> Some bad /\ Forall ok s'.
Proof.
  intros H Hs. destruct H; inversion_clear Hs as [|x y Hf Hs']; cbn [fst ok] in *; unfold ok in Hf; cbn [fst] in Hf.
  - split; [discriminate|]. destruct Hf as [Hf|[Hf _]]; [|congruence]. destruct (Hdef f Hf H) as [Hd _].
    constructor; [exact (Hd pc g H0)|]. constructor; [left; exact Hf|exact Hs'].
  - destruct Hf as [Hf|[Hf _]]; [|congruence]. destruct (Hdef f Hf H) as [_ Hd]. destruct (Hd pc H0).
  - split; [discriminate|]. constructor; [exact Hf|exact Hs'].
  - split; [discriminate|exact Hs'].
  - split; [discriminate|exact Hs'].
  - destruct Hf as [Hf|(_ & Hf & _)]; [|contradiction]. destruct (Hext f Hf H) as (_ & He & _).
    split; [intros E; injection E as <-; exact (He eq_refl H0)|]. constructor; [left; exact Hf|exact Hs'].
  - split; [|constructor]. destruct Hf as [Hf|(_ & _ & Hf & _)]; [|contradiction]. destruct (Hext f Hf H) as (_ & _ & He).
    intros E; injection E as <-; exact (He eq_refl H0).
  - destruct Hf as [Hf|(_ & _ & _ & Hf)]; [|contradiction]. destruct (Hext f Hf H) as (He & _). contradiction.
Qed.
Lemma safe_exec s tr s' : exec P s tr s' -> Forall ok s -> ~ In bad tr.
Proof.
  induction 1 as [s|s o s' tr s'' St Ex IH]; intros Hs; [intros []|].
  destruct (safe_step _ _ _ St Hs) as [Ho Hs']. specialize (IH Hs').
  destruct o as [e|]; [|exact IH]. intros [->|H]; [apply Ho; reflexivity|exact (IH H)].
Qed.
End Exec.

Theorem sound P a SCCs k f bad : faithful M P -> (forall k f, three k -> a k f = false) -> three k ->
  (bad = EIO -> k = NoIO /\ ioTableComplete M P) -> (bad = EExit -> k = AlwaysReturn /\ externalsReturn M P a) ->
  runPO M a SCCs k f = true -> ~ performs P f bad.
Proof.
  intros F Ha Hk HIO HEx Hf (tr & s & Ex & Hin).
  assert (Hc : closed (a LibFunc) (runPO M a SCCs)).
  { apply runPO_closed. intros k0 f0 Hk0 H0. rewrite Ha in H0 by exact Hk0. discriminate. }
  set (b := runPO M a SCCs) in *.
  assert (E0 : forall f, b k f = true -> silent P f \/ (badFn (a LibFunc) k f = false /\ forall o, In o (mEdges M f) -> exists g, o = Some g /\ b k g = true)).
  { intros g Hg. destruct (Hc k g Hk Hg) as [D|D]; [left; exact (fa_dbg _ _ F g D)|right; exact D]. }
  refine (safe_exec P (fun f => b k f = true) bad _ _ [(f, 0)] tr s Ex _ Hin).
  - intros g Hg Hd. destruct (E0 g Hg) as [[D _]|[_ E]]; [congruence|]. split.
    + intros pc h Hh. destruct (fa_call _ _ F g pc h Hh) as [H|[_ H]]; [left|right; exact H].
      destruct (E _ H) as (h' & Eq & Hh'). injection Eq as ->. exact Hh'.
    + intros pc C. destruct (E _ (fa_ptr _ _ F g pc C)) as (h & Eq & _). discriminate.
  - intros g Hg Hd. destruct (E0 g Hg) as [(_ & N1 & N2 & N3)|[B E]]; [tauto|].
    split; [intros C; destruct (E _ (fa_back _ _ F g C)) as (h & Eq & _); discriminate|].
    pose proof (fa_decl _ _ F g) as HD. rewrite Hd in HD. symmetry in HD. apply negb_false_iff in HD. split.
    + intros Eb. destruct (HIO Eb) as [-> HT]. cbn [badFn] in B. unfold ioCandidate in B.
      destruct (mIntrinsic M g) eqn:EI; [exact (fa_intrinsic _ _ F g EI)|].
      apply orb_false_iff in B. destruct B as [B1 B2]. rewrite HD, andb_true_r in B2. apply negb_false_iff in B2.
      rewrite B2 in B1. exact (HT g B2 B1).
    + intros Eb. destruct (HEx Eb) as [-> HT]. cbn [badFn] in B. unfold mayNotReturn in B. apply (HT g HD).
      destruct (mWillReturn M g); [left; reflexivity|right]. cbn [negb andb] in B. apply orb_false_iff in B.
      destruct B as [B1 B2]. split; [exact B1|]. rewrite HD in B2. cbn [andb] in B2.
      destruct (mIntrinsic M g); [left; reflexivity|right]. cbn in B2. apply negb_false_iff in B2. exact B2.
  - constructor; [left; exact Hf|constructor].
Qed.

(** *** Completeness *)
Lemma reach_trans f g h : reach M f g -> reach M g h -> reach M f h.
Proof. induction 1 as [|f g' g E R IH]; intros H; [exact H|]. eapply reach_step; [exact E|]. apply IH. exact H. Qed.
Lemma complete a k SCCs : three k -> bottomUp M SCCs -> forall f,
  (exists S, In S SCCs /\ inSCC S f) ->
  (forall g, reach M f g -> badFn (a LibFunc) k g = false /\ ~ In None (mEdges M g)) ->
  runPO M a SCCs k f = true.
Proof.
  intros Hk HB. assert (G : forall before after, SCCs = before ++ after -> forall f,
    (exists S, In S before /\ inSCC S f) ->
    (forall g, reach M f g -> badFn (a LibFunc) k g = false /\ ~ In None (mEdges M g)) ->
    runPO M a before k f = true).
  { intros before. induction before as [|SCC before IH] using rev_ind; intros after E f HS HG; [destruct HS as (S & [] & _)|].
    rewrite <- app_assoc in E. cbn [app] in E. unfold runPO. rewrite fold_left_app. cbn [fold_left]. fold (runPO M a before).
    apply runOnSCC_spec. destruct HS as (S & HS & Hf). apply in_app_iff in HS. destruct HS as [HS|[->|[]]].
    - left. apply addDbg_spec. left. apply (IH (SCC :: after) E f); [exists S; tauto|exact HG].
    - right. destruct (HB before S after E f Hf) as [H1 _].
      assert (Hr : forall g, inSCC S g -> reach M f g).
      { intros g Hg. destruct (H1 _ Hg) as (g' & Eq & R). injection Eq as ->. exact R. }
      destruct (allFuncs_intro S) as [fs Hfs].
      { intros x Hx. destruct (H1 x Hx) as (g & -> & _). discriminate. }
      pose proof (allFuncs_some _ _ Hfs) as ES.
      assert (Hin : forall g, In g fs <-> inSCC S g).
      { intros g. unfold inSCC. rewrite ES. split; [apply in_map|]. intros H. apply in_map_iff in H. destruct H as (x & Ex & Hx). injection Ex as ->. exact Hx. }
      destruct (allFuncs_intro (flat_map (mEdges M) fs)) as [l Hl].
      { intros x Hx ->. apply in_flat_map in Hx. destruct Hx as (g & Hg & HN). apply Hin, Hr in Hg. exact (proj2 (HG g Hg) HN). }
      destruct (calleeFuncs M fs) as [cs|] eqn:C; [|unfold calleeFuncs in C; rewrite Hl in C; discriminate].
      exists fs, cs. split; [split; assumption|]. split; [apply Hin; exact Hf|]. apply newAttrs_spec. split; [exact Hk|]. split.
      + intros g Hg. apply Hin, Hr in Hg. rewrite <- (proj1 (HG g Hg)). apply badFn_ext. intros x. rewrite addDbg_lib. apply runPO_lib.
      + intros g Hg. destruct (calleeFuncs_some fs cs C) as [_ C2]. destruct (C2 g Hg) as (Nf & h & Hh & He).
        apply addDbg_spec. left. pose proof Hh as Hh'. apply Hin in Hh'.
        destruct (HB before S after E h Hh') as [_ H2]. destruct (H2 g He) as [X|HX]; [apply Hin in X; contradiction|].
        apply (IH (S :: after) E g HX). intros g' Hg'. apply HG.
        apply (reach_trans f h); [apply Hr; exact Hh'|]. eapply reach_step; [exact He|exact Hg']. }
  intros f. apply (G SCCs []). rewrite app_nil_r. reflexivity.
Qed.

(** *** Library functions *)
Lemma fold_add_spec k fs : forall a k' f, fold_left (fun a f => addFnAttr a k f) fs a k' f = true <-> a k' f = true \/ (k = k' /\ In f fs).
Proof. induction fs as [|x fs IH]; intros a k' f; cbn [fold_left]; [cbn [In]; tauto|]. rewrite IH, addFnAttr_spec. cbn [In]. tauto. Qed.
Lemma addIndirect_spec a k f : addIndirect M a k f = true <->
  a k f = true \/ (k = IndirectCall /\ In f (mFuncs M) /\ existsb (fun u => existsb notCall (collect u)) (mUsers M f) = true).
Proof.
  unfold addIndirect. revert a. induction (mFuncs M) as [|x l IH]; intros a; cbn [fold_left]; [cbn [In]; tauto|].
  rewrite IH. cbn [In]. destruct (existsb _ (mUsers M x)) eqn:D.
  - rewrite addFnAttr_spec. split.
    + intros [[[<- ->]|H]|(-> & H1 & H2)]; [right; tauto|tauto|right; tauto].
    + intros [H|(-> & [->|H1] & H2)]; tauto.
  - split; [intros [H|H]; tauto|]. intros [H|(-> & [->|H1] & H2)]; [tauto|congruence|tauto].
Qed.
Lemma addLibSCC_spec SCCs : forall a w, exists b, fold_left (addLibSCC M) SCCs (a, w) = (b, w ++ flat_map (sccFuncs M) SCCs) /\
  forall k f, b k f = true <-> a k f = true \/
    (k = LibFunc /\ exists S, In S SCCs /\ In f (sccFuncs M S) /\ existsb (mLib M) (sccFuncs M S) = true).
Proof.
  induction SCCs as [|S l IH]; intros a w; cbn [fold_left flat_map].
  - exists a. rewrite app_nil_r. split; [reflexivity|]. intros k f. split; [tauto|]. intros [H|(_ & S & [] & _)]; exact H.
  - unfold addLibSCC at 2. destruct (IH (if existsb (mLib M) (sccFuncs M S) then fold_left (fun a f => addFnAttr a LibFunc f) (sccFuncs M S) a else a) (w ++ sccFuncs M S)) as (b & E & Hb).
    exists b. rewrite E, <- app_assoc. split; [reflexivity|]. intros k f. rewrite Hb.
    destruct (existsb (mLib M) (sccFuncs M S)) eqn:D.
    + rewrite fold_add_spec. split.
      * intros [[H|[<- H]]|(-> & S' & H1 & H2)]; [tauto| |].
        -- right. split; [reflexivity|]. exists S. split; [left; reflexivity|tauto].
        -- right. split; [reflexivity|]. exists S'. split; [right; exact H1|exact H2].
      * intros [H|(-> & S' & [<-|H1] & H2)]; [tauto|tauto|]. right. split; [reflexivity|]. exists S'. tauto.
    + split.
      * intros [H|(-> & S' & H1 & H2)]; [tauto|]. right. split; [reflexivity|]. exists S'. split; [right; exact H1|exact H2].
      * intros [H|(-> & S' & [<-|H1] & H2)]; [tauto|destruct H2; congruence|]. right. split; [reflexivity|]. exists S'. tauto.
Qed.
Definition libUser (a : attrs) (f : nat) : bool := existsb (fun u => match u with UCall c _ => a LibFunc c | _ => false end) (mUsers M f).
Lemma topDown_spec a x k f : addLibFuncAttrsTopDown M a x k f = true <-> a k f = true \/ (k = LibFunc /\ x = f /\ libUser a x = true).
Proof.
  unfold addLibFuncAttrsTopDown. fold (libUser a x). destruct (libUser a x).
  - rewrite addFnAttr_spec. intuition congruence.
  - intuition congruence.
Qed.
Lemma libUser_spec a f : libUser a f = true <-> exists c b, In (UCall c b) (mUsers M f) /\ a LibFunc c = true.
Proof.
  unfold libUser. rewrite existsb_exists. split.
  - intros ([c b| |] & H1 & H2); try discriminate. exists c, b. tauto.
  - intros (c & b & H1 & H2). exists (UCall c b). tauto.
Qed.
Lemma topDown_mono l : forall a k f, a k f = true -> fold_left (addLibFuncAttrsTopDown M) l a k f = true.
Proof. induction l as [|x l IH]; intros a k f H; cbn [fold_left]; [exact H|]. apply IH, topDown_spec. left; exact H. Qed.
Lemma topDown_other l : forall a k f, ~ In f l \/ k <> LibFunc -> fold_left (addLibFuncAttrsTopDown M) l a k f = a k f.
Proof.
  induction l as [|x l IH]; intros a k f H; cbn [fold_left]; [reflexivity|].
  rewrite IH by (destruct H as [H|H]; [left; intros C; apply H; right; exact C|right; exact H]).
  apply eq_iff_eq_true. rewrite topDown_spec. split; [|tauto]. intros [E|(-> & -> & _)]; [exact E|].
  destruct H as [H|H]; [destruct H; left; reflexivity|contradiction].
Qed.
End M.
