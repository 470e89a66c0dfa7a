(** Proofs about the interchange of loops: order of iterations. *)
From Coq Require Import ZArith List Bool Lia Permutation.
From Verif Require Import CanonModel CanonSpec InterchangeModel InterchangeSpec InterchangeProof.
Import ListNotations.
Local Open Scope Z_scope.

(** * Lists of iterations *)
Section Its.
Variable fs : list nat.
Variable N : nat -> Z.
Fixpoint its (os : list nat) (k : nat -> Z) : list (list Z) :=
  match os with
  | [] => [map k fs]
  | f :: os => flat_map (fun j => its os (updN k f (Z.of_nat j))) (seq 0 (Z.to_nat (N f)))
  end.
Lemma its_ext os : forall k k', (forall g, In g fs -> ~ In g os -> k g = k' g) -> its os k = its os k'.
Proof.
  induction os as [|f os IH]; intros k k' H; cbn [its]; [f_equal; apply map_ext_in; intros g Hg; apply H; auto|].
  induction (seq 0 (Z.to_nat (N f))) as [|j l IHl]; cbn [flat_map]; [reflexivity|]. f_equal; [|exact IHl].
  apply IH. intros g Hg Ho. unfold updN. destruct (Nat.eqb_spec g f); [reflexivity|]. apply H; [exact Hg|]. intros [K|K]; congruence.
Qed.
Lemma in_its os : NoDup os -> forall k ks, In ks (its os k) <->
  exists k', (forall g, In g fs -> ~ In g os -> k' g = k g) /\ (forall g, In g os -> 0 <= k' g < N g) /\ ks = map k' fs.
Proof.
  induction os as [|f os IH]; intros ND k ks; cbn [its].
  - split.
    + intros [<-|[]]. exists k. firstorder.
    + intros (k' & H & _ & ->). left. apply map_ext_in. intros g Hg. symmetry. apply H; auto.
  - inversion ND; subst. rewrite in_flat_map. split.
    + intros (j & Hj & H). apply in_seq in Hj. apply IH in H; [|assumption]. destruct H as (k' & K1 & K2 & ->).
      destruct (in_dec Nat.eq_dec f fs) as [Hf|Hf].
      * exists k'. split; [|split; [|reflexivity]].
        -- intros g Hg Hn. rewrite K1; [|exact Hg|intros K; apply Hn; now right]. apply updN_other. intros ->. apply Hn. now left.
        -- intros g [<-|Hg]; [|auto]. rewrite K1 by auto. rewrite updN_same. lia.
      * exists (updN k' f (Z.of_nat j)). split; [|split].
        -- intros g Hg Hn. assert (g <> f) by (intros ->; contradiction). rewrite updN_other by assumption.
           rewrite K1; [|exact Hg|intros K; apply Hn; now right]. now apply updN_other.
        -- intros g [<-|Hg]; [rewrite updN_same; lia|]. rewrite updN_other by (intros ->; contradiction). auto.
        -- apply map_ext_in. intros g Hg. symmetry. apply updN_other. intros ->; contradiction.
    + intros (k' & K1 & K2 & ->). exists (Z.to_nat (k' f)). assert (0 <= k' f < N f) by (apply K2; now left). split; [apply in_seq; lia|].
      apply IH; [assumption|]. exists k'. split; [|split; [|reflexivity]].
      * intros g Hg Hn. unfold updN. destruct (Nat.eqb_spec g f) as [->|Ne]; [lia|]. apply K1; [exact Hg|]. intros [K|K]; [congruence|contradiction].
      * intros g Hg. apply K2. now right.
Qed.
Lemma map_eq_in (k k' : nat -> Z) l : map k l = map k' l -> forall g, In g l -> k g = k' g.
Proof. induction l as [|a l IH]; intros E g Hg; [destruct Hg|]. injection E as E1 E2. destruct Hg as [<-|Hg]; auto. Qed.
Lemma its_NoDup os : NoDup os -> (forall f, In f os -> In f fs) -> forall k, NoDup (its os k).
Proof.
  induction os as [|f os IH]; intros ND Hi k; cbn [its]; [repeat constructor; auto|]. inversion ND; subst.
  apply NoDup_flat_map.
  - apply seq_NoDup.
  - intros j _. apply IH; [assumption|]. intros g Hg. apply Hi. now right.
  - intros i j ks _ _ H1' H2'. apply in_its in H1'; [|assumption]. apply in_its in H2'; [|assumption].
    destruct H1' as (k1 & A1 & _ & ->). destruct H2' as (k2 & A2 & _ & E).
    assert (Hf : In f fs) by (apply Hi; now left).
    pose proof (map_eq_in _ _ _ E f Hf) as Q. rewrite (A1 f Hf H1), (A2 f Hf H1), !updN_same in Q. lia.
Qed.
Lemma its_perm os os' k k' : NoDup os -> Permutation os os' -> (forall f, In f os -> In f fs) -> (forall g, In g fs -> ~ In g os -> k g = k' g) ->
  Permutation (its os k) (its os' k').
Proof.
  intros ND P Hi E. assert (ND' : NoDup os') by (eapply Permutation_NoDup; eauto).
  assert (I' : forall g, In g os <-> In g os') by (intros g; split; [apply Permutation_in; assumption|apply Permutation_in; now apply Permutation_sym]).
  rewrite (its_ext os k k' E). apply NoDup_Permutation.
  - now apply its_NoDup.
  - apply its_NoDup; [assumption|]. intros f Hf. apply Hi. now apply I'.
  - intros ks. rewrite (in_its os ND), (in_its os' ND'). split; intros (k2 & A1 & A2 & ->); exists k2; (split; [|split; [|reflexivity]]).
    + intros g Hg Hn. apply A1; [exact Hg|]. now rewrite I'.
    + intros g Hg. apply A2. now apply I'.
    + intros g Hg Hn. apply A1; [exact Hg|]. now rewrite <- I'.
    + intros g Hg. apply A2. now apply I'.
Qed.
Definition inb (g : nat) (l : list nat) : bool := existsb (Nat.eqb g) l.
Lemma inb_spec g l : inb g l = true <-> In g l.
Proof. unfold inb. rewrite existsb_exists. split; [intros (x & Hx & E); apply Nat.eqb_eq in E; now subst|intros H; exists g; split; [exact H|apply Nat.eqb_refl]]. Qed.
Lemma its_last os : NoDup os -> (forall f, In f os -> 0 < N f) -> forall k, exists l,
  its os k = l ++ [map (fun g => if inb g os then N g - 1 else k g) fs].
Proof.
  induction os as [|f os IH]; intros ND Hp k; cbn [its].
  - exists []. reflexivity.
  - inversion ND; subst. assert (0 < N f) by (apply Hp; now left).
    assert (E : Z.to_nat (N f) = S (Z.to_nat (N f - 1))) by lia. rewrite E, seq_S, flat_map_app. cbn [flat_map]. rewrite app_nil_r.
    destruct (IH H2 ltac:(intros g Hg; apply Hp; now right) (updN k f (Z.of_nat (0 + Z.to_nat (N f - 1))))) as (l & ->).
    eexists. rewrite app_assoc. f_equal. f_equal. apply map_ext_in. intros g Hg. cbn [inb existsb]. fold (inb g os).
    destruct (inb g os) eqn:Eb; [now rewrite orb_true_r|]. rewrite orb_false_r. unfold updN. destruct (Nat.eqb_spec g f) as [->|Ne]; [lia|reflexivity].
Qed.
Lemma its_empty os : (exists f, In f os /\ N f <= 0) -> forall k, its os k = [].
Proof.
  induction os as [|f os IH]; intros (g & Hg & Hz) k; [destruct Hg|]. cbn [its].
  destruct Hg as [<-|Hg].
  - replace (Z.to_nat (N f)) with O by lia. reflexivity.
  - induction (seq 0 (Z.to_nat (N f))) as [|j l IHl]; cbn [flat_map]; [reflexivity|]. rewrite IH by eauto. exact IHl.
Qed.
End Its.

Lemma diff_at {A} (dec : forall a b : A, {a = b} + {a <> b}) (l l' : list A) : length l = length l' -> l <> l' ->
  exists J, firstn J l = firstn J l' /\ nth_error l J <> nth_error l' J /\ (J < length l)%nat.
Proof.
  revert l'. induction l as [|a l IH]; intros [|b l'] E Ne; try discriminate; [contradiction|].
  destruct (dec a b) as [->|D].
  - destruct (IH l') as (J & A1 & A2 & A3); [now injection E|congruence|]. exists (S J). cbn [firstn nth_error length]. rewrite A1. repeat split; [assumption|lia].
  - exists O. cbn. repeat split; [congruence|lia].
Qed.

Section Machine.
Variable C : ctx.
Variable info : nat -> forInfo.
Variables globalAddr argVal allocAddr constVal : nat -> Z.
Variable compute : opcode -> list Z -> option Z.
Variable callSem : nat -> list Z -> memory -> Z -> Prop.
Variable nary : nat -> list Z -> Z.
Variable varAddr : nat -> Z.
Variable goOn : nat -> Z -> Z -> bool.
Variable norm : nat -> Z -> Z.
Variable B : memory -> option memory.
Notation denotes := (denotes C globalAddr argVal allocAddr constVal compute callSem).
Notation startIs := (startIs C info globalAddr argVal allocAddr constVal compute callSem).
Notation endIs := (endIs C info globalAddr argVal allocAddr constVal compute callSem).
Notation stepIs := (stepIs C info globalAddr argVal allocAddr constVal compute callSem nary).
Notation addrOf := (addrOf info varAddr).
Notation loopRel := (loopRel C info globalAddr argVal allocAddr constVal compute callSem nary varAddr goOn norm).
Notation run := (run C info globalAddr argVal allocAddr constVal compute callSem nary varAddr goOn norm B).
Notation after := (after norm).
Variable covers : nat -> Z -> Prop.
Variable fs : list nat.
Variable m0 : memory.
Variable k0 : nat -> Z.
Variables R W : list Z -> Z -> Prop.
Variable red : Z -> option (Z -> Z -> Z).
Notation trip := (trip C info globalAddr argVal allocAddr constVal compute callSem nary goOn norm m0 k0).
Notation valueAt := (valueAt C info globalAddr argVal allocAddr constVal compute callSem nary norm m0 k0).
Notation inSpace := (inSpace C info globalAddr argVal allocAddr constVal compute callSem nary goOn norm fs m0 k0).
Notation isVarOf := (isVarOf info varAddr).
Notation similar := (similar C info globalAddr argVal allocAddr constVal compute callSem nary varAddr goOn norm fs m0 k0 W).
Notation written := (written C info globalAddr argVal allocAddr constVal compute callSem nary goOn norm fs m0 k0 W).
Notation atIter := (atIter C info globalAddr argVal allocAddr constVal compute callSem nary varAddr norm fs m0 k0).
Notation bodyRight := (bodyRight C info globalAddr argVal allocAddr constVal compute callSem nary varAddr goOn norm B fs m0 k0 R W red).
Notation noDepAt := (noDepAt C info globalAddr argVal allocAddr constVal compute callSem nary goOn norm fs m0 k0 R W).
Notation privateAt := (privateAt C info globalAddr argVal allocAddr constVal compute callSem nary goOn norm fs m0 k0 R W).
Notation lastAt := (lastAt C info globalAddr argVal allocAddr constVal compute callSem nary goOn norm fs m0 k0 R W).

Variables N s e d : nat -> Z.
Variable HN : forall f, In f fs -> startIs f m0 (s f) /\ endIs f m0 (e f) /\ stepIs f m0 k0 (d f) /\ 0 <= N f /\
  (forall j, 0 <= j < N f -> goOn f (after f (s f) (d f) (Z.to_nat j)) (e f) = true) /\ goOn f (after f (s f) (d f) (Z.to_nat (N f))) (e f) = false.
Variable stable : forall f m k, In f fs -> similar m -> (forall g, ~ In g fs -> k g = k0 g) ->
  (forall z, startIs f m z <-> z = s f) /\ (forall z, endIs f m z <-> z = e f) /\ (forall z, stepIs f m k z <-> z = d f).
Variable ND : NoDup fs.
Variable NDa : forall f g, In f fs -> In g fs -> addrOf f = addrOf g -> f = g.
Variable BR : bodyRight.

Lemma similar0 : similar m0.
Proof. intros x _ _. reflexivity. Qed.
Lemma stable0 f : In f fs -> (forall z, startIs f m0 z <-> z = s f) /\ (forall z, endIs f m0 z <-> z = e f) /\ (forall z, stepIs f m0 k0 z <-> z = d f).
Proof. intros Hf. apply stable; auto. apply similar0. Qed.
Definition val (f : nat) (k : Z) : Z := after f (s f) (d f) (Z.to_nat k).
Lemma valueAt_val f k z : In f fs -> (valueAt f k z <-> z = val f k).
Proof.
  intros Hf. destruct (stable0 f Hf) as (S1 & _ & S3). split.
  - intros (s' & d' & A & B' & ->). apply S1 in A. apply S3 in B'. now subst.
  - intros ->. exists (s f), (d f). repeat split; [now apply S1|now apply S3].
Qed.
Lemma trip_N f n : In f fs -> (trip f n <-> n = N f).
Proof.
  intros Hf. destruct (stable0 f Hf) as (S1 & S2 & S3). destruct (HN f Hf) as (H1 & H2 & H3 & H4 & H5 & H6). split.
  - intros (s' & e' & d' & A1 & A2 & A3 & A4 & A5 & A6). apply S1 in A1. apply S2 in A2. apply S3 in A3. subst.
    destruct (Z.lt_trichotomy n (N f)) as [L|[L|L]]; [|exact L|].
    + rewrite H5 in A6 by lia. discriminate.
    + rewrite A5 in H6 by lia. discriminate.
  - intros ->. exists (s f), (e f), (d f). auto 10.
Qed.
Lemma inSpace_spec ks : inSpace ks <-> exists k, ks = map k fs /\ forall f, In f fs -> 0 <= k f < N f.
Proof.
  unfold InterchangeSpec.inSpace. split.
  - intros F. assert (G : Forall2 (fun f k => In f fs /\ 0 <= k < N f) fs ks).
    { assert (Q : forall l ks, Forall2 (fun f k => exists N, trip f N /\ 0 <= k < N) l ks -> (forall f, In f l -> In f fs) -> Forall2 (fun f k => In f fs /\ 0 <= k < N f) l ks).
      { induction 1 as [|f k l ks' (n & T & L) F' IH]; intros Hi; constructor.
        - split; [apply Hi; now left|]. apply trip_N in T; [now subst|apply Hi; now left].
        - apply IH. intros g Hg. apply Hi. now right. }
      apply Q; auto. }
    clear F. assert (Q : forall l ks, NoDup l -> Forall2 (fun f k => In f fs /\ 0 <= k < N f) l ks -> exists k, ks = map k l /\ forall f, In f l -> 0 <= k f < N f).
    { induction l as [|f l IH]; intros ks' ND' F; inversion F; subst; [exists (fun _ => 0); split; [reflexivity|intros f []]|].
      inversion ND'; subst. match goal with HH : Forall2 _ l ?l', HD : NoDup l |- _ => destruct (IH l' HD HH) as (k & -> & K) end. exists (updN k f y). cbn [map]. rewrite updN_same. split.
      - f_equal. apply map_ext_in. intros g Hg. symmetry. apply updN_other. intros ->; contradiction.
      - intros g [<-|Hg]; [rewrite updN_same; tauto|]. rewrite updN_other by (intros ->; contradiction). auto. }
    apply Q; assumption.
  - intros (k & -> & K). assert (Q : forall l, (forall f, In f l -> In f fs) -> Forall2 (fun f k => exists N, trip f N /\ 0 <= k < N) l (map k l)).
    { induction l as [|f l IH]; intros Hi; constructor.
      - exists (N f). split; [apply trip_N; [apply Hi; now left|reflexivity]|]. apply K, Hi. now left.
      - apply IH. intros g Hg. apply Hi. now right. }
    apply Q; auto.
Qed.
Lemma inSpace_length ks : inSpace ks -> length ks = length fs.
Proof. intros H. apply inSpace_spec in H. destruct H as (k & -> & _). apply map_length. Qed.
Lemma atIter_spec k m : (forall f, In f fs -> m (addrOf f) = val f (k f)) -> atIter (map k fs) m.
Proof.
  intros H. unfold InterchangeSpec.atIter. assert (Q : forall l, (forall f, In f l -> In f fs) -> Forall2 (fun f k => valueAt f k (m (addrOf f))) l (map k l)).
  { induction l as [|f l IH]; intros Hi; constructor; [|apply IH; intros g Hg; apply Hi; now right].
    apply valueAt_val; [apply Hi; now left|]. apply H, Hi. now left. }
  apply Q; auto.
Qed.

(** * Execution of iterations one by one *)
Fixpoint setV (l : list nat) (ks : list Z) (m : memory) : memory :=
  match l, ks with
  | f :: l, k :: ks => updZ (setV l ks m) (addrOf f) (val f k)
  | _, _ => m
  end.
Lemma setV_other l : forall ks m x, ~ isVarOf l x -> setV l ks m x = m x.
Proof.
  induction l as [|f l IH]; intros [|k ks] m x Hx; try reflexivity. cbn [setV]. rewrite updZ_other.
  - apply IH. intros (g & Hg & ->). apply Hx. exists g. split; [now right|reflexivity].
  - intros ->. apply Hx. exists f. split; [now left|reflexivity].
Qed.
Lemma setV_var k m f : In f fs -> setV fs (map k fs) m (addrOf f) = val f (k f).
Proof.
  assert (Q : forall l, (forall g, In g l -> In g fs) -> In f l -> setV l (map k l) m (addrOf f) = val f (k f)).
  { induction l as [|g l IH]; intros Hi Hf; [destruct Hf|]. cbn [map setV]. unfold updZ. destruct (Z.eqb_spec (addrOf f) (addrOf g)) as [E|Ne].
    - assert (f = g). { apply NDa; [now apply Hi|apply Hi; now left|exact E]. } now subst.
    - destruct Hf as [->|Hf]; [contradiction|]. apply IH; [|exact Hf]. intros h Hh. apply Hi. now right. }
  intros Hf. apply Q; auto.
Qed.
Lemma isVarOf_dec l x : {isVarOf l x} + {~ isVarOf l x}.
Proof.
  destruct (in_dec Z.eq_dec x (map addrOf l)) as [H|H]; [left|right].
  - apply in_map_iff in H. destruct H as (f & E & Hf). exists f. auto.
  - intros (f & Hf & ->). apply H. now apply in_map.
Qed.
Definition eqV (m m' : memory) : Prop := forall x, ~ isVarOf fs x -> m x = m' x.
Definition doIt (ks : list Z) (m : memory) : option memory := B (setV fs ks m).
Fixpoint doAll (l : list (list Z)) (m : memory) : option memory :=
  match l with
  | [] => Some m
  | ks :: l => match doIt ks m with Some n => doAll l n | None => None end
  end.
Lemma similar_eqV m m' : similar m -> eqV m m' -> similar m'.
Proof. intros S E x W' V'. rewrite <- (E x V'). now apply S. Qed.
Lemma setV_eqV ks m : eqV m (setV fs ks m).
Proof. intros x Hx. symmetry. now apply setV_other. Qed.
Lemma setV_similar ks m : similar m -> similar (setV fs ks m).
Proof. intros S. eapply similar_eqV; [exact S|apply setV_eqV]. Qed.
Lemma setV_atIter ks m : inSpace ks -> atIter ks (setV fs ks m).
Proof. intros H. apply inSpace_spec in H. destruct H as (k & -> & _). apply atIter_spec. intros f Hf. now apply setV_var. Qed.
Lemma B_similar ks m n : inSpace ks -> similar m -> atIter ks m -> B m = Some n -> similar n.
Proof.
  intros Hs S A E x Wx Vx. destruct BR as (_ & F & _). rewrite (F ks m n x Hs S A E); [now apply S|].
  intros K. apply Wx. exists ks. auto.
Qed.
Lemma doIt_similar ks m n : inSpace ks -> similar m -> doIt ks m = Some n -> similar n.
Proof. intros Hs S E. eapply B_similar; [exact Hs|apply setV_similar; exact S|now apply setV_atIter|exact E]. Qed.
Lemma doAll_similar l : forall m n, Forall inSpace l -> similar m -> doAll l m = Some n -> similar n.
Proof.
  induction l as [|ks l IH]; intros m n F S E; cbn [doAll] in E; [injection E as <-; exact S|]. inversion F; subst.
  destruct (doIt ks m) as [p|] eqn:Ep; [|discriminate]. eapply IH; [eassumption| |exact E]. eapply doIt_similar; [eassumption|exact S|exact Ep].
Qed.
Ltac sim := match goal with
  | E : doIt ?ks ?m = Some ?p |- _ ?p => refine (doIt_similar ks m p _ _ E); assumption
  | E : doAll ?l ?m = Some ?p |- _ ?p => refine (doAll_similar l m p _ _ E); auto
  end.
Lemma doAll_app l l' m : doAll (l ++ l') m = match doAll l m with Some n => doAll l' n | None => None end.
Proof. revert m. induction l as [|ks l IH]; intros m; cbn [app doAll]; [reflexivity|]. destruct (doIt ks m); [apply IH|reflexivity]. Qed.
(** Similar states, which are equal in all read locations *)
Lemma B_cong ks m m' n (X : Z -> Prop) : inSpace ks -> similar m -> similar m' -> atIter ks m -> atIter ks m' ->
  (forall x, R ks x -> m x = m' x) -> B m = Some n ->
  exists n', B m' = Some n' /\ (forall x, m x = m' x -> n x = n' x) /\ (forall x, W ks x -> red x = None -> n x = n' x).
Proof.
  intros Hs S S' A A' HR E. destruct BR as (_ & F & G & _). destruct (G ks m m' Hs S A S' A' HR) as [G1 G2].
  destruct (B m') as [n'|] eqn:E'; [|exfalso; destruct G1 as [_ G1]; rewrite (G1 eq_refl) in E; discriminate].
  exists n'. split; [reflexivity|]. split.
  - intros x Hx. destruct (Z.eq_dec (n x) (n' x)) as [|Ne]; [assumption|]. exfalso. assert (NW : ~ W ks x).
    { intros K. specialize (G2 n n' x E eq_refl K). destruct (red x) as [o|]; [|contradiction]. destruct G2 as (c & G2 & G3). apply Ne. now rewrite G2, G3, Hx. }
    apply Ne. rewrite (F ks m n x Hs S A E NW), (F ks m' n' x Hs S' A' E' NW). exact Hx.
  - intros x K E0. specialize (G2 n n' x E eq_refl K). now rewrite E0 in G2.
Qed.
Lemma R_notVar ks x : inSpace ks -> R ks x -> ~ isVarOf fs x.
Proof. intros Hs K. destruct BR as (F & _). apply (F ks x Hs). now right. Qed.
Lemma W_notVar ks x : inSpace ks -> W ks x -> ~ isVarOf fs x.
Proof. intros Hs K. destruct BR as (F & _). apply (F ks x Hs). now left. Qed.
Lemma B_doIt ks m n : inSpace ks -> similar m -> atIter ks m -> forall m1, eqV m m1 -> B m = Some n -> exists n', doIt ks m1 = Some n' /\ eqV n n'.
Proof.
  intros Hs S A m1 Q E.
  destruct (B_cong ks m (setV fs ks m1) n (fun _ => True) Hs S) as (n' & E' & P & _).
  - apply setV_similar. eapply similar_eqV; eauto.
  - exact A.
  - now apply setV_atIter.
  - intros x K. rewrite setV_other by (eapply R_notVar; eauto). apply Q. eapply R_notVar; eauto.
  - exact E.
  - exists n'. split; [exact E'|]. intros x Hx. apply P. rewrite setV_other by exact Hx. now apply Q.
Qed.
Lemma doIt_B ks m n : inSpace ks -> similar m -> atIter ks m -> doIt ks m = Some n -> exists n', B m = Some n' /\ eqV n n'.
Proof.
  intros Hs S A E.
  destruct (B_cong ks (setV fs ks m) m n (fun _ => True) Hs) as (n' & E' & P & _).
  - now apply setV_similar.
  - exact S.
  - now apply setV_atIter.
  - exact A.
  - intros x K. apply setV_other. eapply R_notVar; eauto.
  - exact E.
  - exists n'. split; [exact E'|]. intros x Hx. apply P. now apply setV_other.
Qed.
Lemma doIt_eqV ks m m' n : inSpace ks -> similar m -> eqV m m' -> doIt ks m = Some n -> exists n', doIt ks m' = Some n' /\ eqV n n'.
Proof.
  intros Hs S Q E. eapply (B_doIt ks (setV fs ks m) n Hs); [now apply setV_similar|now apply setV_atIter| |exact E].
  intros x Hx. rewrite setV_other by exact Hx. now apply Q.
Qed.
Lemma doAll_eqV l : forall m m' n, Forall inSpace l -> similar m -> eqV m m' -> doAll l m = Some n -> exists n', doAll l m' = Some n' /\ eqV n n'.
Proof.
  induction l as [|ks l IH]; intros m m' n F S Q E; cbn [doAll] in *; [injection E as <-; eauto|]. inversion F; subst.
  destruct (doIt ks m) as [p|] eqn:Ep; [|discriminate]. destruct (doIt_eqV ks m m' p H1 S Q Ep) as (p' & -> & Qp).
  eapply IH; [eassumption| |exact Qp|exact E]. eapply doIt_similar; eauto.
Qed.

(** * Classes of locations *)
Definition noRead (x : Z) : Prop := forall ks, inSpace ks -> ~ R ks x.
Variable hidden : Z -> Prop.
Definition shared (x : Z) : Prop := forall ks ks', inSpace ks -> inSpace ks' -> ks <> ks' -> W ks x -> ~ W ks' x /\ ~ R ks' x.
Variable classes : forall ks x, inSpace ks -> W ks x \/ R ks x -> red x <> None \/ shared x \/ (noRead x /\ (hidden x \/ lastAt x)).
Definition ignored (x : Z) : Prop := isVarOf fs x \/ (noRead x /\ (hidden x \/ (lastAt x /\ red x = None))).
Definition eqP (m m' : memory) : Prop := forall x, ~ ignored x -> m x = m' x.
Lemma R_notIgnored ks x : inSpace ks -> R ks x -> ~ ignored x.
Proof. intros Hs K [V|[L _]]; [eapply R_notVar; eauto|eapply L; eauto]. Qed.
Lemma eqP_setV ks m m' : eqP m m' -> eqP (setV fs ks m) (setV fs ks m').
Proof. intros Q x Hx. assert (~ isVarOf fs x) by (intros K; apply Hx; now left). rewrite !setV_other by assumption. now apply Q. Qed.
Lemma doIt_eqP ks m m' n : inSpace ks -> similar m -> similar m' -> eqP m m' -> doIt ks m = Some n ->
  exists n', doIt ks m' = Some n' /\ eqP n n' /\ (forall x, W ks x -> red x = None -> n x = n' x) /\ forall x, setV fs ks m x = setV fs ks m' x -> n x = n' x.
Proof.
  intros Hs S S' Q E.
  destruct (B_cong ks (setV fs ks m) (setV fs ks m') n (fun _ => True) Hs) as (n' & E' & P & P2).
  - now apply setV_similar.
  - now apply setV_similar.
  - now apply setV_atIter.
  - now apply setV_atIter.
  - intros x K. apply eqP_setV; [exact Q|]. eapply R_notIgnored; eauto.
  - exact E.
  - exists n'. split; [exact E'|]. split; [|split; [exact P2|exact P]]. intros x Hx. apply P. now apply eqP_setV.
Qed.
Lemma doIt_frame ks m n x : inSpace ks -> similar m -> doIt ks m = Some n -> ~ W ks x -> ~ isVarOf fs x -> n x = m x.
Proof.
  intros Hs S E NW NV. destruct BR as (_ & F & _). unfold doIt in E.
  rewrite (F ks _ n x Hs (setV_similar ks m S) (setV_atIter ks m Hs) E NW). now apply setV_other.
Qed.
(** A reduction variable *)
Lemma doIt_red ks m m' n n' o x : inSpace ks -> similar m -> similar m' -> eqP m m' -> doIt ks m = Some n -> doIt ks m' = Some n' -> red x = Some o -> W ks x ->
  exists c, n x = o (m x) c /\ n' x = o (m' x) c.
Proof.
  intros Hs S S' Q E E' Er K. destruct BR as (_ & _ & G & _).
  destruct (G ks (setV fs ks m) (setV fs ks m') Hs (setV_similar ks m S) (setV_atIter ks m Hs) (setV_similar ks m' S') (setV_atIter ks m' Hs)) as [_ G2].
  { intros y Hy. apply eqP_setV; [exact Q|]. eapply R_notIgnored; eauto. }
  specialize (G2 n n' x E E' K). rewrite Er in G2. rewrite !setV_other in G2 by (eapply W_notVar; eauto). exact G2.
Qed.
(** Location is read and written in different iterations *)
Lemma not_read_written ks ks' m n x : inSpace ks -> inSpace ks' -> ks <> ks' -> similar m -> doIt ks m = Some n -> R ks' x -> n x = m x.
Proof.
  intros Hs Hs' Ne S E K. destruct (Z.eq_dec (n x) (m x)) as [|D]; [assumption|]. exfalso.
  apply D. apply (doIt_frame ks m n x Hs S E); [|exact (R_notVar ks' x Hs' K)]. intros Kw.
  destruct (classes ks x Hs) as [H|[H|[H _]]]; [now left| | |].
  - destruct (red x) as [o|] eqn:Er; [|contradiction]. destruct BR as (_ & _ & _ & G). apply (proj1 (G x o Er) ks' Hs'). exact K.
  - apply (H ks ks' Hs Hs' Ne Kw). exact K.
  - apply (H ks' Hs' K).
Qed.
Lemma swap_its ks ks' m n : inSpace ks -> inSpace ks' -> ks <> ks' -> similar m -> doAll [ks; ks'] m = Some n ->
  exists n', doAll [ks'; ks] m = Some n' /\ eqP n n'.
Proof.
  intros Hs Hs' Ne S E. cbn [doAll] in *. destruct (doIt ks m) as [p|] eqn:Ep; [|discriminate].
  destruct (doIt ks' p) as [n1|] eqn:En; [|discriminate]. injection E as ->.
  assert (Sp : similar p) by exact (doIt_similar ks m p Hs S Ep).
  (* the second iteration *)
  destruct (B_cong ks' (setV fs ks' p) (setV fs ks' m) n (fun _ => True) Hs') as (q & Eq & Q1 & Q2).
  { now apply setV_similar. } { now apply setV_similar. } { now apply setV_atIter. } { now apply setV_atIter. }
  { intros x K. rewrite !setV_other by (eapply R_notVar; [exact Hs'|exact K]). eapply not_read_written; [exact Hs|exact Hs'|exact Ne|exact S|exact Ep|exact K]. }
  { exact En. }
  assert (Eq' : doIt ks' m = Some q) by exact Eq. rewrite Eq'. assert (Sq : similar q) by exact (doIt_similar ks' m q Hs' S Eq').
  destruct (B_cong ks (setV fs ks m) (setV fs ks q) p (fun _ => True) Hs) as (n' & En' & P1 & P2).
  { now apply setV_similar. } { now apply setV_similar. } { now apply setV_atIter. } { now apply setV_atIter. }
  { intros x K. rewrite !setV_other by (eapply R_notVar; [exact Hs|exact K]). symmetry. eapply (not_read_written ks' ks); [exact Hs'|exact Hs|congruence|exact S|exact Eq'|exact K]. }
  { exact Ep. }
  assert (En2 : doIt ks q = Some n') by exact En'. rewrite En2. exists n'. split; [reflexivity|].
  intros x Hx. destruct (Z.eq_dec (n x) (n' x)) as [|D]; [assumption|]. exfalso.
  assert (NV : ~ isVarOf fs x) by (intros K; apply Hx; now left).
  assert (Fp : ~ W ks x -> p x = m x) by (intros K; exact (doIt_frame ks m p x Hs S Ep K NV)).
  assert (Fn : ~ W ks' x -> n x = p x) by (intros K; exact (doIt_frame ks' p n x Hs' Sp En K NV)).
  assert (Fq : ~ W ks' x -> q x = m x) by (intros K; exact (doIt_frame ks' m q x Hs' S Eq' K NV)).
  assert (Fn' : ~ W ks x -> n' x = q x) by (intros K; exact (doIt_frame ks q n' x Hs Sq En2 K NV)).
  assert (A1 : ~ ~ W ks x).
  { intros K. apply D. rewrite (Fn' K). apply Q1. rewrite !setV_other by exact NV. now apply Fp. }
  assert (A2 : ~ ~ W ks' x).
  { intros K. apply D. rewrite (Fn K). apply P1. rewrite !setV_other by exact NV. symmetry. now apply Fq. }
  apply A1. intros K1. apply A2. intros K2.
  destruct (red x) as [o|] eqn:Er.
  - destruct BR as (_ & _ & G & Gr). destruct (Gr x o Er) as [NR Co].
    destruct (G ks (setV fs ks m) (setV fs ks q) Hs (setV_similar ks m S) (setV_atIter ks m Hs) (setV_similar ks q Sq) (setV_atIter ks q Hs)) as [_ G1].
    { intros y Ky. rewrite !setV_other by (eapply R_notVar; [exact Hs|exact Ky]). symmetry. eapply (not_read_written ks' ks); [exact Hs'|exact Hs|congruence|exact S|exact Eq'|exact Ky]. }
    destruct (G ks' (setV fs ks' p) (setV fs ks' m) Hs' (setV_similar ks' p Sp) (setV_atIter ks' p Hs') (setV_similar ks' m S) (setV_atIter ks' m Hs')) as [_ G2].
    { intros y Ky. rewrite !setV_other by (eapply R_notVar; [exact Hs'|exact Ky]). eapply not_read_written; [exact Hs|exact Hs'|exact Ne|exact S|exact Ep|exact Ky]. }
    specialize (G1 p n' x Ep En2 K1). specialize (G2 n q x En Eq' K2). rewrite Er in G1, G2. rewrite !setV_other in G1, G2 by exact NV.
    destruct G1 as (c & Pc & Nc). destruct G2 as (c' & Nc' & Qc'). apply D. rewrite Nc', Nc, Pc, Qc'. apply Co.
  - destruct (classes ks x Hs) as [H|[H|H]]; [now left| | |].
    + contradiction.
    + exact (proj1 (H ks ks' Hs Hs' Ne K1) K2).
    + apply Hx. right. destruct H as [H1 [H2|H2]]; split; auto.
Qed.
Lemma doAll_cong l : forall m m' n, Forall inSpace l -> similar m -> similar m' -> eqP m m' -> doAll l m = Some n -> exists n', doAll l m' = Some n' /\ eqP n n'.
Proof.
  induction l as [|ks l IH]; intros m m' n F S S' Q E; cbn [doAll] in *; [injection E as <-; eauto|]. inversion F; subst.
  destruct (doIt ks m) as [p|] eqn:Ep; [|discriminate]. destruct (doIt_eqP ks m m' p H1 S S' Q Ep) as (p' & E' & Qp & _). rewrite E'.
  eapply IH; [eassumption| | |exact Qp|exact E]; sim.
Qed.
Lemma eqP_trans m1 m2 m3 : eqP m1 m2 -> eqP m2 m3 -> eqP m1 m3.
Proof. intros A B' x Hx. rewrite (A x Hx). now apply B'. Qed.
Lemma eqP_refl m : eqP m m.
Proof. intros x _. reflexivity. Qed.
Lemma doAll_perm l l' : Permutation l l' -> NoDup l -> Forall inSpace l -> forall m m' n, similar m -> similar m' -> eqP m m' -> doAll l m = Some n ->
  exists n', doAll l' m' = Some n' /\ eqP n n'.
Proof.
  induction 1 as [|ks l l' P IH|ks ks' l|l1 l2 l3 P1 IH1 P2 IH2]; intros D F m m' n S S' Q E.
  - cbn [doAll] in *. injection E as <-. eauto.
  - inversion D; subst. inversion F; subst. cbn [doAll] in *. destruct (doIt ks m) as [p|] eqn:Ep; [|discriminate].
    destruct (doIt_eqP ks m m' p H3 S S' Q Ep) as (p' & E' & Qp & _). rewrite E'.
    eapply IH; [assumption|assumption| | |exact Qp|exact E]; sim.
  - inversion D as [|? ? D1 D2]; subst. inversion F as [|? ? F1 F2]; subst. inversion F2 as [|? ? F3 F4]; subst.
    destruct (doAll_cong _ _ _ _ F S S' Q E) as (n' & E' & Qn). change (ks' :: ks :: l) with ([ks'; ks] ++ l) in E'. change (ks :: ks' :: l) with ([ks; ks'] ++ l).
    rewrite doAll_app in E'. destruct (doAll [ks'; ks] m') as [p|] eqn:Ep; [|discriminate].
    destruct (swap_its ks' ks m' p F1 F3) as (p' & Ep' & Qp); [intros ->; apply D1; now left|exact S'|exact Ep|].
    rewrite doAll_app, Ep'. destruct (doAll_cong l p p' n') as (n2 & E2 & Q2); [exact F4| | |exact Qp|exact E'|].
    + eapply doAll_similar; [|exact S'|exact Ep]. auto.
    + eapply doAll_similar; [|exact S'|exact Ep']. auto.
    + exists n2. split; [exact E2|]. eapply eqP_trans; eauto.
  - destruct (IH1 D F m m n S S (eqP_refl m) E) as (n1 & E1 & Q1).
    destruct (IH2 (Permutation_NoDup P1 D) (Permutation_Forall P1 F) m m' n1 S S' Q E1) as (n2 & E2 & Q2).
    exists n2. split; [exact E2|]. eapply eqP_trans; eauto.
Qed.
(** The last iteration is the same *)
Lemma doAll_perm_last l l' ks : Permutation (l ++ [ks]) (l' ++ [ks]) -> NoDup (l ++ [ks]) -> Forall inSpace (l ++ [ks]) -> forall m m' n n', similar m -> similar m' -> eqP m m' ->
  doAll (l ++ [ks]) m = Some n -> doAll (l' ++ [ks]) m' = Some n' -> forall x, lastAt x -> ~ hidden x -> n x = n' x.
Proof.
  intros P D F m m' n n' S S' Q E E' x Lx Hh. apply Permutation_app_inv_r in P.
  apply Forall_app in F. destruct F as [F Fk]. inversion Fk as [|? ? Hk _]; subst. rewrite doAll_app in E, E'.
  destruct (doAll l m) as [p|] eqn:Ep; [|discriminate]. destruct (doAll l' m') as [p'|] eqn:Ep'; [|discriminate].
  cbn [doAll] in E, E'. destruct (doIt ks p) as [n1|] eqn:E1; [|discriminate]. destruct (doIt ks p') as [n1'|] eqn:E1'; [|discriminate].
  injection E as ->. injection E' as ->.
  destruct (doAll_perm l l' P) with (m := m) (m' := m') (n := p) as (q & Eq & Qq); auto.
  { clear - D. induction l as [|a l IH]; [constructor|]. cbn [app] in D. inversion D; subst. constructor; [|auto]. intros K. apply H1, in_or_app. now left. }
  rewrite Ep' in Eq. injection Eq as <-.
  destruct (doIt_eqP ks p p' n Hk) as (n2 & E2 & _ & Q2 & Q3); [sim| |exact Qq|exact E1|].
  { eapply doAll_similar; [|exact S'|exact Ep']. eapply Permutation_Forall; eauto. }
  rewrite E1' in E2. injection E2 as <-. destruct (Lx ks Hk) as [Kw Kr].
  destruct (red x) as [o|] eqn:Er; [|now apply Q2]. apply Q3.
  assert (NV : ~ isVarOf fs x) by (eapply W_notVar; eauto). rewrite !setV_other by exact NV. apply Qq.
  intros [K|[_ [K|[_ K]]]]; [contradiction|contradiction|congruence].
Qed.

(** * A nest executes iterations one by one *)
Notation its := (its fs N).
Definition Inv (os : list nat) (st : state) : Prop :=
  similar (mem st) /\ (forall g, ~ In g fs -> cnt st g = k0 g) /\
  (forall g, In g fs -> ~ In g os -> 0 <= cnt st g < N g /\ mem st (addrOf g) = val g (cnt st g)).
Definition Post (os : list nat) (st st' : state) : Prop :=
  similar (mem st') /\ (forall g, ~ In g fs -> cnt st' g = k0 g) /\
  (forall g, In g fs -> ~ In g os -> mem st' (addrOf g) = mem st (addrOf g) /\ cnt st' g = cnt st g) /\
  ((forall f, In f os -> 0 < N f) -> forall f, In f os -> mem st' (addrOf f) = val f (N f)).
Lemma its_inSpace os k : NoDup os -> (forall g, In g fs -> ~ In g os -> 0 <= k g < N g) -> Forall inSpace (its os k).
Proof.
  intros D H. apply Forall_forall. intros ks Hk. apply in_its in Hk; [|exact D]. destruct Hk as (k' & A1 & A2 & ->).
  apply inSpace_spec. exists k'. split; [reflexivity|]. intros g Hg. destruct (in_dec Nat.eq_dec g os) as [K|K]; [now apply A2|]. rewrite A1 by assumption. now apply H.
Qed.
Lemma not_var_addr f g : In f fs -> In g fs -> f <> g -> addrOf f <> addrOf g.
Proof. intros Hf Hg Ne E. apply Ne. now apply NDa. Qed.
Lemma similar_upd m f z : In f fs -> similar m -> similar (updZ m (addrOf f) z).
Proof. intros Hf S x Wx Vx. rewrite updZ_other; [now apply S|]. intros ->. apply Vx. exists f. auto. Qed.
Lemma eqV_upd m f z : In f fs -> eqV m (updZ m (addrOf f) z).
Proof. intros Hf x Hx. rewrite updZ_other; [reflexivity|]. intros ->. apply Hx. exists f. auto. Qed.
Lemma eqV_trans a b c : eqV a b -> eqV b c -> eqV a c.
Proof. intros A B' x Hx. rewrite (A x Hx). now apply B'. Qed.
Lemma eqV_sym a b : eqV a b -> eqV b a.
Proof. intros A x Hx. symmetry. now apply A. Qed.
Definition rest (f : nat) (os : list nat) (k : nat -> Z) (j : nat) : list (list Z) :=
  flat_map (fun i => its os (updN k f (Z.of_nat i))) (seq j (Z.to_nat (N f) - j)).
Lemma rest_ext f os k k' j : (forall g, In g fs -> ~ In g (f :: os) -> k g = k' g) -> rest f os k j = rest f os k' j.
Proof.
  intros H. unfold rest. induction (seq j (Z.to_nat (N f) - j)) as [|i l IH]; cbn [flat_map]; [reflexivity|]. f_equal; [|exact IH].
  apply its_ext. intros g Hg Ho. unfold updN. destruct (Nat.eqb_spec g f); [reflexivity|]. apply H; [exact Hg|]. intros [K|K]; congruence.
Qed.
Lemma rest_inSpace f os k j : NoDup (f :: os) -> (forall g, In g fs -> ~ In g (f :: os) -> 0 <= k g < N g) -> Forall inSpace (rest f os k j).
Proof.
  intros D H. inversion D; subst. unfold rest. apply Forall_forall. intros ks Hk. apply in_flat_map in Hk. destruct Hk as (i & Hi & Hk). apply in_seq in Hi.
  revert ks Hk. apply Forall_forall. apply its_inSpace; [assumption|]. intros g Hg Ho. unfold updN. destruct (Nat.eqb_spec g f) as [->|Ne]; [lia|].
  apply H; [exact Hg|]. intros [K|K]; congruence.
Qed.
Lemma rest_next f os k j : (j < Z.to_nat (N f))%nat -> k f = Z.of_nat j -> rest f os k j = its os k ++ rest f os k (S j).
Proof.
  intros L E. unfold rest. replace (Z.to_nat (N f) - j)%nat with (S (Z.to_nat (N f) - S j)) by lia. cbn [seq flat_map]. f_equal.
  apply its_ext. intros g Hg Ho. unfold updN. destruct (Nat.eqb_spec g f) as [->|]; congruence.
Qed.
Lemma val_next f j : norm f (val f (Z.of_nat j) + d f) = val f (Z.of_nat (S j)).
Proof. unfold val. rewrite !Nat2Z.id. reflexivity. Qed.
(** State before an iteration of the outermost loop *)
Definition InvJ (f : nat) (os : list nat) (j : nat) (st : state) : Prop :=
  similar (mem st) /\ (forall g, ~ In g fs -> cnt st g = k0 g) /\
  (forall g, In g fs -> ~ In g (f :: os) -> 0 <= cnt st g < N g /\ mem st (addrOf g) = val g (cnt st g)) /\
  cnt st f = Z.of_nat j /\ mem st (addrOf f) = val f (Z.of_nat j) /\ (j <= Z.to_nat (N f))%nat.
Lemma InvJ_Inv f os j st : In f fs -> InvJ f os j st -> (j < Z.to_nat (N f))%nat -> Inv os st.
Proof.
  intros Hf (H1 & H2 & H3 & H4 & H5 & _) L. split; [exact H1|]. split; [exact H2|]. intros g Hg Ho.
  destruct (Nat.eq_dec g f) as [->|Ne]; [split; [lia|now rewrite H4]|]. apply H3; [exact Hg|]. intros [K|K]; congruence.
Qed.
Lemma InvJ_next f os j st st1 : In f fs -> NoDup (f :: os) -> (forall g, In g os -> In g fs) -> InvJ f os j st -> (j < Z.to_nat (N f))%nat -> Post os st st1 ->
  InvJ f os (S j) (mkState (updZ (mem st1) (addrOf f) (norm f (mem st1 (addrOf f) + d f))) (updN (cnt st1) f (cnt st1 f + 1))).
Proof.
  intros Hf D Hi (H1 & H2 & H3 & H4 & H5 & _) L (P1 & P2 & P3 & _). inversion D; subst.
  destruct (P3 f Hf H6) as [Q1 Q2]. unfold InvJ. cbn [mem cnt]. split; [now apply similar_upd|]. split; [|split; [|split; [|split]]].
  - intros g Hg. rewrite updN_other by (intros ->; contradiction). now apply P2.
  - intros g Hg Ho. assert (g <> f) by (intros ->; apply Ho; now left). rewrite updN_other by assumption. rewrite updZ_other by now apply not_var_addr.
    destruct (P3 g Hg) as [A1 A2]; [intros K; apply Ho; now right|]. rewrite A1, A2. now apply H3.
  - rewrite updN_same, Q2, H4. lia.
  - rewrite updZ_same, Q1, H5. apply val_next.
  - lia.
Qed.
Lemma at_end f os j st : In f fs -> InvJ f os j st -> goOn f (mem st (addrOf f)) (e f) = Nat.ltb j (Z.to_nat (N f)).
Proof.
  intros Hf (H1 & H2 & H3 & H4 & H5 & L). destruct (HN f Hf) as (_ & _ & _ & K0 & K1 & K2). rewrite H5. unfold val.
  destruct (Nat.ltb_spec j (Z.to_nat (N f))) as [Lj|Lj].
  - apply K1. lia.
  - replace (Z.of_nat j) with (N f) by lia. exact K2.
Qed.
Lemma run_sound os : NoDup os -> (forall g, In g os -> In g fs) -> forall st st', Inv os st -> run os st st' ->
  (exists n, doAll (its os (cnt st)) (mem st) = Some n /\ eqV n (mem st')) /\ Post os st st'.
Proof.
  induction os as [|f os IH]; intros D Hi st st' HI HR.
  - cbn [InterchangeSpec.run] in HR. destruct HR as (m & E & ->). destruct HI as (H1 & H2 & H3). cbn [mem cnt InterchangeExec.its].
    assert (Hs : inSpace (map (cnt st) fs)). { apply inSpace_spec. exists (cnt st). split; [reflexivity|]. intros g Hg. now apply (H3 g Hg). }
    assert (A : atIter (map (cnt st) fs) (mem st)). { apply atIter_spec. intros g Hg. now apply (H3 g Hg). }
    split.
    + destruct (B_doIt _ _ m Hs H1 A (mem st) ltac:(intros x _; reflexivity) E) as (n' & E' & Q).
      exists n'. cbn [doAll]. rewrite E'. split; [reflexivity|now apply eqV_sym].
    + split; [exact (B_similar _ _ _ Hs H1 A E)|]. split; [exact H2|]. split; [|intros _ f []].
      intros g Hg _. cbn [mem cnt]. split; [|reflexivity]. destruct BR as (_ & F & _). apply (F _ _ _ _ Hs H1 A E).
      intros K. apply (W_notVar _ _ Hs K). exists g. auto.
  - cbn [InterchangeSpec.run] in HR. destruct HR as (z & Hz & HL). inversion D; subst. assert (Hf : In f fs) by (apply Hi; now left).
    assert (Hi' : forall g, In g os -> In g fs) by (intros g Hg; apply Hi; now right).
    specialize (IH H2 Hi'). destruct HI as (I1 & I2 & I3).
    destruct (stable f (mem st) (cnt st) Hf I1 I2) as (S1 & _). apply S1 in Hz. subst z.
    assert (Q : forall st0 st', loopRel f (run os) st0 st' -> forall j, InvJ f os j st0 ->
      (exists n, doAll (rest f os (cnt st0) j) (mem st0) = Some n /\ eqV n (mem st')) /\
      InvJ f os (Z.to_nat (N f)) st' /\ (forall g, In g fs -> ~ In g (f :: os) -> mem st' (addrOf g) = mem st0 (addrOf g) /\ cnt st' g = cnt st0 g) /\
      ((forall f, In f os -> 0 < N f) -> (j < Z.to_nat (N f))%nat \/ (forall g, In g os -> mem st0 (addrOf g) = val g (N g)) -> forall g, In g os -> mem st' (addrOf g) = val g (N g))).
    { clear HL I1 I2 I3 S1 st st'. induction 1 as [st0 ee He Hg|st0 st1 st2 ee dd He Hg Hb Hd HL IHL]; intros j HJ.
      - pose proof HJ as (J1 & J2 & J3 & J4 & J5 & J6). destruct (stable f (mem st0) (cnt st0) Hf J1 J2) as (_ & S2 & _). apply S2 in He. subst ee.
        rewrite (at_end f os j st0 Hf HJ) in Hg. apply Nat.ltb_ge in Hg. assert (j = Z.to_nat (N f)) by lia. subst j.
        split; [|split; [exact HJ|split; [auto|]]].
        + unfold rest. rewrite Nat.sub_diag. cbn [seq flat_map doAll]. exists (mem st0). split; [reflexivity|intros x _; reflexivity].
        + intros _ [K|K]; [lia|exact K].
      - pose proof HJ as (J1 & J2 & J3 & J4 & J5 & J6). destruct (stable f (mem st0) (cnt st0) Hf J1 J2) as (_ & S2 & _). apply S2 in He. subst ee.
        rewrite (at_end f os j st0 Hf HJ) in Hg. apply Nat.ltb_lt in Hg.
        destruct (IH st0 st1 (InvJ_Inv f os j st0 Hf HJ Hg) Hb) as [(n1 & E1 & Q1) P].
        pose proof P as (P1 & P2 & P3 & P4). destruct (stable f (mem st1) (cnt st1) Hf P1 P2) as (_ & _ & S3). apply S3 in Hd. subst dd.
        pose proof (InvJ_next f os j st0 st1 Hf D Hi' HJ Hg P) as HJ'. destruct (IHL (S j) HJ') as [(n2 & E2 & Q2) (A1 & A2 & A3)].
        cbn [mem cnt] in *.
        assert (Sn1 : similar n1) by (eapply similar_eqV; [exact P1|now apply eqV_sym]).
        assert (EX : rest f os (updN (cnt st1) f (cnt st1 f + 1)) (S j) = rest f os (cnt st0) (S j)).
        { apply rest_ext. intros g Hg' Ho. rewrite updN_other by (intros ->; apply Ho; now left). apply (P3 g Hg'). intros K. apply Ho. now right. }
        split; [|split; [exact A1|split]].
        + rewrite rest_next by assumption. rewrite doAll_app, E1. rewrite EX in E2.
          edestruct (fun a b c => doAll_eqV (rest f os (cnt st0) (S j)) _ n1 n2 a b c E2) as (n3 & E3 & Q3).
          * apply rest_inSpace; [exact D|]. intros g Hg' Ho. now apply J3.
          * apply similar_upd; [exact Hf|exact P1].
          * apply eqV_sym. eapply eqV_trans; [exact Q1|]. now apply eqV_upd.
          * exists n3. split; [exact E3|]. eapply eqV_trans; [apply eqV_sym; exact Q3|exact Q2].
        + intros g Hg' Ho. destruct (A2 g Hg' Ho) as [B1 B2]. assert (g <> f) by (intros ->; apply Ho; now left).
          rewrite updZ_other in B1 by now apply not_var_addr. rewrite updN_other in B2 by assumption. destruct (P3 g Hg') as [B3 B4]; [intros K; apply Ho; now right|].
          split; congruence.
        + intros Hp _ g Hgo. apply A3; [exact Hp| |exact Hgo]. right. intros h Hh. assert (h <> f) by (intros ->; contradiction).
          rewrite updZ_other; [now apply P4|apply not_var_addr; auto]. }
    assert (HJ0 : InvJ f os 0 (mkState (updZ (mem st) (addrOf f) (s f)) (updN (cnt st) f 0))).
    { unfold InvJ. cbn [mem cnt]. split; [now apply similar_upd|]. split; [|split; [|split; [|split]]].
      - intros g Hg. rewrite updN_other by (intros ->; contradiction). now apply I2.
      - intros g Hg Ho. assert (g <> f) by (intros ->; apply Ho; now left). rewrite updN_other by assumption. rewrite updZ_other by now apply not_var_addr. now apply I3.
      - now rewrite updN_same.
      - rewrite updZ_same. reflexivity.
      - lia. }
    destruct (Q _ _ HL 0%nat HJ0) as [(n & E & Qn) (A1 & A2 & A3)]. cbn [mem cnt] in *. split.
    + cbn [InterchangeExec.its]. assert (EX : flat_map (fun j => its os (updN (cnt st) f (Z.of_nat j))) (seq 0 (Z.to_nat (N f))) = rest f os (updN (cnt st) f 0) 0).
      { unfold rest. rewrite Nat.sub_0_r. fold (rest f os (cnt st) 0). rewrite <- (Nat.sub_0_r (Z.to_nat (N f))). fold (rest f os (cnt st) 0). fold (rest f os (updN (cnt st) f 0) 0).
        apply rest_ext. intros g Hg Ho. symmetry. apply updN_other. intros ->. apply Ho. now left. }
      rewrite EX. edestruct (fun a b c => doAll_eqV _ _ (mem st) n a b c E) as (n' & E' & Q').
      * apply rest_inSpace; [exact D|]. intros g Hg Ho. rewrite updN_other by (intros ->; apply Ho; now left). now apply I3.
      * now apply similar_upd.
      * apply eqV_sym. now apply eqV_upd.
      * exists n'. split; [exact E'|]. eapply eqV_trans; [apply eqV_sym; exact Q'|exact Qn].
    + destruct A1 as (B1 & B2 & _ & _ & B5 & _). split; [exact B1|]. split; [exact B2|]. split.
      * intros g Hg Ho. destruct (A2 g Hg Ho) as [B3 B4]. assert (g <> f) by (intros ->; apply Ho; now left).
        rewrite updZ_other in B3 by now apply not_var_addr. now rewrite updN_other in B4 by assumption.
      * intros Hp g [<-|Hg].
        -- rewrite B5. f_equal. assert (0 < N f) by (apply Hp; now left). lia.
        -- apply A3; [intros h Hh; apply Hp; now right| |exact Hg]. left. assert (0 < N f) by (apply Hp; now left). lia.
Qed.
Lemma run_complete os : NoDup os -> (forall g, In g os -> In g fs) -> forall st n, Inv os st -> doAll (its os (cnt st)) (mem st) = Some n -> exists st', run os st st'.
Proof.
  induction os as [|f os IH]; intros D Hi st n HI E.
  - cbn [InterchangeExec.its doAll] in E. destruct HI as (H1 & H2 & H3). destruct (doIt (map (cnt st) fs) (mem st)) as [p|] eqn:Ep; [|discriminate].
    edestruct (fun a b c => doIt_B (map (cnt st) fs) (mem st) p a b c Ep) as (n' & E' & _).
    + apply inSpace_spec. exists (cnt st). split; [reflexivity|]. intros g Hg. now apply (H3 g Hg).
    + exact H1.
    + apply atIter_spec. intros g Hg. now apply (H3 g Hg).
    + exists (mkState n' (cnt st)). cbn [InterchangeSpec.run]. eauto.
  - inversion D; subst. assert (Hf : In f fs) by (apply Hi; now left).
    assert (Hi' : forall g, In g os -> In g fs) by (intros g Hg; apply Hi; now right).
    specialize (IH H2 Hi'). destruct HI as (I1 & I2 & I3).
    destruct (stable f (mem st) (cnt st) Hf I1 I2) as (S1 & _).
    assert (Q : forall r j st0 n, (Z.to_nat (N f) - j = r)%nat -> InvJ f os j st0 -> doAll (rest f os (cnt st0) j) (mem st0) = Some n -> exists st', loopRel f (run os) st0 st').
    { clear E I1 I2 I3 S1 st n. induction r as [|r IHr]; intros j st0 n Er HJ E.
      - pose proof HJ as (J1 & J2 & J3 & J4 & J5 & J6). destruct (stable f (mem st0) (cnt st0) Hf J1 J2) as (_ & S2 & _).
        exists st0. eapply lr_end; [apply S2; reflexivity|]. rewrite (at_end f os j st0 Hf HJ). apply Nat.ltb_ge. lia.
      - pose proof HJ as (J1 & J2 & J3 & J4 & J5 & J6). destruct (stable f (mem st0) (cnt st0) Hf J1 J2) as (_ & S2 & _).
        assert (L : (j < Z.to_nat (N f))%nat) by lia.
        rewrite rest_next, doAll_app in E by assumption. destruct (doAll (its os (cnt st0)) (mem st0)) as [n1|] eqn:E1; [|discriminate].
        pose proof (InvJ_Inv f os j st0 Hf HJ L) as HI. destruct (IH st0 n1 HI E1) as (st1 & Hb).
        destruct (run_sound os H2 Hi' st0 st1 HI Hb) as [(n1' & E1' & Q1) P]. rewrite E1 in E1'. injection E1' as <-.
        pose proof P as (P1 & P2 & P3 & P4). destruct (stable f (mem st1) (cnt st1) Hf P1 P2) as (_ & _ & S3).
        pose proof (InvJ_next f os j st0 st1 Hf D Hi' HJ L P) as HJ'.
        assert (EX : rest f os (updN (cnt st1) f (cnt st1 f + 1)) (S j) = rest f os (cnt st0) (S j)).
        { apply rest_ext. intros g Hg' Ho. rewrite updN_other by (intros ->; apply Ho; now left). apply (P3 g Hg'). intros K. apply Ho. now right. }
        assert (Sn1 : similar n1) by (eapply similar_eqV; [exact P1|now apply eqV_sym]).
        edestruct (fun a b c => doAll_eqV (rest f os (cnt st0) (S j)) n1 (updZ (mem st1) (addrOf f) (norm f (mem st1 (addrOf f) + d f))) n a b c E) as (n3 & E3 & Q3).
        + apply rest_inSpace; [exact D|]. intros g Hg' Ho. now apply J3.
        + exact Sn1.
        + eapply eqV_trans; [exact Q1|]. now apply eqV_upd.
        + rewrite <- EX in E3. destruct (IHr (S j) _ n3 ltac:(lia) HJ' E3) as (st' & HL).
          exists st'. eapply lr_next with (st1 := st1) (e := e f) (d := d f); [now apply S2| |exact Hb|now apply S3|exact HL].
          rewrite (at_end f os j st0 Hf HJ). now apply Nat.ltb_lt. }
    assert (HJ0 : InvJ f os 0 (mkState (updZ (mem st) (addrOf f) (s f)) (updN (cnt st) f 0))).
    { unfold InvJ. cbn [mem cnt]. split; [now apply similar_upd|]. split; [|split; [|split; [|split]]].
      - intros g Hg. rewrite updN_other by (intros ->; contradiction). now apply I2.
      - intros g Hg Ho. assert (g <> f) by (intros ->; apply Ho; now left). rewrite updN_other by assumption. rewrite updZ_other by now apply not_var_addr. now apply I3.
      - now rewrite updN_same.
      - rewrite updZ_same. reflexivity.
      - lia. }
    cbn [InterchangeExec.its] in E.
    assert (EX : flat_map (fun j => its os (updN (cnt st) f (Z.of_nat j))) (seq 0 (Z.to_nat (N f))) = rest f os (updN (cnt st) f 0) 0).
    { rewrite <- (Nat.sub_0_r (Z.to_nat (N f))) at 1. fold (rest f os (cnt st) 0).
      apply rest_ext. intros g Hg Ho. symmetry. apply updN_other. intros ->. apply Ho. now left. }
    rewrite EX in E. edestruct (fun a b c => doAll_eqV _ _ (updZ (mem st) (addrOf f) (s f)) n a b c E) as (n' & E' & Q').
    + apply rest_inSpace; [exact D|]. intros g Hg Ho. rewrite updN_other by (intros ->; apply Ho; now left). now apply I3.
    + exact I1.
    + now apply eqV_upd.
    + destruct (Q (Z.to_nat (N f)) 0%nat _ n' ltac:(lia) HJ0 E') as (st' & HL). exists st'. cbn [InterchangeSpec.run]. exists (s f). split; [now apply S1|exact HL].
Qed.

(** * Permutation of loops *)
Theorem permuted hs st st' : Permutation fs hs -> mem st = m0 -> cnt st = k0 -> run fs st st' -> exists st'', run hs st st'' /\
  forall x, ~ (isVarOf fs x /\ exists f, In f fs /\ N f = 0) -> ~ hidden x -> mem st' x = mem st'' x.
Proof.
  intros P Em Ek HR.
  assert (ND' : NoDup hs) by (eapply Permutation_NoDup; eauto).
  assert (I' : forall g, In g hs -> In g fs) by (intros g; apply Permutation_in; now apply Permutation_sym).
  assert (I'' : forall g, In g fs -> In g hs) by (intros g; now apply Permutation_in).
  assert (HIf : Inv fs st). { split; [rewrite Em; apply similar0|]. split; [intros g _; now rewrite Ek|]. intros g Hg K. contradiction. }
  assert (HIh : Inv hs st). { split; [rewrite Em; apply similar0|]. split; [intros g _; now rewrite Ek|]. intros g Hg K. exfalso. auto. }
  destruct (run_sound fs ND (fun g H => H) st st' HIf HR) as [(n & E & Q) (P1 & P2 & P3 & P4)].
  assert (PI : Permutation (its fs (cnt st)) (its hs (cnt st))) by (apply its_perm; auto).
  assert (FI : Forall inSpace (its fs (cnt st))) by (apply its_inSpace; [exact ND|]; intros g Hg K; contradiction).
  assert (NI : NoDup (its fs (cnt st))) by (apply its_NoDup; auto).
  assert (S0 : similar (mem st)) by (rewrite Em; apply similar0).
  destruct (doAll_perm _ _ PI NI FI (mem st) (mem st) n S0 S0 (eqP_refl _) E) as (n' & E' & Qn).
  destruct (run_complete hs ND' I' st n' HIh E') as (st'' & HR').
  destruct (run_sound hs ND' I' st st'' HIh HR') as [(n2 & E2 & Q2) (P1' & P2' & P3' & P4')]. rewrite E' in E2. injection E2 as <-.
  exists st''. split; [exact HR'|].
  assert (Dec : {forall f, In f fs -> 0 < N f} + {exists f, In f fs /\ N f = 0}).
  { destruct (Forall_Exists_dec (fun f => 0 < N f) (fun f => Z_lt_dec 0 (N f)) fs) as [F|F].
    - left. now apply Forall_forall.
    - right. apply Exists_exists in F. destruct F as (f & Hf & L). exists f. split; [exact Hf|]. destruct (HN f Hf) as (_ & _ & _ & L' & _). lia. }
  intros x Hz Hh. destruct (isVarOf_dec fs x) as [V|V].
  - destruct Dec as [Hp|K]; [|exfalso; apply Hz; auto]. destruct V as (f & Hf & ->). rewrite P4, P4'; auto.
  - rewrite <- (Q x V), <- (Q2 x V). destruct (Z.eq_dec (n x) (n' x)) as [Eq|Ne]; [exact Eq|]. exfalso.
    assert (NL : ~ lastAt x).
    { intros L. apply Ne. destruct Dec as [Hp|K].
      - destruct (its_last fs N fs ND Hp (cnt st)) as (l & El). destruct (its_last fs N hs ND' ltac:(auto) (cnt st)) as (l' & El').
        assert (EK : map (fun g => if inb g hs then N g - 1 else cnt st g) fs = map (fun g => if inb g fs then N g - 1 else cnt st g) fs).
        { apply map_ext_in. intros g Hg. rewrite (proj2 (inb_spec g hs) (I'' g Hg)), (proj2 (inb_spec g fs) Hg). reflexivity. }
        rewrite EK in El'. rewrite El in *. rewrite El' in *.
        eapply (doAll_perm_last l l' _ PI NI FI (mem st) (mem st) n n' S0 S0 (eqP_refl _) E E' x L Hh).
      - rewrite its_empty in E, E' by (destruct K as (f & Hf & Kf); exists f; split; [auto|lia]).
        cbn [doAll] in E, E'. congruence. }
    apply Ne. apply Qn. intros [K|[_ [K|[K _]]]]; contradiction.
Qed.
End Machine.
