(** Proofs about the clause tie. *)
From Coq Require Import PeanoNat Bool List ZArith Lia.
From Verif Require Import TieModel TieSpec.
Import ListNotations.

Lemma mem_In x l : mem x l = true <-> In x l.
Proof.
  unfold mem; rewrite existsb_exists; split.
  - intros (y & I1 & E); apply Nat.eqb_eq in E; subst; exact I1.
  - intro I1; exists x; split; [exact I1|apply Nat.eqb_refl].
Qed.
Lemma setNth_length d x v : length (setNth d x v) = length v.
Proof. revert d; induction v as [|y v IH]; intros [|d]; cbn; [reflexivity..|rewrite IH; reflexivity]. Qed.
Lemma setNth_nth d x v e :
  nth_error (setNth d x v) e = if Nat.eqb d e then option_map (fun _ => x) (nth_error v e) else nth_error v e.
Proof.
  revert d e; induction v as [|y v IH]; intros [|d] [|e]; cbn; try reflexivity.
  - destruct (Nat.eqb d e); reflexivity.
  - apply IH.
Qed.
Definition stepDim (nest : list nat) (x : option nat * bool) (m : monom) : option nat * bool :=
  if isZero (mCoef m) then x else if mem (mCol m) nest then (Some (mCol m), isPositive (mCoef m)) else x.
Lemma visitMonoms nest d ms : forall mp e,
  nth_error (fold_left (visitMonom nest d) ms mp) e =
  if Nat.eqb d e then option_map (fold_left (stepDim nest) ms) (nth_error mp e) else nth_error mp e.
Proof.
  induction ms as [|m ms IH]; intros mp e; cbn [fold_left].
  - destruct (Nat.eqb d e); [|reflexivity]. destruct (nth_error mp e); reflexivity.
  - rewrite IH.
    assert (V : nth_error (visitMonom nest d mp m) e =
      if Nat.eqb d e then option_map (fun x => stepDim nest x m) (nth_error mp e) else nth_error mp e).
    { unfold visitMonom, stepDim. destruct (isZero (mCoef m)).
      - destruct (Nat.eqb d e), (nth_error mp e); reflexivity.
      - destruct (mem (mCol m) nest); [rewrite setNth_nth|]; destruct (Nat.eqb d e), (nth_error mp e); reflexivity. }
    rewrite V. destruct (Nat.eqb d e); [|reflexivity]. destruct (nth_error mp e); reflexivity.
Qed.
Lemma visitMonoms_length nest d ms : forall mp, length (fold_left (visitMonom nest d) ms mp) = length mp.
Proof.
  induction ms as [|m ms IH]; intro mp; cbn [fold_left]; [reflexivity|].
  rewrite IH. unfold visitMonom. destruct (isZero _); [reflexivity|]. destruct (mem _ _); [apply setNth_length|reflexivity].
Qed.
Definition monomsOf (o : option sub) : list monom :=
  match o with Some s => match sAffine s with Some ms => ms | None => [] end | None => [] end.
Lemma visitSub_spec nest mp o d :
  (forall s, o = Some s -> sDim s = d) -> nth_error mp d = Some (None, true) ->
  length (visitSub nest mp o) = length mp /\
  forall e, nth_error (visitSub nest mp o) e =
    if Nat.eqb d e then Some (fold_left (stepDim nest) (monomsOf o) (None, true)) else nth_error mp e.
Proof.
  intros W N. unfold visitSub, monomsOf. destruct o as [s|].
  - rewrite (W s eq_refl), N. destruct (sAffine s) as [ms|].
    + split; [apply visitMonoms_length|]. intro e. rewrite visitMonoms.
      destruct (Nat.eqb d e) eqn:E; [|reflexivity]. apply Nat.eqb_eq in E; subst e. rewrite N; reflexivity.
    + split; [reflexivity|]. intro e. destruct (Nat.eqb d e) eqn:E; [|reflexivity].
      apply Nat.eqb_eq in E; subst e. exact N.
  - split; [reflexivity|]. intro e. destruct (Nat.eqb d e) eqn:E; [|reflexivity].
    apply Nat.eqb_eq in E; subst e. exact N.
Qed.
Lemma visitSubs nest subs : forall k mp,
  (forall j s, nth_error subs j = Some (Some s) -> sDim s = k + j) ->
  (forall e, k <= e < k + length subs -> nth_error mp e = Some (None, true)) ->
  forall e, nth_error (fold_left (visitSub nest) subs mp) e =
    if Nat.leb k e then
      match nth_error subs (e - k) with
      | Some o => Some (fold_left (stepDim nest) (monomsOf o) (None, true))
      | None => nth_error mp e
      end
    else nth_error mp e.
Proof.
  induction subs as [|o subs IH]; intros k mp W N e; cbn [fold_left].
  - destruct (Nat.leb k e); [|reflexivity]. destruct (e - k); reflexivity.
  - destruct (visitSub_spec nest mp o k) as [_ V].
    { intros s ->. rewrite (W 0 s eq_refl). lia. }
    { apply N. cbn [length]. lia. }
    rewrite (IH (S k)).
    + rewrite V. destruct (Nat.eqb k e) eqn:E.
      * apply Nat.eqb_eq in E; subst e.
        replace (Nat.leb (S k) k) with false by (symmetry; apply Nat.leb_gt; lia).
        rewrite Nat.leb_refl, Nat.sub_diag. reflexivity.
      * apply Nat.eqb_neq in E. destruct (Nat.leb k e) eqn:L.
        -- apply Nat.leb_le in L. replace (Nat.leb (S k) e) with true by (symmetry; apply Nat.leb_le; lia).
           replace (e - k) with (S (e - S k)) by lia. reflexivity.
        -- apply Nat.leb_gt in L. replace (Nat.leb (S k) e) with false by (symmetry; apply Nat.leb_gt; lia). reflexivity.
    + intros j s Ns. rewrite (W (S j) s Ns). lia.
    + intros e' Le. rewrite V. replace (Nat.eqb k e') with false by (symmetry; apply Nat.eqb_neq; lia).
      apply N. cbn [length]. lia.
Qed.
Definition rowOf (nest : list nat) (a : access) : mapping :=
  fold_left (visitSub nest) (aSubs a) (repeat (None, true) (length (aSubs a))).
Lemma nth_repeat_some {A} (x : A) n e : e < n -> nth_error (repeat x n) e = Some x.
Proof. revert e; induction n as [|n IH]; intros [|e] L; cbn; try lia; [reflexivity|apply IH; lia]. Qed.
Lemma rowOf_nth nest a d :
  (forall e s, nth_error (aSubs a) e = Some (Some s) -> sDim s = e) ->
  nth_error (rowOf nest a) d =
  match nth_error (aSubs a) d with
  | Some _ => Some (fold_left (stepDim nest) (monomsAt a d) (None, true))
  | None => None
  end.
Proof.
  intro W. unfold rowOf. rewrite (visitSubs nest (aSubs a) 0).
  - cbn [Nat.leb]. rewrite Nat.sub_0_r. unfold monomsAt. destruct (nth_error (aSubs a) d) as [o|] eqn:N.
    + reflexivity.
    + apply nth_error_None in N. apply nth_error_None. rewrite repeat_length. exact N.
  - intros j s Ns. cbn. exact (W j s Ns).
  - intros e L. apply nth_repeat_some. lia.
Qed.
Definition usesLoop (nest : list nat) (m : monom) : bool :=
  existsb (Nat.eqb (mCol m)) nest && match mCoef m with CConst z => negb (Z.eqb z 0) | CSym _ => true end.
Lemma stepDim_uses nest x m :
  stepDim nest x m = if usesLoop nest m then (Some (mCol m), isPositive (mCoef m)) else x.
Proof.
  unfold stepDim, usesLoop, mem, isZero. destruct (existsb (Nat.eqb (mCol m)) nest);
    destruct (mCoef m) as [z|s]; cbn; try reflexivity; destruct (Z.eqb z 0); reflexivity.
Qed.
Lemma foldDim nest ms : forall x,
  (filter (usesLoop nest) ms = [] /\ fold_left (stepDim nest) ms x = x) \/
  exists m, In m (filter (usesLoop nest) ms) /\ fold_left (stepDim nest) ms x = (Some (mCol m), isPositive (mCoef m)).
Proof.
  induction ms as [|m ms IH]; intro x; cbn [fold_left filter]; [left; split; reflexivity|].
  rewrite stepDim_uses. destruct (usesLoop nest m) eqn:U.
  - right. destruct (IH (Some (mCol m), isPositive (mCoef m))) as [[E F]|(m' & I1 & F)].
    + exists m; split; [left; reflexivity|exact F].
    + exists m'; split; [right; exact I1|exact F].
  - exact (IH x).
Qed.
Lemma update_keys arr mp maps : map fst (update arr mp maps) = map fst maps.
Proof. induction maps as [|[a v] maps IH]; cbn; [reflexivity|]. destruct (Nat.eqb a arr); cbn; [reflexivity|rewrite IH; reflexivity]. Qed.
Lemma update_In arr mp maps b v :
  NoDup (map fst maps) -> In (b, v) (update arr mp maps) ->
  (b = arr /\ v = mp) \/ (b <> arr /\ In (b, v) maps).
Proof.
  induction maps as [|[a w] maps IH]; cbn; intros D I1; [destruct I1|].
  inversion D as [|? ? Na D']; subst. destruct (Nat.eqb a arr) eqn:E.
  - apply Nat.eqb_eq in E; subst a. destruct I1 as [Q|I1].
    + injection Q as <- <-. left; split; reflexivity.
    + right; split; [|right; exact I1]. intros ->. apply Na. apply in_map_iff. exists (arr, v); split; [reflexivity|exact I1].
  - apply Nat.eqb_neq in E. destruct I1 as [Q|I1].
    + injection Q as <- <-. right; split; [exact E|left; reflexivity].
    + destruct (IH D' I1) as [H|[H1 H2]]; [left; exact H|right; split; [exact H1|right; exact H2]].
Qed.
Lemma tie_cases nest private accs : forall maps arr mp,
  NoDup (map fst maps) -> In (arr, mp) (tie nest private accs maps) ->
  (In (arr, mp) maps /\ (In arr private \/ forall a, ~ toArray arr accs a)) \/
  (~ In arr private /\ exists a, toArray arr accs a /\ mp = rowOf nest a).
Proof.
  unfold tie. induction accs as [|a accs IH]; intros maps arr mp D I1; cbn [fold_left] in I1.
  - left. split; [exact I1|]. right. intros a [[] _].
  - assert (D' : NoDup (map fst (visitAccess nest private maps a))).
    { unfold visitAccess. destruct (_ && _); [rewrite update_keys|]; exact D. }
    destruct (IH _ arr mp D' I1) as [[I2 P]|(NP & b & (T1 & T2) & E)].
    + unfold visitAccess in I2. destruct (aEstimate a && negb (mem (aArr a) private)) eqn:G.
      * apply andb_true_iff in G as [Ge Gp]. apply negb_true_iff in Gp.
        destruct (update_In _ _ _ _ _ D I2) as [[-> ->]|[Ne I3]].
        -- right. assert (NP : ~ In (aArr a) private) by (intro Q; apply mem_In in Q; rewrite Q in Gp; discriminate).
           split; [exact NP|]. exists a. split; [|reflexivity]. split; [left; reflexivity|split; [reflexivity|exact Ge]].
        -- left. split; [exact I3|]. destruct P as [P|P]; [left; exact P|right].
           intros b ([->|Ib] & Eb & Gb); [apply Ne; symmetry; exact Eb|apply (P b); split; [exact Ib|split; assumption]].
      * left. split; [exact I2|]. destruct P as [P|P]; [left; exact P|].
        destruct (mem arr private) eqn:Mp; [left; apply mem_In; exact Mp|right].
        intros b ([->|Ib] & Eb & Gb); [|apply (P b); split; [exact Ib|split; assumption]].
        rewrite Gb, Eb, Mp in G. discriminate G.
    + right. split; [exact NP|]. exists b. split; [|exact E]. split; [right; exact T1|exact T2].
Qed.
Lemma uses_In nest a d m : In m (loopsAt nest a d) <-> In m (monomsAt a d) /\ usesLoop nest m = true.
Proof. unfold loopsAt. apply filter_In. Qed.
Lemma row_some nest accs a d l s :
  wellFormed accs -> In a accs -> nth_error (rowOf nest a) d = Some (Some l, s) ->
  exists m, In m (loopsAt nest a d) /\ l = mCol m /\ s = isPositive (mCoef m).
Proof.
  intros W Ia N. rewrite rowOf_nth in N by (intros e s' Ns; exact (W a e s' Ia Ns)).
  destruct (nth_error (aSubs a) d); [|discriminate N].
  destruct (foldDim nest (monomsAt a d) (None, true)) as [[_ F]|(m & Im & F)]; rewrite F in N; [discriminate N|].
  injection N as <- <-. exists m; split; [exact Im|split; reflexivity].
Qed.
Lemma tie_true : C83_tie_claim true true true.
Proof.
  intros nest private accs maps env arr mp d l s W D Fresh Same Single Const I1 N.
  specialize (Same eq_refl). specialize (Single eq_refl). specialize (Const eq_refl).
  destruct (tie_cases _ _ _ _ _ _ D I1) as [[I2 _]|(NP & b & Tb & ->)].
  { rewrite (Fresh _ _ I2) in N. destruct d; discriminate N. }
  destruct (row_some nest accs b d l s W (proj1 Tb) N) as (m & Im & -> & ->).
  split.
  { apply uses_In in Im as [_ U]. unfold usesLoop in U. apply andb_true_iff in U as [U _]. apply mem_In; exact U. }
  split; [exact NP|].
  intros a Ta. pose proof Im as Im'. rewrite (Same b a d Tb Ta) in Im'.
  destruct (Const a d m Ta Im') as [z Cz].
  pose proof Im' as Iu. apply uses_In in Iu as [Ia U]. exists m. split; [exact Ia|split; [reflexivity|]].
  unfold usesLoop in U. rewrite Cz in U. apply andb_true_iff in U as [_ U]. apply negb_true_iff, Z.eqb_neq in U.
  rewrite Cz. cbn [valueOf isPositive]. split; [exact U|]. split.
  { rewrite Z.leb_le. lia. }
  intros m' I' Nest V. assert (Iu : In m' (loopsAt nest a d)).
  { apply uses_In. split; [exact I'|]. unfold usesLoop. apply andb_true_iff; split; [apply mem_In; exact Nest|].
    destruct (mCoef m') as [z'|s']; [|reflexivity]. apply negb_true_iff, Z.eqb_neq. exact V. }
  pose proof (Single a d Ta) as L. destruct (loopsAt nest a d) as [|x [|y r]]; [destruct Im'| |cbn in L; lia].
  destruct Im' as [<-|[]]. destruct Iu as [<-|[]]. reflexivity.
Qed.
Lemma found_true : C83_found_claim.
Proof.
  intros nest private accs maps arr mp d W D I0 NP [a0 T0] Uses I1.
  destruct (tie_cases _ _ _ _ _ _ D I1) as [[_ [P|P]]|(_ & b & Tb & ->)].
  - contradiction.
  - destruct (P a0 T0).
  - pose proof (Uses b Tb) as U. rewrite rowOf_nth by (intros e s' Ns; exact (W b e s' (proj1 Tb) Ns)).
    destruct (nth_error (aSubs b) d) eqn:Ns.
    + destruct (foldDim nest (monomsAt b d) (None, true)) as [[E _]|(m & _ & F)].
      * contradiction.
      * rewrite F. exists (mCol m), (isPositive (mCoef m)). reflexivity.
    + exfalso. apply U. unfold loopsAt, monomsAt. rewrite Ns. reflexivity.
Qed.

(** * sanitizeAcrossLoops *)
Lemma isItem_In k l : (match k with IOther _ => False | _ => True end) -> existsb (isItem k) l = true <-> In k l.
Proof.
  intro K. rewrite existsb_exists. split.
  - intros (x & I1 & E). destruct k, x; try discriminate E; try destruct K; exact I1.
  - intro I1. exists k; split; [exact I1|]. destruct k; try destruct K; reflexivity.
Qed.
Lemma lookup_In arr maps mp : NoDup (map fst maps) -> lookup arr maps = Some mp <-> In (arr, mp) maps.
Proof.
  unfold lookup. induction maps as [|[a v] maps IH]; cbn; intro D; [split; [discriminate|intros []]|].
  inversion D as [|? ? Na D']; subst. destruct (Nat.eqb a arr) eqn:E.
  - apply Nat.eqb_eq in E; subst a. cbn. split.
    + intro Q; injection Q as <-; left; reflexivity.
    + intros [Q|I1]; [injection Q as <-; reflexivity|].
      destruct Na. apply in_map_iff. exists (arr, mp); split; [reflexivity|exact I1].
  - rewrite (IH D'). apply Nat.eqb_neq in E. split; [intro I1; right; exact I1|].
    intros [Q|I1]; [injection Q as Q _; contradiction|exact I1].
Qed.
Lemma untiedDims_spec ds : forall mp,
  untiedDims ds mp = true <->
  exists d x, nth_error ds d = Some x /\ x <> (false, false) /\ forall l s, nth_error mp d <> Some (Some l, s).
Proof.
  induction ds as [|y ds IH]; intro mp; cbn [untiedDims].
  - split; [discriminate|]. intros (d & x & N & _). destruct d; discriminate N.
  - rewrite orb_true_iff, andb_true_iff, IH. split.
    + intros [[A B]|(d & x & N & X & M)].
      * exists 0, y. split; [reflexivity|]. split; [intros ->; discriminate A|].
        intros l s Q. destruct mp as [|[[l'|] s'] mp]; try discriminate Q. discriminate B.
      * exists (S d), x. split; [exact N|]. split; [exact X|]. intros l s Q. apply (M l s).
        destruct mp; [discriminate Q|exact Q].
    + intros ([|d] & x & N & X & M); cbn in N.
      * left. injection N as ->. split.
        -- destruct x as [[|] [|]]; try reflexivity. destruct X; reflexivity.
        -- destruct mp as [|[[l'|] s'] mp]; try reflexivity. destruct (M l' s'); reflexivity.
      * right. exists d, x. split; [exact N|]. split; [exact X|]. intros l s Q. apply (M l s).
        destruct mp; [destruct d; discriminate Q|exact Q].
Qed.
Lemma untied_spec p : NoDup (map fst (pMaps p)) ->
  existsb (untied (pMaps p)) (pAcross p) = true <-> isUntied p.
Proof.
  intro D. rewrite existsb_exists. unfold untied, isUntied. split.
  - intros ([arr ds] & I1 & U). cbn in U. exists arr, ds. split; [exact I1|].
    destruct (lookup arr (pMaps p)) as [mp|] eqn:L.
    + right. apply untiedDims_spec in U as (d & x & H). exists mp, d, x.
      split; [apply lookup_In; assumption|exact H].
    + left. intros mp Q. apply lookup_In in Q; [|exact D]. rewrite L in Q. discriminate Q.
  - intros (arr & ds & I1 & H). exists (arr, ds). split; [exact I1|]. cbn.
    destruct (lookup arr (pMaps p)) as [mp|] eqn:L; [|reflexivity].
    apply lookup_In in L; [|exact D]. destruct H as [H|(mp' & d & x & I2 & H)]; [destruct (H mp L)|].
    apply lookup_In in I2; [|exact D]. apply lookup_In in L; [|exact D]. rewrite L in I2. injection I2 as <-.
    apply untiedDims_spec. exists d, x. exact H.
Qed.
Lemma removeFirst_filter k l : count k l <= 1 -> removeFirst k l = filter (fun x => negb (isItem k x)) l.
Proof.
  unfold count. induction l as [|x l IH]; cbn; [reflexivity|]. destruct (isItem k x) eqn:E; cbn; intro L.
  - assert (Z : filter (isItem k) l = []) by (destruct (filter (isItem k) l); [reflexivity|cbn in L; lia]).
    clear IH L. induction l as [|y l IH]; cbn in *; [reflexivity|].
    destruct (isItem k y) eqn:Ey; [discriminate Z|]. cbn. f_equal. apply IH. exact Z.
  - f_equal. apply IH. exact L.
Qed.
Lemma filter_filter {A} (f g : A -> bool) l : filter f (filter g l) = filter (fun x => g x && f x) l.
Proof.
  induction l as [|x l IH]; cbn; [reflexivity|]. destruct (g x); cbn; [destruct (f x); rewrite IH; reflexivity|exact IH].
Qed.
Lemma count_filter k g l : count k (filter g l) <= count k l.
Proof.
  unfold count. induction l as [|x l IH]; cbn; [lia|]. destruct (g x); cbn; destruct (isItem k x); cbn; lia.
Qed.
Lemma entry_length l :
  (forall x, In x l -> isItem IMarker x = false /\ isItem IGetActual x = false) ->
  length l = count IParallel l + count IRegion l + count IActual l + length (others l).
Proof.
  unfold count, others. induction l as [|x l IH]; cbn; intro H; [reflexivity|].
  specialize (IH (fun y Iy => H y (or_intror Iy))). destruct (H x (or_introl eq_refl)) as [Hm Hg].
  destruct x; try discriminate Hm; try discriminate Hg; cbn; lia.
Qed.
Lemma all_others (f : item -> bool) l : (forall n, f (IOther n) = false) -> forallb f l = true -> others l = [].
Proof.
  intro F. induction l as [|x l IH]; cbn; intro H; [reflexivity|]. apply andb_true_iff in H as [Hx H].
  destruct x; try exact (IH H). rewrite F in Hx. discriminate Hx.
Qed.
Lemma count_pos k l : (match k with IOther _ => False | _ => True end) -> In k l -> 1 <= count k l.
Proof.
  intros K I1. unfold count. assert (In k (filter (isItem k) l)) as H.
  { apply filter_In. split; [exact I1|]. destruct k; try reflexivity; destruct K. }
  destruct (filter (isItem k) l); [destruct H|cbn; lia].
Qed.
Lemma cleanEntry_others l :
  count IParallel l <= 1 -> count IRegion l <= 1 -> count IActual l <= 1 ->
  (forall x, In x l -> isItem IMarker x = false /\ isItem IGetActual x = false) ->
  In IParallel l -> In IRegion l -> cleanEntry l = others l.
Proof.
  intros P R A H Ip Ir. unfold cleanEntry.
  pose proof (entry_length l H) as L.
  pose proof (count_pos IParallel l Logic.I Ip). pose proof (count_pos IRegion l Logic.I Ir).
  destruct (Nat.eqb (length l) 2) eqn:E2; cbn [orb].
  { apply Nat.eqb_eq in E2. destruct (others l); [reflexivity|cbn in L; lia]. }
  destruct (Nat.eqb (length l) 3 && forallb (fun x => isItem IRegion x || isItem IParallel x || isItem IActual x) l) eqn:E3.
  { apply andb_true_iff in E3 as [_ E3]. symmetry. refine (all_others _ l _ E3). reflexivity. }
  rewrite (removeFirst_filter IRegion) by exact R.
  rewrite (removeFirst_filter IParallel) by (eapply Nat.le_trans; [apply count_filter|exact P]).
  rewrite filter_filter.
  rewrite (removeFirst_filter IActual) by (eapply Nat.le_trans; [apply count_filter|exact A]).
  rewrite filter_filter. unfold others. apply filter_ext_in. intros x Ix.
  destruct (H x Ix) as [Hm Hg]. destruct x; try discriminate Hm; try discriminate Hg; reflexivity.
Qed.
Lemma cleanExit_others l :
  count IMarker l <= 1 -> count IGetActual l <= 1 -> In IMarker l ->
  (forall x, In x l -> isItem IParallel x = false /\ isItem IRegion x = false /\ isItem IActual x = false) ->
  cleanExit l = others l.
Proof.
  intros M G Im H. unfold cleanExit.
  destruct (Nat.eqb (length l) 1) eqn:E1; cbn [orb].
  { apply Nat.eqb_eq in E1. destruct l as [|x [|y l]]; try discriminate E1. destruct Im as [->|[]]. reflexivity. }
  destruct (Nat.eqb (length l) 2 && forallb (fun x => isItem IMarker x || isItem IGetActual x) l) eqn:E2.
  { apply andb_true_iff in E2 as [_ E2]. symmetry. refine (all_others _ l _ E2). reflexivity. }
  rewrite (removeFirst_filter IMarker) by exact M.
  rewrite (removeFirst_filter IGetActual) by (eapply Nat.le_trans; [apply count_filter|exact G]).
  rewrite filter_filter. unfold others. apply filter_ext_in. intros x Ix.
  destruct (H x Ix) as (Hp & Hr & Ha). destruct x; try discriminate Hp; try discriminate Hr; try discriminate Ha; reflexivity.
Qed.
Lemma others_not l : ~ In IParallel (others l).
Proof. unfold others. rewrite filter_In. intros [_ H]; discriminate H. Qed.
Definition loopDone (p p' : place) : Prop :=
  (In IParallel (pEntry p') -> ~ isUntied p') /\
  (In IParallel (pEntry p) -> isUntied p -> pEntry p' = others (pEntry p) /\ pExit p' = others (pExit p)) /\
  (~ (In IParallel (pEntry p) /\ isUntied p) -> p' = p).
Lemma sanitizeLoop_done p : created p -> (In IParallel (pEntry p) -> In IRegion (pEntry p)) ->
  exists p', sanitizeLoop p = Some p' /\ loopDone p p'.
Proof.
  intros (D & P & R & A & M & G & HX & HE) Reg. unfold sanitizeLoop.
  destruct (existsb (isItem IParallel) (pEntry p)) eqn:Ep; cbn [andb].
  - apply isItem_In in Ep; [|exact Logic.I]. specialize (Reg Ep).
    destruct (existsb (untied (pMaps p)) (pAcross p)) eqn:U.
    + apply (untied_spec p D) in U.
      assert (Im : In IMarker (pExit p)).
      { pose proof (count_pos IRegion _ Logic.I Reg) as C. rewrite <- M in C. unfold count in C.
        destruct (filter (isItem IMarker) (pExit p)) as [|x r] eqn:F; [cbn in C; lia|].
        assert (In x (filter (isItem IMarker) (pExit p))) as Ix by (rewrite F; left; reflexivity).
        apply filter_In in Ix as [Ix E]. destruct x; try discriminate E. exact Ix. }
      pose proof (proj2 (isItem_In IMarker (pExit p) Logic.I) Im) as Em.
      pose proof (proj2 (isItem_In IRegion (pEntry p) Logic.I) Reg) as Er.
      rewrite Em, Er. cbn [andb]. eexists. split; [reflexivity|].
      rewrite (cleanEntry_others _ P R A HE Ep Reg).
      rewrite (cleanExit_others _ ltac:(rewrite M; exact R) G Im HX).
      unfold loopDone; cbn. split; [intro Q; destruct (others_not _ Q)|].
      split; [split; reflexivity|]. intro N. destruct N. split; assumption.
    + exists p. split; [reflexivity|]. assert (NU : ~ isUntied p).
      { intro Q. apply (untied_spec p D) in Q. rewrite Q in U. discriminate U. }
      split; [intros _; exact NU|]. split; [intros _ Q; contradiction|reflexivity].
  - exists p. split; [reflexivity|]. assert (NP : ~ In IParallel (pEntry p)).
    { intro Q. apply (proj2 (isItem_In IParallel _ Logic.I)) in Q. rewrite Q in Ep. discriminate Ep. }
    split; [intro Q; contradiction|]. split; [intro Q; contradiction|reflexivity].
Qed.
Lemma sanitize_true : C83_sanitize_claim true.
Proof.
  intros ps C Reg. specialize (Reg eq_refl). induction ps as [|p ps IH].
  - exists []. split; [reflexivity|]. split; [reflexivity|]. intros [|k] p p' Q; discriminate Q.
  - destruct (IH (fun q Iq => C q (or_intror Iq)) (fun q Iq => Reg q (or_intror Iq))) as (ps' & E & L & H).
    destruct (sanitizeLoop_done p (C p (or_introl eq_refl)) (Reg p (or_introl eq_refl))) as (p' & E' & Dn).
    exists (p' :: ps'). cbn [sanitize]. rewrite E', E. split; [reflexivity|]. split; [cbn; rewrite L; reflexivity|].
    intros [|k] q q' Q Q'; cbn in Q, Q'; [injection Q as <-; injection Q' as <-; exact Dn|exact (H k q q' Q Q')].
Qed.
Lemma sanitize_refuted : ~ C83_sanitize_claim false.
Proof.
  intro H. destruct (H [Place [(0, [(true, false)])] [] [IParallel] []]) as (ps' & E & _).
  - intros p [<-|[]]. unfold created, count; cbn. repeat split; try lia; try constructor; try (intros []);
      match goal with Q : _ \/ _ |- _ => destruct Q as [<-|[]]; reflexivity | Q : False |- _ => destruct Q end.
  - discriminate.
  - discriminate E.
Qed.
(* [0] and [i]; [i + j]; [n * i] *)
Definition subOf (ms : list monom) : list (option sub) := [Some (Sub 0 (Some ms))].
Definition accOf (ms : list monom) : access := Access 5 true (subOf ms).
Ltac wf := intros a d s Ia N; repeat (destruct Ia as [<-|Ia]); try destruct Ia;
  destruct d as [|[|d]]; cbn in N; try discriminate N; injection N as <-; reflexivity.
Lemma tie_refuted_same : ~ C83_tie_claim false true true.
Proof.
  intro H.
  destruct (H [1] [] [accOf []; accOf [Monom 1 (CConst 1)]] [(5, [])] (fun _ => 1%Z) 5 [(Some 1, true)] 0 1 true) as (_ & _ & Q).
  - wf.
  - repeat constructor; intros [].
  - intros a m [E|[]]; injection E as _ <-; reflexivity.
  - discriminate.
  - intros _ a e ([<-|[<-|[]]] & _); destruct e as [|[|e]]; cbn; lia.
  - intros _ a e m ([<-|[<-|[]]] & _) Im; destruct e as [|[|e]]; cbn in Im;
      try destruct Im as [<-|Im]; try destruct Im; eexists; reflexivity.
  - left; reflexivity.
  - reflexivity.
  - destruct (Q (accOf [])) as (m & [] & _). split; [left; reflexivity|split; reflexivity].
Qed.
Lemma tie_refuted_single : ~ C83_tie_claim true false true.
Proof.
  intro H.
  destruct (H [1; 2] [] [accOf [Monom 1 (CConst 1); Monom 2 (CConst 1)]] [(5, [])] (fun _ => 1%Z) 5 [(Some 2, true)] 0 2 true) as (_ & _ & Q).
  - wf.
  - repeat constructor; intros [].
  - intros a m [E|[]]; injection E as _ <-; reflexivity.
  - intros _ a b e ([<-|[]] & _) ([<-|[]] & _). reflexivity.
  - discriminate.
  - intros _ a e m ([<-|[]] & _) Im; destruct e as [|[|e]]; cbn in Im;
      repeat (try destruct Im as [<-|Im]); try destruct Im; eexists; reflexivity.
  - left; reflexivity.
  - reflexivity.
  - destruct (Q (accOf [Monom 1 (CConst 1); Monom 2 (CConst 1)])) as (m & _ & _ & _ & _ & F).
    + split; [left; reflexivity|split; reflexivity].
    + specialize (F (Monom 1 (CConst 1)) (or_introl eq_refl) (or_introl eq_refl) ltac:(discriminate)). discriminate F.
Qed.
Lemma tie_refuted_const : ~ C83_tie_claim true true false.
Proof.
  intro H.
  destruct (H [1] [] [accOf [Monom 1 (CSym 0)]] [(5, [])] (fun _ => 1%Z) 5 [(Some 1, false)] 0 1 false) as (_ & _ & Q).
  - wf.
  - repeat constructor; intros [].
  - intros a m [E|[]]; injection E as _ <-; reflexivity.
  - intros _ a b e ([<-|[]] & _) ([<-|[]] & _). reflexivity.
  - intros _ a e ([<-|[]] & _); destruct e as [|[|e]]; cbn; lia.
  - discriminate.
  - left; reflexivity.
  - reflexivity.
  - destruct (Q (accOf [Monom 1 (CSym 0)])) as (m & [<-|[]] & _ & _ & [_ F] & _).
    + split; [left; reflexivity|split; reflexivity].
    + specialize (F ltac:(cbn; lia)). discriminate F.
Qed.
