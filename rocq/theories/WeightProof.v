(** Proofs about weights (C73). *)
From Coq Require Import List Bool Arith ZArith Lia Sorted.
From Verif Require Import WeightModel WeightSpec.
Import ListNotations.

(** ** Binary search *)
Lemma notAfter_iff s l : notAfter s l = true <-> leq (pos s) l.
Proof.
  unfold notAfter, leq, pos. cbn [fst snd]. rewrite orb_true_iff, andb_true_iff, Nat.ltb_lt, Nat.eqb_eq, Nat.leb_le. reflexivity.
Qed.
Lemma leq_trans a b c : leq a b -> leq b c -> leq a c.
Proof. unfold leq. lia. Qed.
Lemma sorted_nth cov : sorted cov -> forall i j, i < j -> j < length cov -> leq (pos (nth i cov seg0)) (pos (nth j cov seg0)).
Proof.
  intro S0. induction S0 as [|s cov S1 IH F]; intros i j IJ J; [cbn [length] in J; lia|]. cbn [length] in J. destruct j as [|j]; [lia|]. cbn [nth]. destruct i as [|i].
  - rewrite Forall_forall in F. apply F. apply nth_In. lia.
  - apply IH; lia.
Qed.
Lemma bsearch_ok cov l : forall fuel b e, b < e -> e <= length cov -> e - b <= fuel -> notAfter (nth b cov seg0) l = true -> (e = length cov \/ notAfter (nth e cov seg0) l = false) ->
  exists i, bsearch fuel cov l b e = Some (sCount (nth i cov seg0)) /\ i < length cov /\ notAfter (nth i cov seg0) l = true /\ (S i = length cov \/ notAfter (nth (S i) cov seg0) l = false).
Proof.
  induction fuel as [|fuel IH]; intros b e BE EL F NB NE; [lia|]. cbn [bsearch]. destruct (Nat.eqb_spec (e - b) 1) as [E1|E1].
  - exists b. replace (S b) with e by lia. repeat split; [lia|exact NB|exact NE].
  - assert (H1 : 1 <= Nat.div2 (e - b)) by (destruct (e - b) as [|[|n]] eqn:EB; [lia|lia|cbn [Nat.div2]; lia]).
    assert (H2 : Nat.div2 (e - b) < e - b) by (apply Nat.lt_div2; lia). destruct (notAfter (nth (b + Nat.div2 (e - b)) cov seg0) l) eqn:NH.
    + apply IH; [lia|exact EL|lia|exact NH|exact NE].
    + apply IH; [lia|lia|lia|exact NB|now right].
Qed.
Lemma split_nth (A : Type) (d : A) (l : list A) i : i < length l -> l = firstn i l ++ nth i l d :: skipn (S i) l.
Proof. revert i. induction l as [|a l IH]; intros [|i] I; cbn [length] in I; try lia; [reflexivity|]. cbn [firstn nth skipn app]. f_equal. apply IH. lia. Qed.
Lemma nth_skipn2 (A : Type) (d : A) (l : list A) n i : nth i (skipn n l) d = nth (n + i) l d.
Proof. revert l. induction n as [|n IH]; intro l; [reflexivity|]. destruct l as [|a l]; [now destruct i|]. cbn [skipn Nat.add nth]. apply IH. Qed.
Theorem getExecutionCount_ok cov loc : sorted cov -> exists c, getExecutionCount cov loc = Some c /\ countAt cov loc c.
Proof.
  intro SO. destruct loc as [l|]; [|exists 0%Z; now split]. destruct cov as [|s0 cov]; [exists 0%Z; split; [reflexivity|right; split; [intros t []|reflexivity]]|].
  cbn [getExecutionCount]. destruct (notAfter s0 l) eqn:N0; cbn [negb].
  - destruct (bsearch_ok (s0 :: cov) l (length (s0 :: cov)) 0 (length (s0 :: cov))) as (i & E & IL & NI & NS); [cbn [length]; lia|lia|lia|exact N0|now left|]. rewrite E.
    exists (sCount (nth i (s0 :: cov) seg0)). split; [reflexivity|]. left. exists (firstn i (s0 :: cov)), (nth i (s0 :: cov) seg0), (skipn (S i) (s0 :: cov)).
    split; [now apply split_nth|]. split; [now apply notAfter_iff|]. split; [|reflexivity]. intros t T L. destruct NS as [NS|NS].
    + rewrite skipn_all2 in T by lia. destruct T.
    + apply In_nth with (d := seg0) in T. destruct T as (j & J & <-). rewrite skipn_length in J. rewrite nth_skipn2 in L. destruct j as [|j].
      * rewrite Nat.add_0_r in L. apply notAfter_iff in L. congruence.
      * assert (X : notAfter (nth (S i) (s0 :: cov) seg0) l = true); [|congruence]. apply notAfter_iff. refine (leq_trans _ _ _ _ L). apply sorted_nth; [exact SO|lia|lia].
  - exists 0%Z. split; [reflexivity|]. right. split; [|reflexivity]. assert (X : ~ leq (pos s0) l) by (intro L; apply notAfter_iff in L; congruence).
    intros t [<-|T] L; [now apply X|]. apply X. inversion SO as [|? ? _ F]; subst. rewrite Forall_forall in F. exact (leq_trans _ _ _ (F t T) L).
Qed.
Lemma countAt_fun cov loc c1 c2 : sorted cov -> countAt cov loc c1 -> countAt cov loc c2 -> c1 = c2.
Proof.
  intros SO. destruct loc as [l|]; cbn [countAt]; [|congruence]. intros [(a1 & s1 & b1 & E1 & L1 & N1 & ->)|(N1 & ->)] [(a2 & s2 & b2 & E2 & L2 & N2 & ->)|(N2 & ->)]; [| | |reflexivity].
  - assert (X : forall (a1 a2 : list seg) s1 s2 b1 b2, a1 ++ s1 :: b1 = a2 ++ s2 :: b2 -> leq (pos s1) l -> leq (pos s2) l -> (forall t, In t b1 -> ~ leq (pos t) l) -> (forall t, In t b2 -> ~ leq (pos t) l) -> s1 = s2).
    { clear. induction a1 as [|x a1 IH]; intros [|y a2] s1 s2 b1 b2 E L1 L2 N1 N2; cbn [app] in E; injection E as E0 E.
      - exact E0.
      - exfalso. apply (N1 s2); [|exact L2]. rewrite E, in_app_iff. right. now left.
      - exfalso. apply (N2 s1); [|exact L1]. rewrite <- E, in_app_iff. right. now left.
      - exact (IH a2 s1 s2 b1 b2 E L1 L2 N1 N2). }
    subst cov. f_equal. exact (X _ _ _ _ _ _ E2 L1 L2 N1 N2).
  - exfalso. subst cov. apply (N2 s1); [rewrite in_app_iff; right; now left|exact L1].
  - exfalso. subst cov. apply (N1 s2); [rewrite in_app_iff; right; now left|exact L2].
Qed.

(** ** Maps *)
Lemma get_app (A : Type) (m a : list (nat * A)) k : get (m ++ a) k = match get m k with Some v => Some v | None => get a k end.
Proof. unfold get. induction m as [|[x v] m IH]; [reflexivity|]. cbn [app find fst]. destruct (x =? k); [reflexivity|exact IH]. Qed.
Lemma get_none (A : Type) (m : list (nat * A)) k : ~ In k (map fst m) -> get m k = None.
Proof.
  unfold get. induction m as [|[x v] m IH]; intro N; [reflexivity|]. cbn [find fst]. destruct (Nat.eqb_spec x k) as [->|NE]; [exfalso; apply N; now left|]. apply IH. intro X. apply N. now right.
Qed.
Lemma get_in (A : Type) (m : list (nat * A)) k : get m k <> None -> In k (map fst m).
Proof. intro G. destruct (in_dec Nat.eq_dec k (map fst m)) as [X|X]; [exact X|]. exfalso. apply G. now apply get_none. Qed.
Lemma get_emplace (A : Type) (m : list (nat * A)) k v : ~ In k (map fst m) -> get (emplace m k v) k = Some v.
Proof. intro N. unfold emplace. rewrite get_app, (get_none _ _ _ N). unfold get. cbn [find fst]. now rewrite Nat.eqb_refl. Qed.
Lemma get_ext (A : Type) (m a : list (nat * A)) k v : get m k = Some v -> get (m ++ a) k = Some v.
Proof. intro E. now rewrite get_app, E. Qed.

Fixpoint loop_ind2 (P : loop -> Prop) (H : forall id hdr bs subs, Forall P subs -> P (Loop id hdr bs subs)) (l : loop) : P l :=
  match l with
  | Loop id hdr bs subs => H id hdr bs subs ((fix go ls : Forall P ls := match ls with [] => Forall_nil P | l :: ls => Forall_cons l (loop_ind2 P H l) (go ls) end) subs)
  end.

Section W.
Variable fn : nat -> func.
Variables unkF unkB : Z.
Variable cnt : list seg -> inst -> Z.
Hypothesis CNT : forall cov i, sorted cov -> countAt cov (iLoc i) (cnt cov i).

Lemma count_eq cov i : sorted cov -> getExecutionCount cov (iLoc i) = Some (cnt cov i).
Proof.
  intro SO. destruct (getExecutionCount_ok cov (iLoc i) SO) as (c & E & C). rewrite E. f_equal. exact (countAt_fun cov _ _ _ SO C (CNT cov i SO)).
Qed.
Lemma firstCount_eq cov is : sorted cov -> firstCount cov is = Some (iterations cnt cov is).
Proof.
  intro SO. unfold iterations. induction is as [|i is IH]; [reflexivity|]. cbn [firstCount find]. rewrite (count_eq cov i SO). cbn [bind]. destruct (Z.ltb 0 (cnt cov i)); [reflexivity|exact IH].
Qed.
Lemma selfWeight_eq selfs i : selfWeight unkF unkB selfs i = weightOf unkF unkB (get selfs) i.
Proof. unfold selfWeight, weightOf. destruct (iCall i) as [| | |f bi]; try reflexivity. Qed.
Definition tw (self : nat -> option Z) (cov : list seg) (i : inst) : Z := (cnt cov i * weightOf unkF unkB self i)%Z.
Lemma totalWeight_eq selfs cov i : sorted cov -> totalWeight unkF unkB selfs cov i = Some (tw (get selfs) cov i).
Proof. intro SO. unfold totalWeight. rewrite (count_eq cov i SO). cbn [bind]. rewrite selfWeight_eq. f_equal. unfold tw. ring. Qed.
Lemma mapO_map (A B : Type) (f : A -> option B) (g : A -> B) l : (forall a, f a = Some (g a)) -> mapO f l = Some (map g l).
Proof. intro E. induction l as [|a l IH]; [reflexivity|]. cbn [mapO map]. now rewrite E, IH. Qed.
Lemma sumZ_fold l : sumZ l = fold_right Z.add 0%Z l.
Proof. induction l as [|z l IH]; [reflexivity|]. cbn [sumZ fold_right]. now rewrite IH. Qed.
Lemma sumZ_app a b : sumZ (a ++ b) = (sumZ a + sumZ b)%Z.
Proof. induction a as [|z a IH]; [reflexivity|]. cbn [app sumZ]. rewrite IH. ring. Qed.
Lemma weights_sum self cov is : weights unkF unkB cnt self cov is = sumZ (map (tw self cov) is).
Proof. symmetry. apply sumZ_fold. Qed.
Lemma sum_concat self cov bls : sumZ (map sumZ (map (map (tw self cov)) bls)) = weights unkF unkB cnt self cov (concat bls).
Proof.
  rewrite weights_sum. induction bls as [|b bls IH]; [reflexivity|]. cbn [map concat sumZ]. rewrite map_app, sumZ_app. f_equal. exact IH.
Qed.
Lemma sum_blocks self cov bls bs : sumZ (map (fun b => sumZ (nth b (map (map (tw self cov)) bls) [])) bs) = weights unkF unkB cnt self cov (flat_map (fun b => nth b bls []) bs).
Proof.
  rewrite weights_sum. induction bs as [|b bs IH]; [reflexivity|]. cbn [map flat_map sumZ]. rewrite map_app, sumZ_app. f_equal; [|exact IH].
  f_equal. change (@nil Z) with (map (tw self cov) []). apply map_nth.
Qed.
Hypothesis UF : (0 <= unkF)%Z.
Hypothesis UB : (0 <= unkB)%Z.
Hypothesis COST : forall f i, In i (concat (fBlocks (fn f))) -> (0 <= iCost i)%Z.
Lemma count_pos cov i : sorted cov -> (forall s, In s cov -> 0 <= sCount s)%Z -> (0 <= cnt cov i)%Z.
Proof.
  intros SO P. specialize (CNT cov i SO). destruct (iLoc i) as [l|]; cbn [countAt] in CNT; [|lia]. destruct CNT as [(a & s & b & -> & _ & _ & ->)|(_ & ->)]; [|lia]. apply P. rewrite in_app_iff. right. now left.
Qed.
Lemma weights_pos self cov is : (forall i, In i is -> 0 <= cnt cov i)%Z -> (forall i, In i is -> 0 <= iCost i)%Z -> (forall g w, self g = Some w -> 0 <= w)%Z -> (0 <= weights unkF unkB cnt self cov is)%Z.
Proof.
  intros C K S. unfold weights. induction is as [|i is IH]; [cbn; lia|]. cbn [map fold_right]. assert (H1 : (0 <= cnt cov i)%Z) by (apply C; now left).
  assert (H2 : (0 <= weightOf unkF unkB self i)%Z).
  { unfold weightOf. assert (0 <= iCost i)%Z by (apply K; now left). destruct (iCall i) as [| | |g bi]; try lia. destruct (self g) as [w|] eqn:E; [specialize (S g w E); lia|]. destruct bi; lia. }
  assert (H3 : (0 <= cnt cov i * weightOf unkF unkB self i)%Z) by (apply Z.mul_nonneg_nonneg; assumption).
  assert (H4 : (0 <= fold_right Z.add 0 (map (fun i => cnt cov i * weightOf unkF unkB self i) is))%Z) by (apply IH; [intros j J; apply C; now right|intros j J; apply K; now right]). lia.
Qed.

(** ** Loops *)
Lemma visitLoops_eq cov bls ws entry parent : forall ls s,
  (fix go (ls : list loop) (s : state) := match ls with [] => Some s | l :: ls => bind (visitLoop cov bls ws entry parent l s) (go ls) end) ls s = visitLoops cov bls ws entry parent ls s.
Proof. induction ls as [|l ls IH]; intro s; [reflexivity|]. cbn [visitLoops]. destruct (visitLoop cov bls ws entry parent l s) as [s1|]; [apply IH|reflexivity]. Qed.
Lemma loopSpec_mono self tot selfL tot2 selfL2 cov bls entry P l : (forall i v, tot i = Some v -> tot2 i = Some v) -> (forall i v, selfL i = Some v -> selfL2 i = Some v) ->
  loopSpec unkF unkB cnt self tot selfL cov bls entry P l -> loopSpec unkF unkB cnt self tot2 selfL2 cov bls entry P l.
Proof.
  intros M1 M2. induction 1 as [P i hdr bs subs T N E1 E2 E3 E4 _ IH|P hdr bs subs _ IH].
  - exact (LsId _ _ _ _ _ _ _ _ _ P i hdr bs subs T N (M1 _ _ E1) E2 E3 (M2 _ _ E4) IH).
  - exact (LsNo _ _ _ _ _ _ _ _ _ P hdr bs subs IH).
Qed.
(** States after visits of loops *)
Record ext (s s2 : state) (ids : list nat) : Prop := Ext {
  eS : selfF s2 = selfF s;
  eT : totF s2 = totF s;
  eL : exists a, loopTot s2 = loopTot s ++ a /\ map fst a = ids;
  eM : exists a, loopSelf s2 = loopSelf s ++ a /\ map fst a = ids }.
Lemma ext_trans s1 s2 s3 a b : ext s1 s2 a -> ext s2 s3 b -> ext s1 s3 (a ++ b).
Proof.
  intros [S1 T1 (x1 & L1 & X1) (y1 & M1 & Y1)] [S2 T2 (x2 & L2 & X2) (y2 & M2 & Y2)]. split; [congruence|congruence| |].
  - exists (x1 ++ x2). now rewrite L2, L1, app_assoc, map_app, X1, X2.
  - exists (y1 ++ y2). now rewrite M2, M1, app_assoc, map_app, Y1, Y2.
Qed.
Lemma ext_refl s : ext s s [].
Proof. split; [reflexivity|reflexivity|exists []; now rewrite app_nil_r|exists []; now rewrite app_nil_r]. Qed.
Definition fresh (s : state) (ids : list nat) : Prop := forall i, In i ids -> ~ In i (map fst (loopTot s)) /\ ~ In i (map fst (loopSelf s)).

Section L.
Variable cov : list seg.
Variable bls : list (list inst).
Variable entry : Z.
Variable self : nat -> option Z.
Hypothesis SO : sorted cov.
Hypothesis CP : forall s, In s cov -> (0 <= sCount s)%Z.
Hypothesis EP : (0 < entry)%Z.
Hypothesis WP : forall bs, (0 <= weights unkF unkB cnt self cov (flat_map (fun b => nth b bls []) bs))%Z.
Notation ws := (map (map (tw self cov)) bls).
Notation spec s := (loopSpec unkF unkB cnt self (get (loopTot s)) (get (loopSelf s)) cov bls entry).
Lemma iterations_pos is : (0 <= iterations cnt cov is)%Z.
Proof. unfold iterations. destruct (find _ is) as [i|] eqn:E; [|lia]. apply find_some in E. destruct E as (_ & E). apply Z.ltb_lt in E. lia. Qed.
Definition VL (l : loop) : Prop := forall parent s P, outerOk cnt cov bls l -> NoDup (idsOf l) -> fresh s (idsOf l) -> parentIters s entry parent = P -> (0 < P)%Z ->
  exists s2, visitLoop cov bls ws entry parent l s = Some s2 /\ ext s s2 (idsOf l) /\ spec s2 P l.
Lemma NoDup_app_inv (A : Type) (a b : list A) : NoDup (a ++ b) -> NoDup a /\ NoDup b /\ forall x, In x a -> ~ In x b.
Proof.
  induction a as [|x a IH]; cbn [app]; intro H; [repeat split; [constructor|exact H|intros x []]|]. inversion H as [|? ? N H1]; subst. destruct (IH H1) as (H2 & H3 & H4).
  repeat split; [constructor; [intro X; apply N; rewrite in_app_iff; now left|exact H2]|exact H3|]. intros y [<-|Y] Z; [apply N; rewrite in_app_iff; now right|exact (H4 y Y Z)].
Qed.
Lemma parentIters_ext s s2 ids parent : ext s s2 ids -> (forall p, parent = Some p -> get (loopTot s) p <> None) -> parentIters s2 entry parent = parentIters s entry parent.
Proof.
  intros [_ _ (a & L & _) _] G. unfold parentIters. destruct parent as [p|]; [|reflexivity]. specialize (G p eq_refl). destruct (get (loopTot s) p) as [v|] eqn:E; [|now destruct G]. now rewrite L, (get_ext _ _ _ _ _ E).
Qed.
Lemma visitLoops_ok ls : Forall VL ls -> forall parent s P, (forall l, In l ls -> outerOk cnt cov bls l) -> NoDup (flat_map idsOf ls) -> fresh s (flat_map idsOf ls) ->
  (forall p, parent = Some p -> get (loopTot s) p <> None) -> parentIters s entry parent = P -> (0 < P)%Z ->
  exists s2, visitLoops cov bls ws entry parent ls s = Some s2 /\ ext s s2 (flat_map idsOf ls) /\ forall l, In l ls -> spec s2 P l.
Proof.
  induction 1 as [|l ls H0 _ IH]; intros parent s P OO ND FR PG PI PP.
  - exists s. split; [reflexivity|]. split; [apply ext_refl|intros l []].
  - cbn [flat_map] in *. apply NoDup_app_inv in ND. destruct ND as (ND1 & ND2 & DJ). cbn [visitLoops].
    destruct (H0 parent s P) as (s1 & E1 & X1 & S1); [apply OO; now left|exact ND1|intros i I; apply FR; rewrite in_app_iff; now left|exact PI|exact PP|]. rewrite E1. cbn [bind].
    destruct (IH parent s1 P) as (s2 & E2 & X2 & S2); [intros l1 I; apply OO; now right|exact ND2| | |rewrite (parentIters_ext s s1 _ parent X1 PG); exact PI|exact PP|].
    + intros i I. destruct X1 as [_ _ (a & -> & A) (b & -> & B)]. rewrite !map_app, !in_app_iff, A, B. destruct (FR i) as (F1 & F2); [rewrite in_app_iff; now right|]. specialize (DJ i).
      split; intros [Q|Q]; tauto.
    + intros p ->. destruct X1 as [_ _ (a & -> & _) _]. specialize (PG p eq_refl). rewrite get_app. destruct (get (loopTot s) p); [discriminate|now destruct PG].
    + exists s2. split; [exact E2|]. split; [exact (ext_trans _ _ _ _ _ X1 X2)|]. intros l1 [<-|I]; [|now apply S2].
      refine (loopSpec_mono _ _ _ _ _ _ _ _ _ _ _ _ S1); destruct X2 as [_ _ (a & L2 & _) (b & M2 & _)]; rewrite ?L2, ?M2; intros i v G; now apply get_ext.
Qed.
Lemma visitLoop_ok l : VL l.
Proof.
  induction l as [id hdr bs subs IH] using loop_ind2. intros parent s P OO ND FR PI PP. inversion OO as [? ? ? ? O1 O2]; subst id0 hdr0 bs0 subs0. cbn [visitLoop idsOf] in *.
  destruct id as [i|].
  - cbn [app] in *. inversion ND as [|? ? NI ND2]; subst x l. assert (FI : ~ In i (map fst (loopTot s)) /\ ~ In i (map fst (loopSelf s))) by (apply FR; now left). destruct FI as (FI1 & FI2).
    unfold loopWeight. rewrite PI. assert (DV : forall a, divO a P = Some (Z.quot a P)) by (intro a; unfold divO; destruct (Z.eqb_spec P 0) as [E|]; [exfalso; lia|reflexivity]).
    rewrite DV. cbn [bind]. rewrite (firstCount_eq cov _ SO). cbn [bind]. rewrite DV. cbn [bind]. rewrite visitLoops_eq, sum_blocks.
    set (T := weights unkF unkB cnt self cov (flat_map (fun b => nth b bls []) bs)). set (N := iterations cnt cov (nth hdr bls [])).
    set (s1 := St (selfF s) (totF s) (emplace (loopTot s) i (T, N)) (emplace (loopSelf s) i (Z.quot T P, Z.quot N P))).
    assert (G1 : get (loopTot s1) i = Some (T, N)) by (apply get_emplace; exact FI1). assert (G2 : get (loopSelf s1) i = Some (Z.quot T P, Z.quot N P)) by (apply get_emplace; exact FI2).
    assert (X1 : ext s s1 [i]) by (split; [reflexivity|reflexivity|exists [(i, (T, N))]; now split|exists [(i, (Z.quot T P, Z.quot N P))]; now split]).
    assert (TP : (0 <= T)%Z) by apply WP. assert (NP : (0 <= N)%Z) by apply iterations_pos.
    assert (LAST : forall s2, ext s1 s2 (flat_map idsOf subs) -> (forall l, In l subs -> spec s2 N l) -> ext s s2 (i :: flat_map idsOf subs) /\ spec s2 P (Loop (Some i) hdr bs subs)).
    { intros s2 X2 S2. split; [exact (ext_trans _ _ _ _ _ X1 X2)|]. destruct X2 as [_ _ (a & L2 & _) (b & M2 & _)].
      apply (LsId _ _ _ _ _ _ _ _ _ P i hdr bs subs T N); [rewrite L2; now apply get_ext|reflexivity|reflexivity|rewrite M2; apply get_ext; rewrite G2; now rewrite !Z.quot_div_nonneg by lia|exact S2]. }
    destruct subs as [|l0 subs].
    + exists s1. split; [reflexivity|]. apply LAST; [apply ext_refl|intros l []].
    + assert (N0 : (0 < N)%Z).
      { destruct (O1 ltac:(discriminate) ltac:(discriminate)) as (j & IJ & J). unfold N, iterations. destruct (find _ (nth hdr bls [])) as [k|] eqn:E; [apply find_some in E; destruct E as (_ & E); now apply Z.ltb_lt in E|].
        exfalso. pose proof (find_none _ _ E j IJ) as F. apply Z.ltb_ge in F. lia. }
      destruct (visitLoops_ok (l0 :: subs) IH (Some i) s1 N) as (s2 & E2 & X2 & S2); [exact O2|exact ND2| | | |exact N0|].
      * intros j J. destruct X1 as [_ _ (a & -> & A) (b & -> & B)]. rewrite !map_app, !in_app_iff, A, B. destruct (FR j) as (F1 & F2); [now right|]. assert (NE : i <> j) by (intros ->; now apply NI).
        split; intros [Q|[Q|[]]]; tauto.
      * intros p E. injection E as <-. rewrite G1. discriminate.
      * unfold parentIters. now rewrite G1.
      * exists s2. split; [exact E2|]. now apply LAST.
  - cbn [app bind] in *. rewrite visitLoops_eq. destruct (visitLoops_ok subs IH None s entry) as (s2 & E2 & X2 & S2); [exact O2|exact ND|exact FR|discriminate|reflexivity|exact EP|].
    exists s2. split; [exact E2|]. split; [exact X2|]. now apply LsNo.
Qed.
End L.

(** ** Functions *)
Lemma weights_ext self self2 cov is : (forall i, In i is -> weightOf unkF unkB self i = weightOf unkF unkB self2 i) -> weights unkF unkB cnt self cov is = weights unkF unkB cnt self2 cov is.
Proof. intro E. unfold weights. f_equal. apply map_ext_in. intros i I. now rewrite (E i I). Qed.
Lemma loopSpec_self self self2 tot selfL cov bls entry P l : (forall i, In i (concat bls) -> weightOf unkF unkB self i = weightOf unkF unkB self2 i) ->
  loopSpec unkF unkB cnt self tot selfL cov bls entry P l -> loopSpec unkF unkB cnt self2 tot selfL cov bls entry P l.
Proof.
  intro E. induction 1 as [P i hdr bs subs T N E1 E2 E3 E4 _ IH|P hdr bs subs _ IH].
  - apply (LsId _ _ _ _ _ _ _ _ _ P i hdr bs subs T N E1); [|exact E3|exact E4|exact IH]. rewrite E2. apply weights_ext. intros j J. apply E. apply in_flat_map in J. destruct J as (b & _ & J).
    apply in_concat. exists (nth b bls []). split; [|exact J]. destruct (Nat.lt_ge_cases b (length bls)) as [L|L]; [now apply nth_In|]. rewrite nth_overflow in J by exact L. destruct J.
  - exact (LsNo _ _ _ _ _ _ _ _ _ P hdr bs subs IH).
Qed.
Definition est (f : nat) : bool := negb (fDecl (fn f)) && match fProf (fn f) with Some _ => true | None => false end.
Record extF (s s2 : state) (fs ids : list nat) : Prop := ExtF {
  fS : exists a, selfF s2 = selfF s ++ a /\ map fst a = fs /\ forall p, In p a -> (0 <= snd p)%Z;
  fT : exists a, totF s2 = totF s ++ a /\ map fst a = fs;
  fL : exists a, loopTot s2 = loopTot s ++ a /\ map fst a = ids;
  fM : exists a, loopSelf s2 = loopSelf s ++ a /\ map fst a = ids }.
Lemma extF_trans s1 s2 s3 f1 a f2 b : extF s1 s2 f1 a -> extF s2 s3 f2 b -> extF s1 s3 (f1 ++ f2) (a ++ b).
Proof.
  intros [(z1 & S1 & Z1 & P1) (w1 & T1 & W1) (x1 & L1 & X1) (y1 & M1 & Y1)] [(z2 & S2 & Z2 & P2) (w2 & T2 & W2) (x2 & L2 & X2) (y2 & M2 & Y2)]. split.
  - exists (z1 ++ z2). rewrite S2, S1, app_assoc, map_app, Z1, Z2. split; [reflexivity|]. split; [reflexivity|]. intros p. rewrite in_app_iff. intros [I|I]; [now apply P1|now apply P2].
  - exists (w1 ++ w2). now rewrite T2, T1, app_assoc, map_app, W1, W2.
  - exists (x1 ++ x2). now rewrite L2, L1, app_assoc, map_app, X1, X2.
  - exists (y1 ++ y2). now rewrite M2, M1, app_assoc, map_app, Y1, Y2.
Qed.
Lemma extF_refl s : extF s s [] [].
Proof. split; exists []; rewrite app_nil_r; repeat split. intros p []. Qed.
Definition specAt (self : nat -> option Z) (s : state) (f : nat) : Prop :=
  forall n cov, fDecl (fn f) = false -> fProf (fn f) = Some (n, cov) ->
    exists T, get (totF s) f = Some T /\ T = weights unkF unkB cnt self cov (concat (fBlocks (fn f))) /\ get (selfF s) f = Some (T / calls n)%Z /\
      forall l, In l (fLoops (fn f)) -> loopSpec unkF unkB cnt self (get (loopTot s)) (get (loopSelf s)) cov (fBlocks (fn f)) (calls n) (calls n) l.
Definition idsF (f : nat) : list nat := if est f then flat_map idsOf (fLoops (fn f)) else [].
Hypothesis PROF : forall f n cov, fProf (fn f) = Some (n, cov) -> sorted cov /\ (0 <= n < 2 ^ 32)%Z /\ (forall s, In s cov -> (0 <= sCount s)%Z).
Hypothesis OUTER : forall f n cov l, fProf (fn f) = Some (n, cov) -> In l (fLoops (fn f)) -> outerOk cnt cov (fBlocks (fn f)) l.
Definition nonneg (s : state) : Prop := forall g w, get (selfF s) g = Some w -> (0 <= w)%Z.
Lemma get_val (A : Type) (m : list (nat * A)) k v : get m k = Some v -> In (k, v) m.
Proof.
  unfold get. destruct (find _ m) as [[x w]|] eqn:E; [|discriminate]. intro H. injection H as <-. apply find_some in E. destruct E as (I & E). cbn [fst] in E. apply Nat.eqb_eq in E. now subst.
Qed.
Lemma nonneg_ext s s2 fs ids : nonneg s -> extF s s2 fs ids -> nonneg s2.
Proof.
  intros N [(a & S1 & _ & P) _ _ _] g w G. rewrite S1, get_app in G. destruct (get (selfF s) g) as [v|] eqn:E; [injection G as <-; exact (N g v E)|]. apply get_val in G. exact (P _ G).
Qed.
Lemma assumed_eq n : (0 <= n < 2 ^ 32)%Z -> assumed n = calls n.
Proof. intro H. unfold assumed, calls. destruct (Z.ltb_spec 0 n) as [L|L]; [rewrite Z.mod_small by lia; lia|lia]. Qed.
Lemma visitFunction_ok f s : nonneg s -> NoDup (idsF f) -> fresh s (idsF f) -> ~ In f (map fst (selfF s)) -> ~ In f (map fst (totF s)) ->
  exists s2, visitFunction fn unkF unkB f s = Some s2 /\ extF s s2 (if est f then [f] else []) (idsF f) /\ specAt (get (selfF s)) s2 f.
Proof.
  intros NN ND FR F1 F2. unfold visitFunction, idsF, est, specAt in *. destruct (fDecl (fn f)) eqn:FD; cbn [negb andb] in *.
  { exists s. split; [reflexivity|]. split; [apply extF_refl|discriminate]. }
  destruct (fProf (fn f)) as [[n cov]|] eqn:FP; cbn [andb] in *; [|exists s; split; [reflexivity|]; split; [apply extF_refl|discriminate]].
  destruct (PROF f n cov FP) as (SO & NB & CP). rewrite (mapO_map _ _ _ (map (tw (get (selfF s)) cov))).
  2: { intro b. apply mapO_map. intro i. now apply totalWeight_eq. }
  cbn [bind]. rewrite sum_concat, (assumed_eq n NB). set (T := weights unkF unkB cnt (get (selfF s)) cov (concat (fBlocks (fn f)))). assert (CN : (0 < calls n)%Z) by (unfold calls; lia).
  assert (WP0 : forall is, (forall i, In i is -> In i (concat (fBlocks (fn f)))) -> (0 <= weights unkF unkB cnt (get (selfF s)) cov is)%Z).
  { intros is I. apply weights_pos; [intros i J; now apply count_pos|intros i J; exact (COST f i (I i J))|exact NN]. }
  assert (TP : (0 <= T)%Z) by (apply WP0; trivial).
  unfold divO. destruct (Z.eqb_spec (calls n) 0) as [E|_]; [lia|]. cbn [bind]. rewrite Z.quot_div_nonneg by lia.
  set (s1 := St (emplace (selfF s) f (T / calls n)%Z) (emplace (totF s) f T) (loopTot s) (loopSelf s)).
  assert (WP : forall bs, (0 <= weights unkF unkB cnt (get (selfF s)) cov (flat_map (fun b => nth b (fBlocks (fn f)) []) bs))%Z).
  { intro bs. apply WP0. intros i J. apply in_flat_map in J. destruct J as (b & _ & J). apply in_concat. exists (nth b (fBlocks (fn f)) []). split; [|exact J].
    destruct (Nat.lt_ge_cases b (length (fBlocks (fn f)))) as [L|L]; [now apply nth_In|]. rewrite nth_overflow in J by exact L. destruct J. }
  assert (FV : Forall (VL cov (fBlocks (fn f)) (calls n) (get (selfF s))) (fLoops (fn f))) by (apply Forall_forall; intros l _; apply visitLoop_ok; assumption).
  destruct (visitLoops_ok cov (fBlocks (fn f)) (calls n) (get (selfF s)) (fLoops (fn f)) FV None s1 (calls n)) as (s2 & E2 & [X1 X2 X3 X4] & S2); [intros l L; exact (OUTER f n cov l FP L)|exact ND|exact FR|discriminate|reflexivity|exact CN|].
  exists s2. split; [exact E2|]. split.
  - split; [|exists [(f, T)]; now split|exact X3|exact X4]. exists [(f, (T / calls n)%Z)]. split; [exact X1|]. split; [reflexivity|]. intros p [<-|[]]. cbn [snd]. apply Z.div_pos; lia.
  - intros n2 cov2 _ E. injection E as <- <-. exists T. split; [rewrite X2; now apply get_emplace|]. split; [reflexivity|]. split; [rewrite X1; now apply get_emplace|exact S2].
Qed.
Definition ordered (fs : list nat) : Prop := forall a f b, fs = a ++ f :: b -> forall g, In g (callsOf (fn f)) -> ~ In g (f :: b).
Lemma visitFunctions_ok fs : forall s, nonneg s -> ordered fs -> NoDup fs -> NoDup (flat_map idsF fs) -> fresh s (flat_map idsF fs) ->
  (forall f, In f fs -> ~ In f (map fst (selfF s)) /\ ~ In f (map fst (totF s))) ->
  exists s2, visitFunctions fn unkF unkB fs s = Some s2 /\ extF s s2 (filter est fs) (flat_map idsF fs) /\ forall f, In f fs -> funcSpec fn unkF unkB cnt s2 f.
Proof.
  induction fs as [|f fs IH]; intros s NN OR ND NI FR FK.
  { exists s. split; [reflexivity|]. split; [apply extF_refl|intros f []]. }
  cbn [flat_map] in *. apply NoDup_app_inv in NI. destruct NI as (NI1 & NI2 & DJ). inversion ND as [|? ? NF ND2]; subst x l. destruct (FK f ltac:(now left)) as (K1 & K2).
  destruct (visitFunction_ok f s NN NI1 ltac:(intros i I; apply FR; rewrite in_app_iff; now left) K1 K2) as (s1 & E1 & X1 & S1). cbn [visitFunctions]. rewrite E1. cbn [bind].
  destruct (IH s1) as (s2 & E2 & X2 & S2).
  - exact (nonneg_ext _ _ _ _ NN X1).
  - intros a f0 b E. apply (OR (f :: a) f0 b). cbn [app]. now rewrite E.
  - exact ND2.
  - exact NI2.
  - intros i I. destruct X1 as [_ _ (a & -> & A) (b & -> & B)]. rewrite !map_app, !in_app_iff, A, B. destruct (FR i) as (F1 & F2); [rewrite in_app_iff; now right|]. specialize (DJ i). split; intros [Q|Q]; tauto.
  - intros f0 I. destruct X1 as [(a & -> & A & _) (b & -> & B) _ _]. rewrite !map_app, !in_app_iff, A, B. destruct (FK f0) as (F1 & F2); [now right|]. assert (NE : f <> f0) by (intros ->; now apply NF).
    assert (NE2 : ~ In f0 (if est f then [f] else [])) by (destruct (est f); [intros [Q|[]]; now apply NE|intros []]). split; intros [Q|Q]; tauto.
  - exists s2. split; [exact E2|]. pose proof (extF_trans _ _ _ _ _ _ _ X1 X2) as X12. split; [cbn [filter]; destruct (est f); exact X12|].
    intros f0 [<-|I]; [|now apply S2]. intros n cov FD FP. destruct (S1 n cov FD FP) as (T & G1 & G2 & G3 & G4).
    assert (WE : forall i, In i (concat (fBlocks (fn f))) -> weightOf unkF unkB (get (selfF s)) i = weightOf unkF unkB (get (selfF s2)) i).
    { intros i I. unfold weightOf. destruct (iCall i) as [| | |g bi] eqn:IC; try reflexivity. destruct X12 as [(a & -> & A & _) _ _ _]. rewrite get_app. destruct (get (selfF s) g); [reflexivity|].
      rewrite (get_none _ a g); [reflexivity|]. rewrite A. intro Q. apply (OR [] f fs eq_refl g).
      - unfold callsOf. apply in_flat_map. exists i. rewrite IC. split; [exact I|now left].
      - rewrite in_app_iff in Q. destruct Q as [Q|Q]; [destruct (est f); [destruct Q as [Q|[]]; now left|destruct Q]|right; apply filter_In in Q; tauto]. }
    destruct X2 as [(a & SA & _) (b & SB & _) (c & SC & _) (d & SD & _)]. exists T. split; [rewrite SB; now apply get_ext|]. split; [rewrite G2; now apply weights_ext|].
    split; [rewrite SA; now apply get_ext|]. intros l L. apply (loopSpec_self (get (selfF s))); [exact WE|]. refine (loopSpec_mono _ _ _ _ _ _ _ _ _ _ _ _ (G4 l L)); rewrite ?SC, ?SD; intros i v G; now apply get_ext.
Qed.
End W.

(** ** Modules *)
Lemma run_straight fn unkF unkB sccs : forall s, runOnModule fn unkF unkB sccs s = visitFunctions fn unkF unkB (straight sccs) s.
Proof.
  assert (APP : forall a b s, visitFunctions fn unkF unkB (a ++ b) s = bind (visitFunctions fn unkF unkB a s) (visitFunctions fn unkF unkB b)).
  { induction a as [|f a IH]; intros b s; [reflexivity|]. cbn [app visitFunctions]. destruct (visitFunction fn unkF unkB f s) as [s1|]; [apply IH|reflexivity]. }
  induction sccs as [|[c fs] sccs IH]; intro s; [reflexivity|]. cbn [runOnModule]. change (straight ((c, fs) :: sccs)) with ((if c then [] else fs) ++ straight sccs). destruct c; [apply IH|].
  rewrite APP. destruct (visitFunctions fn unkF unkB fs s) as [s1|]; [apply IH|reflexivity].
Qed.
Lemma straight_in sccs f : In f (straight sccs) -> In f (flat_map snd sccs).
Proof. unfold straight. rewrite !in_flat_map. intros ([c fs] & I & F). exists (c, fs). split; [exact I|]. cbn [fst snd] in *. destruct c; [destruct F|exact F]. Qed.
Lemma straight_ordered fn sccs : (forall l1 c fs l2 f g, sccs = l1 ++ (c, fs) :: l2 -> In f fs -> In g (callsOf (fn f)) -> ~ In g (flat_map snd l2) /\ (c = false -> ~ In g fs)) -> ordered fn (straight sccs).
Proof.
  induction sccs as [|[c fs] sccs IH]; intros W a f b E g G; [destruct a; discriminate|]. change (straight ((c, fs) :: sccs)) with ((if c then [] else fs) ++ straight sccs) in E.
  assert (IH2 : ordered fn (straight sccs)). { apply IH. intros l1 c0 fs0 l2 f0 g0 E0. apply (W ((c, fs) :: l1) c0 fs0 l2). cbn [app]. now rewrite E0. }
  destruct c; [exact (IH2 a f b E g G)|]. clear IH. destruct (Nat.lt_ge_cases (length a) (length fs)) as [L|L].
  - assert (F1 : In f fs /\ incl b (fs ++ straight sccs)).
    { split.
      - apply (f_equal (fun l => nth (length a) l 0)) in E. rewrite app_nth1 in E by exact L. rewrite app_nth2 in E by lia. rewrite Nat.sub_diag in E. cbn [nth] in E. rewrite <- E. now apply nth_In.
      - rewrite E. intros x X. rewrite in_app_iff. right. now right. }
    destruct F1 as (F1 & F2). destruct (W [] false fs sccs f g eq_refl F1 G) as (H1 & H2). specialize (H2 eq_refl). intros [->|X]; [now apply H2|].
    apply F2 in X. rewrite in_app_iff in X. destruct X as [X|X]; [now apply H2|]. apply H1. now apply straight_in.
  - apply (f_equal (skipn (length fs))) in E. rewrite skipn_app, skipn_all, Nat.sub_diag in E. cbn [app skipn] in E. rewrite skipn_app in E. replace (length fs - length a) with 0 in E by lia. cbn [skipn] in E.
    exact (IH2 _ f b E g G).
Qed.
Lemma NoDup_sub (f : nat -> list nat) (g : nat -> list nat) l : (forall x, g x = f x \/ g x = []) -> NoDup (flat_map f l) -> NoDup (flat_map g l).
Proof.
  intro E. induction l as [|x l IH]; cbn [flat_map]; intro N; [constructor|]. apply NoDup_app_inv in N. destruct N as (N1 & N2 & DJ). destruct (E x) as [->| ->]; [|now apply IH].
  assert (SUB : forall y, In y (flat_map g l) -> In y (flat_map f l)) by (intros y; rewrite !in_flat_map; intros (z & Z & Y); exists z; destruct (E z) as [Q|Q]; rewrite Q in Y; [now split|destruct Y]).
  specialize (IH N2). clear - N1 IH DJ SUB. induction (f x) as [|y a IHa]; [exact IH|]. cbn [app]. inversion N1 as [|? ? NY N3]; subst. constructor.
  - rewrite in_app_iff. intros [Q|Q]; [now apply NY|]. apply (DJ y); [now left|now apply SUB].
  - apply IHa; [exact N3|]. intros z Z. apply DJ. now right.
Qed.
Lemma straight_nodup sccs : NoDup (flat_map snd sccs) -> NoDup (straight sccs).
Proof.
  induction sccs as [|[c fs] sccs IH]; intro N; [constructor|]. change (straight ((c, fs) :: sccs)) with ((if c then [] else fs) ++ straight sccs). cbn [flat_map snd] in N. apply NoDup_app_inv in N. destruct N as (N1 & N2 & DJ).
  destruct c; [now apply IH|]. specialize (IH N2). assert (DJ2 : forall x, In x fs -> ~ In x (straight sccs)) by (intros x X Y; apply (DJ x X); now apply straight_in).
  clear - N1 IH DJ2. induction fs as [|y a IHa]; [exact IH|]. cbn [app]. inversion N1 as [|? ? NY N3]; subst. constructor.
  - rewrite in_app_iff. intros [Q|Q]; [now apply NY|]. apply (DJ2 y); [now left|exact Q].
  - apply IHa; [exact N3|]. intros z Z. apply DJ2. now right.
Qed.
Theorem C73_proof : C73_claim (Conds true true).
Proof.
  intros fn unkF unkB cnt sccs [CNT WS (UF & UB & WC) ND OR NI WE WO]. unfold estimate. rewrite run_straight.
  destruct (visitFunctions_ok fn unkF unkB cnt CNT UF UB WC) with (fs := straight sccs) (s := St [] [] [] []) as (s & E & X & SP).
  - intros f n cov FP. destruct (WS f n cov FP) as (S1 & S2 & S3). specialize (WE eq_refl f n cov FP). split; [exact S1|]. split; [lia|exact S3].
  - exact (WO eq_refl).
  - intros g w G. discriminate.
  - now apply straight_ordered.
  - now apply straight_nodup.
  - refine (NoDup_sub _ _ _ _ NI). intro f. unfold idsF. destruct (est fn f); [now left|now right].
  - intros i _. split; intros [].
  - intros f _. split; intros [].
  - exists s. split; [exact E|]. split; [exact SP|]. intros f G. apply get_in in G. destruct X as [(a & SA & A & _) _ _ _]. cbn [selfF app] in SA. rewrite SA, A in G. apply filter_In in G.
    destruct G as (I & G). unfold est in G. apply andb_true_iff in G. destruct G as (G1 & G2). apply negb_true_iff in G1. split; [exact I|]. split; [exact G1|]. destruct (fProf (fn f)); [discriminate|discriminate].
Qed.
