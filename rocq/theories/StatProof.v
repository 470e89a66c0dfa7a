(** Proofs for C98. *)
From Coq Require Import PeanoNat Bool List Permutation Lia.
From Verif Require Import StatModel StatSpec.
Import ListNotations.

(** * Sums *)
Lemma sum_app : forall a b, sum (a ++ b) = sum a + sum b.
Proof. induction a as [ | x a IH]; intros b; cbn [sum fold_right app]; [reflexivity | ]. fold (sum a). fold (sum (a ++ b)). rewrite IH. lia. Qed.
Lemma sum_cons : forall x l, sum (x :: l) = x + sum l.
Proof. reflexivity. Qed.
Lemma sum_perm : forall a b, Permutation a b -> sum a = sum b.
Proof. intros a b H. induction H; rewrite ?sum_cons in *; lia. Qed.
Lemma count_cons : forall A (P : A -> bool) x l, count P (x :: l) = (if P x then 1 else 0) + count P l.
Proof. intros A P x l. unfold count. cbn [filter]. destruct (P x); reflexivity. Qed.
Lemma count_app : forall A (P : A -> bool) a b, count P (a ++ b) = count P a + count P b.
Proof. intros A P a b. unfold count. rewrite filter_app, app_length. reflexivity. Qed.
Lemma count_flat : forall A B (P : B -> bool) (g : A -> list B) l, count P (flat_map g l) = sum (map (fun a => count P (g a)) l).
Proof. intros A B P g. induction l as [ | a l IH]; [reflexivity | ]. cbn [flat_map map]. rewrite count_app, sum_cons, IH. reflexivity. Qed.
Lemma occ_flat : forall A (g : A -> list nat) l x, count_occ Nat.eq_dec (flat_map g l) x = sum (map (fun a => count_occ Nat.eq_dec (g a) x) l).
Proof. intros A g l x. induction l as [ | a l IH]; [reflexivity | ]. cbn [flat_map map]. rewrite count_occ_app, sum_cons, IH. reflexivity. Qed.
Lemma sum_zero : forall A (l : list A), sum (map (fun _ => 0) l) = 0.
Proof. induction l as [ | a l IH]; [reflexivity | ]. cbn [map]. rewrite sum_cons. exact IH. Qed.
Lemma sum_filter : forall A (P : A -> bool) (g : A -> nat) l, sum (map (fun a => if P a then g a else 0) l) = sum (map g (filter P l)).
Proof. intros A P g. induction l as [ | a l IH]; [reflexivity | ]. cbn [map filter]. rewrite sum_cons, IH. destruct (P a); reflexivity. Qed.
Lemma sum_split : forall A (g h : A -> nat) l, sum (map (fun a => g a + h a) l) = sum (map g l) + sum (map h l).
Proof. intros A g h. induction l as [ | a l IH]; [reflexivity | ]. cbn [map]. rewrite !sum_cons, IH. lia. Qed.
Lemma sum_ext : forall A (g h : A -> nat) l, (forall a, In a l -> g a = h a) -> sum (map g l) = sum (map h l).
Proof.
  intros A g h. induction l as [ | a l IH]; intros H; [reflexivity | ]. cbn [map]. rewrite !sum_cons, (H a (or_introl eq_refl)).
  rewrite IH; [reflexivity | ]. intros b Hb. apply H. right. exact Hb.
Qed.
Lemma count_sum : forall A (P : A -> bool) l, count P l = sum (map (fun a => if P a then 1 else 0) l).
Proof. intros A P. induction l as [ | a l IH]; [reflexivity | ]. cbn [map]. rewrite count_cons, sum_cons, IH. reflexivity. Qed.
Lemma exchange : forall (w : func -> nat) fs us, (forall f, In f fs -> count (declared f) us <= 1) ->
  sum (map (fun u => sum (map (fun f => if declared f u then w f else 0) fs)) us)
  = sum (map (fun f => if existsb (declared f) us then w f else 0) fs).
Proof.
  intros w fs. induction us as [ | u us IH]; intros H.
  - cbn [map existsb]. rewrite sum_zero. reflexivity.
  - cbn [map]. rewrite sum_cons, IH.
    + rewrite <- sum_split. apply sum_ext. intros f Hf. cbn [existsb]. specialize (H f Hf). rewrite count_cons in H.
      destruct (declared f u); [ | reflexivity]. cbn [orb].
      destruct (existsb (declared f) us) eqn:E; [ | lia]. exfalso. apply existsb_exists in E. destruct E as [u' [Hu Du]].
      assert (0 < count (declared f) us); [ | lia]. unfold count.
      assert (X : In u' (filter (declared f) us)) by (apply filter_In; split; assumption).
      destruct (filter (declared f) us); [destruct X | cbn; lia].
    + intros f Hf. specialize (H f Hf). rewrite count_cons in H. lia.
Qed.

(** * Loops *)
Lemma inc_parallel : forall ls, cParallel (incrementTraitCount ls) = count lParallel ls.
Proof. induction ls as [ | l ls IH]; [reflexivity | ]. cbn [incrementTraitCount cParallel]. rewrite count_cons, IH. reflexivity. Qed.
Lemma inc_skipped : forall ls, cSkipped (incrementTraitCount ls) = count (fun l => negb (lId l)) ls.
Proof. induction ls as [ | l ls IH]; [reflexivity | ]. cbn [incrementTraitCount cSkipped]. rewrite count_cons, IH. destruct (lId l); reflexivity. Qed.
Lemma count_neg : forall A (P : A -> bool) l, count P l + count (fun a => negb (P a)) l = length l.
Proof. intros A P. induction l as [ | a l IH]; [reflexivity | ]. rewrite !count_cons. cbn [length]. destruct (P a); cbn [negb]; lia. Qed.

Definition memOf (ls : list loop) : list (list nat) := flat_map nMem (filter nCovered (flat_map lNodes (filter lId ls))).
Lemma memOf_app : forall a b, memOf (a ++ b) = memOf a ++ memOf b.
Proof. intros a b. unfold memOf. rewrite filter_app, flat_map_app, filter_app, flat_map_app. reflexivity. Qed.
Lemma memOf_flat : forall (g : func -> list loop) fs, memOf (flat_map g fs) = flat_map (fun f => memOf (g f)) fs.
Proof. intros g. induction fs as [ | f fs IH]; [reflexivity | ]. cbn [flat_map]. rewrite memOf_app, IH. reflexivity. Qed.

Lemma node_traits : forall n x, (forall t y, In t (nMem n) -> ~ In tNoAccess t -> count_occ Nat.eq_dec (nDesc n) y = count_occ Nat.eq_dec t y) ->
  nCovered n = true -> count_occ Nat.eq_dec (nodeTraits n) x = count_occ Nat.eq_dec (flat_map traitsOf (nMem n)) x.
Proof.
  intros n x H C. unfold nodeTraits. rewrite C. rewrite !occ_flat. apply sum_ext. intros t Ht. unfold memTraits, traitsOf, mem.
  destruct (existsb (Nat.eqb tNoAccess) t) eqn:E; [reflexivity | ]. apply H; [exact Ht | ]. intros X.
  assert (Y : existsb (Nat.eqb tNoAccess) t = true) by (apply existsb_exists; exists tNoAccess; split; [exact X | apply Nat.eqb_refl]). congruence.
Qed.
Lemma nodes_traits : forall ns x,
  (forall n t y, In n ns -> In t (nMem n) -> ~ In tNoAccess t -> count_occ Nat.eq_dec (nDesc n) y = count_occ Nat.eq_dec t y) ->
  count_occ Nat.eq_dec (flat_map nodeTraits ns) x = count_occ Nat.eq_dec (flat_map traitsOf (flat_map nMem (filter nCovered ns))) x.
Proof.
  induction ns as [ | n ns IH]; intros x H; [reflexivity | ]. cbn [flat_map filter].
  assert (H' : forall n t y, In n ns -> In t (nMem n) -> ~ In tNoAccess t -> count_occ Nat.eq_dec (nDesc n) y = count_occ Nat.eq_dec t y)
    by (intros n0 t y Hn; apply H; right; exact Hn).
  rewrite count_occ_app, (IH x H'). destruct (nCovered n) eqn:C.
  - cbn [flat_map]. rewrite flat_map_app, count_occ_app. rewrite (node_traits n x); [reflexivity | | exact C].
    intros t y. apply H. left. reflexivity.
  - unfold nodeTraits. rewrite C. reflexivity.
Qed.
Lemma inc_traits : forall ls x,
  (forall n t y, In n (flat_map lNodes ls) -> In t (nMem n) -> ~ In tNoAccess t -> count_occ Nat.eq_dec (nDesc n) y = count_occ Nat.eq_dec t y) ->
  count_occ Nat.eq_dec (cTraits (incrementTraitCount ls)) x = count_occ Nat.eq_dec (flat_map traitsOf (memOf ls)) x.
Proof.
  induction ls as [ | l ls IH]; intros x H; [reflexivity | ]. cbn [incrementTraitCount cTraits].
  assert (E : memOf (l :: ls) = memOf [l] ++ memOf ls) by (rewrite <- memOf_app; reflexivity).
  rewrite E, flat_map_app, !count_occ_app. rewrite IH.
  - f_equal. unfold memOf. cbn [filter]. destruct (lId l); [ | reflexivity]. cbn [flat_map]. rewrite app_nil_r. apply nodes_traits.
    intros n t y Hn. apply H. cbn [flat_map]. apply in_or_app. left. exact Hn.
  - intros n t y Hn. apply H. cbn [flat_map]. apply in_or_app. right. exact Hn.
Qed.

(** * A unit *)
Definition uUser (fs : list func) (u : unit) : nat := sum (map (fun f => if declared f u then 1 else 0) fs).
Definition wParallel (f : func) : nat := if fBody f then cParallel (incrementTraitCount (fMatched f)) else 0.
Definition wTraits (f : func) : list nat := if fBody f then cTraits (incrementTraitCount (fMatched f)) else [].
Definition wYes (f : func) : nat := if fBody f then count lId (fMatched f) else 0.
Definition wNo (f : func) : nat := if fBody f then fUnmatched f + count (fun l => negb (lId l)) (fMatched f) else 0.
Definition total (w : func -> nat) (fs : list func) (u : unit) : nat := sum (map (fun f => if declared f u then w f else 0) fs).
Definition uTraits (fs : list func) (u : unit) : list nat := flat_map (fun f => if declared f u then wTraits f else []) fs.
Definition own (fs : list func) : nat := count (fun f => negb (fIntrinsic f)) fs.

Lemma total_cons : forall w f fs u, total w (f :: fs) u = (if declared f u then w f else 0) + total w fs u.
Proof. reflexivity. Qed.
Lemma visit_spec : forall u fs s a b, visit u fs s (a, b)
  = (Stat (sFiles s) (sVars s) (sFuncs s + own fs) (sUser s + total (fun _ => 1) fs u) (sTraits s ++ uTraits fs u)
          (sParallel s + total wParallel fs u) (sLoops s),
     (a + total wYes fs u, b + total wNo fs u)).
Proof.
  intros u. induction fs as [ | f fs IH]; intros s a b.
  - cbn. rewrite !Nat.add_0_r, app_nil_r. destruct s. reflexivity.
  - cbn [visit]. unfold own in *. rewrite count_cons, !total_cons. unfold uTraits. cbn [flat_map]. fold (uTraits fs u).
    unfold declared at 1 2 3 4 5.
    destruct (fIntrinsic f); cbn [negb].
    + rewrite IH. destruct (uDecl u (fName f)) as [[ | ] | ]; reflexivity.
    + destruct (uDecl u (fName f)) as [[ | ] | ]; cbn [andb app].
      * unfold wParallel at 1, wTraits at 1, wYes at 1, wNo at 1. destruct (fBody f).
        -- rewrite IH. cbn [sFiles sVars sFuncs sUser sTraits sParallel sLoops fst snd]. rewrite <- app_assoc.
           rewrite inc_skipped. pose proof (count_neg _ lId (fMatched f)) as X. apply (f_equal2 pair); [f_equal; lia | f_equal; lia].
        -- rewrite IH. cbn [sFiles sVars sFuncs sUser sTraits sParallel sLoops app]. apply (f_equal2 pair); [f_equal; lia | f_equal; lia].
      * rewrite IH. cbn [sFiles sVars sFuncs sUser sTraits sParallel sLoops]. apply (f_equal2 pair); [f_equal; lia | f_equal; lia].
      * rewrite IH. cbn [sFiles sVars sFuncs sUser sTraits sParallel sLoops]. apply (f_equal2 pair); [f_equal; lia | f_equal; lia].
Qed.

(** * Files *)
Lemma stored_cons : forall k k' n m, stored k ((k', n) :: m) = (if k' =? k then n else 0) + stored k m.
Proof. intros k k' n m. unfold stored. cbn [filter fst]. destruct (k' =? k); reflexivity. Qed.
Lemma stored_bump : forall k k' m, stored k (bump k' m) = stored k m + (if k' =? k then 1 else 0).
Proof.
  intros k k'. induction m as [ | [k2 n] m IH]; cbn [bump].
  - rewrite stored_cons. destruct (k' =? k); reflexivity.
  - destruct (k' =? k2) eqn:E.
    + apply Nat.eqb_eq in E. subst k2. rewrite !stored_cons. destruct (k' =? k); lia.
    + rewrite !stored_cons, IH. lia.
Qed.
Lemma stored_files : forall h s k fs m, stored k (addFiles h s fs m) = stored k m + count (fun f => kind h s (snd f) =? k) fs.
Proof.
  intros h s k. unfold addFiles. induction fs as [ | f fs IH]; intros m; [unfold count; cbn [fold_left filter length]; lia | ]. cbn [fold_left]. rewrite IH, stored_bump, count_cons. lia.
Qed.
Lemma bump_in : forall k m x, In x (map fst (bump k m)) -> x = k \/ In x (map fst m).
Proof.
  intros k. induction m as [ | [k2 n] m IH]; intros x H; cbn [bump] in H.
  - destruct H as [<- | []]. left. reflexivity.
  - destruct (k =? k2); [right; exact H | ]. destruct H as [<- | H]; [right; left; reflexivity | ].
    destruct (IH x H) as [X | X]; [left; exact X | right; right; exact X].
Qed.
Lemma bump_nodup : forall k m, NoDup (map fst m) -> NoDup (map fst (bump k m)).
Proof.
  intros k. induction m as [ | [k2 n] m IH]; intros H; cbn [bump].
  - constructor; [intros [] | constructor].
  - inversion H as [ | ? ? A B]; subst. destruct (k =? k2) eqn:E; [exact H | ]. cbn [map fst]. constructor; [ | exact (IH B)].
    intros X. destruct (bump_in k m k2 X) as [-> | Y]; [rewrite Nat.eqb_refl in E; discriminate E | contradiction].
Qed.
Lemma files_nodup : forall h s fs m, NoDup (map fst m) -> NoDup (map fst (addFiles h s fs m)).
Proof. intros h s. unfold addFiles. induction fs as [ | f fs IH]; intros m H; [exact H | ]. cbn [fold_left]. apply IH. apply bump_nodup. exact H. Qed.
Lemma kind_spec : forall p k f, (kind (pHeaders p) (pSources p) (snd f) =? k) = isKind p k f.
Proof.
  intros p k f. unfold kind, isKind, mem. destruct (existsb (Nat.eqb (snd f)) (pHeaders p)), (existsb (Nat.eqb (snd f)) (pSources p));
    destruct k as [ | [ | [ | k]]]; reflexivity.
Qed.

(** * An answer *)
Definition on (u : unit) (n : nat) : nat := if uInstance u then n else 0.
Definition onl (u : unit) (l : list nat) : list nat := if uInstance u then l else [].
Lemma on_true : forall u n, uInstance u = true -> on u n = n.
Proof. intros u n H. unfold on. rewrite H. reflexivity. Qed.
Lemma on_false : forall u n, uInstance u = false -> on u n = 0.
Proof. intros u n H. unfold on. rewrite H. reflexivity. Qed.
Lemma onl_true : forall u n, uInstance u = true -> onl u n = n.
Proof. intros u n H. unfold onl. rewrite H. reflexivity. Qed.
Lemma onl_false : forall u n, uInstance u = false -> onl u n = [].
Proof. intros u n H. unfold onl. rewrite H. reflexivity. Qed.
Lemma fold_spec : forall h s v fs us st, let r := fold_left (step h s v fs) us st in
  (forall k, stored k (sFiles r) = stored k (sFiles st) + sum (map (fun u => on u (count (fun f => kind h s (snd f) =? k) (uFiles u))) us))
  /\ sVars r = match sVars st with Some w => Some w | None => if existsb uInstance us then Some v else None end
  /\ sFuncs r = sFuncs st + sum (map (fun u => on u (own fs)) us)
  /\ sUser r = sUser st + sum (map (fun u => on u (total (fun _ => 1) fs u)) us)
  /\ sTraits r = sTraits st ++ flat_map (fun u => onl u (uTraits fs u)) us
  /\ sParallel r = sParallel st + sum (map (fun u => on u (total wParallel fs u)) us)
  /\ sLoops r = match sLoops st with Some w => Some w | None =>
       match filter uInstance us with u :: _ => Some (total wYes fs u, total wNo fs u) | [] => None end end
  /\ (NoDup (map fst (sFiles st)) -> NoDup (map fst (sFiles r))).
Proof.
  intros h s v fs. induction us as [ | u us IH]; intros st.
  - cbn [fold_left map flat_map existsb filter sum fold_right]. rewrite !Nat.add_0_r, app_nil_r. split; [intros k; lia | ]. repeat split; try tauto; [destruct (sVars st) | destruct (sLoops st)]; reflexivity.
  - cbn [fold_left]. specialize (IH (step h s v fs st u)). cbv zeta in *. destruct IH as [A [B [C [D [E [F [G H]]]]]]].
    cbn [map flat_map existsb filter]. rewrite B, C, D, E, F, G. unfold step in *. destruct (uInstance u) eqn:Hu.
    + rewrite visit_spec in *. cbn [sFiles sVars sFuncs sUser sTraits sParallel sLoops] in *.
      rewrite !sum_cons, !(on_true u _ Hu), (onl_true u _ Hu). split; [ | split; [ | split; [ | split; [ | split; [ | split; [ | split]]]]]].
      * intros k. rewrite A, stored_files, sum_cons, (on_true u _ Hu). lia.
      * unfold insert. destruct (sVars st); reflexivity.
      * lia.
      * lia.
      * rewrite <- app_assoc. reflexivity.
      * lia.
      * unfold insert. destruct (sLoops st); reflexivity.
      * intros N. apply H. apply files_nodup. exact N.
    + rewrite !sum_cons, !(on_false u _ Hu), (onl_false u _ Hu). split; [ | split; [ | split; [ | split; [ | split; [ | split; [ | split]]]]]].
      * intros k. rewrite A, sum_cons, (on_false u _ Hu). reflexivity.
      * reflexivity.
      * reflexivity.
      * reflexivity.
      * reflexivity.
      * reflexivity.
      * reflexivity.
      * exact H.
Qed.
Lemma answer_spec : forall p,
  (forall k, stored k (sFiles (answer p)) = count (isKind p k) (files p))
  /\ sVars (answer p) = (if existsb uInstance (pUnits p) then Some (pVars p) else None)
  /\ sFuncs (answer p) = sum (map (fun u => own (pFuncs p)) (active p))
  /\ sUser (answer p) = sum (map (total (fun _ => 1) (pFuncs p)) (active p))
  /\ (forall x, count_occ Nat.eq_dec (sTraits (answer p)) x = sum (map (total (fun f => count_occ Nat.eq_dec (wTraits f) x) (pFuncs p)) (active p)))
  /\ sParallel (answer p) = sum (map (total wParallel (pFuncs p)) (active p))
  /\ sLoops (answer p) = match active p with u :: _ => Some (total wYes (pFuncs p) u, total wNo (pFuncs p) u) | [] => None end
  /\ NoDup (map fst (sFiles (answer p))).
Proof.
  intros p. unfold answer, answerStatistic.
  destruct (fold_spec (pHeaders p) (pSources p) (pVars p) (pFuncs p) (pUnits p) (Stat [] None 0 0 [] 0 None)) as [A [B [C [D [E [F [G H]]]]]]].
  cbv zeta in *. cbn [sFiles sVars sFuncs sUser sTraits sParallel sLoops map fst app] in *. unfold active, on in *.
  rewrite sum_filter in C, D, F. split; [ | split; [ | split; [ | split; [ | split; [ | split; [ | split]]]]]].
  - intros k. rewrite A. cbn. rewrite sum_filter. unfold files, active. rewrite count_flat. apply sum_ext. intros u _.
    unfold count. f_equal. apply filter_ext. intros f. apply kind_spec.
  - exact B.
  - exact C.
  - exact D.
  - intros x. rewrite E, occ_flat.
    transitivity (sum (map (fun u => if uInstance u then total (fun f => count_occ Nat.eq_dec (wTraits f) x) (pFuncs p) u else 0) (pUnits p)));
      [ | apply sum_filter].
    apply sum_ext. intros u _. unfold onl. destruct (uInstance u); [ | reflexivity]. unfold uTraits. rewrite occ_flat. unfold total.
    apply sum_ext. intros f _. destruct (declared f u); reflexivity.
  - exact F.
  - exact G.
  - apply H. constructor.
Qed.

Lemma files_true : C98_files_claim true.
Proof.
  intros p k N. destruct (answer_spec p) as [A _]. rewrite A. rewrite (nodup_fixed_point dec2 (N eq_refl)). reflexivity.
Qed.
Lemma kinds_true : C98_kinds_claim.
Proof. intros p. apply (answer_spec p). Qed.
Lemma variables_true : C98_variables_claim.
Proof.
  intros p H. destruct (answer_spec p) as [_ [B _]]. rewrite B. unfold active in H.
  destruct (existsb uInstance (pUnits p)) eqn:E; [reflexivity | ]. exfalso. apply H.
  induction (pUnits p) as [ | u us IH]; [reflexivity | ]. cbn [existsb] in E. apply orb_false_iff in E. destruct E as [E1 E2].
  cbn [filter]. rewrite E1. apply IH; [ | exact E2]. intros X. apply H. cbn [filter]. rewrite E1. exact X.
Qed.
Lemma single_unit : forall p, single p -> exists u, active p = [u].
Proof. intros p H. unfold single in H. destruct (active p) as [ | u [ | u' us]]; try discriminate H. exists u. reflexivity. Qed.
Lemma functions_true : C98_functions_claim true.
Proof.
  intros p _ S. destruct (single_unit p (S eq_refl)) as [u Hu]. destruct (answer_spec p) as [_ [_ [C _]]]. rewrite C, Hu. cbn. unfold own. lia.
Qed.
Lemma user_true : C98_user_claim true.
Proof.
  intros p S. destruct (answer_spec p) as [_ [_ [_ [D _]]]]. rewrite D. unfold total. rewrite (exchange (fun _ => 1) _ _ (S eq_refl)).
  rewrite count_sum. reflexivity.
Qed.
Lemma parallel_true : C98_parallel_claim true.
Proof.
  intros p S. destruct (answer_spec p) as [_ [_ [_ [_ [_ [F _]]]]]]. rewrite F. unfold total. rewrite (exchange wParallel _ _ (S eq_refl)).
  unfold loops. rewrite count_flat. apply sum_ext. intros f _. unfold wParallel, user. rewrite inc_parallel.
  destruct (existsb (declared f) (active p)), (fBody f); reflexivity.
Qed.
Lemma loops_true : C98_loops_claim true.
Proof.
  intros p _ _ S. destruct (single_unit p (S eq_refl)) as [u Hu]. destruct (answer_spec p) as [_ [_ [_ [_ [_ [_ [G _]]]]]]]. rewrite G, Hu.
  assert (U : forall f, user p f = declared f u) by (intros f; unfold user; rewrite Hu; cbn; apply orb_false_r).
  f_equal. f_equal.
  - unfold loops. rewrite count_flat. unfold total. apply sum_ext. intros f _. rewrite U. unfold wYes.
    destruct (declared f u), (fBody f); reflexivity.
  - unfold loops, unmatched. rewrite count_flat. unfold total. rewrite <- sum_split. apply sum_ext. intros f _. rewrite U. unfold wNo.
    destruct (declared f u), (fBody f); cbn [andb]; try reflexivity. lia.
Qed.
Lemma traits_true : C98_traits_claim true true.
Proof.
  intros p x S U. specialize (S eq_refl). specialize (U eq_refl). destruct (answer_spec p) as [_ [_ [_ [_ [E _]]]]]. rewrite E.
  unfold total. rewrite (exchange (fun f => count_occ Nat.eq_dec (wTraits f) x) _ _ S).
  assert (M : memory p = memOf (loops p)) by reflexivity. rewrite M. unfold loops at 1. rewrite memOf_flat.
  assert (FF : forall (g : func -> list (list nat)) l, flat_map traitsOf (flat_map g l) = flat_map (fun f => flat_map traitsOf (g f)) l).
  { intros g. induction l as [ | f l IH]; [reflexivity | ]. cbn [flat_map]. rewrite flat_map_app, IH. reflexivity. }
  rewrite FF, occ_flat. apply sum_ext. intros f Hf. unfold wTraits, user. destruct (existsb (declared f) (active p)) eqn:Ef; [ | reflexivity].
  destruct (fBody f) eqn:Eb; [ | reflexivity]. cbn [andb]. apply inc_traits. intros n t y Hn. apply U.
  apply in_flat_map in Hn. destruct Hn as [l [Hl Hn]]. apply in_flat_map. exists l. split; [ | exact Hn].
  unfold loops. apply in_flat_map. exists f. split; [exact Hf | ]. unfold user. rewrite Ef, Eb. exact Hl.
Qed.
Lemma order_true : C98_order_claim false.
Proof.
  intros h s v fs us us' H. unfold answer, answerStatistic. cbn [pHeaders pSources pVars pFuncs pUnits].
  destruct (fold_spec h s v fs us (Stat [] None 0 0 [] 0 None)) as [A [B [C [D [E [F _]]]]]].
  destruct (fold_spec h s v fs us' (Stat [] None 0 0 [] 0 None)) as [A' [B' [C' [D' [E' [F' _]]]]]].
  cbv zeta in *. cbn [sFiles sVars sFuncs sUser sTraits sParallel sLoops map fst app] in *.
  assert (P : forall g, sum (map g us) = sum (map g us')) by (intros g; apply sum_perm; apply Permutation_map; exact H).
  split; [ | split; [ | split; [ | split; [ | split; [ | split]]]]].
  - intros k. rewrite A, A', P. reflexivity.
  - rewrite B, B'. assert (X : existsb uInstance us = existsb uInstance us'); [ | rewrite X; reflexivity].
    clear -H. induction H; cbn [existsb]; [reflexivity | rewrite IHPermutation; reflexivity | | congruence].
    rewrite !orb_assoc. f_equal. apply orb_comm.
  - rewrite C, C', P. reflexivity.
  - rewrite D, D', P. reflexivity.
  - rewrite E, E'. apply Permutation_flat_map. exact H.
  - rewrite F, F', P. reflexivity.
  - discriminate.
Qed.

(** * Refutations *)
Definition lp (par : bool) (ns : list tnode) : loop := Loop par true ns.
Definition only (k : nat) (n : nat) : option bool := if n =? k then Some true else None.
Definition fn (k : nat) (ls : list loop) : func := Func k false true ls 0.
(** A header is included in two units. *)
Definition exShared : project := Project [5] [6] (0, 0) [] [Unit true [(0, 5); (1, 6)] (fun _ => None); Unit true [(0, 5); (2, 6)] (fun _ => None)].
Lemma files_shared : ~ C98_files_claim false.
Proof. intros C. pose proof (C exShared 0 ltac:(discriminate)) as X. vm_compute in X. discriminate X. Qed.
(** Two units with different functions. *)
Definition exTwo : project := Project [] [] (0, 0) [fn 0 [lp false []]; fn 1 [lp true []; lp false []]]
  [Unit true [] (only 0); Unit true [] (only 1)].
Lemma exTwo_separate : separate exTwo.
Proof. intros f [<- | [<- | []]]; vm_compute; lia. Qed.
Lemma functions_two : ~ C98_functions_claim false.
Proof. intros C. pose proof (C exTwo ltac:(discriminate) ltac:(discriminate)) as X. vm_compute in X. discriminate X. Qed.
Lemma loops_two : ~ C98_loops_claim false.
Proof. intros C. pose proof (C exTwo ltac:(discriminate) exTwo_separate ltac:(discriminate)) as X. vm_compute in X. discriminate X. Qed.
(** A function is declared in two units. *)
Definition exCommon : project := Project [] [] (0, 0) [fn 0 [lp true [TNode true [3] [[3]]]]] [Unit true [] (only 0); Unit true [] (only 0)].
Lemma user_common : ~ C98_user_claim false.
Proof. intros C. pose proof (C exCommon ltac:(discriminate)) as X. vm_compute in X. discriminate X. Qed.
Lemma parallel_common : ~ C98_parallel_claim false.
Proof. intros C. pose proof (C exCommon ltac:(discriminate)) as X. vm_compute in X. discriminate X. Qed.
Lemma traits_common : ~ C98_traits_claim false true.
Proof.
  intros C. pose proof (C exCommon 3 ltac:(discriminate)) as X. vm_compute in X. discriminate X.
  intros _ n t x Hn Ht _. destruct Hn as [<- | []]. destruct Ht as [<- | []]. reflexivity.
Qed.
(** A node with a readonly location (3) and a location with a dependence (4). *)
Definition exMixed : project := Project [] [] (0, 0) [fn 0 [lp true [TNode true [4] [[3]; [4]]]]] [Unit true [] (only 0)].
Lemma traits_mixed : ~ C98_traits_claim true false.
Proof.
  intros C. pose proof (C exMixed 3) as X. vm_compute in X. specialize (X ltac:(intros _ f [<- | []]; lia) ltac:(discriminate)). discriminate X.
Qed.
Lemma order_loops : ~ C98_order_claim true.
Proof.
  intros C. destruct (C [] [] (0, 0) (pFuncs exTwo) [Unit true [] (only 0); Unit true [] (only 1)] [Unit true [] (only 1); Unit true [] (only 0)]) as [_ [_ [_ [_ [_ [_ X]]]]]];
    [apply perm_swap | ]. specialize (X eq_refl). vm_compute in X. discriminate X.
Qed.
