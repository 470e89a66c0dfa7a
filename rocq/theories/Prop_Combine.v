(** C76: combination of traits of memory locations. *)
From Coq Require Import ZArith NArith Bool List Lia.
From Verif Require Import TraitModel TraitSpec Prop_Trait ClarifyModel CombineModel CombineSpec
  CombineProof.
Import ListNotations.
Local Open Scope nat_scope.

(** Traits of locations merged into one cover dependences of each of them. *)
Theorem C76_cover_partial : C76_cover_claim true.
Proof.
  intros Old DI R WO WD G1 H k v M.
  destruct (merge_inv _ _ _ WO WD H) as (F1 & _ & F3).
  assert (HP : exists P, possible (tDescr Old) k P \/ possible (tDescr DI) k P).
  { destruct M as [M|M]; eexists; [left|right]; exact M. }
  destruct HP as [P HP]. destruct (F1 k P HP) as [A B].
  apply possible_intro; [exact A|exact B|]. intros z G.
  destruct (F3 k) as (T & T' & L & ST & E). rewrite E in G.
  destruct (tDescr R (tagOf k)); [|discriminate].
  exact (step_cover _ _ _ _ _ _ _ L (G1 eq_refl) ST M G).
Qed.
Print Assumptions C76_cover_partial.

Theorem C76_coverIR_partial : C76_coverIR_claim true true.
Proof.
  intros IR DI R WO WD G1 G2 H k v M.
  destruct (combineWith_inv _ _ _ WO WD H) as (F1 & F3).
  assert (HP : exists P, possible (rDescr IR) k P \/ possible (tDescr DI) k P).
  { destruct M as [M|M]; eexists; [left|right]; exact M. }
  destruct HP as [P HP]. destruct (F1 k P HP) as [A B].
  apply possible_intro; [exact A|exact B|]. intros z G.
  destruct (F3 k) as (T & T' & L & ST & E). rewrite E in G.
  destruct (tDescr R (tagOf k)); [|discriminate].
  exact (step_coverIR _ _ _ _ _ _ _ L (G1 eq_refl) (G2 eq_refl) ST M G).
Qed.
Print Assumptions C76_coverIR_partial.

(* descriptors, bounds and descriptions for examples *)
Definition only (ts : list trait) : descr := fun t => member t ts.
Lemma only_wf ts alt : In alt alternatives -> forallb (fun t => member t alt) ts = true ->
  wellFormed (only ts).
Proof.
  intros IA H. exists alt. split; [exact IA|]. intros t D. right.
  apply member_In in D. rewrite forallb_forall in H. apply member_In. exact (H t D).
Qed.
Definition int32 (z : Z) : apsint := APS (AP 32 z) false.
Definition fLS : flags := Flags false true false false false.
Definition fLSMay : flags := Flags true true false false false.
Definition one (k : kind) (x : dep) : traits :=
  Traits (only [tagOf k]) (fun q => if kind_eqb q k then Some x else None).
Definition dist (z : Z) : list range := [(Some (int32 z), Some (int32 z))].
Definition plain (ts : list trait) : traits := Traits (only ts) (fun _ => None).
Lemma one_wf k x : wellFormed (tDescr (one k x)).
Proof. apply (only_wf _ [TFlow; TAnti; TOutput]); [cbn; tauto|now destruct k]. Qed.

(** Flow dependences with distances 1 and 3: every distance between them is possible. *)
Definition ex1 : traits := one KFlow (Dep fLS (dist 1) [10]).
Definition ex2 : traits := one KFlow (Dep fLSMay (dist 3) [20]).
Example C76_cover_case : exists R, merge ex1 ex2 = Some R /\
  wellFormed (tDescr ex1) /\ wellFormed (tDescr ex2) /\
  (vague (tDescr ex2) -> oneDescribed (getDep ex1)) /\
  mayCause ex1 KFlow (fun _ => 1%Z) /\ mayCause ex2 KFlow (fun _ => 3%Z) /\
  mayCause R KFlow (fun _ => 1%Z) /\ mayCause R KFlow (fun _ => 3%Z) /\
  ~ mayCause R KFlow (fun _ => 4%Z) /\ ~ mayCause R KAnti (fun _ => 1%Z).
Proof.
  assert (V : vague (tDescr ex2) -> oneDescribed (getDep ex1)).
  { intros _ k q A B. destruct k, q; try reflexivity; exfalso;
      (apply A; reflexivity) || (apply B; reflexivity). }
  assert (MA : mayCause ex1 KFlow (fun _ => 1%Z)).
  { split; [reflexivity|]. intros x G i r E. injection G as <-. destruct i as [|[|i]]; cbn in E;
      try discriminate. injection E as <-. split; cbn; intros ? Q; injection Q as <-; lia. }
  assert (MB : mayCause ex2 KFlow (fun _ => 3%Z)).
  { split; [reflexivity|]. intros x G i r E. injection G as <-. destruct i as [|[|i]]; cbn in E;
      try discriminate. injection E as <-. split; cbn; intros ? Q; injection Q as <-; lia. }
  destruct (merge ex1 ex2) as [R|] eqn:M.
  - exists R. split; [reflexivity|]. split; [apply one_wf|]. split; [apply one_wf|].
    split; [exact V|]. split; [exact MA|]. split; [exact MB|].
    split; [exact (C76_cover_partial _ _ _ (one_wf _ _) (one_wf _ _) (fun _ => V) M _ _ (or_introl MA))|].
    split; [exact (C76_cover_partial _ _ _ (one_wf _ _) (one_wf _ _) (fun _ => V) M _ _ (or_intror MB))|].
    vm_compute in M. injection M as <-. split.
    + intros [_ Q]. cbv beta iota in Q.
      specialize (Q _ eq_refl 0%nat _ eq_refl). destruct Q as [_ Q].
      specialize (Q 3%Z eq_refl). lia.
    + intros [Q _]. discriminate Q.
  - vm_compute in M. discriminate.
Qed.

(** Private variable is merged with a variable with two kinds of dependences: a distance
    attached to the second kind restricts dependences of the private variable. *)
Definition two : traits :=
  Traits (only [TFlow; TAnti]) (fun k => if kind_eqb k KOutput then None
                                         else Some (Dep fLS (dist 1) [10])).
Lemma two_wf : wellFormed (tDescr two).
Proof. apply (only_wf _ [TFlow; TAnti; TOutput]); [cbn; tauto|reflexivity]. Qed.
Lemma private_wf : wellFormed (tDescr (plain [TPrivate])).
Proof. apply (only_wf _ [TPrivate; TShared]); [cbn; tauto|reflexivity]. Qed.
Theorem C76_cover_refuted : ~ C76_cover_claim false.
Proof.
  intro C.
  destruct (merge two (plain [TPrivate])) as [R|] eqn:M; [|vm_compute in M; discriminate].
  specialize (C two (plain [TPrivate]) R two_wf private_wf
    ltac:(discriminate) M KAnti (fun _ => 5%Z)).
  assert (X : mayCause R KAnti (fun _ => 5%Z)).
  { apply C. right. repeat split; reflexivity. }
  vm_compute in M. injection M as <-. destruct X as [_ Q].
  specialize (Q _ eq_refl 0%nat _ eq_refl). destruct Q as [_ Q].
  specialize (Q 1%Z eq_refl). lia.
Qed.
Print Assumptions C76_cover_refuted.

(** The same for results of the analysis of IR. *)
Definition irOne (r : option apint * option apint) : irTraits :=
  IRTraits (only [TFlow]) (fun k => if kind_eqb k KFlow then Some (IRDep fLS [r] [(10, true); (11, false)])
                                    else None).
Lemma irOne_wf r : wellFormed (rDescr (irOne r)).
Proof. apply (only_wf _ [TFlow; TAnti; TOutput]); [cbn; tauto|reflexivity]. Qed.
Example C76_coverIR_case : exists R,
  combineWith (irOne (Some (AP 32 2), Some (AP 32 2))) (plain [TShared]) = Some R /\
  firstNonNegative (irOne (Some (AP 32 2), Some (AP 32 2))) /\
  getDep R KFlow = Some (Dep fLS [(Some (APS (AP 32 2) true), Some (APS (AP 32 2) true))] [10]) /\
  getDep R KAnti = None /\ tDescr R TAnti = false.
Proof.
  eexists. split; [vm_compute; reflexivity|]. split; [|repeat split; reflexivity].
  intros k x r rs G E. destruct k; try discriminate G. injection G as <-.
  injection E as <- <-. cbn. lia.
Qed.
Theorem C76_coverIR_refuted_kinds : ~ C76_coverIR_claim false true.
Proof.
  intro C.
  set (IR := IRTraits (only [TFlow; TAnti]) (fun k => if kind_eqb k KOutput then None
    else Some (IRDep fLS [(Some (AP 32 1), Some (AP 32 1))] []))).
  assert (W : wellFormed (rDescr IR)).
  { apply (only_wf _ [TFlow; TAnti; TOutput]); [cbn; tauto|reflexivity]. }
  destruct (combineWith IR (plain [TPrivate])) as [R|] eqn:M; [|vm_compute in M; discriminate].
  assert (FN : true = true -> firstNonNegative IR).
  { intros _ k x r rs G E. destruct k; try discriminate G; injection G as <-;
      injection E as <- <-; cbn; lia. }
  specialize (C IR (plain [TPrivate]) R W private_wf ltac:(discriminate) FN M KAnti (fun _ => 5%Z)).
  assert (X : mayCause R KAnti (fun _ => 5%Z)).
  { apply C. right. repeat split; reflexivity. }
  vm_compute in M. injection M as <-. destruct X as [_ Q].
  specialize (Q _ eq_refl 0%nat _ eq_refl). destruct Q as [_ Q].
  specialize (Q 1%Z eq_refl). lia.
Qed.
Print Assumptions C76_coverIR_refuted_kinds.

(** A distance -1 of the outermost loop becomes a huge positive one. *)
Theorem C76_coverIR_refuted_sign : ~ C76_coverIR_claim true false.
Proof.
  intro C. set (IR := irOne (Some (AP 8 255), Some (AP 8 255))).
  destruct (combineWith IR (plain [TShared])) as [R|] eqn:M; [|vm_compute in M; discriminate].
  assert (W : wellFormed (tDescr (plain [TShared]))).
  { apply (only_wf _ [TPrivate; TShared]); [cbn; tauto|reflexivity]. }
  assert (V : true = true -> vague (tDescr (plain [TShared])) -> oneDescribed (getIRDep IR)).
  { intros _ Q. specialize (Q KFlow True). destruct Q as (_ & _ & Q). discriminate Q. }
  specialize (C IR (plain [TShared]) R (irOne_wf _) W V ltac:(discriminate) M KFlow (fun _ => (-1)%Z)).
  assert (X : mayCause R KFlow (fun _ => (-1)%Z)).
  { apply C. left. split; [reflexivity|]. intros x G i r E. injection G as <-.
    destruct i as [|[|i]]; cbn in E; try discriminate. injection E as <-.
    split; cbn; intros ? Q; injection Q as <-; lia. }
  vm_compute in M. injection M as <-. destruct X as [_ Q].
  specialize (Q _ eq_refl 0%nat _ eq_refl). destruct Q as [Q _].
  specialize (Q 255%Z eq_refl). lia.
Qed.
Print Assumptions C76_coverIR_refuted_sign.

(** Combination finishes if bounds have the same type. *)
Lemma leAPS_total a b : sameType (Some a) (Some b) -> exists l, leAPS a b = Some l.
Proof.
  intro H. destruct (H a b eq_refl eq_refl) as [E1 E2]. unfold leAPS.
  rewrite E2, eqb_reflx, E1, Z.eqb_refl. eexists. reflexivity.
Qed.
Lemma sameType_sym a b : sameType a b -> sameType b a.
Proof. intros H x y E F. destruct (H y x F E). split; congruence. Qed.
Lemma mergeRange_total a b : sameType (fst a) (fst b) -> sameType (snd a) (snd b) ->
  exists r, mergeRange a b = Some r.
Proof.
  destruct a as [al ah], b as [bl bh]. cbn [fst snd]. intros L H. unfold mergeRange, mergeLo, mergeHi.
  cbn [fst snd].
  assert (LL : exists l, match al, bl with
     | Some x, Some y => match leAPS x y with Some l => Some (Some (if l then x else y))
                         | None => None end
     | _, _ => Some None end = Some l).
  { destruct al as [x|], bl as [y|]; try (eexists; reflexivity).
    destruct (leAPS_total x y L) as [l ->]. eexists. reflexivity. }
  destruct LL as [l ->].
  destruct ah as [x|], bh as [y|]; try (eexists; reflexivity).
  destruct (leAPS_total y x (sameType_sym _ _ H)) as [g ->]. eexists. reflexivity.
Qed.
Lemma mergeDI_total a : forall b,
  (forall i r s, nth_error a i = Some r -> nth_error b i = Some s ->
     sameType (fst r) (fst s) /\ sameType (snd r) (snd s)) ->
  exists rs, mergeDI a b = Some rs.
Proof.
  induction a as [|x a IH]; intros b H; [eexists; reflexivity|].
  destruct b as [|y b]; [eexists; reflexivity|]. cbn [mergeDI].
  destruct (H 0%nat x y eq_refl eq_refl) as [H1 H2].
  destruct (mergeRange_total x y H1 H2) as [r ->].
  destruct (IH b (fun i r s E F => H (S i) r s E F)) as [rs ->]. eexists. reflexivity.
Qed.
Lemma mergeIR_total a : forall b,
  (forall i r s, nth_error a i = Some r -> nth_error b i = Some s ->
     sameType (fst r) (fst s) /\ sameType (snd r) (snd s)) ->
  (forall i r, nth_error a i = Some r -> r <> (None, None) -> (i < length b)%nat) ->
  exists rs, mergeIR a b = Some rs.
Proof.
  induction a as [|x a IH]; intros b H K; [eexists; reflexivity|].
  destruct b as [|y b]; cbn [mergeIR].
  - assert (X : exists rs, mergeIR a [] = Some rs).
    { apply IH.
      - intros [|i] r s _ F; discriminate F.
      - intros i r E N. exfalso. specialize (K (S i) r E N). cbn in K. lia. }
    destruct X as [rs X].
    destruct x as [[l|] [h|]]; cbn [fst snd];
      try (exfalso; specialize (K 0%nat _ eq_refl ltac:(discriminate)); cbn in K; lia).
    rewrite X. eexists. reflexivity.
  - destruct (H 0%nat x y eq_refl eq_refl) as [H1 H2].
    destruct (mergeRange_total x y H1 H2) as [r ->].
    destruct (IH b (fun i r s E F => H (S i) r s E F)) as [rs ->]; [|eexists; reflexivity].
    intros i q E N. specialize (K (S i) q E N). cbn in K. lia.
Qed.
Theorem C76_total_partial : C76_total_claim true.
Proof.
  intros Old DI WO WD G. specialize (G eq_refl). unfold merge.
  assert (X : exists S, combineKinds (fun k => combineDI k Old) DI = Some S).
  { apply (combineKinds_total (fun k => combineDI k Old) (combineDI_shape Old)).
    intros k T E. unfold combineDI. rewrite E.
    destruct (getDep Old k) as [x|] eqn:GO, (getDep DI k) as [y|] eqn:GD;
      try (match goal with |- context [if ?b then _ else _] => destruct b end);
      try (eexists; reflexivity);
      destruct (mergeDI_total (dDist x) (dDist y)
        (fun i r s E F => G k x y i r s GO GD E F)) as [rs ->]; eexists; reflexivity. }
  destruct X as [S X]. rewrite X.
  pose proof (combineKinds_shape (getDep Old) (fun k => combineDI k Old)
    (combineDI_shape Old) (combineDI_absent Old) DI S WD X) as [WS _].
  exact (finish_total _ _ _ WO WS).
Qed.
Print Assumptions C76_total_partial.
Lemma toRanges_nth rs i s : nth_error (toRanges rs) i = Some s ->
  exists r, nth_error rs i = Some r /\ s = toRange (Nat.eqb i 0) r.
Proof.
  destruct rs as [|r rs]; [destruct i; discriminate|]. destruct i as [|i]; cbn [toRanges nth_error].
  - intro H. injection H as <-. exists r. split; reflexivity.
  - rewrite nth_error_map. destruct (nth_error rs i) as [t|]; [|discriminate].
    intro H. injection H as <-. exists t. split; reflexivity.
Qed.
Theorem C76_totalIR_partial : C76_totalIR_claim true true.
Proof.
  intros IR DI WO WD G K. specialize (G eq_refl). specialize (K eq_refl). unfold combineWith.
  assert (X : exists S, combineKinds (fun k => combineIR k IR) DI = Some S).
  { apply (combineKinds_total (fun k => combineIR k IR) (combineIR_shape IR)).
    intros k T E. unfold combineIR. rewrite E.
    destruct (getIRDep IR k) as [x|] eqn:GO, (getDep DI k) as [y|] eqn:GD;
      try (match goal with |- context [if ?b then _ else _] => destruct b end);
      try (eexists; reflexivity);
      destruct (mergeIR_total (toRanges (rDist x)) (dDist y)) as [rs Q];
      try (rewrite Q; eexists; reflexivity).
    all: try (intros i r s E1 E2; destruct (toRanges_nth _ _ _ E1) as (t & E3 & ->);
              exact (G k x y i t s GO GD E3 E2)).
    all: intros i r E1 N; destruct (toRanges_nth _ _ _ E1) as (t & E3 & ->);
         apply (K k x y i t GO GD E3); intros ->; now apply N. }
  destruct X as [S X]. rewrite X.
  pose proof (combineKinds_shape (getIRDep IR) (fun k => combineIR k IR)
    (combineIR_shape IR) (combineIR_absent IR) DI S WD X) as [WS _].
  destruct (finish_total (rDescr IR) (tDescr DI) S WO WS) as [R ->]. eexists. reflexivity.
Qed.
Print Assumptions C76_totalIR_partial.
Example C76_total_case : sameTypes ex1 ex2 /\ ~ sameTypes ex1 (one KFlow (Dep fLS
    [(Some (APS (AP 64 1) false), None)] [])).
Proof.
  split.
  - intros k x y i r s A B. destruct k; try discriminate A. injection A as <-. injection B as <-.
    destruct i as [|[|i]]; cbn; intros E F; try discriminate.
    injection E as <-. injection F as <-.
    split; intros u w E F; injection E as <-; injection F as <-; split; reflexivity.
  - intro H. destruct (H KFlow _ _ 0%nat _ _ eq_refl eq_refl eq_refl eq_refl) as [Q _].
    destruct (Q _ _ eq_refl eq_refl) as [Q1 _]. discriminate Q1.
Qed.
(** Bounds of type int and of type long. *)
Theorem C76_total_refuted : ~ C76_total_claim false.
Proof.
  intro C. destruct (C ex1 (one KFlow (Dep fLS [(Some (APS (AP 64 1) false), None)] []))
    (one_wf _ _) (one_wf _ _) ltac:(discriminate)) as [R H].
  vm_compute in H. discriminate H.
Qed.
Print Assumptions C76_total_refuted.
Theorem C76_totalIR_refuted_types : ~ C76_totalIR_claim false true.
Proof.
  intro C.
  destruct (C (irOne (Some (AP 32 2), Some (AP 32 2)))
    (one KFlow (Dep fLS [(Some (APS (AP 64 1) true), None)] []))
    (irOne_wf _) (one_wf _ _) ltac:(discriminate)) as [R H].
  - intros _ k x y i r A B. destruct k; try discriminate A. injection A as <-. injection B as <-.
    destruct i as [|[|i]]; cbn; intros E _; try discriminate. lia.
  - vm_compute in H. discriminate H.
Qed.
Print Assumptions C76_totalIR_refuted_types.
(** The existing description does not have any level. *)
Theorem C76_totalIR_refuted_levels : ~ C76_totalIR_claim true false.
Proof.
  intro C.
  destruct (C (irOne (Some (AP 32 2), Some (AP 32 2))) (one KFlow (Dep fLS [] []))
    (irOne_wf _) (one_wf _ _)) as [R H].
  - intros _ k x y i r s A B E F. destruct k; try discriminate A. injection B as <-.
    destruct i; discriminate F.
  - discriminate.
  - vm_compute in H. discriminate H.
Qed.
Print Assumptions C76_totalIR_refuted_levels.

(** A definite dependence stays definite. *)
Theorem C76_definite : C76_definite_claim.
Proof.
  intros Old DI R k WO WD H Q.
  destruct (merge_inv _ _ _ WO WD H) as (_ & F2 & F3).
  destruct (F3 k) as (T & T' & L & ST & E). pose proof L as (L1 & L2 & _).
  assert (D : tDescr R (tagOf k) = true).
  { apply F2. destruct Q as [(x & G & _)|(x & G & _)]; [left|right]; exact (getDep_tag _ _ _ G). }
  rewrite D in E. unfold definite. rewrite E. unfold combineDI in ST. rewrite L1 in ST.
  destruct Q as [(x & G & M)|(x & G & M)]; rewrite G in ST.
  - destruct (getDep DI k) as [y|] eqn:GD.
    + destruct (mergeDI (dDist x) (dDist y)) as [rs|]; [|discriminate]. injection ST as <-.
      rewrite getDep_set. eexists. split; [reflexivity|]. cbn [dFlags]. rewrite M. reflexivity.
    + destruct (negb (hasSpuriousDep (tDescr T)) && negb (tDescr T (tagOf k)));
        injection ST as <-; rewrite getDep_set; eexists; (split; [reflexivity|]);
        [exact M|reflexivity].
  - destruct (getDep Old k) as [y|] eqn:GO.
    + destruct (mergeDI (dDist y) (dDist x)) as [rs|]; [|discriminate]. injection ST as <-.
      rewrite getDep_set. eexists. split; [reflexivity|]. cbn [dFlags]. rewrite M.
      rewrite orb_true_r. reflexivity.
    + destruct (hasSpuriousDep (tDescr Old) || tDescr Old (tagOf k)); injection ST as <-.
      * rewrite getDep_set. eexists. split; reflexivity.
      * rewrite L1. exists x. split; [exact G|exact M].
Qed.
Print Assumptions C76_definite.
Example C76_definite_case : definite ex1 KFlow /\ ~ definite ex2 KFlow /\
  exists R, merge ex1 ex2 = Some R /\ definite R KFlow.
Proof.
  split; [eexists; split; reflexivity|]. split.
  - intros (x & G & M). injection G as <-. discriminate M.
  - eexists. split; [vm_compute; reflexivity|]. eexists. split; reflexivity.
Qed.

Lemma not_spurious_later {A : Type} (get : kind -> option A) DI T k :
  later get DI T k -> hasSpuriousDep (tDescr DI) = false -> hasSpuriousDep (tDescr T) = false.
Proof.
  intros (_ & _ & [->|(A1 & W & _)]) H; [exact H|]. exact (proj1 (proj2 (dep_alone _ W A1))).
Qed.
Lemma excludes_ok d k : wellFormed d -> excludes d k ->
  hasSpuriousDep d = false /\ d (tagOf k) = false.
Proof.
  intros W [[A D]|N].
  - split; [|exact D]. exact (proj1 (proj2 (dep_alone _ W A))).
  - destruct (never_alone _ W N) as [S D]. auto.
Qed.
Theorem C76_may_partial : C76_may_claim true.
Proof.
  intros Old DI R k WO WD H B Q. specialize (B eq_refl).
  destruct (merge_inv _ _ _ WO WD H) as (_ & _ & F3).
  destruct (F3 k) as (T & T' & L & ST & E). pose proof L as (L1 & L2 & _).
  destruct Q as (z & G & M). rewrite E in G.
  destruct (tDescr R (tagOf k)); [|discriminate].
  unfold combineDI in ST. rewrite L1 in ST. unfold definite.
  destruct (getDep Old k) as [x|] eqn:GO, (getDep DI k) as [y|] eqn:GD.
  - destruct (mergeDI (dDist x) (dDist y)) as [rs|]; [|discriminate]. injection ST as <-.
    rewrite getDep_set in G. injection G as <-. cbn [dFlags] in M.
    destruct (fMay (dFlags x)) eqn:MX; [|left; eauto].
    destruct (fMay (dFlags y)) eqn:MY; [|right; eauto].
    cbn [negb orb] in M. unfold orFlags in M. cbn [fMay] in M. rewrite MX in M. discriminate.
  - destruct B as [[_ B]|[B|B]]; [now destruct B| |].
    + destruct (excludes_ok _ _ WO B) as [_ D]. apply getDep_tag in GO. congruence.
    + destruct (excludes_ok _ _ WD B) as [S D].
      rewrite (not_spurious_later _ _ _ _ L S), L2, D in ST. cbn [negb andb] in ST.
      injection ST as <-. rewrite getDep_set in G. injection G as <-. left. eauto.
  - destruct B as [[B _]|[B|B]]; [now destruct B| |].
    + destruct (excludes_ok _ _ WO B) as [S D]. rewrite S, D in ST. cbn [orb] in ST.
      injection ST as <-. rewrite L1 in G. injection G as <-. right. eauto.
    + destruct (excludes_ok _ _ WD B) as [_ D]. apply getDep_tag in GD. congruence.
  - injection ST as <-. congruence.
Qed.
Print Assumptions C76_may_partial.
Example C76_may_case : exists R, merge ex2 (plain [TReadonly]) = Some R /\
  excludes (tDescr (plain [TReadonly])) KFlow /\ ~ definite R KFlow.
Proof.
  eexists. split; [vm_compute; reflexivity|]. split; [right; right; reflexivity|].
  intros (x & G & M). injection G as <-. discriminate M.
Qed.
(** A possible dependence of one location becomes definite if the other one is a reduction
    variable. *)
Theorem C76_may_refuted : ~ C76_may_claim false.
Proof.
  intro C.
  destruct (merge ex2 (plain [TReduction])) as [R|] eqn:M; [|vm_compute in M; discriminate].
  assert (W : wellFormed (tDescr (plain [TReduction]))).
  { apply (only_wf _ [TReduction]); [cbn; tauto|reflexivity]. }
  specialize (C _ _ _ KFlow (one_wf _ _) W M ltac:(discriminate)).
  assert (D : definite R KFlow).
  { vm_compute in M. injection M as <-. eexists. split; reflexivity. }
  destruct (C D) as [(x & G & Q)|(x & G & _)].
  - injection G as <-. discriminate Q.
  - discriminate G.
Qed.
Print Assumptions C76_may_refuted.

(** Kinds of causes are not lost. *)
Theorem C76_kinds : C76_kinds_claim.
Proof.
  intros Old DI R k x c WO WD H Q IC CX.
  destruct (merge_inv _ _ _ WO WD H) as (_ & F2 & F3).
  destruct (F3 k) as (T & T' & L & ST & E). pose proof L as (L1 & L2 & _).
  assert (D : tDescr R (tagOf k) = true).
  { apply F2. destruct Q as [G|G]; [left|right]; exact (getDep_tag _ _ _ G). }
  rewrite D in E. rewrite E. unfold combineDI in ST. rewrite L1 in ST.
  assert (NM : forall f, c (noMay f) = c f).
  { intro f. cbn in IC. decompose [or] IC; subst; try contradiction; reflexivity. }
  assert (AU : forall f, c f = true -> c (addUnknown f) = true).
  { intros f CF. cbn in IC. decompose [or] IC; subst; try contradiction;
      first [exact CF|reflexivity]. }
  assert (OR : forall f g, c (orFlags f g) = c f || c g).
  { intros f g. cbn in IC. decompose [or] IC; subst; try contradiction; reflexivity. }
  assert (IFM : forall (b : bool) f, c (if b then noMay f else f) = c f).
  { intros [] f; [apply NM|reflexivity]. }
  destruct Q as [G|G]; rewrite G in ST.
  - destruct (getDep DI k) as [y|] eqn:GD.
    + destruct (mergeDI (dDist x) (dDist y)) as [rs|]; [|discriminate]. injection ST as <-.
      rewrite getDep_set. eexists. split; [reflexivity|]. cbn [dFlags].
      rewrite IFM, OR, CX. reflexivity.
    + destruct (negb (hasSpuriousDep (tDescr T)) && negb (tDescr T (tagOf k)));
        injection ST as <-; rewrite getDep_set; eexists; (split; [reflexivity|]);
        [exact CX|]. cbn [dFlags]. rewrite NM. now apply AU.
  - destruct (getDep Old k) as [y|] eqn:GO.
    + destruct (mergeDI (dDist y) (dDist x)) as [rs|]; [|discriminate]. injection ST as <-.
      rewrite getDep_set. eexists. split; [reflexivity|]. cbn [dFlags].
      rewrite IFM, OR, CX. apply orb_true_r.
    + destruct (hasSpuriousDep (tDescr Old) || tDescr Old (tagOf k)); injection ST as <-.
      * rewrite getDep_set. eexists. split; [reflexivity|]. cbn [dFlags]. rewrite NM. now apply AU.
      * rewrite L1. exists x. split; [exact G|exact CX].
Qed.
Print Assumptions C76_kinds.
Example C76_kinds_case : exists R x, merge ex1 ex2 = Some R /\ getDep R KFlow = Some x /\
  fLoadStore (dFlags x) = true /\ fCall (dFlags x) = false.
Proof. eexists _, _. split; [vm_compute; reflexivity|]. repeat split; reflexivity. Qed.

(** Causes of the replaced location are not lost, causes of the target one are lost. *)
Theorem C76_causes_partial : C76_causes_claim true.
Proof.
  intros Old DI R k x c WO WD H Q IC.
  destruct Q as [G|[Q _]]; [|discriminate].
  destruct (merge_inv _ _ _ WO WD H) as (_ & F2 & F3).
  destruct (F3 k) as (T & T' & L & ST & E).
  assert (D : tDescr R (tagOf k) = true).
  { apply F2. left. exact (getDep_tag _ _ _ G). }
  rewrite D in E. rewrite E. unfold combineDI in ST. rewrite G in ST.
  destruct (getDep T k) as [y|] eqn:GD.
  - destruct (mergeDI (dDist x) (dDist y)) as [rs|]; [|discriminate]. injection ST as <-.
    rewrite getDep_set. eexists. split; [reflexivity|]. exact IC.
  - destruct (negb (hasSpuriousDep (tDescr T)) && negb (tDescr T (tagOf k)));
      injection ST as <-; rewrite getDep_set; eexists; (split; [reflexivity|]); exact IC.
Qed.
Print Assumptions C76_causes_partial.
Example C76_causes_case : exists R x, merge ex1 ex2 = Some R /\ getDep R KFlow = Some x /\
  In 10 (dCauses x).
Proof. eexists _, _. split; [vm_compute; reflexivity|]. split; [reflexivity|]. now left. Qed.
Theorem C76_causes_refuted : ~ C76_causes_claim false.
Proof.
  intro C. destruct (merge ex1 ex2) as [R|] eqn:M; [|vm_compute in M; discriminate].
  destruct (C ex1 ex2 R KFlow (Dep fLSMay (dist 3) [20]) 20 (one_wf _ _) (one_wf _ _) M
    (or_intror (conj eq_refl eq_refl)) ltac:(now left)) as (y & G & I1).
  vm_compute in M. injection M as <-. injection G as <-. cbn in I1.
  destruct I1 as [I1|[]]. discriminate I1.
Qed.
Print Assumptions C76_causes_refuted.
