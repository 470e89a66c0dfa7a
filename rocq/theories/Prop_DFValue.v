(** Property C10: data-flow values formed by a set of locations or by all
    memory.  A value denotes the bytes [dfCovers]. *)
From Coq Require Import ZArith Bool List Lia.
From Verif Require Import RangeModel RangeSpec RangeProof RangeBytes RangeDio
  MemSetModel MemSetSpec MemSetProof MemSetEqProof DFValueModel Prop_Range Prop_MemSet.
Import ListNotations.
Open Scope Z_scope.

Definition dfCovers (x : dfval) (p : nat) (b : Z) : Prop :=
  match x with DFull => True | DMask s => setCovers s p b end.
Definition dfOk (v : views) (x : dfval) : Prop :=
  match x with DFull => True | DMask s => setOk v s end.
(** All locations of one object are byte ranges with known bounds, or all of
    them are sections: then intersections are always known. *)
Definition known2 (s t : mset) : Prop :=
  forall q, (forall l r, In (q, l) s \/ In (q, l) t -> In r l -> knownBytes r) \/
            (forall l r, In (q, l) s \/ In (q, l) t -> In r l -> rCollapsed r = true).
Definition dfKnown (x y : dfval) : Prop :=
  match x, y with DMask s, DMask t => known2 s t | _, _ => True end.

(** Join: exact for all values, the flag is false only if nothing was added. *)
Theorem C10_merge :
  forall v x y, viewsOk v -> dfOk v x -> dfOk v y ->
  let '(r, ch) := dfMerge x y in
  dfOk v r /\ (forall q b, dfCovers r q b <-> dfCovers x q b \/ dfCovers y q b) /\
  (ch = false -> forall q b, dfCovers r q b <-> dfCovers x q b).
Proof.
  intros v [|s] [|t] Hv Hx Hy; simpl; try (repeat split; auto; tauto; fail).
  - repeat split; auto; discriminate.
  - pose proof (mmerge_ok v s t Hv Hx Hy) as H. destruct (mmerge s t) as [r c]. exact H.
Qed.
Print Assumptions C10_merge.
(** Meet: never more than both, exact if intersections are known. *)
Theorem C10_intersect_subset :
  forall dio v x y, dioSpec dio -> viewsOk v -> dfOk v x -> dfOk v y ->
  let r := fst (dfIntersect dio x y) in
  dfOk v r /\ forall q b, dfCovers r q b -> dfCovers x q b /\ dfCovers y q b.
Proof.
  intros dio v [|s] [|t] Hd Hv Hx Hy; simpl; try (split; [auto|]; tauto).
  - pose proof (C05_history v (allLocs t) Hv (allLocs_ok v t Hy)) as [H1 H2]. split; [auto|].
    intros q b H. split; [auto|]. apply (C05_copy v t Hv Hy). exact H.
  - pose proof (C08_intersect_subset dio v s t Hd Hv Hx Hy) as H.
    destruct (mintersect dio s t) as [r c]. exact H.
Qed.
Print Assumptions C10_intersect_subset.
Theorem C10_intersect_exact_partial :
  forall dio v x y, dioSpec dio -> viewsOk v -> dfOk v x -> dfOk v y -> dfKnown x y ->
  forall q b, dfCovers (fst (dfIntersect dio x y)) q b <-> dfCovers x q b /\ dfCovers y q b.
Proof.
  intros dio v [|s] [|t] Hd Hv Hx Hy Hk q b; simpl; try tauto.
  - pose proof (C05_copy v t Hv Hy q b) as H. unfold mkset in H. rewrite H. tauto.
  - pose proof (C08_intersect_exact_partial dio v s t Hd Hv Hx Hy Hk q b) as H.
    destruct (mintersect dio s t) as [r c]. exact H.
Qed.
Print Assumptions C10_intersect_exact_partial.
(** The full value is neutral for the meet and absorbing for the join. *)
Theorem C10_full_laws :
  forall dio x, fst (dfIntersect dio x DFull) = x /\ fst (dfMerge x DFull) = DFull /\
    fst (dfMerge DFull x) = DFull.
Proof. intros dio [|s]; simpl; auto. Qed.
Print Assumptions C10_full_laws.
(** Containment and overlap. *)
Theorem C10_contain :
  forall dio v x p Loc, dioSpec dio -> viewsOk v -> dfOk v x -> locOk v p Loc ->
  dfContain dio x Loc = true -> forall b, covers Loc b -> dfCovers x p b.
Proof.
  intros dio v [|s] p Loc Hd Hv Hx HL; simpl; [auto|]. exact (contain_ok dio Hd v Hv s p Loc Hx HL).
Qed.
Print Assumptions C10_contain.
Theorem C10_no_overlap :
  forall dio v x p Loc, dioSpec dio -> viewsOk v -> dfOk v x -> locOk v p Loc ->
  dfOverlap dio x Loc = false -> forall b, covers Loc b -> ~ dfCovers x p b.
Proof.
  intros dio v [|s] p Loc Hd Hv Hx HL; simpl; [discriminate|]. exact (overlap_ok dio Hd v Hv s p Loc Hx HL).
Qed.
Print Assumptions C10_no_overlap.
(** The listed common parts. *)
Theorem C10_common_parts :
  forall dio v x p Loc, dioSpec dio -> viewsOk v -> dfOk v x -> locOk v p Loc ->
  forall r b, In r (dfFindCoveredBy dio x Loc) -> covers r b -> covers Loc b /\ dfCovers x p b.
Proof.
  intros dio v [|s] p Loc Hd Hv Hx HL r b; simpl.
  - intros [<-|[]]. auto.
  - exact (C06_covered_parts_partial dio v s p Loc Hd Hv Hx HL r b).
Qed.
Print Assumptions C10_common_parts.
(** Subtraction: the appended locations lie in the location, and with known
    bounds they are exactly the bytes of the location not in the value. *)
Theorem C10_subtract_partial :
  forall dio v x p Loc N, dioSpec dio -> viewsOk v -> dfOk v x -> locOk v p Loc ->
  dfSubtract dio x Loc = (true, Some N) ->
  knownBytes Loc ->
  (forall s l, x = DMask s -> In (Some p, l) s -> Forall knownBytes l) ->
  forall b, coversAny N b <-> covers Loc b /\ ~ dfCovers x p b.
Proof.
  intros dio v [|s] p Loc N Hd Hv Hx HL; simpl; [discriminate|]. intros E HK Hs.
  pose proof (C07_subtract_bytes_partial dio v s p Loc Hd Hv Hx HL (fun l => Hs s l eq_refl) HK) as H.
  rewrite E in H. exact H.
Qed.
Print Assumptions C10_subtract_partial.
(** Insertion. *)
Theorem C10_insert :
  forall v x p Loc, viewsOk v -> dfOk v x -> locOk v p Loc ->
  dfOk v (fst (dfInsert x Loc)) /\
  forall q b, dfCovers (fst (dfInsert x Loc)) q b <-> dfCovers x q b \/ (q = p /\ covers Loc b).
Proof.
  intros v [|s] p Loc Hv Hx HL; simpl; [tauto|]. exact (msInsert_ok v s p Loc Hv Hx HL).
Qed.
Print Assumptions C10_insert.
(** Difference: no byte of the value gets into the result. *)
Theorem C10_difference :
  forall dio v ls x R, dioSpec dio -> viewsOk v -> dfOk v x -> setOk v R ->
  Forall (fun r => exists p, locOk v p r) ls ->
  forall q b, setCovers (dfDifference dio ls x R) q b ->
    setCovers R q b \/
    (~ dfCovers x q b /\ exists r, In r ls /\ rPtr r = Some q /\ covers r b).
Proof.
  intros dio v ls [|s] R Hd Hv Hx HR Hl q b; simpl; [auto|].
  destruct ls as [|l0 ls0] eqn:El; [auto|]. rewrite <- El in *. clear l0 ls0 El.
  assert (G : forall R', setOk v R' ->
     setCovers (fst (minsertAll R' (filter (fun l => negb (overlap dio s l)) ls))) q b ->
     setCovers R' q b \/ (~ setCovers s q b /\ exists r, In r ls /\ rPtr r = Some q /\ covers r b)).
  { intros R' HR'. set (ls' := filter _ ls).
    assert (Hl' : Forall (fun r => exists p, locOk v p r) ls').
    { rewrite Forall_forall in *. intros r Hr. apply filter_In in Hr. apply Hl. tauto. }
    pose proof (minsertAll_ok v Hv ls' R' HR' Hl') as H. destruct (minsertAll R' ls') as [s' c].
    destruct H as (_ & H & _). cbn [fst]. rewrite H. intros [H1|(r & H1 & H2 & H3)]; [auto|right].
    assert (H0 := H1). apply filter_In in H0. destruct H0 as [H4 H5]. apply negb_true_iff in H5.
    split; [|exists r; auto]. rewrite Forall_forall in Hl'. destruct (Hl' r H1) as [p Hp].
    pose proof (sh_ptr _ _ _ _ Hp). assert (p = q) by congruence. subst p.
    exact (overlap_ok dio Hd v Hv s q r Hx Hp H5 b H3). }
  destruct s as [|e s].
  - pose proof (minsertAll_ok v Hv ls R HR Hl) as H. destruct (minsertAll R ls) as [R1 c].
    destruct H as (A & B & _). cbn [fst]. intros H. apply G in H; auto. destruct H as [H|H]; [|auto].
    apply B in H. destruct H as [H|H]; [auto|]. right. split; [|exact H]. intros (l & r & [] & _).
  - apply G; auto.
Qed.
Print Assumptions C10_difference.
(** Equality. *)
Theorem C10_equal_partial :
  forall v x y, dfOk v x -> dfOk v y ->
  (forall s r, x = DMask s \/ y = DMask s -> In r (allLocs s) -> rCollapsed r = false) ->
  dfEqb x y = true -> forall q b, dfCovers x q b <-> dfCovers y q b.
Proof.
  intros v [|s] [|t] Hx Hy Hs; simpl; try discriminate; [tauto|].
  apply (mset_eqb_ok v); auto. intros r [Hr|Hr]; [apply (Hs s)|apply (Hs t)]; auto.
Qed.
Print Assumptions C10_equal_partial.
Theorem C10_empty :
  forall v x, dfOk v x -> dfEmpty x = true -> forall q b, ~ dfCovers x q b.
Proof. intros v [|[|e s]] Hx; simpl; try discriminate. intros _ q b (l & r & [] & _). Qed.
Print Assumptions C10_empty.

Definition dfE := DMask (mkset [bytes 1 0 4; bytes 1 8 12]).
Example C10_nonvacuous :
  dfOk v1 dfE /\ fst (dfIntersect dioInst DFull dfE) = dfE /\
  fst (dfIntersect dioInst dfE (DMask (mkset [bytes 1 2 10]))) = DMask (mkset [bytes 1 2 4; bytes 1 8 10]) /\
  fst (dfMerge dfE (DMask (mkset [bytes 1 2 10]))) = DMask [(Some 1%nat, [bytes 1 0 10; bytes 1 8 12])] /\
  dfContain dioInst dfE (bytes 1 9 12) = true /\ dfOverlap dioInst dfE (bytes 1 4 8) = false /\
  dfEqb dfE (DMask (mkset [bytes 1 8 12; bytes 1 0 4])) = true /\ dfEqb dfE DFull = false /\
  dfDifference dioInst [bytes 1 4 8; bytes 1 10 14] dfE [] = mkset [bytes 1 4 8].
Proof.
  split; [|repeat split]. apply C05_history; [exact v1_ok|].
  repeat apply Forall_cons; try apply Forall_nil; eexists; apply bytes_ok; lia.
Qed.
(** The answers of the full value that do not agree with the set of all bytes:
    an insertion says that the value changed, subtraction says that it does not
    overlap the location, and no location of it is said to be covered. *)
Theorem C10_full_flags_refuted :
  exists Loc b, locOk v1 1 Loc /\ covers Loc b /\
    dfInsert DFull Loc = (DFull, true) /\
    fst (dfSubtract dioInst DFull Loc) = false /\ dfOverlap dioInst DFull Loc = true /\
    dfCover dioInst DFull Loc = false /\ dfFindCoveredBy dioInst DFull Loc <> [].
Proof.
  exists (bytes 1 0 4), 0. split; [apply bytes_ok; lia|]. split; [unfold covers; simpl; lia|].
  repeat split. discriminate.
Qed.
Print Assumptions C10_full_flags_refuted.
