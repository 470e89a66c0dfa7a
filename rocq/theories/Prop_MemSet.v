(** Properties C05-C09: sets of memory locations.
    Vocabulary: RangeSpec.v (bytes of a location), MemSetSpec.v (bytes of a set). *)
From Coq Require Import ZArith Bool List Lia.
From Verif Require Import RangeModel RangeSpec RangeProof RangeBytes RangeDio
  MemSetModel MemSetSpec MemSetProof MemSetEqProof Prop_Range.
Import ListNotations.
Open Scope Z_scope.

(** ** C05: insertion *)
Theorem C05_insert_bytes :
  forall v s p Loc, viewsOk v -> setOk v s -> locOk v p Loc ->
  setOk v (msInsert s Loc) /\
  (forall q b, setCovers (msInsert s Loc) q b <-> setCovers s q b \/ (q = p /\ covers Loc b)).
Proof. exact msInsert_ok. Qed.
Print Assumptions C05_insert_bytes.
(** So a set built by insertions in any order covers exactly the bytes that
    were inserted. *)
Theorem C05_history :
  forall v ls, viewsOk v -> Forall (fun r => exists p, locOk v p r) ls ->
  let s := fst (minsertAll [] ls) in
  setOk v s /\
  forall q b, setCovers s q b <-> exists r, In r ls /\ rPtr r = Some q /\ covers r b.
Proof.
  intros v ls Hv Hl s. pose proof (minsertAll_ok v Hv ls [] (setOk_nil v) Hl) as H.
  unfold s. destruct (minsertAll [] ls) as [s' c]. destruct H as (A & B & _). split; [auto|].
  intros q b. simpl. rewrite B. split; [intros [(l & r & [] & _)|H]; auto|auto].
Qed.
Print Assumptions C05_history.
(** The flag: if the covered bytes grew then it is true. *)
Theorem C05_flag_grew_partial :
  forall v s p Loc, viewsOk v -> setOk v s -> locOk v p Loc ->
  (exists q b, setCovers (msInsert s Loc) q b /\ ~ setCovers s q b) ->
  msInsertFlag s Loc = true.
Proof.
  intros v s p Loc Hv Hs HL (q & b & H1 & H2).
  pose proof (minsert_ok v s p Loc Hv Hs HL) as H. unfold msInsert, msInsertFlag in *.
  destruct (minsert s Loc) as [[s' ch] i]. destruct H as (_ & _ & H). simpl in *.
  destruct ch; [auto|]. exfalso. apply H2. apply H; auto.
Qed.
Print Assumptions C05_flag_grew_partial.

(** One byte view for all objects. *)
Definition v1 : views := fun _ => (1, []).
Lemma v1_ok : viewsOk v1.
Proof. intros p. split; simpl; [lia|auto]. Qed.
Lemma bytes_ok p lo hi : 0 <= lo <= hi -> hi < 2 ^ 64 -> locOk v1 p (bytes p lo hi).
Proof.
  intros H1 H2. split; [reflexivity| |discriminate]. intros _. simpl. repeat split; try lia.
Qed.
Definition mkset (ls : list range) : mset := fst (minsertAll [] ls).
(** An array view: A[10][10] of 4-byte elements. *)
Definition v2 : views := fun _ => (4, [10; 10]).
Lemma v2_ok : viewsOk v2.
Proof.
  intros p. unfold v2, viewOk. cbn [fst snd]. split; [lia|]. split; [lia|]. constructor; [lia|constructor].
Qed.

Example C05_nonvacuous :
  viewsOk v1 /\ setOk v1 (mkset [bytes 1 0 4; bytes 1 8 12; bytes 2 0 4]) /\ locOk v1 1 (bytes 1 4 8) /\
  mkset [bytes 1 0 4; bytes 1 8 12; bytes 2 0 4] =
    [(Some 1%nat, [bytes 1 0 4; bytes 1 8 12]); (Some 2%nat, [bytes 2 0 4])] /\
  msInsert (mkset [bytes 1 0 4; bytes 1 8 12; bytes 2 0 4]) (bytes 1 4 8) =
    [(Some 1%nat, [bytes 1 0 8; bytes 1 8 12]); (Some 2%nat, [bytes 2 0 4])].
Proof.
  split; [exact v1_ok|]. split; [|split; [apply bytes_ok; lia|split; reflexivity]].
  apply C05_history; [exact v1_ok|].
  repeat apply Forall_cons; try apply Forall_nil; eexists; apply bytes_ok; lia.
Qed.
(** Sections: A[0:3][0:9] and A[4:5][0:9] become A[0:5][0:9]. *)
Definition secA := section 1 4 [mkDim 0 1 4 10; mkDim 0 1 10 10].
Definition secB := section 1 4 [mkDim 4 1 2 10; mkDim 0 1 10 10].
Lemma secA_ok : locOk v2 1 secA.
Proof. split; [reflexivity|discriminate|]. intros _. unfold secA. cbn [rDims rNonCollapsable rLo rHi section]. conj. Qed.
Lemma secB_ok : locOk v2 1 secB.
Proof. split; [reflexivity|discriminate|]. intros _. unfold secB. cbn [rDims rNonCollapsable rLo rHi section]. conj. Qed.
Example C05_sections :
  locOk v2 1 secA /\ locOk v2 1 secB /\
  mkset [secA; secB] = [(Some 1%nat, [section 1 4 [mkDim 0 1 6 10; mkDim 0 1 10 10]])].
Proof. split; [exact secA_ok|]. split; [exact secB_ok|]. reflexivity. Qed.

(** Missing for the full statement: the flag may be true although no byte is
    new.  [0,10), [8,12) and then [9,12): the location joins [0,10) again. *)
Theorem C05_flag_exact_refuted :
  exists s Loc, setOk v1 s /\ locOk v1 1 Loc /\ msInsertFlag s Loc = true /\
    forall q b, setCovers (msInsert s Loc) q b -> setCovers s q b.
Proof.
  exists [(Some 1%nat, [bytes 1 0 10; bytes 1 8 12])], (bytes 1 9 12).
  split.
  { split; [constructor; [simpl; tauto|constructor]|]. intros q l [[= <- <-]|[]]. exists 1%nat.
    repeat split; [discriminate|]. repeat apply Forall_cons; try apply Forall_nil; apply bytes_ok; lia. }
  split; [apply bytes_ok; lia|]. split; [reflexivity|].
  intros q b (l & r & [[= <- <-]|[]] & H1 & H2).
  vm_compute in H1. destruct H1 as [<-|[<-|[]]]; unfold covers in H2; simpl in H2.
  - destruct (Z_lt_le_dec b 10).
    + exists [bytes 1 0 10; bytes 1 8 12], (bytes 1 0 10). simpl. unfold covers. simpl. repeat split; auto; lia.
    + exists [bytes 1 0 10; bytes 1 8 12], (bytes 1 8 12). simpl. unfold covers. simpl. repeat split; auto; lia.
  - exists [bytes 1 0 10; bytes 1 8 12], (bytes 1 8 12). simpl. unfold covers. simpl. repeat split; auto; lia.
Qed.
Print Assumptions C05_flag_exact_refuted.
(** The set of this example is reachable. *)
Example C05_flag_exact_reachable :
  mkset [bytes 1 0 6; bytes 1 8 12; bytes 1 5 10] = [(Some 1%nat, [bytes 1 0 10; bytes 1 8 12])].
Proof. reflexivity. Qed.

(** The iterator returned by an insertion refers to the last location, not to
    the inserted one: [8,12) and then [0,4), which is put first. *)
Theorem C05_iterator_refuted :
  exists s Loc, built v1 s /\ locOk v1 1 Loc /\
    let '(s', _, i) := minsert s Loc in
    exists l x, mfind (rPtr Loc) s' = Some l /\ nth_error l i = Some x /\
      forall b, covers x b -> ~ covers Loc b.
Proof.
  exists (mkset [bytes 1 8 12]), (bytes 1 0 4).
  split; [apply (built_insert v1 [] 1%nat (bytes 1 8 12)); [constructor|apply bytes_ok; lia]|].
  split; [apply bytes_ok; lia|]. vm_compute minsert.
  eexists _, (bytes 1 8 12). split; [reflexivity|]. split; [reflexivity|].
  intros b. unfold covers; simpl. lia.
Qed.
Print Assumptions C05_iterator_refuted.

(** Copying re-inserts all locations; no byte changes. *)
Theorem C05_copy :
  forall v s, viewsOk v -> setOk v s ->
  forall q b, setCovers (mkset (allLocs s)) q b <-> setCovers s q b.
Proof.
  intros v s Hv Hs q b. destruct (C05_history v (allLocs s) Hv (allLocs_ok v s Hs)) as [_ H].
  rewrite (allLocs_covers v s q b Hs). apply H.
Qed.
Print Assumptions C05_copy.

(** ** C06: queries *)
Theorem C06_contain :
  forall dio v s p Loc, dioSpec dio -> viewsOk v -> setOk v s -> locOk v p Loc ->
  contain dio s Loc = true -> forall b, covers Loc b -> setCovers s p b.
Proof. intros dio v s p Loc Hd Hv. exact (contain_ok dio Hd v Hv s p Loc). Qed.
Print Assumptions C06_contain.
Theorem C06_no_overlap :
  forall dio v s p Loc, dioSpec dio -> viewsOk v -> setOk v s -> locOk v p Loc ->
  overlap dio s Loc = false -> forall b, covers Loc b -> ~ setCovers s p b.
Proof. intros dio v s p Loc Hd Hv. exact (overlap_ok dio Hd v Hv s p Loc). Qed.
Print Assumptions C06_no_overlap.
(** findCoveredBy: all reported parts lie in the location and in the set. *)
Theorem C06_covered_parts_partial :
  forall dio v s p Loc, dioSpec dio -> viewsOk v -> setOk v s -> locOk v p Loc ->
  forall r b, In r (snd (findCoveredBy dio s Loc)) -> covers r b -> covers Loc b /\ setCovers s p b.
Proof.
  intros dio v s p Loc Hd Hv Hs HL r b. unfold findCoveredBy. rewrite (sh_ptr _ _ _ _ HL).
  destruct (mfind (Some p) s) as [l|] eqn:Ef; simpl; [|tauto]. intros Hr Hb.
  destruct (proj2 Hs _ _ (mfind_In _ _ _ Ef)) as (p' & E & _ & Hl). injection E as <-.
  destruct (coveredList_ok dio Hd v Hv p l Loc Hl HL) as (_ & B & _).
  destruct (B b) as [B1 B2]; [exists r; auto|]. split; [auto|].
  apply (setCovers_mfind v); auto. exists l; auto.
Qed.
Print Assumptions C06_covered_parts_partial.
Definition exS := mkset [bytes 1 0 6; bytes 1 10 20; bytes 1 4 10].
Example C06_nonvacuous :
  setOk v1 exS /\ locOk v1 1 (bytes 1 2 18) /\ contain dioInst exS (bytes 1 2 18) = true /\
  contain dioInst exS (bytes 1 2 21) = false /\ overlap dioInst exS (bytes 1 20 24) = false /\
  exS = [(Some 1%nat, [bytes 1 0 10; bytes 1 10 20])].
Proof.
  split; [|split; [apply bytes_ok; lia|repeat split]].
  apply C05_history; [exact v1_ok|].
  repeat apply Forall_cons; try apply Forall_nil; eexists; apply bytes_ok; lia.
Qed.
Example C06_sections :
  locOk v2 1 secA /\ contain dioInst (mkset [secA]) (section 1 4 [mkDim 1 2 2 10; mkDim 3 1 2 10]) = true /\
  contain dioInst (mkset [secA]) (section 1 4 [mkDim 1 2 3 10; mkDim 3 1 2 10]) = false /\
  contain dioInst (mkset [secA]) (bytes 1 0 160) = true.
Proof. split; [exact secA_ok|]. repeat split. Qed.
(** 'cover' does not mean that an element of the set is contained in the
    location: [0,8) and [4,12). *)
Theorem C06_cover_refuted :
  exists s Loc, built v1 s /\ locOk v1 1 Loc /\ cover dioInst s Loc = true /\
    forall r, In r (allLocs s) -> exists b, covers r b /\ ~ covers Loc b.
Proof.
  exists (mkset [bytes 1 0 8]), (bytes 1 4 12).
  split; [apply (built_insert v1 [] 1%nat (bytes 1 0 8)); [constructor|apply bytes_ok; lia]|].
  split; [apply bytes_ok; lia|]. split; [reflexivity|].
  intros r [<-|[]]. exists 0. unfold covers; simpl. lia.
Qed.
Print Assumptions C06_cover_refuted.

(** ** C07: subtraction *)

(** No byte that is not in the set is lost and no byte is invented; an
    untouched result means that the set has no byte of the object. *)
Theorem C07_subtract_bounds :
  forall dio v s p Loc, dioSpec dio -> viewsOk v -> setOk v s -> locOk v p Loc ->
  match subtractFrom dio s Loc with
  | (_, None) => forall b, ~ setCovers s p b
  | (_, Some N) =>
      (forall b, coversAny N b -> covers Loc b) /\
      (forall b, covers Loc b -> ~ setCovers s p b -> coversAny N b)
  end.
Proof.
  intros dio v s p Loc Hd Hv Hs HL. pose proof (subtractFrom_ok dio Hd v Hv s p Loc Hs HL) as H.
  destruct (subtractFrom dio s Loc) as [h [N|]]; [tauto|exact H].
Qed.
Print Assumptions C07_subtract_bounds.
(** Exact for byte ranges with known bounds ... *)
Theorem C07_subtract_bytes_partial :
  forall dio v s p Loc, dioSpec dio -> viewsOk v -> setOk v s -> locOk v p Loc ->
  (forall l, In (Some p, l) s -> Forall knownBytes l) -> knownBytes Loc ->
  match subtractFrom dio s Loc with
  | (false, _) => forall b, covers Loc b -> ~ setCovers s p b
  | (true, None) => False
  | (true, Some N) => forall b, coversAny N b <-> covers Loc b /\ ~ setCovers s p b
  end.
Proof.
  intros dio v s p Loc Hd Hv Hs HL HK HKL.
  exact (subtractFrom_exact dio Hd v Hv s p Loc knownBytes Hs HL (knownBytes_decided dio) HK HKL).
Qed.
Print Assumptions C07_subtract_bytes_partial.
(** ... and for sections with unit steps. *)
Theorem C07_subtract_sections_partial :
  forall dio v s p Loc sz, dioSpec dio -> viewsOk v -> setOk v s -> locOk v p Loc ->
  (forall l, In (Some p, l) s -> Forall (dense sz) l) -> dense sz Loc ->
  match subtractFrom dio s Loc with
  | (false, _) => forall b, covers Loc b -> ~ setCovers s p b
  | (true, None) => False
  | (true, Some N) => forall b, coversAny N b <-> covers Loc b /\ ~ setCovers s p b
  end.
Proof.
  intros dio v s p Loc sz Hd Hv Hs HL HK HKL.
  exact (subtractFrom_exact dio Hd v Hv s p Loc (dense sz) Hs HL (dense_decided dio Hd sz) HK HKL).
Qed.
Print Assumptions C07_subtract_sections_partial.
Example C07_nonvacuous :
  knownBytes (bytes 1 2 30) /\
  subtractFrom dioInst (mkset [bytes 1 4 6; bytes 1 10 20]) (bytes 1 2 30) =
    (true, Some [bytes 1 2 4; bytes 1 6 10; bytes 1 20 30]) /\
  subtractFrom dioInst (mkset [bytes 1 4 6; bytes 1 10 20]) (bytes 1 6 10) = (false, Some [bytes 1 6 10]) /\
  dense [10; 10] secA /\
  subtractFrom dioInst (mkset [secA]) (section 1 4 [mkDim 2 1 4 10; mkDim 3 1 2 10]) =
    (true, Some [section 1 4 [mkDim 4 1 2 10; mkDim 3 1 2 10]]).
Proof. repeat split; repeat constructor. Qed.
(** Missing: an unknown size.  The location [0, 8) overlaps the set {[4, ...)},
    the answer is 'false' and no byte is removed. *)
Definition unkn (p : nat) (lo : Z) : range :=
  mkRange (Some p) (precise lo) SAfter [] TEmpty false false false.
Theorem C07_unknown_size_refuted :
  exists s Loc N b, built v1 s /\ locOk v1 1 Loc /\
    subtractFrom dioInst s Loc = (false, Some N) /\
    covers Loc b /\ setCovers s 1 b /\ coversAny N b.
Proof.
  exists (mkset [unkn 1 4]), (bytes 1 0 8), [bytes 1 0 8], 5.
  split; [apply (built_insert v1 [] 1%nat (unkn 1 4)); [constructor|]|].
  { split; [reflexivity| |discriminate]. intros _. simpl. repeat split; try lia; discriminate. }
  split; [apply bytes_ok; lia|]. split; [reflexivity|]. split; [unfold covers; simpl; lia|].
  split.
  - exists [unkn 1 4], (unkn 1 4). unfold covers; simpl. repeat split; auto; lia.
  - exists (bytes 1 0 8). unfold covers; simpl. repeat split; auto; lia.
Qed.
Print Assumptions C07_unknown_size_refuted.

(** ** C08: merge and intersection *)
Theorem C08_merge :
  forall v s With, viewsOk v -> setOk v s -> setOk v With ->
  let '(s', ch) := mmerge s With in
  setOk v s' /\ (forall q b, setCovers s' q b <-> setCovers s q b \/ setCovers With q b) /\
  (ch = false -> forall q b, setCovers s' q b <-> setCovers s q b).
Proof. exact mmerge_ok. Qed.
Print Assumptions C08_merge.
Theorem C08_intersect_subset :
  forall dio v s With, dioSpec dio -> viewsOk v -> setOk v s -> setOk v With ->
  let s' := fst (mintersect dio s With) in
  setOk v s' /\ forall q b, setCovers s' q b -> setCovers s q b /\ setCovers With q b.
Proof.
  intros dio v s With Hd Hv Hs HW. destruct (mintersect_ok dio Hd v Hv s With Hs HW) as (A & B & _).
  split; auto.
Qed.
Print Assumptions C08_intersect_subset.
(** The intersection is exact if all locations of an object are byte ranges
    with known bounds, or all of them are sections. *)
Theorem C08_intersect_exact_partial :
  forall dio v s With, dioSpec dio -> viewsOk v -> setOk v s -> setOk v With ->
  (forall q, (forall l r, In (q, l) s \/ In (q, l) With -> In r l -> knownBytes r) \/
             (forall l r, In (q, l) s \/ In (q, l) With -> In r l -> rCollapsed r = true)) ->
  forall q b, setCovers (fst (mintersect dio s With)) q b <-> setCovers s q b /\ setCovers With q b.
Proof.
  intros dio v s With Hd Hv Hs HW Hk. destruct (mintersect_ok dio Hd v Hv s With Hs HW) as (_ & _ & C).
  apply C. intros q l l' c c' H1 H2 H3 H4. destruct (Hk q) as [K|K].
  - apply (knownBytes_inter dio); [apply (K l)|apply (K l')]; auto.
  - assert (K1 : rCollapsed c = true) by (apply (K l); auto).
    assert (K2 : rCollapsed c' = true) by (apply (K l'); auto).
    destruct (proj2 HW _ _ H1) as (p & -> & _ & Hl). destruct (proj2 Hs _ _ H2) as (p' & E & _ & Hl').
    injection E as <-. rewrite Forall_forall in Hl, Hl'.
    apply C12_sections_decided; auto.
    destruct (sh_coll _ _ _ _ (Hl c H3) K1) as (_ & _ & _ & _ & S1 & _).
    destruct (sh_coll _ _ _ _ (Hl' c' H4) K2) as (_ & _ & _ & _ & S2 & _). congruence.
Qed.
Print Assumptions C08_intersect_exact_partial.
Example C08_nonvacuous :
  fst (mintersect dioInst (mkset [bytes 1 0 10; bytes 2 0 4]) (mkset [bytes 1 4 6; bytes 1 8 12])) =
    [(Some 1%nat, [bytes 1 4 6; bytes 1 8 10])] /\
  mmerge (mkset [bytes 1 0 10]) (mkset [bytes 1 4 6; bytes 2 8 12]) =
    ([(Some 1%nat, [bytes 1 0 10]); (Some 2%nat, [bytes 2 8 12])], true) /\
  fst (mintersect dioInst (mkset [secA]) (mkset [section 1 4 [mkDim 0 2 5 10; mkDim 3 1 2 10]])) =
    [(Some 1%nat, [section 1 4 [mkDim 0 2 2 10; mkDim 3 1 2 10]])].
Proof. repeat split. Qed.
(** The flag of the intersection does not tell whether the set changed: all
    bytes disappear and it is false. *)
Theorem C08_intersect_flag_refuted :
  exists s With, built v1 s /\ built v1 With /\ snd (mintersect dioInst s With) = false /\
     exists b, setCovers s 1 b /\ ~ setCovers (fst (mintersect dioInst s With)) 1 b.
Proof.
  exists (mkset [bytes 1 0 8]), (mkset [bytes 1 8 12]).
  split; [apply (built_insert v1 [] 1%nat (bytes 1 0 8)); [constructor|apply bytes_ok; lia]|].
  split; [apply (built_insert v1 [] 1%nat (bytes 1 8 12)); [constructor|apply bytes_ok; lia]|].
  split; [reflexivity|]. exists 0. split.
  - exists [bytes 1 0 8], (bytes 1 0 8). unfold covers; simpl. repeat split; auto; lia.
  - intros (l & r & [] & _).
Qed.
Print Assumptions C08_intersect_flag_refuted.
(** An unknown size may empty the intersection: {[4, ...)} with itself
    shifted, the common bytes are lost. *)
Theorem C08_intersect_unknown_refuted :
  exists s With b, built v1 s /\ built v1 With /\ setCovers s 1 b /\ setCovers With 1 b /\
    ~ setCovers (fst (mintersect dioInst s With)) 1 b.
Proof.
  exists (mkset [bytes 1 0 8]), (mkset [unkn 1 4]), 5.
  split; [apply (built_insert v1 [] 1%nat (bytes 1 0 8)); [constructor|apply bytes_ok; lia]|].
  split; [apply (built_insert v1 [] 1%nat (unkn 1 4)); [constructor|]|].
  { split; [reflexivity| |discriminate]. intros _. simpl. repeat split; try lia; discriminate. }
  split; [exists [bytes 1 0 8], (bytes 1 0 8); unfold covers; simpl; repeat split; auto; lia|].
  split; [exists [unkn 1 4], (unkn 1 4); unfold covers; simpl; repeat split; auto; lia|].
  intros (l & r & [] & _).
Qed.
Print Assumptions C08_intersect_unknown_refuted.
(** difference: the locations that do not overlap the second set; all bytes of
    the result are old or are not in the second set. *)
Theorem C08_difference :
  forall dio v ls s R, dioSpec dio -> viewsOk v -> setOk v s -> setOk v R ->
  Forall (fun r => exists p, locOk v p r) ls ->
  forall q b, setCovers (mdifference dio ls s R) q b ->
    setCovers R q b \/
    (~ setCovers s q b /\ exists r, In r ls /\ rPtr r = Some q /\ covers r b).
Proof.
  intros dio v ls s R Hd Hv Hs HR Hl q b. unfold mdifference.
  assert (G : forall ls', (forall r, In r ls' -> In r ls /\ overlap dio s r = false) ->
     setCovers (fst (minsertAll R ls')) q b -> setCovers R q b \/
     (~ setCovers s q b /\ exists r, In r ls /\ rPtr r = Some q /\ covers r b)).
  { intros ls' Hin. assert (Hl' : Forall (fun r => exists p, locOk v p r) ls').
    { rewrite Forall_forall in *. intros r Hr. apply Hl. apply Hin; auto. }
    pose proof (minsertAll_ok v Hv ls' R HR Hl') as H. destruct (minsertAll R ls') as [s' c].
    destruct H as (_ & H & _). simpl. rewrite H. intros [H1|(r & H1 & H2 & H3)]; [auto|right].
    destruct (Hin r H1) as [H4 H5]. split; [|exists r; auto].
    rewrite Forall_forall in Hl'. destruct (Hl' r H1) as [p Hp].
    pose proof (sh_ptr _ _ _ _ Hp). assert (p = q) by congruence. subst p.
    exact (overlap_ok dio Hd v Hv s q r Hs Hp H5 b H3). }
  destruct s as [|x s].
  - apply G. intros r Hr. auto.
  - apply G. intros r Hr. apply filter_In in Hr. destruct Hr as [H1 H2].
    split; [auto|]. apply negb_true_iff in H2. auto.
Qed.
Print Assumptions C08_difference.
Example C08_difference_example :
  mdifference dioInst [bytes 1 0 4; bytes 1 6 10; bytes 2 0 4] (mkset [bytes 1 4 8]) [] =
    [(Some 1%nat, [bytes 1 0 4]); (Some 2%nat, [bytes 2 0 4])].
Proof. reflexivity. Qed.

(** ** C09: equality *)
Theorem C09_equal_bytes_partial :
  forall v a b, setOk v a -> setOk v b ->
  (forall r, In r (allLocs a) \/ In r (allLocs b) -> rCollapsed r = false) ->
  mset_eqb a b = true -> forall q x, setCovers a q x <-> setCovers b q x.
Proof. exact mset_eqb_ok. Qed.
Print Assumptions C09_equal_bytes_partial.
Theorem C09_reflexive : forall v s, setOk v s -> mset_eqb s s = true.
Proof. exact mset_eqb_refl. Qed.
Print Assumptions C09_reflexive.
(** Overlapping neighbours do not matter. *)
Example C09_nonvacuous :
  let a := mkset [bytes 1 0 6; bytes 1 8 12; bytes 1 4 10; bytes 2 0 4] in
  let b := mkset [bytes 1 0 12; bytes 2 0 4] in
  a = [(Some 1%nat, [bytes 1 0 10; bytes 1 8 12]); (Some 2%nat, [bytes 2 0 4])] /\
  mset_eqb a b = true /\ mset_eqb b a = true /\ mset_eqb a (mkset [bytes 1 0 12; bytes 3 0 4]) = false.
Proof. repeat split. Qed.
(** Equal bytes do not imply equality: adjacent locations are joined in one
    order of insertions and are not in another one. *)
Theorem C09_order_of_insertions_refuted :
  exists l1 l2, (forall r, In r l1 <-> In r l2) /\ Forall (locOk v1 1) l1 /\
    (forall q x, setCovers (mkset l1) q x <-> setCovers (mkset l2) q x) /\
    mset_eqb (mkset l1) (mkset l2) = false.
Proof.
  set (l1 := [bytes 1 0 4; bytes 1 8 12; bytes 1 4 8]). set (l2 := [bytes 1 0 4; bytes 1 4 8; bytes 1 8 12]).
  exists l1, l2.
  assert (A : forall r, In r l1 <-> In r l2) by (intros r; simpl; tauto).
  assert (B : Forall (locOk v1 1) l1) by (repeat apply Forall_cons; try apply Forall_nil; apply bytes_ok; lia).
  assert (B' : Forall (locOk v1 1) l2) by (repeat apply Forall_cons; try apply Forall_nil; apply bytes_ok; lia).
  split; [exact A|]. split; [exact B|]. split; [|reflexivity].
  assert (X : forall l, Forall (locOk v1 1) l -> Forall (fun r => exists p, locOk v1 p r) l)
    by (intros l; apply Forall_impl; intros; eauto).
  intros q x. destruct (C05_history v1 l1 v1_ok (X _ B)) as [_ H1].
  destruct (C05_history v1 l2 v1_ok (X _ B')) as [_ H2].
  unfold mkset. rewrite H1, H2. split; intros (r & R1 & R2); exists r; split; auto; apply A; auto.
Qed.
Print Assumptions C09_order_of_insertions_refuted.
(** Equality of sets of sections looks at the first section only. *)
Theorem C09_sections_refuted :
  exists a b x, built v2 a /\ built v2 b /\ mset_eqb a b = true /\
    setCovers a 1 x /\ ~ setCovers b 1 x.
Proof.
  exists (mkset [section 1 4 [mkDim 0 1 1 10; mkDim 0 1 1 10]; section 1 4 [mkDim 5 1 1 10; mkDim 5 1 1 10]]),
         (mkset [section 1 4 [mkDim 0 1 1 10; mkDim 0 1 1 10]]), 220.
  set (r1 := section 1 4 [mkDim 0 1 1 10; mkDim 0 1 1 10]). set (r2 := section 1 4 [mkDim 5 1 1 10; mkDim 5 1 1 10]).
  assert (O1 : locOk v2 1 r1).
  { split; [reflexivity|discriminate|]. intros _. unfold r1. cbn [rDims rNonCollapsable rLo rHi section]. conj. }
  assert (O2 : locOk v2 1 r2).
  { split; [reflexivity|discriminate|]. intros _. unfold r2. cbn [rDims rNonCollapsable rLo rHi section]. conj. }
  split; [exact (built_insert v2 _ 1%nat r2 (built_insert v2 _ 1%nat r1 (built_empty v2) O1) O2)|].
  split; [exact (built_insert v2 _ 1%nat r1 (built_empty v2) O1)|].
  split; [reflexivity|]. split.
  - exists [r1; r2], r2. split; [left; reflexivity|]. split; [simpl; auto|].
    exists [5; 5], 0. split; [|cbn; lia].
    apply Forall2_cons; [exists 0; cbn; lia|]. apply Forall2_cons; [exists 0; cbn; lia|constructor].
  - intros (l & r & Hl & Hr & Hc). vm_compute in Hl. destruct Hl as [Hl|[]]. injection Hl as <-.
    destruct Hr as [<-|[]]. destruct Hc as (idx & k & K1 & K2 & K3).
    inversion K1 as [|? i ? l0 (t & T1 & ->) L1]; subst. inversion L1 as [|? i ? l2 (t' & T2 & ->) L2]; subst.
    inversion L2; subst. cbn in T1, T2.
    assert (t = 0) by lia. assert (t' = 0) by lia. subst t t'. cbn in K2, K3. lia.
Qed.
Print Assumptions C09_sections_refuted.
