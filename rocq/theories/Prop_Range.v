(** Properties C11-C13: memory ranges.  Vocabulary: RangeSpec.v. *)
From Coq Require Import ZArith Bool List Lia.
From Verif Require Import RangeModel RangeSpec RangeProof RangeBytes RangeDio.
Import ListNotations.
Open Scope Z_scope.

(** ** C11: intersection of byte ranges. *)

(** A byte range of the object [p]: the lower bound is known, the upper bound
    may be unknown. *)
Definition byteRange (p : nat) (r : range) : Prop :=
  rPtr r = Some p /\ rCollapsed r = false /\ rDims r = [] /\
  hasValue (rLo r) = true /\ 0 <= getValue (rLo r) < 2 ^ 64 /\
  (hasValue (rHi r) = true -> getValue (rLo r) <= getValue (rHi r) < 2 ^ 64).
Lemma byteRange_shape p r : byteRange p r -> shapeOk p 1 [] r.
Proof.
  intros (A & B & C & D & E & F). split; [auto| |congruence].
  intros _. repeat split; auto; try lia; try (apply F; auto). simpl. lia.
Qed.
Lemma byteRange_scalar dio L R wl wr Th p : byteRange p L -> byteRange p R ->
  intersectRanges dio L R wl wr Th = intersectScalar L R wl wr.
Proof.
  intros (A & B & _) (A' & B' & _). unfold intersectRanges.
  rewrite A, A'. simpl. rewrite Nat.eqb_refl. simpl.
  rewrite B, B'. simpl. rewrite !andb_false_r. rewrite B. simpl. rewrite !andb_false_r, B'. reflexivity.
Qed.

(** The answer for two byte ranges of an object: the common bytes, the bytes of
    one operand only, 'empty' only if there is no common byte. *)
Theorem C11_byte_ranges :
  forall dio p L R wl wr Th, byteRange p L -> byteRange p R ->
  match intersectRanges dio L R wl wr Th with
  | (INone, LC, RC) => LC = [] /\ RC = [] /\ forall b, ~ (covers L b /\ covers R b)
  | (IMaybe, LC, RC) => LC = [] /\ RC = [] /\
       (hasValue (rHi L) = false \/ hasValue (rHi R) = false)
  | (IExact r, LC, RC) =>
      rPtr r = Some p /\
      (forall b, covers r b <-> covers L b /\ covers R b) /\
      (wl = true -> forall b, coversAny LC b <-> covers L b /\ ~ covers R b) /\
      (wr = true -> forall b, coversAny RC b <-> covers R b /\ ~ covers L b) /\
      (wl = false -> LC = []) /\ (wr = false -> RC = [])
  end.
Proof.
  intros dio p L R wl wr Th HL HR. rewrite (byteRange_scalar dio L R wl wr Th p HL HR).
  pose proof (intersectScalar_ok p 1 [] L R wl wr (byteRange_shape _ _ HL) (proj1 (proj2 HL))
     (byteRange_shape _ _ HR) (proj1 (proj2 HR))) as H.
  destruct HL as (A & B & C & D & E & F), HR as (A' & B' & C' & D' & E' & F').
  destruct (intersectScalar L R wl wr) as [[res LC] RC] eqn:Er.
  unfold intersectScalar in Er. rewrite A, A', D, D' in Er. simpl in Er. rewrite Nat.eqb_refl in Er. simpl in Er.
  simpl in H. destruct H as (_ & _ & _ & _ & H).
  destruct (hasValue (rHi L)) eqn:VL, (hasValue (rHi R)) eqn:VR; simpl in Er;
    repeat match type of Er with
    | context [if ?c then (INone, _, _) else _] => destruct c
    | context [if ?c then (IExact _, _, _) else _] => destruct c
    end; inversion Er; subst; auto;
    try (split; [auto|split; [auto|]]; intros b [H1 H2]; eapply H; eauto; fail).
  destruct H as (H1 & H2 & H3 & H4).
  split; [exact A|]. split; [exact H2|]. split; [exact H3|]. split; [exact H4|].
  split; intros ->; reflexivity.
Qed.
Print Assumptions C11_byte_ranges.

Definition bytes (p : nat) (lo hi : Z) : range :=
  mkRange (Some p) (precise lo) (precise hi) [] TEmpty false false false.
Example C11_nonvacuous : byteRange 1 (bytes 1 0 8) /\ byteRange 1 (bytes 1 4 12) /\
  intersectRanges dioInst (bytes 1 0 8) (bytes 1 4 12) true true 10 =
    (IExact (bytes 1 4 8), [bytes 1 0 4], [bytes 1 8 12]) /\
  intersectRanges dioInst (bytes 1 0 8) (bytes 1 8 12) true true 10 = (INone, [], []) /\
  fst (fst (intersectRanges dioInst (bytes 1 0 8)
     (mkRange (Some 1%nat) (precise 4) SAfter [] TEmpty false false false) true true 10)) = IMaybe.
Proof. repeat split; simpl; lia. Qed.

(** Ranges of different objects do not intersect. *)
Theorem C11_other_object :
  forall dio L R wl wr Th, rPtr L <> rPtr R -> intersectRanges dio L R wl wr Th = (INone, [], []).
Proof.
  intros dio L R wl wr Th H. unfold intersectRanges.
  destruct (ptr_eqb (rPtr L) (rPtr R)) eqn:E; [|reflexivity]. exfalso. apply H.
  destruct (rPtr L), (rPtr R); simpl in E; try discriminate; auto. apply Nat.eqb_eq in E. congruence.
Qed.
Print Assumptions C11_other_object.

(** ** C12: intersection of array sections. *)

(** In terms of index tuples.  The solver of the equations is any solver that
    finds all solutions. *)
Theorem C12_sections_indices :
  forall dio, dioSpec dio ->
  forall L R wl wr Th,
  rCollapsed L = true -> rCollapsed R = true -> rPtr L = rPtr R ->
  Forall dimOk (rDims L) -> Forall dimOk (rDims R) ->
  indexPost (rDims L) (rDims R) wl wr (intersectRanges dio L R wl wr Th).
Proof.
  intros dio Hdio L R wl wr Th EL ER Ep HL HR. unfold intersectRanges. rewrite Ep.
  replace (ptr_eqb (rPtr R) (rPtr R)) with true by (destruct (rPtr R); simpl; rewrite ?Nat.eqb_refl; reflexivity).
  rewrite EL, ER. simpl. rewrite EL, ER. simpl.
  assert (Hm : indexPost (rDims L) (rDims R) wl wr (IMaybe, [], [])).
  { split; [intros idx (r & [] & _)|]. split; [intros idx (r & [] & _)|exact I]. }
  destruct (Nat.eqb_spec (length (rDims L)) (length (rDims R))) as [Hlen|]; simpl; [|exact Hm].
  destruct (lsize_eqb _ _ && lsize_eqb _ _ && _) eqn:Eq.
  { apply andb_true_iff in Eq. destruct Eq as [_ Eq]. apply dims_eqb_eq in Eq. rewrite Eq.
    split; [intros idx (r & [] & _)|]. split; [intros idx (r & [] & _)|].
    split; [rewrite Eq; tauto|]. split; intros _ idx; (split; [intros (r & [] & _)|tauto]). }
  pose proof (interLoop_ok dio Hdio L R wl wr Th HL HR (rDims L) (rDims R) [] [] [] [] []
     eq_refl eq_refl eq_refl Hlen) as HI.
  cbn [length rev] in HI.
  assert (Hpost : loopPost L R wl wr (interLoop dio L R wl wr Th 0 (rDims L) (rDims R) [] [] [])).
  { apply HI.
    - split; [reflexivity|]. split; [constructor|]. split; [reflexivity|]. split; [constructor|].
      intros i1. tauto.
    - unfold sideInv. destruct wl; [|reflexivity]. split; [|constructor].
      intros idx. unfold idxAny. simpl. split; [intros (r & [] & _)|].
      intros [_ H]. exfalso. apply H. constructor.
    - unfold sideInv. destruct wr; [|reflexivity]. split; [|constructor].
      intros idx. unfold idxAny. simpl. split; [intros (r & [] & _)|].
      intros [_ H]. exfalso. apply H. constructor. }
  destruct (interLoop _ _ _ _ _ _ _ _ _ _ _ _) as [[res LC] RC].
  destruct Hpost as (_ & _ & P3 & P4 & P5). split; [exact P3|]. split; [exact P4|].
  destruct res; [exact P5|exact I|]. exact (proj2 P5).
Qed.
Print Assumptions C12_sections_indices.

(** If no complement is asked for and the sizes of dimensions agree then the
    answer is never 'unknown'. *)
Lemma interLoop_known dio L R Th : forall ls rs i acc LC RC, map dSize ls = map dSize rs ->
  fst (fst (interLoop dio L R false false Th i ls rs acc LC RC)) <> IMaybe.
Proof.
  induction ls as [|a ls IH]; intros [|b rs] i acc LC RC H; simpl; try discriminate.
  simpl in H. injection H as H1 H2. rewrite H1, Z.eqb_refl. simpl.
  destruct (dimIntersect dio a b); simpl; [|discriminate]. apply IH; auto.
Qed.
Theorem C12_sections_decided :
  forall dio L R Th, rCollapsed L = true -> rCollapsed R = true ->
  map dSize (rDims L) = map dSize (rDims R) ->
  fst (fst (intersectRanges dio L R false false Th)) <> IMaybe.
Proof.
  intros dio L R Th EL ER Hs. unfold intersectRanges.
  destruct (ptr_eqb _ _); simpl; [|discriminate]. rewrite EL, ER. simpl. rewrite EL, ER. simpl.
  rewrite <- (map_length dSize (rDims L)), Hs, map_length, Nat.eqb_refl. simpl.
  destruct (_ && _ && _); [discriminate|]. apply interLoop_known; auto.
Qed.
Print Assumptions C12_sections_decided.

(** In terms of bytes, for sections and byte ranges of an object mixed
    arbitrarily (a byte range is delinearized first). *)
Theorem C12_bytes :
  forall dio, dioSpec dio ->
  forall p E sz L R wl wr Th,
  viewOk E sz -> shapeOk p E sz L -> shapeOk p E sz R ->
  interPost p E sz L R wl wr (intersectRanges dio L R wl wr Th).
Proof. intros dio H p E sz. exact (intersectRanges_ok dio H p E sz). Qed.
Print Assumptions C12_bytes.

Ltac conj := repeat match goal with
  | |- _ /\ _ => split
  | |- Forall _ (rDims _) => apply Forall_forall; intros ? HIn; repeat (destruct HIn as [<-|HIn]); try contradiction
  | |- dimsInside _ => cbn
  | |- dimInside _ => vm_compute
  | |- Forall _ [] => constructor
  | |- Forall _ (_ :: _) => constructor
  | |- dimOk _ => unfold dimOk
  | |- _ -> _ => intros ?
  end; try reflexivity; try discriminate; try (simpl; lia); try (vm_compute; congruence).
Definition section (p : nat) (E : Z) (ds : list dim) : range :=
  mkRange (Some p) (precise 0) (precise E) ds TEmpty false true false.
(** A[0:8:2][0:4] and A[1:7:3][2:9] of A[10][10], 4 bytes an element. *)
Definition exL := section 1 4 [mkDim 0 2 5 10; mkDim 0 1 5 10].
Definition exR := section 1 4 [mkDim 1 3 3 10; mkDim 2 1 8 10].
Example C12_nonvacuous :
  dioSpec dioInst /\ viewOk 4 [10; 10] /\ shapeOk 1 4 [10; 10] exL /\ shapeOk 1 4 [10; 10] exR /\
  Forall dimOk (rDims exL) /\ Forall dimOk (rDims exR) /\
  fst (fst (intersectRanges dioInst exL exR true true 10)) =
    IExact (section 1 4 [mkDim 4 6 1 10; mkDim 2 1 3 10]).
Proof.
  split; [exact dioInst_ok|].
  assert (A : Forall dimOk (rDims exL)) by (unfold exL; cbn [rDims section]; conj).
  assert (B : Forall dimOk (rDims exR)) by (unfold exR; cbn [rDims section]; conj).
  split; [unfold viewOk; conj|].
  split; [split; [reflexivity|discriminate|conj]|].
  split; [split; [reflexivity|discriminate|conj]|].
  split; [exact A|]. split; [exact B|]. reflexivity.
Qed.

(** The header says that the lists of complements do not change if the
    intersection is empty.  They do: A[0:3][0:0] and A[2:5][1:1]. *)
Theorem C12_complement_unchanged_refuted :
  exists L R, Forall dimOk (rDims L) /\ Forall dimOk (rDims R) /\
    rCollapsed L = true /\ rCollapsed R = true /\
    exists LC RC, intersectRanges dioInst L R true true 10 = (INone, LC, RC) /\ LC <> [] /\ RC <> [].
Proof.
  exists (section 1 4 [mkDim 0 1 4 10; mkDim 0 1 1 10]), (section 1 4 [mkDim 2 1 4 10; mkDim 1 1 1 10]).
  split; [cbn [rDims section]; conj|]. split; [cbn [rDims section]; conj|].
  split; [reflexivity|]. split; [reflexivity|].
  eexists _, _. split; [vm_compute; reflexivity|]. split; discriminate.
Qed.
Print Assumptions C12_complement_unchanged_refuted.

(** The element size is not compared: a section of 4-byte elements and a
    section of 8-byte elements with the same indices are said to be an exact
    intersection although the bytes differ. *)
Theorem C12_element_size_refuted :
  exists L R r LC RC, rPtr L = rPtr R /\ rCollapsed L = true /\ rCollapsed R = true /\
    intersectRanges dioInst L R true true 10 = (IExact r, LC, RC) /\
    exists b, covers L b /\ covers R b /\ ~ covers r b.
Proof.
  exists (section 1 4 [mkDim 0 1 4 10]), (section 1 8 [mkDim 0 1 2 10]).
  eexists _, _, _. split; [reflexivity|]. split; [reflexivity|]. split; [reflexivity|].
  split; [vm_compute; reflexivity|]. exists 8. split; [|split].
  - exists [2], 0. split; [|cbn; lia]. apply Forall2_cons; [|constructor]. exists 2. cbn. lia.
  - exists [1], 0. split; [|cbn; lia]. apply Forall2_cons; [|constructor]. exists 1. cbn. lia.
  - intros (idx & k & Hi & Hk & Hb). simpl in Hi. inversion Hi as [|? i ? l (t & Ht & Hd) Hn]; subst.
    inversion Hn; subst. cbn [rDims rHi dStart dStep dTrip dSize section map linear fold_right getValue precise] in *. rewrite ?Z.mul_1_r, ?Z.mul_1_l in *. cbn in Hk, Ht. lia.
Qed.
Print Assumptions C12_element_size_refuted.

(** ** C13: delinearization. *)
Theorem C13_delinearize_partial :
  forall p E sz From What,
  viewOk E sz -> shapeOk p E sz From -> rCollapsed From = true ->
  shapeOk p E sz What -> rCollapsed What = false ->
  forall b, covers (delinearize From What) b <-> covers What b.
Proof. intros p E sz From What A B C D F. exact (proj2 (delinearize_ok p E sz From What A B C D F)). Qed.
Print Assumptions C13_delinearize_partial.

(** A range that covers only a part of two rows stays a byte range, the
    others become sections of the array A[5][10]. *)
Definition exFrom := section 1 4 [mkDim 0 1 5 5; mkDim 0 1 10 10].
Example C13_nonvacuous :
  shapeOk 1 4 [5; 10] exFrom /\ shapeOk 1 4 [5; 10] (bytes 1 40 120) /\
  delinearize exFrom (bytes 1 40 120) = section 1 4 [mkDim 1 1 2 5; mkDim 0 1 10 10] /\
  delinearize exFrom (bytes 1 44 64) = section 1 4 [mkDim 1 1 1 5; mkDim 1 1 5 10] /\
  delinearize exFrom (bytes 1 36 64) = bytes 1 36 64.
Proof.
  split; [split; [reflexivity|discriminate|conj]|].
  split; [split; [reflexivity|conj|discriminate]|].
  repeat split; vm_compute; reflexivity.
Qed.

(** Missing for the full statement: byte ranges beyond the end of the array.
    The index of the first dimension is taken modulo its size, so the bytes
    [16, 24) of A[4] (4 bytes an element) become the elements 0 and 1. *)
Theorem C13_out_of_range_refuted :
  exists E sz From What b,
    viewOk E sz /\ shapeOk 1 E sz From /\ rCollapsed From = true /\ byteRange 1 What /\
    covers (delinearize From What) b /\ ~ covers What b.
Proof.
  exists 4, [4], (section 1 4 [mkDim 0 1 4 4]), (bytes 1 16 24), 0.
  split; [split; [lia|split; [lia|constructor]]|].
  split; [split; [reflexivity|discriminate|conj]|].
  split; [reflexivity|]. split; [repeat split; simpl; lia|].
  split.
  - vm_compute delinearize. exists [0], 0. split; [|cbn; lia].
    apply Forall2_cons; [|constructor]. exists 0. cbn. lia.
  - unfold covers; simpl. lia.
Qed.
Print Assumptions C13_out_of_range_refuted.
