(** C83: arrays with regular dependencies are tied to loops. *)
From Coq Require Import PeanoNat Bool List ZArith Lia.
From Verif Require Import TieModel TieSpec TieProof.
Import ListNotations.

(* A[i][-j + 3] = A[i - 1][-j] + B[k], loops: i is 1, j is 2, an unrelated loop is 9; B is private *)
Definition subs2 : list (option sub) :=
  [Some (Sub 0 (Some [Monom 1 (CConst 1); Monom 9 (CConst 4); Monom 2 (CConst 0)])); Some (Sub 1 (Some [Monom 2 (CConst (-1))]))].
Definition accsA : list access := [Access 5 true subs2; Access 5 true subs2; Access 6 true [Some (Sub 0 None)]].
Definition mapsA : list (nat * mapping) := [(6, []); (5, [])].
Definition mappingA : mapping := [(Some 1, true); (Some 2, false)].
Lemma caseA : tie [1; 2] [6] accsA mapsA = [(6, []); (5, mappingA)].
Proof. reflexivity. Qed.

(** The full statement is C83_tie_claim false false false. *)
Theorem C83_tie_partial : C83_tie_claim true true true.
Proof. exact tie_true. Qed.
Print Assumptions C83_tie_partial.
Example C83_tie_case : wellFormed accsA /\ NoDup (map fst mapsA) /\
  (forall a b e, toArray 5 accsA a -> toArray 5 accsA b -> loopsAt [1; 2] a e = loopsAt [1; 2] b e) /\
  (forall a e, toArray 5 accsA a -> length (loopsAt [1; 2] a e) <= 1) /\
  (forall a e m, toArray 5 accsA a -> In m (loopsAt [1; 2] a e) -> exists z, mCoef m = CConst z) /\
  In (5, mappingA) (tie [1; 2] [6] accsA mapsA) /\ nth_error mappingA 1 = Some (Some 2, false).
Proof.
  assert (T : forall a, toArray 5 accsA a -> a = Access 5 true subs2).
  { intros a (Ia & E & _). destruct Ia as [<-|[<-|[<-|[]]]]; try reflexivity. discriminate E. }
  split.
  { intros a d s Ia N. destruct Ia as [<-|[<-|[<-|[]]]]; destruct d as [|[|[|d]]]; cbn in N;
      try discriminate N; injection N as <-; reflexivity. }
  split; [repeat constructor; cbn; intuition discriminate|].
  split; [intros a b e Ta Tb; rewrite (T a Ta), (T b Tb); reflexivity|].
  split; [intros a e Ta; rewrite (T a Ta); destruct e as [|[|[|e]]]; cbn; lia|].
  split; [|split; [rewrite caseA; right; left; reflexivity|reflexivity]].
  intros a e m Ta Im. rewrite (T a Ta) in Im. destruct e as [|[|[|e]]]; cbn in Im;
    repeat (destruct Im as [<-|Im]); try destruct Im; eexists; reflexivity.
Qed.
(** A[0] and then A[i]: the last access is used only. *)
Theorem C83_tie_refuted_order : ~ C83_tie_claim false true true.
Proof. exact tie_refuted_same. Qed.
Print Assumptions C83_tie_refuted_order.
(** A[i + j]: the last loop is used. *)
Theorem C83_tie_refuted_sum : ~ C83_tie_claim true false true.
Proof. exact tie_refuted_single. Qed.
Print Assumptions C83_tie_refuted_sum.
(** A[n * i] is tied in the opposite direction. *)
Theorem C83_tie_refuted_symbol : ~ C83_tie_claim true true false.
Proof. exact tie_refuted_const. Qed.
Print Assumptions C83_tie_refuted_symbol.

Theorem C83_found : C83_found_claim.
Proof. exact found_true. Qed.
Print Assumptions C83_found.
Example C83_found_case : In (5, []) mapsA /\ ~ In 5 [6] /\ (exists a, toArray 5 accsA a) /\
  (forall a, toArray 5 accsA a -> loopsAt [1; 2] a 1 <> []) /\ In (5, mappingA) (tie [1; 2] [6] accsA mapsA).
Proof.
  split; [right; left; reflexivity|]. split; [intros [E|[]]; discriminate E|].
  split; [exists (Access 5 true subs2); split; [left; reflexivity|split; reflexivity]|].
  split; [|rewrite caseA; right; left; reflexivity].
  intros a (Ia & E & _). destruct Ia as [<-|[<-|[<-|[]]]]; try (intro Q; discriminate Q). discriminate E.
Qed.

(** The full statement is C83_sanitize_claim false. *)
Theorem C83_sanitize_partial : C83_sanitize_claim true.
Proof. exact sanitize_true. Qed.
Print Assumptions C83_sanitize_partial.
Definition placeT : place :=
  Place [(5, [(true, false); (false, false)])] [(5, mappingA)] [IActual; IRegion; IParallel] [IMarker; IGetActual].
Definition placeU : place :=
  Place [(5, [(true, false); (false, true)])] [(6, []); (5, [(Some 1, true); (None, true)])]
    [IOther 3; IActual; IRegion; IParallel] [IOther 4; IMarker; IGetActual].
Example C83_sanitize_case : created placeT /\ created placeU /\ isUntied placeU /\ ~ isUntied placeT /\
  sanitize [placeT; placeU] = Some [placeT; Place (pAcross placeU) (pMaps placeU) [IOther 3] [IOther 4]].
Proof.
  assert (C : forall p, p = placeT \/ p = placeU -> created p).
  { intros p [-> | -> ]; unfold created, count; cbn.
    - split; [repeat constructor; intros []|]. do 5 (split; [lia|]).
      split; intros x Ix; repeat (destruct Ix as [<-|Ix]; [repeat split; reflexivity|]); destruct Ix.
    - split; [repeat constructor; cbn; intuition discriminate|]. do 5 (split; [lia|]).
      split; intros x Ix; repeat (destruct Ix as [<-|Ix]; [repeat split; reflexivity|]); destruct Ix. }
  split; [apply C; left; reflexivity|]. split; [apply C; right; reflexivity|]. split.
  - exists 5, [(true, false); (false, true)]. split; [left; reflexivity|]. right.
    exists [(Some 1, true); (None, true)], 1, (false, true). split; [right; left; reflexivity|].
    split; [reflexivity|]. split; [discriminate|]. intros l s Q; discriminate Q.
  - split; [|reflexivity]. intros (arr & ds & I1 & H). destruct I1 as [Q|[]]. injection Q as <- <-.
    destruct H as [H|(mp & d & x & [Q|[]] & N & X & M)]; [apply (H mappingA); left; reflexivity|].
    injection Q as <-. destruct d as [|[|[|d]]]; cbn in N; try discriminate N.
    + apply (M 1 true). reflexivity.
    + injection N as <-. apply X. reflexivity.
Qed.
(** A loop outside regions has no directive of a region to be removed. *)
Theorem C83_sanitize_refuted : ~ C83_sanitize_claim false.
Proof. exact sanitize_refuted. Qed.
Print Assumptions C83_sanitize_refuted.
