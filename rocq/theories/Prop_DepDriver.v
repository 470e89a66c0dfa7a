(** Property C49: the answer of the dependence analysis about two accesses.
    If no dependence is reported then no two iterations conflict; reported
    directions and distances cover all the conflicting iterations. *)
From Coq Require Import ZArith Bool List Arith Lia Relations.
From Verif Require Import DepModel DepSpec DepProof MIVModel MIVSpec MIVBanerjeeProof
  DepDriverModel DepDriverSpec DepDriverProof DepPartProof DepDriverTop DepOracle Prop_Dep Prop_MIV.
Import ListNotations.
Local Open Scope Z_scope.

(** Levels of loops of two nests which share [common]. *)
Definition nestLevels (s d common : list loop) : levels :=
  mkLevels (length common) (length s + length common) (length s + length d + length common).

(** ** Partition of subscripts *)
(** Each linear subscript is in exactly one tested group; the groups are exactly the
    classes of subscripts which are connected by common loops; a group is separable
    iff it has one member. *)
Theorem C49_groups : forall Env s d common outDepth, NoDup (s ++ d ++ common) ->
  let lv := nestLevels s d common in
  forall subs : list (subscript Env), wellFormed (s ++ common) (d ++ common) subs ->
  forall l, initPairs Env (s ++ common) (d ++ common) outDepth lv 0 subs = Some l ->
  let pt := partition _ lv (length subs) (asMap _ l) in
  let top SI := ptSep _ pt SI = true \/ ptCpl _ pt SI = true in
  let member SI P := pGroup _ (ptPairs _ pt SI) P = true in
  (forall P Src Dst, nth_error subs P = Some (Linear _ Src Dst) ->
     exists SI, top SI /\ member SI P /\ forall SI', top SI' -> member SI' P -> SI' = SI) /\
  (forall SI, top SI -> exists Src Dst, nth_error subs SI = Some (Linear _ Src Dst)) /\
  (forall SI P, top SI -> (member SI P <-> connected subs SI P)) /\
  (forall SI, ptSep _ pt SI = true -> ptCpl _ pt SI = false /\ forall P, connected subs SI P -> P = SI) /\
  (forall SI, ptCpl _ pt SI = true -> exists P, P <> SI /\ connected subs SI P).
Proof.
  intros Env s d common outDepth ND lv subs WF l EI pt top member.
  destruct (spec s d common outDepth subs l EI) as (S1 & S2 & S3 & S4 & S5 & S6).
  assert (LK : forall SI P, top SI -> (member SI P <-> connected subs SI P)).
  { intros SI P T. eapply iff_trans; [exact (S2 SI P T)|]. exact (linked_iff s d common outDepth ND subs WF l EI SI P). }
  split; [|split; [|split; [|split]]].
  - intros P Src Dst E. destruct (init_linear s d common outDepth subs l EI P Src Dst E) as (LP & X & _).
    apply S1; [exact LP|]. unfold isLinear. now rewrite X.
  - intros SI T. destruct (S3 SI T) as [A B]. apply (isLinear_at s d common outDepth subs l EI SI A). exact B.
  - exact LK.
  - intros SI T. destruct (S4 SI T) as [A B]. split; [exact A|]. intros P C. apply B. apply LK; [now left|exact C].
  - intros SI T. destruct (S5 SI T) as (P & A & B). exists P. split; [exact A|]. apply LK; [now right|exact B].
Qed.
Print Assumptions C49_groups.

(** ** The Delta test ends *)
(** The number of rounds over a coupled group is at most the number of subscripts
    plus one: the bound of the model is never reached, whatever the queries say. *)
Theorem C49_rounds_end : forall Env (Or : oracle Env) (Q : miv Env) same UB Bits srcNest dstNest
    outDepth lv PLI subs,
  testSubscripts _ Or Q same UB Bits srcNest dstNest outDepth lv PLI subs <> OutOfFuel.
Proof. intros. apply testSubscripts_fine. Qed.
Print Assumptions C49_rounds_end.

(** ** Soundness *)
(** The answer is right for a pair of conflicting iterations. *)
Definition rightAnswer {Env} (common : list loop) (r : answer Env) (e : Env) (x y : loop -> Z) : Prop :=
  match r with
  | NoDependence => False
  | Confused => True
  | Full f => rightFor common (fDV _ f) e x y /\
              (fLoopIndependent _ f = false -> carried common x y)
  end.
(** The two accesses may touch the same object. *)
Definition mayTouch (q : query) : Prop :=
  qSrcMemory q = true /\ qDstMemory q = true /\ qAlias q <> NoAlias.
(** Two iterations which are considered: of different instances of the accesses. *)
Definition considered (common : list loop) (q : query) (x y : loop -> Z) : Prop :=
  qSame q = false /\ qPossiblyLoopIndependent q = true \/ carried common x y.

Lemma answer_of_core {Env} (Or : oracle Env) Q same UB Bits s d common outDepth q subs r e (x y : loop -> Z) :
  NoDup (s ++ d ++ common) ->
  depends Or Q same UB Bits (s ++ common) (d ++ common) outDepth q subs = Some r ->
  mayTouch q -> considered common q x y ->
  (forall PLI, PLI = true \/ carried common x y ->
   match testSubscripts _ Or Q same UB Bits (s ++ common) (d ++ common) outDepth (nestLevels s d common) PLI subs with
   | Go f => rightFor common (fDV _ f) e x y /\ (fLoopIndependent _ f = false -> PLI = false \/ carried common x y)
   | Disproved => False
   | _ => True
   end) ->
  rightAnswer common r e x y.
Proof.
  intros ND H (M1 & M2 & M3) C CORE. unfold depends in H. cbv zeta in H. rewrite M1, M2 in H. cbn [negb orb] in H.
  destruct (negb (qSrcSimple q) || negb (qDstSimple q)); [injection H as <-; exact I|].
  destruct (qAlias q); try (injection H as <-; exact I); [now destruct M3|].
  rewrite (establish_ok s d common ND) in H. fold (nestLevels s d common) in H.
  set (PLI := if qSame q then false else qPossiblyLoopIndependent q) in *.
  assert (P : PLI = true \/ carried common x y).
  { destruct C as [[C1 C2]|C]; [left; unfold PLI; now rewrite C1, C2|now right]. }
  specialize (CORE PLI P).
  destruct (testSubscripts _ Or Q same UB Bits (s ++ common) (d ++ common) outDepth (nestLevels s d common) PLI subs) as [| | |f];
    try discriminate; [destruct CORE|]. injection H as <-. destruct CORE as [C1 C2]. split; [exact C1|].
  intro F. destruct (C2 F) as [C3|C3]; [|exact C3]. destruct P as [P|P]; [congruence|exact P].
Qed.

(** The full property is: for all the linear subscripts the answer is right.  Missing:
    premises on numbers ([tameSimple], see C26-C30; the pairs which appear in the
    course of the analysis of coupled subscripts are subject to it too) and on
    recurrences in starts (seEnclosing). *)
Theorem C49_answer_partial : forall Env (Or : oracle Env) (Q : miv Env) same UB Bits,
  soundOracle Or -> soundQueries Q -> soundSame Or same ->
  (forall a b, seEnclosing _ Or a b = true) ->
  (forall recs start L, seInvariantIn _ Q recs start L = true -> ~ In L (map fst recs)) ->
  2 <= Bits ->
  forall s d common outDepth, NoDup (s ++ d ++ common) ->
  forall q subs, wellFormed (s ++ common) (d ++ common) subs ->
  forall r, depends Or Q same UB Bits (s ++ common) (d ++ common) outDepth q subs = Some r ->
  forall e x y m,
  inNest UB e (s ++ common) x -> inNest UB e (d ++ common) y ->
  boundedBy UB m e (s ++ common) x -> boundedBy UB m e (d ++ common) y ->
  (forall Src Dst, In (Linear _ Src Dst) subs -> tameSimple Or Bits m e Src Dst) ->
  (forall u, In u (courseOf Or Q same UB Bits (s ++ common) (d ++ common) outDepth (nestLevels s d common) subs) ->
     tameState Or Bits m e (length subs) u) ->
  mayTouch q -> considered common q x y -> collide e subs x y ->
  rightAnswer common r e x y.
Proof.
  intros Env Or Q same UB Bits SO SQ SS ENC INVQ BITS s d common outDepth ND q subs WF r H e x y m BX BY MX MY TG TC MT CO COL.
  apply (answer_of_core Or Q same UB Bits s d common outDepth q subs r e x y ND H MT CO).
  intros PLI P.
  destruct (initPairs Env (s ++ common) (d ++ common) outDepth (nestLevels s d common) 0 subs) as [l|] eqn:EI.
  2:{ unfold testSubscripts. cbv zeta. rewrite EI. exact I. }
  assert (N1 : forall L, In L (s ++ d ++ common) -> inLoop (UB L) e (normX s common x y L) /\ inLoop (UB L) e (normY d common x y L)).
  { apply (norm_all s d common outDepth (fun L v => inLoop (UB L) e v)); assumption. }
  assert (N2 : forall L, In L (s ++ d ++ common) ->
     (normX s common x y L <= m /\ (forall U, UB L = Some U -> U e <= m)) /\
     (normY d common x y L <= m /\ (forall U, UB L = Some U -> U e <= m))).
  { apply (norm_all s d common outDepth (fun L v => v <= m /\ (forall U, UB L = Some U -> U e <= m))); assumption. }
  assert (CR : carried common x y <-> carried common (normX s common x y) (normY d common x y)).
  { split; intros (L & I & NE); exists L; (split; [exact I|]); destruct (norm_common s d common x y L I) as [E1 E2]; congruence. }
  pose proof (core s d common outDepth ND subs WF l EI Or Q same UB Bits SO SQ SS ENC INVQ BITS e
    (normX s common x y) (normY d common x y) m
    (fun L I => proj1 (N1 L I)) (fun L I => proj2 (N1 L I)) (fun L I => proj1 (N2 L I)) (fun L I => proj2 (N2 L I))
    (norm_collide s d common subs e x y WF COL) TG PLI) as K.
  fold (nestLevels s d common) in K.
  destruct (testSubscripts _ Or Q same UB Bits (s ++ common) (d ++ common) outDepth (nestLevels s d common) PLI subs) as [| | |f]; auto.
  - apply K; [tauto|]. intros u IU _. exact (TC u IU).
  - destruct K as [K1 K2]; [tauto|intros u IU _; exact (TC u IU)|]. split; [|rewrite CR; exact K2].
    intros K' L A. destruct (norm_common s d common x y L (atDepth_In _ _ _ A)) as [E1 E2].
    specialize (K1 K' L A). rewrite E1, E2 in K1. exact K1.
Qed.
Print Assumptions C49_answer_partial.

(** If a subscript with several loops shares no loop with other subscripts (there is
    nothing to substitute in the course of the Delta test) then only the given
    subscripts matter. *)
Theorem C49_loosely_coupled_partial : forall Env (Or : oracle Env) (Q : miv Env) same UB Bits,
  soundOracle Or -> soundQueries Q -> soundSame Or same ->
  (forall a b, seEnclosing _ Or a b = true) ->
  (forall recs start L, seInvariantIn _ Q recs start L = true -> ~ In L (map fst recs)) ->
  2 <= Bits ->
  forall s d common outDepth, NoDup (s ++ d ++ common) ->
  forall q subs, wellFormed (s ++ common) (d ++ common) subs -> looselyCoupled subs ->
  forall r, depends Or Q same UB Bits (s ++ common) (d ++ common) outDepth q subs = Some r ->
  forall e x y m,
  inNest UB e (s ++ common) x -> inNest UB e (d ++ common) y ->
  boundedBy UB m e (s ++ common) x -> boundedBy UB m e (d ++ common) y ->
  (forall Src Dst, In (Linear _ Src Dst) subs -> tameSimple Or Bits m e Src Dst) ->
  mayTouch q -> considered common q x y -> collide e subs x y ->
  rightAnswer common r e x y.
Proof.
  intros Env Or Q same UB Bits SO SQ SS ENC INVQ BITS s d common outDepth ND q subs WF LC r H e x y m BX BY MX MY TG MT CO COL.
  apply (answer_of_core Or Q same UB Bits s d common outDepth q subs r e x y ND H MT CO).
  intros PLI P.
  destruct (initPairs Env (s ++ common) (d ++ common) outDepth (nestLevels s d common) 0 subs) as [l|] eqn:EI.
  2:{ unfold testSubscripts. cbv zeta. rewrite EI. exact I. }
  assert (N1 : forall L, In L (s ++ d ++ common) -> inLoop (UB L) e (normX s common x y L) /\ inLoop (UB L) e (normY d common x y L)).
  { apply (norm_all s d common outDepth (fun L v => inLoop (UB L) e v)); assumption. }
  assert (N2 : forall L, In L (s ++ d ++ common) ->
     (normX s common x y L <= m /\ (forall U, UB L = Some U -> U e <= m)) /\
     (normY d common x y L <= m /\ (forall U, UB L = Some U -> U e <= m))).
  { apply (norm_all s d common outDepth (fun L v => v <= m /\ (forall U, UB L = Some U -> U e <= m))); assumption. }
  assert (CR : carried common x y <-> carried common (normX s common x y) (normY d common x y)).
  { split; intros (L & I & NE); exists L; (split; [exact I|]); destruct (norm_common s d common x y L I) as [E1 E2]; congruence. }
  pose proof (sound_loose s d common outDepth ND subs WF l EI Or Q same UB Bits SO SQ SS ENC INVQ BITS e
    (normX s common x y) (normY d common x y) m
    (fun L I => proj1 (N1 L I)) (fun L I => proj2 (N1 L I)) (fun L I => proj1 (N2 L I)) (fun L I => proj2 (N2 L I))
    (norm_collide s d common subs e x y WF COL) TG PLI LC) as K.
  fold (nestLevels s d common) in K.
  destruct (testSubscripts _ Or Q same UB Bits (s ++ common) (d ++ common) outDepth (nestLevels s d common) PLI subs) as [| | |f]; auto.
  - apply K; tauto.
  - destruct K as [K1 K2]; [tauto|]. split; [|rewrite CR; exact K2].
    intros K' L A. destruct (norm_common s d common x y L (atDepth_In _ _ _ A)) as [E1 E2].
    specialize (K1 K' L A). rewrite E1, E2 in K1. exact K1.
Qed.
Print Assumptions C49_loosely_coupled_partial.

(** ** Examples: the premises can be met *)
Definition sameB (a b : scev bool) : bool := (a true =? b true) && (a false =? b false).
Definition rec (c : Z) (l : list (loop * Z)) : expr bool :=
  mkExpr bool (map (fun p => (fst p, k (snd p))) l) (k c).
Definition allQ : query := mkQuery false true true true true MustAlias true.
Example sameB_sound : soundSame boolOracle sameB.
Proof.
  split; unfold sameB.
  - intros a b H e. apply andb_prop in H as [H1 H2]. destruct e; lia.
  - intros a b c H1 H2. pose proof (so_const _ boolOracle_sound _ _ H1) as A.
    pose proof (so_const _ boolOracle_sound _ _ H2) as B. now rewrite !A, !B, !Z.eqb_refl.
  - intros a b c H1 H2. pose proof (so_const _ boolOracle_sound _ _ H1) as A.
    pose proof (so_const _ boolOracle_sound _ _ H2) as B. unfold scNeg, scMul, scC. rewrite !A, !B.
    apply andb_true_intro; split; apply Z.eqb_eq; lia.
Qed.
(** A way to decide [tame] for constant steps. *)
Definition tameB (m : Z) (Src Dst : expr bool) : bool :=
  let R := eRecs _ Src ++ eRecs _ Dst in
  forallb (fun p => negb (snd p true =? 0) && (snd p true =? snd p false)) R &&
  forallb (fun p => forallb (fun q =>
    (Z.abs (snd p true) + Z.abs (snd q true)) * (Z.abs (eStart _ Dst true - eStart _ Src true) + 1)
      + m + 1 <? 2 ^ 63) R) R &&
  match eRecs _ Src, eRecs _ Dst with
  | [(_, a)], [(_, b)] => (a true =? b true) || (a true =? - b true) || (Z.gcd (a true) (b true) =? 1)
  | _, _ => true
  end.
Lemma tameB_ok m Src Dst : tameB m Src Dst = true -> tame boolOracle 64 m true Src Dst.
Proof.
  unfold tameB. cbv zeta. intro H. apply andb_prop in H as [H H3]. apply andb_prop in H as [H1 H2].
  rewrite forallb_forall in H1, H2. split.
  - intros L a I. specialize (H1 _ I). cbn [snd] in H1. apply andb_prop in H1 as [A B].
    assert (E : forall e, a e = a true) by (intros []; lia). split; [lia|].
    destruct (Z.le_gt_cases 0 (a true)) as [G|G].
    + left. unfold boolOracle. cbn [seNonNeg finOracle]. unfold everywhere. cbn [forallb]. rewrite (E false).
      destruct (0 <=? a true) eqn:X; [reflexivity|lia].
    + right. intro e'. rewrite E. lia.
  - intros L a L' b I I'. specialize (H2 _ I). rewrite forallb_forall in H2. specialize (H2 _ I').
    cbn [snd] in H2. apply Z.ltb_lt in H2. exact H2.
  - intros L a b AM BM E1 E2 C1 C2 N1 N2. rewrite E1, E2 in H3.
    pose proof (so_const _ boolOracle_sound _ _ C1 true) as A.
    pose proof (so_const _ boolOracle_sound _ _ C2 true) as B. rewrite A, B in H3.
    apply orb_prop in H3 as [H3|H3]; [apply orb_prop in H3 as [H3|H3]; lia|]. now apply Z.eqb_eq.
Qed.
Definition tameStateB (m : Z) (n : nat) (s : st bool) : bool :=
  forallb (fun P => match pSub _ (sPairs _ s P) with
                    | Linear _ Src Dst => tameB m Src Dst
                    | NonLinear _ _ => true
                    end) (seq 0 n).
Lemma tameStateB_ok m n s : tameStateB m n s = true -> tameState boolOracle 64 m true n s.
Proof.
  unfold tameStateB, tameState, tameSimple. rewrite forallb_forall. intros H P Src Dst LP E _.
  specialize (H P). rewrite E in H. apply tameB_ok, H. apply in_seq. lia.
Qed.

(** [A[i][2i + 3]] and [A[i + 1][2i + 5]]: the two subscripts are coupled and both tested. *)
Definition loose : list (subscript bool) :=
  [Linear _ (rec 0 [(0%nat, 1)]) (rec 1 [(0%nat, 1)]); Linear _ (rec 3 [(0%nat, 2)]) (rec 5 [(0%nat, 2)])].
Example C49_loosely_coupled_ex :
  (exists f, depends boolOracle bq sameB ubEx 64 [0%nat] [0%nat] (fun _ => 1%nat) allQ loose = Some (Full f)
     /\ dvDir _ (fDV _ f 1%nat) = {| dLT := false; dEQ := false; dGT := true |}
     /\ option_map (fun D => D true) (dvDist _ (fDV _ f 1%nat)) = Some (-1)) /\
  wellFormed ([] ++ [0%nat]) ([] ++ [0%nat]) loose /\ looselyCoupled loose /\
  collide true loose (fun _ => 1) (fun _ => 0) /\ considered [0%nat] allQ (fun _ => 1) (fun _ => 0) /\
  mayTouch allQ /\
  (forall Src Dst, In (Linear _ Src Dst) loose -> tameSimple boolOracle 64 9 true Src Dst) /\
  inNest ubEx true ([] ++ [0%nat]) (fun _ => 1) /\ boundedBy ubEx 9 true ([] ++ [0%nat]) (fun _ => 1).
Proof.
  split; [eexists; split; [vm_compute; reflexivity|split; vm_compute; reflexivity]|].
  split.
  { intros Src Dst I. assert (X : map fst (eRecs _ Src) = [0%nat] /\ map fst (eRecs _ Dst) = [0%nat]).
    { cbn in I. destruct I as [I|[I|[]]]; injection I as <- <-; split; reflexivity. }
    destruct X as [X1 X2]. unfold chainOk. rewrite X1, X2.
    split; [|split; [|split]]; try (constructor; [intros []|constructor]); apply incl_refl. }
  split.
  { intros P P' sub sub' L L1 L2 _ E _ M1 M2 NE _ _.
    assert (X : forall Lx, mentions sub Lx -> Lx = 0%nat).
    { intros Lx M. destruct P as [|[|[|P]]]; cbn in E; try discriminate; injection E as <-; cbn in M; intuition. }
    apply NE. rewrite (X _ M1), (X _ M2). reflexivity. }
  split; [intros Src Dst I; cbn in I; destruct I as [I|[I|[]]]; injection I as <- <-; vm_compute; reflexivity|].
  split; [left; split; reflexivity|]. split; [repeat split; discriminate|].
  split; [intros Src Dst I _; apply tameB_ok; cbn in I; destruct I as [I|[I|[]]]; injection I as <- <-; vm_compute; reflexivity|].
  split; [intros L I; unfold inLoop, ubEx, k, scC; lia|].
  intros L I. split; [lia|]. unfold ubEx. intros U E. injection E as <-. unfold k, scC. lia.
Qed.

(** [A[i + 1][i + j]] and [A[i][i + j]]: the distance of [i] is substituted in the second
    subscript. *)
Definition delta : list (subscript bool) :=
  [Linear _ (rec 1 [(0%nat, 1)]) (rec 0 [(0%nat, 1)]);
   Linear _ (rec 0 [(1%nat, 1); (0%nat, 1)]) (rec 0 [(1%nat, 1); (0%nat, 1)])].
Definition nestEx : list loop := [1%nat; 0%nat].
Example C49_answer_ex :
  let x := fun L : loop => if Nat.eqb L 0 then 2 else 5 in
  let y := fun L : loop => if Nat.eqb L 0 then 3 else 4 in
  (exists f, depends boolOracle bq sameB ubEx 64 nestEx nestEx (fun _ => 1%nat) allQ delta = Some (Full f)
     /\ map (fun K => dvDir _ (fDV _ f K)) [1%nat; 2%nat] =
        [{| dLT := true; dEQ := false; dGT := false |}; {| dLT := false; dEQ := false; dGT := true |}]
     /\ map (fun K => option_map (fun D => D true) (dvDist _ (fDV _ f K))) [1%nat; 2%nat] = [Some 1; Some (-1)]) /\
  wellFormed ([] ++ nestEx) ([] ++ nestEx) delta /\
  collide true delta x y /\ considered nestEx allQ x y /\
  (forall Src Dst, In (Linear _ Src Dst) delta -> tameSimple boolOracle 64 9 true Src Dst) /\
  length (courseOf boolOracle bq sameB ubEx 64 nestEx nestEx (fun _ => 1%nat) (nestLevels [] [] nestEx) delta) = 10%nat /\
  (forall u, In u (courseOf boolOracle bq sameB ubEx 64 ([] ++ nestEx) ([] ++ nestEx) (fun _ => 1%nat)
     (nestLevels [] [] nestEx) delta) -> tameState boolOracle 64 9 true (length delta) u) /\
  inNest ubEx true ([] ++ nestEx) x /\ inNest ubEx true ([] ++ nestEx) y /\
  boundedBy ubEx 9 true ([] ++ nestEx) x /\ boundedBy ubEx 9 true ([] ++ nestEx) y.
Proof.
  intros x y.
  split; [eexists; split; [vm_compute; reflexivity|split; vm_compute; reflexivity]|].
  split.
  { intros Src Dst I. assert (X : map fst (eRecs _ Src) = map fst (eRecs _ Dst) /\
      (map fst (eRecs _ Dst) = [0%nat] \/ map fst (eRecs _ Dst) = [1%nat; 0%nat])).
    { cbn in I. destruct I as [I|[I|[]]]; injection I as <- <-; (split; [reflexivity|]); auto. }
    destruct X as [X1 X2]. unfold chainOk. rewrite X1. unfold nestEx.
    destruct X2 as [->| ->]; (split; [|split; [|split]]);
      try (intros z Z; cbn in *; intuition; fail); repeat constructor; cbn; intuition discriminate. }
  split; [intros Src Dst I; cbn in I; destruct I as [I|[I|[]]]; injection I as <- <-; vm_compute; reflexivity|].
  split; [left; split; reflexivity|].
  split; [intros Src Dst I _; apply tameB_ok; cbn in I; destruct I as [I|[I|[]]]; injection I as <- <-; vm_compute; reflexivity|].
  split; [vm_compute; reflexivity|].
  split.
  { intros u I. apply tameStateB_ok. revert u I. apply forallb_forall. vm_compute. reflexivity. }
  unfold x, y.
  split; [|split; [|split]]; intros L I; unfold inLoop, ubEx, k, scC; destruct (Nat.eqb L 0);
    try lia; (split; [lia|]); intros U E; injection E as <-; unfold k, scC; lia.
Qed.

(** Partition: the first and the third subscripts are connected through the second. *)
Definition chain3 : list (subscript bool) :=
  [Linear _ (rec 0 [(0%nat, 1)]) (rec 0 [(0%nat, 1)]);
   Linear _ (rec 0 [(1%nat, 1); (0%nat, 1)]) (rec 0 []);
   Linear _ (rec 0 []) (rec 0 [(1%nat, 1)]);
   Linear _ (rec 0 [(2%nat, 1)]) (rec 0 [(2%nat, 1)])].
Example C49_groups_ex :
  exists l, initPairs bool [2%nat; 1%nat; 0%nat] [2%nat; 1%nat; 0%nat] (fun _ => 1%nat)
      (nestLevels [] [] [2%nat; 1%nat; 0%nat]) 0 chain3 = Some l /\
  let pt := partition _ (nestLevels [] [] [2%nat; 1%nat; 0%nat]) 4 (asMap _ l) in
  map (ptSep _ pt) [0%nat; 1%nat; 2%nat; 3%nat] = [false; false; false; true] /\
  map (ptCpl _ pt) [0%nat; 1%nat; 2%nat; 3%nat] = [false; false; true; false] /\
  map (pGroup _ (ptPairs _ pt 2%nat)) [0%nat; 1%nat; 2%nat; 3%nat] = [true; true; true; false].
Proof. eexists. split; [vm_compute; reflexivity|]. repeat split; vm_compute; reflexivity. Qed.

(** ** What is wrong in the code *)
(** A constraint left from another subscript.  If a recurrence starts from a value which
    is not known to be enclosing then the test of the subscript makes no constraint,
    but the constraint of the previous test is stored for the loop of the subscript.
    In [A[i + 1][j + s][i + j + 1]] and [A[i][j + s][i + j]] (where [s] is such a start)
    no dependence is reported, however iterations (2, 3) and (3, 3) touch the same
    element. *)
Definition staleOracle : oracle bool :=
  mkOracle bool (seNonNeg _ boolOracle) (seNonPos _ boolOracle) (sePos _ boolOracle) (seNeg _ boolOracle)
    (seNonZero _ boolOracle) (sePred _ boolOracle) (seConst _ boolOracle) (fun a _ => negb (a true =? 7)).
Definition staleSubs : list (subscript bool) :=
  [Linear _ (rec 1 [(0%nat, 1)]) (rec 0 [(0%nat, 1)]);
   Linear _ (rec 7 [(1%nat, 1)]) (rec 7 [(1%nat, 1)]);
   Linear _ (rec 1 [(1%nat, 1); (0%nat, 1)]) (rec 0 [(1%nat, 1); (0%nat, 1)])].
Theorem C49_stale_constraint_refuted :
  exists (Or : oracle bool) (Q : miv bool) same UB nest subs q e x y,
  soundOracle Or /\ soundQueries Q /\ soundSame Or same /\
  (forall recs start L, seInvariantIn _ Q recs start L = true -> ~ In L (map fst recs)) /\
  NoDup nest /\ wellFormed nest nest subs /\
  inNest UB e nest x /\ inNest UB e nest y /\ boundedBy UB 9 e nest x /\ boundedBy UB 9 e nest y /\
  (forall Src Dst, In (Linear _ Src Dst) subs -> tameSimple Or 64 9 e Src Dst) /\
  (forall u, In u (courseOf Or Q same UB 64 nest nest (fun _ => 1%nat) (nestLevels [] [] nest) subs) ->
     tameState Or 64 9 e (length subs) u) /\
  mayTouch q /\ considered nest q x y /\ collide e subs x y /\
  depends Or Q same UB 64 nest nest (fun _ => 1%nat) q subs = Some NoDependence.
Proof.
  exists staleOracle, bq, sameB, ubEx, nestEx, staleSubs, allQ, true,
    (fun L : loop => if Nat.eqb L 0 then 2 else 3), (fun L : loop => 3).
  assert (T : forall Src Dst, tame boolOracle 64 9 true Src Dst -> tame staleOracle 64 9 true Src Dst).
  { intros Src Dst [T1 T2 T3]. split; assumption. }
  split. { destruct boolOracle_sound as [A1 A2 A3 A4 A5 A6 A7 A8]. split; assumption. }
  split; [exact bq_sound|].
  split. { destruct sameB_sound as [A1 A2 A3]. split; assumption. }
  split; [exact bq_invariant|].
  split; [unfold nestEx; repeat constructor; cbn; intuition discriminate|].
  split.
  { intros Src Dst I. assert (X : map fst (eRecs _ Src) = map fst (eRecs _ Dst) /\
      (map fst (eRecs _ Dst) = [0%nat] \/ map fst (eRecs _ Dst) = [1%nat] \/ map fst (eRecs _ Dst) = [1%nat; 0%nat])).
    { cbn in I. destruct I as [I|[I|[I|[]]]]; injection I as <- <-; (split; [reflexivity|]); auto. }
    destruct X as [X1 X2]. unfold chainOk. rewrite X1. unfold nestEx.
    destruct X2 as [->|[->| ->]]; (split; [|split; [|split]]);
      try (intros z Z; cbn in *; intuition; fail); repeat constructor; cbn; intuition discriminate. }
  split; [|split; [|split; [|split]]].
  1-4: intros L I; unfold inLoop, ubEx, k, scC; destruct (Nat.eqb L 0);
    try lia; (split; [lia|]); intros U E; injection E as <-; unfold k, scC; lia.
  split.
  { intros Src Dst I _. apply T, tameB_ok. cbn in I. destruct I as [I|[I|[I|[]]]]; injection I as <- <-; vm_compute; reflexivity. }
  split.
  { assert (B : forall u, In u (courseOf staleOracle bq sameB ubEx 64 nestEx nestEx (fun _ => 1%nat)
      (nestLevels [] [] nestEx) staleSubs) -> tameStateB 9 (length staleSubs) u = true).
    { apply forallb_forall. vm_compute. reflexivity. }
    intros u I P Src Dst LP E S. apply T. exact (tameStateB_ok _ _ _ (B u I) P Src Dst LP E S). }
  split; [repeat split; discriminate|]. split; [left; split; reflexivity|].
  split; [intros Src Dst I; cbn in I; destruct I as [I|[I|[I|[]]]]; injection I as <- <-; vm_compute; reflexivity|].
  vm_compute. reflexivity.
Qed.
Print Assumptions C49_stale_constraint_refuted.

(** A level which was never set.  If coupled subscripts of the destination mention a
    loop which is not around the destination (for example, its last value is used after
    the loop) then an uninitialized variable is used. *)
Theorem C49_uninitialized_level_refuted :
  exists (Or : oracle bool) (Q : miv bool) same UB subs q,
  soundOracle Or /\ soundQueries Q /\ soundSame Or same /\ mayTouch q /\
  (forall Src Dst, In (Linear _ Src Dst) subs -> chainOk Src /\ chainOk Dst /\ tameSimple Or 64 9 true Src Dst) /\
  depends Or Q same UB 64 [0%nat] [] (fun _ => 1%nat) q subs = None.
Proof.
  exists boolOracle, bq, sameB, ubEx,
    [Linear _ (rec 0 []) (rec 0 [(0%nat, 1)]); Linear _ (rec 0 []) (rec 0 [(0%nat, 1)])], allQ.
  split; [exact boolOracle_sound|]. split; [exact bq_sound|]. split; [exact sameB_sound|].
  split; [repeat split; discriminate|]. split; [|vm_compute; reflexivity].
  intros Src Dst I. cbn in I. destruct I as [I|[I|[]]]; injection I as <- <-;
    (split; [constructor|]); (split; [repeat constructor; intros []|]); intros _; apply tameB_ok; vm_compute; reflexivity.
Qed.
Print Assumptions C49_uninitialized_level_refuted.
