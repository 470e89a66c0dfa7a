(** Proofs about the whole test of two accesses: rounds of the Delta test end,
    initial classification, soundness. *)
From Coq Require Import ZArith Bool List Arith Lia Relations.
From Verif Require Import DepModel DepSpec DepProof MIVModel MIVSpec MIVGcdProof MIVBanerjeeProof MIVConstrProof
  DepDriverModel DepDriverSpec DepDriverProof DepPartProof Prop_Dep Prop_MIV.
Import ListNotations.
Local Open Scope nat_scope.

(** ** The bound on the number of rounds is never exceeded *)
Section Fuel.
Context {Env : Type} (Or : oracle Env) (Q : miv Env) (same : scev Env -> scev Env -> bool)
  (UB : loop -> option (scev Env)) (Bits : Z) (srcNest dstNest : list loop) (outDepth : loop -> nat) (lv : levels).
Definition fine {A} (r : res A) : Prop := r <> OutOfFuel.
Lemma fine_bind {A B} (r : res A) (f : A -> res B) : fine r -> (forall a, r = Go a -> fine (f a)) -> fine (bind r f).
Proof.
  intros H F. destruct r as [| | |a]; cbn [bind]; [discriminate|now destruct H|discriminate|].
  apply F. reflexivity.
Qed.
Lemma fine_forEach {S} (f : nat -> S -> res S) l : (forall k s, fine (f k s)) -> forall s, fine (forEach f l s).
Proof.
  intro H. induction l as [|k l IH]; intro s; cbn [forEach]; [discriminate|].
  apply fine_bind; [apply H|]. intros a _. apply IH.
Qed.
Lemma fine_lift r dv : fine (lift Env r dv).
Proof. unfold lift. destruct r as [[[|] ?]|]; discriminate. Qed.
Lemma fine_SIV Src Dst dv nc : fine (testSIV _ Or Q same UB Bits srcNest dstNest outDepth lv Src Dst dv nc).
Proof.
  unfold testSIV.
  repeat match goal with
  | |- fine (bind _ _) => apply fine_bind; [apply fine_lift|intros]
  | |- fine (if ?c then _ else _) => destruct c
  | |- fine (match ?o with Some _ => _ | None => _ end) => destruct o
  | |- fine (let '(_, _) := ?o in _) => destruct o
  | |- fine (match ?l with [] => _ | _ :: _ => _ end) => destruct l as [|[? ?] ?]
  | |- fine (let x := _ in _) => cbv zeta
  | |- fine _ => discriminate
  end.
Qed.
Lemma fine_RDIV Src Dst dv : fine (testRDIV _ Or Q UB Bits srcNest dstNest Src Dst dv).
Proof.
  unfold testRDIV.
  match goal with |- fine (match ?o with Some _ => _ | None => _ end) => destruct o as [[[[? ?] ?] ?]|] end; [|discriminate].
  cbv zeta. destruct (exactRDIVtest _ _ _ _ _ _ _ _ _ _) as [[|]|]; try discriminate.
  apply fine_bind; [apply fine_lift|]. intros. destruct (symbolicRDIV _ _ _ _ _ _ _ _); discriminate.
Qed.
Lemma fine_MIV Src Dst Loops dv : fine (testMIVLift _ Or Q UB srcNest dstNest lv Src Dst Loops dv).
Proof. apply fine_lift. Qed.
Lemma fine_ZIV Src Dst dv : fine (testZIVLift _ Or Src Dst dv).
Proof. unfold testZIVLift. destruct (testZIV _ _ _ _); discriminate. Qed.

Notation sivS := (sivStep _ Or Q same UB Bits srcNest dstNest outDepth lv).
Notation propS := (propStep _ Or Q srcNest dstNest outDepth lv).
Lemma sivStep_shape SJ t : fine (sivS SJ t) /\
  forall t', sivS SJ t = Go t' -> sMivs _ t' = sMivs _ t /\ sSivs _ t' = setLevel (sSivs _ t) SJ false.
Proof.
  unfold sivStep. destruct (pSub _ (sPairs _ t SJ)) as [Src Dst|]; [|split; discriminate].
  pose proof (fine_SIV Src Dst (sDV _ t) (sNew _ t)) as F.
  destruct (testSIV _ Or Q same UB Bits srcNest dstNest outDepth lv Src Dst (sDV _ t) (sNew _ t)) as [| | |[[dv oL] nc]]; cbn [bind].
  - split; discriminate.
  - now destruct F.
  - split; discriminate.
  - destruct oL as [Level|]; [|split; discriminate]. destruct (sCons _ t Level) as [X LX].
    destruct (intersectConstraints _ _ _ _ _) as [[R ch]|]; [|split; discriminate].
    destruct (ch && isEmptyC _ R); [split; discriminate|]. split; [discriminate|].
    intros t' E. injection E as <-. auto.
Qed.
Lemma propStep_shape SJ t : fine (propS SJ t) /\
  forall t', propS SJ t = Go t' -> (forall P, P <> SJ -> sMivs _ t' P = sMivs _ t P /\ sSivs _ t' P = sSivs _ t P) /\
     (sSivs _ t' SJ = true -> sSivs _ t SJ = true \/ sMivs _ t' SJ = false) /\
     (sMivs _ t' SJ = true -> sMivs _ t SJ = true).
Proof.
  unfold propStep. cbv zeta. destruct (pSub _ (sPairs _ t SJ)) as [Src Dst|]; [|split; discriminate].
  destruct (propagate _ Or Q Src Dst _) as [[[[[|] S'] D'] ix]|]; [| |split; discriminate].
  2:{ split; [discriminate|]. intros t' E. injection E as <-. auto. }
  destruct (classifyPair _ srcNest dstNest outDepth lv S' D') as [[c Loops]|]; [|split; discriminate].
  assert (SL : forall (b : bits) v P, P <> SJ -> setLevel b SJ v P = b P).
  { intros b v P N. unfold setLevel. destruct (Nat.eqb_spec P SJ); [contradiction|reflexivity]. }
  assert (SE : forall (b : bits) v, setLevel b SJ v SJ = v).
  { intros b v. unfold setLevel. now rewrite Nat.eqb_refl. }
  destruct c.
  - pose proof (fine_ZIV S' D' (sDV _ t)) as F. destruct (testZIVLift _ Or S' D' (sDV _ t)) as [| | |dv]; cbn [bind].
    + split; discriminate.
    + now destruct F.
    + split; discriminate.
    + split; [discriminate|]. intros t' E. injection E as <-. cbn [sMivs sSivs]. rewrite SE.
      split; [intros P N; rewrite SL by exact N; auto|]. split; [auto|discriminate].
  - split; [discriminate|]. intros t' E. injection E as <-. cbn [sMivs sSivs]. rewrite !SE.
    split; [intros P N; rewrite !SL by exact N; auto|]. split; [auto|discriminate].
  - split; [discriminate|]. intros t' E. injection E as <-. cbn [sMivs sSivs]. auto.
  - split; [discriminate|]. intros t' E. injection E as <-. cbn [sMivs sSivs]. auto.
Qed.

Lemma siv_loop l : forall t, NoDup l -> fine (forEach sivS l t) /\
  forall t', forEach sivS l t = Go t' -> sMivs _ t' = sMivs _ t /\ forall P, sSivs _ t' P = true -> sSivs _ t P = true /\ ~ In P l.
Proof.
  induction l as [|k l IH]; intros t N; cbn [forEach].
  - split; [discriminate|]. intros t' E. injection E as <-. auto.
  - inversion N as [|? ? N1 N2]; subst. destruct (sivStep_shape k t) as [F S].
    destruct (sivS k t) as [| | |t1]; cbn [bind]; [split; discriminate|now destruct F|split; discriminate|].
    destruct (S t1 eq_refl) as [S1 S2]. destruct (IH t1 N2) as [F2 I2]. split; [exact F2|].
    intros t' E. destruct (I2 t' E) as [A B]. split; [congruence|]. intros P H. destruct (B P H) as [B1 B2].
    rewrite S2 in B1. unfold setLevel in B1. destruct (Nat.eqb_spec P k) as [EP|NP]; [discriminate|].
    split; [exact B1|]. intros [X|X]; [auto|contradiction].
Qed.
Lemma prop_loop l : forall t, fine (forEach propS l t) /\
  forall t', forEach propS l t = Go t' ->
    (forall P, sMivs _ t' P = true -> sMivs _ t P = true) /\
    (forall P, sSivs _ t' P = true -> sSivs _ t P = true \/ In P l /\ sMivs _ t' P = false).
Proof.
  induction l as [|k l IH]; intros t; cbn [forEach].
  - split; [discriminate|]. intros t' E. injection E as <-. auto.
  - destruct (propStep_shape k t) as [F S].
    destruct (propS k t) as [| | |t1]; cbn [bind]; [split; discriminate|now destruct F|split; discriminate|].
    destruct (S t1 eq_refl) as (S1 & S2 & S3). destruct (IH t1) as [F2 I2]. split; [exact F2|].
    intros t' E. destruct (I2 t' E) as [A B]. split.
    + intros P H. apply A in H. destruct (Nat.eq_dec P k) as [EP|NP]; [subst; auto|].
      now rewrite <- (proj1 (S1 P NP)).
    + intros P H. destruct (B P H) as [H1|[H1 H2]]; [|right; split; [now right|exact H2]].
      destruct (Nat.eq_dec P k) as [EP|NP].
      * subst P. destruct (S2 H1) as [H2|H2]; [auto|]. right. split; [now left|].
        destruct (sMivs _ t' k) eqn:X; [|reflexivity]. apply A in X. congruence.
      * left. now rewrite <- (proj2 (S1 P NP)).
Qed.
Lemma count_lt n (a b : bits) P : (forall K, a K = true -> b K = true) -> P < n -> b P = true -> a P = false ->
  countBits n a < countBits n b.
Proof.
  intros H L B A. unfold countBits, setBits.
  assert (IP : In P (seq 0 n)) by (apply in_seq; lia). clear L.
  assert (LE : forall l, length (filter a l) <= length (filter b l)).
  { induction l as [|k l IH]; [cbn; lia|]. cbn [filter]. destruct (a k) eqn:E.
    - rewrite (H k E). cbn [length]. lia.
    - destruct (b k); cbn [length]; lia. }
  revert IP. induction (seq 0 n) as [|k l IH]; [intros []|]. intros [E|I].
  - subst k. cbn [filter]. rewrite A, B. cbn [length]. specialize (LE l). lia.
  - specialize (IH I). cbn [filter]. destruct (a k) eqn:E; [rewrite (H k E)|destruct (b k)]; cbn [length]; lia.
Qed.
Lemma rounds_fine n fuel : forall t, countBits n (sMivs _ t) < fuel ->
  fine (rounds _ Or Q same UB Bits srcNest dstNest outDepth lv n fuel t).
Proof.
  induction fuel as [|fuel IH]; intros t L; [lia|]. cbn [rounds].
  destruct (anyBits n (sSivs _ t)) eqn:AN; [|discriminate].
  assert (ND : NoDup (setBits n (sSivs _ t))) by (apply NoDup_filter, seq_NoDup).
  destruct (siv_loop (setBits n (sSivs _ t)) (clearChanged _ t) ND) as [F1 S1].
  apply fine_bind; [exact F1|]. intros t1 E1. destruct (S1 t1 E1) as [A1 B1]. cbn [clearChanged sMivs sSivs] in A1, B1.
  (* no bits below n remain *)
  assert (NB : forall P, P < n -> sSivs _ t1 P = false).
  { intros P LP. apply not_true_is_false. intro X. destruct (B1 P X) as [X1 X2]. apply X2.
    apply filter_In. split; [apply in_seq; lia|exact X1]. }
  assert (STOP : forall f t2, (forall P, P < n -> sSivs _ t2 P = false) ->
    fine (rounds _ Or Q same UB Bits srcNest dstNest outDepth lv n f t2)).
  { intros f t2 H. assert (X : anyBits n (sSivs _ t2) = false).
    { apply not_true_is_false. intro Y. apply existsb_exists in Y. destruct Y as (P & I & Y). apply in_seq in I.
      rewrite H in Y by lia. discriminate. }
    destruct f; cbn [rounds]; rewrite X; discriminate. }
  destruct (sChanged _ t1).
  - destruct (prop_loop (setBits n (sMivs _ t1)) t1) as [F2 S2].
    apply fine_bind; [exact F2|]. intros t2 E2. destruct (S2 t2 E2) as [A2 B2].
    destruct (anyBits n (sSivs _ t2)) eqn:AN2.
    + apply IH. unfold anyBits in AN2. apply existsb_exists in AN2. destruct AN2 as (P & IP & X). apply in_seq in IP.
      destruct (B2 P X) as [Y|[Y1 Y2]]; [rewrite NB in Y by lia; discriminate|].
      apply filter_In in Y1. destruct Y1 as [_ Y1].
      pose proof (count_lt n (sMivs _ t2) (sMivs _ t1) P A2 ltac:(lia) Y1 Y2) as C. rewrite A1 in C. lia.
    + apply STOP. intros P LP. apply not_true_is_false. intro X.
      assert (Y : anyBits n (sSivs _ t2) = true) by (apply existsb_exists; exists P; split; [apply in_seq; lia|exact X]).
      congruence.
  - cbn [bind]. apply STOP. exact NB.
Qed.
Lemma countBits_le n b : countBits n b <= n.
Proof.
  unfold countBits, setBits. rewrite <- (seq_length n 0) at 2.
  induction (seq 0 n) as [|k l IH]; cbn [filter length]; [lia|]. destruct (b k); cbn [length]; lia.
Qed.
Lemma groupStep_fine n SI t : fine (groupStep _ Or Q same UB Bits srcNest dstNest outDepth lv n SI t).
Proof.
  unfold groupStep. cbv zeta. apply fine_bind.
  - apply rounds_fine. cbn [sMivs]. apply Nat.lt_succ_r. apply countBits_le.
  - intros t1 _. apply fine_bind; [apply fine_forEach|intros t2 _; apply fine_bind; [apply fine_forEach|intros t3 _; apply fine_forEach]].
    + intros k u. unfold rdivStep. cbv zeta. destruct (pSub _ (sPairs _ u k)); [|discriminate].
      destruct (pCls _ (sPairs _ u k)); try discriminate. apply fine_bind; [apply fine_RDIV|discriminate].
    + intros k u. unfold mivStep. cbv zeta. destruct (pSub _ (sPairs _ u k)); [|discriminate].
      destruct (pCls _ (sPairs _ u k)); try discriminate. apply fine_bind; [apply fine_MIV|discriminate].
    + intros k u. unfold dirStep. destruct (updateDirection _ _ _ _); [|discriminate]. destruct (dempty _); discriminate.
Qed.
Theorem testSubscripts_fine PLI subs :
  fine (testSubscripts _ Or Q same UB Bits srcNest dstNest outDepth lv PLI subs).
Proof.
  unfold testSubscripts. cbv zeta. destruct (initPairs _ srcNest dstNest outDepth lv 0 subs) as [l|]; [|discriminate].
  apply fine_bind.
  - apply fine_forEach. intros k [dv nc]. unfold sepStep. destruct (pSub _ _); [|discriminate].
    destruct (pCls _ _); (apply fine_bind; [|try discriminate]).
    + apply fine_ZIV.
    + apply fine_SIV.
    + intros [[? ?] ?] _. discriminate.
    + apply fine_RDIV.
    + apply fine_MIV.
  - intros [dv nc] _. apply fine_bind.
    + apply fine_forEach. intros. apply groupStep_fine.
    + intros t _. unfold finish. destruct PLI; [discriminate|]. destruct (forallb _ _); discriminate.
Qed.
End Fuel.

(** ** Classification *)
Section Top.
Context {Env : Type}.
Variables (s d common : list loop) (outDepth : loop -> nat).
Hypothesis ND : NoDup (s ++ d ++ common).
Notation srcNest := (s ++ common).
Notation dstNest := (d ++ common).
Notation lv := (mkLevels (length common) (length s + length common) (length s + length d + length common)).

Lemma initPairs_nth k subs l : initPairs Env srcNest dstNest outDepth lv k subs = Some l ->
  length l = length subs /\
  forall P sub, nth_error subs P = Some sub -> initPair Env srcNest dstNest outDepth lv (k + P) sub = Some (asMap _ l P).
Proof.
  revert k l. induction subs as [|sub subs IH]; intros k l H; cbn [initPairs] in H.
  - injection H as <-. split; [reflexivity|]. intros [|P] sub; discriminate.
  - destruct (initPair _ srcNest dstNest outDepth lv k sub) as [p|] eqn:EP; [|discriminate].
    destruct (initPairs _ srcNest dstNest outDepth lv (S k) subs) as [ps|] eqn:ER; [|discriminate].
    injection H as <-. destruct (IH _ _ ER) as [A B]. split; [cbn; now rewrite A|].
    intros [|P] sub' E; cbn [nth_error] in E.
    + injection E as <-. rewrite Nat.add_0_r. exact EP.
    + unfold asMap in *. cbn [nth]. rewrite <- (B P sub' E). f_equal. lia.
Qed.

Lemma classify_inv (Src Dst : expr Env) c Loops : classifyPair _ srcNest dstNest outDepth lv Src Dst = Some (c, Loops) ->
  (c = ZIV <-> forall K, K < NL lv -> Loops K = false) /\
  (c <> ZIV -> c <> SIV -> exists K1 K2, K1 <> K2 /\ K1 < NL lv /\ K2 < NL lv /\ Loops K1 = true /\ Loops K2 = true) /\
  (forall K, Loops K = true <-> (exists L a, In (L, a) (eRecs _ Src) /\ mapSrc srcNest outDepth L = K) \/
                                (exists L a, In (L, a) (eRecs _ Dst) /\ mapDst dstNest outDepth lv L = K)) /\
  (forall K, Loops K = true -> K < NL lv).
Proof.
  unfold classifyPair. cbv zeta.
  match goal with |- context [forallb ?f ?l && forallb ?g ?k] => destruct (forallb f l) eqn:F1; destruct (forallb g k) eqn:F2 end;
    cbn [andb]; try discriminate.
  set (SL := levelsOf Env _ Src). set (DL := levelsOf Env _ Dst). intro H.
  assert (EL : Loops = orBits SL DL) by congruence. rewrite EL. clear EL.
  assert (EC : c = _) by (injection H as H _; symmetry; exact H). clear H.
  assert (LB : forall K, orBits SL DL K = true <-> (exists L a, In (L, a) (eRecs _ Src) /\ mapSrc srcNest outDepth L = K) \/
                                (exists L a, In (L, a) (eRecs _ Dst) /\ mapDst dstNest outDepth lv L = K)).
  { intro K. unfold orBits. rewrite orb_true_iff. unfold SL, DL, levelsOf. rewrite !existsb_exists.
    split; (intros [X|X]; [left|right]).
    - destruct X as ([L a] & I & E). apply Nat.eqb_eq in E. exists L, a. auto.
    - destruct X as ([L a] & I & E). apply Nat.eqb_eq in E. exists L, a. auto.
    - destruct X as (L & a & I & E). exists (L, a). split; [exact I|]. now apply Nat.eqb_eq.
    - destruct X as (L & a & I & E). exists (L, a). split; [exact I|]. now apply Nat.eqb_eq. }
  assert (LT : forall K, orBits SL DL K = true -> K < NL lv).
  { intros K X. apply LB in X. rewrite forallb_forall in F1, F2. destruct X as [(L & a & I & E)|(L & a & I & E)].
    - specialize (F1 (L, a) I). cbn [fst] in F1. apply Nat.ltb_lt in F1. lia.
    - specialize (F2 (L, a) I). cbn [fst] in F2. apply Nat.ltb_lt in F2. lia. }
  split; [|split; [|split; [exact LB|exact LT]]].
  - destruct (Nat.eqb_spec (countBits (NL lv) (orBits SL DL)) 0) as [Z|NZ].
    + split; [|auto]. intros _ K LK. unfold countBits in Z. apply length_zero_iff_nil in Z.
      apply not_true_is_false. intro T.
      assert (X : In K (setBits (NL lv) (orBits SL DL))) by (apply filter_In; split; [apply in_seq; lia|exact T]).
      rewrite Z in X. destruct X.
    + split.
      * intro E. rewrite E in EC. destruct (Nat.eqb _ 1); [discriminate|]. destruct (_ && _); discriminate.
      * intro NO. exfalso. apply NZ. unfold countBits, setBits.
        assert (X : forall l, (forall K, In K l -> K < NL lv) -> length (filter (orBits SL DL) l) = 0).
        { induction l as [|K l IH]; intro B; [reflexivity|]. cbn [filter]. rewrite NO by (apply B; now left). apply IH. intros J I. apply B. now right. }
        apply X. intros K I. apply in_seq in I. lia.
  - intros NZ NS. assert (C2 : 2 <= countBits (NL lv) (orBits SL DL)).
    { destruct (Nat.eqb_spec (countBits (NL lv) (orBits SL DL)) 0) as [Z|Z0]; [congruence|].
      destruct (Nat.eqb_spec (countBits (NL lv) (orBits SL DL)) 1) as [Z|Z1]; [congruence|]. lia. }
    unfold countBits, setBits in C2.
    assert (N : NoDup (filter (orBits SL DL) (seq 0 (NL lv)))) by (apply NoDup_filter, seq_NoDup).
    assert (B : forall K, In K (filter (orBits SL DL) (seq 0 (NL lv))) -> K < NL lv /\ orBits SL DL K = true).
    { intros K I. apply filter_In in I. destruct I as [I1 I2]. apply in_seq in I1. split; [lia|exact I2]. }
    destruct (filter (orBits SL DL) (seq 0 (NL lv))) as [|K1 [|K2 l]]; cbn [length] in C2; try lia.
    exists K1, K2. inversion N as [|? ? N1 N2]; subst.
    destruct (B K1) as [B1 B2]; [now left|]. destruct (B K2) as [B3 B4]; [right; now left|].
    split; [intro E; apply N1; left; auto|]. auto.
Qed.

(* levels of loops *)
Notation levelOf := (levelOf s d common).
Lemma contains_iff nest L : In L nest -> contains nest L = true.
Proof. intro I. unfold contains. destruct (depthIn_some _ _ I) as (K & ->). reflexivity. Qed.
Lemma in_src_level L : In L srcNest -> levelOf L (mapSrc srcNest outDepth L).
Proof. intro I. apply mapSrc_level. now apply contains_iff. Qed.
Lemma in_dst_level L : In L dstNest -> levelOf L (mapDst dstNest outDepth lv L).
Proof. intro I. apply mapDst_level. now apply contains_iff. Qed.
Lemma levelOf_fun L K K' : levelOf L K -> levelOf L K' -> K = K'.
Proof.
  assert (SD : forall K K', mapSrcLoop srcNest L = Some K -> mapDstLoop lv dstNest L = Some K' -> K = K').
  { intros K1 K2 A B. unfold mapSrcLoop in A. unfold mapDstLoop in B.
    destruct (depthIn dstNest L) as [D|] eqn:ED; [|discriminate].
    pose proof (depthIn_In _ _ _ A) as I1. pose proof (depthIn_In _ _ _ ED) as I2.
    pose proof ND as N. apply NoDup_app_split in N. destruct N as (N1 & N2 & N3).
    apply NoDup_app_split in N2. destruct N2 as (N4 & N5 & N6).
    assert (C : ~ In L s).
    { intro X. apply (N3 L X). exact I2. }
    assert (C' : ~ In L d).
    { intro X. rewrite in_app_iff in I1. destruct I1 as [I1|I1]; [contradiction|]. exact (N6 L X I1). }
    rewrite depthIn_skip in A by exact C. rewrite depthIn_skip in ED by exact C'.
    pose proof (depthIn_range _ _ _ ED) as R. cbn [CommonLevels SrcLevels] in B.
    destruct (Nat.ltb_spec (length common) D); [lia|]. congruence. }
  intros (_ & _ & [A|A]) (_ & _ & [B|B]); try congruence.
  - exact (SD _ _ A B).
  - symmetry. exact (SD _ _ B A).
Qed.
Lemma mentions_loops (Src Dst : expr Env) c Loops : classifyPair _ srcNest dstNest outDepth lv Src Dst = Some (c, Loops) ->
  incl (map fst (eRecs _ Src)) srcNest -> incl (map fst (eRecs _ Dst)) dstNest ->
  (forall K, Loops K = true -> exists L, mentions (Linear _ Src Dst) L /\ levelOf L K) /\
  (forall L K, mentions (Linear _ Src Dst) L -> levelOf L K -> Loops K = true).
Proof.
  intros EC IS ID. destruct (classify_inv _ _ _ _ EC) as (_ & _ & LB & _). split.
  - intros K H. apply LB in H. destruct H as [(L & a & I & <-)|(L & a & I & <-)]; apply (in_map fst) in I; cbn [fst] in I; exists L.
    + split; [now left|]. apply in_src_level. now apply IS.
    + split; [now right|]. apply in_dst_level. now apply ID.
  - intros L K M LO. apply LB. destruct M as [M|M].
    + left. pose proof (in_src_level L (IS L M)) as LO'. rewrite (levelOf_fun _ _ _ LO LO').
      apply in_map_iff in M. destruct M as ([L' a] & E & I). cbn in E. subst. exists L, a. auto.
    + right. pose proof (in_dst_level L (ID L M)) as LO'. rewrite (levelOf_fun _ _ _ LO LO').
      apply in_map_iff in M. destruct M as ([L' a] & E & I). cbn in E. subst. exists L, a. auto.
Qed.

Section Subs.
Variable subs : list (subscript Env).
Hypothesis WF : wellFormed srcNest dstNest subs.
Variable l : list (pair Env).
Hypothesis EI : initPairs Env srcNest dstNest outDepth lv 0 subs = Some l.
Notation n := (length subs).
Notation ps0 := (asMap _ l).
Notation pt := (partition _ lv n ps0).

Lemma init_at P : P < n -> exists sub, nth_error subs P = Some sub /\ initPair Env srcNest dstNest outDepth lv P sub = Some (ps0 P).
Proof.
  intro L. destruct (nth_error subs P) as [sub|] eqn:E; [|apply nth_error_None in E; lia].
  exists sub. split; [reflexivity|]. destruct (initPairs_nth _ _ _ EI) as [_ H]. exact (H P sub E).
Qed.
Lemma init_linear P Src Dst : nth_error subs P = Some (Linear _ Src Dst) ->
  P < n /\ pSub _ (ps0 P) = Linear _ Src Dst /\
  classifyPair _ srcNest dstNest outDepth lv Src Dst = Some (pCls _ (ps0 P), pLoops _ (ps0 P)).
Proof.
  intro E. assert (L : P < n) by (apply nth_error_Some; congruence). split; [exact L|].
  destruct (init_at P L) as (sub & E' & H). rewrite E in E'. injection E' as <-. cbn [initPair] in H.
  destruct (classifyPair _ srcNest dstNest outDepth lv Src Dst) as [[c Loops]|]; [|discriminate].
  assert (X : ps0 P = mkPair _ (Linear _ Src Dst) c Loops Loops (Nat.eqb P)) by congruence. rewrite X. auto.
Qed.
Lemma isLinear_at P : P < n -> isLinear _ (ps0 P) = true <-> exists Src Dst, nth_error subs P = Some (Linear _ Src Dst).
Proof.
  intro L. destruct (init_at P L) as (sub & E & H). destruct sub as [Src Dst|B]; cbn [initPair] in H.
  - destruct (init_linear P Src Dst E) as (_ & X & _). unfold isLinear. rewrite X. split; eauto.
  - injection H as H. unfold isLinear. rewrite <- H. cbn [pSub]. split; [discriminate|].
    intros (Src & Dst & X). rewrite E in X. discriminate.
Qed.
Lemma part_init :
  (forall P, P < n -> forall R, pGroup _ (ps0 P) R = Nat.eqb P R) /\
  (forall P, P < n -> active ps0 P = true -> pGroupLoops _ (ps0 P) = pLoops _ (ps0 P) /\
     exists K, K < NL lv /\ pLoops _ (ps0 P) K = true) /\
  (forall P, P < n -> active ps0 P = false -> forall K, K < NL lv -> pGroupLoops _ (ps0 P) K = false).
Proof.
  assert (X : forall P, P < n -> (forall R, pGroup _ (ps0 P) R = Nat.eqb P R) /\
    (active ps0 P = true -> pGroupLoops _ (ps0 P) = pLoops _ (ps0 P) /\ exists K, K < NL lv /\ pLoops _ (ps0 P) K = true) /\
    (active ps0 P = false -> forall K, K < NL lv -> pGroupLoops _ (ps0 P) K = false)).
  { intros P L. destruct (init_at P L) as (sub & E & H). destruct sub as [Src Dst|B]; cbn [initPair] in H.
    - destruct (classifyPair _ srcNest dstNest outDepth lv Src Dst) as [[c Loops]|] eqn:EC; [|discriminate].
      assert (X : ps0 P = mkPair _ (Linear _ Src Dst) c Loops Loops (Nat.eqb P)) by congruence.
      unfold active, isLinear. rewrite X. cbn [pSub pCls pLoops pGroupLoops pGroup].
      destruct (classify_inv _ _ _ _ EC) as (Z & _ & _ & LT).
      assert (HAS : c <> ZIV -> exists K, K < NL lv /\ Loops K = true).
      { intro NZ. destruct (existsb Loops (seq 0 (NL lv))) eqn:EX.
        - apply existsb_exists in EX. destruct EX as (K & I & B). exists K. split; [apply LT; exact B|exact B].
        - exfalso. apply NZ. apply Z. intros K LK. apply not_true_is_false. intro B.
          assert (Y : existsb Loops (seq 0 (NL lv)) = true) by (apply existsb_exists; exists K; split; [apply in_seq; lia|exact B]).
          congruence. }
      split; [reflexivity|]. split; intro A.
      + split; [reflexivity|]. apply HAS. intro E'. rewrite E' in A. discriminate.
      + assert (CZ : c = ZIV) by (destruct c; try discriminate; reflexivity). exact (proj1 Z CZ).
    - assert (X : ps0 P = mkPair _ (NonLinear _ B) MIV B noBits (Nat.eqb P)) by congruence.
      unfold active, isLinear. rewrite X. cbn. repeat split; try discriminate; reflexivity. }
  split; [|split]; intros P L; apply (X P L).
Qed.
Definition spec := partition_spec lv n ps0 (proj1 part_init) (proj1 (proj2 part_init)) (proj2 (proj2 part_init)).

Lemma shares_iff P R : shares lv n ps0 P R <-> sharesLoop subs P R.
Proof.
  split.
  - intros (LP & LR & AP & AR & K & LK & B1 & B2).
    pose proof (active_linear ps0 _ AP) as IP. pose proof (active_linear ps0 _ AR) as IR.
    apply (isLinear_at P LP) in IP. apply (isLinear_at R LR) in IR.
    destruct IP as (S1 & D1 & E1). destruct IR as (S2 & D2 & E2).
    destruct (init_linear _ _ _ E1) as (_ & _ & C1). destruct (init_linear _ _ _ E2) as (_ & _ & C2).
    destruct (WF _ _ (nth_error_In _ _ E1)) as (_ & _ & W1 & W2).
    destruct (WF _ _ (nth_error_In _ _ E2)) as (_ & _ & W3 & W4).
    destruct (mentions_loops _ _ _ _ C1 W1 W2) as [M1 _]. destruct (mentions_loops _ _ _ _ C2 W3 W4) as [M2 _].
    destruct (M1 K B1) as (L & ML & LO). destruct (M2 K B2) as (L' & ML' & LO').
    rewrite (levelOf_inj s d common ND _ _ _ LO' LO) in ML'. exists (Linear _ S1 D1), (Linear _ S2 D2), L. auto.
  - intros (sub & sub' & L & E1 & E2 & M1 & M2).
    destruct sub as [S1 D1|B]; [|destruct M1]. destruct sub' as [S2 D2|B]; [|destruct M2].
    destruct (init_linear _ _ _ E1) as (LP & X1 & C1). destruct (init_linear _ _ _ E2) as (LR & X2 & C2).
    destruct (WF _ _ (nth_error_In _ _ E1)) as (_ & _ & W1 & W2).
    destruct (WF _ _ (nth_error_In _ _ E2)) as (_ & _ & W3 & W4).
    destruct (mentions_loops _ _ _ _ C1 W1 W2) as [_ M3]. destruct (mentions_loops _ _ _ _ C2 W3 W4) as [_ M4].
    assert (LO : exists K, levelOf L K).
    { destruct M1 as [M1|M1]; eexists; [apply in_src_level; now apply W1|apply in_dst_level; now apply W2]. }
    destruct LO as (K & LO). pose proof (M3 L K M1 LO) as B1. pose proof (M4 L K M2 LO) as B2.
    destruct (classify_inv _ _ _ _ C1) as (Z1 & _ & _ & LT1). destruct (classify_inv _ _ _ _ C2) as (Z2 & _ & _ & LT2).
    assert (ACT : forall Q S0 D0, pSub _ (ps0 Q) = Linear _ S0 D0 -> pCls _ (ps0 Q) <> ZIV -> active ps0 Q = true).
    { intros Q S0 D0 X NZ. unfold active, isLinear. rewrite X. destruct (pCls _ (ps0 Q)); auto; now destruct NZ. }
    repeat split; auto.
    + apply (ACT P _ _ X1). intro Z. rewrite (proj1 Z1 Z K (LT1 K B1)) in B1. discriminate.
    + apply (ACT R _ _ X2). intro Z. rewrite (proj1 Z2 Z K (LT2 K B2)) in B2. discriminate.
    + exists K. auto.
Qed.
Lemma linked_iff P R : linked lv n ps0 P R <-> connected subs P R.
Proof.
  unfold linked, connected. split; induction 1.
  - apply rt_step. now apply shares_iff.
  - apply rt_refl.
  - eapply rt_trans; eassumption.
  - apply rt_step. now apply shares_iff.
  - apply rt_refl.
  - eapply rt_trans; eassumption.
Qed.

(* a member of a coupled group with several loops *)
Lemma coupled_shares P : cplP n pt P -> exists P', P' <> P /\ sharesLoop subs P P'.
Proof.
  intros (SI & LS & C & G). destruct spec as (_ & S2 & S3 & _ & S5 & _).
  assert (T : isTop pt SI) by (right; exact C).
  assert (LK : linked lv n ps0 SI P) by (apply (S2 SI P T); exact G).
  assert (X : exists R, R <> P /\ linked lv n ps0 P R).
  { destruct (Nat.eq_dec SI P) as [E|NE].
    - subst SI. destruct (S5 P C) as (R & NR & GR). exists R. split; [exact NR|]. apply (S2 P R T). exact GR.
    - exists SI. split; [exact NE|]. apply linked_sym. exact LK. }
  destruct X as (R & NR & LR). unfold linked in LR. apply clos_rt_rt1n in LR.
  revert NR. induction LR as [P|P Y R H LR IH]; intro NR; [now destruct NR|].
  destruct (Nat.eq_dec Y P) as [E|NE].
  - subst Y. apply IH; auto.
  - exists Y. split; [exact NE|]. now apply shares_iff.
Qed.
Lemma loose_no_prop P : looselyCoupled subs -> P < n -> mv n pt P -> False.
Proof.
  intros LC LP (CP & NS). destruct spec as (_ & _ & _ & _ & _ & S6).
  destruct (coupled_shares P CP) as (P' & NE & H).
  pose proof (proj2 (shares_iff P P') H) as SH. destruct SH as (_ & _ & AP & _).
  destruct H as (sub & sub' & L & E1 & E2 & M1 & M2).
  destruct sub as [Src Dst|]; [|destruct M1].
  destruct (init_linear _ _ _ E1) as (_ & X & C). destruct (S6 P) as (_ & EC & _). rewrite EC in NS.
  destruct (WF _ _ (nth_error_In _ _ E1)) as (_ & _ & W1 & W2).
  destruct (classify_inv _ _ _ _ C) as (_ & TWO & _ & _).
  assert (NZ : pCls _ (ps0 P) <> ZIV).
  { intro Z. unfold active in AP. rewrite Z in AP. now rewrite andb_false_r in AP. }
  destruct (TWO NZ NS) as (K1 & K2 & NK & _ & _ & B1 & B2).
  destruct (mentions_loops _ _ _ _ C W1 W2) as [ML _].
  destruct (ML K1 B1) as (L1 & ML1 & LO1). destruct (ML K2 B2) as (L2 & ML2 & LO2).
  assert (NL12 : L1 <> L2) by (intro E; subst; apply NK; eapply levelOf_fun; eassumption).
  exact (LC P P' _ _ L L1 L2 (not_eq_sym NE) E1 E2 ML1 ML2 NL12 M1 M2).
Qed.

(** ** Soundness *)
Context (Or : oracle Env) (Q : miv Env) (same : scev Env -> scev Env -> bool)
  (UB : loop -> option (scev Env)) (Bits : Z).
Hypothesis SO : soundOracle Or.
Hypothesis SQ : soundQueries Q.
Hypothesis SS : soundSame Or same.
Hypothesis ENC : forall a b, seEnclosing _ Or a b = true.
Hypothesis INVQ : forall recs start L, seInvariantIn _ Q recs start L = true -> ~ In L (map fst recs).
Hypothesis BITS : (2 <= Bits)%Z.
Variables (e : Env) (x y : loop -> Z) (m : Z).
Notation all := (s ++ d ++ common).
Hypothesis BX : inNest UB e all x.
Hypothesis BY : inNest UB e all y.
Hypothesis MX : boundedBy UB m e all x.
Hypothesis MY : boundedBy UB m e all y.
Hypothesis COL : collide e subs x y.

Hypothesis TG : forall Src Dst, In (Linear _ Src Dst) subs -> tameSimple Or Bits m e Src Dst.
Lemma pt_pairs P : P < n -> pairOk s d common outDepth e x y (ptPairs _ pt P).
Proof.
  intro L. destruct spec as (_ & _ & _ & _ & _ & S6). destruct (S6 P) as (E1 & E2 & E3).
  unfold pairOk. rewrite E1, E2, E3. destruct (init_at P L) as (sub & E & H).
  destruct sub as [Src Dst|B].
  - destruct (init_linear _ _ _ E) as (_ & X & C). rewrite X.
    destruct (WF _ _ (nth_error_In _ _ E)) as (W1 & W2 & W3 & W4).
    split; [|exact C].
    split; [exact W1|]. split; [exact W2|].
    split; [intros z Z; apply (in_src s d common outDepth); now apply W3|].
    split; [intros z Z; apply (in_dst s d common outDepth); now apply W4|].
    exact (COL _ _ (nth_error_In _ _ E)).
  - cbn [initPair] in H. assert (X : pSub _ (ps0 P) = NonLinear _ B) by (injection H as H; now rewrite <- H). now rewrite X.
Qed.
Lemma pt_tame P Src Dst : P < n -> pSub _ (ptPairs _ pt P) = Linear _ Src Dst -> tameSimple Or Bits m e Src Dst.
Proof.
  intros L E. destruct spec as (_ & _ & _ & _ & _ & S6). destruct (S6 P) as (E1 & _ & _). rewrite E1 in E.
  destruct (init_at P L) as (sub & EN & H). destruct sub as [S1 D1|B].
  - destruct (init_linear _ _ _ EN) as (_ & X & _). rewrite X in E. injection E as <- <-.
    apply TG. eapply nth_error_In; exact EN.
  - cbn [initPair] in H. injection H as H. rewrite <- H in E. discriminate.
Qed.
Notation courseS := (courseOf Or Q same UB Bits srcNest dstNest outDepth lv subs).
Lemma core PLI : PLI = true \/ carried common x y ->
  (forall u, In u courseS -> Inv s d common outDepth e x y n pt u -> tameState Or Bits m e n u) ->
  match testSubscripts _ Or Q same UB Bits srcNest dstNest outDepth lv PLI subs with
  | Go f => fullOk common e x y PLI f | Disproved => False | _ => True end.
Proof.
  intros C TC. unfold testSubscripts. unfold courseOf in TC. cbv zeta in *. rewrite EI in *.
  pose proof (sep_ok Or Q same UB Bits SO SQ SS ENC BITS s d common outDepth ND e x y m BX BY MX MY n pt pt_pairs pt_tame
    (setBits n (ptSep _ pt)) (fun k I => proj1 (proj1 (setBits_iff n _ k) I)) ((fun _ => dvInit _), (CAny Env, 0))) as S1.
  assert (D0 : dvOk common e x y (fun _ => dvInit Env)).
  { intros K L A. split; [repeat split|]. intros X EX. discriminate EX. }
  specialize (S1 D0). unfold sepGood in S1.
  destruct (forEach (sepStep _ Or Q same UB Bits srcNest dstNest outDepth lv (ptPairs _ pt)) (setBits n (ptSep _ pt)) _) as [| | |[dv nc]]; cbn [bind]; auto.
  pose proof (groups_ok Or Q same UB Bits SO SQ SS ENC BITS s d common outDepth ND e x y m BX BY MX MY INVQ n pt
    pt_pairs dv nc S1 TC) as S2. unfold good in S2.
  destruct (forEach _ (setBits n (ptCpl _ pt)) _) as [| | |t]; cbn [bind]; auto.
  apply finish_ok; [|exact C]. apply dvOk_scalars. apply S2.
Qed.
Lemma sound_loose PLI : looselyCoupled subs -> PLI = true \/ carried common x y ->
  match testSubscripts _ Or Q same UB Bits srcNest dstNest outDepth lv PLI subs with
  | Go f => fullOk common e x y PLI f | Disproved => False | _ => True end.
Proof.
  intros LC C. apply core; [exact C|]. intros u _ V P Src Dst LP E.
  destruct (v_same _ _ _ _ _ _ _ _ _ _ V P) as [X|M]; [|destruct (loose_no_prop P LC LP M)].
  rewrite X in E. exact (pt_tame P Src Dst LP E).
Qed.
End Subs.

(** ** Loops which are not around an access do not matter *)
Lemma recsValue_ext (recs : list (loop * scev Env)) e x x' :
  (forall L, In L (map fst recs) -> x L = x' L) -> recsValue recs e x = recsValue recs e x'.
Proof.
  induction recs as [|(L, a) recs IH]; intro H; [reflexivity|]. cbn [recsValue].
  rewrite IH by (intros M I; apply H; now right). rewrite (H L) by (now left). reflexivity.
Qed.
Definition inB (nest : list loop) (L : loop) : bool := existsb (Nat.eqb L) nest.
Lemma inB_iff nest L : inB nest L = true <-> In L nest.
Proof.
  unfold inB. rewrite existsb_exists. split.
  - intros (M & I & E). apply Nat.eqb_eq in E. now subst.
  - intro I. exists L. split; [exact I|apply Nat.eqb_refl].
Qed.
Definition normX (x y : loop -> Z) (L : loop) : Z := if inB srcNest L then x L else y L.
Definition normY (x y : loop -> Z) (L : loop) : Z := if inB dstNest L then y L else x L.
Lemma normX_in x y L : In L srcNest -> normX x y L = x L.
Proof. intro I. unfold normX. apply inB_iff in I. now rewrite I. Qed.
Lemma normY_in x y L : In L dstNest -> normY x y L = y L.
Proof. intro I. unfold normY. apply inB_iff in I. now rewrite I. Qed.
Lemma norm_all (A : loop -> Z -> Prop) x y :
  (forall L, In L srcNest -> A L (x L)) -> (forall L, In L dstNest -> A L (y L)) ->
  forall L, In L (s ++ d ++ common) -> A L (normX x y L) /\ A L (normY x y L).
Proof.
  intros H1 H2 L I. assert (J : In L srcNest \/ In L dstNest) by (rewrite !in_app_iff in *; tauto).
  unfold normX, normY. split.
  - destruct (inB srcNest L) eqn:E; [apply H1; now apply inB_iff|]. destruct J as [J|J]; [|auto].
    apply inB_iff in J. congruence.
  - destruct (inB dstNest L) eqn:E; [apply H2; now apply inB_iff|]. destruct J as [J|J]; [auto|].
    apply inB_iff in J. congruence.
Qed.
Lemma norm_collide (subs : list (subscript Env)) (e : Env) x y : wellFormed srcNest dstNest subs -> collide e subs x y -> collide e subs (normX x y) (normY x y).
Proof.
  intros WF C Src Dst I. destruct (WF Src Dst I) as (_ & _ & W3 & W4). specialize (C Src Dst I).
  unfold conflict, value in *.
  rewrite (recsValue_ext (eRecs _ Src) e (normX x y) x) by (intros L J; apply normX_in; now apply W3).
  rewrite (recsValue_ext (eRecs _ Dst) e (normY x y) y) by (intros L J; apply normY_in; now apply W4).
  exact C.
Qed.
Lemma norm_common x y L : In L common -> normX x y L = x L /\ normY x y L = y L.
Proof. intro I. split; [apply normX_in|apply normY_in]; apply in_or_app; now right. Qed.
End Top.
