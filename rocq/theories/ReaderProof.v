(** Proofs about loading and storing of results of analysis, see ReaderSpec.v *)
From Coq Require Import List Bool Arith ZArith Lia.
From Verif Require Import ReaderModel ReaderSpec.
Import ListNotations.

(** ** Dependencies *)
Lemma writes_dec l : {writes l} + {~ writes l}.
Proof. unfold writes. apply in_dec. decide equality. Qed.
(** The nearest write before an iteration *)
Lemma nearest_before e j : forall i, i < j -> writes (it e i) -> exists k, i <= k /\ k < j /\ writes (it e k) /\ forall m, k < m -> m < j -> ~ writes (it e m).
Proof.
  intros i L W. remember (j - i) as n eqn:N. revert i L W N. induction n as [n IH] using lt_wf_ind. intros i L W N.
  destruct (lt_dec (S i) j) as [L2|L2].
  - assert (D : (exists m, i < m < j /\ writes (it e m)) \/ forall m, i < m -> m < j -> ~ writes (it e m)).
    { clear -L. assert (G : forall b, (exists m, i < m < b /\ writes (it e m)) \/ forall m, i < m -> m < b -> ~ writes (it e m)).
      - induction b as [|b [(m & M & W)|H]]; [right; intros; lia|left; exists m; split; [lia|exact W]|]. destruct (writes_dec (it e b)) as [W|W].
        + destruct (lt_dec i b) as [LB|LB]; [left; exists b; split; [lia|exact W]|right; intros m A B; lia].
        + right. intros m A B. destruct (Nat.eq_dec m b) as [->|NE]; [exact W|apply H; lia].
      - exact (G j). }
    destruct D as [(m & M & WM)|D]; [|exists i; repeat split; [lia|lia|exact W|exact D]].
    destruct (IH (j - m) ltac:(lia) m ltac:(lia) WM eq_refl) as (k & A & B & C & D). exists k. repeat split; [lia|exact B|exact C|exact D].
  - exists i. repeat split; [lia|exact L|exact W|intros; lia].
Qed.
Lemma nearest_after e : forall j i, i < j -> writes (it e j) -> exists k, i < k /\ k <= j /\ writes (it e k) /\ forall m, i < m -> m < k -> ~ writes (it e m).
Proof.
  induction j as [j IH] using lt_wf_ind. intros i L W.
  assert (D : (exists m, i < m < j /\ writes (it e m)) \/ forall m, i < m -> m < j -> ~ writes (it e m)).
  { clear -L. induction j as [|b IHb]; [right; intros; lia|]. destruct (lt_dec i b) as [LB|LB]; [|right; intros m A B; lia]. destruct (IHb LB) as [(m & M & W)|H]; [left; exists m; split; [lia|exact W]|].
    destruct (writes_dec (it e b)) as [W|W]; [left; exists b; split; [lia|exact W]|]. right. intros m A B. destruct (Nat.eq_dec m b) as [->|NE]; [exact W|apply H; lia]. }
  destruct D as [(m & M & WM)|D]; [|exists j; repeat split; [exact L|lia|exact W|exact D]].
  destruct (IH m ltac:(lia) i ltac:(lia) WM) as (k & A & B & C & D). exists k. repeat split; [exact A|lia|exact C|exact D].
Qed.
Lemma reads_only l : reads l -> ~ writes l -> exposed l.
Proof. destruct l as [|[] l]; intros R W; [destruct R|reflexivity|destruct W; now left]. Qed.
Lemma occurs_mk e k i j : i < j -> ends k (it e i) (it e j) -> (forall m, i < m -> m < j -> ~ writes (it e m)) -> occurs e k (j - i).
Proof. intros L EN B. split; [lia|]. exists i. replace (i + (j - i)) with j by lia. split; assumption. Qed.
Lemma independent_no e : (forall k n, ~ occurs e k n) -> independent e.
Proof.
  intros NO i j NE W.
  assert (NW : ~ writes (it e j)).
  { intro WJ. destruct (lt_dec i j) as [L|L].
    - destruct (nearest_before e j i L W) as (k & A & B & C & D). exact (NO KOut _ (occurs_mk e KOut k j B (conj C WJ) D)).
    - destruct (nearest_before e i j ltac:(lia) WJ) as (k & A & B & C & D). exact (NO KOut _ (occurs_mk e KOut k i B (conj C W) D)). }
  split; [|exact NW]. intro R. destruct (lt_dec i j) as [L|L].
  - destruct (nearest_before e j i L W) as (k & A & B & C & D). exact (NO KFlow _ (occurs_mk e KFlow k j B (conj C (reads_only _ R NW)) D)).
  - destruct (nearest_after e i j ltac:(lia) W) as (k & A & B & C & D). exact (NO KAnti _ (occurs_mk e KAnti j k A (conj R C) D)).
Qed.
Lemma noExposed_noFlow e : noExposed e -> forall n, ~ occurs e KFlow n.
Proof. intros NE n (_ & i & (_ & X) & _). exact (NE _ X). Qed.
(** Accesses to an independent variable have no dependencies *)
Lemma occurs_writes e k n : occurs e k n -> exists i, writes (it e i).
Proof. intros (_ & i & EN & _). destruct k; cbn in EN; destruct EN as (A & B); eauto. Qed.

Section Proof.
Variable isRed : nat -> exec -> Prop.
Variable isInd : exec -> Prop.
Variable inner : kind -> nat -> range -> exec -> Prop.
Notation claims := (claims isRed isInd inner).
Notation sound := (sound isRed isInd inner).
Definition noNull (d : desc) : Prop := forall k, depOf d k <> Some None.

Lemma used_false e : used e = false -> used e = true -> False.
Proof. intros -> H. discriminate. Qed.

Ltac clm := first [discriminate | tauto | (intros; discriminate) | eauto].
(** Traits without dependencies *)
Lemma sound_nodeps d (E : exec -> Prop) : flowD d = None -> antiD d = None -> outD d = None -> (forall e, E e -> claims d e) -> sound d E.
Proof. intros A B C H. split; [exact H|]. intros k p D. destruct k; cbn in D; congruence. Qed.
Lemma noNull_nodeps d : flowD d = None -> antiD d = None -> outD d = None -> noNull d.
Proof. intros A B C k. destruct k; cbn; congruence. Qed.

Lemma shared_ok d (E : exec -> Prop) : (forall e, E e -> independent e) -> sound d E -> sound (setShared d) E.
Proof.
  intros IN SO. apply sound_nodeps; try reflexivity. intros e I. destruct SO as (SO & _). destruct (SO e I) as [A1 A2 A3 A4 A5 A6 A7 A8 A9 A10 A11 A12 A13 A14 A15].
  constructor; cbn [setShared noAcc ro red ind flowD antiD outD priv shared lastP firstP secondP dynP ual depOf]; try (intros; discriminate); auto.
  - intros _ H. rewrite orb_true_r in H. discriminate.
  - intros [H|[H|H]]; now destruct H.
  - intros [] p r D; discriminate.
  - intros [] p i r D; discriminate.
Qed.
Lemma readonly_ok d (E : exec -> Prop) : (forall e, E e -> noWrites e) -> sound d E -> sound (setReadonly d) E.
Proof.
  intros IN SO. apply sound_nodeps; try reflexivity. intros e I. destruct SO as (SO & _). destruct (SO e I) as [A1 A2 A3 A4 A5 A6 A7 A8 A9 A10 A11 A12 A13 A14 A15].
  constructor; cbn [setReadonly noAcc ro red ind flowD antiD outD priv shared lastP firstP secondP dynP ual depOf]; try (intros; discriminate); auto.
  - intros [H|[H|H]]; now destruct H.
  - intros [] p r D; discriminate.
  - intros [] p i r D; discriminate.
Qed.
Lemma private_ok d (E : exec -> Prop) : (forall e, E e -> noExposed e) -> (forall e, E e -> used e = false) -> sound d E -> sound (setPrivate d) E.
Proof.
  intros IN US SO. apply sound_nodeps; try reflexivity. intros e I. destruct SO as (SO & _). destruct (SO e I) as [A1 A2 A3 A4 A5 A6 A7 A8 A9 A10 A11 A12 A13 A14 A15].
  constructor; cbn [setPrivate noAcc ro red ind flowD antiD outD priv shared lastP firstP secondP dynP ual depOf]; try (intros; discriminate); auto.
  - intros _ _ U. rewrite (US e I) in U. discriminate.
  - intros [H|[H|H]]; now destruct H.
  - intros [] p r D; discriminate.
  - intros [] p i r D; discriminate.
Qed.
Lemma dynamic_ok d (E : exec -> Prop) : (forall e, E e -> noExposed e) -> sound d E -> sound (setDynamic d) E.
Proof.
  intros IN SO. apply sound_nodeps; try reflexivity. intros e I. destruct SO as (SO & _). destruct (SO e I) as [A1 A2 A3 A4 A5 A6 A7 A8 A9 A10 A11 A12 A13 A14 A15].
  constructor; cbn [setDynamic noAcc ro red ind flowD antiD outD priv shared lastP firstP secondP dynP ual depOf]; try (intros; discriminate); auto.
  - intros [H|[H|H]]; now destruct H.
  - intros [] p r D; discriminate.
  - intros [] p i r D; discriminate.
Qed.
Lemma reduction_ok d (E : exec -> Prop) k : (forall e, E e -> isRed k e) -> sound d E -> sound (setReduction k d) E.
Proof.
  intros IN SO. apply sound_nodeps; try reflexivity. intros e I. destruct SO as (SO & _). destruct (SO e I) as [A1 A2 A3 A4 A5 A6 A7 A8 A9 A10 A11 A12 A13 A14 A15].
  constructor; cbn [setReduction noAcc ro red ind flowD antiD outD priv shared lastP firstP secondP dynP ual depOf]; try (intros; discriminate); auto.
  - intros k0 H. injection H as <-. exact (IN e I).
  - intros [H|[H|H]]; now destruct H.
  - intros [] p r D; discriminate.
  - intros [] p i r D; discriminate.
Qed.
Lemma unsetLast_ok d (E : exec -> Prop) : firstP d = true -> (forall e, E e -> used e = false) -> sound d E -> sound (unsetLast d) E.
Proof.
  intros F US (SO & RE). split; [|exact RE]. intros e I. destruct (SO e I) as [A1 A2 A3 A4 A5 A6 A7 A8 A9 A10 A11 A12 A13 A14 A15].
  constructor; cbn [unsetLast noAcc ro red ind flowD antiD outD priv shared lastP firstP secondP dynP ual]; try (intros; discriminate); auto.
  intros _ _ U. rewrite (US e I) in U. discriminate.
Qed.
Lemma setUal_ok d (E : exec -> Prop) : (forall e, E e -> used e = false) -> sound d E -> sound (setUal false d) E.
Proof.
  intros US (SO & RE). split; [|exact RE]. intros e I. destruct (SO e I) as [A1 A2 A3 A4 A5 A6 A7 A8 A9 A10 A11 A12 A13 A14 A15].
  constructor; cbn [setUal noAcc ro red ind flowD antiD outD priv shared lastP firstP secondP dynP ual]; auto.
Qed.
(** Changes of dependencies *)
Lemma setDeps_ok d (E : exec -> Prop) f a o : sound d E ->
  (forall e k n, E e -> occurs e k n -> depOf d k <> None -> depOf (setDeps f a o d) k <> None) ->
  (forall k, depOf (setDeps f a o d) k <> None -> depOf d k <> None) ->
  (forall e k p r, E e -> depOf (setDeps f a o d) k = Some (Some p) -> hd_error (dLv p) = Some r -> forall n, occurs e k n -> within r n) ->
  (forall e k p i r, E e -> depOf (setDeps f a o d) k = Some (Some p) -> nth_error (dLv p) (S i) = Some r -> inner k (S i) r e) ->
  (forall k p, depOf (setDeps f a o d) k = Some (Some p) -> dMay p = false -> exists e n, E e /\ occurs e k n) ->
  sound (setDeps f a o d) E.
Proof.
  intros (SO & RE) H1 H2 H3 H4 H5. split; [|exact H5]. intros e I. destruct (SO e I) as [A1 A2 A3 A4 A5 A6 A7 A8 A9 A10 A11 A12 A13 A14 A15].
  constructor; try exact A1; try exact A2; try exact A3; try exact A4; try exact A5; try exact A6; try exact A7; try exact A8; try exact A9; try exact A10; try exact A11; try exact A15.
  - intros H k n OC. apply (H1 e k n I OC). apply (A12) with (n := n); [|exact OC]. destruct H as [H|[H|H]]; [left; exact (H2 KFlow H)|right; left; exact (H2 KAnti H)|right; right; exact (H2 KOut H)].
  - intros k p r D Hd. exact (H3 e k p r I D Hd).
  - intros k p i r D Hn. exact (H4 e k p i r I D Hn).
Qed.

(** ** Loading of one file *)
Definition all := Conds true true true true.
Lemma updateDeps_ok f (E : exec -> Prop) d : describes isRed all f E -> ePriv f = false -> eRed f = None -> noNull d -> sound d E ->
  exists d1, updateDeps f d = Ok d1 /\ sound d1 E /\ noNull d1 /\ (forall e, E e -> used e = false -> True).
Proof.
  intros [W R U RD PR DP FR AR OR] P0 R0 NN SO. pose proof SO as (SC & SR).
  pose (nf := match eFlow f, flowD d with Some r, Some (Some p) => Some (Some (Dep false [] (r :: tl (dLv p)))) | Some _, t => t | None, _ => None end).
  pose (na := match eAnti f, antiD d with Some r, Some (Some p) => Some (Some (Dep false [] (r :: tl (dLv p)))) | Some _, t => t | None, _ => None end).
  pose (no := match eOut f, outD d with true, Some (Some p) => Some (Some (Dep false [] (dLv p))) | true, t => t | false, _ => None end).
  assert (EQ : updateDeps f d = Ok (setDeps nf na no d)).
  { unfold updateDeps, updateAntiFlow, updateOutput, nf, na, no. pose proof (NN KFlow) as N1. pose proof (NN KAnti) as N2. pose proof (NN KOut) as N3. cbn [depOf] in N1, N2, N3.
    destruct (eFlow f), (eAnti f), (eOut f), (flowD d) as [[|]|], (antiD d) as [[|]|], (outD d) as [[|]|]; cbn [bindO isSome]; try reflexivity; congruence. }
  assert (LI : forall e k n, E e -> occurs e k n -> listed f k n) by (intros e k n I OC; exact (DP e k n I OC (or_introl eq_refl))).
  exists (setDeps nf na no d). split; [exact EQ|]. split; [|split; [|trivial]].
  - apply setDeps_ok; [exact SO| | | | |].
    + intros e k n I OC D. pose proof (LI e k n I OC) as L. destruct k; cbn [depOf setDeps flowD antiD outD listed] in *; unfold nf, na, no.
      * destruct L as (r & -> & _). destruct (flowD d) as [[p|]|]; [discriminate|discriminate|now destruct D].
      * destruct L as (r & -> & _). destruct (antiD d) as [[p|]|]; [discriminate|discriminate|now destruct D].
      * rewrite L. destruct (outD d) as [[p|]|]; [discriminate|discriminate|now destruct D].
    + intros k. destruct k; cbn [depOf setDeps flowD antiD outD]; unfold nf, na, no.
      * destruct (eFlow f), (flowD d) as [[p|]|]; congruence.
      * destruct (eAnti f), (antiD d) as [[p|]|]; congruence.
      * destruct (eOut f), (outD d) as [[p|]|]; congruence.
    + intros e k p r I D H n OC. pose proof (LI e k n I OC) as L. destruct (SC e I) as [_ _ _ _ _ _ _ _ _ _ _ _ CD _ _]. destruct k; cbn [depOf setDeps flowD antiD outD listed] in *; unfold nf, na, no in D.
      * destruct L as (r2 & E2 & WI). rewrite E2 in D. destruct (flowD d) as [[q|]|]; [injection D as <-|discriminate|discriminate]. cbn [dLv hd_error] in H. injection H as <-. exact WI.
      * destruct L as (r2 & E2 & WI). rewrite E2 in D. destruct (antiD d) as [[q|]|]; [injection D as <-|discriminate|discriminate]. cbn [dLv hd_error] in H. injection H as <-. exact WI.
      * rewrite L in D. destruct (outD d) as [[q|]|] eqn:Q; [injection D as <-|discriminate|discriminate]. cbn [dLv] in H. exact (CD KOut q r Q H n OC).
    + intros e k p i r I D H. destruct (SC e I) as [_ _ _ _ _ _ _ _ _ _ _ _ _ CI _]. destruct k; cbn [depOf setDeps flowD antiD outD] in *; unfold nf, na, no in D.
      * destruct (eFlow f); [|discriminate]. destruct (flowD d) as [[q|]|] eqn:Q; [injection D as <-|discriminate|discriminate]. cbn [dLv nth_error] in H. apply (CI KFlow q i r Q). destruct (dLv q); [destruct i; discriminate|exact H].
      * destruct (eAnti f); [|discriminate]. destruct (antiD d) as [[q|]|] eqn:Q; [injection D as <-|discriminate|discriminate]. cbn [dLv nth_error] in H. apply (CI KAnti q i r Q). destruct (dLv q); [destruct i; discriminate|exact H].
      * destruct (eOut f); [|discriminate]. destruct (outD d) as [[q|]|] eqn:Q; [injection D as <-|discriminate|discriminate]. cbn [dLv] in H. exact (CI KOut q i r Q H).
    + intros k p D _. destruct k; cbn [depOf setDeps flowD antiD outD] in *; unfold nf, na, no in D.
      * apply FR. destruct (eFlow f); [discriminate|discriminate].
      * apply AR. destruct (eAnti f); [discriminate|discriminate].
      * apply OR. destruct (eOut f); [reflexivity|discriminate].
  - intros k. pose proof (NN k) as N. destruct k; cbn [depOf setDeps flowD antiD outD] in *; unfold nf, na, no.
    + destruct (eFlow f), (flowD d) as [[q|]|]; congruence.
    + destruct (eAnti f), (antiD d) as [[q|]|]; congruence.
    + destruct (eOut f), (outD d) as [[q|]|]; congruence.
Qed.

Lemma noNull_setUal d u : noNull d -> noNull (setUal u d).
Proof. intros N k. specialize (N k). destruct k; exact N. Qed.
Lemma update_ok f (E : exec -> Prop) d : describes isRed all f E -> noNull d -> sound d E -> exists d1, update f d = Ok d1 /\ sound d1 E /\ noNull d1.
Proof.
  intros DS NN SO. pose proof DS as [W R U RD PR DP FR AR OR]. unfold update. destruct (skipped d); [exists d; split; [reflexivity|split; assumption]|].
  assert (US : eUal f = false -> forall e, E e -> used e = false). { intros H e I. destruct (used e) eqn:UE; [|reflexivity]. rewrite (U e I UE) in H. discriminate. }
  assert (G : exists d1, updateAlt f d = Ok d1 /\ sound d1 E /\ noNull d1).
  { unfold updateAlt. destruct (onlyAccess f) eqn:OA.
    - unfold onlyAccess in OA. rewrite !andb_true_iff, !negb_true_iff in OA. destruct OA as ((((A & B) & C) & D) & F).
      assert (NO : forall e, E e -> forall k n, ~ occurs e k n).
      { intros e I k n OC. pose proof (DP e k n I OC (or_introl eq_refl)) as L. destruct k; cbn [listed] in L; [destruct L as (r & L & _); rewrite L in F; discriminate|destruct L as (r & L & _); rewrite L in D; discriminate|congruence]. }
      eexists. split; [reflexivity|]. destruct (eW f) eqn:WF.
      + split; [apply shared_ok; [|exact SO]; intros e I; exact (independent_no e (NO e I))|now apply noNull_nodeps].
      + split; [apply readonly_ok; [|exact SO]; intros e I i WI; pose proof (W e i I WI); congruence|now apply noNull_nodeps].
    - destruct (ePriv f) eqn:PF.
      + assert (NE : forall e, E e -> noExposed e) by (intros e I; exact (PR e I eq_refl)).
        pose (d1 := if negb (eUal f) then setPrivate d else if anyDep d then setDynamic d else d).
        assert (S1 : sound d1 E /\ noNull d1).
        { unfold d1. destruct (eUal f) eqn:UF; cbn [negb]; [|split; [apply private_ok; [exact NE|exact (US eq_refl)|exact SO]|now apply noNull_nodeps]]. destruct (anyDep d); [split; [now apply dynamic_ok|now apply noNull_nodeps]|now split]. }
        fold d1. eexists. split; [reflexivity|]. destruct (negb (isSome (eFlow f)) && negb (isSome (eAnti f)) && negb (eOut f)) eqn:ND; [|exact S1].
        rewrite !andb_true_iff, !negb_true_iff in ND. destruct ND as ((F & D) & C). split; [|now apply noNull_nodeps]. apply shared_ok; [|apply S1]. intros e I. apply independent_no. intros k n OC.
        pose proof (DP e k n I OC (or_introl eq_refl)) as L. destruct k; cbn [listed] in L; [destruct L as (r & L & _); rewrite L in F; discriminate|destruct L as (r & L & _); rewrite L in D; discriminate|congruence].
      + destruct (firstP d) eqn:FP.
        * eexists. split; [reflexivity|]. destruct (eUal f) eqn:UF; cbn [negb]; [now split|]. split; [apply unsetLast_ok; [exact FP|exact (US eq_refl)|exact SO]|]. intros k. exact (NN k).
        * destruct (eRed f) as [k|] eqn:RF; [eexists; split; [reflexivity|]; split; [apply reduction_ok; [|exact SO]; intros e I; exact (RD e k I eq_refl)|now apply noNull_nodeps]|].
          destruct (updateDeps_ok f E d DS PF RF NN SO) as (d1 & E1 & S1 & N1 & _). exists d1. now split. }
  destruct G as (d1 & E1 & S1 & N1). rewrite E1. cbn [bindO]. eexists. split; [reflexivity|]. destruct (eUal f) eqn:UF; cbn [negb]; [now split|]. split; [apply setUal_ok; [exact (US eq_refl)|exact S1]|now apply noNull_setUal].
Qed.
Lemma describes_ext X f (E1 E2 : exec -> Prop) : (forall e, E1 e <-> E2 e) -> describes isRed X f E1 -> describes isRed X f E2.
Proof.
  intros EQ [W R U RD PR DP FR AR OR]. constructor.
  - intros e i I. apply W. now apply EQ.
  - intros e i I. apply R. now apply EQ.
  - intros e I. apply U. now apply EQ.
  - intros e k I. apply RD. now apply EQ.
  - intros e I. apply PR. now apply EQ.
  - intros e k n I. apply DP. now apply EQ.
  - intro H. destruct (FR H) as (e & n & I & OC). exists e, n. split; [now apply EQ|exact OC].
  - intro H. destruct (AR H) as (e & n & I & OC). exists e, n. split; [now apply EQ|exact OC].
  - intro H. destruct (OR H) as (e & n & I & OC). exists e, n. split; [now apply EQ|exact OC].
Qed.
Lemma loadAll_ok (E : exec -> Prop) : forall fs d, Forall (fun f => describes isRed all f E) fs -> noNull d -> sound d E ->
  exists d1, loadAll (map Some fs) d = Ok d1 /\ sound d1 E.
Proof.
  induction fs as [|f fs IH]; intros d FA NN SO; [exists d; now split|]. inversion FA as [|? ? DS FA2]; subst. destruct (update_ok f E d DS NN SO) as (d1 & E1 & S1 & N1). cbn [map loadAll]. rewrite E1. cbn [bindO]. exact (IH d1 FA2 N1 S1).
Qed.
End Proof.

Lemma C74_proof : C74_claim (Conds true true true true).
Proof.
  intros isRed isInd inner fs d E EQ FD FA NN SO. specialize (FA eq_refl). specialize (NN eq_refl). cbn in NN.
  rewrite <- (map_map fst Some fs). apply loadAll_ok; [|exact NN|exact SO]. rewrite Forall_forall in *. intros f I. apply in_map_iff in I. destruct I as (q & <- & I).
  apply (describes_ext isRed _ _ (snd q)); [|exact (FD q I)]. intro e. split; [|exact (FA q I e)]. intro H. apply EQ. apply Exists_exists. exists q. now split.
Qed.

(** ** Writing and loading *)
Lemma wrap32_id z : (- 2 ^ 31 <= z < 2 ^ 31)%Z -> wrap32 z = z.
Proof. intro H. unfold wrap32. rewrite Z.mod_small; lia. Qed.
Lemma store_id z y : (forall x, z = Some x -> (- 2 ^ 31 <= x < 2 ^ 31)%Z) -> store z = Some y -> z = Some y.
Proof. intros B S. destruct z as [z|]; [|discriminate]. cbn in S. destruct (_ && _); [|discriminate]. injection S as <-. f_equal. symmetry. apply wrap32_id. exact (B z eq_refl). Qed.
Lemma C74_roundtrip_proof : C74_roundtrip_claim (CondsW true true true true true true).
Proof.
  intros isRed isInd inner d E YP YF YA YI YM YN SO. specialize (YP eq_refl). specialize (YA eq_refl). specialize (YI eq_refl). specialize (YM eq_refl). specialize (YN eq_refl). cbn in YN. pose proof (YF eq_refl) as FP. clear YF. rename YP into PS.
  unfold roundTrip, loadAll. destruct (write d) as [f|] eqn:WR; [|exists d; now split].
  unfold write in WR. unfold update. destruct (skipped d) eqn:SK; [cbn [bindO]; exists d; now split|]. unfold skipped in SK. rewrite !orb_false_iff in SK. destruct SK as (((N1 & N2) & N3) & N4). rewrite N1, N2, N4 in WR. destruct (red d) eqn:RD; [discriminate|]. clear N3.
  pose proof SO as (SC & SR).
  assert (UAL : forall d1, sound isRed isInd inner d1 E -> sound isRed isInd inner (if negb (ual d) then setUal false d1 else d1) E).
  { intros d1 S1. destruct (ual d) eqn:UD; cbn [negb]; [exact S1|]. apply setUal_ok; [|exact S1]. intros e I. destruct (SC e I) as [_ _ _ _ _ _ _ _ _ _ _ _ _ _ CU]. exact (CU UD). }
  assert (FIN : forall d1, updateAlt f d = Ok d1 -> eUal f = ual d -> sound isRed isInd inner d1 E ->
    exists d2, bindO (bindO (updateAlt f d) (fun d0 => Ok (if negb (eUal f) then setUal false d0 else d0))) (fun d0 => Ok d0) = Ok d2 /\ sound isRed isInd inner d2 E).
  { intros d1 E1 EU S1. rewrite E1, EU. cbn [bindO]. eexists. split; [reflexivity|]. exact (UAL d1 S1). }
  destruct (priv d || dynP d || secondP d) eqn:PD.
  - injection WR as <-. assert (SH : shared d = true). { apply PS. destruct (priv d), (dynP d), (secondP d); try discriminate; reflexivity. }
    assert (IN : forall e, E e -> independent e) by (intros e I; destruct (SC e I) as [_ _ _ _ C _ _ _ _ _ _ _ _ _ _]; exact (C SH)).
    assert (NE : forall e, E e -> noExposed e). { intros e I. destruct (SC e I) as [_ _ _ _ _ CP CL _ _ _ _ _ _ _ _]. destruct (priv d) eqn:PV; [exact (CP eq_refl)|]. apply CL; [|exact FP]. destruct (lastP d), (dynP d), (secondP d); try discriminate; reflexivity. }
    eapply FIN; [unfold updateAlt; cbn [onlyAccess eRed ePriv eOut eAnti eFlow eW eR eUal isSome negb andb]; reflexivity|reflexivity|].
    apply shared_ok; [exact IN|]. destruct (ual d) eqn:UD; cbn [negb].
    + destruct (anyDep d); [now apply dynamic_ok|exact SO].
    + apply private_ok; [exact NE| |exact SO]. intros e I. destruct (SC e I) as [_ _ _ _ _ _ _ _ _ _ _ _ _ _ CU]. exact (CU UD).
  - rewrite FP in WR. destruct (shared d) eqn:SH.
    + injection WR as <-. eapply FIN; [unfold updateAlt; cbn [onlyAccess eRed ePriv eOut eAnti eFlow eW eR eUal isSome negb andb]; reflexivity|reflexivity|].
      apply shared_ok; [|exact SO]. intros e I. destruct (SC e I) as [_ _ _ _ C _ _ _ _ _ _ _ _ _ _]. exact (C SH).
    + destruct (anyDep d) eqn:AD.
      * injection WR as <-. pose (f := Entry None false (ual d) true true (isSome (outD d)) (if isSome (antiD d) then Some (storeRange (flowD d)) else None) (if isSome (flowD d) then Some (storeRange (flowD d)) else None)).
        fold f in FIN |- *. assert (OA : onlyAccess f = false). { unfold onlyAccess, f. cbn [eRed ePriv eOut eAnti eFlow isSome negb andb]. unfold anyDep in AD. destruct (flowD d), (antiD d), (outD d); try discriminate; reflexivity. }
        pose (nf := match flowD d with Some (Some p) => Some (Some (Dep false [] (storeRange (flowD d) :: tl (dLv p)))) | _ => None end).
        pose (na := match antiD d with Some (Some p) => Some (Some (Dep false [] (storeRange (flowD d) :: tl (dLv p)))) | _ => None end).
        pose (no := match outD d with Some (Some p) => Some (Some (Dep false [] (dLv p))) | _ => None end).
        assert (EQ : updateAlt f d = Ok (setDeps nf na no d)).
        { unfold updateAlt. rewrite OA. cbn [ePriv f]. rewrite FP. cbn [eRed]. unfold updateDeps, updateAntiFlow, updateOutput, nf, na, no, f. cbn [eAnti eFlow eOut]. pose proof (YN KFlow) as M1. pose proof (YN KAnti) as M2. pose proof (YN KOut) as M3. cbn [depOf] in M1, M2, M3.
          destruct (flowD d) as [[|]|], (antiD d) as [[|]|], (outD d) as [[|]|]; cbn [bindO isSome]; try reflexivity; congruence. }
        apply (FIN _ EQ eq_refl). apply setDeps_ok; [exact SO| | | | |].
        -- intros e k n I OC D. pose proof (YN k) as M. destruct k; cbn [depOf setDeps flowD antiD outD] in *; unfold nf, na, no; [destruct (flowD d) as [[|]|]|destruct (antiD d) as [[|]|]|destruct (outD d) as [[|]|]]; congruence.
        -- intros k. destruct k; cbn [depOf setDeps flowD antiD outD]; unfold nf, na, no; [destruct (flowD d) as [[|]|]|destruct (antiD d) as [[|]|]|destruct (outD d) as [[|]|]]; congruence.
        -- intros e k p r I D H n OC. destruct (SC e I) as [_ _ _ _ _ _ _ _ _ _ _ _ CD _ _]. destruct k; cbn [depOf setDeps flowD antiD outD] in *; unfold nf, na, no in D.
           ++ destruct (flowD d) as [[q|]|] eqn:Q; [injection D as <-|discriminate|discriminate]. cbn [dLv hd_error storeRange] in H. injection H as <-. destruct (dLv q) as [|r0 rs] eqn:LV; [split; cbn [fst snd]; discriminate|].
              assert (H0 : hd_error (dLv q) = Some r0) by now rewrite LV. destruct (CD KFlow q r0 Q H0 n OC) as (CL & CH). split; cbn [fst snd].
              ** intros l Hl. apply CL. apply (store_id _ _ (fun x X => YI KFlow q r0 x Q H0 (or_introl X)) Hl).
              ** intros h Hh. apply CH. apply (store_id _ _ (fun x X => YI KFlow q r0 x Q H0 (or_intror X)) Hh).
           ++ destruct (antiD d) as [[q|]|] eqn:Q; [injection D as <-|discriminate|discriminate]. destruct YA as [YA|YA]; [|congruence]. rewrite YA in H. cbn [dLv hd_error storeRange] in H. injection H as <-. split; cbn [fst snd]; discriminate.
           ++ destruct (outD d) as [[q|]|] eqn:Q; [injection D as <-|discriminate|discriminate]. cbn [dLv] in H. exact (CD KOut q r Q H n OC).
        -- intros e k p i r I D H. destruct (SC e I) as [_ _ _ _ _ _ _ _ _ _ _ _ _ CI _]. destruct k; cbn [depOf setDeps flowD antiD outD] in *; unfold nf, na, no in D.
           ++ destruct (flowD d) as [[q|]|] eqn:Q; [injection D as <-|discriminate|discriminate]. cbn [dLv nth_error] in H. apply (CI KFlow q i r Q). destruct (dLv q); [destruct i; discriminate|exact H].
           ++ destruct (antiD d) as [[q|]|] eqn:Q; [injection D as <-|discriminate|discriminate]. cbn [dLv nth_error] in H. apply (CI KAnti q i r Q). destruct (dLv q); [destruct i; discriminate|exact H].
           ++ destruct (outD d) as [[q|]|] eqn:Q; [injection D as <-|discriminate|discriminate]. cbn [dLv] in H. exact (CI KOut q i r Q H).
        -- intros k p D _. destruct k; cbn [depOf setDeps flowD antiD outD] in *; unfold nf, na, no in D.
           ++ destruct (flowD d) as [[q|]|] eqn:Q; [|discriminate|discriminate]. exact (SR KFlow q Q (YM KFlow q Q)).
           ++ destruct (antiD d) as [[q|]|] eqn:Q; [|discriminate|discriminate]. exact (SR KAnti q Q (YM KAnti q Q)).
           ++ destruct (outD d) as [[q|]|] eqn:Q; [|discriminate|discriminate]. exact (SR KOut q Q (YM KOut q Q)).
      * injection WR as <-. unfold anyDep in AD. rewrite !orb_false_iff in AD. destruct AD as ((A1 & A2) & A3).
        assert (EQ : updateAlt (Entry None false (ual d) true true true (Some (None, None)) (Some (None, None))) d = Ok (setDeps None None None d)).
        { unfold updateAlt. cbn [onlyAccess eRed ePriv eOut eAnti eFlow isSome negb andb]. rewrite FP. unfold updateDeps, updateAntiFlow, updateOutput. cbn [eAnti eFlow eOut]. destruct (flowD d), (antiD d), (outD d); try discriminate. reflexivity. }
        apply (FIN _ EQ eq_refl). replace (setDeps None None None d) with d; [exact SO|]. destruct d as [q1 q2 q3 q4 q5 q6 q7 q8 q9 q10 q11 q12 q13 q14]. cbn in A1, A2, A3. destruct q5, q6, q7; try discriminate. reflexivity.
Qed.

(** ** Search in a file *)
Lemma isKey_ok vs k i : isKey vs k i = true <-> nth_error vs i = Some (Some k).
Proof.
  unfold isKey, varKey. destruct (nth_error vs i) as [[k2|]|]; [rewrite Nat.eqb_eq|split; [discriminate|intro H; discriminate]|split; discriminate]. split; [intros ->; reflexivity|intro H; injection H as ->; reflexivity].
Qed.
Lemma lookupS_ok vs k l : lookupS vs k l = true <-> exists i, In i l /\ nth_error vs i = Some (Some k).
Proof. unfold lookupS. rewrite existsb_exists. split; intros (i & A & B); exists i; (split; [exact A|]); now apply isKey_ok. Qed.
Lemma lookupM_gen {A : Type} vs k (l : list (nat * A)) : forall r a, fold_left (fun r p => if isKey vs k (fst p) then Some (snd p) else r) l r = Some a ->
  r = Some a \/ exists i, In (i, a) l /\ nth_error vs i = Some (Some k).
Proof.
  induction l as [|[i b] l IH]; intros r a H; [now left|]. cbn [fold_left fst snd] in H. destruct (IH _ _ H) as [E|(j & J & K)]; [|right; exists j; split; [now right|exact K]].
  destruct (isKey vs k i) eqn:IK; [|now left]. injection E as ->. right. exists i. split; [now left|now apply isKey_ok].
Qed.
Lemma lookupM_none {A : Type} vs k (l : list (nat * A)) : forall r, fold_left (fun r p => if isKey vs k (fst p) then Some (snd p) else r) l r = None ->
  forall i a, In (i, a) l -> nth_error vs i <> Some (Some k).
Proof.
  assert (SM : forall (l : list (nat * A)) r, r <> None -> fold_left (fun r p => if isKey vs k (fst p) then Some (snd p) else r) l r <> None).
  { intro l0. induction l0 as [|[i b] l0 IH]; intros r H; [exact H|]. cbn [fold_left fst snd]. apply IH. destruct (isKey vs k i); [discriminate|exact H]. }
  induction l as [|[i b] l IH]; intros r H j a I; [destruct I|]. destruct I as [E|I]; cbn [fold_left fst snd] in H.
  - injection E as -> ->. intro K. apply isKey_ok in K. rewrite K in H. exact (SM l (Some a) ltac:(discriminate) H).
  - exact (IH _ H j a I).
Qed.
Lemma lookupM_ok {A : Type} vs k (l : list (nat * A)) : NoDup (map fst l) -> (forall i j, nth_error vs i = Some (Some k) -> nth_error vs j = Some (Some k) -> i = j) ->
  forall a, lookupM vs k l = Some a <-> exists i, In (i, a) l /\ nth_error vs i = Some (Some k).
Proof.
  intros ND UN a. unfold lookupM. split.
  - intro H. destruct (lookupM_gen vs k l _ _ H) as [E|E]; [discriminate|exact E].
  - intros (i & I & K). destruct (fold_left _ l None) as [b|] eqn:FL; [|destruct (lookupM_none vs k l _ FL i a I K)]. destruct (lookupM_gen vs k l _ _ FL) as [E|(j & J & K2)]; [discriminate|]. rewrite (UN j i K2 K) in J.
    f_equal. clear -ND I J. induction l as [|[x y] l IH]; [destruct I|]. cbn in ND. inversion ND as [|? ? NI ND2]; subst. destruct I as [EI|I], J as [EJ|J].
    + congruence.
    + injection EI as -> ->. destruct NI. apply in_map_iff. exists (i, b). now split.
    + injection EJ as -> ->. destruct NI. apply in_map_iff. exists (i, a). now split.
    + exact (IH ND2 I J).
Qed.
Lemma C74_lookup_proof : C74_lookup_claim true true.
Proof.
  intros I loc k UL UV ND. specialize (UL eq_refl). specialize (UV eq_refl). unfold external. destruct (findLoop I loc) as [L|] eqn:FL.
  - unfold findLoop in FL. apply find_some in FL. destruct FL as (LI & LL). destruct (lLoc L) as [l|] eqn:LO; [|discriminate]. apply Nat.eqb_eq in LL. subst l.
    assert (SS : forall sel, lookupS (vars I) k (sel L) = true <-> inS I sel loc k).
    { intro sel. rewrite lookupS_ok. split; [intros (i & A & B); exists L, i; repeat split; assumption|]. intros (L2 & i & A & B & C & D). exists i. rewrite (UL L L2 LI A LO B). now split. }
    assert (MM : forall (A : Type) (sel : loopRec -> list (nat * A)), NoDup (map fst (sel L)) -> forall a, lookupM (vars I) k (sel L) = Some a <-> inM I sel loc k a).
    { intros A sel N a. rewrite (lookupM_ok (vars I) k (sel L) N UV). split; [intros (i & H & B); exists L, i; repeat split; assumption|]. intros (L2 & i & H & B & C & D). exists i. rewrite (UL L L2 LI H LO B). now split. }
    destruct (ND L LI) as (D1 & D2 & D3). unfold lookup. cbn [eRed ePriv eUal eW eR eOut eAnti eFlow].
    pose proof (SS lPriv) as S1. pose proof (SS lUal) as S2. pose proof (SS lW) as S3. pose proof (SS lR) as S4. pose proof (SS lOut) as S5. pose proof (MM _ lRed D1) as M1. pose proof (MM _ lAnti D2) as M2. pose proof (MM _ lFlow D3) as M3.
    destruct (isSome _ || _ || _ || _ || _ || _ || _ || _) eqn:AN; cbn [eRed ePriv eUal eW eR eOut eAnti eFlow]; [repeat split; firstorder|].
    rewrite !orb_false_iff in AN. destruct AN as (((((((B1 & B2) & B3) & B4) & B5) & B6) & B7) & B8). rewrite <- S1, <- S2, <- S3, <- S4, <- S5, B2, B3, B4, B5, B6. repeat split; try discriminate.
    + intros a H. apply M1 in H. rewrite H in B1. discriminate.
    + intros a H. apply M2 in H. rewrite H in B7. discriminate.
    + intros a H. apply M3 in H. rewrite H in B8. discriminate.
  - assert (NL : forall L, In L (loops I) -> lLoc L <> Some loc). { intros L LI E. unfold findLoop in FL. apply find_none with (x := L) in FL; [|exact LI]. rewrite E, Nat.eqb_refl in FL. discriminate. }
    repeat split; try (intros a H); try (intro H); destruct H as (L & i & A & B & _); exact (NL L A B).
Qed.
