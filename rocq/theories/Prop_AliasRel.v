(** Property C38 of relations between memory locations. *)
From Coq Require Import ZArith Bool List Lia.
From Verif Require Import AliasRelModel AliasRelSpec.
Import ListNotations.
Open Scope Z_scope.

(** ** Sizes *)
Lemma size_eqb_eq a b : size_eqb a b = true <-> a = b.
Proof.
  destruct a, b; cbn; try rewrite Z.eqb_eq; split; congruence.
Qed.
Lemma uadd_small o s : 0 <= o + s < 2 ^ 64 -> uadd o s = o + s.
Proof. unfold uadd. apply Z.mod_small. Qed.
Lemma uadd_neg o s : - 2 ^ 64 <= o + s < 0 -> uadd o s = o + s + 2 ^ 64.
Proof.
  intro H. unfold uadd. symmetry. apply Z.mod_unique with (q := -1); lia.
Qed.
Lemma uadd_le a s b t : int64 a -> int64 b -> 0 <= s < 2 ^ 63 -> 0 <= t < 2 ^ 63 ->
  (0 <= a + s <-> 0 <= b + t) -> uadd a s <= uadd b t -> a + s <= b + t.
Proof.
  unfold int64. intros A B S T E.
  destruct (Z.le_gt_cases 0 (a + s)).
  - rewrite !uadd_small; lia.
  - rewrite !uadd_neg; lia.
Qed.

Section Pair.
Variable addr : ptr -> Z.
Variable alias : location -> location -> aliasResult.
Variable base : ptr -> ptr * Z.
Hypothesis AT : aliasTrue addr alias.
Hypothesis BT : baseTrue addr base.

Lemma sizecmp_bytes l r : lPtr l = lPtr r \/ addr (lPtr l) = addr (lPtr r) ->
  sizeOk l -> sizeOk r ->
  (sizecmp (lSize l) (lSize r) = 0 -> coincide addr l r) /\
  (0 < sizecmp (lSize l) (lSize r) -> covers addr l r) /\
  (sizecmp (lSize l) (lSize r) < 0 -> covers addr r l).
Proof.
  intros P L R. assert (A : addr (lPtr l) = addr (lPtr r)) by (destruct P; congruence).
  clear P. unfold sizecmp, coincide, covers, bytes, sizeOk in *.
  rewrite !A. clear A.
  destruct (size_eqb (lSize l) (lSize r)) eqn:E.
  { apply size_eqb_eq in E. rewrite E in *.
    split; [intros _ z; tauto|]. split; lia. }
  destruct (lSize l) as [n|n| |], (lSize r) as [m|m| |]; cbn in *;
    try discriminate;
    try (destruct (n <? m) eqn:?; [|destruct (n =? m) eqn:?]);
    rewrite ?Z.ltb_lt, ?Z.ltb_ge, ?Z.eqb_eq, ?Z.eqb_neq in *;
    (split; [try lia; intros _ z; lia|split; try lia; (intros _; split; [intros z; lia|])]).
  all: first [ now exists (addr (lPtr r) + m); lia | now exists (addr (lPtr r) + n); lia
             | now exists (addr (lPtr r) - 1); lia | idtac ].
Qed.

Theorem relation_true l r : sizeOk l -> sizeOk r ->
  (0 <= endOff base l <-> 0 <= endOff base r) ->
  says addr (aliasRelation alias base l r) l r.
Proof.
  intros SL SR EO. unfold aliasRelation.
  set (l' := if corrupted (lTags l) then withoutTags l else l).
  set (r' := if corrupted (lTags r) then withoutTags r else r).
  assert (L : corrupted (lTags l') = false /\ lPtr l' = lPtr l /\ lSize l' = lSize l)
    by (unfold l'; destruct (corrupted (lTags l)) eqn:?; auto).
  assert (R : corrupted (lTags r') = false /\ lPtr r' = lPtr r /\ lSize r' = lSize r)
    by (unfold r'; destruct (corrupted (lTags r)) eqn:?; auto).
  destruct L as (CL & PL & ZL), R as (CR & PR & ZR).
  pose proof (AT l' r' CL CR) as Q.
  assert (N : says addr (plain MMay) l r) by (repeat split; discriminate).
  destruct (alias l' r'); cbn in Q.
  - repeat split; try discriminate. cbn. unfold bytes in *. rewrite PL, PR, ZL, ZR in Q.
    exact Q.
  - exact N.
  - assert (OV : overlap addr l r).
    { unfold overlap, bytes in *. rewrite PL, PR, ZL, ZR in Q. exact Q. }
    assert (NP : says addr (plain MPartial) l r) by (split; [exact OV|split; [exact I|discriminate]]).
    clear Q.
    destruct (size_eqb (lSize l) (lSize r) || negb (isPrecise (lSize l)) ||
       negb (isPrecise (lSize r))) eqn:E; [exact NP|].
    rewrite !orb_false_iff, !negb_false_iff in E. destruct E as ((E1 & E2) & E3).
    pose proof (BT (lPtr l)) as (B1 & B2). pose proof (BT (lPtr r)) as (B3 & B4).
    unfold endOff in EO.
    destruct (base (lPtr l)) as [bl ol] eqn:BL, (base (lPtr r)) as [br or] eqn:BR.
    cbn [fst snd] in *.
    destruct ((ol =? 0) && (or =? 0)); [exact NP|].
    pose proof (AT (Loc bl SAfter TagNone) (Loc br SAfter TagNone) eq_refl eq_refl) as Q.
    destruct (alias (Loc bl SAfter TagNone) (Loc br SAfter TagNone)); try exact NP.
    cbn in Q.
    unfold says, saysMain, saysSide, covers in *.
    unfold sizeOk in SL, SR. unfold bytes.
    destruct (lSize l) as [n| | |]; try discriminate.
    destruct (lSize r) as [m| | |]; try discriminate. cbn [getValue] in *.
    destruct ((ol <? or) && (uadd or m <=? uadd ol n)) eqn:C1.
    + rewrite andb_true_iff, Z.ltb_lt, Z.leb_le in C1. destruct C1 as (C1 & C2).
      apply (uadd_le _ _ _ _ B4 B2 SR SL (iff_sym EO)) in C2.
      cbn [setCover plain dMain dCoincide dSide]. split; [exact OV|]. split; [|discriminate].
      split; [intros z; lia|]. exists (addr (lPtr l)). lia.
    + destruct ((or <? ol) && (uadd ol n <=? uadd or m)) eqn:C3; [|exact NP].
      rewrite andb_true_iff, Z.ltb_lt, Z.leb_le in C3. destruct C3 as (C3 & C4).
      apply (uadd_le _ _ _ _ B2 B4 SL SR EO) in C4.
      cbn [setContained plain dMain dCoincide dSide]. split; [exact OV|]. split; [|discriminate].
      split; [intros z; lia|]. exists (addr (lPtr r)). lia.
  - rewrite PL, PR in Q.
    assert (NM : says addr (plain MMust) l r) by (split; [exact Q|split; [exact I|discriminate]]).
    destruct (sizecmp_bytes l r (or_intror Q) SL SR) as (K1 & K2 & K3).
    destruct (negb (isPrecise (lSize l)) || negb (isPrecise (lSize r))) eqn:E.
    + destruct (base (lPtr l)) as [bl ol], (base (lPtr r)) as [br or].
      destruct ((ol =? or) && Nat.eqb bl br); [|exact NM].
      destruct (sizecmp (lSize l) (lSize r) =? 0) eqn:C1.
      { apply Z.eqb_eq in C1. repeat split; try exact Q; apply (K1 C1). }
      apply Z.eqb_neq in C1.
      destruct (0 <? sizecmp (lSize l) (lSize r)) eqn:C2.
      * apply Z.ltb_lt in C2. destruct (K2 C2). repeat split; try exact Q; try assumption; discriminate.
      * apply Z.ltb_ge in C2. destruct (K3 ltac:(lia)).
        repeat split; try exact Q; try assumption; discriminate.
    + rewrite orb_false_iff, !negb_false_iff in E. destruct E as (E1 & E2).
      destruct (lSize l) as [n| | |] eqn:HL; try discriminate.
      destruct (lSize r) as [m| | |] eqn:HR; try discriminate.
      unfold sizecmp in *. cbn in *. destruct (n =? m) eqn:C1.
      { repeat split; try exact Q; apply (K1 eq_refl). }
      destruct (m <? n) eqn:C2.
      * apply Z.ltb_lt in C2. destruct (n <? m) eqn:C3; [apply Z.ltb_lt in C3; lia|].
        destruct (K2 ltac:(lia)). repeat split; try exact Q; try assumption; discriminate.
      * apply Z.ltb_ge in C2. apply Z.eqb_neq in C1.
        destruct (n <? m) eqn:C3; [|apply Z.ltb_ge in C3; lia].
        destruct (K3 ltac:(lia)). repeat split; try exact Q; try assumption; discriminate.
Qed.
End Pair.

(** ** Merge of relations *)
Definition wf (d : descriptor) : Prop :=
  match dMain d with MNo | MMay => dCoincide d = false /\ dSide d = SideNone | _ => True end.
Lemma wf_relation alias base l r : wf (aliasRelation alias base l r).
Proof.
  unfold aliasRelation.
  destruct (alias _ _); try (split; reflexivity).
  - destruct (_ || _); [exact I|]. destruct (base (lPtr l)), (base (lPtr r)).
    destruct (_ && _); [exact I|]. destruct (alias _ _); try exact I.
    destruct (_ && _); [exact I|]. destruct (_ && _); exact I.
  - destruct (_ || _).
    + destruct (base (lPtr l)), (base (lPtr r)). destruct (_ && _); [|exact I].
      destruct (_ =? 0); [exact I|]. destruct (0 <? _); exact I.
    + destruct (size_eqb _ _); [exact I|]. destruct (_ <? _); exact I.
Qed.
Lemma wf_merge a b : wf a -> wf b -> wf (mergeAliasRelation a b).
Proof.
  destruct a as [[] [] []], b as [[] [] []]; unfold wf; cbn; auto;
    try (intros (? & ?); discriminate); intros _ (? & ?); discriminate.
Qed.
Lemma wf_mergeAll rs : forall d, wf d -> Forall wf rs -> wf (mergeAll d rs).
Proof.
  induction rs as [|r rs IH]; intros d D F; cbn; [exact D|].
  inversion F; subst.
  destruct (isMay _); [now apply wf_merge|]. apply IH; [now apply wf_merge|assumption].
Qed.

Section Merge.
Variable addr : ptr -> Z.
Definition saysMS (d : descriptor) (l r : location) : Prop :=
  saysMain addr d l r /\ saysSide addr d l r.

Lemma same_start l r : addr (lPtr l) = addr (lPtr r) -> overlap addr l r.
Proof.
  intros A (x & X) (y & Y). unfold bytes in *. rewrite A in *.
  destruct (lSize l), (lSize r);
    first [ exists (addr (lPtr r)); lia | exists y; tauto | exists x; tauto ].
Qed.
Lemma merge_left a b l r : saysMS a l r -> saysMS (mergeAliasRelation a b) l r.
Proof.
  intros (M & S). pose proof (same_start l r) as O.
  destruct a as [[] [] []], b as [[] [] []]; cbn in *; split; cbn in *; auto.
Qed.
Lemma descr_eqb_eq a b : descr_eqb a b = true <-> a = b.
Proof.
  destruct a as [[] [] []], b as [[] [] []]; cbn; split; congruence.
Qed.
Lemma merge_right a b l r : saysMS b l r -> saysMS (mergeAliasRelation a b) l r.
Proof.
  intros (M & S). pose proof (same_start l r) as O.
  destruct a as [[] [] []], b as [[] [] []]; cbn in *; split; cbn in *; auto.
Qed.
Lemma may_says d l r : wf d -> isMay d = true -> saysMS d l r.
Proof.
  destruct d as [[] c s]; cbn; try discriminate. intros (-> & ->) _. split; exact I.
Qed.
Lemma mergeAll_says rs : forall d l r, wf d -> Forall wf rs ->
  saysMS d l r \/ (exists x, In x rs /\ saysMS x l r) -> saysMS (mergeAll d rs) l r.
Proof.
  induction rs as [|x rs IH]; intros d l r W F [D|(y & Y & YS)]; cbn.
  - exact D.
  - destruct Y.
  - inversion F; subst. pose proof (wf_merge _ _ W H1) as WM.
    destruct (isMay _) eqn:E; [now apply may_says|].
    apply IH; auto. left. now apply merge_left.
  - inversion F; subst. pose proof (wf_merge _ _ W H1) as WM.
    destruct (isMay _) eqn:E; [now apply may_says|].
    apply IH; auto. destruct Y as [<-|Y]; [left; now apply merge_right|right; eauto].
Qed.
(* the trait CoincideAlias of a merged relation has a source *)
Lemma merge_coincide a b : dCoincide (mergeAliasRelation a b) = true ->
  dCoincide a = true \/ dCoincide b = true.
Proof. destruct a as [[] [] []], b as [[] [] []]; cbn; auto. Qed.
Lemma mergeAll_coincide rs : forall d, dCoincide (mergeAll d rs) = true ->
  dCoincide d = true \/ exists x, In x rs /\ dCoincide x = true.
Proof.
  induction rs as [|x rs IH]; intros d; cbn; [auto|].
  assert (K : dCoincide (mergeAliasRelation d x) = true ->
    dCoincide d = true \/ (exists y, (x = y \/ In y rs) /\ dCoincide y = true)).
  { intro H. destruct (merge_coincide _ _ H); [auto|right; eauto]. }
  destruct (isMay _); [exact K|]. intro H. destruct (IH _ H) as [D|(y & Y & C)]; [auto|].
  right. exists y. auto.
Qed.
End Merge.

(** ** C38 *)

(** Locations of a pair of estimate locations: any two of their pointers. *)
Definition pairOf (l e : estimate) (x y : location) : Prop :=
  exists p q, In p (ePtrs l) /\ In q (ePtrs e) /\ x = eLoc l p /\ y = eLoc e q.
Definition pairsOk (base : ptr -> ptr * Z) (l e : estimate) : Prop :=
  forall x y, pairOf l e x y -> sizeOk x /\ sizeOk y /\
    (0 <= endOff base x <-> 0 <= endOff base y).

Section Estimate.
Variable addr : ptr -> Z.
Variable alias : location -> location -> aliasResult.
Variable base : ptr -> ptr * Z.
Hypothesis AT : aliasTrue addr alias.
Hypothesis BT : baseTrue addr base.

Lemma pairs_in l e x : In x (flat_map (fun p => map (fun q =>
    aliasRelation alias base (eLoc l p) (eLoc e q)) (ePtrs e)) (ePtrs l)) <->
  exists a b, pairOf l e a b /\ x = aliasRelation alias base a b.
Proof.
  rewrite in_flat_map. split.
  - intros (p & P & M). apply in_map_iff in M as (q & <- & Q).
    exists (eLoc l p), (eLoc e q). split; [now exists p, q|reflexivity].
  - intros (a & b & (p & q & P & Q & -> & ->) & ->). exists p. split; [exact P|].
    apply in_map_iff. now exists q.
Qed.
Lemma wf_em l e : wf (aliasRelationEM alias base l e).
Proof.
  unfold aliasRelationEM. destruct (isMay _); [apply wf_relation|].
  apply wf_mergeAll; [apply wf_relation|]. apply Forall_forall. intros x X.
  apply pairs_in in X as (a & b & _ & ->). apply wf_relation.
Qed.
Lemma em_says l e x y : pairsOk base l e -> pairOf l e x y ->
  saysMS addr (aliasRelationEM alias base l e) x y.
Proof.
  intros OK P. unfold aliasRelationEM.
  destruct (isMay (aliasRelation alias base (eLoc l (eFront l)) (eLoc e (eFront e)))) eqn:M.
  { apply may_says; [apply wf_relation|exact M]. }
  apply mergeAll_says; [apply wf_relation| |].
  - apply Forall_forall. intros z Z. apply pairs_in in Z as (a & b & _ & ->). apply wf_relation.
  - right. exists (aliasRelation alias base x y). split; [apply pairs_in; eauto|].
    destruct (OK x y P) as (S1 & S2 & E).
    destruct (relation_true addr alias base AT BT x y S1 S2 E) as (A & B & _). now split.
Qed.
Lemma em_coincide l e : pairsOk base l e ->
  dCoincide (aliasRelationEM alias base l e) = true ->
  exists x y, pairOf l e x y /\ coincide addr x y.
Proof.
  intros OK. unfold aliasRelationEM.
  assert (F : pairOf l e (eLoc l (eFront l)) (eLoc e (eFront e))).
  { exists (eFront l), (eFront e). cbn. auto. }
  assert (K : forall a b, pairOf l e a b -> dCoincide (aliasRelation alias base a b) = true ->
    coincide addr a b).
  { intros a b P. destruct (OK a b P) as (S1 & S2 & E).
    apply (relation_true addr alias base AT BT a b S1 S2 E). }
  destruct (isMay _); [eauto|]. intro C.
  apply mergeAll_coincide in C as [C|(z & Z & C)]; [eauto|].
  apply pairs_in in Z as (a & b & P & ->). eauto.
Qed.
End Estimate.

(** A relation of two memory locations is true of their bytes.  What is
    missing in comparison with the full property: offsets of the ends of two
    locations of different sizes which partially overlap must be both negative
    or both not negative (see [C38_negative_offset_refuted]). *)
Theorem C38_pair_partial : forall addr alias base l r,
  aliasTrue addr alias -> baseTrue addr base -> sizeOk l -> sizeOk r ->
  (0 <= endOff base l <-> 0 <= endOff base r) ->
  says addr (aliasRelation alias base l r) l r.
Proof. intros addr alias base l r A B S1 S2 E. now apply relation_true. Qed.
Print Assumptions C38_pair_partial.

(** A relation of an estimate location to a list of estimate locations is true
    for each pair of pointers of them.  What is missing: offsets as above, and
    a coincidence is true of some pair only (see
    [C38_merged_coincide_refuted]). *)
Theorem C38_merged_partial : forall addr alias base l r rs,
  aliasTrue addr alias -> baseTrue addr base ->
  (forall e, In e (r :: rs) -> pairsOk base l e) ->
  let d := aliasRelationRange alias base l r rs in
  (forall e x y, In e (r :: rs) -> pairOf l e x y ->
     saysMain addr d x y /\ saysSide addr d x y) /\
  (dCoincide d = true ->
     exists e x y, In e (r :: rs) /\ pairOf l e x y /\ coincide addr x y).
Proof.
  intros addr alias base l r rs A B OK. cbn zeta. unfold aliasRelationRange. split.
  - intros e x y I P.
    destruct (isMay (aliasRelationEM alias base l r)) eqn:M.
    { apply may_says; [apply wf_em|exact M]. }
    apply mergeAll_says; [apply wf_em| |].
    + apply Forall_forall. intros z Z. apply in_map_iff in Z as (e' & <- & _). apply wf_em.
    + destruct I as [<-|I].
      * left. apply em_says; auto. apply OK. now left.
      * right. exists (aliasRelationEM alias base l e). split; [now apply in_map|].
        apply em_says; auto. apply OK. now right.
  - assert (K : forall e, In e (r :: rs) -> dCoincide (aliasRelationEM alias base l e) = true ->
      exists e x y, In e (r :: rs) /\ pairOf l e x y /\ coincide addr x y).
    { intros e I C. destruct (em_coincide addr alias base A B l e (OK e I) C) as (x & y & P & Q).
      eauto 6. }
    destruct (isMay _); [apply K; now left|]. intro C.
    apply mergeAll_coincide in C as [C|(z & Z & C)]; [apply (K r); auto; now left|].
    apply in_map_iff in Z as (e & <- & I). apply (K e); auto. now right.
Qed.
Print Assumptions C38_merged_partial.

(** The hypotheses are met by a structure at address 100 (pointer 0) and its
    fields at offsets 8 and 12 (pointers 1 and 2); pointer 3 is a second name
    of pointer 1. *)
Definition exAddr (p : ptr) : Z :=
  match p with 0%nat => 100 | 1%nat => 108 | 2%nat => 112 | 3%nat => 108 | _ => 500 end.
Definition exBase (p : ptr) : ptr * Z :=
  match p with 1%nat => (0%nat, 8) | 2%nat => (0%nat, 12) | 3%nat => (0%nat, 8) | _ => (p, 0) end.
Definition exAlias (l r : location) : aliasResult :=
  if exAddr (lPtr l) =? exAddr (lPtr r) then ARMust
  else match lSize l, lSize r with
       | SPrecise n, SPrecise m =>
         if (exAddr (lPtr l) + n <=? exAddr (lPtr r)) ||
            (exAddr (lPtr r) + m <=? exAddr (lPtr l))
         then ARNo else if (0 <? n) && (0 <? m) then ARPartial else ARMay
       | _, _ => ARMay
       end.
Lemma exAlias_true : aliasTrue exAddr exAlias.
Proof.
  intros l r _ _. unfold exAlias.
  destruct (exAddr (lPtr l) =? exAddr (lPtr r)) eqn:E; [now apply Z.eqb_eq|].
  destruct (lSize l) eqn:L; try exact I. destruct (lSize r) eqn:R; try exact I.
  destruct (_ || _) eqn:O.
  - rewrite orb_true_iff, !Z.leb_le in O. intro z. unfold bytes. rewrite L, R. lia.
  - rewrite orb_false_iff, !Z.leb_gt in O. destruct (_ && _) eqn:P; [|exact I].
    rewrite andb_true_iff, !Z.ltb_lt in P. intros _ _. unfold bytes. rewrite L, R.
    exists (Z.max (exAddr (lPtr l)) (exAddr (lPtr r))). lia.
Qed.
Lemma exBase_true : baseTrue exAddr exBase.
Proof.
  intro p. unfold int64. destruct p as [|[|[|[|p]]]]; cbn; lia.
Qed.
Example C38_pair_nonvacuous :
  aliasTrue exAddr exAlias /\ baseTrue exAddr exBase /\
  aliasRelation exAlias exBase (Loc 0%nat (SPrecise 24) TagNone) (Loc 1%nat (SPrecise 4) TagNone)
    = Descr MPartial false SideCover /\
  aliasRelation exAlias exBase (Loc 1%nat (SPrecise 4) TagCorrupted) (Loc 0%nat (SPrecise 24) TagNone)
    = Descr MPartial false SideContained /\
  aliasRelation exAlias exBase (Loc 1%nat (SPrecise 4) TagNone) (Loc 3%nat (SPrecise 4) TagNone)
    = Descr MMust true SideNone /\
  aliasRelation exAlias exBase (Loc 1%nat SAfter TagNone) (Loc 3%nat (SPrecise 4) TagNone)
    = Descr MMust false SideCover /\
  aliasRelation exAlias exBase (Loc 1%nat (SPrecise 4) TagNone) (Loc 2%nat (SPrecise 4) TagNone)
    = Descr MNo false SideNone.
Proof. split; [exact exAlias_true|]. split; [exact exBase_true|]. repeat split. Qed.
Example C38_merged_nonvacuous :
  let l := EM 0%nat [] (SPrecise 24) TagNone in
  let r := EM 1%nat [3%nat] (SPrecise 4) (Tag 5) in
  let e := EM 2%nat [] (SPrecise 4) TagCorrupted in
  (forall x, In x [r; e] -> pairsOk exBase l x) /\
  aliasRelationRange exAlias exBase l r [e] = Descr MPartial false SideCover.
Proof.
  cbn zeta. split; [|reflexivity].
  intros x [<-|[<-|[]]] a b (p & q & P & Q & -> & ->); cbn in P, Q;
    repeat match goal with H : _ \/ _ |- _ => destruct H as [<-|H] | H : False |- _ => destruct H end;
    unfold sizeOk, endOff; cbn; lia.
Qed.

(** The full statement is false.  The first reason is unsigned comparison of
    ends: bytes [-8,-2) and [-4,4) of the same base pointer. *)
Definition negBase (p : ptr) : ptr * Z :=
  match p with 1%nat => (0%nat, -8) | 2%nat => (0%nat, -4) | _ => (p, 0) end.
Definition negAddr (p : ptr) : Z :=
  match p with 1%nat => 92 | 2%nat => 96 | _ => 100 end.
Definition negAlias (l r : location) : aliasResult :=
  if negAddr (lPtr l) =? negAddr (lPtr r) then ARMust
  else match lSize l, lSize r with
       | SPrecise n, SPrecise m =>
         if (Z.max (negAddr (lPtr l)) (negAddr (lPtr r)) <?
             Z.min (negAddr (lPtr l) + n) (negAddr (lPtr r) + m)) then ARPartial else ARMay
       | _, _ => ARMay
       end.
Theorem C38_negative_offset_refuted :
  ~ (forall addr alias base l r,
      aliasTrue addr alias -> baseTrue addr base -> sizeOk l -> sizeOk r ->
      says addr (aliasRelation alias base l r) l r).
Proof.
  intro H.
  specialize (H negAddr negAlias negBase (Loc 1%nat (SPrecise 6) TagNone)
                (Loc 2%nat (SPrecise 8) TagNone)).
  destruct H as (_ & S & _).
  - intros l r _ _. unfold negAlias.
    destruct (negAddr (lPtr l) =? negAddr (lPtr r)) eqn:E; [now apply Z.eqb_eq|].
    destruct (lSize l) eqn:L; try exact I. destruct (lSize r) eqn:R; try exact I.
    destruct (_ <? _) eqn:O; [|exact I]. apply Z.ltb_lt in O. intros _ _. unfold bytes.
    rewrite L, R. exists (Z.max (negAddr (lPtr l)) (negAddr (lPtr r))). lia.
  - intro p. unfold int64. destruct p as [|[|[|p]]]; cbn; lia.
  - unfold sizeOk; cbn; lia.
  - unfold sizeOk; cbn; lia.
  - change (aliasRelation negAlias negBase (Loc 1%nat (SPrecise 6) TagNone)
      (Loc 2%nat (SPrecise 8) TagNone)) with (Descr MPartial false SideCover) in S.
    destruct S as (S & _). specialize (S 103). unfold bytes in S. cbn in S. lia.
Qed.
Print Assumptions C38_negative_offset_refuted.

(** The second reason: relations "coincide" and "contained" are merged to
    "coincide". *)
Theorem C38_merged_coincide_refuted :
  ~ (forall addr alias base l r rs,
      aliasTrue addr alias -> baseTrue addr base ->
      (forall e, In e (r :: rs) -> pairsOk base l e) ->
      forall e x y, In e (r :: rs) -> pairOf l e x y ->
        says addr (aliasRelationRange alias base l r rs) x y).
Proof.
  intro H.
  specialize (H exAddr exAlias exBase (EM 1%nat [] (SPrecise 4) TagNone)
    (EM 3%nat [] (SPrecise 4) TagNone) [EM 1%nat [] (SPrecise 8) TagNone] exAlias_true exBase_true).
  destruct (H ltac:(
    intros x [<-|[<-|[]]] a b (p & q & P & Q & -> & ->); cbn in P, Q;
    repeat match goal with H : _ \/ _ |- _ => destruct H as [<-|H] | H : False |- _ => destruct H end;
    unfold sizeOk, endOff; cbn; lia)
    (EM 1%nat [] (SPrecise 8) TagNone) (Loc 1%nat (SPrecise 4) TagNone)
    (Loc 1%nat (SPrecise 8) TagNone)) as (_ & _ & C).
  - cbn. auto.
  - exists 1%nat, 1%nat. cbn. auto.
  - specialize (C eq_refl 115). unfold bytes in C. cbn in C. lia.
Qed.
Print Assumptions C38_merged_coincide_refuted.
