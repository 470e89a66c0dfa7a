(** Proofs about data transfer between a host and an accelerator. *)
From Coq Require Import PeanoNat Bool List ZArith Lia.
From Verif Require Import TransferModel TransferSpec.
Import ListNotations.

Lemma mem_In x l : mem x l = true <-> In x l.
Proof.
  unfold mem; rewrite existsb_exists; split.
  - intros (y & I1 & E); apply Nat.eqb_eq in E; subst; exact I1.
  - intro I1; exists x; split; [exact I1|apply Nat.eqb_refl].
Qed.
Lemma mem_false x l : mem x l = false <-> ~ In x l.
Proof. rewrite <- mem_In. destruct (mem x l); split; intro H; congruence. Qed.

(** * Tables *)
Definition tableOk (f : func) (P : nat -> Prop) (t : table) : Prop :=
  NoDup (map fst t) /\
  (forall n vs v, In (n, vs) t -> In v vs -> n = fNode f v /\ P v) /\
  (forall v, P v -> exists vs, In (fNode f v, vs) t /\ In v vs).
Lemma addVar_keys n v t x : In x (map fst (addVar n v t)) <-> x = n \/ In x (map fst t).
Proof.
  induction t as [|[m vs] t IH]; cbn; [intuition congruence|].
  destruct (Nat.eqb m n) eqn:E; cbn.
  - apply Nat.eqb_eq in E. intuition congruence.
  - rewrite IH. intuition congruence.
Qed.
Lemma addVar_NoDup n v t : NoDup (map fst t) -> NoDup (map fst (addVar n v t)).
Proof.
  induction t as [|[m vs] t IH]; cbn; intro D; [constructor; [intros []|constructor]|].
  inversion D as [|? ? Nm D']; subst. destruct (Nat.eqb m n) eqn:E; cbn; [exact D|].
  constructor; [|exact (IH D')]. intro Q. apply addVar_keys in Q as [->|Q]; [rewrite Nat.eqb_refl in E; discriminate E|contradiction].
Qed.
Lemma addVar_In n v t m vs u :
  In (m, vs) (addVar n v t) -> In u vs -> (m = n /\ u = v) \/ exists us, In (m, us) t /\ In u us.
Proof.
  induction t as [|[k ws] t IH]; cbn.
  - intros [Q|[]] Iu. injection Q as <- <-. destruct Iu as [<-|[]]. left; split; reflexivity.
  - destruct (Nat.eqb k n) eqn:E.
    + apply Nat.eqb_eq in E; subst k. intros [Q|I1] Iu.
      * injection Q as <- <-. destruct (mem v ws).
        -- right. exists ws; split; [left; reflexivity|exact Iu].
        -- apply in_app_iff in Iu as [Iu|[<-|[]]]; [right; exists ws; split; [left; reflexivity|exact Iu]|left; split; reflexivity].
      * right. exists vs. split; [right; exact I1|exact Iu].
    + intros [Q|I1] Iu.
      * injection Q as <- <-. right. exists ws; split; [left; reflexivity|exact Iu].
      * destruct (IH I1 Iu) as [H|(us & H1 & H2)]; [left; exact H|right; exists us; split; [right; exact H1|exact H2]].
Qed.
Lemma addVar_new n v t : exists vs, In (n, vs) (addVar n v t) /\ In v vs.
Proof.
  induction t as [|[k ws] t IH]; cbn.
  - exists [v]. split; [left; reflexivity|left; reflexivity].
  - destruct (Nat.eqb k n) eqn:E.
    + apply Nat.eqb_eq in E; subst k. eexists. split; [left; reflexivity|]. destruct (mem v ws) eqn:M.
      * apply mem_In; exact M.
      * apply in_app_iff. right; left; reflexivity.
    + destruct IH as (vs & H1 & H2). exists vs. split; [right; exact H1|exact H2].
Qed.
Lemma addVar_old n v t m us u : In (m, us) t -> In u us -> exists vs, In (m, vs) (addVar n v t) /\ In u vs.
Proof.
  induction t as [|[k ws] t IH]; cbn; [intros []|]. intros [Q|I1] Iu.
  - injection Q as -> ->. destruct (Nat.eqb m n) eqn:E.
    + eexists. split; [left; reflexivity|]. destruct (mem v us); [exact Iu|apply in_app_iff; left; exact Iu].
    + exists us. split; [left; reflexivity|exact Iu].
  - destruct (Nat.eqb k n) eqn:E.
    + exists us. split; [right; exact I1|exact Iu].
    + destruct (IH I1 Iu) as (vs & H1 & H2). exists vs. split; [right; exact H1|exact H2].
Qed.
Lemma addVar_ok f P t v : tableOk f P t -> tableOk f (fun u => u = v \/ P u) (addVar (fNode f v) v t).
Proof.
  intros (D & A & B). split; [apply addVar_NoDup; exact D|]. split.
  - intros n vs u I1 Iu. destruct (addVar_In _ _ _ _ _ _ I1 Iu) as [[-> ->]|(us & H1 & H2)].
    + split; [reflexivity|left; reflexivity].
    + destruct (A n us u H1 H2) as [E Pu]. split; [exact E|right; exact Pu].
  - intros u [->|Pu]; [apply addVar_new|]. destruct (B u Pu) as (us & H1 & H2).
    exact (addVar_old _ _ _ _ _ _ H1 H2).
Qed.
Lemma tableOk_iff f P Q t : (forall v, P v <-> Q v) -> tableOk f P t -> tableOk f Q t.
Proof.
  intros E (D & A & B). split; [exact D|]. split.
  - intros n vs v I1 Iv. destruct (A n vs v I1 Iv) as [H1 H2]. split; [exact H1|apply E; exact H2].
  - intros v Qv. apply B. apply E. exact Qv.
Qed.
Lemma collect_ok f vs : forall P t, tableOk f P t -> tableOk f (fun u => In u vs \/ P u) (collect f vs t).
Proof.
  unfold collect. induction vs as [|v vs IH]; intros P t H; cbn [fold_left].
  - refine (tableOk_iff f _ _ _ _ H). intro u; cbn; tauto.
  - refine (tableOk_iff f _ _ _ _ (IH _ _ (addVar_ok f P t v H))). intro u; cbn; intuition congruence.
Qed.
Lemma tables_ok f (g : region -> list nat) rs : forall P t, tableOk f P t ->
  tableOk f (fun u => (exists r, In r rs /\ In u (g r)) \/ P u) (fold_left (fun t r => collect f (g r) t) rs t).
Proof.
  induction rs as [|r rs IH]; intros P t H; cbn [fold_left].
  - refine (tableOk_iff f _ _ _ _ H). intro u; split; [intro Pu; right; exact Pu|intros [(r & [] & _)|Pu]; exact Pu].
  - refine (tableOk_iff f _ _ _ _ (IH _ _ (collect_ok f (g r) P t H))). intro u; split.
    + intros [(r' & I1 & Iu)|[Iu|Pu]].
      * left; exists r'; split; [right; exact I1|exact Iu].
      * left; exists r; split; [left; reflexivity|exact Iu].
      * right; exact Pu.
    + intros [(r' & [<-|I1] & Iu)|Pu].
      * right; left; exact Iu.
      * left; exists r'; split; assumption.
      * right; right; exact Pu.
Qed.
Lemma empty_ok f : tableOk f (fun _ => False) [].
Proof. split; [constructor|]. split; [intros n vs v []|intros v []]. Qed.
Lemma toActual_ok f : tableOk f (isIn f) (toActual f).
Proof.
  refine (tableOk_iff f _ _ _ _ (tables_ok f rIn (fRegions f) _ [] (empty_ok f))).
  intro v; unfold isIn; tauto.
Qed.
Lemma toGet_ok f : tableOk f (isOut f) (toGet f).
Proof.
  refine (tableOk_iff f _ _ _ _ (tables_ok f rOut (fRegions f) _ [] (empty_ok f))).
  intro v; unfold isOut; tauto.
Qed.
Lemma key_unique (t : table) n vs ws : NoDup (map fst t) -> In (n, vs) t -> In (n, ws) t -> vs = ws.
Proof.
  induction t as [|[m us] t IH]; cbn; [intros _ []|]. intros D. inversion D as [|? ? Nm D']; subst.
  intros [Q|I1] [Q'|I2].
  - congruence.
  - injection Q as -> ->. destruct Nm. apply in_map_iff. exists (n, ws); split; [reflexivity|exact I2].
  - injection Q' as -> ->. destruct Nm. apply in_map_iff. exists (n, vs); split; [reflexivity|exact I1].
  - exact (IH D' I1 I2).
Qed.

(** * Directives of an instruction *)
Definition insOk (f : func) (d : dirs) : Prop :=
  forall n vs, In (n, vs) (toGet f) -> In n (dInserted d) -> incl vs (dGet d).
Definition le (d e : dirs) : Prop := incl (dGet d) (dGet e) /\ incl (dActual d) (dActual e).
Lemma le_refl d : le d d.
Proof. split; apply incl_refl. Qed.
Lemma le_trans a b c : le a b -> le b c -> le a c.
Proof. intros [A B] [C D]. split; eapply incl_tran; eassumption. Qed.
Lemma addGet1_ok f n d p : In p (toGet f) -> insOk f d ->
  insOk f (addGet1 f n d p) /\ le d (addGet1 f n d p) /\ dActual (addGet1 f n d p) = dActual d /\
  (fRelated f n (fst p) = true -> incl (snd p) (dGet (addGet1 f n d p))).
Proof.
  intros Ip J. unfold addGet1. destruct (mem (fst p) (dInserted d)) eqn:M; cbn [orb].
  - split; [exact J|]. split; [apply le_refl|]. split; [reflexivity|]. intros _.
    apply mem_In in M. destruct p as [k vs]. exact (J k vs Ip M).
  - destruct (fRelated f n (fst p)) eqn:R; cbn [negb].
    + split; [|split; [|split; [reflexivity|]]].
      * intros k vs Ik [<-|Ins]; cbn [dGet].
        -- destruct p as [k us]; cbn in Ik |- *. rewrite (key_unique _ _ _ _ (proj1 (toGet_ok f)) Ik Ip).
           apply incl_appr, incl_refl.
        -- apply incl_appl. exact (J k vs Ik Ins).
      * split; cbn; [apply incl_appl, incl_refl|apply incl_refl].
      * intros _. apply incl_appr, incl_refl.
    + split; [exact J|]. split; [apply le_refl|]. split; [reflexivity|discriminate].
Qed.
Lemma addGet_ok f n d : insOk f d ->
  insOk f (addGetActualIf f n d) /\ le d (addGetActualIf f n d) /\ dActual (addGetActualIf f n d) = dActual d /\
  (forall v, isOut f v -> fRelated f n (fNode f v) = true -> In v (dGet (addGetActualIf f n d))).
Proof.
  intro J. unfold addGetActualIf.
  assert (G : forall t d, (forall p, In p t -> In p (toGet f)) -> insOk f d ->
    let d' := fold_left (addGet1 f n) t d in
    insOk f d' /\ le d d' /\ dActual d' = dActual d /\
    (forall k vs, In (k, vs) t -> fRelated f n k = true -> incl vs (dGet d'))).
  { clear d J. induction t as [|p t IH]; intros d Sub J; cbn [fold_left].
    - split; [exact J|]. split; [apply le_refl|]. split; [reflexivity|intros k vs []].
    - destruct (addGet1_ok f n d p (Sub p (or_introl eq_refl)) J) as (J1 & L1 & A1 & C1).
      destruct (IH (addGet1 f n d p) (fun q Iq => Sub q (or_intror Iq)) J1) as (J2 & L2 & A2 & C2).
      split; [exact J2|]. split; [exact (le_trans _ _ _ L1 L2)|]. split; [rewrite A2; exact A1|].
      intros k vs [->|I1] R; [|exact (C2 k vs I1 R)].
      eapply incl_tran; [exact (C1 R)|exact (proj1 L2)]. }
  destruct (G (toGet f) d (fun p Ip => Ip) J) as (J' & L & A & C).
  split; [exact J'|]. split; [exact L|]. split; [exact A|].
  intros v Ov R. destruct (toGet_ok f) as (_ & _ & B). destruct (B v Ov) as (vs & I1 & Iv).
  exact (C _ _ I1 R v Iv).
Qed.
(** Actual variables are obtained before the instruction. *)
Definition safe (f : func) (d : dirs) : Prop := forall v, In v (dActual d) -> isOut f v -> In v (dGet d).
Definition good (f : func) (d : dirs) : Prop := insOk f d /\ safe f d.
Lemma addGet_good f n d : good f d ->
  good f (addGetActualIf f n d) /\ le d (addGetActualIf f n d) /\
  (forall v, isOut f v -> fRelated f n (fNode f v) = true -> In v (dGet (addGetActualIf f n d))).
Proof.
  intros [J S0]. destruct (addGet_ok f n d J) as (J' & L & A & C).
  split; [split; [exact J'|]|split; [exact L|exact C]].
  intros v Iv Ov. rewrite A in Iv. apply (proj1 L). exact (S0 v Iv Ov).
Qed.
Lemma addActual1_good f n d p : relatedOk f -> In p (toActual f) -> good f d ->
  good f (addActual1 f n d p) /\ le d (addActual1 f n d p) /\
  (fRelated f n (fst p) = true -> incl (snd p) (dActual (addActual1 f n d p))).
Proof.
  intros Refl Ip [J S0]. unfold addActual1. destruct (fRelated f n (fst p)) eqn:R; cbn [negb].
  - set (d1 := Dirs (dInserted d) (dGet d) (dActual d ++ snd p)).
    destruct (addGet_ok f (fst p) d1 J) as (J' & L & A & C).
    split; [split; [exact J'|]|split].
    + intros v Iv Ov. rewrite A in Iv. unfold d1 in Iv; cbn in Iv. apply in_app_iff in Iv as [Iv|Iv].
      * apply (proj1 L). exact (S0 v Iv Ov).
      * apply C; [exact Ov|]. destruct p as [k vs]; cbn in *.
        destruct (toActual_ok f) as (_ & B & _). destruct (B k vs v Ip Iv) as [-> _]. apply Refl.
    + split; [exact (proj1 L)|]. rewrite A. unfold d1; cbn. apply incl_appl, incl_refl.
    + intros _. rewrite A. unfold d1; cbn. apply incl_appr, incl_refl.
  - split; [split; assumption|]. split; [apply le_refl|discriminate].
Qed.
Lemma addTransfer_good f n d : relatedOk f -> good f d ->
  good f (addTransferToWrite f n d) /\ le d (addTransferToWrite f n d) /\
  (forall v, isIn f v -> fRelated f n (fNode f v) = true -> In v (dActual (addTransferToWrite f n d))).
Proof.
  intros Refl J. unfold addTransferToWrite.
  assert (G : forall t d, (forall p, In p t -> In p (toActual f)) -> good f d ->
    let d' := fold_left (addActual1 f n) t d in
    good f d' /\ le d d' /\ (forall k vs, In (k, vs) t -> fRelated f n k = true -> incl vs (dActual d'))).
  { clear d J. induction t as [|p t IH]; intros d Sub J; cbn [fold_left].
    - split; [exact J|]. split; [apply le_refl|intros k vs []].
    - destruct (addActual1_good f n d p Refl (Sub p (or_introl eq_refl)) J) as (J1 & L1 & C1).
      destruct (IH (addActual1 f n d p) (fun q Iq => Sub q (or_intror Iq)) J1) as (J2 & L2 & C2).
      split; [exact J2|]. split; [exact (le_trans _ _ _ L1 L2)|].
      intros k vs [->|I1] R; [|exact (C2 k vs I1 R)].
      eapply incl_tran; [exact (C1 R)|exact (proj2 L2)]. }
  destruct (G (toActual f) d (fun p Ip => Ip) J) as (J' & L & C).
  split; [exact J'|]. split; [exact L|].
  intros v Ov R. destruct (toActual_ok f) as (_ & _ & B). destruct (B v Ov) as (vs & I1 & Iv).
  exact (C _ _ I1 R v Iv).
Qed.
(** Requirements of an access. *)
Definition served (f : func) (n : nat) (a : access) (d : dirs) : Prop :=
  (aRead a = true -> forall v, isOut f v -> fRelated f n (fNode f v) = true -> In v (dGet d)) /\
  (aWrite a = true -> forall v, isIn f v -> fRelated f n (fNode f v) = true -> In v (dActual d)).
Lemma served_le f n a d e : le d e -> served f n a d -> served f n a e.
Proof.
  intros [L1 L2] [A B]. split.
  - intros R v Ov Rv. apply L1. exact (A R v Ov Rv).
  - intros W v Iv Rv. apply L2. exact (B W v Iv Rv).
Qed.
Lemma visitUnknown_good f a d n : relatedOk f -> good f d ->
  good f (visitUnknown f a d n) /\ le d (visitUnknown f a d n) /\ served f n a (visitUnknown f a d n).
Proof.
  intros Refl J. unfold visitUnknown.
  assert (H : exists d1, d1 = (if aWrite a then addTransferToWrite f n d else d) /\ good f d1 /\ le d d1 /\
    (aWrite a = true -> forall v, isIn f v -> fRelated f n (fNode f v) = true -> In v (dActual d1))).
  { eexists. split; [reflexivity|]. destruct (aWrite a).
    - destruct (addTransfer_good f n d Refl J) as (A & B & C). split; [exact A|]. split; [exact B|intros _; exact C].
    - split; [exact J|]. split; [apply le_refl|discriminate]. }
  destruct H as (d1 & E & J1 & L1 & C1). rewrite <- E. cbv zeta. unfold served. destruct (aRead a).
  - destruct (addGet_good f n d1 J1) as (J2 & L2 & C2). split; [exact J2|]. split; [exact (le_trans _ _ _ L1 L2)|].
    split; [intros _; exact C2|]. intros W v Iv R. apply (proj2 L2). exact (C1 W v Iv R).
  - split; [exact J1|]. split; [exact L1|]. split; [discriminate|exact C1].
Qed.
Definition servedAll (f : func) (a : access) (d : dirs) : Prop :=
  (aRead a = true -> forall v, isOut f v -> mayTouch f a v -> In v (dGet d)) /\
  (aWrite a = true -> forall v, isIn f v -> mayTouch f a v -> In v (dActual d)).
Lemma servedAll_le f a d e : le d e -> servedAll f a d -> servedAll f a e.
Proof.
  intros [L1 L2] [A B]. split.
  - intros R v Ov Rv. apply L1. exact (A R v Ov Rv).
  - intros W v Iv Rv. apply L2. exact (B W v Iv Rv).
Qed.
Lemma visitAccess_good f a d : relatedOk f -> aInduct a = false -> good f d ->
  good f (visitAccess f d a) /\ le d (visitAccess f d a) /\ servedAll f a (visitAccess f d a).
Proof.
  intros Refl Ni J. unfold visitAccess. destruct (aNode a) as [n|] eqn:N.
  - rewrite Ni, andb_false_r. change (let d0 := if aWrite a then addTransferToWrite f n d else d in
      if aRead a then addGetActualIf f n d0 else d0) with (visitUnknown f a d n).
    destruct (visitUnknown_good f a d n Refl J) as (A & B & C1 & C2). split; [exact A|]. split; [exact B|].
    split; intros Q v Iv T; unfold mayTouch in T; rewrite N in T; [exact (C1 Q v Iv T)|exact (C2 Q v Iv T)].
  - assert (G : forall ns d, good f d -> let d' := fold_left (visitUnknown f a) ns d in
      good f d' /\ le d d' /\ forall n, In n ns -> served f n a d').
    { clear d J. induction ns as [|n ns IH]; intros d J; cbn [fold_left].
      - split; [exact J|]. split; [apply le_refl|intros n []].
      - destruct (visitUnknown_good f a d n Refl J) as (J1 & L1 & C1).
        destruct (IH _ J1) as (J2 & L2 & C2). split; [exact J2|]. split; [exact (le_trans _ _ _ L1 L2)|].
        intros k [<-|Ik]; [exact (served_le _ _ _ _ _ L2 C1)|exact (C2 k Ik)]. }
    destruct (G (fDistinct f) d J) as (A & B & C). split; [exact A|]. split; [exact B|].
    split; intros Q v Iv T; unfold mayTouch in T; rewrite N in T; destruct T as (n & In1 & R).
    + exact (proj1 (C n In1) Q v Iv R).
    + exact (proj2 (C n In1) Q v Iv R).
Qed.
Lemma visitInstr_good f i : relatedOk f -> (forall a, In a i -> aInduct a = false) ->
  good f (visitInstr f i) /\ forall a, In a i -> servedAll f a (visitInstr f i).
Proof.
  intros Refl Ni. unfold visitInstr.
  assert (G : forall i d, (forall a, In a i -> aInduct a = false) -> good f d ->
    let d' := fold_left (visitAccess f) i d in good f d' /\ le d d' /\ forall a, In a i -> servedAll f a d').
  { clear i Ni. induction i as [|a i IH]; intros d Ni J; cbn [fold_left].
    - split; [exact J|]. split; [apply le_refl|intros a []].
    - destruct (visitAccess_good f a d Refl (Ni a (or_introl eq_refl)) J) as (J1 & L1 & C1).
      destruct (IH _ (fun b Ib => Ni b (or_intror Ib)) J1) as (J2 & L2 & C2).
      split; [exact J2|]. split; [exact (le_trans _ _ _ L1 L2)|].
      intros b [<-|Ib]; [exact (servedAll_le _ _ _ _ L2 C1)|exact (C2 b Ib)]. }
  destruct (G i (Dirs [] [] []) Ni) as (A & _ & C); [split; [intros n vs _ []|intros v []]|].
  split; [exact A|exact C].
Qed.

(** * Upper bounds *)
Definition bound (f : func) (A G : nat -> Prop) (d : dirs) : Prop :=
  (forall v, In v (dActual d) -> A v) /\ (forall v, In v (dGet d) -> G v).
Lemma addGet_bound f n (A G : nat -> Prop) d :
  (forall v, isOut f v -> fRelated f n (fNode f v) = true -> G v) -> bound f A G d -> bound f A G (addGetActualIf f n d).
Proof.
  intros H. unfold addGetActualIf.
  assert (Q : forall t d, (forall p, In p t -> In p (toGet f)) -> bound f A G d -> bound f A G (fold_left (addGet1 f n) t d)).
  { clear d. induction t as [|p t IH]; intros d Sub B; cbn [fold_left]; [exact B|].
    apply IH; [intros q Iq; exact (Sub q (or_intror Iq))|]. unfold addGet1.
    destruct (mem (fst p) (dInserted d)); cbn [orb]; [exact B|].
    destruct (fRelated f n (fst p)) eqn:R; cbn [negb]; [|exact B]. destruct B as [Ba Bg].
    split; cbn; [exact Ba|]. intros v Iv. apply in_app_iff in Iv as [Iv|Iv]; [exact (Bg v Iv)|].
    destruct p as [k vs]; cbn in *. destruct (toGet_ok f) as (_ & T & _).
    destruct (T k vs v (Sub _ (or_introl eq_refl)) Iv) as [-> Ov]. exact (H v Ov R). }
  exact (Q (toGet f) d (fun p Ip => Ip)).
Qed.
Lemma addTransfer_bound f n (A G : nat -> Prop) d :
  (forall v, isIn f v -> fRelated f n (fNode f v) = true -> A v) ->
  (forall u v, isIn f u -> fRelated f n (fNode f u) = true -> isOut f v -> fRelated f (fNode f u) (fNode f v) = true -> G v) ->
  bound f A G d -> bound f A G (addTransferToWrite f n d).
Proof.
  intros H K. unfold addTransferToWrite.
  assert (NE : forall k vs, In (k, vs) (toActual f) -> exists u, In u vs).
  { unfold toActual. assert (E : forall rs t, (forall k vs, In (k, vs) t -> exists u, In u vs) ->
      forall k vs, In (k, vs) (fold_left (fun t r => collect f (rIn r) t) rs t) -> exists u, In u vs).
    { induction rs as [|r rs IH]; intros t T; cbn [fold_left]; [exact T|]. apply IH.
      unfold collect. generalize (rIn r) as us. intro us. revert t T. induction us as [|u us IHu]; intros t T; cbn [fold_left]; [exact T|].
      apply IHu. clear - T. intros k vs. induction t as [|[m ws] t IHt]; cbn.
      - intros [Q|[]]. injection Q as <- <-. exists u; left; reflexivity.
      - destruct (Nat.eqb m (fNode f u)).
        + intros [Q|I1].
          * injection Q as <- <-. destruct (T m ws (or_introl eq_refl)) as [x Ix]. exists x.
            destruct (mem u ws); [exact Ix|apply in_app_iff; left; exact Ix].
          * exact (T k vs (or_intror I1)).
        + intros [Q|I1].
          * injection Q as <- <-. exact (T m ws (or_introl eq_refl)).
          * exact (IHt (fun k vs Ik => T k vs (or_intror Ik)) I1). }
    apply E. intros k vs []. }
  assert (Q : forall t d, (forall p, In p t -> In p (toActual f)) -> bound f A G d -> bound f A G (fold_left (addActual1 f n) t d)).
  { clear d. induction t as [|p t IH]; intros d Sub B; cbn [fold_left]; [exact B|].
    apply IH; [intros q Iq; exact (Sub q (or_intror Iq))|]. unfold addActual1.
    destruct (fRelated f n (fst p)) eqn:R; cbn [negb]; [|exact B].
    destruct p as [k vs]; cbn [fst snd] in *. destruct (toActual_ok f) as (_ & T & _).
    pose proof (Sub _ (or_introl eq_refl)) as Ip.
    apply addGet_bound.
    - intros v Ov Rv. destruct (NE k vs Ip) as [u Iu]. destruct (T k vs u Ip Iu) as [-> Hu]. exact (K u v Hu R Ov Rv).
    - destruct B as [Ba Bg]. split; cbn; [|exact Bg]. intros v Iv. apply in_app_iff in Iv as [Iv|Iv]; [exact (Ba v Iv)|].
      destruct (T k vs v Ip Iv) as [-> Hv]. exact (H v Hv R). }
  exact (Q (toActual f) d (fun p Ip => Ip)).
Qed.
Definition boundA (f : func) (i : list access) (v : nat) : Prop :=
  isIn f v /\ exists a, In a i /\ aWrite a = true /\ mayTouch f a v.
Definition boundG (f : func) (i : list access) (v : nat) : Prop :=
  isOut f v /\ exists a, In a i /\
    ((aRead a = true /\ mayTouch f a v) \/
     (aWrite a = true /\ exists u, isIn f u /\ mayTouch f a u /\ fRelated f (fNode f u) (fNode f v) = true)).
Lemma visitUnknown_bound f i a n d : In a i ->
  (forall v, fRelated f n (fNode f v) = true -> mayTouch f a v) ->
  bound f (boundA f i) (boundG f i) d -> bound f (boundA f i) (boundG f i) (visitUnknown f a d n).
Proof.
  intros Ia T B. unfold visitUnknown.
  assert (B1 : bound f (boundA f i) (boundG f i) (if aWrite a then addTransferToWrite f n d else d)).
  { destruct (aWrite a) eqn:W; [|exact B]. apply addTransfer_bound; [| |exact B].
    - intros v Iv R. split; [exact Iv|]. exists a. split; [exact Ia|]. split; [exact W|exact (T v R)].
    - intros u v Iu Ru Ov R. split; [exact Ov|]. exists a. split; [exact Ia|]. right. split; [exact W|].
      exists u. split; [exact Iu|]. split; [exact (T u Ru)|exact R]. }
  cbv zeta. destruct (aRead a) eqn:Rd; [|exact B1]. apply addGet_bound; [|exact B1].
  intros v Ov R. split; [exact Ov|]. exists a. split; [exact Ia|]. left. split; [exact Rd|exact (T v R)].
Qed.
Lemma precise_true : C84_precise_claim.
Proof.
  intros f i. assert (B : bound f (boundA f i) (boundG f i) (visitInstr f i)).
  { unfold visitInstr. assert (Q : forall j d, (forall a, In a j -> In a i) ->
      bound f (boundA f i) (boundG f i) d -> bound f (boundA f i) (boundG f i) (fold_left (visitAccess f) j d)).
    { induction j as [|a j IH]; intros d Sub B; cbn [fold_left]; [exact B|].
      apply IH; [intros b Ib; exact (Sub b (or_intror Ib))|]. pose proof (Sub a (or_introl eq_refl)) as Ia.
      unfold visitAccess. destruct (aNode a) as [n|] eqn:N.
      - destruct (aWrite a && aInduct a); [exact B|].
        change (bound f (boundA f i) (boundG f i) (visitUnknown f a d n)).
        apply visitUnknown_bound; [exact Ia| |exact B]. intros v R. unfold mayTouch. rewrite N. exact R.
      - assert (G : forall ns d, (forall n, In n ns -> In n (fDistinct f)) -> bound f (boundA f i) (boundG f i) d ->
          bound f (boundA f i) (boundG f i) (fold_left (visitUnknown f a) ns d)).
        { clear B d. induction ns as [|n ns IHn]; intros d Sn B; cbn [fold_left]; [exact B|].
          apply IHn; [intros k Ik; exact (Sn k (or_intror Ik))|]. apply visitUnknown_bound; [exact Ia| |exact B].
          intros v R. unfold mayTouch. rewrite N. exists n. split; [exact (Sn n (or_introl eq_refl))|exact R]. }
        exact (G _ d (fun n Hn => Hn) B). }
    apply Q; [intros a Ia; exact Ia|]. split; intros v []. }
  intro v. split; [exact (proj1 B v)|exact (proj2 B v)].
Qed.

(** * Coherence *)
Definition inv (f : func) (m : values) (s : mstate) : Prop :=
  forall v,
    (hostOk s v = true -> forall c, host s v c = m v c) /\
    (hostOk s v = false -> devOk s v = true /\ isOut f v) /\
    (devOk s v = true -> isIn f v \/ hostOk s v = false -> forall c, dev s v c = m v c).
Lemma host_step f m s i rs w : relatedOk f -> (forall a, In a i -> aInduct a = false) -> sound f (EHost i rs w) ->
  (forall v c, w v c <> None -> isOut f v -> isIn f v) -> inv f m s ->
  fst (step f (EHost i rs w) s) = observe m rs /\ inv f (update w m) (snd (step f (EHost i rs w) s)).
Proof.
  intros Refl Ni [SR SW] Gw J. destruct (visitInstr_good f i Refl Ni) as [[_ Safe] Served].
  destruct (precise_true f i) with (v := 0) as [_ _].
  cbn [step fst snd]. set (d := visitInstr f i) in *.
  assert (IsInA : forall v, In v (dActual d) -> isIn f v).
  { intros v Iv. exact (proj1 (proj1 (precise_true f i v) Iv)). }
  set (s1 := doGet (dGet d) s).
  assert (H1 : forall v, hostOk s1 v = true -> forall c, host s1 v c = m v c).
  { intros v. unfold s1, doGet; cbn. destruct (J v) as (A & B & C). destruct (hostOk s v) eqn:O.
    - rewrite andb_false_r. intros _. exact (A eq_refl).
    - rewrite orb_false_r, andb_true_r. intros ->. apply C; [exact (proj1 (B eq_refl))|right; reflexivity]. }
  assert (H2 : forall v, isOut f v -> In v (dGet d) -> hostOk s1 v = true).
  { intros v _ Iv. unfold s1, doGet; cbn. apply mem_In in Iv. rewrite Iv. reflexivity. }
  assert (H3 : forall v, ~ isOut f v -> hostOk s1 v = true).
  { intros v No. unfold s1, doGet; cbn. apply orb_true_iff. right. destruct (hostOk s v) eqn:O; [reflexivity|].
    destruct (J v) as (_ & B & _). destruct (No (proj2 (B O))). }
  assert (H4 : forall v, hostOk s1 v = false -> hostOk s v = false /\ isOut f v).
  { intros v. unfold s1, doGet; cbn. rewrite orb_false_iff. intros [_ O]. split; [exact O|].
    destruct (J v) as (_ & B & _). exact (proj2 (B O)). }
  assert (HW : forall v c, w v c <> None -> isIn f v \/ isOut f v -> In v (dActual d)).
  { intros v c N Io. assert (Iv : isIn f v) by (destruct Io as [Q|Q]; [exact Q|exact (Gw v c N Q)]).
    destruct (w v c) as [x|] eqn:E; [|contradiction].
    destruct (SW v c x E Io) as (a & Ia & Wa & T). exact (proj2 (Served a Ia) Wa v Iv T). }
  assert (HA : forall v, In v (dActual d) -> hostOk s1 v = true).
  { intros v Iv. destruct (hostOk s1 v) eqn:O; [reflexivity|]. destruct (H4 v O) as [_ Ov].
    rewrite (H2 v Ov (Safe v Iv Ov)) in O. discriminate O. }
  split.
  - unfold observe. apply map_ext_in. intros [v c] I1; cbn. apply H1.
    destruct (hostOk s1 v) eqn:O; [reflexivity|]. destruct (H4 v O) as [_ Ov].
    destruct (SR v c I1 (or_intror Ov)) as (a & Ia & Ra & T).
    rewrite (H2 v Ov (proj1 (Served a Ia) Ra v Ov T)) in O. discriminate O.
  - intro v. unfold doActual; cbn [host dev hostOk devOk].
    assert (NotW : hostOk s1 v = false -> forall c, w v c = None).
    { intros O c. destruct (w v c) eqn:E; [|reflexivity]. exfalso. destruct (H4 v O) as [_ Ov].
      rewrite (HA v (HW v c ltac:(rewrite E; discriminate) (or_intror Ov))) in O. discriminate O. }
    destruct (mem v (dActual d)) eqn:M.
    + apply mem_In in M. cbn [orb negb andb]. split; [|split; discriminate].
      intros _ c. unfold update. destruct (w v c); [reflexivity|]. apply H1. exact (HA v M).
    + apply mem_false in M. cbn [orb negb andb]. split; [|split].
      * intros O c. unfold update. destruct (w v c); [reflexivity|]. exact (H1 v O c).
      * intro O. destruct (H4 v O) as [O' Ov]. split; [|exact Ov]. destruct (J v) as (_ & B & _). exact (proj1 (B O')).
      * intros Dv Q c. assert (E : w v c = None).
        { destruct Q as [Iv|O]; [|exact (NotW O c)]. destruct (w v c) eqn:E; [|reflexivity].
          destruct M. apply (HW v c); [rewrite E; discriminate|left; exact Iv]. }
        unfold update. rewrite E. destruct (J v) as (_ & _ & C). apply C; [exact Dv|].
        destruct Q as [Iv|O]; [left; exact Iv|right; exact (proj1 (H4 v O))].
Qed.
Lemma dev_step f m s r rs w : sound f (EDev r rs w) -> inv f m s ->
  fst (step f (EDev r rs w) s) = observe m rs /\ inv f (update w m) (snd (step f (EDev r rs w) s)).
Proof.
  intros (Ir & SR & SW & SA) J. cbn [step fst snd]. set (s1 := enter r s).
  assert (H1 : forall v, In v (rIn r) -> forall c, dev s1 v c = m v c).
  { intros v Iv c. unfold s1, enter; cbn. rewrite (proj2 (mem_In v (rIn r)) Iv). cbn [andb].
    destruct (J v) as (A & B & C). destruct (devOk s v) eqn:D; cbn [negb].
    - apply C; [reflexivity|]. left. exists r; split; assumption.
    - apply A. destruct (hostOk s v); [reflexivity|]. discriminate (proj1 (B eq_refl)). }
  split.
  - unfold observe. apply map_ext_in. intros [v c] I1; cbn. exact (H1 v (SR v c I1) c).
  - intro v. unfold leave; cbn [host dev hostOk devOk].
    destruct (mem v (rOut r)) eqn:M; cbn [negb andb orb].
    + apply mem_In in M. split; [discriminate|]. split; [intros _; split; [reflexivity|exists r; split; assumption]|].
      intros _ _ c. unfold update. destruct (w v c) eqn:E; [reflexivity|]. apply H1.
      destruct (in_dec Nat.eq_dec v (rIn r)) as [Iv|Nv]; [exact Iv|]. destruct (SA v c M Nv E).
    + apply mem_false in M. assert (E : forall c, w v c = None).
      { intro c. destruct (w v c) eqn:E; [|reflexivity]. destruct (M (SW v c z E)). }
      destruct (J v) as (A & B & C). unfold update. split; [|split].
      * intros O c. rewrite E. exact (A O c).
      * intro O. split; [|exact (proj2 (B O))]. unfold s1, enter; cbn. rewrite (proj1 (B O)). apply orb_true_r.
      * intros Dv Q c. rewrite E. destruct (in_dec Nat.eq_dec v (rIn r)) as [Iv|Nv]; [exact (H1 v Iv c)|].
        unfold s1, enter in Dv |- *; cbn in Dv |- *. apply mem_false in Nv. rewrite Nv in Dv |- *. cbn in Dv |- *.
        exact (C Dv Q c).
Qed.
Lemma run_ok f : relatedOk f -> forall es m s, (forall e, In e es -> sound f e) ->
  (forall i rs w v c, In (EHost i rs w) es -> w v c <> None -> isOut f v -> isIn f v) ->
  (forall i rs w a, In (EHost i rs w) es -> In a i -> aInduct a = false) ->
  inv f m s -> fst (run f es s) = fst (original es m) /\ inv f (snd (original es m)) (snd (run f es s)).
Proof.
  intro Refl. induction es as [|e es IH]; intros m s So Gw Gi J; cbn [run original].
  - split; [reflexivity|exact J].
  - assert (H : fst (step f e s) = observe m (readsOf e) /\ inv f (update (writesOf e) m) (snd (step f e s))).
    { pose proof (So e (or_introl eq_refl)) as Se. destruct e as [i rs w|r rs w].
      - apply host_step; [exact Refl| |exact Se| |exact J].
        + intros a Ia. exact (Gi i rs w a (or_introl eq_refl) Ia).
        + intros v c. exact (Gw i rs w v c (or_introl eq_refl)).
      - apply dev_step; [exact Se|exact J]. }
    destruct (step f e s) as [o s1]. destruct H as [E J1]. cbn [fst snd] in E, J1.
    destruct (IH _ s1 (fun x Ix => So x (or_intror Ix))
      (fun i rs w v c Ix => Gw i rs w v c (or_intror Ix)) (fun i rs w a Ix => Gi i rs w a (or_intror Ix)) J1) as [E2 J2].
    change (fun v c => match writesOf e v c with Some x => x | None => m v c end) with (update (writesOf e) m).
    destruct (run f es s1) as [os s2]. destruct (original es (update (writesOf e) m)) as [os' m'].
    cbn [fst snd] in *. split; [|exact J2]. rewrite E, E2. reflexivity.
Qed.
Lemma boundary_In f P t v : tableOk f P t -> fMain f = false -> fVisible f v = true -> P v -> In v (boundary f t).
Proof.
  intros (_ & _ & B) M V Pv. unfold boundary. rewrite M. apply filter_In. split; [|exact V].
  destruct (B v Pv) as (vs & I1 & Iv). apply in_flat_map. exists (fNode f v, vs). split; [exact I1|exact Iv].
Qed.
Lemma coherent_true : C84_coherent_claim true true.
Proof.
  intros f es m s Refl (Ih & Io & Id) So Gw Gi. specialize (Gw eq_refl). specialize (Gi eq_refl).
  unfold execute. set (s0 := doActual (boundary f (toActual f)) s).
  assert (J : inv f m s0).
  { intro v. unfold s0, doActual; cbn. rewrite Io, orb_true_r. split; [intros _; exact (Ih v)|].
    split; [discriminate|]. intros D [Iv|Q]; [|discriminate Q]. exfalso.
    apply andb_true_iff in D as [D1 D2]. apply negb_true_iff, mem_false in D1.
    destruct (fMain f) eqn:M; [rewrite (Id v (or_introl eq_refl)) in D2; discriminate D2|].
    destruct (fVisible f v) eqn:V; [|rewrite (Id v (or_intror V)) in D2; discriminate D2].
    apply D1. exact (boundary_In f _ _ v (toActual_ok f) M V Iv). }
  destruct (run_ok f Refl es m s0 So Gw Gi J) as [E J1].
  destruct (run f es s0) as [os s1]. cbn [fst snd] in *. split; [exact E|].
  intros M v c V. unfold doGet; cbn. destruct (J1 v) as (A & B & C). destruct (hostOk s1 v) eqn:O.
  - rewrite andb_false_r. exact (A eq_refl c).
  - destruct (B eq_refl) as [Dv Ov].
    rewrite (proj2 (mem_In v _) (boundary_In f _ _ v (toGet_ok f) M V Ov)). cbn. exact (C Dv (or_intror eq_refl) c).
Qed.

(** * Exits of loops and callees *)
Lemma exit_true : C84_exit_claim true.
Proof.
  intros b Ne Q. specialize (Q eq_refl). exists (pred (length b)).
  assert (E : exitPos b = Some (pred (length b))).
  { induction b as [|r b IH]; [destruct Ne; reflexivity|].
    pose proof (Q 0 r eq_refl) as Er. cbn [exitPos]. rewrite Er. cbn [orb]. destruct b as [|r' b]; [reflexivity|]. cbn [negb].
    rewrite IH; [reflexivity|discriminate|]. intros k x N. exact (Q (S k) x N). }
  split; [exact E|]. destruct b as [|r b]; [destruct Ne; reflexivity|]. cbn [length pred]. split; [lia|]. split; [|reflexivity].
  intros k Lt. destruct (nth_error (r :: b) k) as [x|] eqn:N.
  - rewrite (Q k x N). reflexivity.
  - apply nth_error_None in N. cbn in N. lia.
Qed.
Lemma exit_refuted : ~ C84_exit_claim false.
Proof.
  intro H. destruct (H [true; false]) as (p & E & _ & F & _); [discriminate|discriminate|].
  injection E as <-. discriminate (F 0 (Nat.lt_succ_diag_r 0)).
Qed.
Lemma sortMemory_ok from local final v :
  (In v (fst (sortMemory from local final)) \/ In v (snd (sortMemory from local final)) <-> In v (concat from)) /\
  (In v (snd (sortMemory from local final)) <-> final = false /\ In v (concat from) /\ In v local).
Proof.
  unfold sortMemory. destruct final; cbn [fst snd].
  - split; [cbn; tauto|]. split; [intros []|intros [Q _]; discriminate Q].
  - rewrite !filter_In. destruct (mem v local) eqn:M.
    + apply mem_In in M. cbn. split; [intuition congruence|tauto].
    + apply mem_false in M. cbn. split; [intuition congruence|]. split; [intros [_ Q]; discriminate Q|intros (_ & _ & Q); contradiction].
Qed.
Lemma sortMemory_once from local final v :
  ~ (In v (fst (sortMemory from local final)) /\ In v (snd (sortMemory from local final))).
Proof.
  unfold sortMemory. destruct final; cbn [fst snd]; [intros [_ []]|].
  rewrite !filter_In. intros [[_ A] [_ B]]. rewrite B in A. discriminate A.
Qed.
Lemma callee_true : C84_callee_claim true.
Proof.
  intros acts gets localA localG final Same res. specialize (Same eq_refl). unfold res, collectInCallee; cbn [fst snd].
  split; [|split; [|split; [|split; [|split]]]]; intro v.
  - destruct acts as [|a acts]; [cbn; tauto|]. exact (proj1 (sortMemory_ok _ localA final v)).
  - destruct gets as [|g gets]; [cbn; tauto|]. rewrite <- Same. exact (proj1 (sortMemory_ok _ localG final v)).
  - destruct acts as [|a acts]; [cbn; tauto|]. exact (proj2 (sortMemory_ok _ localA final v)).
  - destruct gets as [|g gets]; [cbn; tauto|]. rewrite <- Same. exact (proj2 (sortMemory_ok _ localG final v)).
  - destruct acts as [|a acts]; [cbn; tauto|]. apply sortMemory_once.
  - destruct gets as [|g gets]; [cbn; tauto|]. apply sortMemory_once.
Qed.
Lemma callee_refuted : ~ C84_callee_claim false.
Proof.
  intro H. destruct (H [[1]] [[2]] [] [] true) as (_ & Q & _); [discriminate|].
  cbn in Q. destruct (proj2 (Q 2) (or_introl eq_refl)) as [[E|[]]|[]]. discriminate E.
Qed.

(** * Counterexamples *)
Definition zeros : values := fun _ _ => 0%Z.
Definition write1 (v c : nat) (x : Z) : nat -> nat -> option Z :=
  fun u e => if Nat.eqb u v && Nat.eqb e c then Some x else None.
Definition writeAll (v : nat) (x : Z) : nat -> nat -> option Z := fun u _ => if Nat.eqb u v then Some x else None.
Lemma write1_some v c x u e y : write1 v c x u e = Some y -> u = v /\ e = c.
Proof.
  unfold write1. destruct (Nat.eqb u v) eqn:A; [|discriminate]. destruct (Nat.eqb e c) eqn:B; [|discriminate].
  intros _. split; [apply Nat.eqb_eq; exact A|apply Nat.eqb_eq; exact B].
Qed.
Lemma writeAll_some v x u e y : writeAll v x u e = Some y -> u = v.
Proof. unfold writeAll. destruct (Nat.eqb u v) eqn:A; [|discriminate]. intros _. apply Nat.eqb_eq; exact A. Qed.
(* a region writes A (variable 1) entirely, the host writes A[0] and returns *)
Definition regionW : region := Region [] [1].
Definition funcW : func := Func (fun v => v) Nat.eqb [] [regionW] (fun _ => true) false.
Definition storeW : list access := [Access (Some 1) false true false].
Definition traceW : list event := [EDev regionW [] (writeAll 1 3%Z); EHost storeW [] (write1 1 0 5%Z)].
Definition state0 : mstate := State zeros zeros (fun _ => true) (fun _ => false).
Lemma state0_initial f : initial f zeros state0.
Proof. split; [reflexivity|]. split; reflexivity. Qed.
Lemma coherent_refuted_written : ~ C84_coherent_claim false true.
Proof.
  intro H. destruct (H funcW traceW zeros state0) as [_ F].
  - intro n. apply Nat.eqb_refl.
  - apply state0_initial.
  - intros e [<-|[<-|[]]]; cbn.
    + split; [left; reflexivity|]. split; [intros v c []|]. split.
      * intros v c x E. left. symmetry. exact (writeAll_some _ _ _ _ _ E).
      * intros v c [<-|[]] _. discriminate.
    + split; [intros v c []|]. intros v c x E _. destruct (write1_some _ _ _ _ _ _ E) as [-> _].
      exists (Access (Some 1) false true false). split; [left; reflexivity|]. split; reflexivity.
  - discriminate.
  - intros _ i rs w a [E|[E|[]]] Ia; [discriminate E|]. injection E as <- _ _. destruct Ia as [<-|[]]. reflexivity.
  - discriminate (F eq_refl 1 0 eq_refl).
Qed.
(* i (variable 2) is stored, a region reads it, then there is a parallel loop with the induction variable i *)
Definition regionI : region := Region [2] [].
Definition funcI : func := Func (fun v => v) Nat.eqb [] [regionI] (fun _ => true) true.
Definition loadI : list access := [Access (Some 2) true false false].
Definition storeI : list access := [Access (Some 2) false true true].
Definition traceI : list event :=
  [EDev regionI [] (fun _ _ => None); EHost storeI [] (write1 2 0 5%Z); EDev regionI [(2, 0)] (fun _ _ => None)].
Lemma coherent_refuted_induct : ~ C84_coherent_claim true false.
Proof.
  intro H. destruct (H funcI traceI zeros state0) as [E _].
  - intro n. apply Nat.eqb_refl.
  - apply state0_initial.
  - assert (D : forall rs, (forall v c, In (v, c) rs -> v = 2) -> sound funcI (EDev regionI rs (fun _ _ => None))).
    { intros rs R. split; [left; reflexivity|]. split; [intros v c I1; left; symmetry; exact (R v c I1)|].
      split; [intros v c x Q; discriminate Q|intros v c []]. }
    intros e [<-|[<-|[<-|[]]]].
    + apply D. intros v c [].
    + split; [intros v c []|]. intros v c x Q _. destruct (write1_some _ _ _ _ _ _ Q) as [-> _].
      exists (Access (Some 2) false true true). split; [left; reflexivity|]. split; reflexivity.
    + apply D. intros v c [Q|[]]. injection Q as <- _. reflexivity.
  - intros _ i rs w v c _ _ (r & [<-|[]] & []).
  - discriminate.
  - discriminate E.
Qed.
