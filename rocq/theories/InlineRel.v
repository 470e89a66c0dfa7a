(** Relations between frames and expressions of a program and its expansion (C72). *)
From Coq Require Import List Bool Arith ZArith Lia.
From Verif Require Import InlineModel InlineSpec InlineSem InlineRen.
Import ListNotations.

Lemma lookup_update l x v l2 y : update l x v = Some l2 -> lookup l2 y = if y =? x then Some v else lookup l y.
Proof.
  revert l2. induction l as [|[z w] l IH]; intros l2 E; [discriminate|]. cbn [update] in E. destruct (x =? z) eqn:XZ.
  - apply Nat.eqb_eq in XZ. subst z. injection E as <-. cbn [lookup]. destruct (y =? x); reflexivity.
  - destruct (update l x v) as [l3|]; [|discriminate]. injection E as <-. cbn [lookup]. rewrite (IH l3 eq_refl). apply Nat.eqb_neq in XZ.
    destruct (y =? z) eqn:YZ; [|reflexivity]. apply Nat.eqb_eq in YZ. subst y. destruct (z =? x) eqn:ZX; [|reflexivity]. apply Nat.eqb_eq in ZX. now subst.
Qed.
Lemma lookup_assign_other l x v y : y <> x -> lookup (assignL l x v) y = lookup l y.
Proof.
  intro NE. unfold assignL. destruct (update l x v) as [l2|] eqn:E; [|reflexivity]. rewrite (lookup_update _ _ _ _ y E). apply Nat.eqb_neq in NE. now rewrite NE.
Qed.
Lemma update_in l x v : In x (dom l) -> exists l2, update l x v = Some l2.
Proof. intro H. destruct (update l x v) as [l2|] eqn:E; [now exists l2|]. apply update_none in E. contradiction. Qed.
Lemma lookup_in l x : In x (dom l) -> exists v, lookup l x = Some v.
Proof. intro H. destruct (lookup l x) as [v|] eqn:E; [now exists v|]. apply lookup_none in E. contradiction. Qed.
Lemma lookup_assign_same l x v : In x (dom l) -> lookup (assignL l x v) x = Some v.
Proof. intro H. destruct (update_in l x v H) as (l2 & E). unfold assignL. rewrite E, (lookup_update _ _ _ _ x E), Nat.eqb_refl. reflexivity. Qed.

Section Fm.
Variable src : nat -> Prop.
Variable k0 : nat.
Hypothesis SK : forall x, src x -> x < k0.
(** A frame of a program and a frame of its expansion: new variables are added, [rest] is the frame of a caller *)
Inductive fm (rest : locals) : locals -> locals -> Prop :=
| FmNil : fm rest [] rest
| FmSrc x v l l' : src x -> fm rest l l' -> fm rest ((x, v) :: l) ((x, v) :: l')
| FmExt r v l l' : k0 <= r -> fm rest l l' -> fm rest l ((r, v) :: l').
Lemma fm_lookup rest l l' x : fm rest l l' -> src x -> lookup l' x = match lookup l x with Some v => Some v | None => lookup rest x end.
Proof.
  intros F SX. induction F as [|y v l l' SY F IH|r v l l' K F IH]; [reflexivity| |].
  - cbn [lookup]. destruct (x =? y); [reflexivity|exact IH].
  - cbn [lookup]. specialize (SK x SX). assert (E : x =? r = false) by (apply Nat.eqb_neq; lia). now rewrite E.
Qed.
Lemma fm_look rest g l l' x : fm rest l l' -> src x -> In x (dom l) \/ ~ In x (dom rest) -> look g l' x = look g l x.
Proof.
  intros F SX V. unfold look. rewrite (fm_lookup rest l l' x F SX). destruct (lookup l x) eqn:E; [reflexivity|].
  destruct V as [V|V]; [apply lookup_none in E; contradiction|]. apply lookup_none in V. now rewrite V.
Qed.
Lemma fm_update rest l l' x v : fm rest l l' -> src x -> forall l2, update l x v = Some l2 -> exists l2', update l' x v = Some l2' /\ fm rest l2 l2'.
Proof.
  intros F SX. induction F as [|y w l l' SY F IH|r w l l' K F IH]; intros l2 E; [discriminate| |]; cbn [update] in *.
  - destruct (x =? y).
    + injection E as <-. eexists. split; [reflexivity|]. now constructor.
    + destruct (update l x v) as [l3|]; [|discriminate]. injection E as <-. destruct (IH l3 eq_refl) as (l3' & -> & F3). eexists. split; [reflexivity|]. now constructor.
  - specialize (SK x SX). assert (NE : x =? r = false) by (apply Nat.eqb_neq; lia). rewrite NE. destruct (IH l2 E) as (l3' & -> & F3).
    eexists. split; [reflexivity|]. now constructor.
Qed.
Lemma fm_notin rest l l' x : fm rest l l' -> src x -> ~ In x (dom l) -> ~ In x (dom rest) -> ~ In x (dom l').
Proof. intros F SX A B. rewrite <- lookup_none in *. rewrite (fm_lookup _ _ _ _ F SX), A. exact B. Qed.
Lemma fm_assign rest g l l' x v : fm rest l l' -> src x -> In x (dom l) \/ ~ In x (dom rest) ->
  assignG g l' x v = assignG g l x v /\ fm rest (assignL l x v) (assignL l' x v).
Proof.
  intros F SX V. unfold assignG, assignL. destruct (update l x v) as [l2|] eqn:E.
  - destruct (fm_update _ _ _ _ _ F SX _ E) as (l2' & -> & F2). now split.
  - apply update_none in E. destruct V as [V|V]; [contradiction|]. pose proof (fm_notin _ _ _ _ F SX E V) as NI.
    apply (update_none l' x v) in NI. rewrite NI. now split.
Qed.
(** Assignment to a variable of a caller *)
Lemma fm_assignR rest g l l' R v : fm rest l l' -> ~ src R -> R < k0 -> In R (dom rest) ->
  assignG g l' R v = g /\ fm (assignL rest R v) l (assignL l' R v).
Proof.
  intros F NS RK I. assert (X : exists l2, update l' R v = Some l2 /\ fm (assignL rest R v) l l2).
  { induction F as [|y w l l' SY F IH|r w l l' K F IH]; cbn [update].
    - unfold assignL. destruct (update_in rest R v I) as (l2 & ->). eexists. split; [reflexivity|constructor].
    - assert (NE : R =? y = false) by (apply Nat.eqb_neq; intros ->; contradiction). rewrite NE. destruct IH as (l2 & -> & F2). eexists. split; [reflexivity|now constructor].
    - assert (NE : R =? r = false) by (apply Nat.eqb_neq; lia). rewrite NE. destruct IH as (l2 & -> & F2). eexists. split; [reflexivity|now constructor]. }
  destruct X as (l2 & E & F2). unfold assignG. unfold assignL at 2. rewrite E. now split.
Qed.
(** Assignment to a new variable *)
Lemma fm_assignE rest l l' r v : fm rest l l' -> k0 <= r -> ~ In r (dom rest) -> fm rest l (assignL l' r v).
Proof.
  intros F K I. unfold assignL. destruct (update l' r v) as [l2|] eqn:E; [|exact F]. revert l2 E.
  induction F as [|y w l l' SY F IH|z w l l' KZ F IH]; cbn [update]; intros l2 E.
  - exfalso. apply I. destruct (in_dec Nat.eq_dec r (dom rest)) as [D|D]; [exact D|]. apply (update_none rest r v) in D. congruence.
  - specialize (SK y SY). assert (NE : r =? y = false) by (apply Nat.eqb_neq; lia). rewrite NE in E. destruct (update l' r v) as [l3|]; [|discriminate].
    injection E as <-. constructor; [exact SY|]. now apply IH.
  - destruct (r =? z); [injection E as <-; now constructor|]. destruct (update l' r v) as [l3|]; [|discriminate]. injection E as <-. constructor; [exact KZ|]. now apply IH.
Qed.
Lemma fm_pop rest l r w l' : fm rest l ((r, w) :: l') -> k0 <= r -> (forall y, In y (dom rest) -> y < k0) -> fm rest l l'.
Proof.
  intros F K RK. inversion F as [E1 E2|x v l1 l1' SX F1 E1 E2|z v l1 l1' KZ F1 E1 E2]; subst.
  - exfalso. specialize (RK r (or_introl eq_refl)). lia.
  - exfalso. specialize (SK r SX). lia.
  - exact F1.
Qed.
Lemma fm_pops rest l ext : forall l' d, fm rest l l' -> dom l' = ext ++ d -> (forall r, In r ext -> k0 <= r) -> (forall y, In y (dom rest) -> y < k0) -> fm rest l (skipn (length ext) l').
Proof.
  induction ext as [|r ext IH]; intros l' d F E K RK; [exact F|]. destruct l' as [|[r1 w] l']; [discriminate|]. cbn [dom map fst app] in E. injection E as -> E.
  cbn [length skipn]. apply (IH l' d); [|exact E|intros z Z; apply K; now right|exact RK]. apply (fm_pop rest l r w); [exact F|apply K; now left|exact RK].
Qed.
Lemma fm_popsrc rest x v l w l' : fm rest ((x, v) :: l) ((x, w) :: l') -> src x -> fm rest l l' /\ v = w.
Proof.
  intros F SX. inversion F as [E1 E2|y v1 l1 l1' SY F1 E1 E2|z v1 l1 l1' KZ F1 E1 E2]; subst; [now split|]. exfalso. specialize (SK x SX). lia.
Qed.
Definition keep (l' l2' : locals) : Prop := forall R v, k0 <= R -> lookup l' R = Some v -> lookup l2' R = Some v.
Lemma keep_refl l' : keep l' l'.
Proof. intros R v _ E. exact E. Qed.
Lemma keep_trans l1 l2 l3 : keep l1 l2 -> keep l2 l3 -> keep l1 l3.
Proof. intros A B R v K E. apply B; [exact K|]. now apply A. Qed.
Lemma keep_assign l' x v : src x -> keep l' (assignL l' x v).
Proof. intros SX R w K E. specialize (SK x SX). rewrite lookup_assign_other by lia. exact E. Qed.
Lemma keep_push l' r v : ~ In r (dom l') -> keep l' ((r, v) :: l').
Proof. intros NI R w K E. cbn [lookup]. destruct (R =? r) eqn:X; [|exact E]. apply Nat.eqb_eq in X. subst R. apply lookup_some in E. contradiction. Qed.

(** An expression and its expansion: some of calls are already executed *)
Section Er.
Variable vis : nat -> Prop.
Inductive er (l' : locals) : expr -> expr -> Prop :=
| ErConst z : er l' (EConst z) (EConst z)
| ErVar x : vis x -> er l' (EVar x) (EVar x)
| ErRes R v : k0 <= R -> lookup l' R = Some v -> er l' (EConst v) (EVar R)
| ErBin w o a a' b b' : er l' a a' -> er l' b b' -> er l' (EBin w o a b) (EBin w o a' b')
| ErSeq k a a' b b' : er l' a a' -> er l' b b' -> er l' (ESeq k a b) (ESeq k a' b')
| ErCond c c' a a' b b' : er l' c c' -> er l' a a' -> er l' b b' -> er l' (ECond c a b) (ECond c' a' b')
| ErAssign x a a' : vis x -> er l' a a' -> er l' (EAssign x a) (EAssign x a')
| ErCall m f a a' b b' : er l' a a' -> er l' b b' -> er l' (ECall m f a b) (ECall m f a' b').
Lemma er_keep l' l2' e e' : keep l' l2' -> er l' e e' -> er l2' e e'.
Proof. intros K E. induction E; try (constructor; assumption). constructor; [assumption|]. now apply K. Qed.
Lemma er_refl l' e : (forall x, In x (freeE e) -> vis x) -> er l' e e.
Proof.
  induction e as [z|y|w o a IHa b IHb|k a IHa b IHb|c IHc a IHa b IHb|y a IHa|m f a IHa b IHb]; cbn [freeE]; intro V; constructor.
  1, 9: apply V; now left.
  all: match goal with IH : _ -> er _ ?a ?a |- er _ ?a ?a => apply IH end; intros x X; apply V; rewrite ?in_app_iff; try tauto. now right.
Qed.
Variable opf : nat -> Z -> Z -> Z.
Variables C' C : nat -> Z -> Z -> globals -> Z -> globals -> Prop.
Hypothesis HC : forall f a b g v g2, C' f a b g v g2 -> C f a b g v g2.
Variable rest : locals.
Variable d : list nat.
Hypothesis VS : forall x, vis x -> src x /\ (In x d \/ ~ In x (dom rest)).
Lemma er_const l' e z : er l' e (EConst z) -> e = EConst z.
Proof. inversion 1; reflexivity. Qed.
Lemma er_step g l' e' g2 l2' e2' : step opf C' g l' e' g2 l2' e2' -> forall l e, fm rest l l' -> dom l = d -> er l' e e' ->
  exists l2 e2, steps opf C g l e g2 l2 e2 /\ fm rest l2 l2' /\ dom l2 = d /\ er l2' e2 e2' /\ keep l' l2'.
Proof.
  induction 1 as [g l' x|g l' w o a b|g l' k a b|g l' c a b|g l' x a|g l' m f a b v g2 HCC|g l' w o a b g2 l2 a2 S1 IH|g l' w o a b g2 l2 b2 S1 IH
    |g l' k a b g2 l2 a2 S1 IH|g l' c a b g2 l2 c2 S1 IH|g l' x a g2 l2 a2 S1 IH|g l' m f a b g2 l2 a2 S1 IH|g l' m f a b g2 l2 b2 S1 IH]; intros l e F D E.
  - inversion E; subst.
    + match goal with V : vis x |- _ => destruct (VS x V) as (SX & IV) end. eexists l, _. split; [apply steps_one; constructor|].
      split; [exact F|]. split; [reflexivity|]. split; [|apply keep_refl]. rewrite (fm_look rest g l l' x F SX IV). constructor.
    + match goal with L : lookup l' x = Some ?v |- _ => exists l, (EConst v); assert (EL : look g l' x = v) by (unfold look; now rewrite L) end.
      split; [constructor|]. split; [exact F|]. split; [reflexivity|]. split; [|apply keep_refl]. rewrite EL. constructor.
  - inversion E as [ | | |? ? ea ? eb ? E1 E2| | | | ]; subst. apply er_const in E1. apply er_const in E2. subst. eexists l, _. split; [apply steps_one; constructor|].
    split; [exact F|]. split; [reflexivity|]. split; [constructor|apply keep_refl].
  - inversion E as [ | | | |? ea ? eb ? E1 E2| | | ]; subst. apply er_const in E1. subst. eexists l, _. split; [apply steps_one; constructor|].
    split; [exact F|]. split; [reflexivity|]. split; [|apply keep_refl]. destruct k; cbn [seqNext]; try destruct (Z.eqb a 0); try constructor; exact E2.
  - inversion E as [ | | | | |ec ? ea ? eb ? E0 E1 E2| | ]; subst. apply er_const in E0. subst. eexists l, _. split; [apply steps_one; constructor|].
    split; [exact F|]. split; [reflexivity|]. split; [|apply keep_refl]. destruct (Z.eqb c 0); assumption.
  - inversion E as [ | | | | | |? ea ? VX E1| ]; subst. apply er_const in E1. subst. destruct (VS x VX) as (SX & IV).
    destruct (fm_assign rest g l l' x a F SX IV) as (EG & F2). eexists (assignL l x a), _. split; [apply steps_one; rewrite EG; constructor|]. split; [exact F2|].
    split; [apply assignL_dom|]. split; [constructor|]. now apply keep_assign.
  - inversion E as [ | | | | | | |? ? ea ? eb ? E1 E2]; subst. apply er_const in E1. apply er_const in E2. subst. eexists l, _. split; [apply steps_one; apply StCall; apply HC; exact HCC|].
    split; [exact F|]. split; [reflexivity|]. split; [constructor|apply keep_refl].
  - inversion E as [ | | |? ? ea ? eb ? E1 E2| | | | ]; subst. destruct (IH l ea F eq_refl E1) as (l2b & e2 & S2 & F2 & D2 & E3 & K). exists l2b, (EBin w o e2 eb).
    split; [now apply steps_bin1|]. split; [exact F2|]. split; [exact D2|]. split; [constructor; [exact E3|exact (er_keep _ _ _ _ K E2)]|exact K].
  - inversion E as [ | | |? ? ea ? eb ? E1 E2| | | | ]; subst. destruct (IH l eb F eq_refl E2) as (l2b & e2 & S2 & F2 & D2 & E3 & K). exists l2b, (EBin w o ea e2).
    split; [now apply steps_bin2|]. split; [exact F2|]. split; [exact D2|]. split; [constructor; [exact (er_keep _ _ _ _ K E1)|exact E3]|exact K].
  - inversion E as [ | | | |? ea ? eb ? E1 E2| | | ]; subst. destruct (IH l ea F eq_refl E1) as (l2b & e2 & S2 & F2 & D2 & E3 & K). exists l2b, (ESeq k e2 eb).
    split; [now apply steps_seq1|]. split; [exact F2|]. split; [exact D2|]. split; [constructor; [exact E3|exact (er_keep _ _ _ _ K E2)]|exact K].
  - inversion E as [ | | | | |ec ? ea ? eb ? E0 E1 E2| | ]; subst. destruct (IH l ec F eq_refl E0) as (l2b & e2 & S2 & F2 & D2 & E3 & K). exists l2b, (ECond e2 ea eb).
    split; [now apply steps_cond1|]. split; [exact F2|]. split; [exact D2|]. split; [constructor; [exact E3|exact (er_keep _ _ _ _ K E1)|exact (er_keep _ _ _ _ K E2)]|exact K].
  - inversion E as [ | | | | | |? ea ? VX E1| ]; subst. destruct (IH l ea F eq_refl E1) as (l2b & e2 & S2 & F2 & D2 & E3 & K). exists l2b, (EAssign x e2).
    split; [now apply steps_assign1|]. split; [exact F2|]. split; [exact D2|]. split; [constructor; [exact VX|exact E3]|exact K].
  - inversion E as [ | | | | | | |? ? ea ? eb ? E1 E2]; subst. destruct (IH l ea F eq_refl E1) as (l2b & e2 & S2 & F2 & D2 & E3 & K). exists l2b, (ECall m f e2 eb).
    split; [now apply steps_call1|]. split; [exact F2|]. split; [exact D2|]. split; [constructor; [exact E3|exact (er_keep _ _ _ _ K E2)]|exact K].
  - inversion E as [ | | | | | | |? ? ea ? eb ? E1 E2]; subst. destruct (IH l eb F eq_refl E2) as (l2b & e2 & S2 & F2 & D2 & E3 & K). exists l2b, (ECall m f ea e2).
    split; [now apply steps_call2|]. split; [exact F2|]. split; [exact D2|]. split; [constructor; [exact (er_keep _ _ _ _ K E1)|exact E3]|exact K].
Qed.
Lemma er_steps g l' e' g2 l2' e2' : steps opf C' g l' e' g2 l2' e2' -> forall l e, fm rest l l' -> dom l = d -> er l' e e' ->
  exists l2 e2, steps opf C g l e g2 l2 e2 /\ fm rest l2 l2' /\ dom l2 = d /\ er l2' e2 e2' /\ keep l' l2'.
Proof.
  induction 1 as [g l' e'|g l' e' g1 l1' e1' g2 l2' e2' S1 S2 IH]; intros l e F D E.
  - exists l, e. split; [constructor|]. split; [exact F|]. split; [exact D|]. split; [exact E|apply keep_refl].
  - destruct (er_step _ _ _ _ _ _ S1 l e F D E) as (l1 & e1 & S3 & F1 & D1 & E1 & K1). destruct (IH l1 e1 F1 D1 E1) as (l2 & e2 & S4 & F2 & D2 & E2 & K2).
    exists l2, e2. split; [exact (steps_trans _ _ _ _ _ _ _ _ S3 _ _ _ S4)|]. split; [exact F2|]. split; [exact D2|]. split; [exact E2|exact (keep_trans _ _ _ K1 K2)].
Qed.
Lemma er_eval g l' e' v g2 l2' l e : eval opf C' g l' e' v g2 l2' -> fm rest l l' -> dom l = d -> er l' e e' ->
  exists l2, eval opf C g l e v g2 l2 /\ fm rest l2 l2' /\ dom l2 = d /\ keep l' l2'.
Proof.
  intros S1 F D E. destruct (er_steps _ _ _ _ _ _ S1 l e F D E) as (l2 & e2 & S2 & F2 & D2 & E2 & K). apply er_const in E2. subst e2.
  exists l2. now repeat split.
Qed.
End Er.
End Fm.
Lemma assign_inv opf C x g l e g2 l2 v : steps opf C g l (EAssign x e) g2 l2 (EConst v) ->
  exists g1 l1, steps opf C g l e g1 l1 (EConst v) /\ g2 = assignG g1 l1 x v /\ l2 = assignL l1 x v.
Proof.
  intro H. remember (EAssign x e) as ea eqn:Ea. remember (EConst v) as ev eqn:Ev. revert e Ea Ev.
  induction H as [g l e0|g l e0 g1 l1 e1 g2 l2 e2 S1 S2 IH]; intros e Ea Ev; [subst; discriminate|]. subst. inversion S1; subst.
  - inversion S2 as [|? ? ? ? ? ? ? ? ? S3]; subst; [|inversion S3]. exists g, l. split; [constructor|]. now split.
  - destruct (IH _ eq_refl eq_refl) as (g4 & l4 & S4 & EG & EL). exists g4, l4. split; [econstructor; eassumption|now split].
Qed.
