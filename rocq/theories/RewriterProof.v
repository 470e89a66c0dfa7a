(** Proofs about rewriting of texts: the mapping of locations always describes the
    borders of pieces. *)
From Coq Require Import ZArith List Bool Arith Lia.
From Verif Require Import RewriterModel RewriterSpec.
Import ListNotations.
Local Open Scope Z_scope.

Lemma wrap_small z : 0 <= z < W -> wrap z = z.
Proof. intro H. unfold wrap. apply Z.mod_small. exact H. Qed.
Lemma wrap_add x d : wrap (wrap x + d) = wrap (x + d).
Proof. unfold wrap. rewrite Zplus_mod_idemp_l. reflexivity. Qed.
Lemma W_pos : 0 < W.
Proof. reflexivity. Qed.

Section P.
Context {A : Type}.
Implicit Types (d l r : doc A) (p q : piece A).

Lemma zlen_app {B} (x y : list B) : zlen (x ++ y) = zlen x + zlen y.
Proof. unfold zlen. rewrite app_length. lia. Qed.
Lemma zlen_nonneg {B} (x : list B) : 0 <= zlen x.
Proof. unfold zlen. lia. Qed.
Lemma render_app l r : render (l ++ r) = render l ++ render r.
Proof. unfold render. apply flat_map_app. Qed.
Lemma render_cons p l : render (p :: l) = show p ++ render l.
Proof. reflexivity. Qed.
Lemma widths_app l r : widths (l ++ r) = (widths l + widths r)%nat.
Proof. unfold widths. rewrite map_app, list_sum_app. reflexivity. Qed.
Lemma widths_cons p l : widths (p :: l) = (width p + widths l)%nat.
Proof. reflexivity. Qed.

Lemma app_mid {B} : forall (l : list B) (p : B) (r l' : list B) (q : B) (t : list B), l ++ p :: r = l' ++ q :: t ->
  (l = l' /\ p = q /\ r = t) \/ (exists m, l = l' ++ q :: m /\ t = m ++ p :: r)
  \/ (exists m, l' = l ++ p :: m /\ r = m ++ q :: t).
Proof.
  induction l as [|a l IH]; intros p r [|b l'] q t H; cbn in H.
  - injection H as -> ->. now left.
  - injection H as -> ->. right. right. now exists l'.
  - injection H as -> <-. right. left. now exists l.
  - injection H as -> H. destruct (IH _ _ _ _ _ H) as [(-> & -> & ->)|[(m & -> & ->)|(m & -> & ->)]].
    + now left.
    + right. left. now exists m.
    + right. right. now exists m.
Qed.

(** ** The mapping *)
Lemma at_ok (m : list Z) (i : nat) v : nth_error m i = Some v -> at_ m (Z.of_nat i) = Some v.
Proof.
  intro H. unfold at_. assert (LT : (i < length m)%nat) by (apply nth_error_Some; congruence).
  assert (X : (0 <=? Z.of_nat i) && (Z.of_nat i <? zlen m) = true).
  { unfold zlen. apply andb_true_intro; split; [apply Z.leb_le|apply Z.ltb_lt]; lia. }
  now rewrite X, Nat2Z.id.
Qed.
Lemma addFrom_lt (m : list Z) (k i : nat) dl : (i < k)%nat ->
  nth_error (addFrom (Z.of_nat k) dl m) i = nth_error m i.
Proof.
  intro H. unfold addFrom. rewrite Nat2Z.id. destruct (Nat.lt_ge_cases i (length m)) as [L|L].
  - rewrite nth_error_app1 by (rewrite firstn_length; lia).
    revert k i H L. induction m as [|x m IH]; intros [|k] [|i] H L; cbn in *; try lia; auto.
    apply IH; lia.
  - rewrite (proj2 (nth_error_None m i)) by exact L. apply nth_error_None.
    rewrite app_length, map_length, firstn_length, skipn_length. lia.
Qed.
Lemma addFrom_ge (m : list Z) (k i : nat) dl : (k <= i)%nat ->
  nth_error (addFrom (Z.of_nat k) dl m) i = option_map (fun v => wrap (v + dl)) (nth_error m i).
Proof.
  intro H. unfold addFrom. rewrite Nat2Z.id. destruct (Nat.lt_ge_cases i (length m)) as [L|L].
  - rewrite nth_error_app2 by (rewrite firstn_length; lia).
    rewrite firstn_length, Nat.min_l by lia. rewrite nth_error_map. f_equal.
    clear dl. revert k i H L. induction m as [|x m IH]; intros [|k] [|i] H L; cbn in *; try lia; auto.
    apply IH; lia.
  - rewrite (proj2 (nth_error_None m i)) by exact L. apply nth_error_None.
    rewrite app_length, map_length, firstn_length, skipn_length. lia.
Qed.
Lemma addFrom_length (m : list Z) k dl : length (addFrom k dl m) = length m.
Proof. unfold addFrom. rewrite app_length, map_length, firstn_length, skipn_length. lia. Qed.

(** Indexes of the beginning and of the last character of a piece. *)
Definition bIdx l : nat := (2 * widths l)%nat.
Definition eIdx l p : nat := (2 * (widths l + width p - 1) + 1)%nat.
Record inv d (x : rw A) : Prop := {
  i_buf : buf x = render d;
  i_len : length (mapping x) = (2 * widths d)%nat;
  i_begin : forall l p r, d = l ++ p :: r ->
    nth_error (mapping x) (bIdx l) = Some (wrap (zlen (render l) + zlen (before p)));
  i_end : forall l p r, d = l ++ p :: r ->
    nth_error (mapping x) (eIdx l p) = Some (wrap (zlen (render l) + zlen (show p) - 1));
  i_width : forall p, In p d -> (1 <= width p)%nat;
  i_intact : forall p, In p d -> intact p = true -> width p = 1%nat /\ length (body p) = 1%nat }.

Lemma init_inv text : zlen text < W -> inv (start text) (init text).
Proof.
  intro SM.
  assert (RS : forall t : list A, render (start t) = t).
  { induction t; cbn; [reflexivity|]. now rewrite <- IHt at 2. }
  assert (WS : forall t : list A, widths (start t) = length t).
  { induction t; cbn; [reflexivity|]. now rewrite <- IHt. }
  assert (SP : forall l p r, start text = l ++ p :: r ->
    length (render l) = widths l /\ (widths l < length text)%nat /\ exists c, p = mkPiece [] [] [c] 1 true).
  { intros l p r E. pose proof (f_equal widths E) as X. rewrite WS, widths_app, widths_cons in X.
    unfold start in E. apply map_eq_app in E as (t1 & t2 & -> & <- & E).
    destruct t2 as [|c t2]; [discriminate|]. injection E as <- <-.
    fold (start t1) in *. rewrite RS, WS in *. cbn in X. split; [reflexivity|]. split; [lia|]. now exists c. }
  assert (NT : forall n i b, (i < n)%nat -> (b < 2)%nat ->
    nth_error (flat_map (fun i => [Z.of_nat i; Z.of_nat i]) (seq 0 n)) (2 * i + b) = Some (Z.of_nat i)).
  { intros n i b Hi Hb. assert (X : forall s n i, (i < n)%nat ->
      nth_error (flat_map (fun i => [Z.of_nat i; Z.of_nat i]) (seq s n)) (2 * i + b) = Some (Z.of_nat (s + i))).
    { clear i n Hi. intros s n. revert s. induction n as [|n IH]; intros s [|i] Hi; try lia; cbn [seq flat_map].
      - destruct b as [|[|b]]; try lia; cbn; now rewrite Nat.add_0_r.
      - replace (2 * S i + b)%nat with (S (S (2 * i + b))) by lia. cbn [app nth_error].
        rewrite IH by lia. do 2 f_equal. lia. }
    exact (X 0%nat n i Hi). }
  split.
  - cbn [buf init]. now rewrite RS.
  - cbn [mapping init]. rewrite WS.
    assert (X : forall n s, length (flat_map (fun i => [Z.of_nat i; Z.of_nat i]) (seq s n)) = (2 * n)%nat).
    { induction n as [|n IH]; intro s; [reflexivity|]. cbn [seq flat_map app length]. rewrite IH. lia. }
    apply X.
  - intros l p r E. destruct (SP l p r E) as (X & Y & c & ->). cbn [before mapping init]. unfold bIdx.
    replace (2 * widths l)%nat with (2 * widths l + 0)%nat by lia. rewrite NT by lia.
    unfold zlen in *. rewrite X. cbn [length]. f_equal. rewrite wrap_small; lia.
  - intros l p r E. destruct (SP l p r E) as (X & Y & c & ->). cbn [mapping init]. unfold eIdx.
    cbn [width]. replace (widths l + 1 - 1)%nat with (widths l) by lia. rewrite NT by lia.
    unfold zlen in *. rewrite X. cbn [show inner before after body app length]. f_equal. rewrite wrap_small; lia.
  - intros p I. unfold start in I. apply in_map_iff in I as (c & <- & _). cbn. lia.
  - intros p I _. unfold start in I. apply in_map_iff in I as (c & <- & _). split; reflexivity.
Qed.

(** ** One edit *)
(** Pieces [mid] become one piece; positions from the index [K] on are shifted. *)
Lemma update l mid r p' x x' (K : nat) dl :
  inv (l ++ mid ++ r) x -> mid <> [] -> width p' = widths mid ->
  dl = zlen (show p') - zlen (render mid) ->
  (bIdx l <= K < bIdx (l ++ mid))%nat ->
  length (mapping x') = length (mapping x) ->
  (forall i, (i < K)%nat -> nth_error (mapping x') i = nth_error (mapping x) i) ->
  (forall i X, (K <= i)%nat -> nth_error (mapping x) i = Some (wrap X) ->
     nth_error (mapping x') i = Some (wrap (X + dl))) ->
  buf x' = render (l ++ p' :: r) ->
  nth_error (mapping x') (bIdx l) = Some (wrap (zlen (render l) + zlen (before p'))) ->
  nth_error (mapping x') (eIdx l p') = Some (wrap (zlen (render l) + zlen (show p') - 1)) ->
  (intact p' = true -> width p' = 1%nat /\ length (body p') = 1%nat) ->
  inv (l ++ p' :: r) x'.
Proof.
  intros [B L Bg En Wd It] NE WP DL [K1 K2] LN LO HI BF X1 X2 X3.
  assert (WM : (1 <= widths mid)%nat).
  { destruct mid as [|q mid]; [congruence|]. rewrite widths_cons.
    assert (1 <= width q)%nat; [|lia]. apply Wd. apply in_or_app. right. now left. }
  unfold bIdx in *. rewrite widths_app in K2.
  split.
  - exact BF.
  - rewrite LN, L, !widths_app, widths_cons. lia.
  - intros l0 q t E. unfold bIdx.
    destruct (app_mid _ _ _ _ _ _ E) as [(-> & -> & ->)|[(m & -> & ->)|(m & -> & ->)]].
    + exact X1.
    + rewrite LO.
      * apply (Bg l0 q (m ++ mid ++ r)). now rewrite <- app_assoc.
      * rewrite widths_app, widths_cons in K1.
        assert (1 <= width q)%nat; [|lia]. apply Wd. apply in_or_app. left. apply in_or_app. right. now left.
    + pose proof (Bg (l ++ mid ++ m) q t) as Y. rewrite <- !app_assoc in Y. specialize (Y eq_refl).
      unfold bIdx in Y. rewrite !widths_app in Y. apply (HI _ _) in Y.
      * rewrite !widths_app, widths_cons, WP. rewrite Y. do 2 f_equal.
        rewrite !render_app, render_cons, !zlen_app. lia.
      * lia.
  - intros l0 q t E. unfold eIdx.
    destruct (app_mid _ _ _ _ _ _ E) as [(-> & -> & ->)|[(m & -> & ->)|(m & -> & ->)]].
    + exact X2.
    + rewrite LO.
      * apply (En l0 q (m ++ mid ++ r)). now rewrite <- app_assoc.
      * rewrite widths_app, widths_cons in K1.
        assert (1 <= width q)%nat; [|lia]. apply Wd. apply in_or_app. left. apply in_or_app. right. now left.
    + pose proof (En (l ++ mid ++ m) q t) as Y. rewrite <- !app_assoc in Y. specialize (Y eq_refl).
      unfold eIdx in Y. rewrite !widths_app in Y. apply (HI _ _) in Y.
      * rewrite !widths_app, widths_cons, WP. rewrite Y. do 2 f_equal.
        rewrite !render_app, render_cons, !zlen_app. lia.
      * assert (1 <= width q)%nat; [|lia]. apply Wd. apply in_or_app. right. apply in_or_app. right.
        apply in_or_app. right. now left.
  - intros q I. apply in_app_or in I as [I|[<-|I]].
    + apply Wd. apply in_or_app. now left.
    + lia.
    + apply Wd. apply in_or_app. right. apply in_or_app. now right.
  - intros q I T. apply in_app_or in I as [I|[<-|I]].
    + apply It; [|exact T]. apply in_or_app. now left.
    + exact (X3 T).
    + apply It; [|exact T]. apply in_or_app. right. apply in_or_app. now right.
Qed.

Lemma strReplace_ok (a b c s : list A) :
  strReplace (a ++ b ++ c) (zlen a) (zlen b) s = Some (a ++ s ++ c).
Proof.
  unfold strReplace. assert (X : zlen a <=? zlen (a ++ b ++ c) = true).
  { apply Z.leb_le. rewrite zlen_app. pose proof (zlen_nonneg (b ++ c)). lia. }
  rewrite X. f_equal. f_equal; [|f_equal].
  - unfold zlen. rewrite Nat2Z.id, firstn_app, Nat.sub_diag, firstn_O, app_nil_r. apply firstn_all.
  - rewrite !zlen_app. pose proof (zlen_nonneg c). rewrite Z.min_l by lia.
    unfold zlen. rewrite <- Nat2Z.inj_add, Nat2Z.id, app_assoc, <- app_length.
    rewrite skipn_app, Nat.sub_diag, skipn_all. reflexivity.
Qed.

Definition small d : Prop := 2 * Z.of_nat (widths d) < W /\ zlen (render d) < W.
Definition runOp (x : rw A) (o : op A) : option (rw A) :=
  match o with
  | Insert n s a => insertText x (Z.of_nat n) s a
  | Replace n k s => replaceText x (Z.of_nat n) (Z.of_nat k) s
  end.

Lemma addFrom_shift (x x' : rw A) (K : nat) dl : mapping x' = addFrom (Z.of_nat K) dl (mapping x) ->
  length (mapping x') = length (mapping x) /\
  (forall i, (i < K)%nat -> nth_error (mapping x') i = nth_error (mapping x) i) /\
  (forall i X, (K <= i)%nat -> nth_error (mapping x) i = Some (wrap X) ->
     nth_error (mapping (A := A) x') i = Some (wrap (X + dl))).
Proof.
  intro E. split; [rewrite E; apply addFrom_length|]. split.
  - intros i H. rewrite E. now apply addFrom_lt.
  - intros i X H Y. rewrite E, addFrom_ge by exact H. rewrite Y. cbn [option_map]. now rewrite wrap_add.
Qed.

Lemma insert_ok l p r s a x : inv (l ++ p :: r) x -> small (l ++ p :: r) ->
  (a = true -> intact p = true) ->
  exists x', insertText x (Z.of_nat (widths l)) s a = Some x' /\
    inv (l ++ (if a then mkPiece (before p) (after p ++ s) (body p) (width p) (intact p)
               else mkPiece (before p ++ s) (after p) (body p) (width p) (intact p)) :: r) x'.
Proof.
  intros I [S1 S2] T. pose proof I as [B L Bg En Wd It].
  assert (PIN : In p (l ++ p :: r)) by (apply in_or_app; right; now left).
  pose proof (Wd p PIN) as WP.
  assert (S3 : 2 * Z.of_nat (widths l + width p) < W).
  { rewrite widths_app, widths_cons in S1. lia. }
  assert (S4 : zlen (render l) + zlen (show p) < W).
  { rewrite render_app, render_cons, !zlen_app in S2. pose proof (zlen_nonneg (render r)). lia. }
  assert (SH : zlen (show p) = zlen (before p) + zlen (after p) + zlen (body p)).
  { unfold show, inner. rewrite !zlen_app. lia. }
  pose proof (zlen_nonneg (render l)). pose proof (zlen_nonneg (before p)).
  pose proof (zlen_nonneg (after p)). pose proof (zlen_nonneg (body p)).
  destruct a.
  - specialize (T eq_refl). destruct (It p PIN T) as [W1 W2].
    pose proof (En l p r eq_refl) as X. unfold eIdx in X.
    assert (X' : nth_error (mapping x) (2 * widths l + 1) = Some (zlen (render l ++ before p ++ after p))).
    { replace (2 * widths l + 1)%nat with (2 * (widths l + width p - 1) + 1)%nat by lia. rewrite X. f_equal.
      rewrite wrap_small; rewrite ?zlen_app; unfold zlen in *; lia. }
    clear X. unfold insertText. rewrite wrap_small by lia.
    replace (2 * Z.of_nat (widths l) + 1) with (Z.of_nat (2 * widths l + 1)) by lia.
    rewrite (at_ok _ _ _ X'), B.
    assert (E : render (l ++ p :: r) = (render l ++ before p ++ after p) ++ [] ++ (body p ++ render r)).
    { rewrite render_app, render_cons. unfold show, inner. now rewrite <- !app_assoc. }
    rewrite E. change 0 with (@zlen A []). rewrite strReplace_ok.
    eexists. split; [reflexivity|]. set (p' := mkPiece _ _ _ _ _). set (x' := mkRW _ _).
    destruct (addFrom_shift x x' (2 * widths l + 1)%nat (zlen s) eq_refl) as (Y1 & Y2 & Y3).
    apply (update l [p] r p' x x' (2 * widths l + 1)%nat (zlen s)); auto; try discriminate.
    + cbn. lia.
    + unfold p', show, inner, render. cbn [flat_map before after body]. unfold show, inner.
      rewrite app_nil_r, !zlen_app. lia.
    + unfold bIdx. rewrite widths_app. cbn. lia.
    + cbn [buf x']. rewrite render_app, render_cons. unfold show, inner. cbn [before after body p'].
      now rewrite <- !app_assoc.
    + rewrite Y2 by (unfold bIdx; lia). exact (Bg l p r eq_refl).
    + unfold eIdx. cbn [width p']. replace (2 * (widths l + width p - 1) + 1)%nat with (2 * widths l + 1)%nat by lia.
      rewrite (Y3 _ (zlen (render l) + zlen (show p) - 1)); [|lia|].
      * do 2 f_equal. unfold show, inner. cbn [before after body p']. rewrite !zlen_app. lia.
      * replace (2 * widths l + 1)%nat with (eIdx l p) by (unfold eIdx; lia). exact (En l p r eq_refl).
  - pose proof (Bg l p r eq_refl) as X. unfold bIdx in X.
    assert (X' : nth_error (mapping x) (2 * widths l) = Some (zlen (render l ++ before p))).
    { rewrite X. f_equal. rewrite zlen_app, wrap_small; lia. }
    unfold insertText. rewrite wrap_small by lia.
    replace (2 * Z.of_nat (widths l)) with (Z.of_nat (2 * widths l)) by lia.
    rewrite (at_ok _ _ _ X'), B.
    assert (E : render (l ++ p :: r) = (render l ++ before p) ++ [] ++ (inner p ++ render r)).
    { rewrite render_app, render_cons. unfold show. now rewrite <- !app_assoc. }
    rewrite E. change 0 with (@zlen A []). rewrite strReplace_ok.
    eexists. split; [reflexivity|]. set (p' := mkPiece _ _ _ _ _). set (x' := mkRW _ _).
    destruct (addFrom_shift x x' (2 * widths l)%nat (zlen s) eq_refl) as (Y1 & Y2 & Y3).
    apply (update l [p] r p' x x' (2 * widths l)%nat (zlen s)); auto; try discriminate.
    + cbn. lia.
    + unfold p', show, inner, render. cbn [flat_map before after body]. unfold show, inner.
      rewrite app_nil_r, !zlen_app. lia.
    + unfold bIdx. rewrite widths_app. cbn. lia.
    + cbn [buf x']. rewrite render_app, render_cons. unfold show, inner. cbn [before after body p'].
      now rewrite <- !app_assoc.
    + rewrite (Y3 (bIdx l) _ (le_n _) X). cbn [before p']. rewrite zlen_app. do 2 f_equal. lia.
    + rewrite (Y3 (eIdx l p') (zlen (render l) + zlen (show p) - 1)).
      * do 2 f_equal. unfold show, inner. cbn [before after body p']. rewrite !zlen_app. lia.
      * unfold eIdx. cbn [width p']. lia.
      * exact (En l p r eq_refl).
    + exact (It p PIN).
Qed.

Lemma last_split (p : piece A) m : exists l q, p :: m = l ++ [q].
Proof. destruct (@exists_last _ (p :: m)) as (l & q & E); [discriminate|]. now exists l, q. Qed.

Lemma replace_ok l p m r s x : inv (l ++ p :: m ++ r) x -> small (l ++ p :: m ++ r) -> zlen s < W ->
  exists x', replaceText x (Z.of_nat (widths l)) (Z.of_nat (widths (p :: m))) s = Some x' /\
    inv (l ++ mkPiece (before p) [] s (widths (p :: m)) false :: r) x'.
Proof.
  intros I [S1 S2] SS. pose proof I as [B L Bg En Wd It].
  assert (PIN : In p (l ++ p :: m ++ r)) by (apply in_or_app; right; now left).
  pose proof (Wd p PIN) as WP.
  destruct (last_split p m) as (l1 & q & EQ).
  assert (QIN : In q (l ++ p :: m ++ r)).
  { apply in_or_app. right. rewrite app_comm_cons, EQ. apply in_or_app. left. apply in_or_app. right. now left. }
  pose proof (Wd q QIN) as WQ.
  assert (WM : widths (p :: m) = (widths l1 + width q)%nat).
  { rewrite EQ, widths_app. cbn. lia. }
  assert (WM1 : (1 <= widths (p :: m))%nat) by (rewrite widths_cons; lia).
  assert (S3 : 2 * Z.of_nat (widths l + widths (p :: m)) < W).
  { rewrite app_comm_cons, !widths_app in S1. lia. }
  assert (RM : render (p :: m) = before p ++ inner p ++ render m).
  { rewrite render_cons. unfold show. now rewrite <- app_assoc. }
  set (mid := inner p ++ render m) in *.
  assert (S4 : zlen (render l) + zlen (before p) + zlen mid < W).
  { rewrite app_comm_cons, !render_app, RM, !zlen_app in S2. pose proof (zlen_nonneg (render r)). lia. }
  pose proof (zlen_nonneg (render l)). pose proof (zlen_nonneg (before p)). pose proof (zlen_nonneg mid).
  pose proof (zlen_nonneg s).
  pose proof (Bg l p (m ++ r) eq_refl) as X. unfold bIdx in X.
  assert (X' : nth_error (mapping x) (2 * widths l) = Some (zlen (render l ++ before p))).
  { rewrite X. f_equal. rewrite zlen_app, wrap_small; lia. }
  pose proof (En (l ++ l1) q r) as Y.
  assert (EY : l ++ p :: m ++ r = (l ++ l1) ++ q :: r).
  { rewrite app_comm_cons, EQ, <- !app_assoc. reflexivity. }
  specialize (Y EY). unfold eIdx in Y. rewrite widths_app in Y.
  set (E0 := (2 * (widths l + widths (p :: m) - 1) + 1)%nat).
  replace (2 * (widths l + widths l1 + width q - 1) + 1)%nat with E0 in Y by (unfold E0; lia).
  assert (RE : zlen (render (l ++ l1)) + zlen (show q) = zlen (render l) + zlen (before p) + zlen mid).
  { assert (Z : zlen (render (l1 ++ [q])) = zlen (render (p :: m))) by now rewrite EQ.
    rewrite RM, render_app, render_cons, !zlen_app in Z. rewrite render_app, zlen_app.
    change (zlen (render [])) with 0 in Z. lia. }
  rewrite RE in Y.
  unfold replaceText. rewrite !wrap_small by lia.
  replace (2 * Z.of_nat (widths l)) with (Z.of_nat (2 * widths l)) by lia.
  replace (2 * (Z.of_nat (widths l) + Z.of_nat (widths (p :: m)) - 1) + 1) with (Z.of_nat E0) by (unfold E0; lia).
  rewrite (at_ok _ _ _ X'), (at_ok _ _ _ Y), wrap_add.
  replace (zlen (render l) + zlen (before p) + zlen mid - 1 + 1) with (zlen (render l ++ before p) + zlen mid)
    by (rewrite zlen_app; lia).
  rewrite (wrap_small (zlen (render l ++ before p) + zlen mid)) by (rewrite zlen_app; lia).
  replace (zlen (render l ++ before p) + zlen mid - zlen (render l ++ before p)) with (zlen mid) by lia.
  rewrite (wrap_small (zlen mid)) by lia. rewrite B.
  assert (E : render (l ++ p :: m ++ r) = (render l ++ before p) ++ mid ++ render r).
  { rewrite app_comm_cons, !render_app, RM, <- !app_assoc. reflexivity. }
  rewrite E, strReplace_ok.
  eexists. split; [reflexivity|]. set (p' := mkPiece _ _ _ _ _). set (x' := mkRW _ _).
  assert (SH : length (mapping x') = length (mapping x) /\
    (forall i, (i < E0)%nat -> nth_error (mapping x') i = nth_error (mapping x) i) /\
    (forall i X, (E0 <= i)%nat -> nth_error (mapping x) i = Some (wrap X) ->
       nth_error (mapping x') i = Some (wrap (X + (zlen s - zlen mid))))).
  { destruct (Z.ltb_spec (zlen mid) (zlen s)); [|destruct (Z.ltb_spec (zlen s) (zlen mid))].
    - exact (addFrom_shift x x' E0 (zlen s - zlen mid) eq_refl).
    - replace (zlen s - zlen mid) with (- (zlen mid - zlen s)) by lia.
      exact (addFrom_shift x x' E0 (- (zlen mid - zlen s)) eq_refl).
    - cbn [mapping x']. split; [reflexivity|]. split; [reflexivity|]. intros i Z _ HZ. rewrite HZ. do 2 f_equal. lia. }
  destruct SH as (Y1 & Y2 & Y3).
  apply (update l (p :: m) r p' x x' E0 (zlen s - zlen mid)); auto; try discriminate.
  - rewrite RM, (zlen_app (before p) mid). unfold show, inner. cbn [before after body p' app].
    rewrite (zlen_app (before p) s). lia.
  - unfold bIdx, E0. rewrite widths_app. lia.
  - cbn [buf x']. rewrite render_app, render_cons. unfold show, inner. cbn [before after body p'].
    now rewrite <- !app_assoc.
  - rewrite Y2 by (unfold bIdx, E0; lia). exact X.
  - unfold eIdx. cbn [width p']. fold E0. rewrite (Y3 E0 _ (le_n _) Y). do 2 f_equal.
    unfold show, inner. cbn [before after body p']. rewrite !zlen_app. change (zlen (@nil A)) with 0. lia.
Qed.

(** ** Sequences of edits *)
Lemma edit_size o d d' : edit o d d' -> widths d' = widths d /\
  (length (render d') <= length (render d) + added o)%nat.
Proof.
  intro E. destruct E; split.
  - now rewrite !widths_app, !widths_cons.
  - cbn [added]. rewrite !render_app, !render_cons. unfold show, inner. cbn [before after body].
    rewrite !app_length. lia.
  - now rewrite !widths_app, !widths_cons.
  - cbn [added]. rewrite !render_app, !render_cons. unfold show, inner. cbn [before after body].
    rewrite !app_length. lia.
  - rewrite !widths_app, !widths_cons, widths_app. cbn [width]. lia.
  - cbn [added]. rewrite !render_app, !render_cons, !render_app. unfold show, inner. cbn [before after body].
    rewrite !app_length. cbn [length]. lia.
Qed.
Fixpoint runOps (x : rw A) (os : list (op A)) : option (rw A) :=
  match os with
  | [] => Some x
  | o :: os => match runOp x o with Some x' => runOps x' os | None => None end
  end.
Definition addedAll (os : list (op A)) : nat := list_sum (map added os).
Lemma edit_ok o d d' x : edit o d d' -> inv d x -> small d -> (Z.of_nat (added o) < W) ->
  exists x', runOp x o = Some x' /\ inv d' x'.
Proof.
  intros E I S B. destruct E.
  - exact (insert_ok l p r s false x I S ltac:(discriminate)).
  - exact (insert_ok l p r s true x I S ltac:(auto)).
  - exact (replace_ok l p m r s x I S B).
Qed.
Lemma edits_ok os d d' : edits os d d' -> forall x, inv d x ->
  2 * Z.of_nat (widths d) < W -> zlen (render d) + Z.of_nat (addedAll os) < W ->
  exists x', runOps x os = Some x' /\ inv d' x'.
Proof.
  induction 1 as [d|o os d d1 d2 E ES IH]; intros x I S1 S2.
  - exists x. split; [reflexivity|exact I].
  - cbn [addedAll map list_sum fold_right] in S2. fold (list_sum (map added os)) in S2. fold (addedAll os) in S2.
    destruct (edit_size o d d1 E) as [W1 W2]. unfold zlen in *.
    destruct (edit_ok o d d1 x E I) as (x1 & R & I1); [split; [exact S1|unfold zlen; lia]|lia|].
    cbn [runOps]. rewrite R. apply IH; [exact I1|rewrite W1; exact S1|]. lia.
Qed.
Lemma start_size (text : list A) : widths (start text) = length text /\ render (start text) = text.
Proof.
  induction text as [|c t [I1 I2]]; [split; reflexivity|]. change (start (c :: t)) with (mkPiece [] [] [c] 1 true :: start t). split.
  - rewrite widths_cons, I1. reflexivity.
  - rewrite render_cons, I2. reflexivity.
Qed.
Lemma get_ok l p m r x : inv (l ++ p :: m ++ r) x -> small (l ++ p :: m ++ r) ->
  getRewrittenText x (Z.of_nat (widths l)) (Z.of_nat (widths (p :: m))) = Some (inner p ++ render m).
Proof.
  intros I [S1 S2]. pose proof I as [B L Bg En Wd It].
  assert (PIN : In p (l ++ p :: m ++ r)) by (apply in_or_app; right; now left).
  pose proof (Wd p PIN) as WP.
  destruct (last_split p m) as (l1 & q & EQ).
  assert (QIN : In q (l ++ p :: m ++ r)).
  { apply in_or_app. right. rewrite app_comm_cons, EQ. apply in_or_app. left. apply in_or_app. right. now left. }
  pose proof (Wd q QIN) as WQ.
  assert (WM : widths (p :: m) = (widths l1 + width q)%nat).
  { rewrite EQ, widths_app. cbn. lia. }
  assert (S3 : 2 * Z.of_nat (widths l + widths (p :: m)) < W).
  { rewrite app_comm_cons, !widths_app in S1. lia. }
  assert (RM : render (p :: m) = before p ++ inner p ++ render m).
  { rewrite render_cons. unfold show. now rewrite <- app_assoc. }
  set (mid := inner p ++ render m) in *.
  pose proof (zlen_nonneg (render r)).
  assert (S4 : zlen (render l) + zlen (before p) + zlen mid < W).
  { rewrite app_comm_cons, !render_app, RM, !zlen_app in S2. lia. }
  pose proof (zlen_nonneg (render l)). pose proof (zlen_nonneg (before p)). pose proof (zlen_nonneg mid).
  pose proof (Bg l p (m ++ r) eq_refl) as X. unfold bIdx in X.
  assert (X' : nth_error (mapping x) (2 * widths l) = Some (zlen (render l ++ before p))).
  { rewrite X. f_equal. rewrite zlen_app, wrap_small; lia. }
  pose proof (En (l ++ l1) q r) as Y.
  assert (EY : l ++ p :: m ++ r = (l ++ l1) ++ q :: r).
  { rewrite app_comm_cons, EQ, <- !app_assoc. reflexivity. }
  specialize (Y EY). unfold eIdx in Y. rewrite widths_app in Y.
  set (E0 := (2 * (widths l + widths (p :: m) - 1) + 1)%nat).
  replace (2 * (widths l + widths l1 + width q - 1) + 1)%nat with E0 in Y by (unfold E0; lia).
  assert (RE : zlen (render (l ++ l1)) + zlen (show q) = zlen (render l) + zlen (before p) + zlen mid).
  { assert (Z : zlen (render (l1 ++ [q])) = zlen (render (p :: m))) by now rewrite EQ.
    rewrite RM, render_app, render_cons, !zlen_app in Z. rewrite render_app, zlen_app.
    change (zlen (render [])) with 0 in Z. lia. }
  rewrite RE in Y.
  unfold getRewrittenText. rewrite (wrap_small (2 * Z.of_nat (widths l))) by lia.
  rewrite (wrap_small (2 * (_ + _ - 1) + 1)) by lia.
  replace (2 * Z.of_nat (widths l)) with (Z.of_nat (2 * widths l)) by lia.
  replace (2 * (Z.of_nat (widths l) + Z.of_nat (widths (p :: m)) - 1) + 1) with (Z.of_nat E0) by (unfold E0; lia).
  rewrite (at_ok _ _ _ X'), (at_ok _ _ _ Y), wrap_add.
  replace (zlen (render l) + zlen (before p) + zlen mid - 1 + 1) with (zlen (render l ++ before p) + zlen mid)
    by (rewrite zlen_app; lia).
  rewrite (wrap_small (zlen (render l ++ before p) + zlen mid)) by (rewrite zlen_app; lia).
  replace (zlen (render l ++ before p) + zlen mid - zlen (render l ++ before p)) with (zlen mid) by lia.
  rewrite (wrap_small (zlen mid)) by lia. rewrite B.
  assert (E : render (l ++ p :: m ++ r) = (render l ++ before p) ++ mid ++ render r).
  { rewrite app_comm_cons, !render_app, RM, <- !app_assoc. reflexivity. }
  rewrite E. assert (LE : zlen (render l ++ before p) + zlen mid <=? zlen ((render l ++ before p) ++ mid ++ render r) = true).
  { apply Z.leb_le. rewrite !zlen_app. lia. }
  rewrite LE. f_equal. unfold zlen. rewrite !Nat2Z.id, skipn_app, Nat.sub_diag, skipn_all. cbn [app skipn].
  now rewrite firstn_app, Nat.sub_diag, firstn_O, app_nil_r, firstn_all.
Qed.

(** ** Edits of different places can be reordered *)
Lemma widths_split l r l' r' : l ++ r = l' ++ r' -> (forall p, In p (l ++ r) -> (1 <= width p)%nat) ->
  (widths l <= widths l')%nat -> exists m, l' = l ++ m /\ r = m ++ r'.
Proof.
  revert l'. induction l as [|p l IH]; intros l' E WD LE.
  - exists l'. split; [reflexivity|exact E].
  - destruct l' as [|q l'].
    + rewrite widths_cons in LE. cbn in LE. pose proof (WD p (or_introl eq_refl)). lia.
    + injection E as -> E. destruct (IH l' E) as (m & -> & ->).
      * intros x I. apply WD. now right.
      * rewrite !widths_cons in LE. lia.
      * now exists m.
Qed.

(** An edit changes pieces [mid] into one piece, whatever is around. *)
Definition local (o : op A) mid p' : Prop := mid <> [] /\ widths mid = width p' /\
  (from o < upto o)%nat /\ (upto o = from o + widths mid \/ exists x, mid = [x])%nat /\
  forall l r, from o = widths l -> edit o (l ++ mid ++ r) (l ++ p' :: r).
Lemma edit_local o d d' : edit o d d' -> (forall p, In p d -> (1 <= width p)%nat) ->
  exists l mid r p', d = l ++ mid ++ r /\ d' = l ++ p' :: r /\ from o = widths l /\ local o mid p'.
Proof.
  intros E WD. destruct E.
  - exists l, [p], r, (mkPiece (before p ++ s) (after p) (body p) (width p) (intact p)).
    split; [reflexivity|]. split; [reflexivity|]. split; [reflexivity|].
    assert (1 <= width p)%nat by (apply WD; apply in_or_app; right; now left).
    split; [discriminate|]. split; [cbn; lia|]. split; [cbn; lia|]. split; [right; now exists p|].
    intros l' r' F. cbn [from] in F. rewrite F. apply edit_before.
  - exists l, [p], r, (mkPiece (before p) (after p ++ s) (body p) (width p) (intact p)).
    split; [reflexivity|]. split; [reflexivity|]. split; [reflexivity|].
    assert (1 <= width p)%nat by (apply WD; apply in_or_app; right; now left).
    split; [discriminate|]. split; [cbn; lia|]. split; [cbn; lia|]. split; [right; now exists p|].
    intros l' r' F. cbn [from] in F. rewrite F. now apply edit_after.
  - exists l, (p :: m), r, (mkPiece (before p) [] s (widths (p :: m)) false).
    split; [reflexivity|]. split; [reflexivity|]. split; [reflexivity|].
    assert (1 <= width p)%nat by (apply WD; apply in_or_app; right; now left).
    split; [discriminate|]. split; [reflexivity|]. split; [cbn; lia|]. split; [left; reflexivity|].
    intros l' r' F. cbn [from] in F. rewrite F. apply edit_replace.
Qed.
Lemma edit_width o d d' : edit o d d' -> (forall p, In p d -> (1 <= width p)%nat) ->
  forall p, In p d' -> (1 <= width p)%nat.
Proof.
  intros E WD. destruct (edit_local o d d' E WD) as (l & mid & r & p' & -> & -> & F & NE & WP & _).
  intros q I. apply in_app_or in I as [I|[<-|I]].
  - apply WD. apply in_or_app. now left.
  - destruct mid as [|x mid]; [congruence|]. rewrite widths_cons in WP.
    assert (1 <= width x)%nat; [|lia]. apply WD. apply in_or_app. right. now left.
  - apply WD. apply in_or_app. right. apply in_or_app. now right.
Qed.
Lemma edits_width os d d' : edits os d d' -> (forall p, In p d -> (1 <= width p)%nat) ->
  forall p, In p d' -> (1 <= width p)%nat.
Proof.
  induction 1 as [|o os d d1 d2 E ES IH]; intro WD; [exact WD|]. apply IH. exact (edit_width o d d1 E WD).
Qed.
Lemma swap o1 o2 d d1 d2 : edit o1 d d1 -> edit o2 d1 d2 -> apart o1 o2 ->
  (forall p, In p d -> (1 <= width p)%nat) -> exists d3, edit o2 d d3 /\ edit o1 d3 d2.
Proof.
  intros E1 E2 AP WD. pose proof (edit_width o1 d d1 E1 WD) as WD1.
  destruct (edit_local o1 d d1 E1 WD) as (l1 & m1 & r1 & p1 & -> & -> & F1 & NE1 & WP1 & UP1 & U1 & L1).
  destruct (edit_local o2 _ d2 E2 WD1) as (l2 & m2 & r2 & p2 & EQ & -> & F2 & NE2 & WP2 & UP2 & U2 & L2).
  destruct AP as [AP|AP].
  - (* the second place is to the right *)
    assert (LE : (widths (l1 ++ [p1]) <= widths l2)%nat \/ (widths l2 < widths (l1 ++ [p1]))%nat) by lia.
    destruct LE as [LE|LE].
    + assert (EQ' : (l1 ++ [p1]) ++ r1 = l2 ++ m2 ++ r2) by (rewrite <- app_assoc; exact EQ).
      destruct (widths_split _ _ _ _ EQ') as (mm & -> & ->); [rewrite <- app_assoc; exact WD1|exact LE|].
      exists (l1 ++ m1 ++ mm ++ p2 :: r2). split.
      * replace (l1 ++ m1 ++ mm ++ m2 ++ r2) with ((l1 ++ m1 ++ mm) ++ m2 ++ r2) by (rewrite <- !app_assoc; reflexivity).
        replace (l1 ++ m1 ++ mm ++ p2 :: r2) with ((l1 ++ m1 ++ mm) ++ p2 :: r2) by (rewrite <- !app_assoc; reflexivity).
        apply L2. rewrite F2, !widths_app. cbn. lia.
      * rewrite <- !app_assoc. cbn [app]. now apply L1.
    + exfalso. assert (LE' : (widths l1 <= widths l2)%nat) by lia.
      destruct (widths_split l1 (p1 :: r1) l2 (m2 ++ r2) EQ WD1 LE') as (mm & -> & EM).
      rewrite !widths_app in LE. destruct mm as [|x mm].
      * rewrite app_nil_r in *. lia.
      * injection EM as <- _. rewrite widths_cons in LE. cbn in LE. lia.
  - (* the second place is to the left *)
    assert (LE : (widths (l2 ++ m2) <= widths l1)%nat \/ (widths l1 < widths (l2 ++ m2))%nat) by lia.
    destruct LE as [LE|LE].
    + assert (EQ' : (l2 ++ m2) ++ r2 = l1 ++ p1 :: r1) by (rewrite <- app_assoc; now rewrite <- EQ).
      destruct (widths_split _ _ _ _ EQ') as (mm & -> & ->).
      { rewrite EQ'. exact WD1. }
      { exact LE. }
      exists (l2 ++ p2 :: mm ++ m1 ++ r1). split.
      * rewrite <- !app_assoc. now apply L2.
      * replace (l2 ++ p2 :: mm ++ m1 ++ r1) with ((l2 ++ p2 :: mm) ++ m1 ++ r1) by (rewrite <- !app_assoc; reflexivity).
        replace (l2 ++ p2 :: mm ++ p1 :: r1) with ((l2 ++ p2 :: mm) ++ p1 :: r1) by (rewrite <- !app_assoc; reflexivity).
        apply L1. rewrite F1, !widths_app, widths_cons. lia.
    + exfalso. rewrite widths_app in LE. destruct U2 as [U2|(x & ->)]; [lia|].
      assert (LE' : (widths l2 <= widths l1)%nat) by lia.
      destruct (widths_split l2 ([x] ++ r2) l1 (p1 :: r1) (eq_sym EQ)) as (mm & -> & EM); [rewrite <- EQ; exact WD1|exact LE'|].
      rewrite !widths_app in *. destruct mm as [|y mm].
      * cbn in *. lia.
      * injection EM as <- _. cbn in LE. rewrite widths_cons in *. lia.
Qed.
End P.
