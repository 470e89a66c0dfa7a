(** Properties C22, C43-C45 of utilities. *)
From Coq Require Import ZArith Bool List Arith Lia.
From Verif Require Import UtilModel.
Import ListNotations.

(** ** C43 *)
Section C43.
Open Scope Z_scope.

(** The value of the source with the given signedness and the values of the
    target type. *)
Definition wellSized (a : apint) : Prop := 1 <= apBits a /\ 0 <= apWord a < 2 ^ apBits a.
Definition sourceValue (a : apint) (IsSigned : bool) : Z :=
  if IsSigned && (2 ^ (apBits a - 1) <=? apWord a) then apWord a - 2 ^ apBits a else apWord a.
Definition representable (t : intT) (z : Z) : Prop :=
  if tSigned t then - 2 ^ (tBits t - 1) <= z < 2 ^ (tBits t - 1) else 0 <= z < 2 ^ tBits t.
Definition machineInt (t : intT) : Prop := 2 <= tBits t <= 64.

Lemma activeBits_le x n : 0 <= x -> 0 <= n -> activeBits x <= n <-> x < 2 ^ n.
Proof.
  intros X N. unfold activeBits. destruct (Z.eqb_spec x 0) as [->|NZ].
  - split; [|lia]. intros _. apply Z.pow_pos_nonneg; lia.
  - pose proof (Z.log2_lt_pow2 x n). lia.
Qed.
Lemma activeBits_nonneg x : 0 <= activeBits x.
Proof. unfold activeBits. destruct (x =? 0); [lia|]. pose proof (Z.log2_nonneg x). lia. Qed.
Lemma minSigned_le a n : wellSized a -> 1 <= n ->
  getMinSignedBits a <= n <-> - 2 ^ (n - 1) <= sourceValue a true < 2 ^ (n - 1).
Proof.
  intros [B W] N. unfold getMinSignedBits, sourceValue, apNegative, getActiveBits. cbn [andb].
  assert (P : 0 < 2 ^ (n - 1)) by (apply Z.pow_pos_nonneg; lia).
  assert (Q : 2 ^ apBits a = 2 * 2 ^ (apBits a - 1)).
  { rewrite <- Z.pow_succ_r by lia. f_equal. lia. }
  destruct (Z.leb_spec (2 ^ (apBits a - 1)) (apWord a)).
  - pose proof (activeBits_le (2 ^ apBits a - 1 - apWord a) (n - 1)). lia.
  - pose proof (activeBits_le (apWord a) (n - 1)). lia.
Qed.
Lemma isSigned_spec a n : wellSized a -> 0 <= n ->
  isSignedIntN a n = true <-> (1 <= n /\ - 2 ^ (n - 1) <= sourceValue a true < 2 ^ (n - 1)).
Proof.
  intros W N. unfold isSignedIntN. rewrite Z.leb_le.
  destruct (Z.eq_dec n 0) as [->|NZ].
  - split; [|lia]. unfold getMinSignedBits.
    pose proof (activeBits_nonneg (2 ^ apBits a - 1 - apWord a)).
    pose proof (activeBits_nonneg (apWord a)). unfold getActiveBits.
    destruct (apNegative a); lia.
  - rewrite minSigned_le by (auto; lia). lia.
Qed.
Lemma isIntN_spec a n : wellSized a -> 0 <= n ->
  isIntN a n = true <-> apWord a < 2 ^ n.
Proof.
  intros [B W] N. unfold isIntN, getActiveBits. rewrite Z.leb_le. apply activeBits_le; lia.
Qed.
Lemma pow2_lt a b : 0 <= a < b -> 2 ^ a < 2 ^ b.
Proof. intros. apply Z.pow_lt_mono_r; lia. Qed.
Lemma pow2_le a b : 0 <= a <= b -> 2 ^ a <= 2 ^ b.
Proof. intros. apply Z.pow_le_mono_r; lia. Qed.
Lemma staticCast_id t z : machineInt t -> representable t z -> staticCast t z = z.
Proof.
  intros [L H] R. unfold staticCast, representable in *.
  assert (Q : 2 ^ tBits t = 2 * 2 ^ (tBits t - 1)).
  { rewrite <- Z.pow_succ_r by lia. f_equal. lia. }
  destruct (tSigned t).
  - rewrite Z.mod_small by lia. lia.
  - apply Z.mod_small. lia.
Qed.

(** The conversion violates no assertion of APInt, and a successful one is
    exact. *)
Theorem C43_success_is_exact : forall t a IsSigned,
  machineInt t -> wellSized a ->
  exists r, castAPInt t a IsSigned = Some r /\
    forall v, r = Some v -> v = sourceValue a IsSigned /\ representable t v.
Proof.
  intros t a s M W. pose proof M as [L H]. unfold castAPInt.
  destruct (isOverflow t a s) eqn:O.
  - exists None. split; [reflexivity|discriminate].
  - unfold isOverflow in O.
    assert (X : (if s then getSExtValue a else getZExtValue a) = Some (sourceValue a s)
                /\ representable t (sourceValue a s)).
    { destruct (tSigned t) eqn:TS, s; try discriminate O.
      - apply negb_false_iff in O.
        pose proof O as O2. apply isSigned_spec in O2; [|auto|lia].
        assert (P := pow2_lt (tBits t - 1 - 1) (tBits t - 1)).
        assert (P2 := pow2_le (tBits t - 1) 63).
        split.
        + unfold getSExtValue. unfold isSignedIntN in O. apply Z.leb_le in O.
          destruct (Z.leb_spec (getMinSignedBits a) 64); [|lia].
          f_equal.
        + unfold representable. rewrite TS. lia.
      - apply negb_false_iff in O. pose proof O as O2. apply isIntN_spec in O2; [|auto|lia].
        split.
        + unfold getZExtValue. unfold isIntN in O. apply Z.leb_le in O.
          destruct (Z.leb_spec (getActiveBits a) 64); [|lia]. reflexivity.
        + unfold representable. rewrite TS. destruct W as [_ W].
          unfold sourceValue. cbn [andb].
          assert (P : 0 < 2 ^ (tBits t - 1)) by (apply Z.pow_pos_nonneg; lia). lia.
      - apply negb_false_iff in O. pose proof O as O2. apply isIntN_spec in O2; [|auto|lia].
        split.
        + unfold getZExtValue. unfold isIntN in O. apply Z.leb_le in O.
          destruct (Z.leb_spec (getActiveBits a) 64); [|lia]. reflexivity.
        + unfold representable. rewrite TS. destruct W as [_ W].
          unfold sourceValue. cbn [andb]. lia. }
    destruct X as [X R]. rewrite X. eexists. split; [reflexivity|].
    intros v E. inversion E; subst. rewrite staticCast_id by auto. auto.
Qed.

(** What a reported overflow means: for an unsigned source the value does not
    fit; for a signed source only the values which need one bit less are
    accepted, and a conversion to an unsigned type always fails.  Missing for
    the full claim: a value of a signed source that fits may be rejected. *)
Theorem C43_overflow_partial : forall t a,
  machineInt t -> wellSized a ->
  (castAPInt t a false = Some None <-> ~ representable t (sourceValue a false)) /\
  (castAPInt t a true = Some None <->
   ~ (tSigned t = true /\ representable (mkInt true (tBits t - 1)) (sourceValue a true))).
Proof.
  intros t a M W. pose proof M as [L H].
  assert (T : forall s, castAPInt t a s = Some None <-> isOverflow t a s = true).
  { intro s. destruct (C43_success_is_exact t a s M W) as (r & E & _). unfold castAPInt in *.
    destruct (isOverflow t a s); [tauto|].
    destruct (if s then getSExtValue a else getZExtValue a); split; discriminate. }
  assert (P : 0 < 2 ^ (tBits t - 1)) by (apply Z.pow_pos_nonneg; lia).
  rewrite !T. unfold isOverflow. split.
  - destruct (tSigned t) eqn:TS.
    + pose proof (isIntN_spec a (tBits t - 1) W). unfold representable. rewrite TS.
      unfold sourceValue. cbn [andb]. destruct W as [_ W].
      destruct (isIntN a (tBits t - 1)); cbn [negb]; split; try discriminate; intro; try reflexivity; lia.
    + pose proof (isIntN_spec a (tBits t) W). unfold representable. rewrite TS.
      unfold sourceValue. cbn [andb]. destruct W as [_ W].
      destruct (isIntN a (tBits t)); cbn [negb]; split; try discriminate; intro; try reflexivity; lia.
  - destruct (tSigned t) eqn:TS.
    + pose proof (isSigned_spec a (tBits t - 1) W) as S. unfold representable. cbn [tSigned tBits].
      destruct (isSignedIntN a (tBits t - 1)) eqn:E; cbn [negb]; split; try discriminate; try reflexivity.
      * intro X. exfalso. apply X. split; [reflexivity|]. apply S; lia.
      * intros _ [_ X]. apply Bool.diff_false_true. apply S; lia.
    + split; [intros _ [X _]; discriminate|reflexivity].
Qed.

Theorem C43_overflow_refuted : exists a,
  wellSized a /\ representable (mkInt true 64) (sourceValue a true) /\
  castAPInt (mkInt true 64) a true = Some None.
Proof.
  exists (mkAP 64 (2 ^ 62)). split; [|split].
  - unfold wellSized. cbn [apBits apWord]. lia.
  - unfold representable, sourceValue. cbn. lia.
  - reflexivity.
Qed.
Theorem C43_expression : forall t e IsSigned,
  (e = None -> castSCEV t e IsSigned = Some None) /\
  (forall a, e = Some a -> castSCEV t e IsSigned = castAPInt t a IsSigned).
Proof. intros t e s. split; [intros ->; reflexivity|intros a ->; reflexivity]. Qed.
End C43.
Print Assumptions C43_success_is_exact.
Print Assumptions C43_overflow_partial.
Print Assumptions C43_overflow_refuted.
Print Assumptions C43_expression.

Example C43_sample : castAPInt (mkInt true 32) (mkAP 128 (2 ^ 128 - 5)) true = Some (Some (-5)%Z)
  /\ machineInt (mkInt true 32) /\ wellSized (mkAP 128 (2 ^ 128 - 5)).
Proof.
  split; [reflexivity|]. split; [unfold machineInt; cbn; lia|].
  unfold wellSized; cbn [apBits apWord]; lia.
Qed.
Example C43_sample_big : castAPInt (mkInt false 64) (mkAP 65 (2 ^ 64)) false = Some None.
Proof. reflexivity. Qed.

(** ** C44 *)

Lemma getArgumentFrom_spec {A} (args : list A) I n :
  getArgumentFrom args I n =
  nth_error args (S n - I).
Proof.
  revert I. induction args as [|x args IH]; intro I; cbn [getArgumentFrom].
  - now destruct (S n - I).
  - destruct (Nat.leb_spec I n).
    + rewrite IH. replace (S n - I) with (S (n - I)) by lia. reflexivity.
    + replace (S n - I) with 0 by lia. reflexivity.
Qed.
(** What is true: a number which no argument has gives nothing, and a result is
    some argument of the function.  Missing for the full claim: the argument
    with the given number is returned. *)
Theorem C44_lookup_partial : forall (A : Type) (args : list A) n,
  (length args <= n -> getArgument args n = None) /\
  (forall x, getArgument args n = Some x -> In x args).
Proof.
  intros A args n. unfold getArgument. rewrite getArgumentFrom_spec. split.
  - intro L. apply nth_error_None. lia.
  - intros x E. eapply nth_error_In; eauto.
Qed.
(** The next argument is returned, for all functions and numbers. *)
Theorem C44_next_argument_is_returned : forall (A : Type) (args : list A) n,
  getArgument args n = nth_error args (n + 1).
Proof.
  intros. unfold getArgument. rewrite getArgumentFrom_spec. f_equal. lia.
Qed.
Theorem C44_lookup_refuted :
  (exists (args : list nat) n x, nth_error args n = Some x /\ getArgument args n = None) /\
  (exists (args : list nat) n x, nth_error args n = Some x /\
     exists y, getArgument args n = Some y /\ y <> x).
Proof.
  split.
  - exists [7], 0, 7. split; reflexivity.
  - exists [7; 8], 0, 7. split; [reflexivity|]. exists 8. split; [reflexivity|discriminate].
Qed.
Print Assumptions C44_lookup_partial.
Print Assumptions C44_next_argument_is_returned.
Print Assumptions C44_lookup_refuted.

(** ** C45 *)

(** Joining.  Specification: the elements separated by the delimiter. *)
Inductive separated {char} (d : list char) : list (list char) -> list char -> Prop :=
| sepOne : forall x, separated d [x] x
| sepMore : forall x l s, separated d l s -> separated d (x :: l) (x ++ d ++ s).

Lemma join_fold {char} (d : list char) rest x y :
  fold_left (fun out y => out ++ d ++ y) rest (x ++ y) =
  x ++ fold_left (fun out y => out ++ d ++ y) rest y.
Proof.
  revert y. induction rest as [|z rest IH]; intro y; cbn; [reflexivity|].
  rewrite <- IH. f_equal. now rewrite <- !app_assoc.
Qed.
Lemma separated_fun {char} (d : list char) l s1 s2 :
  separated d l s1 -> separated d l s2 -> s1 = s2.
Proof.
  intro H. revert s2. induction H; intros s2 H2; inversion H2; subst; auto.
  - inversion H3.
  - inversion H.
  - f_equal. f_equal. auto.
Qed.
(** Missing for the full claim: the empty sequence. *)
Theorem C45_join_partial : forall (char : Type) (l : list (list char)) d,
  l <> [] -> exists s, join l d = Some s /\ separated d l s /\
    (forall s', separated d l s' -> s' = s).
Proof.
  intros char l d NE. destruct l as [|x rest]; [congruence|]. clear NE. cbn.
  eexists. split; [reflexivity|].
  assert (S : separated d (x :: rest) (fold_left (fun out y => out ++ d ++ y) rest x)).
  { revert x. induction rest as [|y rest IH]; intro x; cbn; [constructor|].
    rewrite join_fold, join_fold. constructor. apply IH. }
  split; [exact S|]. intros s' S'. eapply separated_fun; eauto.
Qed.
Theorem C45_join_refuted : exists d : list nat, join (@nil (list nat)) d = None.
Proof. exists []. reflexivity. Qed.

(** Splitting.  A search result is a part of the string. *)
Definition searchOk {char} (search : list char -> option cmatch) : Prop :=
  forall s m, search s = Some m -> mStart m + mLen m <= length s /\
    forall a n, In (Some (a, n)) (mSub m) -> mStart m <= a /\ a + n <= mStart m + mLen m.
Definition nonEmptyMatches {char} (search : list char -> option cmatch) : Prop :=
  forall s m, search s = Some m -> 0 < mLen m.

(** The string is a sequence of gaps and matches, and a rest without a match. *)
Inductive splits {char} (search : list char -> option cmatch)
  : list char -> list (list char * (list char * cmatch)) -> list char -> Prop :=
| splitEnd : forall s, search s = None -> splits search s [] s
| splitMatch : forall gap found rest m pieces last,
    search (gap ++ found ++ rest) = Some m ->
    length gap = mStart m -> length found = mLen m ->
    splits search rest pieces last ->
    splits search (gap ++ found ++ rest) ((gap, (found, m)) :: pieces) last.
(* tokens of a piece: its sub-matches, the whole match if there are none *)
Definition pieceTokens {char} (p : list char * (list char * cmatch)) : list (list char) :=
  let '(gap, (found, m)) := p in
  match flat_map (fun o => match o with
                           | Some (a, n) => [firstn n (skipn (a - length gap) found)]
                           | None => [] end) (mSub m) with
  | [] => [found]
  | ts => ts
  end.
Definition reassemble {char} (ps : list (list char * (list char * cmatch))) (last : list char) :=
  flat_map (fun p => fst p ++ fst (snd p)) ps ++ last.

Lemma split_reassemble {char} search (s : list char) ps last :
  splits search s ps last -> s = reassemble ps last.
Proof.
  induction 1; unfold reassemble in *; cbn; [reflexivity|].
  rewrite IHsplits at 1. now rewrite <- !app_assoc.
Qed.

Lemma skipn_skipn_add {A} (l : list A) : forall n m, skipn n (skipn m l) = skipn (m + n) l.
Proof.
  induction l as [|x l IH]; intros n m; [now rewrite !skipn_nil|].
  destruct m; [reflexivity|]. cbn. apply IH.
Qed.
Lemma slice_in_found {char} (gap found rest : list char) a n :
  length gap <= a -> a + n <= length gap + length found ->
  slice (gap ++ found ++ rest) (a, n) = firstn n (skipn (a - length gap) found).
Proof.
  intros A B. unfold slice. cbn [fst snd].
  rewrite skipn_app. rewrite (skipn_all2 gap) by lia. cbn [app].
  rewrite skipn_app. rewrite firstn_app.
  rewrite skipn_length. replace (n - (length found - (a - length gap))) with 0 by lia.
  cbn [firstn]. apply app_nil_r.
Qed.
Lemma matchTokens_piece {char} (gap found rest : list char) m :
  length gap = mStart m -> length found = mLen m ->
  (forall a n, In (Some (a, n)) (mSub m) -> mStart m <= a /\ a + n <= mStart m + mLen m) ->
  matchTokens (gap ++ found ++ rest) m = pieceTokens (gap, (found, m)).
Proof.
  intros LG LF B. unfold matchTokens, pieceTokens.
  assert (E : forall l, (forall o, In o l -> In o (mSub m)) ->
    flat_map (fun o => match o with Some p => [slice (gap ++ found ++ rest) p] | None => [] end) l
    = flat_map (fun o => match o with
                   | Some (a, n) => [firstn n (skipn (a - length gap) found)]
                   | None => [] end) l).
  { induction l as [|o l IH]; intro I; [reflexivity|]. cbn [flat_map].
    rewrite IH by (intros; apply I; now right). f_equal.
    destruct o as [[a n]|]; [|reflexivity]. f_equal.
    destruct (B a n) as [B1 B2]; [apply I; now left|].
    apply slice_in_found; lia. }
  rewrite E by auto.
  destruct (flat_map _ (mSub m)) eqn:F; [|reflexivity].
  f_equal. unfold slice. cbn [fst snd]. rewrite <- LG, <- LF.
  rewrite skipn_app, skipn_all2, Nat.sub_diag by lia. cbn [app skipn].
  rewrite firstn_app, Nat.sub_diag, firstn_all. cbn [firstn]. apply app_nil_r.
Qed.

(** If no match is empty, tokenizing terminates, pieces partition the string and
    tokens are those of the pieces in order.  Missing for the full claim:
    patterns which match the empty string. *)
Theorem C45_tokenize_partial : forall (char : Type) (search : list char -> option cmatch) s,
  searchOk search -> nonEmptyMatches search ->
  exists ps last, splits search s ps last /\ s = reassemble ps last /\
    search last = None /\
    forall fuel, length s < fuel ->
      tokenize search fuel s = Some (flat_map pieceTokens ps).
Proof.
  intros char search s OK NE.
  remember (length s) as n eqn:N. revert s N.
  induction n as [n IH] using (well_founded_induction lt_wf). intros s N.
  destruct (search s) as [m|] eqn:E.
  - destruct (OK _ _ E) as [B SB]. pose proof (NE _ _ E) as P.
    set (rest := skipn (mStart m + mLen m) s).
    set (gap := firstn (mStart m) s).
    set (found := firstn (mLen m) (skipn (mStart m) s)).
    assert (LG : length gap = mStart m) by (unfold gap; rewrite firstn_length; lia).
    assert (LF : length found = mLen m)
      by (unfold found; rewrite firstn_length, skipn_length; lia).
    assert (S : s = gap ++ found ++ rest).
    { unfold gap, found, rest. rewrite <- (firstn_skipn (mStart m) s) at 1. f_equal.
      rewrite <- (firstn_skipn (mLen m) (skipn (mStart m) s)) at 1. f_equal.
      now rewrite skipn_skipn_add. }
    assert (LR : length rest < n).
    { unfold rest. rewrite skipn_length. lia. }
    destruct (IH (length rest) LR rest eq_refl) as (ps & last & SP & _ & SL & T).
    exists ((gap, (found, m)) :: ps), last.
    assert (SP' : splits search s ((gap, (found, m)) :: ps) last).
    { rewrite S. constructor; auto. now rewrite <- S. }
    split; [exact SP'|]. split; [now apply split_reassemble in SP'|]. split; [exact SL|].
    intros fuel F. destruct fuel as [|f]; [lia|]. cbn [tokenize]. rewrite E.
    fold rest. rewrite T by lia. cbn [flat_map].
    replace (matchTokens s m) with (pieceTokens (gap, (found, m))); [reflexivity|].
    rewrite S. symmetry. apply matchTokens_piece; auto.
  - exists [], s. split; [now constructor|]. split; [reflexivity|]. split; [exact E|].
    intros fuel F. destruct fuel; [lia|]. cbn. now rewrite E.
Qed.
(** A pattern which matches the empty string: the loop never ends. *)
Definition emptySearch (s : list nat) : option cmatch := Some (mkMatch 0 0 []).
Theorem C45_tokenize_refuted :
  searchOk emptySearch /\ forall fuel s, tokenize emptySearch fuel s = None.
Proof.
  split.
  - intros s m E. inversion E; subst. cbn. split; [lia|]. contradiction.
  - induction fuel as [|f IH]; intro s; [reflexivity|]. cbn. now rewrite IH.
Qed.
Print Assumptions C45_join_partial.
Print Assumptions C45_join_refuted.
Print Assumptions C45_tokenize_partial.
Print Assumptions C45_tokenize_refuted.

Example join_sample : join [[1;2];[];[3]] [0] = Some [1;2;0;0;3].
Proof. reflexivity. Qed.
(* the pattern [1-9]: the first digit which is not zero *)
Fixpoint digitSearch (s : list nat) : option cmatch :=
  match s with
  | [] => None
  | x :: s => if x =? 0 then option_map (fun m => mkMatch (S (mStart m)) (mLen m) []) (digitSearch s)
              else Some (mkMatch 0 1 [])
  end.
Lemma digitSearch_shape s m : digitSearch s = Some m ->
  mStart m + mLen m <= length s /\ mSub m = [] /\ mLen m = 1.
Proof.
  revert m. induction s as [|x s IH]; intro m; cbn; [discriminate|].
  destruct (x =? 0).
  - destruct (digitSearch s) as [m'|]; cbn; [|discriminate]. intro E. inversion E; subst. cbn.
    destruct (IH m' eq_refl) as (A & _ & L). repeat split; lia.
  - intro E. inversion E; subst. cbn. repeat split. lia.
Qed.
Example digitSearch_ok : searchOk digitSearch /\ nonEmptyMatches digitSearch.
Proof.
  split; intros s m E; apply digitSearch_shape in E; destruct E as (A & B & C).
  - split; [exact A|]. rewrite B. contradiction.
  - lia.
Qed.
Example digitSearch_tokens : tokenize digitSearch 9 [0;1;0;0;2;3;0] = Some [[1];[2];[3]].
Proof. reflexivity. Qed.

(** ** C22 *)

Inductive regOp := ORegister (x : item) | OClear (FirstId : nat).
Definition stepReg (r : register) (o : regOp) : register :=
  match o with
  | ORegister x => fst (regItem r x)
  | OClear f => clearReg r f
  end.
Definition runReg (FirstId : nat) (h : list regOp) : register :=
  fold_left stepReg h (newRegister FirstId).

(** Specification: the identifiers start at the value given to the constructor
    or to the last call of clear, and the items registered since then are
    numbered in the order of their first registration. *)
Definition item_dec (a b : item) : {a = b} + {a <> b}.
Proof. decide equality; apply Nat.eq_dec. Defined.
Definition stepSpec (s : nat * list item) (o : regOp) : nat * list item :=
  match o with
  | ORegister x => if in_dec item_dec x (snd s) then s else (fst s, snd s ++ [x])
  | OClear f => (f, [])
  end.
Definition historyOf (FirstId : nat) (h : list regOp) : nat * list item :=
  fold_left stepSpec h (FirstId, []).
Definition firstId (FirstId : nat) (h : list regOp) : nat := fst (historyOf FirstId h).
Definition known (FirstId : nat) (h : list regOp) : list item := snd (historyOf FirstId h).

Lemma item_eqb_eq a b : item_eqb a b = true <-> a = b.
Proof.
  unfold item_eqb. rewrite andb_true_iff, !Nat.eqb_eq. destruct a, b; cbn. split.
  - intros [-> ->]. reflexivity.
  - intro E. inversion E. auto.
Qed.
Definition numbered (f : nat) (ks : list item) : list (item * nat) :=
  combine ks (seq f (length ks)).
Definition regInv (r : register) (s : nat * list item) : Prop :=
  rgMap r = numbered (fst s) (snd s) /\ rgNum r = fst s + length (snd s) /\ NoDup (snd s).
Lemma numbered_snoc f ks x : numbered f (ks ++ [x]) = numbered f ks ++ [(x, f + length ks)].
Proof.
  unfold numbered. rewrite app_length. cbn [length]. rewrite Nat.add_1_r.
  rewrite seq_S. clear. revert f. induction ks as [|k ks IH]; intro f; cbn.
  - reflexivity.
  - f_equal. specialize (IH (S f)). rewrite <- plus_n_Sm. exact IH.
Qed.
Lemma findIn_numbered f ks x i : NoDup ks ->
  findIn (numbered f ks) x = Some i <-> nth_error ks (i - f) = Some x /\ f <= i.
Proof.
  intro ND. unfold numbered. revert f. induction ks as [|k ks IH]; intro f; cbn.
  - split; [discriminate|]. intros [E _]. destruct (i - f); discriminate.
  - inversion ND as [|? ? NI ND']; subst. destruct (item_eqb x k) eqn:E.
    + apply item_eqb_eq in E. subst k. split.
      * intro H. inversion H; subst. rewrite Nat.sub_diag. cbn. auto.
      * intros [H L]. destruct (i - f) as [|j] eqn:J; [f_equal; lia|].
        cbn in H. apply nth_error_In in H. contradiction.
    + rewrite IH by exact ND'. assert (NE : x <> k).
      { intros ->. assert (item_eqb k k = true) by now apply item_eqb_eq. congruence. }
      split; intros [H L].
      * split; [|lia]. replace (i - f) with (S (i - S f)) by lia. exact H.
      * destruct (i - f) as [|j] eqn:J; cbn in H; [congruence|].
        split; [|lia]. replace (i - S f) with j by lia. exact H.
Qed.
Lemma findIn_none f ks x : findIn (numbered f ks) x = None <-> ~ In x ks.
Proof.
  unfold numbered. revert f. induction ks as [|k ks IH]; intro f; cbn; [tauto|].
  destruct (item_eqb x k) eqn:E.
  - apply item_eqb_eq in E. subst. split; [discriminate|]. tauto.
  - rewrite IH. split; [|tauto]. intros H [->|I]; [|tauto].
    assert (item_eqb x x = true) by now apply item_eqb_eq. congruence.
Qed.
Lemma stepReg_inv r s o : regInv r s -> regInv (stepReg r o) (stepSpec s o).
Proof.
  intros (M & N & ND). destruct o as [x|f]; cbn.
  - unfold regItem, findItem. rewrite M.
    destruct (findIn (numbered (fst s) (snd s)) x) as [i|] eqn:F.
    + destruct (in_dec item_dec x (snd s)) as [I1|I1]; cbn.
      * split; [exact M|]. split; [exact N|exact ND].
      * apply (findIn_none (fst s)) in I1. congruence.
    + apply findIn_none in F. destruct (in_dec item_dec x (snd s)) as [I1|I1]; [contradiction|].
      cbn. unfold regInv. cbn [rgMap rgNum fst snd]. split; [|split].
      * rewrite N. symmetry. apply numbered_snoc.
      * rewrite app_length. cbn. lia.
      * clear - ND F. induction (snd s) as [|y l IH]; cbn; [constructor; [tauto|constructor]|].
        inversion ND; subst. constructor.
        -- rewrite in_app_iff. cbn. intros [I|[I|[]]]; [contradiction|]. subst. apply F. now left.
        -- apply IH; [assumption|]. intro I. apply F. now right.
  - unfold regInv. cbn. split; [reflexivity|]. split; [lia|constructor].
Qed.
Lemma runReg_inv f h : regInv (runReg f h) (historyOf f h).
Proof.
  unfold runReg, historyOf.
  assert (B : regInv (newRegister f) (f, [])).
  { unfold regInv. cbn. split; [reflexivity|]. split; [lia|constructor]. }
  revert B. generalize (newRegister f), (f, @nil item).
  induction h as [|o h IH]; intros r s B; cbn; [exact B|]. apply IH. now apply stepReg_inv.
Qed.

(** Items registered since the last clear are exactly the known ones, the
    identifier of an item is the first identifier plus its position. *)
Theorem C22_identifiers : forall f h x i,
  getID (runReg f h) x = Some i <->
  (firstId f h <= i /\ nth_error (known f h) (i - firstId f h) = Some x).
Proof.
  intros f h x i. destruct (runReg_inv f h) as (M & N & ND).
  unfold getID, findItem. rewrite M. rewrite findIn_numbered by exact ND.
  unfold firstId, known. tauto.
Qed.
Theorem C22_distinct_items_distinct_identifiers : forall f h x y i,
  getID (runReg f h) x = Some i -> getID (runReg f h) y = Some i -> x = y.
Proof.
  intros f h x y i A B. apply C22_identifiers in A, B. destruct A, B. congruence.
Qed.
(** Registration returns the identifier a later lookup gives; the flag tells
    whether the item is new; other items keep their identifiers. *)
Theorem C22_register : forall f h x,
  let '(r, (i, isNew)) := regItem (runReg f h) x in
  getID r x = Some i /\
  (isNew = true <-> ~ In x (known f h)) /\
  (isNew = true -> i = firstId f h + length (known f h)) /\
  (forall y j, getID (runReg f h) y = Some j -> getID r y = Some j) /\
  (forall y j, getID r y = Some j -> y = x \/ getID (runReg f h) y = Some j).
Proof.
  intros f h x. destruct (regItem (runReg f h) x) as [r [i isNew]] eqn:E.
  assert (R : r = runReg f (h ++ [ORegister x])).
  { unfold runReg. rewrite fold_left_app. cbn. fold (runReg f h). now rewrite E. }
  destruct (runReg_inv f h) as (M & N & ND).
  unfold regItem, findItem in E. rewrite M in E.
  fold (firstId f h) in *. fold (known f h) in *.
  destruct (findIn (numbered (firstId f h) (known f h)) x) as [k|] eqn:F;
    inversion E; subst r i isNew; clear E.
  - split; [|split; [|split; [|split]]].
    + unfold getID, findItem. now rewrite M.
    + split; [discriminate|]. intro NI. apply (findIn_none (firstId f h)) in NI. congruence.
    + discriminate.
    + auto.
    + auto.
  - assert (NI := proj1 (findIn_none _ _ _) F).
    assert (A : forall y, getID (mkReg (S (rgNum (runReg f h)))
        (numbered (firstId f h) (known f h) ++ [(x, rgNum (runReg f h))])) y =
        match getID (runReg f h) y with Some j => Some j
        | None => if item_eqb y x then Some (rgNum (runReg f h)) else None end).
    { intro y. unfold getID, findItem. cbn [rgMap]. rewrite M.
      generalize (numbered (firstId f h) (known f h)). induction l as [|[z j] l IH]; cbn; [reflexivity|].
      destruct (item_eqb y z); [reflexivity|exact IH]. }
    rewrite <- M in *.
    assert (G0 : getID (runReg f h) x = None).
    { unfold getID, findItem. exact F. }
    rewrite M in A |- *.
    split; [|split; [|split; [|split]]].
    + rewrite A, G0. assert (item_eqb x x = true) as -> by now apply item_eqb_eq. reflexivity.
    + tauto.
    + intros _. exact N.
    + intros y j G. now rewrite A, G.
    + intros y j G. rewrite A in G. destruct (getID (runReg f h) y); [auto|].
      destruct (item_eqb y x) eqn:Q; [|discriminate]. left. now apply item_eqb_eq.
Qed.
(** Missing for the full claim: the number of identifiers differs from the number
    of items if the first identifier is not zero. *)
Theorem C22_count_partial : forall f h,
  numberOfIDs (runReg f h) = firstId f h + length (known f h).
Proof. intros f h. destruct (runReg_inv f h) as (_ & N & _). exact N. Qed.
Theorem C22_count_refuted : exists f h,
  numberOfIDs (runReg f h) <> length (known f h).
Proof. exists 5, [ORegister (0, 1)]. discriminate. Qed.

Print Assumptions C22_identifiers.
Print Assumptions C22_distinct_items_distinct_identifiers.
Print Assumptions C22_register.
Print Assumptions C22_count_partial.
Print Assumptions C22_count_refuted.

Example register_sample :
  let h := [ORegister (0, 3); OClear 10; ORegister (0, 3); ORegister (1, 3); ORegister (0, 3);
            ORegister (0, 4)] in
  known 0 h = [(0, 3); (1, 3); (0, 4)] /\ getID (runReg 0 h) (1, 3) = Some 11 /\
  getID (runReg 0 h) (1, 4) = None.
Proof. repeat split; reflexivity. Qed.
