(** Proofs for C94. *)
From Coq Require Import PeanoNat NArith Bool List Lia.
From Verif Require Import DumpNameModel DumpNameSpec.
Import ListNotations.

(** * Strings *)
Lemma split_some : forall c l a b, splitLast c l = Some (a, b) -> l = a ++ c :: b /\ ~ In c b.
Proof.
  intros c. induction l as [ | x r IH]; intros a b H; [discriminate H | ]. cbn [splitLast] in H.
  destruct (splitLast c r) as [[a' b'] | ] eqn:E.
  - injection H as <- <-. destruct (IH a' b' eq_refl) as [-> N]. split; [reflexivity | exact N].
  - destruct (x =? c) eqn:Ex; [ | discriminate H]. injection H as <- <-. apply Nat.eqb_eq in Ex. subst x.
    split; [reflexivity | ]. clear IH. induction r as [ | y r IH]; [tauto | ]. cbn [splitLast] in E.
    destruct (splitLast c r) as [[? ?] | ]; [discriminate E | ]. destruct (y =? c) eqn:Ey; [discriminate E | ].
    apply Nat.eqb_neq in Ey. intros [H | H]; [exact (Ey H) | exact (IH eq_refl H)].
Qed.
Lemma split_none : forall c l, splitLast c l = None -> ~ In c l.
Proof.
  intros c. induction l as [ | y r IH]; intros E; [tauto | ]. cbn [splitLast] in E.
  destruct (splitLast c r) as [[? ?] | ]; [discriminate E | ]. destruct (y =? c) eqn:Ey; [discriminate E | ].
  apply Nat.eqb_neq in Ey. intros [H | H]; [exact (Ey H) | exact (IH eq_refl H)].
Qed.
Lemma last_unique : forall (c : nat) a b a' b', a ++ c :: b = a' ++ c :: b' -> ~ In c b -> ~ In c b' -> a = a' /\ b = b'.
Proof.
  intros c. induction a as [ | x a IH]; intros b a' b' E N N'.
  - destruct a' as [ | y a']; cbn in E.
    + injection E as ->. split; reflexivity.
    + injection E as <- E. subst b. contradiction N. apply in_or_app. right. left. reflexivity.
  - destruct a' as [ | y a']; cbn in E.
    + injection E as -> E. subst b'. contradiction N'. apply in_or_app. right. left. reflexivity.
    + injection E as <- E. destruct (IH b a' b' E N N') as [-> ->]. split; reflexivity.
Qed.

Definition isDir (d : str) : Prop := d = [] \/ exists d', d = d' ++ [slash].
Definition isExt (s e : str) : Prop := (e = [] /\ ~ In dot s) \/ exists e', e = dot :: e' /\ ~ In dot e'.
Lemma dir_spec : forall p d f, splitDir p = (d, f) -> p = d ++ f /\ isDir d /\ ~ In slash f.
Proof.
  intros p d f H. unfold splitDir in H. destruct (splitLast slash p) as [[a b] | ] eqn:E.
  - injection H as <- <-. destruct (split_some _ _ _ _ E) as [-> N]. split; [ | split; [right; exists a; reflexivity | exact N]].
    rewrite <- app_assoc. reflexivity.
  - injection H as <- <-. split; [reflexivity | ]. split; [left; reflexivity | exact (split_none _ _ E)].
Qed.
Lemma ext_spec : forall f s e, splitExt f = (s, e) -> f = s ++ e /\ isExt s e.
Proof.
  intros f s e H. unfold splitExt in H. destruct (splitLast dot f) as [[a b] | ] eqn:E.
  - injection H as <- <-. destruct (split_some _ _ _ _ E) as [-> N]. split; [reflexivity | ]. right. exists b. split; [reflexivity | exact N].
  - injection H as <- <-. split; [rewrite app_nil_r; reflexivity | ]. left. split; [reflexivity | exact (split_none _ _ E)].
Qed.

Lemma rename_spec : forall p b, exists d s e, p = d ++ s ++ e /\ rename p b = d ++ s ++ [dot] ++ b ++ e
  /\ isDir d /\ ~ In slash (s ++ e) /\ isExt s e.
Proof.
  intros p b. unfold rename. destruct (splitDir p) as [d f] eqn:E1. destruct (splitExt f) as [s e] eqn:E2.
  destruct (dir_spec _ _ _ E1) as [-> [D N]]. destruct (ext_spec _ _ _ E2) as [-> X].
  exists d, s, e. split; [reflexivity | ]. split; [reflexivity | ]. split; [exact D | ]. split; [exact N | exact X].
Qed.

Lemma dir_unique : forall d f d' f', isDir d -> isDir d' -> ~ In slash f -> ~ In slash f' -> d ++ f = d' ++ f' -> d = d' /\ f = f'.
Proof.
  intros d f d' f' [-> | [x ->]] [-> | [x' ->]] N N' E.
  - split; [reflexivity | exact E].
  - cbn [app] in E. subst f. contradiction N. apply in_or_app. left. apply in_or_app. right. left. reflexivity.
  - cbn [app] in E. subst f'. contradiction N'. apply in_or_app. left. apply in_or_app. right. left. reflexivity.
  - rewrite <- !app_assoc in E. cbn [app] in E. destruct (last_unique _ _ _ _ _ E N N') as [-> ->]. split; reflexivity.
Qed.

(** Digits contain neither dots nor slashes. *)
Definition digits (b : str) : Prop := forall d, In d b -> 48 <= d <= 57.
Lemma digits_dot : forall b, digits b -> ~ In dot b.
Proof. intros b H X. pose proof (H _ X) as Y. unfold dot in Y. lia. Qed.
Lemma digits_slash : forall b, digits b -> ~ In slash b.
Proof. intros b H X. pose proof (H _ X) as Y. unfold slash in Y. lia. Qed.

Lemma rename_inj : forall p b p' b', digits b -> digits b' -> rename p b = rename p' b' -> p = p' /\ b = b'.
Proof.
  intros p b p' b' D D' E.
  destruct (rename_spec p b) as [d [s [e [Ep [Er [Hd [Hn He]]]]]]].
  destruct (rename_spec p' b') as [d' [s' [e' [Ep' [Er' [Hd' [Hn' He']]]]]]].
  rewrite Er, Er' in E. clear Er Er'.
  assert (Sl : forall s e b, digits b -> ~ In slash (s ++ e) -> ~ In slash (s ++ [dot] ++ b ++ e)).
  { clear. intros s e b D N H. cbn [app] in H. apply in_app_or in H. destruct H as [H | [H | H]].
    - apply N. apply in_or_app. left. exact H.
    - discriminate H.
    - apply in_app_or in H. destruct H as [H | H]; [exact (digits_slash b D H) | ]. apply N. apply in_or_app. right. exact H. }
  destruct (dir_unique d _ d' _ Hd Hd' (Sl s e b D Hn) (Sl s' e' b' D' Hn') E) as [<- F]. clear E. cbn [app] in F.
  assert (G : s = s' /\ b = b' /\ e = e').
  { destruct He as [[-> Ns] | [x [-> Nx]]], He' as [[-> Ns'] | [x' [-> Nx']]].
    - rewrite !app_nil_r in F. destruct (last_unique _ _ _ _ _ F (digits_dot b D) (digits_dot b' D')) as [-> ->].
      split; [reflexivity | ]. split; reflexivity.
    - exfalso. rewrite app_nil_r in F.
      replace (s' ++ dot :: b' ++ dot :: x') with ((s' ++ dot :: b') ++ dot :: x') in F by (rewrite <- app_assoc; reflexivity).
      destruct (last_unique _ _ _ _ _ F (digits_dot b D) Nx') as [E _]. apply Ns. rewrite E. apply in_or_app. right. left. reflexivity.
    - exfalso. rewrite app_nil_r in F.
      replace (s ++ dot :: b ++ dot :: x) with ((s ++ dot :: b) ++ dot :: x) in F by (rewrite <- app_assoc; reflexivity).
      destruct (last_unique _ _ _ _ _ F Nx (digits_dot b' D')) as [E _]. apply Ns'. rewrite <- E. apply in_or_app. right. left. reflexivity.
    - replace (s ++ dot :: b ++ dot :: x) with ((s ++ dot :: b) ++ dot :: x) in F by (rewrite <- app_assoc; reflexivity).
      replace (s' ++ dot :: b' ++ dot :: x') with ((s' ++ dot :: b') ++ dot :: x') in F by (rewrite <- app_assoc; reflexivity).
      destruct (last_unique _ _ _ _ _ F Nx Nx') as [F' ->].
      destruct (last_unique _ _ _ _ _ F' (digits_dot b D) (digits_dot b' D')) as [-> ->].
      split; [reflexivity | ]. split; reflexivity. }
  destruct G as [<- [<- <-]]. split; [rewrite Ep, Ep'; reflexivity | reflexivity].
Qed.

(** * Numbers *)
Lemma decimal_digits : forall k n, digits (decimal k n).
Proof.
  induction k as [ | k IH]; intros n d H; [destruct H | ]. cbn [decimal] in H. apply in_app_or in H. destruct H as [H | [<- | []]].
  - destruct (n <? 10)%N; [destruct H | exact (IH _ d H)].
  - assert (X : (n mod 10 < 10)%N) by (apply N.mod_lt; discriminate). assert (Y : N.to_nat (n mod 10) < 10) by (clear - X; generalize dependent (n mod 10)%N; intros m X; lia).
    generalize dependent (N.to_nat (n mod 10)). intros m Y. lia.
Qed.
Lemma buffer_digits : forall n, digits (buffer n).
Proof.
  intros n d H. apply (decimal_digits 5 n). unfold buffer in H. rewrite <- (firstn_skipn 4 (decimal 5 n)).
  apply in_or_app. left. exact H.
Qed.
Lemma decimal_nonempty : forall k n, decimal (S k) n <> [].
Proof. intros k n H. cbn [decimal] in H. apply app_eq_nil in H. destruct H as [_ H]. discriminate H. Qed.
Lemma buffer_nonempty : forall n, buffer n <> [].
Proof.
  intros n H. unfold buffer in H. pose proof (decimal_nonempty 4 n) as X. destruct (decimal 5 n); [exact (X eq_refl) | discriminate H].
Qed.
Lemma value_snoc : forall l d, value (l ++ [d]) = (10 * value l + (N.of_nat d - 48))%N.
Proof. intros l d. unfold value. rewrite fold_left_app. reflexivity. Qed.
Lemma digit_value : forall m, (N.of_nat (48 + N.to_nat m) - 48 = m)%N.
Proof. intros m. rewrite Nat2N.inj_add, N2Nat.id. change (N.of_nat 48) with 48%N. rewrite N.add_comm. apply N.add_sub. Qed.
Lemma decimal_value : forall k n, (n < 10 ^ N.of_nat k)%N -> value (decimal k n) = n.
Proof.
  induction k as [ | k IH]; intros n H.
  - cbn in H. destruct n; [reflexivity | lia].
  - cbn [decimal]. rewrite value_snoc. rewrite digit_value.
    destruct (n <? 10)%N eqn:E.
    + apply N.ltb_lt in E. rewrite N.mod_small by exact E. reflexivity.
    + rewrite IH.
      * symmetry. apply N.div_mod. discriminate.
      * rewrite Nat2N.inj_succ, N.pow_succ_r' in H. apply N.div_lt_upper_bound; [discriminate | exact H].
Qed.
Lemma decimal_length : forall k m n, (n < 10 ^ N.of_nat (S m))%N -> length (decimal k n) <= S m.
Proof.
  induction k as [ | k IH]; intros m n H; [cbn; lia | ]. cbn [decimal]. rewrite app_length. cbn [length].
  destruct (n <? 10)%N eqn:E; [cbn; lia | ]. apply N.ltb_ge in E. destruct m as [ | m].
  - cbn in H. lia.
  - assert (X : length (decimal k (n / 10)) <= S m); [ | lia]. apply IH.
    rewrite Nat2N.inj_succ, N.pow_succ_r' in H. apply N.div_lt_upper_bound; [discriminate | exact H].
Qed.
Lemma buffer_value : forall n, (n < 10000)%N -> value (buffer n) = n.
Proof.
  intros n H. unfold buffer. rewrite firstn_all2.
  - apply decimal_value. change (10 ^ N.of_nat 5)%N with 100000%N. lia.
  - apply decimal_length. exact H.
Qed.
Lemma buffer_length : forall n, length (buffer n) <= 4.
Proof. intros n. unfold buffer. apply firstn_le_length. Qed.

(** * Requests *)
Definition occ (fs : list str) (f : str) : N := N.of_nat (requests fs f).
Definition agrees (st : counts) (h : list str) : Prop :=
  forall f, st f = if requests h f =? 0 then None else Some (occ h f mod 65536)%N.
Lemma requests_app : forall a b f, requests (a ++ b) f = requests a f + requests b f.
Proof. intros. apply count_occ_app. Qed.
Lemma requests_one : forall g f, requests [g] f = if str_eq_dec g f then 1 else 0.
Proof. intros g f. unfold requests, str_eq_dec. cbn. destruct (list_eq_dec Nat.eq_dec g f); reflexivity. Qed.
Lemma next_spec : forall st h f, agrees st h -> nextCount st f = (occ (h ++ [f]) f mod 65536)%N.
Proof.
  intros st h f A. unfold nextCount. rewrite (A f). unfold occ. rewrite requests_app, requests_one.
  destruct (str_eq_dec f f) as [_ | X]; [ | contradiction X; reflexivity]. destruct (requests h f =? 0) eqn:E.
  - apply Nat.eqb_eq in E. rewrite E. reflexivity.
  - rewrite Nat2N.inj_add. change (N.of_nat 1) with 1%N. rewrite N.add_mod_idemp_l by discriminate. reflexivity.
Qed.
Lemma dump_agrees : forall st h f, agrees st h -> agrees (fst (dump st f)) (h ++ [f]).
Proof.
  intros st h f A g. cbn [dump fst]. rewrite (next_spec st h f A).
  destruct (str_eq_dec g f) as [-> | Ne].
  - rewrite requests_app, requests_one. destruct (str_eq_dec f f) as [_ | X]; [ | contradiction X; reflexivity].
    destruct (requests h f + 1 =? 0) eqn:E; [apply Nat.eqb_eq in E; lia | reflexivity].
  - assert (Eq : requests (h ++ [f]) g = requests h g).
    { rewrite requests_app, requests_one. destruct (str_eq_dec f g) as [X | _]; [contradiction (Ne (eq_sym X)) | lia]. }
    unfold occ. rewrite Eq. apply A.
Qed.
Lemma dumpAll_nth : forall fs st h i f, agrees st h -> nth_error fs i = Some f ->
  nth_error (dumpAll st fs) i = Some (rename f (buffer (occ (h ++ firstn i fs ++ [f]) f mod 65536)%N)).
Proof.
  induction fs as [ | g fs IH]; intros st h i f A H; [destruct i; discriminate H | ].
  destruct i as [ | i]; cbn [dumpAll dump nth_error].
  - cbn in H. injection H as ->. rewrite (next_spec st h f A). reflexivity.
  - cbn [nth_error] in H. pose proof (dump_agrees st h g A) as A'. pose proof (IH _ (h ++ [g]) i f A' H) as X. rewrite <- app_assoc in X. exact X.
Qed.
Lemma dumps_nth : forall fs i f, nth_error fs i = Some f ->
  nth_error (dumps fs) i = Some (rename f (buffer (occ (firstn i fs ++ [f]) f mod 65536)%N)).
Proof. intros fs i f H. unfold dumps. rewrite (dumpAll_nth fs _ [] i f); [reflexivity | | exact H]. intros g. reflexivity. Qed.
Lemma dumps_length : forall fs st, length (dumpAll st fs) = length fs.
Proof. induction fs as [ | f fs IH]; intros st; [reflexivity | ]. cbn. rewrite IH. reflexivity. Qed.
Lemma total_true : C94_total_claim.
Proof. intros fs. apply dumps_length. Qed.
Lemma dumps_inv : forall fs i n, nth_error (dumps fs) i = Some n -> exists f, nth_error fs i = Some f
  /\ n = rename f (buffer (occ (firstn i fs ++ [f]) f mod 65536)%N).
Proof.
  intros fs i n H. destruct (nth_error fs i) as [f | ] eqn:E.
  - exists f. split; [reflexivity | ]. rewrite (dumps_nth fs i f E) in H. injection H as <-. reflexivity.
  - exfalso. apply nth_error_None in E. assert (X : nth_error (dumps fs) i <> None) by (rewrite H; discriminate).
    apply nth_error_Some in X. unfold dumps in X. rewrite dumps_length in X. lia.
Qed.

Lemma occ_mono : forall (fs : list str) i f, nth_error fs i = Some f -> requests (firstn i fs ++ [f]) f = requests (firstn (S i) fs) f.
Proof.
  induction fs as [ | g fs IH]; intros i f H; [destruct i; discriminate H | ]. destruct i as [ | i].
  - cbn in H. injection H as ->. reflexivity.
  - cbn [nth_error] in H. cbn [firstn app]. change (g :: firstn i fs ++ [f]) with ([g] ++ (firstn i fs ++ [f])).
    change (g :: match fs with [] => [] | a :: l => a :: firstn i l end) with ([g] ++ firstn (S i) fs).
    rewrite !(requests_app [g]). rewrite (IH i f H). reflexivity.
Qed.
Lemma occ_le : forall (fs : list str) i f, requests (firstn i fs) f <= requests fs f.
Proof. intros fs i f. rewrite <- (firstn_skipn i fs) at 2. rewrite requests_app. lia. Qed.
Lemma occ_lt : forall (fs : list str) i j f, i < j -> nth_error fs j = Some f ->
  requests (firstn (S i) fs) f < requests (firstn (S j) fs) f.
Proof.
  intros fs i j f Hij H. rewrite <- (occ_mono fs j f H), requests_app, requests_one.
  destruct (str_eq_dec f f) as [_ | X]; [ | contradiction X; reflexivity].
  replace (firstn (S i) fs) with (firstn (S i) (firstn j fs)) by (rewrite firstn_firstn; f_equal; lia).
  pose proof (occ_le (firstn j fs) (S i) f). lia.
Qed.

Lemma distinct_true : C94_distinct_claim true.
Proof.
  intros fs i j n m G Hij Hn Hm E. specialize (G eq_refl).
  destruct (dumps_inv fs i n Hn) as [f [Hf En]]. destruct (dumps_inv fs j m Hm) as [g [Hg Em]].
  rewrite En, Em in E. destruct (rename_inj _ _ _ _ (buffer_digits _) (buffer_digits _) E) as [<- Eb].
  unfold occ in Eb. rewrite (occ_mono fs i f Hf), (occ_mono fs j f Hg) in Eb.
  pose proof (occ_lt fs i j f Hij Hg) as L. pose proof (occ_le fs (S i) f) as L1. pose proof (occ_le fs (S j) f) as L2.
  specialize (G f). rewrite !N.mod_small in Eb by lia.
  apply (f_equal value) in Eb. rewrite !buffer_value in Eb by lia. lia.
Qed.

Lemma number_true : C94_number_claim true.
Proof.
  intros fs i f H G. specialize (G eq_refl). rewrite (dumps_nth fs i f H).
  set (c := (occ (firstn i fs ++ [f]) f mod 65536)%N). destruct (rename_spec f (buffer c)) as [d [s [e [Ep [Er _]]]]].
  exists (d ++ s), e, (buffer c). split; [rewrite <- app_assoc; exact Ep | ]. split.
  - rewrite Er. rewrite <- app_assoc. reflexivity.
  - assert (Ec : c = N.of_nat (requests (firstn i fs) f + 1)).
    { unfold c, occ. rewrite requests_app, requests_one. destruct (str_eq_dec f f) as [_ | X]; [ | contradiction X; reflexivity].
      apply N.mod_small. lia. }
    rewrite <- Ec. apply buffer_value. lia.
Qed.

Lemma place_true : C94_place_claim.
Proof.
  intros fs i f H. eexists. split; [exact (dumps_nth fs i f H) | ].
  set (c := (occ (firstn i fs ++ [f]) f mod 65536)%N). destruct (rename_spec f (buffer c)) as [d [s [e [Ep [Er [Hd [Hn He]]]]]]].
  split.
  - rewrite Er. intros E. apply (f_equal (@length nat)) in E. rewrite Ep in E. rewrite !app_length in E. cbn [length] in E. lia.
  - exists d, s, (buffer c), e. split; [exact Ep | ]. split; [exact Er | ]. split; [exact Hd | ]. split; [exact Hn | ].
    split; [exact He | ]. split; [apply buffer_nonempty | ]. split; [apply buffer_length | apply buffer_digits].
Qed.

Lemma sources_true : C94_sources_claim true.
Proof.
  intros fs i n G H X. specialize (G eq_refl). destruct (dumps_inv fs i n H) as [f [Hf En]].
  pose proof (G n X) as Gn. pose proof (G f (nth_error_In _ _ Hf)) as Gf.
  destruct (rename_spec f (buffer (occ (firstn i fs ++ [f]) f mod 65536)%N)) as [d [s [e [Ep [Er _]]]]].
  rewrite (eq_trans En Er) in Gn. rewrite Ep in Gf. rewrite !count_occ_app in Gn, Gf. unfold dot in Gn. cbn [count_occ] in Gn.
  change ([46] ++ buffer (occ (firstn i fs ++ [f]) f mod 65536)%N ++ e) with (46 :: (buffer (occ (firstn i fs ++ [f]) f mod 65536)%N ++ e)) in Gn.
  rewrite count_occ_cons_eq in Gn by reflexivity. rewrite count_occ_app in Gn. lia.
Qed.

Lemma history_gen : forall fs gs st k, k <= length fs -> firstn k (dumpAll st (fs ++ gs)) = firstn k (dumpAll st fs).
Proof.
  induction fs as [ | f fs IH]; intros gs st k H.
  - cbn in H. replace k with 0 by lia. reflexivity.
  - destruct k as [ | k]; [reflexivity | ]. cbn [app dumpAll dump firstn]. f_equal. apply IH. cbn in H. lia.
Qed.
Lemma history_true : C94_history_claim.
Proof. intros fs gs k H. apply history_gen. exact H. Qed.

(** * Refutations *)
(* a.c *)
Definition fA : str := [97; 46; 99].
Lemma repeat_requests : forall n, requests (repeat fA n) fA = n.
Proof.
  induction n as [ | n IH]; [reflexivity | ]. change (repeat fA (S n)) with ([fA] ++ repeat fA n).
  rewrite requests_app, requests_one, IH. destruct (str_eq_dec fA fA) as [_ | X]; [reflexivity | contradiction X; reflexivity].
Qed.
Lemma repeat_nth : forall (f : str) n i, i < n -> nth_error (repeat f n) i = Some f.
Proof. intros f. induction n as [ | n IH]; intros i H; [lia | ]. destruct i; [reflexivity | ]. apply IH. lia. Qed.
Lemma repeat_firstn : forall (f : str) n i, i <= n -> firstn i (repeat f n) = repeat f i.
Proof. intros f. induction n as [ | n IH]; intros i H; destruct i; try reflexivity; [lia | ]. cbn. rewrite IH by lia. reflexivity. Qed.
Lemma same_file : forall n i, i < n ->
  nth_error (dumps (repeat fA n)) i = Some (rename fA (buffer (N.of_nat (S i) mod 65536)%N)).
Proof.
  intros n i H. rewrite (dumps_nth _ i fA (repeat_nth fA n i H)). unfold occ. rewrite repeat_firstn by lia.
  rewrite requests_app, repeat_requests, requests_one. destruct (str_eq_dec fA fA) as [_ | X]; [ | contradiction X; reflexivity].
  rewrite Nat.add_1_r. reflexivity.
Qed.
Lemma distinct_many : ~ C94_distinct_claim false.
Proof.
  intros C. set (n := N.to_nat 10000). set (i := N.to_nat 999). set (j := N.to_nat 9999).
  assert (Ei : N.of_nat (S i) = 1000%N) by (unfold i; rewrite Nat2N.inj_succ, N2Nat.id; reflexivity).
  assert (Ej : N.of_nat (S j) = 10000%N) by (unfold j; rewrite Nat2N.inj_succ, N2Nat.id; reflexivity).
  assert (Hn : N.of_nat n = 10000%N) by (unfold n; apply N2Nat.id).
  assert (Hi : i < n) by (clearbody n i j; lia). assert (Hj : j < n) by (clearbody n i j; lia).
  assert (Hij : i < j) by (clearbody n i j; lia).
  pose proof (same_file n i Hi) as Ni. pose proof (same_file n j Hj) as Nj. rewrite Ei in Ni. rewrite Ej in Nj.
  apply (C (repeat fA n) i j _ _ ltac:(discriminate) Hij Ni Nj). vm_compute. reflexivity.
Qed.
Lemma number_many : ~ C94_number_claim false.
Proof.
  intros C. set (n := N.to_nat 10000). set (j := N.to_nat 9999).
  assert (Ej : N.of_nat (S j) = 10000%N) by (unfold j; rewrite Nat2N.inj_succ, N2Nat.id; reflexivity).
  assert (Hn : N.of_nat n = 10000%N) by (unfold n; apply N2Nat.id).
  assert (Hj : j < n) by (clearbody n j; lia).
  destruct (C (repeat fA n) j fA (repeat_nth fA n j Hj) ltac:(discriminate)) as [a [b [ds [Ea [H V]]]]].
  rewrite (repeat_firstn fA n j (Nat.lt_le_incl _ _ Hj)), repeat_requests, Nat.add_1_r, Ej in V.
  rewrite (same_file n j Hj), Ej in H. change (10000 mod 65536)%N with 10000%N in H.
  change (buffer 10000) with [49; 48; 48; 48] in H. change (rename fA [49; 48; 48; 48]) with [97; 46; 49; 48; 48; 48; 46; 99] in H.
  injection H as H. clear - Ea H V.
  assert (L : length ds = 4).
  { pose proof (f_equal (@length nat) Ea) as E1. pose proof (f_equal (@length nat) H) as E2.
    change ([46] ++ ds ++ b) with (46 :: (ds ++ b)) in E2. rewrite (app_length a b) in E1. rewrite (app_length a (46 :: (ds ++ b))) in E2.
    cbn [length fA] in E1, E2. rewrite (app_length ds b) in E2. unfold fA in E1. cbn [length] in E1. lia. }
  destruct ds as [ | d0 [ | d1 [ | d2 [ | d3 [ | ? ?]]]]]; try discriminate L. clear L.
  unfold fA in Ea. destruct a as [ | a0 [ | a1 [ | a2 [ | a3 a]]]].
  - cbn [app] in H. discriminate H.
  - cbn [app] in H. injection H as H0 H1 H2 H3 H4 _. subst. vm_compute in V. discriminate V.
  - cbn [app] in *. injection Ea as <- <- _. injection H as E. discriminate E.
  - cbn [app] in *. injection Ea as <- <- <- _. injection H as E. discriminate E.
  - cbn [app] in Ea. discriminate Ea.
Qed.
(** a.c and a.1.c. *)
Lemma sources_dots : ~ C94_sources_claim false.
Proof.
  intros C. apply (C [fA; [97; 46; 49; 46; 99]] 0 [97; 46; 49; 46; 99]); [discriminate | reflexivity | ].
  right. left. reflexivity.
Qed.
(** The number is 16-bit: names are repeated after 65536 requests. *)
Lemma wrap : forall n i, i + N.to_nat 65536 < n ->
  nth_error (dumps (repeat fA n)) i = nth_error (dumps (repeat fA n)) (i + N.to_nat 65536).
Proof.
  intros n i H. set (w := N.to_nat 65536) in *. assert (Ew : N.of_nat w = 65536%N) by (unfold w; apply N2Nat.id). clearbody w.
  rewrite (same_file n i) by lia. rewrite (same_file n (i + w)) by exact H. do 3 f_equal.
  replace (N.of_nat (S (i + w))) with (N.of_nat (S i) + 1 * 65536)%N by lia. rewrite N.mod_add by discriminate. reflexivity.
Qed.
