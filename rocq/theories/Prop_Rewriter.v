(** Property C50: rewriting of a text. *)
From Coq Require Import ZArith List Bool Arith Lia.
From Verif Require Import RewriterModel RewriterSpec RewriterProof.
Import ListNotations.
Local Open Scope Z_scope.

(** The rewriter after a sequence of calls. *)
Definition rewriteAll {A} (text : list A) (os : list (op A)) : option (rw A) := runOps (init text) os.
(** All the texts fit in memory. *)
Definition fits {A} (text : list A) (os : list (op A)) : Prop :=
  2 * (zlen text + Z.of_nat (addedAll os)) < 2 ^ 64.

Lemma fits_w {A} (text : list A) os : fits text os ->
  zlen text < W /\ 2 * Z.of_nat (widths (start text)) < W /\
  zlen (render (start text)) + Z.of_nat (addedAll os) < W.
Proof.
  intro H. unfold fits in H. change (2 ^ 64) with W in H. destruct (start_size text) as [S1 S2].
  rewrite S1, S2. unfold zlen in *. lia.
Qed.

(** ** All the edits take effect where they are asked for *)
(** The full property is: the buffer is the document after the same edits.  Missing:
    insertion after the location of a replaced text (refuted below), locations
    outside of the text. *)
Theorem C50_edits_partial : forall A (text : list A) os d, edits os (start text) d -> fits text os ->
  exists r, rewriteAll text os = Some r /\ buf r = render d.
Proof.
  intros A text os d E F. destruct (fits_w text os F) as (F1 & F2 & F3).
  destruct (edits_ok os (start text) d E (init text) (init_inv text F1) F2 F3) as (r & R & I).
  exists r. split; [exact R|]. exact (i_buf _ _ I).
Qed.
Print Assumptions C50_edits_partial.

(** ** The rewritten form of a range *)
(** Only what was inserted before its beginning is missed. *)
Theorem C50_rewritten_text : forall A (text : list A) os l p m t,
  edits os (start text) (l ++ p :: m ++ t) -> fits text os ->
  exists r, rewriteAll text os = Some r /\
    getRewrittenText r (Z.of_nat (widths l)) (Z.of_nat (widths (p :: m))) =
      Some (after p ++ body p ++ render m).
Proof.
  intros A text os l p m t E F. destruct (fits_w text os F) as (F1 & F2 & F3).
  destruct (edits_ok os (start text) _ E (init text) (init_inv text F1) F2 F3) as (r & R & I).
  exists r. split; [exact R|]. rewrite (get_ok l p m t r I); [unfold inner; now rewrite <- app_assoc|].
  assert (X : forall os (d d' : doc A), edits os d d' -> widths d' = widths d /\
    (length (render d') <= length (render d) + addedAll os)%nat).
  { clear. induction 1 as [d|o os d d1 d2 E ES [I1 I2]]; [split; [reflexivity|lia]|].
    destruct (edit_size o d d1 E) as [W1 W2]. split; [congruence|].
    cbn [addedAll map list_sum fold_right]. fold (list_sum (map added os)). fold (addedAll os). lia. }
  destruct (X _ _ _ E) as [X1 X2]. split.
  - rewrite X1. exact F2.
  - unfold zlen in *. lia.
Qed.
Print Assumptions C50_rewritten_text.

(** ** Edits of different places do not depend on their order *)
Theorem C50_independent : forall A (text : list A) os o1 o2 d,
  edits (os ++ [o1; o2]) (start text) d -> apart o1 o2 -> fits text (os ++ [o1; o2]) ->
  exists r1 r2, rewriteAll text (os ++ [o1; o2]) = Some r1 /\ rewriteAll text (os ++ [o2; o1]) = Some r2 /\
    buf r1 = buf r2.
Proof.
  intros A text os o1 o2 d E AP F.
  assert (F' : fits text (os ++ [o2; o1])).
  { unfold fits, addedAll in *. rewrite map_app, list_sum_app in *. cbn [map list_sum fold_right] in *. lia. }
  assert (X : forall os (a b : doc A), edits (os ++ [o1; o2]) a b -> (forall p, In p a -> (1 <= width p)%nat) ->
    edits (os ++ [o2; o1]) a b).
  { clear - AP. induction os as [|o os IH]; intros a b E WD; cbn [app] in *.
    - inversion E as [|? ? ? d1 ? E1 ER]; subst. inversion ER as [|? ? ? d2 ? E2 EN]; subst. inversion EN; subst.
      destruct (swap o1 o2 a d1 b E1 E2 AP WD) as (d3 & X1 & X2).
      exact (edits_cons _ _ _ _ _ _ X1 (edits_cons _ _ _ _ _ _ X2 (edits_nil _ _))).
    - inversion E as [|? ? ? d1 ? E1 ER]; subst. apply (edits_cons _ _ _ _ d1); [exact E1|].
      apply IH; [exact ER|]. exact (edit_width o a d1 E1 WD). }
  assert (E' : edits (os ++ [o2; o1]) (start text) d).
  { apply X; [exact E|]. intros p I. unfold start in I. apply in_map_iff in I as (c & <- & _). cbn. lia. }
  destruct (C50_edits_partial A text _ d E F) as (r1 & R1 & B1).
  destruct (C50_edits_partial A text _ d E' F') as (r2 & R2 & B2).
  exists r1, r2. split; [exact R1|]. split; [exact R2|]. congruence.
Qed.
Print Assumptions C50_independent.

(** ** Example: "abcd", replace "bc" by [7], insert 8 before and 9 after "d", replace again *)
Example C50_ex :
  let os := [Replace 1 2 [7; 7]; Insert 3 [9] true; Insert 3 [8] false; Replace 1 2 [6]; Insert 1 [5] false] in
  edits os (start [1; 2; 3; 4])
    [mkPiece [] [] [1] 1 true; mkPiece [5] [] [6] 2 false; mkPiece [8] [9] [4] 1 true] /\
  fits [1; 2; 3; 4] os /\
  option_map buf (rewriteAll [1; 2; 3; 4] os) = Some [1; 5; 6; 8; 9; 4] /\
  match rewriteAll [1; 2; 3; 4] os with
  | Some r => getRewrittenText r 1 3 = Some [6; 8; 9; 4]
  | None => False
  end /\
  apart (Insert 3 [9] true) (Replace 1 2 [6]).
Proof.
  cbv zeta. split; [|split; [vm_compute; reflexivity|split; [vm_compute; reflexivity|split; [vm_compute; reflexivity|]]]].
  - apply (edits_cons _ _ _ _ [mkPiece [] [] [1] 1 true; mkPiece [] [] [7; 7] 2 false; mkPiece [] [] [4] 1 true]).
    { exact (edit_replace _ [mkPiece [] [] [1] 1 true] (mkPiece [] [] [2] 1 true) [mkPiece [] [] [3] 1 true]
               [mkPiece [] [] [4] 1 true] [7; 7]). }
    apply (edits_cons _ _ _ _ [mkPiece [] [] [1] 1 true; mkPiece [] [] [7; 7] 2 false; mkPiece [] [9] [4] 1 true]).
    { exact (edit_after _ [mkPiece [] [] [1] 1 true; mkPiece [] [] [7; 7] 2 false] (mkPiece [] [] [4] 1 true) [] [9] eq_refl). }
    apply (edits_cons _ _ _ _ [mkPiece [] [] [1] 1 true; mkPiece [] [] [7; 7] 2 false; mkPiece [8] [9] [4] 1 true]).
    { exact (edit_before _ [mkPiece [] [] [1] 1 true; mkPiece [] [] [7; 7] 2 false] (mkPiece [] [9] [4] 1 true) [] [8]). }
    apply (edits_cons _ _ _ _ [mkPiece [] [] [1] 1 true; mkPiece [] [] [6] 2 false; mkPiece [8] [9] [4] 1 true]).
    { exact (edit_replace _ [mkPiece [] [] [1] 1 true] (mkPiece [] [] [7; 7] 2 false) [] [mkPiece [8] [9] [4] 1 true] [6]). }
    apply (edits_cons _ _ _ _ [mkPiece [] [] [1] 1 true; mkPiece [5] [] [6] 2 false; mkPiece [8] [9] [4] 1 true]).
    { exact (edit_before _ [mkPiece [] [] [1] 1 true] (mkPiece [] [] [6] 2 false) [mkPiece [8] [9] [4] 1 true] [5]). }
    apply edits_nil.
  - right. cbn. lia.
Qed.

(** ** What is wrong in the code *)
(** After a character is removed a text inserted at its location appears before the
    previous character: "abc", remove "b", insert X at "b": "Xac" instead of "aXc". *)
Theorem C50_insert_after_remove_refuted :
  exists (text : list nat) r, rewriteAll text [Replace 1 1 []; Insert 1 [9%nat] true] = Some r /\
    text = [1; 2; 3]%nat /\ buf r = [9; 1; 3]%nat.
Proof. exists [1; 2; 3]%nat. eexists. split; [vm_compute; reflexivity|]. split; reflexivity. Qed.
Print Assumptions C50_insert_after_remove_refuted.

(** If the first character is removed then insertion at its location is out of range. *)
Theorem C50_insert_at_removed_beginning_refuted :
  exists text : list nat, text <> [] /\ rewriteAll text [Replace 0 1 []] <> None /\
    rewriteAll text [Replace 0 1 []; Insert 0 [9%nat] true] = None.
Proof. exists [1; 2; 3]%nat. split; [discriminate|]. split; [discriminate|]. vm_compute. reflexivity. Qed.
Print Assumptions C50_insert_at_removed_beginning_refuted.

(** Insertion inside of a range which was replaced by a shorter text damages what is
    after this range: "abcde", replace "abc" by "X", insert Y at "c": "XdYe". *)
Theorem C50_insert_inside_replaced_refuted :
  exists (text : list nat) r, rewriteAll text [Replace 0 3 [8%nat]; Insert 2 [9%nat] false] = Some r /\
    text = [1; 2; 3; 4; 5]%nat /\ buf r = [8; 4; 9; 5]%nat.
Proof. exists [1; 2; 3; 4; 5]%nat. eexists. split; [vm_compute; reflexivity|]. split; reflexivity. Qed.
Print Assumptions C50_insert_inside_replaced_refuted.

(** InsertTextBefore does not insert before the text which is already inserted
    after the location: it is the same as InsertTextAfter. *)
Theorem C50_insert_before_refuted :
  exists (text : list nat) r1 r2, insertTextAfter (init text) 0 [8%nat] = Some r1 /\
    insertTextBefore r1 0 [9%nat] = Some r2 /\
    edits [Insert 0 [8%nat] true; Insert 0 [9%nat] false] (start text) [mkPiece [9%nat] [8%nat] text 1 true] /\
    buf r2 = [8; 9]%nat ++ text.
Proof.
  exists [1%nat]. eexists. eexists. split; [vm_compute; reflexivity|]. split; [vm_compute; reflexivity|].
  split; [|reflexivity].
  apply (edits_cons _ _ _ _ [mkPiece [] [8%nat] [1%nat] 1 true]).
  { exact (edit_after _ [] (mkPiece [] [] [1%nat] 1 true) [] [8%nat] eq_refl). }
  apply (edits_cons _ _ _ _ [mkPiece [9%nat] [8%nat] [1%nat] 1 true]).
  { exact (edit_before _ [] (mkPiece [] [8%nat] [1%nat] 1 true) [] [9%nat]). }
  apply edits_nil.
Qed.
Print Assumptions C50_insert_before_refuted.

(** Insertion after the last token of the text is always out of range. *)
Theorem C50_insert_after_last_token_refuted : forall A (text : list A) TokLen s,
  zlen text < 2 ^ 62 -> 0 <= TokLen <= zlen text ->
  insertTextAfterToken (init text) (zlen text - TokLen) TokLen s = None.
Proof.
  intros A text T s SM H. unfold insertTextAfterToken, insertTextAfter, insertText.
  replace (zlen text - T + T) with (zlen text) by lia.
  pose proof (zlen_nonneg text). assert (X : 2 ^ 62 * 4 = W) by reflexivity.
  rewrite wrap_small by lia.
  destruct (init_inv text) as [_ L _ _ _ _]; [lia|]. rewrite (proj1 (start_size text)) in L.
  unfold at_. assert (Y : (0 <=? 2 * zlen text + 1) && (2 * zlen text + 1 <? zlen (mapping (init text))) = false).
  { apply andb_false_intro2. apply Z.ltb_ge. unfold zlen in *. lia. }
  now rewrite Y.
Qed.
Print Assumptions C50_insert_after_last_token_refuted.

(** ** Removing of lines *)
(** The removed range is the given one, or it is extended to a whole line: to the
    beginning of the line, if there are only spaces before the given range, and to
    the nearest end of line, if there are only spaces after the given range. *)
Section L.
Context {A : Type} (isHWs isNL : A -> bool).
Lemma lineStart_spec (File : list A) Loc : (Loc <= length File)%nat ->
  let S := lineStart isNL File Loc in (S <= Loc)%nat /\
  (forall k c, (S <= k < Loc)%nat -> nth_error File k = Some c -> isNL c = false) /\
  (S = 0%nat \/ exists c, nth_error File (S - 1) = Some c /\ isNL c = true).
Proof.
  intro LE. unfold lineStart. induction Loc as [|k IH]; cbv zeta; [split; [lia|split; [intros; lia|now left]]|].
  destruct (nth_error File k) as [c|] eqn:E.
  - destruct (isNL c) eqn:N.
    + split; [lia|]. split; [intros; lia|]. right. exists c. replace (S k - 1)%nat with k by lia. auto.
    + destruct IH as (I1 & I2 & I3); [lia|]. split; [lia|]. split; [|exact I3].
      intros j c' [J1 J2] EJ. destruct (Nat.eq_dec j k) as [->|NE]; [congruence|]. apply (I2 j c'); [lia|exact EJ].
  - apply nth_error_None in E. lia.
Qed.
Lemma lineEnd_spec : forall (l : list A) e, lineEnd isHWs isNL l = Some e ->
  (forall k c, (k < e)%nat -> nth_error l k = Some c -> isHWs c = true) /\
  exists c, nth_error l e = Some c /\ isNL c = true.
Proof.
  induction l as [|a l IH]; intros e H; [discriminate|]. cbn [lineEnd] in H.
  destruct (isHWs a) eqn:HW.
  - destruct (lineEnd isHWs isNL l) as [e'|] eqn:E; [|discriminate]. injection H as <-.
    destruct (IH e' eq_refl) as [I1 I2]. split; [|exact I2].
    intros [|k] c L N; cbn in N; [congruence|]. apply (I1 k c); [lia|exact N].
  - destruct (isNL a) eqn:N; [|discriminate]. injection H as <-. split; [intros; lia|]. now exists a.
Qed.
End L.
Theorem C50_remove_line : forall A (isWs isHWs isNL : A -> bool) File Base Loc Len,
  (Loc + Len <= length File)%nat -> (Base <= lineStart isNL File Loc)%nat ->
  Z.of_nat (length File) < 2 ^ 32 ->
  forall o n, removeRange isWs isHWs isNL File Base Loc Len true = (o, n) ->
  exists S E : nat, o = Z.of_nat S - Z.of_nat Base /\ n = Z.of_nat E - Z.of_nat S /\
    (S <= Loc)%nat /\ (Loc + Len <= E <= length File)%nat /\
    (S = Loc /\ E = Loc + Len \/
     (S = 0 \/ exists c, nth_error File (S - 1) = Some c /\ isNL c = true) /\
     (exists c, nth_error File (E - 1) = Some c /\ isNL c = true) /\
     forall k c, nth_error File k = Some c ->
       (S <= k < Loc -> isWs c = true) /\ (Loc + Len <= k < E - 1 -> isHWs c = true))%nat.
Proof.
  intros A isWs isHWs isNL File Base Loc Len LE BS SM o n H. unfold removeRange in H. cbn [andb] in H.
  destruct (lineStart_spec isNL File Loc ltac:(lia)) as (L1 & L2 & L3). set (S := lineStart isNL File Loc) in *.
  assert (OFF : forall L : nat, (Base <= L <= length File)%nat ->
    (Z.of_nat L - Z.of_nat Base) mod 2 ^ 32 = Z.of_nat L - Z.of_nat Base).
  { intros L [H1 H2]. apply Z.mod_small. lia. }
  assert (DEF : (o, n) = ((Z.of_nat Loc - Z.of_nat Base) mod 2 ^ 32, Z.of_nat Len) ->
    exists S E : nat, o = Z.of_nat S - Z.of_nat Base /\ n = Z.of_nat E - Z.of_nat S /\
    (S <= Loc)%nat /\ (Loc + Len <= E <= length File)%nat /\ S = Loc /\ E = (Loc + Len)%nat).
  { intro E. injection E as -> ->. exists Loc, (Loc + Len)%nat. rewrite OFF by lia. repeat split; lia. }
  destruct (forallb isWs (firstn (Loc - S) (skipn S File))) eqn:FW.
  2:{ destruct (DEF (eq_sym H)) as (S0 & E0 & D1 & D2 & D3 & D4 & D5 & D6). exists S0, E0. tauto. }
  destruct (lineEnd isHWs isNL (skipn (Loc + Len) File)) as [e|] eqn:LN.
  2:{ destruct (DEF (eq_sym H)) as (S0 & E0 & D1 & D2 & D3 & D4 & D5 & D6). exists S0, E0. tauto. }
  injection H as <- <-. destruct (lineEnd_spec isHWs isNL _ e LN) as [E1 (c & E2 & E3)].
  assert (NS : forall a k, nth_error (skipn a File) k = nth_error File (a + k)).
  { clear. intros a. revert File. induction a as [|a IH]; intros File k; [reflexivity|].
    destruct File as [|x File]; [now destruct k|]. cbn. apply IH. }
  rewrite NS in E2. assert (EL : (Loc + Len + e < length File)%nat) by (apply nth_error_Some; congruence).
  exists S, (Loc + Len + e + 1)%nat. rewrite OFF by lia. split; [reflexivity|]. split; [lia|]. split; [exact L1|].
  split; [lia|]. right. split; [exact L3|]. split.
  { exists c. replace (Loc + Len + e + 1 - 1)%nat with (Loc + Len + e)%nat by lia. auto. }
  intros k x N. split.
  - intros [K1 K2]. rewrite forallb_forall in FW. apply FW.
    apply (nth_error_In _ (k - S)). 
    assert (X : forall m (l : list A) j, (j < m)%nat -> nth_error (firstn m l) j = nth_error l j).
    { clear. induction m as [|m IH]; intros [|y l] [|j] L; try lia; cbn; auto. apply IH. lia. }
    rewrite X by lia. rewrite NS. now replace (S + (k - S))%nat with k by lia.
  - intros [K1 K2]. apply (E1 (k - (Loc + Len))%nat); [lia|]. rewrite NS.
    now replace (Loc + Len + (k - (Loc + Len)))%nat with k by lia.
Qed.
Print Assumptions C50_remove_line.
(** "a \n b \nc" with spaces 0 and ends of lines 9: remove "b". *)
Example C50_remove_line_ex :
  removeRange (fun c => orb (Nat.eqb c 0) (Nat.eqb c 9)) (Nat.eqb 0) (Nat.eqb 9) [1; 9; 0; 2; 0; 9; 3]%nat 1 3 1 true
    = (1, 4) /\
  (1 <= lineStart (Nat.eqb 9) [1; 9; 0; 2; 0; 9; 3]%nat 3)%nat.
Proof. split; vm_compute; [reflexivity|lia]. Qed.
(** The removal itself, for a text which has not been changed yet: exactly these
    characters disappear. *)
Lemma skipn_skipn_ {A} (x y : nat) (l : list A) : skipn x (skipn y l) = skipn (x + y) l.
Proof.
  revert l. induction y as [|y IH]; intros l; [rewrite Nat.add_0_r; reflexivity|].
  destruct l as [|a l]; [rewrite !skipn_nil; reflexivity|]. rewrite Nat.add_succ_r. cbn [skipn]. apply IH.
Qed.
Lemma remove_fresh : forall A (text : list A) (a b : nat), (a < b <= length text)%nat ->
  2 * zlen text < 2 ^ 64 ->
  exists r, replaceText (init text) (Z.of_nat a) (Z.of_nat b - Z.of_nat a) [] = Some r /\
    buf r = firstn a text ++ skipn b text.
Proof.
  intros A text a b AB SM.
  assert (SPL : exists c m, text = firstn a text ++ c :: m ++ skipn b text /\ length m = (b - a - 1)%nat).
  { destruct (skipn a text) as [|c t] eqn:E.
    { pose proof (skipn_length a text) as L. rewrite E in L. cbn in L. lia. }
    exists c, (firstn (b - a - 1) t). split.
    - rewrite <- (firstn_skipn a text) at 1. f_equal. rewrite E. f_equal.
      rewrite <- (firstn_skipn (b - a - 1) t) at 1. f_equal.
      replace b with ((b - a) + a)%nat at 2 by lia. rewrite <- skipn_skipn_, E.
      replace (b - a)%nat with (S (b - a - 1)) at 2 by lia. reflexivity.
    - rewrite firstn_length. pose proof (skipn_length a text) as L. rewrite E in L. cbn in L. lia. }
  destruct SPL as (c & m & E & LM).
  set (t1 := firstn a text) in *. set (t2 := skipn b text) in *.
  assert (W1 : widths (start t1) = a).
  { rewrite (proj1 (start_size t1)). subst t1. rewrite firstn_length. lia. }
  assert (W2 : widths (start (c :: m)) = (b - a)%nat).
  { rewrite (proj1 (start_size (c :: m))). cbn [length]. lia. }
  assert (ED : edits [Replace a (b - a) []] (start text)
    (start t1 ++ mkPiece [] [] [] (b - a) false :: start t2)).
  { econstructor; [|constructor]. rewrite E at 1. unfold start at 1. rewrite map_app. cbn [map]. rewrite map_app.
    rewrite <- W1 at 1. rewrite <- W2. exact (edit_replace A (start t1) (mkPiece [] [] [c] 1 true) (start m) (start t2) []). }
  destruct (C50_edits_partial A text _ _ ED) as (r & R & B).
  { unfold fits. replace (addedAll [Replace a (b - a) []]) with 0%nat by reflexivity. rewrite Z.add_0_r. exact SM. }
  exists r. split.
  - unfold rewriteAll in R. cbn [runOps runOp] in R.
    replace (Z.of_nat b - Z.of_nat a) with (Z.of_nat (b - a)) by lia.
    destruct (replaceText (init text) (Z.of_nat a) (Z.of_nat (b - a)) []); [exact R|discriminate].
  - rewrite B. unfold render. rewrite flat_map_app. cbn [flat_map show before inner after body app].
    change (render (start t1) ++ render (start t2) = t1 ++ t2).
    rewrite (proj2 (start_size t1)), (proj2 (start_size t2)). reflexivity.
Qed.
Theorem C50_remove_text : forall A (isWs isHWs isNL : A -> bool) File Base Loc Len,
  (1 <= Len)%nat -> (Loc + Len <= length File)%nat -> (Base <= lineStart isNL File Loc)%nat ->
  Z.of_nat (length File) < 2 ^ 32 ->
  exists r (S E : nat), removeText isWs isHWs isNL (init (skipn Base File)) File Base Loc Len true = Some r /\
    buf r = firstn (S - Base) (skipn Base File) ++ skipn E File /\
    (Base <= S)%nat /\ (S <= Loc)%nat /\ (Loc + Len <= E <= length File)%nat /\
    (S = Loc /\ E = Loc + Len \/
     (S = 0 \/ exists c, nth_error File (S - 1) = Some c /\ isNL c = true) /\
     (exists c, nth_error File (E - 1) = Some c /\ isNL c = true) /\
     forall k c, nth_error File k = Some c ->
       (S <= k < Loc -> isWs c = true) /\ (Loc + Len <= k < E - 1 -> isHWs c = true))%nat.
Proof.
  intros A isWs isHWs isNL File Base Loc Len L1 LE BS SM. unfold removeText.
  destruct (removeRange isWs isHWs isNL File Base Loc Len true) as [o n] eqn:ER.
  destruct (C50_remove_line A isWs isHWs isNL File Base Loc Len LE BS SM o n ER) as (S & E & EO & EN & H1 & H2 & H3).
  assert (BS' : (Base <= S)%nat).
  { assert (0 <= o). { unfold removeRange in ER. destruct (_ && _); [destruct (lineEnd _ _ _)|]; injection ER as <- _; apply Z.mod_pos_bound; lia. }
    lia. }
  destruct (remove_fresh A (skipn Base File) (S - Base) (E - Base)) as (r & R & B).
  - rewrite skipn_length. lia.
  - unfold zlen. rewrite skipn_length. assert (2 ^ 32 * 2 < 2 ^ 64) by reflexivity. lia.
  - exists r, S, E. split.
    + rewrite EO, EN. rewrite <- R. f_equal; lia.
    + split; [|auto]. rewrite B. f_equal. rewrite skipn_skipn_. f_equal. lia.
Qed.
Print Assumptions C50_remove_text.
Example C50_remove_text_ex :
  option_map buf (removeText (fun c => orb (Nat.eqb c 0) (Nat.eqb c 9)) (Nat.eqb 0) (Nat.eqb 9)
    (init (skipn 1 [1; 9; 0; 2; 0; 9; 3]%nat)) [1; 9; 0; 2; 0; 9; 3]%nat 1 3 1 true) = Some [9; 3]%nat.
Proof. vm_compute. reflexivity. Qed.
(** If the line begins before the rewritten range then the removal is out of range. *)
Theorem C50_remove_line_outside_refuted :
  exists (File : list nat) Base Loc Len, (Base <= Loc)%nat /\ (Loc + Len <= length File)%nat /\
    removeText (fun c => orb (Nat.eqb c 0) (Nat.eqb c 9)) (Nat.eqb 0) (Nat.eqb 9) (init (skipn Base File)) File Base Loc Len true = None /\
    removeText (fun c => orb (Nat.eqb c 0) (Nat.eqb c 9)) (Nat.eqb 0) (Nat.eqb 9) (init (skipn Base File)) File Base Loc Len false <> None.
Proof.
  exists [0; 2; 9; 3]%nat, 1%nat, 1%nat, 1%nat. split; [lia|]. split; [cbn; lia|]. split; vm_compute; [reflexivity|discriminate].
Qed.
Print Assumptions C50_remove_line_outside_refuted.
