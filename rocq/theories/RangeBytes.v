(** From index tuples to bytes: intersection of ranges of one array view. *)
From Coq Require Import ZArith Bool List Lia.
From Verif Require Import RangeModel RangeSpec RangeProof.
Import ListNotations.
Open Scope Z_scope.

Definition prod (ss : list Z) : Z := fold_right Z.mul 1 ss.
Lemma prod_pos ss : Forall (fun x => 0 < x) ss -> 0 < prod ss.
Proof. induction 1; simpl; [lia|]. unfold prod in *. nia. Qed.

Lemma lin_bound ss is : Forall2 (fun s i => 0 <= i < s) ss is -> 0 <= linear ss is < prod ss.
Proof.
  induction 1 as [|s i ss is H H2 IH]; simpl; [lia|].
  fold (prod ss). unfold prod in *; simpl in *. nia.
Qed.
Lemma lin_inj ss a : Forall2 (fun s i => 0 <= i < s) ss a ->
  forall b, Forall2 (fun s i => 0 <= i < s) ss b -> linear ss a = linear ss b -> a = b.
Proof.
  induction 1 as [|s i ss is H H2 IH]; intros b Hb E; inversion Hb; subst; auto.
  simpl in E. pose proof (lin_bound _ _ H2) as B1. pose proof (lin_bound _ _ H5) as B2.
  fold (prod ss) in E.
  assert (i = y) by nia. subst y. f_equal. apply IH; auto. lia.
Qed.

Inductive goodIdx : list Z -> list Z -> Prop :=
| GI s ss i is : 0 <= i -> Forall2 (fun s i => 0 <= i < s) ss is -> goodIdx (s :: ss) (i :: is).
Lemma good_inj sz a b : goodIdx sz a -> goodIdx sz b -> linear sz a = linear sz b -> a = b.
Proof.
  intros Ha. inversion Ha as [s ss i is H H2]; subst. intros Hb.
  inversion Hb as [s' ss' i' is' H' H2']; subst. simpl. intros E.
  pose proof (lin_bound _ _ H2) as B1. pose proof (lin_bound _ _ H2') as B2.
  fold (prod ss) in E.
  assert (i = i') by nia. subst. f_equal. apply (lin_inj ss); auto. lia.
Qed.

Lemma inDim_bounds d i : dimOk d -> inDim d i -> dStart d <= i <= dEnd d.
Proof. intros H Hi. apply inDim_divmod in Hi; tauto. Qed.

Lemma inside_good ds idx : ds <> [] -> Forall dimOk ds -> dimsInside ds -> inDims ds idx ->
  goodIdx (map dSize ds) idx.
Proof.
  intros Hne Hok Hin Hi. destruct Hi as [|d i ds idx Hd Hds]; [congruence|].
  inversion Hok; subst. destruct Hin as (_ & _ & Hin). simpl. constructor.
  - apply inDim_bounds in Hd; auto. destruct H1; lia.
  - clear Hne Hok H1 Hd. revert Hin H2. induction Hds as [|e j es js He Hes IH]; intros Hin Hok; [constructor|].
    inversion Hin; inversion Hok; subst. simpl. constructor; auto.
    apply inDim_bounds in He; auto. destruct H5. unfold dimInside in H1. lia.
Qed.

Lemma covers_idx p E sz r b : 0 < E -> shapeOk p E sz r -> rCollapsed r = true ->
  covers r b <-> exists idx, inDims (rDims r) idx /\ linear sz idx = b / E.
Proof.
  intros HE [_ _ Hc] Er. destruct (Hc Er) as (_ & Hne & _ & Hhi & Hsz & Hok & Hins).
  unfold covers. rewrite Er, Hhi, Hsz. simpl. split.
  - intros (idx & k & Hi & Hk & ->). exists idx. split; auto.
    rewrite Z.add_comm, Z.div_add by lia. rewrite Z.div_small by lia. lia.
  - intros (idx & Hi & Hl). exists idx, (b mod E). split; auto.
    split; [apply Z.mod_pos_bound; auto|]. rewrite Hl. rewrite Z.mul_comm. apply Z.div_mod. lia.
Qed.

Lemma shape_good p E sz r idx : shapeOk p E sz r -> rCollapsed r = true ->
  inDims (rDims r) idx -> goodIdx sz idx.
Proof.
  intros [_ _ Hc] Er Hi. destruct (Hc Er) as (_ & Hne & _ & Hhi & Hsz & Hok & Hins).
  rewrite <- Hsz. apply inside_good; auto.
Qed.

Lemma piece_shape p E sz X c : shapeOk p E sz X -> rCollapsed X = true -> pieceOk X c ->
  shapeOk p E sz c /\ rCollapsed c = true.
Proof.
  intros [Hp Hs Hc] EX (ds & -> & Hok & Hsz & Hends). destruct (Hc EX) as (H1 & H2 & H3 & H4 & H5 & H6 & H7).
  split; [|exact EX]. split.
  - exact Hp.
  - simpl. intros Ef. rewrite EX in Ef. discriminate.
  - simpl. intros _. split; [auto|]. split.
    { intros ->. rewrite <- Hsz in *. destruct (rDims X); [auto|discriminate]. }
    split; [auto|]. split; [auto|]. split; [congruence|]. split; [auto|].
    revert H7 Hsz Hends. clear. destruct (rDims X) as [|x xs]; intros H7 Hsz Hends.
    + inversion Hends. exact I.
    + inversion Hends as [|d y ds' ys Hd Hds]; subst. destruct H7 as (A & B & C).
      simpl in *. injection Hsz as E1 E2. rewrite E1.
      split; [unfold dimInside in *; intros; rewrite E1; specialize (A H); lia|].
      split; [auto|]. clear - Hds C E2. revert E2 C. induction Hds; intros E2 C; constructor;
        inversion C; subst; injection E2 as E3 E4; auto. unfold dimInside in *. lia.
Qed.

Lemma coversAny_idx p E sz X C b : 0 < E -> shapeOk p E sz X -> rCollapsed X = true ->
  Forall (pieceOk X) C ->
  coversAny C b <-> exists idx, idxAny C idx /\ linear sz idx = b / E.
Proof.
  intros HE HX EX HC. unfold coversAny, idxAny. rewrite Forall_forall in HC. split.
  - intros (r & Hr & Hb). destruct (piece_shape _ _ _ _ _ HX EX (HC r Hr)) as [Hs Hcl].
    apply (covers_idx p E sz) in Hb; auto. destruct Hb as (idx & Hi & Hl). eauto.
  - intros (idx & (r & Hr & Hi) & Hl). exists r. split; auto.
    destruct (piece_shape _ _ _ _ _ HX EX (HC r Hr)) as [Hs Hcl].
    apply (covers_idx p E sz); eauto.
Qed.

(** ** delinearize *)
Lemma mod_mod_mul a b c : 0 < b -> 0 < c -> (a mod (b * c)) mod c = a mod c.
Proof.
  intros Hb Hc. rewrite (Z.mul_comm b c), Z.rem_mul_r by lia.
  rewrite (Z.mul_comm c), Z_mod_plus_full. apply Z.mod_mod. lia.
Qed.

Lemma sizeInBytes_prod E ds : sizeInBytes E ds = E * prod (map dSize ds).
Proof. induction ds; simpl; [lia|]. rewrite IHds. unfold prod; simpl. ring. Qed.

(** The meaning of the dimensions built for a suffix: the elements between two
    offsets. *)
Definition suffixOk (E lo la : Z) (ds res : list dim) (partial : bool) : Prop :=
  map dSize res = map dSize ds /\
  (partial = false -> lo = 0 /\ la = prod (map dSize ds) - 1) /\
  (lo <= la -> Forall dimOk res /\ Forall dimInside res /\
     forall n, (exists idx, inDims res idx /\ linear (map dSize ds) idx = n) <-> lo <= n <= la).

Lemma inDim_unit s t z i : inDim (mkDim s 1 t z) i <-> s <= i < s + t.
Proof.
  unfold inDim; cbn [dStart dStep dTrip]. split.
  - intros (k & Hk & ->). lia.
  - intros H. exists (i - s). lia.
Qed.

Lemma delin_head E lo' la' d ds res partial li ui :
  0 < prod (map dSize ds) ->
  0 <= lo' < prod (map dSize ds) -> 0 <= la' < prod (map dSize ds) ->
  suffixOk E lo' la' ds res partial ->
  0 <= li -> 0 <= ui -> (0 < dSize d -> li < dSize d /\ ui < dSize d) -> ui + 1 < 2 ^ 64 ->
  let P := prod (map dSize ds) in
  let lo := li * P + lo' in
  let la := ui * P + la' in
  forall r part,
  (if partial then if negb (li =? ui) then None else Some (mkDim li 1 1 (dSize d) :: res, true)
   else Some (mkDim li 1 ((ui - li + 1) mod 2 ^ 64) (dSize d) :: res,
              negb (li =? 0) || negb (ui + 1 =? dSize d))) = Some (r, part) ->
  map dSize r = map dSize (d :: ds) /\
  (part = false -> lo = 0 /\ la = prod (map dSize (d :: ds)) - 1) /\
  (lo <= la -> Forall dimOk r /\ Forall dimInside (tl r) /\
     (0 < dSize d -> Forall dimInside r) /\
     forall n, (exists idx, inDims r idx /\ linear (map dSize (d :: ds)) idx = n) <-> lo <= n <= la).
Proof.
  intros HP Hlo' Hla' (S1 & S2 & S3) Hli Hui Hsz H64 P lo la r part.
  destruct partial.
  - destruct (Z.eqb_spec li ui) as [->|]; simpl; [|discriminate].
    intros E1. injection E1 as <- <-. simpl. split; [congruence|]. split; [discriminate|].
    intros Hle. assert (lo' <= la') by (unfold lo, la in Hle; lia).
    destruct (S3 H) as (A & B & C). split; [|split; [|split]].
    + constructor; auto. unfold dimOk; simpl; lia.
    + auto.
    + intros Hd. constructor; auto. unfold dimInside, dEnd; cbn [dStart dStep dTrip dSize]; lia.
    + intros n. split.
      * intros (idx & Hi & <-). inversion Hi as [|x i ds' is H1 H2]; subst.
        apply inDim_unit in H1. assert (i = ui) by lia. subst i.
        assert (Hc : lo' <= linear (map dSize ds) is <= la') by (apply C; eauto).
        fold (prod (map dSize ds)). fold P. unfold lo, la. lia.
      * intros Hn. destruct (proj2 (C (n - ui * P))) as (is & Hi & Hl); [unfold lo, la in Hn; lia|].
        exists (ui :: is). split; [constructor; auto; apply inDim_unit; lia|].
        fold (prod (map dSize ds)). fold P. lia.
  - destruct (S2 eq_refl) as [-> Ela]. subst la'. fold P in S3, la, Hla', HP |- *.
    intros E1. injection E1 as <- <-. cbn [map]. split; [simpl; congruence|]. split.
    + intros Hp. unfold lo, la. unfold prod; cbn [fold_right]. fold (prod (map dSize ds)). fold P.
      assert (li = 0 /\ ui + 1 = dSize d) by lia. nia.
    + intros Hle.
      assert (Hlu : li <= ui) by (unfold lo, la in Hle; nia).
      rewrite Z.mod_small by lia.
      destruct S3 as (A & B & C); [lia|]. split; [|split; [|split]].
      * constructor; auto. unfold dimOk; simpl; lia.
      * auto.
      * intros Hd. constructor; auto. unfold dimInside, dEnd; cbn [dStart dStep dTrip dSize]; lia.
      * intros n. split.
        -- intros (idx & Hi & <-). inversion Hi as [|x i ds' is H1 H2]; subst.
           apply inDim_unit in H1.
           assert (Hc : 0 <= linear (map dSize ds) is <= prod (map dSize ds) - 1) by (apply C; eauto).
           cbn [linear]. fold (prod (map dSize ds)). fold P. fold P in Hc. unfold lo, la. nia.
        -- intros Hn. unfold lo, la in Hn.
           pose proof (Z.div_mod n P ltac:(fold P in HP; lia)) as Edm.
           pose proof (Z.mod_pos_bound n P HP) as Hm.
           destruct (proj2 (C (n mod P))) as (is & Hi & Hl); [fold P; lia|].
           exists (n / P :: is). split.
           ++ constructor; auto. apply inDim_unit.
              assert (li <= n / P) by (apply Z.div_le_lower_bound; [exact HP|lia]).
              assert (n / P < ui + 1) by (apply Z.div_lt_upper_bound; [exact HP|lia]). lia.
           ++ cbn [linear]. fold (prod (map dSize ds)). fold P. rewrite Hl. lia.
Qed.

Lemma idx_div E off S N : 0 < E -> 0 < N -> 0 < S ->
  idxOf (off * E) (S * (E * N)) (E * N) = (off mod (S * N)) / N.
Proof.
  intros HE HN HS. unfold idxOf.
  destruct (Z.gtb_spec (S * (E * N)) 0); [|nia].
  replace (S * (E * N)) with ((S * N) * E) by ring.
  rewrite Z.mul_mod_distr_r by nia.
  rewrite (Z.mul_comm E N). rewrite Z.div_mul_cancel_r by lia. reflexivity.
Qed.

Lemma delinDims_ok E L U ds : 0 < E -> Forall (fun d => 0 < dSize d < 2 ^ 64) ds ->
  forall res partial, delinDims E (L * E) (U * E) ds = Some (res, partial) ->
  suffixOk E (L mod prod (map dSize ds)) (U mod prod (map dSize ds)) ds res partial.
Proof.
  intros HE. induction 1 as [|d ds Hd Hds IH]; intros res partial.
  - simpl. intros E1. injection E1 as <- <-. unfold suffixOk. change (prod (map dSize [])) with 1. rewrite !Z.mod_1_r.
    split; [reflexivity|]. split; [intros _; split; reflexivity|]. intros _. split; [constructor|]. split; [constructor|].
    intros n. split; [intros (idx & _ & <-); destruct idx; simpl; lia|].
    intros Hn. exists []. split; [constructor|simpl; lia].
  - cbn [delinDims]. destruct (delinDims E (L * E) (U * E) ds) as [[res' partial']|] eqn:Er; [|discriminate].
    specialize (IH _ _ eq_refl).
    assert (HP : 0 < prod (map dSize ds)).
    { apply prod_pos. apply Forall_forall. intros x Hx. apply in_map_iff in Hx.
      destruct Hx as (y & <- & Hy). rewrite Forall_forall in Hds. apply Hds in Hy. lia. }
    set (P := prod (map dSize ds)) in *.
    replace (sizeInBytes E (d :: ds)) with (dSize d * (E * P))
      by (simpl; rewrite sizeInBytes_prod; reflexivity).
    rewrite sizeInBytes_prod. fold P.
    rewrite !idx_div by lia.
    set (li := (L mod (dSize d * P)) / P). set (ui := (U mod (dSize d * P)) / P).
    assert (HSP : 0 < dSize d * P) by nia.
    pose proof (Z.mod_pos_bound L (dSize d * P) HSP) as ML.
    pose proof (Z.mod_pos_bound U (dSize d * P) HSP) as MU.
    assert (Hli : 0 <= li < dSize d).
    { unfold li. split; [apply Z.div_pos; lia|apply Z.div_lt_upper_bound; lia]. }
    assert (Hui : 0 <= ui < dSize d).
    { unfold ui. split; [apply Z.div_pos; lia|apply Z.div_lt_upper_bound; lia]. }
    intros E1.
    assert (HL : L mod (dSize d * P) = li * P + L mod P).
    { unfold li. rewrite <- (mod_mod_mul L (dSize d) P) by lia.
      rewrite (Z.mul_comm (_ / _)). apply Z.div_mod. lia. }
    assert (HU : U mod (dSize d * P) = ui * P + U mod P).
    { unfold ui. rewrite <- (mod_mod_mul U (dSize d) P) by lia.
      rewrite (Z.mul_comm (_ / _)). apply Z.div_mod. lia. }
    destruct (delin_head E (L mod P) (U mod P) d ds res' partial' li ui HP
       (Z.mod_pos_bound L P HP) (Z.mod_pos_bound U P HP) IH ltac:(lia) ltac:(lia) ltac:(lia) ltac:(lia)
       _ _ E1) as (A & B & C).
    replace (prod (map dSize (d :: ds))) with (dSize d * P) by reflexivity.
    rewrite HL, HU. split; [exact A|]. split.
    + intros Hp. destruct (B Hp). split; auto.
    + intros Hle. destruct (C Hle) as (C1 & _ & C2 & C3). split; [auto|]. split; [apply C2; lia|exact C3].
Qed.

Lemma delin_total E L U d ds : 0 < E -> 0 <= L -> L <= U -> U + 1 < 2 ^ 64 ->
  0 <= dSize d < 2 ^ 64 -> Forall (fun d => 0 < dSize d < 2 ^ 64) ds ->
  (0 < dSize d -> U < prod (map dSize (d :: ds))) ->
  forall res partial, delinDims E (L * E) (U * E) (d :: ds) = Some (res, partial) ->
  map dSize res = map dSize (d :: ds) /\ Forall dimOk res /\ dimsInside res /\
  forall n, (exists idx, inDims res idx /\ linear (map dSize (d :: ds)) idx = n) <-> L <= n <= U.
Proof.
  intros HE HL HLU HU64 Hd Hds Htot res partial. cbn [delinDims].
  destruct (delinDims E (L * E) (U * E) ds) as [[res' partial']|] eqn:Er; [|discriminate].
  pose proof (delinDims_ok E L U ds HE Hds _ _ Er) as IH.
  assert (HP : 0 < prod (map dSize ds)).
  { apply prod_pos. apply Forall_forall. intros x Hx. apply in_map_iff in Hx.
    destruct Hx as (y & <- & Hy). rewrite Forall_forall in Hds. apply Hds in Hy. lia. }
  set (P := prod (map dSize ds)) in *.
  replace (sizeInBytes E (d :: ds)) with (dSize d * (E * P))
    by (simpl; rewrite sizeInBytes_prod; reflexivity).
  rewrite sizeInBytes_prod. fold P.
  assert (Hidx : forall x, 0 <= x <= U -> idxOf (x * E) (dSize d * (E * P)) (E * P) = x / P).
  { intros x Hx. destruct (Z.eq_dec (dSize d) 0) as [E0|E0].
    - unfold idxOf. rewrite E0. simpl. rewrite (Z.mul_comm E P), Z.div_mul_cancel_r by lia. reflexivity.
    - rewrite idx_div by lia. rewrite Z.mod_small; [reflexivity|].
      assert (Ht : U < prod (map dSize (d :: ds))) by (apply Htot; lia).
      change (prod (map dSize (d :: ds))) with (dSize d * P) in Ht. lia. }
  rewrite !Hidx by lia.
  set (li := L / P). set (ui := U / P). intros E1.
  assert (Hli : 0 <= li) by (apply Z.div_pos; lia).
  assert (Hui : 0 <= ui) by (apply Z.div_pos; lia).
  assert (HlU : li <= U) by (apply Z.div_le_upper_bound; nia).
  assert (HuU : ui <= U) by (apply Z.div_le_upper_bound; nia).
  assert (Hsz : 0 < dSize d -> li < dSize d /\ ui < dSize d).
  { intros Hp. specialize (Htot Hp). change (prod (map dSize (d :: ds))) with (dSize d * P) in Htot.
    split; apply Z.div_lt_upper_bound; lia. }
  assert (EL : L = li * P + L mod P) by (unfold li; rewrite (Z.mul_comm (_ / _)); apply Z.div_mod; lia).
  assert (EU : U = ui * P + U mod P) by (unfold ui; rewrite (Z.mul_comm (_ / _)); apply Z.div_mod; lia).
  destruct (delin_head E (L mod P) (U mod P) d ds res' partial' li ui HP
       (Z.mod_pos_bound L P HP) (Z.mod_pos_bound U P HP) IH Hli Hui Hsz ltac:(lia) _ _ E1) as (A & B & C).
  fold P in C. rewrite <- EL, <- EU in C. destruct (C HLU) as (C1 & C2 & C3 & C4).
  split; [exact A|]. split; [exact C1|]. split; [|exact C4].
  destruct res as [|r rs]; [exact I|]. simpl in A. injection A as A1 A2. simpl.
  rewrite A1. split; [|split; [lia|exact C2]].
  intros Hp. specialize (C3 Hp). inversion C3; auto.
Qed.

Lemma delinearize_ok p E sz From What :
  viewOk E sz -> shapeOk p E sz From -> rCollapsed From = true ->
  shapeOk p E sz What -> rCollapsed What = false ->
  shapeOk p E sz (delinearize From What) /\
  (forall b, covers (delinearize From What) b <-> covers What b).
Proof.
  intros [HE Hv] HF EF HW EW.
  assert (Hsame : shapeOk p E sz What /\ (forall b, covers What b <-> covers What b)) by (split; [auto|tauto]).
  unfold delinearize. destruct (rNonCollapsable What || _); [exact Hsame|].
  destruct (hasValue (rLo What)) eqn:V1; [|exact Hsame].
  destruct (hasValue (rHi What)) eqn:V2; simpl; [|exact Hsame].
  destruct (getValue (rLo What) >=? getValue (rHi What)) eqn:Ege; [exact Hsame|].
  destruct HF as [_ _ HF]. destruct (HF EF) as (F1 & F2 & F3 & F4 & F5 & F6 & F7).
  pose proof HW as [W1 W2 _]. destruct (W2 EW) as (W3 & W4 & W5 & W6). specialize (W6 V2). destruct W6 as [W6 W7].
  rewrite F4. simpl.
  destruct (rDims From) as [|d ds] eqn:Eds; [congruence|].
  set (Lo := getValue (rLo What)) in *. set (Up := getValue (rHi What)) in *.
  destruct (negb (Lo mod E =? 0) || negb (Up mod E =? 0)) eqn:Eal; [exact Hsame|].
  assert (M1 : Lo = (Lo / E) * E).
  { rewrite (Z.mul_comm (_ / _)). pose proof (Z.div_mod Lo E ltac:(lia)). lia. }
  assert (M2 : Up = (Up / E) * E).
  { rewrite (Z.mul_comm (_ / _)). pose proof (Z.div_mod Up E ltac:(lia)). lia. }
  set (L := Lo / E) in *. set (U := Up / E - 1).
  assert (M3 : Up - E = U * E) by (unfold U; lia).
  rewrite M1, M3.
  destruct (delinDims E (L * E) (U * E) (d :: ds)) as [[res part]|] eqn:Ed; [|exact Hsame].
  assert (HL0 : 0 <= L) by (apply Z.div_pos; lia).
  assert (HLU : L <= U) by (unfold U; nia).
  simpl in F5. rewrite <- F5 in Hv. destruct Hv as [Hv1 Hv2].
  destruct (delin_total E L U d ds) with (res := res) (partial := part) as (A & B & C & D); auto.
  - unfold U. assert (Up / E <= Up) by (apply Z.div_le_upper_bound; nia). lia.
  - rewrite Forall_forall in *. intros x Hx. apply Hv2. apply in_map; auto.
  - intros Hp. rewrite <- F5 in W7. simpl in W7. specialize (W7 Hp). unfold total in W7.
    rewrite M2 in W7. change (fold_right Z.mul 1 (dSize d :: map dSize ds)) with (prod (map dSize (d :: ds))) in W7.
    unfold U. nia.
  - split.
    + split; simpl; [exact W1|discriminate|]. intros _.
      split; [auto|]. split; [intros ->; discriminate|]. split; [auto|]. split; [auto|].
      split; [rewrite <- F5; exact A|]. split; auto.
    + intros b. unfold covers at 1; simpl. rewrite A. unfold covers. rewrite EW.
      assert (Hbel : below b (rHi What) <-> b < Up).
      { unfold Up. destruct (rHi What); simpl in *; try discriminate. tauto. }
      rewrite Hbel. fold Lo. split.
      * intros (idx & k & Hi & Hk & ->).
        assert (Hn : L <= linear (map dSize (d :: ds)) idx <= U) by (apply D; eauto).
        change (map dSize (d :: ds)) with (dSize d :: map dSize ds) in Hn.
        set (n := linear _ _) in *. clearbody n. unfold U in Hn. clear - Hn Hk HE M1 M2.
        set (q := Up / E) in *. nia.
      * intros Hb. destruct (proj2 (D (b / E))) as (idx & Hi & Hl).
        { unfold U. assert (L <= b / E) by (apply Z.div_le_lower_bound; lia).
          assert (b / E < Up / E) by (apply Z.div_lt_upper_bound; [lia|rewrite (Z.mul_comm E), <- M2; lia]). lia. }
        exists idx, (b mod E). split; [exact Hi|]. split; [apply Z.mod_pos_bound; lia|].
        rewrite Hl. rewrite (Z.mul_comm (_ / _)). apply Z.div_mod. lia.
Qed.

(** ** The whole intersection *)
Lemma coversAny_nil b : coversAny [] b <-> False.
Proof. unfold coversAny. split; [intros (r & [] & _)|tauto]. Qed.
Lemma coversAny_cons r rs b : coversAny (r :: rs) b <-> covers r b \/ coversAny rs b.
Proof. unfold coversAny; simpl. split; [intros (x & [->|H] & Hb); eauto|intros [H|(x & H & Hb)]; eauto]. Qed.
Lemma coversAny_app a c b : coversAny (a ++ c) b <-> coversAny a b \/ coversAny c b.
Proof.
  induction a; simpl; [rewrite coversAny_nil; tauto|]. rewrite !coversAny_cons, IHa. tauto.
Qed.

Lemma interPost_ext p E sz L R L' R' wl wr x :
  (forall b, covers L b <-> covers L' b) -> (forall b, covers R b <-> covers R' b) ->
  interPost p E sz L R wl wr x -> interPost p E sz L' R' wl wr x.
Proof.
  intros HL HR. destruct x as [[res LC] RC]. unfold interPost.
  intros (A & B & C & D & F). repeat split; auto.
  - apply HL. apply C; auto.
  - rewrite <- HR. apply C; auto.
  - apply HR. apply D; auto.
  - rewrite <- HL. apply D; auto.
  - destruct res; auto.
    + intros b H1 H2. apply (F b); [apply HL|apply HR]; auto.
    + destruct F as (F0 & F1 & F2 & F3). split; [auto|]. split; [|split].
      * intros b. rewrite F1, HL, HR. tauto.
      * intros w b. rewrite F2, HL, HR by auto. tauto.
      * intros w b. rewrite F3, HL, HR by auto. tauto.
Qed.

Lemma scalarCompl_ok p E sz X lo hi : shapeOk p E sz X -> rCollapsed X = false ->
  hasValue (rHi X) = true -> 0 <= lo < 2 ^ 64 -> 0 <= hi < 2 ^ 64 -> lo <= hi ->
  getValue (rLo X) <= lo -> hi <= getValue (rHi X) ->
  Forall (shapeOk p E sz) (scalarCompl X lo hi) /\
  forall b, coversAny (scalarCompl X lo hi) b <->
     covers X b /\ ~ (lo <= b < hi).
Proof.
  intros HX EX HV Hlo Hhi Hlh H1 H2. unfold scalarCompl.
  destruct HX as [Hp Hs Hc]. destruct (Hs EX) as (A & B & C & D). specialize (D HV). destruct D as [D1 D2].
  assert (S1 : shapeOk p E sz (setBounds X (rLo X) (precise lo))).
  { split; simpl; [auto| |congruence]. intros _. split; [auto|]. split; [auto|]. split; [auto|].
    intros _. split; [lia|]. intros Hz. specialize (D2 Hz). lia. }
  assert (S2 : shapeOk p E sz (setBounds X (precise hi) (rHi X))).
  { split; simpl; [auto| |congruence]. intros _. split; [auto|]. split; [auto|]. split; [lia|].
    intros _. split; [lia|exact D2]. }
  assert (Hbel : forall b, below b (rHi X) <-> b < getValue (rHi X)).
  { intros b. destruct (rHi X); simpl in *; try discriminate. tauto. }
  split.
  - apply Forall_app. split; [destruct (_ <? _)|destruct (_ >? _)]; constructor; auto.
  - intros b. rewrite coversAny_app.
    assert (K1 : coversAny (if getValue (rLo X) <? lo then [setBounds X (rLo X) (precise lo)] else []) b
             <-> getValue (rLo X) <= b < lo).
    { destruct (Z.ltb_spec (getValue (rLo X)) lo); rewrite ?coversAny_cons, coversAny_nil; [|lia].
      unfold covers; simpl. rewrite EX. simpl. lia. }
    assert (K2 : coversAny (if getValue (rHi X) >? hi then [setBounds X (precise hi) (rHi X)] else []) b
             <-> hi <= b < getValue (rHi X)).
    { destruct (Z.gtb_spec (getValue (rHi X)) hi); rewrite ?coversAny_cons, coversAny_nil; [|lia].
      unfold covers; simpl. rewrite EX. simpl. rewrite Hbel. lia. }
    rewrite K1, K2. unfold covers. rewrite EX, Hbel. lia.
Qed.

Lemma intersectScalar_ok p E sz L R wl wr :
  shapeOk p E sz L -> rCollapsed L = false -> shapeOk p E sz R -> rCollapsed R = false ->
  interPost p E sz L R wl wr (intersectScalar L R wl wr).
Proof.
  intros HL EL HR ER. unfold intersectScalar.
  pose proof HL as [Lp Ls _]. destruct (Ls EL) as (A & B & C & D).
  pose proof HR as [Rp Rs _]. destruct (Rs ER) as (A' & B' & C' & D').
  rewrite Lp, Rp. simpl. rewrite Nat.eqb_refl. simpl. rewrite B, B'. simpl. rewrite ?orb_false_r.
  assert (Hnil : forall res, match res with
     | INone => forall b, covers L b -> covers R b -> False | IMaybe => True | _ => False end ->
     interPost p E sz L R wl wr (res, [], [])).
  { intros res Hres. unfold interPost. split; [constructor|]. split; [constructor|].
    split; [intros b Hb; apply coversAny_nil in Hb; tauto|].
    split; [intros b Hb; apply coversAny_nil in Hb; tauto|]. destruct res; auto. tauto. }
  assert (Hcov : forall X b, rCollapsed X = false ->
      covers X b <-> getValue (rLo X) <= b /\ below b (rHi X)).
  { intros X b EX. unfold covers. rewrite EX. tauto. }
  assert (Hbel : forall X b, hasValue (rHi X) = true -> (below b (rHi X) <-> b < getValue (rHi X))).
  { intros X b. destruct (rHi X); simpl; try discriminate; tauto. }
  destruct (hasValue (rHi L)) eqn:VL; [destruct (hasValue (rHi R)) eqn:VR|]; simpl.
  - specialize (D eq_refl). specialize (D' eq_refl). destruct D as [D1 D2], D' as [D1' D2'].
    destruct ((getValue (rHi L) >? getValue (rLo R)) && (getValue (rLo L) <? getValue (rHi R))) eqn:Eo.
    2:{ apply Hnil. intros b. rewrite !Hcov, !Hbel by auto. lia. }
    set (lo := Z.max _ _). set (hi := Z.min _ _).
    destruct (scalarCompl_ok p E sz L lo hi) as [L1 L2]; auto; unfold lo, hi; try lia.
    destruct (scalarCompl_ok p E sz R lo hi) as [R1 R2]; auto; unfold lo, hi; try lia.
    fold lo hi in L1, L2, R1, R2 |- *.
    assert (Hboth : forall b, covers L b /\ covers R b <-> lo <= b < hi).
    { intros b. rewrite !Hcov, !Hbel by auto. unfold lo, hi. lia. }
    assert (HLs : forall b, coversAny (scalarCompl L lo hi) b <-> covers L b /\ ~ covers R b).
    { intros b. rewrite L2, <- Hboth. tauto. }
    assert (HRs : forall b, coversAny (scalarCompl R lo hi) b <-> covers R b /\ ~ covers L b).
    { intros b. rewrite R2, <- Hboth. tauto. }
    unfold interPost. split; [destruct wl; auto|]. split; [destruct wr; auto|].
    split; [intros b; destruct wl; [apply HLs|rewrite coversAny_nil; tauto]|].
    split; [intros b; destruct wr; [apply HRs|rewrite coversAny_nil; tauto]|].
    split; [|split; [|split; intros ->; auto]].
    + split; simpl; [auto| |congruence]. intros _. split; [auto|]. split; [auto|].
      unfold lo, hi. split; [lia|]. intros _. split; [lia|]. intros Hz. specialize (D2 Hz). lia.
    + intros b. rewrite Hboth. unfold covers; simpl. rewrite EL. simpl. tauto.
  - match goal with |- context[if ?c then (INone, _, _) else _] => destruct c eqn:Eo end;
      [|apply Hnil; exact I]. apply Hnil.
    intros b. rewrite !Hcov by auto. rewrite (Hbel L b VL). lia.
  - match goal with |- context[if ?c then (INone, _, _) else _] => destruct c eqn:Eo end;
      [|apply Hnil; exact I]. apply Hnil.
    intros b. rewrite !Hcov by auto. intros H1 H2.
    destruct (hasValue (rHi R)) eqn:VR; [|discriminate].
    rewrite (Hbel R b VR) in H2. simpl in Eo. lia.
Qed.

Lemma dim_eqb_eq a b : dim_eqb a b = true -> a = b.
Proof.
  destruct a, b; unfold dim_eqb; simpl. rewrite !andb_true_iff, !Z.eqb_eq.
  intros (((-> & ->) & ->) & ->). reflexivity.
Qed.
Lemma dims_eqb_eq a : forall b, dims_eqb a b = true -> a = b.
Proof.
  induction a as [|x a IH]; intros [|y b]; simpl; try discriminate; auto.
  rewrite andb_true_iff. intros [H1 H2]. apply dim_eqb_eq in H1. apply IH in H2. congruence.
Qed.

Section Inter.
Variable dio : Z -> Z -> Z -> option (Z * Z * Z * Z).
Hypothesis Hdio : dioSpec dio.

Lemma intersectColl_ok p E sz L R wl wr Th : 0 < E ->
  shapeOk p E sz L -> rCollapsed L = true -> shapeOk p E sz R -> rCollapsed R = true ->
  interPost p E sz L R wl wr
    (if negb (Nat.eqb (length (rDims L)) (length (rDims R))) then (IMaybe, [], [])
     else if lsize_eqb (rLo L) (rLo R) && lsize_eqb (rHi L) (rHi R) &&
          dims_eqb (rDims L) (rDims R) then (IExact L, [], [])
     else interLoop dio L R wl wr Th 0 (rDims L) (rDims R) [] [] []).
Proof.
  intros HE HL EL HR ER.
  pose proof HL as [Lp _ Lc]. destruct (Lc EL) as (L1 & L2 & L3 & L4 & L5 & L6 & L7).
  pose proof HR as [Rp _ Rc]. destruct (Rc ER) as (R1 & R2 & R3 & R4 & R5 & R6 & R7).
  assert (Hlen : length (rDims L) = length (rDims R)).
  { rewrite <- (map_length dSize), L5, <- R5, map_length. reflexivity. }
  rewrite Hlen, Nat.eqb_refl. simpl.
  assert (HcL : forall b, covers L b <-> exists idx, inDims (rDims L) idx /\ linear sz idx = b / E)
    by (intros; apply (covers_idx p); auto).
  assert (HcR : forall b, covers R b <-> exists idx, inDims (rDims R) idx /\ linear sz idx = b / E)
    by (intros; apply (covers_idx p); auto).
  destruct (lsize_eqb _ _ && lsize_eqb _ _ && _) eqn:Eq.
  { apply andb_true_iff in Eq. destruct Eq as [_ Eq]. apply dims_eqb_eq in Eq.
    assert (Hs : forall b, covers L b <-> covers R b) by (intros b; rewrite HcL, HcR, Eq; tauto).
    unfold interPost. split; [constructor|]. split; [constructor|].
    split; [intros b Hb; apply coversAny_nil in Hb; tauto|].
    split; [intros b Hb; apply coversAny_nil in Hb; tauto|].
    split; [exact HL|]. split; [intros b; rewrite <- Hs; tauto|].
    split; intros _ b; rewrite coversAny_nil, Hs; tauto. }
  pose proof (interLoop_ok dio Hdio L R wl wr Th L6 R6 (rDims L) (rDims R) [] [] [] [] []
     eq_refl eq_refl eq_refl Hlen) as HI.
  cbn [length rev] in HI.
  assert (Hpost : loopPost L R wl wr (interLoop dio L R wl wr Th 0 (rDims L) (rDims R) [] [] [])).
  { apply HI.
    - split; [reflexivity|]. split; [constructor|]. split; [reflexivity|]. split; [constructor|].
      intros i1. tauto.
    - unfold sideInv. destruct wl; [|reflexivity]. split; [|constructor].
      intros idx. unfold idxAny. simpl. split; [intros (r & [] & _)|].
      intros [_ H]. exfalso. apply H. constructor.
    - unfold sideInv. destruct wr; [|reflexivity]. split; [|constructor].
      intros idx. unfold idxAny. simpl. split; [intros (r & [] & _)|].
      intros [_ H]. exfalso. apply H. constructor. }
  clear HI. destruct (interLoop _ _ _ _ _ _ _ _ _ _ _ _) as [[res LC] RC].
  destruct Hpost as (P1 & P2 & P3 & P4 & P5).
  assert (KL : forall b, coversAny LC b <-> exists idx, idxAny LC idx /\ linear sz idx = b / E)
    by (intros; apply (coversAny_idx p E sz L); auto).
  assert (KR : forall b, coversAny RC b <-> exists idx, idxAny RC idx /\ linear sz idx = b / E)
    by (intros; apply (coversAny_idx p E sz R); auto).
  assert (Gl : forall idx, inDims (rDims L) idx -> goodIdx sz idx)
    by (intros; eapply shape_good; [exact HL|auto|auto]).
  assert (Gr : forall idx, inDims (rDims R) idx -> goodIdx sz idx)
    by (intros; eapply shape_good; [exact HR|auto|auto]).
  assert (NL : forall b idx, inDims (rDims L) idx -> linear sz idx = b / E ->
      ~ inDims (rDims R) idx -> ~ covers R b).
  { intros b idx Hi Hl Hn Hc. apply HcR in Hc. destruct Hc as (idx' & Hi' & Hl').
    apply Hn. rewrite (good_inj sz idx idx'); auto. congruence. }
  assert (NR : forall b idx, inDims (rDims R) idx -> linear sz idx = b / E ->
      ~ inDims (rDims L) idx -> ~ covers L b).
  { intros b idx Hi Hl Hn Hc. apply HcL in Hc. destruct Hc as (idx' & Hi' & Hl').
    apply Hn. rewrite (good_inj sz idx idx'); auto. congruence. }
  unfold interPost.
  split. { eapply Forall_impl; [|exact P1]. intros c Hc. eapply piece_shape in Hc; eauto. tauto. }
  split. { eapply Forall_impl; [|exact P2]. intros c Hc. eapply piece_shape in Hc; eauto. tauto. }
  split.
  { intros b Hb. apply KL in Hb. destruct Hb as (idx & Hi & Hl). apply P3 in Hi. destruct Hi.
    split; [apply HcL; eauto|eapply NL; eauto]. }
  split.
  { intros b Hb. apply KR in Hb. destruct Hb as (idx & Hi & Hl). apply P4 in Hi. destruct Hi.
    split; [apply HcR; eauto|eapply NR; eauto]. }
  destruct res as [| |r].
  - intros b H1 H2. apply HcL in H1. apply HcR in H2.
    destruct H1 as (i1 & A1 & A2), H2 as (i2 & B1 & B2).
    apply (P5 i1); auto. rewrite (good_inj sz i1 i2); auto. congruence.
  - exact I.
  - destruct P5 as (Q1 & Q2 & Q3 & Q4).
    destruct (piece_shape p E sz L r HL EL Q1) as [Sr Er].
    split; [exact Sr|]. split; [|split].
    + intros b. rewrite (covers_idx p E sz r b HE Sr Er), HcL, HcR. split.
      * intros (idx & Hi & Hl). apply Q2 in Hi. destruct Hi. split; eauto.
      * intros ((i1 & A1 & A2) & (i2 & B1 & B2)). exists i1. split; [|auto]. apply Q2.
        split; auto. rewrite (good_inj sz i1 i2); auto. congruence.
    + intros w b. rewrite KL. split.
      * intros (idx & Hi & Hl). apply (Q3 w) in Hi. destruct Hi.
        split; [apply HcL; eauto|eapply NL; eauto].
      * intros [H1 H2]. apply HcL in H1. destruct H1 as (i1 & A1 & A2).
        exists i1. split; auto. apply (Q3 w). split; auto. intros Hc. apply H2. apply HcR. eauto.
    + intros w b. rewrite KR. split.
      * intros (idx & Hi & Hl). apply (Q4 w) in Hi. destruct Hi.
        split; [apply HcR; eauto|eapply NR; eauto].
      * intros [H1 H2]. apply HcR in H1. destruct H1 as (i1 & A1 & A2).
        exists i1. split; auto. apply (Q4 w). split; auto. intros Hc. apply H2. apply HcL. eauto.
Qed.

Theorem intersectRanges_ok p E sz L R wl wr Th :
  viewOk E sz -> shapeOk p E sz L -> shapeOk p E sz R ->
  interPost p E sz L R wl wr (intersectRanges dio L R wl wr Th).
Proof.
  intros Hv HL HR. unfold intersectRanges.
  rewrite (sh_ptr _ _ _ _ HL), (sh_ptr _ _ _ _ HR). simpl. rewrite Nat.eqb_refl. simpl.
  set (L' := if negb (rCollapsed L) && _ && _ then _ else _).
  assert (HL' : shapeOk p E sz L' /\ forall b, covers L' b <-> covers L b).
  { unfold L'. destruct (negb (rCollapsed L) && _ && rCollapsed R) eqn:Ec; [|split; [auto|tauto]].
    rewrite !andb_true_iff, !negb_true_iff in Ec. apply delinearize_ok; tauto. }
  destruct HL' as [SL CL]. clearbody L'.
  set (R' := if negb (rCollapsed R) && _ && _ then _ else _).
  assert (HR' : shapeOk p E sz R' /\ forall b, covers R' b <-> covers R b).
  { unfold R'. destruct (negb (rCollapsed R) && _ && rCollapsed L') eqn:Ec; [|split; [auto|tauto]].
    rewrite !andb_true_iff, !negb_true_iff in Ec. apply delinearize_ok; tauto. }
  destruct HR' as [SR CR]. clearbody R'.
  apply (interPost_ext p E sz L' R' L R wl wr); auto.
  destruct (rCollapsed L') eqn:E1, (rCollapsed R') eqn:E2; cbn [negb andb orb].
  - apply intersectColl_ok; auto. apply Hv.
  - unfold interPost. split; [constructor|]. split; [constructor|].
    split; [intros b Hb; apply coversAny_nil in Hb; tauto|].
    split; [intros b Hb; apply coversAny_nil in Hb; tauto|exact I].
  - unfold interPost. split; [constructor|]. split; [constructor|].
    split; [intros b Hb; apply coversAny_nil in Hb; tauto|].
    split; [intros b Hb; apply coversAny_nil in Hb; tauto|exact I].
  - apply intersectScalar_ok; auto.
Qed.
End Inter.
