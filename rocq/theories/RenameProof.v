(** Proofs about the renaming of local objects. *)
From Coq Require Import List String Bool Arith Lia DecimalString DecimalNat Permutation.
From Verif Require Import RenameModel RenameSpec.
Import ListNotations.
Local Open Scope list_scope.

Section Ind.
Variable P : stm -> Prop.
Hypothesis HP : P SPragma.
Hypothesis HD : forall k d n sub, Forall P sub -> P (SDecl k d n sub).
Hypothesis HU : forall u d n, P (SUse u d n).
Hypothesis HS : forall m l, Forall P l -> P (SScope m l).
Hypothesis HO : forall l, Forall P l -> P (SStmt l).
Fixpoint stm_ind' (s : stm) : P s :=
  let all := fix all (l : list stm) : Forall P l := match l with [] => Forall_nil _ | s :: l => Forall_cons _ (stm_ind' s) (all l) end in
  match s with SPragma => HP | SDecl k d n sub => HD k d n sub (all sub) | SUse u d n => HU u d n | SScope m l => HS m l (all l) | SStmt l => HO l (all l) end.
End Ind.

Lemma has_spec ids n : has ids n = true <-> In n ids.
Proof. unfold has. rewrite existsb_exists. split; [intros (m & H & E); apply String.eqb_eq in E; now subst|]. intros H. exists n. split; [exact H|apply String.eqb_refl]. Qed.
Lemma has_false ids n : has ids n = false <-> ~ In n ids.
Proof. rewrite <- has_spec. destruct (has ids n); split; try discriminate; auto; intros H; exfalso; now apply H. Qed.
Lemma decimal_inj a b : decimal a = decimal b -> a = b.
Proof.
  unfold decimal. intros H. apply (f_equal NilEmpty.uint_of_string) in H. rewrite !NilEmpty.usu in H. injection H as H. now apply Unsigned.to_uint_inj.
Qed.
Lemma append_inj n a b : String.append n a = String.append n b -> a = b.
Proof. induction n as [|c n IH]; cbn; [auto|]. intros H. injection H as H. auto. Qed.
Lemma freshFrom_spec fuel ids n : forall count m, freshFrom fuel ids n count = Some m -> ~ In m ids /\ exists k, m = String.append n (decimal k) /\ forall j, count <= j < k -> In (String.append n (decimal j)) ids.
Proof.
  induction fuel as [|fuel IH]; intros count m H; [discriminate|]. cbn [freshFrom] in H. destruct (has ids _) eqn:E.
  - destruct (IH _ _ H) as (A & k & B & C). split; [exact A|]. exists k. split; [exact B|]. intros j Hj. destruct (Nat.eq_dec j count) as [->|]; [now apply has_spec|]. apply C. lia.
  - injection H as <-. split; [now apply has_false|]. exists count. split; [reflexivity|]. lia.
Qed.
Lemma freshFrom_none fuel ids n : forall count, freshFrom fuel ids n count = None -> forall j, count <= j < count + fuel -> In (String.append n (decimal j)) ids.
Proof.
  induction fuel as [|fuel IH]; intros count H j Hj; [lia|]. cbn [freshFrom] in H. destruct (has ids _) eqn:E; [|discriminate].
  destruct (Nat.eq_dec j count) as [->|]; [now apply has_spec|]. apply (IH _ H). lia.
Qed.
Lemma freshFrom_some ids n : exists m, freshFrom (S (List.length ids)) ids n 0 = Some m.
Proof.
  destruct (freshFrom (S (List.length ids)) ids n 0) as [m|] eqn:E; [now exists m|]. exfalso.
  assert (H : NoDup (map (fun j => String.append n (decimal j)) (seq 0 (S (List.length ids))))).
  { apply FinFun.Injective_map_NoDup; [|apply seq_NoDup]. intros a b K. apply decimal_inj. eapply append_inj. exact K. }
  assert (I' : incl (map (fun j => String.append n (decimal j)) (seq 0 (S (List.length ids)))) ids).
  { intros m K. apply in_map_iff in K. destruct K as (j & <- & K). apply in_seq in K. eapply freshFrom_none; [exact E|lia]. }
  pose proof (NoDup_incl_length H I') as L. rewrite map_length, seq_length in L. lia.
Qed.
Lemma freshName_new ids n : ~ In (freshName ids n) ids.
Proof. unfold freshName. destruct (freshFrom_some ids n) as (m & E). rewrite E. now apply freshFrom_spec in E. Qed.

(** Unfolding of the traversal *)
Lemma trav_decl k d n sub st : trav (SDecl k d n sub) st =
  let r := visitNamed d n (enterDecl k (noPend st)) in let q := travs sub (snd r) in (SDecl k d (fst r) (fst q), snd q).
Proof. reflexivity. Qed.
Lemma trav_scope m l st : trav (SScope m l) st =
  if pend st && negb (active st) && negb m
  then let q := travs l (setActive true (noPend st)) in (SScope m (fst q), setActive false (snd q))
  else let q := travs l (noPend st) in (SScope m (fst q), setActive (active st) (snd q)).
Proof. reflexivity. Qed.
Lemma trav_stmt l st : trav (SStmt l) st = let q := travs l (noPend st) in (SStmt (fst q), snd q).
Proof. reflexivity. Qed.
Lemma refs_decl k d n sub e : refs (SDecl k d n sub) e = (fst (refsL sub ((n, d) :: e)), (n, d) :: e).
Proof. reflexivity. Qed.
Lemma refs_scope m l e : refs (SScope m l) e = (fst (refsL l e), e).
Proof. reflexivity. Qed.
Lemma refs_stmt l e : refs (SStmt l) e = refsL l e.
Proof. reflexivity. Qed.

(** Text and names change, the tree does not *)
Lemma trav_shape s : forall st, shape (fst (trav s st)) = shape s.
Proof.
  assert (L : forall l, Forall (fun s => forall st, shape (fst (trav s st)) = shape s) l -> forall st, map shape (fst (travs l st)) = map shape l).
  { induction 1 as [|x l H Hl IH]; intros st; [reflexivity|]. cbn [travs fst map]. now rewrite H, IH. }
  induction s as [|k d n sub IH|u d n|m l IH|l IH] using stm_ind'; intros st.
  - reflexivity.
  - rewrite trav_decl. cbn [fst shape]. now rewrite L.
  - reflexivity.
  - rewrite trav_scope. destruct (_ && _); cbn [fst shape]; now rewrite L.
  - rewrite trav_stmt. cbn [fst shape]. now rewrite L.
Qed.
Lemma travs_shape l : forall st, map shape (fst (travs l st)) = map shape l.
Proof. induction l as [|s l IH]; intros st; [reflexivity|]. cbn [travs fst map]. now rewrite trav_shape, IH. Qed.

Lemma travs_active l : (forall s, In s l -> forall st, active (snd (trav s st)) = active st) -> forall st, active (snd (travs l st)) = active st.
Proof. induction l as [|s l IH]; intros H st; [reflexivity|]. cbn [travs snd]. rewrite IH; [|intros; apply H; now right]. apply H. now left. Qed.
Lemma trav_active s : forall st, active (snd (trav s st)) = active st.
Proof.
  induction s as [|k d n sub IH|u d n|m l IH|l IH] using stm_ind'; intros st.
  - reflexivity.
  - rewrite trav_decl. cbn [snd]. rewrite travs_active; [|exact (proj1 (Forall_forall _ _) IH)]. unfold visitNamed. destruct (active _ && has _ _); cbn; destruct k; reflexivity.
  - reflexivity.
  - rewrite trav_scope. destruct (pend st && negb (active st) && negb m) eqn:E; cbn; [|reflexivity]. destruct (active st); [|reflexivity]. rewrite andb_false_r in E. discriminate.
  - rewrite trav_stmt. cbn [snd]. rewrite travs_active; [reflexivity|exact (proj1 (Forall_forall _ _) IH)].
Qed.
Lemma travs_active' l st : active (snd (travs l st)) = active st.
Proof. apply travs_active. intros. apply trav_active. Qed.

(** ** The invariant *)
Section Inv.
Variable isType : nat -> bool.
Definition newName (chg : list (nat * string)) (d : nat) (n : string) : string := match assoc d chg with Some m => m | None => n end.
Definition envRel (chg : list (nat * string)) (e e' : env) : Prop := e' = map (fun p => (newName chg (snd p) (fst p), snd p)) e.
Record Inv (ids0 : list string) (e : env) (st : state) : Prop := {
  inv_ids : forall n, In n ids0 -> In n (ids st);
  inv_val : forall d m, assoc d (change st) = Some m -> In m (ids st) /\ ~ In m ids0;
  inv_inj : forall d d' m, assoc d (change st) = Some m -> assoc d' (change st) = Some m -> d = d';
  inv_env : forall n d, In (n, d) e -> In n ids0;
  inv_uniq : NoDup (map snd e);
  inv_off : active st = false -> forall n d, In (n, d) e -> assoc d (change st) = None;
  inv_type : forall d, isType d = true -> assoc d (change st) = None }.
Lemma lookup_in n e d : lookup n e = Some d -> In (n, d) e.
Proof.
  induction e as [|[m d'] e IH]; cbn; [discriminate|]. destruct (String.eqb m n) eqn:E; [|auto]. intros H. injection H as ->. apply String.eqb_eq in E. subst. now left.
Qed.
Lemma lookup_rel ids0 e st n d : Inv ids0 e st -> In n ids0 -> lookup n e = Some d -> lookup (newName (change st) d n) (map (fun p => (newName (change st) (snd p) (fst p), snd p)) e) = Some d.
Proof.
  intros Hi Hn. assert (A := inv_val _ _ _ Hi). assert (B := inv_inj _ _ _ Hi). assert (C := inv_env _ _ _ Hi). assert (D := inv_uniq _ _ _ Hi). clear Hi.
  induction e as [|[m d1] e IH]; cbn [lookup map fst snd]; [discriminate|]. intros H. destruct (String.eqb m n) eqn:E.
  - injection H as ->. apply String.eqb_eq in E. subst m. now rewrite String.eqb_refl.
  - apply String.eqb_neq in E. destruct (String.eqb _ _) eqn:E'; [exfalso|apply IH; [intros; eapply C; right; eauto|now inversion D|exact H]].
    apply String.eqb_eq in E'. unfold newName in E'. assert (Hm : In m ids0) by (eapply C; now left). destruct (assoc d1 (change st)) as [m'|] eqn:E1, (assoc d (change st)) as [n'|] eqn:E2.
    + subst n'. assert (d1 = d) by eauto. subst d1. cbn in D. inversion D; subst. apply H2. apply lookup_in in H. change d with (snd (n, d)). now apply in_map.
    + subst. now apply A in E1.
    + subst. now apply A in E2.
    + congruence.
Qed.

Lemma visitNamed_spec ids0 e st d n m st' : visitNamed d n st = (m, st') -> Inv ids0 e st -> In n ids0 -> ~ In d (map snd e) -> assoc d (change st) = None -> isType d = false ->
  Inv ids0 ((n, d) :: e) st' /\ m = newName (change st') d n /\ (forall d', d' <> d -> assoc d' (change st') = assoc d' (change st)) /\ active st' = active st /\ pend st' = pend st.
Proof.
  intros H Hi Hn Hd Ha Ht. assert (Hh : has (ids st) n = true) by (apply has_spec; now apply (inv_ids _ _ _ Hi)).
  assert (CE : forall (k : string) d0, In (k, d0) ((n, d) :: e) -> In k ids0) by (intros k d0 [E|E]; [now injection E as <- <-|eapply (inv_env _ _ _ Hi); exact E]).
  assert (UQ : NoDup (map snd ((n, d) :: e))) by (cbn; constructor; [exact Hd|exact (inv_uniq _ _ _ Hi)]).
  unfold visitNamed in H. rewrite Hh, Ha in H. destruct (active st) eqn:Ac; cbn [andb] in H; injection H as <- <-.
  - pose proof (freshName_new (ids st) n) as F. set (m := freshName (ids st) n) in *. cbn [change active pend ids]. unfold newName. cbn [assoc change]. rewrite Nat.eqb_refl. split; [|repeat split].
    + split; cbn [ids change active].
      * intros x K. apply in_or_app. left. now apply (inv_ids _ _ _ Hi).
      * intros d0 x K. cbn [assoc] in K. destruct (Nat.eqb d d0).
        -- injection K as <-. split; [apply in_or_app; right; now left|]. intros K. apply F. now apply (inv_ids _ _ _ Hi).
        -- apply (inv_val _ _ _ Hi) in K. split; [apply in_or_app; left; tauto|tauto].
      * intros d1 d2 x K1 K2. cbn [assoc] in K1, K2. destruct (Nat.eqb d d1) eqn:E1, (Nat.eqb d d2) eqn:E2.
        -- apply Nat.eqb_eq in E1, E2. congruence.
        -- injection K1 as <-. apply (inv_val _ _ _ Hi) in K2. now elim F.
        -- injection K2 as <-. apply (inv_val _ _ _ Hi) in K1. now elim F.
        -- eapply (inv_inj _ _ _ Hi); eauto.
      * exact CE.
      * exact UQ.
      * discriminate.
      * intros d0 K. cbn [assoc]. destruct (Nat.eqb d d0) eqn:E; [apply Nat.eqb_eq in E; congruence|]. now apply (inv_type _ _ _ Hi).
    + intros d' K. destruct (Nat.eqb d d') eqn:E; [|reflexivity]. apply Nat.eqb_eq in E. congruence.
  - split; [|repeat split; auto; unfold newName; now rewrite Ha]. destruct Hi as [H1 H2 H3 H4 H5 H6 H7]. split; auto. intros _ x d0 [E|E]; [now injection E as <- <-|eapply H6; eauto].
Qed.
Definition declIds (s : stm) : list nat := map fst (decls s).
Definition declIdsL (l : list stm) : list nat := map fst (flat_map decls l).
Definition keeps (ds : list nat) (st st' : state) : Prop := forall d, ~ In d ds -> assoc d (change st') = assoc d (change st).
Definition ren (st : state) (e : env) : env := map (fun p => (newName (change st) (snd p) (fst p), snd p)) e.
Lemma ren_same st st' e : (forall x d, In (x, d) e -> assoc d (change st') = assoc d (change st)) -> ren st' e = ren st e.
Proof. intros H. unfold ren. apply map_ext_in. intros [x d] K. cbn. unfold newName. now rewrite (H x d K). Qed.
Lemma flat_uses l : map Some (flat_map uses l) = flat_map (fun s => map Some (uses s)) l.
Proof. induction l as [|s l IH]; [reflexivity|]. cbn. now rewrite map_app, IH. Qed.
Lemma refs_len s : forall e, List.length (fst (refs s e)) = List.length (uses s).
Proof.
  assert (L : forall l, Forall (fun s => forall e, List.length (fst (refs s e)) = List.length (uses s)) l -> forall e, List.length (fst (refsL l e)) = List.length (flat_map uses l)).
  { induction 1 as [|x l H Hl IH]; intros e; [reflexivity|]. cbn [refsL fst flat_map]. now rewrite !app_length, H, IH. }
  induction s as [|k d n sub IH|u d n|m l IH|l IH] using stm_ind'; intros e; [reflexivity| |reflexivity| |].
  - rewrite refs_decl. cbn [fst uses]. now apply L.
  - rewrite refs_scope. cbn [fst uses]. now apply L.
  - rewrite refs_stmt. cbn [uses]. now apply L.
Qed.
Lemma app_split {A} (a b c d : list A) : List.length a = List.length c -> a ++ b = c ++ d -> a = c /\ b = d.
Proof.
  revert c. induction a as [|x a IH]; intros [|y c] L H; try discriminate; [auto|]. cbn in H. injection H as -> H. cbn in L. destruct (IH c ltac:(lia) H) as [-> ->]. auto.
Qed.
Lemma NoDup_app3 {A} (a b c : list A) : NoDup (a ++ b ++ c) -> NoDup (a ++ b) /\ (forall x, In x c -> ~ In x a /\ ~ In x b).
Proof.
  intros H. rewrite app_assoc in H. assert (K : NoDup ((a ++ b) ++ c) -> NoDup (a ++ b) /\ forall x, In x c -> ~ In x (a ++ b)).
  { generalize (a ++ b) as l. clear H. induction l as [|y l IH]; cbn; intros H; [split; [constructor|auto]|]. inversion H; subst. destruct (IH H3) as [I1 I2]. split.
    - constructor; [|exact I1]. intros K. apply H2. apply in_or_app. now left.
    - intros x Hx [->|K]; [apply H2; apply in_or_app; now right|now apply (I2 x)]. }
  destruct (K H) as [K1 K2]. split; [exact K1|]. intros x Hx. specialize (K2 x Hx). rewrite in_app_iff in K2. tauto.
Qed.
Definition goodL (l : list stm) : Prop := forall ids0 e st, forallb objects l = true -> forallb (typed isType) l = true -> Inv ids0 e st ->
  incl (flat_map names l) ids0 -> NoDup (map snd e ++ declIdsL l) -> (forall d, In d (declIdsL l) -> assoc d (change st) = None) ->
  fst (refsL l e) = map Some (flat_map uses l) ->
  let st' := snd (travs l st) in
  Inv ids0 (snd (refsL l e)) st' /\ keeps (declIdsL l) st st' /\
  (forall x d, In (x, d) (snd (refsL l e)) -> In (x, d) e \/ In d (declIdsL l)) /\
  refsL (fst (travs l st)) (ren st e) = (map Some (flat_map uses l), ren st' (snd (refsL l e))).
Definition goodS (s : stm) : Prop := forall ids0 e st, objects s = true -> typed isType s = true -> Inv ids0 e st ->
  incl (names s) ids0 -> NoDup (map snd e ++ declIds s) -> (forall d, In d (declIds s) -> assoc d (change st) = None) ->
  fst (refs s e) = map Some (uses s) ->
  let st' := snd (trav s st) in
  Inv ids0 (snd (refs s e)) st' /\ keeps (declIds s) st st' /\
  (forall x d, In (x, d) (snd (refs s e)) -> In (x, d) e \/ In d (declIds s)) /\
  refs (fst (trav s st)) (ren st e) = (map Some (uses s), ren st' (snd (refs s e))).
Lemma goodL_all l : Forall goodS l -> goodL l.
Proof.
  induction 1 as [|s l Hs Hl IH]; intros ids0 e st Ob Ty Hi Hn ND Hf Hr st'.
  - subst st'. cbn. split; [exact Hi|]. split; [intros d _; reflexivity|]. split; [auto|reflexivity].
  - cbn [forallb] in Ob. apply andb_true_iff in Ob. destruct Ob as [Ob1 Ob2]. cbn [flat_map] in Hn. cbn [refsL fst flat_map] in Hr. rewrite map_app in Hr.
    apply app_split in Hr; [|now rewrite map_length, refs_len]. destruct Hr as [Hr1 Hr2].
    assert (ED : declIdsL (s :: l) = declIds s ++ declIdsL l) by (unfold declIdsL, declIds; cbn; now rewrite map_app). rewrite ED in *.
    destruct (NoDup_app3 _ _ _ ND) as [ND1 ND2].
    cbn [forallb] in Ty. apply andb_true_iff in Ty. destruct Ty as [Ty1 Ty2].
    destruct (Hs ids0 e st Ob1 Ty1 Hi ltac:(intros x K; apply Hn, in_or_app; now left) ND1 ltac:(intros d K; apply Hf, in_or_app; now left) Hr1) as (A1 & A2 & A3 & A4).
    set (st1 := snd (trav s st)) in *. set (e1 := snd (refs s e)) in *.
    assert (NE : NoDup (map snd e1 ++ declIdsL l)).
    { pose proof (inv_uniq _ _ _ A1) as U. assert (NL : NoDup (declIdsL l)) by (rewrite app_assoc in ND; clear - ND; induction (map snd e ++ declIds s) as [|y k IHk]; [exact ND|inversion ND; auto]).
      assert (DJ : forall d, In d (map snd e1) -> ~ In d (declIdsL l)).
      { intros d K K'. apply in_map_iff in K. destruct K as ([x d'] & E & K). cbn in E. subst d'. destruct (ND2 d K') as [X Y]. destruct (A3 x d K) as [K1|K1]; [apply X; change d with (snd (x, d)); now apply in_map|now apply Y]. }
      clear - U NL DJ. induction (map snd e1) as [|y k IHk]; [exact NL|]. cbn. inversion U; subst. constructor.
      - intros K. apply in_app_iff in K. destruct K as [K|K]; [auto|]. apply (DJ y); [now left|exact K].
      - apply IHk; [assumption|]. intros d K. apply DJ. now right. }
    assert (Hf1 : forall d, In d (declIdsL l) -> assoc d (change st1) = None).
    { intros d K. rewrite A2; [apply Hf, in_or_app; now right|]. now apply ND2. }
    destruct (IH ids0 e1 st1 Ob2 Ty2 A1 ltac:(intros x K; apply Hn, in_or_app; now right) NE Hf1 Hr2) as (B1 & B2 & B3 & B4).
    subst st'. cbn [travs snd fst refsL flat_map]. fold st1. fold e1. split; [exact B1|]. split; [|split].
    + intros d K. rewrite in_app_iff in K. rewrite B2, A2; tauto.
    + intros x d K. rewrite in_app_iff. destruct (B3 x d K) as [K1|K1]; [destruct (A3 x d K1); auto|auto].
    + rewrite A4. cbn [snd fst]. rewrite B4. cbn [fst snd]. now rewrite map_app.
Qed.
Lemma Inv_noPend ids0 e st : Inv ids0 e st -> Inv ids0 e (noPend st).
Proof. intros [H1 H2 H3 H4 H5 H6 H7]. now split. Qed.
Lemma goodS_all s : goodS s.
Proof.
  induction s as [|k d n sub IH|u d n|m l IH|l IH] using stm_ind'.
  - intros ids0 e st _ _ [H1 H2 H3 H4 H5 H6 H7] _ _ _ _. cbn. split; [now split|]. split; [intros d _; reflexivity|]. split; [auto|reflexivity].
  - intros ids0 e st Ob Ty Hi Hn ND Hf Hr st'. subst st'. cbn [objects] in Ob. assert (Ob' : forallb objects sub = true) by (destruct k; congruence). assert (Ek : enterDecl k (noPend st) = noPend st) by (destruct k; try discriminate; reflexivity).
    rewrite refs_decl in Hr |- *. cbn [fst snd] in Hr |- *. cbn [uses] in Hr |- *.
    assert (ED : declIds (SDecl k d n sub) = d :: declIdsL sub) by reflexivity. rewrite ED in *.
    assert (Hd : ~ In d (map snd e)) by (intros K; apply NoDup_remove_2 in ND; apply ND, in_or_app; now left).
    cbn [typed] in Ty. apply andb_true_iff in Ty. destruct Ty as [Ty1 Ty2]. assert (Ht : isType d = false) by (apply eqb_prop in Ty1; rewrite Ty1; destruct k; try discriminate; reflexivity).
    rewrite trav_decl, Ek. cbn zeta. destruct (visitNamed d n (noPend st)) as [m st1] eqn:Ev. cbn [fst snd].
    destruct (visitNamed_spec ids0 e _ d n m st1 Ev (Inv_noPend _ _ _ Hi) ltac:(apply Hn; now left) Hd ltac:(apply Hf; now left) Ht) as (A1 & A2 & A3 & A4 & A5).
    assert (NE : NoDup (map snd ((n, d) :: e) ++ declIdsL sub)) by (cbn [map snd app]; apply (Permutation_NoDup (l := map snd e ++ d :: declIdsL sub)); [symmetry; apply Permutation_middle|exact ND]).
    assert (Hf1 : forall x, In x (declIdsL sub) -> assoc x (change st1) = None).
    { intros x K. rewrite A3; [apply Hf; now right|]. intros ->. apply NoDup_remove_2 in ND. apply ND, in_or_app. now right. }
    destruct (goodL_all sub IH ids0 ((n, d) :: e) st1 Ob' Ty2 A1 ltac:(intros x K; apply Hn; now right) NE Hf1 Hr) as (B1 & B2 & B3 & B4).
    assert (KD : ~ In d (declIdsL sub)) by (intros K; apply NoDup_remove_2 in ND; apply ND, in_or_app; now right).
    assert (KE : forall x y, In (x, y) ((n, d) :: e) -> ~ In y (declIdsL sub)).
    { intros x y [E|K] K'; [injection E as <- <-; auto|]. cbn in NE. inversion NE; subst. assert (~ In y (map snd e)) by (eapply (proj2 (NoDup_app3 [] (map snd e) (declIdsL sub) H2)); exact K'). apply H. change y with (snd (x, y)). now apply in_map. }
    split; [|split; [|split]].
    + destruct B1 as [H1 H2 H3 H4 H5 H6 H7]. destruct A1 as [G1 G2 G3 G4 G5 G6 G7]. split; auto. intros Ha x y K. rewrite B2; [|eapply KE; exact K]. rewrite travs_active' in Ha. apply (G6 Ha x y K).
    + intros y K. cbn in K. rewrite B2; [|tauto]. apply A3. intros ->. tauto.
    + intros x y [E|K]; [injection E as <- <-; right; now left|now left].
    + rewrite refs_decl. assert (E1 : ren st1 ((n, d) :: e) = (m, d) :: ren st e).
      { cbn [ren map fst snd]. rewrite <- A2. f_equal. apply ren_same. intros x y K. apply A3. intros ->. apply Hd. change d with (snd (x, d)). now apply in_map. }
      rewrite <- E1. rewrite B4. cbn [fst]. f_equal. symmetry. apply ren_same. intros x y K. apply B2. eapply KE; exact K.
  - intros ids0 e st _ Ty Hi Hn _ _ Hr st'. subst st'. cbn [trav snd fst refs uses map] in Hr |- *. split; [now apply Inv_noPend|]. split; [intros y _; reflexivity|]. split; [auto|].
    injection Hr as Hr. f_equal. f_equal. assert (Hx : In n ids0) by (apply Hn; now left).
    pose proof (lookup_rel ids0 e st n d Hi Hx Hr) as L. fold (ren st e) in L. unfold newName in L.
    assert (Q : visitRef u d n (noPend st) = match assoc d (change st) with Some m => m | None => n end); [|now rewrite Q].
    unfold visitRef. cbn [noPend active change]. destruct u; [|now rewrite (inv_type _ _ _ Hi d Ty)]. destruct (active st) eqn:Ac; [reflexivity|].
    now rewrite (inv_off _ _ _ Hi Ac n d (lookup_in _ _ _ Hr)).
  - intros ids0 e st Ob Ty Hi Hn ND Hf Hr st'. subst st'. cbn [objects] in Ob. rewrite refs_scope in Hr |- *. cbn [fst snd uses] in Hr |- *. change (declIds (SScope m l)) with (declIdsL l) in *. cbn [names] in Hn.
    assert (KE : forall x y, In (x, y) e -> ~ In y (declIdsL l)).
    { intros x y K K'. assert (~ In y (map snd e)) by (eapply (proj2 (NoDup_app3 [] (map snd e) (declIdsL l) ND)); exact K'). apply H. change y with (snd (x, y)). now apply in_map. }
    rewrite trav_scope. destruct (pend st && negb (active st) && negb m) eqn:E; cbn [fst snd].
    + assert (Ac : active st = false) by (destruct (active st); [rewrite andb_false_r in E; discriminate|reflexivity]).
      assert (Hi1 : Inv ids0 e (setActive true (noPend st))) by (destruct Hi as [H1 H2 H3 H4 H5 H6 H7]; split; auto; discriminate).
      destruct (goodL_all l IH ids0 e _ Ob Ty Hi1 Hn ND Hf Hr) as (B1 & B2 & B3 & B4). split; [|split; [|split]].
      * destruct B1 as [H1 H2 H3 H4 H5 H6 H7]. destruct Hi as [G1 G2 G3 G4 G5 G6 G7]. split; auto. intros _ x y K. cbn [setActive change]. rewrite B2; [|eapply KE; exact K]. apply (G6 Ac x y K).
      * exact B2.
      * auto.
      * rewrite refs_scope. change (ren st e) with (ren (setActive true (noPend st)) e). rewrite B4. cbn [fst]. f_equal. symmetry. apply ren_same. intros x y K. cbn [setActive change]. apply B2. eapply KE; exact K.
    + destruct (goodL_all l IH ids0 e _ Ob Ty (Inv_noPend _ _ _ Hi) Hn ND Hf Hr) as (B1 & B2 & B3 & B4). split; [|split; [|split]].
      * destruct B1 as [H1 H2 H3 H4 H5 H6 H7]. destruct Hi as [G1 G2 G3 G4 G5 G6 G7]. split; auto. cbn [setActive active change]. intros Ac x y K. rewrite B2; [|eapply KE; exact K]. apply (G6 Ac x y K).
      * exact B2.
      * auto.
      * rewrite refs_scope. change (ren st e) with (ren (noPend st) e). rewrite B4. cbn [fst]. f_equal. symmetry. apply ren_same. intros x y K. cbn [setActive change]. apply B2. eapply KE; exact K.
  - intros ids0 e st Ob Ty Hi Hn ND Hf Hr st'. subst st'. rewrite trav_stmt. cbn zeta. cbn [fst snd]. rewrite !refs_stmt in *.
    exact (goodL_all l IH ids0 e (noPend st) Ob Ty (Inv_noPend _ _ _ Hi) Hn ND Hf Hr).
Qed.
Lemma NoDup_disj {A} (a b : list A) : NoDup (a ++ b) -> forall x, In x a -> ~ In x b.
Proof. intros H x Ha Hb. now apply (proj2 (NoDup_app3 [] a b H) x Hb). Qed.
Lemma NoDup_right {A} (a b : list A) : NoDup (a ++ b) -> NoDup b.
Proof. induction a as [|x a IH]; [auto|]. cbn. intros H. inversion H; auto. Qed.
Lemma Inv_more ids0 e st e' : Inv ids0 e st -> active st = false -> (forall x d, In (x, d) e' -> In x ids0 /\ assoc d (change st) = None) -> NoDup (map snd e') -> Inv ids0 e' st.
Proof. intros [H1 H2 H3 H4 H5 H6 H7] Ac HE U. split; auto; [intros n d K; now apply HE in K|intros _ n d K; now apply HE in K]. Qed.
Lemma ren_off ids0 e st : Inv ids0 e st -> active st = false -> ren st e = e.
Proof.
  intros Hi Ac. unfold ren. rewrite <- (map_id e) at 2. apply map_ext_in. intros [x d] K. cbn. unfold newName. now rewrite (inv_off _ _ _ Hi Ac x d K).
Qed.
Lemma visit_off d n st : active st = false -> visitNamed d n st = (n, st).
Proof. intros H. unfold visitNamed. now rewrite H. Qed.
Fixpoint visitParams (ps : list (nat * string)) (st : state) : list (nat * string) * state :=
  match ps with
  | [] => ([], st)
  | (e, m) :: ps => let r := visitNamed e m st in let q := visitParams ps (snd r) in ((e, fst r) :: fst q, snd q)
  end.
Lemma params_off ps st : active st = false -> visitParams ps st = (ps, st).
Proof. intros H. induction ps as [|[e m] ps IH]; [reflexivity|]. cbn [visitParams]. rewrite visit_off by exact H. cbn [fst snd]. now rewrite IH. Qed.
Definition itemIds (i : item) : list nat := map fst (declsItem i).
Lemma goodItem i ids0 e st : objectsItem i = true -> typedItem isType i = true -> Inv ids0 e st -> active st = false ->
  incl (namesItem i) ids0 -> NoDup (map snd e ++ itemIds i) -> (forall d, In d (itemIds i) -> assoc d (change st) = None) ->
  fst (refsItem i e) = map Some (usesItem i) ->
  let st' := snd (travItem i st) in
  Inv ids0 (snd (refsItem i e)) st' /\ active st' = false /\ (forall d, ~ In d (itemIds i) -> assoc d (change st) = None -> assoc d (change st') = None) /\
  (forall x d, In (x, d) (snd (refsItem i e)) -> In (x, d) e \/ In d (itemIds i)) /\
  refsItem (fst (travItem i st)) e = (map Some (usesItem i), snd (refsItem i e)).
Proof.
  intros Ob Ty Hi Ac Hn ND Hf Hr st'. subst st'. destruct i as [k d n sub|d n ps body].
  - cbn [objectsItem typedItem namesItem refsItem usesItem travItem fst snd] in *. change (itemIds (IDecl k d n sub)) with (d :: declIdsL sub) in *.
    apply andb_true_iff in Ty. destruct Ty as [_ Ty]. set (st1 := enterDecl k (noPend st)). assert (Ac1 : active st1 = false) by (destruct k; exact Ac).
    assert (C1 : forall y, assoc y (change st) = None -> assoc y (change st1) = None) by (intros y K; destruct k; auto).
    assert (Hi0 : Inv ids0 e st1) by (destruct Hi as [H1 H2 H3 H4 H5 H6 H7]; destruct k; split; auto; discriminate).
    assert (NE : NoDup (map snd ((n, d) :: e) ++ declIdsL sub)) by (cbn [map snd app]; apply (Permutation_NoDup (l := map snd e ++ d :: declIdsL sub)); [symmetry; apply Permutation_middle|exact ND]).
    assert (KE : forall x y, In (x, y) ((n, d) :: e) -> ~ In y (declIdsL sub)).
    { intros x y K. eapply NoDup_disj; [exact NE|]. change y with (snd (x, y)). now apply in_map. }
    assert (EO : forall x y, In (x, y) ((n, d) :: e) -> In x ids0 /\ assoc y (change st1) = None).
    { intros x y [E|K]; [injection E as <- <-; split; [apply Hn; now left|apply C1, Hf; now left]|]. split; [eapply (inv_env _ _ _ Hi); exact K|]. apply C1. exact (inv_off _ _ _ Hi Ac x y K). }
    assert (Hi1 : Inv ids0 ((n, d) :: e) st1) by (apply (Inv_more _ e); [exact Hi0|exact Ac1|exact EO|eapply (proj1 (NoDup_app3 [] _ _ NE))]).
    rewrite (visit_off d n st1 Ac1). cbn [fst snd].
    assert (Gs : Forall goodS sub) by (apply Forall_forall; intros x _; apply goodS_all).
    destruct (goodL_all sub Gs ids0 ((n, d) :: e) st1 Ob Ty Hi1 ltac:(intros x K; apply Hn; now right) NE ltac:(intros y K; apply C1, Hf; now right) Hr) as (B1 & B2 & B3 & B4).
    assert (Ac2 : active (snd (travs sub st1)) = false) by now rewrite travs_active'.
    assert (Hi2 : Inv ids0 ((n, d) :: e) (snd (travs sub st1))).
    { apply (Inv_more _ (snd (refsL sub ((n, d) :: e)))); [exact B1|exact Ac2| |exact (inv_uniq _ _ _ Hi1)]. intros x y K. rewrite B2; [now apply EO|eapply KE; exact K]. }
    split; [exact Hi2|]. split; [exact Ac2|]. split; [|split].
    + intros y K1 K2. rewrite B2; [now apply C1|]. intros K. apply K1. now right.
    + intros x y [E|K]; [injection E as <- <-; right; now left|now left].
    + rewrite (ren_off _ _ _ Hi1 Ac1) in B4. now rewrite B4.
  - cbn [objectsItem typedItem namesItem refsItem usesItem travItem fst snd] in *. set (st1 := mkSt false (active st) (ids st) []). assert (Ac1 : active st1 = false) by exact Ac.
    rewrite (visit_off d n st1 Ac1). cbn [fst snd]. fold visitParams. change ((fix go (ps0 : list (nat * string)) (st0 : state) {struct ps0} : list (nat * string) * state := match ps0 with | [] => ([], st0) | (e0, m) :: ps1 => (((e0, fst (visitNamed e0 m st0)) :: fst (go ps1 (snd (visitNamed e0 m st0)))), snd (go ps1 (snd (visitNamed e0 m st0)))) end) ps st1) with (visitParams ps st1).
    rewrite (params_off ps st1 Ac1). cbn [fst snd]. rewrite trav_scope. cbn [pend st1 andb]. cbn zeta. cbn [fst snd].
    change (itemIds (IFunc d n ps body)) with (d :: map fst (ps ++ flat_map decls body)) in *. rewrite map_app in *. change (map fst (flat_map decls body)) with (declIdsL body) in *.
    set (e1 := map (fun p => (snd p, fst p)) (rev ps) ++ (n, d) :: e) in *.
    apply andb_true_iff in Ty. destruct Ty as [_ Ty].
    assert (M1 : map snd (map (fun p : nat * string => (snd p, fst p)) (rev ps)) = rev (map fst ps)) by (rewrite map_map, <- map_rev; reflexivity).
    assert (NE : NoDup (map snd e1 ++ declIdsL body)).
    { unfold e1. rewrite map_app, M1. cbn [map snd]. apply (Permutation_NoDup (l := map snd e ++ d :: map fst ps ++ declIdsL body)); [|exact ND].
      rewrite <- Permutation_middle. rewrite <- (Permutation_middle (rev (map fst ps))). cbn [app]. constructor. rewrite <- !app_assoc. rewrite (Permutation_app_comm (map snd e)). rewrite <- app_assoc.
      apply Permutation_app; [apply Permutation_rev|]. apply Permutation_app_comm. }
    assert (U1 : NoDup (map snd e1)) by (eapply (proj1 (NoDup_app3 [] _ _ NE))).
    assert (EN : forall x y, In (x, y) e1 -> In x ids0).
    { intros x y K. unfold e1 in K. apply in_app_iff in K. destruct K as [K|[K|K]].
      - apply in_map_iff in K. destruct K as ([y' x'] & E & K). injection E as <- <-. apply Hn. right. apply in_or_app. left. apply in_rev in K. change x' with (snd (y', x')). now apply in_map.
      - injection K as <- <-. apply Hn. now left.
      - eapply (inv_env _ _ _ Hi); exact K. }
    assert (Hi1 : Inv ids0 e1 (noPend st1)) by (destruct Hi as [H1 H2 H3 H4 H5 H6 H7]; split; auto; try discriminate; exact EN).
    assert (Gs : Forall goodS body) by (apply Forall_forall; intros x _; apply goodS_all).
    destruct (goodL_all body Gs ids0 e1 (noPend st1) Ob Ty Hi1 ltac:(intros x K; apply Hn; right; apply in_or_app; now right) NE ltac:(reflexivity) Hr) as (B1 & B2 & B3 & B4).
    assert (KE : forall x y, In (x, y) ((n, d) :: e) -> ~ In y (declIdsL body)).
    { intros x y K. eapply NoDup_disj; [exact NE|]. change y with (snd (x, y)). apply in_map. unfold e1. apply in_or_app. now right. }
    split; [|split; [exact Ac|split; [|split]]].
    + apply (Inv_more _ (snd (refsL body e1))); [destruct B1 as [H1 H2 H3 H4 H5 H6 H7]; split; auto; intros _; apply H6; now rewrite travs_active'|exact Ac| |].
      * intros x y K. split; [apply (EN x y); unfold e1; apply in_or_app; now right|]. cbn [setActive change]. rewrite B2; [reflexivity|eapply KE; exact K].
      * unfold e1 in U1. rewrite map_app in U1. eapply NoDup_right; exact U1.
    + intros y K1 _. cbn [setActive change]. rewrite B2; [reflexivity|]. intros K. apply K1. right. apply in_or_app. now right.
    + intros x y [E|K]; [injection E as <- <-; right; now left|now left].
    + cbn [refsItem]. fold e1. rewrite (ren_off _ _ _ Hi1 Ac1) in B4. now rewrite B4.
Qed.
Lemma goodItems is : forall ids0 e st, forallb objectsItem is = true -> forallb (typedItem isType) is = true -> Inv ids0 e st -> active st = false ->
  incl (flat_map namesItem is) ids0 -> NoDup (map snd e ++ flat_map itemIds is) -> (forall d, In d (flat_map itemIds is) -> assoc d (change st) = None) ->
  refsItems is e = map Some (flat_map usesItem is) -> refsItems (fst (travItems is st)) e = map Some (flat_map usesItem is).
Proof.
  induction is as [|i is IH]; intros ids0 e st Ob Ty Hi Ac Hn ND Hf Hr; [reflexivity|]. cbn [forallb flat_map refsItems travItems fst] in *.
  apply andb_true_iff in Ob, Ty. destruct Ob as [Ob1 Ob2], Ty as [Ty1 Ty2]. rewrite map_app in Hr.
  apply app_split in Hr.
  2: { rewrite map_length. clear. assert (L : forall l e, List.length (fst (refsL l e)) = List.length (flat_map uses l)) by (induction l as [|x l IH]; intros e0; [reflexivity|]; cbn [refsL fst flat_map]; now rewrite !app_length, refs_len, IH). destruct i; cbn [refsItem usesItem fst]; apply L. }
  destruct Hr as [Hr1 Hr2]. destruct (NoDup_app3 _ _ _ ND) as [ND1 ND2].
  destruct (goodItem i ids0 e st Ob1 Ty1 Hi Ac ltac:(intros x K; apply Hn, in_or_app; now left) ND1 ltac:(intros d K; apply Hf, in_or_app; now left) Hr1) as (A1 & A2 & A3 & A4 & A5).
  rewrite A5. cbn [fst snd]. rewrite map_app. f_equal.
  apply (IH ids0); auto.
  - intros x K. apply Hn, in_or_app. now right.
  - assert (NL : NoDup (flat_map itemIds is)) by (rewrite app_assoc in ND; eapply NoDup_right; exact ND). pose proof (inv_uniq _ _ _ A1) as U.
    assert (DJ : forall d, In d (map snd (snd (refsItem i e))) -> ~ In d (flat_map itemIds is)).
    { intros d K K'. apply in_map_iff in K. destruct K as ([x d'] & E & K). cbn in E. subst d'. destruct (ND2 d K') as [X Y]. destruct (A4 x d K) as [K1|K1]; [apply X; change d with (snd (x, d)); now apply in_map|now apply Y]. }
    clear - U NL DJ. induction (map snd (snd (refsItem i e))) as [|y k IHk]; [exact NL|]. cbn. inversion U; subst. constructor.
    + intros K. apply in_app_iff in K. destruct K as [K|K]; [auto|]. apply (DJ y); [now left|exact K].
    + apply IHk; [assumption|]. intros d K. apply DJ. now right.
  - intros d K. apply A3; [now apply ND2|]. apply Hf, in_or_app. now right.
Qed.
End Inv.
