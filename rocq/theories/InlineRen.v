(** Renaming of parameters keeps results (C72). *)
From Coq Require Import List Bool Arith ZArith Lia.
From Verif Require Import InlineModel InlineSpec InlineSem.
Import ListNotations.

Section Ind.
Variable P : stmt -> Prop.
Hypothesis h1 : forall e, P (SExpr e).
Hypothesis h2 : forall ds, P (SDecl ds).
Hypothesis h3 : forall e s1 s2, P s1 -> P s2 -> P (SIf e s1 s2).
Hypothesis h4 : forall c i s, P s -> P (SLoop c i s).
Hypothesis h5 : forall init c i s, P init -> P s -> P (SFor init c i s).
Hypothesis h6 : forall b l, Forall P b -> P (SBlock b l).
Hypothesis h7 : forall o, P (SReturn o).
Hypothesis h8 : forall l, P (SGoto l).
Fixpoint stmt_ind2 (s : stmt) : P s :=
  match s with
  | SExpr e => h1 e
  | SDecl ds => h2 ds
  | SIf e s1 s2 => h3 e s1 s2 (stmt_ind2 s1) (stmt_ind2 s2)
  | SLoop c i s => h4 c i s (stmt_ind2 s)
  | SFor init c i s => h5 init c i s (stmt_ind2 init) (stmt_ind2 s)
  | SBlock b l => h6 b l ((fix go (b : list stmt) : Forall P b := match b with [] => Forall_nil P | s :: b => Forall_cons s (stmt_ind2 s) (go b) end) b)
  | SReturn o => h7 o
  | SGoto l => h8 l
  end.
End Ind.

Lemma mem_iff x l : mem x l = true <-> In x l.
Proof. unfold mem. rewrite existsb_exists. split; [intros (y & H & E); apply Nat.eqb_eq in E; now subst|intro H; exists x; split; [exact H|apply Nat.eqb_refl]]. Qed.
Lemma remove_iff xs l x : In x (remove xs l) <-> In x l /\ ~ In x xs.
Proof.
  unfold remove. rewrite filter_In, negb_true_iff, <- not_true_iff_false, mem_iff. tauto.
Qed.
Lemma freeS_block b l : freeS (SBlock b l) = freeL b.
Proof. reflexivity. Qed.
Lemma lookup_some l x v : lookup l x = Some v -> In x (dom l).
Proof. induction l as [|[y w] l IH]; cbn; [discriminate|]. destruct (x =? y) eqn:E; [apply Nat.eqb_eq in E; now left|]. intro H. right. now apply IH. Qed.
Lemma lookup_none l x : lookup l x = None <-> ~ In x (dom l).
Proof.
  induction l as [|[y w] l IH]; cbn; [tauto|]. destruct (x =? y) eqn:E; [apply Nat.eqb_eq in E; subst; split; [discriminate|intros []; now left]|].
  apply Nat.eqb_neq in E. rewrite IH. unfold dom. split; [intros H [F|F]; [now apply E|now apply H]|intros H F; apply H; now right].
Qed.

(** Free names of renamed programs *)
Section Names.
Variable r : nat -> nat.
Lemma renE_free e x : In x (freeE (renE r e)) -> exists y, In y (freeE e) /\ x = r y.
Proof.
  induction e as [z|y|w o a IHa b IHb|k a IHa b IHb|c IHc a IHa b IHb|y a IHa|m f a IHa b IHb]; cbn [renE freeE].
  - intros [].
  - intros [<-|[]]. exists y. split; [now left|reflexivity].
  - rewrite in_app_iff. intros [H|H]; [destruct (IHa H) as (y & F & E)|destruct (IHb H) as (y & F & E)]; exists y; rewrite in_app_iff; tauto.
  - rewrite in_app_iff. intros [H|H]; [destruct (IHa H) as (y & F & E)|destruct (IHb H) as (y & F & E)]; exists y; rewrite in_app_iff; tauto.
  - rewrite !in_app_iff. intros [H|[H|H]]; [destruct (IHc H) as (y & F & E)|destruct (IHa H) as (y & F & E)|destruct (IHb H) as (y & F & E)]; exists y; rewrite !in_app_iff; tauto.
  - intros [<-|H]; [exists y; split; [now left|reflexivity]|]. destruct (IHa H) as (z & F & E). exists z. split; [now right|exact E].
  - rewrite in_app_iff. intros [H|H]; [destruct (IHa H) as (y & F & E)|destruct (IHb H) as (y & F & E)]; exists y; rewrite in_app_iff; tauto.
Qed.
Lemma renO_free o x : In x (freeO (option_map (renE r) o)) -> exists y, In y (freeO o) /\ x = r y.
Proof. destruct o as [e|]; [apply renE_free|intros []]. Qed.
Lemma renS_decl s : declS (renS r s) = declS s.
Proof. destruct s; try reflexivity. cbn [renS declS]. rewrite map_map. apply map_ext. reflexivity. Qed.
Lemma renS_declared s : declaredS (renS r s) = declaredS s.
Proof.
  induction s as [e|ds|e s1 s2 I1 I2|c i s IH|init c i s I1 IH|b l IH|o|l] using stmt_ind2; cbn [renS declaredS]; try reflexivity.
  - rewrite map_map. apply map_ext. reflexivity.
  - now rewrite I1, I2.
  - exact IH.
  - now rewrite I1, IH.
  - induction IH as [|s b E _ IHb]; cbn [map flat_map]; [reflexivity|]. now rewrite E, IHb.
Qed.
Lemma renL_declared b : flat_map declaredS (map (renS r) b) = flat_map declaredS b.
Proof. induction b as [|s b IH]; cbn [map flat_map]; [reflexivity|]. now rewrite renS_declared, IH. Qed.
Lemma remove_ren (xs l l1 : list nat) : (forall x, In x xs -> r x = x) ->
  (forall x, In x l1 -> exists y, In y l /\ x = r y) -> forall x, In x (remove xs l1) -> exists y, In y (remove xs l) /\ x = r y.
Proof.
  intros K H x F. apply remove_iff in F. destruct F as (F & NI). destruct (H x F) as (y & Y & ->). exists y. split; [|reflexivity].
  apply remove_iff. split; [exact Y|]. intro D. apply NI. now rewrite (K y D).
Qed.
Lemma renDs_free ds : (forall x, In x (map fst ds) -> r x = x) -> forall x, In x (freeDs (map (renD r) ds)) -> exists y, In y (freeDs ds) /\ x = r y.
Proof.
  induction ds as [|[y o] ds IH]; intros K x H; [destruct H|]. cbn [map renD fst snd freeDs] in *. rewrite in_app_iff in H. destruct H as [H|H].
  - destruct (renO_free o x H) as (z & F & E). exists z. rewrite in_app_iff. tauto.
  - apply (remove_ren [y] (freeDs ds)) in H.
    + destruct H as (z & F & E). exists z. rewrite in_app_iff. tauto.
    + intros z [<-|[]]. apply K. now left.
    + apply IH. intros z F. apply K. now right.
Qed.
Lemma declS_declared s x : In x (declS s) -> In x (declaredS s).
Proof. destruct s; cbn [declS declaredS]; first [tauto | intros []]. Qed.
Lemma renL_free1 b : Forall (fun s => (forall x, In x (declaredS s) -> r x = x) -> forall x, In x (freeS (renS r s)) -> exists y, In y (freeS s) /\ x = r y) b ->
  (forall x, In x (flat_map declaredS b) -> r x = x) -> forall x, In x (freeL (map (renS r) b)) -> exists y, In y (freeL b) /\ x = r y.
Proof.
  induction 1 as [|s b H _ IH]; intros K x F; [destruct F|]. cbn [map freeL flat_map] in *. rewrite in_app_iff in F. destruct F as [F|F].
  - apply H in F; [|intros y Y; apply K; rewrite in_app_iff; tauto]. destruct F as (y & Y & E). exists y. rewrite in_app_iff. tauto.
  - rewrite renS_decl in F. apply (remove_ren (declS s) (freeL b)) in F.
    + destruct F as (y & Y & E). exists y. rewrite in_app_iff. tauto.
    + intros y Y. apply K. rewrite in_app_iff. left. now apply declS_declared.
    + apply IH. intros y Y. apply K. rewrite in_app_iff. tauto.
Qed.
Lemma renS_free s : (forall x, In x (declaredS s) -> r x = x) -> forall x, In x (freeS (renS r s)) -> exists y, In y (freeS s) /\ x = r y.
Proof.
  induction s as [e|ds|e s1 s2 I1 I2|c i s IH|init c i s I1 IH|b l IH|o|l] using stmt_ind2; cbn [renS declaredS]; intros K x H.
  - cbn [freeS] in *. now apply renE_free.
  - cbn [freeS] in *. now apply renDs_free.
  - cbn [freeS] in *. rewrite !in_app_iff in H. destruct H as [H|[H|H]].
    + destruct (renE_free e x H) as (y & Y & E). exists y. rewrite in_app_iff. tauto.
    + apply I1 in H; [|intros y Y; apply K; rewrite in_app_iff; tauto]. destruct H as (y & Y & E). exists y. rewrite !in_app_iff. tauto.
    + apply I2 in H; [|intros y Y; apply K; rewrite in_app_iff; tauto]. destruct H as (y & Y & E). exists y. rewrite !in_app_iff. tauto.
  - cbn [freeS] in *. rewrite !in_app_iff in H. destruct H as [H|[H|H]].
    + destruct (renE_free c x H) as (y & Y & E). exists y. rewrite in_app_iff. tauto.
    + destruct (renE_free i x H) as (y & Y & E). exists y. rewrite !in_app_iff. tauto.
    + apply IH in H; [|exact K]. destruct H as (y & Y & E). exists y. rewrite !in_app_iff. tauto.
  - cbn [freeS] in *. rewrite in_app_iff in H. destruct H as [H|H].
    + apply I1 in H; [|intros y Y; apply K; rewrite in_app_iff; tauto]. destruct H as (y & Y & E). exists y. rewrite !in_app_iff. tauto.
    + rewrite renS_decl in H. apply (remove_ren (declS init) (freeE c ++ freeE i ++ freeS s)) in H.
      * destruct H as (y & Y & E). exists y. rewrite in_app_iff. tauto.
      * intros y Y. apply K. rewrite in_app_iff. left. now apply declS_declared.
      * intros z Z. rewrite !in_app_iff in Z. destruct Z as [Z|[Z|Z]].
        -- destruct (renE_free c z Z) as (y & Y & E). exists y. rewrite !in_app_iff. tauto.
        -- destruct (renE_free i z Z) as (y & Y & E). exists y. rewrite !in_app_iff. tauto.
        -- apply IH in Z; [|intros y Y; apply K; rewrite in_app_iff; tauto]. destruct Z as (y & Y & E). exists y. rewrite !in_app_iff. tauto.
  - rewrite freeS_block in *. now apply (renL_free1 b IH).
  - cbn [freeS] in *. now apply renO_free.
  - destruct H.
Qed.
Lemma renL_free b : (forall x, In x (flat_map declaredS b) -> r x = x) -> forall x, In x (freeL (map (renS r) b)) -> exists y, In y (freeL b) /\ x = r y.
Proof. apply renL_free1. apply Forall_forall. intros s _. apply renS_free. Qed.
End Names.

(** ** Executions of renamed programs *)
Section Exec.
Variable opf : nat -> Z -> Z -> Z.
Variables N P Q p q : nat.
Hypothesis PN : P < N.
Hypothesis QN : Q < N.
Hypothesis PQ : P <> Q.
Hypothesis pN : N <= p.
Hypothesis qN : N <= q.
Hypothesis pq : p <> q.
Let r (x : nat) : nat := if x =? P then p else if x =? Q then q else x.
Definition renL (l : locals) : locals := map (fun d => (r (fst d), snd d)) l.
Lemma r_inj x y : x < N -> y < N -> r x = r y -> x = y.
Proof.
  unfold r. intros X Y. destruct (x =? P) eqn:E1; destruct (y =? P) eqn:E2; destruct (x =? Q) eqn:E3; destruct (y =? Q) eqn:E4;
    rewrite ?Nat.eqb_eq, ?Nat.eqb_neq in *; lia.
Qed.
Lemma r_eqb x y : x < N -> y < N -> (r x =? r y) = (x =? y).
Proof.
  intros X Y. destruct (x =? y) eqn:E; [apply Nat.eqb_eq in E; subst; apply Nat.eqb_refl|]. apply Nat.eqb_neq in E. apply Nat.eqb_neq. intro F.
  apply E. now apply r_inj.
Qed.
Lemma r_id x : x <> P -> x <> Q -> r x = x.
Proof. intros X Y. unfold r. apply Nat.eqb_neq in X. apply Nat.eqb_neq in Y. now rewrite X, Y. Qed.
Definition frameOk (l : locals) : Prop := In P (dom l) /\ In Q (dom l) /\ forall x, In x (dom l) -> x < N.
Lemma ren_lookup l x : (forall y, In y (dom l) -> y < N) -> x < N -> lookup (renL l) (r x) = lookup l x.
Proof.
  intros D X. induction l as [|[y v] l IH]; [reflexivity|]. cbn [renL map lookup fst snd]. rewrite r_eqb; [|exact X|apply D; now left].
  destruct (x =? y); [reflexivity|]. apply IH. intros z Z. apply D. now right.
Qed.
Lemma ren_update l x v : (forall y, In y (dom l) -> y < N) -> x < N -> update (renL l) (r x) v = option_map renL (update l x v).
Proof.
  intros D X. induction l as [|[y w] l IH]; [reflexivity|]. cbn [renL map update fst snd]. rewrite r_eqb; [|exact X|apply D; now left].
  destruct (x =? y); [reflexivity|]. change (map (fun d : nat * Z => (r (fst d), snd d)) l) with (renL l). rewrite IH by (intros z Z; apply D; now right).
  destruct (update l x v); reflexivity.
Qed.
Lemma ren_look g l x : frameOk l -> x < N -> look g (renL l) (r x) = look g l x.
Proof.
  intros (IP & IQ & D) X. unfold look. rewrite ren_lookup by assumption. destruct (lookup l x) eqn:E; [reflexivity|]. apply lookup_none in E.
  rewrite r_id; [reflexivity|intros ->; now apply E|intros ->; now apply E].
Qed.
Lemma ren_assign g l x v : frameOk l -> x < N -> assignG g (renL l) (r x) v = assignG g l x v /\ assignL (renL l) (r x) v = renL (assignL l x v).
Proof.
  intros (IP & IQ & D) X. unfold assignG, assignL. rewrite ren_update by assumption. destruct (update l x v) eqn:E; cbn [option_map]; [now split|]. apply update_none in E.
  rewrite r_id; [now split|intros ->; now apply E|intros ->; now apply E].
Qed.
Lemma frameOk_dom l l2 : dom l2 = dom l -> frameOk l -> frameOk l2.
Proof. unfold frameOk. intros ->. tauto. Qed.

Section C.
Variable C : nat -> Z -> Z -> globals -> Z -> globals -> Prop.
Lemma ren_const e z : EConst z = renE r e -> e = EConst z.
Proof. destruct e; cbn; intro E; try discriminate. now injection E as <-. Qed.
Ltac rc := repeat match goal with
  | X : EConst _ = renE r _ |- _ => apply ren_const in X; subst
  | X : renE r _ = EConst _ |- _ => symmetry in X; apply ren_const in X; subst
  end.
Lemma ren_step e : forall g l g2 l2 e2, frameOk l -> (forall x, In x (freeE e) -> x < N) -> step opf C g (renL l) (renE r e) g2 l2 e2 ->
  exists l1 e1, step opf C g l e g2 l1 e1 /\ l2 = renL l1 /\ e2 = renE r e1 /\ (forall x, In x (freeE e1) -> In x (freeE e)).
Proof.
  induction e as [z|x|w o a IHa b IHb|k a IHa b IHb|c IHc a IHa b IHb|x a IHa|m f a IHa b IHb]; intros g l g2 l2 e2 F K H; cbn [renE freeE] in *.
  - inversion H.
  - inversion H; subst. eexists l, _. split; [constructor|]. split; [reflexivity|].
    split; [cbn [renE]; f_equal; apply ren_look; [exact F|apply K; now left]|intros y []].
  - assert (Ka : forall x, In x (freeE a) -> x < N) by (intros x X; apply K; rewrite in_app_iff; tauto).
    assert (Kb : forall x, In x (freeE b) -> x < N) by (intros x X; apply K; rewrite in_app_iff; tauto).
    inversion H; subst; rc.
    + eexists l, _. split; [constructor|]. split; [reflexivity|]. split; [reflexivity|intros y []].
    + match goal with S1 : step _ _ _ _ _ _ _ _ |- _ => destruct (IHa _ _ _ _ _ F Ka S1) as (l1 & e1 & S2 & -> & -> & FR) end.
      exists l1, (EBin w o e1 b). split; [now constructor|]. split; [reflexivity|].
      split; [reflexivity|]. intros x. cbn [freeE]. rewrite !in_app_iff. intros [X|X]; [left; now apply FR|now right].
    + match goal with S1 : step _ _ _ _ _ _ _ _ |- _ => destruct (IHb _ _ _ _ _ F Kb S1) as (l1 & e1 & S2 & -> & -> & FR) end.
      exists l1, (EBin w o a e1). split; [now constructor|]. split; [reflexivity|].
      split; [reflexivity|]. intros x. cbn [freeE]. rewrite !in_app_iff. intros [X|X]; [now left|right; now apply FR].
  - assert (Ka : forall x, In x (freeE a) -> x < N) by (intros x X; apply K; rewrite in_app_iff; tauto).
    inversion H; subst; rc.
    + eexists l, (seqNext k _ b). split; [constructor|]. split; [reflexivity|].
      split; [destruct k; cbn [seqNext]; try match goal with |- context [Z.eqb ?a 0] => destruct (Z.eqb a 0) end; reflexivity|].
      intros x X. cbn [app freeE]. destruct k; cbn [seqNext] in X; try match goal with _ : context [Z.eqb ?a 0] |- _ => destruct (Z.eqb a 0) end; first [exact X | destruct X].
    + match goal with S1 : step _ _ _ _ _ _ _ _ |- _ => destruct (IHa _ _ _ _ _ F Ka S1) as (l1 & e1 & S2 & -> & -> & FR) end.
      exists l1, (ESeq k e1 b). split; [now constructor|]. split; [reflexivity|].
      split; [reflexivity|]. intros x. cbn [freeE]. rewrite !in_app_iff. intros [X|X]; [left; now apply FR|now right].
  - assert (Kc : forall x, In x (freeE c) -> x < N) by (intros x X; apply K; rewrite in_app_iff; tauto).
    inversion H; subst; rc.
    + eexists l, (if Z.eqb _ 0 then b else a). split; [constructor|]. split; [reflexivity|].
      split; [match goal with |- context [Z.eqb ?a 0] => destruct (Z.eqb a 0) end; reflexivity|]. intros x X. cbn [app freeE]. rewrite !in_app_iff.
      match goal with _ : context [Z.eqb ?a 0] |- _ => destruct (Z.eqb a 0) end; tauto.
    + match goal with S1 : step _ _ _ _ _ _ _ _ |- _ => destruct (IHc _ _ _ _ _ F Kc S1) as (l1 & e1 & S2 & -> & -> & FR) end.
      exists l1, (ECond e1 a b). split; [now constructor|]. split; [reflexivity|].
      split; [reflexivity|]. intros x. cbn [freeE]. rewrite !in_app_iff. intros [X|X]; [left; now apply FR|now right].
  - assert (Ka : forall x, In x (freeE a) -> x < N) by (intros y X; apply K; now right).
    inversion H; subst; rc.
    + match goal with |- context [assignL (renL l) (r x) ?a1] => destruct (ren_assign g l x a1 F (K x (or_introl eq_refl))) as (-> & ->) end.
      eexists _, _. split; [constructor|]. split; [reflexivity|]. split; [reflexivity|intros y []].
    + match goal with S1 : step _ _ _ _ _ _ _ _ |- _ => destruct (IHa _ _ _ _ _ F Ka S1) as (l1 & e1 & S2 & -> & -> & FR) end.
      exists l1, (EAssign x e1). split; [now constructor|]. split; [reflexivity|].
      split; [reflexivity|]. intros y. cbn [freeE In]. intros [X|X]; [now left|right; now apply FR].
  - assert (Ka : forall x, In x (freeE a) -> x < N) by (intros x X; apply K; rewrite in_app_iff; tauto).
    assert (Kb : forall x, In x (freeE b) -> x < N) by (intros x X; apply K; rewrite in_app_iff; tauto).
    inversion H; subst; rc.
    + eexists l, (EConst _). split; [constructor; eassumption|]. split; [reflexivity|]. split; [reflexivity|intros y []].
    + match goal with S1 : step _ _ _ _ _ _ _ _ |- _ => destruct (IHa _ _ _ _ _ F Ka S1) as (l1 & e1 & S2 & -> & -> & FR) end.
      exists l1, (ECall m f e1 b). split; [now constructor|]. split; [reflexivity|].
      split; [reflexivity|]. intros x. cbn [freeE]. rewrite !in_app_iff. intros [X|X]; [left; now apply FR|now right].
    + match goal with S1 : step _ _ _ _ _ _ _ _ |- _ => destruct (IHb _ _ _ _ _ F Kb S1) as (l1 & e1 & S2 & -> & -> & FR) end.
      exists l1, (ECall m f a e1). split; [now constructor|]. split; [reflexivity|].
      split; [reflexivity|]. intros x. cbn [freeE]. rewrite !in_app_iff. intros [X|X]; [now left|right; now apply FR].
Qed.
Lemma ren_steps g l1 e1 g2 l2 e2 : steps opf C g l1 e1 g2 l2 e2 -> forall l e, l1 = renL l -> e1 = renE r e -> frameOk l -> (forall x, In x (freeE e) -> x < N) ->
  exists l3 e3, steps opf C g l e g2 l3 e3 /\ l2 = renL l3 /\ e2 = renE r e3.
Proof.
  induction 1 as [g l1 e1|g l1 e1 g3 l3 e3 g2 l2 e2 S1 S2 IH]; intros l e El Ee F K.
  - exists l, e. split; [constructor|now split].
  - subst l1 e1. destruct (ren_step _ _ _ _ _ _ F K S1) as (l4 & e4 & S3 & El & Ee & FR).
    destruct (IH l4 e4 El Ee (frameOk_dom _ _ (step_dom _ _ _ _ _ _ _ _ S3) F) (fun x X => K x (FR x X))) as (l5 & e5 & S4 & El5 & Ee5).
    exists l5, e5. split; [econstructor; eassumption|now split].
Qed.
Lemma ren_eval g l e v g2 l2 : frameOk l -> (forall x, In x (freeE e) -> x < N) -> eval opf C g (renL l) (renE r e) v g2 l2 ->
  exists l3, eval opf C g l e v g2 l3 /\ l2 = renL l3 /\ frameOk l3.
Proof.
  intros F K H. destruct (ren_steps _ _ _ _ _ _ H l e eq_refl eq_refl F K) as (l3 & e3 & S1 & El & Ee). apply ren_const in Ee. subst e3.
  exists l3. split; [exact S1|]. split; [exact El|]. exact (frameOk_dom _ _ (steps_dom _ _ _ _ _ _ _ _ S1) F).
Qed.
Lemma ren_evalO g l o v g2 l2 : frameOk l -> (forall x, In x (freeO o) -> x < N) -> evalO opf C g (renL l) (option_map (renE r) o) v g2 l2 ->
  exists l3, evalO opf C g l o v g2 l3 /\ l2 = renL l3 /\ frameOk l3.
Proof.
  intros F K H. destruct o as [e|]; [now apply ren_eval|]. destruct H as (-> & ->). exists l. split; [now split|]. now split.
Qed.
End C.

Variable ext : nat -> Z -> Z -> globals -> Z * globals.
Variable fn : nat -> option func.
Definition nmOk (b : list stmt) : Prop :=
  (forall x, In x (freeL b) -> x < N) /\ (forall x, In x (flat_map declaredS b) -> x < N /\ x <> P /\ x <> Q).
Lemma nmOk_tail s b : nmOk (s :: b) -> nmOk b.
Proof.
  intros (F & D). split; cbn [freeL flat_map] in *.
  - intros x X. destruct (in_dec Nat.eq_dec x (declS s)) as [I|NI].
    + apply D. rewrite in_app_iff. left. now apply declS_declared.
    + apply F. rewrite in_app_iff, remove_iff. tauto.
  - intros x X. apply D. rewrite in_app_iff. now right.
Qed.
Lemma nmOk_head s b : nmOk (s :: b) -> nmOk [s].
Proof.
  intros (F & D). split; cbn [freeL flat_map] in *; intros x; rewrite app_nil_r.
  - intro X. apply F. rewrite in_app_iff. now left.
  - intro X. apply D. rewrite in_app_iff. now left.
Qed.
Lemma renL_tl l : renL (tl l) = tl (renL l).
Proof. now destruct l. Qed.
Lemma ren_exec n : forall b g l o g2 l2, frameOk l -> nmOk b -> execN opf ext fn n (map (renS r) b) g (renL l) o g2 l2 ->
  exists l3, execN opf ext fn n b g l o g2 l3 /\ l2 = renL l3.
Proof.
  induction n as [|n IH]; intros b g l o g2 l2 F K H; [destruct H|].
  assert (NX : forall b o1 g1 l1, frameOk l1 -> nmOk b -> next opf ext fn n o g2 l2 (map (renS r) b) o1 g1 (renL l1) ->
    exists l3, next opf ext fn n o g2 l3 b o1 g1 l1 /\ l2 = renL l3).
  { intros b0 o1 g1 l1 F1 K1 X. destruct o1; cbn [next] in *; [now apply IH| |]; destruct X as (-> & -> & ->); exists l1; now repeat split. }
  assert (FD : forall b g l o g2 l2, execN opf ext fn n b g l o g2 l2 -> frameOk l -> frameOk l2).
  { intros b0 g0 l0 o0 g3 l3 X. apply frameOk_dom. exact (execN_dom _ _ _ _ _ _ _ _ _ _ X). }
  pose proof (nmOk_tail) as KT. pose proof nmOk_head as KH.
  destruct b as [|[e|[|[x i] ds]|e s1 s2|c i s|init c i s|b1 lab|i|x] b]; cbn [map renS renD fst snd] in H; rewrite execN_S in H.
  - destruct H as (-> & -> & ->). exists l. rewrite execN_S. now repeat split.
  - destruct H as (v & g1 & l1 & E & H). apply ren_eval in E; [|exact F|intros x X; apply (proj1 K); cbn [freeL freeS]; rewrite in_app_iff; tauto].
    destruct E as (l3 & E & -> & F3). destruct (IH _ _ _ _ _ _ F3 (KT _ _ K) H) as (l4 & H4 & El). exists l4. rewrite execN_S. split; [|exact El]. exists v, g1, l3. now split.
  - destruct (IH _ _ _ _ _ _ F (KT _ _ K) H) as (l4 & H4 & El). exists l4. rewrite execN_S. now split.
  - destruct H as (v & g1 & l1 & l3 & E & H & T). destruct (proj2 K x) as (XN & XP & XQ); [cbn [flat_map declaredS map fst]; now left|].
    apply ren_evalO in E; [|exact F|intros y X; apply (proj1 K); cbn [freeL freeS freeDs]; rewrite !in_app_iff; tauto].
    destruct E as (l4 & E & -> & F4). cbn [fst] in H.
    assert (EQ : (x, v) :: renL l4 = renL ((x, v) :: l4)) by (cbn [renL map fst snd]; now rewrite r_id). rewrite EQ in H.
    change (SDecl (map (renD r) ds) :: map (renS r) b) with (map (renS r) (SDecl ds :: b)) in H.
    apply IH in H.
    + destruct H as (l5 & H5 & ->). exists (tl l5). rewrite execN_S. split; [|rewrite renL_tl; exact T]. exists v, g1, l4, l5. now repeat split.
    + destruct F4 as (A & B & D). split; [now right|]. split; [now right|]. intros y [<-|Y]; [exact XN|now apply D].
    + destruct K as (KF & KD). cbn [freeL freeS freeDs declS map fst flat_map declaredS] in *. split.
      * intros y Y. destruct (Nat.eq_dec y x) as [->|NE]; [exact XN|]. apply KF. cbn [freeL freeS declS] in Y. rewrite in_app_iff, remove_iff in Y. rewrite !in_app_iff, !remove_iff. cbn [In].
        destruct Y as [Y|(Y & D)]; [left; right; split; [exact Y|intros [Z|[]]; congruence]|right]. split; [exact Y|]. intros [Z|Z]; [congruence|now apply D].
      * intros y Y. apply KD. now right.
  - destruct H as (v & g1 & l1 & o1 & g3 & l3 & E & H & T). apply ren_eval in E; [|exact F|intros x X; apply (proj1 K); cbn [freeL freeS]; rewrite !in_app_iff; tauto].
    destruct E as (l4 & E & -> & F4). assert (H1 : execN opf ext fn n (map (renS r) [if Z.eqb v 0 then s2 else s1]) g1 (renL l4) o1 g3 l3).
    { cbn [map]. now destruct (Z.eqb v 0). }
    apply IH in H1; [|exact F4|].
    + destruct H1 as (l5 & H5 & ->). apply NX in T; [|exact (FD _ _ _ _ _ _ H5 F4)|exact (KT _ _ K)]. destruct T as (l6 & T & El). exists l6. rewrite execN_S. split; [|exact El].
      exists v, g1, l4, o1, g3, l5. now repeat split.
    + apply KH in K. destruct K as (KF & KD). cbn [freeL freeS flat_map declaredS] in *. rewrite !app_nil_r in *. split.
      * intros y Y. apply KF. cbn [freeL remove filter] in Y. rewrite app_nil_r in Y. rewrite !in_app_iff. destruct (Z.eqb v 0); tauto.
      * intros y Y. apply KD. cbn [flat_map] in Y. rewrite app_nil_r in Y. rewrite !in_app_iff. destruct (Z.eqb v 0); tauto.
  - destruct H as (v & g1 & l1 & E & H). apply ren_eval in E; [|exact F|intros x X; apply (proj1 K); cbn [freeL freeS]; rewrite !in_app_iff; tauto].
    destruct E as (l4 & E & -> & F4). destruct (Z.eqb v 0) eqn:V.
    + destruct (IH _ _ _ _ _ _ F4 (KT _ _ K) H) as (l5 & H5 & El). exists l5. rewrite execN_S. split; [|exact El]. exists v, g1, l4. rewrite V. now split.
    + destruct H as (o1 & g3 & l3 & H & T). change [renS r s] with (map (renS r) [s]) in H. apply IH in H; [|exact F4|].
      * destruct H as (l5 & H5 & ->). change (SExpr (renE r i) :: SLoop (renE r c) (renE r i) (renS r s) :: map (renS r) b) with (map (renS r) (SExpr i :: SLoop c i s :: b)) in T.
        apply NX in T; [|exact (FD _ _ _ _ _ _ H5 F4)|].
        -- destruct T as (l6 & T & El). exists l6. rewrite execN_S. split; [|exact El]. exists v, g1, l4. rewrite V. split; [exact E|]. exists o1, g3, l5. now split.
        -- destruct K as (KF & KD). split; [|exact KD]. intros y Y. cbn [freeL freeS declS] in *. rewrite in_app_iff in Y. rewrite remove_iff in Y.
           destruct Y as [Y|(Y & _)]; apply KF; [rewrite !in_app_iff; tauto|exact Y].
      * apply KH in K. destruct K as (KF & KD). split; [|exact KD]. intros y Y. apply KF. cbn [freeL freeS] in *. rewrite app_nil_r in *. rewrite !in_app_iff in *. cbn [remove filter In] in Y. tauto.
  - destruct H as (o1 & g1 & l1 & H & T). change [renS r init; SLoop (renE r c) (renE r i) (renS r s)] with (map (renS r) [init; SLoop c i s]) in H. apply IH in H; [|exact F|].
    + destruct H as (l5 & H5 & ->). apply NX in T; [|exact (FD _ _ _ _ _ _ H5 F)|exact (KT _ _ K)]. destruct T as (l6 & T & El). exists l6. rewrite execN_S. split; [|exact El].
      exists o1, g1, l5. now split.
    + apply KH in K. destruct K as (KF & KD). split; [|intros y Y; apply KD; cbn [flat_map declaredS] in *; rewrite !app_nil_r in *; exact Y].
      intros y Y. apply KF. cbn [freeL freeS declS remove filter] in *. rewrite !app_nil_r in *. exact Y.
  - destruct H as (o1 & g1 & l1 & H & T). apply IH in H; [|exact F|].
    + destruct H as (l5 & H5 & ->). apply NX in T; [|exact (FD _ _ _ _ _ _ H5 F)|exact (KT _ _ K)]. destruct T as (l6 & T & El). exists l6. rewrite execN_S. split; [|exact El].
      exists o1, g1, l5. now split.
    + apply KH in K. destruct K as (KF & KD). split.
      * intros y Y. apply KF. cbn [freeL]. rewrite freeS_block, app_nil_r. exact Y.
      * intros y Y. apply KD. cbn [flat_map declaredS]. rewrite app_nil_r. exact Y.
  - destruct H as (v & E & ->). apply ren_evalO in E; [|exact F|intros y X; apply (proj1 K); cbn [freeL freeS]; rewrite !in_app_iff; tauto].
    destruct E as (l4 & E & -> & F4). exists l4. rewrite execN_S. split; [|reflexivity]. exists v. now split.
  - destruct H as (-> & -> & ->). exists l. rewrite execN_S. now repeat split.
Qed.
End Exec.
