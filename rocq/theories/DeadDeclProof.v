(** Proofs about the elimination of dead declarations. *)
From Coq Require Import List Bool Arith ZArith Lia.
From Verif Require Import DeadDeclModel DeadDeclSpec.
Import ListNotations.
Local Open Scope nat_scope.

Section ExprInd.
Variable P : expr -> Prop.
Hypothesis HLit : forall z, P (ELit z).
Hypothesis HRef : forall d, P (ERef d).
Hypothesis HConst : forall t z, P (EConst t z).
Hypothesis HAddr : forall d, P (EAddr d).
Hypothesis HDeref : forall e, P e -> P (EDeref e).
Hypothesis HOp : forall o l, Forall P l -> P (EOp o l).
Hypothesis HAssign : forall a l r, P l -> P r -> P (EAssign a l r).
Hypothesis HCompound : forall o l r, P l -> P r -> P (ECompound o l r).
Hypothesis HInc : forall o l, P l -> P (EInc o l).
Hypothesis HCall : forall f l, Forall P l -> P (ECall f l).
Fixpoint expr_ind2 (e : expr) : P e :=
  let all := fix all (l : list expr) : Forall P l :=
    match l with [] => Forall_nil _ | e :: l => Forall_cons _ (expr_ind2 e) (all l) end in
  match e with
  | ELit z => HLit z
  | ERef d => HRef d
  | EConst t z => HConst t z
  | EAddr d => HAddr d
  | EDeref e => HDeref e (expr_ind2 e)
  | EOp o l => HOp o l (all l)
  | EAssign a l r => HAssign a l r (expr_ind2 l) (expr_ind2 r)
  | ECompound o l r => HCompound o l r (expr_ind2 l) (expr_ind2 r)
  | EInc o l => HInc o l (expr_ind2 l)
  | ECall f l => HCall f l (all l)
  end.
End ExprInd.
Section StmtInd.
Variable P : stmt -> Prop.
Hypothesis HExpr : forall e, P (SExpr e).
Hypothesis HDecl : forall ds, P (SDecl ds).
Hypothesis HBlock : forall m l, Forall P l -> P (SBlock m l).
Hypothesis HIf : forall e s1 s2, P s1 -> P s2 -> P (SIf e s1 s2).
Hypothesis HWhile : forall e s, P s -> P (SWhile e s).
Hypothesis HFor : forall m i c p b, P i -> P p -> P b -> P (SFor m i c p b).
Hypothesis HRet : forall e, P (SRet e).
Hypothesis HBreak : P SBreak.
Hypothesis HNull : P SNull.
Fixpoint stmt_ind2 (s : stmt) : P s :=
  let all := fix all (l : list stmt) : Forall P l :=
    match l with [] => Forall_nil _ | s :: l => Forall_cons _ (stmt_ind2 s) (all l) end in
  match s with
  | SExpr e => HExpr e
  | SDecl ds => HDecl ds
  | SBlock m l => HBlock m l (all l)
  | SIf e s1 s2 => HIf e s1 s2 (stmt_ind2 s1) (stmt_ind2 s2)
  | SWhile e s => HWhile e s (stmt_ind2 s)
  | SFor m i c p b => HFor m i c p b (stmt_ind2 i) (stmt_ind2 p) (stmt_ind2 b)
  | SRet e => HRet e
  | SBreak => HBreak
  | SNull => HNull
  end.
End StmtInd.

(** * The visitor as a sequence of steps *)
Inductive ev := VDecl (e : entry) | VUse (d : nat) | VConst (t : nat) | VAssign (d a : nat) | VNum (a : nat).
Definition step (st : dead) (v : ev) : dead :=
  match v with
  | VDecl e => emplace e st
  | VUse d => erase d st
  | VAssign d a => addAccess d a st
  | VConst _ | VNum _ => st
  end.
Fixpoint evE (blk : bool) (e : expr) : list ev :=
  match e with
  | ELit _ => []
  | EConst t _ => [VConst t]
  | ERef d | EAddr d => [VUse d]
  | EDeref e => evE false e
  | EOp _ l | ECall _ l => flat_map (evE false) l
  | EAssign a l r =>
    match l with
    | ERef d => if blk && negb (hasEffect r) then VAssign d a :: evE false r else VNum a :: VUse d :: evE false r
    | _ => VNum a :: evE false l ++ evE false r
    end
  | ECompound _ l r => evE false l ++ evE false r
  | EInc _ l => evE false l
  end.
Definition evO (e : option expr) : list ev := match e with Some e => evE false e | None => [] end.
Definition evD (m : bool) (d : decl) : list ev :=
  VDecl (mkE d m []) :: match d with DVar v => match vType v with Some t => [VUse t] | None => [] end ++ evO (vSize v) ++ evO (vInit v) | _ => [] end.
Fixpoint evS (blk m : bool) (s : stmt) : list ev :=
  match s with
  | SExpr e => evE blk e
  | SDecl ds => flat_map (evD m) ds
  | SBlock m l => flat_map (evS true m) l
  | SIf e s1 s2 => evE false e ++ evS false m s1 ++ evS false m s2
  | SWhile e s => evE false e ++ evS false m s
  | SFor m i c p b => evS false m i ++ evE false c ++ evS false m p ++ evS false m b
  | SRet e => evO e
  | SBreak | SNull => []
  end.
Lemma isDead_false st d : isDead st d = false <-> Forall (fun e => declId (eDecl e) <> d) st.
Proof.
  unfold isDead. induction st as [|e st IH]; cbn [existsb]; [split; [constructor|reflexivity]|].
  rewrite orb_false_iff, IH, Nat.eqb_neq. split; [intros [? ?]; constructor; auto|intros H; inversion H; auto].
Qed.
Lemma isDead_true st d : isDead st d = true <-> exists e, In e st /\ declId (eDecl e) = d.
Proof.
  unfold isDead. rewrite existsb_exists. split; intros [e [H E]]; exists e; split; auto; [apply Nat.eqb_eq in E; exact E|apply Nat.eqb_eq; exact E].
Qed.
Lemma erase_none st d : isDead st d = false -> erase d st = st.
Proof.
  rewrite isDead_false. intros H. induction H as [|e st Hn H IH]; [reflexivity|].
  cbn [erase filter]. apply Nat.eqb_neq in Hn. rewrite Hn. cbn [negb]. f_equal. exact IH.
Qed.
Lemma addAccess_none st d a : isDead st d = false -> addAccess d a st = st.
Proof.
  rewrite isDead_false. intros H. induction H as [|e st Hn H IH]; [reflexivity|].
  cbn [addAccess map]. apply Nat.eqb_neq in Hn. rewrite Hn. f_equal. exact IH.
Qed.
Definition visitLE := fix visitL (l : list expr) (st : dead) : dead := match l with [] => st | e :: l => visitL l (visitE false e st) end.
Lemma visitLE_fold l st : Forall (fun e => forall blk st, visitE blk e st = fold_left step (evE blk e) st) l ->
  visitLE l st = fold_left step (flat_map (evE false) l) st.
Proof.
  intros H. revert st. induction H as [|e l He H IH]; intros st; [reflexivity|].
  cbn [visitLE flat_map]. rewrite fold_left_app, <- He. apply IH.
Qed.
Lemma visitE_assign blk a d r st : visitE blk (EAssign a (ERef d) r) st =
  if blk && negb (hasEffect r) && isDead st d then visitE false r (addAccess d a st) else visitE false r (erase d st).
Proof. reflexivity. Qed.
Definition notRef (e : expr) : bool := match e with ERef _ => false | _ => true end.
Lemma visitE_other blk a l r st : notRef l = true -> visitE blk (EAssign a l r) st = visitE false r (visitE false l st).
Proof. destruct l; [reflexivity|discriminate|reflexivity..]. Qed.
Lemma evE_other blk a l r : notRef l = true -> evE blk (EAssign a l r) = VNum a :: evE false l ++ evE false r.
Proof. destruct l; [reflexivity|discriminate|reflexivity..]. Qed.
Lemma visitE_fold e : forall blk st, visitE blk e st = fold_left step (evE blk e) st.
Proof.
  induction e using expr_ind2; intros blk st; try reflexivity.
  - apply (IHe false).
  - apply visitLE_fold. assumption.
  - destruct (notRef e1) eqn:En.
    + rewrite visitE_other, evE_other by exact En. cbn [fold_left step]. rewrite fold_left_app, <- IHe2, <- IHe1. reflexivity.
    + destruct e1; try discriminate En.
      rewrite visitE_assign. cbn [evE]. destruct (blk && negb (hasEffect e2)) eqn:Eb; cbn [andb].
      * cbn [fold_left step]. rewrite <- IHe2. destruct (isDead st d) eqn:Ed; [reflexivity|]. rewrite erase_none, addAccess_none by exact Ed. reflexivity.
      * cbn [fold_left step]. rewrite <- IHe2. reflexivity.
  - cbn [evE]. rewrite fold_left_app, <- IHe2, <- IHe1. reflexivity.
  - cbn [evE]. rewrite <- IHe. reflexivity.
  - apply visitLE_fold. assumption.
Qed.
Lemma visitO_fold e st : visitO e st = fold_left step (evO e) st.
Proof. destruct e; [apply visitE_fold|reflexivity]. Qed.
Lemma visitD_fold m d st : visitD m d st = fold_left step (evD m d) st.
Proof.
  unfold visitD, evD. cbn [fold_left step]. destruct d as [v|d|t]; try reflexivity.
  rewrite !fold_left_app, <- !visitO_fold. destruct (vType v); reflexivity.
Qed.
Lemma visitDs_fold m ds : forall st, visitDs m ds st = fold_left step (flat_map (evD m) ds) st.
Proof.
  induction ds as [|d ds IH]; intros st; [reflexivity|]. cbn [visitDs flat_map]. rewrite fold_left_app, <- visitD_fold. apply IH.
Qed.
Definition visitLS m := fix visitL (l : list stmt) (st : dead) : dead := match l with [] => st | s :: l => visitL l (visitS true m s st) end.
Lemma visitS_fold s : forall blk m st, visitS blk m s st = fold_left step (evS blk m s) st.
Proof.
  induction s using stmt_ind2; intros blk mm st; try reflexivity.
  - apply visitE_fold.
  - apply visitDs_fold.
  - change (visitLS m l st = fold_left step (flat_map (evS true m) l) st).
    revert st. induction H as [|s l Hs H IH]; intros st; [reflexivity|].
    cbn [visitLS flat_map]. rewrite fold_left_app, <- Hs. apply IH.
  - cbn [visitS evS]. rewrite !fold_left_app, <- IHs2, <- IHs1, <- visitE_fold. reflexivity.
  - cbn [visitS evS]. rewrite !fold_left_app, <- IHs, <- visitE_fold. reflexivity.
  - cbn [visitS evS]. rewrite !fold_left_app, <- IHs3, <- IHs2, <- IHs1, <- visitE_fold. reflexivity.
  - apply visitO_fold.
Qed.
Definition evP (ps : list nat) : list ev := map (fun p => VDecl (mkE (DPar p) false [])) ps.
Lemma visitParams_fold ps : forall st, visitParams ps st = fold_left step (evP ps) st.
Proof. induction ps as [|p ps IH]; intros st; [reflexivity|]. cbn [visitParams evP map fold_left step]. apply IH. Qed.
Definition evAll (ps : list nat) (body : stmt) : list ev := evP ps ++ evS false false body.
Lemma visit_all ps body : visitS false false body (visitParams ps []) = fold_left step (evAll ps body) [].
Proof. unfold evAll. rewrite fold_left_app, <- visitParams_fold. apply visitS_fold. Qed.

(** * Invariant of the steps *)
Definition inv (evs : list ev) (st : dead) : Prop :=
  forall e, In e st ->
    exists pre post e0, evs = pre ++ VDecl e0 :: post /\ eDecl e0 = eDecl e /\ eMacro e0 = eMacro e /\
      ~ In (VUse (declId (eDecl e))) post /\
      (forall a, In (VAssign (declId (eDecl e)) a) post -> In a (eAcc e)) /\
      (forall a, In a (eAcc e) -> In (VAssign (declId (eDecl e)) a) post \/ In a (eAcc e0)).
Lemma inv_steps evs : inv evs (fold_left step evs []).
Proof.
  induction evs as [|v evs IH] using rev_ind; [intros e []|].
  rewrite fold_left_app. cbn [fold_left]. remember (fold_left step evs []) as st eqn:Est. clear Est.
  assert (Hext : forall e, In e st -> (forall a, v <> VAssign (declId (eDecl e)) a) -> v <> VUse (declId (eDecl e)) ->
    exists pre post e0, evs ++ [v] = pre ++ VDecl e0 :: post /\ eDecl e0 = eDecl e /\ eMacro e0 = eMacro e /\
      ~ In (VUse (declId (eDecl e))) post /\
      (forall a, In (VAssign (declId (eDecl e)) a) post -> In a (eAcc e)) /\
      (forall a, In a (eAcc e) -> In (VAssign (declId (eDecl e)) a) post \/ In a (eAcc e0))).
  { intros e He Ha Hu. destruct (IH e He) as (pre & post & e0 & E & E1 & E2 & E3 & E4 & E5).
    exists pre, (post ++ [v]), e0. rewrite E, <- app_assoc. cbn [app]. repeat split; auto.
    - rewrite in_app_iff. intros [H|[H|[]]]; [exact (E3 H)|exact (Hu H)].
    - intros a. rewrite in_app_iff. intros [H|[H|[]]]; [exact (E4 a H)|destruct (Ha a H)].
    - intros a H. rewrite in_app_iff. destruct (E5 a H); auto. }
  destruct v as [e'|d|t|d a|a]; cbn [step]; intros e He.
  - unfold emplace in He. destruct (isDead st (declId (eDecl e'))); [apply Hext; [exact He|discriminate|discriminate]|].
    apply in_app_iff in He. destruct He as [He|[->|[]]]; [apply Hext; [exact He|discriminate|discriminate]|].
    exists evs, [], e. repeat split; auto; try (intros ? []).
  - apply filter_In in He. destruct He as [He Hn]. apply negb_true_iff, Nat.eqb_neq in Hn.
    apply Hext; [exact He|discriminate|intros E; injection E as E; congruence].
  - apply Hext; [exact He|discriminate|discriminate].
  - unfold addAccess in He. apply in_map_iff in He. destruct He as (e1 & He & H1).
    destruct (Nat.eqb (declId (eDecl e1)) d) eqn:Ed.
    + apply Nat.eqb_eq in Ed. subst e d. cbn [eDecl eMacro eAcc].
      destruct (IH e1 H1) as (pre & post & e0 & E & E1 & E2 & E3 & E4 & E5).
      exists pre, (post ++ [VAssign (declId (eDecl e1)) a]), e0. rewrite E, <- app_assoc. cbn [app]. repeat split; auto.
      * rewrite in_app_iff. intros [H|[H|[]]]; [exact (E3 H)|discriminate].
      * intros b. rewrite !in_app_iff. intros [H|[H|[]]]; [left; exact (E4 b H)|injection H as H; right; left; exact H].
      * intros b. rewrite !in_app_iff. intros [H|[H|[]]]; [destruct (E5 b H); auto|subst b; left; right; left; reflexivity].
    + apply Nat.eqb_neq in Ed. subst e1. apply Hext; [exact H1|intros b E; injection E as E _; congruence|discriminate].
  - apply Hext; [exact He|discriminate|discriminate].
Qed.

(** * Events and the text *)
Definition toItem (v : ev) : list item :=
  match v with VDecl e => [IDecl (declId (eDecl e))] | VUse d => [IUse d] | VConst t => [IUse t] | VAssign d _ => [IUse d] | VNum _ => [] end.
Definition toNum (v : ev) : list nat := match v with VAssign _ a | VNum a => [a] | _ => [] end.
Lemma usesI_app a b : usesI (a ++ b) = usesI a ++ usesI b.
Proof. apply map_app. Qed.
Lemma flat_all {A B C} (f : A -> list B) (g : B -> list C) (h : A -> list C) l :
  Forall (fun x => flat_map g (f x) = h x) l -> flat_map g (flat_map f l) = flat_map h l.
Proof. induction 1 as [|x l Hx H IH]; [reflexivity|]. cbn [flat_map]. rewrite flat_map_app, Hx, IH. reflexivity. Qed.
Lemma usesI_flat {A} (f : A -> list nat) l : usesI (flat_map f l) = flat_map (fun x => usesI (f x)) l.
Proof. induction l as [|x l IH]; [reflexivity|]. cbn [flat_map]. rewrite usesI_app, IH. reflexivity. Qed.
Lemma itemsE_ev e : forall blk, flat_map toItem (evE blk e) = usesI (usedE e).
Proof.
  induction e using expr_ind2; intros blk; try reflexivity.
  - apply (IHe false).
  - cbn [evE usedE]. rewrite usesI_flat. apply flat_all. eapply Forall_impl; [|exact H]. intros x Hx. apply (Hx false).
  - destruct (notRef e1) eqn:En.
    { rewrite evE_other by exact En. cbn [flat_map toItem app usedE]. rewrite flat_map_app, IHe1, IHe2, usesI_app. reflexivity. }
    destruct e1; try discriminate En.
    cbn [evE]. destruct (blk && negb (hasEffect e2)); cbn [flat_map toItem app usedE usesI map]; rewrite IHe2; reflexivity.
  - cbn [evE usedE]. rewrite flat_map_app, IHe1, IHe2, usesI_app. reflexivity.
  - apply (IHe false).
  - cbn [evE usedE]. rewrite usesI_flat. apply flat_all. eapply Forall_impl; [|exact H]. intros x Hx. apply (Hx false).
Qed.
Lemma itemsO_ev e : flat_map toItem (evO e) = usesI (usedO e).
Proof. destruct e; [apply itemsE_ev|reflexivity]. Qed.
Lemma itemsD_ev m d : flat_map toItem (evD m d) = itemsD d.
Proof.
  destruct d as [v|d|t]; try reflexivity. unfold evD, itemsD. cbn [flat_map toItem app usedD]. f_equal.
  rewrite !flat_map_app, !itemsO_ev, !usesI_app. destruct (vType v); reflexivity.
Qed.
Lemma items_ev s : forall blk m, flat_map toItem (evS blk m s) = items s.
Proof.
  induction s using stmt_ind2; intros blk mm; try reflexivity.
  - apply itemsE_ev.
  - apply flat_all. apply Forall_forall. intros d _. apply itemsD_ev.
  - apply flat_all. eapply Forall_impl; [|exact H]. intros s Hs. apply Hs.
  - cbn [evS items]. rewrite !flat_map_app, itemsE_ev, IHs1, IHs2. reflexivity.
  - cbn [evS items]. rewrite !flat_map_app, itemsE_ev, IHs. reflexivity.
  - cbn [evS items]. rewrite !flat_map_app, itemsE_ev, IHs1, IHs2, IHs3. reflexivity.
  - apply itemsO_ev.
Qed.
Lemma numsE_ev e : forall blk, flat_map toNum (evE blk e) = assignsE e.
Proof.
  induction e using expr_ind2; intros blk; try reflexivity.
  - apply (IHe false).
  - apply flat_all. eapply Forall_impl; [|exact H]. intros x Hx. apply (Hx false).
  - destruct (notRef e1) eqn:En.
    { rewrite evE_other by exact En. cbn [flat_map toNum app assignsE]. rewrite flat_map_app, IHe1, IHe2. reflexivity. }
    destruct e1; try discriminate En.
    cbn [evE]. destruct (blk && negb (hasEffect e2)); cbn [flat_map toNum app assignsE]; rewrite IHe2; reflexivity.
  - cbn [evE assignsE]. rewrite flat_map_app, IHe1, IHe2. reflexivity.
  - apply (IHe false).
  - apply flat_all. eapply Forall_impl; [|exact H]. intros x Hx. apply (Hx false).
Qed.
Lemma numsO_ev e : flat_map toNum (evO e) = assignsO e.
Proof. destruct e; [apply numsE_ev|reflexivity]. Qed.
Lemma numsD_ev m d : flat_map toNum (evD m d) = assignsD d.
Proof.
  destruct d as [v|d|t]; try reflexivity. unfold evD. cbn [flat_map toNum app assignsD].
  rewrite !flat_map_app, !numsO_ev. destruct (vType v); reflexivity.
Qed.
Lemma nums_ev s : forall blk m, flat_map toNum (evS blk m s) = assignsS s.
Proof.
  induction s using stmt_ind2; intros blk mm; try reflexivity.
  - apply numsE_ev.
  - apply flat_all. apply Forall_forall. intros d _. apply numsD_ev.
  - apply flat_all. eapply Forall_impl; [|exact H]. intros s Hs. apply Hs.
  - cbn [evS assignsS]. rewrite !flat_map_app, numsE_ev, IHs1, IHs2. reflexivity.
  - cbn [evS assignsS]. rewrite !flat_map_app, numsE_ev, IHs. reflexivity.
  - cbn [evS assignsS]. rewrite !flat_map_app, numsE_ev, IHs1, IHs2, IHs3. reflexivity.
  - apply numsO_ev.
Qed.

(** * Dead declarations *)
Lemma evE_nodecl e : forall blk x, ~ In (VDecl x) (evE blk e).
Proof.
  induction e using expr_ind2; intros blk x; try (cbn [evE In]; intros [H1|[]]; discriminate).
  - intros [].
  - apply IHe.
  - cbn [evE]. rewrite in_flat_map. intros (y & Hy & H1). exact (proj1 (Forall_forall _ _) H y Hy false x H1).
  - destruct (notRef e1) eqn:En.
    { rewrite evE_other by exact En. cbn [In]. rewrite in_app_iff. intros [H|[H|H]]; [discriminate|exact (IHe1 _ _ H)|exact (IHe2 _ _ H)]. }
    destruct e1; try discriminate En. cbn [evE]. destruct (blk && negb (hasEffect e2)); cbn [In].
    + intros [H|H]; [discriminate|exact (IHe2 _ _ H)].
    + intros [H|[H|H]]; [discriminate|discriminate|exact (IHe2 _ _ H)].
  - cbn [evE]. rewrite in_app_iff. intros [H|H]; [exact (IHe1 _ _ H)|exact (IHe2 _ _ H)].
  - apply IHe.
  - cbn [evE]. rewrite in_flat_map. intros (y & Hy & H1). exact (proj1 (Forall_forall _ _) H y Hy false x H1).
Qed.
Lemma evO_nodecl e x : ~ In (VDecl x) (evO e).
Proof. destruct e; [apply evE_nodecl|intros []]. Qed.
Lemma evD_decl m d x : In (VDecl x) (evD m d) -> eDecl x = d /\ eAcc x = [].
Proof.
  unfold evD. cbn [In]. intros [H|H]; [injection H as <-; split; reflexivity|].
  destruct d as [v|d|t]; [|destruct H|destruct H]. rewrite !in_app_iff in H. destruct H as [H|[H|H]].
  - destruct (vType v); [destruct H as [H|[]]; discriminate|destruct H].
  - destruct (evO_nodecl _ _ H).
  - destruct (evO_nodecl _ _ H).
Qed.
Lemma evS_decl s : forall blk m x, In (VDecl x) (evS blk m s) -> In (eDecl x) (declsS s) /\ eAcc x = [].
Proof.
  induction s using stmt_ind2; intros blk mm x; cbn [evS declsS].
  - intros H. destruct (evE_nodecl _ _ _ H).
  - rewrite in_flat_map. intros (d & Hd & H). apply evD_decl in H. destruct H as [-> H]. auto.
  - rewrite !in_flat_map. intros (s & Hs & H1). destruct (proj1 (Forall_forall _ _) H s Hs _ _ _ H1) as [H2 H3].
    split; [exists s; auto|exact H3].
  - rewrite !in_app_iff. intros [H|[H|H]]; [destruct (evE_nodecl _ _ _ H)|destruct (IHs1 _ _ _ H)|destruct (IHs2 _ _ _ H)]; auto.
  - rewrite !in_app_iff. intros [H|H]; [destruct (evE_nodecl _ _ _ H)|destruct (IHs _ _ _ H)]; auto.
  - rewrite !in_app_iff. intros [H|[H|[H|H]]]; [destruct (IHs1 _ _ _ H)|destruct (evE_nodecl _ _ _ H)|destruct (IHs2 _ _ _ H)|destruct (IHs3 _ _ _ H)]; auto.
  - intros H. destruct (evO_nodecl _ _ H).
  - intros [].
  - intros [].
Qed.
Lemma erase_in d st e : In e (erase d st) <-> In e st /\ declId (eDecl e) <> d.
Proof. unfold erase. rewrite filter_In, negb_true_iff, Nat.eqb_neq. reflexivity. Qed.
Lemma eraseAll_in g : forall st e, In e (fold_left (fun st d => erase (declId d) st) g st) <-> In e st /\ ~ In (declId (eDecl e)) (map declId g).
Proof.
  induction g as [|d g IH]; intros st e; cbn [fold_left map In].
  - tauto.
  - rewrite IH, erase_in. intuition congruence.
Qed.
Lemma checkGroup_in st g e : In e (checkGroup st g) -> In e st.
Proof. unfold checkGroup. destruct (forallb _ g); [auto|]. rewrite eraseAll_in. tauto. Qed.
Lemma checkGroups_in gs : forall st e, In e (fold_left checkGroup gs st) -> In e st.
Proof. induction gs as [|g gs IH]; intros st e H; [exact H|]. apply IH in H. exact (checkGroup_in _ _ _ H). Qed.

Definition removedNum (st : dead) (a : nat) : bool := existsb (fun e => existsb (Nat.eqb a) (eAcc e)) st.
Lemma removedNum_true st a : removedNum st a = true <-> exists e, In e st /\ In a (eAcc e).
Proof.
  unfold removedNum. rewrite existsb_exists. split; intros (e & H & H1); exists e; split; auto.
  - apply existsb_exists in H1. destruct H1 as (b & H1 & E). apply Nat.eqb_eq in E. subst b. exact H1.
  - apply existsb_exists. exists a. split; [exact H1|apply Nat.eqb_refl].
Qed.
Lemma NoDup_flat {A B} (f : A -> list B) : forall l x y b, NoDup (flat_map f l) -> In x l -> In y l -> In b (f x) -> In b (f y) -> x = y \/ exists pre mid post, l = pre ++ x :: mid ++ y :: post \/ l = pre ++ y :: mid ++ x :: post.
Proof.
  intros l x y b _ Hx Hy _ _. apply in_split in Hx. destruct Hx as (l1 & l2 & ->).
  apply in_app_iff in Hy. cbn [In] in Hy. destruct Hy as [Hy|[Hy|Hy]]; [|left; exact Hy|].
  - apply in_split in Hy. destruct Hy as (m1 & m2 & ->). right. exists m1, m2, l2. right. rewrite <- app_assoc. reflexivity.
  - apply in_split in Hy. destruct Hy as (m1 & m2 & ->). right. exists l1, m1, m2. left. reflexivity.
Qed.
Lemma NoDup_app_disj {A} (l1 l2 : list A) x : NoDup (l1 ++ l2) -> In x l1 -> ~ In x l2.
Proof.
  induction l1 as [|y l1 IH]; intros H Hx H2; [destruct Hx|]. cbn [app] in H. inversion H as [|? ? Hn Hd]; subst.
  destruct Hx as [->|H1]; [|exact (IH Hd H1 H2)]. apply Hn, in_app_iff. right. exact H2.
Qed.
Lemma NoDup_app_r {A} (l1 l2 : list A) : NoDup (l1 ++ l2) -> NoDup l2.
Proof. induction l1 as [|y l1 IH]; intros H; [exact H|]. cbn [app] in H. inversion H. auto. Qed.
Lemma NoDup_app_l {A} (l1 l2 : list A) : NoDup (l1 ++ l2) -> NoDup l1.
Proof. induction l1 as [|y l1 IH]; intros H; [constructor|]. cbn [app] in H. inversion H; subst. constructor; [rewrite in_app_iff in H2; tauto|auto]. Qed.
Lemma NoDup_flat_same {A B} (f : A -> list B) l x y b : NoDup (flat_map f l) -> In x l -> In y l -> In b (f x) -> In b (f y) -> x = y.
Proof.
  intros Hn Hx Hy Hbx Hby. destruct (NoDup_flat f l x y b Hn Hx Hy Hbx Hby) as [E|(pre & mid & post & [E|E])]; [exact E| |]; subst l; exfalso;
    rewrite flat_map_app in Hn; apply NoDup_app_r in Hn; cbn [flat_map] in Hn; rewrite flat_map_app in Hn; cbn [flat_map] in Hn.
  - apply (NoDup_app_disj _ _ b Hn Hbx). rewrite !in_app_iff. auto.
  - apply (NoDup_app_disj _ _ b Hn Hby). rewrite !in_app_iff. auto.
Qed.
Lemma NoDup_map_same {A B} (f : A -> B) l x y : NoDup (map f l) -> In x l -> In y l -> f x = f y -> x = y.
Proof.
  intros Hn Hx Hy E.
  assert (Hn' : NoDup (flat_map (fun x => [f x]) l)).
  { clear -Hn. revert Hn. induction l as [|z l IH]; intros Hn; [constructor|]. cbn [map flat_map app] in *. inversion Hn; subst. constructor; [|auto].
    intros H. apply H1. apply in_flat_map in H. destruct H as (w & Hw & [E|[]]). rewrite <- E. apply in_map. exact Hw. }
  exact (NoDup_flat_same (fun x => [f x]) l x y (f x) Hn' Hx Hy (or_introl eq_refl) (or_introl (eq_sym E))).
Qed.

Section Facts.
Variables (ps : list nat) (body : stmt).
Hypothesis WF : wellFormed ps body.
Let D := deadDecls ps body.
Lemma D_final e : In e D -> In e (fold_left step (evAll ps body) []) /\ mayRemove e = true.
Proof. unfold D, deadDecls. intros H. apply checkGroups_in in H. rewrite filter_In, visit_all in H. exact H. Qed.
Lemma D_split e : In e D -> exists pre post e0, evS false false body = pre ++ VDecl e0 :: post /\ eDecl e0 = eDecl e /\ eAcc e0 = [] /\ eMacro e0 = eMacro e /\
  In (eDecl e) (declsS body) /\
  ~ In (VUse (declId (eDecl e))) (evAll ps body) /\
  (forall a, In (VAssign (declId (eDecl e)) a) (evAll ps body) -> In a (eAcc e)) /\
  (forall a, In a (eAcc e) -> In (VAssign (declId (eDecl e)) a) (evS false false body)).
Proof.
  intros He. destruct (D_final e He) as [Hf Hm]. destruct (inv_steps _ e Hf) as (pre & post & e0 & E & E1 & E2 & E3 & E4 & E5).
  assert (Hpar : ~ In (VDecl e0) (evP ps)).
  { unfold evP. rewrite in_map_iff. intros (p & Hp & _). injection Hp as <-. cbn [eDecl] in E1. unfold mayRemove in Hm. rewrite <- E1 in Hm. discriminate Hm. }
  assert (Hs : exists pre', pre = evP ps ++ pre' /\ evS false false body = pre' ++ VDecl e0 :: post).
  { clear -E Hpar. unfold evAll in E. revert pre E. induction (evP ps) as [|v l IH]; intros pre E; [exists pre; split; [reflexivity|exact E]|].
    destruct pre as [|w pre].
    - cbn [app] in E. injection E as E _. destruct Hpar. left. exact E.
    - cbn [app] in E. injection E as -> E. destruct (IH (fun H => Hpar (or_intror H)) pre E) as (p & -> & H). exists p. split; [reflexivity|exact H]. }
  destruct Hs as (pre' & -> & Hs). exists pre', post, e0.
  assert (Hin : In (VDecl e0) (evS false false body)) by (rewrite Hs, in_app_iff; right; left; reflexivity).
  destruct (evS_decl _ _ _ _ Hin) as [Hd Ha]. rewrite E1 in Hd.
  destruct WF as (_ & _ & Hdf).
  assert (Hpre : forall v, In v (evP ps ++ pre') -> v <> VUse (declId (eDecl e)) /\ forall a, v <> VAssign (declId (eDecl e)) a).
  { intros v Hv. apply in_app_iff in Hv. destruct Hv as [Hv|Hv].
    - unfold evP in Hv. apply in_map_iff in Hv. destruct Hv as (p & <- & _). split; [discriminate|intros a; discriminate].
    - assert (Hi : items body = flat_map toItem pre' ++ IDecl (declId (eDecl e)) :: flat_map toItem post)
        by (rewrite <- (items_ev body false false), Hs, flat_map_app; cbn [flat_map toItem app]; rewrite E1; reflexivity).
      specialize (Hdf _ _ _ Hi). split; [|intros a]; intros ->; apply Hdf, in_flat_map; [exists (VUse (declId (eDecl e)))|exists (VAssign (declId (eDecl e)) a)]; (split; [exact Hv|left; reflexivity]). }
  repeat split; auto.
  - rewrite E, in_app_iff. intros [H|[H|H]]; [exact (proj1 (Hpre _ H) eq_refl)|discriminate|exact (E3 H)].
  - intros a. rewrite E, in_app_iff. intros [H|[H|H]]; [destruct (proj2 (Hpre _ H) a eq_refl)|discriminate|exact (E4 a H)].
  - intros a H. rewrite Hs, in_app_iff. right. right. destruct (E5 a H) as [H1|H1]; [exact H1|rewrite Ha in H1; destruct H1].
Qed.
Lemma D_use d : In (VUse d) (evS false false body) -> isDead D d = false.
Proof.
  intros H. apply not_true_is_false. rewrite isDead_true. intros (e & He & <-).
  destruct (D_split e He) as (_ & _ & _ & _ & _ & _ & _ & _ & Hu & _). apply Hu. apply in_app_iff. right. exact H.
Qed.
Lemma D_assign d a : In (VAssign d a) (evS false false body) -> isDead D d = removedNum D a.
Proof.
  intros H. apply eq_true_iff_eq. rewrite isDead_true, removedNum_true. split.
  - intros (e & He & <-). exists e. split; [exact He|].
    destruct (D_split e He) as (_ & _ & _ & _ & _ & _ & _ & _ & _ & Ha & _). apply Ha. apply in_app_iff. right. exact H.
  - intros (e & He & Hacc). exists e. split; [exact He|].
    destruct (D_split e He) as (_ & _ & _ & _ & _ & _ & _ & _ & _ & _ & Ha). specialize (Ha a Hacc).
    destruct WF as (_ & Hn & _). rewrite <- (nums_ev body false false) in Hn.
    assert (E := NoDup_flat_same _ _ _ _ a Hn Ha H (or_introl eq_refl) (or_introl eq_refl)). injection E as E. exact E.
Qed.
Lemma D_num a : In (VNum a) (evS false false body) -> removedNum D a = false.
Proof.
  intros H. apply not_true_is_false. rewrite removedNum_true. intros (e & He & Hacc).
  destruct (D_split e He) as (_ & _ & _ & _ & _ & _ & _ & _ & _ & _ & Ha). specialize (Ha a Hacc).
  destruct WF as (_ & Hn & _). rewrite <- (nums_ev body false false) in Hn.
  assert (E := NoDup_flat_same _ _ _ _ a Hn Ha H (or_introl eq_refl) (or_introl eq_refl)). discriminate E.
Qed.
Lemma D_decl dd : In dd (declsS body) -> isDead D (declId dd) = true -> exists e, In e D /\ eDecl e = dd /\ mayRemove e = true.
Proof.
  intros Hd H. apply isDead_true in H. destruct H as (e & He & E). exists e. split; [exact He|].
  destruct (D_split e He) as (_ & _ & _ & _ & _ & _ & _ & Hin & _).
  destruct WF as (Hn & _ & _). apply NoDup_app_r in Hn. split; [exact (NoDup_map_same _ _ _ _ Hn Hin Hd E)|apply D_final; exact He].
Qed.
Lemma D_names d : isDead D d = true -> In d (map declId (declsS body)).
Proof. rewrite isDead_true. intros (e & He & <-). destruct (D_split e He) as (_ & _ & _ & _ & _ & _ & _ & Hin & _). apply in_map. exact Hin. Qed.
End Facts.

(** * Simulation *)
Lemma calm_effect e : calm e = negb (hasEffect e).
Proof.
  induction e using expr_ind2; try reflexivity; [exact IHe|].
  cbn [calm hasEffect]. induction H as [|x l Hx H IH]; [reflexivity|]. cbn [forallb existsb]. rewrite Hx, IH, negb_orb. reflexivity.
Qed.
Fixpoint refsE (e : expr) : list nat :=
  match e with
  | ELit _ | EConst _ _ => []
  | ERef d | EAddr d => [d]
  | EDeref e => refsE e
  | EOp _ l | ECall _ l => flat_map refsE l
  | EAssign _ l r | ECompound _ l r => refsE l ++ refsE r
  | EInc _ l => refsE l
  end.
Lemma refs_ev e : forall blk d, In d (refsE e) -> In (VUse d) (evE blk e) \/ (blk = true /\ exists a, In (VAssign d a) (evE blk e)).
Proof.
  assert (Hl : forall l d, Forall (fun e => forall blk d, In d (refsE e) -> In (VUse d) (evE blk e) \/ (blk = true /\ exists a, In (VAssign d a) (evE blk e))) l ->
    In d (flat_map refsE l) -> In (VUse d) (flat_map (evE false) l)).
  { intros l d H Hd. apply in_flat_map in Hd. destruct Hd as (x & Hx & Hd). apply in_flat_map. exists x. split; [exact Hx|].
    destruct (proj1 (Forall_forall _ _) H x Hx false d Hd) as [H1|[H1 _]]; [exact H1|discriminate]. }
  induction e using expr_ind2; intros blk x; cbn [refsE].
  - intros [].
  - intros [->|[]]. left. left. reflexivity.
  - intros [].
  - intros [->|[]]. left. left. reflexivity.
  - intros Hx. left. destruct (IHe false x Hx) as [H1|[H1 _]]; [exact H1|discriminate].
  - intros Hx. left. exact (Hl l x H Hx).
  - rewrite in_app_iff. destruct (notRef e1) eqn:En.
    { rewrite evE_other by exact En. intros [Hx|Hx]; left; right; apply in_app_iff; [left|right]; [destruct (IHe1 false x Hx) as [H1|[H1 _]]|destruct (IHe2 false x Hx) as [H1|[H1 _]]]; [exact H1|discriminate|exact H1|discriminate]. }
    destruct e1; try discriminate En. cbn [evE refsE In]. intros [[->|[]]|Hx].
    + destruct blk; cbn [andb]; [|left; right; left; reflexivity]. destruct (hasEffect e2); cbn [negb].
      * left. right. left. reflexivity.
      * right. split; [reflexivity|]. exists a. left. reflexivity.
    + destruct (IHe2 false x Hx) as [H1|[H1 _]]; [|discriminate]. left. destruct (blk && negb (hasEffect e2)); [right|right; right]; exact H1.
  - rewrite in_app_iff. cbn [evE]. intros [Hx|Hx]; left; apply in_app_iff; [left|right]; [destruct (IHe1 false x Hx) as [H1|[H1 _]]|destruct (IHe2 false x Hx) as [H1|[H1 _]]]; [exact H1|discriminate|exact H1|discriminate].
  - intros Hx. left. destruct (IHe false x Hx) as [H1|[H1 _]]; [exact H1|discriminate].
  - intros Hx. left. exact (Hl l x H Hx).
Qed.

Section Sim.
Variable W : Type.
Variable op : nat -> list val -> option val.
Variable exts : list nat.
Variable ext : nat -> list val -> list (option val) -> W -> Z * list (nat * Z) * W.
Let vol : nat -> bool := fun _ => false.
Variable rem : nat -> bool.
Hypothesis Hop : opsOk op.
Hypothesis Hexts : forall d, In d exts -> rem d = false.
Notation state := (state W).
Notation eval := (eval W op exts vol ext).

Definition okV (v : val) : Prop := forall x, v = VPtr x -> rem x = false.
Definition R (s s' : state) : Prop :=
  world s = world s' /\ trace s = trace s' /\
  forall d, rem d = false -> vars s d = vars s' d /\ (forall v, vars s d = Some v -> okV v).
Definition evalL := fix evalL (l : list expr) (s : state) : option (state * list val) :=
    match l with
    | [] => Some (s, [])
    | e :: l => match eval e s with
                | Some (s, v) => match evalL l s with Some (s, vs) => Some (s, v :: vs) | None => None end
                | None => None
                end
    end.
Definition place (l : expr) (s : state) : option (state * nat) :=
    match l with
    | ERef d => Some (s, d)
    | EDeref e => match eval e s with Some (s, VPtr d) => Some (s, d) | _ => None end
    | _ => None
    end.
Lemma eval_op o l s : eval (EOp o l) s = match evalL l s with Some (s, vs) => match op o vs with Some v => Some (s, v) | None => None end | None => None end.
Proof. reflexivity. Qed.
Lemma eval_call f l s : eval (ECall f l) s = match evalL l s with
    | Some (s, vs) =>
      let '(z, ws, w) := ext f vs (map (vars s) exts) (world s) in
      let s := doWrites W exts vs ws s in
      Some (mkSt (vars s) w (trace s ++ [EvCall f vs]), VInt z)
    | None => None end.
Proof. reflexivity. Qed.
Lemma eval_assign a l r s : eval (EAssign a l r) s = match eval r s with
    | Some (s, v) => match place l s with Some (s, d) => Some (setVar W d (Some v) s, v) | None => None end
    | None => None end.
Proof. reflexivity. Qed.
Lemma eval_compound o l r s : eval (ECompound o l r) s =
    match eval r s with
    | Some (s, v) =>
      match place l s with
      | Some (s, d) =>
        match readVar W vol d s with
        | Some (s, x) => match op o [x; v] with Some v => Some (setVar W d (Some v) s, v) | None => None end
        | None => None
        end
      | None => None
      end
    | None => None
    end.
Proof. reflexivity. Qed.
Lemma eval_inc o l s : eval (EInc o l) s =
    match place l s with
    | Some (s, d) =>
      match readVar W vol d s with
      | Some (s, x) => match op o [x] with Some v => Some (setVar W d (Some v) s, x) | None => None end
      | None => None
      end
    | None => None
    end.
Proof. reflexivity. Qed.

Lemma readVar_R s s' d s1 v : R s s' -> rem d = false -> readVar W vol d s = Some (s1, v) -> readVar W vol d s' = Some (s', v) /\ s1 = s /\ okV v.
Proof.
  intros (Hw & Ht & Hv) Hd E. destruct (Hv d Hd) as [E1 Hok]. unfold readVar in *. cbn [vol] in *. rewrite <- E1.
  destruct (vars s d) as [x|] eqn:Ex; [|discriminate]. injection E as <- <-. split; [reflexivity|]. split; [reflexivity|]. apply Hok. reflexivity.
Qed.
Lemma setVar_R s s' d v : R s s' -> rem d = false -> (forall x, v = Some x -> okV x) -> R (setVar W d v s) (setVar W d v s').
Proof.
  intros (Hw & Ht & Hv) Hd Hok. split; [exact Hw|]. split; [exact Ht|]. intros x Hx. cbn [setVar vars].
  destruct (Nat.eqb x d); [split; [reflexivity|exact Hok]|exact (Hv x Hx)].
Qed.
Lemma setVar_R_l s s' d v : R s s' -> rem d = true -> R (setVar W d v s) s'.
Proof.
  intros (Hw & Ht & Hv) Hd. split; [exact Hw|]. split; [exact Ht|]. intros x Hx. cbn [setVar vars].
  destruct (Nat.eqb x d) eqn:E; [apply Nat.eqb_eq in E; subst; congruence|exact (Hv x Hx)].
Qed.
Lemma okV_int z : okV (VInt z).
Proof. intros x E. discriminate. Qed.
Lemma doWrites_R args ws : forall s s', R s s' -> Forall okV args -> R (doWrites W exts args ws s) (doWrites W exts args ws s').
Proof.
  unfold doWrites. induction ws as [|w ws IH]; intros s s' H Ha; [exact H|]. cbn [fold_left]. apply IH; [|exact Ha].
  destruct (nth_error (targets exts args) (fst w)) as [d|] eqn:E; [|exact H].
  apply setVar_R; [exact H| |intros x Ex; injection Ex as <-; apply okV_int].
  apply nth_error_In in E. unfold targets in E. apply in_app_iff in E. destruct E as [E|E]; [|apply Hexts; exact E].
  apply in_flat_map in E. destruct E as (v & Hv & E). destruct v as [z|x]; [destruct E|]. destruct E as [->|[]].
  exact (proj1 (Forall_forall _ _) Ha _ Hv d eq_refl).
Qed.
Definition simE (e : expr) : Prop :=
  (forall d, In d (refsE e) -> rem d = false) ->
  (forall s s' s1 v, R s s' -> eval e s = Some (s1, v) -> exists s1', eval e s' = Some (s1', v) /\ R s1 s1' /\ okV v) /\
  (forall s s' s1 d, R s s' -> place e s = Some (s1, d) -> exists s1', place e s' = Some (s1', d) /\ R s1 s1' /\ rem d = false).
Lemma simL l : Forall simE l -> (forall d, In d (flat_map refsE l) -> rem d = false) ->
  forall s s' s1 vs, R s s' -> evalL l s = Some (s1, vs) -> exists s1', evalL l s' = Some (s1', vs) /\ R s1 s1' /\ Forall okV vs.
Proof.
  induction 1 as [|e l He H IH]; intros Hr s s' s1 vs HR E.
  - cbn [evalL] in E. injection E as <- <-. exists s'. split; [reflexivity|]. split; [exact HR|constructor].
  - cbn [evalL] in *. destruct (eval e s) as [[s2 v]|] eqn:Ee; [|discriminate].
    destruct (proj1 (He (fun d Hd => Hr d (proj2 (in_app_iff _ _ _) (or_introl Hd)))) s s' s2 v HR Ee) as (s2' & Ee' & HR2 & Hv).
    rewrite Ee'. destruct (evalL l s2) as [[s3 ws]|] eqn:El; [|discriminate]. injection E as <- <-.
    destruct (IH (fun d Hd => Hr d (proj2 (in_app_iff _ _ _) (or_intror Hd))) s2 s2' s3 ws HR2 El) as (s3' & El' & HR3 & Hws).
    rewrite El'. exists s3'. split; [reflexivity|]. split; [exact HR3|]. constructor; assumption.
Qed.
Lemma op_okV o vs v : Forall okV vs -> op o vs = Some v -> okV v.
Proof. intros H E x ->. apply Hop in E. exact (proj1 (Forall_forall _ _) H _ E x eq_refl). Qed.
Ltac noplace := intros; discriminate.
Lemma sim e : simE e.
Proof.
  induction e using expr_ind2; intros Hr; (split; [intros s s' s1 v HR E|try noplace]).
  - injection E as <- <-. exists s'. split; [reflexivity|]. split; [exact HR|apply okV_int].
  - assert (Hd := Hr d (or_introl eq_refl)). destruct (readVar_R _ _ _ _ _ HR Hd E) as (E' & -> & Hv). exists s'. split; [exact E'|]. split; assumption.
  - intros s s' s1 x HR E. cbn [place] in *. injection E as <- <-. exists s'. split; [reflexivity|]. split; [exact HR|]. apply Hr. left. reflexivity.
  - injection E as <- <-. exists s'. split; [reflexivity|]. split; [exact HR|apply okV_int].
  - injection E as <- <-. exists s'. split; [reflexivity|]. split; [exact HR|]. intros x Ex. injection Ex as <-. apply Hr. left. reflexivity.
  - destruct (IHe Hr) as [He _]. cbn [DeadDeclSpec.eval] in E |- *. destruct (eval e s) as [[s2 [z|x]]|] eqn:Ee; try discriminate E.
    destruct (He _ _ _ _ HR Ee) as (s2' & Ee' & HR2 & Hv). rewrite Ee'. assert (Hx := Hv x eq_refl).
    destruct (readVar_R _ _ _ _ _ HR2 Hx E) as (E' & -> & Hv2). exists s2'. split; [exact E'|]. split; assumption.
  - intros s s' s1 x HR E. destruct (IHe Hr) as [He _]. cbn [place] in E |- *. destruct (eval e s) as [[s2 [z|y]]|] eqn:Ee; try discriminate E.
    injection E as <- <-. destruct (He _ _ _ _ HR Ee) as (s2' & Ee' & HR2 & Hv). rewrite Ee'. exists s2'. split; [reflexivity|]. split; [exact HR2|exact (Hv y eq_refl)].
  - rewrite eval_op in E |- *. destruct (evalL l s) as [[s2 vs]|] eqn:El; [|discriminate].
    destruct (simL l H Hr _ _ _ _ HR El) as (s2' & El' & HR2 & Hvs). rewrite El'.
    destruct (op o vs) as [w|] eqn:Eo; [|discriminate]. injection E as <- <-. exists s2'. split; [reflexivity|]. split; [exact HR2|exact (op_okV _ _ _ Hvs Eo)].
  - destruct (IHe1 (fun d Hd => Hr d (proj2 (in_app_iff _ _ _) (or_introl Hd)))) as [_ Hl]. destruct (IHe2 (fun d Hd => Hr d (proj2 (in_app_iff _ _ _) (or_intror Hd)))) as [He _].
    rewrite eval_assign in E |- *. destruct (eval e2 s) as [[s2 w]|] eqn:Ee; [|discriminate].
    destruct (He _ _ _ _ HR Ee) as (s2' & Ee' & HR2 & Hv). rewrite Ee'.
    destruct (place e1 s2) as [[s3 d]|] eqn:Ep; [|discriminate]. destruct (Hl _ _ _ _ HR2 Ep) as (s3' & Ep' & HR3 & Hd). rewrite Ep'.
    injection E as <- <-. exists (setVar W d (Some w) s3'). split; [reflexivity|]. split; [|exact Hv].
    apply setVar_R; [exact HR3|exact Hd|]. intros x Ex. injection Ex as <-. exact Hv.
  - destruct (IHe1 (fun d Hd => Hr d (proj2 (in_app_iff _ _ _) (or_introl Hd)))) as [_ Hl]. destruct (IHe2 (fun d Hd => Hr d (proj2 (in_app_iff _ _ _) (or_intror Hd)))) as [He _].
    rewrite eval_compound in E |- *. destruct (eval e2 s) as [[s2 w]|] eqn:Ee; [|discriminate].
    destruct (He _ _ _ _ HR Ee) as (s2' & Ee' & HR2 & Hv). rewrite Ee'.
    destruct (place e1 s2) as [[s3 d]|] eqn:Ep; [|discriminate]. destruct (Hl _ _ _ _ HR2 Ep) as (s3' & Ep' & HR3 & Hd). rewrite Ep'.
    destruct (readVar W vol d s3) as [[s4 x]|] eqn:Er; [|discriminate]. destruct (readVar_R _ _ _ _ _ HR3 Hd Er) as (Er' & -> & Hx). rewrite Er'.
    destruct (op o [x; w]) as [u|] eqn:Eo; [|discriminate]. injection E as <- <-.
    assert (Hu : okV u) by (apply (op_okV o [x; w]); [repeat constructor; assumption|exact Eo]).
    exists (setVar W d (Some u) s3'). split; [reflexivity|]. split; [|exact Hu].
    apply setVar_R; [exact HR3|exact Hd|]. intros y Ey. injection Ey as <-. exact Hu.
  - destruct (IHe Hr) as [_ Hl]. rewrite eval_inc in E |- *.
    destruct (place e s) as [[s3 d]|] eqn:Ep; [|discriminate]. destruct (Hl _ _ _ _ HR Ep) as (s3' & Ep' & HR3 & Hd). rewrite Ep'.
    destruct (readVar W vol d s3) as [[s4 x]|] eqn:Er; [|discriminate]. destruct (readVar_R _ _ _ _ _ HR3 Hd Er) as (Er' & -> & Hx). rewrite Er'.
    destruct (op o [x]) as [u|] eqn:Eo; [|discriminate]. injection E as <- <-.
    assert (Hu : okV u) by (apply (op_okV o [x]); [repeat constructor; assumption|exact Eo]).
    exists (setVar W d (Some u) s3'). split; [reflexivity|]. split; [|exact Hx].
    apply setVar_R; [exact HR3|exact Hd|]. intros y Ey. injection Ey as <-. exact Hu.
  - rewrite eval_call in E |- *. destruct (evalL l s) as [[s2 vs]|] eqn:El; [|discriminate].
    destruct (simL l H Hr _ _ _ _ HR El) as (s2' & El' & HR2 & Hvs). rewrite El'.
    assert (Em : map (vars s2') exts = map (vars s2) exts) by (apply map_ext_in; intros d Hd; symmetry; apply HR2, Hexts; exact Hd).
    rewrite Em. destruct HR2 as (Hw & Ht & Hv2). rewrite <- Hw.
    destruct (ext f vs (map (vars s2) exts) (world s2)) as [[z ws] w]. cbv zeta in E |- *. injection E as <- <-.
    destruct (doWrites_R vs ws s2 s2' (conj Hw (conj Ht Hv2)) Hvs) as (Hw3 & Ht3 & Hv3).
    eexists. split; [reflexivity|]. split; [|apply okV_int]. split; [reflexivity|]. split; [cbn [trace]; rewrite Ht3; reflexivity|exact Hv3].
Qed.
(** an expression without side effects does not change a state *)
Lemma pure_eval e : hasEffect e = false -> forall s s1 v, eval e s = Some (s1, v) -> s1 = s.
Proof.
  assert (Hread : forall d s s1 v, readVar W vol d s = Some (s1, v) -> s1 = s).
  { intros d s s1 v. unfold readVar. cbn [vol]. destruct (vars s d); [|discriminate]. intros E. injection E as <- _. reflexivity. }
  induction e using expr_ind2; intros Hp s s1 v E; try discriminate Hp; try (injection E as <- _; reflexivity).
  - exact (Hread _ _ _ _ E).
  - cbn [DeadDeclSpec.eval] in E. destruct (eval e s) as [[s2 [z|x]]|] eqn:Ee; try discriminate E.
    rewrite (Hread _ _ _ _ E). exact (IHe Hp _ _ _ Ee).
  - rewrite eval_op in E. destruct (evalL l s) as [[s2 vs]|] eqn:El; [|discriminate]. destruct (op o vs); [|discriminate]. injection E as <- _.
    clear v0. cbn [hasEffect] in Hp. revert s s2 vs El. induction H as [|x l Hx H IH]; intros s s2 vs El.
    + cbn [evalL] in El. injection El as <- _. reflexivity.
    + cbn [existsb] in Hp. apply orb_false_iff in Hp. destruct Hp as [Hp1 Hp2]. cbn [evalL] in El.
      destruct (eval x s) as [[s3 w]|] eqn:Ee; [|discriminate]. rewrite (Hx Hp1 _ _ _ Ee) in El.
      destruct (evalL l s) as [[s4 ws]|] eqn:El2; [|discriminate]. injection El as <- _. exact (IH Hp2 _ _ _ El2).
Qed.

Definition resR (r r' : res W) : Prop :=
  match r, r' with
  | RUndef _, _ => True
  | RFuel _, RFuel _ => True
  | RNormal _ s, RNormal _ s' => R s s'
  | RBreak _ s, RBreak _ s' => R s s'
  | RRet _ s v, RRet _ s' v' => R s s' /\ v = v'
  | _, _ => False
  end.
Lemma bindN_R r r' k k' : resR r r' -> (forall s s', R s s' -> resR (k s) (k' s')) -> resR (bindN W r k) (bindN W r' k').
Proof. intros H Hk. destruct r, r'; cbn [bindN resR] in *; try contradiction; auto; exact Logic.I. Qed.
Lemma loop_R c c' b b' t t' :
  (forall s s' s1 v, R s s' -> c s = Some (s1, v) -> exists s1', c' s' = Some (s1', v) /\ R s1 s1') ->
  (forall s s', R s s' -> resR (b s) (b' s')) -> (forall s s', R s s' -> resR (t s) (t' s')) ->
  forall n s s', R s s' -> resR (loop W c b t n s) (loop W c' b' t' n s').
Proof.
  intros Hc Hb Ht. induction n as [|n IH]; intros s s' HR; cbn [loop]; [exact Logic.I|].
  destruct (c s) as [[s1 v]|] eqn:Ec; [|exact Logic.I]. destruct (Hc _ _ _ _ HR Ec) as (s1' & Ec' & HR1). rewrite Ec'.
  destruct (isTrue v); [|exact HR1]. specialize (Hb _ _ HR1). destruct (b s1), (b' s1'); cbn [resR] in Hb |- *; try contradiction; auto; try exact Logic.I.
  apply bindN_R; [apply Ht; exact Hb|exact IH].
Qed.
Lemma evalO_R e s s' s1 v : (forall x d, e = Some x -> In d (refsE x) -> rem d = false) -> R s s' -> evalO W op exts vol ext e s = Some (s1, v) ->
  exists s1', evalO W op exts vol ext e s' = Some (s1', v) /\ R s1 s1' /\ (forall x, v = Some x -> okV x).
Proof.
  intros Hr HR E. destruct e as [e|]; cbn [evalO] in *.
  - destruct (eval e s) as [[s2 w]|] eqn:Ee; [|discriminate]. injection E as <- <-.
    destruct (proj1 (sim e (fun d => Hr e d eq_refl)) _ _ _ _ HR Ee) as (s2' & Ee' & HR2 & Hv). rewrite Ee'. exists s2'. split; [reflexivity|]. split; [exact HR2|].
    intros x Ex. injection Ex as <-. exact Hv.
  - injection E as <- <-. exists s'. split; [reflexivity|]. split; [exact HR|discriminate].
Qed.
Lemma evalO_pure e s s1 v : optEffect e = false -> evalO W op exts vol ext e s = Some (s1, v) -> s1 = s.
Proof.
  destruct e as [e|]; cbn [evalO optEffect]; [|intros _ E; injection E as <- _; reflexivity].
  intros Hp E. destruct (eval e s) as [[s2 w]|] eqn:Ee; [|discriminate]. injection E as <- _. exact (pure_eval e Hp _ _ _ Ee).
Qed.
End Sim.

Section SimS.
Variable W : Type.
Variable op : nat -> list val -> option val.
Variable exts : list nat.
Variable ext : nat -> list val -> list (option val) -> W -> Z * list (nat * Z) * W.
Let vol : nat -> bool := fun _ => false.
Variable D : dead.
Let rem := isDead D.
Hypothesis Hop : opsOk op.
Hypothesis Hexts : forall d, In d exts -> rem d = false.
Variable n : nat.
Notation eval := (eval W op exts vol ext).
Notation exec := (exec W op exts vol ext n).
Definition okDecl (dd : decl) : Prop :=
  match dd with DVar v => optEffect (vInit v) = false /\ optEffect (vSize v) = false /\ vExt v = false | _ => True end.
Definition evOk (v : ev) : Prop :=
  match v with
  | VUse d => rem d = false
  | VAssign d a => rem d = removedNum D a
  | VNum a => removedNum D a = false
  | VDecl e => rem (declId (eDecl e)) = true -> okDecl (eDecl e)
  | VConst _ => True
  end.
Definition allOk (l : list ev) : Prop := forall v, In v l -> evOk v.
Lemma allOk_app a b : allOk (a ++ b) <-> allOk a /\ allOk b.
Proof. unfold allOk. split; [intros H; split; intros v Hv; apply H, in_app_iff; auto|intros [H1 H2] v Hv; apply in_app_iff in Hv; destruct Hv; auto]. Qed.
Lemma assign_top e : forall blk d a, In (VAssign d a) (evE blk e) -> blk = true /\ exists r, e = EAssign a (ERef d) r /\ hasEffect r = false.
Proof.
  assert (Hl : forall l d a, Forall (fun e => forall blk d a, In (VAssign d a) (evE blk e) -> blk = true /\ exists r, e = EAssign a (ERef d) r /\ hasEffect r = false) l -> ~ In (VAssign d a) (flat_map (evE false) l)).
  { intros l d a H H1. apply in_flat_map in H1. destruct H1 as (x & Hx & H1). destruct (proj1 (Forall_forall _ _) H x Hx _ _ _ H1) as [E _]. discriminate E. }
  induction e using expr_ind2; intros blk x b Hin; try (cbn [evE In] in Hin; destruct Hin as [Hin|[]]; discriminate Hin).
  - destruct Hin.
  - destruct (IHe _ _ _ Hin) as [E _]. discriminate E.
  - destruct (Hl _ _ _ H Hin).
  - destruct (notRef e1) eqn:En.
    { rewrite evE_other in Hin by exact En. destruct Hin as [Hin|Hin]; [discriminate|]. apply in_app_iff in Hin.
      destruct Hin as [Hin|Hin]; [destruct (IHe1 _ _ _ Hin) as [E _]|destruct (IHe2 _ _ _ Hin) as [E _]]; discriminate E. }
    destruct e1; try discriminate En. cbn [evE] in Hin. destruct (blk && negb (hasEffect e2)) eqn:Eb.
    + destruct Hin as [Hin|Hin]; [|destruct (IHe2 _ _ _ Hin) as [E _]; discriminate E]. injection Hin as <- <-.
      apply andb_true_iff in Eb. destruct Eb as [-> Eb]. apply negb_true_iff in Eb. split; [reflexivity|]. exists e2. auto.
    + destruct Hin as [Hin|[Hin|Hin]]; [discriminate|discriminate|destruct (IHe2 _ _ _ Hin) as [E _]; discriminate E].
  - cbn [evE] in Hin. apply in_app_iff in Hin. destruct Hin as [Hin|Hin]; [destruct (IHe1 _ _ _ Hin) as [E _]|destruct (IHe2 _ _ _ Hin) as [E _]]; discriminate E.
  - destruct (IHe _ _ _ Hin) as [E _]. discriminate E.
  - destruct (Hl _ _ _ H Hin).
Qed.
Lemma clean_false e : allOk (evE false e) -> forall d, In d (refsE e) -> rem d = false.
Proof. intros H d Hd. destruct (refs_ev e false d Hd) as [H1|[H1 _]]; [exact (H _ H1)|discriminate]. Qed.
Lemma clean_top blk e : allOk (evE blk e) -> blk && removedAssign D (SExpr e) = false -> forall d, In d (refsE e) -> rem d = false.
Proof.
  intros H Hn d Hd. destruct (refs_ev e blk d Hd) as [H1|[-> (a & H1)]]; [exact (H _ H1)|].
  assert (E := H _ H1). cbn [evOk] in E. rewrite E. destruct (assign_top _ _ _ _ H1) as (_ & r & -> & _). exact Hn.
Qed.
Lemma clean_opt e : allOk (evO e) -> forall x d, e = Some x -> In d (refsE x) -> rem d = false.
Proof. intros H x d -> Hd. exact (clean_false x H d Hd). Qed.
Notation R := (R W rem).
Notation resR := (resR W rem).
Notation execDecl := (execDecl W op exts vol ext).
Notation execDecls := (execDecls W op exts vol ext).
Lemma execDecl_keep m d s s' s1 : allOk (evD m d) -> rem (declId d) = false -> R s s' -> execDecl d s = Some s1 -> exists s1', execDecl d s' = Some s1' /\ R s1 s1'.
Proof.
  intros Hok Hd HR E. destruct d as [v|d|t]; [|injection E as <-; exists s'; split; [reflexivity|exact HR]|injection E as <-; exists s'; split; [reflexivity|exact HR]].
  unfold evD in Hok. change (allOk ([VDecl (mkE (DVar v) m [])] ++ match vType v with Some t => [VUse t] | None => [] end ++ evO (vSize v) ++ evO (vInit v))) in Hok.
  rewrite !allOk_app in Hok. destruct Hok as (_ & _ & Hs & Hi). cbn [DeadDeclSpec.execDecl] in *.
  destruct (evalO W op exts vol ext (vSize v) s) as [[s2 x]|] eqn:E1; [|discriminate].
  destruct (evalO_R W op exts ext rem Hop Hexts _ _ _ _ _ (clean_opt _ Hs) HR E1) as (s2' & E1' & HR2 & _). fold vol in E1'. rewrite E1'.
  destruct (evalO W op exts vol ext (vInit v) s2) as [[s3 y]|] eqn:E2; [|discriminate].
  destruct (evalO_R W op exts ext rem Hop Hexts _ _ _ _ _ (clean_opt _ Hi) HR2 E2) as (s3' & E2' & HR3 & Hy). fold vol in E2'. rewrite E2'.
  injection E as <-. destruct (vExt v); [exists s3'; split; [reflexivity|exact HR3]|].
  eexists. split; [reflexivity|]. apply setVar_R; [exact HR3|exact Hd|exact Hy].
Qed.
Lemma execDecl_drop m d s s' s1 : allOk (evD m d) -> rem (declId d) = true -> R s s' -> execDecl d s = Some s1 -> R s1 s'.
Proof.
  intros Hok Hd HR E. specialize (Hok _ (or_introl eq_refl) Hd). cbn [eDecl] in Hok.
  destruct d as [v|d|t]; [|injection E as <-; exact HR|injection E as <-; exact HR].
  destruct Hok as (Hi & Hs & He). cbn [DeadDeclSpec.execDecl] in E.
  destruct (evalO W op exts vol ext (vSize v) s) as [[s2 x]|] eqn:E1; [|discriminate].
  apply evalO_pure in E1; [|exact Hs]. subst s2.
  destruct (evalO W op exts vol ext (vInit v) s) as [[s3 y]|] eqn:E2; [|discriminate].
  apply evalO_pure in E2; [|exact Hi]. subst s3.
  injection E as <-. rewrite He. apply setVar_R_l; [exact HR|exact Hd].
Qed.
Lemma execDecls_R m ds : allOk (flat_map (evD m) ds) -> forall s s' s1, R s s' -> execDecls ds s = Some s1 -> exists s1', execDecls (liveDecls D ds) s' = Some s1' /\ R s1 s1'.
Proof.
  induction ds as [|d ds IH]; intros Hok s s' s1 HR E.
  - injection E as <-. exists s'. split; [reflexivity|exact HR].
  - cbn [flat_map] in Hok. apply allOk_app in Hok. destruct Hok as [H1 H2]. cbn [DeadDeclSpec.execDecls] in E.
    destruct (execDecl d s) as [s2|] eqn:Ed; [|discriminate]. cbn [liveDecls filter]. destruct (isDead D (declId d)) eqn:Er; cbn [negb].
    + apply (IH H2 s2 s' s1); [|exact E]. exact (execDecl_drop m d s s' s2 H1 Er HR Ed).
    + destruct (execDecl_keep m d s s' s2 H1 Er HR Ed) as (s2' & Ed' & HR2). cbn [DeadDeclSpec.execDecls]. rewrite Ed'. exact (IH H2 s2 s2' s1 HR2 E).
Qed.
Definition execL := fix execL (l : list stmt) (st : state W) : res W := match l with [] => RNormal W st | s :: l => bindN W (exec s st) (execL l) end.
Lemma removed_R s m st st' : removedAssign D s = true -> allOk (evS true m s) -> R st st' -> resR (exec s st) (RNormal W st').
Proof.
  intros Hr Hok HR. destruct s as [e| | | | | | | |]; try discriminate Hr. destruct e; try discriminate Hr. cbn [evS] in Hok.
  change (removedNum D a = true) in Hr.
  destruct (notRef e1) eqn:En.
  { rewrite evE_other in Hok by exact En. specialize (Hok _ (or_introl eq_refl)). cbn [evOk] in Hok. congruence. }
  destruct e1; try discriminate En. cbn [evE] in Hok. destruct (hasEffect e2) eqn:Ee; cbn [negb andb] in Hok.
  { specialize (Hok _ (or_introl eq_refl)). cbn [evOk] in Hok. congruence. }
  specialize (Hok _ (or_introl eq_refl)). cbn [evOk] in Hok.
  change (resR (match match eval e2 st with Some (s, v) => Some (setVar W d (Some v) s, v) | None => None end with Some (st, _) => RNormal W st | None => RUndef W end) (RNormal W st')).
  destruct (eval e2 st) as [[s2 v]|] eqn:Ev; [|exact Logic.I]. apply (pure_eval W op exts ext e2 Ee) in Ev. subst s2.
  cbn [DeadDeclProof.resR]. apply setVar_R_l; [exact HR|congruence].
Qed.
Lemma simS s : forall blk m st st', allOk (evS blk m s) -> blk && removedAssign D s = false -> R st st' -> resR (exec s st) (exec (remove D s) st').
Proof.
  assert (HE : forall e, allOk (evE false e) -> forall s s' s1 v, R s s' -> eval e s = Some (s1, v) -> exists s1', eval e s' = Some (s1', v) /\ R s1 s1').
  { intros e Hok s0 s' s1 v HR E. destruct (proj1 (sim W op exts ext rem Hop Hexts e (clean_false e Hok)) _ _ _ _ HR E) as (s1' & E' & HR1 & _).
    exists s1'. split; [exact E'|exact HR1]. }
  induction s using stmt_ind2; intros blk mm st st' Hok Hn HR.
  - cbn [remove DeadDeclSpec.exec]. destruct (eval e st) as [[s1 v]|] eqn:E; [|exact Logic.I].
    destruct (proj1 (sim W op exts ext rem Hop Hexts e (clean_top blk e Hok Hn)) _ _ _ _ HR E) as (s1' & E' & HR1 & _). fold vol in E'. rewrite E'. exact HR1.
  - cbn [remove DeadDeclSpec.exec]. destruct (execDecls ds st) as [s1|] eqn:E; [|exact Logic.I].
    destruct (execDecls_R mm ds Hok st st' s1 HR E) as (s1' & E' & HR1).
    destruct (liveDecls D ds) as [|d l] eqn:El.
    + injection E' as <-. exact HR1.
    + cbn [DeadDeclSpec.exec]. rewrite E'. exact HR1.
  - cbn [remove]. change (resR (execL l st) (execL (map (fun s => if removedAssign D s then SNull else remove D s) l) st')).
    cbn [evS] in Hok. clear Hn. revert st st' HR. induction H as [|s l Hs H IH]; intros st st' HR; [exact HR|].
    cbn [flat_map] in Hok. apply allOk_app in Hok. destruct Hok as [Hok1 Hok2]. cbn [map execL]. apply bindN_R; [|intros; apply (IH Hok2); assumption].
    destruct (removedAssign D s) eqn:Er.
    + exact (removed_R s m st st' Er Hok1 HR).
    + apply (Hs true m); [exact Hok1|first [exact Er|reflexivity]|exact HR].
  - cbn [evS] in Hok. rewrite !allOk_app in Hok. destruct Hok as (H1 & H2 & H3). cbn [remove DeadDeclSpec.exec].
    destruct (eval e st) as [[s1' v]|] eqn:E; [|exact Logic.I]. destruct (HE e H1 _ _ _ _ HR E) as (s2' & E' & HR1). rewrite E'.
    destruct (isTrue v); [apply (IHs1 false mm)|apply (IHs2 false mm)]; auto.
  - cbn [evS] in Hok. rewrite !allOk_app in Hok. destruct Hok as (H1 & H2). cbn [remove DeadDeclSpec.exec].
    apply loop_R; [exact (HE e H1)|intros; apply (IHs false mm); auto|intros s0 s0' H; exact H|exact HR].
  - cbn [evS] in Hok. rewrite !allOk_app in Hok. destruct Hok as (H1 & H2 & H3 & H4). cbn [remove DeadDeclSpec.exec].
    apply bindN_R; [apply (IHs1 false m); auto|]. intros s0 s0' HR0.
    apply loop_R; [exact (HE c H2)|intros; apply (IHs3 false m); auto|intros; apply (IHs2 false m); auto|exact HR0].
  - cbn [remove DeadDeclSpec.exec]. cbn [evS] in Hok. destruct (evalO W op exts vol ext e st) as [[s1 v]|] eqn:E; [|exact Logic.I].
    destruct (evalO_R W op exts ext rem Hop Hexts _ _ _ _ _ (clean_opt _ Hok) HR E) as (s1' & E' & HR1 & _). fold vol in E'. rewrite E'. split; [exact HR1|reflexivity].
  - exact HR.
  - exact HR.
Qed.
End SimS.

Theorem eliminate_same W op exts ext n ps body st :
  opsOk op -> wellFormed ps body -> noExtern body -> calmSizes body ->
  (forall d, In d exts -> ~ In d (map declId (declsS body))) ->
  (forall d x, vars st d = Some (VPtr x) -> ~ In x (map declId (declsS body))) ->
  sameRes W exts (exec W op exts (fun _ => false) ext n body st) (exec W op exts (fun _ => false) ext n (eliminate ps body) st).
Proof.
  intros Hop WF Hne Hcs Hex Hpt. set (D := deadDecls ps body).
  assert (Hnames : forall d, ~ In d (map declId (declsS body)) -> isDead D d = false).
  { intros d H. apply not_true_is_false. intros H1. apply H. exact (D_names ps body WF d H1). }
  assert (Hexts : forall d, In d exts -> isDead D d = false) by (intros d Hd; apply Hnames, Hex, Hd).
  assert (Hok : allOk D (evS false false body)).
  { intros v Hv. destruct v as [e|d|t|d a|a]; cbn [evOk].
    - intros Hd. destruct (evS_decl _ _ _ _ Hv) as [Hin _]. destruct (D_decl ps body WF _ Hin Hd) as (e' & He' & E & Hm).
      unfold mayRemove in Hm. rewrite E in Hm. destruct (eDecl e) as [v|d|t] eqn:Ed; cbn [okDecl]; [|exact Logic.I|exact Logic.I].
      apply andb_true_iff in Hm. destruct Hm as [Hm _]. apply negb_true_iff in Hm. split; [exact Hm|]. split; [|exact (Hne v Hin)].
      unfold optEffect. destruct (vSize v) as [x|] eqn:Es; [|reflexivity].
      assert (Hc := Hcs v x Hin Es). rewrite calm_effect in Hc. apply negb_true_iff in Hc. exact Hc.
    - exact (D_use ps body WF d Hv).
    - exact Logic.I.
    - exact (D_assign ps body WF d a Hv).
    - exact (D_num ps body WF a Hv). }
  assert (HR : R W (isDead D) st st).
  { split; [reflexivity|]. split; [reflexivity|]. intros d _. split; [reflexivity|]. intros v Ev x ->. apply Hnames. exact (Hpt d x Ev). }
  assert (H := simS W op exts ext D Hop Hexts n body false false st st Hok eq_refl HR).
  assert (Hs : forall a b, R W (isDead D) a b -> sameState W exts a b).
  { intros a b (H1 & H2 & H3). split; [exact H1|]. split; [exact H2|]. apply map_ext_in. intros d Hd. apply H3, Hexts, Hd. }
  unfold eliminate. fold D. destruct (exec W op exts (fun _ => false) ext n body st), (exec W op exts (fun _ => false) ext n (remove D body) st);
    cbn [resR sameRes] in *; try contradiction; auto. destruct H as [H ->]. split; [apply Hs; exact H|reflexivity].
Qed.

(** * Names and groups *)
Lemma declsS_remove D s : declsS (remove D s) = liveDecls D (declsS s).
Proof.
  unfold liveDecls. induction s using stmt_ind2; try reflexivity.
  - cbn [remove declsS]. unfold liveDecls. destruct (filter (fun d => negb (isDead D (declId d))) ds) eqn:E; reflexivity.
  - cbn [remove declsS]. induction H as [|s l Hs H IH]; [reflexivity|]. cbn [map flat_map]. rewrite filter_app, <- IH. f_equal.
    destruct (removedAssign D s) eqn:Er; [|exact Hs]. destruct s; try discriminate Er. reflexivity.
  - cbn [remove declsS]. rewrite filter_app, IHs1, IHs2. reflexivity.
  - exact IHs.
  - cbn [remove declsS]. rewrite !filter_app, IHs1, IHs2, IHs3. reflexivity.
Qed.
Section Names.
Variable D : dead.
Let rem := isDead D.
Definition useOk (v : ev) : Prop :=
  match v with
  | VUse d | VConst d => rem d = false
  | VAssign d a => rem d = removedNum D a
  | _ => True
  end.
Lemma usedE_ok blk e d : (forall v, In v (evE blk e) -> useOk v) -> blk && removedAssign D (SExpr e) = false -> In d (usedE e) -> rem d = false.
Proof.
  intros H Hn Hd. assert (Hi : In (IUse d) (flat_map toItem (evE blk e))) by (rewrite itemsE_ev; apply in_map; exact Hd).
  apply in_flat_map in Hi. destruct Hi as (v & Hv & Hi). assert (Ho := H v Hv).
  destruct v as [x|x|x|x a|a]; cbn [toItem In] in Hi; try (destruct Hi as [Hi|[]]; injection Hi as ->; exact Ho).
  - destruct Hi as [Hi|[]]. discriminate Hi.
  - destruct Hi as [Hi|[]]. injection Hi as ->. cbn [useOk] in Ho. rewrite Ho. destruct (assign_top _ _ _ _ Hv) as (-> & r & -> & _). exact Hn.
  - destruct Hi.
Qed.
Lemma usedO_ok e d : (forall v, In v (evO e) -> useOk v) -> In d (usedO e) -> rem d = false.
Proof. destruct e as [e|]; [|intros _ []]. intros H. apply (usedE_ok false e d H eq_refl). Qed.
Lemma usedD_ok m x d : (forall v, In v (evD m x) -> useOk v) -> In d (usedD x) -> rem d = false.
Proof.
  intros H Hd. destruct x as [v|x|x]; [|destruct Hd|destruct Hd]. cbn [usedD] in Hd. unfold evD in H. rewrite !in_app_iff in Hd. destruct Hd as [Hd|[Hd|Hd]].
  - destruct (vType v) as [t|]; [|destruct Hd]. destruct Hd as [->|[]]. apply (H (VUse d)). right. left. reflexivity.
  - apply (usedO_ok (vSize v)); [|exact Hd]. intros w Hw. apply H. right. rewrite !in_app_iff. auto.
  - apply (usedO_ok (vInit v)); [|exact Hd]. intros w Hw. apply H. right. rewrite !in_app_iff. auto.
Qed.
Lemma usedS_ok s : forall blk m d, (forall v, In v (evS blk m s) -> useOk v) -> blk && removedAssign D s = false -> In d (usedS (remove D s)) -> rem d = false.
Proof.
  induction s using stmt_ind2; intros blk mm d Hok Hn Hd.
  - exact (usedE_ok blk e d Hok Hn Hd).
  - cbn [remove] in Hd. assert (Hd' : In d (flat_map usedD (liveDecls D ds))) by (destruct (liveDecls D ds); exact Hd).
    apply in_flat_map in Hd'. destruct Hd' as (x & Hx & Hd'). unfold liveDecls in Hx. apply filter_In in Hx. destruct Hx as [Hx _].
    apply (usedD_ok mm x); [|exact Hd']. intros v Hv. apply Hok. apply in_flat_map. exists x. auto.
  - cbn [remove usedS] in Hd. apply in_flat_map in Hd. destruct Hd as (s & Hs & Hd). apply in_map_iff in Hs. destruct Hs as (s0 & E & Hs0).
    destruct (removedAssign D s0) eqn:Er; [subst s; destruct Hd|]. subst s.
    apply (proj1 (Forall_forall _ _) H s0 Hs0 true m d); [|exact Er|exact Hd]. intros v Hv. apply Hok. cbn [evS]. apply in_flat_map. exists s0. auto.
  - cbn [remove usedS evS] in *. rewrite !in_app_iff in Hd. destruct Hd as [Hd|[Hd|Hd]].
    + apply (usedE_ok false e); [|reflexivity|exact Hd]. intros v Hv. apply Hok. rewrite !in_app_iff. auto.
    + apply (IHs1 false mm); [|reflexivity|exact Hd]. intros v Hv. apply Hok. rewrite !in_app_iff. auto.
    + apply (IHs2 false mm); [|reflexivity|exact Hd]. intros v Hv. apply Hok. rewrite !in_app_iff. auto.
  - cbn [remove usedS evS] in *. rewrite !in_app_iff in Hd. destruct Hd as [Hd|Hd].
    + apply (usedE_ok false e); [|reflexivity|exact Hd]. intros v Hv. apply Hok. rewrite !in_app_iff. auto.
    + apply (IHs false mm); [|reflexivity|exact Hd]. intros v Hv. apply Hok. rewrite !in_app_iff. auto.
  - cbn [remove usedS evS] in *. rewrite !in_app_iff in Hd. destruct Hd as [Hd|[Hd|[Hd|Hd]]].
    + apply (IHs1 false m); [|reflexivity|exact Hd]. intros v Hv. apply Hok. rewrite !in_app_iff. auto.
    + apply (usedE_ok false c); [|reflexivity|exact Hd]. intros v Hv. apply Hok. rewrite !in_app_iff. auto.
    + apply (IHs2 false m); [|reflexivity|exact Hd]. intros v Hv. apply Hok. rewrite !in_app_iff. auto.
    + apply (IHs3 false m); [|reflexivity|exact Hd]. intros v Hv. apply Hok. rewrite !in_app_iff. auto.
  - exact (usedO_ok e d Hok Hd).
  - destruct Hd.
  - destruct Hd.
Qed.
End Names.
(** constants of enumerations which are used *)
Lemma evS_const s : forall blk m t, In (VConst t) (evS blk m s) -> In t (constsS s).
Proof.
  assert (HE : forall e blk t, In (VConst t) (evE blk e) -> In t (constsE e)).
  { induction e using expr_ind2; intros blk x Hin; try (cbn [evE In] in Hin; destruct Hin as [Hin|[]]; discriminate Hin).
    - destruct Hin.
    - destruct Hin as [Hin|[]]. injection Hin as ->. left. reflexivity.
    - exact (IHe _ _ Hin).
    - cbn [evE constsE] in *. apply in_flat_map in Hin. destruct Hin as (y & Hy & Hin). apply in_flat_map. exists y. split; [exact Hy|exact (proj1 (Forall_forall _ _) H y Hy _ _ Hin)].
    - cbn [constsE]. apply in_app_iff. destruct (notRef e1) eqn:En.
      { rewrite evE_other in Hin by exact En. destruct Hin as [Hin|Hin]; [discriminate|]. apply in_app_iff in Hin. destruct Hin as [Hin|Hin]; [left; exact (IHe1 _ _ Hin)|right; exact (IHe2 _ _ Hin)]. }
      destruct e1; try discriminate En. cbn [evE] in Hin. right. destruct (blk && negb (hasEffect e2)).
      + destruct Hin as [Hin|Hin]; [discriminate|exact (IHe2 _ _ Hin)].
      + destruct Hin as [Hin|[Hin|Hin]]; [discriminate|discriminate|exact (IHe2 _ _ Hin)].
    - cbn [evE constsE] in *. apply in_app_iff in Hin. apply in_app_iff. destruct Hin as [Hin|Hin]; [left; exact (IHe1 _ _ Hin)|right; exact (IHe2 _ _ Hin)].
    - exact (IHe _ _ Hin).
    - cbn [evE constsE] in *. apply in_flat_map in Hin. destruct Hin as (y & Hy & Hin). apply in_flat_map. exists y. split; [exact Hy|exact (proj1 (Forall_forall _ _) H y Hy _ _ Hin)]. }
  assert (HO : forall e t, In (VConst t) (evO e) -> In t (constsO e)) by (intros [e|] t Ht; [exact (HE e false t Ht)|destruct Ht]).
  induction s using stmt_ind2; intros blk mm t Hin; cbn [evS constsS] in *.
  - exact (HE _ _ _ Hin).
  - apply in_flat_map in Hin. destruct Hin as (d & Hd & Hin). apply in_flat_map. exists d. split; [exact Hd|].
    unfold evD in Hin. destruct Hin as [Hin|Hin]; [discriminate|]. destruct d as [v|d|x]; [|destruct Hin|destruct Hin]. cbn [constsD].
    rewrite !in_app_iff in Hin. rewrite in_app_iff. destruct Hin as [Hin|[Hin|Hin]]; [|left; exact (HO _ _ Hin)|right; exact (HO _ _ Hin)].
    destruct (vType v); [destruct Hin as [Hin|[]]; discriminate Hin|destruct Hin].
  - apply in_flat_map in Hin. destruct Hin as (s & Hs & Hin). apply in_flat_map. exists s. split; [exact Hs|exact (proj1 (Forall_forall _ _) H s Hs _ _ _ Hin)].
  - rewrite !in_app_iff in *. destruct Hin as [Hin|[Hin|Hin]]; [left; exact (HE _ _ _ Hin)|right; left; exact (IHs1 _ _ _ Hin)|right; right; exact (IHs2 _ _ _ Hin)].
  - rewrite !in_app_iff in *. destruct Hin as [Hin|Hin]; [left; exact (HE _ _ _ Hin)|right; exact (IHs _ _ _ Hin)].
  - rewrite !in_app_iff in *. destruct Hin as [Hin|[Hin|[Hin|Hin]]]; [left; exact (IHs1 _ _ _ Hin)|right; left; exact (HE _ _ _ Hin)|right; right; left; exact (IHs2 _ _ _ Hin)|right; right; right; exact (IHs3 _ _ _ Hin)].
  - exact (HO _ _ Hin).
  - destruct Hin.
  - destruct Hin.
Qed.
Theorem eliminate_names ps body d : wellFormed ps body -> (forall t, In t (constsS body) -> ~ In t (map declId (declsS body))) ->
  In d (usedS (eliminate ps body)) -> In d (map declId (declsS body)) -> In d (map declId (declsS (eliminate ps body))).
Proof.
  intros WF Hc Hd Hin. set (D := deadDecls ps body).
  assert (Hu : isDead D d = false).
  { apply (usedS_ok D body false false d); [|reflexivity|exact Hd]. intros v Hv. destruct v as [e|x|t|x a|a]; cbn [useOk].
    - exact Logic.I.
    - exact (D_use ps body WF x Hv).
    - apply not_true_is_false. intros H. exact (Hc t (evS_const _ _ _ _ Hv) (D_names ps body WF t H)).
    - exact (D_assign ps body WF x a Hv).
    - exact Logic.I. }
  unfold eliminate. rewrite declsS_remove. apply in_map_iff in Hin. destruct Hin as (x & <- & Hx). apply in_map. unfold liveDecls.
  apply filter_In. split; [exact Hx|]. fold D. rewrite Hu. reflexivity.
Qed.

Definition idsG (gs : list (list decl)) : list nat := flat_map (map declId) gs.
Lemma groups_ids s : NoDup (map declId (declsS s)) -> NoDup (idsG (groups s)) /\ incl (idsG (groups s)) (map declId (declsS s)).
Proof.
  assert (Happ : forall a b c d : list nat, NoDup (a ++ b) -> NoDup c /\ incl c a -> NoDup d /\ incl d b -> NoDup (c ++ d) /\ incl (c ++ d) (a ++ b)).
  { intros a b c d Hn [Hc Hi] [Hd Hj]. split; [|intros x Hx; apply in_app_iff in Hx; apply in_app_iff; destruct Hx; auto].
    revert Hi. induction Hc as [|x c Hx Hc IH]; intros Hi; [exact Hd|]. cbn [app]. constructor; [|apply IH; intros y Hy; apply Hi; right; exact Hy].
    rewrite in_app_iff. intros [H|H]; [exact (Hx H)|]. exact (NoDup_app_disj _ _ x Hn (Hi x (or_introl eq_refl)) (Hj x H)). }
  unfold idsG. induction s using stmt_ind2; intros Hn; try (split; [constructor|intros x []]).
  - cbn [groups declsS] in *. destruct ds as [|d [|d' ds]]; [split; [constructor|intros x []]|split; [constructor|intros x []]|].
    cbn [flat_map]. rewrite app_nil_r. split; [exact Hn|apply incl_refl].
  - cbn [groups declsS] in *. induction H as [|s l Hs H IH]; [split; [constructor|intros x []]|].
    cbn [flat_map] in *. rewrite map_app in Hn |- *. rewrite flat_map_app. apply Happ; [exact Hn|apply Hs, (NoDup_app_l _ _ Hn)|apply IH, (NoDup_app_r _ _ Hn)].
  - cbn [groups declsS] in *. rewrite map_app in Hn |- *. rewrite flat_map_app. apply Happ; [exact Hn|apply IHs1, (NoDup_app_l _ _ Hn)|apply IHs2, (NoDup_app_r _ _ Hn)].
  - exact (IHs Hn).
  - cbn [groups declsS] in *. rewrite !map_app in Hn |- *. rewrite !flat_map_app.
    apply Happ; [exact Hn|apply IHs1, (NoDup_app_l _ _ Hn)|]. apply NoDup_app_r in Hn. apply Happ; [exact Hn|apply IHs2, (NoDup_app_l _ _ Hn)|apply IHs3, (NoDup_app_r _ _ Hn)].
Qed.
Lemma isDead_eraseAll g st d : isDead (fold_left (fun st d => erase (declId d) st) g st) d = isDead st d && negb (existsb (Nat.eqb d) (map declId g)).
Proof.
  apply eq_true_iff_eq. rewrite andb_true_iff, !isDead_true, negb_true_iff. split.
  - intros (e & He & <-). apply eraseAll_in in He. destruct He as [He Hn]. split; [exists e; auto|].
    apply not_true_is_false. rewrite existsb_exists. intros (x & Hx & E). apply Nat.eqb_eq in E. subst x. exact (Hn Hx).
  - intros [(e & He & <-) Hn]. exists e. split; [|reflexivity]. apply eraseAll_in. split; [exact He|]. intros H.
    apply not_true_iff_false in Hn. apply Hn. apply existsb_exists. exists (declId (eDecl e)). split; [exact H|apply Nat.eqb_refl].
Qed.
Lemma checkGroup_other st g d : ~ In d (map declId g) -> isDead (checkGroup st g) d = isDead st d.
Proof.
  intros H. unfold checkGroup. destruct (forallb _ g); [reflexivity|]. rewrite isDead_eraseAll.
  assert (E : existsb (Nat.eqb d) (map declId g) = false).
  { apply not_true_is_false. rewrite existsb_exists. intros (x & Hx & E). apply Nat.eqb_eq in E. subst x. exact (H Hx). }
  rewrite E. apply andb_true_r.
Qed.
Lemma checkGroups_other gs : forall st d, ~ In d (idsG gs) -> isDead (fold_left checkGroup gs st) d = isDead st d.
Proof.
  induction gs as [|g gs IH]; intros st d H; [reflexivity|]. unfold idsG in H. cbn [flat_map] in H. rewrite in_app_iff in H.
  cbn [fold_left]. rewrite IH by tauto. apply checkGroup_other. tauto.
Qed.
Lemma checkGroups_all gs : NoDup (idsG gs) -> forall st g, In g gs ->
  (forall d, In d g -> isDead (fold_left checkGroup gs st) (declId d) = true) \/ (forall d, In d g -> isDead (fold_left checkGroup gs st) (declId d) = false).
Proof.
  induction gs as [|g0 gs IH]; intros Hn st g Hg; [destruct Hg|]. unfold idsG in Hn. cbn [flat_map] in Hn. cbn [fold_left].
  destruct Hg as [<-|Hg]; [|apply IH; [exact (NoDup_app_r _ _ Hn)|exact Hg]].
  assert (Ho : forall d, In d g0 -> isDead (fold_left checkGroup gs (checkGroup st g0)) (declId d) = isDead (checkGroup st g0) (declId d)).
  { intros d Hd. apply checkGroups_other. apply (NoDup_app_disj _ _ _ Hn). apply in_map. exact Hd. }
  unfold checkGroup in Ho at 2. unfold checkGroup at 2 4. destruct (forallb (fun d => isDead st (declId d)) g0) eqn:Ef.
  - left. intros d Hd. rewrite checkGroups_other by (apply (NoDup_app_disj _ _ _ Hn), in_map, Hd). exact (proj1 (forallb_forall _ _) Ef d Hd).
  - right. intros d Hd. rewrite checkGroups_other by (apply (NoDup_app_disj _ _ _ Hn), in_map, Hd). rewrite isDead_eraseAll.
    assert (E : existsb (Nat.eqb (declId d)) (map declId g0) = true) by (apply existsb_exists; exists (declId d); split; [apply in_map; exact Hd|apply Nat.eqb_refl]).
    rewrite E. apply andb_false_r.
Qed.
Lemma declStmts_groups s ds : In ds (declStmts s) -> In ds (groups s) \/ (length ds < 2).
Proof.
  induction s using stmt_ind2; cbn [declStmts groups]; intros Hin; try contradiction Hin.
  - destruct Hin as [<-|[]]. destruct ds0 as [|d [|d' ds]]; [right; cbn; lia|right; cbn; lia|left; left; reflexivity].
  - apply in_flat_map in Hin. destruct Hin as (s & Hs & Hin). destruct (proj1 (Forall_forall _ _) H s Hs Hin); [left; apply in_flat_map; exists s; auto|auto].
  - rewrite !in_app_iff in *. destruct Hin as [H|H]; [destruct (IHs1 H)|destruct (IHs2 H)]; auto.
  - exact (IHs Hin).
  - rewrite !in_app_iff in *. destruct Hin as [H|[H|H]]; [destruct (IHs1 H)|destruct (IHs2 H)|destruct (IHs3 H)]; auto.
Qed.
Lemma liveDecls_all D ds : (forall d, In d ds -> isDead D (declId d) = true) -> liveDecls D ds = [].
Proof. induction ds as [|d ds IH]; intros H; [reflexivity|]. cbn [liveDecls filter]. rewrite (H d (or_introl eq_refl)). apply IH. intros x Hx. apply H. right. exact Hx. Qed.
Lemma liveDecls_none D ds : (forall d, In d ds -> isDead D (declId d) = false) -> liveDecls D ds = ds.
Proof. induction ds as [|d ds IH]; intros H; [reflexivity|]. cbn [liveDecls filter]. rewrite (H d (or_introl eq_refl)). cbn [negb]. f_equal. apply IH. intros x Hx. apply H. right. exact Hx. Qed.
Lemma declStmts_remove D s ds : (forall g, In g (declStmts s) -> liveDecls D g = [] \/ liveDecls D g = g) -> In ds (declStmts (remove D s)) -> In ds (declStmts s).
Proof.
  induction s using stmt_ind2; intros Hg Hin; try exact Hin.
  - cbn [remove declStmts] in *. destruct (Hg ds0 (or_introl eq_refl)) as [E|E]; rewrite E in Hin; [destruct Hin|]. destruct ds0; [destruct Hin|exact Hin].
  - cbn [remove declStmts] in *. apply in_flat_map in Hin. destruct Hin as (s & Hs & Hin). apply in_map_iff in Hs. destruct Hs as (s0 & E & Hs0).
    destruct (removedAssign D s0); [subst s; destruct Hin|]. subst s. apply in_flat_map. exists s0. split; [exact Hs0|].
    apply (proj1 (Forall_forall _ _) H s0 Hs0); [|exact Hin]. intros g Hg0. apply Hg. apply in_flat_map. exists s0. auto.
  - cbn [remove declStmts] in *. rewrite !in_app_iff in *. destruct Hin as [Hin|Hin]; [left; apply IHs1|right; apply IHs2]; try exact Hin; intros g Hg0; apply Hg; rewrite !in_app_iff; auto.
  - exact (IHs Hg Hin).
  - cbn [remove declStmts] in *. rewrite !in_app_iff in *. destruct Hin as [Hin|[Hin|Hin]]; [left; apply IHs1|right; left; apply IHs2|right; right; apply IHs3]; try exact Hin; intros g Hg0; apply Hg; rewrite !in_app_iff; auto.
Qed.
Theorem eliminate_groups ps body ds : wellFormed ps body -> In ds (declStmts (eliminate ps body)) -> In ds (declStmts body).
Proof.
  intros (Hn & _ & _). apply NoDup_app_r in Hn. apply groups_ids in Hn. destruct Hn as [Hn _].
  apply declStmts_remove. intros g Hg. destruct (declStmts_groups _ _ Hg) as [H|H].
  - destruct (checkGroups_all (groups body) Hn (filter mayRemove (visitS false false body (visitParams ps []))) g H) as [H1|H1].
    + left. apply liveDecls_all. exact H1.
    + right. apply liveDecls_none. exact H1.
  - destruct g as [|d [|d' g]]; [left; reflexivity| |cbn in H; lia]. cbn [liveDecls filter]. destruct (isDead _ _); auto.
Qed.

(** * What is removed *)
Lemma steps_present evs e : In (VDecl e) evs -> ~ In (VUse (declId (eDecl e))) evs -> isDead (fold_left step evs []) (declId (eDecl e)) = true.
Proof.
  induction evs as [|v evs IH] using rev_ind; intros Hin Hn; [destruct Hin|]. rewrite fold_left_app. cbn [fold_left].
  rewrite in_app_iff in Hn. apply in_app_iff in Hin. remember (fold_left step evs []) as st eqn:Est. clear Est.
  destruct Hin as [Hin|[->|[]]].
  - specialize (IH Hin (fun H => Hn (or_introl H))). apply isDead_true in IH. destruct IH as (x & Hx & E). apply isDead_true.
    destruct v as [y|d|t|d a|a]; cbn [step].
    + exists x. split; [|exact E]. unfold emplace. destruct (isDead st (declId (eDecl y))); [exact Hx|apply in_app_iff; auto].
    + exists x. split; [|exact E]. apply erase_in. split; [exact Hx|]. intros E2. apply Hn. right. left. congruence.
    + exists x. auto.
    + exists (if Nat.eqb (declId (eDecl x)) d then mkE (eDecl x) (eMacro x) (eAcc x ++ [a]) else x). split.
      * unfold addAccess. exact (in_map (fun e => if Nat.eqb (declId (eDecl e)) d then mkE (eDecl e) (eMacro e) (eAcc e ++ [a]) else e) st x Hx).
      * destruct (Nat.eqb (declId (eDecl x)) d); exact E.
    + exists x. auto.
  - cbn [step]. unfold emplace. destruct (isDead st (declId (eDecl e))) eqn:Ed; [exact Ed|]. apply isDead_true. exists e. split; [|reflexivity]. apply in_app_iff. right. left. reflexivity.
Qed.
Lemma declsS_concat s : declsS s = concat (declStmts s).
Proof.
  induction s using stmt_ind2; try reflexivity.
  - cbn [declsS declStmts concat]. rewrite app_nil_r. reflexivity.
  - cbn [declsS declStmts]. induction H as [|s l Hs H IH]; [reflexivity|]. cbn [flat_map]. rewrite concat_app, Hs, IH. reflexivity.
  - cbn [declsS declStmts]. rewrite concat_app, IHs1, IHs2. reflexivity.
  - exact IHs.
  - cbn [declsS declStmts]. rewrite !concat_app, IHs1, IHs2, IHs3. reflexivity.
Qed.
Lemma evS_present s d : In d (declsS s) -> forall blk m, exists m', In (VDecl (mkE d m' [])) (evS blk m s).
Proof.
  induction s using stmt_ind2; intros Hin blk mm; try contradiction Hin; cbn [declsS evS] in *.
  - exists mm. apply in_flat_map. exists d. split; [exact Hin|left; reflexivity].
  - apply in_flat_map in Hin. destruct Hin as (s & Hs & Hin). destruct (proj1 (Forall_forall _ _) H s Hs Hin true m) as (m' & Hm). exists m'. apply in_flat_map. exists s. auto.
  - apply in_app_iff in Hin. destruct Hin as [Hin|Hin]; [destruct (IHs1 Hin false mm) as (m' & Hm)|destruct (IHs2 Hin false mm) as (m' & Hm)]; exists m'; rewrite !in_app_iff; auto.
  - destruct (IHs Hin false mm) as (m' & Hm). exists m'. rewrite !in_app_iff. auto.
  - rewrite !in_app_iff in Hin. destruct Hin as [Hin|[Hin|Hin]]; [destruct (IHs1 Hin false m) as (m' & Hm)|destruct (IHs2 Hin false m) as (m' & Hm)|destruct (IHs3 Hin false m) as (m' & Hm)]; exists m'; rewrite !in_app_iff; auto.
Qed.
Lemma evS_macro s : noMacros s = true -> forall blk e, In (VDecl e) (evS blk false s) -> eMacro e = false.
Proof.
  induction s using stmt_ind2; intros Hm blk x Hin; cbn [evS noMacros] in *.
  - destruct (evE_nodecl _ _ _ Hin).
  - apply in_flat_map in Hin. destruct Hin as (d & Hd & Hin). unfold evD in Hin. destruct Hin as [Hin|Hin]; [injection Hin as <-; reflexivity|].
    destruct d as [v|d|t]; [|destruct Hin|destruct Hin]. rewrite !in_app_iff in Hin. destruct Hin as [Hin|[Hin|Hin]]; [|destruct (evO_nodecl _ _ Hin)|destruct (evO_nodecl _ _ Hin)].
    destruct (vType v); [destruct Hin as [Hin|[]]; discriminate Hin|destruct Hin].
  - apply andb_true_iff in Hm. destruct Hm as [Hm1 Hm2]. apply negb_true_iff in Hm1. subst m. apply in_flat_map in Hin. destruct Hin as (s & Hs & Hin).
    exact (proj1 (Forall_forall _ _) H s Hs (proj1 (forallb_forall _ _) Hm2 s Hs) true x Hin).
  - apply andb_true_iff in Hm. destruct Hm as [Hm1 Hm2]. rewrite !in_app_iff in Hin. destruct Hin as [Hin|[Hin|Hin]]; [destruct (evE_nodecl _ _ _ Hin)|exact (IHs1 Hm1 _ _ Hin)|exact (IHs2 Hm2 _ _ Hin)].
  - rewrite !in_app_iff in Hin. destruct Hin as [Hin|Hin]; [destruct (evE_nodecl _ _ _ Hin)|exact (IHs Hm _ _ Hin)].
  - rewrite !andb_true_iff in Hm. destruct Hm as [[[Hm1 Hm2] Hm3] Hm4]. apply negb_true_iff in Hm1. subst m.
    rewrite !in_app_iff in Hin. destruct Hin as [Hin|[Hin|[Hin|Hin]]]; [exact (IHs1 Hm2 _ _ Hin)|destruct (evE_nodecl _ _ _ Hin)|exact (IHs2 Hm3 _ _ Hin)|exact (IHs3 Hm4 _ _ Hin)].
  - destruct (evO_nodecl _ _ Hin).
  - destruct Hin.
  - destruct Hin.
Qed.
Lemma groups_declStmts s g : In g (groups s) -> In g (declStmts s) /\ 2 <= length g.
Proof.
  induction s using stmt_ind2; intros Hin; try contradiction Hin; cbn [groups declStmts] in *.
  - destruct ds as [|d [|d' ds]]; try contradiction Hin. destruct Hin as [<-|[]]. split; [left; reflexivity|cbn; lia].
  - apply in_flat_map in Hin. destruct Hin as (s & Hs & Hin). destruct (proj1 (Forall_forall _ _) H s Hs Hin). split; [apply in_flat_map; exists s; auto|assumption].
  - rewrite !in_app_iff in *. destruct Hin as [Hin|Hin]; [destruct (IHs1 Hin)|destruct (IHs2 Hin)]; auto.
  - exact (IHs Hin).
  - rewrite !in_app_iff in *. destruct Hin as [Hin|[Hin|Hin]]; [destruct (IHs1 Hin)|destruct (IHs2 Hin)|destruct (IHs3 Hin)]; auto.
Qed.
Theorem eliminate_unused ps body v : wellFormed ps body -> noMacros body = true -> In [DVar v] (declStmts body) -> ~ In (vId v) (usedS body) ->
  (forall e, vInit v = Some e -> calm e = true) -> ~ In (vId v) (map declId (declsS (eliminate ps body))).
Proof.
  intros WF Hm Hin Hu Hi H. unfold eliminate in H. rewrite declsS_remove in H. apply in_map_iff in H. destruct H as (x & Ex & Hx).
  unfold liveDecls in Hx. apply filter_In in Hx. destruct Hx as [_ Hx]. rewrite Ex in Hx. apply negb_true_iff in Hx. revert Hx. apply not_false_iff_true.
  assert (Hd : In (DVar v) (declsS body)) by (rewrite declsS_concat; apply in_concat; exists [DVar v]; split; [exact Hin|left; reflexivity]).
  assert (Hnu : ~ In (VUse (vId v)) (evAll ps body)).
  { unfold evAll. rewrite in_app_iff. intros [H|H]; [unfold evP in H; apply in_map_iff in H; destruct H as (p & H & _); discriminate H|].
    apply Hu. assert (H1 : In (IUse (vId v)) (items body)) by (rewrite <- (items_ev body false false); apply in_flat_map; exists (VUse (vId v)); split; [exact H|left; reflexivity]).
    clear -H1. induction body using stmt_ind2; cbn [items usedS] in *; try contradiction H1.
    - unfold usesI in H1. apply in_map_iff in H1. destruct H1 as (y & E & H1). injection E as ->. exact H1.
    - apply in_flat_map in H1. destruct H1 as (d & Hd & H1). apply in_flat_map. exists d. split; [exact Hd|]. unfold itemsD in H1. destruct H1 as [H1|H1]; [discriminate H1|].
      unfold usesI in H1. apply in_map_iff in H1. destruct H1 as (y & E & H1). injection E as ->. exact H1.
    - apply in_flat_map in H1. destruct H1 as (s & Hs & H1). apply in_flat_map. exists s. split; [exact Hs|exact (proj1 (Forall_forall _ _) H s Hs H1)].
    - rewrite !in_app_iff in *. destruct H1 as [H1|[H1|H1]]; [left; unfold usesI in H1; apply in_map_iff in H1; destruct H1 as (y & E & H1); injection E as ->; exact H1|auto|auto].
    - rewrite !in_app_iff in *. destruct H1 as [H1|H1]; [left; unfold usesI in H1; apply in_map_iff in H1; destruct H1 as (y & E & H1); injection E as ->; exact H1|auto].
    - rewrite !in_app_iff in *. destruct H1 as [H1|[H1|[H1|H1]]]; [auto|right; left; unfold usesI in H1; apply in_map_iff in H1; destruct H1 as (y & E & H1); injection E as ->; exact H1|auto|auto].
    - unfold usesI in H1. apply in_map_iff in H1. destruct H1 as (y & E & H1). injection E as ->. exact H1. }
  destruct (evS_present body (DVar v) Hd false false) as (m' & Hev).
  assert (Hall : In (VDecl (mkE (DVar v) m' [])) (evAll ps body)) by (apply in_app_iff; right; exact Hev).
  assert (Hp := steps_present _ _ Hall Hnu). cbn [eDecl declId] in Hp. apply isDead_true in Hp. destruct Hp as (e & He & Ee).
  destruct (inv_steps _ e He) as (pre & post & e0 & E & E1 & E2 & _).
  assert (He0 : In (VDecl e0) (evAll ps body)) by (rewrite E; apply in_app_iff; right; left; reflexivity).
  destruct WF as (Hn & _ & _).
  assert (Hb : In (VDecl e0) (evS false false body)).
  { apply in_app_iff in He0. destruct He0 as [He0|He0]; [|exact He0]. exfalso. unfold evP in He0. apply in_map_iff in He0. destruct He0 as (p & E0 & Hp). injection E0 as <-.
    cbn [eDecl] in E1. rewrite <- E1 in Ee. cbn [declId] in Ee. subst p. apply (NoDup_app_disj _ _ _ Hn Hp). exact (in_map declId _ _ Hd). }
  destruct (evS_decl _ _ _ _ Hb) as [Hin0 _].
  assert (Ed : eDecl e = DVar v).
  { rewrite <- E1. apply (NoDup_map_same declId (declsS body)); [exact (NoDup_app_r _ _ Hn)|exact Hin0|exact Hd|rewrite E1; exact Ee]. }
  assert (Hmr : mayRemove e = true).
  { unfold mayRemove. rewrite Ed, <- E2, (evS_macro body Hm _ _ Hb). unfold optEffect. destruct (vInit v) as [i|] eqn:Ei; [|reflexivity].
    specialize (Hi i eq_refl). rewrite calm_effect in Hi. rewrite Hi. reflexivity. }
  unfold deadDecls. rewrite checkGroups_other.
  - apply isDead_true. exists e. split; [|exact Ee]. apply filter_In. split; [rewrite visit_all; exact He|exact Hmr].
  - unfold idsG. intros H. apply in_flat_map in H. destruct H as (g & Hg & H). apply groups_declStmts in Hg. destruct Hg as [Hg Hl].
    apply NoDup_app_r in Hn. rewrite declsS_concat in Hn.
    assert (Hn' : NoDup (flat_map (map declId) (declStmts body))).
    { rewrite flat_map_concat_map. rewrite concat_map in Hn. exact Hn. }
    assert (Eg := NoDup_flat_same (map declId) _ g [DVar v] (vId v) Hn' Hg Hin H (or_introl eq_refl)). subst g. cbn in Hl. lia.
Qed.
