(** Proofs about the choice for interprocedural optimization of data transfer. *)
From Coq Require Import PeanoNat Bool List Lia.
From Verif Require Import IpoModel IpoSpec.
Import ListNotations.

Lemma mem_In x l : mem x l = true <-> In x l.
Proof.
  unfold mem; rewrite existsb_exists; split.
  - intros (y & I1 & E); apply Nat.eqb_eq in E; subst; exact I1.
  - intro I1; exists x; split; [exact I1|apply Nat.eqb_refl].
Qed.
Lemma remove1_In x y l : In y (remove1 x l) <-> In y l /\ x <> y.
Proof. unfold remove1. rewrite filter_In, negb_true_iff, Nat.eqb_neq. reflexivity. Qed.
Lemma find_set f e m k : find k (set f e m) = if Nat.eqb f k then Some e else find k m.
Proof.
  induction m as [|[j x] m IH]; cbn.
  - destruct (Nat.eqb f k); reflexivity.
  - destruct (Nat.eqb j f) eqn:E; cbn.
    + apply Nat.eqb_eq in E; subst j. destruct (Nat.eqb f k); reflexivity.
    + rewrite IH. destruct (Nat.eqb j k) eqn:Ek; [|reflexivity].
      apply Nat.eqb_eq in Ek; subst j. rewrite (Nat.eqb_sym f k), E. reflexivity.
Qed.
Definition proj (b : bool) (s : state) : list nat := if b then sAct s else sGet s.
Lemma tracked_glob b g s : In g (proj b s) -> tracked (OGlob g) s = Some g.
Proof.
  intro H. unfold tracked. replace (mem g (sAct s) || mem g (sGet s)) with true; [reflexivity|].
  symmetry. apply orb_true_iff. destruct b; [left|right]; apply mem_In; exact H.
Qed.
Lemma tracked_some o s g : tracked o s = Some g -> o = OGlob g.
Proof. destruct o; cbn; try discriminate. destruct (_ || _); [|discriminate]. intro E; injection E as <-; reflexivity. Qed.
Lemma erase_In b g h s : In g (proj b (erase h s)) <-> In g (proj b s) /\ h <> g.
Proof. destruct b; cbn; apply remove1_In. Qed.
Lemma eraseObj_In b g s o : In g (proj b (eraseObj s o)) <-> In g (proj b s) /\ o <> OGlob g.
Proof.
  unfold eraseObj. destruct (tracked o s) as [h|] eqn:T.
  - apply tracked_some in T; subst o. rewrite erase_In. split; intros [A B]; split; try exact A; congruence.
  - split; [|tauto]. intro A. split; [exact A|]. intros ->. rewrite (tracked_glob b g s A) in T. discriminate T.
Qed.
Lemma eraseObjs_In b g os : forall s, In g (proj b (fold_left eraseObj os s)) <-> In g (proj b s) /\ ~ In (OGlob g) os.
Proof.
  induction os as [|o os IH]; intro s; cbn [fold_left]; [cbn; tauto|].
  rewrite IH, eraseObj_In. cbn. split.
  - intros [[A B] C]. split; [exact A|]. intros [->|I1]; [apply B; reflexivity|exact (C I1)].
  - intros [A B]. split; [split; [exact A|]|]; intro Q; apply B; [left; exact Q|right; exact Q].
Qed.
Section Program.
  Variable P : list func.
  Variable server : nat -> nat.
  Variable noExternal : bool.
  Lemma captures_no c k : ~ captures P c k <-> noCapture P c k = true.
  Proof.
    unfold captures, noCapture. destruct (nth_error P c) as [y|].
    - destruct (nth_error (fNoCapture y) k) as [b|] eqn:N.
      + destruct b; split; intro H.
        * reflexivity.
        * intro Q. exact (Q y eq_refl N).
        * exfalso. apply H. intros z E. injection E as <-. rewrite N. discriminate.
        * discriminate H.
      + split; intro H; [exfalso; apply H; intros z E; injection E as <-; rewrite N; discriminate|discriminate H].
    - split; intro H; [exfalso; apply H; intros z E; discriminate E|discriminate H].
  Qed.
  Lemma visitArg_In b g f c k o s : In g (proj b (visitArg P server f c k o s)) <->
    In g (proj b s) /\ (o = OGlob g -> exists c', c = Some c' /\ ~ captures P c' k).
  Proof.
    unfold visitArg. destruct (tracked o s) as [h|] eqn:T.
    - apply tracked_some in T; subst o. destruct c as [c|].
      + destruct (noCapture P c k) eqn:N.
        * replace (In g (proj b (if isDecl P c then s else _))) with (In g (proj b s)) by (destruct (isDecl P c), b; reflexivity).
          split; [|tauto]. intro A. split; [exact A|]. intros _. exists c. split; [reflexivity|apply captures_no; exact N].
        * rewrite erase_In. split; intros [A B]; split; try exact A.
          -- intro Q. injection Q as ->. destruct B; reflexivity.
          -- intros ->. destruct (B eq_refl) as (c' & Ec & Nc). injection Ec as <-. apply captures_no in Nc. congruence.
      + rewrite erase_In. split; intros [A B]; split; try exact A.
        * intro Q. injection Q as ->. destruct B; reflexivity.
        * intros ->. destruct (B eq_refl) as (c' & Ec & _). discriminate Ec.
    - split; [|tauto]. intro A. split; [exact A|]. intros ->. rewrite (tracked_glob b g s A) in T. discriminate T.
  Qed.
  Lemma visitArgs_In b g f c os : forall k s, In g (proj b (visitArgs P server f c k os s)) <->
    In g (proj b s) /\ forall j, nth_error os j = Some (OGlob g) -> exists c', c = Some c' /\ ~ captures P c' (k + j).
  Proof.
    induction os as [|o os IH]; intros k s; cbn [visitArgs].
    - split; [|tauto]. intro A. split; [exact A|]. intros [|j] E; discriminate E.
    - rewrite IH, visitArg_In. split.
      + intros [[A B] C]. split; [exact A|]. intros [|j] E; cbn in E.
        * injection E as ->. rewrite Nat.add_0_r. exact (B eq_refl).
        * rewrite <- plus_n_Sm. exact (C j E).
      + intros [A B]. split; [split; [exact A|]|].
        * intros ->. specialize (B 0 eq_refl). rewrite Nat.add_0_r in B. exact B.
        * intros j E. specialize (B (S j) E). rewrite <- plus_n_Sm in B. exact B.
  Qed.
  Lemma visitInstr_In b g f s i : In g (proj b (visitInstr P server f s i)) <-> In g (proj b s) /\ harmless P g i.
  Proof.
    destruct i as [p t|v p|c args t|o|o|os t]; cbn [visitInstr harmless].
    - tauto.
    - apply eraseObj_In.
    - rewrite visitArgs_In. cbn. reflexivity.
    - tauto.
    - apply eraseObj_In.
    - apply eraseObjs_In.
  Qed.
  Lemma visitBody_In b g f is : forall s, In g (proj b (fold_left (visitInstr P server f) is s)) <->
    In g (proj b s) /\ forall i, In i is -> harmless P g i.
  Proof.
    induction is as [|i is IH]; intro s; cbn [fold_left].
    - split; [|tauto]. intro A. split; [exact A|intros i []].
    - rewrite IH, visitInstr_In. split.
      + intros [[A B] C]. split; [exact A|]. intros j [<-|I1]; [exact B|exact (C j I1)].
      + intros [A B]. split; [split; [exact A|apply B; left; reflexivity]|]. intros j I1. apply B. right; exact I1.
  Qed.
  Definition okFor (g : nat) (x : func) : Prop :=
    fDecl x = false /\ (fParallel x = false -> snd (needToOptimize x) = true -> forall i, In i (fBody x) -> harmless P g i).
  Lemma visitFunc_In b g s f x : nth_error P f = Some x ->
    In g (proj b (visitFunc P server noExternal s f)) <-> In g (proj b s) /\ okFor g x.
  Proof.
    intro Nx. unfold visitFunc, okFor. rewrite Nx. destruct (fDecl x).
    - destruct b; cbn; split; intro H; try contradiction; destruct H as [_ [Q _]]; discriminate Q.
    - destruct (needToOptimize x) as [all children] eqn:E. cbn [snd]. destruct children; cbn [negb].
      + destruct (fParallel x).
        * split; [|tauto]. intro A. split; [exact A|]. split; [reflexivity|discriminate].
        * rewrite visitBody_In. replace (In g (proj b (State _ _ _ _))) with (In g (proj b s)) by (destruct b; reflexivity).
          split; intros [A B]; split; try exact A; [split; [reflexivity|intros _ _; exact B]|exact (proj2 B eq_refl eq_refl)].
      + split; [|tauto]. intro A. split; [exact A|]. split; [reflexivity|intros _ Q; discriminate Q].
  Qed.
  Lemma visitAll_In b g order : forall s, (forall f, In f order -> exists x, nth_error P f = Some x) ->
    In g (proj b (fold_left (visitFunc P server noExternal) order s)) <->
    In g (proj b s) /\ forall f x, In f order -> nth_error P f = Some x -> okFor g x.
  Proof.
    induction order as [|f order IH]; intros s D; cbn [fold_left].
    - split; [|tauto]. intro A. split; [exact A|intros f x []].
    - destruct (D f (or_introl eq_refl)) as [x Nx].
      rewrite IH by (intros h Ih; exact (D h (or_intror Ih))). rewrite (visitFunc_In b g s f x Nx). split.
      + intros [[A B] C]. split; [exact A|]. intros h y [<-|I1] Ny; [rewrite Nx in Ny; injection Ny as <-; exact B|exact (C h y I1 Ny)].
      + intros [A B]. split; [split; [exact A|exact (B f x (or_introl eq_refl) Nx)]|].
        intros h y I1 Ny. exact (B h y (or_intror I1) Ny).
  Qed.
  (** sValid *)
  Lemma visitArg_valid f c k o s : sValid (visitArg P server f c k o s) = sValid s.
  Proof. unfold visitArg. destruct (tracked o s); [|reflexivity]. destruct c; [|reflexivity]. destruct (noCapture P n0 k); [|reflexivity]. destruct (isDecl P n0); reflexivity. Qed.
  Lemma visitArgs_valid f c os : forall k s, sValid (visitArgs P server f c k os s) = sValid s.
  Proof. induction os as [|o os IH]; intros k s; cbn [visitArgs]; [reflexivity|]. rewrite IH. apply visitArg_valid. Qed.
  Lemma eraseObj_valid s o : sValid (eraseObj s o) = sValid s.
  Proof. unfold eraseObj. destruct (tracked o s); reflexivity. Qed.
  Lemma visitInstr_valid f s i : sValid (visitInstr P server f s i) = sValid s.
  Proof.
    destruct i as [p t|v p|c args t|o|o|os t]; cbn [visitInstr]; try reflexivity; try apply eraseObj_valid.
    - apply visitArgs_valid.
    - revert s. induction os as [|o os IH]; intro s; cbn [fold_left]; [reflexivity|]. rewrite IH. apply eraseObj_valid.
  Qed.
  Lemma visitBody_valid f is : forall s, sValid (fold_left (visitInstr P server f) is s) = sValid s.
  Proof. induction is as [|i is IH]; intro s; cbn [fold_left]; [reflexivity|]. rewrite IH. apply visitInstr_valid. Qed.
  Lemma visitFunc_valid s f x : nth_error P f = Some x ->
    sValid (visitFunc P server noExternal s f) = sValid s && negb (fDecl x).
  Proof.
    intro Nx. unfold visitFunc. rewrite Nx. destruct (fDecl x); [rewrite andb_false_r; reflexivity|]. rewrite andb_true_r.
    destruct (needToOptimize x) as [all [|]]; cbn [negb]; [|reflexivity]. destruct (fParallel x); [reflexivity|].
    rewrite visitBody_valid. reflexivity.
  Qed.
  Lemma visitAll_valid order : forall s, (forall f, In f order -> exists x, nth_error P f = Some x) ->
    sValid (fold_left (visitFunc P server noExternal) order s) = true <->
    sValid s = true /\ forall f x, In f order -> nth_error P f = Some x -> fDecl x = false.
  Proof.
    induction order as [|f order IH]; intros s D; cbn [fold_left].
    - split; [|tauto]. intro A. split; [exact A|intros f x []].
    - destruct (D f (or_introl eq_refl)) as [x Nx].
      rewrite IH by (intros h Ih; exact (D h (or_intror Ih))). rewrite (visitFunc_valid s f x Nx), andb_true_iff, negb_true_iff. split.
      + intros [[A B] C]. split; [exact A|]. intros h y [<-|I1] Ny; [rewrite Nx in Ny; injection Ny as <-; exact B|exact (C h y I1 Ny)].
      + intros [A B]. split; [split; [exact A|exact (B f x (or_introl eq_refl) Nx)]|].
        intros h y I1 Ny. exact (B h y (or_intror I1) Ny).
  Qed.

  (** * Enabled functions *)
  Definition mayEnable (f : nat) : Prop := exists x, nth_error P f = Some x /\ fDecl x = false /\ fParallel x = false /\
    fTaken x = false /\ (noExternal = false -> fExternal x = false) /\ fst (needToOptimize x) = true.
  Definition enabledOk (s : state) : Prop := forall f ign, find f (sMap s) = Some (true, ign) -> mayEnable f.
  Lemma visitArg_enabled f c k o s : enabledOk s -> enabledOk (visitArg P server f c k o s).
  Proof.
    intro H. unfold visitArg. destruct (tracked o s) as [g|]; [|exact H]. destruct c as [c|]; [|exact H].
    destruct (noCapture P c k); [|exact H]. destruct (isDecl P c); [exact H|].
    intros h ign. cbn [sMap]. rewrite find_set. destruct (Nat.eqb (server c) h) eqn:E; [|apply H].
    apply Nat.eqb_eq in E. intro Q. injection Q as Q1 Q2. rewrite E in *.
    destruct (find h (sMap s)) as [[b l]|] eqn:F; [|discriminate Q1]. cbn in Q1. subst b. exact (H h l F).
  Qed.
  Lemma visitArgs_enabled f c os : forall k s, enabledOk s -> enabledOk (visitArgs P server f c k os s).
  Proof. induction os as [|o os IH]; intros k s H; cbn [visitArgs]; [exact H|]. apply IH, visitArg_enabled, H. Qed.
  Lemma eraseObj_map s o : sMap (eraseObj s o) = sMap s.
  Proof. unfold eraseObj. destruct (tracked o s); reflexivity. Qed.
  Lemma eraseObjs_map os : forall s, sMap (fold_left eraseObj os s) = sMap s.
  Proof. induction os as [|o os IH]; intro s; cbn [fold_left]; [reflexivity|]. rewrite IH. apply eraseObj_map. Qed.
  Lemma visitInstr_enabled f s i : enabledOk s -> enabledOk (visitInstr P server f s i).
  Proof.
    intro H. destruct i as [p t|v p|c args t|o|o|os t]; cbn [visitInstr]; try exact H.
    - unfold enabledOk. rewrite eraseObj_map. exact H.
    - apply visitArgs_enabled, H.
    - unfold enabledOk. rewrite eraseObj_map. exact H.
    - unfold enabledOk. rewrite eraseObjs_map. exact H.
  Qed.
  Lemma visitFunc_enabled s f : enabledOk s -> enabledOk (visitFunc P server noExternal s f).
  Proof.
    intro H. unfold visitFunc. destruct (nth_error P f) as [x|] eqn:Nx; [|exact H].
    destruct (fDecl x) eqn:D; [exact H|]. destruct (needToOptimize x) as [all [|]] eqn:Nt; cbn [negb]; [|exact H].
    destruct (fParallel x) eqn:Pr; [exact H|].
    match goal with |- enabledOk (fold_left _ _ ?s0) => assert (H0 : enabledOk s0) end.
    - intros h ign. cbn [sMap]. rewrite find_set. destruct (Nat.eqb f h) eqn:E; [|apply H].
      apply Nat.eqb_eq in E; subst h. intro Q. injection Q as Q1 Q2.
      destruct (negb noExternal && fExternal x) eqn:Ex; [discriminate Q1|].
      destruct all; [|discriminate Q1]. destruct (fTaken x) eqn:Tk; [discriminate Q1|].
      exists x. split; [exact Nx|]. split; [exact D|]. split; [exact Pr|]. split; [exact Tk|].
      split; [|rewrite Nt; reflexivity]. intros Q. rewrite Q in Ex. exact Ex.
    - revert H0. generalize (fBody x) as is. intro is. match goal with |- enabledOk ?s0 -> _ => generalize s0 end.
      induction is as [|i is IH]; intros s0 H0; cbn [fold_left]; [exact H0|]. apply IH, visitInstr_enabled, H0.
  Qed.
  Lemma visitAll_enabled order : forall s, enabledOk s -> enabledOk (fold_left (visitFunc P server noExternal) order s).
  Proof. induction order as [|f order IH]; intros s H; cbn [fold_left]; [exact H|]. apply IH, visitFunc_enabled, H. Qed.

  (** * Ignored variables *)
  Definition ign (c g : nat) (s : state) : Prop := In g (ignored c s).
  Lemma visitArg_ign c' g f c k o s : ign c' g s -> ign c' g (visitArg P server f c k o s).
  Proof.
    intro H. unfold visitArg. destruct (tracked o s) as [h|]; [|exact H]. destruct c as [c|]; [|exact H].
    destruct (noCapture P c k); [|exact H]. destruct (isDecl P c); [exact H|].
    unfold ign, ignored in *. cbn [sMap]. rewrite find_set. destruct (Nat.eqb (server c) c') eqn:E; [|exact H].
    apply Nat.eqb_eq in E. rewrite E. destruct (find c' (sMap s)) as [e|]; [right; exact H|destruct H].
  Qed.
  Lemma visitArg_new g f c k s b : In g (proj b s) -> noCapture P c k = true -> isDecl P c = false ->
    ign (server c) g (visitArg P server f (Some c) k (OGlob g) s).
  Proof.
    intros K N D. unfold visitArg. rewrite (tracked_glob b g s K), N, D. unfold ign, ignored. cbn [sMap].
    rewrite find_set, Nat.eqb_refl. left; reflexivity.
  Qed.
  Lemma visitArgs_ign c' g f c os : forall k s, ign c' g s -> ign c' g (visitArgs P server f c k os s).
  Proof. induction os as [|o os IH]; intros k s H; cbn [visitArgs]; [exact H|]. apply IH, visitArg_ign, H. Qed.
  Lemma visitArgs_new b g f c os : forall j k s, In g (proj b (visitArgs P server f (Some c) k os s)) ->
    nth_error os j = Some (OGlob g) -> isDecl P c = false -> ign (server c) g (visitArgs P server f (Some c) k os s).
  Proof.
    induction os as [|o os IH]; intros [|j] k s K E D; cbn in E; try discriminate E; cbn [visitArgs] in *.
    - injection E as ->. apply visitArgs_ign. apply visitArgs_In in K as [K _]. apply visitArg_In in K as [K C].
      destruct (C eq_refl) as (c' & Ec & Nc). injection Ec as <-. apply captures_no in Nc.
      exact (visitArg_new g f c k s b K Nc D).
    - exact (IH j (S k) _ K E D).
  Qed.
  Lemma visitInstr_ign c' g f s i : ign c' g s -> ign c' g (visitInstr P server f s i).
  Proof.
    intro H. destruct i as [p t|v p|c args t|o|o|os t]; cbn [visitInstr]; try exact H.
    - unfold ign, ignored. rewrite eraseObj_map. exact H.
    - apply visitArgs_ign, H.
    - unfold ign, ignored. rewrite eraseObj_map. exact H.
    - unfold ign, ignored. rewrite eraseObjs_map. exact H.
  Qed.
  Lemma visitBody_ign c' g f is : forall s, ign c' g s -> ign c' g (fold_left (visitInstr P server f) is s).
  Proof. induction is as [|i is IH]; intros s H; cbn [fold_left]; [exact H|]. apply IH, visitInstr_ign, H. Qed.
  Lemma visitBody_new b g f is c args t j : forall s, In g (proj b (fold_left (visitInstr P server f) is s)) ->
    In (ICall (Some c) args t) is -> nth_error args j = Some (OGlob g) -> isDecl P c = false ->
    ign (server c) g (fold_left (visitInstr P server f) is s).
  Proof.
    induction is as [|i is IH]; intros s K I1 E D; [destruct I1|]. destruct I1 as [->|I1]; cbn [fold_left] in *.
    - apply visitBody_ign. apply visitBody_In in K as [K _]. cbn [visitInstr] in *.
      exact (visitArgs_new b g f c args j 0 s K E D).
    - exact (IH _ K I1 E D).
  Qed.
  Lemma visitFunc_ign c' g s f : ign c' g s -> ign c' g (visitFunc P server noExternal s f).
  Proof.
    intro H. unfold visitFunc. destruct (nth_error P f) as [x|]; [|exact H]. destruct (fDecl x); [exact H|].
    destruct (needToOptimize x) as [all [|]]; cbn [negb]; [|exact H]. destruct (fParallel x); [exact H|].
    apply visitBody_ign. unfold ign, ignored in *. cbn [sMap]. rewrite find_set.
    destruct (Nat.eqb f c') eqn:E; [|exact H]. apply Nat.eqb_eq in E; subst f.
    destruct (find c' (sMap s)); [exact H|destruct H].
  Qed.
  Lemma visitAll_ign c' g order : forall s, ign c' g s -> ign c' g (fold_left (visitFunc P server noExternal) order s).
  Proof. induction order as [|f order IH]; intros s H; cbn [fold_left]; [exact H|]. apply IH, visitFunc_ign, H. Qed.
End Program.
Lemma exact_true : C85_exact_claim.
Proof.
  intros P server noExternal order acts gets g D s ok. unfold s, initializeIPO.
  split; [|split].
  - exact (visitAll_In P server noExternal true g order (State acts gets [] true) D).
  - exact (visitAll_In P server noExternal false g order (State acts gets [] true) D).
  - rewrite (visitAll_valid P server noExternal order _ D). cbn. tauto.
Qed.
Lemma needLoop_true ss : forall b, fst (needLoop ss b) = true -> In CSAlways ss \/ In CSCondition ss.
Proof.
  induction ss as [|c ss IH]; intros b H; [discriminate H|]. destruct c; cbn in *.
  - destruct (IH b H); tauto.
  - tauto.
  - tauto.
  - destruct (IH true H); tauto.
Qed.
Lemma enabled_true : C85_enabled_claim.
Proof.
  intros P server noExternal order acts gets f x l Nx F.
  assert (E : enabledOk P noExternal (initializeIPO P server noExternal order acts gets)).
  { apply visitAll_enabled. intros h i Q. discriminate Q. }
  destruct (E f l F) as (y & Ny & D & Pr & Tk & Ex & Nt). rewrite Nx in Ny. injection Ny as <-.
  split; [exact D|]. split; [exact Pr|]. split; [exact Tk|]. split; [exact Ex|].
  intro Ne. unfold needToOptimize in Nt. destruct (fStatus x) as [|c ss]; [contradiction|]. exact (needLoop_true _ _ Nt).
Qed.

Scheme holds_mut := Minimality for holds Sort Prop with stored_mut := Minimality for stored Sort Prop.
Combined Scheme holds_stored_ind from holds_mut, stored_mut.
Lemma named_true : C85_named_claim true true true true true.
Proof.
  intros P server noExternal inits order acts gets f l g o Or At Sv Ch Ini All Ex s K F Nl Ac Ho.
  specialize (Sv eq_refl). specialize (Ch eq_refl). specialize (Ini eq_refl). specialize (All eq_refl). specialize (Ex eq_refl).
  set (order' := filter (fun h => match nth_error P h with Some _ => true | None => false end) order).
  assert (Es : s = fold_left (visitFunc P server noExternal) order' (State acts gets [] true)).
  { unfold s, initializeIPO, order'. clear. generalize (State acts gets [] true). induction order as [|h r IH]; intro s0; cbn; [reflexivity|].
    destruct (nth_error P h) eqn:N; cbn; [apply IH|]. unfold visitFunc at 2. rewrite N. apply IH. }
  assert (D' : forall h, In h order' -> exists x, nth_error P h = Some x).
  { intros h Ih. unfold order' in Ih. apply filter_In in Ih as [_ E]. destruct (nth_error P h) as [x|]; [exists x; reflexivity|discriminate E]. }
  assert (K' : exists b, In g (proj b s)) by (destruct K as [K|K]; [exists true|exists false]; exact K).
  destruct K' as [b K']. rewrite Es in K'. pose proof K' as Kall. apply (visitAll_In P server noExternal b g order' _ D') in K' as [_ OK].
  (* each instruction is harmless *)
  assert (Hl : forall h i, hasInstr P h i -> harmless P g i).
  { intros h i (x & Nx & Ii). pose proof (Or h x Nx) as Oh. destruct (fLib x); [rewrite Oh in Ii; destruct Ii|].
    assert (Ih : In h order') by (unfold order'; apply filter_In; split; [exact Oh|rewrite Nx; reflexivity]).
    destruct (OK h x Ih Nx) as [Dx Hx]. destruct (All h x Nx Dx) as [Px Cx]. exact (Hx Px Cx i Ii). }
  set (direct := fun (h k : nat) => exists h' args t, hasInstr P h' (ICall (Some h) args t) /\ nth_error args k = Some (OGlob g)).
  assert (NC : forall h k, direct h k -> ~ captures P h k).
  { intros h k (h' & args & t & Hi & N). destruct (Hl _ _ Hi k N) as (c' & Ec & Nc). injection Ec as <-. exact Nc. }
  assert (Inv : (forall h o' g', holds P inits h o' g' -> g' = g ->
      o' = OGlob g \/ o' = OExpr g \/ exists k, derived P h k o' /\ direct h k) /\
      (forall g', stored P inits g' -> g' = g -> False)).
  { apply (holds_stored_ind P inits
      (fun h o' g' => g' = g -> o' = OGlob g \/ o' = OExpr g \/ exists k, derived P h k o' /\ direct h k)
      (fun g' => g' = g -> False)).
    - intros h g' ->. left; reflexivity.
    - intros h g' ->. right; left; reflexivity.
    - intros h os t o' g' Hi Io _ IH Eg. destruct (IH Eg) as [->|[->|(k & Dk & Dr)]].
      + destruct (Hl _ _ Hi Io).
      + destruct (Ex h _ g Hi Io).
      + right; right. exists k. split; [exact (DOther P h k os t o' Hi Io Dk)|exact Dr].
    - intros h c args t k o' g' Hi N _ IH Eg. right; right. exists k. split; [apply DArg|].
      destruct (IH Eg) as [->|[->|(j & Dk & _)]].
      + exists h, args, t. split; [exact Hi|exact N].
      + destruct (Ex h _ g Hi). exact (nth_error_In _ _ N).
      + destruct (Ch h j o' (Some c) args t Dk Hi). exact (nth_error_In _ _ N).
    - intros h p t g' _ _ IH Eg. destruct (IH Eg).
    - intros h c args t g' _ _ IH Eg. destruct (IH Eg).
    - intros g' Ii Eg. rewrite Ini in Ii. destruct Ii.
    - intros h v p g' Hi _ IH Eg. destruct (IH Eg) as [->|[->|(k & Dk & Dr)]].
      + exact (Hl _ _ Hi eq_refl).
      + exact (proj1 (Ex h _ g Hi) eq_refl).
      + exact (proj1 (At h k v (NC h k Dr) Dk) p Hi).
    - intros h o' g' Hi _ IH Eg. destruct (IH Eg) as [->|[->|(k & Dk & Dr)]].
      + exact (Hl _ _ Hi eq_refl).
      + exact (Ex h _ g Hi eq_refl).
      + exact (proj2 (At h k o' (NC h k Dr) Dk) Hi).
    - intros h c args t k o' g' Hi N Cp _ IH Eg. destruct (IH Eg) as [->|[->|(j & Dk & _)]].
      + destruct (Hl _ _ Hi k N) as (c' & Ec & Nc). injection Ec as <-. exact (Nc Cp).
      + destruct (Ex h _ g Hi). exact (nth_error_In _ _ N).
      + destruct (Ch h j o' (Some c) args t Dk Hi). exact (nth_error_In _ _ N).
    - intros h args t k o' g' Hi N _ IH Eg. destruct (IH Eg) as [->|[->|(j & Dk & _)]].
      + destruct (Hl _ _ Hi k N) as (c' & Ec & _). discriminate Ec.
      + destruct (Ex h _ g Hi). exact (nth_error_In _ _ N).
      + destruct (Ch h j o' None args t Dk Hi). exact (nth_error_In _ _ N). }
  destruct (proj1 Inv f o g Ho eq_refl) as [->|[->|(k & Dk & (h & args & t & Hi & N))]].
  - reflexivity.
  - exfalso. destruct Ac as [[t Hi]|[[v Hi]|(c & args & t & Hi & Ia)]].
    + exact (Ex f _ g Hi eq_refl).
    + exact (proj2 (Ex f _ g Hi) eq_refl).
    + exact (Ex f _ g Hi Ia).
  - exfalso. assert (Nf : exists x, nth_error P f = Some x).
    { destruct Ac as [[t' (x & Nx & _)]|[[v (x & Nx & _)]|(c & args' & t' & (x & Nx & _) & _)]]; exists x; exact Nx. }
    destruct Nf as [x Nx]. destruct (enabled_true P server noExternal order acts gets f x l Nx F) as (Dx & _).
    assert (Df : isDecl P f = false) by (unfold isDecl; rewrite Nx; exact Dx).
    assert (Ig : ign f g s).
    { rewrite Es. destruct Hi as (y & Ny & Ii). pose proof (Or h y Ny) as Oh. destruct (fLib y); [rewrite Oh in Ii; destruct Ii|].
      assert (Ih : In h order') by (unfold order'; apply filter_In; split; [exact Oh|rewrite Ny; reflexivity]).
      destruct (OK h y Ih Ny) as [Dy _]. destruct (All h y Ny Dy) as [Py Cy].
      apply in_split in Ih as (r1 & r2 & Er). rewrite Er in Kall, D' |- *. rewrite fold_left_app in Kall |- *. cbn [fold_left] in Kall |- *.
      apply visitAll_ign. apply (visitAll_In P server noExternal b g r2 _) in Kall as [Kall _].
      2:{ intros q Iq. apply D'. apply in_app_iff. right; right; exact Iq. }
      revert Kall. unfold visitFunc at 1 3. rewrite Ny, Dy.
      destruct (needToOptimize y) as [all children]. cbn [snd] in Cy. rewrite Cy, Py. cbn [negb]. intro Kall.
      pose proof (visitBody_new P server b g h (fBody y) f args t k _ Kall Ii N Df) as Q. rewrite Sv in Q. exact Q. }
    unfold ign, ignored in Ig. rewrite F in Ig. exact (Nl Ig).
Qed.

(** * Counterexamples *)
Definition fun0 (body : list instr) (nc : list bool) : func := Func body false false nc [] false false false.
Ltac orderAll := intros f x N; destruct f as [|[|[|[|f]]]]; cbn in N; try discriminate N; injection N as <-; cbn; tauto.
Ltac instrs H := let x := fresh in let N := fresh in let I1 := fresh in
  destruct H as (x & N & I1);
  match type of N with nth_error _ ?f = _ => destruct f as [|[|[|[|f]]]] end;
  cbn in N; try discriminate N; injection N as <-; cbn in I1; repeat (destruct I1 as [I1|I1]); try contradiction; try subst; try discriminate.
Definition noOther (P : list func) : Prop := forall f os t, ~ hasInstr P f (IOther os t).
Lemma derived_arg P f k o : noOther P -> derived P f k o -> o = OArg k.
Proof. intros N D. induction D as [|os t o Hi _ _ _]; [reflexivity|]. destruct (N _ _ _ Hi). Qed.
(* main passes &A to a function which reads its parameter *)
Definition progS : list func := [fun0 [ICall (Some 1) [OGlob 5] 0] []; fun0 [ILoad (OArg 0) 0] [true]].
Lemma named_refuted_server : ~ C85_named_claim false true true true true.
Proof.
  intro H.
  assert (NO : noOther progS) by (intros f os t Hi; instrs Hi).
  assert (Q : OArg 0 = OGlob 5); [|discriminate Q].
  refine (H progS (fun c => c + 10) false [] [0; 1] [5] [] 1 [] 5 (OArg 0) _ _ _ _ _ _ _ _ _ _ _ _).
  - orderAll.
  - intros f k o _ D. rewrite (derived_arg _ _ _ _ NO D). split; [intros p Hi|intro Hi]; instrs Hi.
  - discriminate.
  - intros _ f k o c args t D Hi. rewrite (derived_arg _ _ _ _ NO D). instrs Hi. match goal with X : ICall _ _ _ = ICall _ _ _ |- _ => injection X as <- <- <- end. intros [Q|[]]; discriminate Q.
  - reflexivity.
  - intros _ f x N _. destruct f as [|[|f]]; cbn in N; try discriminate N; [| |destruct f; discriminate N]; injection N as <-; split; reflexivity.
  - intros _ f i g Hi. instrs Hi; cbn; intuition discriminate.
  - left; left; reflexivity.
  - reflexivity.
  - intros [].
  - left. exists 0. eexists. split; [reflexivity|left; reflexivity].
  - apply (HArg progS [] 0 1 [OGlob 5] 0 0 (OGlob 5)); [|reflexivity|apply HGlob]. eexists. split; [reflexivity|left; reflexivity].
Qed.
(* main passes &A, a function passes its parameter further *)
Definition progC : list func :=
  [fun0 [ICall (Some 1) [OGlob 5] 0] []; fun0 [ICall (Some 2) [OArg 0] 0] [true]; fun0 [ILoad (OArg 0) 0] [true]].
Lemma named_refuted_chain : ~ C85_named_claim true false true true true.
Proof.
  intro H.
  assert (NO : noOther progC) by (intros f os t Hi; instrs Hi).
  assert (Q : OArg 0 = OGlob 5); [|discriminate Q].
  refine (H progC (fun c => c) false [] [0; 1; 2] [5] [] 2 [] 5 (OArg 0) _ _ _ _ _ _ _ _ _ _ _ _).
  - orderAll.
  - intros f k o _ D. rewrite (derived_arg _ _ _ _ NO D). split; [intros p Hi|intro Hi]; instrs Hi.
  - reflexivity.
  - discriminate.
  - reflexivity.
  - intros _ f x N _. destruct f as [|[|[|f]]]; cbn in N; try discriminate N; [| | |destruct f; discriminate N]; injection N as <-; split; reflexivity.
  - intros _ f i g Hi. instrs Hi; cbn; intuition discriminate.
  - left; left; reflexivity.
  - reflexivity.
  - intros [].
  - left. exists 0. eexists. split; [reflexivity|left; reflexivity].
  - apply (HArg progC [] 1 2 [OArg 0] 0 0 (OArg 0)); [eexists; split; [reflexivity|left; reflexivity]|reflexivity|].
    apply (HArg progC [] 0 1 [OGlob 5] 0 0 (OGlob 5)); [|reflexivity|apply HGlob]. eexists. split; [reflexivity|left; reflexivity].
Qed.
(* int *p = &A: main loads p (7) and writes *p *)
Definition progI : list func := [fun0 [ILoad (OGlob 7) 1; IStore OOther (ORes 1)] []].
Lemma named_refuted_init : ~ C85_named_claim true true false true true.
Proof.
  intro H.
  assert (NO : noOther progI) by (intros f os t Hi; instrs Hi).
  assert (Q : ORes 1 = OGlob 5); [|discriminate Q].
  refine (H progI (fun c => c) false [5] [0] [5] [] 0 [] 5 (ORes 1) _ _ _ _ _ _ _ _ _ _ _ _).
  - orderAll.
  - intros f k o _ D. rewrite (derived_arg _ _ _ _ NO D). split; [intros p Hi|intro Hi]; instrs Hi.
  - reflexivity.
  - intros _ f k o c args t D Hi. instrs Hi.
  - discriminate.
  - intros _ f x N _. destruct f as [|f]; cbn in N; [|destruct f; discriminate N]; injection N as <-; split; reflexivity.
  - intros _ f i g Hi. instrs Hi; cbn; intuition discriminate.
  - left; left; reflexivity.
  - reflexivity.
  - intros [].
  - right; left. exists OOther. eexists. split; [reflexivity|right; left; reflexivity].
  - apply (HLoad progI [5] 0 (OGlob 7) 1); [|apply SInit; left; reflexivity]. eexists. split; [reflexivity|left; reflexivity].
Qed.
(* a function outside optimization regions stores &A *)
Definition outside (body : list instr) : func := Func body false false [] [CSNo] false false false.
Definition inside (body : list instr) : func := Func body false false [] [CSAlways] false false false.
Definition progO : list func := [outside [IStore (OGlob 5) (OGlob 7)]; inside [ILoad (OGlob 7) 1; IStore OOther (ORes 1)]].
Lemma named_refuted_outside : ~ C85_named_claim true true true false true.
Proof.
  intro H.
  assert (NO : noOther progO) by (intros f os t Hi; instrs Hi).
  assert (Q : ORes 1 = OGlob 5); [|discriminate Q].
  refine (H progO (fun c => c) false [] [0; 1] [5] [] 1 [] 5 (ORes 1) _ _ _ _ _ _ _ _ _ _ _ _).
  - orderAll.
  - intros f k o _ D. rewrite (derived_arg _ _ _ _ NO D). split; [intros p Hi|intro Hi]; instrs Hi.
  - reflexivity.
  - intros _ f k o c args t D Hi. instrs Hi.
  - reflexivity.
  - discriminate.
  - intros _ f i g Hi. instrs Hi; cbn; intuition discriminate.
  - left; left; reflexivity.
  - reflexivity.
  - intros [].
  - right; left. exists OOther. eexists. split; [reflexivity|right; left; reflexivity].
  - apply (HLoad progO [] 1 (OGlob 7) 1); [eexists; split; [reflexivity|left; reflexivity]|].
    apply (SStore progO [] 0 (OGlob 5) (OGlob 7)); [|apply HGlob]. eexists. split; [reflexivity|left; reflexivity].
Qed.
(* the address is cast to an integer and stored *)
Definition progE : list func := [fun0 [IStore (OExpr 5) (OGlob 7); ILoad (OGlob 7) 1; IStore OOther (ORes 1)] []].
Lemma named_refuted_expr : ~ C85_named_claim true true true true false.
Proof.
  intro H.
  assert (NO : noOther progE) by (intros f os t Hi; instrs Hi).
  assert (Q : ORes 1 = OGlob 5); [|discriminate Q].
  refine (H progE (fun c => c) false [] [0] [5] [] 0 [] 5 (ORes 1) _ _ _ _ _ _ _ _ _ _ _ _).
  - orderAll.
  - intros f k o _ D. rewrite (derived_arg _ _ _ _ NO D). split; [intros p Hi|intro Hi]; instrs Hi.
  - reflexivity.
  - intros _ f k o c args t D Hi. instrs Hi.
  - reflexivity.
  - intros _ f x N _. destruct f as [|f]; cbn in N; [|destruct f; discriminate N]; injection N as <-; split; reflexivity.
  - discriminate.
  - left; left; reflexivity.
  - reflexivity.
  - intros [].
  - right; left. exists OOther. eexists. split; [reflexivity|right; right; left; reflexivity].
  - apply (HLoad progE [] 0 (OGlob 7) 1); [eexists; split; [reflexivity|right; left; reflexivity]|].
    apply (SStore progE [] 0 (OExpr 5) (OGlob 7)); [|apply HExpr]. eexists. split; [reflexivity|left; reflexivity].
Qed.

(** * Completeness *)
Lemma needLoop_iff ss : forall b, In CSAlways ss \/ In CSCondition ss -> needLoop ss b = (true, true).
Proof.
  induction ss as [|c ss IH]; intros b H; [destruct H as [[]|[]]|]. destruct c; cbn; try reflexivity; apply IH;
  destruct H as [[Q|Q]|[Q|Q]]; try discriminate Q; tauto.
Qed.
Lemma visitArg_other P server f h c k o s : (forall c' g, c = Some c' -> o = OGlob g -> server c' <> f) ->
  find f (sMap (visitArg P server h c k o s)) = find f (sMap s).
Proof.
  intro H. unfold visitArg. destruct (tracked o s) as [g|] eqn:T; [|reflexivity]. apply tracked_some in T.
  destruct c as [c|]; [|reflexivity]. destruct (noCapture P c k); [|reflexivity]. destruct (isDecl P c); [reflexivity|].
  cbn [sMap]. rewrite find_set. destruct (Nat.eqb (server c) f) eqn:E; [|reflexivity].
  apply Nat.eqb_eq in E. destruct (H c g eq_refl T E).
Qed.
Lemma visitArgs_other P server f h c os : forall k s, (forall c' g, c = Some c' -> In (OGlob g) os -> server c' <> f) ->
  find f (sMap (visitArgs P server h c k os s)) = find f (sMap s).
Proof.
  induction os as [|o os IH]; intros k s H; cbn [visitArgs]; [reflexivity|].
  rewrite IH by (intros c' g Ec I1; exact (H c' g Ec (or_intror I1))).
  apply visitArg_other. intros c' g Ec ->. exact (H c' g Ec (or_introl eq_refl)).
Qed.
Lemma visitBody_other P server f h is : forall s,
  (forall c args t g, In (ICall (Some c) args t) is -> In (OGlob g) args -> server c <> f) ->
  find f (sMap (fold_left (visitInstr P server h) is s)) = find f (sMap s).
Proof.
  induction is as [|i is IH]; intros s H; cbn [fold_left]; [reflexivity|].
  rewrite IH by (intros c args t g I1; exact (H c args t g (or_intror I1))).
  destruct i as [p t|v p|c args t|o|o|os t]; cbn [visitInstr]; try reflexivity.
  - rewrite eraseObj_map. reflexivity.
  - apply visitArgs_other. intros c' g -> I1. exact (H c' args t g (or_introl eq_refl) I1).
  - rewrite eraseObj_map. reflexivity.
  - rewrite eraseObjs_map. reflexivity.
Qed.
Lemma complete_true : C85_complete_claim.
Proof.
  intros P server noExternal order acts gets f x If Nx Dx Px Tx Ex Sx Hc.
  assert (Nt : needToOptimize x = (true, true)).
  { unfold needToOptimize. destruct (fStatus x) as [|c ss]; [reflexivity|]. apply needLoop_iff. destruct Sx as [Q|Q]; [discriminate Q|exact Q]. }
  set (good := fun s : state => find f (sMap s) = None \/ find f (sMap s) = Some (true, [])).
  assert (Visit : forall s, good s -> find f (sMap (visitFunc P server noExternal s f)) = Some (true, [])).
  { intros s G. unfold visitFunc. rewrite Nx, Dx, Nt, Px. cbn [negb].
    rewrite visitBody_other by (intros c args t g I1; apply (Hc f c args t g); exists x; split; assumption).
    cbn [sMap]. rewrite find_set, Nat.eqb_refl, Tx. replace (negb noExternal && fExternal x) with false.
    - cbn [orb negb]. destruct G as [-> | -> ]; reflexivity.
    - destruct noExternal; [reflexivity|]. rewrite (Ex eq_refl). reflexivity. }
  assert (Other : forall s h, h <> f -> find f (sMap (visitFunc P server noExternal s h)) = find f (sMap s)).
  { intros s h Ne. unfold visitFunc. destruct (nth_error P h) as [y|] eqn:Ny; [|reflexivity]. destruct (fDecl y); [reflexivity|].
    destruct (needToOptimize y) as [all [|]]; cbn [negb]; [|reflexivity]. destruct (fParallel y); [reflexivity|].
    rewrite visitBody_other by (intros c args t g I1; apply (Hc h c args t g); exists y; split; assumption).
    cbn [sMap]. rewrite find_set. apply Nat.eqb_neq in Ne. rewrite Ne. reflexivity. }
  assert (All : forall r s, good s -> (In f r \/ find f (sMap s) = Some (true, [])) ->
    find f (sMap (fold_left (visitFunc P server noExternal) r s)) = Some (true, [])).
  { induction r as [|h r IH]; intros s G H; cbn [fold_left]; [destruct H as [[]|H]; exact H|].
    destruct (Nat.eq_dec h f) as [->|Ne].
    - pose proof (Visit s G) as V. apply IH; [right; exact V|right; exact V].
    - apply IH.
      + unfold good. rewrite (Other s h Ne). exact G.
      + rewrite (Other s h Ne). destruct H as [[Q|Q]|Q]; [contradiction|left; exact Q|right; exact Q]. }
  apply All; [left; reflexivity|left; exact If].
Qed.
