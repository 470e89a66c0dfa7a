(** C64: the elimination of dead declarations does not change what a function does, keeps
    declarations of all names which are used and never splits a group of declarations. *)
From Coq Require Import List Bool Arith ZArith Lia.
From Verif Require Import DeadDeclModel DeadDeclSpec DeadDeclProof.
Import ListNotations.
Local Open Scope nat_scope.

(** The claim for functions which satisfy a condition: every execution whose behaviour is
    defined has the same result, trace, values of external variables and the same effect on
    the world *)
Definition C64_claim (cond : (nat -> bool) -> stmt -> Prop) : Prop :=
  forall W op exts vol ext n ps body st,
    opsOk op -> wellFormed ps body ->
    (* flags of declarations agree with objects *)
    (forall v, declared body v -> vol (vId v) = vVol v /\ (In (vId v) exts <-> vExt v = true)) ->
    (forall t, In (DTyp t) (declsS body) -> ~ In t exts) -> (forall p, In (DPar p) (declsS body) -> False) ->
    (* there are no pointers to local variables before a call *)
    (forall d x, vars st d = Some (VPtr x) -> ~ In x (map declId (declsS body))) ->
    cond vol body ->
    sameRes W exts (exec W op exts vol ext n body st) (exec W op exts vol ext n (eliminate ps body) st).
Definition noVolatile (vol : nat -> bool) : Prop := forall d, vol d = false.

Lemma eval_vol W op exts vol vol' ext e : (forall d, vol d = vol' d) -> forall s, eval W op exts vol ext e s = eval W op exts vol' ext e s.
Proof.
  intros Hv.
  assert (Hr : forall d s, readVar W vol d s = readVar W vol' d s) by (intros d s; unfold readVar; rewrite Hv; reflexivity).
  assert (Hw : forall d v s, writeVar W vol d v s = writeVar W vol' d v s) by (intros d v s; unfold writeVar; rewrite Hv; reflexivity).
  assert (HL : forall l, Forall (fun e => forall s, eval W op exts vol ext e s = eval W op exts vol' ext e s) l -> forall s,
    (fix evalL (l : list expr) (s : state W) : option (state W * list val) :=
    match l with [] => Some (s, []) | e :: l => match eval W op exts vol ext e s with Some (s, v) => match evalL l s with Some (s, vs) => Some (s, v :: vs) | None => None end | None => None end end) l s =
    (fix evalL (l : list expr) (s : state W) : option (state W * list val) :=
    match l with [] => Some (s, []) | e :: l => match eval W op exts vol' ext e s with Some (s, v) => match evalL l s with Some (s, vs) => Some (s, v :: vs) | None => None end | None => None end end) l s).
  { intros l H. induction H as [|x l Hx H IH]; intros s; [reflexivity|]. rewrite Hx. destruct (eval W op exts vol' ext x s) as [[s1 v]|]; [|reflexivity]. rewrite IH. reflexivity. }
  (* an expression and an object which is designated by it *)
  assert (HB : forall e, (forall s, eval W op exts vol ext e s = eval W op exts vol' ext e s) /\ (forall e', e = EDeref e' -> forall s, eval W op exts vol ext e' s = eval W op exts vol' ext e' s)).
  { clear e. induction e using expr_ind2; (split; [intros s|try discriminate]); try reflexivity.
    - apply Hr.
    - cbn [eval]. rewrite (proj1 IHe). destruct (eval W op exts vol' ext e s) as [[s1 [z|d]]|]; [reflexivity|rewrite Hr; reflexivity|reflexivity].
    - intros e' E. injection E as <-. exact (proj1 IHe).
    - cbn [eval]. rewrite HL; [reflexivity|]. eapply Forall_impl; [|exact H]. intros a Ha. exact (proj1 Ha).
    - cbn [eval]. rewrite (proj1 IHe2). destruct (eval W op exts vol' ext e2 s) as [[s1 v]|]; [|reflexivity].
      destruct e1; try reflexivity; [rewrite Hw; reflexivity|]. rewrite (proj2 IHe1 e1 eq_refl).
      destruct (eval W op exts vol' ext e1 s1) as [[s2 [z|d]]|]; [reflexivity|rewrite Hw; reflexivity|reflexivity].
    - cbn [eval]. rewrite (proj1 IHe2). destruct (eval W op exts vol' ext e2 s) as [[s1 v]|]; [|reflexivity].
      destruct e1; try reflexivity.
      + rewrite Hr. destruct (readVar W vol' d s1) as [[s2 x]|]; [|reflexivity]. destruct (op o [x; v]); [|reflexivity]. rewrite Hw. reflexivity.
      + rewrite (proj2 IHe1 e1 eq_refl). destruct (eval W op exts vol' ext e1 s1) as [[s2 [z|d]]|]; [reflexivity| |reflexivity].
        rewrite Hr. destruct (readVar W vol' d s2) as [[s3 x]|]; [|reflexivity]. destruct (op o [x; v]); [|reflexivity]. rewrite Hw. reflexivity.
    - cbn [eval]. destruct e; try reflexivity.
      + rewrite Hr. destruct (readVar W vol' d s) as [[s2 x]|]; [|reflexivity]. destruct (op o [x]); [|reflexivity]. rewrite Hw. reflexivity.
      + rewrite (proj2 IHe e eq_refl). destruct (eval W op exts vol' ext e s) as [[s2 [z|d]]|]; [reflexivity| |reflexivity].
        rewrite Hr. destruct (readVar W vol' d s2) as [[s3 x]|]; [|reflexivity]. destruct (op o [x]); [|reflexivity]. rewrite Hw. reflexivity.
    - cbn [eval]. rewrite HL; [reflexivity|]. eapply Forall_impl; [|exact H]. intros a Ha. exact (proj1 Ha). }
  exact (proj1 (HB e)).
Qed.
Lemma exec_vol W op exts vol vol' ext n s : (forall d, vol d = vol' d) -> forall st, exec W op exts vol ext n s st = exec W op exts vol' ext n s st.
Proof.
  intros Hv. assert (HE := fun e => eval_vol W op exts vol vol' ext e Hv).
  assert (HO : forall e st, evalO W op exts vol ext e st = evalO W op exts vol' ext e st) by (intros [e|] st; cbn [evalO]; [rewrite HE|]; reflexivity).
  assert (HD : forall ds st, execDecls W op exts vol ext ds st = execDecls W op exts vol' ext ds st).
  { induction ds as [|d ds IH]; intros st; [reflexivity|]. cbn [execDecls].
    assert (E : execDecl W op exts vol ext d st = execDecl W op exts vol' ext d st).
    { destruct d as [v|d|t]; try reflexivity. cbn [execDecl]. rewrite HO. destruct (evalO W op exts vol' ext (vSize v) st) as [[s1 x]|]; [|reflexivity]. rewrite HO. reflexivity. }
    rewrite E. destruct (execDecl W op exts vol' ext d st); [apply IH|reflexivity]. }
  assert (HLoop : forall c c' b b' t t', (forall x, c x = c' x) -> (forall x, b x = b' x) -> (forall x, t x = t' x) -> forall k st, loop W c b t k st = loop W c' b' t' k st).
  { intros c c' b b' t t' Hc Hb Ht. induction k as [|k IH]; intros st; [reflexivity|]. cbn [loop]. rewrite Hc. destruct (c' st) as [[s1 v]|]; [|reflexivity].
    destruct (isTrue v); [|reflexivity]. rewrite Hb. destruct (b' s1); try reflexivity. rewrite Ht. destruct (t' s0); cbn [bindN]; auto. }
  induction s using stmt_ind2; intros st; try reflexivity.
  - cbn [exec]. rewrite HE. reflexivity.
  - cbn [exec]. rewrite HD. reflexivity.
  - cbn [exec]. revert st. induction H as [|s l Hs H IH]; intros st; [reflexivity|]. rewrite Hs. destruct (exec W op exts vol' ext n s st); cbn [bindN]; auto.
  - cbn [exec]. rewrite HE. destruct (eval W op exts vol' ext e st) as [[s1' v]|]; [|reflexivity]. destruct (isTrue v); auto.
  - cbn [exec]. apply HLoop; auto.
  - cbn [exec]. rewrite IHs1. destruct (exec W op exts vol' ext n s1 st); cbn [bindN]; try reflexivity. apply HLoop; auto.
  - cbn [exec]. rewrite HO. reflexivity.
Qed.

Theorem C64_same_partial : C64_claim (fun vol body => noVolatile vol /\ noExtern body /\ calmSizes body).
Proof.
  intros W op exts vol ext n ps body st Hop WF Hfl Hty Hpar Hpt (Hv & Hne & Hcs).
  rewrite !(exec_vol W op exts vol (fun _ => false) ext n _ Hv). apply eliminate_same; auto.
  intros d Hd Hin. apply in_map_iff in Hin. destruct Hin as (x & <- & Hx). destruct x as [v|p|t].
  - apply (Hfl v Hx) in Hd. rewrite (Hne v Hx) in Hd. discriminate Hd.
  - exact (Hpar p Hx).
  - exact (Hty t Hx Hd).
Qed.
Print Assumptions C64_same_partial.

(** Names which are used remain declared *)
Definition C64_names_claim (cond : stmt -> Prop) : Prop :=
  forall ps body d, wellFormed ps body -> cond body ->
    In d (usedS (eliminate ps body)) -> In d (map declId (declsS body)) -> In d (map declId (declsS (eliminate ps body))).
Theorem C64_names_partial : C64_names_claim noLocalEnums.
Proof. intros ps body d WF Hc H H1. apply eliminate_names; assumption. Qed.
Print Assumptions C64_names_partial.

(** A group of declarations is kept or removed as a whole *)
Theorem C64_groups : forall ps body ds, wellFormed ps body -> In ds (declStmts (eliminate ps body)) -> In ds (declStmts body).
Proof. exact eliminate_groups. Qed.
Print Assumptions C64_groups.

(** An unused variable is removed *)
Theorem C64_unused : forall ps body v, wellFormed ps body -> noMacros body = true ->
  In [DVar v] (declStmts body) -> ~ In (vId v) (usedS body) -> (forall e, vInit v = Some e -> calm e = true) ->
  ~ In (vId v) (map declId (declsS (eliminate ps body))).
Proof. exact eliminate_unused. Qed.
Print Assumptions C64_unused.

(** Examples.  Numbers: a parameter 9, operators add integers *)
Definition opx (o : nat) (vs : list val) : option val :=
  match vs with [VInt a; VInt b] => Some (VInt (a + b)) | [VInt a] => Some (VInt (a + 1)) | _ => None end.
Definition extx (f : nat) (args : list val) (g : list (option val)) (w : nat) : Z * list (nat * Z) * nat := (7%Z, [(0, 5%Z)], S w).
Lemma opx_ok : opsOk opx.
Proof. intros o vs d H. unfold opx in H. destruct vs as [|[z|x] [|[z'|x'] [|v vs]]]; discriminate H. Qed.
Definition var (d : nat) (i : option expr) : decl := DVar (mkVar d None false false None i).
Definition st0 : state nat := mkSt (fun d => if Nat.eqb d 9 then Some (VInt 3) else None) 0 [].
Lemma st0_ok l : forall d x, vars st0 d = Some (VPtr x) -> ~ In x l.
Proof. intros d x. unfold st0. cbn [vars]. destruct (Nat.eqb d 9); discriminate. Qed.
Ltac wf := split; [repeat (constructor; [cbn; intuition congruence|]); constructor|split; [repeat (constructor; [cbn; intuition congruence|]); constructor|]].
Lemma declaredFirst_dec l : (fix ok (l : list item) : bool :=
   match l with [] => true | IUse d :: l => forallb (fun x => match x with IDecl y => negb (Nat.eqb d y) | _ => true end) l && ok l | _ :: l => ok l end) l = true ->
  forall pre d post, l = pre ++ IDecl d :: post -> ~ In (IUse d) pre.
Proof.
  induction l as [|i l IH]; intros H pre d post E Hin; [destruct pre; discriminate E|].
  destruct pre as [|j pre]; [destruct Hin|]. cbn [app] in E. injection E as <- E. destruct Hin as [->|Hin].
  - apply andb_true_iff in H. destruct H as [H _]. assert (H1 := proj1 (forallb_forall _ _) H (IDecl d)). rewrite E in H1.
    specialize (H1 (in_elt _ _ _)). cbn in H1. rewrite Nat.eqb_refl in H1. discriminate H1.
  - destruct i as [x|x]; [|apply andb_true_iff in H; destruct H as [_ H]]; exact (IH H pre d post E Hin).
Qed.

(** { int x = 1, y; int z; int u = f(&w); int w...; x = n; if (n) { z = x + n; } return g(x); } *)
Definition body1 : stmt := SBlock false [
  SDecl [var 0 (Some (ELit 1)); var 1 None]; SDecl [var 2 None]; SDecl [var 3 (Some (ELit 4))]; SDecl [var 4 (Some (ECall 0 [EAddr 3]))];
  SExpr (EAssign 10 (ERef 0) (ERef 9)); SExpr (EAssign 11 (ERef 1) (ELit 2));
  SIf (ERef 9) (SBlock false [SExpr (EAssign 12 (ERef 2) (EOp 0 [ERef 0; ERef 9]))]) SNull;
  SExpr (ECompound 0 (ERef 0) (ERef 3));
  SRet (Some (ECall 1 [ERef 0]))].
Example C64_ex :
  wellFormed [9] body1 /\ noVolatile (fun _ => false) /\ noExtern body1 /\ calmSizes body1 /\ noLocalEnums body1 /\ noMacros body1 = true /\
  (* z and its assignment are removed *)
  eliminate [9] body1 = SBlock false [
    SDecl [var 0 (Some (ELit 1)); var 1 None]; SNull; SDecl [var 3 (Some (ELit 4))]; SDecl [var 4 (Some (ECall 0 [EAddr 3]))];
    SExpr (EAssign 10 (ERef 0) (ERef 9)); SExpr (EAssign 11 (ERef 1) (ELit 2));
    SIf (ERef 9) (SBlock false [SNull]) SNull;
    SExpr (ECompound 0 (ERef 0) (ERef 3)); SRet (Some (ECall 1 [ERef 0]))] /\
  (exists s, exec nat opx [] (fun _ => false) extx 0 body1 st0 = RRet nat s (Some (VInt 7)) /\ trace s = [EvCall 0 [VPtr 3]; EvCall 1 [VInt 8]] /\ world s = 2).
Proof.
  split; [|split; [|split; [|split; [|split; [|split; [|split]]]]]].
  - wf. unfold declaredFirst. apply declaredFirst_dec. vm_compute. reflexivity.
  - intros d. reflexivity.
  - intros v Hv. unfold declared in Hv. cbn in Hv. repeat (destruct Hv as [Hv|Hv]; [injection Hv as <-; reflexivity|]). destruct Hv.
  - intros v e Hv. unfold declared in Hv. cbn in Hv. repeat (destruct Hv as [Hv|Hv]; [injection Hv as <-; discriminate|]). destruct Hv.
  - intros t [].
  - reflexivity.
  - vm_compute. reflexivity.
  - eexists. split; [vm_compute; reflexivity|]. split; reflexivity.
Qed.
Example C64_unused_ex : ~ In 2 (map declId (declsS (eliminate [9] (SBlock false [SDecl [var 2 (Some (ERef 9))]; SRet (Some (ERef 9))])))).
Proof.
  apply (C64_unused [9] _ (mkVar 2 None false false None (Some (ERef 9)))); try reflexivity.
  - wf. unfold declaredFirst. apply declaredFirst_dec. reflexivity.
  - left. reflexivity.
  - cbn. intuition congruence.
  - intros e E. injection E as <-. reflexivity.
Qed.

(** * Refutations *)
Ltac noPars := intros p Hp; cbn in Hp; repeat (destruct Hp as [Hp|Hp]; [discriminate Hp|]); destruct Hp.
Ltac noTypes := intros t Ht; cbn in Ht; repeat (destruct Ht as [Ht|Ht]; [discriminate Ht|]); destruct Ht.
Ltac decls := intros v Hv; unfold declared in Hv; cbn in Hv; repeat (destruct Hv as [Hv|Hv]; [injection Hv as <-|]); [..|destruct Hv].

(** { int x; x = v; } where v is volatile: a read of v disappears *)
Theorem C64_volatile_read_refuted :
  ~ C64_claim (fun vol body => (forall v, declared body v -> vVol v = false) /\ noExtern body /\ calmSizes body).
Proof.
  intros H. set (body := SBlock false [SDecl [var 0 None]; SExpr (EAssign 10 (ERef 0) (ERef 9))]).
  specialize (H nat opx [] (Nat.eqb 9) extx 0 [] body st0 opx_ok).
  assert (C : False); [|exact C]. refine (_ (H _ _ _ _ (st0_ok _) _)).
  - vm_compute. intros (_ & Ht & _). discriminate Ht.
  - wf. unfold declaredFirst. apply declaredFirst_dec. reflexivity.
  - decls. cbn. split; [reflexivity|]. split; [intros []|discriminate].
  - noTypes.
  - noPars.
  - split; [decls; reflexivity|]. split; [decls; reflexivity|]. intros v e Hv. revert e. revert v Hv. decls. discriminate.
Qed.
Print Assumptions C64_volatile_read_refuted.
(** { volatile int x; x = 1; }: a write to a volatile variable disappears *)
Theorem C64_volatile_write_refuted :
  ~ C64_claim (fun vol body => (forall d, vol d = true -> exists v, declared body v /\ vId v = d) /\ noExtern body /\ calmSizes body).
Proof.
  intros H. set (body := SBlock false [SDecl [DVar (mkVar 0 None false true None None)]; SExpr (EAssign 10 (ERef 0) (ELit 1))]).
  specialize (H nat opx [] (Nat.eqb 0) extx 0 [] body st0 opx_ok).
  assert (C : False); [|exact C]. refine (_ (H _ _ _ _ (st0_ok _) _)).
  - vm_compute. intros (_ & Ht & _). discriminate Ht.
  - wf. unfold declaredFirst. apply declaredFirst_dec. reflexivity.
  - decls. cbn. split; [reflexivity|]. split; [intros []|discriminate].
  - noTypes.
  - noPars.
  - split; [|split; [decls; reflexivity|intros v e Hv; revert e; revert v Hv; decls; discriminate]].
    intros d E. apply Nat.eqb_eq in E. subst d. eexists. split; [left; reflexivity|reflexivity].
Qed.
Print Assumptions C64_volatile_write_refuted.
(** { extern int g; g = 5; }: a global variable is not updated *)
Theorem C64_extern_refuted : ~ C64_claim (fun vol body => noVolatile vol /\ calmSizes body).
Proof.
  intros H. set (body := SBlock false [SDecl [DVar (mkVar 0 None true false None None)]; SExpr (EAssign 10 (ERef 0) (ELit 5))]).
  specialize (H nat opx [0] (fun _ => false) extx 0 [] body st0 opx_ok).
  assert (C : False); [|exact C]. refine (_ (H _ _ _ _ (st0_ok _) _)).
  - vm_compute. intros (_ & _ & Hv). discriminate Hv.
  - wf. unfold declaredFirst. apply declaredFirst_dec. reflexivity.
  - decls. cbn. split; [reflexivity|]. split; [reflexivity|left; reflexivity].
  - noTypes.
  - noPars.
  - split; [intros d; reflexivity|]. intros v e Hv. revert e. revert v Hv. decls. discriminate.
Qed.
Print Assumptions C64_extern_refuted.
(** { int a[n++]; return n; }: the increment disappears *)
Theorem C64_size_refuted : ~ C64_claim (fun vol body => noVolatile vol /\ noExtern body).
Proof.
  intros H. set (body := SBlock false [SDecl [DVar (mkVar 0 None false false (Some (EInc 0 (ERef 9))) None)]; SRet (Some (ERef 9))]).
  specialize (H nat opx [] (fun _ => false) extx 0 [9] body st0 opx_ok).
  assert (C : False); [|exact C]. refine (_ (H _ _ _ _ (st0_ok _) _)).
  - vm_compute. intros (_ & Hv). discriminate Hv.
  - wf. unfold declaredFirst. apply declaredFirst_dec. reflexivity.
  - decls. cbn. split; [reflexivity|]. split; [intros []|discriminate].
  - noTypes.
  - noPars.
  - split; [intros d; reflexivity|]. decls. reflexivity.
Qed.
Print Assumptions C64_size_refuted.
(** { enum E { A }; return A; }: the enumeration is removed, its constant is used *)
Theorem C64_enum_refuted : ~ C64_names_claim (fun _ => True).
Proof.
  intros H. specialize (H [] (SBlock false [SDecl [DTyp 0]; SRet (Some (EConst 0 0))]) 0).
  assert (C : In 0 []); [|destruct C]. apply H.
  - wf. unfold declaredFirst. apply declaredFirst_dec. reflexivity.
  - exact Logic.I.
  - left. reflexivity.
  - left. reflexivity.
Qed.
Print Assumptions C64_enum_refuted.
