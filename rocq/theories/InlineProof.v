(** Each execution of an expanded program is an execution of the original one (C72). *)
From Coq Require Import List Bool Arith ZArith Lia.
From Verif Require Import InlineModel InlineSpec InlineSem InlineRen InlineRel InlineStatic.
Import ListNotations.

Lemma skipn_skipn (A : Type) (n m : nat) (l : list A) : skipn n (skipn m l) = skipn (n + m) l.
Proof.
  revert l. induction m as [|m IH]; intro l; [now rewrite Nat.add_0_r|]. rewrite Nat.add_succ_r. destruct l as [|x l]; [now rewrite !skipn_nil|]. apply IH.
Qed.
Section Sim.
Variable opf : nat -> Z -> Z -> Z.
Variable ext : nat -> Z -> Z -> globals -> Z * globals.
Variable fn : nat -> option func.
Variable enabled : nat -> bool.
Variables N D0 : nat.
Notation X0 := (Conds true true true).
Hypothesis W : wfProg X0 fn enabled N.
Notation fn' := (transform fn enabled D0 N).
Notation execT := (execN opf ext fn').
Notation callT := (callN opf ext fn').
Notation exec := (exec opf ext fn).
Notation call := (call opf ext fn).
Notation handler := (handler fn enabled).

(** Names which are declared in functions of a stack of calls *)
Definition D (stack : list nat) (x : nat) : Prop := exists h F, In h stack /\ fn h = Some F /\ In x (declsOf F).
Record ctx (src : nat -> Prop) (k0 : nat) (rest : locals) (void : bool) (M : mode) : Prop := Ctx {
  cSK : forall x, src x -> x < k0;
  cN : N <= k0;
  cRest : forall y, In y (dom rest) -> y < k0;
  cR : match M with MRoot => True | MCallee R L => R < k0 /\ ~ src R /\ (void = false -> In R (dom rest)) end }.
Record st (src : nat -> Prop) (k0 : nat) (rest : locals) (stack : list nat) (l l' : locals) (k : nat) : Prop := St {
  sF : fm src k0 rest l l';
  sK : k0 <= k;
  sL : forall y, In y (dom l') -> y < k;
  sD : forall y, In y (dom l') -> y < N -> D stack y }.
Record pg (src : nat -> Prop) (rest : locals) (stack : list nat) (void : bool) (K : nat) (b : list stmt) (d : list nat) : Prop := Pg {
  pF : forall x, In x (freeL b) -> src x /\ (In x d \/ ~ In x (dom rest));
  pD : forall x, In x (flat_map declaredS b) -> src x /\ D stack x;
  pO : forallb (okS X0 fn enabled K void) b = true }.
Definition outRel (M : mode) (last void : bool) (o' o : outcome) (rest rest2 : locals) : Prop :=
  match M with
  | MRoot => o' = o /\ rest2 = rest
  | MCallee R L =>
    (o' = ONormal /\ o = ONormal /\ rest2 = rest) \/
    ((o' = OGoto L \/ (last = true /\ o' = ONormal)) /\
     exists v, o = OReturn v /\ if void then v = 0%Z /\ rest2 = rest else rest2 = assignL rest R v)
  end.
Definition concl (src : nat -> Prop) (k0 : nat) (M : mode) (last void : bool) (rest : locals) (b : list stmt) (g : globals) (l : locals)
    (o' : outcome) (g2 : globals) (l2' : locals) : Prop :=
  exists o l2 rest2, exec b g l o g2 l2 /\ outRel M last void o' o rest rest2 /\ fm src k0 rest2 l2 l2'.
Definition SimBody (m : nat) : Prop :=
  forall depth stack src k0 rest void M last b k K l l' g o' g2 l2',
    ctx src k0 rest void M -> st src k0 rest stack l l' k -> pg src rest stack void K b (dom l) ->
    execT m (fst (tL (handler depth stack) M last b k)) g l' o' g2 l2' -> concl src k0 M last void rest b g l o' g2 l2'.

Lemma outRel_dom M last void o' o rest rest2 : outRel M last void o' o rest rest2 -> dom rest2 = dom rest.
Proof.
  destruct M as [|R L]; cbn [outRel]; [intros (_ & ->); reflexivity|]. intros [(_ & _ & ->)|(_ & v & _ & E)]; [reflexivity|].
  destruct void; [destruct E as (_ & ->); reflexivity|]. subst. apply assignL_dom.
Qed.
Lemma outRel_last M last void o' o rest rest2 : outRel M false void o' o rest rest2 -> outRel M last void o' o rest rest2.
Proof. destruct M as [|R L]; cbn [outRel]; [tauto|]. intros [E|([E|(E & _)] & V)]; [now left|right; split; [now left|exact V]|discriminate]. Qed.
Lemma callee_frame G p q va vb : fP G <> fQ G -> renL (fP G) (fQ G) p q [(fQ G, vb); (fP G, va)] = [(q, vb); (p, va)].
Proof. intro NE. cbn [renL map fst snd]. rewrite !Nat.eqb_refl. assert (E : fQ G =? fP G = false) by (apply Nat.eqb_neq; congruence). now rewrite E. Qed.
Lemma okF_inv F f : fn f = Some F -> fP F < N /\ fQ F < N /\ fP F <> fQ F /\ forallb (okS X0 fn enabled N (fVoid F)) (fBody F) = true /\
  forall x, In x (flat_map declaredS (fBody F)) -> x <> fP F /\ x <> fQ F.
Proof.
  intro FF. specialize (W f F FF). unfold okF in W. rewrite !andb_true_iff in W. destruct W as ((((A & B) & E) & O) & Dd). apply Nat.ltb_lt in A, B. apply negb_true_iff, Nat.eqb_neq in E.
  repeat split; try assumption; rewrite forallb_forall in Dd; specialize (Dd x H); rewrite andb_true_iff, !negb_true_iff, !Nat.eqb_neq in Dd; tauto.
Qed.

(** ** Calls which are not expanded *)
Lemma body_sim m : SimBody m -> forall f F F' a b g o g2 l2', fn f = Some F -> fn' f = Some F' -> execT m (fBody F') g (frame F' a b) o g2 l2' ->
  exists l2, exec (fBody F) g (frame F a b) o g2 l2.
Proof.
  intros SB f F F' a b g o g2 l2' FF TF E.
  assert (TF2 : fn' f = Some (Func (fP F) (fQ F) (fVoid F) (fst (tL (handler D0 [f]) MRoot true (fBody F) N)))) by (unfold transform; now rewrite FF, inline_eq).
  rewrite TF2 in TF. injection TF as <-. cbn [fBody] in E. change (frame _ a b) with (frame F a b) in E. destruct (okF_inv F f FF) as (PN & QN & PQ & OK & DD).
  destruct (okL_names fn enabled N X0 (fVoid F) (fBody F) OK) as (NF & ND).
  destruct (SB D0 [f] (fun x => x < N) N [] (fVoid F) MRoot true (fBody F) N N (frame F a b) (frame F a b) g o g2 l2') as (o1 & l2 & rest2 & EX & (-> & _) & _).
  - split; [trivial|lia|intros y []|exact Logic.I].
  - split; [|lia| |].
    + unfold frame. constructor; [exact QN|]. constructor; [exact PN|]. constructor.
    + intros y [<-|[<-|[]]]; assumption.
    + intros y [<-|[<-|[]]] _; exists f, F; (split; [now left|split; [exact FF|]]); [right; now left|now left].
  - split; [intros x X; split; [now apply NF|right; intros []]| |exact OK].
    intros x X. split; [now apply ND|]. exists f, F. split; [now left|]. split; [exact FF|]. right. now right.
  - exact E.
  - exists l2. exact EX.
Qed.
Lemma call_sim m : SimBody m -> forall f a b g v g2, callT m f a b g v g2 -> call f a b g v g2.
Proof.
  intros SB f a b g v g2. unfold callN. destruct (fn f) as [F|] eqn:FF.
  2: { unfold transform at 1. rewrite FF. intro E. exists 0. unfold callN. rewrite FF. exact E. }
  destruct (fn' f) as [F'|] eqn:TF; [|unfold transform in TF; now rewrite FF in TF]. intros (o & l2' & E & R).
  destruct (body_sim m SB f F F' a b g o g2 l2' FF TF E) as (l2 & n & EX). exists n. unfold callN. rewrite FF. exists o, l2. now split.
Qed.

Lemma handler_mono_aux depth stack M b k t k1 : tL (handler depth stack) M true b k = (t, k1) -> k <= k1.
Proof. apply tL_mono. intros f a b1 k2 p r k3. apply handler_mono. Qed.

(** ** A call which is expanded *)
Lemma fm_base src k0 rest l' : fm src k0 rest [] l' -> dom l' = dom rest -> l' = rest.
Proof.
  intros F E. assert (X : forall l, fm src k0 rest l l' -> length rest + length l <= length l').
  { intros l F1. clear -F1. induction F1; cbn [length]; lia. }
  inversion F as [E1|x v l1 l1' SX F1|z v l1 l1' KZ F1 E1]; [reflexivity|]. exfalso. subst. apply (f_equal (@length nat)) in E. unfold dom in E. rewrite !map_length in E. cbn [length] in E.
  assert (Y : forall l l', fm src k0 rest l l' -> length rest <= length l') by (intros l0 l0' F0; induction F0; cbn [length]; lia). specialize (Y _ _ F1). lia.
Qed.
Lemma check_vis stack (f : nat) G x : check fn stack G = true -> D stack x -> ~ In x (globalsOf G).
Proof.
  intros CH (h & F & IH & FH & DX) I. unfold check in CH. rewrite forallb_forall in CH. specialize (CH h IH). rewrite FH in CH. rewrite forallb_forall in CH.
  specialize (CH x DX). apply negb_true_iff in CH. apply mem_iff in I. congruence.
Qed.
Lemma dom_cons (l : locals) x d : dom l = x :: d -> exists w l1, l = (x, w) :: l1 /\ dom l1 = d.
Proof. destruct l as [|[y w] l]; [discriminate|]. cbn [dom map fst]. intro E. injection E as -> E. exists w, l. now split. Qed.
Lemma block_sim depth stack src k0 rest void M f G k t k1 : ctx src k0 rest void M -> fn f = Some G -> check fn stack G = true ->
  tL (handler depth (f :: stack)) (MCallee k (S k)) true (map (renS (parName G (S (S k)) (S (S (S k))))) (fBody G)) (S (S (S (S k)))) = (t, k1) ->
  forall m a1 b1 ss g l l' o g2 l2' ae be (vis : nat -> Prop), (forall j, j < m -> SimBody j) ->
    execT m (SBlock (SDecl [(S (S k), Some a1)] :: SDecl [(S (S (S k)), Some b1)] :: t) (Some (S k)) :: ss) g l' o g2 l2' ->
    fm src k0 rest l l' -> k0 <= k -> (forall y, In y (dom l') -> y <= k) -> (forall y, In y (dom l') -> y < N -> D stack y) ->
    (fVoid G = false -> In k (dom l')) -> (forall x, vis x -> src x /\ (In x (dom l) \/ ~ In x (dom rest))) -> er k0 vis l' ae a1 -> er k0 vis l' be b1 ->
    exists m1 va vb ga la gb lb v g3 lf', m1 < m /\ steps opf call g l ae ga la (EConst va) /\ steps opf call ga la be gb lb (EConst vb) /\
      call f va vb gb v g3 /\ execT m1 ss g3 lf' o g2 l2' /\ fm src k0 rest lb lf' /\ dom lf' = dom l' /\
      (if fVoid G then v = 0%Z else lookup lf' k = Some v) /\ (forall R w, k0 <= R -> R <> k -> lookup l' R = Some w -> lookup lf' R = Some w).
Proof.
  intros CT FG CH ET m a1 b1 ss g l l' o g2 l2' ae be vis SB EX F KK DL DD RI VS Ea Eb. destruct CT as [SK CN CRest _].
  destruct m as [|m]; [destruct EX|]. rewrite execN_S in EX. destruct EX as (o1 & g1 & l1' & EX & NX).
  assert (CM : forall j, j <= m -> forall f a b g v g2, callT j f a b g v g2 -> call f a b g v g2) by (intros j J; apply call_sim; apply SB; lia).
  destruct m as [|m]; [destruct EX|]. rewrite execN_S in EX. destruct EX as (va & ga & la' & l3' & EVa & EX & T1). cbn [evalO] in EVa.
  destruct (er_eval src k0 SK vis opf (callT m) call (CM m ltac:(lia)) rest (dom l) VS g l' a1 va ga la' l ae EVa F eq_refl Ea) as (la & Sa & Fa & Da & Ka).
  assert (DLa : dom la' = dom l') by exact (steps_dom _ _ _ _ _ _ _ _ EVa).
  destruct m as [|m]; [destruct EX|]. rewrite execN_S in EX. destruct m as [|m]; [destruct EX|]. rewrite execN_S in EX. destruct EX as (vb & gb & lb' & l5' & EVb & EX & T2). cbn [evalO] in EVb.
  assert (NP : forall z, k < z -> ~ In z (dom l')) by (intros z Z IZ; apply DL in IZ; lia).
  assert (Kp : keep k0 la' ((S (S k), va) :: la')) by (apply keep_push; rewrite DLa; apply NP; lia).
  destruct (er_eval src k0 SK vis opf (callT m) call (CM m ltac:(lia)) rest (dom l) VS ga ((S (S k), va) :: la') b1 vb gb lb' la be EVb) as (lb & Sb & Fb & Db & Kb).
  { constructor; [lia|exact Fa]. } { exact Da. } { apply (er_keep k0 vis la'); [exact Kp|]. apply (er_keep k0 vis l'); assumption. }
  pose proof (steps_dom _ _ _ _ _ _ _ _ EVb) as DLb. cbn [dom map fst] in DLb. change (map fst la') with (dom la') in DLb. rewrite DLa in DLb.
  destruct (dom_cons _ _ _ DLb) as (va2 & l4' & -> & DL4). assert (va2 = va).
  { assert (X : lookup ((S (S k), va2) :: l4') (S (S k)) = Some va). { apply Kb; [lia|]. cbn [lookup]. now rewrite Nat.eqb_refl. } cbn [lookup] in X. rewrite Nat.eqb_refl in X. congruence. }
  subst va2. apply fm_pop in Fb; [|exact SK|lia|exact CRest].
  assert (K4 : keep k0 l' l4').
  { intros R w KR L. assert (X : lookup ((S (S k), va) :: l4') R = Some w). { apply Kb; [exact KR|]. apply Kp; [exact KR|]. now apply Ka. }
    cbn [lookup] in X. assert (NE : R =? S (S k) = false) by (apply Nat.eqb_neq; intros ->; apply lookup_some in L; revert L; apply NP; lia). now rewrite NE in X. }
  destruct m as [|m]; [destruct EX|]. rewrite execN_S in EX.
  destruct (okF_inv G f FG) as (PN & QN & PQ & OK & DG). destruct (okL_names fn enabled N X0 (fVoid G) (fBody G) OK) as (NF & ND).
  set (q := S (S (S k))) in *. set (p := S (S k)) in *. set (r := parName G p q) in *.
  assert (PID : forall x, x <> fP G -> x <> fQ G -> r x = x) by (intros x A B; unfold r, parName; apply Nat.eqb_neq in A, B; now rewrite A, B).
  set (src2 := fun x => x < N \/ x = p \/ x = q).
  assert (Dq : dom l5' = q :: p :: dom l').
  { rewrite (execN_dom _ _ _ _ _ _ _ _ _ _ EX). cbn [dom map fst]. f_equal. change (map fst l4') with (dom l4'). now rewrite DL4. }
  destruct (dom_cons _ _ _ Dq) as (vb3 & l6' & -> & Dp). destruct (dom_cons _ _ _ Dp) as (va3 & l7' & -> & D7).
  assert (ET2 : t = fst (tL (handler depth (f :: stack)) (MCallee k (S k)) true (map (renS r) (fBody G)) (S q))) by (now rewrite ET). rewrite ET2 in EX.
  apply (SB m ltac:(lia) depth (f :: stack) src2 (S q) l4' (fVoid G) (MCallee k (S k)) true (map (renS r) (fBody G)) (S q) (S q) [(q, vb); (p, va)]) in EX.
  - destruct EX as (oc & l9 & rest2 & (n & EX) & OR & F9).
    pose proof (execN_dom _ _ _ _ _ _ _ _ _ _ EX) as D9. cbn [dom map fst] in D9. destruct (dom_cons _ _ _ D9) as (w1 & l10 & -> & D10). destruct (dom_cons _ _ _ D10) as (w2 & l11 & -> & D11).
    destruct l11; [|discriminate]. assert (SK2 : forall x, src2 x -> x < S q) by (unfold src2; intros x X; lia).
    apply (fm_popsrc src2 (S q) SK2) in F9; [|unfold src2; lia]. destruct F9 as (F9 & _). apply (fm_popsrc src2 (S q) SK2) in F9; [|unfold src2; lia]. destruct F9 as (F9 & _).
    pose proof (outRel_dom _ _ _ _ _ _ _ OR) as DR. apply fm_base in F9; [|now rewrite DR, D7, DL4]. subst l7'. cbn [tl] in *. subst l3' l1'.
    rewrite <- (callee_frame G p q va vb PQ) in EX. apply (ren_exec opf N (fP G) (fQ G) p q PN QN PQ ltac:(lia) ltac:(lia) ltac:(lia)) in EX.
    + destruct EX as (l12 & EX & _).
      assert (CC : forall v, result oc v -> call f va vb gb v g1). { intros v RV. exists n. unfold callN. rewrite FG. exists oc, l12. now split. }
      assert (NX2 : o1 = ONormal \/ o1 = OGoto (S k)) by (cbn [outRel] in OR; tauto).
      assert (NX3 : execT (S (S (S (S m)))) ss g1 rest2 o g2 l2').
      { destruct NX2 as [-> | ->]; cbn [catch next] in NX; [exact NX|]. now rewrite Nat.eqb_refl in NX. }
      assert (KI : fVoid G = false -> In k (dom l4')) by (now rewrite DL4).
      assert (NRest : ~ In k (dom rest)) by (intro I; apply CRest in I; lia).
      cbn [outRel] in OR. destruct OR as [(_ & -> & ->)|(_ & v & -> & OV)].
      * destruct (fVoid G) eqn:VG.
        -- exists (S (S (S (S m)))), va, vb, ga, la, gb, lb, 0%Z, g1, l4'. split; [lia|]. split; [exact Sa|]. split; [exact Sb|]. split; [now apply CC|]. split; [exact NX3|].
           split; [exact Fb|]. split; [exact DL4|]. split; [reflexivity|]. intros R w KR _ L. now apply K4.
        -- destruct (lookup_in _ _ (KI eq_refl)) as (v & LV). exists (S (S (S (S m)))), va, vb, ga, la, gb, lb, v, g1, l4'. split; [lia|]. split; [exact Sa|]. split; [exact Sb|].
           split; [now apply CC|]. split; [exact NX3|]. split; [exact Fb|]. split; [exact DL4|]. split; [exact LV|]. intros R w KR _ L. now apply K4.
      * destruct (fVoid G) eqn:VG.
        -- destruct OV as (-> & ->). exists (S (S (S (S m)))), va, vb, ga, la, gb, lb, 0%Z, g1, l4'. split; [lia|]. split; [exact Sa|]. split; [exact Sb|]. split; [now apply CC|]. split; [exact NX3|].
           split; [exact Fb|]. split; [exact DL4|]. split; [reflexivity|]. intros R w KR _ L. now apply K4.
        -- subst rest2. exists (S (S (S (S m)))), va, vb, ga, la, gb, lb, v, g1, (assignL l4' k v). split; [lia|]. split; [exact Sa|]. split; [exact Sb|].
           split; [now apply CC|]. split; [exact NX3|]. split; [now apply fm_assignE|]. split; [now rewrite assignL_dom|]. split; [apply lookup_assign_same; now apply KI|].
           intros R w KR NE L. rewrite lookup_assign_other by exact NE. now apply K4.
    + split; [right; now left|]. split; [now left|]. intros x [<-|[<-|[]]]; assumption.
    + split; [exact NF|]. intros x X. split; [now apply ND|]. now apply DG.
  - split; [unfold src2; intros x X; lia|lia| |].
    + rewrite DL4. intros y Y. apply DL in Y. lia.
    + split; [lia|]. split; [unfold src2; lia|]. rewrite DL4. exact RI.
  - split; [|lia| |].
    + constructor; [unfold src2; lia|]. constructor; [unfold src2; lia|]. constructor.
    + intros y [<-|[<-|Y]]; [cbn [fst]; lia|cbn [fst]; lia|]. change (In y (dom l4')) in Y. rewrite DL4 in Y. apply DL in Y. lia.
    + intros y [<-|[<-|Y]] YN; [cbn [fst] in YN; lia|cbn [fst] in YN; lia|]. change (In y (dom l4')) in Y. rewrite DL4 in Y. destruct (DD y Y YN) as (h & F0 & IH & FH & DX). exists h, F0. split; [now right|now split].
  - split.
    + intros x X. apply renL_free in X; [|intros y Y; destruct (DG y Y); now apply PID]. destruct X as (y & Y & ->). pose proof (NF y Y) as YN.
      destruct (Nat.eq_dec y (fP G)) as [->|NP1]. { unfold r, parName. rewrite Nat.eqb_refl. split; [unfold src2; lia|]. left. right. now left. }
      destruct (Nat.eq_dec y (fQ G)) as [->|NQ1]. { unfold r, parName. rewrite Nat.eqb_refl. assert (E : fQ G =? fP G = false) by (apply Nat.eqb_neq; congruence). rewrite E. split; [unfold src2; lia|]. left. now left. }
      rewrite PID by assumption. split; [unfold src2; lia|]. right. rewrite DL4. intro I. apply (check_vis stack f G y CH (DD y I YN)). unfold globalsOf. apply remove_iff. split; [exact Y|].
      intros [Z|[Z|[]]]; congruence.
    + rewrite renL_declared. intros x X. split; [unfold src2; left; now apply ND|]. exists f, G. split; [now left|]. split; [exact FG|]. right. now right.
    + rewrite forallb_forall in OK |- *. intros s X. apply in_map_iff in X. destruct X as (s1 & <- & X). apply (ren_okS fn enabled r N (S q)); [|lia|now apply OK].
      intros x XN. unfold r, parName. destruct (x =? fP G); [lia|]. destruct (x =? fQ G); lia.
Qed.

(** ** Expressions *)
Section Hoist.
Variables depth k0 : nat.
Variable stack : list nat.
Variable src : nat -> Prop.
Variable rest : locals.
Variable void : bool.
Variable M : mode.
Hypothesis CT : ctx src k0 rest void M.
Variable vis : nat -> Prop.
Variable d : list nat.
Hypothesis VS : forall x, vis x -> src x /\ (In x d \/ ~ In x (dom rest)).
Notation steps := (steps opf call).
Definition hcore (m m1 : nat) (ss : list stmt) (l' : locals) (o : outcome) (g2 : globals) (l2' : locals) (g1 : globals) (l1 l1' : locals) (k' : nat) : Prop :=
  exists l3' ex, m1 <= m /\ execT m1 ss g1 l1' o g2 l3' /\ l2' = skipn (length ex) l3' /\ st src k0 rest stack l1 l1' k' /\ dom l1 = d /\
    keep k0 l' l1' /\ dom l1' = ex ++ dom l' /\ (forall r, In r ex -> k0 <= r).
Lemma hcore_refl m ss g l l' o g2 l2' k : execT m ss g l' o g2 l2' -> st src k0 rest stack l l' k -> dom l = d -> hcore m m ss l' o g2 l2' g l l' k.
Proof. intros EX S1 DL. exists l2', []. split; [lia|]. split; [exact EX|]. split; [reflexivity|]. split; [exact S1|]. split; [exact DL|]. split; [apply keep_refl|]. split; [reflexivity|intros r []]. Qed.
Lemma hcore_trans m m1 m2 ss1 ss2 l' o g2 l2' g1 l1 l1' k1 g3 l3 l3' k3 :
  hcore m m1 ss1 l' o g2 l2' g1 l1 l1' k1 -> (forall l4', execT m1 ss1 g1 l1' o g2 l4' -> hcore m1 m2 ss2 l1' o g2 l4' g3 l3 l3' k3) -> hcore m m2 ss2 l' o g2 l2' g3 l3 l3' k3.
Proof.
  intros (l4' & ex & LE & EX & -> & S1 & DL & KP & DX & KX) HH. destruct (HH l4' EX) as (l5' & ex2 & LE2 & EX2 & -> & S2 & DL2 & KP2 & DX2 & KX2).
  exists l5', (ex2 ++ ex). split; [lia|]. split; [exact EX2|]. split; [rewrite app_length, skipn_skipn; f_equal; lia|]. split; [exact S2|]. split; [exact DL2|].
  split; [exact (keep_trans _ _ _ _ KP KP2)|]. split; [rewrite DX2, DX; now rewrite app_assoc|]. intros r R. apply in_app_iff in R. destruct R; auto.
Qed.
Definition HS (e : expr) : Prop :=
  forall dis k p e' k' vd m ss g l l' o g2 l2', (forall j, j < m -> SimBody j) -> hoist (handler depth stack) dis e k = (p, e', k', vd) -> commaOk fn enabled e = true ->
    (forall x, In x (freeE e) -> vis x) -> st src k0 rest stack l l' k -> dom l = d -> execT m (p ++ ss) g l' o g2 l2' ->
    exists m1 g1 l1 l1' e1, hcore m m1 ss l' o g2 l2' g1 l1 l1' k' /\ (vd = true -> m1 < m) /\ steps g l e g1 l1 e1 /\ er k0 vis l1' e1 e'.
Lemma HS_id e dis k m ss g l l' o g2 l2' : (forall x, In x (freeE e) -> vis x) -> st src k0 rest stack l l' k -> dom l = d -> execT m ss g l' o g2 l2' ->
  exists m1 g1 l1 l1' e1, hcore m m1 ss l' o g2 l2' g1 l1 l1' k /\ (dis = true -> m1 <= m) /\ steps g l e g1 l1 e1 /\ er k0 vis l1' e1 e.
Proof.
  intros V S1 DL EX. exists m, g, l, l', e. split; [now apply hcore_refl|]. split; [lia|]. split; [constructor|now apply er_refl].
Qed.
Lemma pair_sim a b disa disb k p1 a1 k1 v1 p2 b1 k2 v2 m ss g l l' o g2 l2' : HS a -> HS b -> (forall j, j < m -> SimBody j) ->
  hoist (handler depth stack) disa a k = (p1, a1, k1, v1) -> hoist (handler depth stack) disb b k1 = (p2, b1, k2, v2) ->
  commaOk fn enabled a = true -> commaOk fn enabled b = true -> (forall x, In x (freeE a ++ freeE b) -> vis x) ->
  st src k0 rest stack l l' k -> dom l = d -> execT m ((p1 ++ p2) ++ ss) g l' o g2 l2' ->
  exists m1 ga la g1 l1 l1' ae be, hcore m m1 ss l' o g2 l2' g1 l1 l1' k2 /\ (v1 || v2 = true -> m1 < m) /\ steps g l a ga la ae /\ steps ga la b g1 l1 be /\
    er k0 vis l1' ae a1 /\ er k0 vis l1' be b1.
Proof.
  intros Ha Hb SB E1 E2 Ca Cb V S1 DL EX. rewrite <- app_assoc in EX.
  destruct (Ha _ _ _ _ _ _ m (p2 ++ ss) g l l' o g2 l2' SB E1 Ca (fun x X => V x (in_or_app _ _ _ (or_introl X))) S1 DL EX) as (m1 & g1 & l1 & l1' & ae & HC1 & LT1 & SA & ERA).
  destruct HC1 as (l3' & ex & LE & EX1 & E3 & S2 & D2 & KP & DX & KX).
  destruct (Hb _ _ _ _ _ _ m1 ss g1 l1 l1' o g2 l3' (fun j J => SB j ltac:(lia)) E2 Cb (fun x X => V x (in_or_app _ _ _ (or_intror X))) S2 D2 EX1) as (m2 & g3 & l4 & l4' & be & HC2 & LT2 & SBB & ERB).
  exists m2, g1, l1, g3, l4, l4', ae, be. pose proof HC2 as (l5' & ex2 & LE2 & _ & _ & _ & _ & KP2 & _). split; [|split; [|split; [exact SA|split; [exact SBB|split; [|exact ERB]]]]].
  - destruct HC2 as (l6' & ex3 & LE3 & EX2 & E4 & S3 & D3 & KP3 & DX3 & KX3). exists l6', (ex3 ++ ex). split; [lia|]. split; [exact EX2|].
    split; [rewrite E3, E4, app_length, skipn_skipn; f_equal; lia|]. split; [exact S3|]. split; [exact D3|]. split; [exact (keep_trans _ _ _ _ KP KP3)|].
    split; [rewrite DX3, DX; now rewrite app_assoc|]. intros r R. apply in_app_iff in R. destruct R; auto.
  - intro OV. apply orb_true_iff in OV. destruct OV as [OV|OV]; [specialize (LT1 OV); lia|specialize (LT2 OV); lia].
  - exact (er_keep _ _ _ _ _ _ KP2 ERA).
Qed.
Lemma hoist_sim e : HS e.
Proof.
  destruct CT as [SK CN CRest _].
  induction e as [z|y|w o a IHa b IHb|s a IHa b IHb|c IHc a IHa b IHb|y a IHa|mk f a IHa b IHb]; intros dis k p e' k' vd m ss g l l' oo g2 l2' SB E CO V S1 DL EX.
  - cbn [hoist] in E. injection E as <- <- <- <-. destruct (HS_id (EConst z) false k m ss g l l' oo g2 l2' V S1 DL EX) as (m1 & g1 & l1 & l1' & e1 & HC1 & _ & SA & ERA).
    exists m1, g1, l1, l1', e1. split; [exact HC1|]. split; [discriminate|now split].
  - cbn [hoist] in E. injection E as <- <- <- <-. destruct (HS_id (EVar y) false k m ss g l l' oo g2 l2' V S1 DL EX) as (m1 & g1 & l1 & l1' & e1 & HC1 & _ & SA & ERA).
    exists m1, g1, l1, l1', e1. split; [exact HC1|]. split; [discriminate|now split].
  - cbn [hoist] in E. destruct (hoist _ dis a k) as [[[p1 a1] k1] v1] eqn:E1. destruct (hoist _ (dis || w) b k1) as [[[p2 b1] k2] v2] eqn:E2. injection E as <- <- <- <-.
    cbn [commaOk] in CO. apply andb_true_iff in CO. destruct CO as (Ca & Cb).
    destruct (pair_sim a b _ _ _ _ _ _ _ _ _ _ _ m ss g l l' oo g2 l2' IHa IHb SB E1 E2 Ca Cb V S1 DL EX) as (m1 & ga & la & g1 & l1 & l1' & ae & be & HC1 & LT & SA & SB1 & ERA & ERB).
    exists m1, g1, l1, l1', (EBin w o ae be). split; [exact HC1|]. split; [exact LT|]. split; [|now constructor].
    exact (steps_trans _ _ _ _ _ _ _ _ (steps_bin1 _ _ _ _ _ _ _ _ _ _ _ SA) _ _ _ (steps_bin2 _ _ _ _ _ _ _ _ _ _ _ SB1)).
  - cbn [commaOk] in CO. rewrite !andb_true_iff in CO. destruct CO as ((Ca & Cb) & CM). cbn [hoist] in E. destruct s; cbn [isComma negb] in *.
    + rewrite orb_false_r, orb_true_r in E. destruct (hoist _ dis a k) as [[[p1 a1] k1] v1] eqn:E1. destruct (hoist _ true b k1) as [[[p2 b1] k2] v2] eqn:E2.
      injection E as <- <- <- <-. rewrite hoist_id in E2 by now left. injection E2 as <- <- <- <-. rewrite app_nil_r in EX.
      destruct (IHa _ _ _ _ _ _ m ss g l l' oo g2 l2' SB E1 Ca (fun x X => V x (in_or_app _ _ _ (or_introl X))) S1 DL EX) as (m1 & g1 & l1 & l1' & ae & HC1 & LT & SA & ERA).
      exists m1, g1, l1, l1', (ESeq KAnd ae b). split; [exact HC1|]. split; [rewrite orb_false_r; exact LT|]. split; [now apply steps_seq1|]. constructor; [exact ERA|]. apply er_refl. intros x X. apply V. cbn [freeE]. rewrite in_app_iff. tauto.
    + rewrite orb_false_r, orb_true_r in E. destruct (hoist _ dis a k) as [[[p1 a1] k1] v1] eqn:E1. destruct (hoist _ true b k1) as [[[p2 b1] k2] v2] eqn:E2.
      injection E as <- <- <- <-. rewrite hoist_id in E2 by now left. injection E2 as <- <- <- <-. rewrite app_nil_r in EX.
      destruct (IHa _ _ _ _ _ _ m ss g l l' oo g2 l2' SB E1 Ca (fun x X => V x (in_or_app _ _ _ (or_introl X))) S1 DL EX) as (m1 & g1 & l1 & l1' & ae & HC1 & LT & SA & ERA).
      exists m1, g1, l1, l1', (ESeq KOr ae b). split; [exact HC1|]. split; [rewrite orb_false_r; exact LT|]. split; [now apply steps_seq1|]. constructor; [exact ERA|]. apply er_refl. intros x X. apply V. cbn [freeE]. rewrite in_app_iff. tauto.
    + rewrite orb_true_r in E. rewrite hoist_id in E by now left. cbn [orb] in CM. apply negb_true_iff in CM. rewrite hoist_id in E by now right. injection E as <- <- <- <-.
      destruct (HS_id (ESeq KComma a b) false k m ss g l l' oo g2 l2' V S1 DL EX) as (m1 & g1 & l1 & l1' & e1 & HC1 & _ & SA & ERA).
      exists m1, g1, l1, l1', e1. split; [exact HC1|]. split; [discriminate|now split].
  - cbn [hoist] in E. rewrite !hoist_id in E by now left. injection E as <- <- <- <-.
    destruct (HS_id (ECond c a b) false k m ss g l l' oo g2 l2' V S1 DL EX) as (m1 & g1 & l1 & l1' & e1 & HC1 & _ & SA & ERA).
    exists m1, g1, l1, l1', e1. split; [exact HC1|]. split; [discriminate|now split].
  - cbn [hoist] in E. destruct (hoist _ dis a k) as [[[p1 a1] k1] v1] eqn:E1. injection E as <- <- <- <-. cbn [commaOk] in CO.
    destruct (IHa _ _ _ _ _ _ m ss g l l' oo g2 l2' SB E1 CO (fun x X => V x (or_intror X)) S1 DL EX) as (m1 & g1 & l1 & l1' & ae & HC1 & LT & SA & ERA).
    exists m1, g1, l1, l1', (EAssign y ae). split; [exact HC1|]. split; [exact LT|]. split; [now apply steps_assign1|]. constructor; [apply V; now left|exact ERA].
  - cbn [hoist] in E. destruct (hoist _ dis a k) as [[[p1 a1] k1] v1] eqn:E1. destruct (hoist _ dis b k1) as [[[p2 b1] k2] v2] eqn:E2.
    cbn [commaOk] in CO. apply andb_true_iff in CO. destruct CO as (Ca & Cb). destruct (if mk && negb dis then handler depth stack f a1 b1 k2 else None) as [[[p3 ro] k3]|] eqn:EH.
    2: { injection E as <- <- <- <-.
      destruct (pair_sim a b _ _ _ _ _ _ _ _ _ _ _ m ss g l l' oo g2 l2' IHa IHb SB E1 E2 Ca Cb V S1 DL EX) as (m1 & ga & la & g1 & l1 & l1' & ae & be & HC1 & LT & SA & SB1 & ERA & ERB).
      exists m1, g1, l1, l1', (ECall mk f ae be). split; [exact HC1|]. split; [exact LT|]. split; [|now constructor].
      exact (steps_trans _ _ _ _ _ _ _ _ (steps_call1 _ _ _ _ _ _ _ _ _ _ _ SA) _ _ _ (steps_call2 _ _ _ _ _ _ _ _ _ _ _ SB1)). }
    destruct (mk && negb dis); [|discriminate]. pose proof (handler_mono fn enabled depth stack f a1 b1 k2 p3 ro k3 EH) as KM.
    apply handler_inv in EH. destruct EH as (dd & G & t & _ & FG & _ & CH & ET & EP & ER).
    assert (EX2 : execT m ((p1 ++ p2) ++ p3 ++ ss) g l' oo g2 l2').
    { destruct ro; injection E as <- <- <- <-; rewrite <- !app_assoc in EX; rewrite <- !app_assoc; exact EX. }
    destruct (pair_sim a b _ _ _ _ _ _ _ _ _ _ _ m (p3 ++ ss) g l l' oo g2 l2' IHa IHb SB E1 E2 Ca Cb V S1 DL EX2) as (m1 & ga & la & g1 & l1 & l1' & ae & be & HC1 & LT & SA & SB1 & ERA & ERB).
    assert (ST0 : forall va vb gc lc gd ld v g3, steps g1 l1 ae gc lc (EConst va) -> steps gc lc be gd ld (EConst vb) -> call f va vb gd v g3 -> steps g l (ECall mk f a b) g3 ld (EConst v)).
    { intros va vb gc lc gd ld v g3 SC SD CL. eapply steps_trans; [apply steps_call1; exact SA|]. eapply steps_trans; [apply steps_call2; exact SB1|].
      eapply steps_trans; [apply steps_call1; exact SC|]. eapply steps_trans; [apply steps_call2; exact SD|]. apply steps_one. apply StCall. exact CL. }
    destruct HC1 as (l3' & ex & LE & EX3 & E3 & S2 & D2 & KP & DX & KX). destruct S2 as [SF SKK SLL SDD]. subst p3.
    assert (VS1 : forall x, vis x -> src x /\ (In x (dom l1) \/ ~ In x (dom rest))) by (rewrite D2; exact VS).
    destruct (fVoid G) eqn:VG; subst ro; injection E as <- <- <- <-; cbn [app] in EX3.
    + destruct (block_sim dd stack src k0 rest void M f G k2 t k3 CT FG CH ET m1 a1 b1 ss g1 l1 l1' oo g2 l3' ae be vis) as (m2 & va & vb & gc & lc & gd & ld & v & g3 & lf' & LT2 & SC & SD & CL & EX4 & F4 & D4 & V4 & K4); try assumption.
      { intros j J. apply SB. lia. } { intros z Z. apply SLL in Z. lia. } { rewrite VG. discriminate. }
      rewrite VG in V4. subst v. exists m2, g3, ld, lf', (EConst 0). split; [|split; [intros _; lia|split; [exact (ST0 _ _ _ _ _ _ _ _ SC SD CL)|constructor]]].
      exists l3', ex. split; [lia|]. split; [exact EX4|]. split; [exact E3|]. split.
      { split; [exact F4|lia|intros z Z; rewrite D4 in Z; apply SLL in Z; lia|intros z Z; rewrite D4 in Z; now apply SDD]. }
      split; [rewrite <- D2; rewrite (steps_dom _ _ _ _ _ _ _ _ SD); exact (steps_dom _ _ _ _ _ _ _ _ SC)|]. split.
      { intros R w KR L. apply K4; [exact KR| |now apply KP]. intros ->. apply KP in L; [|exact KR]. apply lookup_some in L. apply SLL in L. lia. }
      split; [now rewrite D4|exact KX].
    + destruct m1 as [|m1]; [destruct EX3|]. rewrite execN_S in EX3. destruct EX3 as (w & ge & le & l5' & (-> & ->) & EX3 & E5). destruct m1 as [|m1]; [destruct EX3|]. rewrite execN_S in EX3.
      assert (NK : ~ In k2 (dom l1')) by (intro I; apply SLL in I; lia). assert (KP1 : keep k0 l1' ((k2, w) :: l1')) by now apply keep_push.
      destruct (block_sim dd stack src k0 rest void M f G k2 t k3 CT FG CH ET m1 a1 b1 ss g1 l1 ((k2, w) :: l1') oo g2 l5' ae be vis) as (m2 & va & vb & gc & lc & gd & ld & v & g3 & lf' & LT2 & SC & SD & CL & EX4 & F4 & D4 & V4 & K4); try assumption.
      { intros j J. apply SB. lia. } { constructor; [lia|exact SF]. } { intros z [<-|Z]; [cbn [fst]; lia|]. apply SLL in Z. lia. }
      { intros z [<-|Z] ZN; [cbn [fst] in ZN; lia|]. now apply SDD. } { intros _. now left. } { exact (er_keep _ _ _ _ _ _ KP1 ERA). } { exact (er_keep _ _ _ _ _ _ KP1 ERB). }
      rewrite VG in V4. cbn [dom map fst] in D4. change (map fst l1') with (dom l1') in D4. exists m2, g3, ld, lf', (EConst v). split; [|split; [intros OV; specialize (LT OV); lia|split; [exact (ST0 _ _ _ _ _ _ _ _ SC SD CL)|now constructor]]].
      exists l5', (k2 :: ex). split; [lia|]. split; [exact EX4|]. split; [rewrite E3, E5; destruct l5'; [now rewrite !skipn_nil|reflexivity]|]. split.
      { split; [exact F4|lia| |]; intros z Z; rewrite D4 in Z.
        - apply handler_mono_aux in ET. destruct Z as [<-|Z]; [lia|]. apply SLL in Z. lia.
        - intro ZN. destruct Z as [<-|Z]; [lia|]. now apply SDD. }
      split; [rewrite <- D2; rewrite (steps_dom _ _ _ _ _ _ _ _ SD); exact (steps_dom _ _ _ _ _ _ _ _ SC)|]. split.
      { intros R x KR L. apply KP in L; [|exact KR]. apply K4; [exact KR| |now apply KP1]. intros ->. apply lookup_some in L. contradiction. }
      split; [rewrite D4, DX; reflexivity|]. intros r [<-|R]; [lia|now apply KX].
Qed.
End Hoist.

(** ** Statements *)
Lemma hoist_whole depth stack e k p e1 k1 : wholeVoid fn e = true -> hoist (handler depth stack) false e k = (p, e1, k1, true) -> e1 = EConst 0.
Proof.
  intros WV E. assert (NN : noVoid fn e = true -> e1 = EConst 0) by (intro NV; apply hoist_novoid in E; [discriminate|exact NV]).
  destruct e as [z|y|w o a b|s a b|c a b|y a|m f a b]; try (apply NN; exact WV). cbn [wholeVoid] in WV. apply andb_true_iff in WV. destruct WV as (Wa & Wb). cbn [hoist] in E.
  destruct (hoist _ false a k) as [[[p1 a1] k2] v1] eqn:E1. destruct (hoist _ false b k2) as [[[p2 b1] k3] v2] eqn:E2. apply hoist_novoid in E1; [|exact Wa]. apply hoist_novoid in E2; [|exact Wb]. subst.
  destruct (m && negb false); [|discriminate]. destruct (handler depth stack f a1 b1 k3) as [[[p3 [r|]] k4]|]; [discriminate|now injection E as <- <- <-|discriminate].
Qed.
Lemma brace_exec m t g l' o g2 l2' : execT m [brace t] g l' o g2 l2' -> exists m1, m1 <= m /\ execT m1 t g l' o g2 l2'.
Proof.
  intro EX. assert (B : forall t, execT m [SBlock t None] g l' o g2 l2' -> exists m1, m1 <= m /\ execT m1 t g l' o g2 l2').
  { intros t0 E. destruct m as [|m]; [destruct E|]. rewrite execN_S in E. destruct E as (o1 & g1 & l1 & E & NX). exists m. split; [lia|].
    replace (catch None o1) with o1 in NX by (destruct o1; reflexivity). destruct o1; cbn [next] in NX.
    - destruct m as [|m]; [destruct NX|]. rewrite execN_S in NX. destruct NX as (-> & -> & ->). exact E.
    - destruct NX as (-> & -> & ->). exact E.
    - destruct NX as (-> & -> & ->). exact E. }
  destruct t as [|s [|s2 t]]; cbn [brace] in EX; [now apply B|exists m; split; [lia|exact EX]|now apply B].
Qed.
Lemma st_dom src k0 rest stack l l' k l1 l1' : st src k0 rest stack l l' k -> fm src k0 rest l1 l1' -> dom l1' = dom l' -> st src k0 rest stack l1 l1' k.
Proof. intros [F K L DD] F1 E. split; [exact F1|exact K|now rewrite E|now rewrite E]. Qed.
Lemma st_k src k0 rest stack l l' k k2 : st src k0 rest stack l l' k -> k <= k2 -> st src k0 rest stack l l' k2.
Proof. intros [F K L DD] E. split; [exact F|lia| |exact DD]. intros y Y. apply L in Y. lia. Qed.
Lemma pg_tail0 src rest stack void K s b d : declS s = [] -> pg src rest stack void K (s :: b) d -> pg src rest stack void K b d.
Proof.
  intros E [F DD O]. cbn [freeL flat_map forallb] in *. rewrite E in F. split.
  - intros x X. apply F. rewrite in_app_iff, remove_iff. right. split; [exact X|intros []].
  - intros x X. apply DD. rewrite in_app_iff. now right.
  - apply andb_true_iff in O. tauto.
Qed.
Lemma pg_decl src rest stack void K x i ds b d : pg src rest stack void K (SDecl ((x, i) :: ds) :: b) d -> pg src rest stack void K (SDecl ds :: b) (x :: d).
Proof.
  intros [F DD O]. split.
  - intros y Y. destruct (Nat.eq_dec y x) as [->|NE].
    + split; [|left; now left]. apply DD. cbn [flat_map declaredS map fst]. now left.
    + destruct (F y) as (S1 & V1); [|split; [exact S1|]; destruct V1 as [V1|V1]; [left; now right|now right]].
      cbn [freeL freeS declS freeDs map fst] in *. rewrite in_app_iff, remove_iff in Y. rewrite !in_app_iff, !remove_iff. cbn [In].
      destruct Y as [Y|(Y & Z)]; [left; right; split; [exact Y|intros [Q|[]]; congruence]|right]. split; [exact Y|]. intros [Q|Q]; [congruence|now apply Z].
  - intros y Y. apply DD. cbn [flat_map declaredS map fst] in *. now right.
  - cbn [forallb okS] in *. apply andb_true_iff in O. destruct O as (O & OB). apply andb_true_iff. split; [|exact OB]. unfold okDs in *. cbn [forallb length] in O.
    rewrite !andb_true_iff, !orb_true_iff in O. rewrite !andb_true_iff, !orb_true_iff. destruct O as ((_ & O1) & O2). split; [exact O1|]. destruct O2 as [[O2|O2]|O2]; [tauto| |].
    + left. right. apply Nat.leb_le in O2. apply Nat.leb_le. lia.
    + right. apply andb_true_iff in O2. tauto.
Qed.
Lemma evalT_sim src k0 rest void M stack l l' k : ctx src k0 rest void M -> st src k0 rest stack l l' k -> forall j g e v g1 l1', SimBody j ->
  eval opf (callT j) g l' e v g1 l1' -> (forall x, In x (freeE e) -> src x /\ (In x (dom l) \/ ~ In x (dom rest))) ->
  exists l1, eval opf call g l e v g1 l1 /\ st src k0 rest stack l1 l1' k /\ dom l1 = dom l.
Proof.
  intros [SK CN CRest _] S1 j g e v g1 l1' SB EV V.
  destruct (er_eval src k0 SK (fun x => src x /\ (In x (dom l) \/ ~ In x (dom rest))) opf (callT j) call (call_sim j SB) rest (dom l) (fun x X => X) g l' e v g1 l1' l e EV (sF _ _ _ _ _ _ _ S1) eq_refl (er_refl _ _ _ _ V)) as (l1 & EV1 & F1 & D1 & _).
  exists l1. split; [exact EV1|]. split; [|exact D1]. exact (st_dom _ _ _ _ _ _ _ _ _ S1 F1 (steps_dom _ _ _ _ _ _ _ _ EV)).
Qed.
Lemma evalTO_sim src k0 rest void M stack l l' k : ctx src k0 rest void M -> st src k0 rest stack l l' k -> forall j g i v g1 l1', SimBody j ->
  evalO opf (callT j) g l' i v g1 l1' -> (forall x, In x (freeO i) -> src x /\ (In x (dom l) \/ ~ In x (dom rest))) ->
  exists l1, evalO opf call g l i v g1 l1 /\ st src k0 rest stack l1 l1' k /\ dom l1 = dom l.
Proof.
  intros CT S1 j g i v g1 l1' SB EV V. destruct i as [e|]; [exact (evalT_sim _ _ _ _ _ _ _ _ _ CT S1 j g e v g1 l1' SB EV V)|]. destruct EV as (-> & ->). exists l. now repeat split; try apply S1.
Qed.
(** A value of an expression after execution of its calls *)
Lemma hoist_eval src k0 rest void M stack depth l l' k e p e1 k1 vd : ctx src k0 rest void M -> st src k0 rest stack l l' k -> forall n g ss o g2 l2', (forall j, j < n -> SimBody j) ->
  hoist (handler depth stack) false e k = (p, e1, k1, vd) -> commaOk fn enabled e = true -> (forall x, In x (freeE e) -> src x /\ (In x (dom l) \/ ~ In x (dom rest))) ->
  execT n (p ++ ss) g l' o g2 l2' ->
  exists m g1 l1 l1' l3' ex ee, m <= n /\ (vd = true -> m < n) /\ execT m ss g1 l1' o g2 l3' /\ l2' = skipn (length ex) l3' /\ st src k0 rest stack l1 l1' k1 /\ dom l1 = dom l /\
    dom l1' = ex ++ dom l' /\ (forall r, In r ex -> k0 <= r) /\ steps opf call g l e g1 l1 ee /\
    (e1 = EConst 0 -> ee = EConst 0) /\
    (forall j v ga la', j < n -> eval opf (callT j) g1 l1' e1 v ga la' -> exists la, eval opf call g l e v ga la /\ st src k0 rest stack la la' k1 /\ dom la = dom l).
Proof.
  intros CT S1 n g ss o g2 l2' SB E CO V EX.
  destruct (hoist_sim depth k0 stack src rest void M CT (fun x => src x /\ (In x (dom l) \/ ~ In x (dom rest))) (dom l) (fun x X => X) e false k p e1 k1 vd n ss g l l' o g2 l2' SB E CO V S1 eq_refl EX)
    as (m & g1 & l1 & l1' & ee & (l3' & ex & LE & EX1 & E3 & S2 & D2 & _ & DX & KX) & LT & SA & ER).
  exists m, g1, l1, l1', l3', ex, ee. repeat (split; [assumption|]). split; [intros ->; exact (er_const _ _ _ _ _ ER)|].
  intros j v ga la' J EV. destruct CT as [SK CN CRest _].
  destruct (er_eval src k0 SK (fun x => src x /\ (In x (dom l) \/ ~ In x (dom rest))) opf (callT j) call (call_sim j (SB j J)) rest (dom l) (fun x X => X) g1 l1' e1 v ga la' l1 ee EV (sF _ _ _ _ _ _ _ S2) D2 ER) as (la & EV1 & F1 & D1 & _).
  exists la. split; [exact (steps_trans _ _ _ _ _ _ _ _ SA _ _ _ EV1)|]. split; [|exact D1]. exact (st_dom _ _ _ _ _ _ _ _ _ S2 F1 (steps_dom _ _ _ _ _ _ _ _ EV)).
Qed.
Lemma concl_pop src k0 M last void rest b g l o' g2 l3' ex d : ctx src k0 rest void M -> concl src k0 M last void rest b g l o' g2 l3' -> dom l3' = ex ++ d -> (forall r, In r ex -> k0 <= r) ->
  concl src k0 M last void rest b g l o' g2 (skipn (length ex) l3').
Proof.
  intros [SK CN CRest _] (o & l2 & rest2 & EX & OR & F) DX KX. exists o, l2, rest2. split; [exact EX|]. split; [exact OR|]. apply (fm_pops src k0 SK rest2 l2 ex l3' d F DX KX).
  rewrite (outRel_dom _ _ _ _ _ _ _ OR). exact CRest.
Qed.
Lemma seq_sim src k0 M last void rest b B m g1 l1 l1' o' o1' g2 l2' o1 rest1 : outRel M false void o1' o1 rest rest1 -> fm src k0 rest1 l1 l1' ->
  next opf ext fn' m o' g2 l2' B o1' g1 l1' ->
  (fm src k0 rest l1 l1' -> execT m B g1 l1' o' g2 l2' -> concl src k0 M last void rest b g1 l1 o' g2 l2') ->
  exists o l2 rest2, nextE opf ext fn o g2 l2 b o1 g1 l1 /\ outRel M last void o' o rest rest2 /\ fm src k0 rest2 l2 l2'.
Proof.
  intros OR F NX CC. destruct M as [|R L]; cbn [outRel] in OR.
  - destruct OR as (-> & ->). destruct o1; cbn [next nextE] in *; [now apply CC| |].
    + destruct NX as (-> & -> & ->). exists (OReturn v), l1, rest. now repeat split.
    + destruct NX as (-> & -> & ->). exists (OGoto l), l1, rest. now repeat split.
  - destruct OR as [(-> & -> & ->)|([->|(? & _)] & v & -> & OV)]; [now apply CC| |discriminate]. cbn [next nextE] in *. destruct NX as (-> & -> & ->).
    exists (OReturn v), l1, rest1. split; [now repeat split|]. split; [|exact F]. cbn [outRel]. right. split; [now left|]. exists v. now split.
Qed.
Lemma st_push src k0 rest stack l l' k x v : ctx src k0 rest false MRoot -> st src k0 rest stack l l' k -> src x -> D stack x -> st src k0 rest stack ((x, v) :: l) ((x, v) :: l') k.
Proof.
  intros [SK CN CRest _] [F K L DD] SX DX. split; [now constructor|exact K| |].
  - intros y [<-|Y]; [cbn [fst]; specialize (SK x SX); lia|now apply L].
  - intros y [<-|Y] YN; [exact DX|now apply DD].
Qed.
Lemma ctx_root src k0 rest void M : ctx src k0 rest void M -> ctx src k0 rest false MRoot.
Proof. intros [SK CN CRest _]. now split. Qed.
(** Removal of a local variable at the end of its scope *)
Lemma concl_decl src k0 M last void rest x i ds b g l o' g2 l3' v g1 l1 : ctx src k0 rest void M -> src x -> evalO opf call g l i v g1 l1 ->
  concl src k0 M last void rest (SDecl ds :: b) g1 ((x, v) :: l1) o' g2 l3' -> (exists d, dom l3' = x :: d) -> concl src k0 M last void rest (SDecl ((x, i) :: ds) :: b) g l o' g2 (tl l3').
Proof.
  intros [SK CN CRest _] SX EV (o & l2 & rest2 & EX & OR & F) (d & DX). exists o, (tl l2), rest2. split; [exact (exec_decl _ _ _ _ _ _ _ _ _ _ _ _ _ _ _ EV EX)|]. split; [exact OR|].
  destruct EX as (n & EX). apply execN_dom in EX. cbn [dom map fst] in EX. destruct (dom_cons _ _ _ EX) as (w & l4 & -> & _). destruct (dom_cons _ _ _ DX) as (w2 & l4' & -> & _). cbn [tl].
  apply (fm_popsrc src k0 SK) in F; [tauto|exact SX].
Qed.

Theorem sim n : SimBody n.
Proof.
  induction n as [n IHn] using lt_wf_ind. intros depth stack src k0 rest void M last b k K l l' g o' g2 l2' CT ST PG EX.
  pose proof CT as [SK CN CRest CR]. pose proof (ctx_root _ _ _ _ _ CT) as CT0.
  destruct b as [|s b].
  { cbn [tL fst] in EX. destruct n as [|n]; [destruct EX|]. rewrite execN_S in EX. destruct EX as (-> & -> & ->). exists ONormal, l, rest. split; [apply exec_nil|].
    split; [destruct M; cbn [outRel]; [now split|now left]|exact (sF _ _ _ _ _ _ _ ST)]. }
  cbn [tL] in EX. destruct (tS (handler depth stack) M (last && isNil b) s k) as [t k1] eqn:ES. destruct (tL (handler depth stack) M last b k1) as [b1 k2] eqn:EB. cbn [fst] in EX.
  pose proof (tS_mono (handler depth stack) M ltac:(intros; eapply handler_mono; eassumption)) as TM. pose proof (TM _ _ _ _ _ ES) as KM.
  (* the rest of a list *)
  assert (IHb : declS s = [] -> forall m, m < n -> forall l0 l0' g0 o0 g20 l20', st src k0 rest stack l0 l0' k1 -> dom l0 = dom l -> execT m b1 g0 l0' o0 g20 l20' -> concl src k0 M last void rest b g0 l0 o0 g20 l20').
  { intros DS m LM l0 l0' g0 o0 g20 l20' S0 D00 E0. apply (IHn m LM depth stack src k0 rest void M last b k1 K l0 l0' g0 o0 g20 l20' CT S0); [rewrite D00; exact (pg_tail0 _ _ _ _ _ _ _ _ DS PG)|].
    now rewrite EB. }
  assert (FD : forall m b l l' g o g2, execT m b g l' o g2 l -> dom l = dom l') by (intros m0 b0 l0 l0' g0 o0 g20 E0; exact (execN_dom _ _ _ _ _ _ _ _ _ _ E0)).
  pose proof PG as [PF PD PO]. cbn [forallb] in PO. apply andb_true_iff in PO. destruct PO as (OS & OB).
  assert (SUB : forall s1, (forall x, In x (freeS s1) -> In x (freeS s)) -> (forall x, In x (declaredS s1) -> In x (declaredS s)) -> okS X0 fn enabled K void s1 = true -> pg src rest stack void K [s1] (dom l)).
  { intros s1 FS DS O1. split; cbn [freeL flat_map forallb]; [| |now rewrite O1].
    - intros x X. rewrite app_nil_r in X. apply PF. cbn [freeL]. rewrite in_app_iff. left. now apply FS.
    - intros x X. rewrite app_nil_r in X. apply PD. cbn [flat_map]. rewrite in_app_iff. left. now apply DS. }
  assert (OKE : forall e, okE X0 fn enabled K e = true -> commaOk fn enabled e = true) by (intros e O; unfold okE in O; apply andb_true_iff in O; tauto).
  assert (OKV : forall e, okV X0 fn enabled K e = true -> commaOk fn enabled e = true /\ noVoid fn e = true).
  { intros e O. unfold okV in O. apply andb_true_iff in O. split; [apply OKE|]; tauto. }
  destruct s as [e|ds|e s1 s2|c i s|init c i s|bb lab|i|x].
  - (* an expression *)
    cbn [tS] in ES. destruct (hoist (handler depth stack) false e k) as [[[p e1] kh] v] eqn:EH. injection ES as <- <-. cbn [okS] in OS. apply andb_true_iff in OS. destruct OS as (OE & WV).
    assert (VE : forall x, In x (freeE e) -> src x /\ (In x (dom l) \/ ~ In x (dom rest))) by (intros x X; apply PF; cbn [freeL freeS]; rewrite in_app_iff; tauto).
    assert (EX2 : execT n (p ++ (if v then b1 else SExpr e1 :: b1)) g l' o' g2 l2') by (destruct v; cbn [place] in EX; [exact EX|rewrite <- app_assoc in EX; exact EX]).
    destruct (hoist_eval _ _ _ _ _ _ _ _ _ _ _ _ _ _ _ CT ST n g _ o' g2 l2' IHn EH (OKE e OE) VE EX2) as (m & g1 & l1 & l1' & l3' & ex & ee & LE & LT & EX3 & -> & S1 & D1 & DX & KX & SE & Z0 & EVS).
    destruct v.
    + specialize (LT eq_refl). pose proof (hoist_whole _ _ _ _ _ _ _ WV EH) as E0. rewrite (Z0 E0) in SE. apply (concl_pop _ _ _ _ _ _ _ _ _ _ _ _ ex (dom l')); [exact CT| |rewrite (FD _ _ _ _ _ _ _ EX3); exact DX|exact KX].
      destruct (IHb eq_refl m LT l1 l1' g1 o' g2 l3' S1 D1 EX3) as (o & l2 & rest2 & EB2 & OR & F2). exists o, l2, rest2. split; [|now split]. exact (exec_expr _ _ _ _ _ _ _ _ _ _ _ _ _ SE EB2).
    + destruct m as [|m]; [destruct EX3|]. rewrite execN_S in EX3. destruct EX3 as (v & ga & la' & EV & EX4). destruct (EVS m v ga la' ltac:(lia) EV) as (la & EVO & SA & DA).
      apply (concl_pop _ _ _ _ _ _ _ _ _ _ _ _ ex (dom l')); [exact CT| |rewrite (FD _ _ _ _ _ _ _ EX4), (steps_dom _ _ _ _ _ _ _ _ EV); exact DX|exact KX].
      destruct (IHb eq_refl m ltac:(lia) la la' ga o' g2 l3' SA DA EX4) as (o & l2 & rest2 & EB2 & OR & F2). exists o, l2, rest2. split; [|now split]. exact (exec_expr _ _ _ _ _ _ _ _ _ _ _ _ _ EVO EB2).
  - (* declarations *)
    cbn [okS] in OS. destruct ds as [|[x i] ds].
    { cbn [tS hoistDs place app] in ES. injection ES as <- <-. cbn [app] in EX. destruct n as [|n]; [destruct EX|]. rewrite execN_S in EX.
      destruct (IHb eq_refl n ltac:(lia) l l' g o' g2 l2' ST eq_refl EX) as (o & l2 & rest2 & EB2 & OR & F2). exists o, l2, rest2. split; [now apply exec_decl0|now split]. }
    assert (SX : src x /\ D stack x) by (apply PD; cbn [flat_map declaredS map fst]; now left). destruct SX as (SX & DSX).
    assert (VI : forall y, In y (freeO i) -> src y /\ (In y (dom l) \/ ~ In y (dom rest))) by (intros y Y; apply PF; cbn [freeL freeS freeDs]; rewrite !in_app_iff; tauto).
    pose proof (pg_decl _ _ _ _ _ _ _ _ _ _ PG) as PG1.
    destruct (unmarkedDs fn enabled ((x, i) :: ds)) eqn:UM.
    + cbn [tS] in ES. rewrite (hoistDs_id fn enabled depth stack _ k UM) in ES. cbn [place app] in ES. injection ES as <- <-. cbn [app] in EX. destruct n as [|n]; [destruct EX|]. rewrite execN_S in EX.
      destruct EX as (v & g1 & l1' & l3' & EV & EX & ->). destruct (evalTO_sim _ _ _ _ _ _ _ _ _ CT ST n g i v g1 l1' (IHn n ltac:(lia)) EV VI) as (l1 & EVO & S1 & D1).
      apply (concl_decl _ _ _ _ _ _ _ _ _ _ _ _ _ _ _ v g1 l1 CT SX EVO).
      * apply (IHn n ltac:(lia) depth stack src k0 rest void M last (SDecl ds :: b) k K ((x, v) :: l1) ((x, v) :: l1')); [exact CT|now apply st_push|cbn [dom map fst]; change (map fst l1) with (dom l1); rewrite D1; exact PG1|].
        cbn [tL tS]. cbn [unmarkedDs forallb] in UM. apply andb_true_iff in UM. rewrite (hoistDs_id fn enabled depth stack ds k (proj2 UM)). cbn [place app]. rewrite EB. exact EX.
      * exists (dom l1'). rewrite (FD _ _ _ _ _ _ _ EX). reflexivity.
    + unfold okDs in OS. apply andb_true_iff in OS. destruct OS as (OD & OG). cbn [xGroup negb orb] in OG. fold (unmarkedDs fn enabled ((x, i) :: ds)) in OG. rewrite UM, orb_false_r in OG.
      destruct ds as [|? ds]; [|discriminate]. destruct i as [e|]; [|discriminate]. cbn [forallb fst snd] in OD. rewrite !andb_true_iff in OD. destruct OD as ((_ & OV) & _). destruct (OKV e OV) as (CO & NV).
      cbn [tS hoistDs] in ES. destruct (hoist (handler depth stack) false e k) as [[[p e1] kh] v] eqn:EH. pose proof (hoist_novoid fn enabled depth stack e NV _ _ _ _ _ _ EH) as ->. cbn [orb place] in ES.
      injection ES as <- <-. rewrite app_nil_r, <- app_assoc in EX.
      destruct (hoist_eval _ _ _ _ _ _ _ _ _ _ _ _ _ _ _ CT ST n g _ o' g2 l2' IHn EH CO VI EX) as (m & g1 & l1 & l1' & l3' & ex & ee & LE & _ & EX3 & -> & S1 & D1 & DX & KX & SE & _ & EVS).
      cbn [app] in EX3. destruct m as [|m]; [destruct EX3|]. rewrite execN_S in EX3. destruct EX3 as (v & ga & la' & l4' & EV & EX4 & ->). destruct (EVS m v ga la' ltac:(lia) EV) as (la & EVO & SA & DA).
      assert (D4 : dom l4' = x :: ex ++ dom l'). { rewrite (FD _ _ _ _ _ _ _ EX4). cbn [dom map fst]. f_equal. change (map fst la') with (dom la'). now rewrite (steps_dom _ _ _ _ _ _ _ _ EV). }
      apply (concl_pop _ _ _ _ _ _ _ _ _ _ _ _ ex (dom l')); [exact CT| |destruct (dom_cons _ _ _ D4) as (w & l5 & -> & D5); exact D5|exact KX].
      apply (concl_decl _ _ _ _ _ _ _ (Some e) _ _ _ _ _ _ _ v ga la CT SX EVO); [|now exists (ex ++ dom l')].
      apply (IHn m ltac:(lia) depth stack src k0 rest void M last (SDecl [] :: b) kh K ((x, v) :: la) ((x, v) :: la')); [exact CT|now apply st_push|cbn [dom map fst]; change (map fst la) with (dom la); rewrite DA; exact PG1|].
      cbn [tL tS hoistDs place app]. rewrite EB. exact EX4.
  - (* if *)
    cbn [okS] in OS. rewrite !andb_true_iff in OS. destruct OS as ((OV & O1) & O2). destruct (OKV e OV) as (CO & NV).
    cbn [tS] in ES. destruct (hoist (handler depth stack) false e k) as [[[p e1] kh] v] eqn:EH. pose proof (hoist_novoid fn enabled depth stack e NV _ _ _ _ _ _ EH) as ->.
    destruct (tS (handler depth stack) M false s1 kh) as [t1 k3] eqn:E1. destruct (tS (handler depth stack) M false s2 k3) as [t2 k4] eqn:E2. cbn [place] in ES. injection ES as <- <-. rewrite <- app_assoc in EX.
    assert (VE : forall x, In x (freeE e) -> src x /\ (In x (dom l) \/ ~ In x (dom rest))) by (intros x X; apply PF; cbn [freeL freeS]; rewrite !in_app_iff; tauto).
    destruct (hoist_eval _ _ _ _ _ _ _ _ _ _ _ _ _ _ _ CT ST n g _ o' g2 l2' IHn EH CO VE EX) as (m & g1 & l1 & l1' & l3' & ex & ee & LE & _ & EX3 & -> & S1 & D1 & DX & KX & SE & _ & EVS).
    cbn [app] in EX3. destruct m as [|m]; [destruct EX3|]. rewrite execN_S in EX3. destruct EX3 as (v & ga & la' & o1' & g3 & l4' & EV & EX4 & NX). destruct (EVS m v ga la' ltac:(lia) EV) as (la & EVO & SA & DA).
    assert (EX5 : execT m [brace (if Z.eqb v 0 then t2 else t1)] ga la' o1' g3 l4') by (destruct (Z.eqb v 0); exact EX4). apply brace_exec in EX5. destruct EX5 as (m1 & LM1 & EX5).
    pose proof (TM _ _ _ _ _ E1) as K13. pose proof (TM _ _ _ _ _ E2) as K34.
    assert (CB : concl src k0 M false void rest [if Z.eqb v 0 then s2 else s1] ga la o1' g3 l4').
    { apply (IHn m1 ltac:(lia) depth stack src k0 rest void M false _ (if Z.eqb v 0 then k3 else kh) K la la'); [exact CT| | |].
      - apply (st_k _ _ _ _ _ _ kh); [exact SA|]. destruct (Z.eqb v 0); lia.
      - rewrite DA. destruct (Z.eqb v 0); apply SUB; try assumption; cbn [freeS declaredS]; intros x X; rewrite !in_app_iff; tauto.
      - rewrite tL_one. destruct (Z.eqb v 0); [rewrite E2|rewrite E1]; cbn [fst]; rewrite app_nil_r; exact EX5. }
    destruct CB as (o1 & l5 & rest1 & EXB & OR1 & F1). pose proof (FD _ _ _ _ _ _ _ EX5) as D45. pose proof (steps_dom _ _ _ _ _ _ _ _ EV) as DEV.
    assert (D5 : dom l5 = dom la) by (destruct EXB as (n5 & EXB); exact (execN_dom _ _ _ _ _ _ _ _ _ _ EXB)).
    apply (concl_pop _ _ _ _ _ _ _ _ _ _ _ _ ex (dom l')); [exact CT| | |exact KX].
    + destruct (seq_sim src k0 M last void rest b b1 m g3 l5 l4' o' o1' g2 l3' o1 rest1 OR1 F1 NX) as (o & l2 & rest2 & NE & OR & F2).
      * intros F0 E0. apply (IHb eq_refl m ltac:(lia) l5 l4'); [|now rewrite D5|exact E0]. apply (st_k _ _ _ _ _ _ kh); [|lia]. exact (st_dom _ _ _ _ _ _ _ _ _ SA F0 D45).
      * exists o, l2, rest2. split; [|now split]. exact (exec_if _ _ _ _ _ _ _ _ _ _ _ _ _ _ _ _ _ _ EVO EXB NE).
    + assert (D3 : dom l3' = dom l4'). { destruct o1'; cbn [next] in NX; [exact (FD _ _ _ _ _ _ _ NX)| |]; destruct NX as (_ & _ & ->); reflexivity. } rewrite D3, D45, DEV. exact DX.
  - (* a loop *)
    cbn [okS] in OS. rewrite !andb_true_iff in OS. destruct OS as ((OC & OI) & O1). cbn [tS] in ES. destruct (tS (handler depth stack) M false s k) as [t1 k3] eqn:E1. injection ES as <- <-. cbn [app] in EX.
    assert (VC : forall x, In x (freeE c) -> src x /\ (In x (dom l) \/ ~ In x (dom rest))) by (intros x X; apply PF; cbn [freeL freeS]; rewrite !in_app_iff; tauto).
    assert (VI : forall x, In x (freeE i) -> src x /\ (In x (dom l) \/ ~ In x (dom rest))) by (intros x X; apply PF; cbn [freeL freeS]; rewrite !in_app_iff; tauto).
    destruct n as [|n]; [destruct EX|]. rewrite execN_S in EX. destruct EX as (v & ga & la' & EV & EX). destruct (evalT_sim _ _ _ _ _ _ _ _ _ CT ST n g c v ga la' (IHn n ltac:(lia)) EV VC) as (la & EVO & SA & DA).
    destruct (Z.eqb v 0) eqn:V0.
    + apply Z.eqb_eq in V0. subst v. destruct (IHb eq_refl n ltac:(lia) la la' ga o' g2 l2' (st_k _ _ _ _ _ _ _ _ SA KM) DA EX) as (o & l2 & rest2 & EB2 & OR & F2).
      exists o, l2, rest2. split; [|now split]. exact (exec_loop0 _ _ _ _ _ _ _ _ _ _ _ _ _ _ EVO EB2).
    + destruct EX as (o1' & g3 & l4' & EX4 & NX). apply brace_exec in EX4. destruct EX4 as (m1 & LM1 & EX5).
      assert (CB : concl src k0 M false void rest [s] ga la o1' g3 l4').
      { apply (IHn m1 ltac:(lia) depth stack src k0 rest void M false [s] k K la la'); [exact CT|exact SA| |].
        - rewrite DA. apply SUB; try assumption; cbn [freeS declaredS]; intros x X; rewrite ?in_app_iff; tauto.
        - rewrite tL_one, E1. cbn [fst]. rewrite app_nil_r. exact EX5. }
      destruct CB as (o1 & l5 & rest1 & EXB & OR1 & F1). pose proof (FD _ _ _ _ _ _ _ EX5) as D45.
      assert (D5 : dom l5 = dom la) by (destruct EXB as (n5 & EXB); exact (execN_dom _ _ _ _ _ _ _ _ _ _ EXB)).
      destruct (seq_sim src k0 M last void rest (SExpr i :: SLoop c i s :: b) (SExpr i :: SLoop c i (brace t1) :: b1) n g3 l5 l4' o' o1' g2 l2' o1 rest1 OR1 F1 NX) as (o & l2 & rest2 & NE & OR & F2).
      * intros F0 E0. destruct n as [|n]; [destruct E0|]. rewrite execN_S in E0. destruct E0 as (v2 & gb & lb' & EV2 & E0). pose proof (st_dom _ _ _ _ _ _ _ _ _ SA F0 D45) as S5.
        assert (VI5 : forall x, In x (freeE i) -> src x /\ (In x (dom l5) \/ ~ In x (dom rest))) by (rewrite D5, DA; exact VI).
        destruct (evalT_sim _ _ _ _ _ _ _ _ _ CT S5 n g3 i v2 gb lb' (IHn n ltac:(lia)) EV2 VI5) as (lb & EVO2 & SB2 & DB2).
        destruct (IHn n ltac:(lia) depth stack src k0 rest void M last (SLoop c i s :: b) k K lb lb' gb o' g2 l2' CT SB2) as (o & l2 & rest2 & EB2 & OR & F2).
        -- rewrite DB2, D5, DA. exact PG.
        -- cbn [tL tS]. rewrite E1, EB. exact E0.
        -- exists o, l2, rest2. split; [|now split]. exact (exec_expr _ _ _ _ _ _ _ _ _ _ _ _ _ EVO2 EB2).
      * exists o, l2, rest2. split; [|now split]. exact (exec_loop1 _ _ _ _ _ _ _ _ _ _ _ _ _ _ _ _ _ _ EVO V0 EXB NE).
  - (* a for loop *)
    cbn [okS] in OS. rewrite !andb_true_iff in OS. destruct OS as (((OI & OC) & OII) & O1).
    assert (OL : okS X0 fn enabled K void (SLoop c i s) = true) by (cbn [okS]; rewrite OC, OII, O1; reflexivity).
    (* the part after the initialization *)
    assert (TAIL : forall m o1' gx lx' o1 l5 rest1 ki, m < n -> k <= ki -> ki <= k1 -> outRel M false void o1' o1 rest rest1 -> fm src k0 rest1 l5 lx' -> dom l5 = dom l -> forall ex l3', dom lx' = ex ++ dom l' ->
      (forall r, In r ex -> k0 <= r) -> (forall y, In y ex -> y < ki) -> next opf ext fn' m o' g2 l3' b1 o1' gx lx' -> exec [init; SLoop c i s] g l o1 gx l5 ->
      concl src k0 M last void rest (SFor init c i s :: b) g l o' g2 (skipn (length ex) l3')).
    { intros m o1' gx lx' o1 l5 rest1 ki LM KI1 KI2 OR1 F1 D5 ex l3' DX KX KY NX EXB. apply (concl_pop _ _ _ _ _ _ _ _ _ _ _ _ ex (dom l')); [exact CT| | |exact KX].
      - destruct (seq_sim src k0 M last void rest b b1 m gx l5 lx' o' o1' g2 l3' o1 rest1 OR1 F1 NX) as (o & l2 & rest2 & NE & OR & F2).
        + intros F0 E0. apply (IHb eq_refl m LM l5 lx'); [|exact D5|exact E0]. destruct ST as [SF SKK SLL SDD]. split; [exact F0|lia| |]; rewrite DX; intros y Y; apply in_app_iff in Y; destruct Y as [Y|Y].
          * specialize (KY y Y). lia.
          * apply SLL in Y. lia.
          * specialize (KX y Y). lia.
          * now apply SDD.
        + exists o, l2, rest2. split; [|now split]. exact (exec_for _ _ _ _ _ _ _ _ _ _ _ _ _ _ _ _ EXB NE).
      - assert (D3 : dom l3' = dom lx'). { destruct o1'; cbn [next] in NX; [exact (FD _ _ _ _ _ _ _ NX)| |]; destruct NX as (_ & _ & ->); reflexivity. } rewrite D3. exact DX. }
    destruct init as [e|ds| | | | | | ]; try discriminate.
    + destruct (OKV e OI) as (CO & NV). cbn [tS] in ES. destruct (hoist (handler depth stack) false e k) as [[[p e1] kh] v] eqn:EH. pose proof (hoist_novoid fn enabled depth stack e NV _ _ _ _ _ _ EH) as ->.
      destruct (tS (handler depth stack) M false s kh) as [t1 k3] eqn:E1. cbn [place] in ES. injection ES as <- <-. rewrite <- app_assoc in EX.
      assert (VE : forall x, In x (freeE e) -> src x /\ (In x (dom l) \/ ~ In x (dom rest))) by (intros x X; apply PF; cbn [freeL freeS]; rewrite !in_app_iff; tauto).
      destruct (hoist_eval _ _ _ _ _ _ _ _ _ _ _ _ _ _ _ CT ST n g _ o' g2 l2' IHn EH CO VE EX) as (m & g1 & l1 & l1' & l3' & ex & ee & LE & _ & EX3 & -> & S1 & D1 & DX & KX & SE & _ & EVS).
      cbn [app] in EX3. destruct m as [|m]; [destruct EX3|]. rewrite execN_S in EX3. destruct EX3 as (o1' & gx & lx' & EX4 & NX). destruct m as [|m]; [destruct EX4|]. rewrite execN_S in EX4. destruct EX4 as (v & ga & la' & EV & EX4).
      destruct (EVS m v ga la' ltac:(lia) EV) as (la & EVO & SA & DA).
      destruct (IHn m ltac:(lia) depth stack src k0 rest void M false [SLoop c i s] kh K la la' ga o1' gx lx' CT SA) as (o1 & l5 & rest1 & EXB & OR1 & F1).
      * rewrite DA. apply SUB; [| |exact OL]; cbn [freeS declaredS declS]; intros x X; rewrite ?in_app_iff, ?remove_iff in *; [right; split; [|intros []]; rewrite !in_app_iff; tauto|tauto].
      * rewrite tL_one. cbn [tS]. rewrite E1. exact EX4.
      * pose proof (steps_dom _ _ _ _ _ _ _ _ EV) as DEV. pose proof (FD _ _ _ _ _ _ _ EX4) as D45.
        apply (TAIL (S m) o1' gx lx' o1 l5 rest1 kh); [lia|exact (hoist_mono _ ltac:(intros; eapply handler_mono; eassumption) _ _ _ _ _ _ _ EH)|exact (TM _ _ _ _ _ E1)|exact OR1|exact F1| |rewrite D45, DEV; exact DX|exact KX| |exact NX|].
        -- rewrite <- DA. destruct EXB as (n5 & EXB). exact (execN_dom _ _ _ _ _ _ _ _ _ _ EXB).
        -- intros y Y. apply (sL _ _ _ _ _ _ _ S1). rewrite DX, in_app_iff. now left.
        -- exact (exec_expr _ _ _ _ _ _ _ _ _ _ _ _ _ EVO EXB).
    + destruct (unmarkedDs fn enabled ds) eqn:UM.
      * cbn [tS] in ES. rewrite (hoistDs_id fn enabled depth stack _ k UM) in ES. destruct (tS (handler depth stack) M false s k) as [t1 k3] eqn:E1. cbn [place app] in ES. injection ES as <- <-. cbn [app] in EX.
        destruct n as [|n]; [destruct EX|]. rewrite execN_S in EX. destruct EX as (o1' & gx & lx' & EX4 & NX).
        destruct (IHn n ltac:(lia) depth stack src k0 rest void M false [SDecl ds; SLoop c i s] k K l l' g o1' gx lx' CT ST) as (o1 & l5 & rest1 & EXB & OR1 & F1).
        -- split.
           ++ intros x X. apply PF. cbn [freeL freeS declS] in *. rewrite !in_app_iff in *. rewrite !remove_iff in *. rewrite !in_app_iff in *. cbn [remove filter In] in X. tauto.
           ++ intros x X. apply PD. cbn [flat_map declaredS] in *. rewrite !in_app_iff in *. cbn [In] in X. tauto.
           ++ cbn [forallb]. rewrite OL. cbn [okS]. rewrite OI. reflexivity.
        -- cbn [tL tS andb isNil]. rewrite (hoistDs_id fn enabled depth stack _ k UM), E1. exact EX4.
        -- rewrite <- (skipn_O l2'). apply (TAIL n o1' gx lx' o1 l5 rest1 k ltac:(lia) ltac:(lia) KM OR1 F1) with (ex := []); [|cbn [app]; exact (FD _ _ _ _ _ _ _ EX4)|intros r []|intros y []|exact NX|exact EXB].
           destruct EXB as (n5 & EXB). exact (execN_dom _ _ _ _ _ _ _ _ _ _ EXB).
      * unfold okDs in OI. apply andb_true_iff in OI. destruct OI as (OD & OG). cbn [xGroup negb orb] in OG. fold (unmarkedDs fn enabled ds) in OG. rewrite UM, orb_false_r in OG.
        destruct ds as [|[x i0] [|? ds]]; [discriminate| |discriminate]. destruct i0 as [e|]; [|discriminate]. cbn [forallb fst snd] in OD. rewrite !andb_true_iff in OD. destruct OD as ((_ & OV) & _). destruct (OKV e OV) as (CO & NV).
        cbn [tS hoistDs] in ES. destruct (hoist (handler depth stack) false e k) as [[[p e1] kh] v] eqn:EH. pose proof (hoist_novoid fn enabled depth stack e NV _ _ _ _ _ _ EH) as ->. cbn [orb] in ES.
        destruct (tS (handler depth stack) M false s kh) as [t1 k3] eqn:E1. cbn [place] in ES. injection ES as <- <-. rewrite app_nil_r, <- app_assoc in EX.
        assert (VE : forall x, In x (freeE e) -> src x /\ (In x (dom l) \/ ~ In x (dom rest))) by (intros y X; apply PF; cbn [freeL freeS freeDs freeO]; rewrite !in_app_iff; tauto).
        assert (SX : src x /\ D stack x) by (apply PD; cbn [flat_map declaredS map fst]; now left). destruct SX as (SX & DSX).
        destruct (hoist_eval _ _ _ _ _ _ _ _ _ _ _ _ _ _ _ CT ST n g _ o' g2 l2' IHn EH CO VE EX) as (m & g1 & l1 & l1' & l3' & ex & ee & LE & _ & EX3 & -> & S1 & D1 & DX & KX & SE & _ & EVS).
        cbn [app] in EX3. destruct m as [|m]; [destruct EX3|]. rewrite execN_S in EX3. destruct EX3 as (o1' & gx & lx' & EX4 & NX). destruct m as [|m]; [destruct EX4|]. rewrite execN_S in EX4. destruct EX4 as (v & ga & la' & ly' & EV & EX4 & ->).
        destruct (EVS m v ga la' ltac:(lia) EV) as (la & EVO & SA & DA).
        destruct (IHn m ltac:(lia) depth stack src k0 rest void M false [SDecl []; SLoop c i s] kh K ((x, v) :: la) ((x, v) :: la') ga o1' gx ly' CT) as (o1 & l5 & rest1 & EXB & OR1 & F1).
        -- now apply st_push.
        -- cbn [dom map fst]. change (map fst la) with (dom la). rewrite DA. split.
           ++ intros y Y. destruct (Nat.eq_dec y x) as [->|NE]; [split; [exact SX|left; now left]|]. destruct (PF y) as (S7 & V7); [|split; [exact S7|]; destruct V7 as [V7|V7]; [left; now right|now right]].
              cbn [freeL freeS freeDs declS map fst app] in *. rewrite ?in_app_iff, ?remove_iff in *. rewrite ?in_app_iff in *. cbn [remove filter In] in *. left. right. split; [|intros [Q|[]]; congruence]. tauto.
           ++ intros y Y. apply PD. cbn [flat_map declaredS map fst app] in *. rewrite !in_app_iff in *. cbn [In] in *. rewrite ?in_app_iff. tauto.
           ++ cbn [forallb]. rewrite OL. reflexivity.
        -- cbn [tL tS andb isNil hoistDs place app]. rewrite E1. exact EX4.
        -- pose proof (steps_dom _ _ _ _ _ _ _ _ EV) as DEV. pose proof (FD _ _ _ _ _ _ _ EX4) as D45. cbn [dom map fst] in D45. change (map fst la') with (dom la') in D45.
           pose proof EXB as (n5 & EXB5). apply execN_dom in EXB5. cbn [dom map fst] in EXB5. change (map fst la) with (dom la) in EXB5.
           destruct (dom_cons _ _ _ EXB5) as (w5 & l6 & -> & D6). destruct (dom_cons _ _ _ D45) as (w6 & l6' & -> & D6'). cbn [tl] in *. apply (fm_popsrc src k0 SK) in F1; [|exact SX]. destruct F1 as (F1 & _).
           apply (TAIL (S m) o1' gx l6' o1 l6 rest1 kh); [lia|exact (hoist_mono _ ltac:(intros; eapply handler_mono; eassumption) _ _ _ _ _ _ _ EH)|exact (TM _ _ _ _ _ E1)|exact OR1|exact F1|now rewrite D6|rewrite D6', DEV; exact DX|exact KX| |exact NX|].
           ++ intros y Y. apply (sL _ _ _ _ _ _ _ S1). rewrite DX, in_app_iff. now left.
           ++ exact (exec_decl _ _ _ _ (Some e) _ _ _ _ _ _ _ _ _ _ EVO EXB).
  - (* a compound statement *)
    cbn [okS] in OS. apply andb_true_iff in OS. destruct OS as (OL & OBB). destruct lab as [|]; [discriminate|]. rewrite tS_block in ES. destruct (tL (handler depth stack) M false bb k) as [bb1 k3] eqn:E1. injection ES as <- <-. cbn [app] in EX.
    destruct n as [|n]; [destruct EX|]. rewrite execN_S in EX. destruct EX as (o1' & gx & lx' & EX4 & NX).
    destruct (IHn n ltac:(lia) depth stack src k0 rest void M false bb k K l l' g o1' gx lx' CT ST) as (o1 & l5 & rest1 & EXB & OR1 & F1).
    + split; [intros x X; apply PF; cbn [freeL]; rewrite in_app_iff, freeS_block; now left|intros x X; apply PD; cbn [flat_map declaredS]; rewrite in_app_iff; now left|exact OBB].
    + rewrite E1. exact EX4.
    + assert (CN1 : forall oo, catch None oo = oo) by (intros []; reflexivity). rewrite CN1 in NX.
      destruct (seq_sim src k0 M last void rest b b1 n gx l5 lx' o' o1' g2 l2' o1 rest1 OR1 F1 NX) as (o & l2 & rest2 & NE & OR & F2).
      * intros F0 E0. apply (IHb eq_refl n ltac:(lia) l5 lx'); [| |exact E0].
        -- apply (st_k _ _ _ _ _ _ k); [|exact KM]. exact (st_dom _ _ _ _ _ _ _ _ _ ST F0 (FD _ _ _ _ _ _ _ EX4)).
        -- destruct EXB as (n5 & EXB). exact (execN_dom _ _ _ _ _ _ _ _ _ _ EXB).
      * exists o, l2, rest2. split; [|now split]. apply (exec_block _ _ _ _ None _ _ _ _ _ _ _ _ _ EXB). rewrite CN1. exact NE.
  - (* return *)
    destruct i as [e|].
    + cbn [okS] in OS. apply andb_true_iff in OS. destruct OS as (NVD & OV). apply negb_true_iff in NVD. destruct (OKV e OV) as (CO & NV).
      cbn [tS] in ES. destruct (hoist (handler depth stack) false e k) as [[[p e1] kh] v] eqn:EH. pose proof (hoist_novoid fn enabled depth stack e NV _ _ _ _ _ _ EH) as ->. cbn [place] in ES. injection ES as <- <-. rewrite <- app_assoc in EX.
      assert (VE : forall x, In x (freeE e) -> src x /\ (In x (dom l) \/ ~ In x (dom rest))) by (intros x X; apply PF; cbn [freeL freeS freeO]; rewrite !in_app_iff; tauto).
      destruct (hoist_eval _ _ _ _ _ _ _ _ _ _ _ _ _ _ _ CT ST n g _ o' g2 l2' IHn EH CO VE EX) as (m & g1 & l1 & l1' & l3' & ex & ee & LE & _ & EX3 & -> & S1 & D1 & DX & KX & SE & _ & EVS).
      cbn [app] in EX3. destruct M as [|R L]; cbn [retS] in EX3.
      * destruct m as [|m]; [destruct EX3|]. rewrite execN_S in EX3. destruct EX3 as (v & EV & ->). destruct (EVS m v g2 l3' ltac:(lia) EV) as (la & EVO & SA & DA).
        apply (concl_pop _ _ _ _ _ _ _ _ _ _ _ _ ex (dom l')); [exact CT| |rewrite (steps_dom _ _ _ _ _ _ _ _ EV); exact DX|exact KX].
        exists (OReturn v), la, rest. split; [exact (exec_return _ _ _ (Some e) _ _ _ _ _ _ EVO)|]. split; [now split|exact (sF _ _ _ _ _ _ _ SA)].
      * destruct CR as (RK & NSR & RI).
        assert (AS : forall j v ga la', j < n -> eval opf (callT j) g1 l1' (EAssign R e1) v ga la' -> forall o2, (o2 = OGoto L \/ last = true /\ o2 = ONormal) -> concl src k0 (MCallee R L) last void rest (SReturn (Some e) :: b) g l o2 ga (skipn (length ex) la')).
        { intros j v ga la' J EV o2 OO. apply assign_inv in EV. destruct EV as (gc & lc' & EV & EG & EL). destruct (EVS j v gc lc' J EV) as (lc & EVO & SC & DC).
          destruct (fm_assignR src k0 rest gc lc lc' R v (sF _ _ _ _ _ _ _ SC) NSR RK (RI NVD)) as (EG2 & F2). subst ga la'.
          apply (concl_pop _ _ _ _ _ _ _ _ _ _ _ _ ex (dom l')); [exact CT| |rewrite assignL_dom, (steps_dom _ _ _ _ _ _ _ _ EV); exact DX|exact KX].
          exists (OReturn v), lc, (assignL rest R v). split; [rewrite EG2; exact (exec_return _ _ _ (Some e) _ _ _ _ _ _ EVO)|]. split; [|exact F2].
          cbn [outRel]. right. split; [exact OO|]. exists v. split; [reflexivity|]. now rewrite NVD. }
        destruct (last && isNil b) eqn:LA.
        -- apply andb_true_iff in LA. destruct LA as (-> & NB). destruct b as [|? b]; [|discriminate]. cbn [tL] in EB. injection EB as <- <-.
           destruct m as [|m]; [destruct EX3|]. rewrite execN_S in EX3. destruct EX3 as (v & ga & la' & EV & EX4). destruct m as [|m]; [destruct EX4|]. rewrite execN_S in EX4. destruct EX4 as (-> & -> & ->).
           apply (AS (S m) v ga la' ltac:(lia) EV). right. now split.
        -- destruct m as [|m]; [destruct EX3|]. rewrite execN_S in EX3. destruct EX3 as (o1' & gx & lx' & EX4 & NX). destruct m as [|m]; [destruct EX4|]. rewrite execN_S in EX4. destruct EX4 as (v & ga & la' & EV & EX4).
           destruct m as [|m]; [destruct EX4|]. rewrite execN_S in EX4. destruct EX4 as (-> & -> & ->). cbn [catch next] in NX. destruct NX as (-> & -> & ->).
           apply (AS (S m) v ga la' ltac:(lia) EV). now left.
    + cbn [okS] in OS. subst void. cbn [tS] in ES. injection ES as <- <-. cbn [app] in EX. destruct M as [|R L]; cbn [retS] in EX.
      * destruct n as [|n]; [destruct EX|]. rewrite execN_S in EX. destruct EX as (v & (-> & ->) & ->). exists (OReturn v), l, rest. split; [apply exec_return; now split|]. split; [now split|exact (sF _ _ _ _ _ _ _ ST)].
      * assert (AS : forall o2, (o2 = OGoto L \/ last = true /\ o2 = ONormal) -> concl src k0 (MCallee R L) last true rest (SReturn None :: b) g l o2 g l').
        { intros o2 OO. exists (OReturn 0), l, rest. split; [apply exec_return; now split|]. split; [|exact (sF _ _ _ _ _ _ _ ST)]. cbn [outRel]. right. split; [exact OO|]. exists 0%Z. now split. }
        destruct (last && isNil b) eqn:LA.
        -- apply andb_true_iff in LA. destruct LA as (-> & NB). destruct b as [|? b]; [|discriminate]. cbn [tL] in EB. injection EB as <- <-.
           destruct n as [|n]; [destruct EX|]. rewrite execN_S in EX. destruct EX as (v & ga & la' & EV & EX4). destruct n as [|n]; [destruct EX4|]. rewrite execN_S in EX4. destruct EX4 as (-> & -> & ->).
           inversion EV as [|? ? ? ? ? ? ? ? ? S3]; subst; [|inversion S3]. apply AS. right. now split.
        -- destruct n as [|n]; [destruct EX|]. rewrite execN_S in EX. destruct EX as (-> & -> & ->). apply AS. now left.
  - discriminate.
Qed.

(** ** There are no jumps from a source function *)
Fixpoint nogo (s : stmt) : bool :=
  match s with
  | SGoto _ => false
  | SIf _ s1 s2 => nogo s1 && nogo s2
  | SLoop _ _ s => nogo s
  | SFor init _ _ s => nogo init && nogo s
  | SBlock b _ => forallb nogo b
  | _ => true
  end.
Lemma okS_nogo K void s : okS X0 fn enabled K void s = true -> nogo s = true.
Proof.
  induction s as [e|ds|e s1 s2 IH1 IH2|c i s IH|init c i s IHi IH|bb lab IH|i|x] using stmt_ind2; cbn [okS nogo]; intro O; try reflexivity.
  - rewrite !andb_true_iff in O. rewrite IH1, IH2; tauto.
  - rewrite !andb_true_iff in O. apply IH. tauto.
  - rewrite !andb_true_iff in O. rewrite IH by tauto. destruct init; try reflexivity; destruct O as (((O & _) & _) & _); discriminate.
  - rewrite andb_true_iff in O. destruct O as (_ & O). rewrite forallb_forall in O. rewrite Forall_forall in IH. apply forallb_forall. intros s I. apply IH; [exact I|now apply O].
  - discriminate.
Qed.
Lemma execN_nogoto m : forall b g l o g2 l2, forallb nogo b = true -> execN opf ext fn m b g l o g2 l2 -> forall x, o <> OGoto x.
Proof.
  assert (NX : forall m b g1 l1 o1 o g2 l2, (forall x, o1 <> OGoto x) -> (forall b g l o g2 l2, forallb nogo b = true -> execN opf ext fn m b g l o g2 l2 -> forall x, o <> OGoto x) ->
    forallb nogo b = true -> next opf ext fn m o g2 l2 b o1 g1 l1 -> forall x, o <> OGoto x).
  { intros m0 b g1 l1 o1 o g2 l2 NG IH OB E x. destruct o1; cbn [next] in E; [exact (IH _ _ _ _ _ _ OB E x)| |]; destruct E as (-> & _); [discriminate|exact (NG x)]. }
  induction m as [|m IH]; intros b g l o g2 l2 OB EX; [destruct EX|]. rewrite execN_S in EX. destruct b as [|s b]; [destruct EX as (-> & _); discriminate|].
  pose proof OB as OB0. cbn [forallb] in OB. apply andb_true_iff in OB. destruct OB as (OS & OB).
  assert (ONE : forall s, nogo s = true -> forallb nogo [s] = true) by (intros s0 E; cbn [forallb]; now rewrite E).
  destruct s as [e|ds|e s1 s2|c i s|init c i s|bb lab|i|x]; cbn [nogo] in OS.
  - destruct EX as (v & g1 & l1 & _ & EX). exact (IH _ _ _ _ _ _ OB EX).
  - destruct ds as [|[x i] ds]; [exact (IH _ _ _ _ _ _ OB EX)|]. destruct EX as (v & g1 & l1 & l3 & _ & EX & _). refine (IH (SDecl ds :: b) _ _ _ _ _ _ EX); cbn [forallb nogo]; exact OB.
  - destruct EX as (v & g1 & l1 & o1 & g3 & l3 & _ & EX & NE). rewrite !andb_true_iff in OS. destruct OS as (O1 & O2).
    refine (NX _ _ _ _ _ _ _ _ _ IH OB NE). refine (IH _ _ _ _ _ _ _ EX). apply ONE. destruct (Z.eqb v 0); assumption.
  - destruct EX as (v & g1 & l1 & _ & EX). destruct (Z.eqb v 0); [exact (IH _ _ _ _ _ _ OB EX)|]. destruct EX as (o1 & g3 & l3 & EX & NE).
    refine (NX _ _ _ _ _ _ _ _ _ IH _ NE); [exact (IH _ _ _ _ _ _ (ONE _ OS) EX)|exact OB0].
  - destruct EX as (o1 & g1 & l1 & EX & NE). apply andb_true_iff in OS. refine (NX _ _ _ _ _ _ _ _ _ IH OB NE). refine (IH _ _ _ _ _ _ _ EX). cbn [forallb nogo]. now rewrite (proj1 OS), (proj2 OS).
  - destruct EX as (o1 & g1 & l1 & EX & NE). refine (NX _ _ _ _ _ _ _ _ _ IH OB NE). intro x. pose proof (IH _ _ _ _ _ _ OS EX) as NG. destruct o1 as [|v|y]; [destruct lab; discriminate|destruct lab; discriminate|exfalso; now apply (NG y)].
  - destruct EX as (v & _ & ->). discriminate.
  - discriminate.
Qed.
Theorem C72_sim :
  (forall f a b g v g2, InlineSpec.call opf ext fn' f a b g v g2 -> call f a b g v g2) /\
  (forall f F n a b g x g2 l2, fn' f = Some F -> ~ execT n (fBody F) g (frame F a b) (OGoto x) g2 l2).
Proof.
  split.
  - intros f a b g v g2 (n & E). exact (call_sim n (sim n) f a b g v g2 E).
  - intros f F' n a b g x g2 l2' TF E. destruct (fn f) as [F|] eqn:FF; [|unfold transform in TF; now rewrite FF in TF].
    destruct (body_sim n (sim n) f F F' a b g _ g2 l2' FF TF E) as (l2 & m & EX). destruct (okF_inv F f FF) as (_ & _ & _ & OK & _).
    refine (execN_nogoto m _ _ _ _ _ _ _ EX x eq_refl). apply forallb_forall. intros s I. rewrite forallb_forall in OK. exact (okS_nogo N (fVoid F) s (OK s I)).
Qed.
End Sim.
