(** C62: memory which is live after functions is found. *)
From Coq Require Import ZArith List Bool Arith Lia Permutation.
From Verif Require Import RangeModel RangeSpec MemSetModel MemSetSpec MemSetProof GlobalLiveModel GlobalLiveSpec GlobalLiveProof.
Import ListNotations.
Local Open Scope nat_scope.

Lemma funOf_filter (p : node -> bool) l x : In x (flat_map funOf (filter p l)) -> In x (flat_map funOf l).
Proof. rewrite !in_flat_map. intros (n & H & K). apply filter_In in H. exists n. tauto. Qed.
Lemma NoDup_filter_funs (p : node -> bool) l : NoDup (flat_map funOf l) -> NoDup (flat_map funOf (filter p l)).
Proof.
  induction l as [|n l IH]; [auto|]. cbn [flat_map filter]. unfold funOf at 1. destruct (nFun n) as [f|] eqn:En; cbn [app]; intros H.
  - inversion H; subst. destruct (p n); [|auto]. cbn [flat_map]. unfold funOf at 1. rewrite En. cbn [app]. constructor; [|auto]. intros K. apply H2. eapply funOf_filter; exact K.
  - destruct (p n); [|auto]. cbn [flat_map]. unfold funOf at 1. rewrite En. cbn [app]. auto.
Qed.
Lemma unique_key {A} (r : list (nat * A)) k x y : NoDup (map fst r) -> In (k, x) r -> In (k, y) r -> x = y.
Proof.
  induction r as [|[j z] r IH]; intros ND Hx Hy; [destruct Hx|]. cbn in ND. inversion ND; subst.
  destruct Hx as [Ex|Hx], Hy as [Ey|Hy]; [congruence|injection Ex as -> ->; exfalso; apply H1; change k with (fst (k, y)); now apply in_map|injection Ey as -> ->; exfalso; apply H1; change k with (fst (k, x)); now apply in_map|auto].
Qed.
Lemma unique_fun l (n m : node) f : NoDup (flat_map funOf l) -> In n l -> In m l -> nFun n = Some f -> nFun m = Some f -> n = m.
Proof.
  induction l as [|a l IH]; intros ND Hn Hm En Em; [destruct Hn|]. cbn [flat_map] in ND.
  assert (ND' : NoDup (flat_map funOf l)) by (clear - ND; unfold funOf at 1 in ND; destruct (nFun a); [now inversion ND|exact ND]).
  assert (X : forall k, In k l -> nFun a = Some f -> nFun k = Some f -> False).
  { intros k Hk Ea Ek. unfold funOf at 1 in ND. rewrite Ea in ND. inversion ND; subst. apply H1. apply in_flat_map. exists k. split; [exact Hk|]. unfold funOf. rewrite Ek. now left. }
  destruct Hn as [<-|Hn], Hm as [<-|Hm]; [reflexivity|exfalso; eauto|exfalso; eauto|auto].
Qed.

Lemma initMayLives_some dio fn isAlloca isGlobal under f calls s : In s calls -> initMayLives dio fn isAlloca isGlobal under f calls =
  fold_left (insertIf (keeps dio fn isAlloca isGlobal under f (mergeAll calls))) (defsOf fn f) [].
Proof. destruct calls; [intros []|reflexivity]. Qed.

(** Each byte which is defined in a function and is read after a return from the function,
    before it is overwritten, is reported as live after the function.
    Missing: recursion, blocks with instructions after calls, functions with variable numbers
    of arguments, memory which is not known in a calling function, see below. *)
Theorem C62_live_partial : forall dio fn isAlloca isGlobal under instrs blockOf callLocs live noExternal sccs res v root after0 known,
  globalLive dio fn isAlloca isGlobal under instrs blockOf callLocs live noExternal sccs = Lives res ->
  dioSpec dio -> viewsOk v ->
  (forall f, setOk v (gDefs (fn f)) /\ setOk v (gMayDefs (fn f))) ->
  (forall f out b, setOk v out -> setOk v (live f out b)) ->
  (forall c i r, In (i, r) (callLocs c) -> rCollapsed r = false /\ rLo r = precise 0 /\ (exists q, locOk v q r) /\ forall p, locOk v p (argLoc p r)) ->
  calleesFirst sccs -> nodesUnique sccs -> noRecursion sccs ->
  callsRight fn blockOf sccs root after0 noExternal ->
  paramsRight fn isAlloca isGlobal under callLocs root after0 known ->
  liveRight live root after0 known ->
  localsDie isAlloca under root after0 ->
  forall F e steps after out x, within root after0 (Act F e steps) after -> In (F, out) res ->
    defines fn F x -> exposed (e x) after -> inSet out x.
Proof.
  intros dio fn isAlloca isGlobal under instrs blockOf callLocs live noExternal sccs res v root after0 known HG Hdio Hv DO LO CO CF NU NR [CR1 CR2] PR LR LD.
  unfold globalLive in HG. destruct (collect fn instrs blockOf noExternal sccs [] []) as [[wl ext]|] eqn:Ec; [|discriminate].
  destruct (process dio fn isAlloca isGlobal under blockOf callLocs live ext (rev wl) (fun _ => []) []) as [r|] eqn:Ep; [|discriminate]. injection HG as ->.
  destruct (collect_spec _ _ _ _ _ _ _ _ _ Ec) as (Ewl & Eext & SC). cbn [app] in Ewl, Eext.
  assert (EN : nodes sccs = map fst sccs).
  { unfold nodes. clear - SC. induction sccs as [|[n q] l IH]; [reflexivity|]. cbn [flat_map map fst snd]. rewrite (proj1 (SC n q (or_introl eq_refl))). cbn [app]. f_equal. apply IH. intros m t K. apply SC. now right. }
  assert (NDn : NoDup (flat_map funOf (map fst sccs))) by (rewrite <- EN; exact NU).
  pose proof (process_keys _ _ _ _ _ _ _ _ _ _ _ _ _ Ep) as PK. cbn [map app] in PK.
  assert (NDr : NoDup (map fst res)).
  { rewrite PK. eapply Permutation_NoDup; [apply Permutation_flat_map, Permutation_rev|]. rewrite Ewl. now apply NoDup_filter_funs. }
  pose proof (process_spec dio fn isAlloca isGlobal under blockOf callLocs live v Hdio Hv DO LO CO ext (rev wl) (fun _ => []) [] res Ep ltac:(intros h s [])) as [_ PS].
  assert (OUT : forall F, calledOutside sccs F /\ noExternal = false -> memb F ext = true).
  { intros F [(n & Hn & Fn & HF) ->]. apply memb_spec. rewrite Eext. apply in_flat_map. exists n. rewrite EN in Hn. split; [exact Hn|]. unfold outsideOf. now rewrite Fn. }
  assert (NODE : forall F out, In (F, out) res -> exists n, In n (map fst sccs) /\ nFun n = Some F /\ analyzed fn n = true).
  { intros F out H. assert (K : In F (map fst res)) by (change F with (fst (F, out)); now apply in_map). rewrite PK in K. apply in_flat_map in K. destruct K as (n & K1 & K2).
    apply in_rev in K1. rewrite Ewl in K1. apply filter_In in K1. exists n. split; [tauto|]. split; [|tauto]. unfold funOf in K2. destruct (nFun n) as [f|]; [|destruct K2]. destruct K2 as [->|[]]. reflexivity. }
  assert (EXT : forall F e steps after out x, within root after0 (Act F e steps) after -> In (F, out) res -> memb F ext = true -> defines fn F x -> exposed (e x) after -> inSet out x).
  { intros F e steps after out x W Ho Hm D X. destruct (NODE F out Ho) as (n & N1 & N2 & N3).
    assert (In n (rev wl)) as Hn by (apply -> in_rev; rewrite Ewl; apply filter_In; auto). destruct (in_split _ _ Hn) as (pre & post & Es).
    destruct (PS pre n post F Es N2) as (LSf & P1 & _ & _ & _). rewrite (unique_key _ _ _ _ NDr Ho P1). unfold mayLives. rewrite Hm.
    destruct (insertIf_ok v Hv (notLocal isAlloca under) (defsOf fn F) [] (setOk_nil v) (defsOf_ok fn v DO F)) as [_ B].
    unfold inSet. apply B. right. apply (defines_loc fn v DO) in D. destruct D as (q & D1 & D2 & D3). exists q. split; [exact D1|]. split; [|auto].
    unfold notLocal. rewrite D2. destruct (isAlloca (under (fst x))) eqn:Ea; [|reflexivity]. exfalso. exact (LD F e steps after x W Ea X). }
  intros F e steps after out x W. remember (Act F e steps) as A eqn:EA. revert F e steps out x EA. induction W as [|G eG pre b l1 c A l2 post after W IH]; intros F e steps out x EA Ho D X.
  - apply (EXT F e steps after0 out x); [rewrite <- EA; constructor|exact Ho| |exact D|exact X]. apply OUT. eapply CR1; [exact EA|eauto].
  - subst A. assert (WF : within root after0 (Act F e steps) (flat_map flatE l2 ++ flat post ++ after)) by (econstructor; exact W).
    destruct (CR2 _ _ _ _ _ _ _ _ _ _ _ _ W) as [CO'|(GL & GM & Eb & El & GV & n & Hn & Fn & He)]; [eapply EXT; [exact WF|exact Ho|now apply OUT|exact D|exact X]|].
    destruct (memb F ext) eqn:Em; [eapply EXT; eauto|]. subst l2. cbn [flat_map app] in X, WF.
    rewrite EN in Hn. destruct (NODE F out Ho) as (nF & N1 & N2 & N3).
    assert (AG : analyzed fn n = true) by (unfold analyzed; rewrite Fn, GL, GM; reflexivity).
    assert (HC : In F (calleesOf n)) by (apply in_flat_map; exists (mkEdge (Some c) (Some F)); split; [exact He|now left]).
    apply in_map_iff in Hn. destruct Hn as ((n' & q) & En' & Hn). cbn in En'. subst n'. destruct (in_split _ _ Hn) as (la & lb & Es).
    assert (HF : In nF (map fst la)).
    { apply in_map_iff in N1. destruct N1 as ((m & t) & Em' & Hm). cbn in Em'. subst m. rewrite Es in Hm. apply in_app_iff in Hm. destruct Hm as [Hm|Hm]; [change nF with (fst (nF, t)); now apply in_map|]. exfalso.
      destruct (SC n q Hn) as [-> _]. destruct (CF la n [] lb nF t G F Es Fn HC Hm N2) as [->|[]]. eapply NR; [rewrite EN; apply in_map; exact Hn|exact N2|exact HC]. }
    assert (Sp : exists p1 p2, rev wl = p1 ++ nF :: p2 /\ In n p1).
    { rewrite Ewl, Es, map_app, filter_app, rev_app_distr. cbn [map fst filter]. rewrite AG. cbn [rev].
      assert (K : In nF (rev (filter (analyzed fn) (map fst la)))) by (apply -> in_rev; apply filter_In; auto). destruct (in_split _ _ K) as (a & d & ->).
      exists ((rev (filter (analyzed fn) (map fst lb)) ++ [n]) ++ a), d. split; [rewrite !app_assoc; reflexivity|]. apply in_or_app. left. apply in_or_app. right. now left. }
    destruct Sp as (p1 & p2 & Er & Hn1). destruct (PS p1 nF p2 F Er N2) as (LSf & P1 & _ & P3 & P4). destruct (P4 n G c Hn1 Fn He) as (outG & s & Q1 & Q2 & Q3 & Q4).
    rewrite (unique_key _ _ _ _ NDr Ho P1). unfold mayLives. rewrite Em. rewrite (initMayLives_some _ _ _ _ _ _ _ _ Q3).
    destruct (mergeAll_ok v Hv (LSf F)) as [M1 M2]; [apply Forall_forall; apply P3|]. set (FOut := mergeAll (LSf F)) in *.
    destruct (insertIf_ok v Hv (keeps dio fn isAlloca isGlobal under F FOut) (defsOf fn F) [] (setOk_nil v) (defsOf_ok fn v DO F)) as [_ B].
    unfold inSet. apply B. right. pose proof D as D'. apply (defines_loc fn v DO) in D'. destruct D' as (q' & D1 & D2 & D3). exists q'. split; [exact D1|]. split; [|auto].
    unfold keeps. rewrite D2. destruct (isAlloca (under (fst x))) eqn:Ea; [exfalso; exact (LD F e steps _ x WF Ea X)|].
    destruct (memb (under (fst x)) (gArgs (fn F)) || isGlobal (under (fst x))) eqn:Er'; [|reflexivity].
    assert (RT : rooted fn isGlobal under F x) by (apply orb_true_iff in Er'; destruct Er' as [K|K]; [left; now apply memb_spec|now right]).
    destruct (PR _ _ _ _ _ _ _ _ _ _ _ _ x W D RT Ea) as (p & z & Z0 & Ee & Kn & Df & Sz & Sr).
    assert (LV : setCovers (live G outG b) p z).
    { destruct (LR _ _ _ _ _ _ _ outG (p, z) W Kn) as [L1 L2]. rewrite <- Ee in X. destruct (exposed_app _ _ _ X) as [X1|[X1 X2]]; [exact (L1 X1)|].
      apply (L2 X1 X2). eapply IH; [reflexivity|exact Q1|exact Df|exact X2]. }
    assert (LS : setCovers FOut (under (fst x)) z).
    { apply M2. exists s. split; [exact Q3|]. unfold callSet in Q4. rewrite GV in Q4. rewrite <- Eb in Q4.
      destruct (fun H => addArgs_ok dio v Hdio Hv (gArgs (fn F)) (callLocs c) H _ _ (LO G outG b Q2) Q4) as (_ & S1 & S2); [intros i t K; destruct (CO c i t K) as (_ & _ & K1 & K2); auto|].
      destruct Sr as [[Sg ->]|(i & t & S3 & S4 & S5 & S6)]; [now apply S1|]. destruct (CO c i t S4) as (T1 & T2 & _). eapply S2; eauto. }
    assert (OA : overlap dio FOut (afterLoc (under (fst x))) = true).
    { destruct (overlap dio FOut (afterLoc (under (fst x)))) eqn:Eo; [reflexivity|exfalso].
      refine (overlap_ok dio Hdio v Hv FOut (under (fst x)) (afterLoc (under (fst x))) M1 _ Eo z _ LS); [split; [reflexivity| |discriminate]; intros _; cbn; repeat split; try lia; discriminate|cbn; lia]. }
    rewrite OA. cbn [negb]. rewrite orb_false_r. destruct (Nat.eqb_spec (under (fst x)) (fst x)) as [Eu|]; [|reflexivity]. cbn [andb]. rewrite negb_involutive.
    destruct (overlap dio FOut q') eqn:Eo; [reflexivity|exfalso]. pose proof (defsOf_ok fn v DO F) as FO. rewrite Forall_forall in FO. destruct (FO q' D1) as (k & Hk).
    pose proof (sh_ptr _ _ _ _ Hk) as Pk. assert (k = fst x) by congruence. subst k. rewrite Eu in LS. rewrite (Sz Eu) in LS. exact (overlap_ok dio Hdio v Hv FOut (fst x) q' M1 Hk Eo (snd x) D3 LS).
Qed.
Print Assumptions C62_live_partial.

(** Nothing but memory defined in a function is reported, memory of local variables is not. *)
Theorem C62_no_locals : forall dio fn isAlloca isGlobal under instrs blockOf callLocs live noExternal sccs res v,
  globalLive dio fn isAlloca isGlobal under instrs blockOf callLocs live noExternal sccs = Lives res ->
  viewsOk v -> (forall f, setOk v (gDefs (fn f)) /\ setOk v (gMayDefs (fn f))) ->
  forall F out x, In (F, out) res -> inSet out x -> defines fn F x /\ isAlloca (under (fst x)) = false.
Proof.
  intros dio fn isAlloca isGlobal under instrs blockOf callLocs live noExternal sccs res v HG Hv DO F out x Ho Hx.
  assert (P : forall f ext calls y, inSet (mayLives dio fn isAlloca isGlobal under f ext calls) y -> defines fn f y /\ isAlloca (under (fst y)) = false).
  { assert (B0 : forall f p y, (forall r, p r = true -> exists q, rPtr r = Some q /\ isAlloca (under q) = false) -> inSet (fold_left (insertIf p) (defsOf fn f) []) y -> defines fn f y /\ isAlloca (under (fst y)) = false).
    { intros f p y Hp Hy. destruct (insertIf_ok v Hv p (defsOf fn f) [] (setOk_nil v) (defsOf_ok fn v DO f)) as [_ B]. apply B in Hy. destruct Hy as [(l & r & [] & _)|(r & R1 & R2 & R3 & R4)].
      split; [apply (defines_loc fn v DO); exists r; auto|]. destruct (Hp r R2) as (q & Q1 & Q2). rewrite Q1 in R3. injection R3 as <-. exact Q2. }
    intros f ext calls y. unfold mayLives. destruct (memb f ext).
    - apply B0. intros r. unfold notLocal. destruct (rPtr r) as [q|]; [|discriminate]. intros K. exists q. split; [reflexivity|]. now apply negb_true_iff.
    - unfold initMayLives. destruct calls; [intros (l & r & [] & _)|]. apply B0. intros r. unfold keeps. destruct (rPtr r) as [q|]; [|discriminate]. intros K. exists q. split; [reflexivity|].
      destruct (isAlloca (under q)); [discriminate|reflexivity]. }
  unfold globalLive in HG. destruct (collect fn instrs blockOf noExternal sccs [] []) as [[wl ext]|]; [|discriminate].
  destruct (process _ _ _ _ _ _ _ _ _ _ _ _) as [r|] eqn:Ep; [|discriminate]. injection HG as ->.
  assert (Q : forall ns LS acc r, (forall f o, In (f, o) acc -> exists calls, o = mayLives dio fn isAlloca isGlobal under f ext calls) ->
    process dio fn isAlloca isGlobal under blockOf callLocs live ext ns LS acc = Some r -> forall f o, In (f, o) r -> exists calls, o = mayLives dio fn isAlloca isGlobal under f ext calls).
  { induction ns as [|n ns IH]; intros LS acc r Ha; cbn [process]; [intros E; now injection E as <-|]. destruct (nFun n) as [f|]; [|now apply IH].
    destruct (recordCalls _ _ _ _ _ _ _ _ _ _) as [LS'|]; [|discriminate]. apply IH. intros g o K. apply in_app_iff in K. destruct K as [K|[K|[]]]; [now apply Ha|]. injection K as <- <-. eauto. }
  destruct (Q _ _ [] _ ltac:(intros ? ? []) Ep F out Ho) as (calls & ->). exact (P _ _ _ _ Hx).
Qed.
Print Assumptions C62_no_locals.

(** ** Failures *)
Lemma calls_once is : forall useful c, checkBlock is useful = true -> In (ICall c) is -> useful = false /\ forall d, In (ICall d) is -> d = c.
Proof.
  induction is as [|i is IH]; intros useful c H Hc; [destruct Hc|]. cbn [checkBlock] in H. destruct i as [|c'|].
  - destruct Hc as [Hc|Hc]; [discriminate|]. destruct (IH _ _ H Hc) as [A B]. split; [exact A|]. intros d [K|K]; [discriminate|auto].
  - destruct useful; [discriminate|]. split; [reflexivity|]. assert (N : forall d, ~ In (ICall d) is) by (intros d K; destruct (IH _ _ H K); discriminate).
    destruct Hc as [Hc|Hc]; [|exfalso; eapply N; exact Hc]. injection Hc as ->. intros d [K|K]; [now injection K|exfalso; eapply N; exact K].
  - destruct Hc as [Hc|Hc]; [discriminate|]. destruct (IH _ _ H Hc) as [A B]. discriminate.
Qed.
Definition callsOf (es : list edge) : list nat := flat_map (fun e => match eCall e, eTo e with Some c, Some _ => [c] | _, _ => [] end) es.
Theorem C62_no_failure : forall dio fn isAlloca isGlobal under instrs blockOf callLocs live noExternal sccs,
  (forall s n c g, In s sccs -> n = fst s -> In (mkEdge (Some c) (Some g)) (nCalls n) ->
     In (ICall c) (instrs (blockOf c)) /\ forall i r, In (i, r) (callLocs c) -> i < length (gArgs (fn g)) \/ gVarArg (fn g) = true) ->
  (forall s, In s sccs -> NoDup (callsOf (nCalls (fst s)))) ->
  globalLive dio fn isAlloca isGlobal under instrs blockOf callLocs live noExternal sccs <> Crash.
Proof.
  intros dio fn isAlloca isGlobal under instrs blockOf callLocs live noExternal sccs HC ND H. unfold globalLive in H.
  destruct (collect fn instrs blockOf noExternal sccs [] []) as [[wl ext]|] eqn:Ec; [|discriminate].
  destruct (collect_spec _ _ _ _ _ _ _ _ _ Ec) as (Ewl & _ & SC). cbn [app] in Ewl.
  assert (AA : forall args ls s, (forall i r, In (i, r) ls -> i < length args) -> addArgs dio args ls s <> None).
  { intros args. induction ls as [|[i r] ls IH]; intros s K; cbn [addArgs]; [discriminate|]. destruct (overlap dio s r); [|apply IH; intros j t K'; eapply K; right; exact K'].
    destruct (nth_error args i) eqn:En; [apply IH; intros j t K'; eapply K; right; exact K'|]. apply nth_error_None in En. specialize (K i r (or_introl eq_refl)). lia. }
  assert (RC : forall n, In n wl -> forall f out es moved LS, (forall e, In e es -> In e (nCalls n)) -> NoDup (callsOf es) ->
    (forall c g, In (mkEdge (Some c) (Some g)) es -> ~ In (blockOf c) moved) -> recordCalls dio fn blockOf callLocs live f out es moved LS <> None).
  { intros n Hn. rewrite Ewl in Hn. apply filter_In in Hn. destruct Hn as [Hn An]. apply in_map_iff in Hn. destruct Hn as ([n' t] & En & Hs). cbn in En. subst n'.
    destruct (SC n t Hs) as [_ Ck]. specialize (Ck An). unfold checkCallsFrom in Ck. rewrite forallb_forall in Ck.
    intros f out. induction es as [|e es IH]; intros moved LS Hi Nd Hm; cbn [recordCalls]; [discriminate|].
    assert (Hi' : forall e, In e es -> In e (nCalls n)) by (intros; apply Hi; now right).
    assert (Hm' : forall c g, In (mkEdge (Some c) (Some g)) es -> ~ In (blockOf c) moved) by (intros; eapply Hm; right; eauto).
    destruct e as [[c|] [g|]]; cbn [eCall eTo]; [|now apply IH|now apply IH|now apply IH].
    destruct (memb (blockOf c) moved) eqn:Em; [exfalso; apply memb_spec in Em; eapply Hm; [now left|exact Em]|].
    destruct (HC (n, t) n c g Hs eq_refl (Hi _ (or_introl eq_refl))) as [Hc Ha].
    destruct (if gVarArg (fn g) then _ else _) as [s|] eqn:Es.
    - cbn [callsOf flat_map eCall eTo app] in Nd. inversion Nd; subst. apply IH; [exact Hi'|assumption|]. intros d h Hd [K|K]; [|eapply Hm'; eauto].
      destruct (HC (n, t) n d h Hs eq_refl (Hi' _ Hd)) as [Hd' _]. specialize (Ck _ (Hi _ (or_introl eq_refl))). cbn [eCall] in Ck. rewrite <- K in Hd'.
      destruct (calls_once _ _ _ Ck Hc) as [_ U]. specialize (U d Hd'). subst d. apply H2. apply in_flat_map. exists (mkEdge (Some c) (Some h)). split; [exact Hd|now left].
    - exfalso. destruct (gVarArg (fn g)) eqn:Ev; [discriminate|]. eapply AA; [|exact Es]. intros i r K. destruct (Ha i r K); [assumption|congruence]. }
  assert (P : forall ns LS r, (forall n, In n ns -> In n wl) -> process dio fn isAlloca isGlobal under blockOf callLocs live ext ns LS r <> None).
  { induction ns as [|n ns IH]; intros LS r Hn; cbn [process]; [discriminate|]. assert (Hn' : forall n, In n ns -> In n wl) by (intros; apply Hn; now right).
    destruct (nFun n) as [f|]; [|now apply IH]. assert (K := RC n (Hn n (or_introl eq_refl)) f (mayLives dio fn isAlloca isGlobal under f ext (LS f)) (nCalls n) [] LS ltac:(auto)).
    destruct (recordCalls _ _ _ _ _ _ _ _ _ _) as [LS'|]; [now apply IH|]. exfalso. apply K; [|intros c g _ []|reflexivity].
    specialize (Hn n (or_introl eq_refl)). rewrite Ewl in Hn. apply filter_In in Hn. destruct Hn as [Hn _]. apply in_map_iff in Hn. destruct Hn as (s & <- & Hs). now apply ND. }
  destruct (process _ _ _ _ _ _ _ _ _ _ _ _) eqn:Ep; [discriminate|]. eapply P; [|exact Ep]. intros n. now rewrite <- in_rev.
Qed.
Print Assumptions C62_no_failure.

(** ** Examples *)
From Verif Require Import RangeDio Prop_Range Prop_MemSet.
Local Open Scope Z_scope.
(** Values: 0 and 3 are global variables g and h, 1 is a local variable x of main, 2 is an
    argument p of f, 4 is a pointer to the second item of x, 5 is a pointer to g, which is
    loaded from memory.
      int g, h;
      void f(int *p) { g = 1; *p = 1; h = 1; }
      int main() { int x[2]; f(x); ... } *)
Definition exGlobal (u : nat) : bool := match u with 0%nat | 3%nat => true | _ => false end.
Definition exAlloca (u : nat) : bool := match u with 1%nat => true | _ => false end.
Definition exUnder (u : nat) : nat := match u with 4%nat => 1%nat | _ => u end.
Definition exFn (va : bool) (d0 d1 : mset) (f : nat) : func :=
  match f with 0%nat => mkFunc [] false false false false true d0 [] | _ => mkFunc [2%nat] va false false false true d1 [] end.
Definition exSccs : list (node * list node) :=
  [(mkNode (Some 1%nat) [], []); (mkNode (Some 0%nat) [mkEdge (Some 0%nat) (Some 1%nat)], []); (mkNode None [mkEdge None (Some 0%nat)], [])].
(** block 0 of main has the call, block 1 is the next one *)
Definition exBlock (c : nat) : nat := 0.
Definition exInstrs (is : list instr) (b : nat) : list instr := match b with 0%nat => is | _ => [IOther] end.
Definition exLive (L : mset) (f : nat) (out : mset) (b : nat) : mset := match f, b with 0%nat, 0%nat => L | _, _ => [] end.
Definition e0 (x : cell) : Z := match fst x with 4%nat => 104 + snd x | 5%nat => snd x | q => Z.of_nat q * 100 + snd x end.
(** pointers of main are not available in f *)
Definition e1 (q : nat) (x : cell) : Z := match fst x with 0%nat => snd x | 2%nat => e0 (q, snd x) | 3%nat => 300 + snd x | _ => -1 end.
Definition anyOf (p : nat) : range := mkRange (Some p) (precise 0) SAny [] TEmpty false false false.
Definition exLocs (q : nat) (c : nat) : list (nat * range) := [(0%nat, anyOf q)].
Definition exRun (q : nat) (writes tl reads : list ev) : act := Act 0 e0 [(0%nat, Sub 0 (Act 1 (e1 q) [(2%nat, writes)]) :: tl); (1%nat, reads)].
Definition noSub (l : list ev) : Prop := forall c A, ~ In (Sub c A) l.
Lemma exWithin q writes tl reads B after : noSub writes -> noSub tl -> noSub reads -> within (exRun q writes tl reads) [] B after ->
  (B = exRun q writes tl reads /\ after = []) \/ (B = Act 1 (e1 q) [(2%nat, writes)] /\ after = flat_map flatE tl ++ flat_map flatE reads).
Proof.
  intros N1 N2 N3. induction 1 as [|G e pre b l1 c A l2 post after W IH]; [now left|]. right.
  destruct IH as [[E ->]|[E _]].
  - unfold exRun in E. injection E as -> -> E. destruct pre as [|x pre]; cbn in E; [injection E as E1 E2 E3|injection E as E1 E2].
    + subst. destruct l1 as [|y l1]; cbn in E2; injection E2 as -> E2; [subst; split; [reflexivity|]; cbn; now rewrite !app_nil_r|]. exfalso. eapply N2. rewrite <- E2. apply in_or_app. right. now left.
    + destruct pre as [|x' pre]; cbn in E2; [|destruct pre; discriminate]. injection E2 as -> E2 ->. exfalso. eapply N3. rewrite <- E2. apply in_or_app. right. now left.
  - injection E; clear E; intros E EE EF. destruct pre as [|x pre]; cbn in E; [|destruct pre; discriminate]. injection E; clear E; intros EP E EB. exfalso. eapply N1. rewrite <- E. apply in_or_app. right. now left.
Qed.
Lemma exCall q writes tl reads G e pre b l1 c F e' steps l2 post after : noSub writes -> noSub tl -> noSub reads ->
  within (exRun q writes tl reads) [] (Act G e (pre ++ (b, l1 ++ Sub c (Act F e' steps) :: l2) :: post)) after ->
  G = 0%nat /\ e = e0 /\ b = 0%nat /\ c = 0%nat /\ F = 1%nat /\ e' = e1 q /\ l2 = tl.
Proof.
  intros N1 N2 N3 W. destruct (exWithin _ _ _ _ _ _ N1 N2 N3 W) as [[E ->]|[E _]].
  - unfold exRun in E. injection E as -> -> E. destruct pre as [|x pre]; cbn in E; [injection E as E1 E2 E3|injection E as E1 E2].
    + subst. destruct l1 as [|y l1]; cbn in E2; [injection E2; intros; subst; auto 10|injection E2 as E2 E4]. exfalso. eapply N2. rewrite <- E4. apply in_or_app. right. now left.
    + destruct pre as [|x' pre]; cbn in E2; [|destruct pre; discriminate]. injection E2 as -> E2 ->. exfalso. eapply N3. rewrite <- E2. apply in_or_app. right. now left.
  - injection E; clear E; intros E EE EF. destruct pre as [|x pre]; cbn in E; [|destruct pre; discriminate]. injection E; clear E; intros EP E EB. exfalso. eapply N1. rewrite <- E. apply in_or_app. right. now left.
Qed.
Lemma exposed_nil a : ~ exposed a [].
Proof. intros (t1 & t2 & E & _). destruct t1; discriminate. Qed.
(** What the intra-procedural analysis has to find *)
Lemma exLiveRight q writes tl reads L (known : nat -> cell -> Prop) : noSub writes -> noSub tl -> noSub reads -> (forall f x, known f x -> f = 0%nat) ->
  (forall x, known 0%nat x -> exposed (e0 x) (flat_map flatE reads) -> inSet L x) -> liveRight (exLive L) (exRun q writes tl reads) [] known.
Proof.
  intros N1 N2 N3 K HL G e pre b t post after out x W Kx. assert (G = 0%nat) by (eapply K; exact Kx). subst G.
  destruct (exWithin _ _ _ _ _ _ N1 N2 N3 W) as [[E ->]|[E _]]; [|discriminate]. split; [|intros _ X; exfalso; eapply exposed_nil; exact X]. intros X.
  unfold exRun in E. injection E as -> E. destruct pre as [|y pre]; cbn in E; [injection E as E1 E2 E3|injection E as E1 E2].
  - subst. apply HL; [exact Kx|]. cbn in X. now rewrite app_nil_r in X.
  - destruct pre as [|y' pre]; cbn in E2; [|destruct pre; discriminate]. injection E2 as -> -> ->. exfalso. eapply exposed_nil. exact X.
Qed.
Lemma exOrder : calleesFirst exSccs /\ nodesUnique exSccs /\ noRecursion exSccs.
Proof.
  split; [|split].
  - intros l n r l' m r' f g E Hn Hg Hm Em. unfold exSccs in E. destruct l as [|x [|x' [|x'' l]]]; cbn in E; injection E; intros; subst; cbn in Hg; try contradiction; try discriminate.
    + destruct Hg as [<-|[]]. destruct Hm as [Hm|[Hm|[]]]; injection Hm as <- <-; discriminate.
    + destruct l; discriminate.
  - unfold nodesUnique. cbn. repeat constructor; cbn; intros H; repeat (destruct H as [H|H]; try discriminate); auto.
  - intros n f Hn Fn Hf. cbn in Hn. destruct Hn as [<-|[<-|[<-|[]]]]; cbn in *; try contradiction; try discriminate. injection Fn as <-. destruct Hf as [|[]]; discriminate.
Qed.

Lemma exLocsOk q c i r : In (i, r) (exLocs q c) ->
  rCollapsed r = false /\ rLo r = precise 0 /\ (exists p, locOk v1 p r) /\ forall p, locOk v1 p (argLoc p r).
Proof.
  assert (K : forall p, locOk v1 p (anyOf p)) by (intros p; split; [reflexivity| |discriminate]; intros _; cbn; repeat split; try lia; discriminate).
  intros [E|[]]. injection E as <- <-. split; [reflexivity|]. split; [reflexivity|]. split; [exists q|intros p]; apply K.
Qed.
Lemma exSetOk ls : Forall (fun r => exists p, locOk v1 p r) ls -> setOk v1 (mkset ls).
Proof. intros H. apply C05_history; [exact v1_ok|exact H]. Qed.
Ltac bytesOk := apply exSetOk; repeat constructor; eexists; apply bytes_ok; lia.
Lemma inBytes p lo hi ls x : inSet ((Some p, [bytes p lo hi]) :: ls) x -> (fst x = p /\ lo <= snd x < hi) \/ inSet ls x.
Proof.
  intros (l & r & [E|H] & Hr & C); [left|right; exists l, r; auto]. injection E as E <-. destruct Hr as [<-|[]]. split; [auto|]. exact C.
Qed.
Lemma inBytes_here p lo hi ls z : lo <= z < hi -> inSet ((Some p, [bytes p lo hi]) :: ls) (p, z).
Proof. intros H. exists [bytes p lo hi], (bytes p lo hi). split; [now left|]. split; [now left|]. exact H. Qed.
Lemma inBytes_next q ls x : inSet ls x -> inSet (q :: ls) x.
Proof. intros (l & r & H & Hr & C). exists l, r. split; [now right|auto]. Qed.
Lemma inNil x : ~ inSet [] x.
Proof. intros (l & r & [] & _). Qed.
Ltac inCells H := repeat (apply inBytes in H; destruct H as [H|H]); [..|exfalso; eapply inNil; exact H].
Ltac inHere := first [apply inBytes_here; lia | apply inBytes_next; inHere].

(** What is said in C62, with given conditions on recursion, calls and memory of callers *)
Definition C62_claim (recOk : list (node * list node) -> Prop)
    (callsOk : (nat -> func) -> (nat -> nat) -> list (node * list node) -> act -> list access -> bool -> Prop)
    (paramsOk : (nat -> func) -> (nat -> bool) -> (nat -> bool) -> (nat -> nat) -> (nat -> list (nat * range)) -> act -> list access -> (nat -> cell -> Prop) -> Prop) : Prop :=
  forall dio fn isAlloca isGlobal under instrs blockOf callLocs live noExternal sccs res v root after0 known,
  globalLive dio fn isAlloca isGlobal under instrs blockOf callLocs live noExternal sccs = Lives res ->
  dioSpec dio -> viewsOk v ->
  (forall f, setOk v (gDefs (fn f)) /\ setOk v (gMayDefs (fn f))) ->
  (forall f out b, setOk v out -> setOk v (live f out b)) ->
  (forall c i r, In (i, r) (callLocs c) -> rCollapsed r = false /\ rLo r = precise 0 /\ (exists q, locOk v q r) /\ forall p, locOk v p (argLoc p r)) ->
  calleesFirst sccs -> nodesUnique sccs -> recOk sccs ->
  callsOk fn blockOf sccs root after0 noExternal ->
  paramsOk fn isAlloca isGlobal under callLocs root after0 known ->
  liveRight live root after0 known ->
  localsDie isAlloca under root after0 ->
  forall F e steps after out x, within root after0 (Act F e steps) after -> In (F, out) res ->
    defines fn F x -> exposed (e x) after -> inSet out x.
Corollary C62_claim_partial : C62_claim noRecursion callsRight paramsRight.
Proof. exact C62_live_partial. Qed.

Definition d0 := mkset [bytes 0 0 4; bytes 1 0 8; bytes 3 0 4].
Definition d1 := mkset [bytes 0 0 4; bytes 2 0 4; bytes 3 0 4].
Definition exL := mkset [bytes 0 0 4; bytes 1 0 8].
Definition exKnown (f : nat) (x : cell) : Prop := f = 0%nat /\ (fst x <= 1 \/ fst x = 3)%nat /\ 0 <= snd x < 8.
Lemma exposed2 a b c : exposed a [ARead b; ARead c] -> a = b \/ a = c.
Proof.
  intros ([|y [|y' t1]] & t2 & E & _); cbn in E; [injection E; auto|injection E; auto|]. destruct t1; discriminate.
Qed.
(** f(x) is called in the first block, then g and x[0] are read: g and *p are live after f, h
    is not.  *)
Example C62_live_ex : let fn := exFn false d0 d1 in let R := exRun 1 [Wr 0; Wr 100; Wr 300] [] [Rd 0; Rd 100] in
  globalLive dioInst fn exAlloca exGlobal exUnder (exInstrs [ICall 0]) exBlock (exLocs 1) (exLive exL) true exSccs =
    Lives [(0%nat, []); (1%nat, mkset [bytes 0 0 4; bytes 2 0 4])] /\
  dioSpec dioInst /\ viewsOk v1 /\ (forall f, setOk v1 (gDefs (fn f)) /\ setOk v1 (gMayDefs (fn f))) /\
  (forall f out b, setOk v1 out -> setOk v1 (exLive exL f out b)) /\
  (forall c i r, In (i, r) (exLocs 1 c) -> rCollapsed r = false /\ rLo r = precise 0 /\ (exists q, locOk v1 q r) /\ forall p, locOk v1 p (argLoc p r)) /\
  calleesFirst exSccs /\ nodesUnique exSccs /\ noRecursion exSccs /\
  callsRight fn exBlock exSccs R [] true /\
  paramsRight fn exAlloca exGlobal exUnder (exLocs 1) R [] exKnown /\
  liveRight (exLive exL) R [] exKnown /\
  localsDie exAlloca exUnder R [] /\
  within R [] (Act 1 (e1 1) [(2%nat, [Wr 0; Wr 100; Wr 300])]) [ARead 0; ARead 100] /\
  defines fn 1 (2%nat, 0) /\ exposed (e1 1 (2%nat, 0)) [ARead 0; ARead 100].
Proof.
  set (fn := exFn false d0 d1). set (R := exRun 1 [Wr 0; Wr 100; Wr 300] [] [Rd 0; Rd 100]). intros fn' R'. subst fn' R'.
  assert (N1 : noSub [Wr 0; Wr 100; Wr 300]) by (intros c A [K|[K|[K|[]]]]; discriminate).
  assert (N2 : noSub []) by (intros c A []). assert (N3 : noSub [Rd 0; Rd 100]) by (intros c A [K|[K|[]]]; discriminate).
  destruct exOrder as (O1 & O2 & O3).
  split; [vm_compute; reflexivity|]. split; [exact dioInst_ok|]. split; [exact v1_ok|].
  split; [intros [|f]; split; try apply setOk_nil; bytesOk|]. split; [intros [|f] out [|b] H; try apply setOk_nil; bytesOk|]. split; [apply exLocsOk|].
  split; [exact O1|]. split; [exact O2|]. split; [exact O3|].
  split. { split; [intros F e steps _ (a & X); exfalso; eapply exposed_nil; exact X|]. intros G e pre b l1 c F e' steps l2 post after W.
    destruct (exCall _ _ _ _ _ _ _ _ _ _ _ _ _ _ _ _ N1 N2 N3 W) as (-> & -> & -> & -> & -> & -> & ->). right. repeat split. eexists. split; [right; left; reflexivity|]. split; [reflexivity|now left]. }
  split. { intros G e pre b l1 c F e' steps l2 post after x W D _ _. destruct (exCall _ _ _ _ _ _ _ _ _ _ _ _ _ _ _ _ N1 N2 N3 W) as (-> & -> & -> & -> & -> & -> & ->).
    destruct x as [p z]. destruct D as [D|D]; [|exfalso; eapply inNil; exact D]. change (gDefs (fn 1%nat)) with d1 in D. vm_compute d1 in D. inCells D; cbn in D; destruct D as [-> D].
    - exists 0%nat, z. split; [lia|]. split; [reflexivity|]. split; [repeat split; cbn; lia|]. split; [left; vm_compute gDefs; inHere|]. split; [reflexivity|]. left. auto.
    - exists 1%nat, z. split; [lia|]. split; [reflexivity|]. split; [repeat split; cbn; lia|]. split; [left; vm_compute gDefs; inHere|]. split; [reflexivity|]. right.
      exists 0%nat, (anyOf 1). repeat split; [now left|cbn; lia].
    - exists 3%nat, z. split; [lia|]. split; [reflexivity|]. split; [repeat split; cbn; lia|]. split; [left; vm_compute gDefs; inHere|]. split; [reflexivity|]. left. auto. }
  split. { apply exLiveRight; auto; [now intros f x [-> _]|]. intros [p z] (_ & Hp & Hz) X. cbn [fst snd] in Hp, Hz. apply exposed2 in X.
    vm_compute exL. destruct Hp as [Hp| ->]; [|exfalso; change (e0 (3%nat, z)) with (300 + z) in X; lia]. destruct p as [|[|p]]; [change (e0 (0%nat, z)) with (0 * 100 + z) in X; inHere|inHere|lia]. }
  split. { intros F e steps after [p z] W Ea X. destruct (exWithin _ _ _ _ _ _ N1 N2 N3 W) as [[E ->]|[E ->]]; [eapply exposed_nil; exact X|]. injection E as -> -> ->.
    apply exposed2 in X. unfold e1 in X. cbn [fst snd] in X, Ea. destruct p as [|[|[|[|[|p]]]]]; cbn in Ea; try discriminate; lia. }
  split; [apply (w_call R [] 0%nat e0 [] 0%nat [] 0%nat _ [] [(1%nat, [Rd 0; Rd 100])] []); constructor|].
  split; [left; change (gDefs (fn 1%nat)) with d1; vm_compute d1; inHere|]. exists [ARead 0], []. split; [reflexivity|]. intros [K|[]]. discriminate.
Qed.

(** Instructions after a call in its block and variable numbers of arguments are allowed *)
Definition callsWeak (tail var : bool) (fn : nat -> func) (blockOf : nat -> nat) (sccs : list (node * list node)) (root : act) (after0 : list access) (noExternal : bool) : Prop :=
  (forall F e steps, root = Act F e steps -> (exists a, exposed a after0) -> calledOutside sccs F /\ noExternal = false) /\
  (forall G e pre b l1 c F e' steps l2 post after,
     within root after0 (Act G e (pre ++ (b, l1 ++ Sub c (Act F e' steps) :: l2) :: post)) after ->
     (calledOutside sccs F /\ noExternal = false) \/
     (gLib (fn G) = false /\ gMarker (fn G) = false /\ b = blockOf c /\ (tail = false -> l2 = []) /\ (var = false -> gVarArg (fn F) = false) /\
      exists n, In n (nodes sccs) /\ nFun n = Some G /\ In (mkEdge (Some c) (Some F)) (nCalls n))).
(** A calling function may know the memory due to any pointer *)
Definition paramsWeak (fn : nat -> func) (isAlloca isGlobal : nat -> bool) (under : nat -> nat) (callLocs : nat -> list (nat * range)) (root : act) (after0 : list access) (known : nat -> cell -> Prop) : Prop :=
  forall G e pre b l1 c F e' steps l2 post after x,
  within root after0 (Act G e (pre ++ (b, l1 ++ Sub c (Act F e' steps) :: l2) :: post)) after ->
  defines fn F x -> rooted fn isGlobal under F x -> isAlloca (under (fst x)) = false ->
  exists q z, 0 <= z /\ e (q, z) = e' x /\ known G (q, z) /\ defines fn G (q, z).
Lemma callsWeak_right fn blockOf sccs root after0 noExternal : callsWeak false false fn blockOf sccs root after0 noExternal <-> callsRight fn blockOf sccs root after0 noExternal.
Proof.
  split; intros [A B]; (split; [exact A|]); intros G e pre b l1 c F e' steps l2 post after W; (destruct (B _ _ _ _ _ _ _ _ _ _ _ _ W) as [K|(K1 & K2 & K3 & K4 & K5 & K6)]; [left; exact K|right; auto 10]).
Qed.
Lemma exposed1 a b : exposed a [ARead b] -> a = b.
Proof. intros ([|y t1] & t2 & E & _); cbn in E; [now injection E|destruct t1; discriminate]. Qed.
Lemma exposed_one b : exposed b [ARead b].
Proof. exists [], []. split; [reflexivity|intros []]. Qed.
Lemma exCalls (va : bool) s0 s1 q writes tl reads tail var : noSub writes -> noSub tl -> noSub reads -> (tail = false -> tl = []) -> (var = false -> va = false) ->
  callsWeak tail var (exFn va s0 s1) exBlock exSccs (exRun q writes tl reads) [] true.
Proof.
  intros N1 N2 N3 Ht Hv. split; [intros F e steps _ (a & X); exfalso; eapply exposed_nil; exact X|]. intros G e pre b l1 c F e' steps l2 post after W.
  destruct (exCall _ _ _ _ _ _ _ _ _ _ _ _ _ _ _ _ N1 N2 N3 W) as (-> & -> & -> & -> & -> & -> & ->). right. repeat split; auto. eexists. split; [right; left; reflexivity|]. split; [reflexivity|now left].
Qed.
Lemma exDies q writes tl reads a : noSub writes -> noSub tl -> noSub reads -> flat_map flatE tl ++ flat_map flatE reads = [ARead a] -> 0 <= a -> localsDie exAlloca exUnder (exRun q writes tl reads) [].
Proof.
  intros N1 N2 N3 Ea Ha F e steps after [p z] W El X. destruct (exWithin _ _ _ _ _ _ N1 N2 N3 W) as [[E ->]|[E ->]]; [eapply exposed_nil; exact X|]. injection E as -> -> ->.
  rewrite Ea in X. apply exposed1 in X. unfold e1 in X. cbn [fst snd] in X, El. destruct p as [|[|[|[|[|p]]]]]; cbn in El; try discriminate; lia.
Qed.
Lemma exInner q writes tl reads : within (exRun q writes tl reads) [] (Act 1 (e1 q) [(2%nat, writes)]) (flat_map flatE tl ++ flat_map flatE reads).
Proof. pose proof (w_call (exRun q writes tl reads) [] 0%nat e0 [] 0%nat [] 0%nat (Act 1 (e1 q) [(2%nat, writes)]) tl [(1%nat, reads)] [] (w_root _ _)) as W. cbn in W. now rewrite !app_nil_r in W. Qed.
Ltac noSubs := intros ?c ?A ?K; repeat (destruct K as [K|K]; [discriminate|]); destruct K.
Lemma exRefuted callsOk (paramsOk : _ -> _ -> _ -> _ -> _ -> _ -> _ -> (nat -> cell -> Prop) -> Prop) va s0 s1 q is L tl reads writes (known : nat -> cell -> Prop) x a :
  C62_claim noRecursion callsOk paramsOk -> noSub writes -> noSub tl -> noSub reads -> setOk v1 s0 -> setOk v1 s1 -> setOk v1 L ->
  globalLive dioInst (exFn va s0 s1) exAlloca exGlobal exUnder (exInstrs is) exBlock (exLocs q) (exLive L) true exSccs = Lives [(0%nat, []); (1%nat, [])] ->
  callsOk (exFn va s0 s1) exBlock exSccs (exRun q writes tl reads) [] true ->
  paramsOk (exFn va s0 s1) exAlloca exGlobal exUnder (exLocs q) (exRun q writes tl reads) [] known ->
  (forall f x, known f x -> f = 0%nat) ->
  (forall x, known 0%nat x -> exposed (e0 x) (flat_map flatE reads) -> inSet L x) ->
  flat_map flatE tl ++ flat_map flatE reads = [ARead a] -> 0 <= a -> inSet s1 x -> e1 q x = a -> False.
Proof.
  intros C N1 N2 N3 S0 S1 SL G CR PR K KL Ea Ha Hx Ex. destruct exOrder as (O1 & O2 & O3). apply (inNil x).
  eapply (C dioInst (exFn va s0 s1) exAlloca exGlobal exUnder (exInstrs is) exBlock (exLocs q) (exLive L) true exSccs _ v1 (exRun q writes tl reads) [] known G dioInst_ok v1_ok).
  - intros [|f]; split; try apply setOk_nil; assumption.
  - intros [|f] out [|b] H; try apply setOk_nil; assumption.
  - apply exLocsOk.
  - exact O1.
  - exact O2.
  - exact O3.
  - exact CR.
  - exact PR.
  - now apply exLiveRight.
  - now apply exDies with (a := a).
  - apply exInner.
  - right. now left.
  - left. exact Hx.
  - rewrite Ea, Ex. apply exposed_one.
Qed.
Definition only (p : nat) (f : nat) (x : cell) : Prop := f = 0%nat /\ fst x = p /\ 0 <= snd x < 8.
Ltac oneCall W N1 N2 N3 := destruct (exCall _ _ _ _ _ _ _ _ _ _ _ _ _ _ _ _ N1 N2 N3 W) as (-> & -> & -> & -> & -> & -> & ->).

(** Instructions after a call: memory which is read in the block of a call is lost.
      f(x); use(g); *)
Theorem C62_after_call_refuted : ~ C62_claim noRecursion (callsWeak true false) paramsRight.
Proof.
  intros C. assert (N1 : noSub [Wr 0]) by noSubs. assert (N2 : noSub [Rd 0]) by noSubs. assert (N3 : noSub []) by noSubs.
  apply (exRefuted _ _ false (mkset [bytes 0 0 4]) (mkset [bytes 0 0 4]) 1 [ICall 0; IOther] [] [Rd 0] [] [Wr 0] (only 0) (0%nat, 0) 0 C N1 N2 N3); try bytesOk; try apply setOk_nil.
  - vm_compute. reflexivity.
  - apply exCalls; auto; discriminate.
  - intros G e pre b l1 c F e' steps l2 post after [p z] W D _ _. oneCall W N1 N2 N3.
    destruct D as [D|D]; [|exfalso; eapply inNil; exact D]. vm_compute gDefs in D. inCells D; cbn in D; destruct D as [-> D].
    exists 0%nat, z. split; [lia|]. split; [reflexivity|]. split; [repeat split; cbn; lia|]. split; [left; vm_compute gDefs; inHere|]. split; [reflexivity|]. left. auto.
  - now intros f x [-> _].
  - intros x _ X. exfalso. eapply exposed_nil. exact X.
  - reflexivity.
  - lia.
  - vm_compute mkset. inHere.
  - reflexivity.
Qed.
Print Assumptions C62_after_call_refuted.
(** Functions with variable numbers of arguments: memory of arguments is lost.
      void f(int *p, ...) { *p = 1; }   f(x); use(x[0]); *)
Theorem C62_variadic_refuted : ~ C62_claim noRecursion (callsWeak false true) paramsRight.
Proof.
  intros C. assert (N1 : noSub [Wr 100]) by noSubs. assert (N2 : noSub []) by noSubs. assert (N3 : noSub [Rd 100]) by noSubs.
  apply (exRefuted _ _ true (mkset [bytes 1 0 8]) (mkset [bytes 2 0 4]) 1 [ICall 0] (mkset [bytes 1 0 8]) [] [Rd 100] [Wr 100] (only 1) (2%nat, 0) 100 C N1 N2 N3); try bytesOk.
  - vm_compute. reflexivity.
  - apply exCalls; auto; discriminate.
  - intros G e pre b l1 c F e' steps l2 post after [p z] W D _ _. oneCall W N1 N2 N3.
    destruct D as [D|D]; [|exfalso; eapply inNil; exact D]. vm_compute gDefs in D. inCells D; cbn in D; destruct D as [-> D].
    exists 1%nat, z. split; [lia|]. split; [reflexivity|]. split; [repeat split; cbn; lia|]. split; [left; vm_compute gDefs; inHere|]. split; [reflexivity|]. right.
    exists 0%nat, (anyOf 1). repeat split; [now left|cbn; lia].
  - now intros f x [-> _].
  - intros [p z] (_ & Hp & Hz) _. cbn in Hp, Hz. subst p. vm_compute mkset. inHere.
  - reflexivity.
  - lia.
  - vm_compute mkset. inHere.
  - reflexivity.
Qed.
Print Assumptions C62_variadic_refuted.
(** Actual arguments which point inside of objects: memory of arguments is lost.
      void f(int *p) { *p = 1; }   f(&x[1]); use(x[1]); *)
Theorem C62_inside_refuted : ~ C62_claim noRecursion callsRight paramsWeak.
Proof.
  intros C. assert (N1 : noSub [Wr 104]) by noSubs. assert (N2 : noSub []) by noSubs. assert (N3 : noSub [Rd 104]) by noSubs.
  apply (exRefuted _ _ false (mkset [bytes 1 0 8]) (mkset [bytes 2 0 4]) 4 [ICall 0] (mkset [bytes 1 0 8]) [] [Rd 104] [Wr 104] (only 1) (2%nat, 0) 104 C N1 N2 N3); try bytesOk.
  - vm_compute. reflexivity.
  - apply callsWeak_right, exCalls; auto.
  - intros G e pre b l1 c F e' steps l2 post after [p z] W D _ _. oneCall W N1 N2 N3.
    destruct D as [D|D]; [|exfalso; eapply inNil; exact D]. vm_compute gDefs in D. inCells D; cbn in D; destruct D as [-> D].
    exists 1%nat, (4 + z). split; [lia|]. split; [change (1 * 100 + (4 + z) = 104 + z); lia|]. split; [repeat split; cbn [fst snd]; lia|]. left. vm_compute gDefs. inHere.
  - now intros f x [-> _].
  - intros [p z] (_ & Hp & Hz) _. cbn in Hp, Hz. subst p. vm_compute mkset. inHere.
  - reflexivity.
  - lia.
  - vm_compute mkset. inHere.
  - reflexivity.
Qed.
Print Assumptions C62_inside_refuted.
(** Global variables which a caller uses due to pointers: memory of the variables is lost.
      void f() { g = 1; }   f(); use( *q);    where q points to g *)
Theorem C62_pointer_refuted : ~ C62_claim noRecursion callsRight paramsWeak.
Proof.
  intros C. assert (N1 : noSub [Wr 0]) by noSubs. assert (N2 : noSub []) by noSubs. assert (N3 : noSub [Rd 0]) by noSubs.
  apply (exRefuted _ _ false (mkset [bytes 5 0 8]) (mkset [bytes 0 0 4]) 1 [ICall 0] (mkset [bytes 5 0 8]) [] [Rd 0] [Wr 0] (only 5) (0%nat, 0) 0 C N1 N2 N3); try bytesOk.
  - vm_compute. reflexivity.
  - apply callsWeak_right, exCalls; auto.
  - intros G e pre b l1 c F e' steps l2 post after [p z] W D _ _. oneCall W N1 N2 N3.
    destruct D as [D|D]; [|exfalso; eapply inNil; exact D]. vm_compute gDefs in D. inCells D; cbn in D; destruct D as [-> D].
    exists 5%nat, z. split; [lia|]. split; [reflexivity|]. split; [repeat split; cbn [fst snd]; lia|]. left. vm_compute gDefs. inHere.
  - now intros f x [-> _].
  - intros [p z] (_ & Hp & Hz) _. cbn in Hp, Hz. subst p. vm_compute mkset. inHere.
  - reflexivity.
  - lia.
  - vm_compute mkset. inHere.
  - reflexivity.
Qed.
Print Assumptions C62_pointer_refuted.

(** A function which calls itself: memory which is read after a nested call is lost.
      int g;
      void f(int n) { if (n) { f(n - 1); use(g); } g = 1; } *)
Definition recFn (f : nat) : func := mkFunc [] false false false false true (mkset [bytes 0 0 4]) [].
Definition recSccs : list (node * list node) :=
  [(mkNode (Some 1%nat) [mkEdge (Some 1%nat) (Some 1%nat)], []); (mkNode (Some 0%nat) [mkEdge (Some 0%nat) (Some 1%nat)], []); (mkNode None [mkEdge None (Some 0%nat)], [])].
(** the call of f in main is in block 0, the nested call is in block 1 *)
Definition recLive (f : nat) (out : mset) (b : nat) : mset := match b with 1%nat => mkset [bytes 0 0 4] | _ => out end.
Definition recE (x : cell) : Z := match fst x with 0%nat => snd x | _ => -1 end.
Definition recIn : act := Act 1 recE [(3%nat, [Wr 0])].
Definition recOut : act := Act 1 recE [(1%nat, [Sub 1 recIn]); (2%nat, [Rd 0; Wr 0])].
Definition recRun : act := Act 0 recE [(0%nat, [Sub 0 recOut])].
Definition recKnown (f : nat) (x : cell) : Prop := fst x = 0%nat /\ 0 <= snd x < 4.
Lemma recCall G e pre b l1 c A l2 post : Act G e (pre ++ (b, l1 ++ Sub c A :: l2) :: post) = recRun -> G = 0%nat /\ e = recE /\ b = 0%nat /\ c = 0%nat /\ A = recOut /\ l2 = [] /\ post = [].
Proof.
  unfold recRun. intros E. injection E as -> -> E. destruct pre as [|y [|y' pre]]; try discriminate. cbn in E. injection E as -> E ->.
  destruct l1 as [|y [|y' l1]]; try discriminate. cbn in E. injection E as -> -> ->. auto 10.
Qed.
Lemma recCall1 G e pre b l1 c A l2 post : Act G e (pre ++ (b, l1 ++ Sub c A :: l2) :: post) = recOut -> G = 1%nat /\ e = recE /\ b = 1%nat /\ c = 1%nat /\ A = recIn /\ l2 = [] /\ post = [(2%nat, [Rd 0; Wr 0])].
Proof.
  unfold recOut. intros E. injection E as -> -> E. destruct pre as [|y [|y' pre]]; cbn in E.
  - injection E as -> E ->. destruct l1 as [|y [|y' l1]]; try discriminate. cbn in E. injection E as -> -> ->. auto 10.
  - injection E as _ _ E _. destruct l1 as [|y' [|y'' l1]]; try discriminate. destruct l1; discriminate.
  - injection E as _ _ E. destruct pre; discriminate.
Qed.
Lemma recCall2 G e pre b l1 c A l2 post : Act G e (pre ++ (b, l1 ++ Sub c A :: l2) :: post) <> recIn.
Proof.
  unfold recIn. intros E. injection E as _ _ E. destruct pre as [|y [|y' pre]]; try discriminate. cbn in E. injection E as _ E _. destruct l1 as [|y [|y' l1]]; discriminate.
Qed.
Lemma recWithin B after : within recRun [] B after -> (B = recRun /\ after = []) \/ (B = recOut /\ after = []) \/ (B = recIn /\ after = [ARead 0; AWrite 0]).
Proof.
  induction 1 as [|G e pre b l1 c A l2 post after W IH]; [now left|]. right. destruct IH as [[E ->]|[[E ->]|[E ->]]].
  - apply recCall in E. destruct E as (-> & -> & -> & -> & -> & -> & ->). now left.
  - apply recCall1 in E. destruct E as (-> & -> & -> & -> & -> & -> & ->). now right.
  - now apply recCall2 in E.
Qed.
Theorem C62_recursion_refuted : ~ C62_claim (fun _ => True) callsRight paramsRight.
Proof.
  intros C. assert (SO : setOk v1 (mkset [bytes 0 0 4])) by bytesOk.
  apply (inNil (0%nat, 0)).
  eapply (C dioInst recFn exAlloca exGlobal exUnder (fun b => match b with 0%nat => [ICall 0] | 1%nat => [ICall 1] | _ => [IOther] end) (fun c => c) (fun _ => []) recLive true recSccs
    [(0%nat, []); (1%nat, [])] v1 recRun [] recKnown).
  - vm_compute. reflexivity.
  - exact dioInst_ok.
  - exact v1_ok.
  - intros f. split; [exact SO|apply setOk_nil].
  - intros f out [|[|b]] H; auto.
  - intros c i r [].
  - intros l n r l' m r' f g E Hn Hg Hm Em. unfold recSccs in E. destruct l as [|x [|x' [|x'' l]]]; cbn in E; injection E; intros; subst; cbn in Hg; try contradiction; try discriminate.
    + destruct Hg as [<-|[]]. destruct Hm as [Hm|[Hm|[Hm|[]]]]; injection Hm as <- <-; try discriminate. now left.
    + destruct Hg as [<-|[]]. destruct Hm as [Hm|[Hm|[]]]; injection Hm as <- <-; discriminate.
    + destruct l; discriminate.
  - unfold nodesUnique. cbn. repeat constructor; cbn; intros H; repeat (destruct H as [H|H]; try discriminate); auto.
  - exact Logic.I.
  - split; [intros F e steps _ (a & X); exfalso; eapply exposed_nil; exact X|]. intros G e pre b l1 c F e' steps l2 post after W. right.
    destruct (recWithin _ _ W) as [[E ->]|[[E ->]|[E ->]]]; [apply recCall in E|apply recCall1 in E|now apply recCall2 in E]; destruct E as (-> & -> & -> & -> & E & -> & ->); injection E as -> -> ->; repeat split.
    + exists (mkNode (Some 0%nat) [mkEdge (Some 0%nat) (Some 1%nat)]). split; [right; left; reflexivity|]. split; [reflexivity|now left].
    + exists (mkNode (Some 1%nat) [mkEdge (Some 1%nat) (Some 1%nat)]). split; [left; reflexivity|]. split; [reflexivity|now left].
  - intros G e pre b l1 c F e' steps l2 post after [p z] W D _ _. destruct D as [D|D]; [|exfalso; eapply inNil; exact D]. vm_compute gDefs in D. inCells D; cbn in D; destruct D as [-> D].
    exists 0%nat, z. split; [lia|]. split; [|split; [repeat split; cbn; lia|split; [left; vm_compute gDefs; inHere|split; [reflexivity|left; auto]]]].
    destruct (recWithin _ _ W) as [[E ->]|[[E ->]|[E ->]]]; [apply recCall in E|apply recCall1 in E|now apply recCall2 in E]; destruct E as (-> & -> & -> & -> & E & -> & ->); injection E as -> -> ->; reflexivity.
  - intros G e pre b t post after out [p z] W [Hp Hz]. cbn in Hp, Hz. subst p.
    destruct (recWithin _ _ W) as [[E ->]|[[E ->]|[E ->]]].
    + split; [|intros _ X; exfalso; eapply exposed_nil; exact X]. unfold recRun in E. injection E as -> -> E. destruct pre as [|y [|y' pre]]; try discriminate. cbn in E. injection E as -> -> ->. intros X. exfalso. eapply exposed_nil; exact X.
    + split; [|intros _ X; exfalso; eapply exposed_nil; exact X]. unfold recOut in E. injection E as -> -> E. destruct pre as [|y [|y' pre]]; cbn in E.
      * injection E as -> -> ->. intros _. vm_compute recLive. inHere.
      * injection E as _ _ -> ->. intros X. exfalso. eapply exposed_nil; exact X.
      * injection E as _ _ E. destruct pre; discriminate.
    + unfold recIn in E. injection E as -> -> E. destruct pre as [|y [|y' pre]]; try discriminate. cbn in E. injection E as -> -> ->. split; [intros X; exfalso; eapply exposed_nil; exact X|]. auto.
  - intros F e steps after [p z] W Ea X. assert (e = recE) as -> by (destruct (recWithin _ _ W) as [[E ->]|[[E ->]|[E ->]]]; unfold recRun, recOut, recIn in E; injection E; auto).
    destruct p as [|p]; [discriminate|]. change (recE (S p, z)) with (-1) in X.
    assert (K : after = [] \/ after = [ARead 0; AWrite 0]) by (destruct (recWithin _ _ W) as [[E ->]|[[E ->]|[E ->]]]; auto). destruct K as [-> | ->]; [eapply exposed_nil; exact X|].
    destruct X as (t1 & t2 & X & _). destruct t1 as [|y [|y' t1]]; try discriminate. destruct t1; discriminate.
  - apply (w_call recRun [] 1%nat recE [] 1%nat [] 1%nat recIn [] [(2%nat, [Rd 0; Wr 0])] []). apply (w_call recRun [] 0%nat recE [] 0%nat [] 0%nat recOut [] [] []). constructor.
  - right. now left.
  - left. vm_compute gDefs. inHere.
  - exists [], [AWrite 0]. split; [reflexivity|intros []].
Qed.
Print Assumptions C62_recursion_refuted.

(** Conditions of [C62_no_failure] are met *)
Example C62_no_failure_ex : forall s n c g, In s exSccs -> n = fst s -> In (mkEdge (Some c) (Some g)) (nCalls n) ->
     In (ICall c) (exInstrs [ICall 0] (exBlock c)) /\ forall i r, In (i, r) (exLocs 1 c) -> (i < length (gArgs (exFn false d0 d1 g)))%nat \/ gVarArg (exFn false d0 d1 g) = true.
Proof.
  intros s n c g [<-|[<-|[<-|[]]]] -> H; cbn in H; try contradiction; destruct H as [H|[]]; try discriminate. injection H as <- <-. split; [now left|].
  intros i r [K|[]]. injection K as <- _. left. cbn. lia.
Qed.
