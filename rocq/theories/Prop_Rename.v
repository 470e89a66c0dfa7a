(** C63: renaming of local objects keeps references. *)
From Coq Require Import List String Bool Arith Lia.
From Verif Require Import RenameModel RenameSpec RenameProof.
Import ListNotations.
Local Open Scope list_scope.

(** In the new text each reference refers to the declaration it referred to in the old text
    and nothing but names is changed.
    Missing: types and functions declared inside of functions, see below. *)
Theorem C63_same_refs_partial : forall file tu isType,
  resolved tu -> NoDup (map fst (flat_map declsItem tu)) -> incl (flat_map namesItem tu) (rawIds file) ->
  forallb objectsItem tu = true -> forallb (typedItem isType) tu = true ->
  resolved (renameLocals file tu) /\ map shapeItem (renameLocals file tu) = map shapeItem tu.
Proof.
  intros file tu isType Hr ND Hn Ob Ty. unfold renameLocals.
  assert (SH : forall is st, map shapeItem (fst (travItems is st)) = map shapeItem is /\ flat_map usesItem (fst (travItems is st)) = flat_map usesItem is).
  { assert (US : forall l l', map shape l = map shape l' -> flat_map uses l = flat_map uses l').
    { assert (U1 : forall s, uses (shape s) = uses s).
      { induction s as [|k d n sub IH|u d n|m l IH|l IH] using stm_ind'; try reflexivity; cbn [shape uses]; induction IH as [|x l' Hx Hl IH']; cbn; congruence. }
      intros l l' E. assert (U2 : forall k, flat_map uses (map shape k) = flat_map uses k) by (induction k as [|x k IHk]; cbn; [reflexivity|now rewrite U1, IHk]). rewrite <- (U2 l), <- (U2 l'). now rewrite E. }
    induction is as [|i is IH]; intros st; [auto|]. cbn [travItems fst map flat_map]. destruct (IH (snd (travItem i st))) as [-> ->].
    assert (K : shapeItem (fst (travItem i st)) = shapeItem i); [|split; [now rewrite K|]].
    - destruct i as [k d n sub|d n ps body]; cbn [travItem fst shapeItem]; [now rewrite travs_shape|]. fold visitParams.
      assert (PP : forall ps st, map (fun p => (fst p, EmptyString)) (fst (visitParams ps st)) = map (fun p => (fst p, EmptyString)) ps) by (clear; induction ps as [|[e m] ps IHp]; intros st; [reflexivity|cbn; now rewrite IHp]).
      f_equal; [apply PP|]. rewrite trav_scope. destruct (_ && _); cbn [fst]; now rewrite travs_shape.
    - f_equal. destruct i as [k d n sub|d n ps body]; destruct (fst (travItem _ st)); try discriminate; cbn [shapeItem usesItem] in *; injection K; intros; now apply US. }
  destruct (SH tu (mkSt false false (rawIds file) [])) as [S1 S2]. split; [|exact S1]. unfold resolved. rewrite S2.
  apply (goodItems isType tu (rawIds file) []); auto; cbn.
  - split; cbn; auto; try discriminate; try constructor; intros; contradiction.
  - replace (flat_map itemIds tu) with (map fst (flat_map declsItem tu)); [exact ND|]. clear. induction tu as [|i tu IH]; [reflexivity|]. cbn. now rewrite map_app, IH.
Qed.
Print Assumptions C63_same_refs_partial.

Lemma changed_app a b u a' b' u' : changed a b u -> changed a' b' u' -> changed (a ++ a') (b ++ b') (u ++ u').
Proof. induction 1; cbn; intros; [assumption|constructor; auto|constructor; auto]. Qed.
Definition grows (a b : list (nat * string)) (st st' : state) : Prop :=
  exists news, changed a b news /\ ids st' = ids st ++ news /\ NoDup news /\ forall m, In m news -> ~ In m (ids st).
Lemma grows_app a b a' b' st st1 st2 : grows a b st st1 -> grows a' b' st1 st2 -> grows (a ++ a') (b ++ b') st st2.
Proof.
  intros (u & A1 & A2 & A3 & A4) (w & B1 & B2 & B3 & B4). exists (u ++ w). split; [now apply changed_app|]. split; [now rewrite B2, A2, app_assoc|]. rewrite A2 in B4. split.
  - clear - A3 B3 B4. induction u as [|x u IH]; [exact B3|]. cbn. inversion A3; subst. constructor.
    + intros K. apply in_app_iff in K. destruct K as [K|K]; [auto|]. apply (B4 x K), in_or_app. right. now left.
    + apply IH; [assumption|]. intros m Hm K. apply (B4 m Hm). apply in_app_iff in K. apply in_or_app. destruct K; [now left|right; now right].
  - intros m K. apply in_app_iff in K. destruct K as [K|K]; [now apply A4|]. intros K'. apply (B4 m K), in_or_app. now left.
Qed.
Lemma grows_nil st st' : ids st' = ids st -> grows [] [] st st'.
Proof. intros H. exists []. split; [constructor|]. split; [now rewrite app_nil_r|]. split; [constructor|intros m []]. Qed.
Lemma grows_named d n st st' : ids st' = ids st -> grows [(d, n)] [(d, fst (visitNamed d n st'))] st (snd (visitNamed d n st')).
Proof.
  intros E. unfold visitNamed. destruct (active st' && has (ids st') n); cbn [fst snd].
  - exists [freshName (ids st') n]. split; [repeat constructor|]. cbn [ids]. rewrite E. split; [reflexivity|]. split; [constructor; [intros []|constructor]|]. intros m [<-|[]]. apply freshName_new.
  - exists []. split; [repeat constructor|]. split; [now rewrite app_nil_r|]. split; [constructor|intros m []].
Qed.
Lemma grows_same a b st st' st1 st1' : grows a b st st1 -> ids st' = ids st -> ids st1' = ids st1 -> grows a b st' st1'.
Proof. intros (u & A) E1 E2. exists u. rewrite E1, E2. exact A. Qed.
Lemma trav_grows s : forall st, grows (decls s) (decls (fst (trav s st))) st (snd (trav s st)).
Proof.
  assert (L : forall l, Forall (fun s => forall st, grows (decls s) (decls (fst (trav s st))) st (snd (trav s st))) l -> forall st, grows (flat_map decls l) (flat_map decls (fst (travs l st))) st (snd (travs l st))).
  { induction 1 as [|x l H Hl IH]; intros st; [now apply grows_nil|]. cbn [travs fst snd flat_map]. eapply grows_app; [apply H|apply IH]. }
  induction s as [|k d n sub IH|u d n|m l IH|l IH] using stm_ind'; intros st.
  - now apply grows_nil.
  - rewrite trav_decl. cbn [fst snd decls]. apply (grows_app [(d, n)] [(d, _)] _ _ st (snd (visitNamed d n (enterDecl k (noPend st))))); [apply grows_named; now destruct k|apply (L sub IH)].
  - now apply grows_nil.
  - rewrite trav_scope. destruct (_ && _); cbn [fst snd decls]; (eapply grows_same; [apply (L l IH)| |]; reflexivity).
  - rewrite trav_stmt. cbn [fst snd decls]. eapply grows_same; [apply (L l IH)| |]; reflexivity.
Qed.
Lemma travs_grows l : forall st, grows (flat_map decls l) (flat_map decls (fst (travs l st))) st (snd (travs l st)).
Proof. induction l as [|s l IH]; intros st; [now apply grows_nil|]. cbn [travs fst snd flat_map]. eapply grows_app; [apply trav_grows|apply IH]. Qed.
Lemma travItem_grows i st : grows (declsItem i) (declsItem (fst (travItem i st))) st (snd (travItem i st)).
Proof.
  destruct i as [k d n sub|d n ps body]; cbn [travItem fst snd declsItem].
  - apply (grows_app [(d, n)] [(d, _)] _ _ st (snd (visitNamed d n (enterDecl k (noPend st))))); [apply grows_named; now destruct k|apply travs_grows].
  - fold visitParams. set (st1 := mkSt false (active st) (ids st) []). apply (grows_app [(d, n)] [(d, _)] _ _ st (snd (visitNamed d n st1))); [now apply grows_named|].
    assert (P : forall ps st, grows ps (fst (visitParams ps st)) st (snd (visitParams ps st))).
    { clear. induction ps as [|[e m] ps IH]; intros st; [now apply grows_nil|]. cbn [visitParams fst snd]. apply (grows_app [(e, m)] [(e, _)] _ _ st (snd (visitNamed e m st))); [now apply grows_named|apply IH]. }
    eapply grows_app; [apply P|]. cbn [fst]. match goal with |- grows _ _ _ (snd (trav (SScope _ _) ?x)) => generalize x end. intros st2. rewrite trav_scope. destruct (_ && _); cbn [fst snd]; (eapply grows_same; [apply travs_grows| |]; reflexivity).
Qed.
Lemma travItems_grows is : forall st, grows (flat_map declsItem is) (flat_map declsItem (fst (travItems is st))) st (snd (travItems is st)).
Proof. induction is as [|i is IH]; intros st; [now apply grows_nil|]. cbn [travItems fst snd flat_map]. eapply grows_app; [apply travItem_grows|apply IH]. Qed.
(** Changed names are different and differ from all names in the text. *)
Theorem C63_new_names : forall file tu, exists news,
  changed (flat_map declsItem tu) (flat_map declsItem (renameLocals file tu)) news /\ NoDup news /\ forall m, In m news -> ~ In (TId m) file.
Proof.
  intros file tu. destruct (travItems_grows tu (mkSt false false (rawIds file) [])) as (news & A & _ & B & C). exists news. split; [exact A|]. split; [exact B|].
  intros m Hm K. apply (C m Hm). cbn. clear - K. induction file as [|t file IH]; [destruct K|]. destruct K as [->|K]; [now left|]. destruct t; cbn; auto.
Qed.
Print Assumptions C63_new_names.
(** A new name is always found: it is the name with the least number such that there is no
    such name yet. *)
Theorem C63_fresh : forall ids n, exists k, freshName ids n = String.append n (decimal k) /\
  ~ In (freshName ids n) ids /\ forall j, j < k -> In (String.append n (decimal j)) ids.
Proof.
  intros ids n. unfold freshName. destruct (freshFrom_some ids n) as (m & E). rewrite E. destruct (freshFrom_spec _ _ _ _ _ E) as (A & k & B & C). exists k. split; [exact B|]. split; [exact A|].
  intros j Hj. apply C. lia.
Qed.
Print Assumptions C63_fresh.

(** ** Which names are changed *)
Fixpoint lastEnds (l : list stm) : bool := match l with [] => false | s :: l => match l with [] => endsP s | _ => lastEnds l end end.
Lemma endsP_eq s : endsP s = match s with SPragma => true | SUse _ _ _ => false | _ => lastEnds (children s) end.
Proof. destruct s; reflexivity. Qed.
Lemma trav_pend s : forall st, pend (snd (trav s st)) = endsP s.
Proof.
  assert (L : forall l, Forall (fun s => forall st, pend (snd (trav s st)) = endsP s) l -> forall st, pend st = false -> pend (snd (travs l st)) = lastEnds l).
  { intros l H. assert (K : forall st, l <> [] -> pend (snd (travs l st)) = lastEnds l).
    { induction H as [|x l Hx Hl IH]; intros st N; [congruence|]. cbn [travs snd lastEnds]. destruct l as [|y l]; [apply Hx|]. apply IH. discriminate. }
    intros st E. destruct l; [exact E|]. now apply K. }
  induction s as [|k d n sub IH|u d n|m l IH|l IH] using stm_ind'; intros st; rewrite endsP_eq; cbn [children]; [reflexivity| |reflexivity| |].
  - rewrite trav_decl. cbn [snd]. apply (L sub IH). unfold visitNamed. destruct (_ && _); cbn; destruct k; reflexivity.
  - rewrite trav_scope. destruct (_ && _); cbn [snd setActive pend]; now apply (L l IH).
  - rewrite trav_stmt. cbn [snd]. now apply (L l IH).
Qed.
Lemma marked_more d l l' : (forall pre x y post, l = pre ++ x :: y :: post -> exists pre' post', l' = pre' ++ x :: y :: post') -> incl l l' -> marked d l -> marked d l'.
Proof.
  intros H1 H2 M. destruct M as [pre x b post E Hd|l s Hs M].
  - destruct (H1 pre x (SScope false b) post eq_refl) as (pre' & post' & ->). now constructor.
  - apply (mk_in d l' s); auto.
Qed.
Lemma marked_tail d s l : marked d l -> marked d (s :: l).
Proof. apply marked_more; [|intros x K; now right]. intros pre x y post ->. exists (s :: pre), post. reflexivity. Qed.
Lemma Forall2_weak {A B} (P Q : A -> B -> Prop) a b : (forall x y, P x y -> Q x y) -> Forall2 P a b -> Forall2 Q a b.
Proof. intros H K. induction K; constructor; auto. Qed.
(** names which may be changed *)
Definition onlyMarked (l : list stm) (a b : list (nat * string)) : Prop :=
  Forall2 (fun p q => fst p = fst q /\ (snd q <> snd p -> marked (fst p) l)) a b.
Lemma onlyMarked_weak l l' a b : (forall d, marked d l -> marked d l') -> onlyMarked l a b -> onlyMarked l' a b.
Proof. intros H K. unfold onlyMarked in *. eapply Forall2_weak; [|exact K]. cbn. intros p q [E F]. auto. Qed.
Lemma trav_fst_ids s st : map fst (decls (fst (trav s st))) = map fst (decls s).
Proof. destruct (trav_grows s st) as (u & C & _). clear - C. induction C; cbn; congruence. Qed.
Lemma travs_fst_ids l st : map fst (flat_map decls (fst (travs l st))) = map fst (flat_map decls l).
Proof. destruct (travs_grows l st) as (u & C & _). clear - C. induction C; cbn; congruence. Qed.
Lemma all_marked (P : nat -> Prop) : forall a b : list (nat * string), map fst a = map fst b -> (forall d, In d (map fst a) -> P d) -> Forall2 (fun p q => fst p = fst q /\ (snd q <> snd p -> P (fst p))) a b.
Proof. induction a as [|p a IH]; intros [|q b] E H; try discriminate; constructor; [cbn in E; injection E as E1 E2; split; [exact E1|intros _; apply H; now left]|]. cbn in E. injection E as E1 E2. apply IH; [exact E2|]. intros d K. apply H. now right. Qed.
Definition soundS (s : stm) : Prop := forall st, active st = false ->
  Forall2 (fun p q => fst p = fst q /\ (snd q <> snd p -> marked (fst p) [s] \/ (pend st = true /\ exists b, s = SScope false b /\ In (fst p) (map fst (flat_map decls b))))) (decls s) (decls (fst (trav s st))).
Lemma soundL l : Forall soundS l -> forall st x0, active st = false -> (pend st = true -> endsP x0 = true) ->
  onlyMarked (if pend st then x0 :: l else l) (flat_map decls l) (flat_map decls (fst (travs l st))).
Proof.
  induction 1 as [|s l Hs Hl IH]; intros st x0 Ac Hp; [constructor|]. cbn [travs fst flat_map]. apply Forall2_app.
  - eapply Forall2_weak; [|apply (Hs st Ac)]. cbn. intros p q [E F]. split; [exact E|]. intros N. destruct (F N) as [M|(P & b & -> & K)].
    + assert (M' : marked (fst p) (s :: l)). { eapply marked_more; [| |exact M]; [|intros x [<-|[]]; now left]. intros pre x y post K. destruct pre as [|? [|? ?]]; discriminate. }
      destruct (pend st); [now apply marked_tail|exact M'].
    + rewrite P. apply (mk_here _ [] x0 b l); auto.
  - assert (Ac' : active (snd (trav s st)) = false) by now rewrite trav_active. assert (Hp' : pend (snd (trav s st)) = true -> endsP s = true) by now rewrite trav_pend.
    pose proof (IH (snd (trav s st)) s Ac' Hp') as K. eapply onlyMarked_weak; [|exact K]. intros d M. destruct (pend (snd (trav s st))), (pend st); auto using marked_tail.
Qed.
Lemma soundS_all s : soundS s.
Proof.
  induction s as [|k d n sub IH|u d n|m l IH|l IH] using stm_ind'; intros st Ac.
  - constructor.
  - rewrite trav_decl. rewrite (visit_off d n (enterDecl k (noPend st))) by (destruct k; exact Ac). cbn [fst snd decls]. constructor; [split; [reflexivity|intros N; now elim N]|].
    pose proof (soundL sub IH (enterDecl k (noPend st)) SPragma ltac:(destruct k; exact Ac) ltac:(reflexivity)) as K. assert (Ep : pend (enterDecl k (noPend st)) = false) by (destruct k; reflexivity). rewrite Ep in K.
    eapply Forall2_weak; [|exact K]. cbn. intros p q [E F]. split; [exact E|]. intros N. left. eapply mk_in; [now left|]. exact (F N).
  - constructor.
  - rewrite trav_scope. destruct (pend st && negb (active st) && negb m) eqn:E; cbn [fst decls].
    + apply andb_true_iff in E. destruct E as [E Em]. apply andb_true_iff in E. destruct E as [E _]. apply negb_true_iff in Em. subst m.
      apply (all_marked (fun d => marked d [SScope false l] \/ (pend st = true /\ exists b, SScope false l = SScope false b /\ In d (map fst (flat_map decls b))))); [now rewrite travs_fst_ids|].
      intros d K. right. split; [exact E|]. exists l. auto.
    + pose proof (soundL l IH (noPend st) SPragma Ac ltac:(reflexivity)) as K. cbn [noPend pend] in K. eapply Forall2_weak; [|exact K]. cbn. intros p q [E' F]. split; [exact E'|]. intros N. left. eapply mk_in; [now left|]. exact (F N).
  - rewrite trav_stmt. cbn [fst decls]. pose proof (soundL l IH (noPend st) SPragma Ac ltac:(reflexivity)) as K. cbn [noPend pend] in K. eapply Forall2_weak; [|exact K]. cbn. intros p q [E' F]. split; [exact E'|]. intros N. left. eapply mk_in; [now left|]. exact (F N).
Qed.
(** inside of a scope with active renaming all names are changed *)
Lemma trav_new s : forall st, active st = true -> incl (names s) (ids st) -> forall d m, In (d, m) (decls (fst (trav s st))) -> ~ In m (ids st).
Proof.
  assert (ID : forall s st x, In x (ids st) -> In x (ids (snd (trav s st)))) by (intros s0 st x K; destruct (trav_grows s0 st) as (u & _ & E & _); rewrite E; apply in_or_app; now left).
  assert (L : forall l, Forall (fun s => forall st, active st = true -> incl (names s) (ids st) -> forall d m, In (d, m) (decls (fst (trav s st))) -> ~ In m (ids st)) l ->
    forall st, active st = true -> incl (flat_map names l) (ids st) -> forall d m, In (d, m) (flat_map decls (fst (travs l st))) -> ~ In m (ids st)).
  { induction 1 as [|x l H Hl IH]; intros st Ac Hn d m K; [destruct K|]. cbn [travs fst flat_map] in K. apply in_app_iff in K. destruct K as [K|K].
    - eapply (H st Ac); [intros y Y; apply Hn, in_or_app; now left|exact K].
    - intros Y. eapply (IH (snd (trav x st))); [now rewrite trav_active|intros y Z; apply ID, Hn, in_or_app; now right|exact K|now apply ID]. }
  induction s as [|k d n sub IH|u d n|m l IH|l IH] using stm_ind'; intros st Ac Hn d' m' K.
  - destruct K.
  - rewrite trav_decl in K. cbn [fst snd decls] in K. unfold visitNamed in K. assert (Eid : ids (enterDecl k (noPend st)) = ids st) by (destruct k; reflexivity). assert (Eac : active (enterDecl k (noPend st)) = true) by (destruct k; exact Ac).
    assert (Hh : has (ids st) n = true) by (apply has_spec, Hn; now left). rewrite Eid, Eac, Hh in K. cbn [andb fst snd] in K. destruct K as [K|K]; [injection K as _ <-; apply freshName_new|].
    intros Y. eapply (L sub IH); [| |exact K|]; cbn [active ids]; [reflexivity|intros y Z; apply in_or_app; left; apply Hn; now right|apply in_or_app; now left].
  - destruct K.
  - rewrite trav_scope in K. rewrite Ac in K. cbn [negb] in K. rewrite andb_false_r in K. cbn [andb fst decls] in K. apply (L l IH (noPend st) Ac Hn d' m' K).
  - rewrite trav_stmt in K. cbn [fst decls] in K. apply (L l IH (noPend st) Ac Hn d' m' K).
Qed.
Lemma travs_new l : forall st, active st = true -> incl (flat_map names l) (ids st) -> forall d m, In (d, m) (flat_map decls (fst (travs l st))) -> ~ In m (ids st).
Proof.
  induction l as [|x l IH]; intros st Ac Hn d m K; [destruct K|]. cbn [travs fst flat_map] in K. apply in_app_iff in K. destruct K as [K|K].
  - eapply (trav_new x st Ac); [intros y Y; apply Hn, in_or_app; now left|exact K].
  - assert (ID : forall y, In y (ids st) -> In y (ids (snd (trav x st)))) by (intros y Y; destruct (trav_grows x st) as (u & _ & E & _); rewrite E; apply in_or_app; now left).
    intros Y. eapply (IH (snd (trav x st))); [now rewrite trav_active|intros y Z; apply ID, Hn, in_or_app; now right|exact K|now apply ID].
Qed.
Lemma travs_app a : forall b st, fst (travs (a ++ b) st) = fst (travs a st) ++ fst (travs b (snd (travs a st))).
Proof. induction a as [|x a IH]; intros b st; [reflexivity|]. cbn [app travs fst snd]. now rewrite IH. Qed.
Lemma travs_ids l st x : In x (ids st) -> In x (ids (snd (travs l st))).
Proof. intros K. destruct (travs_grows l st) as (u & _ & E & _). rewrite E. apply in_or_app. now left. Qed.
Lemma trav_ids s st x : In x (ids st) -> In x (ids (snd (trav s st))).
Proof. intros K. destruct (trav_grows s st) as (u & _ & E & _). rewrite E. apply in_or_app. now left. Qed.
Lemma marked_new d l : marked d l -> forall st ids0, incl ids0 (ids st) -> incl (flat_map names l) ids0 -> exists m, In (d, m) (flat_map decls (fst (travs l st))) /\ ~ In m ids0.
Proof.
  induction 1 as [pre x b post E Hd|l s Hs M IH]; intros st ids0 Hi Hn.
  - rewrite travs_app. set (st1 := snd (travs pre st)). cbn [travs fst snd]. set (st2 := snd (trav x st1)). assert (P2 : pend st2 = true) by (unfold st2; now rewrite trav_pend).
    assert (I2 : incl ids0 (ids st2)) by (intros y Y; apply trav_ids, travs_ids; auto).
    assert (Hb : incl (flat_map names b) ids0) by (intros y Y; apply Hn; rewrite flat_map_app; apply in_or_app; right; cbn; apply in_or_app; right; apply in_or_app; now left).
    assert (Q : exists st3, active st3 = true /\ ids st3 = ids st2 /\ decls (fst (trav (SScope false b) st2)) = flat_map decls (fst (travs b st3))).
    { rewrite trav_scope, P2. destruct (active st2) eqn:A2; cbn [negb andb fst decls]; eexists; (split; [|split; [|reflexivity]]); [exact A2|reflexivity|reflexivity|reflexivity]. }
    destruct Q as (st3 & A3 & I3 & D3). rewrite <- (travs_fst_ids b st3) in Hd. apply in_map_iff in Hd. destruct Hd as ([d' m] & Ed & Hm). cbn in Ed. subst d'. exists m. split.
    + rewrite flat_map_app. apply in_or_app. right. cbn [flat_map]. apply in_or_app. right. apply in_or_app. left. now rewrite D3.
    + intros K. eapply travs_new; [exact A3| |exact Hm|]; rewrite I3; [|now apply I2]. intros y Y. apply I2, Hb, Y.
  - destruct (in_split _ _ Hs) as (pre & post & ->). rewrite travs_app. set (st1 := snd (travs pre st)). cbn [travs fst snd].
    assert (I1 : incl ids0 (ids st1)) by (intros y Y; apply travs_ids; auto).
    assert (Hc : incl (flat_map names (children s)) ids0).
    { intros y Y. apply Hn. rewrite flat_map_app. apply in_or_app. right. cbn. apply in_or_app. left. destruct s; cbn in Y |- *; auto; contradiction. }
    assert (Q : exists st3, incl ids0 (ids st3) /\ incl (flat_map decls (fst (travs (children s) st3))) (decls (fst (trav s st1)))).
    { destruct s as [|k d0 n0 sub|u d0 n0|m0 l0|l0]; cbn [children].
      - exists st1. split; [exact I1|]. cbn. intros y [].
      - rewrite trav_decl. cbn [fst decls]. eexists. split; [|intros y Y; right; exact Y]. intros y Y. unfold visitNamed. assert (Eid : ids (enterDecl k (noPend st1)) = ids st1) by (destruct k; reflexivity).
        destruct (_ && _); cbn [snd ids]; [apply in_or_app; left|]; rewrite Eid; now apply I1.
      - exists st1. split; [exact I1|]. cbn. intros y [].
      - rewrite trav_scope. destruct (_ && _); cbn [fst decls]; eexists; (split; [|intros y Y; exact Y]); exact I1.
      - rewrite trav_stmt. cbn [fst decls]. eexists. split; [|intros y Y; exact Y]. exact I1. }
    destruct Q as (st3 & I3 & D3). destruct (IH st3 ids0 I3 Hc) as (m & K1 & K2). exists m. split; [|exact K2]. rewrite flat_map_app. apply in_or_app. right. cbn [flat_map]. apply in_or_app. left. now apply D3.
Qed.
Lemma travItems_app a : forall b st, fst (travItems (a ++ b) st) = fst (travItems a st) ++ fst (travItems b (snd (travItems a st))).
Proof. induction a as [|x a IH]; intros b st; [reflexivity|]. cbn [app travItems fst snd]. now rewrite IH. Qed.
Lemma travItem_fun d n ps body st : travItem (IFunc d n ps body) st =
  let r := visitNamed d n (mkSt false (active st) (ids st) []) in
  let p := visitParams ps (snd r) in
  let q := trav (SScope false body) (snd p) in
  (IFunc d (fst r) (fst p) (match fst q with SScope _ l => l | _ => [] end), snd q).
Proof. reflexivity. Qed.
Definition heads (i : item) : list (nat * string) := match i with IDecl _ d n _ => [(d, n)] | IFunc d n ps _ => (d, n) :: ps end.
Lemma travItem_off i st : active st = false -> active (snd (travItem i st)) = false /\ heads (fst (travItem i st)) = heads i.
Proof.
  intros Ac. destruct i as [k d n sub|d n ps body]; [cbn [travItem fst snd]|rewrite travItem_fun].
  - rewrite (visit_off d n (enterDecl k (noPend st))) by (destruct k; exact Ac). cbn [fst snd heads]. split; [|reflexivity]. rewrite travs_active'. destruct k; exact Ac.
  - set (st1 := mkSt false (active st) (ids st) []). rewrite (visit_off d n st1 Ac). cbn [fst snd]. rewrite (params_off ps st1 Ac). cbn [fst snd heads]. split; [|reflexivity]. now rewrite trav_active.
Qed.
(** Names of global objects, functions and arguments are not changed. *)
Theorem C63_globals : forall file tu, map heads (renameLocals file tu) = map heads tu.
Proof.
  intros file tu. unfold renameLocals. assert (H : forall st, active st = false -> map heads (fst (travItems tu st)) = map heads tu); [|now apply H].
  induction tu as [|i tu IH]; intros st Ac; [reflexivity|]. cbn [travItems fst map]. destruct (travItem_off i st Ac) as [A ->]. now rewrite IH.
Qed.
Print Assumptions C63_globals.
Lemma unique_fst {A} (l : list (nat * A)) d x y : NoDup (map fst l) -> In (d, x) l -> In (d, y) l -> x = y.
Proof.
  induction l as [|[k z] l IH]; intros ND Hx Hy; [destruct Hx|]. cbn in ND. inversion ND; subst. destruct Hx as [E|Hx], Hy as [F|Hy]; [congruence| | |auto].
  - injection E as -> ->. exfalso. apply H1. change d with (fst (d, y)). now apply in_map.
  - injection F as -> ->. exfalso. apply H1. change d with (fst (d, x)). now apply in_map.
Qed.
(** Names of local objects are changed if and only if the objects are declared inside of a
    scope which follows a directive and contains no macros. *)
Theorem C63_exactly : forall file tu f n ps body d x m,
  NoDup (map fst (flat_map declsItem tu)) -> incl (flat_map namesItem tu) (rawIds file) ->
  In (IFunc f n ps body) tu -> In (d, x) (flat_map decls body) -> In (d, m) (flat_map declsItem (renameLocals file tu)) ->
  (marked d body -> ~ In m (rawIds file)) /\ (~ marked d body -> m = x).
Proof.
  intros file tu f n ps body d x m ND Hn Hi Hd Hm. destruct (in_split _ _ Hi) as (pre & post & ->). set (st0 := mkSt false false (rawIds file) []).
  assert (ND' : NoDup (map fst (flat_map declsItem (renameLocals file (pre ++ IFunc f n ps body :: post))))).
  { destruct (travItems_grows (pre ++ IFunc f n ps body :: post) st0) as (u & C & _). replace (map fst (flat_map declsItem (renameLocals _ _))) with (map fst (flat_map declsItem (pre ++ IFunc f n ps body :: post))); [exact ND|].
    unfold renameLocals. fold st0. clear - C. induction C; cbn; congruence. }
  set (st1 := snd (travItems pre st0)). assert (A1 : active st1 = false).
  { assert (H : forall l st, active st = false -> active (snd (travItems l st)) = false); [|now apply H]. clear. induction l as [|i l IH]; intros st Ac; [exact Ac|]. cbn [travItems snd]. apply IH. now apply travItem_off. }
  assert (I1 : incl (rawIds file) (ids st1)) by (intros y Y; destruct (travItems_grows pre st0) as (u & _ & E & _); unfold st1; rewrite E; apply in_or_app; now left).
  set (st2 := mkSt false (active st1) (ids st1) []).
  assert (IN : forall q, In q (flat_map decls (fst (travs body (noPend st2)))) -> In q (flat_map declsItem (renameLocals file (pre ++ IFunc f n ps body :: post)))).
  { intros q K. unfold renameLocals. fold st0. rewrite travItems_app, flat_map_app. apply in_or_app. right. fold st1. cbn [travItems fst flat_map]. apply in_or_app. left.
    rewrite travItem_fun. fold st2. rewrite (visit_off f n st2 A1). cbn [fst snd]. rewrite (params_off ps st2 A1). cbn [fst snd]. rewrite trav_scope. cbn [pend st2 andb fst]. cbn [declsItem]. right. apply in_or_app. now right. }
  assert (Hb : incl (flat_map names body) (rawIds file)) by (intros y Y; apply Hn; rewrite flat_map_app; apply in_or_app; right; cbn; right; apply in_or_app; left; apply in_or_app; now right).
  split.
  - intros M. destruct (marked_new d body M (noPend st2) (rawIds file) I1 Hb) as (m' & K1 & K2). now rewrite (unique_fst _ _ _ _ ND' Hm (IN _ K1)).
  - intros M. assert (SB : Forall soundS body) by (apply Forall_forall; intros; apply soundS_all). pose proof (soundL body SB (noPend st2) SPragma A1 ltac:(reflexivity)) as S. cbn [noPend pend] in S.
    assert (Q : exists q, In q (flat_map decls (fst (travs body (noPend st2)))) /\ d = fst q /\ (snd q <> x -> marked d body)).
    { clear - S Hd. unfold onlyMarked in S. induction S as [|p q a b [E F] S IH]; [destruct Hd|]. destruct Hd as [->|Hd]; [exists q; split; [now left|]; auto|]. destruct (IH Hd) as (q' & K1 & K2). exists q'. split; [now right|exact K2]. }
    destruct Q as ([d' m'] & K1 & E & K2). cbn in E, K2. subst d'. rewrite (unique_fst _ _ _ _ ND' Hm (IN _ K1)). destruct (string_dec m' x) as [->|N]; [reflexivity|]. now elim M; apply K2.
Qed.
Print Assumptions C63_exactly.

(** ** Example
      int x;
      void f(int a) {
        x = a;
      #pragma spf transform rename
        { int x = a; { int x0; x = x0; } x = a; }
        x = 1;
      } *)
Local Open Scope string_scope.
Definition exTU : list item := [
  IDecl DObj 0 "x" [];
  IFunc 1 "f" [(2, "a")] [
    SStmt [SUse URef 0 "x"; SUse URef 2 "a"];
    SPragma;
    SScope false [SDecl DObj 3 "x" [SUse URef 2 "a"]; SScope false [SDecl DObj 4 "x0" []; SStmt [SUse URef 3 "x"; SUse URef 4 "x0"]]; SStmt [SUse URef 3 "x"; SUse URef 2 "a"]];
    SStmt [SUse URef 0 "x"]]].
Definition exFile : list token := map TId ["int"; "x"; "void"; "f"; "a"; "x0"].
Example C63_ex : resolved exTU /\ NoDup (map fst (flat_map declsItem exTU)) /\ incl (flat_map namesItem exTU) (rawIds exFile) /\
  forallb objectsItem exTU = true /\ forallb (typedItem (fun _ => false)) exTU = true /\
  renameLocals exFile exTU = [
    IDecl DObj 0 "x" [];
    IFunc 1 "f" [(2, "a")] [
      SStmt [SUse URef 0 "x"; SUse URef 2 "a"];
      SPragma;
      SScope false [SDecl DObj 3 "x1" [SUse URef 2 "a"]; SScope false [SDecl DObj 4 "x00" []; SStmt [SUse URef 3 "x1"; SUse URef 4 "x00"]]; SStmt [SUse URef 3 "x1"; SUse URef 2 "a"]];
      SStmt [SUse URef 0 "x"]]] /\
  (exists body, In (IFunc 1 "f" [(2, "a")] body) exTU /\ marked 4 body).
Proof.
  split; [vm_compute; reflexivity|]. split; [vm_compute; repeat constructor; cbn; intuition discriminate|].
  split; [intros n K; apply has_spec; revert n K; apply Forall_forall; vm_compute; repeat constructor|]. split; [reflexivity|]. split; [reflexivity|]. split; [vm_compute; reflexivity|].
  eexists. split; [right; left; reflexivity|]. apply (mk_here 4 [_] SPragma); [reflexivity|]. cbn. auto.
Qed.

(** ** Failures of other renamings *)
Definition C63_claim (bad : list dkind) : Prop := forall file tu isType,
  resolved tu -> NoDup (map fst (flat_map declsItem tu)) -> incl (flat_map namesItem tu) (rawIds file) ->
  (forall d k, In (d, k) (flat_map kindsItem tu) -> ~ In k bad) -> forallb (typedItem isType) tu = true ->
  resolved (renameLocals file tu).
Lemma noBad_objects tu : (forall d k, In (d, k) (flat_map kindsItem tu) -> ~ In k [DType; DFun]) -> forallb objectsItem tu = true.
Proof.
  intros H. assert (O : forall s, (forall d k, In (d, k) (kinds s) -> ~ In k [DType; DFun]) -> objects s = true).
  { assert (L : forall l, Forall (fun s => (forall d k, In (d, k) (kinds s) -> ~ In k [DType; DFun]) -> objects s = true) l -> (forall d k, In (d, k) (flat_map kinds l) -> ~ In k [DType; DFun]) -> forallb objects l = true).
    { induction 1 as [|x l Hx Hl IH]; intros K; [reflexivity|]. cbn. rewrite Hx, IH; [reflexivity| |]; intros d k Q; apply (K d k); cbn; apply in_or_app; auto. }
    induction s as [|k d n sub IH|u d n|m l IH|l IH] using stm_ind'; intros K; try reflexivity; cbn [objects kinds] in *; [|apply (L l IH K)|apply (L l IH K)].
    pose proof (K d k (or_introl eq_refl)) as Kk. assert (forallb objects sub = true) by (apply (L sub IH); intros e q Q; apply (K e q); now right). destruct k; cbn in Kk; try tauto; exfalso; apply Kk; auto. }
  assert (OL : forall l, (forall d k, In (d, k) (flat_map kinds l) -> ~ In k [DType; DFun]) -> forallb objects l = true).
  { induction l as [|x l IH]; intros K; [reflexivity|]. cbn. rewrite O, IH; [reflexivity| |]; intros d k Q; apply (K d k); cbn; apply in_or_app; auto. }
  apply forallb_forall. intros i Hi. assert (K : forall d k, In (d, k) (kindsItem i) -> ~ In k [DType; DFun]) by (intros d k Q; apply (H d k), in_flat_map; eauto). destruct i; cbn in *; now apply OL.
Qed.
Corollary C63_claim_partial : C63_claim [DType; DFun].
Proof. intros file tu isType H1 H2 H3 H4 H5. now apply (C63_same_refs_partial file tu isType); auto; apply noBad_objects. Qed.
(** References to types are not changed.
      #pragma spf transform rename
        { typedef int T; T x; } *)
Theorem C63_type_refuted : ~ C63_claim [DFun].
Proof.
  intros C. set (tu := [IFunc 0 "f" [] [SPragma; SScope false [SDecl DType 1 "T" []; SStmt [SUse UType 1 "T"; SDecl DObj 2 "x" []]]]]).
  assert (R : resolved (renameLocals (map TId ["f"; "T"; "x"]) tu)); [|vm_compute in R; discriminate]. apply (C (map TId ["f"; "T"; "x"]) tu (fun d => Nat.eqb d 1)).
  - reflexivity.
  - vm_compute. repeat constructor; cbn; intuition discriminate.
  - intros n K. apply has_spec. revert n K. apply Forall_forall. vm_compute. repeat constructor.
  - vm_compute. intros d k [E|[E|[]]]; injection E as <- <-; intuition discriminate.
  - reflexivity.
Qed.
Print Assumptions C63_type_refuted.
(** New names are forgotten after a declaration of a function.
      #pragma spf transform rename
        { int x; void g(); x = 1; } *)
Theorem C63_function_refuted : ~ C63_claim [DType].
Proof.
  intros C. set (tu := [IFunc 0 "f" [] [SPragma; SScope false [SDecl DObj 1 "x" []; SDecl DFun 2 "g" []; SStmt [SUse URef 1 "x"]]]]).
  assert (R : resolved (renameLocals (map TId ["f"; "g"; "x"]) tu)); [|vm_compute in R; discriminate]. apply (C (map TId ["f"; "g"; "x"]) tu (fun _ => false)).
  - reflexivity.
  - vm_compute. repeat constructor; cbn; intuition discriminate.
  - intros n K. apply has_spec. revert n K. apply Forall_forall. vm_compute. repeat constructor.
  - vm_compute. intros d k [E|[E|[]]]; injection E as <- <-; intuition discriminate.
  - reflexivity.
Qed.
Print Assumptions C63_function_refuted.
(** Objects declared extern in a scope are defined elsewhere, their names are changed. *)
Theorem C63_extern_refuted : ~ (forall file tu d n m, NoDup (map fst (flat_map declsItem tu)) -> incl (flat_map namesItem tu) (rawIds file) ->
  In (d, DExt) (flat_map kindsItem tu) -> In (d, n) (flat_map declsItem tu) -> In (d, m) (flat_map declsItem (renameLocals file tu)) -> m = n).
Proof.
  intros C. set (tu := [IFunc 0 "f" [] [SPragma; SScope false [SDecl DExt 1 "x" []; SStmt [SUse URef 1 "x"]]]]).
  assert (R : "x0" = "x"); [|discriminate]. apply (C (map TId ["f"; "x"]) tu 1); [| |vm_compute; auto|vm_compute; auto|vm_compute; auto].
  - vm_compute. repeat constructor; cbn; intuition discriminate.
  - intros n K. apply has_spec. revert n K. apply Forall_forall. vm_compute. repeat constructor.
Qed.
Print Assumptions C63_extern_refuted.
(** A new name may be a name of a macro.
      #define x0 1
      #pragma spf transform rename
        { int x; } *)
Theorem C63_macro_refuted : ~ (forall file tu news, changed (flat_map declsItem tu) (flat_map declsItem (renameLocals file tu)) news -> NoDup news ->
  incl (flat_map namesItem tu) (rawIds file) -> forall m, In m news -> ~ In (TDefine m) file).
Proof.
  intros C. set (tu := [IFunc 0 "f" [] [SPragma; SScope false [SDecl DObj 1 "x" []]]]).
  apply (C [TDefine "x0"; TId "f"; TId "x"] tu ["x0"]) with (m := "x0"); [| | |now left|now left].
  - vm_compute. apply ch_keep, ch_new, ch_nil.
  - repeat constructor. intros [].
  - intros n K. apply has_spec. revert n K. apply Forall_forall. vm_compute. repeat constructor.
Qed.
Print Assumptions C63_macro_refuted.
(** A macro which is used is not a new name *)
Theorem C63_macro_partial : forall file tu,
  (forall m, In (TDefine m) file -> In (TId m) file) -> forall d n m, In (d, n) (flat_map declsItem tu) -> In (d, m) (flat_map declsItem (renameLocals file tu)) -> NoDup (map fst (flat_map declsItem tu)) -> m <> n -> ~ In (TDefine m) file.
Proof.
  intros file tu HM d n m Hd Hm ND N K. destruct (C63_new_names file tu) as (nw & C & _ & F). apply HM in K. revert K. apply F.
  clear - C Hd Hm ND N. revert Hd Hm. induction C as [|d0 n0 a b u C IH|d0 n0 m0 a b u C IH]; intros Hd Hm; [destruct Hd| |]; cbn in ND; inversion ND; subst; assert (FE : map fst b = map fst a) by (clear - C; induction C; cbn; congruence).
  - destruct Hd as [E|Hd], Hm as [F|Hm]; [congruence| | |auto].
    + injection E as -> ->. exfalso. apply H1. rewrite <- FE. change d with (fst (d, m)). now apply in_map.
    + injection F as -> ->. exfalso. apply H1. change d with (fst (d, n)). now apply in_map.
  - destruct Hm as [F|Hm]; [injection F as -> ->; now left|]. right. destruct Hd as [E|Hd]; [|auto]. injection E as -> ->. exfalso. apply H1. rewrite <- FE. change d with (fst (d, m)). now apply in_map.
Qed.
Print Assumptions C63_macro_partial.
