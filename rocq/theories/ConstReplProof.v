(** Proofs for C99. *)
From Coq Require Import PeanoNat Bool List Permutation Lia.
From Verif Require Import ConstReplModel ConstReplSpec.
Import ListNotations.

(** * Names *)
Lemma mem_spec : forall x l, existsb (Nat.eqb x) l = true <-> In x l.
Proof.
  intros x l. rewrite existsb_exists. split.
  - intros [y [Hy E]]. apply Nat.eqb_eq in E. subst y. exact Hy.
  - intros H. exists x. split; [exact H | apply Nat.eqb_refl].
Qed.
Lemma suffix_none : forall mk used c fuel count, addSuffix mk used c count fuel = None ->
  forall n, count <= n < count + fuel -> In (mk c n) used.
Proof.
  intros mk used c. induction fuel as [ | fuel IH]; intros count H n Hn; [lia | ]. cbn [addSuffix] in H.
  destruct (existsb (Nat.eqb (mk c count)) used) eqn:E; [ | discriminate H]. destruct (Nat.eq_dec n count) as [-> | Nn].
  - apply mem_spec. exact E.
  - apply (IH (S count) H). lia.
Qed.
Lemma suffix_some : forall mk used c fuel count x, addSuffix mk used c count fuel = Some x -> ~ In x used.
Proof.
  intros mk used c. induction fuel as [ | fuel IH]; intros count x H; [discriminate H | ]. cbn [addSuffix] in H.
  destruct (existsb (Nat.eqb (mk c count)) used) eqn:E; [exact (IH _ _ H) | ]. injection H as <-. intros X. apply mem_spec in X. congruence.
Qed.
Lemma suffix_total : forall (mk : const -> nat -> name) used c, (forall n n', mk c n = mk c n' -> n = n') ->
  exists x, addSuffix mk used c 0 (S (length used)) = Some x.
Proof.
  intros mk used c Inj. destruct (addSuffix mk used c 0 (S (length used))) as [x | ] eqn:E; [exists x; reflexivity | ]. exfalso.
  pose proof (suffix_none mk used c _ _ E) as H.
  assert (L : length (map (mk c) (seq 0 (S (length used)))) <= length used).
  { apply NoDup_incl_length.
    - apply FinFun.Injective_map_NoDup; [exact Inj | apply seq_NoDup].
    - intros x Hx. apply in_map_iff in Hx. destruct Hx as [n [<- Hn]]. apply in_seq in Hn. apply H. exact Hn. }
  rewrite map_length, seq_length in L. lia.
Qed.
Lemma names_spec : forall (mk : const -> nat -> name), (forall c n n', mk c n = mk c n' -> n = n') ->
  forall cs used, exists m, newNames mk used cs = Some m /\ map fst m = cs /\ NoDup (map snd m) /\ forall x, In x (map snd m) -> ~ In x used.
Proof.
  intros mk Inj. induction cs as [ | c cs IH]; intros used.
  - exists []. split; [reflexivity | ]. split; [reflexivity | ]. split; [constructor | intros x []].
  - cbn [newNames]. destruct (suffix_total mk used c (Inj c)) as [x E]. rewrite E. destruct (IH (x :: used)) as [m [E2 [A [B C]]]]. rewrite E2.
    exists ((c, x) :: m). split; [reflexivity | ]. split; [cbn; rewrite A; reflexivity | ]. split.
    + cbn. constructor; [ | exact B]. intros X. apply (C x X). left. reflexivity.
    + intros y [<- | Hy]; [exact (suffix_some _ _ _ _ _ _ E) | ]. intros X. apply (C y Hy). right. exact X.
Qed.

(** * A transformation *)
Definition consts (w : world) (p : proc) : list const := wOrder w (nodup constDec (collectProc (wExplicit w) (wPar w) p)).
Lemma consts_in : forall w p c, valid w -> In c (consts w p) <-> In c (collectProc (wExplicit w) (wPar w) p).
Proof.
  intros w p c [_ V]. unfold consts. rewrite <- (nodup_In constDec (collectProc _ _ p)). split; intros H.
  - exact (Permutation_in _ (V _) H).
  - exact (Permutation_in _ (Permutation_sym (V _)) H).
Qed.
Definition changed (w : world) (fixed : bool) (p : proc) (m : list (const * name)) : result :=
  Result (map (fun cx => (snd cx, constKind (wKind w) (fst cx))) m) (firstLabel fixed (pBody p))
         (map (replace (wExplicit w) (wPar w) m false) (pSpec p))
         (inits m ++ map (fun ls => (fst ls, replaceStmt (wExplicit w) (wPar w) m (snd ls))) (dropLabel fixed (pBody p))).
Lemma apply_cases : forall w fixed p, valid w ->
  ((consts w p = [] \/ pBody p = []) /\ apply w fixed p = Some (Result [] None (pSpec p) (pBody p)))
  \/ (exists m, apply w fixed p = Some (changed w fixed p m) /\ map fst m = consts w p /\ NoDup (map snd m)
        /\ forall x, In x (map snd m) -> ~ In x (wSymbols w)).
Proof.
  intros w fixed p [V1 V2]. unfold apply, transform. fold (consts w p). destruct (consts w p) as [ | c cs]; [left; split; [left; reflexivity | reflexivity] | ].
  destruct (pBody p) as [ | b bs] eqn:Eb; [left; split; [right; reflexivity | reflexivity] | ].
  right. destruct (names_spec (wMk w) V1 (c :: cs) (wSymbols w)) as [m [E [A [B C]]]]. exists m. rewrite E. unfold changed. rewrite Eb.
  split; [reflexivity | ]. exact (conj A (conj B C)).
Qed.
Lemma decls_names : forall w fixed p m, map fst (rDecls (changed w fixed p m)) = map snd m.
Proof. intros w fixed p m. cbn [changed rDecls]. rewrite map_map. reflexivity. Qed.
Lemma fresh_true : C99_fresh_claim.
Proof.
  intros w fixed p V. destruct (apply_cases w fixed p V) as [[_ E] | [m [E [A [B C]]]]].
  - eexists. split; [exact E | ]. split; [constructor | intros x k []].
  - eexists. split; [exact E | ]. split; [rewrite decls_names; exact B | ].
    intros x k H. apply C. rewrite <- (decls_names w fixed p m). apply in_map_iff. exists (x, k). split; [reflexivity | exact H].
Qed.

(** * Constants in subscripts *)
Lemma sub_collect : forall w e t, inSub w t e -> collect (wExplicit w) (wPar w) t e <> [].
Proof.
  intros w e t H. induction H as [k v | p Hp | t a b H IH | t a b H IH | t a i H IH]; cbn [collect].
  - discriminate.
  - rewrite Hp. discriminate.
  - intros E. apply app_eq_nil in E. destruct E as [E _]. contradiction.
  - intros E. apply app_eq_nil in E. destruct E as [_ E]. contradiction.
  - intros E. apply app_eq_nil in E. destruct E as [_ E]. contradiction.
Qed.
Lemma collect_sub : forall w e t, typedExpr w true e -> collect (wExplicit w) (wPar w) t e <> [] -> inSub w t e.
Proof.
  intros w. induction e as [k v | p | x | a IHa b IHb | a i IH]; intros t T H; cbn [collect] in H.
  - destruct t; [constructor | contradiction H; reflexivity].
  - destruct t; [ | contradiction H; reflexivity]. cbn [andb] in H. destruct (wPar w p) eqn:E; [constructor; exact E | contradiction H; reflexivity].
  - cbn in T. rewrite T, andb_false_r in H. contradiction H. reflexivity.
  - destruct T as [Ta Tb]. destruct (collect (wExplicit w) (wPar w) t a) as [ | c cs] eqn:E.
    + apply sub_right. apply IHb; [exact Tb | exact H].
    + apply sub_left. apply IHa; [exact Ta | rewrite E; discriminate].
  - destruct T as [Ta Ti]. rewrite (Ta eq_refl), andb_false_r in H. constructor. exact (IH _ Ti H).
Qed.
Lemma nosub_collect : forall w e t, typedExpr w true e -> ~ inSub w t e -> collect (wExplicit w) (wPar w) t e = [].
Proof.
  intros w e t T H. destruct (collect (wExplicit w) (wPar w) t e) as [ | c cs] eqn:E; [reflexivity | ]. contradiction H.
  apply collect_sub; [exact T | rewrite E; discriminate].
Qed.
Lemma replace_id : forall w m e t, typedExpr w true e -> ~ inSub w t e -> replace (wExplicit w) (wPar w) m t e = e.
Proof.
  intros w m. induction e as [k v | p | x | a IHa b IHb | a i IH]; intros t T H; cbn [replace].
  - destruct t; [contradiction H; constructor | reflexivity].
  - destruct t; [ | reflexivity]. cbn [andb]. destruct (wPar w p) eqn:E; [contradiction H; constructor; exact E | reflexivity].
  - cbn in T. rewrite T, andb_false_r. reflexivity.
  - destruct T as [Ta Tb]. rewrite IHa, IHb; try assumption; [reflexivity | | ]; intros X; apply H; [apply sub_right | apply sub_left]; exact X.
  - destruct T as [Ta Ti]. rewrite (Ta eq_refl), andb_false_r. rewrite IH; [reflexivity | exact Ti | ]. intros X. apply H. constructor. exact X.
Qed.
Lemma valid_true : C99_valid_claim true true true.
Proof.
  intros w fixed p r V [T1 _] Gs Gl H. specialize (Gs eq_refl). specialize (Gl eq_refl).
  destruct (apply_cases w fixed p V) as [[_ E] | [m [E _]]]; rewrite E in H; injection H as <-; [split; reflexivity | ].
  cbn [changed rLabel rSpec]. split.
  - unfold firstLabel. destruct (pBody p) as [ | [l s] b] eqn:Eb; [reflexivity | ]. destruct Gl as [-> | Gl]; [reflexivity | ].
    rewrite (Gl l s b eq_refl). destruct fixed; reflexivity.
  - rewrite <- (map_id (pSpec p)) at 2. apply map_ext_in. intros e He. apply replace_id; [exact (T1 e He) | exact (Gs e He)].
Qed.

Lemma replace_free : forall w m e t, ~ inSub w t (replace (wExplicit w) (wPar w) m t e) /\ (t = true -> ~ inSub w false (replace (wExplicit w) (wPar w) m t e)).
Proof.
  intros w m. induction e as [k v | p | x | a IHa b IHb | a i IH]; intros t; cbn [replace].
  - split; [ | intros ->]; try destruct t; intros X; inversion X.
  - split; [ | intros ->]; try destruct t; cbn [andb]; destruct (wPar w p) eqn:E; intros X; inversion X; congruence.
  - split; [ | intros ->]; try destruct t; cbn [andb]; destruct (wPar w x) eqn:E; intros X; inversion X.
  - destruct (IHa t) as [A1 A2], (IHb t) as [B1 B2]. split.
    + intros X. inversion X as [ | | ? ? ? Y | ? ? ? Y | ]; subst; contradiction.
    + intros Et X. inversion X as [ | | ? ? ? Y | ? ? ? Y | ]; subst; [exact (A2 eq_refl Y) | exact (B2 eq_refl Y)].
  - destruct (IH (wExplicit w a)) as [A1 A2].
    assert (K : forall t0, ~ inSub w t0 (Ref (if wExplicit w a && wPar w a then lookup m (CPar a) a else a) (replace (wExplicit w) (wPar w) m (wExplicit w a) i))).
    { intros t0 X. inversion X as [ | | | | ? ? ? Y]; subst. destruct (wExplicit w a) eqn:Ea; cbn [andb] in Y.
      - destruct (wExplicit w (if wPar w a then lookup m (CPar a) a else a)); [contradiction | exact (A2 eq_refl Y)].
      - rewrite Ea in Y. contradiction. }
    split; [apply K | intros _; apply K].
Qed.
Lemma drop_in : forall fixed b l s, In (l, s) (dropLabel fixed b) -> exists l', In (l', s) b.
Proof.
  intros fixed [ | [l0 s0] b] l s H; [destruct H | ]. cbn [dropLabel] in H. destruct fixed; [exists l; exact H | ].
  destruct H as [E | H]; [injection E as <- <-; exists l0; left; reflexivity | exists l; right; exact H].
Qed.
Lemma replaced_true : C99_replaced_claim.
Proof.
  intros w fixed p r V Nb H l s Hs X.
  destruct (apply_cases w fixed p V) as [[Q E] | [m [E [A [B C]]]]]; rewrite E in H; injection H as <-.
  - destruct Q as [Q | Q]; [ | contradiction]. cbn [rBody] in Hs.
    assert (K : collectStmt (wExplicit w) (wPar w) s <> []).
    { destruct s as [x e | a i e | e k]; cbn [subStmt] in X; cbn [collectStmt].
      - apply sub_collect. exact X.
      - intros E0. apply app_eq_nil in E0. destruct E0 as [E1 E2]. destruct X as [X | X]; [ | exact (sub_collect w e false X E2)].
        exact (sub_collect w (Ref a i) false (sub_ref w false a i X) E1).
      - apply sub_collect. exact X. }
    destruct (collectStmt (wExplicit w) (wPar w) s) as [ | c cs] eqn:Ec; [contradiction K; reflexivity | ].
    assert (In c (consts w p)); [ | rewrite Q in *; contradiction]. apply consts_in; [exact V | ]. unfold collectProc. apply in_or_app. right.
    apply in_flat_map. exists (l, s). split; [exact Hs | ]. cbn [snd]. rewrite Ec. left. reflexivity.
  - cbn [changed rBody] in Hs. apply in_app_or in Hs. destruct Hs as [Hs | Hs].
    + unfold inits in Hs. apply in_map_iff in Hs. destruct Hs as [[c x] [E1 _]]. cbn in E1. injection E1 as _ <-.
      cbn [subStmt] in X. destruct c; cbn in X; inversion X.
    + apply in_map_iff in Hs. destruct Hs as [[l0 s0] [E1 _]]. cbn [fst snd] in E1. injection E1 as _ <-.
      destruct s0 as [x e | a i e | e k]; cbn [replaceStmt subStmt] in X.
      * exact (proj1 (replace_free w m e false) X).
      * destruct X as [X | X]; [ | exact (proj1 (replace_free w m e false) X)].
        apply (proj1 (replace_free w m (Ref a i) false)). cbn [replace]. constructor. exact X.
      * exact (proj1 (replace_free w m e false) X).
Qed.
Lemma identity_true : C99_identity_claim true.
Proof.
  intros w fixed p V [T1 T2] Ns Nb. destruct (apply_cases w fixed p V) as [[_ E] | [m [E [A [B C]]]]]; [exact E | ].
  assert (K : collectProc (wExplicit w) (wPar w) p = []).
  { destruct (collectProc (wExplicit w) (wPar w) p) as [ | c cs] eqn:Ec; [reflexivity | ]. exfalso.
    assert (Hc : In c (collectProc (wExplicit w) (wPar w) p)) by (rewrite Ec; left; reflexivity). clear Ec.
    unfold collectProc in Hc. apply in_app_or in Hc. destruct Hc as [Hc | Hc]; apply in_flat_map in Hc.
    - destruct Hc as [e [He Hc]]. rewrite (nosub_collect w e false (T1 e He) (Ns e He)) in Hc. destruct Hc.
    - destruct Hc as [[l s] [Hs Hc]]. cbn [snd] in Hc. specialize (T2 l s Hs). specialize (Nb l s Hs).
      destruct s as [x e | a i e | e k]; cbn [typedStmt subStmt collectStmt] in *.
      + rewrite (nosub_collect w e false (proj2 T2) Nb) in Hc. destruct Hc.
      + destruct T2 as [Ta [Ti Te]]. apply in_app_or in Hc. destruct Hc as [Hc | Hc].
        * rewrite (nosub_collect w (Ref a i) false) in Hc; [destruct Hc | exact (conj (fun _ => Ta) Ti) | ].
          intros X. apply Nb. left. inversion X; subst. assumption.
        * rewrite (nosub_collect w e false Te) in Hc; [destruct Hc | ]. intros X. apply Nb. right. exact X.
      + rewrite (nosub_collect w e false T2 Nb) in Hc. destruct Hc. }
  unfold apply, transform. rewrite K. cbn [nodup].
  destruct (wOrder w []) as [ | c cs] eqn:Eo; [reflexivity | ]. exfalso.
  pose proof (Permutation_in c (proj2 V []) ltac:(rewrite Eo; left; reflexivity)) as X. destruct X.
Qed.

(** * Executions *)
Lemma run_add : forall v a n b c, run v (a + n) b c = run v n b (run v a b c).
Proof. intros v. induction a as [ | a IH]; intros n b c; [reflexivity | ]. cbn [Nat.add run]. apply IH. Qed.
Definition cval (w : world) (c : const) : nat := match c with CLit _ v => v | CPar p => wValue w p end.
Lemma const_eval : forall w c s, eval (wValue w) s (constExpr c) = cval w c.
Proof. intros w [k v | p] s; reflexivity. Qed.

(** Stores agree on original names, new variables hold constants. *)
Definition related (w : world) (m : list (const * name)) (s s' : store) : Prop :=
  (forall y i, ~ In y (map snd m) -> s' y i = s y i) /\ (forall c x, In (c, x) m -> s' x 0 = cval w c).

Lemma inits_run : forall w m pre post s, NoDup (map snd m) ->
  exists s', run (wValue w) (length m) (pre ++ inits m ++ post) (length pre, s) = (length pre + length m, s') /\ related w m s s'.
Proof.
  intros w. induction m as [ | [c x] m IH]; intros pre post s N.
  - exists s. cbn [length run]. rewrite Nat.add_0_r. split; [reflexivity | ]. split; [intros; reflexivity | intros c x []].
  - cbn [map snd] in N. inversion N as [ | ? ? Nx N']; subst. cbn [length run inits map app]. fold (inits m).
    unfold step at 1. cbn [fst snd]. rewrite nth_error_app2 by lia. rewrite Nat.sub_diag. cbn [nth_error]. rewrite const_eval.
    destruct (IH (pre ++ [(None, Assign x (constExpr c))]) post (update s x 0 (cval w c)) N') as [s' [R [A B]]].
    rewrite app_length in R. cbn [length] in R. rewrite <- app_assoc in R. cbn [app] in R.
    rewrite Nat.add_1_r in R. exists s'. split; [rewrite R; f_equal; lia | ]. split.
    + intros y i Hy. rewrite A.
      * unfold update. destruct (y =? x) eqn:E; [ | reflexivity]. apply Nat.eqb_eq in E. subst y. contradiction Hy. left. reflexivity.
      * intros X. apply Hy. right. exact X.
    + intros c0 x0 [E | H]; [ | exact (B c0 x0 H)]. injection E as <- <-. rewrite (A x 0 Nx). unfold update. rewrite !Nat.eqb_refl. reflexivity.
Qed.
Lemma lookup_in : forall m c d, In c (map fst m) -> In (c, lookup m c d) m.
Proof.
  induction m as [ | [c' x] m IH]; intros c d H; [destruct H | ]. cbn [lookup]. destruct (constDec c c') as [-> | N]; [left; reflexivity | ].
  right. apply IH. destruct H as [H | H]; [cbn in H; congruence | exact H].
Qed.
Lemma eval_replace : forall w m s s' e t, related w m s s' -> typedExpr w true e ->
  (forall y, In y (names e) -> ~ In y (map snd m)) ->
  (forall c, In c (collect (wExplicit w) (wPar w) t e) -> In c (map fst m)) ->
  eval (wValue w) s' (replace (wExplicit w) (wPar w) m t e) = eval (wValue w) s e.
Proof.
  intros w m s s' e t [R1 R2]. revert t. induction e as [k v | p | x | a IHa b IHb | a i IH]; intros t T Hn Hc; cbn [replace].
  - destruct t; [ | reflexivity]. cbn [eval]. apply (R2 (CLit k v)). apply lookup_in. apply Hc. left. reflexivity.
  - destruct t; [ | reflexivity]. cbn [andb]. cbn [collect andb] in Hc. destruct (wPar w p); [ | reflexivity]. cbn [eval].
    apply (R2 (CPar p)). apply lookup_in. apply Hc. left. reflexivity.
  - cbn in T. rewrite T, andb_false_r. cbn [eval]. apply R1. apply Hn. left. reflexivity.
  - destruct T as [Ta Tb]. cbn [eval]. cbn [names collect] in *. rewrite IHa, IHb; [reflexivity | | | | | | ]; try assumption.
    + intros y Hy. apply Hn. apply in_or_app. right. exact Hy.
    + intros c Hy. apply Hc. apply in_or_app. right. exact Hy.
    + intros y Hy. apply Hn. apply in_or_app. left. exact Hy.
    + intros c Hy. apply Hc. apply in_or_app. left. exact Hy.
  - destruct T as [Ta Ti]. rewrite (Ta eq_refl), andb_false_r. cbn [eval]. rewrite (IH (wExplicit w a)).
    + apply R1. apply Hn. left. reflexivity.
    + exact Ti.
    + intros y Hy. apply Hn. right. exact Hy.
    + intros c Hy. apply Hc. cbn [collect]. apply in_or_app. right. exact Hy.
Qed.
Lemma target_inits : forall m l b, target l (inits m ++ b) = length m + target l b.
Proof. induction m as [ | cx m IH]; intros l b; [reflexivity | ]. cbn [inits map app target length Nat.add]. fold (inits m). rewrite IH. reflexivity. Qed.
Lemma target_map : forall (f : stmt -> stmt) l b, target l (map (fun ls => (fst ls, f (snd ls))) b) = target l b.
Proof.
  intros f l. induction b as [ | [[l' | ] s] b IH]; [reflexivity | | ]; cbn [map target fst snd]; rewrite IH; reflexivity.
Qed.

Section Sim.
  Variable w : world.
  Variable m : list (const * name).
  Variable b : list (option nat * stmt).
  Hypothesis T : forall l s, In (l, s) b -> typedStmt w true s.
  Hypothesis Hn : forall l s y, In (l, s) b -> In y (namesStmt s) -> ~ In y (map snd m).
  Hypothesis Hc : forall l s c, In (l, s) b -> In c (collectStmt (wExplicit w) (wPar w) s) -> In c (map fst m).
  Let b' := inits m ++ map (fun ls => (fst ls, replaceStmt (wExplicit w) (wPar w) m (snd ls))) b.
  Definition simulates (c c' : nat * store) : Prop := fst c' = length m + fst c /\ related w m (snd c) (snd c').
  Lemma update_related : forall s s' x i v, related w m s s' -> ~ In x (map snd m) -> related w m (update s x i v) (update s' x i v).
  Proof.
    intros s s' x i v [R1 R2] Nx. split.
    - intros y j Hy. unfold update. rewrite (R1 y j Hy). reflexivity.
    - intros c y Hy. unfold update. destruct (y =? x) eqn:E; [ | exact (R2 c y Hy)]. apply Nat.eqb_eq in E. subst y. contradiction Nx.
      apply in_map_iff. exists (c, x). split; [reflexivity | exact Hy].
  Qed.
  Lemma step_sim : forall c c', simulates c c' -> simulates (step (wValue w) b c) (step (wValue w) b' c').
  Proof.
    intros [pc s] [pc' s'] [P R]. cbn [fst snd] in P, R. subst pc'. unfold step. cbn [fst snd].
    assert (E : nth_error b' (length m + pc) = option_map (fun ls => (fst ls, replaceStmt (wExplicit w) (wPar w) m (snd ls))) (nth_error b pc)).
    { unfold b'. assert (Lm : length (inits m) = length m) by apply map_length. rewrite nth_error_app2 by lia. rewrite Lm.
      replace (length m + pc - length m) with pc by lia. apply nth_error_map. }
    rewrite E. destruct (nth_error b pc) as [[l st] | ] eqn:En; cbn [option_map fst snd]; [ | split; [reflexivity | exact R]].
    apply nth_error_In in En. pose proof (T l st En) as Tt. pose proof (fun y => Hn l st y En) as Nn. pose proof (fun c => Hc l st c En) as Cc.
    destruct st as [x e | a i e | e k]; cbn [replaceStmt typedStmt namesStmt collectStmt] in *.
    - destruct Tt as [Tx Te]. rewrite (eval_replace w m s s' e false R Te); [ | intros y Hy; apply Nn; right; exact Hy | exact Cc].
      split; [cbn [fst]; lia | ]. cbn [snd]. apply update_related; [exact R | ]. apply Nn. left. reflexivity.
    - destruct Tt as [Ta [Ti Te]]. rewrite Ta, andb_false_r. rewrite (eval_replace w m s s' e false R Te), (eval_replace w m s s' i (wExplicit w a) R Ti).
      + split; [cbn [fst]; lia | ]. cbn [snd]. apply update_related; [exact R | ]. apply Nn. left. reflexivity.
      + intros y Hy. apply Nn. right. apply in_or_app. left. exact Hy.
      + intros c Hy. apply Cc. apply in_or_app. left. cbn [collect]. apply in_or_app. right. exact Hy.
      + intros y Hy. apply Nn. right. apply in_or_app. right. exact Hy.
      + intros c Hy. apply Cc. apply in_or_app. right. exact Hy.
    - rewrite (eval_replace w m s s' e false R Tt Nn Cc). split; [ | exact R]. cbn [fst].
      destruct (eval (wValue w) s e =? 0); [lia | ]. unfold b'. rewrite target_inits, target_map. reflexivity.
  Qed.
  Lemma run_sim : forall n c c', simulates c c' -> simulates (run (wValue w) n b c) (run (wValue w) n b' c').
  Proof. induction n as [ | n IH]; intros c c' H; [exact H | ]. cbn [run]. apply IH. apply step_sim. exact H. Qed.
End Sim.

Lemma same_true : C99_same_claim true true true.
Proof.
  intros w fixed p r V [T1 T2] Gb Gl H n s. specialize (Gb eq_refl). specialize (Gl eq_refl). cbv zeta.
  destruct (apply_cases w fixed p V) as [[_ E] | [m [E [A [B C]]]]]; rewrite E in H; injection H as <-.
  - cbn [rDecls rBody length Nat.add]. split; [reflexivity | intros; reflexivity].
  - cbn [changed rDecls rBody]. rewrite map_length.
    assert (D : dropLabel fixed (pBody p) = pBody p).
    { destruct (pBody p) as [ | [l st] b] eqn:Eb; [reflexivity | ]. cbn [dropLabel]. destruct Gl as [-> | Gl]; [reflexivity | ].
      rewrite (Gl l st b eq_refl). destruct fixed; reflexivity. }
    rewrite D. rewrite run_add.
    destruct (inits_run w m [] (map (fun ls => (fst ls, replaceStmt (wExplicit w) (wPar w) m (snd ls))) (pBody p)) s B) as [s' [R Rel]].
    cbn [app length Nat.add] in R. rewrite R.
    destruct (run_sim w m (pBody p)) with (n := n) (c := (0, s)) (c' := (length m, s')) as [P [Q _]].
    + exact T2.
    + intros l st y Hs Hy X. apply (C y X). apply Gb. unfold namesProc. apply in_or_app. right. apply in_flat_map. exists (l, st). split; assumption.
    + intros l st c Hs Hy. rewrite A. apply consts_in; [exact V | ]. unfold collectProc. apply in_or_app. right. apply in_flat_map. exists (l, st). split; assumption.
    + split; [cbn [fst]; lia | exact Rel].
    + split; [exact P | ]. intros x i Hx. apply Q. intros X. exact (C x X Hx).
Qed.

(** * Declarations *)
Lemma collect_names : forall w e t p, In (CPar p) (collect (wExplicit w) (wPar w) t e) -> In p (names e).
Proof.
  intros w. induction e as [k v | q | x | a IHa b IHb | a i IH]; intros t p H; cbn [collect names] in *.
  - destruct t; [destruct H as [H | []]; discriminate H | destruct H].
  - destruct (t && wPar w q); [destruct H as [H | []]; injection H as ->; left; reflexivity | destruct H].
  - destruct (t && wPar w x); [destruct H as [H | []]; injection H as ->; left; reflexivity | destruct H].
  - apply in_or_app. apply in_app_or in H. destruct H as [H | H]; [left; exact (IHa _ _ H) | right; exact (IHb _ _ H)].
  - apply in_app_or in H. destruct H as [H | H]; [ | right; exact (IH _ _ H)].
    destruct (wExplicit w a && wPar w a); [destruct H as [H | []]; injection H as ->; left; reflexivity | destruct H].
Qed.
Lemma collect_proc_names : forall w p q, In (CPar q) (collectProc (wExplicit w) (wPar w) p) -> In q (namesProc p).
Proof.
  intros w p q H. unfold collectProc in H. unfold namesProc. apply in_or_app. apply in_app_or in H. destruct H as [H | H]; apply in_flat_map in H.
  - left. destruct H as [e [He H]]. apply in_flat_map. exists e. split; [exact He | exact (collect_names w e false q H)].
  - right. destruct H as [[l s] [Hs H]]. apply in_flat_map. exists (l, s). split; [exact Hs | ]. cbn [snd] in *.
    destruct s as [x e | a i e | e k]; cbn [collectStmt namesStmt] in *.
    + right. exact (collect_names w e false q H).
    + apply in_app_or in H. destruct H as [H | H].
      * pose proof (collect_names w (Ref a i) false q H) as X. destruct X as [X | X]; [left; exact X | right; apply in_or_app; left; exact X].
      * right. apply in_or_app. right. exact (collect_names w e false q H).
    + exact (collect_names w e false q H).
Qed.
Lemma lookup_name : forall m c d, In c (map fst m) -> In (lookup m c d) (map snd m).
Proof. intros m c d H. apply in_map_iff. exists (c, lookup m c d). split; [reflexivity | apply lookup_in; exact H]. Qed.
Lemma replace_names : forall w m e t y, (forall c, In c (collect (wExplicit w) (wPar w) t e) -> In c (map fst m)) ->
  In y (names (replace (wExplicit w) (wPar w) m t e)) -> In y (names e) \/ In y (map snd m).
Proof.
  intros w m. induction e as [k v | q | x | a IHa b IHb | a i IH]; intros t y Hc H; cbn [collect replace names] in *.
  - destruct t; [ | destruct H]. destruct H as [<- | []]. right. apply lookup_name. apply Hc. left. reflexivity.
  - destruct (t && wPar w q); [ | left; exact H]. destruct H as [<- | []]. right. apply lookup_name. apply Hc. left. reflexivity.
  - destruct (t && wPar w x); [ | left; exact H]. destruct H as [<- | []]. right. apply lookup_name. apply Hc. left. reflexivity.
  - cbn [names] in H. apply in_app_or in H. destruct H as [H | H].
    + destruct (IHa t y) as [X | X]; [intros c Hy; apply Hc; apply in_or_app; left; exact Hy | exact H | left; apply in_or_app; left; exact X | right; exact X].
    + destruct (IHb t y) as [X | X]; [intros c Hy; apply Hc; apply in_or_app; right; exact Hy | exact H | left; apply in_or_app; right; exact X | right; exact X].
  - cbn [names] in H. destruct H as [H | H].
    + destruct (wExplicit w a && wPar w a); [ | left; left; exact H]. right. rewrite <- H. apply lookup_name. apply Hc. left. reflexivity.
    + destruct (IH (wExplicit w a) y) as [X | X]; [intros c Hy; apply Hc; apply in_or_app; right; exact Hy | exact H | left; right; exact X | right; exact X].
Qed.
Lemma declared_true : C99_declared_claim.
Proof.
  intros w fixed p r V H.
  destruct (apply_cases w fixed p V) as [[_ E] | [m [E [A [B C]]]]]; rewrite E in H; injection H as <-.
  - cbn [rDecls rBody]. split; [intros x k [] | ]. intros l s y Hs Hy. left. unfold namesProc. apply in_or_app. right. apply in_flat_map.
    exists (l, s). split; assumption.
  - split.
    + intros x k Hx. cbn [changed rDecls rBody] in *. apply in_map_iff in Hx. destruct Hx as [[c x0] [Ex Hc]]. cbn in Ex. injection Ex as <- <-.
      exists (constExpr c). split; [ | destruct c; reflexivity]. apply in_or_app. left. unfold inits. apply in_map_iff. exists (c, x0).
      split; [reflexivity | exact Hc].
    + rewrite decls_names. intros l s y Hs Hy. cbn [changed rBody] in Hs.
      assert (Cc : forall c, In c (collectProc (wExplicit w) (wPar w) p) -> In c (map fst m)) by (intros c Hc; rewrite A; apply consts_in; assumption).
      apply in_app_or in Hs. destruct Hs as [Hs | Hs].
      * unfold inits in Hs. apply in_map_iff in Hs. destruct Hs as [[c x] [Ex Hc]]. cbn in Ex. injection Ex as _ <-. cbn [namesStmt] in Hy.
        destruct Hy as [<- | Hy]; [right; apply in_map_iff; exists (c, x); split; [reflexivity | exact Hc] | ].
        left. destruct c as [k v | q]; cbn in Hy; [destruct Hy | ]. destruct Hy as [<- | []]. apply (collect_proc_names w). apply consts_in; [exact V | ].
        rewrite <- A. apply in_map_iff. exists (CPar q, x). split; [reflexivity | exact Hc].
      * apply in_map_iff in Hs. destruct Hs as [[l0 s0] [Ex Hs]]. cbn [fst snd] in Ex. injection Ex as _ <-.
        destruct (drop_in fixed (pBody p) l0 s0 Hs) as [l1 H1].
        assert (Cs : forall c, In c (collectStmt (wExplicit w) (wPar w) s0) -> In c (map fst m)).
        { intros c Hc. apply Cc. unfold collectProc. apply in_or_app. right. apply in_flat_map. exists (l1, s0). split; assumption. }
        assert (K : In y (namesStmt s0) \/ In y (map snd m)).
        { destruct s0 as [x e | a i e | e k]; cbn [replaceStmt namesStmt collectStmt] in *.
          - destruct Hy as [<- | Hy]; [left; left; reflexivity | ]. destruct (replace_names w m e false y Cs Hy) as [X | X]; [left; right; exact X | right; exact X].
          - assert (Cr : forall c, In c (collect (wExplicit w) (wPar w) false (Ref a i)) -> In c (map fst m)) by (intros c Hc; apply Cs; apply in_or_app; left; exact Hc).
            assert (Ce : forall c, In c (collect (wExplicit w) (wPar w) false e) -> In c (map fst m)) by (intros c Hc; apply Cs; apply in_or_app; right; exact Hc).
            change (In y ((if wExplicit w a && wPar w a then lookup m (CPar a) a else a) :: names (replace (wExplicit w) (wPar w) m (wExplicit w a) i) ++ names (replace (wExplicit w) (wPar w) m false e))) in Hy.
            rewrite app_comm_cons in Hy. apply in_app_or in Hy. destruct Hy as [Hy | Hy].
            + destruct (replace_names w m (Ref a i) false y Cr Hy) as [X | X]; [ | right; exact X]. left. rewrite app_comm_cons. apply in_or_app. left. exact X.
            + destruct (replace_names w m e false y Ce Hy) as [X | X]; [left; right; apply in_or_app; right; exact X | right; exact X].
          - exact (replace_names w m e false y Cs Hy). }
        destruct K as [K | K]; [left | right; exact K]. unfold namesProc. apply in_or_app. right. apply in_flat_map. exists (l1, s0). split; assumption.
Qed.

(** * Refutations *)
Definition plain (par : name -> bool) (sym : list name) : world :=
  World (fun _ => true) par (fun _ => 4) (fun _ => 3) (fun _ n => 100 + n) sym (fun l => l).
Lemma plain_valid : forall par sym, valid (plain par sym).
Proof. intros par sym. split; [intros c n n' E; cbn in E; lia | intros l; apply Permutation_refl]. Qed.
Definition noPar (x : name) : bool := false.
(** DATA A(1) *)
Definition exSpec : proc := Proc [Ref 1 (Lit 0 1)] [(None, Assign 2 (Lit 0 0))].
Lemma valid_spec : ~ C99_valid_claim false true true.
Proof.
  intros C. destruct (C (plain noPar [1; 2]) false exSpec (Result [(100, 0)] None [Ref 1 (Var 100)] [(None, Assign 100 (Lit 0 1)); (None, Assign 2 (Lit 0 0))])) as [_ X].
  - apply plain_valid.
  - split; [intros e [<- | []]; cbn; tauto | intros l s [E | []]; injection E as <- <-; cbn; tauto].
  - discriminate.
  - intros _. right. intros l s b E. injection E as <- _ _. reflexivity.
  - reflexivity.
  - discriminate X.
Qed.
(** 10 x = x + A(1); if (y) goto 10 *)
Definition exLabel : proc := Proc [] [(Some 10, Assign 2 (Sum (Var 2) (Ref 1 (Lit 0 1)))); (None, Jump (Var 3) 10)].
Definition exLabel' : result := Result [(100, 0)] (Some 10) []
  [(None, Assign 100 (Lit 0 1)); (None, Assign 2 (Sum (Var 2) (Ref 1 (Var 100)))); (None, Jump (Var 3) 10)].
Lemma exLabel_typed : forall ga sym, typed (plain noPar sym) ga exLabel.
Proof. intros ga sym. split; [intros e [] | intros l s [E | [E | []]]; injection E as <- <-; cbn; tauto]. Qed.
Lemma valid_label : ~ C99_valid_claim true false true.
Proof.
  intros C. destruct (C (plain noPar [1; 2; 3]) false exLabel exLabel') as [X _].
  - apply plain_valid.
  - apply exLabel_typed.
  - intros _ e [].
  - discriminate.
  - reflexivity.
  - discriminate X.
Qed.
(** P(k) in a specification part, P is an array which is a constant. *)
Definition isThree (x : name) : bool := x =? 3.
Definition exArray : proc := Proc [Ref 3 (Var 4)] [(None, Assign 2 (Ref 3 (Var 4)))].
Definition exArray' : result := Result [(100, 4)] None [Ref 100 (Var 4)] [(None, Assign 100 (Par 3)); (None, Assign 2 (Ref 100 (Var 4)))].
Lemma exArray_typed : forall sym, typed (plain isThree sym) false exArray.
Proof.
  intros sym. split; [intros e [<- | []] | intros l s [E | []]; injection E as <- <-]; cbn; repeat split; discriminate.
Qed.
Lemma exArray_sub : forall sym t, ~ inSub (plain isThree sym) t (Ref 3 (Var 4)).
Proof. intros sym t X. inversion X as [ | | | | ? ? ? Y]; subst. inversion Y. Qed.
Lemma valid_array : ~ C99_valid_claim true true false.
Proof.
  intros C. destruct (C (plain isThree [2; 3; 4]) false exArray exArray') as [_ X].
  - apply plain_valid.
  - apply exArray_typed.
  - intros _ e [<- | []]. apply exArray_sub.
  - intros _. right. intros l s b E. injection E as <- _ _. reflexivity.
  - reflexivity.
  - discriminate X.
Qed.
Lemma identity_array : ~ C99_identity_claim false.
Proof.
  intros C. assert (X := C (plain isThree [2; 3; 4]) false exArray (plain_valid _ _) (exArray_typed _)).
  assert (Y : Some exArray' = Some (Result [] None (pSpec exArray) (pBody exArray))); [ | discriminate Y]. apply X.
  - intros e [<- | []]. apply exArray_sub.
  - intros l s [E | []]. injection E as <- <-. cbn [subStmt]. apply exArray_sub.
Qed.
(** BLOCK; INTEGER i1_0; i1_0 = 5; x = A(1); END BLOCK *)
Definition exBlock : proc := Proc [] [(None, Assign 100 (Lit 0 5)); (None, Assign 2 (Ref 1 (Lit 0 1)))].
Lemma same_block : ~ C99_same_claim false true true.
Proof.
  intros C. destruct (C (plain noPar [1; 2]) false exBlock
    (Result [(100, 0)] None [] [(None, Assign 100 (Lit 0 1)); (None, Assign 100 (Lit 0 5)); (None, Assign 2 (Ref 1 (Var 100)))])) with (n := 2) (s := fun x i : nat => i) as [_ X].
  - apply plain_valid.
  - split; [intros e [] | intros l s [E | [E | []]]; injection E as <- <-; cbn; tauto].
  - discriminate.
  - intros _. right. intros l s b E. injection E as <- _ _. reflexivity.
  - reflexivity.
  - specialize (X 2 0 ltac:(cbn; tauto)). discriminate X.
Qed.
Lemma same_label : ~ C99_same_claim true false true.
Proof.
  intros C. destruct (C (plain noPar [1; 2; 3]) false exLabel exLabel') with (n := 2) (s := fun x i : nat => 1) as [X _].
  - apply plain_valid.
  - apply exLabel_typed.
  - intros _ x H. cbn in H. cbn. tauto.
  - discriminate.
  - reflexivity.
  - discriminate X.
Qed.
Lemma same_array : ~ C99_same_claim true true false.
Proof.
  intros C. destruct (C (plain isThree [2; 3; 4]) false exArray exArray') with (n := 1) (s := fun x i : nat => if x =? 4 then 7 else x) as [_ X].
  - apply plain_valid.
  - apply exArray_typed.
  - intros _ x H. cbn in H. cbn. tauto.
  - intros _. right. intros l s b E. injection E as <- _ _. reflexivity.
  - reflexivity.
  - specialize (X 2 0 ltac:(cbn; tauto)). discriminate X.
Qed.
