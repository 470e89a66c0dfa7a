(** Proofs of C102. *)
From Coq Require Import List Bool Arith String Lia.
From Verif Require Import ClauseModel DirectiveModel DirectiveSpec.
Import ListNotations.
Local Open Scope string_scope.

Lemma findName_found : forall name t i j, findName name i t = Found j -> exists k, j = i + k /\ nth_error t k = Some name.
Proof.
  induction t as [|n t IH]; cbn; intros i j H; [discriminate|]. destruct (String.eqb_spec name n) as [->|N].
  - inversion H; subst. exists 0. split; [lia|reflexivity].
  - destruct (IH _ _ H) as (k & E & K). exists (S k). split; [lia|exact K].
Qed.
Lemma findName_none : forall name t i, (forall k, nth_error t k <> Some name) -> findName name i t = NotFound.
Proof.
  induction t as [|n t IH]; cbn; intros i H; [reflexivity|]. destruct (String.eqb_spec name n) as [->|N].
  - exfalso. apply (H 0). reflexivity.
  - apply IH. intros k. apply (H (S k)).
Qed.
Lemma findName_total : forall name t i, (exists j, findName name i t = Found j) \/ findName name i t = NotFound.
Proof.
  induction t as [|n t IH]; cbn; intros i; [right; reflexivity|]. destruct (String.eqb name n); [left; eexists; reflexivity|apply IH].
Qed.
Lemma findName_notfound : forall name t i k, findName name i t = NotFound -> nth_error t k <> Some name.
Proof.
  induction t as [|n t IH]; cbn; intros i k H; [destruct k; discriminate|].
  destruct (String.eqb_spec name n) as [->|N]; [discriminate|]. destruct k; cbn; [congruence|]. apply (IH _ _ H).
Qed.

Lemma child_found : forall name p t i j, findChild name p i (map (fun x => (fst x, Some (snd x))) t) = Found j ->
  exists k, j = i + k /\ nth_error t k = Some (name, p).
Proof.
  induction t as [|[n q] t IH]; cbn; intros i j H; [discriminate|]. destruct (String.eqb_spec name n) as [->|N].
  - destruct (Nat.eqb_spec q p) as [->|N].
    + inversion H; subst. exists 0. split; [lia|reflexivity].
    + destruct (IH _ _ H) as (k & E & K). exists (S k). split; [lia|exact K].
  - destruct (IH _ _ H) as (k & E & K). exists (S k). split; [lia|exact K].
Qed.
Lemma child_total : forall name p t i, let r := findChild name p i (map (fun x => (fst x, Some (snd x))) t) in
  (exists j, r = Found j) \/ (r = NotFound /\ forall k, nth_error t k <> Some (name, p)).
Proof.
  induction t as [|[n q] t IH]; cbn; intros i.
  - right. split; [reflexivity|]. intros [|k]; discriminate.
  - destruct (String.eqb_spec name n) as [->|N].
    + destruct (Nat.eqb_spec q p) as [->|N]; [left; eexists; reflexivity|]. destruct (IH (S i)) as [H|[H K]]; [left; exact H|right].
      split; [exact H|]. intros [|k]; cbn; [congruence|apply K].
    + destruct (IH (S i)) as [H|[H K]]; [left; exact H|right]. split; [exact H|]. intros [|k]; cbn; [congruence|apply K].
Qed.

Lemma namespace_ok : C102_namespace_claim true.
Proof.
  intros ns name U NE G. specialize (G eq_refl).
  assert (E : getNamespace ns name = findName name 1 ns).
  { unfold getNamespace. destruct (String.eqb_spec name ""); [contradiction|]. cbn [findName].
    destruct (String.eqb_spec name "not_namespace"); [contradiction|reflexivity]. }
  rewrite E. split.
  - intros i. split.
    + intros H. destruct (findName_found _ _ _ _ H) as (k & -> & K). exists k. split; [reflexivity|exact K].
    + intros H. destruct (findName_total name ns 1) as [[j J]|J].
      * destruct (findName_found _ _ _ _ J) as (k & -> & K). rewrite J. f_equal. symmetry.
        apply (U _ _ name); [exact H|]. exists k. split; [reflexivity|exact K].
      * destruct H as (k & -> & K). exfalso. apply (findName_notfound _ _ _ k J K).
  - intros H. apply findName_none. intros k K. apply (H (S k)). exists k. split; [reflexivity|exact K].
Qed.
Lemma dir_map : forall ds, map (fun d => (dname d, Some (dparent d))) ds =
  map (fun x => (fst x, Some (snd x))) (map (fun d => (dname d, dparent d)) ds).
Proof. intros. rewrite map_map. reflexivity. Qed.
Lemma cl_map : forall cs, map (fun c => (cname c, Some (cparent c))) cs =
  map (fun x => (fst x, Some (snd x))) (map (fun c => (cname c, cparent c)) cs).
Proof. intros. rewrite map_map. reflexivity. Qed.
Lemma nth_map : forall A B (f : A -> B) l k y, nth_error (map f l) k = Some y -> exists x, nth_error l k = Some x /\ f x = y.
Proof.
  induction l as [|a l IH]; intros [|k] y H; cbn in *; try discriminate.
  - inversion H. exists a. split; reflexivity.
  - apply IH. exact H.
Qed.

Lemma directive_ok : C102_directive_claim true.
Proof.
  intros ds p name U NE G. specialize (G eq_refl).
  assert (E : getDirective ds p name = findChild name p 1 (map (fun x => (fst x, Some (snd x))) (map (fun d => (dname d, dparent d)) ds))).
  { unfold getDirective. destruct (String.eqb_spec name ""); [contradiction|]. cbn [findChild].
    destruct (String.eqb_spec name "not_directive"); [contradiction|]. rewrite dir_map. reflexivity. }
  rewrite E. clear E.
  assert (F : forall i, findChild name p 1 (map (fun x => (fst x, Some (snd x))) (map (fun d => (dname d, dparent d)) ds)) = Found i -> isDirective ds i p name).
  { intros i H. destruct (child_found _ _ _ _ _ H) as (k & -> & K). destruct (nth_map _ _ _ _ _ _ K) as (d & Kd & Ed).
    exists k, d. inversion Ed; subst. repeat split. exact Kd. }
  assert (T := child_total name p (map (fun d => (dname d, dparent d)) ds) 1). cbn zeta in T.
  assert (N : forall i, isDirective ds i p name -> exists k, nth_error (map (fun d => (dname d, dparent d)) ds) k = Some (name, p)).
  { intros i (k & d & _ & K & <- & <-). exists k. apply (map_nth_error (fun d => (dname d, dparent d)) _ _ K). }
  split.
  - intros i. split; [apply F|]. intros H. destruct T as [[j J]|[J K]].
    + rewrite J. f_equal. apply (U _ _ p name); [apply F; exact J|exact H].
    + destruct (N _ H) as (k & Hk). exfalso. apply (K k Hk).
  - intros H. destruct T as [[j J]|[J K]]; [|exact J]. exfalso. apply (H j). apply F. exact J.
Qed.
Lemma clause_ok : C102_clause_claim true.
Proof.
  intros cs p name U G. specialize (G eq_refl).
  assert (E : getClause cs p name = findChild name p 1 (map (fun x => (fst x, Some (snd x))) (map (fun d => (cname d, cparent d)) cs))).
  { unfold getClause. cbn [findChild]. destruct (String.eqb_spec name "not_clause"); [contradiction|]. rewrite cl_map. reflexivity. }
  rewrite E. clear E.
  assert (F : forall i, findChild name p 1 (map (fun x => (fst x, Some (snd x))) (map (fun d => (cname d, cparent d)) cs)) = Found i -> isClause cs i p name).
  { intros i H. destruct (child_found _ _ _ _ _ H) as (k & -> & K). destruct (nth_map _ _ _ _ _ _ K) as (d & Kd & Ed).
    exists k, d. inversion Ed; subst. repeat split. exact Kd. }
  assert (T := child_total name p (map (fun d => (cname d, cparent d)) cs) 1). cbn zeta in T.
  assert (N : forall i, isClause cs i p name -> exists k, nth_error (map (fun d => (cname d, cparent d)) cs) k = Some (name, p)).
  { intros i (k & d & _ & K & <- & <-). exists k. apply (map_nth_error (fun d => (cname d, cparent d)) _ _ K). }
  split.
  - intros i. split; [apply F|]. intros H. destruct T as [[j J]|[J K]].
    + rewrite J. f_equal. apply (U _ _ p name); [apply F; exact J|exact H].
    + destruct (N _ H) as (k & Hk). exfalso. apply (K k Hk).
  - intros H. destruct T as [[j J]|[J K]]; [|exact J]. exfalso. apply (H j). apply F. exact J.
Qed.

(** Prototypes *)
Fixpoint dsize (d : desc) : nat := match d with D _ l => S (fold_right (fun c n => dsize c + n) 0 l) end.
Lemma genExpr_eq : forall k l, genExpr (D k l) =
  if isSingle k then ([k], 1) else let (w, n) := genExprs l in (k :: (w ++ [EAnchor])%list, 1 + n + 1).
Proof.
  intros k l. cbn [genExpr]. destruct (isSingle k); [reflexivity|].
  match goal with |- (let (w, n) := ?f l in _) = _ => assert (E : forall l, f l = genExprs l) end.
  { induction l0 as [|c l0 IH]; cbn; [reflexivity|]. rewrite IH. reflexivity. }
  rewrite E. reflexivity.
Qed.
Lemma gen_shape : forall n,
  (forall d, dsize d < n -> shape d (fst (genExpr d)) /\ snd (genExpr d) = List.length (fst (genExpr d))).
Proof.
  induction n as [|n IH]; intros [k l] S; [lia|]. rewrite genExpr_eq. destruct (isSingle k) eqn:Ek.
  - cbn. split; [constructor; exact Ek|reflexivity].
  - assert (L : shapes l (fst (genExprs l)) /\ snd (genExprs l) = List.length (fst (genExprs l))).
    { cbn [dsize] in S. clear Ek. induction l as [|c l IHl]; cbn [genExprs]; [split; [constructor|reflexivity]|].
      cbn [fold_right] in S. destruct (IH c) as [A1 A2]; [lia|]. destruct IHl as [B1 B2]; [lia|].
      destruct (genExpr c) as [w m], (genExprs l) as [w' m']. cbn [fst snd] in *. split; [constructor; assumption|].
      rewrite app_length. lia. }
    destruct (genExprs l) as [w m]. cbn [fst snd] in *. destruct L as [L1 L2]. split; [constructor; assumption|].
    cbn. rewrite app_length. cbn. lia.
Qed.
Lemma exprs_shape : forall l, shapes l (fst (genExprs l)) /\ snd (genExprs l) = List.length (fst (genExprs l)).
Proof.
  induction l as [|c l [B1 B2]]; cbn [genExprs]; [split; [constructor|reflexivity]|].
  destruct (gen_shape (S (dsize c)) c) as [A1 A2]; [lia|].
  destruct (genExpr c) as [w m], (genExprs l) as [w' m']. cbn [fst snd] in *. split; [constructor; assumption|].
  rewrite app_length. lia.
Qed.
Lemma table_head : forall cs o, exists r, snd (genTable cs o) = o :: r.
Proof.
  intros [|c cs] o; cbn; [eexists; reflexivity|]. destruct (genExprs (cexprs c)) as [w n]. destruct (genTable cs (o + n)) as [w' r].
  eexists; reflexivity.
Qed.
Lemma pairs_cons : forall a b l, pairs (a :: b :: l) = (a, b) :: pairs (b :: l).
Proof. reflexivity. Qed.
Lemma table_ok : forall cs o k c, nth_error cs k = Some c ->
  exists s e, nth_error (pairs (snd (genTable cs o))) k = Some (o + s, o + e) /\
    firstn (e - s) (skipn s (fst (genTable cs o))) = fst (genExprs (cexprs c)).
Proof.
  induction cs as [|a cs IH]; intros o k c H; [destruct k; discriminate|].
  cbn [genTable]. destruct (exprs_shape (cexprs a)) as [_ L]. destruct (genExprs (cexprs a)) as [w n] eqn:Ea. cbn [fst snd] in L.
  destruct (table_head cs (o + n)) as [r R]. destruct (genTable cs (o + n)) as [w' offs] eqn:Et. cbn [fst snd] in *. subst offs n.
  destruct k as [|k]; cbn [nth_error] in H.
  - inversion H; subst. rewrite Ea. exists 0, (List.length w). rewrite pairs_cons. cbn [nth_error].
    split; [rewrite Nat.add_0_r; reflexivity|]. rewrite Nat.sub_0_r. cbn [skipn fst]. rewrite firstn_app, Nat.sub_diag, firstn_all. cbn. apply app_nil_r.
  - destruct (IH (o + List.length w) k c H) as (s & e & P & Q). rewrite Et in P, Q. cbn [fst snd] in P, Q.
    exists (List.length w + s), (List.length w + e). rewrite pairs_cons. cbn [nth_error]. split.
    + rewrite P, !Nat.add_assoc. reflexivity.
    + cbn [fst]. replace (List.length w + e - (List.length w + s)) with (e - s) by lia.
      rewrite skipn_app. rewrite skipn_all2 by lia. replace (List.length w + s - List.length w) with s by lia. exact Q.
Qed.
Lemma prototype_ok : C102_prototype_claim.
Proof.
  intros cs k c H. destruct (table_ok cs 0 k c H) as (s & e & P & Q). exists (fst (genExprs (cexprs c))).
  split; [apply exprs_shape|]. unfold prototype, offsetTable. cbn [Nat.eqb nth_error]. rewrite P. cbn [plus]. f_equal. exact Q.
Qed.

(** Handlers *)
Lemma loop_ok : forall cs body d, uniqueClauses cs -> forall ws c n b m,
  (forall c' n' b', In ((c', n'), b') (((c, n), b) :: ws) ->
     isClause cs c' d n' /\ n' <> "" /\ recognized body c' b' /\ (true = true -> n' <> "not_clause")) ->
  List.length (b ++ flat_map clauseText ws) < m ->
  handleLoop cs body m false d n (b ++ flat_map clauseText ws) = Done (map (fun w => (snd (fst w), snd w)) (((c, n), b) :: ws)).
Proof.
  intros cs body d U. induction ws as [|[[c2 n2] b2] ws IH]; intros c n b m W L; (destruct m as [|m]; [lia|]).
  - destruct (W c n b) as (C & NE & R & G); [left; reflexivity|].
    cbn [handleLoop]. rewrite (proj2 (proj1 (clause_ok cs d n U (fun _ => G eq_refl)) c) C).
    cbn [flat_map]. rewrite (R _ (or_introl eq_refl)). reflexivity.
  - destruct (W c n b) as (C & NE & R & G); [left; reflexivity|].
    cbn [handleLoop]. rewrite (proj2 (proj1 (clause_ok cs d n U (fun _ => G eq_refl)) c) C).
    rewrite R by (right; cbn; eexists; eexists; reflexivity).
    change (addNode (n, b) (handleLoop cs body m false d n2 (b2 ++ flat_map clauseText ws)) =
      Done (map (fun w => (snd (fst w), snd w)) (((c, n), b) :: ((c2, n2), b2) :: ws))).
    rewrite (IH c2 n2 b2 m).
    + reflexivity.
    + intros c' n' b' I. apply W. right. exact I.
    + rewrite app_length in L. cbn [flat_map] in L. unfold clauseText at 1 in L. cbn [fst snd app] in L. cbn [List.length] in L. lia.
Qed.
Lemma find_ok : forall cs d ws id n, uniqueClauses cs -> isClause cs id d n ->
  (forall c' n' b', In ((c', n'), b') ws -> isClause cs c' d n' /\ n' <> "not_clause") ->
  findLoop cs d id (map (fun w : written => (snd (fst w), snd w)) ws) =
  map (fun w => (n, snd w)) (filter (fun w => Nat.eqb (fst (fst w)) id) ws).
Proof.
  intros cs d ws id n U C. induction ws as [|[[c2 n2] b2] ws IH]; intros W; [reflexivity|].
  destruct (W c2 n2 b2) as [C2 N2]; [left; reflexivity|].
  cbn [map findLoop filter fst snd]. rewrite (proj2 (proj1 (clause_ok cs d n2 U (fun _ => N2)) c2) C2).
  assert (I := IH (fun c' n' b' H => W c' n' b' (or_intror H))).
  destruct (Nat.eqb_spec c2 id) as [->|N]; [|exact I]. cbn [map snd]. rewrite <- I. f_equal. f_equal.
  destruct C as (k & x & E & K & <- & _), C2 as (k2 & x2 & E2 & K2 & <- & _). congruence.
Qed.
Lemma parent_ok : forall cs c p n, isClause cs c p n -> parentOf cs c = Some p.
Proof. intros cs c p n (k & x & -> & K & _ & <-). cbn. rewrite K. reflexivity. Qed.
Lemma found_ok : C102_found_claim true true.
Proof.
  intros cs body hb d c0 b ws U G HB W. specialize (G eq_refl). subst hb.
  exists (map (fun w => (snd (fst w), snd w)) ws). repeat split.
  - destruct ws as [|[[c n] b'] ws]; [reflexivity|].
    change (pragmaText false b (((c, n), b') :: ws)) with (Name n :: (b' ++ flat_map clauseText ws)%list).
    cbn [handlePragma]. apply loop_ok; [exact U|exact W|lia].
  - intros c n C N. unfold findClause. rewrite (parent_ok _ _ _ _ C), Nat.eqb_refl. apply find_ok; [exact U|exact C|].
    intros c' n' b' I. destruct (W _ _ _ I) as (A & _ & _ & B). split; [exact A|exact (B eq_refl)].
  - intros c p n C N. unfold findClause. rewrite (parent_ok _ _ _ _ C). destruct (Nat.eqb_spec d p); [congruence|reflexivity].
Qed.
Lemma unknown_ok : C102_unknown_claim true.
Proof.
  intros cs body d name ts U G N. cbn [handlePragma handleLoop]. rewrite (proj2 (clause_ok cs d name U G) N). reflexivity.
Qed.
Lemma select_ok : C102_select_claim.
Proof.
  intros cs d nodes id p n x U C I. unfold findClause in I. rewrite (parent_ok _ _ _ _ C) in I.
  destruct (Nat.eqb_spec d p) as [->|N]; [|contradiction].
  induction nodes as [|y nodes IH]; cbn [findLoop] in I; [contradiction|].
  destruct (getClause cs p (fst y)) as [c| |] eqn:E.
  - destruct (Nat.eqb_spec c id) as [->|N]; [|destruct (IH I) as (A & B & D'); repeat split; [right; exact A|exact B]].
    destruct I as [<-|I]; [|destruct (IH I) as (A & B & D'); repeat split; [right; exact A|exact B]].
    repeat split; [left; reflexivity|]. destruct (string_dec (fst y) "not_clause") as [X|X].
    + rewrite X in E. unfold getClause in E. cbn in E. discriminate.
    + apply (proj1 (clause_ok cs p (fst y) U (fun _ => X)) id) in E.
      destruct C as (k & a & E1 & K & <- & _), E as (k2 & a2 & E2 & K2 & <- & _). congruence.
  - destruct (IH I) as (A & B & D'); repeat split; [right; exact A|exact B].
  - destruct (IH I) as (A & B & D'); repeat split; [right; exact A|exact B].
Qed.
