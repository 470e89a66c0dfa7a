(** Proofs about the inliner which handles calls which prevent data dependence analysis. *)
From Coq Require Import PeanoNat Bool List Lia Permutation.
From Verif Require Import DepInlineModel DepInlineSpec.
Import ListNotations.

Lemma mem_In x l : mem x l = true <-> In x l.
Proof.
  unfold mem. rewrite existsb_exists. split.
  - intros (y & H & E). apply Nat.eqb_eq in E. now subst.
  - intro H. exists x. split; [exact H|apply Nat.eqb_refl].
Qed.
Lemma mem_false x l : mem x l = false <-> ~ In x l.
Proof. rewrite <- mem_In. destruct (mem x l); split; intro H; auto; try discriminate. now destruct H. Qed.
Lemma insert_In x y l : In y (insert x l) <-> y = x \/ In y l.
Proof.
  unfold insert. destruct (mem x l) eqn:E.
  - apply mem_In in E. split; [auto|]. intros [->|H]; auto.
  - cbn. intuition.
Qed.
Lemma insert_NoDup x l : NoDup l -> NoDup (insert x l).
Proof.
  intro H. unfold insert. destruct (mem x l) eqn:E; [exact H|]. constructor; [now apply mem_false|exact H].
Qed.
Lemma fold_flat_map {A B S} (g : S -> B -> S) (h : A -> list B) l : forall s,
  fold_left g (flat_map h l) s = fold_left (fun s x => fold_left g (h x) s) l s.
Proof. induction l as [|a l IH]; intro s; cbn; [reflexivity|]. rewrite fold_left_app. apply IH. Qed.
Lemma fold_ext {A S} (g h : S -> A -> S) l : (forall s x, g s x = h s x) -> forall s, fold_left g l s = fold_left h l s.
Proof. intros E. induction l as [|a l IH]; intro s; cbn; [reflexivity|]. rewrite E. apply IH. Qed.

(** Calls which are marked first. *)
Definition someCall (o : option call) : list call := match o with Some c => [c] | None => [] end.
Definition causeCalls (cs : list call) (o : option nat) : list call :=
  match o with Some l => someCall (findCall cs l) | None => [] end.
Definition depCalls (cs : list call) (d : option (list (option nat))) : list call :=
  match d with Some os => flat_map (causeCalls cs) os | None => [] end.
Definition traitCalls (cs : list call) (t : trait) : list call :=
  if isSome (tAnti t) || isSome (tFlow t) || isSome (tOutput t)
  then depCalls cs (tAnti t) ++ depCalls cs (tFlow t) ++ depCalls cs (tOutput t) ++ flat_map someCall (tCalls t)
  else [].
Definition loopCalls (cs : list call) (l : loop) : list call :=
  if lID l && lAttrs l
  then match lDeps l with
       | Some ds => flat_map (fun d : bool * list trait => if fst d then flat_map (traitCalls cs) (snd d) else []) ds
       | None => []
       end
  else [].
Definition funcCalls (f : func) : list call :=
  if fDecl f then [] else flat_map (loopCalls (fCalls f)) (fLoops f).
Definition marking (s : state) (c : call) : state := mark c s.

Lemma check_fold cs d s : check cs d s = fold_left marking (depCalls cs d) s.
Proof.
  destruct d as [os|]; [|reflexivity]. cbn. rewrite fold_flat_map. apply fold_ext. intros s' [l|]; [|reflexivity].
  cbn. destruct (findCall cs l); reflexivity.
Qed.
Lemma trait_fold cs s t : visitTrait cs s t = fold_left marking (traitCalls cs t) s.
Proof.
  unfold visitTrait, traitCalls. destruct (isSome (tAnti t) || isSome (tFlow t) || isSome (tOutput t)); [|reflexivity].
  rewrite !fold_left_app, <- !check_fold, fold_flat_map. apply fold_ext. intros s' [c|]; reflexivity.
Qed.
Lemma loop_fold cs s l : visitLoop cs s l = fold_left marking (loopCalls cs l) s.
Proof.
  unfold visitLoop, loopCalls. destruct (lID l && lAttrs l); [|reflexivity]. destruct (lDeps l) as [ds|]; [|reflexivity].
  rewrite fold_flat_map. apply fold_ext. intros s' [[|] ts]; [|reflexivity]. cbn [fst snd].
  rewrite fold_flat_map. apply fold_ext. intros s'' t. apply trait_fold.
Qed.
Lemma func_fold s f : visitFunc s f = fold_left marking (funcCalls f) s.
Proof.
  unfold visitFunc, funcCalls. destruct (fDecl f); [reflexivity|]. rewrite fold_flat_map. apply fold_ext.
  intros s' l. apply loop_fold.
Qed.
Lemma module_fold m s : fold_left visitFunc m s = fold_left marking (flat_map funcCalls m) s.
Proof. rewrite fold_flat_map. apply fold_ext. intros s' f. apply func_fold. Qed.

Lemma findCall_some cs l c : findCall cs l = Some c -> In c cs /\ cLoc c = Some l.
Proof.
  unfold findCall. intro H. destruct (find_some _ _ H) as [A B]. split; [exact A|].
  unfold hasLoc in B. destruct (cLoc c) as [l'|]; [|discriminate]. apply Nat.eqb_eq in B. now subst.
Qed.
Lemma depCalls_In cs d c : In c (depCalls cs d) -> exists os l, d = Some os /\ In (Some l) os /\ In c cs /\ cLoc c = Some l.
Proof.
  destruct d as [os|]; [|intros []]. cbn. intro H. apply in_flat_map in H. destruct H as ([l|] & I1 & I2); [|destruct I2].
  cbn in I2. destruct (findCall cs l) as [c'|] eqn:E; [|destruct I2]. destruct I2 as [<-|[]].
  destruct (findCall_some _ _ _ E). exists os, l. auto.
Qed.
Lemma depCalls_intro cs os l c : (forall c', In c' cs -> cLoc c' = Some l -> c' = c) -> In c cs -> cLoc c = Some l ->
  In (Some l) os -> In c (depCalls cs (Some os)).
Proof.
  intros U C L O. cbn. apply in_flat_map. exists (Some l). split; [exact O|]. cbn.
  destruct (findCall cs l) as [c'|] eqn:E.
  - destruct (findCall_some _ _ _ E) as [A B]. rewrite (U c' A B). now left.
  - exfalso. unfold findCall in E. apply (find_none _ _ E) in C. unfold hasLoc in C. rewrite L, Nat.eqb_refl in C. discriminate.
Qed.
Lemma traitCalls_In cs t c : In c (traitCalls cs t) ->
  (In c cs /\ exists l, cLoc c = Some l /\ causes t l) \/ (depends t /\ In (Some c) (tCalls t)).
Proof.
  unfold traitCalls. destruct (isSome (tAnti t) || isSome (tFlow t) || isSome (tOutput t)) eqn:E; [|intros []].
  intro H. rewrite !in_app_iff in H. destruct H as [H|[H|[H|H]]].
  - left. destruct (depCalls_In _ _ _ H) as (os & l & A & B & C & D). split; [exact C|]. exists l. split; [exact D|].
    exists os. auto.
  - left. destruct (depCalls_In _ _ _ H) as (os & l & A & B & C & D). split; [exact C|]. exists l. split; [exact D|].
    exists os. auto.
  - left. destruct (depCalls_In _ _ _ H) as (os & l & A & B & C & D). split; [exact C|]. exists l. split; [exact D|].
    exists os. auto.
  - right. split.
    + unfold depends. destruct (tAnti t) as [os|]; [exists os; auto|]. destruct (tFlow t) as [os|]; [exists os; auto|].
      destruct (tOutput t) as [os|]; [exists os; auto|discriminate].
    + apply in_flat_map in H. destruct H as ([c'|] & A & B); [|destruct B]. destruct B as [<-|[]]. exact A.
Qed.
Lemma traitCalls_intro cs t c : (forall l c', cLoc c = Some l -> In c cs -> In c' cs -> cLoc c' = Some l -> c' = c) ->
  (In c cs /\ exists l, cLoc c = Some l /\ causes t l) \/ (depends t /\ In (Some c) (tCalls t)) -> In c (traitCalls cs t).
Proof.
  intros U H. unfold traitCalls.
  assert (D : depends t).
  { destruct H as [(_ & l & _ & os & A & _)|[D _]]; [exists os; exact A|exact D]. }
  replace (isSome (tAnti t) || isSome (tFlow t) || isSome (tOutput t)) with true.
  2:{ destruct D as (os & [E|[E|E]]); rewrite E; cbn; now rewrite ?orb_true_r. }
  rewrite !in_app_iff. destruct H as [(C & l & L & os & A & B)|[_ H]].
  - destruct A as [E|[E|E]]; rewrite E.
    + left. apply (depCalls_intro cs os l c); auto; intros c2 C2 L2; exact (U l c2 L C C2 L2).
    + right; left. apply (depCalls_intro cs os l c); auto; intros c2 C2 L2; exact (U l c2 L C C2 L2).
    + right; right; left. apply (depCalls_intro cs os l c); auto; intros c2 C2 L2; exact (U l c2 L C C2 L2).
  - right; right; right. apply in_flat_map. exists (Some c). split; [exact H|now left].
Qed.
Lemma funcCalls_In f c : In c (funcCalls f) -> prevents f c.
Proof.
  unfold funcCalls. destruct (fDecl f) eqn:D; [intros []|]. intro H. apply in_flat_map in H. destruct H as (l & L & H).
  unfold loopCalls in H. destruct (lID l) eqn:E1; [|destruct H]. destruct (lAttrs l) eqn:E2; [|destruct H]. cbn in H.
  destruct (lDeps l) as [ds|] eqn:E3; [|destruct H]. apply in_flat_map in H. destruct H as ([b ts] & A & B).
  cbn in B. destruct b; [|destruct B]. apply in_flat_map in B. destruct B as (t & T & B).
  exists t. split; [|now apply traitCalls_In]. split; [exact D|]. exists l, ds, ts. auto 10.
Qed.
Lemma funcCalls_intro f c : (forall l c', cLoc c = Some l -> In c (fCalls f) -> In c' (fCalls f) -> cLoc c' = Some l -> c' = c) ->
  prevents f c -> In c (funcCalls f).
Proof.
  intros U (t & (D & l & ds & ts & L & E1 & E2 & E3 & A & B) & H). unfold funcCalls. rewrite D. apply in_flat_map.
  exists l. split; [exact L|]. unfold loopCalls. rewrite E1, E2, E3. cbn. apply in_flat_map. exists (true, ts).
  split; [exact A|]. cbn. apply in_flat_map. exists t. split; [exact B|]. now apply traitCalls_intro.
Qed.

(** Marks after a sequence of calls. *)
Lemma marking_marks L : forall s n, In n (sMarks (fold_left marking L s)) <-> In n (sMarks s) \/ exists c, In c L /\ cId c = n.
Proof.
  induction L as [|c L IH]; intros s n; cbn [fold_left].
  - split; [auto|]. intros [H|(c & [] & _)]. exact H.
  - rewrite IH. unfold marking, mark. destruct (mem (cId c) (sMarks s)) eqn:E.
    + apply mem_In in E. split.
      * intros [H|(c' & A & B)]; [now left|right; exists c'; split; [now right|exact B]].
      * intros [H|(c' & [<-|A] & B)]; [now left|left; now subst|right; now exists c'].
    + cbn [sMarks]. split.
      * intros [[<-|H]|(c' & A & B)]; [right; exists c; split; [now left|reflexivity]|now left|].
        right. exists c'. split; [now right|exact B].
      * intros [H|(c' & [<-|A] & B)]; [left; now right|left; now left|right; now exists c'].
Qed.
Lemma marking_inline L : forall s h, In h (sInline (fold_left marking L s)) ->
  In h (sInline s) \/ exists c, In c L /\ cCallee c = Some h.
Proof.
  induction L as [|c L IH]; intros s h H; cbn [fold_left] in H; [now left|].
  destruct (IH _ _ H) as [Q|(c' & A & B)]; [|right; exists c'; split; [now right|exact B]].
  unfold marking, mark in Q. destruct (mem (cId c) (sMarks s)); [now left|]. cbn [sInline] in Q.
  destruct (cCallee c) as [g|] eqn:E; [|now left]. apply insert_In in Q. destruct Q as [->|Q]; [|now left].
  right. exists c. split; [now left|exact E].
Qed.
Lemma marking_mono L : forall s h, In h (sInline s) -> In h (sInline (fold_left marking L s)).
Proof.
  induction L as [|c L IH]; intros s h H; cbn [fold_left]; [exact H|]. apply IH. unfold marking, mark.
  destruct (mem (cId c) (sMarks s)); [exact H|]. cbn [sInline]. destruct (cCallee c); [|exact H].
  apply insert_In. now right.
Qed.
Lemma marking_callee L : forall s c h, (forall c', In c' L -> cId c' = cId c -> c' = c) -> In c L ->
  ~ In (cId c) (sMarks s) -> cCallee c = Some h -> In h (sInline (fold_left marking L s)).
Proof.
  induction L as [|a L IH]; intros s c h U H N E; [destruct H|]. cbn [fold_left].
  destruct (Nat.eq_dec (cId a) (cId c)) as [Q|Q].
  - rewrite (U a (or_introl eq_refl) Q). apply marking_mono. unfold marking, mark.
    rewrite (proj2 (mem_false _ _) N). cbn [sInline]. rewrite E. apply insert_In. now left.
  - apply (IH _ c h).
    + intros c' C. apply U. now right.
    + destruct H as [->|H]; [now destruct Q|exact H].
    + unfold marking, mark. destruct (mem (cId a) (sMarks s)); [exact N|]. cbn. intros [K|K]; auto.
    + exact E.
Qed.
Lemma marking_NoDup L : forall s, NoDup (sInline s) -> NoDup (sInline (fold_left marking L s)).
Proof.
  induction L as [|c L IH]; intros s H; cbn [fold_left]; [exact H|]. apply IH. unfold marking, mark.
  destruct (mem (cId c) (sMarks s)); [exact H|]. cbn [sInline]. destruct (cCallee c); [|exact H]. now apply insert_NoDup.
Qed.
Lemma marking_changed L : forall s, sChanged (fold_left marking L s) = true <->
  sChanged s = true \/ exists c, In c L /\ ~ In (cId c) (sMarks s).
Proof.
  induction L as [|c L IH]; intros s; cbn [fold_left].
  - split; [auto|]. intros [H|(c & [] & _)]. exact H.
  - rewrite IH. unfold marking, mark. destruct (mem (cId c) (sMarks s)) eqn:E.
    + apply mem_In in E. split.
      * intros [H|(c' & A & B)]; [now left|right; exists c'; split; [now right|exact B]].
      * intros [H|(c' & [<-|A] & B)]; [now left|now destruct B|right; now exists c'].
    + apply mem_false in E. cbn. split.
      * intros _. right. exists c. auto.
      * intros _. now left.
Qed.
Lemma only_marks L : forall s n, In n (fst (fold_left markOnly L s)) <-> In n (fst s) \/ exists c, In c L /\ cId c = n.
Proof.
  induction L as [|c L IH]; intros s n; cbn [fold_left].
  - split; [auto|]. intros [H|(c & [] & _)]. exact H.
  - rewrite IH. unfold markOnly. destruct (mem (cId c) (fst s)) eqn:E.
    + apply mem_In in E. split.
      * intros [H|(c' & A & B)]; [now left|right; exists c'; split; [now right|exact B]].
      * intros [H|(c' & [<-|A] & B)]; [now left|left; now subst|right; now exists c'].
    + cbn [fst]. split.
      * intros [[<-|H]|(c' & A & B)]; [right; exists c; split; [now left|reflexivity]|now left|].
        right. exists c'. split; [now right|exact B].
      * intros [H|(c' & [<-|A] & B)]; [left; now right|left; now left|right; now exists c'].
Qed.
Lemma only_changed L : forall s, snd (fold_left markOnly L s) = true <->
  snd s = true \/ exists c, In c L /\ ~ In (cId c) (fst s).
Proof.
  induction L as [|c L IH]; intros s; cbn [fold_left].
  - split; [auto|]. intros [H|(c & [] & _)]. exact H.
  - rewrite IH. unfold markOnly. destruct (mem (cId c) (fst s)) eqn:E.
    + apply mem_In in E. split.
      * intros [H|(c' & A & B)]; [now left|right; exists c'; split; [now right|exact B]].
      * intros [H|(c' & [<-|A] & B)]; [now left|now destruct B|right; now exists c'].
    + apply mem_false in E. cbn. split.
      * intros _. right. exists c. auto.
      * intros _. now left.
Qed.
Lemma all_fold m s fs : markAll m s fs = fold_left markOnly (flat_map (callsOf m) fs) s.
Proof. unfold markAll. now rewrite fold_flat_map. Qed.

(** Closure. *)
Lemma callsOf_In m f c : In c (callsOf m f) -> exists g, In g m /\ fId g = f /\ In c (fCalls g).
Proof.
  unfold callsOf. destruct (find _ m) as [g|] eqn:E; [|intros []]. intro H. apply find_some in E.
  destruct E as [A B]. apply Nat.eqb_eq in B. exists g. auto.
Qed.
Lemma callsOf_eq m g : NoDup (map fId m) -> In g m -> callsOf m (fId g) = fCalls g.
Proof.
  intros N H. unfold callsOf. destruct (find _ m) as [g'|] eqn:E.
  - apply find_some in E. destruct E as [A B]. apply Nat.eqb_eq in B. f_equal.
    clear -N H A B. induction m as [|x m IH]; [destruct H|]. cbn in N. inversion N as [|? ? N1 N2]; subst.
    destruct H as [->|H], A as [->|A]; auto.
    + exfalso. apply N1. rewrite B. now apply in_map.
    + exfalso. apply N1. rewrite <- B. now apply in_map.
  - apply (find_none _ _ E) in H. rewrite Nat.eqb_refl in H. discriminate.
Qed.
Lemma push_fold cs : forall w s w' s', fold_left pushCallee cs (w, s) = (w', s') ->
  incl s s' /\ incl w w' /\ (incl w s -> incl w' s') /\
  (forall c g, In c cs -> cCallee c = Some g -> In g s') /\
  (forall g, In g s' -> In g s \/ exists c, In c cs /\ cCallee c = Some g) /\
  (forall g, In g s' -> In g s \/ In g w') /\
  (NoDup s -> NoDup s') /\ length w' + length s = length w + length s'.
Proof.
  induction cs as [|c cs IH]; intros w s w' s' H; cbn [fold_left] in H.
  - injection H as <- <-. repeat split; auto using incl_refl. intros c g [].
  - unfold pushCallee at 2 in H. cbn [fst snd] in H. destruct (cCallee c) as [g|] eqn:E.
    + destruct (mem g s) eqn:M.
      * apply mem_In in M. destruct (IH _ _ _ _ H) as (A & B & C & D & F & G & N & L). repeat split; auto.
        -- intros c' g' [<-|I1] I2; [|eauto]. rewrite E in I2. injection I2 as <-. auto.
        -- intros g' I1. destruct (F g' I1) as [Q|(c' & Q1 & Q2)]; [auto|]. right. exists c'. split; [now right|exact Q2].
      * apply mem_false in M. destruct (IH _ _ _ _ H) as (A & B & C & D & F & G & N & L). repeat split.
        -- intros x X. apply A. now right.
        -- intros x X. apply B. now right.
        -- intros I1. apply C. intros x [<-|X]; [now left|right; auto].
        -- intros c' g' [<-|I1] I2; [|eauto]. rewrite E in I2. injection I2 as <-. apply A. now left.
        -- intros g' I1. destruct (F g' I1) as [[<-|Q]|(c' & Q1 & Q2)]; [|auto|].
           ++ right. exists c. split; [now left|exact E].
           ++ right. exists c'. split; [now right|exact Q2].
        -- intros g' I1. destruct (G g' I1) as [[<-|Q]|Q]; auto. right. apply B. now left.
        -- intro I1. apply N. now constructor.
        -- cbn in L. lia.
    + destruct (IH _ _ _ _ H) as (A & B & C & D & F & G & N & L). repeat split; auto.
      * intros c' g' [<-|I1] I2; [|eauto]. rewrite E in I2. discriminate.
      * intros g' I1. destruct (F g' I1) as [Q|(c' & Q1 & Q2)]; [auto|]. right. exists c'. split; [now right|exact Q2].
Qed.
Lemma close_spec fuel : forall m w s r, close fuel m w s = Some r -> incl w s ->
  (forall f, In f s -> In f w \/ forall c g, In c (callsOf m f) -> cCallee c = Some g -> In g s) ->
  incl s r /\
  (forall f c g, In f r -> In c (callsOf m f) -> cCallee c = Some g -> In g r) /\
  (forall P : nat -> Prop, (forall f, In f s -> P f) ->
    (forall f c g, P f -> In c (callsOf m f) -> cCallee c = Some g -> P g) -> forall f, In f r -> P f).
Proof.
  induction fuel as [|fuel IH]; intros m w s r H W S.
  - destruct w as [|f w]; cbn in H; [|discriminate]. injection H as <-. split; [apply incl_refl|]. split.
    + intros f c g F C E. destruct (S f F) as [[]|Q]. eauto.
    + intros P P0 _. exact P0.
  - destruct w as [|f w]; cbn [close] in H.
    + injection H as <-. split; [apply incl_refl|]. split.
      * intros f c g F C E. destruct (S f F) as [[]|Q]. eauto.
      * intros P P0 _. exact P0.
    + destruct (fold_left pushCallee (callsOf m f) (w, s)) as [w' s'] eqn:E. cbn [fst snd] in H.
      destruct (push_fold _ _ _ _ _ E) as (A & B & C & D & F & G & _).
      destruct (IH _ _ _ _ H) as (R1 & R2 & R3).
      * apply C. intros x X. apply W. now right.
      * intros x X. destruct (G x X) as [Q|Q]; [|now left]. destruct (S x Q) as [[<-|Z]|Z].
        -- right. exact D.
        -- left. apply B. exact Z.
        -- right. intros c g I1 I2. apply A. eauto.
      * split; [intros x X; apply R1, A, X|]. split; [exact R2|]. intros P P0 PS. apply R3; [|exact PS].
        intros x X. destruct (F x X) as [Q|(c & Q1 & Q2)]; [now apply P0|].
        apply (PS f c x); auto. apply P0, W. now left.
Qed.
Lemma close_finish fuel : forall m w s U, NoDup s -> incl s U ->
  (forall f c g, In c (callsOf m f) -> cCallee c = Some g -> In g U) ->
  length w + (length U - length s) <= fuel -> exists r, close fuel m w s = Some r.
Proof.
  induction fuel as [|fuel IH]; intros m w s U N IU CU L; (destruct w as [|f w]; [now exists s|]).
  - cbn in L. lia.
  - cbn [close]. destruct (fold_left pushCallee (callsOf m f) (w, s)) as [w' s'] eqn:E. cbn [fst snd].
    destruct (push_fold _ _ _ _ _ E) as (A & B & C & D & F & G & N' & L').
    assert (I' : incl s' U).
    { intros x X. destruct (F x X) as [Q|(c & Q1 & Q2)]; [auto|eauto]. }
    apply (IH m w' s' U); auto. cbn in L.
    pose proof (NoDup_incl_length (N' N) I'). pose proof (NoDup_incl_length N IU). lia.
Qed.

Lemma prevents_in m f c : wellFormed m -> In f m -> prevents f c -> In c (fCalls f).
Proof.
  intros (_ & _ & W) F (t & T & [[H _]|[_ H]]); [exact H|]. exact (W f t c F T H).
Qed.
Lemma first_In m c : In c (flat_map funcCalls m) -> exists f, In f m /\ prevents f c.
Proof. intro H. apply in_flat_map in H. destruct H as (f & A & B). exists f. split; [exact A|now apply funcCalls_In]. Qed.

Lemma order_In (order : list nat -> list nat) l x : someOrder order -> In x (order l) <-> In x l.
Proof.
  intro O. split; intro H.
  - exact (Permutation_in _ (O l) H).
  - exact (Permutation_in _ (Permutation_sym (O l)) H).
Qed.
Lemma finish_ok : C80_finish_claim.
Proof.
  intros order m marks O W. unfold runOnModule. rewrite module_fold.
  set (s := fold_left marking (flat_map funcCalls m) (State marks [] false)).
  pose (callees := flat_map (fun f => flat_map (fun c => match cCallee c with Some g => [g] | None => [] end) (fCalls f)) m).
  exists (length (rev (order (sInline s))) + (length (sInline s ++ callees) - length (sInline s))).
  intros fuel L.
  destruct (close_finish fuel m (rev (order (sInline s))) (sInline s) (sInline s ++ callees)) as [r E].
  - apply marking_NoDup. constructor.
  - apply incl_appl, incl_refl.
  - intros f c g C G. apply in_or_app. right. destruct (callsOf_In _ _ _ C) as (h & A & _ & B).
    apply in_flat_map. exists h. split; [exact A|]. apply in_flat_map. exists c. split; [exact B|]. rewrite G. now left.
  - exact L.
  - rewrite E. eexists. reflexivity.
Qed.
(** The result. *)
Lemma run_marks fuel order m marks marks' ch : someOrder order -> wellFormed m ->
  runOnModule fuel order m marks = Some (marks', ch) ->
  exists fs, 
  (forall n, In n marks' <-> In n marks \/ (exists c, In c (flat_map funcCalls m) /\ cId c = n) \/
    exists g c, In g m /\ In (fId g) fs /\ In c (fCalls g) /\ cId c = n) /\
  (ch = true <-> exists n, In n marks' /\ ~ In n marks) /\
  (forall h, In h fs -> exists f c h0, In f m /\ prevents f c /\ cCallee c = Some h0 /\ reaches m h0 h) /\
  (forall c h, In c (flat_map funcCalls m) -> ~ In (cId c) marks -> cCallee c = Some h -> In h fs) /\
  (forall g c h, In g m -> In (fId g) fs -> In c (fCalls g) -> cCallee c = Some h -> In h fs).
Proof.
  intros O W H. unfold runOnModule in H. rewrite module_fold in H. cbv zeta in H.
  remember (flat_map funcCalls m) as L eqn:EL.
  remember (fold_left marking L (State marks [] false)) as s eqn:ES.
  destruct (close fuel m (rev (order (sInline s))) (sInline s)) as [fs|] eqn:E; [|discriminate].
  injection H as H. rewrite all_fold in H.
  destruct (close_spec _ _ _ _ _ E) as (R1 & R2 & R3).
  { intros x X. apply in_rev in X. exact (proj1 (order_In order _ x O) X). }
  { intros f F. left. apply -> in_rev. apply (proj2 (order_In order _ _ O)); assumption. }
  pose proof (proj1 W) as ND.
  assert (MK : forall n, In n marks' <-> In n marks \/ (exists c, In c L /\ cId c = n) \/
    exists g c, In g m /\ In (fId g) fs /\ In c (fCalls g) /\ cId c = n).
  { intro n. pose proof (only_marks (flat_map (callsOf m) (order fs)) (sMarks s, sChanged s) n) as K.
    rewrite H in K. cbn [fst] in K. rewrite K, ES, marking_marks. cbn [sMarks]. split.
    - intros [[Q|Q]|(c & Q1 & Q2)]; [now left|right; now left|]. right; right.
      apply in_flat_map in Q1. destruct Q1 as (f & Q3 & Q4). apply (proj1 (order_In order _ f O)) in Q3.
      destruct (callsOf_In _ _ _ Q4) as (g & G1 & G2 & G3). subst f. exists g, c. auto.
    - intros [Q|[Q|(g & c & G1 & G2 & G3 & G4)]]; [left; now left|left; now right|]. right. exists c. split; [|exact G4].
      apply in_flat_map. exists (fId g). split; [apply (proj2 (order_In order _ _ O)); assumption|]. now rewrite callsOf_eq. }
  exists fs. split; [exact MK|]. split; [|split; [|split]].
  - pose proof (only_changed (flat_map (callsOf m) (order fs)) (sMarks s, sChanged s)) as K.
    rewrite H in K. cbn [fst snd] in K. rewrite K. rewrite ES at 1. rewrite marking_changed. cbn [sMarks sChanged]. split.
    + intros [[Q|(c & A & B)]|(c & A & B)]; [discriminate| |].
      * exists (cId c). split; [|exact B]. apply MK. right; left. now exists c.
      * exists (cId c). split.
        -- apply MK. right; right. apply in_flat_map in A. destruct A as (f & Q3 & Q4).
           apply (proj1 (order_In order _ f O)) in Q3.
           destruct (callsOf_In _ _ _ Q4) as (g & G1 & G2 & G3). subst f. exists g, c. auto.
        -- intro Q. apply B. rewrite ES, marking_marks. now left.
    + intros (n & A & B). apply MK in A. destruct A as [A|[(c & A1 & A2)|(g & c & G1 & G2 & G3 & G4)]]; [now destruct B| |].
      * left; right. exists c. rewrite A2. auto.
      * destruct (in_dec Nat.eq_dec n (sMarks s)) as [Q|Q].
        -- rewrite ES, marking_marks in Q. destruct Q as [Q|(c' & Q1 & Q2)]; [now destruct B|]. left; right.
           exists c'. rewrite Q2. auto.
        -- right. exists c. rewrite G4. split; [|exact Q]. apply in_flat_map. exists (fId g).
           split; [apply (proj2 (order_In order _ _ O)); assumption|]. now rewrite callsOf_eq.
  - apply R3.
    + intros h Q. rewrite ES in Q. destruct (marking_inline _ _ _ Q) as [[]|(c & A & B)]. rewrite EL in A.
      destruct (first_In _ _ A) as (f & F1 & F2). exists f, c, h. repeat split; auto. constructor.
    + intros f c g (f0 & c0 & h0 & A1 & A2 & A3 & A4) C G. exists f0, c0, h0. repeat split; auto.
      destruct (callsOf_In _ _ _ C) as (g' & G1 & G2 & G3). subst f. exact (reach_call m h0 g' c g A4 G1 G3 G).
  - intros c h C N G. apply R1. rewrite ES. apply (marking_callee L _ c h); auto.
    intros c' C' Q. rewrite EL in C, C'. destruct (first_In _ _ C) as (f & F1 & F2).
    destruct (first_In _ _ C') as (f' & F1' & F2').
    exact (proj1 (proj1 (proj2 W) f' f c' c F1' F1 (prevents_in m f' c' W F1' F2') (prevents_in m f c W F1 F2) Q)).
  - intros g c h G F C E'. apply (R2 (fId g) c h); auto. now rewrite callsOf_eq.
Qed.
Lemma sound_ok : C80_sound_claim.
Proof.
  intros fuel order m marks marks' ch O W H.
  destruct (run_marks _ _ _ _ _ _ O W H) as (fs & MK & CH & R & _). split; [|split; [|exact CH]].
  - intros n N. apply MK. now left.
  - intros n N. apply MK in N. destruct N as [N|[(c & A & B)|(g & c & G1 & G2 & G3 & G4)]]; [now left| |].
    + right. destruct (first_In _ _ A) as (f & F1 & F2). exists f, c. repeat split; auto.
      * now apply (prevents_in m).
      * left. now exists f.
    + right. exists g, c. repeat split; auto. right. destruct (R _ G2) as (f & c0 & h0 & A1 & A2 & A3 & A4).
      exists f, c0, h0, g. auto 10.
Qed.
Lemma reaches_closed m (fs : list nat) : 
  (forall g c h, In g m -> In (fId g) fs -> In c (fCalls g) -> cCallee c = Some h -> In h fs) ->
  forall f h, reaches m f h -> In f fs -> In h fs.
Proof. intros C f h R. induction R as [f|f g c h R IH G I1 I2]; intro F; [exact F|]. exact (C g c h G (IH F) I1 I2). Qed.
Lemma complete_ok : C80_complete_claim true true.
Proof.
  intros fuel order m marks marks' ch O W GL GO H c N. rewrite (GO eq_refl) in H.
  destruct (run_marks _ _ _ _ _ _ O W H) as (fs & MK & _ & _ & R1 & R2).
  assert (F : forall f c, In f m -> prevents f c -> In c (flat_map funcCalls m)).
  { intros f c' I1 I2. apply in_flat_map. exists f. split; [exact I1|]. apply funcCalls_intro; [|exact I2].
    intros l c2 L C1 C2 L2. exact (GL eq_refl f c2 c' l I1 C2 C1 L2 L). }
  apply MK. destruct N as [(f & I1 & I2)|(f & c0 & h & g & I1 & I2 & I3 & I4 & I5 & I6)].
  - right; left. exists c. split; [|reflexivity]. now apply (F f).
  - right; right. exists g, c. repeat split; auto. apply (reaches_closed m fs R2 h); auto.
    apply (R1 c0); [now apply (F f)|intros []|exact I3].
Qed.

(** Expansion. *)
Definition okBody (f : nat) (b : list elem) : Prop := forall g ok, In (ECall g ok) b -> g < f.
Lemma expand_ok T base costs bodies :
  (forall g, okBody g (nth g bodies [])) -> forall d e, (forall g ok, e = ECall g ok -> g < d) ->
  forall g ok, In (ECall g ok) (expand d T base costs bodies e) -> g < d /\ (ok = true -> T <= base + nth g costs 0).
Proof.
  intros B. induction d as [|d IH]; intros e E g ok H.
  - destruct e as [|g' ok']; [destruct H as [H|[]]; discriminate|]. specialize (E g' ok' eq_refl). lia.
  - destruct e as [|g' ok']; [destruct H as [H|[]]; discriminate|]. cbn [expand] in H.
    pose proof (E g' ok' eq_refl). unfold isInlined in H. destruct (ok' && (base + nth g' costs 0 <? T)) eqn:D.
    + apply in_flat_map in H. destruct H as (e & I1 & I2). destruct (IH e) with (g := g) (ok := ok) as [A1 A2]; auto.
      intros g1 ok1 ->. apply B in I1. lia.
    + destruct H as [H|[]]. injection H as <- <-. split; [exact H0|]. intros ->. cbn in D. apply Nat.ltb_ge in D. exact D.
Qed.
Definition goodState (T : nat) (pre : list (list elem)) (st : list nat * list (list elem)) : Prop :=
  fst st = map (@length elem) pre /\ length (snd st) = length pre /\
  (forall g, okBody g (nth g (snd st) [])) /\
  (forall f b, nth_error pre f = Some b -> exists b', nth_error (snd st) f = Some b' /\
    b' = flat_map (expand f T (length b) (map (@length elem) (firstn f pre)) (firstn f (snd st))) b).
Lemma run_good T : forall bodies pre st, (forall f b, nth_error (pre ++ bodies) f = Some b -> okBody f b) ->
  goodState T pre st -> goodState T (pre ++ bodies) (fold_left (runOnFunction T) bodies st).
Proof.
  induction bodies as [|b bodies IH]; intros pre st B G; cbn [fold_left]; [now rewrite app_nil_r|].
  replace (pre ++ b :: bodies) with ((pre ++ [b]) ++ bodies) by now rewrite <- app_assoc.
  apply IH; [now rewrite <- app_assoc|]. destruct G as (G1 & G2 & G3 & G4). unfold runOnFunction, sizeOf.
  assert (OB : okBody (length pre) b).
  { apply B. rewrite nth_error_app2, Nat.sub_diag; [reflexivity|lia]. }
  repeat split; cbn [fst snd].
  - now rewrite map_app, G1.
  - rewrite !app_length. cbn. lia.
  - intros g. destruct (Nat.lt_trichotomy g (length (snd st))) as [L|[->|L]].
    + rewrite app_nth1 by exact L. apply G3.
    + rewrite nth_middle. intros h ok H. apply in_flat_map in H. destruct H as (e & I1 & I2).
      apply (expand_ok T (length b) (fst st) (snd st) G3 (length (snd st)) e) in I2; [apply I2|].
      intros g' ok' ->. rewrite G2. exact (OB g' ok' I1).
    + rewrite nth_overflow; [intros h ok []|]. rewrite app_length. cbn. lia.
  - intros f c H. destruct (Nat.lt_ge_cases f (length pre)) as [L|L].
    + rewrite nth_error_app1 in H by exact L. destruct (G4 f c H) as (b' & A1 & A2). exists b'.
      rewrite nth_error_app1 by lia. split; [exact A1|]. rewrite !firstn_app.
      replace (f - length pre) with 0 by lia. replace (f - length (snd st)) with 0 by lia.
      cbn [firstn]. now rewrite !app_nil_r.
    + rewrite nth_error_app2 in H by exact L. destruct (f - length pre) as [|k] eqn:K; [|destruct k; discriminate].
      cbn in H. injection H as <-. assert (f = length pre) by lia. subst f. rewrite nth_error_app2 by lia.
      rewrite G2, Nat.sub_diag. cbn [nth_error]. eexists. split; [reflexivity|].
      rewrite !firstn_app, Nat.sub_diag, G2, Nat.sub_diag. cbn [firstn]. rewrite !app_nil_r.
      rewrite !firstn_all2 by lia. now rewrite G1.
Qed.
Lemma inline_good T bodies : bottomUp bodies ->
  goodState T bodies (fold_left (runOnFunction T) bodies ([], [])).
Proof.
  intro B. change bodies with ([] ++ bodies) at 1. apply run_good.
  - intros f b H g ok I1. exact (B f b g ok H I1).
  - repeat split.
    + intros g. destruct g; intros h ok [].
    + intros f b H. destruct f; discriminate.
Qed.
Lemma nth_firstn {A} (l : list A) f g d : g < f -> nth g (firstn f l) d = nth g l d.
Proof. revert f g. induction l as [|a l IH]; intros [|f] [|g] H; try lia; auto. cbn. apply IH. lia. Qed.
Lemma firstn_okBody T bodies f : bottomUp bodies ->
  forall g, okBody g (nth g (firstn f (inlineAll T bodies)) []).
Proof.
  intros B g. destruct (inline_good T bodies B) as (_ & _ & G & _). fold (inlineAll T bodies) in G.
  destruct (Nat.lt_ge_cases g f) as [L|L].
  - rewrite nth_firstn by exact L. apply G.
  - rewrite nth_overflow; [intros h ok []|]. rewrite firstn_length. lia.
Qed.
Lemma expand_all_ok : C80_expand_claim.
Proof.
  intros T bodies f b B H. destruct (inline_good T bodies B) as (_ & _ & _ & G). fold (inlineAll T bodies) in G.
  destruct (G f b H) as (b' & A1 & A2). exists b'. split; [exact A1|]. intros g I1. rewrite A2 in I1.
  apply in_flat_map in I1. destruct I1 as (e & E1 & E2).
  apply (expand_ok T _ _ _ (firstn_okBody T bodies f B)) in E2.
  - destruct E2 as [L Q]. specialize (Q eq_refl).
    assert (LB : f < length bodies) by (apply nth_error_Some; congruence).
    destruct (nth_error bodies g) as [c|] eqn:C.
    + exists c. split; [reflexivity|]. rewrite <- firstn_map, nth_firstn in Q by exact L.
      replace (nth g (map (@length elem) bodies) 0) with (length c) in Q; [exact Q|].
      symmetry. apply nth_error_nth. now apply map_nth_error.
    + apply nth_error_None in C. lia.
  - intros g' ok' ->. exact (B f b g' ok' H E1).
Qed.
Lemma expand_acc d T base costs bodies b : (forall e, In e b -> isCall e = false) ->
  flat_map (expand d T base costs bodies) b = b.
Proof.
  induction b as [|e b IH]; intro H; [reflexivity|]. cbn [flat_map]. rewrite IH by (intros x X; apply H; now right).
  specialize (H e (or_introl eq_refl)). destruct e; [|discriminate]. destruct d; reflexivity.
Qed.
Lemma size_ok : C80_size_claim true true.
Proof.
  intros T bodies f b B H G1 G2. specialize (G1 eq_refl). specialize (G2 eq_refl).
  destruct (inline_good T bodies B) as (_ & LN & _ & G). fold (inlineAll T bodies) in LN, G.
  destruct (G f b H) as (b' & A1 & A2). exists b'. split; [exact A1|].
  assert (LB : f < length bodies) by (apply nth_error_Some; congruence).
  assert (LEAF : forall g ok, In (ECall g ok) b -> exists c, nth_error bodies g = Some c /\ g < f /\
    nth g (firstn f (inlineAll T bodies)) [] = c /\ nth g (map (@length elem) (firstn f bodies)) 0 = length c /\
    (forall e, In e c -> isCall e = false)).
  { intros g ok I1. pose proof (B f b g ok H I1) as L. destruct (nth_error bodies g) as [c|] eqn:C.
    - exists c. pose proof (G2 g ok c I1 C) as NC. split; [reflexivity|]. split; [exact L|]. split; [|split; [|exact NC]].
      + destruct (G g c C) as (c' & C1 & C2). rewrite expand_acc in C2 by exact NC. subst c'.
        rewrite nth_firstn by exact L. now apply nth_error_nth.
      + rewrite <- firstn_map, nth_firstn by exact L. apply nth_error_nth. now apply map_nth_error.
    - apply nth_error_None in C. lia. }
  clear G. remember (map (@length elem) (firstn f bodies)) as costs. remember (firstn f (inlineAll T bodies)) as done.
  assert (K : forall x, (forall e, In e x -> In e b) -> length (filter isCall x) <= 1 ->
    let y := flat_map (expand f T (length b) costs done) x in
    y = x \/ length y + length b < T + length x).
  { clear A2. induction x as [|e x IH]; intros IX L; [now left|]. cbn [flat_map filter] in *.
    destruct e as [|g ok].
    - destruct (IH (fun e E => IX e (or_intror E)) L) as [Q|Q]; cbv zeta in *.
      + left. rewrite Q. destruct f; reflexivity.
      + right. rewrite app_length. cbn [length]. replace (length (expand f T (length b) costs done EAcc)) with 1 by (destruct f; reflexivity). lia.
    - cbn in L. destruct (LEAF g ok (IX _ (or_introl eq_refl))) as (c & C1 & C2 & C3 & C4 & C5).
      rewrite (expand_acc f T (length b) costs done x).
      2:{ intros e E. destruct (isCall e) eqn:Q; [|reflexivity]. assert (In e (filter isCall x)) by now apply filter_In.
          destruct (filter isCall x); [contradiction|cbn in L; lia]. }
      destruct f as [|f]; [left; reflexivity|]. cbn [expand]. unfold isInlined. rewrite C4, C3.
      destruct (ok && (length b + length c <? T)) eqn:D; [|left; reflexivity].
      apply andb_true_iff in D. destruct D as [_ D]. apply Nat.ltb_lt in D.
      rewrite expand_acc by exact C5. right. cbv zeta. rewrite app_length. cbn [length]. lia. }
  destruct (K b (fun e E => E) G1) as [Q|Q]; cbv zeta in Q; rewrite <- A2 in Q.
  - left. exact Q.
  - right. lia.
Qed.
