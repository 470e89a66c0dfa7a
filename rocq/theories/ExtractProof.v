(** Proofs about placement of calls into their own blocks. *)
From Coq Require Import PeanoNat Bool List Lia.
From Verif Require Import ExtractModel ExtractSpec.
Import ListNotations.

Lemma rename_label ls a n b : bLabel (renameIn ls a n b) = bLabel b.
Proof. unfold renameIn. now destruct (existsb (Nat.eqb (bLabel b)) ls). Qed.
Lemma rename_term ls a n b : bTerm (renameIn ls a n b) = bTerm b.
Proof. unfold renameIn. now destruct (existsb (Nat.eqb (bLabel b)) ls). Qed.
Definition renBody (c : bool) (a n : label) (is : list instr) : list instr :=
  if c then map (renamePhi a n) is else is.
Lemma rename_body ls a n b :
  bBody (renameIn ls a n b) = renBody (existsb (Nat.eqb (bLabel b)) ls) a n (bBody b).
Proof. unfold renameIn, renBody. now destruct (existsb (Nat.eqb (bLabel b)) ls). Qed.
Lemma renBody_cons c a n i is :
  renBody c a n (i :: is) = (if c then renamePhi a n i else i) :: renBody c a n is.
Proof. now destruct c. Qed.
Lemma existsb_In l ls : existsb (Nat.eqb l) ls = true <-> In l ls.
Proof.
  rewrite existsb_exists. split.
  - intros (x & I & E). apply Nat.eqb_eq in E. now subst.
  - intro I. exists l. split; [exact I|apply Nat.eqb_refl].
Qed.

Lemma list_max_In x l : In x l -> x <= list_max l.
Proof.
  induction l as [|y l IH]; [intros []|]. intros [->|H].
  - cbn [list_max fold_right]. apply Nat.le_max_l.
  - cbn [list_max fold_right]. etransitivity; [exact (IH H)|apply Nat.le_max_r].
Qed.
Lemma fresh_new fn b l : In b fn -> In l (labelsOf b) -> l <> fresh fn.
Proof.
  intros I1 I2 E. assert (H : l <= list_max (flat_map labelsOf fn)).
  { apply list_max_In. apply in_flat_map. eauto. }
  unfold fresh in E. lia.
Qed.

Lemma find_app {A} (f : A -> bool) l r :
  find f (l ++ r) = match find f l with Some x => Some x | None => find f r end.
Proof. induction l as [|x l IH]; [reflexivity|]. cbn. now destruct (f x). Qed.
Lemma find_rename ls a n l bs :
  find (fun b => Nat.eqb (bLabel b) l) (map (renameIn ls a n) bs)
  = option_map (renameIn ls a n) (find (fun b => Nat.eqb (bLabel b) l) bs).
Proof.
  induction bs as [|b bs IH]; [reflexivity|]. cbn [map find]. rewrite rename_label.
  destruct (Nat.eqb (bLabel b) l); [reflexivity|exact IH].
Qed.
Lemma findBlock_some fn l b : findBlock fn l = Some b -> In b fn /\ bLabel b = l.
Proof.
  intro H. apply find_some in H. destruct H as [H E]. split; [exact H|]. now apply Nat.eqb_eq in E.
Qed.
Lemma findBlock_In fn b : NoDup (map bLabel fn) -> In b fn -> findBlock fn (bLabel b) = Some b.
Proof.
  unfold findBlock. induction fn as [|x fn IH]; intros N H; [destruct H|].
  cbn [map] in N. inversion N as [|? ? NI N']; subst. cbn [find]. destruct H as [->|H].
  - now rewrite Nat.eqb_refl.
  - destruct (Nat.eqb_spec (bLabel x) (bLabel b)) as [E|E]; [|exact (IH N' H)].
    exfalso. apply NI. rewrite E. now apply in_map.
Qed.

Lemma list_cases {A} (l : list A) : l = [] \/ exists x t, l = x :: t.
Proof. destruct l; eauto. Qed.

Section Split.
Variables (Pre : list block) (b0 : block) (Post : list block) (j : nat).
Let fn := Pre ++ b0 :: Post.
Let L := bLabel b0.
Let N := fresh fn.
Let T := bTerm b0.
Let p := firstn j (bBody b0).
Let q := skipn j (bBody b0).
Let ren := renameIn (succs T) L N.
Let fn' := splitBlock Pre b0 Post j.
Hypothesis WF : wfFunction fn.
Hypothesis noPhi : forall i, In i q -> isPhi i = false.

Lemma in_b0 : In b0 fn.
Proof. apply in_or_app. right. now left. Qed.
Lemma body_pq : bBody b0 = p ++ q.
Proof. symmetry. apply firstn_skipn. Qed.
Lemma fn'_eq : fn' = map ren Pre ++ ren (Block L p (TJump N)) :: ren (Block N q T) :: map ren Post.
Proof. unfold fn', splitBlock. rewrite map_app. reflexivity. Qed.
Lemma L_N : L <> N.
Proof. apply (fresh_new fn b0); [apply in_b0|now left]. Qed.
Lemma label_N b : In b fn -> bLabel b <> N.
Proof. intro H. apply (fresh_new fn b); [exact H|now left]. Qed.
Lemma succ_N b l : In b fn -> In l (succs (bTerm b)) -> l <> N.
Proof. intros H I1. apply (fresh_new fn b); [exact H|]. right. apply in_or_app. now left. Qed.
Lemma phi_N b from l c : In b fn -> In (IPhi from) (bBody b) -> In (l, c) from -> l <> N.
Proof.
  intros H I1 I2. apply (fresh_new fn b); [exact H|]. right. apply in_or_app. right.
  apply in_flat_map. exists (IPhi from). split; [exact I1|].
  apply in_map_iff. exists (l, c). auto.
Qed.
Lemma ren_new : ren (Block N q T) = Block N q T.
Proof.
  unfold ren, renameIn. cbn [bLabel bBody bTerm].
  destruct (existsb (Nat.eqb N) (succs T)) eqn:E; [|reflexivity].
  apply existsb_In in E. exfalso. exact (succ_N b0 N in_b0 E eq_refl).
Qed.
Lemma L_Pre : forall b, In b Pre \/ In b Post -> bLabel b <> L.
Proof.
  destruct WF as [ND _]. unfold fn in ND. rewrite map_app in ND. cbn [map] in ND.
  apply NoDup_remove_2 in ND. intros b H E. apply ND. unfold L in E. rewrite <- E.
  apply in_or_app. destruct H; [left|right]; now apply in_map.
Qed.
Lemma find_none bs l : (forall b, In b bs -> bLabel b <> l) ->
  find (fun b => Nat.eqb (bLabel b) l) bs = None.
Proof.
  intro H. destruct (find (fun b => Nat.eqb (bLabel b) l) bs) as [b|] eqn:E; [|reflexivity].
  apply find_some in E. destruct E as [E1 E2]. apply Nat.eqb_eq in E2. now destruct (H b E1).
Qed.
Lemma find_L : findBlock fn L = Some b0.
Proof. apply findBlock_In; [apply WF|apply in_b0]. Qed.
Lemma find'_L : findBlock fn' L = Some (ren (Block L p (TJump N))).
Proof.
  rewrite fn'_eq. unfold findBlock. rewrite find_app.
  unfold ren at 1. rewrite find_rename, (find_none Pre L); [|intros b I1; apply L_Pre; auto].
  cbn [option_map find]. unfold ren at 1. rewrite rename_label. cbn [bLabel].
  now rewrite Nat.eqb_refl.
Qed.
Lemma find'_N : findBlock fn' N = Some (Block N q T).
Proof.
  rewrite fn'_eq. unfold findBlock. rewrite find_app.
  unfold ren at 1. rewrite find_rename, (find_none Pre N).
  - cbn [option_map find]. unfold ren at 1. rewrite rename_label. cbn [bLabel].
    destruct (Nat.eqb_spec L N) as [E|_]; [now destruct (L_N E)|].
    rewrite ren_new. cbn [bLabel]. now rewrite Nat.eqb_refl.
  - intros b I1. apply label_N. apply in_or_app. now left.
Qed.
Lemma find'_other l : l <> L -> l <> N -> findBlock fn' l = option_map ren (findBlock fn l).
Proof.
  intros H1 H2. rewrite fn'_eq. unfold findBlock, fn. rewrite !find_app.
  unfold ren at 1. rewrite find_rename.
  destruct (find (fun b => Nat.eqb (bLabel b) l) Pre) as [b|]; [reflexivity|].
  cbn [option_map find]. unfold ren at 1. rewrite rename_label. cbn [bLabel].
  rewrite ren_new. cbn [bLabel].
  destruct (Nat.eqb_spec L l) as [E|_]; [congruence|].
  destruct (Nat.eqb_spec N l) as [E|_]; [congruence|].
  fold L. destruct (Nat.eqb_spec L l) as [E|_]; [congruence|].
  unfold ren. now rewrite find_rename.
Qed.

(* PHI nodes *)
Definition rp (pred : option label) : option label :=
  match pred with Some l => Some (if Nat.eqb l L then N else l) | None => None end.
Lemma codeOf_ren b i pred : In b fn -> In i (bBody b) -> pred <> Some N ->
  codeOf (rp pred) (renamePhi L N i) = codeOf pred i.
Proof.
  intros H I1 NP. destruct i as [from|mt c|c|c]; try reflexivity.
  destruct pred as [l|]; [|reflexivity]. cbn [renamePhi rp codeOf].
  assert (X : forall from' : list (label * nat), (forall a c, In (a, c) from' -> a <> N) ->
    find (fun z : label * nat => Nat.eqb (fst z) (if Nat.eqb l L then N else l))
      (map (fun z : label * nat => (if Nat.eqb (fst z) L then N else fst z, snd z)) from')
    = option_map (fun z : label * nat => (if Nat.eqb (fst z) L then N else fst z, snd z))
        (find (fun z : label * nat => Nat.eqb (fst z) l) from')).
  { clear I1. induction from' as [|[a c] from' IH]; intro F; [reflexivity|]. cbn [map find fst snd].
    assert (FA : a <> N) by (apply (F a c); now left).
    destruct (Nat.eqb_spec l L) as [->|NL].
    - destruct (Nat.eqb_spec a L) as [->|NA].
      + rewrite Nat.eqb_refl. cbn [option_map fst snd]. now rewrite Nat.eqb_refl.
      + destruct (Nat.eqb_spec a N) as [->|_]; [now destruct FA|].
        apply IH. intros a' c' I'. apply (F a' c'). now right.
    - destruct (Nat.eqb_spec a L) as [->|NA].
      + destruct (Nat.eqb_spec N l) as [E|_]; [congruence|].
        destruct (Nat.eqb_spec L l) as [E|_]; [congruence|].
        apply IH. intros a' c' I'. apply (F a' c'). now right.
      + destruct (Nat.eqb_spec a l) as [->|_].
        * cbn [option_map fst snd]. destruct (Nat.eqb_spec l L); [congruence|reflexivity].
        * apply IH. intros a' c' I'. apply (F a' c'). now right. }
  rewrite X.
  - change (find (fun z : nat * nat => Nat.eqb (fst z) l) from)
      with (find (fun z : label * nat => Nat.eqb (fst z) l) from).
    destruct (find (fun z : label * nat => Nat.eqb (fst z) l) from); reflexivity.
  - intros a c I2. exact (phi_N b from a c H I1 I2).
Qed.
Lemma rp_id pred : pred <> Some L -> rp pred = pred.
Proof.
  destruct pred as [l|]; [|reflexivity]. intro H. cbn [rp].
  destruct (Nat.eqb_spec l L) as [->|_]; [now destruct H|reflexivity].
Qed.
Definition isSucc (l : label) : bool := existsb (Nat.eqb l) (succs T).
Lemma codeOf_at b i pred l : In b fn -> In i (bBody b) -> pred <> Some N ->
  (pred = Some L -> isSucc l = true) ->
  codeOf (rp pred) (if isSucc l then renamePhi L N i else i) = codeOf pred i.
Proof.
  intros H I1 NP S1. destruct (isSucc l) eqn:E.
  - exact (codeOf_ren b i pred H I1 NP).
  - rewrite rp_id; [reflexivity|]. intro Q. now discriminate (S1 Q).
Qed.
Lemma codeOf_noPhi i pred pred' : isPhi i = false -> codeOf pred i = codeOf pred' i.
Proof. now destruct i. Qed.

(* related positions *)
Inductive rel : option label -> label -> list instr -> term ->
  option label -> label -> list instr -> term -> Prop :=
| RA pred self b s is t : findBlock fn self = Some b -> self <> L -> bBody b = s ++ is ->
    pred <> Some N -> (pred = Some L -> isSucc self = true) -> bTerm b = t ->
    rel pred self is t (rp pred) self (renBody (isSucc self) L N is) t
| RB pred r s t : p = r ++ s -> pred <> Some N -> (pred = Some L -> isSucc L = true) -> T = t ->
    rel pred L (s ++ q) t (rp pred) L (renBody (isSucc L) L N s) (TJump N)
| RC pred pred' r is t : q = r ++ is -> T = t ->
    rel pred L is t pred' N is t.
Lemma rel_inv pred self is t pred' self' is' t' : rel pred self is t pred' self' is' t' ->
  (exists b s, findBlock fn self = Some b /\ self <> L /\ bBody b = s ++ is /\
     pred <> Some N /\ (pred = Some L -> isSucc self = true) /\ bTerm b = t /\
     pred' = rp pred /\ self' = self /\ is' = renBody (isSucc self) L N is /\ t' = t) \/
  (exists r s, p = r ++ s /\ pred <> Some N /\ (pred = Some L -> isSucc L = true) /\
     self = L /\ s ++ q = is /\ T = t /\
     pred' = rp pred /\ self' = L /\ is' = renBody (isSucc L) L N s /\ t' = TJump N) \/
  (exists r, q = r ++ is /\ self = L /\ T = t /\ self' = N /\ is' = is /\ t' = t).
Proof.
  destruct 1 as [pred self b s is t FB NS BE NP S1 ET|pred r s t PE NP S1 ET|pred pred' r is t QE ET].
  - left. exists b, s. auto 12.
  - right. left. exists r, s. auto 12.
  - right. right. exists r. auto 12.
Qed.

Lemma enter self self' l b : findBlock fn l = Some b -> self <> N ->
  (self = L -> In l (succs T)) -> rp (Some self) = Some self' ->
  exists b', findBlock fn' l = Some b' /\
    rel (Some self) l (bBody b) (bTerm b) (Some self') l (bBody b') (bTerm b').
Proof.
  intros F NS S1 R. rewrite <- R.
  assert (S2 : Some self = Some L -> isSucc l = true).
  { intro E. injection E as E. apply existsb_In. auto. }
  assert (NN : Some self <> Some N) by congruence.
  destruct (findBlock_some _ _ _ F) as [IB LB].
  destruct (Nat.eq_dec l L) as [->|NL].
  - rewrite find_L in F. injection F as <-. eexists. split; [exact find'_L|].
    unfold ren. rewrite rename_body, rename_term. cbn [bLabel bBody bTerm].
    rewrite body_pq. exact (RB (Some self) [] p T eq_refl NN S2 eq_refl).
  - exists (ren b). split.
    + rewrite find'_other; [now rewrite F|exact NL|].
      rewrite <- LB. now apply label_N.
    + unfold ren. rewrite rename_body, rename_term, LB.
      exact (RA (Some self) l b [] (bBody b) (bTerm b) F NL eq_refl NN S2 eq_refl).
Qed.

Variable m : machine.
Lemma q_jump pred l st tr st' : runs m fn' (Some l) N q T st tr st' ->
  runs m fn' pred l [] (TJump N) st tr st'.
Proof. intro H. exact (r_jump m fn' pred l N (Block N q T) st tr st' find'_N H). Qed.

Lemma forward pred self is t st tr st' : runs m fn pred self is t st tr st' ->
  forall pred' self' is' t', rel pred self is t pred' self' is' t' ->
    runs m fn' pred' self' is' t' st tr st'.
Proof.
  induction 1 as [pred self is t st|pred self i is t st c tr st' C H IH
    |pred self l b st tr st' F H IH|pred self c ls l b st tr st' CH F H IH|pred self c st];
    intros pred' self' is' t' R.
  - constructor.
  - destruct (rel_inv _ _ _ _ _ _ _ _ R)
      as [(b & s & FB & NS & BE & NP & S1 & ET & -> & -> & -> & ->)
         |[(r & s & PE & NP & S1 & -> & E1 & ET & -> & -> & -> & ->)|(r & QE & -> & ET & -> & -> & ->)]].
    + rewrite renBody_cons. apply r_instr.
      * destruct (findBlock_some _ _ _ FB) as [IB _].
        rewrite (codeOf_at b i pred self IB); [exact C| |exact NP|exact S1].
        rewrite BE. apply in_or_app. right. now left.
      * apply IH. apply (RA pred self b (s ++ [i]) is t FB NS); [|exact NP|exact S1|exact ET].
        now rewrite <- app_assoc.
    + destruct s as [|x s].
      * cbn [app] in *. replace (renBody (isSucc L) L N []) with (@nil instr)
          by (unfold renBody; now destruct (isSucc L)).
        apply q_jump. rewrite E1. apply r_instr.
        -- rewrite (codeOf_noPhi i (Some L) pred); [exact C|].
           apply noPhi. rewrite E1. now left.
        -- apply IH. rewrite ET. exact (RC pred (Some L) [i] is t E1 ET).
      * cbn [app] in E1. injection E1 as <- <-. rewrite renBody_cons. apply r_instr.
        -- rewrite (codeOf_at b0 x pred L in_b0); [exact C| |exact NP|exact S1].
           rewrite body_pq, PE. apply in_or_app. left. apply in_or_app. right. now left.
        -- apply IH. apply (RB pred (r ++ [x]) s t); [|exact NP|exact S1|exact ET].
           now rewrite <- app_assoc.
    + apply r_instr.
      * rewrite (codeOf_noPhi i pred' pred); [exact C|]. apply noPhi. rewrite QE.
        apply in_or_app. right. now left.
      * apply IH. apply (RC pred pred' (r ++ [i]) is t); [now rewrite <- app_assoc|exact ET].
  - destruct (rel_inv _ _ _ _ _ _ _ _ R)
      as [(b1 & s & FB & NS & BE & NP & S1 & ET & -> & -> & -> & ->)
         |[(r & s & PE & NP & S1 & -> & E1 & ET & -> & -> & -> & ->)|(r & QE & -> & ET & -> & -> & ->)]].
    + destruct (findBlock_some _ _ _ FB) as [IB LB].
      replace (renBody (isSucc self) L N []) with (@nil instr)
        by (unfold renBody; now destruct (isSucc self)).
      destruct (enter self self l b F) as (b' & F' & R').
      * rewrite <- LB. now apply label_N.
      * intro E. now destruct NS.
      * apply rp_id. congruence.
      * exact (r_jump m fn' _ _ _ b' _ _ _ F' (IH _ _ _ _ R')).
    + apply app_eq_nil in E1. destruct E1 as [-> E1].
      replace (renBody (isSucc L) L N []) with (@nil instr)
        by (unfold renBody; now destruct (isSucc L)).
      apply q_jump. rewrite E1.
      destruct (enter L N l b F) as (b' & F' & R').
      * apply L_N.
      * intros _. rewrite ET. now left.
      * cbn [rp]. now rewrite Nat.eqb_refl.
      * try rewrite ET.
        exact (r_jump m fn' _ _ _ b' _ _ _ F' (IH _ _ _ _ R')).
    + destruct (enter L N l b F) as (b' & F' & R').
      * apply L_N.
      * intros _. rewrite ET. now left.
      * cbn [rp]. now rewrite Nat.eqb_refl.
      * try rewrite ET.
        exact (r_jump m fn' _ _ _ b' _ _ _ F' (IH _ _ _ _ R')).
  - destruct (rel_inv _ _ _ _ _ _ _ _ R)
      as [(b1 & s & FB & NS & BE & NP & S1 & ET & -> & -> & -> & ->)
         |[(r & s & PE & NP & S1 & -> & E1 & ET & -> & -> & -> & ->)|(r & QE & -> & ET & -> & -> & ->)]].
    + destruct (findBlock_some _ _ _ FB) as [IB LB].
      replace (renBody (isSucc self) L N []) with (@nil instr)
        by (unfold renBody; now destruct (isSucc self)).
      destruct (enter self self l b F) as (b' & F' & R').
      * rewrite <- LB. now apply label_N.
      * intro E. now destruct NS.
      * apply rp_id. congruence.
      * exact (r_br m fn' _ _ _ _ _ b' _ _ _ CH F' (IH _ _ _ _ R')).
    + apply app_eq_nil in E1. destruct E1 as [-> E1].
      replace (renBody (isSucc L) L N []) with (@nil instr)
        by (unfold renBody; now destruct (isSucc L)).
      apply q_jump. rewrite E1.
      destruct (enter L N l b F) as (b' & F' & R').
      * apply L_N.
      * intros _. rewrite ET. exact (nth_error_In _ _ CH).
      * cbn [rp]. now rewrite Nat.eqb_refl.
      * try rewrite ET.
        exact (r_br m fn' _ _ _ _ _ b' _ _ _ CH F' (IH _ _ _ _ R')).
    + destruct (enter L N l b F) as (b' & F' & R').
      * apply L_N.
      * intros _. rewrite ET. exact (nth_error_In _ _ CH).
      * cbn [rp]. now rewrite Nat.eqb_refl.
      * try rewrite ET.
        exact (r_br m fn' _ _ _ _ _ b' _ _ _ CH F' (IH _ _ _ _ R')).
  - destruct (rel_inv _ _ _ _ _ _ _ _ R)
      as [(b1 & s & FB & NS & BE & NP & S1 & ET & -> & -> & -> & ->)
         |[(r & s & PE & NP & S1 & -> & E1 & ET & -> & -> & -> & ->)|(r & QE & -> & ET & -> & -> & ->)]].
    + replace (renBody (isSucc self) L N []) with (@nil instr)
        by (unfold renBody; now destruct (isSucc self)).
      constructor.
    + apply app_eq_nil in E1. destruct E1 as [-> E1].
      replace (renBody (isSucc L) L N []) with (@nil instr)
        by (unfold renBody; now destruct (isSucc L)).
      apply q_jump. rewrite E1. rewrite ET. constructor.
    + constructor.
Qed.

Lemma leave self self' l b' : findBlock fn' l = Some b' -> self <> N -> l <> N ->
  (self = L -> In l (succs T)) -> rp (Some self) = Some self' ->
  exists b, findBlock fn l = Some b /\
    rel (Some self) l (bBody b) (bTerm b) (Some self') l (bBody b') (bTerm b').
Proof.
  intros F NS NL S1 R.
  assert (X : exists b, findBlock fn l = Some b).
  { destruct (Nat.eq_dec l L) as [->|NE]; [exists b0; exact find_L|].
    rewrite find'_other in F by assumption.
    destruct (findBlock fn l) as [b|]; [eauto|discriminate]. }
  destruct X as [b X]. exists b. split; [exact X|].
  destruct (enter self self' l b X NS S1 R) as (b'' & F' & Q). rewrite F in F'.
  injection F' as <-. exact Q.
Qed.
Lemma renBody_nil c is : renBody c L N is = [] -> is = [].
Proof. destruct c; cbn [renBody]; [apply map_eq_nil|auto]. Qed.

Lemma backward pred' self' is' t' st tr st' : runs m fn' pred' self' is' t' st tr st' ->
  forall pred self is t, rel pred self is t pred' self' is' t' ->
    runs m fn pred self is t st tr st'.
Proof.
  induction 1 as [pred' self' is' t' st|pred' self' i' is' t' st c tr st' C H IH
    |pred' self' l b' st tr st' F H IH|pred' self' c ls l b' st tr st' CH F H IH|pred' self' c st];
    intros pred self is t R.
  - constructor.
  - destruct (rel_inv _ _ _ _ _ _ _ _ R)
      as [(b & s & FB & NS & BE & NP & S1 & ET & -> & -> & E2 & ->)
         |[(r & s & PE & NP & S1 & -> & E1 & ET & -> & -> & E2 & ->)|(r & QE & -> & ET & -> & <- & ->)]].
    + destruct is as [|i is]; [destruct (isSucc self); discriminate E2|].
      rewrite renBody_cons in E2. injection E2 as -> ->.
      destruct (findBlock_some _ _ _ FB) as [IB _].
      rewrite (codeOf_at b i pred self IB) in C; [| |exact NP|exact S1].
      * apply (r_instr m fn _ _ _ _ _ _ _ _ _ C). apply IH.
        apply (RA pred self b (s ++ [i]) is t FB NS); [|exact NP|exact S1|exact ET].
        now rewrite <- app_assoc.
      * rewrite BE. apply in_or_app. right. now left.
    + destruct s as [|i s]; [destruct (isSucc L); discriminate E2|].
      rewrite renBody_cons in E2. injection E2 as -> ->.
      rewrite (codeOf_at b0 i pred L in_b0) in C; [| |exact NP|exact S1].
      * rewrite <- E1. cbn [app]. apply (r_instr m fn _ _ _ _ _ _ _ _ _ C). apply IH.
        apply (RB pred (r ++ [i]) s t); [|exact NP|exact S1|exact ET].
        now rewrite <- app_assoc.
      * rewrite body_pq, PE. apply in_or_app. left. apply in_or_app. right. now left.
    + apply (r_instr m fn pred L i' is' t st c).
      * rewrite (codeOf_noPhi i' pred pred'); [exact C|]. apply noPhi. rewrite QE.
        apply in_or_app. right. now left.
      * apply IH. apply (RC pred pred' (r ++ [i']) is' t); [now rewrite <- app_assoc|exact ET].
  - destruct (rel_inv _ _ _ _ _ _ _ _ R)
      as [(b1 & s & FB & NS & BE & NP & S1 & ET & -> & -> & E2 & E3)
         |[(r & s & PE & NP & S1 & -> & E1 & ET & -> & -> & E2 & E3)|(r & QE & -> & ET & -> & <- & E3)]].
    + destruct (findBlock_some _ _ _ FB) as [IB LB].
      symmetry in E2. apply renBody_nil in E2. subst is. rewrite <- E3 in *.
      destruct (leave self self l b' F) as (b & F1 & R').
      * rewrite <- LB. now apply label_N.
      * apply (succ_N b1); [exact IB|]. rewrite ET. now left.
      * intro E. now destruct NS.
      * apply rp_id. congruence.
      * exact (r_jump m fn _ _ _ b _ _ _ F1 (IH _ _ _ _ R')).
    + symmetry in E2. apply renBody_nil in E2. subst s. cbn [app] in E1.
      injection E3 as ->. rewrite find'_N in F. injection F as <-. cbn [bBody bTerm] in *.
      apply IH. rewrite <- E1, <- ET. exact (RC pred (Some L) [] q T eq_refl eq_refl).
    + rewrite <- E3 in *. destruct (leave L N l b' F) as (b & F1 & R').
      * apply L_N.
      * apply (succ_N b0); [apply in_b0|]. fold T. rewrite ET. now left.
      * intros _. rewrite ET. now left.
      * cbn [rp]. now rewrite Nat.eqb_refl.
      * exact (r_jump m fn _ _ _ b _ _ _ F1 (IH _ _ _ _ R')).
  - destruct (rel_inv _ _ _ _ _ _ _ _ R)
      as [(b1 & s & FB & NS & BE & NP & S1 & ET & -> & -> & E2 & E3)
         |[(r & s & PE & NP & S1 & -> & E1 & ET & -> & -> & E2 & E3)|(r & QE & -> & ET & -> & <- & E3)]].
    + destruct (findBlock_some _ _ _ FB) as [IB LB].
      symmetry in E2. apply renBody_nil in E2. subst is. rewrite <- E3 in *.
      destruct (leave self self l b' F) as (b & F1 & R').
      * rewrite <- LB. now apply label_N.
      * apply (succ_N b1); [exact IB|]. rewrite ET. exact (nth_error_In _ _ CH).
      * intro E. now destruct NS.
      * apply rp_id. congruence.
      * exact (r_br m fn _ _ _ _ _ b _ _ _ CH F1 (IH _ _ _ _ R')).
    + discriminate E3.
    + rewrite <- E3 in *. destruct (leave L N l b' F) as (b & F1 & R').
      * apply L_N.
      * apply (succ_N b0); [apply in_b0|]. fold T. rewrite ET. exact (nth_error_In _ _ CH).
      * intros _. rewrite ET. exact (nth_error_In _ _ CH).
      * cbn [rp]. now rewrite Nat.eqb_refl.
      * exact (r_br m fn _ _ _ _ _ b _ _ _ CH F1 (IH _ _ _ _ R')).
  - destruct (rel_inv _ _ _ _ _ _ _ _ R)
      as [(b1 & s & FB & NS & BE & NP & S1 & ET & -> & -> & E2 & E3)
         |[(r & s & PE & NP & S1 & -> & E1 & ET & -> & -> & E2 & E3)|(r & QE & -> & ET & -> & <- & E3)]].
    + symmetry in E2. apply renBody_nil in E2. subst is. rewrite <- E3. constructor.
    + discriminate E3.
    + rewrite <- E3. constructor.
Qed.

Lemma split_same st tr st' : executes m fn st tr st' <-> executes m fn' st tr st'.
Proof.
  assert (X : exists bh ph bh' ph', fn = bh :: ph /\ fn' = bh' :: ph' /\
    rel None (bLabel bh) (bBody bh) (bTerm bh) None (bLabel bh') (bBody bh') (bTerm bh')).
  { rewrite fn'_eq. destruct (list_cases Pre) as [EP|(bh & ph & EP)].
    - assert (EF : fn = b0 :: Post) by (unfold fn; now rewrite EP).
      rewrite EF, EP. cbn [app map]. eexists _, _, _, _. split; [reflexivity|]. split; [reflexivity|].
      unfold ren. rewrite rename_label, rename_body, rename_term. cbn [bLabel bBody bTerm].
      rewrite body_pq. apply (RB None [] p T); [reflexivity|discriminate|discriminate|reflexivity].
    - assert (EF : fn = bh :: ph ++ b0 :: Post) by (unfold fn; now rewrite EP).
      assert (IH : In bh fn) by (rewrite EF; now left).
      rewrite EF, EP. cbn [app map].
      eexists _, _, _, _. split; [reflexivity|]. split; [reflexivity|].
      unfold ren. rewrite rename_label, rename_body, rename_term.
      apply (RA None (bLabel bh) bh [] (bBody bh) (bTerm bh));
        [apply findBlock_In; [apply WF|exact IH]| |reflexivity|discriminate|discriminate|reflexivity].
      apply L_Pre. left. rewrite EP. now left. }
  destruct X as (bh & ph & bh' & ph' & E1 & E2 & R).
  assert (Y1 : executes m fn st tr st' <->
     runs m fn None (bLabel bh) (bBody bh) (bTerm bh) st tr st').
  { unfold executes. rewrite E1. reflexivity. }
  assert (Y2 : executes m fn' st tr st' <->
     runs m fn' None (bLabel bh') (bBody bh') (bTerm bh') st tr st').
  { unfold executes. rewrite E2. reflexivity. }
  rewrite Y1, Y2. split; intro H.
  - exact (forward _ _ _ _ _ _ _ H _ _ _ _ R).
  - exact (backward _ _ _ _ _ _ _ H _ _ _ _ R).
Qed.

Lemma phisFirst_sub b is : phisFirst b -> (exists r s, bBody b = r ++ is ++ s) ->
  forall l t, phisFirst (Block l is t).
Proof.
  intros H (r & s & E) l t x i y E2 PI z IZ. cbn [bBody] in E2. rewrite E2 in E.
  apply (H (r ++ x) i (y ++ s)); [|exact PI|apply in_or_app; now right].
  rewrite E. rewrite <- !app_assoc. reflexivity.
Qed.
Lemma isPhi_ren a n i : isPhi (renamePhi a n i) = isPhi i.
Proof. now destruct i. Qed.
Lemma phisFirst_ren ls a n b : phisFirst b -> phisFirst (renameIn ls a n b).
Proof.
  intros H x i y E PI z IZ. rewrite rename_body in E. unfold renBody in E.
  destruct (existsb (Nat.eqb (bLabel b)) ls); [|exact (H x i y E PI z IZ)].
  apply map_eq_app in E. destruct E as (x' & iy & E & <- & E2).
  apply map_eq_cons in E2. destruct E2 as (i' & y' & -> & <- & _).
  rewrite isPhi_ren in PI. apply in_map_iff in IZ. destruct IZ as (z' & <- & IZ).
  rewrite isPhi_ren. exact (H x' i' y' E PI z' IZ).
Qed.
Lemma split_wf : wfFunction fn'.
Proof.
  destruct WF as [ND PF]. split.
  - assert (E : map bLabel fn' = map bLabel Pre ++ L :: N :: map bLabel Post).
    { rewrite fn'_eq, map_app. cbn [map]. rewrite !map_map. unfold ren.
      rewrite !rename_label. cbn [bLabel]. f_equal; [|f_equal; f_equal];
        apply map_ext; intro b; apply rename_label. }
    rewrite E. unfold fn in ND. rewrite map_app in ND. cbn [map] in ND. fold L in ND.
    assert (NI : ~ In N (map bLabel Pre ++ L :: map bLabel Post)).
    { intro H. assert (H' : In N (map bLabel fn)) by (unfold fn; now rewrite map_app).
      apply in_map_iff in H'. destruct H' as (b & EB & IB). exact (label_N b IB EB). }
    change (map bLabel Pre ++ L :: N :: map bLabel Post)
      with (map bLabel Pre ++ [L] ++ N :: map bLabel Post).
    rewrite app_assoc. apply NoDup_Add with (a := N) (l := map bLabel Pre ++ L :: map bLabel Post).
    + replace (map bLabel Pre ++ L :: map bLabel Post)
        with ((map bLabel Pre ++ [L]) ++ map bLabel Post) by (rewrite <- app_assoc; reflexivity).
      apply Add_app.
    + split; assumption.
  - intros b H. rewrite fn'_eq in H. apply in_app_or in H.
    assert (R : forall b1, phisFirst b1 -> phisFirst (ren b1)) by (intro b1; apply phisFirst_ren).
    assert (PB : phisFirst b0) by (apply PF, in_b0).
    destruct H as [H|[<-|[<-|H]]].
    + apply in_map_iff in H. destruct H as (b1 & <- & I1). apply R, PF. apply in_or_app. now left.
    + apply R. apply (phisFirst_sub b0); [exact PB|]. exists [], q. exact body_pq.
    + apply R. apply (phisFirst_sub b0); [exact PB|]. exists p, []. rewrite app_nil_r. exact body_pq.
    + apply in_map_iff in H. destruct H as (b1 & <- & I1). apply R, PF. apply in_or_app. right.
      now right.
Qed.
End Split.

(** Steps of the pass. *)
Inductive split : list block -> list block -> Prop :=
| Split Pre b Post j x y p q : bBody b = (p ++ [x]) ++ y :: q -> j = length (p ++ [x]) ->
    isCall x = true \/ isCall y = true ->
    split (Pre ++ b :: Post) (splitBlock Pre b Post j).
Inductive splits : list block -> list block -> Prop :=
| splits_0 fn : splits fn fn
| splits_1 fn fn1 fn2 : split fn fn1 -> splits fn1 fn2 -> splits fn fn2.
Lemma splits_app a b c : splits a b -> splits b c -> splits a c.
Proof. induction 1 as [|a a1 b H1 H2 IH]; [auto|]. intro H. exact (splits_1 _ _ _ H1 (IH H)). Qed.

Lemma split_parts b p q j : bBody b = p ++ q -> j = length p ->
  firstn j (bBody b) = p /\ skipn j (bBody b) = q.
Proof.
  intros -> ->. rewrite firstn_app, skipn_app, Nat.sub_diag, firstn_all, skipn_all.
  cbn [firstn skipn app]. now rewrite app_nil_r.
Qed.

Lemma split_step fn fn' : wfFunction fn -> split fn fn' ->
  wfFunction fn' /\ forall m st tr st', executes m fn st tr st' <-> executes m fn' st tr st'.
Proof.
  intros W H. destruct H as [Pre b Post j x y p q E J C].
  destruct (split_parts b (p ++ [x]) (y :: q) j E J) as [F S].
  assert (PF : phisFirst b) by (apply W; apply in_or_app; right; now left).
  assert (NQ : forall i, In i (skipn j (bBody b)) -> isPhi i = false).
  { intros i I1. rewrite S in I1. destruct (isPhi i) eqn:PI; [|reflexivity]. exfalso.
    destruct I1 as [->|I1].
    - destruct C as [C|C]; [|now destruct i].
      assert (X : isPhi x = true).
      { apply (PF (p ++ [x]) i q E PI). apply in_or_app. right. now left. }
      destruct x; discriminate.
    - apply in_split in I1. destruct I1 as (q1 & q2 & ->).
      assert (X : forall z, In z ((p ++ [x]) ++ y :: q1) -> isPhi z = true).
      { apply (PF _ i q2); [|exact PI]. rewrite E, <- !app_assoc. reflexivity. }
      destruct C as [C|C].
      + assert (Y : isPhi x = true).
        { apply X. apply in_or_app. left. apply in_or_app. right. now left. }
        destruct x; discriminate.
      + assert (Y : isPhi y = true) by (apply X; apply in_or_app; right; now left).
        destruct y; discriminate. }
  split.
  - exact (split_wf Pre b Post j W).
  - intros m st tr st'. exact (split_same Pre b Post j W NQ m st tr st').
Qed.
Lemma splits_step fn fn' : wfFunction fn -> splits fn fn' ->
  wfFunction fn' /\ forall m st tr st', executes m fn st tr st' <-> executes m fn' st tr st'.
Proof.
  intros W H. revert W. induction H as [fn|fn fn1 fn2 H1 H2 IH]; intro W.
  - split; [exact W|]. intros. reflexivity.
  - destruct (split_step _ _ W H1) as [W1 S1]. destruct (IH W1) as [W2 S2].
    split; [exact W2|]. intros m st tr st'. rewrite S1. apply S2.
Qed.

(** One block. *)
Lemma getNextUseful_call c rest n : needToExtract c = true -> getNextUseful c rest n = Some n.
Proof. intro H. destruct c; try discriminate H; now destruct rest. Qed.
Lemma findCall_some is : forall n j, findCall is n = Some j ->
  exists p c q, is = p ++ c :: q /\ j = n + length p /\ needToExtract c = true /\
    forall x, In x p -> isCall x = false.
Proof.
  induction is as [|x is IH]; intros n j H; [discriminate|]. cbn [findCall] in H.
  destruct (needToExtract x) eqn:C.
  - injection H as <-. exists [], x, is. split; [reflexivity|]. split; [cbn; lia|].
    split; [exact C|]. intros ? [].
  - destruct (IH _ _ H) as (p & c & q & -> & -> & CC & F). exists (x :: p), c, q.
    split; [reflexivity|]. split; [cbn; lia|]. split; [exact CC|].
    intros z [<-|I1]; [now destruct x|exact (F z I1)].
Qed.
Lemma findCall_none is : forall n, findCall is n = None -> forall x, In x is -> isCall x = false.
Proof.
  induction is as [|y is IH]; intros n H x I1; [destruct I1|]. cbn [findCall] in H.
  destruct (needToExtract y) eqn:C; [discriminate|].
  destruct I1 as [<-|I1]; [now destruct y|exact (IH _ H x I1)].
Qed.
Lemma splitAt_eq Pre b Post j : splitAt (Pre ++ b :: Post) (length Pre) j = splitBlock Pre b Post j.
Proof.
  unfold splitAt. rewrite skipn_app, skipn_all, Nat.sub_diag. cbn [skipn app].
  rewrite firstn_app, Nat.sub_diag, firstn_all. cbn [firstn]. now rewrite app_nil_r.
Qed.

(* a block without other instructions near a call *)
Definition alone (b : block) : Prop :=
  forall c, In c (bBody b) -> isCall c = true -> bBody b = [c].
Lemma isCall_ren a n i : isCall (renamePhi a n i) = isCall i.
Proof. now destruct i. Qed.
Lemma call_ren a n i : isCall i = true -> renamePhi a n i = i.
Proof. now destruct i. Qed.
Lemma alone_ren ls a n b : alone b -> alone (renameIn ls a n b).
Proof.
  intros H c I1 C. rewrite rename_body in *. unfold renBody in *.
  destruct (existsb (Nat.eqb (bLabel b)) ls); [|exact (H c I1 C)].
  apply in_map_iff in I1. destruct I1 as (i & <- & I1). rewrite isCall_ren in C.
  rewrite (H i I1 C). reflexivity.
Qed.
Definition weight (bs : list block) : nat :=
  fold_right (fun b n => S (2 * length (bBody b)) + n) 0 bs.
Lemma weight_ren ls a n bs : weight (map (renameIn ls a n) bs) = weight bs.
Proof.
  induction bs as [|b bs IH]; [reflexivity|]. cbn [map weight fold_right].
  fold (weight bs). fold (weight (map (renameIn ls a n) bs)). rewrite IH, rename_body.
  unfold renBody. destruct (existsb (Nat.eqb (bLabel b)) ls); [now rewrite map_length|reflexivity].
Qed.
Lemma weight_cons b bs : weight (b :: bs) = S (2 * length (bBody b)) + weight bs.
Proof. reflexivity. Qed.

(* result of a split: the number of blocks before it is the same *)
Lemma splitBlock_parts Pre b Post j : exists Pre' b1 b2 Post',
  splitBlock Pre b Post j = Pre' ++ b1 :: b2 :: Post' /\ length Pre' = length Pre /\
  (Forall alone Pre -> Forall alone Pre') /\
  (alone (Block (bLabel b) (firstn j (bBody b)) (bTerm b)) -> alone b1) /\
  length (bBody b2) = length (skipn j (bBody b)) /\
  (forall x, isCall x = true -> forall q, skipn j (bBody b) = x :: q ->
     exists q', bBody b2 = x :: q' /\ length q' = length q) /\
  weight Post' = weight Post.
Proof.
  unfold splitBlock. cbv zeta.
  set (ren := renameIn (succs (bTerm b)) (bLabel b) (fresh (Pre ++ b :: Post))).
  rewrite map_app. cbn [map]. eexists _, _, _, _. split; [reflexivity|].
  split; [apply map_length|]. split.
  { intro H. apply Forall_forall. intros b' I1. apply in_map_iff in I1.
    destruct I1 as (b1 & <- & I1). rewrite Forall_forall in H. apply alone_ren, H, I1. }
  split.
  { intro H. apply alone_ren. intros c I1 C. exact (H c I1 C). }
  split.
  { unfold ren. rewrite rename_body. cbn [bLabel bBody]. unfold renBody.
    destruct (existsb _ _); [now rewrite map_length|reflexivity]. }
  split.
  { intros x C q E. unfold ren. rewrite rename_body. cbn [bLabel bBody]. unfold renBody.
    rewrite E. destruct (existsb _ _).
    - cbn [map]. rewrite (call_ren _ _ x C). eexists. split; [reflexivity|apply map_length].
    - eexists. split; reflexivity. }
  apply weight_ren.
Qed.

Lemma visit_ok Pre b Post : exists Pre' b' Post',
  visit (Pre ++ b :: Post) (length Pre) = Some (Pre' ++ b' :: Post') /\
  length Pre' = length Pre /\ splits (Pre ++ b :: Post) (Pre' ++ b' :: Post') /\
  (Forall alone Pre -> Forall alone (Pre' ++ [b'])) /\
  weight Post' < weight (b :: Post).
Proof.
  assert (ID : alone b -> exists Pre' b' Post', Some (Pre ++ b :: Post) = Some (Pre' ++ b' :: Post') /\
    length Pre' = length Pre /\ splits (Pre ++ b :: Post) (Pre' ++ b' :: Post') /\
    (Forall alone Pre -> Forall alone (Pre' ++ [b'])) /\ weight Post' < weight (b :: Post)).
  { intro A. exists Pre, b, Post. split; [reflexivity|]. split; [reflexivity|].
    split; [constructor|]. split.
    - intro H. apply Forall_app. split; [exact H|]. now constructor.
    - rewrite weight_cons. lia. }
  unfold visit. rewrite nth_error_app2, Nat.sub_diag by lia. cbn [nth_error].
  destruct (bBody b) as [|x is] eqn:B.
  - apply ID. intros c I1. rewrite B in I1. destruct I1.
  - destruct (needToExtract x) eqn:C.
    + rewrite getNextUseful_call by exact C.
      destruct is as [|y is].
      * cbn [length Nat.eqb]. apply ID. intros c I1 _. rewrite B in *. destruct I1 as [<-|[]].
        reflexivity.
      * change (Nat.eqb 1 (length (x :: y :: is))) with false. cbv iota.
        rewrite splitAt_eq.
        destruct (splitBlock_parts Pre b Post 1)
          as (Pre' & b1 & b2 & Post' & E & L & AP & A1 & L2 & _ & WP).
        rewrite E. exists Pre', b1, (b2 :: Post'). split; [reflexivity|]. split; [exact L|].
        split; [|split].
        -- rewrite <- E. eapply splits_1; [|constructor].
           apply (Split Pre b Post 1 x y [] is); [exact B|reflexivity|].
           left. now destruct x.
        -- intro H. apply Forall_app. split; [exact (AP H)|]. constructor; [|constructor].
           apply A1. rewrite B. cbn [firstn]. intros c [<-|[]] _. reflexivity.
        -- rewrite !weight_cons, WP, L2, B. cbn [skipn length]. lia.
    + destruct (findCall is 1) as [j|] eqn:FC.
      * destruct (findCall_some _ _ _ FC) as (p & c & q & -> & -> & CC & NC).
        assert (CI : isCall c = true) by now destruct c.
        rewrite splitAt_eq.
        assert (BE : bBody b = (x :: p) ++ c :: q) by exact B.
        destruct (split_parts b (x :: p) (c :: q) (1 + length p) BE eq_refl) as [F S].
        destruct (splitBlock_parts Pre b Post (1 + length p))
          as (Pre' & b1 & b2 & Post' & E & L & AP & A1 & L2 & HD & WP).
        assert (SK : skipn (1 + length p) (x :: p ++ c :: q) = c :: q).
        { rewrite <- B. exact S. }
        rewrite SK, getNextUseful_call by exact CC.
        assert (SP : split (Pre ++ b :: Post) (splitBlock Pre b Post (1 + length p))).
        { assert (X : exists z p', x :: p = p' ++ [z]).
          { destruct (exists_last (l := x :: p)) as (p' & z & E'); [discriminate|]. eauto. }
          destruct X as (z & p' & X).
          apply (Split Pre b Post (1 + length p) z c p' q); [now rewrite <- X| |now right].
          now rewrite <- X. }
        assert (AB : alone b1).
        { apply A1. rewrite F. intros z I1 Z. exfalso. cbn [bBody] in I1.
          destruct I1 as [<-|I1]; [now destruct x|]. rewrite (NC z I1) in Z. discriminate. }
        destruct q as [|y q].
        -- cbn [length Nat.eqb]. rewrite E. exists Pre', b1, (b2 :: Post'). split; [reflexivity|].
           split; [exact L|]. split; [|split].
           ++ rewrite <- E. eapply splits_1; [exact SP|constructor].
           ++ intro H. apply Forall_app. split; [exact (AP H)|]. now repeat constructor.
           ++ rewrite !weight_cons, WP, L2, S, B. cbn [length]. rewrite app_length. cbn. lia.
        -- change (Nat.eqb 1 (length (c :: y :: q))) with false. cbv iota.
           rewrite E. replace (Pre' ++ b1 :: b2 :: Post') with ((Pre' ++ [b1]) ++ b2 :: Post')
             by (rewrite <- app_assoc; reflexivity).
           replace (Datatypes.S (length Pre)) with (length (Pre' ++ [b1]))
             by (rewrite app_length, L; cbn; lia).
           rewrite splitAt_eq.
           destruct (HD c CI _ S) as (q' & B2 & LQ).
           destruct q' as [|y' q']; [discriminate LQ|].
           destruct (splitBlock_parts (Pre' ++ [b1]) b2 Post' 1)
             as (Pre2 & b3 & b4 & Post2 & E2 & LL & AP2 & _ & L4 & _ & WP2).
           rewrite E2.
           assert (X : exists Pre3 b5, Pre2 = Pre3 ++ [b5]).
           { destruct (exists_last (l := Pre2)) as (Pre3 & b5 & E').
             - intros ->. rewrite app_length in LL. cbn in LL. lia.
             - eauto. }
           destruct X as (Pre3 & b5 & X).
           exists Pre3, b5, (b3 :: b4 :: Post2).
           assert (EQ : Pre2 ++ b3 :: b4 :: Post2 = Pre3 ++ b5 :: b3 :: b4 :: Post2).
           { rewrite X, <- app_assoc. reflexivity. }
           assert (L3 : length (bBody b3) = 1).
           { assert (Y : nth_error (splitBlock (Pre' ++ [b1]) b2 Post' 1) (length (Pre' ++ [b1]))
                = Some b3).
             { rewrite E2, <- LL, nth_error_app2, Nat.sub_diag by lia. reflexivity. }
             unfold splitBlock in Y. rewrite map_app in Y. cbn [map] in Y.
             rewrite nth_error_app2 in Y by (rewrite map_length; lia).
             rewrite map_length, Nat.sub_diag in Y. cbn [nth_error] in Y. injection Y as <-.
             rewrite rename_body. cbn [bLabel bBody]. rewrite B2. cbn [firstn].
             unfold renBody. destruct (existsb _ _); reflexivity. }
           split; [now rewrite EQ|]. split.
           { rewrite X in LL. rewrite !app_length in LL. cbn in LL. lia. }
           split; [|split].
           ++ rewrite <- EQ, <- E2. eapply splits_1; [exact SP|].
              rewrite E. replace (Pre' ++ b1 :: b2 :: Post') with ((Pre' ++ [b1]) ++ b2 :: Post')
                by (rewrite <- app_assoc; reflexivity).
              eapply splits_1; [|constructor].
              apply (Split (Pre' ++ [b1]) b2 Post' 1 c y' [] q'); [exact B2|reflexivity|now left].
           ++ intro H. rewrite <- X. apply AP2. apply Forall_app. split; [exact (AP H)|].
              now repeat constructor.
           ++ rewrite !weight_cons, WP2, L3, L4, B2, B, WP. cbn [skipn length] in *.
              rewrite app_length. cbn [length]. injection LQ as LQ. lia.
      * apply ID. intros c I1 CI. exfalso. rewrite B in I1. destruct I1 as [<-|I1].
        -- now destruct x.
        -- rewrite (findCall_none _ _ FC c I1) in CI. discriminate.
Qed.

Lemma at_index (fn : list block) i : i < length fn -> exists Pre b Post, fn = Pre ++ b :: Post /\ length Pre = i.
Proof.
  intro H. destruct (nth_error fn i) as [b|] eqn:E.
  - apply nth_error_split in E. destruct E as (Pre & Post & -> & L). eauto.
  - apply nth_error_None in E. lia.
Qed.
Lemma loop_total fuel : forall fn i, weight (skipn i fn) <= fuel -> exists fn', loop fuel fn i = Some fn'.
Proof.
  induction fuel as [|fuel IH]; intros fn i H.
  - cbn [loop]. destruct (length fn <=? i) eqn:E; [eauto|]. apply Nat.leb_gt in E.
    destruct (at_index fn i E) as (Pre & b & Post & -> & <-).
    rewrite skipn_app, skipn_all, Nat.sub_diag in H. cbn [skipn app] in H.
    rewrite weight_cons in H. lia.
  - cbn [loop]. destruct (length fn <=? i) eqn:E; [eauto|]. apply Nat.leb_gt in E.
    destruct (at_index fn i E) as (Pre & b & Post & -> & <-).
    rewrite skipn_app, skipn_all, Nat.sub_diag in H. cbn [skipn app] in H.
    destruct (visit_ok Pre b Post) as (Pre' & b' & Post' & -> & L & _ & _ & W).
    apply IH. rewrite <- L.
    replace (Pre' ++ b' :: Post') with ((Pre' ++ [b']) ++ Post') by (rewrite <- app_assoc; reflexivity).
    rewrite skipn_app. replace (S (length Pre')) with (length (Pre' ++ [b']))
      by (rewrite app_length; cbn; lia).
    rewrite skipn_all, Nat.sub_diag. cbn [skipn app]. lia.
Qed.
Lemma loop_ok fuel : forall fn i fn', loop fuel fn i = Some fn' -> Forall alone (firstn i fn) ->
  splits fn fn' /\ Forall alone fn'.
Proof.
  induction fuel as [|fuel IH]; intros fn i fn' H A; cbn [loop] in H;
    destruct (length fn <=? i) eqn:E; try discriminate H.
  - injection H as <-. split; [constructor|]. apply Nat.leb_le in E.
    now rewrite firstn_all2 in A.
  - injection H as <-. split; [constructor|]. apply Nat.leb_le in E.
    now rewrite firstn_all2 in A.
  - apply Nat.leb_gt in E. destruct (at_index fn i E) as (Pre & b & Post & -> & <-).
    rewrite firstn_app, Nat.sub_diag, firstn_all in A. cbn [firstn] in A. rewrite app_nil_r in A.
    destruct (visit_ok Pre b Post) as (Pre' & b' & Post' & EV & L & SP & AA & _).
    rewrite EV in H. destruct (IH _ _ _ H) as [SP2 R].
    + rewrite <- L.
      replace (Pre' ++ b' :: Post') with ((Pre' ++ [b']) ++ Post')
        by (rewrite <- app_assoc; reflexivity).
      replace (S (length Pre')) with (length (Pre' ++ [b'])) by (rewrite app_length; cbn; lia).
      rewrite firstn_app, Nat.sub_diag, firstn_all. cbn [firstn]. rewrite app_nil_r. exact (AA A).
    + split; [exact (splits_app _ _ _ SP SP2)|exact R].
Qed.
