(** Proofs about parallel loops which are chosen for a shared memory system. *)
From Coq Require Import List Bool Arith Lia.
From Verif Require Import NestModel NestSpec.
Import ListNotations.

Lemma isIn_spec x l : isIn x l = true <-> In x l.
Proof.
  unfold isIn. rewrite existsb_exists. split.
  - intros (y & Hy & E). apply Nat.eqb_eq in E. subst. exact Hy.
  - intros H. exists x. split; [exact H | apply Nat.eqb_refl].
Qed.
Lemma isIn_false x l : isIn x l = false <-> ~ In x l.
Proof. rewrite <- isIn_spec. destruct (isIn x l); split; intros H; congruence. Qed.

(** ** Search for loops *)
Section LoopsP.
Variable D : decisions.
Variable f : nat.

Lemma findPar_eq id calls kids p :
  findPar D f (Loop id calls kids) p =
    if negb (inRegions D id) then findAll D f kids p
    else if negb (isParallel D id) || negb (isCanonical D id) then
      let p := finalizePI p in if childPossible p then findAll D f kids p else (p, [])
    else if isLight D id then (p, [])
    else if negb (depOk D id) then
      let p := finalizePI p in if childPossible p then findAll D f kids p else (p, [])
    else
      let q := exploit D id p in
      let new := if isSome q && negb (isSome p) then [ParLoop f id calls] else [] in
      let r := if match q with Some q => piFinal q | None => false end then (q, []) else findAll D f kids q in
      (match p with Some _ => fst r | None => None end, new ++ snd r).
Proof. reflexivity. Qed.

Fixpoint lsize (l : loop) : nat := match l with Loop _ _ ks => S (list_sum (map lsize ks)) end.
Definition lsizes (ls : list loop) : nat := list_sum (map lsize ls).

(** A chosen loop is one of loops and it is not parallel if it is inside a parallel one *)
Definition chosenIn (ls : list loop) (p : parLoop) : Prop :=
  plF p = f /\ inRegions D (plL p) = true /\ isParallel D (plL p) = true /\ isCanonical D (plL p) = true
  /\ isLight D (plL p) = false /\ depOk D (plL p) = true
  /\ (exists kids, loopIn (Loop (plL p) (plCalls p) kids) ls).

Lemma chosen_sub p id calls kids ls :
  chosenIn kids p -> In (Loop id calls kids) ls -> chosenIn ls p.
Proof.
  intros (A & B & C & E & F & G & ks & K) Hin. repeat (split; [assumption|]).
  exists ks. exact (LoopDeep _ id calls kids ls Hin K).
Qed.
Lemma loopIn_incl l ls ls' : loopIn l ls -> incl ls ls' -> loopIn l ls'.
Proof.
  intros H Hi. destruct H as [l ls H | l id calls kids ls H1 H2].
  - exact (LoopHere _ _ (Hi _ H)).
  - exact (LoopDeep _ _ _ _ _ (Hi _ H1) H2).
Qed.
Lemma chosen_incl p ls ls' : chosenIn ls p -> incl ls ls' -> chosenIn ls' p.
Proof.
  intros (A & B & C & E & F & G & ks & K) Hi. repeat (split; [assumption|]).
  exists ks. exact (loopIn_incl _ _ _ K Hi).
Qed.

Lemma find_chosen : forall n,
  (forall l p x, lsize l <= n -> In x (snd (findPar D f l p)) -> chosenIn [l] x) /\
  (forall ls p x, lsizes ls <= n -> In x (snd (findAll D f ls p)) -> chosenIn ls x).
Proof.
  induction n as [|n [IHl IHs]].
  - split.
    + intros [i c k] p x H. cbn in H. lia.
    + intros [|[i c k] ls] p x H Hin; [contradiction Hin|]. cbn in H. lia.
  - assert (HL : forall l p x, lsize l <= S n -> In x (snd (findPar D f l p)) -> chosenIn [l] x).
    { intros [id calls kids] p x H Hin.
      assert (Hk : lsizes kids <= n) by (unfold lsizes; cbn in H; lia).
      assert (Hsub : forall q, In x (snd (findAll D f kids q)) -> chosenIn [Loop id calls kids] x).
      { intros q Hq. exact (chosen_sub _ id calls kids _ (IHs _ _ _ Hk Hq) (in_eq _ [])). }
      rewrite findPar_eq in Hin.
      destruct (inRegions D id) eqn:E1; cbn [negb] in Hin; [|exact (Hsub _ Hin)].
      destruct (isParallel D id) eqn:E2; cbn [negb orb] in Hin.
      2:{ cbv zeta in Hin. destruct (childPossible (finalizePI p)); [exact (Hsub _ Hin) | contradiction Hin]. }
      destruct (isCanonical D id) eqn:E3; cbn [negb] in Hin.
      2:{ cbv zeta in Hin. destruct (childPossible (finalizePI p)); [exact (Hsub _ Hin) | contradiction Hin]. }
      destruct (isLight D id) eqn:E4; [contradiction Hin|].
      destruct (depOk D id) eqn:E5; cbn [negb] in Hin.
      2:{ cbv zeta in Hin. destruct (childPossible (finalizePI p)); [exact (Hsub _ Hin) | contradiction Hin]. }
      cbv zeta in Hin. cbn [snd] in Hin. apply in_app_or in Hin. destruct Hin as [Hin|Hin].
      - destruct (isSome (exploit D id p) && negb (isSome p)); [|contradiction Hin].
        destruct Hin as [<-|[]]. unfold chosenIn. cbn [plF plL plCalls]. repeat (split; [assumption||reflexivity|]).
        exists kids. apply LoopHere. left. reflexivity.
      - destruct (match exploit D id p with Some q => piFinal q | None => false end); [contradiction Hin | exact (Hsub _ Hin)]. }
    split; [exact HL|].
    assert (HS : forall ls p x, lsizes ls <= S n -> In x (snd (findAll D f ls p)) -> chosenIn ls x).
    { induction ls as [|l ls IH]; intros p x H Hin; [contradiction Hin|].
      cbn [findAll snd] in Hin. unfold lsizes in H. cbn [map list_sum fold_right] in H.
      apply in_app_or in Hin. destruct Hin as [Hin|Hin].
      - refine (chosen_incl _ _ _ (HL _ _ _ _ Hin) _); [unfold list_sum in H; lia|]. intros y [<-|[]]. left. reflexivity.
      - refine (chosen_incl _ _ _ (IH _ _ _ Hin) _).
        + unfold lsizes. unfold list_sum in *. lia.
        + intros y Hy. right. exact Hy. }
    exact HS.
Qed.
Lemma findAll_chosen ls p x : In x (snd (findAll D f ls p)) -> chosenIn ls x.
Proof. intros H. exact (proj2 (find_chosen (lsizes ls)) ls p x (le_n _) H). Qed.

(** Loops in a parallel item are not chosen once more *)
Lemma find_in_item : keepsItem D -> forall n,
  (forall l p, lsize l <= n -> exists q, findPar D f l (Some p) = (Some q, [])) /\
  (forall ls p, lsizes ls <= n -> exists q, findAll D f ls (Some p) = (Some q, [])).
Proof.
  intros Hkeep. induction n as [|n [IHl IHs]].
  - split.
    + intros [i c k] p H. cbn in H. lia.
    + intros [|[i c k] ls] p H; [exists p; reflexivity|]. cbn in H. lia.
  - assert (HL : forall l p, lsize l <= S n -> exists q, findPar D f l (Some p) = (Some q, [])).
    { intros [id calls kids] p H.
      assert (Hk : lsizes kids <= n) by (unfold lsizes; cbn in H; lia).
      rewrite findPar_eq. destruct (inRegions D id); cbn [negb]; [|exact (IHs kids p Hk)].
      assert (Hfin : exists q, (let p0 := finalizePI (Some p) in if childPossible p0 then findAll D f kids p0 else (p0, [])) = (Some q, [])).
      { cbn [finalizePI option_map childPossible piChild]. destruct (piChild p); [exact (IHs kids _ Hk) | eexists; reflexivity]. }
      destruct (isParallel D id); cbn [negb orb]; [|exact Hfin].
      destruct (isCanonical D id); cbn [negb]; [|exact Hfin].
      destruct (isLight D id); [exists p; reflexivity|].
      destruct (depOk D id); cbn [negb]; [|exact Hfin].
      cbv zeta. destruct (exploit D id (Some p)) as [q|] eqn:E; [|contradiction (Hkeep id p E)].
      cbn [isSome negb andb app]. destruct (piFinal q); [exists q; reflexivity|].
      destruct (IHs kids q Hk) as [q' E']. rewrite E'. exists q'. reflexivity. }
    split; [exact HL|]. induction ls as [|l ls IH]; intros p H; [exists p; reflexivity|].
    unfold lsizes in H. cbn [map list_sum fold_right] in H.
    destruct (HL l p) as [q E]; [unfold list_sum in H; lia|].
    destruct (IH q) as [q' E']; [unfold lsizes, list_sum in *; lia|].
    cbn [findAll]. rewrite E. cbn [fst snd]. rewrite E'. exists q'. reflexivity.
Qed.

Lemma loopIn_single l x : loopIn l [x] -> l = x \/ loopIn l (loopKids x).
Proof.
  intros Hl. inversion Hl as [? ? Hin | ? i2 c2 k2 ? Hin Hd]; subst.
  - destruct Hin as [E3|[]]. left. symmetry. exact E3.
  - destruct Hin as [E|[]]. subst x. right. exact Hd.
Qed.
Lemma loopIn_ids l ls : loopIn l ls -> In (loopId l) (flat_map loopIds ls).
Proof.
  induction 1 as [l ls H | l id calls kids ls H _ IH].
  - apply in_flat_map. exists l. split; [exact H|]. destruct l. left. reflexivity.
  - apply in_flat_map. exists (Loop id calls kids). split; [exact H|]. right. exact IH.
Qed.
Lemma chosen_ids ls p x : In x (snd (findAll D f ls p)) -> In (plL x) (flat_map loopIds ls).
Proof.
  intros H. destruct (findAll_chosen _ _ _ H) as (_ & _ & _ & _ & _ & _ & kids & K). exact (loopIn_ids _ _ K).
Qed.
Lemma NoDup_app_l {A} (a b : list A) : NoDup (a ++ b) -> NoDup a /\ NoDup b /\ forall x, In x a -> ~ In x b.
Proof.
  induction a as [|y a IH]; cbn; intros H.
  - split; [constructor|]. split; [exact H | intros x []].
  - inversion H as [|? ? H1 H2]; subst. destruct (IH H2) as (A1 & A2 & A3). split; [|split; [exact A2|]].
    + constructor; [|exact A1]. intros C. apply H1. apply in_or_app. left. exact C.
    + intros x [<-|Hx]; [|exact (A3 x Hx)]. intros C. apply H1. apply in_or_app. right. exact C.
Qed.

Definition innerOk (ls : list loop) (res : list parLoop) : Prop :=
  forall p q l l', In p res -> In q res -> loopIn l ls -> loopId l = plL p -> loopIn l' (loopKids l) -> loopId l' <> plL q.
Lemma find_inner : keepsItem D -> forall n,
  (forall l, lsize l <= n -> NoDup (loopIds l) -> innerOk [l] (snd (findPar D f l None)) /\ fst (findPar D f l None) = None) /\
  (forall ls, lsizes ls <= n -> NoDup (flat_map loopIds ls) -> innerOk ls (snd (findAll D f ls None)) /\ fst (findAll D f ls None) = None).
Proof.
  intros Hkeep. induction n as [|n [IHl IHs]].
  - split.
    + intros [i c k] H. cbn in H. lia.
    + intros [|[i c k] ls] H; [intros _; split; [intros p q l l' [] | reflexivity]|]. cbn in H. lia.
  - assert (HL : forall l, lsize l <= S n -> NoDup (loopIds l) -> innerOk [l] (snd (findPar D f l None)) /\ fst (findPar D f l None) = None).
    { intros [id calls kids] H Hn.
      assert (Hk : lsizes kids <= n) by (unfold lsizes; cbn in H; lia).
      cbn [loopIds] in Hn. inversion Hn as [|? ? Hn1 Hn2]; subst.
      destruct (IHs kids Hk Hn2) as [I1 I2].
      assert (Hsub : innerOk [Loop id calls kids] (snd (findAll D f kids None))).
      { intros p q l l' Hp Hq Hl Hid Hl'.
        assert (Hl2 : l = Loop id calls kids \/ loopIn l kids).
        { exact (loopIn_single _ _ Hl). }
        destruct Hl2 as [->|Hl2]; [|exact (I1 p q l l' Hp Hq Hl2 Hid Hl')].
        cbn in Hid. apply chosen_ids in Hp. rewrite <- Hid in Hp. contradiction. }
      rewrite findPar_eq. destruct (inRegions D id); cbn [negb]; [|split; assumption].
      cbn [finalizePI option_map childPossible]. cbv zeta.
      destruct (isParallel D id); cbn [negb orb]; [|split; assumption].
      destruct (isCanonical D id); cbn [negb]; [|split; assumption].
      destruct (isLight D id); [split; [intros p q l l' [] | reflexivity]|].
      destruct (depOk D id); cbn [negb]; [|split; assumption].
      split; [|reflexivity]. cbn [snd].
      destruct (exploit D id None) as [q|] eqn:E; cbn [isSome negb andb].
      - assert (Hone : snd (if piFinal q then (Some q, []) else findAll D f kids (Some q)) = []).
        { destruct (piFinal q); [reflexivity|]. destruct (proj2 (find_in_item Hkeep n) kids q Hk) as [q' ->]. reflexivity. }
        rewrite Hone. intros p1 p2 l l' [<-|[]] [<-|[]] Hl Hid Hl' Hid'. cbn [plL] in *.
        destruct (loopIn_single _ _ Hl) as [->|Hd].
        + cbn in Hl'. apply loopIn_ids in Hl'. rewrite Hid' in Hl'. contradiction.
        + cbn in Hd. apply loopIn_ids in Hd. rewrite Hid in Hd. contradiction.
      - cbn [app]. exact Hsub. }
    split; [exact HL|].
    induction ls as [|l ls IH]; intros H Hn; [split; [intros p q x x' [] | reflexivity]|].
    unfold lsizes in H. cbn [map list_sum fold_right] in H. cbn [flat_map] in Hn.
    destruct (NoDup_app_l _ _ Hn) as (N1 & N2 & N3).
    destruct (HL l) as [A1 A2]; [unfold list_sum in H; lia | exact N1|].
    destruct IH as [B1 B2]; [unfold lsizes, list_sum in *; lia | exact N2|].
    cbn [findAll]. rewrite A2. cbn [fst snd]. split; [|exact B2].
    assert (F1 : forall x, In x (snd (findPar D f l None)) -> In (plL x) (loopIds l)).
    { intros x Hx. destruct (proj1 (find_chosen (lsize l)) l None x (le_n _) Hx) as (_ & _ & _ & _ & _ & _ & kids & K).
      apply loopIn_ids in K. cbn [flat_map] in K. rewrite app_nil_r in K. exact K. }
    assert (Hkid : forall y y' zs, loopIn y zs -> loopIn y' (loopKids y) -> loopIn y' zs).
    { induction 1 as [y zs Hy | y i c k zs Hy _ IHy]; intros Hy'.
      - destruct y as [i c k]. exact (LoopDeep _ _ _ _ _ Hy Hy').
      - exact (LoopDeep _ _ _ _ _ Hy (IHy Hy')). }
    intros p q x x' Hp Hq Hx Hid Hx' Hid'.
    assert (Hx2 : loopIn x [l] \/ loopIn x ls).
    { inversion Hx as [? ? Hin | ? i2 c2 k2 ? Hin Hd]; subst.
      - destruct Hin as [Hin|Hin]; [left; apply LoopHere; left; exact Hin | right; apply LoopHere; exact Hin].
      - destruct Hin as [Hin|Hin]; [left; apply (LoopDeep _ i2 c2 k2); [left; exact Hin | exact Hd] | right; exact (LoopDeep _ _ _ _ _ Hin Hd)]. }
    assert (G1 : forall y, loopIn y [l] -> In (loopId y) (loopIds l)).
    { intros y Hy. apply loopIn_ids in Hy. cbn [flat_map] in Hy. rewrite app_nil_r in Hy. exact Hy. }
    destruct Hx2 as [Hx2|Hx2].
    + assert (Hp' : In p (snd (findPar D f l None))).
      { apply in_app_or in Hp. destruct Hp as [Hp|Hp]; [exact Hp|]. apply chosen_ids in Hp. rewrite <- Hid in Hp. contradiction (N3 _ (G1 _ Hx2) Hp). }
      assert (Hq' : In q (snd (findPar D f l None))).
      { apply in_app_or in Hq. destruct Hq as [Hq|Hq]; [exact Hq|]. apply chosen_ids in Hq. rewrite <- Hid' in Hq.
        contradiction (N3 _ (G1 _ (Hkid _ _ _ Hx2 Hx')) Hq). }
      exact (A1 p q x x' Hp' Hq' Hx2 Hid Hx' Hid').
    + assert (Hp' : In p (snd (findAll D f ls None))).
      { apply in_app_or in Hp. destruct Hp as [Hp|Hp]; [|exact Hp]. apply F1 in Hp. rewrite <- Hid in Hp. contradiction (N3 _ Hp (loopIn_ids _ _ Hx2)). }
      assert (Hq' : In q (snd (findAll D f ls None))).
      { apply in_app_or in Hq. destruct Hq as [Hq|Hq]; [|exact Hq]. apply F1 in Hq. rewrite <- Hid' in Hq.
        contradiction (N3 _ Hq (loopIn_ids _ _ (Hkid _ _ _ Hx2 Hx'))). }
      exact (B1 p q x x' Hp' Hq' Hx2 Hid Hx' Hid').
Qed.
End LoopsP.

(** ** A graph of components without mutual recursion *)
Section Single.
Variable fn : nat -> func.
Variable D : decisions.
Variable fs : list nat.
Hypothesis Hnd : NoDup fs.
Hypothesis Hpost : forall pre f post g, fs = pre ++ f :: post -> callsOf fn f g -> g = f \/ In g pre.

Definition entryOk (fs : list nat) (i : nat) (e : entry) : Prop :=
  nth_error fs i = Some (aF e) /\ aId e = i /\ aCycle e = isIn (aF e) (fCalls (fn (aF e)))
  /\ (forall j, In j (aAdj e) <-> exists g, callsOf fn (aF e) g /\ g <> aF e /\ nth_error fs j = Some g).
Definition goodAdj (fs : list nat) (adj : list entry) : Prop :=
  length adj = length fs /\ forall i e, nth_error adj i = Some e -> entryOk fs i e.

Lemma idOf_app f a b : idOf f (a ++ b) = match idOf f a with Some i => Some i | None => idOf f b end.
Proof. induction a as [|e a IH]; [reflexivity|]. cbn. destruct (Nat.eqb (aF e) f); [reflexivity | exact IH]. Qed.
Lemma idOf_none f a : idOf f a = None -> ~ In f (map aF a).
Proof.
  induction a as [|e a IH]; cbn; intros H; [intros []|]. destruct (Nat.eqb (aF e) f) eqn:E; [discriminate|].
  apply Nat.eqb_neq in E. intros [H1|H1]; [contradiction | exact (IH H H1)].
Qed.
Lemma idOf_some f a i : idOf f a = Some i -> exists e, In e a /\ aF e = f /\ aId e = i.
Proof.
  induction a as [|e a IH]; cbn; [discriminate|]. destruct (Nat.eqb (aF e) f) eqn:E.
  - intros H. injection H as <-. apply Nat.eqb_eq in E. exists e. tauto.
  - intros H. destruct (IH H) as (x & A & B). exists x. tauto.
Qed.

Lemma good_len pre a : goodAdj pre a -> length a = length pre.
Proof. intros H. exact (proj1 H). Qed.
Lemma good_map pre a : goodAdj pre a -> map aF a = pre.
Proof.
  intros [Hl H].
  revert pre Hl H. 
  assert (G : forall k a pre, length a = length pre -> (forall i e, nth_error a i = Some e -> nth_error pre i = Some (aF e)) -> k = length a -> map aF a = pre).
  { induction k as [|k IH]; intros [|e l] [|x pre] Hl H Hk; try discriminate; [reflexivity|].
    cbn [map]. f_equal.
    - specialize (H 0 e eq_refl). cbn in H. injection H as ->. reflexivity.
    - apply IH; cbn in *; try lia. intros i y Hy. exact (H (S i) y Hy). }
  intros pre Hl H. apply (G (length a)); [exact Hl| |reflexivity]. intros i e Hi. exact (proj1 (H i e Hi)).
Qed.
Lemma idOf_good pre a g i : NoDup pre -> goodAdj pre a -> (idOf g a = Some i <-> nth_error pre i = Some g).
Proof.
  intros Hn Hg. split; intros H.
  - destruct (idOf_some _ _ _ H) as (e & He & <- & <-). apply In_nth_error in He. destruct He as [k Hk].
    destruct (proj2 Hg k e Hk) as (A & B & _). rewrite B. exact A.
  - destruct (idOf g a) as [k|] eqn:E.
    + destruct (idOf_some _ _ _ E) as (e & He & <- & <-). apply In_nth_error in He. destruct He as [k' Hk].
      destruct (proj2 Hg k' e Hk) as (A & B & _). rewrite B. f_equal.
      apply (proj1 (NoDup_nth_error pre) Hn).
      * apply nth_error_Some. rewrite A. discriminate.
      * rewrite A, H. reflexivity.
    + apply idOf_none in E. rewrite (good_map _ _ Hg) in E. contradiction E. exact (nth_error_In _ _ H).
Qed.

(** Numbers of callees *)
Lemma adjOf_spec acc n : forall calls adj,
  (forall g, In g calls -> g <> n -> idOf g acc <> None) ->
  exists adj', adjOf acc n calls adj = Some adj' /\
    forall j, In j adj' <-> In j adj \/ exists g, In g calls /\ g <> n /\ idOf g acc = Some j.
Proof.
  induction calls as [|g calls IH]; intros adj H.
  - exists adj. split; [reflexivity|]. intros j. split; [tauto|]. intros [A|(g & [] & _)]. exact A.
  - assert (H' : forall x, In x calls -> x <> n -> idOf x acc <> None) by (intros x Hx; exact (H x (or_intror Hx))).
    cbn [adjOf]. destruct (Nat.eqb g n) eqn:E.
    + apply Nat.eqb_eq in E. subst g. destruct (IH adj H') as (adj' & A & B). exists adj'. split; [exact A|].
      intros j. rewrite B. split; (intros [C|(x & C & C')]; [left; exact C|]); right; exists x.
      * split; [right; exact C | exact C'].
      * destruct C as [C|C]; [destruct C'; congruence | split; assumption].
    + apply Nat.eqb_neq in E. destruct (idOf g acc) as [i|] eqn:Ei; [|contradiction (H g (or_introl eq_refl) E Ei)].
      destruct (IH (if isIn i adj then adj else adj ++ [i]) H') as (adj' & A & B). exists adj'. split; [exact A|].
      assert (Hi : forall j, In j (if isIn i adj then adj else adj ++ [i]) <-> In j adj \/ j = i).
      { intros j. destruct (isIn i adj) eqn:Ein.
        - apply isIn_spec in Ein. split; [tauto|]. intros [C|C]; subst; assumption.
        - rewrite in_app_iff. cbn. intuition congruence. }
      intros j. rewrite B, Hi. split.
      * intros [[C|C]|(x & C & C')]; [left; exact C | right; exists g; subst; cbn; tauto | right; exists x; cbn; tauto].
      * intros [C|(x & [C|C] & C')]; [tauto | subst x; left; right; destruct C' as [_ C']; congruence | right; exists x; tauto].
Qed.

Lemma nth_error_mid {A} (l : list A) x r : nth_error (l ++ x :: r) (length l) = Some x.
Proof. rewrite nth_error_app2 by lia. rewrite Nat.sub_diag. reflexivity. Qed.

Lemma addComponent_single pre f post acc :
  fs = pre ++ f :: post -> goodAdj pre acc ->
  exists acc', addComponent fn acc (length pre) [f] = Some acc' /\ goodAdj (pre ++ [f]) acc'.
Proof.
  intros Hfs Hg. unfold addComponent. cbn [map hd adjAll hasCycle].
  set (cyc := isIn f (fCalls (fn f))).
  assert (Hnf : ~ In f pre).
  { rewrite Hfs in Hnd. apply NoDup_remove_2 in Hnd. intros H. apply Hnd. apply in_or_app. left. exact H. }
  assert (Hnp : NoDup pre).
  { rewrite Hfs in Hnd. clear - Hnd. induction pre as [|x pre IH]; [constructor|]. cbn in Hnd. inversion Hnd; subst.
    constructor; [|apply IH; assumption]. intros H. apply H1. apply in_or_app. left. exact H. }
  assert (Hid : forall g, g <> f -> idOf g (acc ++ [Entry f (length pre) cyc []]) = idOf g acc).
  { intros g Hn. rewrite idOf_app. destruct (idOf g acc); [reflexivity|]. cbn.
    destruct (Nat.eqb f g) eqn:E; [apply Nat.eqb_eq in E; congruence | reflexivity]. }
  destruct (adjOf_spec (acc ++ [Entry f (length pre) cyc []]) f (fCalls (fn f)) []) as (adj' & A & B).
  { intros g Hin Hne E. rewrite (Hid g Hne) in E. apply idOf_none in E. rewrite (good_map _ _ Hg) in E.
    destruct (Hpost pre f post g Hfs Hin) as [C|C]; contradiction. }
  cbn [map] in A. rewrite A. eexists. split; [reflexivity|]. split.
  - rewrite !app_length. cbn. f_equal. exact (proj1 Hg).
  - intros i e Hi.
    assert (Hlt : i < length acc \/ i = length acc).
    { assert (i < length (acc ++ [Entry f (length pre) cyc adj'])) by (apply nth_error_Some; congruence).
      rewrite app_length in H. cbn in H. lia. }
    destruct Hlt as [Hlt|Hlt].
    + rewrite nth_error_app1 in Hi by exact Hlt. destruct (proj2 Hg i e Hi) as (P & Q & R & S').
      assert (Hlt' : i < length pre) by (rewrite <- (proj1 Hg); exact Hlt).
      split; [rewrite nth_error_app1 by exact Hlt'; exact P|]. split; [exact Q|]. split; [exact R|].
      intros j. rewrite S'. split; intros (g & G1 & G2 & G3); exists g; (split; [exact G1|]; split; [exact G2|]).
      * rewrite nth_error_app1; [exact G3|]. apply nth_error_Some. congruence.
      * assert (Hin : In g pre).
        { destruct (nth_error_split _ _ P) as (p1 & p2 & E & _).
          destruct (Hpost p1 (aF e) (p2 ++ f :: post) g) as [C|C]; [rewrite Hfs, E, <- app_assoc; reflexivity | exact G1 | contradiction |].
          rewrite E. apply in_or_app. left. exact C. }
        destruct (Nat.lt_ge_cases j (length pre)) as [Hj|Hj]; [rewrite nth_error_app1 in G3 by exact Hj; exact G3|].
        rewrite nth_error_app2 in G3 by exact Hj. destruct (j - length pre) as [|k]; cbn in G3; [injection G3 as ->; contradiction|].
        destruct k; discriminate.
    + subst i. rewrite nth_error_mid in Hi. injection Hi as <-. unfold entryOk. cbn [aF aId aCycle aAdj].
      rewrite (proj1 Hg). split; [apply nth_error_mid|]. split; [reflexivity|]. split; [reflexivity|].
      intros j. rewrite B. split.
      * intros [[]|(g & G1 & G2 & G3)]. exists g. split; [exact G1|]. split; [exact G2|].
        rewrite (Hid g G2) in G3. apply (idOf_good pre acc g j Hnp Hg) in G3.
        rewrite nth_error_app1; [exact G3|]. apply nth_error_Some. congruence.
      * intros (g & G1 & G2 & G3). right. exists g. split; [exact G1|]. split; [exact G2|].
        rewrite (Hid g G2). apply (idOf_good pre acc g j Hnp Hg).
        destruct (Nat.lt_ge_cases j (length pre)) as [Hj|Hj]; [rewrite nth_error_app1 in G3 by exact Hj; exact G3|].
        rewrite nth_error_app2 in G3 by exact Hj. destruct (j - length pre) as [|k]; cbn in G3; [injection G3 as ->; contradiction|].
        destruct k; discriminate.
Qed.

Lemma build_single : forall post pre acc,
  fs = pre ++ post -> goodAdj pre acc ->
  exists adj, buildAdjacent fn acc (length pre) (map (fun f => [f]) post) = Some adj /\ goodAdj fs adj.
Proof.
  induction post as [|f post IH]; intros pre acc Hfs Hg.
  - exists acc. split; [reflexivity|]. rewrite Hfs, app_nil_r. exact Hg.
  - cbn [map buildAdjacent]. destruct (addComponent_single pre f post acc Hfs Hg) as (acc' & A & B). rewrite A.
    destruct (IH (pre ++ [f]) acc') as (adj & C & E); [rewrite <- app_assoc; exact Hfs | exact B|].
    exists adj. split; [|exact E]. rewrite app_length in C. cbn in C. rewrite Nat.add_1_r in C. exact C.
Qed.

(** ** Reachability *)
Variable adj : list entry.
Hypothesis Hadj : goodAdj fs adj.

Definition edge (i j : nat) : Prop := exists e, nth_error adj i = Some e /\ In j (aAdj e).
Inductive epath : nat -> nat -> Prop :=
| EOne i j : edge i j -> epath i j
| EMore i j k : edge i j -> epath j k -> epath i k.

Lemma edge_calls i j : edge i j <-> exists f g, nth_error fs i = Some f /\ nth_error fs j = Some g /\ callsOf fn f g /\ g <> f.
Proof.
  split.
  - intros (e & He & Hj). destruct (proj2 Hadj i e He) as (A & _ & _ & B). apply B in Hj. destruct Hj as (g & G1 & G2 & G3).
    exists (aF e), g. tauto.
  - intros (f & g & A & B & C & E).
    destruct (nth_error adj i) as [e|] eqn:He.
    + exists e. split; [exact He|]. destruct (proj2 Hadj i e He) as (A' & _ & _ & B'). assert (aF e = f) by congruence. subst f.
      apply B'. exists g. tauto.
    + apply nth_error_None in He. rewrite (proj1 Hadj) in He. assert (i < length fs) by (apply nth_error_Some; congruence). lia.
Qed.
Lemma edge_lt i j : edge i j -> j < i.
Proof.
  intros H. apply edge_calls in H. destruct H as (f & g & A & B & C & E).
  destruct (nth_error_split _ _ A) as (pre & post & F & G). destruct (Hpost pre f post g F C) as [H|H]; [contradiction|].
  apply In_nth_error in H. destruct H as [k Hk]. assert (Hk' : k < length pre) by (apply nth_error_Some; congruence).
  assert (k = j).
  { apply (proj1 (NoDup_nth_error fs) Hnd); [rewrite F, app_length; lia|].
    rewrite B, F, nth_error_app1 by exact Hk'. exact Hk. }
  lia.
Qed.
Lemma epath_lt i j : epath i j -> j < i.
Proof. induction 1 as [i j H | i j k H _ IH]; apply edge_lt in H; lia. Qed.

(** The body of the recursion *)
Fixpoint dgo (fuel : nat) (path : list nat) (tos : list nat) (s : dstate) {struct tos} : option dstate :=
  match tos with
  | [] => Some s
  | t :: tos =>
    if isIn t (dVisited s) then dgo fuel path tos s
    else
      let fin := isIn t (dFinished s) in
      let s := DState (if fin then dFinished s else t :: dFinished s) (t :: dVisited s) (map (fun p => (p, t)) path ++ dReach s) in
      match nth_error adj t with
      | None => None
      | Some e =>
        match dfs adj fuel (aAdj e) (if fin then path else path ++ [t]) s with
        | Some s => dgo fuel path tos s
        | None => None
        end
      end
  end.
Lemma dfs_eq fuel tos path s : dfs adj (S fuel) tos path s = dgo fuel path tos s.
Proof.
  cbn [dfs]. revert s. induction tos as [|t tos IH]; intros s; [reflexivity|]. cbn [dgo].
  destruct (isIn t (dVisited s)); [apply IH|]. destruct (nth_error adj t); [|reflexivity]. cbv zeta.
  destruct (dfs adj fuel (aAdj e) _ _); [apply IH | reflexivity].
Qed.

Definition dfsOk (r : nat) (tos : list nat) (s : dstate) (res : option dstate) : Prop :=
  exists s', res = Some s' /\ dFinished s' = dFinished s /\ incl (dVisited s) (dVisited s') /\ incl tos (dVisited s')
  /\ (forall v w, In v (dVisited s') -> ~ In v (dVisited s) -> edge v w -> In w (dVisited s'))
  /\ (forall v, In v (dVisited s') -> In v (dVisited s) \/ exists t, In t tos /\ (v = t \/ epath t v))
  /\ incl (dReach s) (dReach s')
  /\ (forall p, In p (dReach s') -> In p (dReach s) \/ fst p = r /\ In (snd p) (dVisited s'))
  /\ (forall v, In v (dVisited s') -> ~ In v (dVisited s) -> In (r, v) (dReach s')).

Lemma dfs_ok r : forall fuel tos s,
  1 <= fuel -> (forall t, In t tos -> S t < fuel /\ In t (dFinished s) /\ t < length adj) ->
  (forall t w, In t (dFinished s) -> w < t -> In w (dFinished s)) ->
  dfsOk r tos s (dfs adj fuel tos [r] s).
Proof.
  induction fuel as [|fuel IHf]; intros tos s Hfu Ht Hc; [lia|].
  rewrite dfs_eq. revert s Ht Hc. induction tos as [|t tos IH]; intros s Ht Hc.
  - exists s. cbn [dgo]. split; [reflexivity|]. split; [reflexivity|]. split; [apply incl_refl|]. split; [intros x []|].
    split; [intros v w A B; contradiction|]. split; [intros v A; left; exact A|]. split; [apply incl_refl|].
    split; [intros p A; left; exact A | intros v A B; contradiction].
  - cbn [dgo].
    assert (Ht' : forall x, In x tos -> S x < S fuel /\ In x (dFinished s) /\ x < length adj) by (intros x Hx; exact (Ht x (or_intror Hx))).
    destruct (isIn t (dVisited s)) eqn:Ev.
    + apply isIn_spec in Ev. destruct (IH s Ht' Hc) as (s' & A1 & A2 & A3 & A4 & A5 & A6 & A7 & A8 & A9).
      exists s'. split; [exact A1|]. split; [exact A2|]. split; [exact A3|]. split; [intros x [<-|Hx]; [exact (A3 _ Ev) | exact (A4 _ Hx)]|].
      split; [exact A5|]. split; [|split; [exact A7 | split; [exact A8 | exact A9]]].
      intros v Hv. destruct (A6 v Hv) as [C|(x & C1 & C2)]; [left; exact C | right; exists x; split; [right; exact C1 | exact C2]].
    + apply isIn_false in Ev. destruct (Ht t (or_introl eq_refl)) as (Hlt & Hfin & Hla).
      rewrite (proj2 (isIn_spec t (dFinished s)) Hfin). cbv zeta.
      destruct (nth_error adj t) as [e|] eqn:Ee; [|apply nth_error_None in Ee; lia].
      set (s1 := DState (dFinished s) (t :: dVisited s) (map (fun p => (p, t)) [r] ++ dReach s)).
      assert (Hsub : forall u, In u (aAdj e) -> u < t) by (intros u Hu; apply edge_lt; exists e; split; assumption).
      destruct (IHf (aAdj e) s1) as (s2 & B1 & B2 & B3 & B4 & B5 & B6 & B7 & B8 & B9).
      { lia. }
      { intros u Hu. specialize (Hsub u Hu). split; [lia|]. split; [exact (Hc t u Hfin Hsub) | lia]. }
      { exact Hc. }
      cbn [s1 dFinished dVisited dReach map app] in *.
      rewrite B1.
      destruct (IH s2) as (s' & A1 & A2 & A3 & A4 & A5 & A6 & A7 & A8 & A9).
      { intros x Hx. rewrite B2. exact (Ht' x Hx). }
      { rewrite B2. exact Hc. }
      exists s'. split; [exact A1|]. split; [congruence|].
      assert (I1 : incl (dVisited s) (dVisited s')) by (intros x Hx; exact (A3 _ (B3 _ (or_intror Hx)))).
      split; [exact I1|].
      split; [intros x [<-|Hx]; [exact (A3 _ (B3 _ (or_introl eq_refl))) | exact (A4 _ Hx)]|].
      split; [|split; [|split; [|split]]].
      * intros v w Hv Hnv He. destruct (in_dec Nat.eq_dec v (dVisited s2)) as [H2|H2]; [|exact (A5 v w Hv H2 He)].
        destruct (Nat.eq_dec v t) as [->|Hvt].
        -- destruct He as (e' & He1 & He2). rewrite Ee in He1. injection He1 as <-. exact (A3 _ (B4 _ He2)).
        -- apply A3. apply (B5 v w H2); [|exact He]. intros [C|C]; [congruence | contradiction].
      * intros v Hv. destruct (A6 v Hv) as [H2|(x & C1 & C2)]; [|right; exists x; split; [right; exact C1 | exact C2]].
        destruct (B6 v H2) as [[<-|C]|(x & C1 & C2)]; [right; exists t; split; [left; reflexivity | left; reflexivity] | left; exact C|].
        right. exists t. split; [left; reflexivity|]. right.
        assert (Hedge : edge t x) by (exists e; split; assumption).
        destruct C2 as [->|C2]; [exact (EOne _ _ Hedge) | exact (EMore _ _ _ Hedge C2)].
      * intros x Hx. exact (A7 _ (B7 _ (or_intror Hx))).
      * intros p Hp. destruct (A8 p Hp) as [H2|H2]; [|right; exact H2].
        destruct (B8 p H2) as [[<-|C]|[C1 C2]]; [right; split; [reflexivity | exact (A3 _ (B3 _ (or_introl eq_refl)))] | left; exact C|].
        right. split; [exact C1 | exact (A3 _ C2)].
      * intros v Hv Hnv. destruct (in_dec Nat.eq_dec v (dVisited s2)) as [H2|H2]; [|exact (A9 v Hv H2)].
        destruct (Nat.eq_dec v t) as [->|Hvt]; [exact (A7 _ (B7 _ (or_introl eq_refl)))|].
        apply A7. apply (B9 v H2). intros [C|C]; [congruence | contradiction].
Qed.

Lemma reachAll_ok : forall l k r fin,
  l = skipn k adj -> k + length l = length adj ->
  (forall i, In i fin <-> i < k) ->
  (forall i j, In (i, j) r <-> i < k /\ epath i j) ->
  exists r', reachAll adj (S (length adj)) l (match k with 0 => None | S k => Some k end) fin r = Some r'
    /\ forall i j, In (i, j) r' <-> epath i j.
Proof.
  induction l as [|e l IH]; intros k r fin Hl Hk Hfin Hr.
  - exists r. split; [reflexivity|]. intros i j. rewrite Hr. split; [tauto|]. intros H. split; [|exact H]. cbn in Hk.
    assert (He : exists x, edge i x) by (destruct H as [i j H|i j' j H _]; eexists; exact H).
    destruct He as (x & e & He & _). assert (i < length adj) by (apply nth_error_Some; congruence). lia.
  - assert (He : nth_error adj k = Some e).
    { rewrite <- (Nat.add_0_r k). replace (k + 0) with k by lia.
      rewrite <- (firstn_skipn k adj), <- Hl. rewrite nth_error_app2; rewrite firstn_length_le by (cbn in Hk; lia); [|lia].
      rewrite Nat.sub_diag. reflexivity. }
    assert (Hl' : l = skipn (S k) adj).
    { clear - Hl. revert Hl. generalize adj. induction k as [|k IH]; intros [|x a] H; cbn in H; try discriminate.
      - injection H as _ ->. reflexivity.
      - cbn [skipn]. apply IH. exact H. }
    destruct (proj2 Hadj k e He) as (A & B & C & E).
    cbn [reachAll]. rewrite B.
    assert (E1 : (match (match k with 0 => None | S k0 => Some k0 end) with Some i => Nat.eqb i k | None => false end) = false).
    { destruct k as [|k']; [reflexivity|]. apply Nat.eqb_neq. lia. }
    rewrite E1. rewrite (proj2 (isIn_false k fin)) by (rewrite Hfin; lia).
    assert (Hlt : forall t, In t (aAdj e) -> t < k) by (intros t Ht; apply edge_lt; exists e; split; assumption).
    destruct (dfs_ok k (S (length adj)) (aAdj e) (DState (k :: fin) [] r)) as (s & A1 & A2 & A3 & A4 & A5 & A6 & A7 & A8 & A9).
    { lia. }
    { intros t Ht. specialize (Hlt t Ht). cbn in Hk. cbn [dFinished]. split; [lia|]. split; [right; apply Hfin; exact Hlt | lia]. }
    { cbn [dFinished]. intros t w [<-|Ht] Hw; right; apply Hfin; [exact Hw|]. apply Hfin in Ht. lia. }
    rewrite A1. cbn [dFinished dVisited dReach] in *.
    destruct (IH (S k) (dReach s) (dFinished s)) as (r' & R1 & R2).
    { exact Hl'. }
    { cbn in Hk. lia. }
    { intros i. rewrite A2. cbn [In]. rewrite Hfin. lia. }
    { assert (Hvis : forall v, In v (dVisited s) <-> epath k v).
      { assert (Hcl : forall x y, epath x y -> In x (dVisited s) -> In y (dVisited s)).
        { induction 1 as [i j Hij | i j m Hij _ IHp]; intros Hi.
          - exact (A5 i j Hi (fun F => F) Hij).
          - exact (IHp (A5 i j Hi (fun F => F) Hij)). }
        assert (H1 : forall t, edge k t <-> In t (aAdj e)).
        { intros t. split; [intros (e' & H1 & H2); congruence | intros H1; exists e; split; assumption]. }
        intros v. split.
        - intros Hv. destruct (A6 v Hv) as [[]|(t & T1 & [->|T2])]; apply H1 in T1; [exact (EOne _ _ T1) | exact (EMore _ _ _ T1 T2)].
        - intros Hv. destruct Hv as [i j Hij | i j m Hij Hp].
          + apply A4. destruct Hij as (e' & H3 & H4). congruence.
          + apply (Hcl _ _ Hp). apply A4. destruct Hij as (e' & H3 & H4). congruence. }
      intros i j. split.
      - intros Hin. destruct (A8 _ Hin) as [H1|[H1 H2]].
        + apply Hr in H1. split; [lia | tauto].
        + cbn in H1, H2. subst i. split; [lia | apply Hvis; exact H2].
      - intros [H1 H2]. destruct (Nat.eq_dec i k) as [->|Hne].
        + apply Hvis in H2. exact (A9 j H2 (fun F => F)).
        + apply A7. apply Hr. split; [lia | exact H2]. }
    exists r'. split; [exact R1 | exact R2].
Qed.

Lemma reachability_ok : exists r, reachability adj = Some r /\ forall i j, In (i, j) r <-> epath i j.
Proof.
  apply (reachAll_ok adj 0 [] []); [reflexivity | reflexivity | |].
  - intros i. split; [intros [] | lia].
  - intros i j. split; [intros [] | lia].
Qed.

(** A path in the graph of components is a chain of calls *)
Lemma reaches_epath f g i j : nth_error fs i = Some f -> nth_error fs j = Some g -> (reaches fn f g <-> f = g \/ epath i j).
Proof.
  intros Hi Hj. split.
  - intros H. revert i Hi. induction H as [f | f h g Hc _ IH]; intros i Hi; [left; reflexivity|].
    destruct (Nat.eq_dec h f) as [->|Hne]; [exact (IH Hj i Hi)|].
    destruct (nth_error_split _ _ Hi) as (pre & post & F & G). destruct (Hpost pre f post h F Hc) as [C|C]; [contradiction|].
    apply In_nth_error in C. destruct C as [m Hm].
    assert (Hm' : nth_error fs m = Some h).
    { rewrite F. rewrite nth_error_app1; [exact Hm|]. apply nth_error_Some. congruence. }
    assert (He : edge i m) by (apply edge_calls; exists f, h; tauto).
    right. destruct (IH Hj m Hm') as [<-|Hp].
    + assert (m = j) by (apply (proj1 (NoDup_nth_error fs) Hnd); [apply nth_error_Some; congruence | congruence]). subst m. exact (EOne _ _ He).
    + exact (EMore _ _ _ He Hp).
  - intros [<-|Hp]; [constructor|]. revert f g Hi Hj. induction Hp as [i j He | i m j He _ IH]; intros f g Hi Hj;
      apply edge_calls in He; destruct He as (a & b & A & B & C & E).
    + assert (a = f) by congruence. assert (b = g) by congruence. subst a b. exact (ReachStep fn _ _ _ C (ReachRefl fn _)).
    + assert (a = f) by congruence. subst a. exact (ReachStep fn _ _ _ C (IH b g B Hj)).
Qed.

(** ** Functions are processed *)
Variable r : list (nat * nat).
Hypothesis Hr : forall i j, In (i, j) r <-> epath i j.
Hypothesis Hloops : forall f l g, In f fs -> loopIn l (fLoops (fn f)) -> In g (loopCalls l) ->
  callsOf fn f g \/ In g fs /\ fCalls (fn g) = [] /\ fLoops (fn g) = [].

Lemma inReach_spec i j : inReach r i j = true <-> epath i j.
Proof.
  rewrite <- Hr. unfold inReach. rewrite existsb_exists. split.
  - intros ([a b] & A & B). apply andb_prop in B. cbn in B. destruct B as [B C]. apply Nat.eqb_eq in B, C. subst. exact A.
  - intros H. exists (i, j). cbn. rewrite !Nat.eqb_refl. split; [exact H | reflexivity].
Qed.
Definition pcOk (pc : list (nat * nat)) : Prop := forall g i, In (g, i) pc -> nth_error fs i = Some g.
Lemma callee_spec pc f k : pcOk pc -> nth_error fs k = Some f ->
  (isParallelCallee r pc f k = true <-> exists g i, In (g, i) pc /\ reaches fn g f).
Proof.
  intros Hpc Hk. unfold isParallelCallee. rewrite orb_true_iff, !existsb_exists. split.
  - intros [([g i] & A & B)|([g i] & A & B)]; exists g, i; (split; [exact A|]); cbn in B.
    + apply Nat.eqb_eq in B. subst g. constructor.
    + apply inReach_spec in B. apply (reaches_epath g f i k (Hpc _ _ A) Hk). right. exact B.
  - intros (g & i & A & B). apply (reaches_epath g f i k (Hpc _ _ A) Hk) in B. destruct B as [->|B].
    + left. exists (f, i). split; [exact A | apply Nat.eqb_refl].
    + right. exists (g, i). split; [exact A | apply inReach_spec; exact B].
Qed.
Lemma addCallees_spec : forall calls pc, pcOk pc -> (forall g, In g calls -> In g fs) ->
  exists pc', addCallees adj calls pc = Some pc' /\ pcOk pc' /\
    forall g, (exists i, In (g, i) pc') <-> (exists i, In (g, i) pc) \/ In g calls.
Proof.
  induction calls as [|g calls IH]; intros pc Hpc Hin.
  - exists pc. split; [reflexivity|]. split; [exact Hpc|]. intros x. split; [tauto|]. intros [H|[]]. exact H.
  - cbn [addCallees]. destruct (In_nth_error _ _ (Hin g (or_introl eq_refl))) as [i Hi].
    pose proof Hi as Hi'. apply (idOf_good fs adj g i Hnd Hadj) in Hi'. rewrite Hi'.
    set (pc1 := if existsb (fun p => Nat.eqb (fst p) g) pc then pc else pc ++ [(g, i)]).
    assert (H1 : pcOk pc1).
    { unfold pc1. destruct (existsb _ pc); [exact Hpc|]. intros x j Hx. apply in_app_or in Hx. destruct Hx as [Hx|[Hx|[]]]; [exact (Hpc x j Hx)|]. congruence. }
    assert (H2 : forall x, (exists j, In (x, j) pc1) <-> (exists j, In (x, j) pc) \/ x = g).
    { intros x. unfold pc1. destruct (existsb (fun p => Nat.eqb (fst p) g) pc) eqn:Ex.
      - apply existsb_exists in Ex. destruct Ex as ([a b] & Ea & Eb). cbn in Eb. apply Nat.eqb_eq in Eb. subst a.
        split; [tauto|]. intros [H|H]; [exact H | subst x; exists b; exact Ea].
      - split.
        + intros (j & Hj). apply in_app_or in Hj. destruct Hj as [Hj|[Hj|[]]]; [left; exists j; exact Hj | right; congruence].
        + intros [(j & Hj)|H]; [exists j; apply in_or_app; left; exact Hj | subst x; exists i; apply in_or_app; right; left; reflexivity]. }
    destruct (IH pc1 H1 (fun x Hx => Hin x (or_intror Hx))) as (pc' & A & B & C).
    exists pc'. split; [exact A|]. split; [exact B|]. intros x. rewrite C, H2. cbn. intuition congruence.
Qed.

Lemma loopIn_app l : forall ls, loopIn l ls -> ls <> [].
Proof. intros ls [x xs H | x i c k xs H _] ->; contradiction H. Qed.

Lemma new_in_fs f p : In f fs -> In p (snd (findAll D f (fLoops (fn f)) None)) -> forall g, In g (plCalls p) ->
  callsOf fn f g \/ In g fs /\ fCalls (fn g) = [] /\ fLoops (fn g) = [].
Proof.
  intros Hf Hp g Hg. destruct (findAll_chosen _ _ _ _ _ Hp) as (_ & _ & _ & _ & _ & _ & kids & K).
  exact (Hloops f _ g Hf K Hg).
Qed.
Lemma calls_in_fs f g : In f fs -> callsOf fn f g -> In g fs.
Proof.
  intros Hf Hc. apply in_split in Hf. destruct Hf as (a & b & E). destruct (Hpost a f b g E Hc) as [->|H].
  - rewrite E. apply in_elt.
  - rewrite E. apply in_or_app. left. exact H.
Qed.
Lemma reaches_leaf g h : fCalls (fn g) = [] -> reaches fn g h -> h = g.
Proof. intros Hg H. destruct H as [x | x y h Hc _]; [reflexivity|]. unfold callsOf in Hc. rewrite Hg in Hc. contradiction Hc. Qed.

(** A state of processing before functions with numbers less than [k] *)
Definition parOk (k : nat) (pc : list (nat * nat)) (par : list parLoop) : Prop :=
  pcOk pc /\ noNested fn par
  /\ (forall g, (exists i, In (g, i) pc) <-> exists p, In p par /\ In g (plCalls p))
  /\ (forall p, In p par -> (exists i, k <= i /\ nth_error fs i = Some (plF p)) /\ In p (snd (findAll D (plF p) (fLoops (fn (plF p))) None))
       /\ canProcess D (plF p) = true /\ ~ callsOf fn (plF p) (plF p)).

Lemma process_ok : forall l k pc par,
  l = rev (firstn k adj) -> k <= length adj -> parOk k pc par ->
  exists par', process fn D adj r l pc par = Some par' /\ (exists k' pc', parOk k' pc' par') /\ incl par par'
  /\ ((forall f, In f fs -> noContext D f = false) ->
      forall i f, i < k -> nth_error fs i = Some f -> canProcess D f = true -> ~ callsOf fn f f ->
      (forall p g, In p par' -> In g (plCalls p) -> ~ reaches fn g f) ->
      incl (snd (findAll D f (fLoops (fn f)) None)) par').
Proof.
  induction l as [|e l IH]; intros k pc par Hl Hk Hok.
  - exists par. split; [reflexivity|]. split; [exists k, pc; exact Hok|]. split; [apply incl_refl|].
    intros _ i f Hi. destruct k as [|k]; [lia|]. destruct adj as [|a ad]; [cbn in Hk; lia|]. cbn in Hl. destruct (rev (firstn k ad)); discriminate.
  - destruct k as [|k]; [discriminate|].
    destruct (nth_error adj k) as [e'|] eqn:He; [|apply nth_error_None in He; lia].
    assert (Hsplit : firstn (S k) adj = firstn k adj ++ [e']).
    { clear - He. revert He. generalize adj. induction k as [|k IH]; intros [|x a] H; cbn in H; try discriminate.
      - injection H as ->. reflexivity.
      - cbn [firstn app]. f_equal. exact (IH a H). }
    rewrite Hsplit, rev_app_distr in Hl. cbn in Hl. injection Hl as -> Hl.
    destruct (proj2 Hadj k e' He) as (A & B & C & _). destruct Hok as (O1 & O2 & O3 & O4).
    assert (Hfin : In (aF e') fs) by (exact (nth_error_In _ _ A)).
    assert (Hsame : forall i f, nth_error fs i = Some f -> i < S k -> i < k \/ f = aF e').
    { intros i f Hi Hlt. destruct (Nat.eq_dec i k) as [->|Hne]; [right; congruence | left; lia]. }
    assert (Hweak : parOk k pc par).
    { split; [exact O1|]. split; [exact O2|]. split; [exact O3|]. intros p Hp. destruct (O4 p Hp) as ((i & I1 & I2) & I3).
      split; [exists i; split; [lia | exact I2] | exact I3]. }
    cbn [process]. rewrite C, B.
    destruct (isIn (aF e') (fCalls (fn (aF e'))) || negb (canProcess D (aF e'))) eqn:E1.
    { destruct (IH k pc par Hl ltac:(lia) Hweak) as (par' & R1 & R2 & R3 & R4). exists par'. split; [exact R1|]. split; [exact R2|]. split; [exact R3|].
      intros Hnc i f Hi Hf Hcan Hself Hno. destruct (Hsame i f Hf Hi) as [Hi'| -> ]; [exact (R4 Hnc i f Hi' Hf Hcan Hself Hno)|].
      apply orb_prop in E1. destruct E1 as [E1|E1]; [apply isIn_spec in E1; contradiction | rewrite Hcan in E1; discriminate]. }
    apply orb_false_elim in E1. destruct E1 as [E1 E1']. apply isIn_false in E1. apply negb_false_iff in E1'.
    destruct (isParallelCallee r pc (aF e') k) eqn:E2.
    { destruct (IH k pc par Hl ltac:(lia) Hweak) as (par' & R1 & R2 & R3 & R4). exists par'. split; [exact R1|]. split; [exact R2|]. split; [exact R3|].
      intros Hnc i f Hi Hf Hcan Hself Hno. destruct (Hsame i f Hf Hi) as [Hi'| -> ]; [exact (R4 Hnc i f Hi' Hf Hcan Hself Hno)|].
      apply (callee_spec pc (aF e') k O1 A) in E2. destruct E2 as (g & j & G1 & G2).
      destruct (proj1 (O3 g) (ex_intro _ j G1)) as (p & P1 & P2). contradiction (Hno p g (R3 _ P1) P2 G2). }
    destruct (noContext D (aF e')) eqn:E3.
    { exists par. split; [reflexivity|]. split; [exists k, pc; exact Hweak|]. split; [apply incl_refl|].
      intros Hnc. rewrite (Hnc _ Hfin) in E3. discriminate. }
    set (new := snd (findAll D (aF e') (fLoops (fn (aF e'))) None)). cbv zeta.
    assert (Hnew : forall p, In p new -> plF p = aF e') by (intros p Hp; exact (proj1 (findAll_chosen _ _ _ _ _ Hp))).
    destruct (addCallees_spec (flat_map plCalls new) pc O1) as (pc' & P1 & P2 & P3).
    { intros g Hg. apply in_flat_map in Hg. destruct Hg as (p & Hp & Hg).
      destruct (new_in_fs (aF e') p Hfin Hp g Hg) as [H|[H _]]; [exact (calls_in_fs _ _ Hfin H) | exact H]. }
    rewrite P1.
    assert (Hok' : parOk k pc' (par ++ new)).
    { split; [exact P2|]. split; [|split].
      - (* functions called from a new loop have less numbers *)
        assert (Hdown : forall p q g, In p new -> In q (par ++ new) -> In g (plCalls p) -> ~ reaches fn g (plF q)).
        { intros p q g Hp Hq Hg Hre.
          assert (Hqk : exists i, k <= i /\ nth_error fs i = Some (plF q)).
          { apply in_app_or in Hq. destruct Hq as [Hq|Hq].
            - destruct (O4 q Hq) as ((i & I1 & I2) & _). exists i. split; [lia | exact I2].
            - exists k. split; [lia|]. rewrite (Hnew q Hq). exact A. }
          assert (Hql : fLoops (fn (plF q)) <> []).
          { apply in_app_or in Hq. destruct Hq as [Hq|Hq].
            - destruct (O4 q Hq) as (_ & I3 & _). destruct (findAll_chosen _ _ _ _ _ I3) as (_ & _ & _ & _ & _ & _ & kids & K). exact (loopIn_app _ _ K).
            - rewrite (Hnew q Hq). destruct (findAll_chosen _ _ _ _ _ Hq) as (_ & _ & _ & _ & _ & _ & kids & K). exact (loopIn_app _ _ K). }
          destruct Hqk as (i & I1 & I2).
          destruct (new_in_fs (aF e') p Hfin Hp g Hg) as [H|(H & H1 & H2)].
          - assert (Hgf : g <> aF e') by (intros ->; exact (E1 H)).
            destruct (nth_error_split _ _ A) as (a & b & F & G). destruct (Hpost a (aF e') b g F H) as [X|X]; [contradiction|].
            apply In_nth_error in X. destruct X as [m Hm]. assert (Hm' : m < length a) by (apply nth_error_Some; congruence).
            assert (Hm2 : nth_error fs m = Some g) by (rewrite F, nth_error_app1 by exact Hm'; exact Hm).
            apply (reaches_epath g (plF q) m i Hm2 I2) in Hre. destruct Hre as [Hre|Hre].
            + assert (m = i) by (apply (proj1 (NoDup_nth_error fs) Hnd); [apply nth_error_Some; congruence | congruence]). lia.
            + apply epath_lt in Hre. lia.
          - apply (reaches_leaf g _ H1) in Hre. rewrite Hre in Hql. contradiction. }
        intros p q g Hp Hq Hg Hre. pose proof Hp as Hp'. apply in_app_or in Hp. destruct Hp as [Hp|Hp]; [|exact (Hdown p q g Hp Hq Hg Hre)].
        apply in_app_or in Hq. destruct Hq as [Hq|Hq]; [exact (O2 p q g Hp Hq Hg Hre)|].
        rewrite (Hnew q Hq) in Hre.
        destruct (proj2 (O3 g) (ex_intro _ p (conj Hp Hg))) as (j & Hj).
        assert (Ht : isParallelCallee r pc (aF e') k = true) by (apply (callee_spec pc _ _ O1 A); exists g, j; split; assumption).
        congruence.
      - intros g. rewrite P3, O3. split.
        + intros [(p & Q1 & Q2)|H]; [exists p; split; [apply in_or_app; left; exact Q1 | exact Q2]|].
          apply in_flat_map in H. destruct H as (p & Q1 & Q2). exists p. split; [apply in_or_app; right; exact Q1 | exact Q2].
        + intros (p & Q1 & Q2). apply in_app_or in Q1. destruct Q1 as [Q1|Q1]; [left; exists p; tauto|].
          right. apply in_flat_map. exists p. tauto.
      - intros p Hp. apply in_app_or in Hp. destruct Hp as [Hp|Hp].
        + exact (proj2 (proj2 (proj2 Hweak)) p Hp).
        + rewrite (Hnew p Hp). split; [exists k; split; [lia | exact A]|]. split; [exact Hp|]. split; [exact E1' | exact E1]. }
    destruct (IH k pc' (par ++ new) Hl ltac:(lia) Hok') as (par' & R1 & R2 & R3 & R4).
    exists par'. split; [exact R1|]. split; [exact R2|]. split; [intros x Hx; apply R3; apply in_or_app; left; exact Hx|].
    intros Hnc i f Hi Hf Hcan Hself Hno. destruct (Hsame i f Hf Hi) as [Hi'| -> ]; [exact (R4 Hnc i f Hi' Hf Hcan Hself Hno)|].
    intros x Hx. apply R3. apply in_or_app. right. exact Hx.
Qed.
End Single.

(** ** Any order of components *)
Section General.
Variable fn : nat -> func.
Variable D : decisions.
Lemma process_from adj r : forall l pc par par', process fn D adj r l pc par = Some par' ->
  forall p, In p par' -> In p par \/ exists e, In e l /\ aCycle e = false /\ canProcess D (aF e) = true /\
    In p (snd (findAll D (aF e) (fLoops (fn (aF e))) None)).
Proof.
  induction l as [|e l IH]; intros pc par par' H p Hp; cbn [process] in H.
  - injection H as <-. left. exact Hp.
  - assert (Hsub : forall pc' q, process fn D adj r l pc' q = Some par' -> In p q \/ exists x, In x (e :: l) /\ aCycle x = false /\ canProcess D (aF x) = true /\
        In p (snd (findAll D (aF x) (fLoops (fn (aF x))) None))).
    { intros pc' q Hq. destruct (IH pc' q par' Hq p Hp) as [C|(x & X1 & X2)]; [left; exact C | right; exists x; split; [right; exact X1 | exact X2]]. }
    destruct (aCycle e || negb (canProcess D (aF e))) eqn:E1; [exact (Hsub _ _ H)|].
    destruct (isParallelCallee r pc (aF e) (aId e)); [exact (Hsub _ _ H)|].
    destruct (noContext D (aF e)); [injection H as <-; left; exact Hp|]. cbv zeta in H.
    destruct (addCallees adj _ pc) as [pc'|]; [|discriminate].
    destruct (Hsub _ _ H) as [C|C]; [|right; exact C]. apply in_app_or in C. destruct C as [C|C]; [left; exact C|].
    apply orb_false_elim in E1. destruct E1 as [E1 E2]. apply negb_false_iff in E2.
    right. exists e. split; [left; reflexivity|]. tauto.
Qed.
Lemma build_from : forall cs acc last adj, buildAdjacent fn acc last cs = Some adj ->
  forall e, In e adj -> In e acc \/ exists c, In c cs /\ In (aF e) c /\ aCycle e = hasCycle fn c.
Proof.
  induction cs as [|c cs IH]; intros acc last adj H e He; cbn [buildAdjacent] in H.
  - injection H as <-. left. exact He.
  - unfold addComponent in H. destruct (adjAll _ c (fCalls (fn (hd 0 c))) []) as [a|]; [|discriminate].
    destruct (IH _ _ _ H e He) as [C|(x & X1 & X2)]; [|right; exists x; split; [right; exact X1 | exact X2]].
    apply in_app_or in C. destruct C as [C|C]; [left; exact C|]. apply in_map_iff in C. destruct C as (g & <- & Hg).
    right. exists c. split; [left; reflexivity|]. split; [exact Hg | reflexivity].
Qed.
Lemma run_from comps par p : runOnModule fn D comps = Some par -> In p par ->
  In [plF p] comps /\ ~ callsOf fn (plF p) (plF p) /\ canProcess D (plF p) = true /\
  In p (snd (findAll D (plF p) (fLoops (fn (plF p))) None)).
Proof.
  unfold runOnModule. destruct (buildAdjacent fn [] 0 comps) as [adj|] eqn:E1; [|discriminate].
  destruct (reachability adj) as [r|]; [|discriminate]. intros H Hp.
  destruct (process_from _ _ _ _ _ _ H p Hp) as [[]|(e & He & Hc & Hcan & Hf)]. apply in_rev in He.
  assert (Ef : plF p = aF e) by (exact (proj1 (findAll_chosen _ _ _ _ _ Hf))). rewrite Ef.
  destruct (build_from _ _ _ _ E1 e He) as [[]|(c & C1 & C2 & C3)]. rewrite Hc in C3.
  destruct c as [|g [|h c]]; [contradiction C2 | | discriminate].
  destruct C2 as [->|[]]. cbn in C3. symmetry in C3. apply isIn_false in C3.
  split; [exact C1|]. split; [exact C3|]. split; [exact Hcan | exact Hf].
Qed.
End General.
