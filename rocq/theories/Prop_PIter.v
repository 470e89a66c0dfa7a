(** Property C25: persistent iterators. *)
From Coq Require Import Bool List Arith Lia.
From Verif Require Import PIterModel.
Import ListNotations.

(** ** Specification *)

(** An existing iterator refers to an existing element (of a bucket) or to
    nothing. *)
Record spec := mkSpec { refersTo : nat -> option (option nat); alive : nat -> bool }.
Definition spec0 : spec := mkSpec (fun _ => None) (fun _ => false).
Definition setRef (s : spec) (i : nat) (r : option (option nat)) : spec :=
  mkSpec (fun j => if j =? i then r else refersTo s j) (alive s).

Inductive op :=
| ONew (i : nat)                   (* default construction *)
| OTo (i b : nat)                  (* construction from an iterator of the container *)
| OCopy (i j : nat) | OMove (i j : nat)
| OAssign (i j : nat) | OMoveAssign (i j : nat)
| OAssignTo (i b : nat)
| ODestroy (i : nat)
| OBucket (b : nat)                (* a new element *)
| OMoveBucket (c b : nat)          (* the element moves from b to the new place c *)
| OMoveAssignBucket (c b : nat)    (* the element moves from b to the existing place c *)
| ODestroyBucket (b : nat).

Definition copyRef (s : spec) (j : nat) : option (option nat) :=
  match refersTo s j with Some r => Some r | None => Some None end.
(* iterators which refer to [b] refer to [r] then *)
Definition redirect (s : spec) (b : nat) (r : option nat) : nat -> option (option nat) :=
  fun j => match refersTo s j with
           | Some (Some c) => if c =? b then Some r else Some (Some c)
           | x => x
           end.
Definition specStep (s : spec) (o : op) : spec :=
  match o with
  | ONew i => setRef s i (Some None)
  | OTo i b => setRef s i (Some (Some b))
  | OCopy i j => setRef s i (copyRef s j)
  | OMove i j => setRef (setRef s i (copyRef s j)) j (Some None)
  | OAssign i j => setRef s i (copyRef s j)
  | OMoveAssign i j => setRef (setRef s i (copyRef s j)) j (Some None)
  | OAssignTo i b => setRef s i (Some (Some b))
  | ODestroy i => setRef s i None
  | OBucket b => mkSpec (refersTo s) (fun c => if c =? b then true else alive s c)
  | OMoveBucket c b => mkSpec (redirect s b (Some c)) (fun d => if d =? c then true else alive s d)
  | OMoveAssignBucket c b => mkSpec (redirect s b (Some c)) (alive s)
  | ODestroyBucket b => mkSpec (redirect s b None) (fun c => if c =? b then false else alive s c)
  end.
(** What a user may do; the last condition on an assignment of a valid iterator
    excludes the defects shown below: the target must be invalid and differ from
    the source, or be valid and equal to it. *)
Definition safeAssign (h : heap) (i j : nat) : Prop :=
  match hIter h i, hIter h j with
  | Some a, Some c => validIter j c = true -> (validIter i a = true <-> samePtr a c = true)
  | _, _ => False
  end.
Definition allowed (h : heap) (s : spec) (o : op) : Prop :=
  match o with
  | ONew i => refersTo s i = None
  | OTo i b => refersTo s i = None /\ alive s b = true
  | OCopy i j | OMove i j => refersTo s i = None /\ refersTo s j <> None
  | OAssign i j | OMoveAssign i j => refersTo s i <> None /\ refersTo s j <> None /\ safeAssign h i j
  | OAssignTo i b => refersTo s i <> None /\ alive s b = true
  | ODestroy i => refersTo s i <> None
  | OBucket b => alive s b = false
  | OMoveBucket c b => alive s b = true /\ alive s c = false
  | OMoveAssignBucket c b => alive s b = true /\ alive s c = true /\ c <> b /\
                             forall i, refersTo s i <> Some (Some c)
  | ODestroyBucket b => alive s b = true
  end.
Definition exec (fuel : nat) (h : heap) (o : op) : option heap :=
  match o with
  | ONew i => newIter h i
  | OTo i b => iterTo h i b
  | OCopy i j => copyIter h i j
  | OMove i j => moveIter h i j
  | OAssign i j => assignIter h i j
  | OMoveAssign i j => moveAssignIter h i j
  | OAssignTo i b => assignTo h i b
  | ODestroy i => destroyIter h i
  | OBucket b => newBucket h b
  | OMoveBucket c b => moveBucket fuel h c b
  | OMoveAssignBucket c b => moveBucket fuel h c b
  | ODestroyBucket b => destroyBucket fuel h b
  end.
Inductive reach : heap -> spec -> Prop :=
| reachStart : reach emptyHeap spec0
| reachStep : forall h s o fuel h', reach h s -> allowed h s o -> exec fuel h o = Some h' ->
    reach h' (specStep s o).

(** ** Invariant *)
Fixpoint chain (P : nat -> option nat -> Prop) (h : heap) (p : loc) (l : list nat) : Prop :=
  match l with
  | [] => True
  | i :: l => (exists q, hIter h i = Some (mkIter q (hd_error l) p) /\ P i q) /\ chain P h (LNext i) l
  end.
Definition okPtr (x : option nat) (b : nat) : nat -> option nat -> Prop :=
  fun i q => x = Some i \/ q = Some b.
Record InvL (x : option nat) (h : heap) (s : spec) (L : nat -> list nat) : Prop := {
  i1 : forall b, alive s b = false -> hHead h b = None /\ L b = [];
  i2 : forall b, alive s b = true ->
       hHead h b = Some (hd_error (L b)) /\ chain (okPtr x b) h (LHead b) (L b);
  i3 : forall i b, In i (L b) <-> refersTo s i = Some (Some b);
  i4 : forall i, refersTo s i = None -> hIter h i = None;
  i5 : forall i, refersTo s i = Some None -> exists p n, hIter h i = Some (mkIter p n (LNext i));
  i6 : forall b, NoDup (L b) }.
Definition Inv (x : option nat) (h : heap) (s : spec) : Prop := exists L, InvL x h s L.

Lemma chain_ext (P Q : nat -> option nat -> Prop) (h h' : heap) (p : loc) (l : list nat) :
  (forall i, In i l -> hIter h i = hIter h' i) -> (forall i q, In i l -> P i q -> Q i q) ->
  chain P h p l -> chain Q h' p l.
Proof.
  revert p. induction l as [|i l IH]; intros p H PQ; cbn; [auto|]. intros [(q & E & O) C].
  split.
  - exists q. rewrite <- H by now left. split; [exact E|]. apply PQ; [now left|exact O].
  - apply IH; auto; intros; [apply H; now right|apply PQ; auto; now right].
Qed.
Lemma Inv_ext x h s s' : (forall i, refersTo s i = refersTo s' i) -> (forall b, alive s b = alive s' b) ->
  Inv x h s -> Inv x h s'.
Proof.
  intros R A (L & [I1 I2 I3 I4 I5 I6]). exists L. constructor.
  - intros b H. apply I1. now rewrite A.
  - intros b H. apply I2. now rewrite A.
  - intros i b. now rewrite <- R.
  - intros i H. apply I4. now rewrite R.
  - intros i H. apply I5. now rewrite R.
  - exact I6.
Qed.
Lemma chain_in (P : nat -> option nat -> Prop) (h : heap) (p : loc) (l : list nat) (i : nat) : chain P h p l -> In i l ->
  exists q n r, hIter h i = Some (mkIter q n r) /\ P i q /\ (r = p \/ exists j, r = LNext j /\ j <> i \/ r = LNext i).
Proof.
  revert p. induction l as [|k l IH]; intros p; cbn; [tauto|]. intros [(q & E & O) C] [->|I].
  - exists q, (hd_error l), p. auto.
  - destruct (IH (LNext k) C I) as (q' & n & r & E' & O' & _). exists q', n, r. split; [exact E'|]. split; [exact O'|].
    right. destruct r as [j|b]; [|destruct (IH (LNext k) C I) as (?&?&?&E2&_&[Z|(j&[[Z _]|Z])]); rewrite E' in E2; inversion E2; subst; discriminate].
    exists j. destruct (Nat.eq_dec j i); [right; congruence|left; auto].
Qed.
(* predecessor of the element after l1 *)
Fixpoint prevOf (p : loc) (l1 : list nat) : loc :=
  match l1 with [] => p | j :: l1 => prevOf (LNext j) l1 end.
Lemma prevOf_in p l1 j : prevOf p l1 = LNext j -> In j l1 \/ (l1 = [] /\ p = LNext j).
Proof.
  revert p. induction l1 as [|k l1 IH]; intros p; cbn; [auto|]. intro H.
  destruct (IH _ H) as [I|[-> E]]; [auto|]. inversion E. auto.
Qed.
Lemma prevOf_head p l1 c : prevOf p l1 = LHead c -> l1 = [] /\ p = LHead c.
Proof.
  revert p. induction l1 as [|k l1 IH]; intros p; cbn; [auto|]. intro H.
  destruct (IH _ H) as [_ E]. discriminate.
Qed.
Lemma chain_at (P : nat -> option nat -> Prop) (h : heap) (p : loc) (l1 : list nat) (i : nat) (l2 : list nat) : chain P h p (l1 ++ i :: l2) ->
  exists q, hIter h i = Some (mkIter q (hd_error l2) (prevOf p l1)) /\ P i q.
Proof.
  revert p. induction l1 as [|k l1 IH]; intros p; cbn.
  - intros [H _]. exact H.
  - intros [_ C]. exact (IH _ C).
Qed.
(* effect of unlinking [i]: *)
Definition unlinked (h h' : heap) (i : nat) (p' : loc) (n : option nat) (j : nat) : Prop :=
  exists c c', hIter h j = Some c /\ hIter h' j = Some c' /\ mPtr c' = mPtr c /\
    mNext c' = (if loc_eqb p' (LNext j) then n else mNext c) /\
    mPrev c' = (match n with Some k => if k =? j then p' else mPrev c | None => mPrev c end).
Lemma chain_remove (P : nat -> option nat -> Prop) (h h' : heap) (i : nat) (l2 : list nat) : forall l1 p,
  chain P h p (l1 ++ i :: l2) -> NoDup (l1 ++ i :: l2) ->
  (forall j, In j (l1 ++ i :: l2) -> p <> LNext j) ->
  (forall j, In j (l1 ++ l2) -> unlinked h h' i (prevOf p l1) (hd_error l2) j) ->
  chain P h' p (l1 ++ l2).
Proof.
  induction l1 as [|j l1 IH]; intros p C N NP D; cbn [app] in *.
  - cbn in C. destruct C as [_ C]. cbn [prevOf] in D. inversion N as [|? ? NI ND]; subst.
    destruct l2 as [|k l2]; [exact I|]. cbn in C. destruct C as [(q & E & O) C].
    cbn. split.
    + destruct (D k) as (c & c' & E1 & E2 & E3 & E4 & E5); [now left|].
      rewrite E in E1. inversion E1; subst c. cbn in E3, E4, E5. rewrite Nat.eqb_refl in E5.
      exists q. split; [|exact O]. rewrite E2. destruct c' as [a1 a2 a3]. cbn in *. subst.
      f_equal. f_equal. destruct (loc_eqb p (LNext k)) eqn:Q; [|reflexivity].
      exfalso. apply (NP k); [right; now left|]. destruct p; cbn in Q; [|discriminate].
      apply Nat.eqb_eq in Q. now subst.
    + apply (chain_ext P P h h'); [|auto|exact C]. intros m M.
      destruct (D m) as (c & c' & E1 & E2 & E3 & E4 & E5); [now right|].
      rewrite E1, E2. f_equal. inversion ND as [|? ? NK _]; subst.
      cbn in E5. destruct (Nat.eqb_spec k m) as [->|NE]; [contradiction|].
      destruct (loc_eqb p (LNext m)) eqn:Q.
      * exfalso. apply (NP m); [right; now right|]. destruct p; cbn in Q; [|discriminate].
        apply Nat.eqb_eq in Q. now subst.
      * destruct c, c'. cbn in *. congruence.
  - cbn in C. destruct C as [(q & E & O) C]. inversion N as [|? ? NI ND]; subst.
    cbn. cbn [prevOf] in D. split.
    + destruct (D j) as (c & c' & E1 & E2 & E3 & E4 & E5); [now left|].
      rewrite E in E1. inversion E1; subst c. cbn in E3, E4, E5.
      exists q. split; [|exact O]. rewrite E2. destruct c' as [a1 a2 a3]. cbn in *. subst. f_equal.
      assert (H2 : match hd_error l2 with Some k => if k =? j then prevOf (LNext j) l1 else p | None => p end = p).
      { destruct l2 as [|k l2]; [reflexivity|]. cbn. destruct (Nat.eqb_spec k j); [|reflexivity]. subst.
        exfalso. apply NI. apply in_app_iff. right. right. now left. }
      rewrite H2. f_equal. destruct l1 as [|k l1]; cbn.
      * rewrite Nat.eqb_refl. reflexivity.
      * destruct (loc_eqb (prevOf (LNext k) l1) (LNext j)) eqn:Q; [|reflexivity].
        destruct (prevOf (LNext k) l1) as [m|] eqn:PE; cbn in Q; [|discriminate]. apply Nat.eqb_eq in Q. subst m.
        apply prevOf_in in PE. exfalso. apply NI. cbn. rewrite in_app_iff.
        destruct PE as [PE|[-> PE]]; [auto|]. inversion PE. auto.
    + apply IH; [exact C|exact ND| |].
      * intros m M Q. inversion Q; subst. contradiction.
      * intros m M. apply D. now right.
Qed.
Lemma NoDup_prevOf_ne l1 i l2 b : NoDup (l1 ++ i :: l2) -> prevOf (LHead b) l1 <> LNext i.
Proof.
  intros N E. apply prevOf_in in E. destruct E as [I|[_ E]]; [|discriminate].
  apply NoDup_remove_2 in N. apply N. apply in_app_iff. auto.
Qed.
Lemma loc_eqb_eq a b : loc_eqb a b = true <-> a = b.
Proof.
  destruct a, b; cbn; rewrite ?Nat.eqb_eq; split; try discriminate; try congruence.
Qed.
Lemma in_remove_mid (l1 l2 : list nat) (i j : nat) : NoDup (l1 ++ i :: l2) ->
  In j (l1 ++ l2) <-> In j (l1 ++ i :: l2) /\ j <> i.
Proof.
  intro N. apply NoDup_remove_2 in N. rewrite !in_app_iff in *. cbn. split.
  - intros [H|H]; (split; [tauto|]); intros ->; tauto.
  - intros [[H|[H|H]] NE]; auto. congruence.
Qed.

(** Unlinking a valid iterator. *)
Lemma remove_inv h s i b x L : InvL x h s L -> (x = None \/ x = Some i) ->
  refersTo s i = Some (Some b) ->
  exists h', removeFromList h i = Some h' /\
    (exists L', InvL None h' (setRef s i (Some None)) L' /\ length (L b) = S (length (L' b))) /\
    (forall j, option_map mPtr (hIter h' j) = option_map mPtr (hIter h j)).
Proof.
  intros V X R. destruct V as [I1 I2 I3 I4 I5 I6].
  assert (IB : In i (L b)) by now apply I3.
  assert (AB : alive s b = true).
  { destruct (alive s b) eqn:A; [reflexivity|]. destruct (I1 b A) as [_ E]. rewrite E in IB. destruct IB. }
  destruct (I2 b AB) as [HB CB].
  destruct (in_split _ _ IB) as (l1 & l2 & EL).
  pose proof (I6 b) as ND. rewrite EL in ND, CB, HB.
  destruct (chain_at _ _ _ _ _ _ CB) as (q & Ei & _).
  set (p' := prevOf (LHead b) l1) in *.
  assert (NP : p' <> LNext i) by (apply (NoDup_prevOf_ne l1 i l2 b ND)).
  (* the store *)
  assert (ST : exists h1, store h p' (hd_error l2) = Some h1 /\
    (forall j, hIter h1 j = if loc_eqb p' (LNext j) then option_map (fun c => mkIter (mPtr c) (hd_error l2) (mPrev c)) (hIter h j) else hIter h j) /\
    (forall c, hHead h1 c = if loc_eqb p' (LHead c) then Some (hd_error l2) else hHead h c)).
  { destruct p' as [k|c] eqn:PE.
    - unfold p' in PE. apply prevOf_in in PE. destruct PE as [PE|[_ PE]]; [|discriminate].
      assert (Ik : In k (l1 ++ i :: l2)) by (apply in_app_iff; auto).
      destruct (chain_in _ _ _ _ _ CB Ik) as (qk & nk & rk & Ek & _).
      cbn [store]. rewrite Ek. eexists. split; [reflexivity|]. split.
      + intro j. cbn [setIter hIter loc_eqb]. rewrite (Nat.eqb_sym k j). destruct (Nat.eqb_spec j k) as [->|]; [|reflexivity].
        rewrite Ek. reflexivity.
      + intro c. reflexivity.
    - unfold p' in PE. apply prevOf_head in PE. destruct PE as [-> PE]. inversion PE; subst c.
      cbn [store]. rewrite HB. eexists. split; [reflexivity|]. split.
      + intro j. reflexivity.
      + intro c. cbn. rewrite (Nat.eqb_sym b c). destruct (c =? b); reflexivity. }
  destruct ST as (h1 & S1 & S2 & S3).
  assert (Ei1 : hIter h1 i = Some (mkIter q (hd_error l2) p')).
  { rewrite S2. destruct (loc_eqb p' (LNext i)) eqn:Q; [|exact Ei]. apply loc_eqb_eq in Q. contradiction. }
  (* the link of the next one *)
  assert (SP : exists h2, (match hd_error l2 with None => Some h1 | Some n => setPrev h1 n p' end) = Some h2 /\
    (forall j, hIter h2 j = match hd_error l2 with
       | Some n => if j =? n then option_map (fun c => mkIter (mPtr c) (mNext c) p') (hIter h1 j) else hIter h1 j
       | None => hIter h1 j end) /\ (forall c, hHead h2 c = hHead h1 c)).
  { destruct l2 as [|n l2]; cbn [hd_error]; [eexists; split; [reflexivity|]; auto|].
    assert (In n (l1 ++ i :: n :: l2)) as In2 by (apply in_app_iff; right; right; now left).
    destruct (chain_in _ _ _ _ _ CB In2) as (qn & nn & rn & En & _).
    assert (NPn : loc_eqb p' (LNext n) = false).
    { destruct (loc_eqb p' (LNext n)) eqn:Q; [|reflexivity]. apply loc_eqb_eq in Q.
      unfold p' in Q. apply prevOf_in in Q. destruct Q as [Q|[_ Q]]; [|discriminate].
      exfalso. apply NoDup_remove_1 in ND. apply NoDup_remove_2 in ND. apply ND. apply in_app_iff. auto. }
    unfold setPrev. rewrite S2, NPn, En. eexists. split; [reflexivity|]. split; [|reflexivity].
    intro j. cbn. destruct (Nat.eqb_spec j n) as [->|]; [|reflexivity]. rewrite S2, NPn, En. reflexivity. }
  destruct SP as (h2 & P1 & P2 & P3).
  assert (Ei2 : hIter h2 i = Some (mkIter q (hd_error l2) p')).
  { rewrite P2. destruct l2 as [|n l2]; cbn [hd_error]; [exact Ei1|].
    destruct (Nat.eqb_spec i n) as [->|]; [|exact Ei1]. exfalso. apply NoDup_remove_2 in ND. apply ND.
    apply in_app_iff. right. now left. }
  exists (setIter h2 i (Some (mkIter q (hd_error l2) (LNext i)))). split; [|split].
  - unfold removeFromList. rewrite Ei. cbn [mPrev mNext]. rewrite S1.
    destruct (hd_error l2) as [n|]; [rewrite P1|inversion P1; subst h2]; unfold invalidate, setPrev; rewrite Ei2; reflexivity.
  - exists (fun c => if c =? b then l1 ++ l2 else L c).
    split; [|rewrite Nat.eqb_refl, EL, !app_length; cbn; lia].
    assert (FR : forall j, j <> i -> ~ In j (L b) -> hIter (setIter h2 i (Some (mkIter q (hd_error l2) (LNext i)))) j = hIter h j).
    { intros j NE NI. cbn. destruct (Nat.eqb_spec j i) as [|NEi]; [contradiction|]. rewrite P2. rewrite EL in NI.
      assert (Q : loc_eqb p' (LNext j) = false).
      { destruct (loc_eqb p' (LNext j)) eqn:Q; [|reflexivity]. apply loc_eqb_eq in Q.
        unfold p' in Q. apply prevOf_in in Q. destruct Q as [Q|[_ Q]]; [|discriminate].
        exfalso. apply NI. apply in_app_iff. auto. }
      destruct l2 as [|n l2]; cbn [hd_error]; [now rewrite S2, Q|].
      destruct (Nat.eqb_spec j n) as [->|]; [|now rewrite S2, Q].
      exfalso. apply NI. apply in_app_iff. right. right. now left. }
    assert (UL : forall j, In j (l1 ++ l2) ->
       unlinked h (setIter h2 i (Some (mkIter q (hd_error l2) (LNext i)))) i p' (hd_error l2) j).
    { intros j J. apply (in_remove_mid _ _ _ _ ND) in J. destruct J as [J NE].
      destruct (chain_in _ _ _ _ _ CB J) as (qj & nj & rj & Ej & _).
      unfold unlinked. rewrite Ej. cbn [setIter hIter]. destruct (Nat.eqb_spec j i) as [|NEi]; [contradiction|].
      rewrite P2, S2, Ej. destruct (hd_error l2) as [n|] eqn:HN; rewrite ?(Nat.eqb_sym j n).
      - destruct (n =? j), (loc_eqb p' (LNext j)); do 2 eexists; repeat (split; [reflexivity|]); reflexivity.
      - destruct (loc_eqb p' (LNext j)); do 2 eexists; repeat (split; [reflexivity|]); reflexivity. }
    constructor.
    + intros c A. cbn in A. destruct (I1 c A) as [A1 A2]. destruct (Nat.eqb_spec c b) as [->|NE]; [congruence|].
      split; [|exact A2]. cbn. rewrite P3, S3. destruct (loc_eqb p' (LHead c)) eqn:Q; [|exact A1].
      apply loc_eqb_eq in Q. unfold p' in Q. apply prevOf_head in Q. destruct Q as [_ Q]. congruence.
    + intros c A. cbn in A. destruct (I2 c A) as [A1 A2]. cbn [setIter hHead]. rewrite P3, S3.
      destruct (Nat.eqb_spec c b) as [->|NE].
      * split.
        -- destruct l1 as [|k l1]; cbn [prevOf] in p'; cbn [app].
           ++ unfold p'. cbn. rewrite Nat.eqb_refl. reflexivity.
           ++ destruct (loc_eqb p' (LHead b)) eqn:Q; [|rewrite HB; reflexivity].
              apply loc_eqb_eq in Q. unfold p' in Q. apply prevOf_head in Q. destruct Q as [_ Q]. discriminate.
        -- apply (chain_ext (okPtr x b) _ (setIter h2 i (Some (mkIter q (hd_error l2) (LNext i)))) _).
           ++ reflexivity.
           ++ intros j q' J [E|E]; [|now right]. apply (in_remove_mid _ _ _ _ ND) in J.
              destruct X as [->|X]; [discriminate|]. rewrite X in E. inversion E. subst. tauto.
           ++ apply (chain_remove (okPtr x b) h _ i l2 l1 (LHead b)); auto. discriminate.
      * split.
        -- destruct (loc_eqb p' (LHead c)) eqn:Q; [|exact A1].
           apply loc_eqb_eq in Q. unfold p' in Q. apply prevOf_head in Q. destruct Q as [_ Q]. congruence.
        -- apply (chain_ext (okPtr x c) _ h); [| |exact A2].
           ++ intros j J. symmetry. apply FR.
              ** intros ->. apply I3 in J. congruence.
              ** intro K. apply I3 in J, K. congruence.
           ++ intros j q' J [E|E]; [|now right]. destruct X as [->|X]; [discriminate|].
              rewrite X in E. inversion E; subst. apply I3 in J. congruence.
    + intros j c. cbn. destruct (Nat.eqb_spec c b) as [->|NE].
      * rewrite (in_remove_mid _ _ _ _ ND), <- EL, I3. destruct (Nat.eqb_spec j i) as [->|]; [|tauto].
        split; [tauto|discriminate].
      * rewrite I3. destruct (Nat.eqb_spec j i) as [->|]; [|tauto]. rewrite R. split; [congruence|discriminate].
    + intros j. cbn [refersTo setRef]. destruct (Nat.eqb_spec j i) as [EJ|NE]; [discriminate|]. intro J.
      rewrite FR; [now apply I4|exact NE|]. intro K. apply I3 in K. congruence.
    + intros j. cbn [refersTo setRef]. destruct (Nat.eqb_spec j i) as [EJ|NE]; intro J.
      * rewrite EJ. cbn. rewrite Nat.eqb_refl. eauto.
      * rewrite FR; [now apply I5|exact NE|]. intro K. apply I3 in K. congruence.
    + intro c. destruct (c =? b); [|apply I6]. now apply NoDup_remove_1 in ND.
  - intro j. cbn. destruct (Nat.eqb_spec j i) as [->|NE]; [rewrite Ei; reflexivity|].
    rewrite P2. destruct (hd_error l2) as [n|].
    + destruct (j =? n); rewrite S2; destruct (loc_eqb p' (LNext j)); destruct (hIter h j); reflexivity.
    + rewrite S2; destruct (loc_eqb p' (LNext j)); destruct (hIter h j); reflexivity.
Qed.

Lemma refs_alive x h s L i b : InvL x h s L -> refersTo s i = Some (Some b) -> alive s b = true.
Proof.
  intros V R. apply (i3 _ _ _ _ V) in R. destruct (alive s b) eqn:A; [reflexivity|].
  destruct (i1 _ _ _ _ V b A) as [_ E]. rewrite E in R. destruct R.
Qed.
(** Representation of a valid iterator. *)
Lemma shape h s L i b : InvL None h s L -> refersTo s i = Some (Some b) ->
  exists n p, hIter h i = Some (mkIter (Some b) n p) /\ loc_eqb p (LNext i) = false.
Proof.
  intros V R. pose proof (refs_alive _ _ _ _ _ _ V R) as A.
  destruct (i2 _ _ _ _ V b A) as [_ C]. apply (i3 _ _ _ _ V) in R.
  destruct (in_split _ _ R) as (l1 & l2 & E). pose proof (i6 _ _ _ _ V b) as N. rewrite E in C, N.
  destruct (chain_at _ _ _ _ _ _ C) as (q & H & [O|O]); [discriminate|]. subst q.
  do 2 eexists. split; [exact H|]. destruct (loc_eqb _ _) eqn:Q; [|reflexivity].
  apply loc_eqb_eq in Q. destruct (NoDup_prevOf_ne _ _ _ _ N Q).
Qed.
Lemma free_in x h s L i : InvL x h s L -> (forall b, refersTo s i <> Some (Some b)) -> forall b, ~ In i (L b).
Proof. intros V F b I. apply (i3 _ _ _ _ V) in I. exact (F b I). Qed.
(** An iterator which refers to nothing may be (re)initialized, *)
Lemma fresh_inv h s L i p n : InvL None h s L -> (forall b, refersTo s i <> Some (Some b)) ->
  InvL None (setIter h i (Some (mkIter p n (LNext i)))) (setRef s i (Some None)) L.
Proof.
  intros V F. pose proof (free_in _ _ _ _ _ V F) as NI. destruct V as [I1 I2 I3 I4 I5 I6]. constructor.
  - exact I1.
  - intros b A. destruct (I2 b A) as [A1 A2]. split; [exact A1|].
    apply (chain_ext (okPtr None b) _ h); [|auto|exact A2].
    intros j J. cbn. destruct (Nat.eqb_spec j i) as [E|NE]; [|reflexivity]. subst j. destruct (NI b J).
  - intros j b. rewrite I3. cbn. destruct (Nat.eqb_spec j i) as [E|NE]; [|tauto]. subst j.
    split; [intro H; destruct (F b H)|discriminate].
  - intro j. cbn. destruct (Nat.eqb_spec j i) as [E|NE]; [discriminate|apply I4].
  - intro j. cbn. destruct (Nat.eqb_spec j i) as [E|NE]; [|apply I5]. subst j. eauto.
  - exact I6.
Qed.
(** ... or destroyed. *)
Lemma kill_inv h s L i : InvL None h s L -> (forall b, refersTo s i <> Some (Some b)) ->
  InvL None (setIter h i None) (setRef s i None) L.
Proof.
  intros V F. pose proof (free_in _ _ _ _ _ V F) as NI. destruct V as [I1 I2 I3 I4 I5 I6]. constructor.
  - exact I1.
  - intros b A. destruct (I2 b A) as [A1 A2]. split; [exact A1|].
    apply (chain_ext (okPtr None b) _ h); [|auto|exact A2].
    intros j J. cbn. destruct (Nat.eqb_spec j i) as [E|NE]; [|reflexivity]. subst j. destruct (NI b J).
  - intros j b. rewrite I3. cbn. destruct (Nat.eqb_spec j i) as [E|NE]; [|tauto]. subst j.
    split; [intro H; destruct (F b H)|discriminate].
  - intro j. cbn. destruct (Nat.eqb_spec j i) as [E|NE]; [reflexivity|apply I4].
  - intro j. cbn. destruct (Nat.eqb_spec j i) as [E|NE]; [discriminate|apply I5].
  - exact I6.
Qed.
(* the element is overwritten before the iterator is unlinked *)
Lemma reptr_inv h s L i b n p q : InvL None h s L -> refersTo s i = Some (Some b) ->
  hIter h i = Some (mkIter (Some b) n p) ->
  InvL (Some i) (setIter h i (Some (mkIter q n p))) s L.
Proof.
  intros [I1 I2 I3 I4 I5 I6] R H. constructor.
  - exact I1.
  - intros c A. destruct (I2 c A) as [A1 A2]. split; [exact A1|].
    clear A1. revert A2. generalize (LHead c). generalize (L c).
    induction l as [|k l IH]; intros r; cbn; [auto|]. intros [(q' & E & O) C]. split; [|apply IH, C].
    destruct (Nat.eqb_spec k i) as [EK|NE].
    + subst k. rewrite H in E. inversion E; subst. exists q. split; [reflexivity|]. now left.
    + exists q'. split; [exact E|]. right. destruct O as [O|O]; [discriminate|exact O].
  - exact I3.
  - intros j J. cbn. destruct (Nat.eqb_spec j i) as [E|NE]; [congruence|now apply I4].
  - intros j J. cbn. destruct (Nat.eqb_spec j i) as [E|NE]; [congruence|now apply I5].
  - exact I6.
Qed.
Lemma chain_tail (P : nat -> option nat -> Prop) h h' i p k l :
  (forall j, In j (k :: l) -> j <> i) -> NoDup (k :: l) ->
  (forall j, In j (k :: l) -> hIter h' j = if j =? k then option_map (fun c => mkIter (mPtr c) (mNext c) (LNext i)) (hIter h j) else hIter h j) ->
  chain P h p (k :: l) -> chain P h' (LNext i) (k :: l).
Proof.
  intros NE ND H. cbn. intros [(q & E & O) C]. split.
  - exists q. rewrite H by now left. rewrite Nat.eqb_refl, E. auto.
  - apply (chain_ext P P h h'); [|auto|exact C]. intros j J. rewrite H by now right.
    inversion ND; subst. destruct (Nat.eqb_spec j k) as [EJ|]; [subst; contradiction|reflexivity].
Qed.
(** Linking an iterator. *)
Lemma add_inv h s L i b n p : InvL None h s L -> refersTo s i = Some None -> alive s b = true ->
  hIter h i = Some (mkIter (Some b) n p) ->
  exists h' L', addToList h i = Some h' /\ InvL None h' (setRef s i (Some (Some b))) L'.
Proof.
  intros V R A H.
  assert (NI : forall b, ~ In i (L b)) by (apply (free_in _ _ _ _ _ V); intros; congruence).
  destruct V as [I1 I2 I3 I4 I5 I6]. destruct (I2 b A) as [HB CB].
  assert (EX : exists h', addToList h i = Some h' /\
    hIter h' i = Some (mkIter (Some b) (hd_error (L b)) (LHead b)) /\
    (forall j, j <> i -> hIter h' j = match hd_error (L b) with Some k => if j =? k then option_map (fun c => mkIter (mPtr c) (mNext c) (LNext i)) (hIter h j) else hIter h j | None => hIter h j end) /\
    (forall c, hHead h' c = if c =? b then Some (Some i) else hHead h c)).
  { unfold addToList. rewrite H. cbn [mPtr]. rewrite HB. destruct (hd_error (L b)) as [k|] eqn:HD.
    - assert (K : In k (L b)) by (destruct (L b) as [|z l]; inversion HD; now left).
      assert (KI : k <> i) by (intros ->; exact (NI b K)).
      destruct (chain_in _ _ _ _ _ CB K) as (qk & nk & rk & Ek & _).
      unfold setPrev. cbn [setIter hIter setHead]. destruct (Nat.eqb_spec k i) as [|_]; [contradiction|].
      rewrite Ek. eexists. split; [reflexivity|]. split; [|split].
      + cbn. destruct (Nat.eqb_spec i k) as [|_]; [congruence|]. rewrite Nat.eqb_refl. reflexivity.
      + intros j NJ. cbn. destruct (Nat.eqb_spec j k) as [EJ|_]; [subst; now rewrite Ek|].
        destruct (Nat.eqb_spec j i) as [|_]; [contradiction|reflexivity].
      + intro c. reflexivity.
    - eexists. split; [reflexivity|]. split; [|split].
      + cbn. rewrite Nat.eqb_refl. reflexivity.
      + intros j NJ. cbn. destruct (Nat.eqb_spec j i) as [|_]; [contradiction|reflexivity].
      + intro c. reflexivity. }
  destruct EX as (h' & E1 & E2 & E3 & E4). exists h', (fun c => if c =? b then i :: L b else L c).
  split; [exact E1|].
  assert (OUT : forall j, j <> i -> ~ In j (L b) -> hIter h' j = hIter h j).
  { intros j NJ NL. rewrite E3 by exact NJ. destruct (L b) as [|k l]; [reflexivity|]. cbn.
    destruct (Nat.eqb_spec j k) as [EJ|_]; [|reflexivity]. subst. destruct NL. now left. }
  constructor.
  - intros c C. destruct (I1 c C) as [C1 C2]. rewrite E4. destruct (Nat.eqb_spec c b) as [EC|_]; [cbn in C; congruence|auto].
  - intros c C. destruct (I2 c C) as [C1 C2]. rewrite E4. destruct (Nat.eqb_spec c b) as [EC|NC].
    + subst c. split; [reflexivity|]. cbn [chain]. split.
      * exists (Some b). split; [exact E2|]. now right.
      * pose proof (I6 b) as NDb. assert (OI : forall j, In j (L b) -> j <> i) by (intros j J ->; exact (NI b J)).
        destruct (L b) as [|k l] eqn:EL; [exact I|].
        apply (chain_tail (okPtr None b) h h' i (LHead b) k l); auto.
        intros j J. rewrite E3 by now apply OI. reflexivity.
    + split; [exact C1|]. apply (chain_ext (okPtr None c) _ h); [|auto|exact C2].
      intros j J. symmetry. apply OUT; [intros ->; exact (NI c J)|].
      intro K. apply I3 in J, K. congruence.
  - intros j c. cbn. destruct (Nat.eqb_spec c b) as [EC|NC].
    + subst c. cbn. rewrite I3. destruct (Nat.eqb_spec j i) as [EJ|NJ].
      * subst. split; auto.
      * split; [|auto]. intros [EJ|T]; [congruence|exact T].
    + rewrite I3. destruct (Nat.eqb_spec j i) as [EJ|NJ]; [|tauto]. subst. rewrite R. split; [discriminate|congruence].
  - intro j. cbn. destruct (Nat.eqb_spec j i) as [EJ|NJ]; [discriminate|]. intro J.
    rewrite OUT; [now apply I4|exact NJ|]. intro K. apply I3 in K. congruence.
  - intro j. cbn. destruct (Nat.eqb_spec j i) as [EJ|NJ]; [discriminate|]. intro J.
    rewrite OUT; [now apply I5|exact NJ|]. intro K. apply I3 in K. congruence.
  - intro c. destruct (c =? b); [|apply I6]. constructor; [apply NI|apply I6].
Qed.
Lemma InvL_ext x h s s' L : (forall i, refersTo s i = refersTo s' i) -> (forall b, alive s b = alive s' b) ->
  InvL x h s L -> InvL x h s' L.
Proof.
  intros R A [I1 I2 I3 I4 I5 I6]. constructor.
  - intros b H. apply I1. now rewrite A.
  - intros b H. apply I2. now rewrite A.
  - intros i b. now rewrite <- R.
  - intros i H. apply I4. now rewrite R.
  - intros i H. apply I5. now rewrite R.
  - exact I6.
Qed.
Lemma unlink_inv b n : forall h s L, length (L b) = n -> InvL None h s L -> alive s b = true ->
  exists h' L', (forall fuel, unlinkAll fuel h b = if n <? fuel then Some h' else None) /\
    InvL None h' (mkSpec (redirect s b None) (alive s)) L' /\ L' b = [].
Proof.
  induction n as [|n IH]; intros h s L LN V A; destruct (i2 _ _ _ _ V b A) as [HB CB].
  - exists h, L. split; [|split].
    + intros [|fuel]; [reflexivity|]. cbn [unlinkAll]. rewrite HB. destruct (L b); [reflexivity|discriminate].
    + apply (InvL_ext None h s); [|reflexivity|exact V]. intro i. cbn. unfold redirect.
      destruct (refersTo s i) as [[c|]|] eqn:R; try reflexivity.
      destruct (Nat.eqb_spec c b) as [E|NE]; [|reflexivity]. subst. apply (i3 _ _ _ _ V) in R.
      destruct (L b); [destruct R|discriminate].
    + destruct (L b); [reflexivity|discriminate].
  - destruct (L b) as [|i l] eqn:EL; [discriminate|].
    assert (R : refersTo s i = Some (Some b)) by (apply (i3 _ _ _ _ V); rewrite EL; now left).
    destruct (remove_inv h s i b None L V (or_introl eq_refl) R) as (h1 & E1 & (L1 & V1 & LN1) & _).
    rewrite EL, LN in LN1. destruct (IH h1 _ L1 (eq_sym (eq_add_S _ _ LN1)) V1 A) as (h' & L' & F & V' & NL).
    exists h', L'. split; [|split; [|exact NL]].
    + intros [|fuel]; [reflexivity|]. cbn [unlinkAll]. rewrite HB. cbn [hd_error]. rewrite E1, F. reflexivity.
    + revert V'. apply InvL_ext; [|reflexivity]. intro j. cbn. unfold redirect. cbn.
      destruct (Nat.eqb_spec j i) as [EJ|NE]; [|reflexivity]. subst j. rewrite R, Nat.eqb_refl. reflexivity.
Qed.
Lemma retarget_spec c (P : nat -> option nat -> Prop) : forall l h p, chain P h p l -> NoDup l ->
  exists h', (forall fuel, retarget fuel h (hd_error l) c = if length l <? fuel then Some h' else None) /\
    (forall j, hIter h' j = if in_dec Nat.eq_dec j l then option_map (fun x => mkIter (Some c) (mNext x) (mPrev x)) (hIter h j) else hIter h j) /\
    (forall d, hHead h' d = hHead h d).
Proof.
  induction l as [|i l IH]; intros h p C ND.
  - exists h. split; [|split; reflexivity]. intros [|fuel]; reflexivity.
  - cbn in C. destruct C as [(q & E & O) C]. inversion ND as [|? ? NI ND']; subst.
    set (h1 := setIter h i (Some (mkIter (Some c) (hd_error l) p))).
    destruct (IH h1 (LNext i)) as (h' & F & G & HH); [|exact ND'|].
    + apply (chain_ext P P h h1); [|auto|exact C]. intros j J. cbn.
      destruct (Nat.eqb_spec j i) as [EJ|]; [subst; contradiction|reflexivity].
    + exists h'. split; [|split].
      * intros [|fuel]; [reflexivity|]. cbn [hd_error retarget]. rewrite E. cbn [mNext mPrev]. fold h1. rewrite F. reflexivity.
      * intro j. rewrite G. unfold h1. cbn [hIter setIter].
        destruct (in_dec Nat.eq_dec j l) as [J1|J1], (in_dec Nat.eq_dec j (i :: l)) as [J2|J2].
        -- destruct (Nat.eqb_spec j i) as [EJ|]; [subst; contradiction|reflexivity].
        -- exfalso. apply J2. now right.
        -- destruct J2 as [EJ|J2]; [|contradiction]. subst j. rewrite Nat.eqb_refl, E. reflexivity.
        -- destruct (Nat.eqb_spec j i) as [EJ|]; [|reflexivity]. subst. destruct J2. now left.
      * intro d. rewrite HH. reflexivity.
Qed.
Lemma move_bucket_inv h s L c b : InvL None h s L -> alive s b = true -> c <> b -> L c = [] ->
  exists h' L' N, (forall fuel, moveBucket fuel h c b = if N <=? fuel then Some h' else None) /\
    InvL None h' (mkSpec (redirect s b (Some c)) (fun d => if d =? c then true else alive s d)) L'.
Proof.
  intros V A NE LC. destruct V as [I1 I2 I3 I4 I5 I6]. destruct (I2 b A) as [HB CB].
  assert (EX : exists h' N, (forall fuel, moveBucket fuel h c b = if N <=? fuel then Some h' else None) /\
    (forall j, ~ In j (L b) -> hIter h' j = hIter h j) /\
    chain (okPtr None c) h' (LHead c) (L b) /\
    (forall d, hHead h' d = if d =? b then Some None else if d =? c then Some (hd_error (L b)) else hHead h d)).
  { unfold moveBucket. rewrite HB. pose proof (I6 b) as ND. destruct (L b) as [|i l] eqn:EL; cbn [hd_error].
    - exists (setHead (setHead h c (Some None)) b (Some None)), 0. split; [reflexivity|]. split; [reflexivity|]. split; [exact I|]. reflexivity.
    - cbn [chain] in CB. destruct CB as [(q & E & O) CB]. inversion ND as [|? ? NI ND']; subst.
      unfold setPrev. cbn [setHead hIter]. rewrite E. cbn [setIter hIter mPtr mNext mPrev]. rewrite Nat.eqb_refl.
      cbn [mNext mPrev].
      match goal with |- context [retarget _ ?hh _ _] => set (h1 := hh) end.
      destruct (retarget_spec c (okPtr None b) l h1 (LNext i)) as (h' & F & G & HH); [|exact ND'|].
      { apply (chain_ext (okPtr None b) _ h h1); [|auto|exact CB]. intros j J. cbn.
        destruct (Nat.eqb_spec j i) as [EJ|]; [subst; contradiction|reflexivity]. }
      exists h', (S (length l)). split; [exact F|]. split; [|split].
      + intros j J. rewrite G. destruct (in_dec Nat.eq_dec j l) as [J1|J1]; [destruct J; now right|].
        cbn. destruct (Nat.eqb_spec j i) as [EJ|]; [subst; destruct J; now left|reflexivity].
      + cbn [chain]. split.
        * exists (Some c). split; [|now right]. rewrite G. destruct (in_dec Nat.eq_dec i l) as [J1|J1]; [contradiction|].
          cbn. rewrite Nat.eqb_refl. reflexivity.
        * assert (GEN : forall k p, (forall j, In j k -> In j l) -> chain (okPtr None b) h p k -> chain (okPtr None c) h' p k).
          { induction k as [|y k IHk]; intros p SUB; cbn [chain]; [auto|]. intros [(qy & Ey & Oy) Cy]. split.
            - exists (Some c). split; [|now right]. rewrite G. destruct (in_dec Nat.eq_dec y l) as [J1|J1]; [|destruct J1; apply SUB; now left].
              cbn. destruct (Nat.eqb_spec y i) as [EJ|]; [subst; contradiction|]. rewrite Ey. reflexivity.
            - apply IHk; [|exact Cy]. intros j J. apply SUB. now right. }
          apply GEN; auto.
      + intro d. rewrite HH. reflexivity. }
  destruct EX as (h' & N & F & G & C' & HH).
  exists h', (fun d => if d =? b then [] else if d =? c then L b else L d), N. split; [exact F|]. constructor.
  - intros d D. cbn in D. rewrite HH. destruct (Nat.eqb_spec d b) as [EB|NB]; [subst d|].
    + destruct (Nat.eqb_spec b c) as [|_]; congruence.
    + destruct (Nat.eqb_spec d c) as [EC|NC]; [discriminate|]. apply I1, D.
  - intros d D. cbn in D. rewrite HH. destruct (Nat.eqb_spec d b) as [EB|NB]; [split; [reflexivity|exact I]|].
    destruct (Nat.eqb_spec d c) as [EC|NC]; [subst d; split; [reflexivity|exact C']|].
    destruct (I2 d D) as [D1 D2]. split; [exact D1|]. apply (chain_ext (okPtr None d) _ h); [|auto|exact D2].
    intros j J. symmetry. apply G. intro K. apply I3 in J, K. congruence.
  - intros j d. cbn [refersTo]. unfold redirect. destruct (Nat.eqb_spec d b) as [EB|NB].
    + subst d. split; [intros []|]. destruct (refersTo s j) as [[e|]|]; try discriminate.
      destruct (Nat.eqb_spec e b) as [EE|NEE]; congruence.
    + destruct (Nat.eqb_spec d c) as [EC|NC].
      * subst d. rewrite I3. split.
        -- intros ->. rewrite Nat.eqb_refl. reflexivity.
        -- destruct (refersTo s j) as [[e|]|] eqn:R; try discriminate.
           destruct (Nat.eqb_spec e b) as [EE|NEE]; [congruence|]. intro EQ. assert (e = c) by congruence. subst e.
           apply I3 in R. rewrite LC in R. destruct R.
      * rewrite I3. destruct (refersTo s j) as [[e|]|] eqn:R; try tauto.
        destruct (Nat.eqb_spec e b) as [EE|NEE]; [|tauto]. split; congruence.
  - intros j J. cbn [refersTo] in J. unfold redirect in J. assert (R : refersTo s j = None).
    { destruct (refersTo s j) as [[e|]|]; try discriminate; [|reflexivity]. destruct (e =? b); discriminate. }
    rewrite G; [apply I4, R|]. intro K. apply I3 in K. congruence.
  - intros j J. cbn [refersTo] in J. unfold redirect in J. assert (R : refersTo s j = Some None).
    { destruct (refersTo s j) as [[e|]|]; try discriminate; [|reflexivity]. destruct (e =? b); discriminate. }
    rewrite G; [apply I5, R|]. intro K. apply I3 in K. congruence.
  - intro d. destruct (d =? b); [constructor|]. destruct (d =? c); apply I6.
Qed.

(** ** Every operation *)
Definition runs (h : heap) (s : spec) (o : op) : Prop :=
  exists h' N, (forall fuel, exec fuel h o = if N <=? fuel then Some h' else None) /\ Inv None h' (specStep s o).
Lemma runs0 h s o h' L : (forall fuel, exec fuel h o = Some h') -> InvL None h' (specStep s o) L -> runs h s o.
Proof. intros E V. exists h', 0. split; [exact E|]. exists L. exact V. Qed.
Ltac refs := let j := fresh "j" in intro j; cbn; unfold copyRef;
  repeat match goal with |- context [?a =? ?b] => destruct (Nat.eqb_spec a b) end; subst; try congruence.
Lemma setRef_same s i r : refersTo (setRef s i r) i = r.
Proof. cbn. now rewrite Nat.eqb_refl. Qed.
Lemma inv_kind h s L i c : InvL None h s L -> hIter h i = Some c ->
  (exists b, refersTo s i = Some (Some b) /\ validIter i c = true /\ mPtr c = Some b) \/
  (refersTo s i = Some None /\ validIter i c = false).
Proof.
  intros V H. destruct (refersTo s i) as [[b|]|] eqn:R.
  - left. exists b. destruct (shape _ _ _ _ _ V R) as (n & p & E & Q). rewrite H in E. inversion E; subst.
    unfold validIter. cbn. rewrite Q. auto.
  - right. destruct (i5 _ _ _ _ V i R) as (p & n & E). rewrite H in E. inversion E; subst.
    unfold validIter. cbn. rewrite Nat.eqb_refl. auto.
  - rewrite (i4 _ _ _ _ V i R) in H. discriminate.
Qed.
Lemma inv_exists h s L i : InvL None h s L -> refersTo s i <> None -> exists c, hIter h i = Some c.
Proof.
  intros V R. destruct (refersTo s i) as [[b|]|] eqn:E; [| |congruence].
  - destruct (shape _ _ _ _ _ V E) as (n & p & H & _). eauto.
  - destruct (i5 _ _ _ _ V i E) as (p & n & H). eauto.
Qed.
(* link an iterator which refers to nothing to an existing element *)
Lemma link_inv h s L i b n : InvL None h s L -> (forall c, refersTo s i <> Some (Some c)) -> alive s b = true ->
  exists h' L', addToList (setIter h i (Some (mkIter (Some b) n (LNext i)))) i = Some h' /\
    InvL None h' (setRef s i (Some (Some b))) L'.
Proof.
  intros V F A. pose proof (fresh_inv h s L i (Some b) n V F) as V1.
  destruct (add_inv _ _ _ i b n (LNext i) V1) as (h' & L' & E & V').
  - apply setRef_same.
  - exact A.
  - cbn. now rewrite Nat.eqb_refl.
  - exists h', L'. split; [exact E|]. revert V'. apply InvL_ext; [|reflexivity]. refs.
Qed.
Lemma step_inv h s L o : InvL None h s L -> allowed h s o -> runs h s o.
Proof.
  intros V AL. destruct o as [i|i b|i j|i j|i j|i j|i b|i|b|c b|c b|b]; cbn [allowed] in AL.
  - (* ONew *)
    eapply (runs0 _ _ _ _ L); [intro; reflexivity|]. apply (fresh_inv h s L i); [exact V|]. intros; congruence.
  - (* OTo *)
    destruct AL as [R A]. destruct (link_inv h s L i b None V ltac:(intros; congruence) A) as (h' & L' & E & V').
    apply (runs0 _ _ _ h' L'); [intro; exact E|exact V'].
  - (* OCopy *)
    destruct AL as [R RJ]. destruct (inv_exists _ _ _ _ V RJ) as (c & H).
    destruct (inv_kind _ _ _ _ _ V H) as [(b & Rj & Vj & Pj)|[Rj Vj]].
    + destruct (link_inv h s L i b None V ltac:(intros; congruence) (refs_alive _ _ _ _ _ _ V Rj)) as (h' & L' & E & V').
      apply (runs0 _ _ _ h' L'); [intro; cbn [exec]; unfold copyIter; rewrite H, Vj, Pj; exact E|].
      cbn [specStep]. unfold copyRef. rewrite Rj. exact V'.
    + apply (runs0 _ _ _ (setIter h i (Some (mkIter (mPtr c) None (LNext i)))) L);
        [intro; cbn [exec]; unfold copyIter; rewrite H, Vj; reflexivity|].
      cbn [specStep]. unfold copyRef. rewrite Rj. apply fresh_inv; [exact V|]. intros; congruence.
  - (* OMove *)
    destruct AL as [R RJ]. destruct (inv_exists _ _ _ _ V RJ) as (c & H).
    destruct (inv_kind _ _ _ _ _ V H) as [(b & Rj & Vj & Pj)|[Rj Vj]].
    + destruct (link_inv h s L i b None V ltac:(intros; congruence) (refs_alive _ _ _ _ _ _ V Rj)) as (h' & L' & E & V').
      destruct (remove_inv h' _ j b None L' V' (or_introl eq_refl)) as (h2 & E2 & (L2 & V2 & _) & _).
      { cbn. destruct (Nat.eqb_spec j i) as [EJ|]; [congruence|exact Rj]. }
      apply (runs0 _ _ _ h2 L2); [intro; cbn [exec]; unfold moveIter; rewrite H, Vj, Pj, E; exact E2|].
      cbn [specStep]. unfold copyRef. rewrite Rj. exact V2.
    + apply (runs0 _ _ _ (setIter h i (Some (mkIter (mPtr c) None (LNext i)))) L);
        [intro; cbn [exec]; unfold moveIter; rewrite H, Vj; reflexivity|].
      cbn [specStep]. unfold copyRef. rewrite Rj.
      apply (InvL_ext None _ (setRef s i (Some None))); [|reflexivity|apply fresh_inv; [exact V|intros; congruence]].
      refs.
  - (* OAssign *)
    destruct AL as (RI & RJ & SA). destruct (inv_exists _ _ _ _ V RI) as (a & HI). destruct (inv_exists _ _ _ _ V RJ) as (c & H).
    unfold safeAssign in SA. rewrite HI, H in SA.
    destruct (inv_kind _ _ _ _ _ V H) as [(b & Rj & Vj & Pj)|[Rj Vj]].
    + specialize (SA Vj). destruct (samePtr a c) eqn:SP.
      * apply (runs0 _ _ _ h L); [intro; cbn [exec]; unfold assignIter; rewrite HI, H, Vj, SP; reflexivity|].
        destruct (inv_kind _ _ _ _ _ V HI) as [(b' & Ri & Vi & Pi)|[Ri Vi]]; [|pose proof (proj2 SA eq_refl); congruence].
        unfold samePtr in SP. rewrite Pi, Pj in SP. apply Nat.eqb_eq in SP. subst b'.
        apply (InvL_ext None _ s); [|reflexivity|exact V]. cbn [specStep]. unfold copyRef. rewrite Rj. refs.
      * destruct (inv_kind _ _ _ _ _ V HI) as [(b' & Ri & Vi & Pi)|[Ri Vi]]; [pose proof (proj1 SA Vi); congruence|].
        destruct (i5 _ _ _ _ V i Ri) as (pi & ni & HI'). rewrite HI in HI'. inversion HI'; subst a.
        destruct (link_inv h s L i b ni V ltac:(intros; congruence) (refs_alive _ _ _ _ _ _ V Rj)) as (h' & L' & E & V').
        apply (runs0 _ _ _ h' L').
        -- intro. cbn [exec]. unfold assignIter. rewrite HI, H, Vj, SP. unfold setPtr. rewrite HI, Pj. exact E.
        -- cbn [specStep]. unfold copyRef. rewrite Rj. exact V'.
    + destruct (inv_kind _ _ _ _ _ V HI) as [(b' & Ri & Vi & Pi)|[Ri Vi]].
      * destruct a as [pa na ra]. cbn in Pi. subst pa.
        pose proof (reptr_inv h s L i b' na ra (mPtr c) V Ri HI) as V1.
        destruct (remove_inv _ _ i b' (Some i) L V1 (or_intror eq_refl) Ri) as (h2 & E2 & (L2 & V2 & _) & _).
        apply (runs0 _ _ _ h2 L2).
        -- intro. cbn [exec]. unfold assignIter. rewrite HI, H, Vj. unfold setPtr. rewrite HI. rewrite Vi. exact E2.
        -- cbn [specStep]. unfold copyRef. rewrite Rj. exact V2.
      * destruct (i5 _ _ _ _ V i Ri) as (pi & ni & HI'). rewrite HI in HI'. inversion HI'; subst a.
        pose proof (fresh_inv h s L i (mPtr c) ni V ltac:(intros; congruence)) as V1.
        pose proof (fresh_inv _ _ L i (mPtr c) ni V1 ltac:(intros ?; rewrite setRef_same; discriminate)) as V2.
        eapply (runs0 _ _ _ _ L).
        -- intro. cbn [exec]. unfold assignIter. rewrite HI, H, Vj. unfold setPtr. rewrite HI. rewrite Vi.
           unfold invalidate, setPrev. cbn [setIter hIter]. rewrite Nat.eqb_refl. reflexivity.
        -- cbn [specStep]. unfold copyRef. rewrite Rj.
           apply (InvL_ext None _ (setRef (setRef s i (Some None)) i (Some None)) _ L); [refs|reflexivity|exact V2].
  - (* OMoveAssign *)
    destruct AL as (RI & RJ & SA). destruct (inv_exists _ _ _ _ V RI) as (a & HI). destruct (inv_exists _ _ _ _ V RJ) as (c & H).
    unfold safeAssign in SA. rewrite HI, H in SA.
    destruct (inv_kind _ _ _ _ _ V H) as [(b & Rj & Vj & Pj)|[Rj Vj]].
    + specialize (SA Vj). destruct (samePtr a c) eqn:SP.
      * destruct (inv_kind _ _ _ _ _ V HI) as [(b' & Ri & Vi & Pi)|[Ri Vi]]; [|pose proof (proj2 SA eq_refl); congruence].
        unfold samePtr in SP. rewrite Pi, Pj in SP. apply Nat.eqb_eq in SP. subst b'.
        destruct (remove_inv h s j b None L V (or_introl eq_refl) Rj) as (h2 & E2 & (L2 & V2 & _) & _).
        apply (runs0 _ _ _ h2 L2).
        -- intro. cbn [exec]. unfold moveAssignIter. rewrite HI, H, Vj. unfold samePtr. rewrite Pi, Pj, Nat.eqb_refl. exact E2.
        -- revert V2. apply InvL_ext; [|reflexivity]. cbn [specStep]. unfold copyRef. rewrite Rj. refs.
      * destruct (inv_kind _ _ _ _ _ V HI) as [(b' & Ri & Vi & Pi)|[Ri Vi]]; [pose proof (proj1 SA Vi); congruence|].
        destruct (i5 _ _ _ _ V i Ri) as (pi & ni & HI'). rewrite HI in HI'. inversion HI'; subst a.
        destruct (link_inv h s L i b ni V ltac:(intros; congruence) (refs_alive _ _ _ _ _ _ V Rj)) as (h' & L' & E & V').
        destruct (remove_inv h' _ j b None L' V' (or_introl eq_refl)) as (h2 & E2 & (L2 & V2 & _) & _).
        { cbn. destruct (Nat.eqb_spec j i) as [EJ|]; [congruence|exact Rj]. }
        apply (runs0 _ _ _ h2 L2).
        -- intro. cbn [exec]. unfold moveAssignIter. rewrite HI, H, Vj, SP. unfold setPtr. rewrite HI, Pj.
           cbn [mNext mPrev]. rewrite E. exact E2.
        -- cbn [specStep]. unfold copyRef. rewrite Rj. exact V2.
    + destruct (inv_kind _ _ _ _ _ V HI) as [(b' & Ri & Vi & Pi)|[Ri Vi]].
      * destruct a as [pa na ra]. cbn in Pi. subst pa.
        pose proof (reptr_inv h s L i b' na ra (mPtr c) V Ri HI) as V1.
        destruct (remove_inv _ _ i b' (Some i) L V1 (or_intror eq_refl) Ri) as (h2 & E2 & (L2 & V2 & _) & _).
        apply (runs0 _ _ _ h2 L2).
        -- intro. cbn [exec]. unfold moveAssignIter. rewrite HI, H, Vj. unfold setPtr. rewrite HI. rewrite Vi. exact E2.
        -- cbn [specStep]. unfold copyRef. rewrite Rj. revert V2. apply InvL_ext; [|reflexivity]. refs.
      * destruct (i5 _ _ _ _ V i Ri) as (pi & ni & HI'). rewrite HI in HI'. inversion HI'; subst a.
        pose proof (fresh_inv h s L i (mPtr c) ni V ltac:(intros; congruence)) as V1.
        pose proof (fresh_inv _ _ L i (mPtr c) ni V1 ltac:(intros ?; rewrite setRef_same; discriminate)) as V2.
        eapply (runs0 _ _ _ _ L).
        -- intro. cbn [exec]. unfold moveAssignIter. rewrite HI, H, Vj. unfold setPtr. rewrite HI. rewrite Vi.
           unfold invalidate, setPrev. cbn [setIter hIter]. rewrite Nat.eqb_refl. reflexivity.
        -- cbn [specStep]. unfold copyRef. rewrite Rj.
           apply (InvL_ext None _ (setRef (setRef s i (Some None)) i (Some None)) _ L); [refs|reflexivity|exact V2].
  - (* OAssignTo *)
    destruct AL as [RI A]. destruct (inv_exists _ _ _ _ V RI) as (a & HI).
    assert (EX : exists h1 L1 p n, (if validIter i a then removeFromList h i else Some h) = Some h1 /\
      InvL None h1 (setRef s i (Some None)) L1 /\ hIter h1 i = Some (mkIter p n (LNext i))).
    { destruct (inv_kind _ _ _ _ _ V HI) as [(b' & Ri & Vi & Pi)|[Ri Vi]]; rewrite Vi.
      - destruct (remove_inv h s i b' None L V (or_introl eq_refl) Ri) as (h2 & E2 & (L2 & V2 & _) & _).
        destruct (i5 _ _ _ _ V2 i (setRef_same _ _ _)) as (p & n & E). exists h2, L2, p, n. auto.
      - destruct (i5 _ _ _ _ V i Ri) as (p & n & E). exists h, L, p, n. split; [reflexivity|]. split; [|exact E].
        revert V. apply InvL_ext; [|reflexivity]. refs. }
    destruct EX as (h1 & L1 & p & n & E1 & V1 & H1).
    destruct (link_inv h1 _ L1 i b n V1 ltac:(intros ?; rewrite setRef_same; discriminate) A) as (h' & L' & E & V').
    apply (runs0 _ _ _ h' L').
    + intro. cbn [exec]. unfold assignTo. rewrite HI, E1. unfold setPtr. rewrite H1. exact E.
    + revert V'. apply InvL_ext; [|reflexivity]. cbn [specStep]. refs.
  - (* ODestroy *)
    destruct (inv_exists _ _ _ _ V AL) as (a & HI).
    destruct (inv_kind _ _ _ _ _ V HI) as [(b' & Ri & Vi & Pi)|[Ri Vi]].
    + destruct (remove_inv h s i b' None L V (or_introl eq_refl) Ri) as (h2 & E2 & (L2 & V2 & _) & _).
      apply (runs0 _ _ _ (setIter h2 i None) L2); [intro; cbn [exec]; unfold destroyIter; rewrite HI, Vi, E2; reflexivity|].
      pose proof (kill_inv _ _ _ i V2 ltac:(intros ?; rewrite setRef_same; discriminate)) as V3.
      revert V3. apply InvL_ext; [|reflexivity]. cbn [specStep]. refs.
    + apply (runs0 _ _ _ (setIter h i None) L); [intro; cbn [exec]; unfold destroyIter; rewrite HI, Vi; reflexivity|].
      apply kill_inv; [exact V|]. intros; congruence.
  - (* OBucket *)
    apply (runs0 _ _ _ (setHead h b (Some None)) L); [reflexivity|]. destruct V as [I1 I2 I3 I4 I5 I6]. constructor.
    + intros c. cbn. destruct (Nat.eqb_spec c b) as [E|NE]; [discriminate|apply I1].
    + intros c. cbn. destruct (Nat.eqb_spec c b) as [E|NE].
      * intros _. subst. destruct (I1 b AL) as [_ ->]. split; [reflexivity|exact I].
      * intro A. destruct (I2 c A) as [A1 A2]. split; [exact A1|].
        apply (chain_ext (okPtr None c) _ h); [reflexivity|auto|exact A2].
    + exact I3.
    + exact I4.
    + exact I5.
    + exact I6.
  - (* OMoveBucket *)
    destruct AL as [A AC]. destruct (i1 _ _ _ _ V c AC) as [_ LC].
    destruct (move_bucket_inv h s L c b V A ltac:(congruence) LC) as (h' & L' & N & F & V').
    exists h', N. split; [exact F|]. exists L'. exact V'.
  - (* OMoveAssignBucket *)
    destruct AL as (A & AC & NE & NR).
    assert (LC : L c = []).
    { destruct (L c) as [|i l] eqn:E; [reflexivity|]. destruct (NR i). apply (i3 _ _ _ _ V). rewrite E. now left. }
    destruct (move_bucket_inv h s L c b V A NE LC) as (h' & L' & N & F & V').
    exists h', N. split; [exact F|]. exists L'. revert V'. apply InvL_ext; [reflexivity|].
    intro d. cbn. destruct (Nat.eqb_spec d c) as [E|]; [now subst|reflexivity].
  - (* ODestroyBucket *)
    destruct (unlink_inv b _ h s L eq_refl V AL) as (h1 & L1 & F & V1 & LB).
    exists (setHead h1 b None), (S (length (L b))). split.
    { intro fuel. cbn [exec]. unfold destroyBucket. rewrite F. unfold Nat.ltb. destruct (S (length (L b)) <=? fuel); reflexivity. }
    exists L1. destruct V1 as [I1 I2 I3 I4 I5 I6]. constructor.
    + intros c. cbn [specStep alive setHead hHead]. destruct (Nat.eqb_spec c b) as [E|NE]; [subst; auto|apply I1].
    + intros c. cbn [specStep alive setHead hHead]. destruct (Nat.eqb_spec c b) as [E|NE]; [discriminate|].
      intro A. destruct (I2 c A) as [A1 A2]. split; [exact A1|].
      apply (chain_ext (okPtr None c) _ h1); [reflexivity|auto|exact A2].
    + exact I3.
    + exact I4.
    + exact I5.
    + exact I6.
Qed.
Lemma reach_inv h s : reach h s -> Inv None h s.
Proof.
  induction 1 as [|h s o fuel h' R [L V] AL E].
  - exists (fun _ => []). constructor; try (cbn; intros; discriminate).
    + intros. split; reflexivity.
    + cbn. intros. split; [tauto|discriminate].
    + intros. reflexivity.
    + intros. constructor.
  - destruct (step_inv h s L o V AL) as (h2 & N & F & V'). rewrite F in E. destruct (N <=? fuel); [|discriminate].
    assert (h2 = h') by congruence. subst. exact V'.
Qed.

(** ** Property C25 *)

(** After any history of construction, assignment and destruction of iterators and of creation, relocation and
    destruction of elements, each existing iterator is valid exactly if its
    element still exists, and it refers to the current place of that element. *)
Theorem C25_iterators_follow_elements_partial : forall h s, reach h s ->
  (forall i, isValid h i = match refersTo s i with
                           | None => None
                           | Some None => Some false
                           | Some (Some _) => Some true
                           end) /\
  (forall i b, refersTo s i = Some (Some b) -> alive s b = true /\ option_map mPtr (hIter h i) = Some (Some b)).
Proof.
  intros h s R. destruct (reach_inv h s R) as [L V]. split.
  - intro i. unfold isValid. destruct (hIter h i) as [c|] eqn:H; cbn.
    + destruct (inv_kind _ _ _ _ _ V H) as [(b & -> & -> & _)|[-> ->]]; reflexivity.
    + destruct (refersTo s i) as [r|] eqn:E; [|reflexivity].
      destruct (inv_exists _ _ _ i V) as (c & H'); congruence.
  - intros i b E. split; [exact (refs_alive _ _ _ _ _ _ V E)|].
    destruct (shape _ _ _ _ _ V E) as (n & p & -> & _). reflexivity.
Qed.
Print Assumptions C25_iterators_follow_elements_partial.

(** No such operation touches an object which does not exist, and each one
    terminates. *)
Theorem C25_operations_are_defined_partial : forall h s o, reach h s -> allowed h s o ->
  exists N h', forall fuel, N <= fuel -> exec fuel h o = Some h'.
Proof.
  intros h s o R AL. destruct (reach_inv h s R) as [L V].
  destruct (step_inv h s L o V AL) as (h' & N & F & _). exists N, h'. intros fuel LE. rewrite F.
  destruct (Nat.leb_spec N fuel); [reflexivity|lia].
Qed.
Print Assumptions C25_operations_are_defined_partial.

(* runs a history *)
Fixpoint play (fuel : nat) (h : heap) (s : spec) (os : list op) : option (heap * spec) :=
  match os with
  | [] => Some (h, s)
  | o :: os => match exec fuel h o with Some h' => play fuel h' (specStep s o) os | None => None end
  end.
Definition history : list op :=
  [OBucket 0; OTo 10 0; OCopy 11 10; ONew 12; OMove 13 10; OMoveBucket 1 0; ODestroyBucket 0;
   OAssign 12 11; OBucket 2; OAssignTo 11 2; ODestroy 13; ODestroyBucket 1].
Fixpoint allAllowed (fuel : nat) (h : heap) (s : spec) (os : list op) : Prop :=
  match os with
  | [] => True
  | o :: os => allowed h s o /\ match exec fuel h o with Some h' => allAllowed fuel h' (specStep s o) os | None => False end
  end.
Lemma play_reach fuel os : forall h s, reach h s -> allAllowed fuel h s os ->
  exists h' s', play fuel h s os = Some (h', s') /\ reach h' s'.
Proof.
  induction os as [|o os IH]; intros h s R; cbn; [eauto|]. intros [A B].
  destruct (exec fuel h o) as [h'|] eqn:E; [|destruct B]. apply IH; [|exact B]. exact (reachStep _ _ _ _ _ R A E).
Qed.
Example C25_history : exists h s, play 10 emptyHeap spec0 history = Some (h, s) /\ reach h s /\
  (isValid h 11 = Some true /\ refersTo s 11 = Some (Some 2)) /\
  (isValid h 12 = Some false /\ refersTo s 12 = Some None) /\ isValid h 13 = None.
Proof.
  destruct (play_reach 10 history emptyHeap spec0 reachStart) as (h & s & E & R).
  - cbv. repeat (split; [try (intuition congruence)|]). exact I.
  - exists h, s. split; [exact E|]. split; [exact R|].
    assert (E' := E). vm_compute in E'. injection E' as Eh Es. rewrite <- Eh, <- Es. vm_compute. auto.
Qed.

(** The full statement is false: assignment from a valid iterator does not unlink the target which
    refers to another element.  The list of that element is corrupted, and its
    destruction never ends. *)
Definition stuck (b i k : nat) (h : heap) : Prop := hHead h b = Some (Some i) /\
  (exists p, hIter h i = Some (mkIter p (Some k) (LNext i))) /\ (exists c, hIter h k = Some c) /\ k <> i.
Lemma stuck_forever b i k fuel : forall h, stuck b i k h -> unlinkAll fuel h b = None.
Proof.
  induction fuel as [|f IH]; intros h (H1 & (p & H2) & (c & H3) & NE); [reflexivity|].
  cbn [unlinkAll]. rewrite H1. unfold removeFromList. rewrite H2. cbn [mPrev mNext store]. rewrite H2.
  unfold setPrev. cbn [setIter hIter mPtr mNext mPrev]. destruct (Nat.eqb_spec k i) as [|_]; [contradiction|].
  rewrite H3. unfold invalidate, setPrev. cbn [setIter hIter mPtr mNext mPrev].
  destruct (Nat.eqb_spec i k) as [|_]; [congruence|]. rewrite Nat.eqb_refl. cbn [mPtr mNext]. apply IH.
  split; [exact H1|]. split; [|split; [|exact NE]].
  - exists p. cbn. rewrite Nat.eqb_refl. reflexivity.
  - eexists. cbn. destruct (Nat.eqb_spec k i) as [|_]; [contradiction|]. rewrite Nat.eqb_refl. reflexivity.
Qed.
Definition after (os : list op) : heap :=
  match play 9 emptyHeap spec0 os with Some (h, _) => h | None => emptyHeap end.
Definition specAfter (os : list op) : spec :=
  match play 9 emptyHeap spec0 os with Some (_, s) => s | None => spec0 end.
Definition bad1 : list op := [OBucket 0; OBucket 1; OTo 10 0; OTo 11 1].
Theorem C25_assign_between_elements_refuted :
  reach (after bad1) (specAfter bad1) /\
  exists h, exec 9 (after bad1) (OAssign 10 11) = Some h /\ forall fuel, exec fuel h (ODestroyBucket 0) = None.
Proof.
  split.
  - destruct (play_reach 9 bad1 emptyHeap spec0 reachStart) as (h & s & E & R).
    + cbv. repeat (split; [try (intuition congruence)|]). exact I.
    + unfold after, specAfter. rewrite E. exact R.
  - eexists. split; [reflexivity|]. intros [|fuel]; [reflexivity|]. cbn [exec]. unfold destroyBucket.
    assert (U : forall h f b i h1, hHead h b = Some (Some i) -> removeFromList h i = Some h1 ->
       unlinkAll (S f) h b = unlinkAll f h1 b) by (intros h f b i h1 X1 X2; cbn [unlinkAll]; now rewrite X1, X2).
    erewrite U; [|reflexivity|reflexivity]. rewrite (stuck_forever 0 10 11); [reflexivity|].
    split; [reflexivity|]. split; [eexists; reflexivity|]. split; [eexists; reflexivity|discriminate].
Qed.
Print Assumptions C25_assign_between_elements_refuted.
(** A moved-from iterator keeps the address of the element; assignment of an
    iterator which refers to the same element leaves it invalid. *)
Definition bad2 : list op := [OBucket 0; OTo 10 0; OMove 11 10].
Theorem C25_assign_back_refuted :
  reach (after bad2) (specAfter bad2) /\
  exists h, exec 9 (after bad2) (OAssign 10 11) = Some h /\
    isValid h 11 = Some true /\ refersTo (specStep (specAfter bad2) (OAssign 10 11)) 10 = Some (Some 0) /\
    isValid h 10 = Some false.
Proof.
  split.
  - destruct (play_reach 9 bad2 emptyHeap spec0 reachStart) as (h & s & E & R).
    + cbv. repeat (split; [try (intuition congruence)|]). exact I.
    + unfold after, specAfter. rewrite E. exact R.
  - eexists. split; [reflexivity|]. vm_compute. auto.
Qed.
Print Assumptions C25_assign_back_refuted.
(** A copy of an element shares its list of iterators: destruction of the copy
    invalidates nothing in the original one and never ends. *)
Definition bad3 : list op := [OBucket 0; OTo 10 0].
Theorem C25_copied_element_refuted :
  reach (after bad3) (specAfter bad3) /\
  exists h, copyBucket (after bad3) 1 0 = Some h /\ forall fuel, exec fuel h (ODestroyBucket 1) = None.
Proof.
  split.
  - destruct (play_reach 9 bad3 emptyHeap spec0 reachStart) as (h & s & E & R).
    + cbv. repeat (split; [try (intuition congruence)|]). exact I.
    + unfold after, specAfter. rewrite E. exact R.
  - eexists. split; [reflexivity|].
    assert (ST : forall fuel h, hHead h 1 = Some (Some 10) -> (exists p, hIter h 10 = Some (mkIter p None (LNext 10))) ->
      unlinkAll fuel h 1 = None).
    { induction fuel as [|f IH]; intros h H1 (p & H2); [reflexivity|]. cbn [unlinkAll]. rewrite H1.
      unfold removeFromList. rewrite H2. cbn [mPrev mNext store]. rewrite H2. unfold invalidate, setPrev.
      cbn [setIter hIter]. rewrite Nat.eqb_refl. apply IH; [exact H1|]. exists p. cbn. reflexivity. }
    intros [|fuel]; [reflexivity|]. cbn [exec]. unfold destroyBucket.
    assert (U : forall h f b i h1, hHead h b = Some (Some i) -> removeFromList h i = Some h1 ->
       unlinkAll (S f) h b = unlinkAll f h1 b) by (intros h f b i h1 X1 X2; cbn [unlinkAll]; now rewrite X1, X2).
    erewrite U; [|reflexivity|reflexivity]. rewrite ST; [reflexivity|reflexivity|eexists; reflexivity].
Qed.
Print Assumptions C25_copied_element_refuted.
(** Relocation over an element which has iterators: they stay valid, and
    their element is replaced by another one. *)
Definition bad4 : list op := [OBucket 0; OBucket 1; OTo 10 0; OTo 11 1].
Theorem C25_overwritten_element_refuted :
  reach (after bad4) (specAfter bad4) /\
  exists h, exec 9 (after bad4) (OMoveAssignBucket 1 0) = Some h /\
    isValid h 11 = Some true /\ option_map mPtr (hIter h 11) = Some (Some 1) /\
    isValid h 10 = Some true /\ option_map mPtr (hIter h 10) = Some (Some 1).
Proof.
  split.
  - destruct (play_reach 9 bad4 emptyHeap spec0 reachStart) as (h & s & E & R).
    + cbv. repeat (split; [try (intuition congruence)|]). exact I.
    + unfold after, specAfter. rewrite E. exact R.
  - eexists. split; [reflexivity|]. vm_compute. auto.
Qed.
Print Assumptions C25_overwritten_element_refuted.
