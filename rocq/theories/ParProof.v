(** Proofs about the storage of parallel constructs. *)
From Coq Require Import Arith Bool List Lia.
From Verif Require Import ParModel ParSpec.
Import ListNotations.

(** A view of the storage without buffers *)
Definition lview : Type := anchor * (list item * list item).
Definition vloc (p : location) : lview := (lAnchor p, (pItems (lEntry p), pItems (lExit p))).
Definition vl (l : llist) : list lview := map vloc (llItems l).
Definition V (s : state) (k : nat) : list lview :=
  match lookup (blocks s) k with Some l => vl l | None => [] end.
Definition vside (e : bool) (v : lview) : list item := if e then fst (snd v) else snd (snd v).
Definition vset (e : bool) (v : lview) (l : list item) : lview :=
  if e then (fst v, (l, snd (snd v))) else (fst v, (fst (snd v), l)).

Lemma vside_loc : forall e p, vside e (vloc p) = pItems (side e p).
Proof. intros [] []; reflexivity. Qed.
Lemma vset_loc : forall e p b, vloc (setSide e p b) = vset e (vloc p) (pItems b).
Proof. intros [] [] []; reflexivity. Qed.

Lemma moveBlock_items : forall n b, pItems (fst (moveBlock n b)) = pItems b.
Proof. intros n b. unfold moveBlock. destruct (pCap b =? 4); reflexivity. Qed.
Lemma moveBlock_fresh : forall n b, n <= snd (moveBlock n b).
Proof. intros n b. unfold moveBlock. destruct (pCap b =? 4); cbn; lia. Qed.
Lemma moveLoc_view : forall n p, vloc (fst (moveLoc n p)) = vloc p.
Proof.
  intros n p. unfold moveLoc.
  pose proof (moveBlock_items n (lEntry p)) as He.
  destruct (moveBlock n (lEntry p)) as [e n1].
  pose proof (moveBlock_items n1 (lExit p)) as Hx.
  destruct (moveBlock n1 (lExit p)) as [x n2]. cbn in *.
  unfold vloc. cbn. rewrite He, Hx. reflexivity.
Qed.
Lemma moveLoc_fresh : forall n p, n <= snd (moveLoc n p).
Proof.
  intros n p. unfold moveLoc.
  pose proof (moveBlock_fresh n (lEntry p)) as He.
  destruct (moveBlock n (lEntry p)) as [e n1].
  pose proof (moveBlock_fresh n1 (lExit p)) as Hx.
  destruct (moveBlock n1 (lExit p)) as [x n2]. cbn in *. lia.
Qed.
Lemma moveLocs_view : forall l n, map vloc (fst (moveLocs n l)) = map vloc l.
Proof.
  induction l as [|p l IH]; intros n; [reflexivity|]. cbn [moveLocs].
  pose proof (moveLoc_view n p) as Hp. destruct (moveLoc n p) as [q n1].
  specialize (IH n1). destruct (moveLocs n1 l) as [l' n2].
  cbn in *. rewrite Hp, IH. reflexivity.
Qed.
Lemma moveLocs_fresh : forall l n, n <= snd (moveLocs n l).
Proof.
  induction l as [|p l IH]; intros n; [cbn; lia|]. cbn [moveLocs].
  pose proof (moveLoc_fresh n p) as Hp. destruct (moveLoc n p) as [q n1].
  specialize (IH n1). destruct (moveLocs n1 l) as [l' n2]. cbn in *. lia.
Qed.
Lemma moveList_view : forall n l, vl (fst (moveList n l)) = vl l.
Proof.
  intros n l. unfold moveList. destruct (llCap l =? 1); [|reflexivity].
  pose proof (moveLocs_view (llItems l) n) as H. destruct (moveLocs n (llItems l)) as [ls n1].
  exact H.
Qed.
Lemma moveList_fresh : forall n l, n <= snd (moveList n l).
Proof.
  intros n l. unfold moveList. destruct (llCap l =? 1); [|cbn; lia].
  pose proof (moveLocs_fresh (llItems l) n) as H. destruct (moveLocs n (llItems l)) as [ls n1].
  cbn in *. lia.
Qed.
Lemma moveMap_lookup : forall m n k,
  option_map vl (lookup (fst (moveMap n m)) k) = option_map vl (lookup m k).
Proof.
  induction m as [|[b l] m IH]; intros n k; [reflexivity|]. cbn [moveMap].
  pose proof (moveList_view n l) as Hl. destruct (moveList n l) as [l' n1].
  specialize (IH n1 k). destruct (moveMap n1 m) as [m' n2]. cbn in *.
  destruct (k =? b); [cbn; rewrite Hl; reflexivity|exact IH].
Qed.
Lemma moveMap_fresh : forall m n, n <= snd (moveMap n m).
Proof.
  induction m as [|[b l] m IH]; intros n; [cbn; lia|]. cbn [moveMap].
  pose proof (moveList_fresh n l) as Hl. destruct (moveList n l) as [l' n1].
  specialize (IH n1). destruct (moveMap n1 m) as [m' n2]. cbn in *. lia.
Qed.

Lemma lookup_app : forall m k b l,
  lookup (m ++ [(b, l)]) k =
  match lookup m k with Some x => Some x | None => if k =? b then Some l else None end.
Proof.
  induction m as [|[c x] m IH]; intros k b l; [reflexivity|]. cbn.
  destruct (k =? c); [reflexivity|apply IH].
Qed.
Lemma lookup_replace : forall m bb v k,
  lookup (replace m bb v) k =
  if k =? bb then match lookup m bb with Some _ => Some v | None => None end
  else lookup m k.
Proof.
  induction m as [|[c x] m IH]; intros bb v k; cbn.
  - destruct (k =? bb); reflexivity.
  - destruct (Nat.eqb_spec bb c) as [->|Hb]; cbn.
    + destruct (k =? c); reflexivity.
    + rewrite IH. destruct (Nat.eqb_spec k c) as [->|Hk]; [|reflexivity].
      destruct (Nat.eqb_spec c bb); [congruence|reflexivity].
Qed.
Lemma lookup_filter : forall m bb k,
  lookup (filter (fun p => negb (bb =? fst p)) m) k = if k =? bb then None else lookup m k.
Proof.
  induction m as [|[c x] m IH]; intros bb k; cbn; [destruct (k =? bb); reflexivity|].
  destruct (Nat.eqb_spec bb c) as [->|Hb]; cbn.
  - rewrite IH. destruct (k =? c) eqn:E; reflexivity.
  - destruct (Nat.eqb_spec k c) as [->|Hk].
    + destruct (Nat.eqb_spec c bb); [congruence|reflexivity].
    + apply IH.
Qed.

Lemma opaque_address : forall b a,
  opaque b = address a <-> b = a /\ exists n, a = AMeta n.
Proof.
  intros [m|m] [n|n]; unfold opaque, address; split; intros H.
  - split; [f_equal; lia|exists n; reflexivity].
  - destruct H as [[= ->] _]. reflexivity.
  - exfalso; lia.
  - destruct H as [H _]; discriminate.
  - exfalso; lia.
  - destruct H as [H _]; discriminate.
  - exfalso; lia.
  - destruct H as [_ [k H]]; discriminate.
Qed.

Lemma findIdx_some : forall A (p : A -> bool) l i, findIdx p l = Some i ->
  exists x, nth_error l i = Some x /\ p x = true /\
    forall j y, j < i -> nth_error l j = Some y -> p y = false.
Proof.
  intros A p l; induction l as [|x l IH]; cbn; intros i H; [discriminate|].
  destruct (p x) eqn:E.
  - injection H as <-. exists x. repeat split; auto. intros; lia.
  - destruct (findIdx p l) as [k|]; [|discriminate]. injection H as <-.
    destruct (IH k eq_refl) as (y & Hy & Hp & Hb). exists y. split; [exact Hy|]. split; [exact Hp|].
    intros [|j] z Hj Hz; [injection Hz as <-; exact E|]. apply (Hb j z); [lia|exact Hz].
Qed.
Lemma findIdx_none : forall A (p : A -> bool) l, findIdx p l = None ->
  forall x, In x l -> p x = false.
Proof.
  intros A p l; induction l as [|x l IH]; cbn; intros H y Hy; [contradiction|].
  destruct (p x) eqn:E; [discriminate|].
  destruct (findIdx p l) as [k|]; [discriminate|]. destruct Hy as [<-|Hy]; auto.
Qed.
Lemma findIdx_find : forall A (p : A -> bool) l,
  match findIdx p l with Some i => nth_error l i | None => None end = List.find p l.
Proof.
  intros A p l; induction l as [|x l IH]; cbn; [reflexivity|].
  destruct (p x); [reflexivity|]. rewrite <- IH. destruct (findIdx p l); reflexivity.
Qed.

Lemma nth_setNth : forall A (l : list A) i v j,
  nth_error (setNth l i v) j =
  if i =? j then match nth_error l i with Some _ => Some v | None => None end
  else nth_error l j.
Proof.
  intros A l; induction l as [|x l IH]; intros [|i] v [|j]; cbn; try reflexivity.
  - destruct (i =? j); reflexivity.
  - apply IH.
Qed.
Lemma map_setNth : forall A B (f : A -> B) l i v,
  map f (setNth l i v) = setNth (map f l) i (f v).
Proof. intros A B f l; induction l as [|x l IH]; intros [|i] v; cbn; f_equal; auto. Qed.
Lemma setNth_same : forall A (l : list A) i v, nth_error l i = Some v -> setNth l i v = l.
Proof.
  intros A l; induction l as [|x l IH]; intros [|i] v H; cbn in *; try discriminate; try reflexivity.
  - injection H as ->. reflexivity.
  - f_equal. auto.
Qed.

Section P.
Variable parentOf : nat -> nat.
Variable isa : nat -> nat -> bool.
Variable mergeable : nat -> nat -> nat -> bool.
Variable grows : state -> bool.

(** A block is inserted: the view is the same. *)
Lemma block_spec : forall s bb s' b, tryEmplaceBlock parentOf grows s bb = (s', b) ->
  (forall k, V s' k = V s k) /\ fresh s <= fresh s' /\
  (exists l, lookup (blocks s') bb = Some l) /\
  funcs s' = insertFunc (funcs s) (parentOf bb).
Proof.
  intros s bb s' b. unfold tryEmplaceBlock.
  destruct (lookup (blocks s) bb) as [l|] eqn:El.
  - intros [= <- <-]. cbn. repeat split; auto. exists l. exact El.
  - destruct (grows s).
    + pose proof (moveMap_lookup (blocks s) (fresh s)) as Hm.
      pose proof (moveMap_fresh (blocks s) (fresh s)) as Hf.
      destruct (moveMap (fresh s) (blocks s)) as [m n]. cbn in Hm, Hf.
      intros [= <- <-]. cbn. split; [|split; [lia|split; [|reflexivity]]].
      * intros k. unfold V. cbn. rewrite lookup_app. specialize (Hm k).
        destruct (lookup m k) as [x|] eqn:Ex.
        -- destruct (lookup (blocks s) k); cbn in Hm; [congruence|discriminate].
        -- destruct (lookup (blocks s) k) eqn:Ek; cbn in Hm; [discriminate|].
           destruct (Nat.eqb_spec k bb) as [->|]; reflexivity.
      * rewrite lookup_app, Nat.eqb_refl. destruct (lookup m bb); eexists; reflexivity.
    + intros [= <- <-]. cbn. split; [|split; [lia|split; [|reflexivity]]].
      * intros k. unfold V. cbn. rewrite lookup_app.
        destruct (lookup (blocks s) k) eqn:Ek; [reflexivity|].
        destruct (Nat.eqb_spec k bb) as [->|]; reflexivity.
      * rewrite lookup_app, Nat.eqb_refl, El. eexists; reflexivity.
Qed.

(** A location is found or added to the end of the list. *)
Lemma locate_spec : forall n l a l' i nw n', locate n l a = (l', i, nw, n') ->
  n <= n' /\ exists p, nth_error (llItems l') i = Some p /\ lAnchor p = a /\
  ((vl l' = vl l /\ exists m, a = AMeta m) \/
   (vl l' = vl l ++ [(a, ([], []))] /\ i = length (vl l) /\
    (forall m, a = AMeta m -> ~ In a (map fst (vl l))))).
Proof.
  intros n l a l' i nw n'. unfold locate.
  destruct (findIdx _ (llItems l)) as [k|] eqn:Ef.
  - intros [= <- <- <- <-]. split; [lia|].
    destruct (findIdx_some _ _ _ _ Ef) as (p & Hp & Ho & _).
    apply Nat.eqb_eq in Ho. apply opaque_address in Ho. destruct Ho as [Ho Hm].
    exists p. split; [exact Hp|]. split; [exact Ho|]. left. split; [reflexivity|exact Hm].
  - assert (Hno : forall m, a = AMeta m -> ~ In a (map fst (vl l))).
    { intros m Hm Hin. unfold vl in Hin. rewrite map_map in Hin. apply in_map_iff in Hin.
      destruct Hin as (p & Hp & Hin). pose proof (findIdx_none _ _ _ Ef p Hin) as Hf.
      apply Nat.eqb_neq in Hf. apply Hf. apply opaque_address. split; [exact Hp|eauto]. }
    unfold pushLoc, newLoc. destruct (length (llItems l) =? llCap l).
    + pose proof (moveLocs_view (llItems l) (S (S n))) as Hv.
      pose proof (moveLocs_fresh (llItems l) (S (S n))) as Hf.
      destruct (moveLocs (S (S n)) (llItems l)) as [ls n1]. cbn in Hv, Hf.
      intros [= <- <- <- <-]. cbn [llItems]. split; [lia|].
      eexists. split; [|split; [|right; split; [|split; [|exact Hno]]]].
      * rewrite app_length, nth_error_app2 by (cbn; lia). cbn [length].
        replace (_ - _) with 0 by lia. reflexivity.
      * reflexivity.
      * unfold vl. cbn [llItems]. rewrite map_app, Hv. reflexivity.
      * unfold vl. rewrite <- Hv, app_length, !map_length. cbn; lia.
    + intros [= <- <- <- <-]. cbn [llItems]. split; [lia|].
      eexists. split; [|split; [|right; split; [|split; [|exact Hno]]]].
      * rewrite app_length, nth_error_app2 by (cbn; lia). cbn [length].
        replace (_ - _) with 0 by lia. reflexivity.
      * reflexivity.
      * unfold vl. cbn [llItems]. rewrite map_app. reflexivity.
      * unfold vl. rewrite app_length, !map_length. cbn; lia.
Qed.

Lemma pushItem_spec : forall n b x b' n', pushItem n b x = (b', n') ->
  pItems b' = pItems b ++ [x] /\ n <= n'.
Proof.
  intros n b x b' n'. unfold pushItem.
  destruct (length (pItems b) =? pCap b); intros [= <- <-]; cbn; split; auto with arith.
Qed.

Lemma V_setList : forall s bb l n k, (exists x, lookup (blocks s) bb = Some x) ->
  V (setList s bb l n) k = if k =? bb then vl l else V s k.
Proof.
  intros s bb l n k [x Hx]. unfold V, setList. cbn. rewrite lookup_replace, Hx.
  destruct (k =? bb); reflexivity.
Qed.

(** Effect of an attachment on the view: the location i of the block bb is
    replaced. *)
Definition attached (s s' : state) (bb i : nat) (a : anchor) (e : bool) (v : lview) (x : item)
    : Prop :=
  (forall k, k <> bb -> V s' k = V s k) /\
  V s' bb = setNth (V s bb) i (vset e v (vside e v ++ [x])) /\
  nth_error (V s bb) i = Some v /\ fst v = a /\ (exists m, a = AMeta m)
  \/
  (forall k, k <> bb -> V s' k = V s k) /\
  V s' bb = V s bb ++ [vset e (a, ([], [])) [x]] /\
  i = length (V s bb) /\ v = (a, ([], [])) /\
  (forall m, a = AMeta m -> ~ In a (map fst (V s bb))).

Lemma setNth_app : forall A (l : list A) x y, setNth (l ++ [x]) (length l) y = l ++ [y].
Proof. intros A l; induction l as [|z l IH]; intros x y; cbn; [reflexivity|f_equal; apply IH]. Qed.

Lemma attach_view : forall s s1 bb a l l' i nw n n' p e b' (x : item) y l2,
  (forall k, V s1 k = V s k) ->
  lookup (blocks s1) bb = Some l ->
  locate (fresh s1) l a = (l', i, nw, n) ->
  nth_error (llItems l') i = Some p ->
  pItems b' = pItems (side e p) ++ [x] ->
  llItems l2 = setNth (llItems l') i (setSide e p b') ->
  y = setList s1 bb l2 n' ->
  attached s y bb i a e (vloc p) x.
Proof.
  intros s s1 bb a l l' i nw n n' p e b' x y l2 HV Hl Hloc Hp Hb Hl2 ->.
  assert (Hlu : exists z, lookup (blocks s1) bb = Some z) by eauto.
  assert (HVl : vl l = V s bb) by (rewrite <- HV; unfold V; rewrite Hl; reflexivity).
  assert (Hv2 : vl l2 = setNth (vl l') i (vset e (vloc p) (vside e (vloc p) ++ [x]))).
  { unfold vl. rewrite Hl2, map_setNth, vset_loc, Hb, vside_loc. reflexivity. }
  destruct (locate_spec _ _ _ _ _ _ _ Hloc) as (Hf & q & Hq & Ha & Hcase).
  rewrite Hp in Hq. injection Hq as <-.
  destruct Hcase as [[Hv Hm]|(Hv & Hi & Hno)].
  - left. split; [|split; [|split; [|split]]].
    + intros k Hk. rewrite V_setList by exact Hlu.
      apply Nat.eqb_neq in Hk. rewrite Hk. apply HV.
    + rewrite V_setList, Nat.eqb_refl by exact Hlu. rewrite Hv2, Hv, HVl. reflexivity.
    + rewrite <- HVl, <- Hv. unfold vl. rewrite nth_error_map, Hp. reflexivity.
    + exact Ha.
    + exact Hm.
  - right. rewrite <- HVl.
    assert (Hvp : vloc p = (a, ([], []))).
    { assert (Hn : nth_error (vl l') i = Some (vloc p)) by (unfold vl; rewrite nth_error_map, Hp; reflexivity).
      rewrite Hv, Hi, nth_error_app2, Nat.sub_diag in Hn by lia. cbn [nth_error] in Hn. congruence. }
    split; [|split; [|split; [|split]]].
    + intros k Hk. rewrite V_setList by exact Hlu.
      apply Nat.eqb_neq in Hk. rewrite Hk. apply HV.
    + rewrite V_setList, Nat.eqb_refl by exact Hlu. rewrite Hv2, Hv, Hi, setNth_app, Hvp.
      destruct e; reflexivity.
    + exact Hi.
    + exact Hvp.
    + exact Hno.
Qed.

(** [emplace]: it always succeeds. *)
Lemma emplace_spec : forall s T bb a e args, exists s' r i v x,
  emplace parentOf grows s T bb a e args = Some (s', r) /\
  attached s s' bb i a e v x /\ iClass x = T /\ iArgs x = args /\
  fresh s <= iPtr x < fresh s' /\ funcs s' = insertFunc (funcs s) (parentOf bb) /\
  deref s' r = Some x.
Proof.
  intros s T bb a e args. unfold emplace.
  destruct (tryEmplaceBlock parentOf grows s bb) as [s1 nb] eqn:Eb.
  destruct (block_spec _ _ _ _ Eb) as (HV & Hf & [l Hl] & Hfn). rewrite Hl.
  destruct (locate (fresh s1) l a) as [[[l' i] nl] n] eqn:El.
  destruct (locate_spec _ _ _ _ _ _ _ El) as (Hf1 & p & Hp & Ha & _). rewrite Hp.
  destruct (pushItem (S n) (side e p) (Item n T args)) as [b' n'] eqn:Ep.
  destruct (pushItem_spec _ _ _ _ _ Ep) as [Hb Hf2].
  exists (setList s1 bb (LList (setNth (llItems l') i (setSide e p b')) (llCap l') (llGen l')) n').
  eexists. exists i, (vloc p), (Item n T args). split; [reflexivity|].
  split; [eapply attach_view; eauto; reflexivity|].
  repeat split; cbn; try lia; auto.
  rewrite lookup_replace, Nat.eqb_refl, Hl. cbn. rewrite nth_setNth, Nat.eqb_refl, Hp.
  assert (Hs : side e (setSide e p b') = b') by (destruct e; reflexivity). rewrite Hs, Nat.eqb_refl.
  rewrite Hb, app_length, nth_error_app2 by (cbn; lia). cbn [length].
  replace (_ - _) with 0 by lia. reflexivity.
Qed.

Definition merges (T args : nat) (x : item) : bool :=
  isa T (iClass x) && mergeable (iClass x) (iArgs x) args.

(** [tryEmplace] *)
Lemma block_flag : forall s bb s' b, tryEmplaceBlock parentOf grows s bb = (s', b) ->
  V s bb <> [] -> b = false.
Proof.
  intros s bb s' b. unfold tryEmplaceBlock, V.
  destruct (lookup (blocks s) bb); [|congruence]. intros [= _ <-] _. reflexivity.
Qed.
Lemma locate_flag : forall n l a l' i nw n', locate n l a = (l', i, nw, n') ->
  vl l' = vl l -> nw = false.
Proof.
  intros n l a l' i nw n' H Hv. unfold locate in H.
  destruct (findIdx _ (llItems l)); [injection H; auto|].
  exfalso. apply (f_equal (@length _)) in Hv. unfold vl in Hv. rewrite !map_length in Hv.
  unfold pushLoc, newLoc in H.
  destruct (length (llItems l) =? llCap l).
  - pose proof (moveLocs_view (llItems l) (S (S n))) as Hm.
    destruct (moveLocs (S (S n)) (llItems l)) as [ls n1]. cbn [fst] in Hm.
    apply (f_equal (@length _)) in Hm. rewrite !map_length in Hm.
    injection H as <- _ _ _. cbn [llItems] in Hv. rewrite app_length in Hv. cbn [length] in Hv. lia.
  - injection H as <- _ _ _. cbn [llItems] in Hv. rewrite app_length in Hv. cbn [length] in Hv. lia.
Qed.
Lemma tryEmplace_spec : forall s T bb a e args,
  (exists s' r i v x,
    tryEmplace parentOf isa mergeable grows s T bb a e args = Some (s', r, true) /\
    attached s s' bb i a e v x /\ iClass x = T /\ iArgs x = args /\
    fresh s <= iPtr x < fresh s' /\ funcs s' = insertFunc (funcs s) (parentOf bb) /\
    deref s' r = Some x /\ forall y, In y (vside e v) -> merges T args y = false)
  \/
  (exists s' r b i v y,
    tryEmplace parentOf isa mergeable grows s T bb a e args = Some (s', r, b) /\ b = false /\
    (forall k, V s' k = V s k) /\ fresh s <= fresh s' /\
    funcs s' = insertFunc (funcs s) (parentOf bb) /\
    nth_error (V s bb) i = Some v /\ fst v = a /\ (exists m, a = AMeta m) /\
    In y (vside e v) /\ merges T args y = true /\ deref s' r = Some y).
Proof.
  intros s T bb a e args. unfold tryEmplace.
  destruct (tryEmplaceBlock parentOf grows s bb) as [s1 nb] eqn:Eb.
  destruct (block_spec _ _ _ _ Eb) as (HV & Hf & [l Hl] & Hfn). rewrite Hl.
  destruct (locate (fresh s1) l a) as [[[l' i] nl] n] eqn:El.
  destruct (locate_spec _ _ _ _ _ _ _ El) as (Hf1 & p & Hp & Ha & Hcase). rewrite Hp.
  assert (Hside : forall b', side e (setSide e p b') = b') by (destruct e; reflexivity).
  destruct (findIdx _ (pItems (side e p))) as [j|] eqn:Ef.
  - right. destruct (findIdx_some _ _ _ _ Ef) as (y & Hy & Hm & _).
    assert (HVl : vl l = V s bb) by (rewrite <- HV; unfold V; rewrite Hl; reflexivity).
    assert (Hn : nth_error (vl l') i = Some (vloc p)) by (unfold vl; rewrite nth_error_map, Hp; reflexivity).
    destruct Hcase as [[Hv Hmeta]|(Hv & Hi & _)].
    + exists (setList s1 bb l' n), (RItem bb i (llGen l') j (pGen (side e p)) e), (nb || nl), i, (vloc p), y.
      assert (Hlu : exists z, lookup (blocks s1) bb = Some z) by eauto.
      split; [reflexivity|]. split.
      { rewrite (locate_flag _ _ _ _ _ _ _ El Hv), orb_false_r.
        apply (block_flag _ _ _ _ Eb). rewrite <- HVl, <- Hv. intro Z. rewrite Z in Hn.
        destruct i; discriminate. }
      repeat split.
      * intros k. rewrite V_setList by exact Hlu. destruct (Nat.eqb_spec k bb) as [->|]; [|apply HV].
        congruence.
      * cbn. lia.
      * exact Hfn.
      * congruence.
      * exact Ha.
      * exact Hmeta.
      * rewrite vside_loc. eapply nth_error_In; eauto.
      * exact Hm.
      * cbn. rewrite lookup_replace, Nat.eqb_refl, Hl, Hp, Nat.eqb_refl. exact Hy.
    + exfalso. rewrite Hv, Hi, nth_error_app2, Nat.sub_diag in Hn by lia.
      cbn [nth_error] in Hn. assert (Hn' : vloc p = (a, ([], []))) by congruence.
      assert (Hz : pItems (side e p) = []).
      { rewrite <- vside_loc, Hn'. destruct e; reflexivity. }
      rewrite Hz in Hy. destruct j; discriminate.
  - left. destruct (pushItem (S n) (side e p) (Item n T args)) as [b' n'] eqn:Ep.
    destruct (pushItem_spec _ _ _ _ _ Ep) as [Hb Hf2].
    exists (setList s1 bb (LList (setNth (llItems l') i (setSide e p b')) (llCap l') (llGen l')) n').
    eexists. exists i, (vloc p), (Item n T args). split; [reflexivity|].
    split; [eapply attach_view; eauto; reflexivity|].
    repeat split; cbn; try lia; auto.
    + rewrite lookup_replace, Nat.eqb_refl, Hl. cbn. rewrite nth_setNth, Nat.eqb_refl, Hp.
      rewrite Hside, Nat.eqb_refl.
      rewrite Hb, app_length, nth_error_app2 by (cbn; lia). cbn [length].
      replace (_ - _) with 0 by lia. reflexivity.
    + intros y Hy. change (vside e (vloc p)) with (vside e (vloc p)) in Hy.
      rewrite vside_loc in Hy. exact (findIdx_none _ _ _ Ef y Hy).
Qed.

(** Invariants: at most one location of a metadata anchor, addresses of items are
    unique *)
Definition oneLoc (s : state) : Prop := forall k i j v w m,
  nth_error (V s k) i = Some v -> nth_error (V s k) j = Some w ->
  fst v = AMeta m -> fst w = AMeta m -> i = j.
Definition at_ (s : state) (k i : nat) (e : bool) (j : nat) : option item :=
  match nth_error (V s k) i with Some v => nth_error (vside e v) j | None => None end.
Definition unique (s : state) : Prop :=
  (forall k i e j x, at_ s k i e j = Some x -> iPtr x < fresh s) /\
  (forall k i e j x k' i' e' j' y, at_ s k i e j = Some x -> at_ s k' i' e' j' = Some y ->
    iPtr x = iPtr y -> k = k' /\ i = i' /\ e = e' /\ j = j').
Definition Inv (s : state) : Prop := oneLoc s /\ unique s.

Lemma at_eq : forall s s', (forall k, V s' k = V s k) -> forall k i e j,
  at_ s' k i e j = at_ s k i e j.
Proof. intros s s' H k i e j. unfold at_. rewrite H. reflexivity. Qed.

Lemma inv_same : forall s s', (forall k, V s' k = V s k) -> fresh s <= fresh s' ->
  Inv s -> Inv s'.
Proof.
  intros s s' HV Hf [H1 [H2 H3]]. split.
  - intros k i j v w m. rewrite HV. apply H1.
  - split.
    + intros k i e j x. rewrite (at_eq _ _ HV). intros H. specialize (H2 _ _ _ _ _ H). lia.
    + intros k i e j x k' i' e' j' y. rewrite !(at_eq _ _ HV). apply H3.
Qed.

Lemma vside_vset : forall e e' v l, vside e' (vset e v l) = if Bool.eqb e e' then l else vside e' v.
Proof. intros [] [] [a [x y]] l; reflexivity. Qed.

(** The only new item is at the end of its place. *)
Lemma attached_at : forall s s' bb i a e v x, attached s s' bb i a e v x ->
  forall k j e' q y, at_ s' k j e' q = Some y ->
  at_ s k j e' q = Some y \/
  (k = bb /\ j = i /\ e' = e /\ q = length (vside e v) /\ y = x).
Proof.
  intros s s' bb i a e v x H k j e' q y Hy. unfold at_ in *.
  destruct (Nat.eq_dec k bb) as [->|Hk].
  2:{ left. assert (HV : V s' k = V s k) by (destruct H as [[H _]|[H _]]; auto).
      rewrite <- HV. exact Hy. }
  destruct H as [(_ & HV & Hn & Ha & Hm)|(_ & HV & Hi & Hv & Hno)].
  - rewrite HV, nth_setNth in Hy. destruct (Nat.eqb_spec i j) as [<-|Hij]; [|left; exact Hy].
    rewrite Hn in *. rewrite vside_vset in Hy.
    destruct (Bool.eqb_spec e e') as [<-|He]; [|left; exact Hy].
    destruct (Nat.lt_ge_cases q (length (vside e v))) as [Hq|Hq].
    + rewrite nth_error_app1 in Hy by exact Hq. left; exact Hy.
    + rewrite nth_error_app2 in Hy by exact Hq. right.
      destruct (q - length (vside e v)) as [|z] eqn:Ez; [|destruct z; discriminate].
      injection Hy as <-. repeat split; auto. lia.
  - rewrite HV in Hy. destruct (Nat.lt_ge_cases j (length (V s bb))) as [Hj|Hj].
    + rewrite nth_error_app1 in Hy by exact Hj. left; exact Hy.
    + rewrite nth_error_app2 in Hy by exact Hj. right.
      destruct (j - length (V s bb)) as [|z] eqn:Ez; [|destruct z; discriminate].
      cbn in Hy. rewrite vside_vset in Hy. subst v.
      destruct (Bool.eqb_spec e e') as [<-|He].
      * destruct q as [|q]; [|destruct q; discriminate]. injection Hy as <-.
        repeat split; auto; [lia|]. destruct e; reflexivity.
      * exfalso. destruct e'; destruct q; discriminate.
Qed.

Lemma inv_attached : forall s s' bb i a e v x, attached s s' bb i a e v x ->
  fresh s <= iPtr x < fresh s' -> Inv s -> Inv s'.
Proof.
  intros s s' bb i a e v x H Hx [H1 [H2 H3]]. split.
  - intros k j1 j2 w1 w2 m Hw1 Hw2 Hm1 Hm2.
    destruct (Nat.eq_dec k bb) as [->|Hk].
    2:{ assert (HV : V s' k = V s k) by (destruct H as [[H _]|[H _]]; auto).
        rewrite HV in *. eauto. }
    destruct H as [(_ & HV & Hn & Ha & Hm)|(_ & HV & Hi & Hv & Hno)]; rewrite HV in *.
    + assert (Hg : forall j w, nth_error (setNth (V s bb) i (vset e v (vside e v ++ [x]))) j = Some w ->
                   exists w0, nth_error (V s bb) j = Some w0 /\ fst w0 = fst w).
      { intros j w. rewrite nth_setNth. destruct (Nat.eqb_spec i j) as [<-|Hij].
        - rewrite Hn. intros [= <-]. exists v. split; [reflexivity|]. destruct e; reflexivity.
        - intros Hw. exists w. auto. }
      destruct (Hg _ _ Hw1) as (u1 & Hu1 & Hf1). destruct (Hg _ _ Hw2) as (u2 & Hu2 & Hf2).
      apply (H1 bb j1 j2 u1 u2 m); congruence.
    + assert (Hg : forall j w, nth_error (V s bb ++ [vset e (a, ([], [])) [x]]) j = Some w ->
                   (nth_error (V s bb) j = Some w) \/ (j = length (V s bb) /\ fst w = a)).
      { intros j w Hw. destruct (Nat.lt_ge_cases j (length (V s bb))) as [Hj|Hj].
        - rewrite nth_error_app1 in Hw by exact Hj. left; exact Hw.
        - rewrite nth_error_app2 in Hw by exact Hj. right.
          destruct (j - length (V s bb)) as [|z] eqn:Ez; [|destruct z; discriminate].
          injection Hw as <-. split; [lia|]. destruct e; reflexivity. }
      assert (Hc : forall j w, nth_error (V s bb) j = Some w -> fst w = AMeta m -> a = AMeta m -> False).
      { intros j w Hw Hw' Ha. apply (Hno m Ha). apply in_map_iff. exists w. split; [congruence|].
        eapply nth_error_In; eauto. }
      destruct (Hg _ _ Hw1) as [Ho1|[Hj1 Ha1]]; destruct (Hg _ _ Hw2) as [Ho2|[Hj2 Ha2]].
      * eauto.
      * exfalso. apply (Hc j1 w1); congruence.
      * exfalso. apply (Hc j2 w2); congruence.
      * congruence.
  - pose proof (attached_at _ _ _ _ _ _ _ _ H) as Hat. split.
    + intros k j e' q y Hy. destruct (Hat _ _ _ _ _ Hy) as [Ho|(_ & _ & _ & _ & ->)]; [|lia].
      specialize (H2 _ _ _ _ _ Ho). lia.
    + intros k j e1 q y k' j' e2 q' z Hy Hz Heq.
      destruct (Hat _ _ _ _ _ Hy) as [Ho|(-> & -> & -> & -> & ->)];
      destruct (Hat _ _ _ _ _ Hz) as [Ho'|(-> & -> & -> & -> & ->)].
      * eapply H3; eauto.
      * specialize (H2 _ _ _ _ _ Ho). lia.
      * specialize (H2 _ _ _ _ _ Ho'). lia.
      * repeat split.
Qed.

Lemma V_erase : forall s bb k, V (eraseBlock s bb) k = if k =? bb then [] else V s k.
Proof.
  intros s bb k. unfold V, eraseBlock. cbn. rewrite lookup_filter. destruct (k =? bb); reflexivity.
Qed.
Lemma inv_erase : forall s bb, Inv s -> Inv (eraseBlock s bb).
Proof.
  intros s bb [H1 [H2 H3]].
  assert (Hat : forall k i e j x, at_ (eraseBlock s bb) k i e j = Some x -> at_ s k i e j = Some x).
  { intros k i e j x. unfold at_. rewrite V_erase. destruct (k =? bb); [|auto].
    destruct i; discriminate. }
  split; [|split].
  - intros k i j v w m. rewrite V_erase. destruct (k =? bb); [destruct i; discriminate|apply H1].
  - intros k i e j x H. apply Hat in H. exact (H2 _ _ _ _ _ H).
  - intros k i e j x k' i' e' j' y Hx Hy. apply Hat in Hx. apply Hat in Hy. eapply H3; eauto.
Qed.

(** What is shown at a place *)
Definition vshown (l : list lview) (a : anchor) (e : bool) : list item :=
  flat_map (fun v => if anchor_eqb (fst v) a then vside e v else []) l.
Lemma shown_view : forall s bb a e, shown s (bb, a, e) = vshown (V s bb) a e.
Proof.
  intros s bb a e. unfold shown, V, vshown. destruct (lookup (blocks s) bb) as [l|]; [|reflexivity].
  unfold vl. induction (llItems l) as [|p ps IH]; cbn; [reflexivity|].
  rewrite vside_loc, IH. reflexivity.
Qed.
Lemma anchor_eqb_spec : forall a b, reflect (a = b) (anchor_eqb a b).
Proof.
  intros [n|n] [m|m]; cbn; try (constructor; discriminate);
    destruct (Nat.eqb_spec n m); constructor; congruence.
Qed.
Lemma vshown_app : forall l l' a e, vshown (l ++ l') a e = vshown l a e ++ vshown l' a e.
Proof. intros. apply flat_map_app. Qed.
Lemma vshown_none : forall l a e, (forall v, In v l -> fst v <> a) -> vshown l a e = [].
Proof.
  induction l as [|v l IH]; intros a e H; [reflexivity|]. cbn.
  destruct (anchor_eqb_spec (fst v) a) as [E|E]; [exfalso; apply (H v); [left; reflexivity|exact E]|].
  apply IH. intros w Hw. apply H. right; exact Hw.
Qed.
Lemma nth_split' : forall A (l : list A) i v, nth_error l i = Some v ->
  exists l1 l2, l = l1 ++ v :: l2 /\ length l1 = i.
Proof. intros. apply nth_error_split. assumption. Qed.
Lemma setNth_split : forall A (l1 : list A) v l2 w,
  setNth (l1 ++ v :: l2) (length l1) w = l1 ++ w :: l2.
Proof. intros A l1; induction l1 as [|x l1 IH]; intros; cbn; [reflexivity|f_equal; apply IH]. Qed.

Lemma fst_vset : forall e v l, fst (vset e v l) = fst v.
Proof. intros [] [? [? ?]] ?; reflexivity. Qed.

Lemma attached_shown : forall s s' bb i a e v x, Inv s -> attached s s' bb i a e v x ->
  forall k b f, vshown (V s' k) b f =
    if (k =? bb) && anchor_eqb a b && Bool.eqb e f then vshown (V s k) b f ++ [x]
    else vshown (V s k) b f.
Proof.
  intros s s' bb i a e v x [H1 _] H k b f.
  destruct (Nat.eqb_spec k bb) as [->|Hk]; cbn.
  2:{ f_equal. destruct H as [[H _]|[H _]]; auto. }
  destruct H as [(_ & HV & Hn & Ha & [m Hm])|(_ & HV & Hi & Hv & Hno)]; rewrite HV.
  - destruct (nth_error_split _ _ Hn) as (l1 & l2 & Hl & Hlen). rewrite Hl, <- Hlen, setNth_split.
    rewrite !vshown_app. cbn [vshown flat_map]. rewrite fst_vset, Ha.
    fold (vshown l2 b f).
    destruct (anchor_eqb_spec a b) as [<-|Hab]; cbn; [|reflexivity].
    rewrite vside_vset.
    assert (Hl2 : vshown l2 a f = []).
    { apply vshown_none. intros w Hw E. apply In_nth_error in Hw. destruct Hw as [q Hq].
      assert (Hq' : nth_error (V s bb) (i + S q) = Some w).
      { rewrite Hl, nth_error_app2 by lia. replace (i + S q - length l1) with (S q) by lia. exact Hq. }
      assert (i = i + S q); [|lia]. apply (H1 bb i (i + S q) v w m); [exact Hn|exact Hq'|rewrite Ha; exact Hm|rewrite E; exact Hm]. }
    rewrite Hl2, !app_nil_r.
    destruct (Bool.eqb_spec e f) as [<-|He]; [|reflexivity]. rewrite app_assoc. reflexivity.
  - rewrite vshown_app. cbn [vshown flat_map]. rewrite fst_vset. cbn [fst].
    destruct (anchor_eqb_spec a b) as [<-|Hab]; cbn; [|rewrite app_nil_r; reflexivity].
    rewrite vside_vset, app_nil_r. destruct (Bool.eqb_spec e f) as [<-|He]; [reflexivity|].
    destruct f; cbn; rewrite app_nil_r; reflexivity.
Qed.

(** Items at a place of a metadata anchor are items of its location. *)
Lemma vshown_meta : forall s k i v m e, Inv s -> nth_error (V s k) i = Some v ->
  fst v = AMeta m -> vshown (V s k) (AMeta m) e = vside e v.
Proof.
  intros s k i v m e [H1 _] Hn Ha.
  destruct (nth_error_split _ _ Hn) as (l1 & l2 & Hl & Hlen).
  assert (Hx : forall j w, nth_error (V s k) j = Some w -> fst w = AMeta m -> j = i).
  { intros j w Hw E. apply (H1 k j i w v m); auto. }
  rewrite Hl, vshown_app. cbn [vshown flat_map]. rewrite Ha.
  destruct (anchor_eqb_spec (AMeta m) (AMeta m)) as [_|E]; [|exfalso; apply E; reflexivity].
  fold (vshown l2 (AMeta m) e).
  rewrite !vshown_none; [apply app_nil_r| |].
  - intros w Hw E. apply In_nth_error in Hw. destruct Hw as [q Hq].
    assert (i + S q = i); [|lia]. apply (Hx (i + S q) w); [|exact E].
    rewrite Hl, nth_error_app2 by lia. replace (i + S q - length l1) with (S q) by lia. exact Hq.
  - intros w Hw E. apply In_nth_error in Hw. destruct Hw as [q Hq].
    assert (q < length l1) by (apply nth_error_Some; unfold lview in *; congruence).
    assert (q = i); [|lia]. apply (Hx q w); [|exact E].
    rewrite Hl, nth_error_app1 by lia. exact Hq.
Qed.
End P.

(** Capacities of vectors of items are at least 4. *)
Definition okLoc (p : location) : Prop := 4 <= pCap (lEntry p) /\ 4 <= pCap (lExit p).
Definition caps (s : state) : Prop :=
  forall k l, lookup (blocks s) k = Some l -> Forall okLoc (llItems l).
Lemma moveBlock_cap : forall n b, pCap (fst (moveBlock n b)) = pCap b.
Proof. intros n b. unfold moveBlock. destruct (pCap b =? 4); reflexivity. Qed.
Lemma moveLoc_ok : forall n p, okLoc p -> okLoc (fst (moveLoc n p)).
Proof.
  intros n p [H1 H2]. unfold moveLoc.
  pose proof (moveBlock_cap n (lEntry p)) as He. destruct (moveBlock n (lEntry p)) as [e n1].
  pose proof (moveBlock_cap n1 (lExit p)) as Hx. destruct (moveBlock n1 (lExit p)) as [x n2].
  cbn in *. split; cbn; lia.
Qed.
Lemma moveLocs_ok : forall l n, Forall okLoc l -> Forall okLoc (fst (moveLocs n l)).
Proof.
  induction l as [|p l IH]; intros n H; [constructor|]. inversion H; subst. cbn [moveLocs].
  pose proof (moveLoc_ok n p) as Hp. destruct (moveLoc n p) as [q n1].
  specialize (IH n1). destruct (moveLocs n1 l) as [l' n2]. cbn in *. constructor; auto.
Qed.
Lemma moveList_ok : forall l n, Forall okLoc (llItems l) -> Forall okLoc (llItems (fst (moveList n l))).
Proof.
  intros l n H. unfold moveList. destruct (llCap l =? 1); [|exact H].
  pose proof (moveLocs_ok (llItems l) n H) as Hm. destruct (moveLocs n (llItems l)) as [ls n1].
  exact Hm.
Qed.
Lemma moveMap_ok : forall m n, (forall k l, lookup m k = Some l -> Forall okLoc (llItems l)) ->
  forall k l, lookup (fst (moveMap n m)) k = Some l -> Forall okLoc (llItems l).
Proof.
  induction m as [|[b x] m IH]; intros n H k l; cbn [moveMap]; [discriminate|].
  pose proof (moveList_ok x n) as Hx. destruct (moveList n x) as [x' n1].
  assert (Hrest : forall k l, lookup m k = Some l -> Forall okLoc (llItems l) \/ k = b).
  { intros k' l' Hl. destruct (Nat.eq_dec k' b) as [->|Hk]; [right; reflexivity|left].
    apply (H k'). cbn. apply Nat.eqb_neq in Hk. rewrite Hk. exact Hl. }
  assert (Hb : Forall okLoc (llItems x)) by (apply (H b); cbn; rewrite Nat.eqb_refl; reflexivity).
  specialize (IH n1).
  destruct (moveMap n1 m) as [m' n2] eqn:Em. cbn in *.
  destruct (Nat.eqb_spec k b) as [->|Hk]; [intros [= <-]; auto|].
  intros Hl.
  (* entries with a repeated key are not visible *)
  assert (Hg : forall m n k l, lookup (fst (moveMap n m)) k = Some l ->
            exists l0 n0, lookup m k = Some l0 /\ l = fst (moveList n0 l0)).
  { clear. induction m as [|[b x] m IH]; intros n k l; cbn [moveMap]; [discriminate|].
    destruct (moveList n x) as [x' n1] eqn:Ex. specialize (IH n1 k l).
    destruct (moveMap n1 m) as [m' n2]. cbn in *.
    destruct (k =? b); [intros [= <-]; exists x, n; split; [reflexivity|rewrite Ex; reflexivity]|exact IH]. }
  destruct (Hg m n1 k l) as (l0 & n0 & Hl0 & ->); [rewrite Em; exact Hl|].
  apply moveList_ok. destruct (Hrest k l0 Hl0); [assumption|contradiction].
Qed.

Section Caps.
Variable parentOf : nat -> nat.
Variable isa : nat -> nat -> bool.
Variable mergeable : nat -> nat -> nat -> bool.
Variable grows : state -> bool.
Lemma caps_block : forall s bb s' b, tryEmplaceBlock parentOf grows s bb = (s', b) ->
  caps s -> caps s'.
Proof.
  intros s bb s' b. unfold tryEmplaceBlock.
  destruct (lookup (blocks s) bb) as [l|] eqn:El.
  - intros [= <- <-] H. exact H.
  - destruct (grows s).
    + pose proof (moveMap_ok (blocks s) (fresh s)) as Hm.
      destruct (moveMap (fresh s) (blocks s)) as [m n].
      intros [= <- <-] H k l. cbn. rewrite lookup_app.
      destruct (lookup m k) as [x|] eqn:Ex; [intros [= <-]; eapply Hm; eauto|].
      destruct (k =? bb); [intros [= <-]; constructor|discriminate].
    + intros [= <- <-] H k l. cbn. rewrite lookup_app.
      destruct (lookup (blocks s) k) as [x|] eqn:Ex; [intros [= <-]; eapply H; eauto|].
      destruct (k =? bb); [intros [= <-]; constructor|discriminate].
Qed.
Lemma caps_locate : forall n l a l' i nw n', locate n l a = (l', i, nw, n') ->
  Forall okLoc (llItems l) -> Forall okLoc (llItems l').
Proof.
  intros n l a l' i nw n'. unfold locate.
  destruct (findIdx _ (llItems l)); [intros [= <- _ _ _] H; exact H|].
  unfold pushLoc, newLoc.
  assert (Hn : forall g g', okLoc (Location a (PBlock [] 4 g) (PBlock [] 4 g'))).
  { intros; split; cbn; lia. }
  destruct (length (llItems l) =? llCap l).
  - pose proof (moveLocs_ok (llItems l) (S (S n))) as Hv.
    destruct (moveLocs (S (S n)) (llItems l)) as [ls n1].
    intros [= <- _ _ _] H. cbn in *. apply Forall_app. split; auto.
  - intros [= <- _ _ _] H. cbn in *. apply Forall_app. split; auto.
Qed.
Lemma caps_push : forall n b x, 4 <= pCap b -> 4 <= pCap (fst (pushItem n b x)).
Proof. intros n b x H. unfold pushItem. destruct (length (pItems b) =? pCap b); cbn; lia. Qed.
Lemma Forall_setNth : forall A (P : A -> Prop) l i v, Forall P l -> P v -> Forall P (setNth l i v).
Proof.
  intros A P l; induction l as [|x l IH]; intros [|i] v H Hv; cbn; auto; inversion H; subst; auto.
Qed.
Lemma caps_set : forall s bb l n, caps s -> Forall okLoc (llItems l) -> caps (setList s bb l n).
Proof.
  intros s bb l n H Hl k x. unfold setList. cbn. rewrite lookup_replace.
  destruct (k =? bb); [|apply H].
  destruct (lookup (blocks s) bb); [intros [= <-]; exact Hl|discriminate].
Qed.
Lemma caps_setSide : forall e p b, okLoc p -> 4 <= pCap b -> okLoc (setSide e p b).
Proof. intros [] p b [H1 H2] Hb; split; cbn; auto. Qed.
Lemma caps_side : forall e p, okLoc p -> 4 <= pCap (side e p).
Proof. intros [] p [H1 H2]; cbn; auto. Qed.
Lemma caps_perform : forall s o s', caps s ->
  perform parentOf isa mergeable grows s o = Some s' -> caps s'.
Proof.
  intros s o s' H. destruct o as [T bb a e args|T bb a e args|bb]; cbn.
  - unfold emplace. destruct (tryEmplaceBlock parentOf grows s bb) as [s1 nb] eqn:Eb.
    pose proof (caps_block _ _ _ _ Eb H) as H1.
    destruct (lookup (blocks s1) bb) as [l|] eqn:El; [|discriminate].
    destruct (locate (fresh s1) l a) as [[[l' i] nl] n] eqn:Eloc.
    pose proof (caps_locate _ _ _ _ _ _ _ Eloc (H1 _ _ El)) as H2.
    destruct (nth_error (llItems l') i) as [p|] eqn:Ep; [|discriminate].
    assert (Hp : okLoc p) by (rewrite Forall_forall in H2; apply H2; eapply nth_error_In; eauto).
    pose proof (caps_push (S n) (side e p) (Item n T args) (caps_side e p Hp)) as Hc.
    destruct (pushItem (S n) (side e p) (Item n T args)) as [b n']. cbn. intros [= <-].
    apply caps_set; [exact H1|]. cbn. apply Forall_setNth; [exact H2|].
    apply caps_setSide; assumption.
  - unfold tryEmplace. destruct (tryEmplaceBlock parentOf grows s bb) as [s1 nb] eqn:Eb.
    pose proof (caps_block _ _ _ _ Eb H) as H1.
    destruct (lookup (blocks s1) bb) as [l|] eqn:El; [|discriminate].
    destruct (locate (fresh s1) l a) as [[[l' i] nl] n] eqn:Eloc.
    pose proof (caps_locate _ _ _ _ _ _ _ Eloc (H1 _ _ El)) as H2.
    destruct (nth_error (llItems l') i) as [p|] eqn:Ep; [|discriminate].
    assert (Hp : okLoc p) by (rewrite Forall_forall in H2; apply H2; eapply nth_error_In; eauto).
    destruct (findIdx _ (pItems (side e p))).
    + cbn. intros [= <-]. apply caps_set; assumption.
    + pose proof (caps_push (S n) (side e p) (Item n T args) (caps_side e p Hp)) as Hc.
      destruct (pushItem (S n) (side e p) (Item n T args)) as [b n']. cbn. intros [= <-].
      apply caps_set; [exact H1|]. cbn. apply Forall_setNth; [exact H2|].
      apply caps_setSide; assumption.
  - intros [= <-] k l. unfold eraseBlock. cbn. rewrite lookup_filter.
    destruct (k =? bb); [discriminate|apply H].
Qed.
Lemma caps_run : forall h s s', caps s -> run parentOf isa mergeable grows s h = Some s' -> caps s'.
Proof.
  induction h as [|o h IH]; cbn; intros s s' H Hr; [injection Hr as <-; exact H|].
  destruct (perform parentOf isa mergeable grows s o) as [s1|] eqn:E; [|discriminate].
  eapply IH; [|exact Hr]. eapply caps_perform; eauto.
Qed.
End Caps.

Lemma deref_at : forall s bb i g j g' e x, deref s (RItem bb i g j g' e) = Some x ->
  at_ s bb i e j = Some x.
Proof.
  intros s bb i g j g' e x. cbn. unfold at_, V.
  destruct (lookup (blocks s) bb) as [l|]; [|discriminate]. unfold vl. rewrite nth_error_map.
  destruct (nth_error (llItems l) i) as [p|]; [|discriminate]. cbn. rewrite vside_loc.
  destruct (pGen (side e p) =? g'); [auto|discriminate].
Qed.
Lemma shown_at : forall s bb a e x, In x (shown s (bb, a, e)) ->
  exists i j, at_ s bb i e j = Some x.
Proof.
  intros s bb a e x. rewrite shown_view. unfold vshown. intros H. apply in_flat_map in H.
  destruct H as (v & Hv & Hx). apply In_nth_error in Hv. destruct Hv as [i Hi].
  destruct (anchor_eqb (fst v) a); [|contradiction]. apply In_nth_error in Hx. destruct Hx as [j Hj].
  exists i, j. unfold at_, lview in *. rewrite Hi. exact Hj.
Qed.
Lemma at_shown : forall s bb i e j x, at_ s bb i e j = Some x ->
  exists a, In x (shown s (bb, a, e)).
Proof.
  intros s bb i e j x. unfold at_. destruct (nth_error (V s bb) i) as [v|] eqn:Hv; [|discriminate].
  intros Hx. exists (fst v). rewrite shown_view. unfold vshown. apply in_flat_map. exists v.
  split; [eapply nth_error_In; eauto|].
  destruct (anchor_eqb_spec (fst v) (fst v)) as [_|E]; [|exfalso; apply E; reflexivity].
  eapply nth_error_In; eauto.
Qed.
