(** C42: items of a parallelization are found where they were attached. *)
From Coq Require Import Arith Bool List Lia.
From Verif Require Import ParModel ParSpec ParProof.
Import ListNotations.

Section C42.
Variable parentOf : nat -> nat.
Variable isa : nat -> nat -> bool.
Variable mergeable : nat -> nat -> nat -> bool.
Variable grows : state -> bool.
Notation runs := (run parentOf isa mergeable grows).
Notation exp := (expected isa mergeable).

Lemma inv_empty : Inv empty.
Proof.
  split; [|split]; cbn.
  - intros k [|i] j v w m H; discriminate.
  - intros k [|i] e j x H; discriminate.
  - intros k [|i] e j x k' i' e' j' y H; discriminate.
Qed.
Lemma inv_perform : forall s o s', Inv s ->
  perform parentOf isa mergeable grows s o = Some s' -> Inv s'.
Proof.
  intros s [T bb a e args|T bb a e args|bb] s' Hi; cbn.
  - destruct (emplace_spec parentOf grows s T bb a e args)
      as (s1 & r & i & v & x & -> & Ha & _ & _ & Hf & _). cbn. intros [= <-].
    eapply inv_attached; eauto.
  - destruct (tryEmplace_spec parentOf isa mergeable grows s T bb a e args)
      as [(s1 & r & i & v & x & -> & Ha & _ & _ & Hf & _)
         |(s1 & r & b & i & v & y & -> & _ & HV & Hf & _)]; cbn; intros [= <-].
    + eapply inv_attached; eauto.
    + eapply inv_same; eauto.
  - intros [= <-]. apply inv_erase. exact Hi.
Qed.
Lemma inv_run : forall h s s', Inv s -> runs s h = Some s' -> Inv s'.
Proof.
  induction h as [|o h IH]; cbn; intros s s' Hi Hr; [injection Hr as <-; exact Hi|].
  destruct (perform parentOf isa mergeable grows s o) as [s1|] eqn:E; [|discriminate].
  eapply IH; [|exact Hr]. eapply inv_perform; eauto.
Qed.

Lemma place_eqb_split : forall bb a e k b f,
  place_eqb (bb, a, e) (k, b, f) = (k =? bb) && anchor_eqb a b && Bool.eqb e f.
Proof.
  intros bb a e k b f. cbn. rewrite (Nat.eqb_sym k bb).
  destruct (bb =? k); cbn; [|reflexivity]. destruct a, b, e, f; cbn; try reflexivity;
  rewrite ?andb_true_r, ?andb_false_r; reflexivity.
Qed.

(* one operation *)
Lemma perform_content : forall s o c, Inv s ->
  (forall T bb v e args, o <> AttachIfNew T bb (AValue v) e args) ->
  (forall p, map about (shown s p) = c p) ->
  exists s', perform parentOf isa mergeable grows s o = Some s' /\
    forall p, map about (shown s' p) = apply isa mergeable c o p.
Proof.
  intros s [T bb a e args|T bb a e args|bb] c Hi Hl Hc; cbn.
  - destruct (emplace_spec parentOf grows s T bb a e args)
      as (s1 & r & i & v & x & -> & Ha & HT & Hg & _). exists s1. split; [reflexivity|].
    intros [[k b] f]. rewrite shown_view, (attached_shown _ _ _ _ _ _ _ _ Hi Ha).
    unfold attach. rewrite place_eqb_split, <- Hc, shown_view.
    destruct ((k =? bb) && anchor_eqb a b && Bool.eqb e f); [|reflexivity].
    rewrite map_app. cbn. unfold about at 2. rewrite HT, Hg. reflexivity.
  - destruct (tryEmplace_spec parentOf isa mergeable grows s T bb a e args)
      as [(s1 & r & i & v & x & -> & Ha & HT & Hg & _ & _ & _ & Hno)
         |(s1 & r & b & i & v & y & -> & _ & HV & _ & _ & Hn & Hv & [m Hm] & Hy & Hmg & _)];
      cbn; exists s1; (split; [reflexivity|]).
    + assert (Hs : shown s (bb, a, e) = vside e v).
      { rewrite shown_view. destruct a as [m|w]; [|exfalso; eapply Hl; reflexivity].
        destruct Ha as [(_ & _ & Hn & Hv & _)|(_ & _ & _ & Hv & Hab)].
        - eapply vshown_meta; eauto.
        - subst v. rewrite vshown_none; [destruct e; reflexivity|].
          intros w Hw E. apply (Hab m eq_refl). apply in_map_iff. exists w. auto. }
      assert (Hex : existsb (fun z => isa T (fst z) && mergeable (fst z) (snd z) args)
                      (c (bb, a, e)) = false).
      { rewrite <- Hc, Hs. apply not_true_is_false. intros Hx. apply existsb_exists in Hx.
        destruct Hx as (z & Hz & Hx). apply in_map_iff in Hz. destruct Hz as (w & <- & Hw).
        specialize (Hno w Hw). unfold merges in Hno. cbn in Hx. congruence. }
      rewrite Hex. intros [[k b] f]. rewrite shown_view, (attached_shown _ _ _ _ _ _ _ _ Hi Ha).
      unfold attach. rewrite place_eqb_split, <- Hc, shown_view.
      destruct ((k =? bb) && anchor_eqb a b && Bool.eqb e f); [|reflexivity].
      rewrite map_app. cbn. unfold about at 2. rewrite HT, Hg. reflexivity.
    + assert (Hex : existsb (fun z => isa T (fst z) && mergeable (fst z) (snd z) args)
                      (c (bb, a, e)) = true).
      { rewrite <- Hc, shown_view. rewrite Hm in *. rewrite (vshown_meta _ _ _ _ _ _ Hi Hn Hv).
        apply existsb_exists. exists (about y). split; [apply in_map; exact Hy|exact Hmg]. }
      rewrite Hex. intros [[k b'] f]. rewrite <- Hc, !shown_view, HV. reflexivity.
  - exists (eraseBlock s bb). split; [reflexivity|]. intros [[k b] f].
    rewrite shown_view, V_erase, (Nat.eqb_sym k bb). unfold blockOf. cbn.
    destruct (bb =? k); [reflexivity|]. rewrite <- shown_view. apply Hc.
Qed.

(** After every history of operations each place has exactly the items which were
    attached to it after the last removal of the block, in the order of
    attachments; operations on other places do not affect it.  The restriction to
    anchors of loops for "attach if it is new" is necessary:
    C42_instruction_refuted. *)
Theorem C42_content_partial : forall h, loopAnchors h ->
  exists s, runs empty h = Some s /\ forall p, map about (shown s p) = exp h p.
Proof.
  intros h. unfold expected.
  assert (H : forall h s c, Inv s -> (forall p, map about (shown s p) = c p) -> loopAnchors h ->
    exists s', runs s h = Some s' /\
      forall p, map about (shown s' p) = fold_left (apply isa mergeable) h c p).
  { clear h. induction h as [|o h IH]; intros s c Hi Hc Hl; cbn; [eauto|].
    destruct (perform_content s o c Hi) as (s1 & Hs & Hc1).
    - intros T bb v e args ->. apply (Hl T bb v e args). left; reflexivity.
    - exact Hc.
    - rewrite Hs. apply IH; [eapply inv_perform; eauto|exact Hc1|].
      intros T bb v e args Hin. apply (Hl T bb v e args). right; exact Hin. }
  apply H; [apply inv_empty|]. intros [[k b] f]. reflexivity.
Qed.

(** A search at a place of a loop returns the first item of the kind which is
    there, and an invalid reference if there is no such an item. *)
Theorem C42_find : forall h s, runs empty h = Some s -> forall T bb m e,
  let r := find isa s T bb (AMeta m) e in
  let wanted := List.find (fun x => isa T (iClass x)) (shown s (bb, AMeta m, e)) in
  deref s r = wanted /\ (isValid r = false <-> wanted = None).
Proof.
  intros h s Hr T bb m e. pose proof (inv_run _ _ _ inv_empty Hr) as Hi. cbn zeta.
  assert (Hd : deref s (find isa s T bb (AMeta m) e) =
    List.find (fun x => isa T (iClass x)) (shown s (bb, AMeta m, e)) /\
    (isValid (find isa s T bb (AMeta m) e) = true ->
     deref s (find isa s T bb (AMeta m) e) <> None)).
  { rewrite shown_view. unfold find.
    destruct (lookup (blocks s) bb) as [l|] eqn:El.
    2:{ unfold V. rewrite El. split; [reflexivity|discriminate]. }
    destruct (findIdx (fun p => opaque (lAnchor p) =? address (AMeta m)) (llItems l))
      as [i|] eqn:Ei.
    - destruct (findIdx_some _ _ _ _ Ei) as (p & Hp & Ho & _). rewrite Hp.
      apply Nat.eqb_eq in Ho. apply opaque_address in Ho. destruct Ho as [Ho _].
      assert (Hn : nth_error (V s bb) i = Some (vloc p)).
      { unfold V. rewrite El. unfold vl. rewrite nth_error_map, Hp. reflexivity. }
      rewrite (vshown_meta _ _ _ _ m e Hi Hn Ho), vside_loc.
      rewrite <- findIdx_find.
      destruct (findIdx (fun x => isa T (iClass x)) (pItems (side e p))) as [j|] eqn:Ej.
      + destruct (findIdx_some _ _ _ _ Ej) as (x & Hx & _).
        cbn [deref]. rewrite El, Hp, Nat.eqb_refl, Hx. split; [reflexivity|discriminate].
      + split; [reflexivity|discriminate].
    - split; [|discriminate]. cbn [deref]. rewrite vshown_none; [reflexivity|].
      intros v Hv E. unfold V in Hv. rewrite El in Hv. apply in_map_iff in Hv.
      destruct Hv as (p & <- & Hp). pose proof (findIdx_none _ _ _ Ei p Hp) as Hx.
      apply Nat.eqb_neq in Hx. apply Hx. apply opaque_address. cbn in E. split; [exact E|eauto]. }
  destruct Hd as [Hd Hv]. split; [exact Hd|]. rewrite <- Hd.
  split; intros Hx.
  - destruct (find isa s T bb (AMeta m) e); [reflexivity|discriminate].
  - destruct (isValid (find isa s T bb (AMeta m) e)); [|reflexivity].
    exfalso. apply Hv; auto.
Qed.


(** "Attach if it is new" says whether it attached an item: if an item at the
    place of a loop merges with the new one, nothing is attached and a reference
    to an item which merges is returned, otherwise a new item is attached. *)
Theorem C42_attach_if_new : forall h s, runs empty h = Some s ->
  forall T bb m e args,
  let same := fun x => isa T (iClass x) && mergeable (iClass x) (iArgs x) args in
  exists s' r b x,
    tryEmplace parentOf isa mergeable grows s T bb (AMeta m) e args = Some (s', r, b) /\
    deref s' r = Some x /\
    (b = false <-> exists y, In y (shown s (bb, AMeta m, e)) /\ same y = true) /\
    (b = false -> same x = true /\ In x (shown s (bb, AMeta m, e)) /\
       forall p, shown s' p = shown s p) /\
    (b = true -> about x = (T, args) /\ (forall p y, In y (shown s p) -> iPtr y <> iPtr x) /\
       shown s' (bb, AMeta m, e) = shown s (bb, AMeta m, e) ++ [x]).
Proof.
  intros h s Hr T bb m e args. cbn zeta. pose proof (inv_run _ _ _ inv_empty Hr) as Hi.
  destruct (tryEmplace_spec parentOf isa mergeable grows s T bb (AMeta m) e args)
    as [(s1 & r & i & v & x & -> & Ha & HT & Hg & Hf & _ & Hd & Hno)
       |(s1 & r & b & i & v & y & -> & -> & HV & Hf & _ & Hn & Hv & _ & Hin & Hm & Hd)].
  - exists s1, r, true, x. split; [reflexivity|]. split; [exact Hd|].
    assert (Hsh : shown s (bb, AMeta m, e) = vside e v).
    { rewrite shown_view. destruct Ha as [(_ & _ & Hn & Hv & _)|(_ & _ & _ & -> & Hno')].
      - exact (vshown_meta _ _ _ _ m e Hi Hn Hv).
      - rewrite vshown_none; [destruct e; reflexivity|]. intros w Hw E.
        apply (Hno' m eq_refl). rewrite <- E. apply in_map. exact Hw. }
    split; [split; [discriminate|]|split; [discriminate|]].
    + intros (y & Hy & Hs). rewrite Hsh in Hy. apply Hno in Hy. unfold merges in Hy. congruence.
    + intros _. split; [unfold about; congruence|]. split.
      * intros [[k b] f] y Hy. apply shown_at in Hy. destruct Hy as (j & q & Hy).
        destruct Hi as [_ [Hlt _]]. specialize (Hlt _ _ _ _ _ Hy). lia.
      * rewrite (shown_view s1), (attached_shown _ _ _ _ _ _ _ _ Hi Ha), Nat.eqb_refl, eqb_reflx.
        destruct (anchor_eqb_spec (AMeta m) (AMeta m)) as [_|E]; [|exfalso; apply E; reflexivity].
        cbn [andb]. rewrite shown_view. reflexivity.
  - exists s1, r, false, y. split; [reflexivity|]. split; [exact Hd|].
    assert (Hs : In y (shown s (bb, AMeta m, e))).
    { rewrite shown_view, (vshown_meta _ _ _ _ m e Hi Hn Hv). exact Hin. }
    split; [split; [|reflexivity]|split; [|discriminate]].
    + intros _. exists y. split; [exact Hs|exact Hm].
    + intros _. split; [exact Hm|]. split; [exact Hs|].
      intros [[k a] f]. rewrite !shown_view, HV. reflexivity.
Qed.
(** An attached item is found immediately if its place has no item of its kind;
    the returned reference denotes a new item. *)
Theorem C42_attach_found : forall h s, runs empty h = Some s ->
  forall T bb m e args, isa T T = true ->
  (forall x, In x (shown s (bb, AMeta m, e)) -> isa T (iClass x) = false) ->
  exists s' r x, emplace parentOf grows s T bb (AMeta m) e args = Some (s', r) /\
    deref s' r = Some x /\ about x = (T, args) /\
    deref s' (find isa s' T bb (AMeta m) e) = Some x /\
    forall p y, In y (shown s p) -> iPtr y <> iPtr x.
Proof.
  intros h s Hr T bb m e args Hself Hno. pose proof (inv_run _ _ _ inv_empty Hr) as Hi.
  destruct (emplace_spec parentOf grows s T bb (AMeta m) e args)
    as (s' & r & i & v & x & He & Ha & HT & Hg & Hf & _ & Hd).
  exists s', r, x. split; [exact He|]. split; [exact Hd|].
  split; [unfold about; rewrite HT, Hg; reflexivity|]. split.
  - assert (Hr' : runs empty (h ++ [Attach T bb (AMeta m) e args]) = Some s').
    { clear - Hr He. revert Hr. generalize empty.
      induction h as [|o h IH]; intros s0; cbn.
      - intros [= ->]. rewrite He. reflexivity.
      - destruct (perform parentOf isa mergeable grows s0 o); [apply IH|discriminate]. }
    destruct (C42_find _ _ Hr' T bb m e) as [Hfind _]. rewrite Hfind.
    rewrite shown_view, (attached_shown _ _ _ _ _ _ _ _ Hi Ha), Nat.eqb_refl, eqb_reflx.
    destruct (anchor_eqb_spec (AMeta m) (AMeta m)) as [_|E]; [|exfalso; apply E; reflexivity].
    cbn [andb]. rewrite <- shown_view.
    assert (Hl : forall l, (forall y, In y l -> isa T (iClass y) = false) ->
      List.find (fun y => isa T (iClass y)) (l ++ [x]) = Some x).
    { induction l as [|y l IH]; intros Hl; cbn.
      - rewrite HT, Hself. reflexivity.
      - rewrite (Hl y) by (left; reflexivity). apply IH. intros z Hz. apply Hl. right; exact Hz. }
    apply Hl. exact Hno.
  - intros [[k b] f] y Hy. apply shown_at in Hy. destruct Hy as (j & q & Hy).
    destruct Hi as [_ [Hlt _]]. specialize (Hlt _ _ _ _ _ Hy). lia.
Qed.

(** References which denote items are equal exactly if they denote the same
    item. *)
Theorem C42_references_equal : forall h s, runs empty h = Some s ->
  forall r q x y, deref s r = Some x -> deref s q = Some y ->
  exists b, refEq s r q = Some b /\ (b = true <-> iPtr x = iPtr y) /\
    (b = true <-> x = y /\ exists bb i e j g1 g2 g3 g4,
       r = RItem bb i g1 j g2 e /\ q = RItem bb i g3 j g4 e).
Proof.
  intros h s Hr r q x y Hx Hy. pose proof (inv_run _ _ _ inv_empty Hr) as Hi.
  destruct r as [?|bb i g j g' e]; [discriminate|].
  destruct q as [?|bb' i' h1 j' h2 e']; [discriminate|].
  pose proof (deref_at _ _ _ _ _ _ _ _ Hx) as Ax. pose proof (deref_at _ _ _ _ _ _ _ _ Hy) as Ay.
  destruct Hi as [_ [_ Hu]].
  assert (Hsame : iPtr x = iPtr y -> bb = bb' /\ i = i' /\ e = e' /\ j = j').
  { intros E. eapply Hu; eauto. }
  unfold refEq. cbn [sameState isValid]. rewrite Hx, Hy.
  destruct (Bool.eqb_spec e e') as [->|He].
  - exists (iPtr x =? iPtr y). split; [reflexivity|]. split; [apply Nat.eqb_eq|].
    rewrite Nat.eqb_eq. split.
    + intros E. destruct (Hsame E) as (-> & -> & _ & ->). split; [|repeat eexists].
      congruence.
    + intros [-> _]. reflexivity.
  - exists false. split; [reflexivity|]. split; (split; [discriminate|]).
    + intros E. destruct (Hsame E) as (_ & _ & E' & _). contradiction.
    + intros [-> _]. destruct (Hsame eq_refl) as (_ & _ & E' & _). contradiction.
Qed.

(** A reference still denotes its item after an item is attached to a place which
    has a location and less than four items, and after another block is
    erased. *)
Theorem C42_references_valid_partial : forall h s, runs empty h = Some s ->
  forall r x, deref s r = Some x ->
  (forall T bb m e args s' q,
    (exists y f, In y (shown s (bb, AMeta m, f))) -> length (shown s (bb, AMeta m, e)) < 4 ->
    emplace parentOf grows s T bb (AMeta m) e args = Some (s', q) -> deref s' r = Some x) /\
  (forall bb, (forall a e, ~ In x (shown s (bb, a, e))) ->
    deref (eraseBlock s bb) r = Some x).
Proof.
  intros h s Hr r x Hx. pose proof (inv_run _ _ _ inv_empty Hr) as Hi.
  assert (Hc : caps s).
  { eapply caps_run; [|exact Hr]. intros k l H; discriminate. }
  destruct r as [?|k i g j g' f]; [discriminate|]. split.
  - intros T bb m e args s' q [y [f' Hy]] Hlen. unfold emplace, tryEmplaceBlock.
    assert (Hl : exists l, lookup (blocks s) bb = Some l).
    { unfold shown in Hy. destruct (lookup (blocks s) bb); [eauto|contradiction]. }
    destruct Hl as [l Hl]. rewrite Hl. cbn [blocks fresh]. rewrite Hl.
    unfold locate.
    destruct (findIdx (fun p => opaque (lAnchor p) =? address (AMeta m)) (llItems l))
      as [i0|] eqn:Ei.
    2:{ exfalso. unfold shown in Hy. rewrite Hl in Hy. apply in_flat_map in Hy.
        destruct Hy as (p & Hp & Hy). pose proof (findIdx_none _ _ _ Ei p Hp) as Hn.
        destruct (anchor_eqb_spec (lAnchor p) (AMeta m)) as [E|E]; [|contradiction].
        apply Nat.eqb_neq in Hn. apply Hn. apply opaque_address. split; [exact E|eauto]. }
    destruct (findIdx_some _ _ _ _ Ei) as (p & Hp & Ho & _). rewrite Hp.
    apply Nat.eqb_eq in Ho. apply opaque_address in Ho. destruct Ho as [Ho _].
    assert (Hn : nth_error (V s bb) i0 = Some (vloc p)).
    { unfold V. rewrite Hl. unfold vl. rewrite nth_error_map, Hp. reflexivity. }
    rewrite shown_view, (vshown_meta _ _ _ _ m e Hi Hn Ho), vside_loc in Hlen.
    assert (Hcap : 4 <= pCap (side e p)).
    { apply caps_side. specialize (Hc _ _ Hl). rewrite Forall_forall in Hc. apply Hc.
      eapply nth_error_In; eauto. }
    unfold pushItem. destruct (Nat.eqb_spec (length (pItems (side e p))) (pCap (side e p))) as [E|_];
      [lia|].
    intros [= <- _]. cbn in Hx |- *. rewrite lookup_replace.
    destruct (Nat.eqb_spec k bb) as [->|Hk]; [|exact Hx].
    rewrite Hl in *. cbn [llItems]. rewrite nth_setNth.
    destruct (Nat.eqb_spec i0 i) as [->|Hi0]; [|exact Hx]. rewrite Hp in *.
    destruct e, f; cbn in *; try exact Hx;
      (destruct (_ =? g'); [|discriminate];
       rewrite nth_error_app1; [exact Hx|apply nth_error_Some; congruence]).
  - intros bb Hno. cbn. rewrite lookup_filter.
    destruct (Nat.eqb_spec k bb) as [->|Hk]; [|exact Hx].
    exfalso. apply deref_at in Hx. apply at_shown in Hx. destruct Hx as [a Hx].
    exact (Hno _ _ Hx).
Qed.

(** A function is marked exactly if something was attached to a block of it. *)
Definition attaches (h : list op) (bb : nat) : Prop :=
  exists T a e args, In (Attach T bb a e args) h \/ In (AttachIfNew T bb a e args) h.
Theorem C42_functions : forall h s, runs empty h = Some s ->
  forall f, In f (funcs s) <-> exists bb, attaches h bb /\ parentOf bb = f.
Proof.
  assert (Hin : forall l f g, In f (insertFunc l g) <-> In f l \/ f = g).
  { intros l f g. unfold insertFunc. destruct (existsb (Nat.eqb g) l) eqn:E.
    - apply existsb_exists in E. destruct E as (z & Hz & E). apply Nat.eqb_eq in E. subst z.
      split; [auto|]. intros [H| ->]; auto.
    - rewrite in_app_iff. cbn. intuition. }
  assert (H : forall h s0 s, runs s0 h = Some s -> forall f,
    In f (funcs s) <-> In f (funcs s0) \/ exists bb, attaches h bb /\ parentOf bb = f).
  { induction h as [|o h IH]; cbn [run]; intros s0 s Hr f.
    - injection Hr as <-. split; [auto|]. intros [H|(bb & (T & a & e & args & [H|H]) & _)];
        [exact H|contradiction|contradiction].
    - destruct (perform parentOf isa mergeable grows s0 o) as [s1|] eqn:E; [|discriminate].
      rewrite (IH _ _ Hr f).
      assert (Hs : In f (funcs s1) <-> In f (funcs s0) \/ exists bb, attaches [o] bb /\ parentOf bb = f).
      { destruct o as [T bb a e args|T bb a e args|bb]; cbn in E.
        - destruct (emplace_spec parentOf grows s0 T bb a e args)
            as (s2 & r & i & v & x & Hq & _ & _ & _ & _ & Hfs & _). rewrite Hq in E. cbn in E.
          injection E as <-. rewrite Hfs, Hin. split; intros [H|H]; auto; right.
          + exists bb. split; [|auto]. exists T, a, e, args. left. left. reflexivity.
          + destruct H as (b & (T' & a' & e' & g & [[H|[]]|[H|[]]]) & Hb); [|discriminate].
            injection H as _ -> _ _ _. auto.
        - assert (Hfs : funcs s1 = insertFunc (funcs s0) (parentOf bb)).
          { destruct (tryEmplace_spec parentOf isa mergeable grows s0 T bb a e args)
              as [(s2 & r & i & v & x & Hq & _ & _ & _ & _ & Hfs & _)
                 |(s2 & r & b & i & v & y & Hq & _ & _ & _ & Hfs & _)]; rewrite Hq in E; cbn in E;
              injection E as <-; exact Hfs. }
          rewrite Hfs, Hin. split; intros [H|H]; auto; right.
          + exists bb. split; [|auto]. exists T, a, e, args. right. left. reflexivity.
          + destruct H as (b & (T' & a' & e' & g & [[H|[]]|[H|[]]]) & Hb); [discriminate|].
            injection H as _ -> _ _ _. auto.
        - injection E as <-. cbn. split; [auto|]. intros [H|(b & (T' & a' & e' & g & [[H|[]]|[H|[]]]) & _)];
            [exact H|discriminate|discriminate]. }
      rewrite Hs. split.
      + intros [[H|(bb & (T & a & e & args & Ha) & Hb)]|(bb & (T & a & e & args & Ha) & Hb)];
          [auto| |]; right; exists bb; (split; [|exact Hb]); exists T, a, e, args;
          cbn in Ha |- *; intuition.
      + intros [H|(bb & (T & a & e & args & Ha) & Hb)]; [auto|].
        cbn in Ha. destruct Ha as [[Ha|Ha]|[Ha|Ha]].
        * left; right. exists bb. split; [|exact Hb]. exists T, a, e, args. cbn. auto.
        * right. exists bb. split; [|exact Hb]. exists T, a, e, args. auto.
        * left; right. exists bb. split; [|exact Hb]. exists T, a, e, args. cbn. auto.
        * right. exists bb. split; [|exact Hb]. exists T, a, e, args. auto. }
  intros h s Hr f. rewrite (H h empty s Hr f). cbn. intuition.
Qed.

(** Operator != says the same as operator ==: a reference to an item is not equal
    to itself. *)
Theorem C42_not_equal_refuted : forall s r x, deref s r = Some x -> refNe s r r = Some true.
Proof.
  intros s r x Hx. destruct r as [?|bb i g j g' e]; [discriminate|].
  unfold refNe, refEq. cbn [sameState isValid]. rewrite eqb_reflx, Hx, Nat.eqb_refl. reflexivity.
Qed.

(** A search for items which are attached to an instruction or to a function never
    finds anything: tag bits of the anchor differ. *)
Theorem C42_instruction_refuted : forall s T bb v e,
  find isa s T bb (AValue v) e = RInvalid false /\
  forall args, exists s' r x, emplace parentOf grows s T bb (AValue v) e args = Some (s', r) /\
    deref s' r = Some x /\ about x = (T, args) /\
    isValid (find isa s' T bb (AValue v) e) = false.
Proof.
  assert (Hn : forall s T bb v e, find isa s T bb (AValue v) e = RInvalid false).
  { intros s T bb v e. unfold find. destruct (lookup (blocks s) bb) as [l|]; [|reflexivity].
    destruct (findIdx (fun p => opaque (lAnchor p) =? address (AValue v)) (llItems l))
      as [i|] eqn:Ei; [|reflexivity].
    destruct (findIdx_some _ _ _ _ Ei) as (p & _ & Ho & _). apply Nat.eqb_eq in Ho.
    apply opaque_address in Ho. destruct Ho as [_ [n E]]. discriminate. }
  intros s T bb v e. split; [apply Hn|]. intros args.
  destruct (emplace_spec parentOf grows s T bb (AValue v) e args)
    as (s' & r & i & w & x & He & _ & HT & Hg & _ & _ & Hd).
  exists s', r, x. repeat split; auto; [unfold about; congruence|]. rewrite Hn. reflexivity.
Qed.
End C42.

Definition anyParent (bb : nat) : nat := bb / 10.
Definition eqKind (a b : nat) : bool := a =? b.
Definition sameArgs (c a b : nat) : bool := a =? b.
Definition never (s : state) : bool := false.
Notation go := (run anyParent eqKind sameArgs never empty).

(** A reference dangles after an item is attached to another loop of the same
    block, although its item is still there. *)
Theorem C42_references_valid_refuted : exists s s' r q,
  emplace anyParent never empty 1 5 (AMeta 1) true 0 = Some (s, r) /\
  (exists x, deref s r = Some x) /\
  emplace anyParent never s 1 5 (AMeta 2) true 0 = Some (s', q) /\
  deref s' r = None /\ shown s' (5, AMeta 1, true) = shown s (5, AMeta 1, true).
Proof.
  eexists. eexists. eexists. eexists. split; [vm_compute; reflexivity|].
  split; [eexists; vm_compute; reflexivity|]. split; [vm_compute; reflexivity|].
  split; vm_compute; reflexivity.
Qed.

(** "Attach if it is new" attaches a copy if the anchor is an instruction. *)
Theorem C42_attach_if_new_refuted :
  let h := [AttachIfNew 1 5 (AValue 7) true 3; AttachIfNew 1 5 (AValue 7) true 3] in
  expected eqKind sameArgs h (5, AValue 7, true) = [(1, 3)] /\
  exists s, go h = Some s /\ map about (shown s (5, AValue 7, true)) = [(1, 3); (1, 3)].
Proof.
  split; [vm_compute; reflexivity|]. eexists. split; vm_compute; reflexivity.
Qed.

(** A search returns the oldest item of a kind but not the attached one. *)
Theorem C42_latest_refuted : exists s s' r x,
  go [Attach 1 5 (AMeta 1) true 3] = Some s /\
  emplace anyParent never s 1 5 (AMeta 1) true 4 = Some (s', r) /\
  deref s' r = Some x /\ about x = (1, 4) /\
  option_map about (deref s' (find eqKind s' 1 5 (AMeta 1) true)) = Some (1, 3).
Proof.
  eexists. eexists. eexists. eexists. split; [vm_compute; reflexivity|].
  split; [vm_compute; reflexivity|]. repeat split; vm_compute; reflexivity.
Qed.

(** A function without parallel constructs is still marked after they are
    erased. *)
Theorem C42_functions_refuted : exists s,
  go [Attach 1 57 (AMeta 1) true 3; Erase 57] = Some s /\ blocks s = [] /\ funcs s = [5].
Proof. eexists. split; [vm_compute; reflexivity|]. split; vm_compute; reflexivity. Qed.

(** Non-vacuity: a history with two blocks, both sides of anchors of both kinds and
    items which are merged *)
Definition exampleHistory :=
  [Attach 1 5 (AMeta 1) true 3; AttachIfNew 1 5 (AMeta 1) true 3; Attach 2 5 (AMeta 1) false 4;
   Attach 1 6 (AValue 2) true 5; Attach 2 7 (AMeta 9) true 5; Attach 1 5 (AMeta 4) true 8;
   AttachIfNew 1 5 (AMeta 1) true 6; Erase 7].
Example C42_nonvacuous : loopAnchors exampleHistory /\
  exists s, go exampleHistory = Some s /\
  map about (shown s (5, AMeta 1, true)) = [(1, 3); (1, 6)] /\
  map about (shown s (6, AValue 2, true)) = [(1, 5)] /\
  shown s (7, AMeta 9, true) = [] /\
  option_map about (deref s (find eqKind s 2 5 (AMeta 1) false)) = Some (2, 4) /\
  length (shown s (5, AMeta 1, true)) < 4 /\ funcs s = [0].
Proof.
  split.
  - intros T bb v e args H. repeat (destruct H as [H|H]; [discriminate|]). contradiction.
  - eexists. split; [vm_compute; reflexivity|].
    do 4 (split; [vm_compute; reflexivity|]). split; [vm_compute; lia|vm_compute; reflexivity].
Qed.

Print Assumptions C42_content_partial.
Print Assumptions C42_find.
Print Assumptions C42_attach_if_new.
Print Assumptions C42_attach_found.
Print Assumptions C42_references_equal.
Print Assumptions C42_references_valid_partial.
Print Assumptions C42_functions.
Print Assumptions C42_not_equal_refuted.
Print Assumptions C42_instruction_refuted.
Print Assumptions C42_references_valid_refuted.
Print Assumptions C42_attach_if_new_refuted.
Print Assumptions C42_latest_refuted.
Print Assumptions C42_functions_refuted.
