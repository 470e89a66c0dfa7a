(** Proofs about regions around parallel loops. *)
From Coq Require Import PeanoNat Bool List ZArith Lia.
From Verif Require Import DvmhMergeModel DvmhMergeSpec.
Import ListNotations.

Lemma set_eq L i p : set L i p i = p.
Proof. unfold set. now rewrite Nat.eqb_refl. Qed.
Lemma set_neq L i j p : i <> j -> set L i p j = L j.
Proof. intro H. unfold set. apply Nat.eqb_neq in H. now rewrite H. Qed.
Lemma inb_In v vs : inb v vs = true <-> In v vs.
Proof.
  unfold inb. rewrite existsb_exists. split.
  - intros (u & H & E). apply Nat.eqb_eq in E. now subst.
  - intro H. exists v. split; [exact H|apply Nat.eqb_refl].
Qed.
Lemma inb_false v vs : inb v vs = false <-> ~ In v vs.
Proof. rewrite <- inb_In. destruct (inb v vs); split; intro H; auto; try discriminate. now destruct H. Qed.

(** Variables which are mentioned in directives of a loop. *)
Definition rin (ns : nat -> info) (i : nat) := if nHost (ns i) then [] else nIn (ns i).
Definition rout (ns : nat -> info) (i : nat) := if nHost (ns i) then [] else nOut (ns i).
Definition rpriv (ns : nat -> info) (i : nat) := if nHost (ns i) then [] else nPriv (ns i).
Definition regionOf (ns : nat -> info) (g : list nat) (h : bool) : region :=
  Region h (flat_map (rin ns) g) (flat_map (rout ns) g) (flat_map (rpriv ns) g).
Lemma orEmpty_nonEmpty vs : orEmpty (nonEmpty vs) = vs.
Proof. destruct vs; reflexivity. Qed.
Lemma initial_place ns i : pMarker (initial ns i) = true /\ pRegion (initial ns i) = Some (regionOf ns [i] (nHost (ns i))) /\
  orEmpty (pActual (initial ns i)) = rin ns i /\ orEmpty (pGet (initial ns i)) = rout ns i.
Proof.
  unfold initial, newRegion, regionOf, rin, rout, rpriv. cbn [flat_map]. destruct (nHost (ns i)) eqn:H;
    cbn [pMarker pRegion pActual pGet orEmpty]; rewrite ?orEmpty_nonEmpty, ?app_nil_r; auto.
Qed.

Lemma middle_ok ns first last h : forall is L A pre G,
  first <> last -> ~ In first is -> ~ In last is -> NoDup is ->
  L first = Place (Some A) (Some (regionOf ns pre h)) false None ->
  pMarker (L last) = true -> pGet (L last) = Some G ->
  (forall i, In i is -> L i = initial ns i) ->
  exists L', mergeMiddle first last is L = Some L' /\
    L' first = Place (Some (A ++ flat_map (rin ns) is)) (Some (regionOf ns (pre ++ is) h)) false None /\
    L' last = Place (pActual (L last)) (pRegion (L last)) true (Some (G ++ flat_map (rout ns) is)) /\
    (forall i, In i is -> L' i = Place None None false None) /\
    (forall j, j <> first -> j <> last -> ~ In j is -> L' j = L j).
Proof.
  induction is as [|i is IH]; intros L A pre G FL NF NL ND EF EM EG EI; cbn [mergeMiddle].
  - exists L. split; [reflexivity|]. cbn [flat_map]. rewrite !app_nil_r. split; [exact EF|].
    split; [destruct (L last); cbn in *; now subst|]. split; [intros i []|auto].
  - assert (N1 : first <> i) by (intro Q; apply NF; now left). assert (N2 : last <> i) by (intro Q; apply NL; now left).
    inversion ND as [|? ? NI ND']; subst. pose proof (EI i (or_introl eq_refl)) as E0.
    destruct (initial_place ns i) as (I1 & I2 & I3 & I4).
    unfold removeEnd at 1. rewrite E0, I1. cbn [bind].
    set (L1 := set L last _). set (L2 := set L1 i _).
    assert (L2i : L2 i = Place (pActual (initial ns i)) (pRegion (initial ns i)) false None).
    { unfold L2. rewrite set_eq. unfold L1. now rewrite set_neq, E0. }
    assert (L2f : L2 first = Place (Some A) (Some (regionOf ns pre h)) false None).
    { unfold L2, L1. rewrite !set_neq by auto. exact EF. }
    assert (L2l : L2 last = Place (pActual (L last)) (pRegion (L last)) true (Some (G ++ rout ns i))).
    { unfold L2. rewrite set_neq by auto. unfold L1. rewrite set_eq, EM, EG. cbn [orEmpty]. now rewrite I4. }
    unfold removeStart at 1. rewrite L2i, L2f. cbn [pRegion]. rewrite I2. cbn [bind pActual pMarker pGet orEmpty].
    set (L3 := set L2 first _). set (L4 := set L3 i _).
    destruct (IH L4 (A ++ rin ns i) (pre ++ [i]) (G ++ rout ns i)) as (L' & X1 & X2 & X3 & X4 & X5); auto.
    + intro Q. apply NF. now right.
    + intro Q. apply NL. now right.
    + unfold L4. rewrite set_neq by auto. unfold L3. rewrite set_eq. rewrite I3.
      unfold regionOf. cbn [rHost rIn rOut rPriv flat_map]. rewrite !app_nil_r, !flat_map_app. cbn [flat_map].
      now rewrite !app_nil_r.
    + unfold L4, L3. rewrite !set_neq by auto. now rewrite L2l.
    + unfold L4, L3. rewrite !set_neq by auto. now rewrite L2l.
    + intros k K. assert (k <> i) by (intros ->; auto). assert (k <> first) by (intros ->; apply NF; now right).
      assert (k <> last) by (intros ->; apply NL; now right).
      unfold L4, L3, L2, L1. rewrite !set_neq by auto. apply EI. now right.
    + assert (L4l : L4 last = L2 last) by (unfold L4, L3; now rewrite !set_neq by auto).
      exists L'. split; [exact X1|]. split.
      { rewrite X2. cbn [flat_map]. now rewrite <- !app_assoc. }
      split.
      { rewrite X3, L4l, L2l. cbn [pActual pRegion flat_map]. now rewrite <- app_assoc. }
      split.
      { intros k [<-|K]; [|auto]. rewrite X5 by auto. unfold L4. rewrite set_eq. unfold L3. rewrite set_neq by auto.
        now rewrite L2i. }
      { intros j J1 J2 J3. assert (i <> j) by (intros ->; apply J3; now left).
        rewrite X5 by (auto; intro Q; apply J3; now right). unfold L4, L3, L2, L1. now rewrite !set_neq by auto. }
Qed.
(** Directives of loops in a group. *)
Definition groupPlaces (ns : nat -> info) (L : layout) (g : list nat) : Prop :=
  exists first rest, g = first :: rest /\
    (rest = [] -> L first = initial ns first) /\
    (rest <> [] ->
      L first = Place (Some (flat_map (rin ns) g)) (Some (regionOf ns g (nHost (ns first)))) false None /\
      (exists G, L (last rest first) = Place None None true (Some G) /\ forall v, In v G <-> In v (flat_map (rout ns) g)) /\
      (forall i, In i (removelast rest) -> L i = Place None None false None)).
Lemma removelast_last (l : list nat) d : l <> [] -> l = removelast l ++ [last l d].
Proof. apply app_removelast_last. Qed.
Lemma merge_ok ns first rest L : NoDup (first :: rest) -> rest <> [] ->
  (forall i, In i (first :: rest) -> L i = initial ns i) ->
  exists L', mergeRegions (first :: rest) L = Some L' /\ groupPlaces ns L' (first :: rest) /\
    forall j, ~ In j (first :: rest) -> L' j = L j.
Proof.
  intros ND NE EI. inversion ND as [|? ? NF ND']; subst.
  pose proof (removelast_last rest first NE) as ER. set (lst := List.last rest first) in *. set (mid := removelast rest) in *.
  assert (IL : In lst rest) by (rewrite ER; apply in_or_app; right; now left).
  assert (FL : first <> lst) by (intro Q; apply NF; rewrite Q; exact IL).
  assert (NM : NoDup mid /\ ~ In lst mid).
  { rewrite ER in ND'. apply NoDup_remove in ND'. rewrite app_nil_r in ND'. exact ND'. }
  assert (MI : incl mid rest) by (intros x X; rewrite ER; apply in_or_app; now left).
  destruct (initial_place ns first) as (F1 & F2 & F3 & F4). destruct (initial_place ns lst) as (T1 & T2 & T3 & T4).
  pose proof (EI first (or_introl eq_refl)) as EF. pose proof (EI lst (or_intror IL)) as EL.
  unfold mergeRegions. fold lst. fold mid. rewrite EF, F2, EL, T1.
  set (L1 := addActual first L). set (L2 := addGet lst L1).
  assert (L2f : L2 first = Place (Some (rin ns first)) (pRegion (initial ns first)) true (pGet (initial ns first))).
  { unfold L2, addGet. rewrite set_neq by auto. unfold L1, addActual. rewrite set_eq, EF. now rewrite F3, F1. }
  assert (L2l : L2 lst = Place (pActual (initial ns lst)) (pRegion (initial ns lst)) true (Some (rout ns lst))).
  { unfold L2, addGet. rewrite set_eq. unfold L1, addActual. rewrite set_neq by auto. rewrite EL. now rewrite T4, T1. }
  unfold removeEnd at 1. rewrite L2f. cbn [pMarker bind]. set (L3 := set L2 lst _). set (L4 := set L3 first _).
  assert (L4f : L4 first = Place (Some (rin ns first)) (Some (regionOf ns [first] (nHost (ns first)))) false None).
  { unfold L4. rewrite set_eq. unfold L3. rewrite set_neq by auto. rewrite L2f. cbn [pActual pRegion]. now rewrite F2. }
  assert (L4l : L4 lst = Place (pActual (initial ns lst)) (pRegion (initial ns lst)) true (Some (rout ns lst ++ rout ns first))).
  { unfold L4. rewrite set_neq by auto. unfold L3. rewrite set_eq, L2l. cbn [pActual pRegion pMarker pGet orEmpty]. now rewrite F4. }
  assert (L4o : forall j, j <> first -> j <> lst -> L4 j = L j).
  { intros j J1 J2. unfold L4, L3, L2, addGet, L1, addActual. now rewrite !set_neq by auto. }
  destruct (middle_ok ns first lst (nHost (ns first)) mid L4 (rin ns first) [first] (rout ns lst ++ rout ns first))
    as (L5 & X1 & X2 & X3 & X4 & X5); auto.
  { apply NM. }
  { apply NM. }
  { now rewrite L4l. }
  { now rewrite L4l. }
  { intros i M. rewrite L4o; [apply EI; right; auto|intros ->; auto|]. intro Q. apply NM. rewrite <- Q. exact M. }
  rewrite X1. cbn [bind]. unfold removeStart. rewrite X3, L4l. cbn [pRegion pActual pMarker pGet]. rewrite T2, X2. cbn [pRegion].
  eexists. split; [reflexivity|]. cbn [pActual pMarker pGet orEmpty]. rewrite T3.
  set (L6 := set L5 first _). split.
  - exists first, rest. split; [reflexivity|]. split; [intros ->; now destruct NE|]. intros _. fold lst. fold mid. split; [|split].
    + rewrite set_neq by auto. unfold L6. rewrite set_eq. unfold regionOf. cbn [rIn rOut rPriv rHost].
      rewrite ER. cbn [flat_map app]. rewrite !flat_map_app. cbn [flat_map]. rewrite !app_nil_r, <- !app_assoc. reflexivity.
    + exists ((rout ns lst ++ rout ns first) ++ flat_map (rout ns) mid). rewrite set_eq.
      assert (L6l : L6 lst = L5 lst) by (unfold L6; now rewrite set_neq by auto). rewrite L6l, X3. split; [reflexivity|].
      intro v. rewrite ER. cbn [flat_map]. rewrite flat_map_app. cbn [flat_map]. rewrite !in_app_iff. cbn [In]. tauto.
    + intros i M. assert (lst <> i) by (intro Q; apply NM; rewrite Q; exact M). assert (first <> i) by (intros ->; apply NF; auto).
      rewrite set_neq by auto. unfold L6. rewrite set_neq by auto. auto.
  - intros j J. assert (lst <> j) by (intro Q; apply J; right; rewrite <- Q; exact IL). assert (first <> j) by (intros ->; apply J; now left).
    rewrite set_neq by auto. unfold L6. rewrite set_neq by auto. rewrite X5; auto.
    intro M. apply J. right. auto.
Qed.

(** Sequences of neighbouring loops. *)
Inductive seg : list (option nat) -> Prop :=
| seg_nil : seg []
| seg_other cs : seg cs -> seg (None :: cs)
| seg_last g : g <> [] -> seg (map Some g)
| seg_run g cs : g <> [] -> seg cs -> seg (map Some g ++ None :: cs).
Lemma seg_all cs : seg cs.
Proof.
  induction cs as [|[i|] cs IH]; [constructor| |now constructor].
  inversion IH as [E|cs' S E|g N E|g cs' N S E]; subst.
  - apply (seg_last [i]). discriminate.
  - apply (seg_run [i] cs'); [discriminate|exact S].
  - apply (seg_last (i :: g)). discriminate.
  - apply (seg_run (i :: g) cs'); [discriminate|exact S].
Qed.
Lemma run_kind ns : forall g cs, sameKind ns (map Some g ++ cs) ->
  (forall i j, In i g -> In j g -> nHost (ns i) = nHost (ns j)) /\ sameKind ns cs.
Proof.
  induction g as [|i g IH]; intros cs H; [split; [intros i j []|exact H]|].
  cbn [map app sameKind] in H. destruct H as [H1 H2]. destruct (IH cs H2) as [K1 K2]. split; [|exact K2].
  destruct g as [|j g].
  - intros a b [<-|[]] [<-|[]]. reflexivity.
  - cbn in H1. assert (A : forall a, In a (j :: g) -> nHost (ns i) = nHost (ns a)).
    { intros a Q. rewrite H1. apply K1; [now left|exact Q]. }
    intros a b [<-|Q] [<-|R]; auto. symmetry. auto.
Qed.
Lemma groups_run ns : forall g cs, g <> [] -> (forall i j, In i g -> In j g -> nHost (ns i) = nHost (ns j)) ->
  (cs = [] \/ exists cs', cs = None :: cs') -> groups ns (map Some g ++ cs) = g :: groups ns cs.
Proof.
  induction g as [|i g IH]; intros cs N K C; [now destruct N|]. cbn [map app groups].
  destruct g as [|j g].
  - cbn [map app]. destruct C as [->|(cs' & ->)]; [reflexivity|]. cbn [hd groups]. reflexivity.
  - rewrite IH; [|discriminate|intros a b A B; apply K; now right|exact C]. cbn [map app hd].
    rewrite (K i j) by (cbn; auto). now rewrite eqb_reflx.
Qed.
Lemma loopsOf_app a b : loopsOf (a ++ b) = loopsOf a ++ loopsOf b.
Proof. apply flat_map_app. Qed.
Lemma loopsOf_run g : loopsOf (map Some g) = g.
Proof. induction g as [|i g IH]; [reflexivity|]. change (i :: loopsOf (map Some g) = i :: g). now rewrite IH. Qed.

Lemma visit_run ns : forall g cs L pre h, (forall i j, In i (pre ++ g) -> In j (pre ++ g) -> nHost (ns i) = nHost (ns j)) ->
  (pre <> [] -> forall i, In i pre -> nHost (ns i) = h) -> (forall i, In i g -> L i = initial ns i) ->
  exists h', visitChildren (map Some g ++ cs) (State pre h L) = visitChildren cs (State (pre ++ g) h' L).
Proof.
  induction g as [|i g IH]; intros cs L pre h K KP EI.
  - exists h. now rewrite app_nil_r.
  - cbn [map app visitChildren visitChild sMerge sLayout sHost].
    assert (HI : hostOf L i = nHost (ns i)).
    { unfold hostOf. rewrite (EI i (or_introl eq_refl)). destruct (initial_place ns i) as (_ & -> & _). reflexivity. }
    assert (AP : pre ++ i :: g = (pre ++ [i]) ++ g) by now rewrite <- app_assoc.
    destruct pre as [|p pre].
    + cbn [bind]. rewrite HI. destruct (IH cs L [i] (nHost (ns i))) as [h' E].
      * exact K.
      * intros _ j [<-|[]]. reflexivity.
      * intros j J. apply EI. now right.
      * exists h'. exact E.
    + rewrite HI. assert (HH : nHost (ns i) = h).
      { rewrite <- (KP ltac:(discriminate) p (or_introl eq_refl)). apply K; apply in_or_app; cbn; auto. }
      rewrite HH, eqb_reflx. cbn [bind]. destruct (IH cs L ((p :: pre) ++ [i]) h) as [h' E].
      * now rewrite <- AP.
      * intros _ j J. apply in_app_or in J. destruct J as [J|[<-|[]]]; [|exact HH]. apply KP; [discriminate|exact J].
      * intros j J. apply EI. now right.
      * exists h'. now rewrite AP.
Qed.
Lemma groupPlaces_ext ns L L' g : (forall i, In i g -> L' i = L i) -> groupPlaces ns L g -> groupPlaces ns L' g.
Proof.
  intros E (first & rest & -> & A & B). exists first, rest. split; [reflexivity|]. split.
  - intro Q. rewrite E by now left. auto.
  - intro NE. destruct (B NE) as (B1 & (G & B2 & B3) & B4).
    pose proof (removelast_last rest first NE) as ER. split; [rewrite E by (now left); exact B1|]. split.
    + exists G. split; [|exact B3]. rewrite E; [exact B2|]. right. rewrite ER at 2. apply in_or_app. right. now left.
    + intros i M. rewrite E; [auto|]. right. rewrite ER. apply in_or_app. now left.
Qed.
Lemma flush_run ns g h L : g <> [] -> NoDup g -> (forall i, In i g -> L i = initial ns i) ->
  exists L', flush (State g h L) = Some L' /\ groupPlaces ns L' g /\ forall j, ~ In j g -> L' j = L j.
Proof.
  intros N ND EI. unfold flush. cbn [sMerge sLayout]. destruct g as [|i [|j g]]; [now destruct N| |].
  - cbn [length Nat.ltb Nat.leb]. exists L. split; [reflexivity|]. split; [|auto]. exists i, []. split; [reflexivity|].
    split; [intros _; apply EI; now left|intros Q; now destruct Q].
  - replace (1 <? length (i :: j :: g)) with true by reflexivity.
    apply merge_ok; [exact ND|discriminate|exact EI].
Qed.
Lemma nodup_app {A} (a b : list A) : NoDup (a ++ b) -> NoDup a /\ NoDup b /\ forall x, In x a -> ~ In x b.
Proof.
  induction a as [|x a IH]; intro H; [split; [constructor|split; [exact H|intros x []]]|].
  cbn in H. inversion H as [|? ? N H']; subst. destruct (IH H') as (A1 & A2 & A3). split; [|split; [exact A2|]].
  - constructor; [|exact A1]. intro Q. apply N. apply in_or_app. now left.
  - intros y [<-|Y]; [|auto]. intro Q. apply N. apply in_or_app. now right.
Qed.
Lemma groups_loops ns cs g : seg cs -> sameKind ns cs -> In g (groups ns cs) -> forall i, In i g -> In i (loopsOf cs).
Proof.
  intro S. revert g. induction S as [|cs S IH|g0 N|g0 cs N S IH]; intros g K IG i I1.
  - destruct IG.
  - cbn in IG. apply (IH g); auto. apply K.
  - rewrite <- (app_nil_r (map Some g0)) in *. destruct (run_kind ns _ _ K) as [K1 _].
    rewrite groups_run in IG by auto. destruct IG as [<-|[]]. rewrite loopsOf_app, loopsOf_run. apply in_or_app. now left.
  - destruct (run_kind ns _ _ K) as [K1 K2]. rewrite groups_run in IG by eauto. rewrite loopsOf_app, loopsOf_run.
    apply in_or_app. destruct IG as [<-|IG]; [now left|]. right. cbn in IG |- *. apply (IH g); auto. apply K2.
Qed.
Lemma siblings_ok ns cs : seg cs -> sameKind ns cs -> NoDup (loopsOf cs) -> forall h L,
  (forall i, In i (loopsOf cs) -> L i = initial ns i) ->
  exists L', bind (visitChildren cs (State [] h L)) flush = Some L' /\
    (forall g, In g (groups ns cs) -> groupPlaces ns L' g) /\ forall j, ~ In j (loopsOf cs) -> L' j = L j.
Proof.
  intro S. induction S as [|cs S IH|g N|g cs N S IH]; intros K ND h L EI.
  - exists L. split; [reflexivity|]. split; [intros g []|auto].
  - cbn [visitChildren visitChild bind flush sMerge length Nat.ltb Nat.leb sLayout sHost]. apply IH; auto. apply K.
  - rewrite <- (app_nil_r (map Some g)) in *. destruct (run_kind ns _ _ K) as [K1 _].
    assert (LG : loopsOf (map Some g ++ []) = g) by now rewrite app_nil_r, loopsOf_run. rewrite LG in *.
    destruct (visit_run ns g [] L [] h) as [h' E]; auto. { intro Q. now destruct Q. }
    rewrite E. cbn [visitChildren bind app]. destruct (flush_run ns g h' L N ND EI) as (L' & F1 & F2 & F3).
    exists L'. split; [exact F1|]. split; [|exact F3]. rewrite groups_run by auto. intros g' [<-|[]]. exact F2.
  - destruct (run_kind ns _ _ K) as [K1 K2]. rewrite loopsOf_app, loopsOf_run in *. cbn [loopsOf flat_map app] in *.
    fold (loopsOf cs) in *. destruct (nodup_app _ _ ND) as (N1 & N2 & N3).
    destruct (visit_run ns g (None :: cs) L [] h) as [h' E]; auto. { intro Q. now destruct Q. }
    { intros i I1. apply EI. apply in_or_app. now left. }
    rewrite E. cbn [visitChildren visitChild bind app].
    destruct (flush_run ns g h' L N N1) as (L1 & F1 & F2 & F3). { intros i I1. apply EI. apply in_or_app. now left. }
    rewrite F1. cbn [bind sHost]. destruct (IH (proj2 K2) N2 h' L1) as (L' & X1 & X2 & X3).
    { intros i I1. rewrite F3; [apply EI; apply in_or_app; now right|]. intro Q. exact (N3 i Q I1). }
    exists L'. split; [exact X1|]. split.
    + rewrite groups_run by eauto. intros g' [<-|IG]; [|apply X2; exact IG].
      apply (groupPlaces_ext ns L1); [|exact F2]. intros i I1. apply X3. now apply N3.
    + intros j J. rewrite X3; [apply F3|]; intro Q; apply J; apply in_or_app; auto.
Qed.

(** Structure. *)
Lemma ofGroup_flat ns (sel : info -> list nat) (r : nat -> list nat) g :
  (forall i, r i = if nHost (ns i) then [] else sel (ns i)) -> ofGroup ns sel g (flat_map r g).
Proof.
  intros E v. rewrite in_flat_map. split.
  - intros (i & A & B). exists i. rewrite E in B. destruct (nHost (ns i)); [destruct B|]. auto.
  - intros (i & A & B & C). exists i. split; [exact A|]. rewrite E, B. exact C.
Qed.
Lemma groups_ne ns cs g : In g (groups ns cs) -> sameKind ns cs -> NoDup (loopsOf cs) -> seg cs ->
  (forall i j, In i g -> In j g -> nHost (ns i) = nHost (ns j)) /\ NoDup g.
Proof.
  intros IG K ND S. revert g IG. induction S as [|cs S IH|g0 N|g0 cs N S IH]; intros g IG.
  - destruct IG.
  - cbn in *. apply IH; auto. apply K.
  - rewrite <- (app_nil_r (map Some g0)) in *. destruct (run_kind ns _ _ K) as [K1 _].
    rewrite groups_run in IG by auto. rewrite loopsOf_app, loopsOf_run, app_nil_r in ND. destruct IG as [<-|[]]. auto.
  - destruct (run_kind ns _ _ K) as [K1 K2]. rewrite groups_run in IG by eauto.
    rewrite loopsOf_app, loopsOf_run in ND. destruct (nodup_app _ _ ND) as (N1 & N2 & _).
    destruct IG as [<-|IG]; [auto|]. cbn in IG, N2. apply IH; auto. apply K2.
Qed.
Lemma groups_ok : C81_groups_claim true.
Proof.
  intros ns cs ND GK. specialize (GK eq_refl). pose proof (seg_all cs) as S.
  destruct (siblings_ok ns cs S GK ND false (initial ns)) as (L & E & P & _); [auto|].
  exists L. split; [exact E|]. intros g IG. destruct (groups_ne ns cs g IG GK ND S) as [KG NG].
  destruct (P g IG) as (first & rest & EG & A & B). exists first, rest. split; [exact EG|]. subst g.
  destruct (list_eq_dec Nat.eq_dec rest []) as [->|NE].
  - specialize (A eq_refl). destruct (initial_place ns first) as (I1 & I2 & I3 & I4). rewrite A. cbn [last]. rewrite A.
    split; [|split; [|split]].
    + eexists. split; [exact I2|]. split; [intros i [<-|[]]; reflexivity|]. unfold regionOf; cbn [rIn rOut rPriv].
      split; [|split]; apply ofGroup_flat; reflexivity.
    + rewrite I3. rewrite <- (app_nil_r (rin ns first)). apply (ofGroup_flat ns nIn (rin ns) [first]); reflexivity.
    + rewrite I4. rewrite <- (app_nil_r (rout ns first)). apply (ofGroup_flat ns nOut (rout ns) [first]); reflexivity.
    + intros i [<-|[]]. rewrite A, I1, I2. repeat split; intro Q; auto; try discriminate; now destruct Q.
  - destruct (B NE) as (B1 & (G & B2 & B3) & B4). pose proof (removelast_last rest first NE) as ER.
    inversion NG as [|? ? NF NR]; subst. set (lst := last rest first) in *.
    assert (IL : In lst rest) by (rewrite ER; apply in_or_app; right; now left).
    assert (FL : first <> lst) by (intros Q; apply NF; rewrite Q; exact IL).
    rewrite B1, B2. cbn [pRegion pActual pGet orEmpty]. split; [|split; [|split]].
    + eexists. split; [reflexivity|]. unfold regionOf; cbn [rHost rIn rOut rPriv]. split.
      * intros i I1. apply KG; [now left|exact I1].
      * split; [|split]; apply ofGroup_flat; reflexivity.
    + apply ofGroup_flat. reflexivity.
    + intro v. rewrite B3. apply ofGroup_flat. reflexivity.
    + intros i I1. destruct (Nat.eq_dec i first) as [->|N1]; [|destruct (Nat.eq_dec i lst) as [->|N2]].
      * rewrite B1. cbn. repeat split; auto; try discriminate; intro Q; try contradiction; now destruct Q.
      * rewrite B2. cbn. repeat split; auto; try discriminate; intro Q; try contradiction; now destruct Q.
      * rewrite B4; [cbn; repeat split; auto; try discriminate; intro Q; try contradiction; now destruct Q|].
        destruct I1 as [I1|I1]; [now destruct N1|]. rewrite ER in I1. apply in_app_or in I1.
        destruct I1 as [I1|[I1|[]]]; [exact I1|now destruct N2].
Qed.

(** Execution. *)
Definition memEq (m m' : values) : Prop := forall v, m v = m' v.
Definition respects (P : program) : Prop :=
  forall c f, In (c, f) P -> forall m m', memEq m m' -> memEq (f m) (f m').
Lemma sequential_ext P : respects P -> forall m m', memEq m m' -> memEq (sequential P m) (sequential P m').
Proof.
  induction P as [|[c f] P IH]; intros R m m' E; [exact E|]. cbn [sequential]. apply IH.
  - intros c' f' Q. apply (R c' f'). now right.
  - apply (R c f); [now left|exact E].
Qed.
Lemma sequential_app P1 P2 m : sequential (P1 ++ P2) m = sequential P2 (sequential P1 m).
Proof. revert m. induction P1 as [|[c f] P1 IH]; intro m; [reflexivity|]. cbn [app sequential]. apply IH. Qed.
Lemma agree ns P : forall (S : nat -> Prop) m m', (forall i f, In (Some i, f) P -> obeys (ns i) f) ->
  (forall c f, In (c, f) P -> c <> None) ->
  (forall i f v, In (Some i, f) P -> In v (nIn (ns i)) -> S v) ->
  (forall v, S v -> m v = m' v) ->
  forall v, (S v \/ exists i f, In (Some i, f) P /\ In v (nOut (ns i))) -> sequential P m v = sequential P m' v.
Proof.
  induction P as [|[[i|] f] P IH]; intros S m m' OB NN IN E v V.
  - destruct V as [V|(i & f & [] & _)]. exact (E v V).
  - cbn [sequential]. destruct (OB i f (or_introl eq_refl)) as [O1 O2].
    apply (IH (fun u => S u \/ In u (nOut (ns i)))).
    + intros j g Q. apply OB. now right.
    + intros c g Q. apply (NN c g). now right.
    + intros j g u Q U. left. apply (IN j g); [now right|exact U].
    + intros u U. destruct (in_dec Nat.eq_dec u (nOut (ns i))) as [Q|Q].
      * apply O2; [|exact Q]. intros w W. apply E. apply (IN i f); [now left|exact W].
      * rewrite !O1 by exact Q. destruct U as [U|U]; [exact (E u U)|contradiction].
    + destruct V as [V|(j & g & [Q|Q] & V)]; [left; now left| |right; exists j, g; auto].
      injection Q as -> ->. left; right; exact V.
  - destruct (NN None f (or_introl eq_refl) eq_refl).
Qed.
Lemma unchanged ns P : forall m v, (forall i f, In (Some i, f) P -> obeys (ns i) f) ->
  (forall c f, In (c, f) P -> c <> None) ->
  (forall i f, In (Some i, f) P -> ~ In v (nOut (ns i))) -> sequential P m v = m v.
Proof.
  induction P as [|[[i|] f] P IH]; intros m v OB NN NV; [reflexivity| |destruct (NN None f (or_introl eq_refl) eq_refl)].
  cbn [sequential]. rewrite IH.
  - apply (OB i f (or_introl eq_refl)). apply (NV i f). now left.
  - intros j g Q. apply OB. now right.
  - intros c g Q. apply (NN c g). now right.
  - intros j g Q. apply (NV j g). now right.
Qed.
(* the rest of a region *)
Lemma exec_rest L G P2 : forall P1 h m, P1 <> [] ->
  (exists i f P0, P1 = P0 ++ [(Some i, f)] /\ L i = Place None None true (Some G) /\
    forall j g, In (Some j, g) P0 -> L j = Place None None false None) ->
  (forall c f, In (c, f) P1 -> c <> None) ->
  execute L (P1 ++ P2) (Some h) m = execute L P2 None (execGet G
    (if h then Memory (sequential P1 (mHostVal m)) (mDevVal m) (mDev m)
     else Memory (mHostVal m) (sequential P1 (mDevVal m)) (mDev m))).
Proof.
  induction P1 as [|[c f] P1 IH]; intros h m N (i & fi & P0 & E & EL & EM) NN; [now destruct N|].
  destruct c as [j|]; [|destruct (NN None f (or_introl eq_refl) eq_refl)].
  destruct P0 as [|[c0 f0] P0].
  - cbn in E. injection E as -> -> ->. cbn [app execute]. rewrite EL. cbn [pActual pRegion pMarker pGet onOption sequential].
    destruct h; reflexivity.
  - cbn in E. injection E as <- <- E. cbn [app execute]. rewrite (EM j f (or_introl eq_refl)).
    cbn [pActual pRegion pMarker pGet onOption]. rewrite IH.
    + destruct h; reflexivity.
    + rewrite E. destruct P0; discriminate.
    + exists i, fi, P0. split; [exact E|]. split; [exact EL|]. intros k g Q. apply (EM k g). now right.
    + intros c g Q. apply (NN c g). now right.
Qed.
Definition fresh (m : memory) : Prop := forall v, mDev m v = false.
Lemma run_program g P1 : children P1 = map Some g -> forall i f, In (Some i, f) P1 -> In i g.
Proof.
  intros E i f Q. apply (in_map fst) in Q. fold (children P1) in Q. rewrite E in Q. cbn in Q.
  apply in_map_iff in Q. destruct Q as (j & J & K). injection J as ->. exact K.
Qed.
Lemma run_some g P1 : children P1 = map Some g -> forall c f, In (c, f) P1 -> c <> None.
Proof.
  intros E c f Q ->. apply (in_map fst) in Q. fold (children P1) in Q. rewrite E in Q. cbn in Q.
  apply in_map_iff in Q. destruct Q as (j & J & _). discriminate.
Qed.
Lemma run_has g P1 : children P1 = map Some g -> forall i, In i g -> exists f, In (Some i, f) P1.
Proof.
  intros E i Q. apply (in_map Some) in Q. rewrite <- E in Q. apply in_map_iff in Q. destruct Q as ([c f] & A & B).
  cbn in A. subst c. now exists f.
Qed.
Lemma execGet_fresh G m : (forall v, mDev m v = true -> In v G) -> fresh (execGet G m).
Proof.
  intros H v. cbn. destruct (inb v G) eqn:E; [reflexivity|]. destruct (mDev m v) eqn:D; [|reflexivity].
  apply H, inb_In in D. congruence.
Qed.
Lemma optActual o m : fresh m -> exists d, onOption execActual o m = Memory (mHostVal m) (mDevVal m) d /\ forall v, d v = false.
Proof.
  intro F. destruct o as [A|]; cbn [onOption].
  - eexists. split; [reflexivity|]. intro v. cbn. destruct (inb v A); auto.
  - destruct m as [H D d]. exists d. split; [reflexivity|exact F].
Qed.
Lemma optGet_host o m : fresh m -> fresh (onOption execGet o m) /\ memEq (mHostVal (onOption execGet o m)) (mHostVal m).
Proof.
  intro F. destruct o as [G|]; cbn [onOption]; [|split; [exact F|intro; reflexivity]]. split.
  - apply execGet_fresh. intros v Q. rewrite F in Q. discriminate.
  - intro v. cbn. rewrite F, andb_false_r. reflexivity.
Qed.
(* a region on a device *)
Lemma device_run ns g P1 G m d : children P1 = map Some g ->
  (forall i f, In (Some i, f) P1 -> obeys (ns i) f) -> (forall i, In i g -> nHost (ns i) = false) ->
  (forall v, d v = false) -> (forall v, In v G <-> In v (flat_map (rout ns) g)) ->
  let m1 := execEnter (regionOf ns g false) (Memory (mHostVal m) (mDevVal m) d) in
  let m2 := execGet G (Memory (mHostVal m1) (sequential P1 (mDevVal m1)) (mDev m1)) in
  fresh m2 /\ memEq (mHostVal m2) (sequential P1 (mHostVal m)).
Proof.
  intros EC OB HK F HG. cbn [execEnter regionOf rHost mHostVal mDevVal mDev rIn rOut].
  set (D1 := fun v : nat => if inb v (flat_map (rin ns) g) && negb (d v) then mHostVal m v else mDevVal m v).
  assert (RO : forall v, In v (flat_map (rout ns) g) <-> exists i f, In (Some i, f) P1 /\ In v (nOut (ns i))).
  { intro v. rewrite in_flat_map. split.
    - intros (i & A & B). destruct (run_has g P1 EC i A) as [f Q]. exists i, f. split; [exact Q|].
      unfold rout in B. now rewrite (HK i A) in B.
    - intros (i & f & A & B). pose proof (run_program g P1 EC i f A) as Q. exists i. split; [exact Q|].
      unfold rout. now rewrite (HK i Q). }
  split.
  - apply execGet_fresh. cbn. intros v Q. apply HG. destruct (inb v (flat_map (rout ns) g)) eqn:E; [now apply inb_In|].
    rewrite F in Q. discriminate.
  - intro v. cbn. destruct (inb v (flat_map (rout ns) g)) eqn:E.
    + apply inb_In in E. replace (inb v G) with true by (symmetry; apply inb_In, HG, E). cbn [andb].
      apply (agree ns P1 (fun u => In u (flat_map (rin ns) g))).
      * exact OB.
      * exact (run_some g P1 EC).
      * intros i f u A B. pose proof (run_program g P1 EC i f A) as Q. apply in_flat_map. exists i. split; [exact Q|].
        unfold rin. now rewrite (HK i Q).
      * intros u U. unfold D1. rewrite F. apply inb_In in U. now rewrite U.
      * right. now apply RO.
    + rewrite F, andb_false_r. symmetry. apply (unchanged ns).
      * exact OB.
      * exact (run_some g P1 EC).
      * intros i f A B. apply inb_false in E. apply E, RO. eauto.
Qed.
Lemma map_last (P1 : program) g : children P1 = map Some g -> g <> [] -> forall d, exists f P0,
  P1 = P0 ++ [(Some (last g d), f)] /\ children P0 = map Some (removelast g).
Proof.
  intros E N d. rewrite (removelast_last g d N), map_app in E. unfold children in E.
  apply map_eq_app in E. destruct E as (P0 & P' & -> & E1 & E2). destruct P' as [|[c f] P']; [discriminate|].
  cbn in E2. injection E2 as -> E2. destruct P'; [|discriminate]. exists f, P0. auto.
Qed.
Lemma exec_group ns L g P1 P2 m : groupPlaces ns L g -> children P1 = map Some g ->
  (forall i f, In (Some i, f) P1 -> nHost (ns i) = false -> obeys (ns i) f) ->
  (forall i j, In i g -> In j g -> nHost (ns i) = nHost (ns j)) -> fresh m ->
  exists m', execute L (P1 ++ P2) None m = execute L P2 None m' /\ fresh m' /\
    memEq (mHostVal m') (sequential P1 (mHostVal m)).
Proof.
  intros (first & rest & -> & GA & GB) EC OB K F.
  destruct P1 as [|[c f] P1]; [discriminate|]. cbn in EC. injection EC as -> EC. fold (children P1) in EC.
  destruct (nHost (ns first)) eqn:HF.
  - (* on a host *)
    destruct (list_eq_dec Nat.eq_dec rest []) as [->|NE].
    + destruct P1; [|discriminate]. cbn [app execute]. rewrite (GA eq_refl). unfold initial, newRegion. rewrite HF.
      cbn [pActual pRegion pMarker pGet onOption execEnter rHost sequential]. eexists. split; [reflexivity|].
      split; [exact F|]. intro; reflexivity.
    + destruct (GB NE) as (B1 & (G & B2 & B3) & B4). cbn [app execute]. rewrite B1.
      cbn [pActual pRegion pMarker pGet]. rewrite ?HF.
      destruct (optActual (Some (flat_map (rin ns) (first :: rest))) m F) as (d & -> & FD). cbn [onOption].
      change (rHost (regionOf ns (first :: rest) true)) with true. cbv iota.
      destruct (map_last P1 rest EC NE first) as (fl & P0 & EP & EP0).
      assert (N1 : P1 <> []) by (rewrite EP; destruct P0; discriminate).
      rewrite (exec_rest L G P2 P1 true); [|exact N1| |exact (run_some rest P1 EC)].
      2:{ exists (last rest first), fl, P0. split; [exact EP|]. split; [exact B2|].
          intros j gj Q. apply B4. exact (run_program _ P0 EP0 j gj Q). }
      eexists. split; [reflexivity|]. cbn [execEnter rHost regionOf mHostVal mDevVal mDev].
      assert (F' : fresh (Memory (sequential P1 (f (mHostVal m))) (mDevVal m) d)) by exact FD.
      destruct (optGet_host (Some G) _ F') as [Q1 Q2]. split; [exact Q1|exact Q2].
  - (* on a device *)
    assert (HK : forall i, In i (first :: rest) -> nHost (ns i) = false).
    { intros i Q. rewrite <- (K first i (or_introl eq_refl) Q). exact HF. }
    assert (EC' : children ((Some first, f) :: P1) = map Some (first :: rest)) by (cbn; unfold children in EC; now rewrite EC).
    assert (OB' : forall i h, In (Some i, h) ((Some first, f) :: P1) -> obeys (ns i) h).
    { intros i h Q. apply OB; [exact Q|]. apply HK. exact (run_program _ _ EC' i h Q). }
    destruct (list_eq_dec Nat.eq_dec rest []) as [->|NE].
    + destruct P1; [|discriminate]. cbn [app execute]. rewrite (GA eq_refl).
      destruct (initial_place ns first) as (I1 & I2 & I3 & I4). rewrite I1, I2, HF.
      destruct (optActual (pActual (initial ns first)) m F) as (d & -> & FD). cbn [onOption].
      change (rHost (regionOf ns [first] false)) with false. cbv iota.
      pose proof (device_run ns [first] [(Some first, f)] (rout ns first) m d EC' OB' HK FD) as R.
      cbn zeta in R. destruct R as [R1 R2]. { intro v. cbn [flat_map]. now rewrite app_nil_r. }
      assert (EG : forall mm, (forall v, mDev mm v = true -> In v (rout ns first)) ->
         fresh (onOption execGet (pGet (initial ns first)) mm) /\
         memEq (mHostVal (onOption execGet (pGet (initial ns first)) mm)) (mHostVal (execGet (rout ns first) mm))).
      { intros mm Q. rewrite <- I4. rewrite <- I4 in Q. destruct (pGet (initial ns first)) as [G|]; cbn [onOption orEmpty] in *.
        - split; [now apply execGet_fresh|intro; reflexivity].
        - split; [intro v; destruct (mDev mm v) eqn:D; [destruct (Q v D)|reflexivity]|intro; reflexivity]. }
      eexists. split; [reflexivity|]. split.
      * apply EG. intros v Q. unfold execEnter in Q. cbn [mDev regionOf rHost rOut rIn flat_map] in Q. rewrite app_nil_r in Q.
        destruct (inb v (rout ns first)) eqn:E; [now apply inb_In|]. rewrite FD in Q. discriminate.
      * intro v. etransitivity; [|exact (R2 v)]. apply EG. intros u Q. unfold execEnter in Q.
        cbn [mDev regionOf rHost rOut rIn flat_map] in Q. rewrite app_nil_r in Q.
        destruct (inb u (rout ns first)) eqn:E; [now apply inb_In|]. rewrite FD in Q. discriminate.
    + destruct (GB NE) as (B1 & (G & B2 & B3) & B4). cbn [app execute]. rewrite B1.
      cbn [pActual pRegion pMarker pGet]. rewrite ?HF.
      destruct (optActual (Some (flat_map (rin ns) (first :: rest))) m F) as (d & -> & FD). cbn [onOption].
      change (rHost (regionOf ns (first :: rest) false)) with false. cbv iota.
      destruct (map_last P1 rest EC NE first) as (fl & P0 & EP & EP0).
      assert (N1 : P1 <> []) by (rewrite EP; destruct P0; discriminate).
      rewrite (exec_rest L G P2 P1 false); [|exact N1| |exact (run_some rest P1 EC)].
      2:{ exists (last rest first), fl, P0. split; [exact EP|]. split; [exact B2|].
          intros j gj Q. apply B4. exact (run_program _ P0 EP0 j gj Q). }
      eexists. split; [reflexivity|]. cbn [mHostVal mDevVal mDev].
      pose proof (device_run ns (first :: rest) ((Some first, f) :: P1) G m d EC' OB' HK FD B3) as R.
      cbn zeta in R. cbn [sequential] in R. exact R.
Qed.
Lemma exec_other L f P m : execute L ((None, f) :: P) None m =
  execute L P None (Memory (f (mHostVal m)) (mDevVal m) (mDev m)).
Proof. reflexivity. Qed.
Lemma exec_all ns L cs : seg cs -> sameKind ns cs -> (forall g, In g (groups ns cs) -> groupPlaces ns L g) ->
  forall P m, children P = cs -> respects P ->
  (forall i f, In (Some i, f) P -> nHost (ns i) = false -> obeys (ns i) f) -> fresh m ->
  memEq (mHostVal (execute L P None m)) (sequential P (mHostVal m)).
Proof.
  intro S. induction S as [|cs S IH|g N|g cs N S IH]; intros K GP P m EP RS OB F.
  - destruct P; [|discriminate]. intro; reflexivity.
  - destruct P as [|[c f] P]; [discriminate|]. cbn in EP. injection EP as -> EP. rewrite exec_other. cbn [sequential].
    apply (IH (proj2 K) GP P); auto.
    + intros c g Q. apply (RS c g). now right.
    + intros i g Q. apply OB. now right.
  - rewrite <- (app_nil_r (map Some g)) in K, GP. destruct (run_kind ns _ _ K) as [K1 _].
    destruct (exec_group ns L g P [] m) as (m' & E1 & E2 & E3); auto.
    { apply GP. rewrite groups_run by auto. now left. }
    rewrite app_nil_r in E1. rewrite E1. exact E3.
  - destruct (run_kind ns _ _ K) as [K1 K2]. unfold children in EP. apply map_eq_app in EP.
    destruct EP as (P1 & P' & -> & EP1 & EP2). destruct P' as [|[c f] P2]; [discriminate|]. cbn in EP2.
    injection EP2 as -> EP2. rewrite groups_run in GP by eauto.
    destruct (exec_group ns L g P1 ((None, f) :: P2) m) as (m' & E1 & E2 & E3); auto.
    { apply GP. now left. }
    { intros i h Q. apply OB. apply in_or_app. now left. }
    rewrite E1, exec_other, sequential_app. cbn [sequential].
    assert (R2 : respects P2). { intros c h Q. apply (RS c h). apply in_or_app. right. now right. }
    pose proof (IH (proj2 K2) (fun g' Q => GP g' (or_intror Q)) P2
      (Memory (f (mHostVal m')) (mDevVal m') (mDev m')) EP2 R2) as R.
    cbn [mHostVal] in R. intro v. rewrite R; [|intros i h Q; apply OB; apply in_or_app; right; now right|exact E2].
    apply (sequential_ext P2 R2). apply (RS None f); [apply in_or_app; right; now left|exact E3].
Qed.
Lemma results_ok : C81_results_claim true.
Proof.
  intros ns P m (ND & RS & OB) F GK. specialize (GK eq_refl). pose proof (seg_all (children P)) as S.
  destruct (siblings_ok ns _ S GK ND false (initial ns)) as (L & E & GP & _); [auto|].
  exists L. split; [exact E|]. apply (exec_all ns L (children P)); auto.
Qed.
Lemma initial_ok : C81_initial_claim.
Proof.
  intros ns P m (_ & RS & OB) F. revert m F. change (respects P) in RS.
  induction P as [|[[i|] f] P IH]; intros m F v; [reflexivity| |].
  - destruct (exec_group ns (initial ns) [i] [(Some i, f)] P m) as (m' & E1 & E2 & E3); auto.
    { exists i, []. split; [reflexivity|]. split; [auto|]. intro Q. now destruct Q. }
    { intros j g [Q|[]]. injection Q as <- <-. apply OB. now left. }
    { intros a b [<-|[]] [<-|[]]. reflexivity. }
    cbn [app] in E1. rewrite E1. rewrite IH; auto.
    + cbn [sequential]. apply sequential_ext; [|exact E3]. intros c g Q. apply (RS c g). now right.
    + intros c g Q. apply (RS c g). now right.
    + intros j g Q. apply OB. now right.
  - rewrite exec_other. cbn [sequential]. rewrite IH; auto.
    + intros c g Q. apply (RS c g). now right.
    + intros j g Q. apply OB. now right.
Qed.
