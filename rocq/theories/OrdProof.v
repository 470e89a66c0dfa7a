(** Proofs about ordered loops *)
From Coq Require Import List Bool Arith ZArith Permutation Sorted Relations Lia.
From Verif Require Import ParLoopModel ParLoopSpec ParLoopSem ParLoopProof OrdModel OrdSpec OrdSem.
Import ListNotations.

(** ** Ranges *)
Fixpoint covers (dv r : list range) : Prop :=
  match dv, r with
  | [], _ => True
  | (a, b) :: dv, (a', b') :: r => (a <= a')%Z /\ (b' <= b)%Z /\ covers dv r
  | _ :: _, [] => False
  end.
Lemma update_covers dv : forall r, covers (update dv r) r.
Proof.
  induction dv as [|[a b] dv IH]; intros [|[a' b'] r]; cbn [update covers]; auto.
  split; [|split; [|apply IH]].
  - destruct (Z.ltb_spec a' a); lia.
  - rewrite Z.gtb_ltb. destruct (Z.ltb_spec b b'); lia.
Qed.
Lemma update_mono dv : forall x r, covers dv x -> covers (update dv r) x.
Proof.
  induction dv as [|[a b] dv IH]; intros [|[a' b'] x] [|[c d] r] H; cbn [update covers] in *; auto.
  destruct H as (H1 & H2 & H3). split; [|split; [|now apply IH]].
  - destruct (Z.ltb_spec c a); lia.
  - rewrite Z.gtb_ltb. destruct (Z.ltb_spec b d); lia.
Qed.
Lemma updateIf_covers dv r : r <> [] -> covers (updateIf dv r) r.
Proof. destruct r; [now intros H|]. intros _. apply update_covers. Qed.
Lemma updateIf_mono dv x r : covers dv x -> covers (updateIf dv r) x.
Proof. destruct r; [auto|]. apply update_mono. Qed.
Definition upd2 (dv : list range) (d : distInfo) : list range := updateIf (updateIf dv (dvFlow d)) (dvAnti d).
Lemma fold_mono deps : forall dv x, covers dv x -> covers (fold_left upd2 deps dv) x.
Proof. induction deps as [|d deps IH]; intros dv x H; cbn [fold_left]; [exact H|]. apply IH. unfold upd2. now apply updateIf_mono, updateIf_mono. Qed.
Lemma fold_covers deps : forall dv d r, In d deps -> r = dvFlow d \/ r = dvAnti d -> r <> [] -> covers (fold_left upd2 deps dv) r.
Proof.
  induction deps as [|e deps IH]; intros dv d r [] Hr Hn; cbn [fold_left]; [subst e|now apply (IH _ d)].
  apply fold_mono. unfold upd2. destruct Hr as [->| ->]; [apply updateIf_mono|]; now apply updateIf_covers.
Qed.
(** symmetric ranges *)
Definition sym (r : list range) : Prop := Forall (fun x => fst x = (- snd x)%Z) r.
Lemma update_sym dv : forall r, sym dv -> sym r -> sym (update dv r).
Proof.
  induction dv as [|[a b] dv IH]; intros [|[a' b'] r] H1 H2; cbn [update]; try constructor.
  - inversion H1 as [|? ? A1 A2]; inversion H2 as [|? ? B1 B2]; subst. cbn [fst snd] in *. rewrite Z.gtb_ltb.
    destruct (Z.ltb_spec a' a), (Z.ltb_spec b b'); lia.
  - inversion H1; inversion H2; subst. now apply IH.
Qed.
Lemma update_tl dv r : tl (update dv r) = update (tl dv) (tl r) \/ update dv r = [].
Proof. destruct dv as [|[a b] dv], r as [|[a' b'] r]; cbn; auto. Qed.
Lemma updateIf_sym dv r : symmetric dv -> symmetric r -> symmetric (updateIf dv r).
Proof.
  unfold symmetric. intros H1 H2. destruct r as [|x r]; [exact H1|]. unfold updateIf.
  destruct (update_tl dv (x :: r)) as [->| ->]; [now apply update_sym|constructor].
Qed.
Lemma fold_sym deps : forall dv, symmetric dv -> (forall d, In d deps -> symmetric (dvFlow d) /\ symmetric (dvAnti d)) -> symmetric (fold_left upd2 deps dv).
Proof.
  induction deps as [|d deps IH]; intros dv H H2; cbn [fold_left]; [exact H|]. destruct (H2 d (or_introl eq_refl)) as [A B].
  apply IH; [|intros e He; apply H2; now right]. unfold upd2. now apply updateIf_sym; [apply updateIf_sym|].
Qed.
(** lengths *)
Lemma update_len dv : forall r, length (update dv r) = Nat.min (length dv) (length r).
Proof. induction dv as [|[a b] dv IH]; intros [|[a' b'] r]; cbn [update length Nat.min]; auto. Qed.
Lemma fold_len deps n : forall dv, n <= length dv -> (forall d r, In d deps -> r = dvFlow d \/ r = dvAnti d -> r <> [] -> n <= length r) ->
  n <= length (fold_left upd2 deps dv).
Proof.
  induction deps as [|d deps IH]; intros dv H H2; cbn [fold_left]; [exact H|].
  assert (K : forall dv r, n <= length dv -> r = dvFlow d \/ r = dvAnti d -> n <= length (updateIf dv r)).
  { intros dv' r Hd Hr. unfold updateIf. destruct r as [|x0 r0]; [exact Hd|]. rewrite update_len.
    assert (n <= length (x0 :: r0)) by (apply (H2 d); [now left|exact Hr|discriminate]). lia. }
  apply IH.
  - unfold upd2. apply K; [apply K; [exact H|now left]|now right].
  - intros e r He. apply H2. now right.
Qed.

Lemma range_spec deps k s : makeOrderedRange deps k = Some s ->
  exists a b (dv : list range), s = repeat None k ++ Some (- a, - b)%Z :: map Some dv
    /\ (forall d r, In d deps -> r = dvFlow d \/ r = dvAnti d -> r <> [] -> covers ((a, b) :: dv) r)
    /\ ((forall d, In d deps -> symmetric (dvFlow d) /\ symmetric (dvAnti d)) -> sym dv).
Proof.
  unfold makeOrderedRange. destruct deps as [|f deps]; [discriminate|]. fold upd2.
  set (ini := match dvFlow f with [] => dvAnti f | _ => dvFlow f end).
  change (fun dv d => updateIf (updateIf dv (dvFlow d)) (dvAnti d)) with upd2.
  destruct (fold_left upd2 (f :: deps) ini) as [|[a b] dv] eqn:E; [discriminate|]. intros H. injection H as <-.
  exists a, b, dv. split; [reflexivity|]. split.
  - intros d r Hd Hr Hn. pose proof (fold_covers (f :: deps) ini d r Hd Hr Hn) as X. rewrite E in X. exact X.
  - intros Hs. assert (X : symmetric (fold_left upd2 (f :: deps) ini)).
    { apply fold_sym; [|exact Hs]. destruct (Hs f (or_introl eq_refl)). unfold ini. now destruct (dvFlow f). }
    rewrite E in X. exact X.
Qed.
Lemma range_len deps k n : (forall d, In d deps -> dvFlow d <> [] \/ dvAnti d <> []) -> deps <> [] ->
  (forall d r, In d deps -> r = dvFlow d \/ r = dvAnti d -> r <> [] -> S n <= length r) ->
  exists s, makeOrderedRange deps k = Some s /\ k + S n <= length s.
Proof.
  intros H0 Hne Hl. unfold makeOrderedRange. destruct deps as [|f deps]; [now destruct Hne|].
  set (ini := match dvFlow f with [] => dvAnti f | _ => dvFlow f end).
  change (fun dv d => updateIf (updateIf dv (dvFlow d)) (dvAnti d)) with upd2.
  assert (X : S n <= length (fold_left upd2 (f :: deps) ini)).
  { apply fold_len; [|exact Hl]. unfold ini. destruct (dvFlow f) as [|x r] eqn:E.
    - destruct (H0 f (or_introl eq_refl)) as [Y|Y]; [now rewrite E in Y|]. apply (Hl f); [now left|now right|exact Y].
    - rewrite <- E. apply (Hl f); [now left|now left|rewrite E; discriminate]. }
  destruct (fold_left upd2 (f :: deps) ini) as [|[a b] dv]; [cbn [length] in X; lia|].
  eexists. split; [reflexivity|]. rewrite app_length, repeat_length. cbn [length] in *. rewrite map_length. lia.
Qed.

(** ** Sinks *)
Lemma in_zrange n : forall a d, In d (zrange a n) <-> (a <= d < a + Z.of_nat n)%Z.
Proof.
  induction n as [|n IH]; intros a d; cbn [zrange In]; [lia|]. rewrite IH. lia.
Qed.
Lemma in_between r d : In d (between r) <-> (Z.min (fst r) (snd r) <= d <= Z.max (fst r) (snd r))%Z.
Proof.
  unfold between. rewrite Z.gtb_ltb. destruct r as [a b]. cbn [fst snd]. destruct (Z.ltb_spec b a); rewrite in_zrange; lia.
Qed.
Fixpoint fits (s : list (option range)) (v : list Z) {struct v} : Prop :=
  match v with
  | [] => True
  | d :: v => match s with
              | [] => False
              | x :: s => match x with None => d = 0%Z | Some r => In d (between r) end /\ fits s v
              end
  end.
Lemma build_in n : forall s vs, buildSink n s = Some vs -> forall v, In v vs <-> length v = n /\ fits s v.
Proof.
  induction n as [|n IH]; intros s vs H v; cbn [buildSink] in H.
  - injection H as <-. split; [intros [<-|[]]; now split|]. intros [E _]. destruct v; [now left|discriminate].
  - destruct s as [|x s]; [discriminate|]. destruct (buildSink n s) as [ws|] eqn:E; [|discriminate]. injection H as <-.
    rewrite in_flat_map. split.
    + intros (d & D1 & D2). apply in_map_iff in D2 as (w & <- & D2). apply (IH s ws E) in D2 as [L F]. cbn [length fits].
      split; [now rewrite L|]. split; [|exact F]. destruct x; [exact D1|]. destruct D1 as [<-|[]]. reflexivity.
    + intros [L F]. destruct v as [|d w]; [discriminate|]. destruct F as [F1 F2]. injection L as L.
      exists d. split; [destruct x; [exact F1|now left]|]. apply in_map_iff. exists w. split; [reflexivity|]. apply (IH s ws E). now split.
Qed.
Lemma sinks_in n ss : forall vs, buildSinks n ss = Some vs -> forall v, In v vs <-> exists s, In s ss /\ length v = n /\ fits s v.
Proof.
  induction ss as [|s ss IH]; intros vs H v; cbn [buildSinks] in H.
  - injection H as <-. split; [intros []|]. now intros (s & [] & _).
  - destruct (buildSink n s) as [a|] eqn:E; [|discriminate]. destruct (buildSinks n ss) as [b|]; [|discriminate]. injection H as <-.
    rewrite in_app_iff, (build_in n s a E v), (IH b eq_refl v). split.
    + intros [H|(s' & H1 & H2)]; [exists s; split; [now left|exact H]|exists s'; split; [now right|exact H2]].
    + intros (s' & [<-|H1] & H2); [now left|right; now exists s'].
Qed.
Lemma build_some n : forall s, n <= length s -> buildSink n s <> None.
Proof.
  induction n as [|n IH]; intros s H; cbn [buildSink]; [discriminate|]. destruct s as [|x s]; cbn [length] in H; [lia|].
  specialize (IH s ltac:(lia)). destruct (buildSink n s); [discriminate|now contradiction IH].
Qed.
Lemma sinks_some n ss : (forall s, In s ss -> n <= length s) -> buildSinks n ss <> None.
Proof.
  induction ss as [|s ss IH]; intros H; cbn [buildSinks]; [discriminate|].
  pose proof (build_some n s (H s (or_introl eq_refl))) as A. specialize (IH (fun s' Hs => H s' (or_intror Hs))).
  destruct (buildSink n s); [|now contradiction A]. destruct (buildSinks n ss); [discriminate|now contradiction IH].
Qed.

Lemma sinks_len n ss vs : buildSinks n ss = Some vs -> forall s, In s ss -> n <= length s.
Proof.
  assert (B : forall n s, buildSink n s <> None -> n <= length s).
  { clear. induction n as [|n IH]; intros s H; [lia|]. cbn [buildSink] in H. destruct s as [|x s]; [now contradiction H|].
    cbn [length]. specialize (IH s). destruct (buildSink n s); [|now contradiction H]. assert (n <= length s) by (apply IH; discriminate). lia. }
  revert vs. induction ss as [|s ss IH]; intros vs H x [].
  - subst x. apply B. cbn [buildSinks] in H. destruct (buildSink n s); [discriminate|]. discriminate.
  - cbn [buildSinks] in H. destruct (buildSink n s); [|discriminate]. destruct (buildSinks n ss) as [b|]; [|discriminate]. now apply (IH b).
Qed.

(** ** Nests *)
Lemma add_spec lv k o o' f : oDepth o = 0 -> addOrUpdate lv k o = Some (Some (o', f)) ->
  oDepth o' = 0 /\ f = false /\ incl (oSink o) (oSink o') /\
  (lvDeps lv <> [] -> exists s, makeOrderedRange (lvDeps lv) k = Some s /\ In s (oSink o')) /\
  (forall s, In s (oSink o') -> In s (oSink o) \/ makeOrderedRange (lvDeps lv) k = Some s).
Proof.
  intros H0 H. unfold addOrUpdate in H. destruct (lvDeps lv) as [|d ds] eqn:E.
  - injection H as <- <-. repeat split; auto; [apply incl_refl|now intros X].
  - destruct (lvEntry lv); [|discriminate]. destruct (makeOrderedRange (d :: ds) k) as [s|]; [|discriminate].
    injection H as <- <-. unfold pushBack. cbn [oDepth oSink]. rewrite H0. cbn [Nat.ltb Nat.leb Nat.eqb].
    repeat split; auto.
    + intros x Hx. apply in_or_app. now left.
    + intros _. exists s. split; [reflexivity|]. apply in_or_app. right. now left.
    + intros x Hx. apply in_app_or in Hx as [Hx|[->|[]]]; [now left|now right].
Qed.
Lemma reduce_spec n o : oDepth o = 0 -> reduceDepth n o = Ordered (oSink o) n.
Proof. intros H. unfold reduceDepth. now rewrite H. Qed.
Lemma extend_spec lvs : forall k priv red o o' n priv', oDepth o = 0 -> extend lvs k priv red o = Some (o', n, priv') ->
  oDepth o' = n /\ k <= n /\ n <= k + length lvs /\ incl (oSink o) (oSink o')
  /\ (forall j l, nth_error lvs j = Some l -> k + j < n -> lvDeps l <> [] -> exists s, makeOrderedRange (lvDeps l) (k + j) = Some s /\ In s (oSink o'))
  /\ (forall s, In s (oSink o') -> In s (oSink o) \/ exists j l, nth_error lvs j = Some l /\ k + j < n /\ makeOrderedRange (lvDeps l) (k + j) = Some s).
Proof.
  induction lvs as [|lv lvs IH]; intros k priv red o o' n priv' H0 H; cbn [extend] in H.
  - injection H as <- <- <-. rewrite reduce_spec by exact H0. cbn [oDepth oSink length].
    split; [reflexivity|]. split; [lia|]. split; [lia|]. split; [apply incl_refl|]. split; [|now left]. intros j l Hj. destruct j; discriminate.
  - assert (Stop : forall p, Some (reduceDepth k o, k, p) = Some (o', n, priv') ->
      oDepth o' = n /\ k <= n /\ n <= k + length (lv :: lvs) /\ incl (oSink o) (oSink o')
      /\ (forall j l, nth_error (lv :: lvs) j = Some l -> k + j < n -> lvDeps l <> [] -> exists s, makeOrderedRange (lvDeps l) (k + j) = Some s /\ In s (oSink o'))
      /\ (forall s, In s (oSink o') -> In s (oSink o) \/ exists j l, nth_error (lv :: lvs) j = Some l /\ k + j < n /\ makeOrderedRange (lvDeps l) (k + j) = Some s)).
    { intros p Hp. injection Hp as <- <- <-. rewrite reduce_spec by exact H0. cbn [oDepth oSink].
      split; [reflexivity|]. split; [lia|]. split; [lia|]. split; [apply incl_refl|]. split; [|now left]. intros j l _ Hj. lia. }
    destruct (negb (lvOk lv)); [exact (Stop _ H)|].
    destruct (_ || _); [exact (Stop _ H)|].
    destruct (addOrUpdate lv k o) as [[[o1 f]|]|] eqn:Ea; [|exact (Stop _ H)|discriminate].
    destruct (add_spec lv k o o1 f H0 Ea) as (A1 & -> & A3 & A4 & A5).
    destruct (finalLevel lv false).
    + injection H as <- <- <-. rewrite reduce_spec by exact A1. cbn [oDepth oSink length].
      split; [reflexivity|]. split; [lia|]. split; [lia|]. split; [exact A3|]. split.
      * intros j l Hj Hk Hd. assert (j = 0) by lia. subst j. injection Hj as <-. rewrite Nat.add_0_r. now apply A4.
      * intros s Hs. destruct (A5 s Hs) as [Hx|Hx]; [now left|]. right. exists 0, lv. rewrite Nat.add_0_r. split; [reflexivity|]. split; [lia|exact Hx].
    + destruct (IH (S k) _ _ o1 o' n priv' A1 H) as (B1 & B2 & B3 & B4 & B5 & B6).
      split; [exact B1|]. split; [lia|]. split; [cbn [length]; lia|]. split; [exact (incl_tran A3 B4)|]. split.
      * intros [|j] l Hj Hk Hd.
        -- injection Hj as <-. rewrite Nat.add_0_r. destruct (A4 Hd) as (s & S1 & S2). exists s. split; [exact S1|now apply B4].
        -- rewrite <- Nat.add_succ_comm in *. now apply B5.
      * intros s Hs. destruct (B6 s Hs) as [Hx|(j & l & J1 & J2 & J3)].
        -- destruct (A5 s Hx) as [Hy|Hy]; [now left|]. right. exists 0, lv. rewrite Nat.add_0_r. split; [reflexivity|]. split; [lia|exact Hy].
        -- right. exists (S j), l. rewrite <- Nat.add_succ_comm. now repeat split.
Qed.
(** sinks of a nest are sinks of its levels *)
Lemma nest_spec lv lvs n priv sinks : exploitNest lv lvs = Nest n priv sinks ->
  1 <= n /\ n <= S (length lvs)
  /\ (forall k l, nth_error (lv :: lvs) k = Some l -> k < n -> lvDeps l <> [] ->
      exists s, makeOrderedRange (lvDeps l) k = Some s /\ n <= length s /\ forall v, length v = n -> fits s v -> In v sinks)
  /\ (forall v, In v sinks -> exists k l s, nth_error (lv :: lvs) k = Some l /\ k < n /\ makeOrderedRange (lvDeps l) k = Some s /\ length v = n /\ fits s v).
Proof.
  unfold exploitNest. destruct (addOrUpdate lv 0 ordered0) as [[[o f]|]|] eqn:Ea; try discriminate.
  destruct (add_spec lv 0 ordered0 o f eq_refl Ea) as (A1 & -> & A3 & A4 & A5).
  assert (K : forall o' n' p, oDepth o' = n' -> 1 <= n' -> n' <= S (length lvs) -> 
      (forall k l, nth_error (lv :: lvs) k = Some l -> k < n' -> lvDeps l <> [] -> exists s, makeOrderedRange (lvDeps l) k = Some s /\ In s (oSink o')) ->
      (forall s, In s (oSink o') -> exists k l, nth_error (lv :: lvs) k = Some l /\ k < n' /\ makeOrderedRange (lvDeps l) k = Some s) ->
      match buildSinks (oDepth o') (oSink o') with Some vs => Nest n' p vs | None => Crash end = Nest n priv sinks -> 
      1 <= n /\ n <= S (length lvs)
      /\ (forall k l, nth_error (lv :: lvs) k = Some l -> k < n -> lvDeps l <> [] ->
          exists s, makeOrderedRange (lvDeps l) k = Some s /\ n <= length s /\ forall v, length v = n -> fits s v -> In v sinks)
      /\ (forall v, In v sinks -> exists k l s, nth_error (lv :: lvs) k = Some l /\ k < n /\ makeOrderedRange (lvDeps l) k = Some s /\ length v = n /\ fits s v)).
  { intros o' n' p H1 H2 H3 H4 H5 H. destruct (buildSinks (oDepth o') (oSink o')) as [vs|] eqn:Eb; [|discriminate].
    injection H as <- <- <-. rewrite H1 in Eb. split; [exact H2|]. split; [exact H3|]. split.
    - intros k l Hk Hn Hd. destruct (H4 k l Hk Hn Hd) as (s & S1 & S2). exists s. split; [exact S1|]. split; [exact (sinks_len _ _ _ Eb s S2)|].
      intros v L F. apply (sinks_in _ _ _ Eb). now exists s.
    - intros v Hv. apply (sinks_in _ _ _ Eb) in Hv as (s & S1 & S2 & S3). destruct (H5 s S1) as (k & l & L1 & L2 & L3). now exists k, l, s. }
  destruct (finalLevel lv false).
  - rewrite reduce_spec by exact A1. apply K; cbn [oDepth oSink]; [reflexivity|lia|lia| |].
    + intros k l Hk Hn Hd. assert (k = 0) by lia. subst k. injection Hk as <-. now apply A4.
    + intros s Hs. exists 0, lv. split; [reflexivity|]. split; [lia|]. now destruct (A5 s Hs) as [[]|X].
  - destruct (extend lvs 1 (lvPriv lv) (lvRed lv) o) as [[[o' n'] p]|] eqn:Ee; [|discriminate].
    destruct (extend_spec lvs 1 _ _ o o' n' p A1 Ee) as (B1 & B2 & B3 & B4 & B5 & B6).
    apply (K o' n' p B1 B2 B3).
    + intros [|k] l Hk Hn Hd.
      * injection Hk as <-. destruct (A4 Hd) as (s & S1 & S2). exists s. split; [exact S1|now apply B4].
      * now apply (B5 k l).
    + intros s Hs. destruct (B6 s Hs) as [Hx|(j & l & J1 & J2 & J3)].
      * exists 0, lv. split; [reflexivity|]. split; [lia|]. now destruct (A5 s Hx) as [[]|X].
      * now exists (S j), l.
Qed.

(** ** Dependencies are covered *)
Fixpoint diff (t u : list Z) : list Z := match t, u with a :: t, b :: u => (b - a)%Z :: diff t u | _, _ => [] end.
Lemma diff_len t : forall u, length t = length u -> length (diff t u) = length t.
Proof. induction t as [|a t IH]; intros [|b u] H; cbn [diff length] in *; try lia. now rewrite IH by lia. Qed.
Lemma reaches_diff t : forall u steps, length t = length u -> length steps = length t -> unitSteps steps -> reaches steps t u (diff t u).
Proof.
  induction t as [|a t IH]; intros [|b u] [|s steps] H1 H2 H3; cbn [diff length reaches] in *; try lia; auto.
  inversion H3; subst. split; [lia|]. apply IH; [lia|lia|assumption].
Qed.
Lemma fits_inner dv : forall r t u, covers dv r -> sym dv -> length t = length u -> length t <= length dv -> within r t u -> fits (map Some dv) (diff t u).
Proof.
  induction dv as [|[a b] dv IH]; intros [|[a' b'] r] [|x t] [|y u] HC HS HL HN HW; cbn [covers map diff fits length within] in *; try lia; auto; try contradiction.
  destruct HC as (C1 & C2 & C3). destruct HW as [W1 W2]. inversion HS as [|? ? S1 S2]; subst. cbn [fst snd] in S1.
  split; [|apply (IH r); auto; lia]. apply in_between. cbn [fst snd]. lia.
Qed.
Lemma fits_carried a b (dv r : list range) : covers ((a, b) :: dv) r -> sym dv -> forall k t u, length t = length u -> length t <= k + S (length dv) -> k < length t ->
  carried k r t u -> fits (repeat None k ++ Some (- a, - b)%Z :: map Some dv) (diff t u).
Proof.
  intros HC HS. induction k as [|k IH]; intros [|x t] [|y u] HL HN Hk HW; cbn [length carried repeat app diff fits] in *; try lia.
  - destruct r as [|[a' b'] r]; [contradiction|]. cbn [covers within] in *. destruct HC as (C1 & C2 & C3). destruct HW as [W1 W2].
    split; [|apply (fits_inner dv r); auto; lia]. apply in_between. cbn [fst snd]. lia.
  - destruct HW as [-> HW]. split; [lia|]. apply IH; auto; lia.
Qed.
(** the known part of a nest determines its size, otherwise a directive cannot be built *)
Lemma fits_len s : forall v, fits s v -> length v <= length s.
Proof. induction s as [|x s IH]; intros [|d v] H; cbn [fits length] in *; try lia; try contradiction. destruct H as [_ H]. specialize (IH v H). lia. Qed.

Theorem cover_ok : C67_cover_claim (fun lv lvs n steps => unitSteps steps /\ forall k l d, nth_error (lv :: lvs) k = Some l -> S k < n -> In d (lvDeps l) -> symmetric (dvFlow d) /\ symmetric (dvAnti d)).
Proof.
  intros lv lvs n priv sinks counts steps H Hs (Hu & Hsym) k l d r t u Hk Hn Hd Hr Hne Ht Hu' Hct Hcu Hc.
  destruct (nest_spec lv lvs n priv sinks H) as (_ & _ & N1 & _).
  assert (Hdn : lvDeps l <> []) by (intros X; rewrite X in Hd; destruct Hd).
  destruct (N1 k l Hk Hn Hdn) as (s & S1 & S2 & S3).
  destruct (range_spec _ _ _ S1) as (a & b & dv & -> & R1 & R2).
  apply WOne. split; [exact Hct|]. split; [exact Hcu|]. exists (diff t u). split.
  2: { apply reaches_diff; congruence. }
  apply S3; [rewrite diff_len; congruence|].
  rewrite app_length, repeat_length in S2. cbn [length] in S2. rewrite map_length in S2.
  destruct (Nat.eq_dec (S k) n) as [E|E].
  - (* the innermost loop of the nest *)
    assert (X : fits (repeat None k ++ [Some (- a, - b)%Z]) (diff t u)).
    { apply (fits_carried a b [] r); [|constructor| | | |exact Hc]; cbn [length]; try lia.
      pose proof (R1 d r Hd Hr Hne) as C. destruct r as [|[a' b'] r]; [contradiction|]. cbn [covers] in *. tauto. }
    clear -X Ht Hu' E.
    assert (G : forall s s' v, length v <= length s -> fits s v -> fits (s ++ s') v).
    { induction s as [|x s IH]; intros s' [|e v] L F; cbn [length fits app] in *; try lia; auto. destruct F as [F1 F2]. split; [exact F1|apply IH; [lia|exact F2]]. }
    assert (L : length (diff t u) <= length (repeat (@None range) k ++ [Some (- a, - b)%Z])).
    { rewrite diff_len by congruence. rewrite app_length, repeat_length. cbn [length]. lia. }
    specialize (G _ (map Some dv) _ L X). now rewrite <- app_assoc in G.
  - apply (fits_carried a b dv r); [exact (R1 d r Hd Hr Hne)| |lia|lia|lia|exact Hc]. apply R2. intros e He. apply (Hsym k l e Hk); [lia|exact He].
Qed.
Theorem defined_ok : C67_defined_claim (fun lv lvs => allKnown (lv :: lvs)).
Proof.
  intros lv lvs H0 HA.
  assert (R : forall k l, nth_error (lv :: lvs) k = Some l -> lvDeps l <> [] -> exists s, makeOrderedRange (lvDeps l) k = Some s /\ S (length lvs) <= length s).
  { intros k l Hk Hd. assert (Hkl : k < S (length lvs)). { change (S (length lvs)) with (length (lv :: lvs)). apply nth_error_Some. congruence. }
    destruct (range_len (lvDeps l) k (length lvs - k)) as (s & S1 & S2); [|exact Hd| |].
    - intros d Hdd. apply (H0 l d); [exact (nth_error_In _ _ Hk)|exact Hdd].
    - intros d r Hdd Hr Hne. specialize (HA k l d r Hk Hdd Hr Hne). cbn [length] in HA. lia.
    - exists s. split; [exact S1|lia]. }
  assert (X : forall l' k o, (forall s, In s (oSink o) -> S (length lvs) <= length s) -> oDepth o = 0 -> (exists pre, lv :: lvs = pre ++ l' /\ length pre = k) -> forall priv red,
    match extend l' k priv red o with Some (o', _, _) => forall s, In s (oSink o') -> S (length lvs) <= length s | None => False end).
  { induction l' as [|l l' IH]; intros k o Ho Hd (pre & E & Hp) priv red; cbn [extend].
    - rewrite reduce_spec by exact Hd. exact Ho.
    - assert (Hk : nth_error (lv :: lvs) k = Some l). { rewrite E, nth_error_app2, Hp, Nat.sub_diag by lia. reflexivity. }
      destruct (negb (lvOk l)); [rewrite reduce_spec by exact Hd; exact Ho|].
      destruct (_ || _); [rewrite reduce_spec by exact Hd; exact Ho|].
      destruct (addOrUpdate l k o) as [[[o1 f]|]|] eqn:Ea.
      + destruct (add_spec l k o o1 f Hd Ea) as (A1 & -> & A3 & A4 & A5).
        assert (Ho1 : forall s, In s (oSink o1) -> S (length lvs) <= length s).
        { intros s Hs. destruct (A5 s Hs) as [Hx|Hx]; [now apply Ho|]. destruct (lvDeps l) as [|d ds] eqn:Ed; [discriminate|].
          destruct (R k l Hk) as (s' & S1 & S2); [congruence|]. rewrite Ed in S1. congruence. }
        destruct (finalLevel l false); [rewrite reduce_spec by exact A1; exact Ho1|].
        apply IH; [exact Ho1|exact A1|]. exists (pre ++ [l]). split; [now rewrite <- app_assoc|]. rewrite app_length. cbn [length]. lia.
      + rewrite reduce_spec by exact Hd; exact Ho.
      + unfold addOrUpdate in Ea. destruct (lvDeps l) as [|d ds] eqn:Ed; [discriminate|]. destruct (lvEntry l); [|discriminate].
        destruct (R k l Hk) as (s' & S1 & S2); [congruence|]. rewrite Ed in S1. rewrite S1 in Ea. discriminate. }
  unfold exploitNest. destruct (addOrUpdate lv 0 ordered0) as [[[o f]|]|] eqn:Ea; [|discriminate|].
  - destruct (add_spec lv 0 ordered0 o f eq_refl Ea) as (A1 & -> & A3 & A4 & A5).
    assert (Ho : forall s, In s (oSink o) -> S (length lvs) <= length s).
    { intros s Hs. destruct (A5 s Hs) as [[]|Hx]. destruct (lvDeps lv) as [|d ds] eqn:Ed; [discriminate|].
      destruct (R 0 lv eq_refl) as (s' & S1 & S2); [congruence|]. rewrite Ed in S1. congruence. }
    destruct (finalLevel lv false).
    + rewrite reduce_spec by exact A1. cbn [oDepth oSink]. pose proof (sinks_some 1 (oSink o)) as Y.
      destruct (buildSinks 1 (oSink o)); [discriminate|]. exfalso. apply Y; [|reflexivity]. intros s Hs. specialize (Ho s Hs). lia.
    + specialize (X lvs 1 o Ho A1 (ex_intro _ [lv] (conj eq_refl eq_refl)) (lvPriv lv) (lvRed lv)).
      destruct (extend lvs 1 (lvPriv lv) (lvRed lv) o) as [[[o' n] p]|] eqn:Ee; [|contradiction].
      destruct (extend_spec lvs 1 _ _ o o' n p A1 Ee) as (B1 & B2 & B3 & _). rewrite B1.
      pose proof (sinks_some n (oSink o')) as Y. destruct (buildSinks n (oSink o')); [discriminate|]. exfalso. apply Y; [|reflexivity].
      intros s Hs. specialize (X s Hs). lia.
  - exfalso. unfold addOrUpdate in Ea. destruct (lvDeps lv) as [|d ds] eqn:Ed; [discriminate|]. destruct (lvEntry lv); [|discriminate].
    destruct (R 0 lv eq_refl) as (s' & S1 & S2); [congruence|]. rewrite Ed in S1. rewrite S1 in Ea. discriminate.
Qed.

(** ** Clauses of a nest *)
Lemma isIn_iff x l : isIn x l = true <-> In x l.
Proof. symmetry. apply in_isIn. Qed.
Lemma sameVars_in a b : sameVars a b = true -> forall x, In x a <-> In x b.
Proof.
  unfold sameVars. rewrite andb_true_iff, !forallb_forall. intros [A B] x. split; intros H; apply isIn_iff; auto.
Qed.
Lemma sameReds_in a b : sameReds a b = true -> forall x, In x a -> In x b.
Proof.
  unfold sameReds. rewrite andb_true_iff, !forallb_forall. intros [A _] x H. specialize (A x H). apply existsb_exists in A as ([c d] & A1 & A2).
  destruct x as [e f]. unfold pairEqb in A2. cbn [fst snd] in A2. apply andb_true_iff in A2 as [E1 E2]. apply Nat.eqb_eq in E1, E2. now subst.
Qed.
Lemma extend_clauses lvs : forall k priv red o o' n priv', extend lvs k priv red o = Some (o', n, priv') ->
  (forall v, In v priv -> In v priv' \/ exists j l, nth_error lvs j = Some l /\ lvInd l = v) /\
  (forall j l, nth_error lvs j = Some l -> k + j < n ->
     (forall v, In v (lvPriv l) -> In v priv' \/ exists j l, nth_error lvs j = Some l /\ lvInd l = v) /\ (forall x, In x (lvRed l) -> In x red)).
Proof.
  induction lvs as [|lv lvs IH]; intros k priv red o o' n priv' H; cbn [extend] in H.
  - injection H as <- <- <-. split; [now left|]. intros j l Hj. destruct j; discriminate.
  - assert (Rm : forall v, In v priv -> In v (remove Nat.eq_dec (lvInd lv) priv) \/ exists j l, nth_error (lv :: lvs) j = Some l /\ lvInd l = v).
    { intros v Hv. destruct (Nat.eq_dec (lvInd lv) v) as [E|E]; [right; now exists 0, lv|left]. apply in_in_remove; [congruence|exact Hv]. }
    destruct (negb (lvOk lv)). { injection H as <- <- <-. split; [now left|]. intros j l Hj Hn. lia. }
    destruct (negb (sameVars _ _)) eqn:Es; [|destruct (negb (sameReds _ _)) eqn:Er]; cbn [orb] in H.
    1, 2: injection H as <- <- <-; (split; [|intros j l Hj Hn; lia]); intros v Hv; destruct (Rm v Hv) as [X|X]; [left; now right|now right].
    apply negb_false_iff in Es, Er. pose proof (sameVars_in _ _ Es) as SV. pose proof (sameReds_in _ _ Er) as SR.
    destruct (addOrUpdate lv k o) as [[[o1 f]|]|]; [| |discriminate].
    2: { injection H as <- <- <-. split; [|intros j l Hj Hn; lia]. intros v Hv. destruct (Rm v Hv) as [X|X]; [left; now right|now right]. }
    destruct (finalLevel lv f).
    + injection H as <- <- <-. split; [exact Rm|]. intros j l Hj Hn. assert (j = 0) by lia. subst j. injection Hj as <-.
      split; [|exact SR]. intros v Hv. left. now apply SV.
    + destruct (IH (S k) _ _ o1 o' n priv' H) as [I1 I2].
      assert (Sh : forall v, (exists j l, nth_error lvs j = Some l /\ lvInd l = v) -> exists j l, nth_error (lv :: lvs) j = Some l /\ lvInd l = v).
      { intros v (j & l & X). now exists (S j), l. }
      split.
      * intros v Hv. destruct (Rm v Hv) as [X|X]; [|now right]. destruct (I1 v X) as [Y|Y]; [now left|right; now apply Sh].
      * intros [|j] l Hj Hn.
        -- injection Hj as <-. split; [|exact SR]. intros v Hv. apply SV in Hv. destruct (I1 v Hv) as [Y|Y]; [now left|right; now apply Sh].
        -- rewrite <- Nat.add_succ_comm in Hn. destruct (I2 j l Hj Hn) as [J1 J2]. split; [|exact J2]. intros v Hv. destruct (J1 v Hv) as [Y|Y]; [now left|right; now apply Sh].
Qed.
Theorem clauses_ok : C67_clauses_claim (fun lv l priv v => (In v (lvPriv l) /\ ~ In v priv) \/ exists r, In (r, v) (lvRed l) /\ ~ In (r, v) (lvRed lv)).
Proof.
  intros lv lvs n priv sinks H k l v Hk Hn HK. unfold exploitNest in H.
  destruct (addOrUpdate lv 0 ordered0) as [[[o f]|]|]; try discriminate.
  destruct (finalLevel lv f).
  - destruct (buildSinks _ _); [|discriminate]. injection H as <- <- _. assert (k = 0) by lia. subst k. injection Hk as <-.
    destruct HK as [[A B]|(r & A & B)]; contradiction.
  - destruct (extend lvs 1 (lvPriv lv) (lvRed lv) o) as [[[o' n'] p]|] eqn:E; [|discriminate]. destruct (buildSinks _ _); [|discriminate].
    injection H as <- <- _. destruct (extend_clauses lvs 1 _ _ o o' n' p E) as [I1 I2]. destruct k as [|k].
    + injection Hk as <-. destruct HK as [[A B]|(r & A & B)]; [|contradiction]. destruct (I1 v A) as [X|(j & l & X)]; [contradiction|]. now exists (S j), l.
    + destruct (I2 k l Hk Hn) as [J1 J2]. destruct HK as [[A B]|(r & A & B)]; [|exfalso; apply B; now apply J2].
      destruct (J1 v A) as [X|(j & l' & X)]; [contradiction|]. now exists (S j), l'.
Qed.

(** ** A single loop *)
Section Single.
Variable dist : memT -> distInfo.
Lemma emplace_mono v d m x : In x m -> In x (emplace v d m).
Proof. intros H. unfold emplace. destruct (existsb _ m); [exact H|]. apply in_or_app. now left. Qed.
Lemma emplace_in v d m x : In x (emplace v d m) -> In x m \/ x = (v, d).
Proof. unfold emplace. destruct (existsb _ m); [now left|]. intros H. apply in_app_or in H as [H|[H|[]]]; [now left|now right]. Qed.
Lemma emplace_new v d m : (forall e, ~ In (v, e) m) -> In (v, d) (emplace v d m).
Proof.
  intros H. unfold emplace. destruct (existsb (fun x => fst x =? v) m) eqn:E; [|apply in_or_app; right; now left].
  apply existsb_exists in E as ([w e] & E1 & E2). apply Nat.eqb_eq in E2. cbn [fst] in E2. subst w. now apply H in E1.
Qed.
Definition collectStep (m : list (nat * distInfo)) (x : node) : list (nat * distInfo) :=
  if depNode x then match nMems x with [] => m | t :: _ => collectNode dist (mSearch t) (nMems x) m end else m.
Lemma collectNode_mono q ts : forall m x, In x m -> In x (collectNode dist q ts m).
Proof.
  induction ts as [|t ts IH]; intros m x H; cbn [collectNode]; [exact H|]. apply IH.
  destruct (_ && _); [|exact H]. destruct (varOfSearch q); [now apply emplace_mono|exact H].
Qed.
Lemma collectNode_in q ts : forall m v d, In (v, d) (collectNode dist q ts m) -> In (v, d) m \/ (varOfSearch q = Some v /\ exists t, In t ts /\ d = dist t).
Proof.
  induction ts as [|t ts IH]; intros m v d H; cbn [collectNode] in H; [now left|].
  apply IH in H as [H|(H1 & t' & H2 & H3)]; [|right; split; [exact H1|]; exists t'; split; [now right|exact H3]].
  destruct (_ && _); [|now left]. destruct (varOfSearch q) as [w|]; [|now left].
  apply emplace_in in H as [H|H]; [now left|]. injection H as -> ->. right. split; [reflexivity|]. exists t. split; [now left|reflexivity].
Qed.
Lemma step_mono m n x : In x m -> In x (collectStep m n).
Proof. intros H. unfold collectStep. destruct (depNode n); [|exact H]. destruct (nMems n); [exact H|]. now apply collectNode_mono. Qed.
Lemma fold_step_mono xs : forall m x, In x m -> In x (fold_left collectStep xs m).
Proof. induction xs as [|n xs IH]; intros m x H; cbn [fold_left]; [exact H|]. apply IH. now apply step_mono. Qed.
Lemma fold_step_in xs : forall m v d, In (v, d) (fold_left collectStep xs m) ->
  In (v, d) m \/ exists n t u, In n xs /\ depNode n = true /\ In t (nMems n) /\ varOfSearch (mSearch t) = Some v /\ In u (nMems n) /\ d = dist u.
Proof.
  induction xs as [|n xs IH]; intros m v d H; cbn [fold_left] in H; [now left|].
  apply IH in H as [H|(n' & t & u & N1 & N2)]; [|right; exists n', t, u; split; [now right|exact N2]].
  unfold collectStep in H. destruct (depNode n) eqn:D; [|now left]. destruct (nMems n) as [|t ts] eqn:E; [now left|].
  apply collectNode_in in H as [H|(H1 & u & H2 & H3)]; [now left|]. right. exists n, t, u. rewrite E.
  split; [now left|]. split; [exact D|]. split; [now left|]. split; [exact H1|]. now split.
Qed.
(** distances of each node are kept *)
Lemma collect_in l i n t v : distinctDeps l -> nth_error (lNodes l) i = Some n -> depNode n = true -> nMems n = [t] ->
  distOk (mFlow t) && distOk (mAnti t) = true -> varOfSearch (mSearch t) = Some v -> In (v, dist t) (collect dist (lNodes l)).
Proof.
  intros HD Hn Hd Ht Hok Hv. change (collect dist (lNodes l)) with (fold_left collectStep (lNodes l) []).
  destruct (nth_error_split _ _ Hn) as (pre & post & E & Hl). rewrite E, fold_left_app. cbn [fold_left]. apply fold_step_mono.
  unfold collectStep at 1. rewrite Hd, Ht. cbn [collectNode]. rewrite Hok, Hv. apply emplace_new. intros e He.
  apply fold_step_in in He as [[]|(m & u & w & M1 & M2 & M3 & M4 & _)].
  apply In_nth_error in M1 as (j & Hj). assert (Hjl : j < length pre) by (apply nth_error_Some; congruence).
  assert (X : j = i); [|lia].
  apply (HD j i m n u t v); auto; [|rewrite Ht; now left]. rewrite E, nth_error_app1; assumption.
Qed.
End Single.

Lemma exploitOrdered_spec l dist entry perfect lvs cl res : exploitOrdered l dist entry perfect lvs = Some (cl, res) ->
  exists deps, exploitAny l = Some (cl, deps) /\
  exploitNest (Level true (cInd cl) (map snd (collect dist (lNodes l))) (cPriv cl) (cLast cl) (cFirst cl) (cRed cl) entry perfect) lvs = res.
Proof.
  unfold exploitOrdered. destruct (exploitAny l) as [[cl' deps]|]; [|discriminate]. intros H. injection H as -> <-. now exists deps.
Qed.
Lemma event_kind (P : program) j c : accessed (pOp P) (pBody P) (pMem P) j c -> written (pOp P) (pBody P) (pMem P) j c \/ readAt P j c.
Proof.
  intros (e & E1 & E2). destruct e as [o x|o x|o x r v].
  - right. exists (ERd o x). now repeat split.
  - left. exists (EWr o x). now repeat split.
  - left. exists (EUp o x r v). now repeat split.
Qed.
Theorem ordered_results : C67_claim (fun l P step => step = 1%Z /\ distinctDeps l /\ autoLocals l P /\ deadHead l P /\ lastKnown l /\ noUnknown l).
Proof.
  intros l P dist step entry perfect lvs cl priv sinks parts ts fin sh ts' H T Q (-> & HDD & HA & HH & HL & HU) _ HD HS Hst Hfin c Hlv.
  destruct (exploitOrdered_spec _ _ _ _ _ _ _ H) as (deps & Hcl & HN).
  assert (Hconf : forall c i j, privOf P l cl c = false -> j < i -> i < pN P ->
    (written (pOp P) (pBody P) (pMem P) j c /\ accessed (pOp P) (pBody P) (pMem P) i c) \/ (accessed (pOp P) (pBody P) (pMem P) j c /\ written (pOp P) (pBody P) (pMem P) i c) ->
    clos_trans nat (waitsIter (pN P) 1 sinks) i j).
  { clear c Hlv. intros c i j Hp Hji Hi HC.
    assert (Ai : accessed (pOp P) (pBody P) (pMem P) i c).
    { destruct HC as [[_ A]|[_ (e & A & B & _)]]; [exact A|now exists e]. }
    assert (Aj : accessed (pOp P) (pBody P) (pMem P) j c).
    { destruct HC as [[(e & A & B & _) _]|[A _]]; [now exists e|exact A]. }
    destruct (ok_public l P T cl deps Hcl HA HL HU i c Hp Hi Ai) as [Sh|(k & n & t & Hh & Hn & Ht & Hc & Hs & Dd)].
    { exfalso. destruct HC as [[A B]|[A B]]; [exact (Sh j i ltac:(lia) Hi ltac:(lia) A B)|exact (Sh i j Hi ltac:(lia) ltac:(lia) B A)]. }
    destruct (dep_in l P T cl deps Hcl k n Hn Hc Hs Dd) as (t' & v & Em & DK & Hv & _).
    rewrite Em in Ht. destruct Ht as [->|[]].
    assert (DN : depNode n = true).
    { unfold depNode. unfold shOf in Hs. rewrite Hc, Hs, (no_output l cl deps Hcl k n Hn Hc). unfold depOf in Dd. cbn [andb negb].
      apply andb_true_iff in Dd as [Dd D4]. apply andb_true_iff in Dd as [Dd D3]. apply andb_true_iff in Dd as [D1 D2]. now rewrite D1, D2, D3, D4. }
    assert (Hin : In (snd (pHome P c)) (nMems n)) by (rewrite Hh, Em; now left). assert (Hk : fst (pHome P c) = k) by now rewrite Hh.
    assert (HR : exists r, (r = dvFlow (dist t) \/ r = dvAnti (dist t)) /\ inRange r (Z.of_nat i - Z.of_nat j)).
    { destruct HC as [[W A]|[A W]].
      - destruct (event_kind P i c A) as [W'|R']; [exfalso; exact (qOutput l P dist Q k n c j i Hn DN Hin Hk Hji Hi W W')|].
        exists (dvFlow (dist t)). split; [now left|]. pose proof (qFlow l P dist Q k n c j i Hn DN Hin Hk Hji Hi W R') as X. now rewrite Hh in X.
      - destruct (event_kind P j c A) as [W'|R']; [exfalso; exact (qOutput l P dist Q k n c j i Hn DN Hin Hk Hji Hi W' W)|].
        exists (dvAnti (dist t)). split; [now right|]. pose proof (qAnti l P dist Q k n c j i Hn DN Hin Hk Hji Hi R' W) as X. now rewrite Hh in X. }
    destruct HR as (r & Hr & (a & b & rs & Er & Hab)).
    assert (HW : waitsChain [Z.of_nat (pN P)] [1%Z] sinks [Z.of_nat i] [Z.of_nat j]).
    { eapply (cover_ok _ _ 1 priv sinks [Z.of_nat (pN P)] [1%Z] HN eq_refl) with (k := 0) (d := dist t) (r := r).
      - split; [repeat constructor|]. intros k' l' d' _ X. lia.
      - reflexivity.
      - lia.
      - cbn [lvDeps]. change (dist t) with (snd (v, dist t)). apply in_map. exact (collect_in dist l k n t v HDD Hn DN Em DK Hv).
      - exact Hr.
      - rewrite Er. discriminate.
      - reflexivity.
      - reflexivity.
      - cbn [inSpace]. lia.
      - cbn [inSpace]. lia.
      - rewrite Er. cbn [carried within]. split; [lia|]. destruct rs as [|[? ?] ?]; exact Logic.I. }
    clear -HW. remember [Z.of_nat i] as x eqn:Ex. remember [Z.of_nat j] as y eqn:Ey. revert i Ex.
    induction HW as [x y HW|x z y HW _ IH]; intros i Ex; subst.
    - apply t_step. exact HW.
    - destruct HW as (I1 & I2 & I3). destruct z as [|z [|z' zs]]; cbn [inSpace] in I2; try (destruct I2; contradiction); try contradiction.
      apply t_trans with (Z.to_nat z).
      + apply t_step. unfold waitsIter. rewrite Z2Nat.id by lia. split; [exact I1|]. split; [exact I2|exact I3].
      + apply (IH eq_refl). now rewrite Z2Nat.id by lia. }
  rewrite (ordered_ok (pOp P) (pIdent P) (pBody P) (pMem P) (privOf P l cl) (redOf P cl) (pN P) (waitsIter (pN P) 1 sinks) (tOps l P T)
    (fun i e Hi He Ho => ok_orig l P T cl deps Hcl i e Hi He Ho)
    Hconf
    (fun c Hc Hr => ok_private l P T cl deps Hcl HA c Hc Hr)
    (fun c k Hr => ok_red l P T cl deps Hcl c k Hr)
    (fun c k Hr => ok_redp l P cl deps Hcl c k Hr)
    (varIn P (cFirst cl)) (varIn P (cLast cl)) parts ts fin sh ts' HD HS Hst Hfin
    (fun c Hc => ok_last l P cl deps Hcl c Hc) c
    (fun Hp Hr => ok_live l P T cl deps Hcl HA HH HL c Hlv Hp Hr)).
  unfold seqFinal. destruct (varIn P [cInd cl] c) eqn:E; [|reflexivity]. exfalso.
  apply varIn_spec in E as (v & Hv & [<-|[]]). rewrite (HH _ c (head_ind l cl deps Hcl) Hv) in Hlv. discriminate.
Qed.

(** ** Progress *)
Lemma fold_pos deps : forall dv a b rs, (forall a b rs, dv = (a, b) :: rs -> (0 < a <= b)%Z) ->
  (forall d a b rs, In d deps -> dvFlow d = (a, b) :: rs \/ dvAnti d = (a, b) :: rs -> (0 < a <= b)%Z) ->
  fold_left upd2 deps dv = (a, b) :: rs -> (0 < a <= b)%Z.
Proof.
  assert (U : forall dv r, (forall a b rs, dv = (a, b) :: rs -> (0 < a <= b)%Z) -> (forall a b rs, r = (a, b) :: rs -> (0 < a <= b)%Z) ->
    forall a b rs, updateIf dv r = (a, b) :: rs -> (0 < a <= b)%Z).
  { intros dv r H1 H2 a b rs H. unfold updateIf in H. destruct r as [|[a' b'] r]; [now apply (H1 a b rs)|].
    destruct dv as [|[a2 b2] dv]; cbn [update] in H; [discriminate|]. injection H as <- <- _.
    specialize (H1 _ _ _ eq_refl). specialize (H2 _ _ _ eq_refl). rewrite Z.gtb_ltb. destruct (Z.ltb_spec a' a2), (Z.ltb_spec b2 b'); lia. }
  induction deps as [|d deps IH]; intros dv a b rs H1 H2 H; cbn [fold_left] in H; [now apply (H1 a b rs)|].
  apply (IH (upd2 dv d) a b rs); [| |exact H].
  - unfold upd2. apply U; [apply U; [exact H1|]|]; intros a' b' rs' X; apply (H2 d a' b' rs'); auto; now left.
  - intros e a' b' rs' He. apply H2. now right.
Qed.
Theorem progress_ok : C67_progress_claim (fun step => (0 < step)%Z).
Proof.
  intros l P dist step entry perfect lvs cl priv sinks parts ts fin sh ts' H HP Hpos HD HS Hst.
  apply (ordered_progress (pOp P) (pBody P) (privOf P l cl) (pN P) (waitsIter (pN P) step sinks) (pIdent P) (pMem P) (varIn P (cFirst cl)) (redOf P cl) parts ts); try assumption.
  intros i j (_ & _ & v & Hv & HR).
  destruct (exploitOrdered_spec _ _ _ _ _ _ _ H) as (deps & _ & HN).
  destruct (nest_spec _ _ _ _ _ HN) as (_ & _ & _ & N2). destruct (N2 v Hv) as (k & lv & s & Hk & Hk1 & Hs & Hl & Hf).
  assert (k = 0) by lia. subst k. injection Hk as <-. cbn [lvDeps] in Hs.
  destruct v as [|d v]; [discriminate|]. cbn [reaches] in HR. destruct HR as [HR _].
  unfold makeOrderedRange in Hs. destruct (map snd (collect dist (lNodes l))) as [|f ds] eqn:Ed; [discriminate|]. rewrite <- Ed in Hs.
  change (fun dv d => updateIf (updateIf dv (dvFlow d)) (dvAnti d)) with upd2 in Hs.
  assert (HP' : forall d a b rs, In d (map snd (collect dist (lNodes l))) -> dvFlow d = (a, b) :: rs \/ dvAnti d = (a, b) :: rs -> (0 < a <= b)%Z).
  { intros e a b rs He. apply in_map_iff in He as ([w e'] & <- & He). cbn [snd].
    change (collect dist (lNodes l)) with (fold_left (collectStep dist) (lNodes l) []) in He.
    apply fold_step_in in He as [[]|(n & t & u & M1 & M2 & _ & _ & M3 & ->)]. now apply (HP n u). }
  set (ini := match dvFlow f with [] => dvAnti f | _ => dvFlow f end) in Hs.
  destruct (fold_left upd2 (map snd (collect dist (lNodes l))) ini) as [|[a b] dv] eqn:Ef; [discriminate|]. injection Hs as <-.
  assert (Hab : (0 < a <= b)%Z).
  { apply (fold_pos (map snd (collect dist (lNodes l))) ini a b dv); [|exact HP'|exact Ef].
    intros a' b' rs' X. apply (HP' f a' b' rs'); [rewrite Ed; now left|]. unfold ini in X. destruct (dvFlow f); [now right|now left]. }
  cbn [repeat app fits] in Hf. destruct Hf as [Hf _]. apply in_between in Hf. cbn [fst snd] in Hf.
  assert (step * (Z.of_nat j - Z.of_nat i) < 0)%Z by lia.
  assert (Z.of_nat j - Z.of_nat i < 0)%Z; [|lia]. apply Z.nle_gt. intros Hge. pose proof (Z.mul_nonneg_nonneg step _ (Z.lt_le_incl _ _ Hpos) Hge). lia.
Qed.
