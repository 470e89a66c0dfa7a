(** Proofs for C93. *)
From Coq Require Import PeanoNat Bool List Lia.
From Verif Require Import OutFileModel OutFileSpec OutFileProof OutFileProof2 AtomicModel AtomicSpec.
Import ListNotations.

Lemma tmp_key : forall b, b_tmp b <> b_key b.
Proof.
  intros b E. unfold b_tmp in E. destruct (b_key b) as [d n]. cbn [fst snd] in E. injection E as E. exact (tmp_neq _ _ E).
Qed.
Lemma temp_of_tmp : forall b k, temp_of b k <-> k = b_tmp b.
Proof. intros b k. split; intros H; exact H. Qed.

(** Operations of a single file. *)
Lemma write_cases : forall s b, let x := writeFile s b in
  (fst x = [] /\ (snd x = WErr \/ snd x = WFatal)
     /\ (snd x = WErr -> a_canwrite (b_env b) = false \/ a_open (b_env b) = false)
     /\ (snd x = WFatal -> a_open (b_env b) = false))
  \/ (x = (OOpen (b_key b) :: write_ops (TFile (b_key b)) (b_data b), streamEnd b WOk)
      /\ (a_unique (b_env b) = false \/ node_of s (b_key b) = Some Special))
  \/ (x = ((ONew (b_tmp b) :: write_ops (TFile (b_tmp b)) (b_data b)) ++ [ORen (b_tmp b) (b_key b)], streamEnd b WOk)
      /\ node_of s (b_key b) <> Some Special)
  \/ (x = ((ONew (b_tmp b) :: write_ops (TFile (b_tmp b)) (b_data b)) ++ [ORm (b_tmp b)], streamEnd b WErr)
      /\ a_rename (b_env b) = false).
Proof.
  intros s b x.
  assert (D : (a_unique (b_env b) = false \/ node_of s (b_key b) = Some Special) -> x = direct b ->
    (fst x = [] /\ (snd x = WErr \/ snd x = WFatal)
     /\ (snd x = WErr -> a_canwrite (b_env b) = false \/ a_open (b_env b) = false)
     /\ (snd x = WFatal -> a_open (b_env b) = false))
    \/ (x = (OOpen (b_key b) :: write_ops (TFile (b_key b)) (b_data b), streamEnd b WOk)
      /\ (a_unique (b_env b) = false \/ node_of s (b_key b) = Some Special))).
  { intros U E. rewrite E. unfold direct. destruct (a_open (b_env b)) eqn:Eo.
    - right. split; [reflexivity | exact U].
    - left. cbn [fst snd]. split; [reflexivity | ]. split; [destruct (bytes (b_data b)); tauto | ].
      split; intros _; [right | ]; reflexivity. }
  assert (T : node_of s (b_key b) <> Some Special ->
    x = (if a_unique (b_env b) then
      let w := ONew (b_tmp b) :: write_ops (TFile (b_tmp b)) (b_data b) in
      if a_rename (b_env b)
      then (w ++ [ORen (b_tmp b) (b_key b)], streamEnd b WOk)
      else (w ++ [ORm (b_tmp b)], streamEnd b WErr)
    else direct b) ->
   (fst x = [] /\ (snd x = WErr \/ snd x = WFatal)
     /\ (snd x = WErr -> a_canwrite (b_env b) = false \/ a_open (b_env b) = false)
     /\ (snd x = WFatal -> a_open (b_env b) = false))
  \/ (x = (OOpen (b_key b) :: write_ops (TFile (b_key b)) (b_data b), streamEnd b WOk)
      /\ (a_unique (b_env b) = false \/ node_of s (b_key b) = Some Special))
  \/ (x = ((ONew (b_tmp b) :: write_ops (TFile (b_tmp b)) (b_data b)) ++ [ORen (b_tmp b) (b_key b)], streamEnd b WOk)
      /\ node_of s (b_key b) <> Some Special)
  \/ (x = ((ONew (b_tmp b) :: write_ops (TFile (b_tmp b)) (b_data b)) ++ [ORm (b_tmp b)], streamEnd b WErr)
      /\ a_rename (b_env b) = false)).
  { intros N E. destruct (a_unique (b_env b)) eqn:U.
    - cbv zeta in E. destruct (a_rename (b_env b)) eqn:Er.
      + right. right. left. split; [exact E | exact N].
      + right. right. right. split; [exact E | reflexivity].
    - destruct (D (or_introl eq_refl) E) as [H | H]; [left; exact H | right; left; exact H]. }
  assert (Ex : x = writeFile s b) by reflexivity. unfold writeFile in Ex. cbv zeta in Ex.
  destruct (node_of s (b_key b)) as [f | ] eqn:En; [ | apply T; [discriminate | exact Ex]].
  destruct (a_canwrite (b_env b)) eqn:Ec.
  - destruct f as [c | ].
    + apply T; [discriminate | exact Ex].
    + destruct (D (or_intror eq_refl) Ex) as [H | H]; [left; exact H | right; left; exact H].
  - left. rewrite Ex. cbn [fst snd]. split; [reflexivity | ]. split; [left; reflexivity | ].
    split; [left; reflexivity | discriminate].
Qed.

Lemma io_stored : forall b, stored b -> io_error (b_data b) = false.
Proof.
  intros b H. unfold io_error. destruct (existsb _ (b_data b)) eqn:E; [ | reflexivity]. apply existsb_exists in E.
  destruct E as [c [Hc E]]. rewrite (H c Hc) in E. discriminate E.
Qed.
Lemma stream_ok : forall b r, streamEnd b r = WOk -> io_error (b_data b) = false /\ r = WOk.
Proof. intros b r H. unfold streamEnd in H. destruct (io_error (b_data b)); [discriminate H | split; [reflexivity | exact H]]. Qed.
Lemma stream_err : forall b r, streamEnd b r = WErr -> io_error (b_data b) = false /\ r = WErr.
Proof. intros b r H. unfold streamEnd in H. destruct (io_error (b_data b)); [discriminate H | split; [reflexivity | exact H]]. Qed.

(** Only the file and its temporary file are touched. *)
Lemma write_touches : forall s b o k, In o (fst (writeFile s b)) -> touches o k -> k = b_key b \/ k = b_tmp b.
Proof.
  intros s b o k H T. destruct (write_cases s b) as [[E _] | [[E _] | [[E _] | [E _]]]]; rewrite E in H; cbn [fst] in H.
  - destruct H.
  - destruct H as [<- | H]; [left; exact T | ]. pose proof (write_touch _ _ _ _ H T) as X. injection X as ->. left. reflexivity.
  - apply in_app_or in H. destruct H as [[<- | H] | [<- | []]]; [right; exact T | | destruct T; tauto].
    pose proof (write_touch _ _ _ _ H T) as X. injection X as ->. right. reflexivity.
  - apply in_app_or in H. destruct H as [[<- | H] | [<- | []]]; [right; exact T | | right; exact T].
    pose proof (write_touch _ _ _ _ H T) as X. injection X as ->. right. reflexivity.
Qed.
Lemma write_frame : forall s b n s0 k, k <> b_key b -> k <> b_tmp b ->
  node_of (run (firstn n (fst (writeFile s b))) s0) k = node_of s0 k.
Proof.
  intros s b n s0 k H1 H2. apply run_frame. intros o Ho T. apply in_firstn in Ho.
  destruct (write_touches s b o k Ho T); contradiction.
Qed.
Lemma write_frame_all : forall s b s0 k, k <> b_key b -> k <> b_tmp b ->
  node_of (run (fst (writeFile s b)) s0) k = node_of s0 k.
Proof.
  intros s b s0 k H1 H2. rewrite <- (firstn_all (fst (writeFile s b))). apply write_frame; assumption.
Qed.

Lemma new_write : forall t cs s, node_of (run (ONew t :: write_ops (TFile t) cs) s) t = Some (Reg (written cs)).
Proof. intros t cs s. rewrite run_cons. rewrite (write_run t cs _ []); [reflexivity | ]. cbn. apply upd_same. Qed.
Lemma new_write_frame : forall t cs s k n, k <> t ->
  node_of (run (firstn n (ONew t :: write_ops (TFile t) cs)) s) k = node_of s k.
Proof.
  intros t cs s k n H. apply run_frame. intros o Ho T. apply in_firstn in Ho. destruct Ho as [<- | Ho]; [exact (H T) | ].
  pose proof (write_touch _ _ _ _ Ho T) as X. injection X as X. exact (H (eq_sym X)).
Qed.
Lemma new_write_frame_all : forall t cs s k, k <> t ->
  node_of (run (ONew t :: write_ops (TFile t) cs) s) k = node_of s k.
Proof.
  intros t cs s k H. rewrite <- (firstn_all (ONew t :: write_ops (TFile t) cs)). apply new_write_frame. exact H.
Qed.

(** A temporary file does not remain. *)
Lemma write_tmp : forall s b, node_of s (b_tmp b) = None -> node_of (run (fst (writeFile s b)) s) (b_tmp b) = None.
Proof.
  intros s b H. destruct (write_cases s b) as [[E _] | [[E _] | [[E _] | [E _]]]]; rewrite E; cbn [fst].
  - exact H.
  - rewrite run_frame; [exact H | ]. intros o [<- | Ho] T; [exact (tmp_key b T) | ].
    pose proof (write_touch _ _ _ _ Ho T) as X. injection X as X. exact (tmp_key b (eq_sym X)).
  - rewrite run_app. destruct (rename_effect _ (b_tmp b) (b_key b) _ (new_write (b_tmp b) (b_data b) s)
      (not_eq_sym (tmp_key b))) as [X _]. exact X.
  - rewrite run_app. apply rm_gone. rewrite new_write. discriminate.
Qed.

(** The file after writing. *)
Lemma write_end : forall s b,
  (snd (writeFile s b) = WOk -> complete s (run (fst (writeFile s b)) s) b)
  /\ (snd (writeFile s b) = WErr -> unchanged s (run (fst (writeFile s b)) s) (b_key b)
       /\ (a_canwrite (b_env b) = false \/ a_open (b_env b) = false \/ a_rename (b_env b) = false)).
Proof.
  intros s b. destruct (write_cases s b) as [[E [R [R1 R2]]] | [[E _] | [[E _] | [E Er]]]]; rewrite E in *; cbn [fst snd] in *.
  - split; [intros H; destruct R as [R | R]; rewrite R in H; discriminate H | ].
    intros H. split; [reflexivity | ]. destruct (R1 H); tauto.
  - split; intros H; [ | apply stream_err in H; destruct H as [_ H]; discriminate H].
    apply stream_ok in H. destruct H as [H _]. destruct (io_ok _ H) as [W _].
    unfold complete. destruct (direct_node (b_key b) (b_data b) s) as [[X1 X2] | [_ X]].
    + right. split; [exact X1 | exact X2].
    + left. cbn [app] in X. rewrite X, W. reflexivity.
  - split; intros H; [ | apply stream_err in H; destruct H as [_ H]; discriminate H].
    apply stream_ok in H. destruct H as [H _]. destruct (io_ok _ H) as [W _]. left. rewrite run_app.
    destruct (rename_effect _ (b_tmp b) (b_key b) _ (new_write (b_tmp b) (b_data b) s) (not_eq_sym (tmp_key b))) as [_ X].
    etransitivity; [exact X | ]. rewrite W. reflexivity.
  - split; intros H; [apply stream_ok in H; destruct H as [_ H]; discriminate H | ].
    split; [ | tauto]. unfold unchanged. rewrite run_app.
    change (node_of (exec (run (ONew (b_tmp b) :: write_ops (TFile (b_tmp b)) (b_data b)) s) (ORm (b_tmp b))) (b_key b) = node_of s (b_key b)).
    rewrite rm_other by (apply not_eq_sym; apply tmp_key). apply new_write_frame_all. apply not_eq_sym. apply tmp_key.
Qed.

(** The file at each crash point. *)
Lemma write_prefix : forall s b n, a_unique (b_env b) = true -> stored b ->
  unchanged s (run (firstn n (fst (writeFile s b))) s) (b_key b)
  \/ node_of (run (firstn n (fst (writeFile s b))) s) (b_key b) = Some (Reg (text b)).
Proof.
  intros s b n U St. pose proof (io_stored b St) as Hio. destruct (io_ok _ Hio) as [W _].
  destruct (write_cases s b) as [[E _] | [[E [X | X]] | [[E _] | [E _]]]]; rewrite E; cbn [fst].
  - left. rewrite firstn_nil. reflexivity.
  - rewrite U in X. discriminate X.
  - left. unfold unchanged. apply (special_keeps _ s (b_key b) (b_key b) X). intros o Ho. apply in_firstn in Ho.
    destruct Ho as [<- | Ho]; [left; reflexivity | right; right].
    unfold write_ops in Ho. apply in_flat_map in Ho. destruct Ho as [c [_ Ho]].
    destruct (snd c); [ | destruct Ho]. destruct Ho as [<- | []]. exists (fst c). reflexivity.
  - destruct (prefix_app n (ONew (b_tmp b) :: write_ops (TFile (b_tmp b)) (b_data b)) [ORen (b_tmp b) (b_key b)])
      as [[_ P] | [_ [m [Hm P]]]]; rewrite P.
    + left. apply new_write_frame. apply not_eq_sym. apply tmp_key.
    + right. destruct m as [ | m]; [lia | ]. cbn [firstn]. rewrite firstn_nil. rewrite run_app.
      destruct (rename_effect _ (b_tmp b) (b_key b) _ (new_write (b_tmp b) (b_data b) s) (not_eq_sym (tmp_key b))) as [_ X].
      etransitivity; [exact X | ]. rewrite W. reflexivity.
  - left. unfold unchanged. rewrite run_frame; [reflexivity | ]. intros o Ho T. apply in_firstn in Ho.
    apply in_app_or in Ho. destruct Ho as [[<- | Ho] | [<- | []]]; try (exact (tmp_key b (eq_sym T))).
    pose proof (write_touch _ _ _ _ Ho T) as X. injection X as X. exact (tmp_key b X).
Qed.

(** * Many files *)
Lemma fresh_next : forall s b bs, fresh_names s (b :: bs) -> fresh_names (run (fst (writeFile s b)) s) bs.
Proof.
  intros s b bs H b' k Hb Ht. destruct (H b' k (or_intror Hb) Ht) as [H1 H2]. split.
  - destruct (key_eq_dec k (b_tmp b)) as [-> | N].
    + apply write_tmp. apply (H b (b_tmp b) (or_introl eq_refl)). reflexivity.
    + rewrite write_frame_all; [exact H1 | | exact N]. apply not_eq_sym. apply H2. left. reflexivity.
  - intros b'' Hb''. apply H2. right. exact Hb''.
Qed.

(** The rest of a loop starts in the state after the first file. *)
Lemma loop_cons : forall s b bs all main ops r, releaseLoop s (b :: bs) all main = (ops, r) ->
  (snd (writeFile s b) = WFatal /\ ops = fst (writeFile s b) /\ r = RFatal)
  \/ (exists ops', snd (writeFile s b) = WErr /\ ops = fst (writeFile s b) ++ ops'
        /\ releaseLoop (run (fst (writeFile s b)) s) bs false main = (ops', r))
  \/ (exists ops', snd (writeFile s b) = WOk /\ ops = fst (writeFile s b) ++ ops'
        /\ releaseLoop (run (fst (writeFile s b)) s) bs all (if b_main b then Some (b_key b) else main) = (ops', r)).
Proof.
  intros s b bs all main ops r H. cbn [releaseLoop] in H. destruct (writeFile s b) as [o1 r1]. cbn [fst snd].
  destruct r1.
  - right. right. cbv zeta in H. destruct (releaseLoop _ bs all _) as [o2 r2]. apply pair_equal_spec in H. destruct H as [<- <-].
    exists o2. split; [reflexivity | ]. split; reflexivity.
  - right. left. destruct (releaseLoop _ bs false main) as [o2 r2]. apply pair_equal_spec in H. destruct H as [<- <-].
    exists o2. split; [reflexivity | ]. split; reflexivity.
  - left. apply pair_equal_spec in H. destruct H as [<- <-]. split; [reflexivity | ]. split; reflexivity.
Qed.

Lemma loop_frame : forall bs s all main ops r n k,
  releaseLoop s bs all main = (ops, r) -> (forall b, In b bs -> b_key b <> k /\ b_tmp b <> k) ->
  node_of (run (firstn n ops) s) k = node_of s k.
Proof.
  induction bs as [ | b bs IH]; intros s all main ops r n k H Hk.
  - cbn in H. apply pair_equal_spec in H. destruct H as [<- _]. rewrite firstn_nil. reflexivity.
  - destruct (Hk b (or_introl eq_refl)) as [K1 K2].
    assert (G : forall ops' all' main', ops = fst (writeFile s b) ++ ops' ->
      releaseLoop (run (fst (writeFile s b)) s) bs all' main' = (ops', r) -> node_of (run (firstn n ops) s) k = node_of s k).
    { intros ops' all' main' -> L. destruct (prefix_app n (fst (writeFile s b)) ops') as [[_ P] | [_ [m [_ P]]]]; rewrite P.
      - apply write_frame; apply not_eq_sym; assumption.
      - rewrite run_app. rewrite (IH _ _ _ _ _ m k L) by (intros b' Hb; apply Hk; right; exact Hb).
        apply write_frame_all; apply not_eq_sym; assumption. }
    destruct (loop_cons s b bs all main ops r H) as [[_ [-> _]] | [[ops' [_ [E L]]] | [ops' [_ [E L]]]]].
    + apply write_frame; apply not_eq_sym; assumption.
    + exact (G ops' _ _ E L).
    + exact (G ops' _ _ E L).
Qed.
Lemma loop_frame_all : forall bs s all main ops r k,
  releaseLoop s bs all main = (ops, r) -> (forall b, In b bs -> b_key b <> k /\ b_tmp b <> k) ->
  node_of (run ops s) k = node_of s k.
Proof.
  intros bs s all main ops r k H Hk. rewrite <- (firstn_all ops). exact (loop_frame bs s all main ops r _ k H Hk).
Qed.

Lemma loop_atomic : forall bs s all main ops r n k,
  fresh_names s bs -> releaseLoop s bs all main = (ops, r) ->
  (forall b, In b bs -> a_unique (b_env b) = true /\ stored b) ->
  (forall b, In b bs -> ~ temp_of b k) ->
  unchanged s (run (firstn n ops) s) k
  \/ exists b, In b bs /\ b_key b = k /\ node_of (run (firstn n ops) s) k = Some (Reg (text b)).
Proof.
  induction bs as [ | b bs IH]; intros s all main ops r n k F H Hg Hk.
  - cbn in H. apply pair_equal_spec in H. destruct H as [<- _]. rewrite firstn_nil. left. reflexivity.
  - destruct (Hg b (or_introl eq_refl)) as [U St].
    assert (Kt : k <> b_tmp b) by (intros E; exact (Hk b (or_introl eq_refl) E)).
    assert (One : forall m, unchanged s (run (firstn m (fst (writeFile s b))) s) k
      \/ (b_key b = k /\ node_of (run (firstn m (fst (writeFile s b))) s) k = Some (Reg (text b)))).
    { intros m. destruct (key_eq_dec k (b_key b)) as [-> | Kk].
      - destruct (write_prefix s b m U St) as [X | X]; [left; exact X | right; split; [reflexivity | exact X]].
      - left. apply write_frame; assumption. }
    assert (G : forall ops' all' main', ops = fst (writeFile s b) ++ ops' ->
      releaseLoop (run (fst (writeFile s b)) s) bs all' main' = (ops', r) ->
      unchanged s (run (firstn n ops) s) k
      \/ exists b', In b' (b :: bs) /\ b_key b' = k /\ node_of (run (firstn n ops) s) k = Some (Reg (text b'))).
    { intros ops' all' main' -> L. destruct (prefix_app n (fst (writeFile s b)) ops') as [[_ P] | [_ [m [_ P]]]]; rewrite P.
      - destruct (One n) as [X | [X1 X2]]; [left; exact X | right]. exists b. split; [left; reflexivity | ]. split; assumption.
      - rewrite run_app. destruct (IH _ _ _ _ _ m k (fresh_next s b bs F) L) as [X | [b' [X1 [X2 X3]]]].
        + intros b' Hb. apply Hg. right. exact Hb.
        + intros b' Hb. apply Hk. right. exact Hb.
        + unfold unchanged in X |- *. rewrite X. pose proof (One (length (fst (writeFile s b)))) as O. rewrite firstn_all in O.
          destruct O as [O | [O1 O2]]; [left; exact O | right]. exists b. split; [left; reflexivity | ]. split; assumption.
        + right. exists b'. split; [right; exact X1 | ]. split; assumption. }
    destruct (loop_cons s b bs all main ops r H) as [[_ [-> _]] | [[ops' [_ [E L]]] | [ops' [_ [E L]]]]].
    + destruct (One n) as [X | [X1 X2]]; [left; exact X | right]. exists b. split; [left; reflexivity | ]. split; assumption.
    + exact (G ops' _ _ E L).
    + exact (G ops' _ _ E L).
Qed.
Lemma atomic_true : C93_atomic_claim true true.
Proof.
  intros s bs ops r n k F H Ht Hd Hk. apply (loop_atomic bs s true None ops r n k F H); [ | exact Hk].
  intros b Hb. split; [exact (Ht eq_refl b Hb) | exact (Hd eq_refl b Hb)].
Qed.

(** Results for a finished loop. *)
Definition okFile (s now : fsys) (b : buffer) : Prop := complete s now b.
Definition badFile (s now : fsys) (b : buffer) : Prop := unchanged s now (b_key b)
  /\ (a_canwrite (b_env b) = false \/ a_open (b_env b) = false \/ a_rename (b_env b) = false).

Lemma complete_ext : forall s1 s2 n1 n2 b, node_of s1 (b_key b) = node_of s2 (b_key b) ->
  node_of n1 (b_key b) = node_of n2 (b_key b) -> complete s1 n1 b -> complete s2 n2 b.
Proof. intros s1 s2 n1 n2 b E1 E2 H. unfold complete in *. rewrite E1, E2 in H. exact H. Qed.

Lemma loop_result : forall bs s all main ops all' main',
  fresh_names s bs -> different bs -> releaseLoop s bs all main = (ops, RDone all' main') ->
  exists good : buffer -> bool,
    (forall b, In b bs -> if good b then okFile s (run ops s) b else badFile s (run ops s) b)
    /\ all' = (all && forallb good bs)
    /\ (main' = main /\ (forall b, In b bs -> b_main b = true -> good b = false)
        \/ exists b, In b bs /\ b_main b = true /\ good b = true /\ main' = Some (b_key b)).
Proof.
  induction bs as [ | b bs IH]; intros s all main ops all' main' F D H.
  - cbn in H. apply pair_equal_spec in H. destruct H as [<- E]. injection E as <- <-. exists (fun _ => true).
    split; [intros b [] | ]. split; [cbn; rewrite andb_true_r; reflexivity | ]. left. split; [reflexivity | intros b []].
  - unfold different in D. cbn [map] in D. inversion D as [ | ? ? Nb Nd]; subst.
    assert (Hother : forall b', In b' bs -> b_key b' <> b_key b).
    { intros b' Hb E. apply Nb. rewrite <- E. apply in_map. exact Hb. }
    assert (Htmp : forall b' b'', In b' (b :: bs) -> In b'' (b :: bs) -> b_tmp b' <> b_key b'').
    { intros b' b'' H1 H2 E. destruct (F b' (b_tmp b') H1 eq_refl) as [_ X]. exact (X b'' H2 (eq_sym E)). }
    set (s1 := run (fst (writeFile s b)) s) in *.
    assert (Keep : forall ops' a' m' r', releaseLoop s1 bs a' m' = (ops', r') ->
        node_of (run ops' s1) (b_key b) = node_of s1 (b_key b)).
    { intros ops' a' m' r' L. apply (loop_frame_all bs s1 a' m' ops' r' (b_key b) L). intros b' Hb.
      split; [apply Hother; exact Hb | apply Htmp; [right; exact Hb | left; reflexivity]]. }
    assert (Start : forall b', In b' bs -> node_of s1 (b_key b') = node_of s (b_key b')).
    { intros b' Hb. apply write_frame_all; [apply Hother; exact Hb | ]. apply not_eq_sym.
      apply Htmp; [left; reflexivity | right; exact Hb]. }
    assert (G : forall ops' a' m' (g : bool),
      ops = fst (writeFile s b) ++ ops' -> releaseLoop s1 bs a' m' = (ops', RDone all' main') ->
      (if g then okFile s s1 b else badFile s s1 b) ->
      a' = (all && g) -> m' = (if g && b_main b then Some (b_key b) else main) ->
      exists good : buffer -> bool,
        (forall b0, In b0 (b :: bs) -> if good b0 then okFile s (run ops s) b0 else badFile s (run ops s) b0)
        /\ all' = (all && forallb good (b :: bs))
        /\ (main' = main /\ (forall b0, In b0 (b :: bs) -> b_main b0 = true -> good b0 = false)
            \/ exists b0, In b0 (b :: bs) /\ b_main b0 = true /\ good b0 = true /\ main' = Some (b_key b0))).
    { intros ops' a' m' g -> L Hb Ea Em.
      destruct (IH s1 a' m' ops' all' main' (fresh_next s b bs F) Nd L) as [good [I1 [I2 I3]]].
      pose proof (Keep ops' _ _ _ L) as Kb.
      exists (fun x => if key_eq_dec (b_key x) (b_key b) then g else good x).
      assert (Same : forall b', In b' bs -> (if key_eq_dec (b_key b') (b_key b) then g else good b') = good b').
      { intros b' Hb'. destruct (key_eq_dec (b_key b') (b_key b)) as [E | _]; [contradiction (Hother b' Hb' E) | reflexivity]. }
      rewrite run_app. fold s1. split; [ | split].
      - intros b0 [<- | H0].
        + destruct (key_eq_dec (b_key b) (b_key b)) as [_ | N]; [ | contradiction N; reflexivity].
          destruct g.
          * apply (complete_ext s s s1); [reflexivity | symmetry; exact Kb | exact Hb].
          * destruct Hb as [B1 B2]. split; [ | exact B2]. unfold unchanged in *. rewrite Kb. exact B1.
        + rewrite (Same b0 H0). specialize (I1 b0 H0). destruct (good b0).
          * apply (complete_ext s1 s (run ops' s1)); [apply Start; exact H0 | reflexivity | exact I1].
          * destruct I1 as [B1 B2]. split; [ | exact B2]. unfold unchanged in *. rewrite B1. apply Start. exact H0.
      - cbn [forallb]. destruct (key_eq_dec (b_key b) (b_key b)) as [_ | N]; [ | contradiction N; reflexivity].
        rewrite I2, Ea, <- andb_assoc. f_equal. f_equal. apply eq_true_iff_eq. rewrite !forallb_forall.
        split; intros X x Hx; [rewrite (Same x Hx) | rewrite <- (Same x Hx)]; apply X; exact Hx.
      - destruct I3 as [[E1 E2] | [b0 [X1 [X2 [X3 X4]]]]].
        + rewrite Em in E1. destruct (g && b_main b) eqn:Eg.
          * right. apply andb_true_iff in Eg. destruct Eg as [-> Eg]. exists b. split; [left; reflexivity | ].
            split; [exact Eg | ]. split; [ | exact E1].
            destruct (key_eq_dec (b_key b) (b_key b)) as [_ | N]; [reflexivity | contradiction N; reflexivity].
          * left. split; [exact E1 | ]. intros b0 [<- | H0] M.
            -- rewrite M, andb_true_r in Eg. subst g.
               destruct (key_eq_dec (b_key b) (b_key b)) as [_ | N]; [reflexivity | contradiction N; reflexivity].
            -- rewrite (Same b0 H0). apply E2; assumption.
        + right. exists b0. split; [right; exact X1 | ]. split; [exact X2 | ]. split; [ | exact X4].
          rewrite (Same b0 X1). exact X3. }
    destruct (write_end s b) as [WO WE].
    destruct (loop_cons s b bs all main ops _ H) as [[_ [_ E]] | [[ops' [R [E L]]] | [ops' [R [E L]]]]].
    + discriminate E.
    + apply (G ops' false main false E L (WE R)); [rewrite andb_false_r; reflexivity | reflexivity].
    + apply (G ops' all _ true E L (WO R)); [rewrite andb_true_r; reflexivity | reflexivity].
Qed.

(** Temporary files do not remain. *)
Lemma loop_tmp : forall bs s all main ops r k,
  fresh_names s bs -> releaseLoop s bs all main = (ops, r) ->
  node_of s k = None -> (forall b, In b bs -> b_key b <> k) -> node_of (run ops s) k = None.
Proof.
  induction bs as [ | b bs IH]; intros s all main ops r k F L N K.
  - cbn in L. apply pair_equal_spec in L. destruct L as [<- _]. exact N.
  - assert (N1 : node_of (run (fst (writeFile s b)) s) k = None).
    { destruct (key_eq_dec k (b_tmp b)) as [-> | Ne].
      - apply write_tmp. exact N.
      - rewrite write_frame_all; [exact N | apply not_eq_sym; apply K; left; reflexivity | exact Ne]. }
    destruct (loop_cons s b bs all main ops r L) as [[_ [-> _]] | [[o' [_ [-> L']]] | [o' [_ [-> L']]]]];
      [exact N1 | | ]; rewrite run_app; apply (IH _ _ _ _ _ _ (fresh_next s b bs F) L' N1);
      intros y Hy; apply K; right; exact Hy.
Qed.
Lemma loop_other : forall bs s all main ops r k,
  fresh_names s bs -> releaseLoop s bs all main = (ops, r) ->
  (forall b, In b bs -> b_key b <> k) -> node_of (run ops s) k = node_of s k.
Proof.
  intros bs s all main ops r k F L K. destruct (in_dec key_eq_dec k (map b_tmp bs)) as [Ht | Ht].
  - apply in_map_iff in Ht. destruct Ht as [b [<- Hb]]. destruct (F b (b_tmp b) Hb eq_refl) as [N _].
    rewrite N. exact (loop_tmp bs s all main ops r _ F L N K).
  - apply (loop_frame_all bs s all main ops r k L). intros b Hb. split; [apply K; exact Hb | ].
    intros E. apply Ht. rewrite <- E. apply in_map. exact Hb.
Qed.

Lemma result_true : C93_result_claim true.
Proof.
  intros s bs ops all main F H D. specialize (D eq_refl).
  destruct (loop_result bs s true None ops all main F D H) as [good [I1 [I2 _]]].
  cbn [andb] in I2. split; [ | split; [ | split]].
  - intros b Hb. specialize (I1 b Hb). destruct (good b); [left; exact I1 | right; apply I1].
  - intros -> b Hb. symmetry in I2. rewrite forallb_forall in I2. specialize (I1 b Hb). rewrite (I2 b Hb) in I1. exact I1.
  - intros ->. assert (X : exists b, In b bs /\ good b = false).
    { clear - I2. induction bs as [ | b bs IH]; [discriminate I2 | ]. cbn [forallb] in I2. destruct (good b) eqn:E.
      - destruct IH as [b' [H1 H2]]; [exact I2 | ]. exists b'. split; [right; exact H1 | exact H2].
      - exists b. split; [left; reflexivity | exact E]. }
    destruct X as [b [Hb Eb]]. specialize (I1 b Hb). rewrite Eb in I1. destruct I1 as [J1 J2].
    exists b. split; [exact Hb | ]. split; assumption.
  - intros k Hk. exact (loop_other bs s true None ops _ k F H Hk).
Qed.

Lemma main_true : C93_main_claim true.
Proof.
  intros s bs ops all main k F H D. specialize (D eq_refl).
  destruct (loop_result bs s true None ops all main F D H) as [good [I1 [I2 I3]]].
  split.
  - intros ->. destruct I3 as [[E _] | [b [X1 [X2 [X3 X4]]]]]; [discriminate E | ].
    exists b. split; [exact X1 | ]. split; [exact X2 | ]. injection X4 as X4. split; [symmetry; exact X4 | ].
    specialize (I1 b X1). rewrite X3 in I1. exact I1.
  - intros -> b Hb M. destruct I3 as [[_ E] | [b' [_ [_ [_ E]]]]]; [ | discriminate E].
    pose proof (E b Hb M) as G. specialize (I1 b Hb). rewrite G in I1. split; [apply I1 | ].
    rewrite I2. cbn [andb]. destruct (forallb good bs) eqn:Ef; [ | reflexivity]. rewrite forallb_forall in Ef.
    rewrite (Ef b Hb) in G. discriminate G.
Qed.

(** No crash. *)
Lemma write_nofatal : forall s b, stored b -> a_open (b_env b) = true -> snd (writeFile s b) <> WFatal.
Proof.
  intros s b St O H. pose proof (io_stored b St) as Hio.
  destruct (write_cases s b) as [[_ [_ [_ R]]] | [[E _] | [[E _] | [E _]]]].
  - pose proof (R H) as X. rewrite O in X. discriminate X.
  - rewrite E in H. cbn [snd] in H. unfold streamEnd in H. rewrite Hio in H. discriminate H.
  - rewrite E in H. cbn [snd] in H. unfold streamEnd in H. rewrite Hio in H. discriminate H.
  - rewrite E in H. cbn [snd] in H. unfold streamEnd in H. rewrite Hio in H. discriminate H.
Qed.
Lemma nofatal_true : C93_nofatal_claim true.
Proof.
  intros s bs St O. specialize (O eq_refl).
  assert (G : forall l s0 a m, (forall b, In b l -> In b bs) -> snd (releaseLoop s0 l a m) <> RFatal).
  { induction l as [ | b l IH]; intros s0 a m Hl; [discriminate | ].
    destruct (releaseLoop s0 (b :: l) a m) as [o r] eqn:L. cbn [snd]. intros ->.
    assert (Hl' : forall b0, In b0 l -> In b0 bs) by (intros b0 H0; apply Hl; right; exact H0).
    pose proof (Hl b (or_introl eq_refl)) as Hb.
    destruct (loop_cons s0 b l a m o _ L) as [[E _] | [[o' [_ [_ L']]] | [o' [_ [_ L']]]]].
    - exact (write_nofatal s0 b (St b Hb) (O b Hb) E).
    - exact (IH (run (fst (writeFile s0 b)) s0) false m Hl' (f_equal snd L')).
    - exact (IH (run (fst (writeFile s0 b)) s0) a (if b_main b then Some (b_key b) else m) Hl' (f_equal snd L')). }
  apply G. intros b Hb. exact Hb.
Qed.

Lemma works_true : C93_works_claim.
Proof.
  intros s bs H. unfold release. generalize (@None key). revert s.
  induction bs as [ | b bs IH]; intros s m; [exists m; reflexivity | ].
  destruct (releaseLoop s (b :: bs) true m) as [o r] eqn:L. cbn [snd].
  destruct (H b (or_introl eq_refl)) as [St [C [O R]]].
  destruct (loop_cons s b bs true m o r L) as [[E _] | [[o' [E [_ L']]] | [o' [_ [_ L']]]]].
  - contradiction (write_nofatal s b St O E).
  - destruct (proj2 (write_end s b) E) as [_ X]. rewrite C, O, R in X. destruct X as [X | [X | X]]; discriminate X.
  - destruct (IH (fun b' H' => H b' (or_intror H')) (run (fst (writeFile s b)) s) (if b_main b then Some (b_key b) else m)) as [main Em].
    rewrite L' in Em. exists main. exact Em.
Qed.

Lemma signal_true : C93_signal_claim true.
Proof.
  intros s bs ops r n b k F H Hn Hb Hk. specialize (Hn eq_refl). rewrite firstn_all2 by exact Hn.
  destruct (F b k Hb Hk) as [N K]. pose proof (loop_tmp bs s true None ops r k F H N K) as X.
  unfold signalled. cbn [node_of]. rewrite X. destruct (reg_of (run ops s) k); reflexivity.
Qed.

Lemma transaction_true : C93_transaction_claim true.
Proof.
  intros s bs ops r n F H Hg D L. specialize (L eq_refl).
  destruct bs as [ | b [ | b' bs]]; [left; intros b [] | | cbn in L; lia].
  destruct (Hg b (or_introl eq_refl)) as [U St].
  assert (E : ops = fst (writeFile s b)).
  { destruct (loop_cons s b [] true None ops r H) as [[_ [E _]] | [[o' [_ [E L']]] | [o' [_ [E L']]]]]; [exact E | | ];
      cbn in L'; apply pair_equal_spec in L'; destruct L' as [<- _]; rewrite app_nil_r in E; exact E. }
  rewrite E. destruct (write_prefix s b n U St) as [X | X].
  - left. intros b0 [<- | []]. exact X.
  - right. intros b0 [<- | []]. left. exact X.
Qed.

(** * Refutations *)
Definition kf (n : nat) : key := (0, Base n).
(* files 1 and 2 exist, they contain 7 *)
Definition sf : fsys := FS (fun k => if key_eq_dec k (kf 1) then Some (Reg [7; 7]) else
                                     if key_eq_dec k (kf 2) then Some (Reg [7]) else None) [] (fun _ => false).
Definition eGood : aenv := AEnv true true true true 5.
Definition eDirect : aenv := AEnv true false true true 5.
Definition eClosed : aenv := AEnv true false false true 5.
Definition eNoRename : aenv := AEnv true true true false 5.
Definition eLocked : aenv := AEnv false true true true 5.
Definition bf (n : nat) (e : aenv) (cs : list (list nat * bool)) (m : bool) : buffer := Buffer (kf n) cs e m.

Lemma sf_fresh : forall bs, (forall b, In b bs -> exists n, b_key b = kf n) -> fresh_names sf bs.
Proof.
  intros bs H b k Hb Hk. destruct (H b Hb) as [n E]. unfold temp_of in Hk. rewrite E in Hk. subst k. split.
  - reflexivity.
  - intros b' Hb' E'. destruct (H b' Hb') as [n' Ek]. rewrite Ek in E'. discriminate E'.
Qed.
Lemma one_fresh : forall n e cs m, fresh_names sf [bf n e cs m].
Proof. intros. apply sf_fresh. intros b [<- | []]. exists n. reflexivity. Qed.
Lemma two_fresh : forall n e cs m n' e' cs' m', fresh_names sf [bf n e cs m; bf n' e' cs' m'].
Proof. intros. apply sf_fresh. intros b [<- | [<- | []]]; [exists n | exists n']; reflexivity. Qed.
Lemma base_not_temp : forall b n, ~ temp_of b (kf n).
Proof. intros b n E. discriminate E. Qed.

Lemma atomic_direct : ~ C93_atomic_claim false true.
Proof.
  intros C. set (b := bf 1 eDirect [([8; 8; 8], true)] true).
  destruct (C sf [b] _ _ 1 (kf 1) (one_fresh 1 eDirect [([8; 8; 8], true)] true) eq_refl) as [X | [b' [[<- | []] [_ X]]]].
  - discriminate.
  - intros _ b0 [<- | []] c [<- | []]. reflexivity.
  - intros b0 _. apply base_not_temp.
  - discriminate X.
  - discriminate X.
Qed.
(** A disk is full: an incomplete file is moved. *)
Lemma atomic_full : ~ C93_atomic_claim true false.
Proof.
  intros C. set (b := bf 1 eGood [([8; 8], true); ([9], false)] true).
  destruct (C sf [b] _ _ 3 (kf 1) (one_fresh 1 eGood [([8; 8], true); ([9], false)] true) eq_refl) as [X | [b' [[<- | []] [_ X]]]].
  - intros _ b0 [<- | []]. reflexivity.
  - discriminate.
  - intros b0 _. apply base_not_temp.
  - discriminate X.
  - discriminate X.
Qed.
Lemma result_same : ~ C93_result_claim false.
Proof.
  intros C. set (l := [bf 1 eGood [([8], true)] true; bf 1 eGood [([9], true)] false]).
  destruct (C sf l _ _ _ (two_fresh 1 eGood [([8], true)] true 1 eGood [([9], true)] false) eq_refl) as [_ [X _]]; [discriminate | ].
  specialize (X eq_refl _ (or_introl eq_refl)). destruct X as [X | [X _]]; discriminate X.
Qed.
Lemma main_same : ~ C93_main_claim false.
Proof.
  intros C. set (l := [bf 1 eGood [([8], true)] true; bf 1 eGood [([9], true)] false]).
  destruct (C sf l _ _ _ (kf 1) (two_fresh 1 eGood [([8], true)] true 1 eGood [([9], true)] false) eq_refl) as [X _]; [discriminate | ].
  destruct (X eq_refl) as [b [[<- | [<- | []]] [M [_ Y]]]].
  - destruct Y as [Y | [Y _]]; discriminate Y.
  - discriminate M.
Qed.
Lemma nofatal_closed : ~ C93_nofatal_claim false.
Proof.
  intros C. apply (C sf [bf 1 eClosed [([8], true)] true]); [ | discriminate | reflexivity].
  intros b [<- | []] c [<- | []]. reflexivity.
Qed.
Lemma signal_left : ~ C93_signal_claim false.
Proof.
  intros C. set (b := bf 1 eGood [([8], true)] true).
  pose proof (C sf [b] _ _ 1 b (0, TmpOf (Base 1) 5) (one_fresh 1 eGood [([8], true)] true) eq_refl ltac:(discriminate)
    (or_introl eq_refl) eq_refl) as X. discriminate X.
Qed.
Lemma transaction_two : ~ C93_transaction_claim false.
Proof.
  intros C. set (l := [bf 1 eGood [([8], true)] true; bf 2 eGood [([9], true)] false]).
  destruct (C sf l _ _ 3 (two_fresh 1 eGood [([8], true)] true 2 eGood [([9], true)] false) eq_refl) as [X | X].
  - intros b [<- | [<- | []]]; (split; [reflexivity | ]); intros c [<- | []]; reflexivity.
  - repeat constructor; cbn; intros H; repeat (destruct H as [H | H]); try discriminate H; exact H.
  - discriminate.
  - specialize (X _ (or_introl eq_refl)). discriminate X.
  - specialize (X _ (or_intror (or_introl eq_refl))). destruct X as [X | [X _]]; discriminate X.
Qed.
