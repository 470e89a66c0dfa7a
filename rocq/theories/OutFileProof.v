(** Proofs for C90. *)
From Coq Require Import PeanoNat Bool List Lia.
From Verif Require Import OutFileModel OutFileSpec.
Import ListNotations.

(** * Files and operations *)

Lemma upd_same : forall A (f : key -> A) k v, upd f k v k = v.
Proof. intros. unfold upd. destruct (key_eq_dec k k); [reflexivity | contradiction]. Qed.
Lemma upd_other : forall A (f : key -> A) k v x, x <> k -> upd f k v x = f x.
Proof. intros. unfold upd. destruct (key_eq_dec x k); [contradiction | reflexivity]. Qed.

(** Files which an operation can change. *)
Definition touches (o : op) (k : key) : Prop :=
  match o with
  | ONew a | OOpen a | OApp a _ | ORm a => k = a
  | ORen a b => k = a \/ k = b
  | _ => False
  end.

Lemma exec_frame : forall o s k, ~ touches o k -> node_of (exec s o) k = node_of s k.
Proof.
  intros o s k H. destruct o; cbn [touches exec] in *.
  - cbn [node_of]. apply upd_other. exact H.
  - destruct (node_of s k0) as [[? | ] | ]; cbn [node_of]; try reflexivity; apply upd_other; exact H.
  - destruct (node_of s k0) as [[? | ] | ]; cbn [node_of]; try reflexivity; apply upd_other; exact H.
  - destruct (node_of s k0) as [[? | ] | ]; cbn [node_of]; try reflexivity; apply upd_other; exact H.
  - destruct (node_of s a) as [f | ]; cbn [node_of]; [ | reflexivity].
    rewrite upd_other by tauto. apply upd_other. tauto.
  - reflexivity.
  - reflexivity.
  - reflexivity.
Qed.

Lemma run_frame : forall ops s k, (forall o, In o ops -> ~ touches o k) ->
  node_of (run ops s) k = node_of s k.
Proof.
  unfold run. induction ops as [ | o ops IH]; intros s k H; [reflexivity | ].
  cbn [fold_left]. rewrite IH by (intros; apply H; right; assumption).
  apply exec_frame. apply H. left. reflexivity.
Qed.

Lemma run_app : forall a b s, run (a ++ b) s = run b (run a s).
Proof. intros. unfold run. apply fold_left_app. Qed.
Lemma run_cons : forall o b s, run (o :: b) s = run b (exec s o).
Proof. reflexivity. Qed.

Lemma prefix_app : forall {A} (n : nat) (a b : list A),
  (n <= length a /\ firstn n (a ++ b) = firstn n a)
  \/ (length a < n /\ exists m, m > 0 /\ firstn n (a ++ b) = a ++ firstn m b).
Proof.
  intros A n a b. rewrite firstn_app. destruct (Nat.le_gt_cases n (length a)) as [H | H].
  - left. split; [exact H | ]. replace (n - length a) with 0 by lia.
    cbn [firstn]. apply app_nil_r.
  - right. split; [exact H | ]. exists (n - length a). split; [lia | ].
    rewrite firstn_all2 by lia. reflexivity.
Qed.

Lemma in_firstn : forall {A} n (l : list A) x, In x (firstn n l) -> In x l.
Proof.
  intros A n l x H. rewrite <- (firstn_skipn n l). apply in_or_app. left. exact H.
Qed.

(** ** Registration *)
Lemma run_reg : forall ops s k, (forall o, In o ops -> o <> OReg k /\ o <> OUnreg k) ->
  reg_of (run ops s) k = reg_of s k.
Proof.
  unfold run. induction ops as [ | o ops IH]; intros s k H; [reflexivity | ].
  cbn [fold_left]. rewrite IH by (intros; apply H; right; assumption).
  destruct (H o (or_introl eq_refl)) as [H1 H2].
  destruct o; cbn [exec].
  - reflexivity.
  - destruct (node_of s k0) as [[? | ] | ]; reflexivity.
  - destruct (node_of s k0) as [[? | ] | ]; reflexivity.
  - destruct (node_of s k0) as [[? | ] | ]; reflexivity.
  - destruct (node_of s a) as [f | ]; reflexivity.
  - reflexivity.
  - cbn [reg_of]. apply upd_other. intros E. apply H1. rewrite E. reflexivity.
  - cbn [reg_of]. apply upd_other. intros E. apply H2. rewrite E. reflexivity.
Qed.

Lemma sig_unreg : forall s k, reg_of s k = false -> node_of (signalled s) k = node_of s k.
Proof. intros s k H. unfold signalled. cbn [node_of]. rewrite H. reflexivity. Qed.
Lemma sig_reg : forall s k, reg_of s k = true -> node_of s k <> Some Special ->
  node_of (signalled s) k = None.
Proof.
  intros s k H N. unfold signalled. cbn [node_of]. rewrite H.
  destruct (node_of s k) as [[c | ] | ]; [reflexivity | contradiction N; reflexivity | reflexivity].
Qed.
Lemma sig_none : forall s k, node_of s k = None -> node_of (signalled s) k = None.
Proof. intros s k H. unfold signalled. cbn [node_of]. rewrite H. destruct (reg_of s k); reflexivity. Qed.

(** ** Writing *)
Lemma write_touch : forall t cs o k, In o (write_ops t cs) -> touches o k ->
  t = TFile k.
Proof.
  intros t cs o k H T. unfold write_ops in H. apply in_flat_map in H. destruct H as [c [_ H]].
  destruct (snd c); [ | destruct H]. destruct H as [H | []]. subst o.
  destruct t; cbn [write_op touches] in T; [destruct T | ]. subst k. reflexivity.
Qed.
Lemma write_noreg : forall t cs o k, In o (write_ops t cs) -> o <> OReg k /\ o <> OUnreg k.
Proof.
  intros t cs o k H. unfold write_ops in H. apply in_flat_map in H. destruct H as [c [_ H]].
  destruct (snd c); [ | destruct H]. destruct H as [H | []]. subst o.
  destruct t; cbn [write_op]; split; discriminate.
Qed.

Definition written (cs : list (list nat * bool)) : list nat := concat (map fst (filter snd cs)).

Lemma write_cons : forall t c cs, write_ops t (c :: cs)
  = (if snd c then [write_op t (fst c)] else []) ++ write_ops t cs.
Proof. reflexivity. Qed.

Lemma write_run : forall k cs s d, node_of s k = Some (Reg d) ->
  node_of (run (write_ops (TFile k) cs) s) k = Some (Reg (d ++ written cs)).
Proof.
  intros k. induction cs as [ | [c b] cs IH]; intros s d H.
  - cbn. rewrite app_nil_r. exact H.
  - rewrite write_cons. unfold written. cbn [snd fst filter]. destruct b.
    + cbn [map concat fst app]. rewrite run_cons. cbn [write_op exec]. rewrite H.
      rewrite IH with (d := d ++ c).
      * unfold written. rewrite app_assoc. reflexivity.
      * cbn [node_of]. apply upd_same.
    + cbn [app]. apply IH. exact H.
Qed.
Lemma write_special : forall k cs s, node_of s k = Some Special ->
  node_of (run (write_ops (TFile k) cs) s) k = Some Special.
Proof.
  intros k. induction cs as [ | [c b] cs IH]; intros s H; [exact H | ].
  rewrite write_cons. cbn [snd fst]. destruct b; cbn [app].
  - rewrite run_cons. cbn [write_op exec]. rewrite H. apply IH. exact H.
  - apply IH. exact H.
Qed.
(** Each prefix keeps a regular file. *)
Lemma write_reg : forall k n cs s d, node_of s k = Some (Reg d) ->
  exists d', node_of (run (firstn n (write_ops (TFile k) cs)) s) k = Some (Reg d').
Proof.
  intros k n cs s d H. revert n s d H. induction cs as [ | [c b] cs IH]; intros n s d H.
  - cbn. rewrite firstn_nil. exists d. exact H.
  - rewrite write_cons. cbn [snd fst]. destruct b; cbn [app].
    + destruct n as [ | n]; [exists d; exact H | ]. cbn [firstn]. rewrite run_cons.
      cbn [write_op exec]. rewrite H. apply (IH n _ (d ++ c)). cbn [node_of]. apply upd_same.
    + apply (IH n s d H).
Qed.
Lemma io_ok : forall cs, io_error cs = false ->
  written cs = whole cs /\ forall c, In c cs -> snd c = true.
Proof.
  unfold io_error, written, whole. induction cs as [ | [c b] cs IH]; intros H.
  - split; [reflexivity | ]. intros c [].
  - cbn [existsb snd] in H. apply orb_false_iff in H. destruct H as [H1 H2].
    apply negb_false_iff in H1. subst b. destruct (IH H2) as [E1 E2].
    cbn [filter snd map fst concat]. split; [rewrite E1; reflexivity | ].
    intros c' [<- | Hc]; [reflexivity | ]. apply E2. exact Hc.
Qed.

(** * Temporary names *)
Lemma tmp_neq : forall n r, TmpOf n r <> n.
Proof. induction n as [m | n IH m]; intros r E; [discriminate | ]. injection E as E1 E2. exact (IH _ E1). Qed.
Lemma temp_key_neq : forall e k d, (d, snd k) <> temp_key e k.
Proof. intros e k d E. unfold temp_key in E. injection E as _ E. exact (tmp_neq _ _ (eq_sym E)). Qed.

Lemma temporary_file : forall e p k, temporary e p k <->
  exists k0, file_at (e_cwd e) p = Some k0 /\ k = temp_key e k0.
Proof.
  intros e p k. unfold temporary, file_at, temp_key. destruct p as [ | d n | n].
  - split; [intros [] | intros [k0 [E _]]; discriminate E].
  - split; [intros ->; eexists; split; reflexivity | intros [k0 [E ->]]; injection E as <-; reflexivity].
  - split; [intros ->; eexists; split; reflexivity | intros [k0 [E ->]]; injection E as <-; reflexivity].
Qed.
Lemma meant_file : forall e wd p k, meant (e_cwd e) wd p k <-> new_out e wd p = Some k.
Proof.
  intros e wd p k. unfold meant, new_out, file_at. destruct p as [ | d n | n]; destruct wd as [w | ];
    split; intros H; try discriminate H; try (destruct H; fail);
    try (rewrite H; reflexivity); try (injection H as <-; reflexivity).
Qed.
Lemma new_out_name : forall e wd p k k0, new_out e wd p = Some k -> file_at (e_cwd e) p = Some k0 ->
  exists d, k = (d, snd k0).
Proof.
  intros e wd p k k0 H H0. unfold new_out, file_at in *. destruct p as [ | d n | n]; destruct wd as [w | ];
    try discriminate; injection H as <-; injection H0 as <-; eexists; reflexivity.
Qed.
Lemma new_out_dst : forall e wd p k k0, new_out e wd p = Some k -> file_at (e_cwd e) p = Some k0 ->
  k <> temp_key e k0.
Proof.
  intros e wd p k k0 H H0. destruct (new_out_name _ _ _ _ _ H H0) as [d ->]. apply temp_key_neq.
Qed.
Lemma new_out_some : forall e wd p k0, file_at (e_cwd e) p = Some k0 -> exists k, new_out e wd p = Some k.
Proof.
  intros e wd p k0 H. unfold new_out, file_at in *. destruct p; destruct wd; try discriminate; eexists; reflexivity.
Qed.
Lemma file_neq_temp : forall e k, k <> temp_key e k.
Proof. intros e [d n]. apply (temp_key_neq e (d, n) d). Qed.

(** * Cases of creation *)
Definition tempf (e : env) (p : path) (k : key) : list op * created :=
  ([ONew (temp_key e k); OReg (temp_key e k)],
   COk (OutFile (Some p) (Some (temp_key e k)) (TFile (temp_key e k)))).

Lemma create_cases : forall e s p rmsig useTmp mkd,
  let c := create e s p rmsig useTmp mkd in
  c = ([], CErr)
  \/ (c = ([], CAssert) /\ mkd = true /\ useTmp = false)
  \/ (p = Dash /\ c = ([], COk (OutFile None None TStdout)))
  \/ (exists k, file_at (e_cwd e) p = Some k /\ c = tempf e p k)
  \/ (exists k, file_at (e_cwd e) p = Some k /\ c = ([OOpen k], COk (OutFile (Some p) None (TFile k)))).
Proof.
  intros e s p rmsig useTmp mkd c. unfold c, create. clear c.
  destruct (mkd && negb useTmp) eqn:Em.
  { right. left. apply andb_true_iff in Em. destruct Em as [E1 E2]. apply negb_true_iff in E2.
    split; [reflexivity | ]. split; assumption. }
  destruct (try_temp e s p useTmp) as [t | ]; [ | left; reflexivity].
  destruct (file_at (e_cwd e) p) as [k | ] eqn:Ef.
  - destruct (t && temp_ok e mkd).
    + right. right. right. left. exists k. split; reflexivity.
    + destruct (e_open e); [ | left; reflexivity].
      right. right. right. right. exists k. split; reflexivity.
  - destruct (e_open e); [ | left; reflexivity].
    right. right. left. split; [ | reflexivity].
    destruct p; [reflexivity | discriminate Ef | discriminate Ef].
Qed.

Lemma create_temp : forall e s p rmsig useTmp mkd k,
  temp_used e s p useTmp mkd -> file_at (e_cwd e) p = Some k ->
  create e s p rmsig useTmp mkd = tempf e p k.
Proof.
  intros e s p rmsig useTmp mkd k [Hu [Hw [Ht Hs]]] Hk. subst useTmp.
  assert (Ho : temp_ok e mkd = true).
  { unfold temp_ok. destruct Ht as [-> | [-> [-> [-> -> ]]]]; reflexivity. }
  assert (Hn : node_of s k <> Some Special).
  { apply Hs. apply meant_file. exact Hk. }
  unfold create. cbn [negb]. rewrite andb_false_r. unfold try_temp. rewrite Hk, Hw.
  destruct p as [ | d n | n]; [discriminate Hk | | ].
  - destruct (node_of s k) as [[c | ] | ]; [ | contradiction Hn; reflexivity | ]; rewrite Ho; reflexivity.
  - destruct (node_of s k) as [[c | ] | ]; [ | contradiction Hn; reflexivity | ]; rewrite Ho; reflexivity.
Qed.

(** * The state before [clear] when a temporary file is used *)
Definition pre (t : key) (cs : list (list nat * bool)) : list op :=
  [ONew t; OReg t] ++ write_ops (TFile t) cs.

Lemma pre_touch : forall t cs o k, In o (pre t cs) -> touches o k -> k = t.
Proof.
  intros t cs o k H T. unfold pre in H. apply in_app_or in H. destruct H as [[<- | [<- | []]] | H].
  - exact T.
  - destruct T.
  - pose proof (write_touch _ _ _ _ H T) as E. injection E as ->. reflexivity.
Qed.
Lemma pre_frame : forall t cs n s k, k <> t -> node_of (run (firstn n (pre t cs)) s) k = node_of s k.
Proof.
  intros t cs n s k H. apply run_frame. intros o Ho T. apply H.
  exact (pre_touch t cs o k (in_firstn n _ _ Ho) T).
Qed.
Lemma pre_frame_all : forall t cs s k, k <> t -> node_of (run (pre t cs) s) k = node_of s k.
Proof.
  intros t cs s k H. apply run_frame. intros o Ho T. apply H. exact (pre_touch t cs o k Ho T).
Qed.
Lemma pre_node : forall t cs s, node_of (run (pre t cs) s) t = Some (Reg (written cs)).
Proof.
  intros t cs s. unfold pre. rewrite run_app. rewrite (write_run t cs _ []); [reflexivity | ].
  cbn. apply upd_same.
Qed.
Lemma pre_reg : forall t cs s, reg_of (run (pre t cs) s) t = true.
Proof.
  intros t cs s. unfold pre. rewrite run_app. rewrite run_reg by (intros; eapply write_noreg; eassumption).
  cbn. apply upd_same.
Qed.
Lemma pre_noreg : forall t cs n s k, k <> t -> reg_of (run (firstn n (pre t cs)) s) k = reg_of s k.
Proof.
  intros t cs n s k H. apply run_reg. intros o Ho. apply in_firstn in Ho. unfold pre in Ho.
  apply in_app_or in Ho. destruct Ho as [[<- | [<- | []]] | Ho].
  - split; discriminate.
  - split; [intros E; injection E as E; apply H; symmetry; exact E | discriminate].
  - exact (write_noreg _ _ _ _ Ho).
Qed.

Lemma rm_gone : forall s t, node_of s t <> Some Special -> node_of (exec s (ORm t)) t = None.
Proof.
  intros s t H. cbn [exec]. destruct (node_of s t) as [[c | ] | ] eqn:E.
  - cbn [node_of]. apply upd_same.
  - contradiction H; reflexivity.
  - exact E.
Qed.
Lemma unreg_node : forall s t k, node_of (exec s (OUnreg t)) k = node_of s k.
Proof. reflexivity. Qed.
Lemma rm_other : forall s t k, k <> t -> node_of (exec s (ORm t)) k = node_of s k.
Proof. intros s t k H. apply exec_frame. exact H. Qed.
Lemma rename_effect : forall s t dst f, node_of s t = Some f -> dst <> t ->
  node_of (exec s (ORen t dst)) t = None /\ node_of (exec s (ORen t dst)) dst = Some f.
Proof.
  intros s t dst f H N. cbn [exec]. rewrite H. cbn [node_of]. split; [apply upd_same | ].
  rewrite upd_other by exact N. apply upd_same.
Qed.

(** Operations of a session with a temporary file. *)
Lemma session_temp : forall e s p rmsig useTmp mkd cs fin k,
  create e s p rmsig useTmp mkd = tempf e p k ->
  session e s p rmsig useTmp mkd cs fin =
    if io_error cs then (pre (temp_key e k) cs, Fatal)
    else
      let f := OutFile (Some p) (Some (temp_key e k)) (TFile (temp_key e k)) in
      match fin with
      | [] => let (o2, r) := clear e f (bytes cs) None true in (pre (temp_key e k) cs ++ o2, r)
      | (wd, er) :: rest =>
          let (o2, r) := clear e f (bytes cs) wd er in
          (pre (temp_key e k) cs ++ o2, match rest with [] => r | _ => AssertFail end)
      end.
Proof. intros e s p rmsig useTmp mkd cs fin k E. unfold session. rewrite E. reflexivity. Qed.

Lemma clear_keep : forall e p t os wd dst c, new_out e wd p = Some dst ->
  clear e (OutFile (Some p) (Some t) os) c wd false
  = let (ops, ok) := keep_ops e t dst c in if ok then (ops, Done) else (ops ++ [ORm t], ClearErr).
Proof. intros e p t os wd dst c H. unfold clear. cbn [o_temp o_name]. rewrite H. reflexivity. Qed.
Lemma clear_erase : forall e p k ot os wd c, file_at (e_cwd e) p = Some k ->
  clear e (OutFile (Some p) ot os) c wd true
  = ((match ot with Some t => discard_ops t | None => [] end) ++ [ORm k], Done).
Proof. intros e p k ot os wd c H. unfold clear. cbn [o_temp o_name]. rewrite H. reflexivity. Qed.

Lemma keep_case : forall e, no_copy e -> e_keep e = KRename \/ exists b, e_keep e = KFail b.
Proof.
  intros e H. destruct (e_keep e) as [ | n ok l | b] eqn:E; [left; reflexivity | | right; exists b; reflexivity].
  contradiction (H n ok l).
Qed.

(** * Atomic update *)
Lemma session_dash : forall e s rmsig useTmp mkd cs fin,
  fst (session e s Dash rmsig useTmp mkd cs fin) = []
  \/ fst (session e s Dash rmsig useTmp mkd cs fin) = write_ops TStdout cs.
Proof.
  intros e s rmsig useTmp mkd cs fin. unfold session.
  destruct (create_cases e s Dash rmsig useTmp mkd) as [-> | [[-> _] | [[_ ->] | [[k [E _]] | [k [E _]]]]]];
    try discriminate E; cbn [fst]; try (left; reflexivity).
  right. destruct (io_error cs); [reflexivity | ]. destruct fin as [ | [wd er] rest].
  - cbn [clear o_temp o_name app fst]. rewrite app_nil_r. reflexivity.
  - destruct er; cbn [clear o_temp o_name app fst]; rewrite app_nil_r; reflexivity.
Qed.

Lemma touch_dash : forall e s rmsig useTmp mkd cs fin n k,
  node_of (run (firstn n (fst (session e s Dash rmsig useTmp mkd cs fin))) s) k = node_of s k.
Proof.
  intros. apply run_frame. intros o Ho T. apply in_firstn in Ho.
  destruct (session_dash e s rmsig useTmp mkd cs fin) as [E | E]; rewrite E in Ho; [destruct Ho | ].
  pose proof (write_touch _ _ _ _ Ho T). discriminate.
Qed.

(** Prefixes of operations when a temporary file is kept. *)
Lemma keep_prefix : forall e p k0 wd dst cs n s k,
  no_copy e -> file_at (e_cwd e) p = Some k0 -> new_out e wd p = Some dst ->
  io_error cs = false -> k <> temp_key e k0 ->
  old_or_new e s p wd cs
    (run (firstn n (fst (clear e (OutFile (Some p) (Some (temp_key e k0)) (TFile (temp_key e k0)))
       (bytes cs) wd false))) (run (pre (temp_key e k0) cs) s)) k.
Proof.
  intros e p k0 wd dst cs n s k Hc H0 Hd Hio Hk.
  set (t := temp_key e k0) in *. set (s1 := run (pre t cs) s).
  assert (Hdt : dst <> t) by exact (new_out_dst _ _ _ _ _ Hd H0).
  assert (H1 : node_of s1 k = node_of s k) by (apply pre_frame_all; exact Hk).
  rewrite (clear_keep _ _ _ _ _ dst) by exact Hd. unfold keep_ops.
  destruct (keep_case e Hc) as [E | [b E]]; rewrite E.
  - cbn [fst]. destruct n as [ | n]; [left; exact H1 | ].
    cbn [firstn]. rewrite run_cons.
    assert (Hr : forall x, node_of (run (firstn n [OUnreg t]) x) k = node_of x k).
    { intros x. apply run_frame. intros o Ho T. apply in_firstn in Ho. destruct Ho as [<- | []]. destruct T. }
    unfold old_or_new. rewrite Hr. destruct (io_ok cs Hio) as [Ew Ea].
    destruct (key_eq_dec k dst) as [-> | Hn].
    + right. split; [apply meant_file; exact Hd | ]. split; [ | exact Ea].
      destruct (rename_effect s1 t dst (Reg (written cs)) (pre_node t cs s) Hdt) as [_ E2].
      rewrite E2, Ew. reflexivity.
    + left. rewrite exec_frame; [exact H1 | ]. cbn [touches]. tauto.
  - left. rewrite run_frame; [exact H1 | ]. intros o Ho T. apply in_firstn in Ho.
    destruct b; cbn in Ho; repeat (destruct Ho as [<- | Ho]); cbn [touches] in T; try (destruct Ho; fail); try contradiction.
Qed.

Lemma atomic_true : C90_atomic_claim true true true.
Proof.
  intros e s p rmsig useTmp mkd cs fin ops r n k wd Hf Hs Ht Hc [rest ->] Hk.
  specialize (Ht eq_refl). specialize (Hc eq_refl).
  destruct (file_at (e_cwd e) p) as [k0 | ] eqn:H0.
  - assert (Hkt : k <> temp_key e k0).
    { intros E. apply Hk. apply temporary_file. exists k0. split; [exact H0 | exact E]. }
    rewrite (session_temp _ _ _ _ _ _ _ _ _ (create_temp _ _ _ _ _ _ _ Ht H0)) in Hs.
    destruct (io_error cs) eqn:Hio.
    + injection Hs as <- _. left. apply pre_frame. exact Hkt.
    + destruct (new_out_some e wd p k0 H0) as [dst Hd].
      cbv zeta in Hs.
      pose proof (fun m => keep_prefix e p k0 wd dst cs m s k Hc H0 Hd Hio Hkt) as K.
      destruct (clear e _ (bytes cs) wd false) as [o2 r2]. apply (f_equal fst) in Hs. cbn [fst] in Hs, K. rewrite <- Hs.
      destruct (prefix_app n (pre (temp_key e k0) cs) o2) as [[_ E] | [_ [m [_ E]]]]; rewrite E.
      * left. apply pre_frame. exact Hkt.
      * rewrite run_app. apply K.
  - left. destruct p; try discriminate H0.
    pose proof (touch_dash e s rmsig useTmp mkd cs ((wd, false) :: rest) n k) as T.
    rewrite Hs in T. exact T.
Qed.

(** * The standard output *)
Lemma out_writes : forall cs s, out_of (run (write_ops TStdout cs) s) = out_of s ++ written cs.
Proof.
  induction cs as [ | [c b] cs IH]; intros s.
  - cbn. rewrite app_nil_r. reflexivity.
  - rewrite write_cons. unfold written. cbn [snd fst filter]. destruct b; cbn [app].
    + rewrite run_cons, IH. cbn [write_op exec out_of map concat fst]. rewrite app_assoc. reflexivity.
    + apply IH.
Qed.
Lemma out_prefix : forall cs s n, exists d r,
  out_of (run (firstn n (write_ops TStdout cs)) s) = out_of s ++ d /\ written cs = d ++ r.
Proof.
  induction cs as [ | [c b] cs IH]; intros s n.
  - exists [], []. cbn. rewrite firstn_nil. cbn. rewrite app_nil_r. split; reflexivity.
  - rewrite write_cons. unfold written. cbn [snd fst filter]. destruct b; cbn [app].
    + destruct n as [ | n].
      * exists [], (written ((c, true) :: cs)). cbn [firstn]. cbn [run fold_left].
        rewrite app_nil_r. split; reflexivity.
      * cbn [firstn]. rewrite run_cons. destruct (IH (exec s (write_op TStdout c)) n) as [d [r [E1 E2]]].
        exists (c ++ d), r. rewrite E1. cbn [write_op exec out_of map concat fst].
        unfold written in E2. rewrite E2, !app_assoc. split; reflexivity.
    + apply IH.
Qed.
Lemma stdout_true : C90_stdout_claim.
Proof.
  intros e s rmsig useTmp mkd cs fin ops r n Hs. split.
  - intros k. pose proof (touch_dash e s rmsig useTmp mkd cs fin n k) as T. rewrite Hs in T. exact T.
  - pose proof (session_dash e s rmsig useTmp mkd cs fin) as D. rewrite Hs in D. cbn [fst] in D.
    assert (P : exists d r0, out_of (run (firstn n ops) s) = out_of s ++ d /\ written cs = d ++ r0).
    { destruct D as [-> | ->].
      - exists [], (written cs). rewrite firstn_nil. cbn [run fold_left]. rewrite app_nil_r. split; reflexivity.
      - apply out_prefix. }
    destruct P as [d [r0 [P1 P2]]]. exists d, r0. split; [exact P1 | ]. split; [exact P2 | ].
    intros ->. unfold session in Hs.
    destruct (create_cases e s Dash rmsig useTmp mkd) as [E | [[E _] | [[_ E] | [[k [E _]] | [k [E _]]]]]];
      try discriminate E; rewrite E in Hs; try discriminate Hs.
    cbn [o_os] in Hs. destruct (io_error cs) eqn:Hio; [discriminate Hs | ].
    destruct (io_ok cs Hio) as [Ew _].
    assert (Ho : ops = write_ops TStdout cs).
    { destruct fin as [ | [wd er] rest].
      - cbn in Hs. injection Hs as <-. rewrite app_nil_r. reflexivity.
      - destruct er; cbn in Hs; injection Hs as <- _; rewrite app_nil_r; reflexivity. }
    rewrite Ho, out_writes, Ew. reflexivity.
Qed.

(** * Errors and assertions *)
Lemma create_error_true : C90_create_error_claim.
Proof.
  intros e s p rmsig useTmp mkd cs fin ops Hs. unfold session in Hs.
  assert (Cl : forall f c wd er, snd (clear e f c wd er) <> CreateErr).
  { intros f c wd er. unfold clear. destruct er; [discriminate | ].
    destruct (o_temp f) as [t | ]; [ | discriminate]. destruct (o_name f) as [q | ]; [ | discriminate].
    destruct (new_out e wd q) as [dst | ]; [ | discriminate].
    destruct (keep_ops e t dst c) as [o ok]. destruct ok; discriminate. }
  destruct (create e s p rmsig useTmp mkd) as [o1 [f | | ]] eqn:E.
  - destruct (io_error cs); [discriminate Hs | ]. destruct fin as [ | [wd er] rest].
    + pose proof (Cl f (bytes cs) None true) as K. destruct (clear e f (bytes cs) None true) as [o2 r2].
      injection Hs as _ ->. contradiction K; reflexivity.
    + pose proof (Cl f (bytes cs) wd er) as K. destruct (clear e f (bytes cs) wd er) as [o2 r2].
      destruct rest; [ | discriminate Hs]. injection Hs as _ ->. contradiction K; reflexivity.
  - injection Hs as <-. destruct (create_cases e s p rmsig useTmp mkd) as [C | [[C _] | [[_ C] | [[k [_ C]] | [k [_ C]]]]]];
      rewrite E in C; try discriminate C. injection C as ->. reflexivity.
  - discriminate Hs.
Qed.

Lemma assert_true : C90_assert_claim.
Proof.
  intros e s p rmsig useTmp mkd cs fin Hl Hm. unfold session.
  assert (Cl : forall f c wd er, snd (clear e f c wd er) <> AssertFail).
  { intros f c wd er. unfold clear. destruct er; [discriminate | ].
    destruct (o_temp f) as [t | ]; [ | discriminate]. destruct (o_name f) as [q | ]; [ | discriminate].
    destruct (new_out e wd q) as [dst | ]; [ | discriminate].
    destruct (keep_ops e t dst c) as [o ok]. destruct ok; discriminate. }
  assert (Fin : forall o f, snd (if io_error cs then (o, Fatal) else
     match fin with
     | [] => let (o2, r) := clear e f (bytes cs) None true in (o ++ o2, r)
     | (wd, er) :: rest => let (o2, r) := clear e f (bytes cs) wd er in
          (o ++ o2, match rest with [] => r | _ => AssertFail end)
     end) <> AssertFail).
  { intros o f. destruct (io_error cs); [discriminate | ]. destruct fin as [ | [wd er] rest].
    - pose proof (Cl f (bytes cs) None true) as K. destruct (clear e f (bytes cs) None true) as [o2 r2]. exact K.
    - pose proof (Cl f (bytes cs) wd er) as K. destruct (clear e f (bytes cs) wd er) as [o2 r2].
      destruct rest as [ | x rest]; [exact K | cbn [length] in Hl; lia]. }
  destruct (create_cases e s p rmsig useTmp mkd) as [C | [[C [M1 M2]] | [[_ C] | [[k [_ C]] | [k [_ C]]]]]].
  - rewrite C. discriminate.
  - rewrite Hm in M2 by exact M1. discriminate M2.
  - rewrite C. apply Fin.
  - rewrite C. apply Fin.
  - rewrite C. apply Fin.
Qed.
