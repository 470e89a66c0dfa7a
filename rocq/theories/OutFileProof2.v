(** Proofs for C90: results of whole sessions and signals. *)
From Coq Require Import PeanoNat Bool List Lia.
From Verif Require Import OutFileModel OutFileSpec OutFileProof.
Import ListNotations.

(** * After [clear] which keeps a file *)
Lemma open_special : forall s k, node_of s k = Some Special -> exec s (OOpen k) = s.
Proof. intros s k H. cbn [exec]. rewrite H. reflexivity. Qed.
Lemma open_reg : forall s k, node_of s k <> Some Special -> node_of (exec s (OOpen k)) k = Some (Reg []).
Proof.
  intros s k H. cbn [exec]. destruct (node_of s k) as [[? | ] | ]; cbn [node_of].
  - apply upd_same.
  - contradiction H; reflexivity.
  - apply upd_same.
Qed.
Lemma app_special : forall s k c, node_of s k = Some Special -> exec s (OApp k c) = s.
Proof. intros s k c H. cbn [exec]. rewrite H. reflexivity. Qed.
Lemma app_reg : forall s k c d, node_of s k = Some (Reg d) -> node_of (exec s (OApp k c)) k = Some (Reg (d ++ c)).
Proof. intros s k c d H. cbn [exec]. rewrite H. cbn [node_of]. apply upd_same. Qed.
Lemma special_dec : forall s k, node_of s k = Some Special \/ node_of s k <> Some Special.
Proof. intros s k. destruct (node_of s k) as [[? | ] | ]; [right | left | right]; congruence. Qed.

Lemma copy_dst : forall s t dst c n tl, dst <> t -> tl = [] \/ tl = [ORm t] ->
  let s' := run ([OOpen dst; OApp dst (firstn n c); OApp dst (skipn n c)] ++ tl ++ [OUnreg t]) s in
  (node_of s dst = Some Special /\ node_of s' dst = Some Special)
  \/ node_of s' dst = Some (Reg c).
Proof.
  intros s t dst c n tl N Htl s'. unfold s'. rewrite run_app.
  assert (F : forall x, node_of (run (tl ++ [OUnreg t]) x) dst = node_of x dst).
  { intros x. apply run_frame. intros o Ho T. apply in_app_or in Ho. destruct Ho as [Ho | [<- | []]].
    - destruct Htl as [-> | ->]; [destruct Ho | ]. destruct Ho as [<- | []]. exact (N T).
    - destruct T. }
  rewrite F. rewrite !run_cons. change (run [] ?x) with x. cbn [run fold_left].
  destruct (special_dec s dst) as [H | H].
  - left. split; [exact H | ]. rewrite (open_special s dst H), (app_special s dst _ H), (app_special s dst _ H). exact H.
  - right. rewrite (app_reg _ _ _ (firstn n c)); [rewrite firstn_skipn; reflexivity | ].
    rewrite (app_reg _ _ _ []); [reflexivity | ]. apply open_reg. exact H.
Qed.

(** Which files [keep] can change. *)
Lemma keep_touch : forall e t dst c o k, In o (fst (keep_ops e t dst c)) -> touches o k -> k = t \/ k = dst.
Proof.
  intros e t dst c o k H T. unfold keep_ops in H. destruct (e_keep e) as [ | n ok l | b]; cbn [fst] in H.
  - destruct H as [<- | [<- | []]]; cbn [touches] in T; tauto.
  - apply in_app_or in H. destruct H as [[<- | [<- | []]] | H]; cbn [touches] in T; try tauto.
    apply in_app_or in H. destruct H as [H | H].
    + destruct ok; [ | destruct H]. destruct H as [<- | []]. cbn [touches] in T. tauto.
    + apply in_app_or in H. destruct H as [H | [<- | []]]; [ | destruct T].
      destruct l; [destruct H | ]. destruct H as [<- | []]. cbn [touches] in T. tauto.
  - apply in_app_or in H. destruct H as [H | [<- | []]]; [ | destruct T].
    destruct b; [ | destruct H]. destruct H as [<- | []]. cbn [touches] in T. tauto.
Qed.

(** A temporary file after [keep]. *)
Lemma keep_temp : forall e t dst c s d, dst <> t -> node_of s t = Some (Reg d) ->
  (forall n ok, e_keep e <> KCopy n ok true) ->
  (snd (keep_ops e t dst c) = true -> node_of (run (fst (keep_ops e t dst c)) s) t = None)
  /\ node_of (run (fst (keep_ops e t dst c)) s) t <> Some Special.
Proof.
  intros e t dst c s d N H Hl. unfold keep_ops. destruct (e_keep e) as [ | n ok l | b]; cbn [fst snd].
  - destruct (rename_effect s t dst (Reg d) H N) as [E _].
    assert (E' : node_of (run [ORen t dst; OUnreg t] s) t = None) by exact E.
    split; [intros _; exact E' | rewrite E'; discriminate].
  - destruct l; [contradiction (Hl n ok eq_refl) | ].
    rewrite app_assoc. rewrite run_app.
    set (s1 := run _ s).
    assert (H1 : node_of s1 t = Some (Reg d)).
    { unfold s1. rewrite run_frame; [exact H | ]. intros o Ho T. apply in_app_or in Ho.
      destruct Ho as [[<- | [<- | []]] | Ho]; cbn [touches] in T; try (apply N; congruence).
      destruct ok; [ | destruct Ho]. destruct Ho as [<- | []]. cbn [touches] in T. apply N; congruence. }
    assert (E : node_of (run ([ORm t] ++ [OUnreg t]) s1) t = None).
    { cbn [app]. rewrite !run_cons. change (node_of (exec s1 (ORm t)) t = None).
      apply rm_gone. rewrite H1. discriminate. }
    split; [intros _; exact E | rewrite E; discriminate].
  - split; [discriminate | ]. destruct b; cbn [app].
    + rewrite !run_cons. change (node_of (exec s (ORm t)) t <> Some Special). rewrite rm_gone; [discriminate | ].
      rewrite H. discriminate.
    + change (node_of s t <> Some Special). rewrite H. discriminate.
Qed.

(** All operations of [clear] leave no temporary file. *)
Lemma clear_temp : forall e p k0 wd er cs s,
  file_at (e_cwd e) p = Some k0 -> (forall n ok, e_keep e <> KCopy n ok true) ->
  node_of (run (fst (clear e (OutFile (Some p) (Some (temp_key e k0)) (TFile (temp_key e k0))) (bytes cs) wd er))
             (run (pre (temp_key e k0) cs) s)) (temp_key e k0) = None.
Proof.
  intros e p k0 wd er cs s H0 Hl. set (t := temp_key e k0). set (s1 := run (pre t cs) s).
  assert (H1 : node_of s1 t = Some (Reg (written cs))) by apply pre_node.
  destruct er.
  - rewrite (clear_erase _ _ k0) by exact H0. cbn [fst discard_ops app]. rewrite !run_cons.
    change (run [] ?x) with x. rewrite rm_other by (apply not_eq_sym; apply file_neq_temp).
    rewrite unreg_node. apply rm_gone. rewrite H1. discriminate.
  - destruct (new_out_some e wd p k0 H0) as [dst Hd].
    assert (N : dst <> t) by exact (new_out_dst _ _ _ _ _ Hd H0).
    rewrite (clear_keep _ _ _ _ _ dst) by exact Hd.
    destruct (keep_temp e t dst (bytes cs) s1 (written cs) N H1 Hl) as [K1 K2].
    destruct (keep_ops e t dst (bytes cs)) as [o ok]. cbn [fst snd] in K1, K2. destruct ok; cbn [fst].
    + apply K1. reflexivity.
    + rewrite run_app. apply rm_gone. exact K2.
Qed.

(** * Operations when a file is written directly *)
Lemma session_direct : forall e s p rmsig useTmp mkd cs fin k,
  file_at (e_cwd e) p = Some k ->
  create e s p rmsig useTmp mkd = ([OOpen k], COk (OutFile (Some p) None (TFile k))) ->
  let x := session e s p rmsig useTmp mkd cs fin in
  let w := [OOpen k] ++ write_ops (TFile k) cs in
  if io_error cs then x = (w, Fatal)
  else match fin with
       | [] => x = (w ++ [ORm k], Done)
       | (wd, er) :: rest =>
           x = (w ++ (if er then [ORm k] else []), match rest with [] => Done | _ => AssertFail end)
       end.
Proof.
  intros e s p rmsig useTmp mkd cs fin k H0 E. cbv zeta. unfold session. rewrite E. cbn [o_os].
  destruct (io_error cs); [reflexivity | ]. destruct fin as [ | [wd er] rest].
  - rewrite (clear_erase _ _ k) by exact H0. reflexivity.
  - destruct er; [rewrite (clear_erase _ _ k) by exact H0; reflexivity | reflexivity].
Qed.

Lemma direct_touch : forall k cs (b : bool) o k', In o (([OOpen k] ++ write_ops (TFile k) cs) ++ if b then [ORm k] else []) ->
  touches o k' -> k' = k.
Proof.
  intros k cs b o k' H T. apply in_app_or in H. destruct H as [H | H].
  - apply in_app_or in H. destruct H as [[<- | []] | H]; [exact T | ].
    pose proof (write_touch _ _ _ _ H T) as E. injection E as ->. reflexivity.
  - destruct b; [ | destruct H]. destruct H as [<- | []]. exact T.
Qed.
Lemma direct_frame : forall k cs (b : bool) s k', k' <> k ->
  node_of (run (([OOpen k] ++ write_ops (TFile k) cs) ++ if b then [ORm k] else []) s) k' = node_of s k'.
Proof. intros. apply run_frame. intros o Ho T. apply H. exact (direct_touch k cs b o k' Ho T). Qed.
Lemma direct_noreg : forall k cs (b : bool) s k',
  reg_of (run (([OOpen k] ++ write_ops (TFile k) cs) ++ if b then [ORm k] else []) s) k' = reg_of s k'.
Proof.
  intros. apply run_reg. intros o Ho. apply in_app_or in Ho. destruct Ho as [Ho | Ho].
  - apply in_app_or in Ho. destruct Ho as [[<- | []] | Ho]; [split; discriminate | ].
    exact (write_noreg _ _ _ _ Ho).
  - destruct b; [ | destruct Ho]. destruct Ho as [<- | []]. split; discriminate.
Qed.
Lemma direct_node : forall k cs s,
  (node_of s k = Some Special /\ node_of (run ([OOpen k] ++ write_ops (TFile k) cs) s) k = Some Special)
  \/ (node_of s k <> Some Special
      /\ node_of (run ([OOpen k] ++ write_ops (TFile k) cs) s) k = Some (Reg (written cs))).
Proof.
  intros k cs s. rewrite run_app. rewrite run_cons. change (run [] ?x) with x.
  destruct (special_dec s k) as [H | H].
  - left. split; [exact H | ]. rewrite (open_special s k H). apply write_special. exact H.
  - right. split; [exact H | ]. rewrite (write_run k cs _ []); [reflexivity | ]. apply open_reg. exact H.
Qed.

(** * A session which is not killed *)
Lemma final_not_fatal : forall s ops r, r <> Fatal -> final s (ops, r) = run ops s.
Proof. intros s ops r H. unfold final. cbn [fst snd]. destruct r; try reflexivity. contradiction H; reflexivity. Qed.
Lemma clear_not_fatal : forall e f c wd er, snd (clear e f c wd er) <> Fatal.
Proof.
  intros e f c wd er. unfold clear. destruct er; [discriminate | ].
  destruct (o_temp f) as [t | ]; [ | discriminate]. destruct (o_name f) as [q | ]; [ | discriminate].
  destruct (new_out e wd q) as [dst | ]; [ | discriminate].
  destruct (keep_ops e t dst c) as [o ok]. destruct ok; discriminate.
Qed.

Lemma leftover_true : C90_leftover_claim true.
Proof.
  intros e s p rmsig useTmp mkd cs fin k x Hf Hs Hl Hk. specialize (Hl eq_refl). subst x.
  destruct Hf as [Hn Hr]. specialize (Hn k Hk).
  apply temporary_file in Hk. destruct Hk as [k0 [H0 ->]].
  destruct (create_cases e s p rmsig useTmp mkd) as [C | [[C _] | [[-> C] | [[k1 [H1 C]] | [k1 [H1 C]]]]]].
  - unfold session. rewrite C. exact Hn.
  - unfold session. rewrite C. exact Hn.
  - discriminate H0.
  - rewrite H0 in H1. injection H1 as <-. rewrite (session_temp _ _ _ _ _ _ _ _ _ C).
    destruct (io_error cs).
    + unfold final. cbn [fst snd]. apply sig_reg; [apply pre_reg | rewrite pre_node; discriminate].
    + cbv zeta. destruct fin as [ | [wd er] rest].
      * pose proof (clear_temp e p k0 None true cs s H0 Hl) as K.
        pose proof (clear_not_fatal e (OutFile (Some p) (Some (temp_key e k0)) (TFile (temp_key e k0))) (bytes cs) None true) as NF.
        destruct (clear e _ (bytes cs) None true) as [o2 r2]. cbn [fst snd] in *.
        rewrite final_not_fatal by exact NF. rewrite run_app. exact K.
      * pose proof (clear_temp e p k0 wd er cs s H0 Hl) as K.
        pose proof (clear_not_fatal e (OutFile (Some p) (Some (temp_key e k0)) (TFile (temp_key e k0))) (bytes cs) wd er) as NF.
        destruct (clear e _ (bytes cs) wd er) as [o2 r2]. cbn [fst snd] in *.
        rewrite final_not_fatal by (destruct rest; [exact NF | discriminate]). rewrite run_app. exact K.
  - rewrite H0 in H1. injection H1 as <-.
    pose proof (session_direct e s p rmsig useTmp mkd cs fin k0 H0 C) as D. cbv zeta in D.
    destruct (io_error cs).
    + rewrite D. unfold final. cbn [snd]. cbn [fst]. apply sig_none.
      rewrite <- (app_nil_r ([OOpen k0] ++ _)). rewrite (direct_frame k0 cs false); [exact Hn | ].
      apply not_eq_sym. apply file_neq_temp.
    + destruct fin as [ | [wd er] rest]; rewrite D; rewrite final_not_fatal by (try destruct rest; discriminate).
      * rewrite (direct_frame k0 cs true); [exact Hn | ]. apply not_eq_sym. apply file_neq_temp.
      * rewrite (direct_frame k0 cs er); [exact Hn | ]. apply not_eq_sym. apply file_neq_temp.
Qed.

Lemma clear_frame : forall e p k0 wd er cs s k,
  file_at (e_cwd e) p = Some k0 -> k <> temp_key e k0 ->
  (er = true -> k <> k0) -> (er = false -> new_out e wd p <> Some k) ->
  node_of (run (fst (clear e (OutFile (Some p) (Some (temp_key e k0)) (TFile (temp_key e k0))) (bytes cs) wd er))
             (run (pre (temp_key e k0) cs) s)) k = node_of s k.
Proof.
  intros e p k0 wd er cs s k H0 Hk H1 H2. rewrite run_frame; [apply pre_frame_all; exact Hk | ].
  intros o Ho T. destruct er.
  - rewrite (clear_erase _ _ k0) in Ho by exact H0. cbn in Ho.
    destruct Ho as [<- | [<- | [<- | []]]]; cbn [touches] in T; [exact (Hk T) | exact T | exact (H1 eq_refl T)].
  - destruct (new_out_some e wd p k0 H0) as [dst Hd]. rewrite (clear_keep _ _ _ _ _ dst) in Ho by exact Hd.
    assert (Kd : k <> dst) by (intros ->; exact (H2 eq_refl Hd)).
    pose proof (keep_touch e (temp_key e k0) dst (bytes cs) o k) as KT.
    destruct (keep_ops e (temp_key e k0) dst (bytes cs)) as [o2 ok]. cbn [fst] in KT. destruct ok; cbn [fst] in Ho.
    + destruct (KT Ho T); contradiction.
    + apply in_app_or in Ho. destruct Ho as [Ho | [<- | []]]; [destruct (KT Ho T); contradiction | ].
      exact (Hk T).
Qed.

Lemma success_true : C90_success_claim true true.
Proof.
  intros e s p rmsig useTmp mkd cs wd k x Hf Hs Hr Hd Hl.
  specialize (Hd eq_refl). specialize (Hl eq_refl). subst x. rewrite meant_file.
  destruct Hf as [Hn Hreg].
  destruct (create_cases e s p rmsig useTmp mkd) as [C | [[C _] | [[-> C] | [[k0 [H0 C]] | [k0 [H0 C]]]]]].
  - unfold session in Hr. rewrite C in Hr. discriminate Hr.
  - unfold session in Hr. rewrite C in Hr. discriminate Hr.
  - assert (E : new_out e wd Dash = None) by (destruct wd; reflexivity). rewrite E.
    split; [discriminate | ]. intros _.
    pose proof (touch_dash e s rmsig useTmp mkd cs [(wd, false)] (length (fst (session e s Dash rmsig useTmp mkd cs [(wd, false)]))) k) as T.
    rewrite firstn_all in T. destruct (session e s Dash rmsig useTmp mkd cs [(wd, false)]) as [ops r].
    cbn [snd] in Hr. subst r. exact T.
  - pose proof (leftover_true e s p rmsig useTmp mkd cs [(wd, false)] (temp_key e k0)
      (session e s p rmsig useTmp mkd cs [(wd, false)]) (conj Hn Hreg) eq_refl (fun _ => Hl)
      (proj2 (temporary_file e p (temp_key e k0)) (ex_intro _ k0 (conj H0 eq_refl)))) as L.
    destruct (new_out_some e wd p k0 H0) as [dst Hdst].
    assert (N : dst <> temp_key e k0) by exact (new_out_dst _ _ _ _ _ Hdst H0).
    rewrite (session_temp _ _ _ _ _ _ _ _ _ C) in *.
    destruct (io_error cs) eqn:Hio; [discriminate Hr | ]. cbv zeta in *.
    pose proof (fun q => clear_frame e p k0 wd false cs s q H0) as CF.
    rewrite (clear_keep _ _ _ _ _ dst) in Hr, L, CF |- * by exact Hdst.
    destruct (keep_ops e (temp_key e k0) dst (bytes cs)) as [o ok] eqn:Ek.
    destruct ok; [ | discriminate Hr]. cbn [fst] in CF.
    rewrite final_not_fatal in L |- * by discriminate. rewrite run_app in L |- *.
    destruct (io_ok cs Hio) as [Ew _]. rewrite Hdst. split.
    + intros E. injection E as <-. unfold keep_ops in Ek.
      assert (H1 : node_of (run (pre (temp_key e k0) cs) s) dst = node_of s dst) by (apply pre_frame_all; exact N).
      pose proof (pre_node (temp_key e k0) cs s) as H2.
      destruct (e_keep e) as [ | n ok l | b] eqn:Ekk.
      * injection Ek as <-. left. destruct (rename_effect _ _ dst _ H2 N) as [_ E]. rewrite <- Ew. exact E.
      * destruct l; [contradiction (Hl n ok eq_refl) | ]. injection Ek as <- ->.
        destruct (copy_dst (run (pre (temp_key e k0) cs) s) (temp_key e k0) dst (bytes cs) n [ORm (temp_key e k0)] N (or_intror eq_refl)) as [[E1 E2] | E].
        -- right. rewrite H1 in E1. split; [exact E1 | exact E2].
        -- left. exact E.
      * discriminate Ek.
    + intros Hk. destruct (key_eq_dec k (temp_key e k0)) as [-> | Kt].
      * rewrite L. symmetry. apply Hn. apply temporary_file. exists k0. split; [exact H0 | reflexivity].
      * apply CF; [exact Kt | discriminate | intros _; rewrite Hdst; exact Hk].
  - assert (E : new_out e wd p = Some k0).
    { destruct Hd as [Hu | [-> | [d [nm ->]]]].
      - rewrite (create_temp e s p rmsig useTmp mkd k0 Hu H0) in C. discriminate C.
      - exact H0.
      - destruct wd; exact H0. }
    pose proof (session_direct e s p rmsig useTmp mkd cs [(wd, false)] k0 H0 C) as D. cbv zeta in D.
    destruct (io_error cs) eqn:Hio; [rewrite D in Hr; discriminate Hr | ].
    rewrite D. rewrite final_not_fatal by discriminate. rewrite E. destruct (io_ok cs Hio) as [Ew _]. split.
    + intros Ek. injection Ek as <-. rewrite app_nil_r. destruct (direct_node k0 cs s) as [[E1 E2] | [_ E2]].
      * right. split; assumption.
      * left. rewrite E2, Ew. reflexivity.
    + intros Hk. apply (direct_frame k0 cs false). intros ->. apply Hk. reflexivity.
Qed.

(** A failed rename. *)
Lemma failed_true : C90_failed_claim true.
Proof.
  intros e s p rmsig useTmp mkd cs fin k x Hf Hs Hr Hc. specialize (Hc eq_refl). subst x.
  assert (Hl : forall n ok, e_keep e <> KCopy n ok true) by (intros n ok; apply Hc).
  destruct Hr as [Hr | Hr].
  { destruct (session e s p rmsig useTmp mkd cs fin) as [ops r] eqn:E. cbn [snd] in Hr. subst r.
    rewrite (create_error_true _ _ _ _ _ _ _ _ _ E). reflexivity. }
  destruct (create_cases e s p rmsig useTmp mkd) as [C | [[C _] | [[-> C] | [[k0 [H0 C]] | [k0 [H0 C]]]]]].
  - unfold session in Hr. rewrite C in Hr. discriminate Hr.
  - unfold session in Hr. rewrite C in Hr. discriminate Hr.
  - pose proof (touch_dash e s rmsig useTmp mkd cs fin (length (fst (session e s Dash rmsig useTmp mkd cs fin))) k) as T.
    rewrite firstn_all in T. destruct (session e s Dash rmsig useTmp mkd cs fin) as [ops r].
    cbn [snd] in Hr. subst r. exact T.
  - pose proof (proj2 (temporary_file e p (temp_key e k0)) (ex_intro _ k0 (conj H0 eq_refl))) as Ht.
    destruct (key_eq_dec k (temp_key e k0)) as [-> | Kt].
    { rewrite (leftover_true e s p rmsig useTmp mkd cs fin (temp_key e k0) _ Hf eq_refl (fun _ => Hl) Ht).
      symmetry. apply Hf. exact Ht. }
    rewrite (session_temp _ _ _ _ _ _ _ _ _ C) in *.
    destruct (io_error cs); [discriminate Hr | ]. cbv zeta in *.
    destruct fin as [ | [wd er] rest].
    { rewrite (clear_erase _ _ k0) in Hr by exact H0. discriminate Hr. }
    destruct er.
    { rewrite (clear_erase _ _ k0) in Hr by exact H0. destruct rest; discriminate Hr. }
    destruct (new_out_some e wd p k0 H0) as [dst Hd].
    rewrite (clear_keep _ _ _ _ _ dst) in Hr |- * by exact Hd. unfold keep_ops in *.
    destruct (keep_case e Hc) as [E | [b E]]; rewrite E in *.
    { destruct rest; discriminate Hr. }
    destruct rest; [ | discriminate Hr].
    rewrite final_not_fatal by discriminate. rewrite run_app.
    rewrite run_frame; [apply pre_frame_all; exact Kt | ].
    intros o Ho T. destruct b; cbn in Ho; repeat (destruct Ho as [<- | Ho]); cbn [touches] in T;
      try (destruct Ho; fail); try contradiction.
  - pose proof (session_direct e s p rmsig useTmp mkd cs fin k0 H0 C) as D. cbv zeta in D.
    destruct (io_error cs); [rewrite D in Hr; discriminate Hr | ].
    destruct fin as [ | [wd er] rest]; rewrite D in Hr; [discriminate Hr | ]. destruct rest; discriminate Hr.
Qed.

(** * An abandoned output *)
Lemma abandon_other : forall e s p rmsig useTmp mkd cs fin k,
  fresh e s p -> (fin = [] \/ exists wd, fin = [(wd, true)]) ->
  snd (session e s p rmsig useTmp mkd cs fin) = Done ->
  file_at (e_cwd e) p <> Some k ->
  node_of (final s (session e s p rmsig useTmp mkd cs fin)) k = node_of s k.
Proof.
  intros e s p rmsig useTmp mkd cs fin k Hf Hfin Hr Hk.
  destruct (create_cases e s p rmsig useTmp mkd) as [C | [[C _] | [[-> C] | [[k0 [H0 C]] | [k0 [H0 C]]]]]].
  - unfold session. rewrite C. reflexivity.
  - unfold session. rewrite C. reflexivity.
  - pose proof (touch_dash e s rmsig useTmp mkd cs fin (length (fst (session e s Dash rmsig useTmp mkd cs fin))) k) as T.
    rewrite firstn_all in T. destruct (session e s Dash rmsig useTmp mkd cs fin) as [ops r].
    cbn [snd] in Hr. subst r. exact T.
  - assert (K0 : k <> k0) by (intros ->; exact (Hk H0)).
    assert (Hfix : forall wd, node_of (run (pre (temp_key e k0) cs ++ fst (clear e (OutFile (Some p) (Some (temp_key e k0)) (TFile (temp_key e k0))) (bytes cs) wd true)) s) k = node_of s k).
    { intros wd. rewrite run_app. destruct (key_eq_dec k (temp_key e k0)) as [-> | Kt].
      - rewrite (clear_erase _ _ k0) by exact H0. cbn [fst discard_ops app]. rewrite !run_cons.
        change (run [] ?x) with x. rewrite rm_other by exact K0. rewrite unreg_node.
        rewrite rm_gone by (rewrite pre_node; discriminate). symmetry. apply Hf. apply temporary_file.
        exists k0. split; [exact H0 | reflexivity].
      - apply clear_frame; [exact H0 | exact Kt | intros _; exact K0 | discriminate]. }
    rewrite (session_temp _ _ _ _ _ _ _ _ _ C) in *.
    destruct (io_error cs); [discriminate Hr | ]. cbv zeta in *.
    destruct Hfin as [-> | [wd ->]].
    + specialize (Hfix None). rewrite (clear_erase _ _ k0) in Hfix |- * by exact H0.
      rewrite final_not_fatal by discriminate. exact Hfix.
    + specialize (Hfix wd). rewrite (clear_erase _ _ k0) in Hfix |- * by exact H0.
      rewrite final_not_fatal by discriminate. exact Hfix.
  - assert (K0 : k <> k0) by (intros ->; exact (Hk H0)).
    pose proof (session_direct e s p rmsig useTmp mkd cs fin k0 H0 C) as D. cbv zeta in D.
    destruct (io_error cs); [rewrite D in Hr; discriminate Hr | ].
    destruct Hfin as [-> | [wd ->]]; rewrite D; rewrite final_not_fatal by discriminate;
      exact (direct_frame k0 cs true s k K0).
Qed.

Lemma erase_true : C90_erase_claim true.
Proof.
  intros e s p rmsig useTmp mkd cs wd k x Hf Hs Hr Hw Hk. specialize (Hw eq_refl). subst x.
  apply abandon_other; [exact Hf | right; exists wd; reflexivity | exact Hr | ].
  intros E. apply Hk. apply meant_file. destruct Hw as [-> | [d [n ->]]]; [exact E | ].
  destruct wd; exact E.
Qed.

Lemma abandon_true : C90_abandon_claim true.
Proof.
  intros e s p rmsig useTmp mkd cs fin k x Hf Hs Hr Hfin Hn. specialize (Hn eq_refl). subst x.
  destruct (file_at (e_cwd e) p) as [k0 | ] eqn:H0.
  2: { apply abandon_other; try assumption. rewrite H0. discriminate. }
  destruct (key_eq_dec k k0) as [-> | K0].
  2: { apply abandon_other; try assumption. rewrite H0. congruence. }
  assert (Hnone : node_of s k0 = None) by (apply Hn; apply (meant_file e None); exact H0).
  rewrite Hnone.
  destruct (create_cases e s p rmsig useTmp mkd) as [C | [[C _] | [[-> C] | [[k1 [H1 C]] | [k1 [H1 C]]]]]].
  - unfold session. rewrite C. exact Hnone.
  - unfold session. rewrite C. exact Hnone.
  - discriminate H0.
  - rewrite H0 in H1. injection H1 as <-.
    rewrite (session_temp _ _ _ _ _ _ _ _ _ C) in *.
    destruct (io_error cs); [discriminate Hr | ]. cbv zeta in *.
    assert (Hfix : node_of (run (pre (temp_key e k0) cs ++ discard_ops (temp_key e k0) ++ [ORm k0]) s) k0 = None).
    { rewrite run_app. cbn [discard_ops app]. rewrite !run_cons. change (run [] ?x) with x.
      apply rm_gone. rewrite unreg_node. rewrite rm_other by apply file_neq_temp.
      rewrite pre_frame_all by apply file_neq_temp. rewrite Hnone. discriminate. }
    destruct Hfin as [-> | [wd ->]]; rewrite (clear_erase _ _ k0) by exact H0;
      rewrite final_not_fatal by discriminate; exact Hfix.
  - rewrite H0 in H1. injection H1 as <-.
    pose proof (session_direct e s p rmsig useTmp mkd cs fin k0 H0 C) as D. cbv zeta in D.
    destruct (io_error cs); [rewrite D in Hr; discriminate Hr | ].
    assert (Hfix : node_of (run (([OOpen k0] ++ write_ops (TFile k0) cs) ++ [ORm k0]) s) k0 = None).
    { rewrite run_app. rewrite run_cons. change (run [] ?x) with x. apply rm_gone.
      destruct (direct_node k0 cs s) as [[E _] | [_ E]]; [rewrite Hnone in E; discriminate E | ].
      rewrite E. discriminate. }
    destruct Hfin as [-> | [wd ->]]; rewrite D; rewrite final_not_fatal by discriminate; exact Hfix.
Qed.

(** * Signals *)
Lemma keep_noreg : forall e p k0 os wd c k n x, k <> temp_key e k0 ->
  reg_of (run (firstn n (fst (clear e (OutFile (Some p) (Some (temp_key e k0)) os) c wd false))) x) k = reg_of x k.
Proof.
  intros e p k0 os wd c k n x Hk. apply run_reg. intros o Ho. apply in_firstn in Ho.
  unfold clear in Ho. cbn [o_temp o_name] in Ho. destruct (new_out e wd p) as [dst | ]; [ | destruct Ho].
  assert (G : forall o', In o' (fst (keep_ops e (temp_key e k0) dst c)) -> o' <> OReg k /\ o' <> OUnreg k).
  { intros o' H. unfold keep_ops in H. destruct (e_keep e) as [ | m ok l | b]; cbn [fst] in H.
    - destruct H as [<- | [<- | []]]; split; congruence.
    - apply in_app_or in H. destruct H as [[<- | [<- | []]] | H]; try (split; congruence).
      apply in_app_or in H. destruct H as [H | H].
      + destruct ok; [ | destruct H]. destruct H as [<- | []]. split; congruence.
      + apply in_app_or in H. destruct H as [H | [<- | []]]; [ | split; congruence].
        destruct l; [destruct H | ]. destruct H as [<- | []]. split; congruence.
    - apply in_app_or in H. destruct H as [H | [<- | []]]; [ | split; congruence].
      destruct b; [ | destruct H]. destruct H as [<- | []]. split; congruence. }
  destruct (keep_ops e (temp_key e k0) dst c) as [o2 ok]. cbn [fst] in G. destruct ok; cbn [fst] in Ho.
  - apply G. exact Ho.
  - apply in_app_or in Ho. destruct Ho as [Ho | [<- | []]]; [apply G; exact Ho | split; congruence].
Qed.

Lemma pre_signal : forall t cs s n, node_of s t = None -> n <> 1 ->
  node_of (signalled (run (firstn n (pre t cs)) s)) t = None.
Proof.
  intros t cs s n H N. destruct n as [ | [ | n]]; [apply sig_none; exact H | contradiction N; reflexivity | ].
  unfold pre. cbn [app firstn]. rewrite !run_cons.
  set (s2 := exec (exec s (ONew t)) (OReg t)).
  assert (E : node_of s2 t = Some (Reg [])) by (cbn; apply upd_same).
  apply sig_reg.
  - rewrite run_reg.
    + cbn. apply upd_same.
    + intros o Ho. apply in_firstn in Ho. exact (write_noreg _ _ _ _ Ho).
  - destruct (write_reg t n cs s2 [] E) as [d Ed]. rewrite Ed. discriminate.
Qed.

Lemma keep_signal : forall e p k0 wd cs s n, no_copy e -> e_keep e <> KFail false ->
  file_at (e_cwd e) p = Some k0 -> n > 0 ->
  node_of (run (firstn n (fst (clear e (OutFile (Some p) (Some (temp_key e k0)) (TFile (temp_key e k0))) (bytes cs) wd false)))
     (run (pre (temp_key e k0) cs) s)) (temp_key e k0) = None.
Proof.
  intros e p k0 wd cs s n Hc Hk H0 Hn. set (t := temp_key e k0). set (s1 := run (pre t cs) s).
  assert (H1 : node_of s1 t = Some (Reg (written cs))) by apply pre_node.
  destruct (new_out_some e wd p k0 H0) as [dst Hd].
  assert (N : dst <> t) by exact (new_out_dst _ _ _ _ _ Hd H0).
  rewrite (clear_keep _ _ _ _ _ dst) by exact Hd. unfold keep_ops.
  destruct n as [ | n]; [lia | ].
  destruct (keep_case e Hc) as [E | [b E]]; rewrite E.
  - cbn [fst firstn]. rewrite run_cons. destruct (rename_effect s1 t dst _ H1 N) as [E1 _].
    rewrite run_frame; [exact E1 | ]. intros o Ho T. apply in_firstn in Ho. destruct Ho as [<- | []]. destruct T.
  - destruct b; [ | contradiction]. cbn [fst app firstn]. rewrite run_cons.
    assert (G : node_of (exec s1 (ORm t)) t = None) by (apply rm_gone; rewrite H1; discriminate).
    destruct n as [ | [ | n]]; [exact G | exact G | ]. cbn [firstn]. rewrite firstn_nil.
    change (node_of (exec (exec (exec s1 (ORm t)) (OUnreg t)) (ORm t)) t = None).
    apply rm_gone. rewrite unreg_node, G. discriminate.
Qed.

Lemma signal_true : C90_signal_claim true true true true.
Proof.
  intros e s p useTmp mkd cs wd rest ops r n k Hf Hs Ht Hc Hkf Hn.
  pose proof (atomic_true e s p true useTmp mkd cs ((wd, false) :: rest) ops r n k wd Hf Hs Ht Hc
                (ex_intro _ rest eq_refl)) as HA.
  specialize (Ht eq_refl). specialize (Hc eq_refl). specialize (Hkf eq_refl). specialize (Hn eq_refl).
  destruct (file_at (e_cwd e) p) as [k0 | ] eqn:H0.
  - rewrite (session_temp _ _ _ _ _ _ _ _ _ (create_temp _ _ _ _ _ _ _ Ht H0)) in Hs.
    assert (Hops : ops = pre (temp_key e k0) cs \/
       ops = pre (temp_key e k0) cs ++ fst (clear e (OutFile (Some p) (Some (temp_key e k0)) (TFile (temp_key e k0))) (bytes cs) wd false)).
    { destruct (io_error cs); [left; apply (f_equal fst) in Hs; symmetry; exact Hs | right].
      cbv zeta in Hs. destruct (clear e _ (bytes cs) wd false) as [o2 r2].
      apply (f_equal fst) in Hs. symmetry. exact Hs. }
    split.
    + intros Hk. pose proof (proj1 Hf k Hk) as Hnone. apply temporary_file in Hk. destruct Hk as [k1 [E ->]].
      rewrite H0 in E. injection E as <-. destruct Hops as [-> | ->]; [apply pre_signal; assumption | ].
      destruct (prefix_app n (pre (temp_key e k0) cs)
        (fst (clear e (OutFile (Some p) (Some (temp_key e k0)) (TFile (temp_key e k0))) (bytes cs) wd false)))
        as [[_ E] | [_ [m [Hm E]]]]; rewrite E; [apply pre_signal; assumption | ].
      apply sig_none. rewrite run_app. apply keep_signal; assumption.
    + intros Hk. left. unfold old_or_new. rewrite sig_unreg; [exact (HA Hk) | ].
      assert (Kt : k <> temp_key e k0).
      { intros ->. apply Hk. apply temporary_file. exists k0. split; [exact H0 | reflexivity]. }
      destruct Hops as [-> | ->]; [rewrite pre_noreg by exact Kt; apply Hf | ].
      destruct (prefix_app n (pre (temp_key e k0) cs)
        (fst (clear e (OutFile (Some p) (Some (temp_key e k0)) (TFile (temp_key e k0))) (bytes cs) wd false)))
        as [[_ E] | [_ [m [Hm E]]]]; rewrite E; [rewrite pre_noreg by exact Kt; apply Hf | ].
      rewrite run_app, keep_noreg by exact Kt.
      rewrite <- (firstn_all (pre (temp_key e k0) cs)). rewrite pre_noreg by exact Kt. apply Hf.
  - split; [intros Hk; apply temporary_file in Hk; destruct Hk as [k1 [E _]]; rewrite H0 in E; discriminate E | ].
    intros Hk. left. unfold old_or_new. rewrite sig_unreg; [exact (HA Hk) | ].
    rewrite run_reg; [apply Hf | ]. intros o Ho. apply in_firstn in Ho.
    destruct p; try discriminate H0.
    destruct (session_dash e s true useTmp mkd cs ((wd, false) :: rest)) as [E | E]; rewrite Hs in E; cbn [fst] in E;
      rewrite E in Ho; [destruct Ho | exact (write_noreg _ _ _ _ Ho)].
Qed.

(** * Successful sessions *)
Lemma works_true : C90_works_claim.
Proof.
  intros e s p rmsig useTmp mkd cs wd er Hm Hw Ho Hk Hc Hcs.
  assert (Hio : io_error cs = false).
  { unfold io_error. destruct (existsb _ cs) eqn:E; [ | reflexivity]. apply existsb_exists in E.
    destruct E as [c [Hin E]]. rewrite (Hcs c Hin) in E. discriminate E. }
  assert (NE : create e s p rmsig useTmp mkd <> ([], CErr)).
  { unfold create. destruct (mkd && negb useTmp); [discriminate | ].
    assert (T : try_temp e s p useTmp <> None).
    { unfold try_temp. destruct useTmp; [ | discriminate]. rewrite Hw.
      destruct p; try discriminate;
        (destruct (file_at (e_cwd e) _) as [k | ]; [ | discriminate];
         destruct (node_of s k) as [[? | ] | ]; discriminate). }
    destruct (try_temp e s p useTmp) as [t | ]; [ | contradiction T; reflexivity]. rewrite Ho.
    destruct (file_at (e_cwd e) p) as [k | ]; [ | discriminate]. destruct (t && temp_ok e mkd); discriminate. }
  destruct (create_cases e s p rmsig useTmp mkd) as [C | [[C [M1 M2]] | [[-> C] | [[k0 [H0 C]] | [k0 [H0 C]]]]]].
  - contradiction.
  - rewrite Hm in M2 by exact M1. discriminate M2.
  - unfold session. rewrite C, Hio. destruct er; reflexivity.
  - rewrite (session_temp _ _ _ _ _ _ _ _ _ C), Hio. cbv zeta. destruct er.
    + rewrite (clear_erase _ _ k0) by exact H0. reflexivity.
    + destruct (new_out_some e wd p k0 H0) as [dst Hd]. rewrite (clear_keep _ _ _ _ _ dst) by exact Hd.
      unfold keep_ops. destruct (e_keep e) as [ | n ok l | b] eqn:E.
      * reflexivity.
      * destruct ok; [reflexivity | contradiction (Hc n l eq_refl)].
      * contradiction (Hk b eq_refl).
  - pose proof (session_direct e s p rmsig useTmp mkd cs [(wd, er)] k0 H0 C) as D. cbv zeta in D.
    rewrite Hio in D. rewrite D. reflexivity.
Qed.

(** * Special files *)
Lemma special_keeps : forall ops s k0 k, node_of s k0 = Some Special ->
  (forall o, In o ops -> o = OOpen k0 \/ o = ORm k0 \/ exists c, o = OApp k0 c) ->
  node_of (run ops s) k = node_of s k.
Proof.
  induction ops as [ | o ops IH]; intros s k0 k H Ho; [reflexivity | ]. rewrite run_cons.
  assert (E : exec s o = s).
  { destruct (Ho o (or_introl eq_refl)) as [-> | [-> | [c ->]]]; cbn [exec]; rewrite H; reflexivity. }
  rewrite E. apply (IH s k0 k H). intros o' Ho'. apply Ho. right. exact Ho'.
Qed.
Lemma special_true : C90_special_claim.
Proof.
  intros e s p rmsig useTmp mkd cs fin ops r n k k0 Hm Hs H.
  assert (H0 : file_at (e_cwd e) p = Some k0) by (apply (meant_file e None); exact Hm).
  assert (NT : forall k1, create e s p rmsig useTmp mkd <> tempf e p k1).
  { intros k1 C. unfold create in C. destruct (mkd && negb useTmp); [discriminate C | ].
    assert (T : try_temp e s p useTmp = Some false \/ try_temp e s p useTmp = None).
    { unfold try_temp. destruct useTmp; [ | left; reflexivity]. rewrite H0, Hs.
      destruct p; [left; reflexivity | | ]; (destruct (e_canwrite e); [left | right]; reflexivity). }
    destruct T as [T | T]; rewrite T in C; [ | discriminate C]. rewrite H0 in C. cbn [andb] in C.
    destruct (e_open e); discriminate C. }
  destruct (create_cases e s p rmsig useTmp mkd) as [C | [[C _] | [[-> C] | [[k1 [H1 C]] | [k1 [H1 C]]]]]].
  - unfold session in H. rewrite C in H. injection H as <- _. rewrite firstn_nil. reflexivity.
  - unfold session in H. rewrite C in H. injection H as <- _. rewrite firstn_nil. reflexivity.
  - discriminate H0.
  - contradiction (NT k1 C).
  - rewrite H0 in H1. injection H1 as <-.
    pose proof (session_direct e s p rmsig useTmp mkd cs fin k0 H0 C) as D. cbv zeta in D. rewrite H in D.
    assert (G : exists b : bool, ops = ([OOpen k0] ++ write_ops (TFile k0) cs) ++ if b then [ORm k0] else []).
    { destruct (io_error cs).
      - exists false. rewrite app_nil_r. exact (f_equal fst D).
      - destruct fin as [ | [wd er] rest]; [exists true | exists er]; exact (f_equal fst D). }
    destruct G as [b ->]. apply (special_keeps _ s k0 k Hs). intros o Ho. apply in_firstn in Ho.
    apply in_app_or in Ho. destruct Ho as [Ho | Ho].
    + apply in_app_or in Ho. destruct Ho as [[<- | []] | Ho]; [left; reflexivity | right; right].
      unfold write_ops in Ho. apply in_flat_map in Ho. destruct Ho as [c [_ Ho]].
      destruct (snd c); [ | destruct Ho]. destruct Ho as [<- | []]. exists (fst c). reflexivity.
    + destruct b; [ | destruct Ho]. destruct Ho as [<- | []]. right. left. reflexivity.
Qed.
