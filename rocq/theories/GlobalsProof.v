(** Proofs about the collector of global variables (C55). *)
From Coq Require Import List Bool Arith Lia.
From Verif Require Import GlobalsModel GlobalsSpec.
Import ListNotations.

Lemma underlying_simple v g : simple v -> mentions v g -> underlying v = VGlobal g.
Proof.
  intros Hs Hm.
  assert (A : forall a, address a -> mentions a g -> getUnderlyingObject a = VGlobal g).
  { induction 1 as [g'|a Ha IH]; intros H; inversion H; subst; [reflexivity|]. cbn [getUnderlyingObject]. apply IH. assumption. }
  destruct (Hs (ex_intro _ g Hm)) as [H|(a & H & ->)].
  - unfold underlying. rewrite (A v H Hm). reflexivity.
  - unfold underlying. cbn [getUnderlyingObject]. apply A; [exact H|]. inversion Hm; assumption.
Qed.
Lemma underlying_mentions v g : underlying v = VGlobal g -> mentions v g.
Proof.
  assert (A : forall v w, getUnderlyingObject v = w -> mentions w g -> mentions v g).
  { fix IH 1. intros v0 w E Hw. destruct v0; cbn [getUnderlyingObject] in E; try (subst w; exact Hw).
    constructor. exact (IH v0 w E Hw). }
  unfold underlying. destruct (getUnderlyingObject v) eqn:E; intros H; try discriminate.
  - injection H as ->. apply (A v _ E). constructor.
  - apply (A v _ E). constructor. apply (A v0 _ H). constructor.
Qed.

Section M.
Variable M : gmodule.

Lemma store_spec SCC gs : forall acc f g, In g (storeAccesses M acc SCC gs f) <-> In g (acc f) \/ (In (Some f) SCC /\ tracked M f = true /\ In g gs).
Proof.
  unfold storeAccesses. induction SCC as [|[x|] l IH]; intros acc f g; cbn [fold_left]; [cbn [In]; tauto| |].
  - rewrite IH. cbn [In]. destruct (tracked M x) eqn:T.
    + destruct (Nat.eqb_spec x f) as [->|N].
      * rewrite in_app_iff. split; [tauto|]. intros [H|([H|H] & H1 & H2)]; tauto.
      * split; [tauto|]. intros [H|([H|H] & H1 & H2)]; [tauto|congruence|tauto].
    + split; [tauto|]. intros [H|([H|H] & H1 & H2)]; [tauto|congruence|tauto].
  - rewrite IH. cbn [In]. split; [tauto|]. intros [H|([H|H] & H1 & H2)]; [tauto|discriminate|tauto].
Qed.
Definition unknownSCC SCC : bool := existsb (unknownNode M) SCC || existsb (unknownCallee M) SCC.
Definition sccSet acc SCC : list nat :=
  if unknownSCC SCC then gGlobals M else flat_map (fromCallees M acc) SCC ++ flat_map (ownAccesses M) SCC.
Lemma visit_spec acc SCC f g : In g (visitSCC M acc SCC f) <-> In g (acc f) \/ (In (Some f) SCC /\ tracked M f = true /\ In g (sccSet acc SCC)).
Proof. unfold visitSCC, sccSet, unknownSCC. destruct (_ || _); apply store_spec. Qed.
Lemma run_mono l : forall acc f g, In g (acc f) -> In g (fold_left (visitSCC M) l acc f).
Proof. induction l as [|S l IH]; intros acc f g H; cbn [fold_left]; [exact H|]. apply IH, visit_spec. left; exact H. Qed.
Lemma tracked_special f : tracked M f = true <-> ~ special M f.
Proof. unfold tracked, special. destruct (gIntrinsic M f), (gLib M f), (gArgMemOnly M f); cbn; intuition congruence. Qed.
Lemma own_spec f g : In g (ownAccesses M (Some f)) <-> gEmpty M f = false /\ exists v, In v (gOperands M f) /\ underlying v = VGlobal g.
Proof.
  cbn [ownAccesses]. destruct (gEmpty M f); [split; [intros []|intros [H _]; discriminate]|].
  rewrite in_flat_map. split.
  - intros (v & Hv & H). split; [reflexivity|]. exists v. split; [exact Hv|]. destruct (underlying v); cbn in H; try contradiction. destruct H as [->|[]]; reflexivity.
  - intros [_ (v & Hv & H)]. exists v. rewrite H. split; [exact Hv|left; reflexivity].
Qed.

(** *** Nothing is lost *)
Hypothesis HS : forall f v, In v (gOperands M f) -> simple v.
Hypothesis HG : forall f v g, In v (gOperands M f) -> mentions v g -> In g (gGlobals M).
Lemma ref_global f g skip : references M skip f g -> In g (gGlobals M).
Proof. induction 1 as [f v g E Hv Hm|f c g He Hk Hr IH|f g He Hg]; [exact (HG f v g Hv Hm)|exact IH|exact Hg]. Qed.
Lemma scc_refs SCCs : calleesFirst M SCCs -> forall before SCC after, SCCs = before ++ SCC :: after ->
  (forall S f g, In S before -> In (Some f) S -> ~ special M f -> references M (special M) f g -> In g (fold_left (visitSCC M) before (fun _ => []) f)) ->
  forall f g, references M (special M) f g -> In (Some f) SCC -> In g (sccSet (fold_left (visitSCC M) before (fun _ => [])) SCC).
Proof.
  intros HC before SCC after E HB f g Hr. set (acc := fold_left _ before _) in *. unfold sccSet.
  destruct (unknownSCC SCC) eqn:U; [intros _; exact (ref_global f g _ Hr)|].
  apply orb_false_iff in U. destruct U as [_ U].
  assert (NN : forall f, In (Some f) SCC -> ~ In None (gEdges M f)).
  { intros h Hh C. assert (existsb (unknownCallee M) SCC = true); [|congruence].
    apply existsb_exists. exists (Some h). split; [exact Hh|]. cbn [unknownCallee]. apply existsb_exists. exists None. tauto. }
  induction Hr as [f v g Em Hv Hm|f c g He Hk Hr IH|f g He Hg]; intros Hf.
  - apply in_app_iff. right. apply in_flat_map. exists (Some f). split; [exact Hf|]. apply own_spec. split; [exact Em|].
    exists v. split; [exact Hv|]. apply underlying_simple; [exact (HS f v Hv)|exact Hm].
  - destruct (HC before SCC after E f c Hf He) as [Hc|(S & HS1 & HS2)]; [exact (IH Hc)|].
    apply in_app_iff. left. apply in_flat_map. exists (Some f). split; [exact Hf|]. cbn [fromCallees].
    apply in_flat_map. exists (Some c). split; [exact He|]. exact (HB S c g HS1 HS2 Hk Hr).
  - destruct (NN f Hf He).
Qed.
Theorem complete SCCs : calleesFirst M SCCs -> forall SCC f g, In SCC SCCs -> In (Some f) SCC -> ~ special M f ->
  references M (special M) f g -> In g (runOnModule M SCCs f).
Proof.
  intros HC. assert (G : forall before after, SCCs = before ++ after -> forall S f g, In S before -> In (Some f) S -> ~ special M f ->
    references M (special M) f g -> In g (fold_left (visitSCC M) before (fun _ => []) f)).
  { intros before. induction before as [|SCC before IH] using rev_ind; intros after E S f g HS0 Hf Hsp Hr; [destruct HS0|].
    rewrite <- app_assoc in E. cbn [app] in E. rewrite fold_left_app. cbn [fold_left]. apply visit_spec.
    apply in_app_iff in HS0. destruct HS0 as [HS0|[->|[]]].
    - left. exact (IH _ E S f g HS0 Hf Hsp Hr).
    - right. split; [exact Hf|]. split; [apply tracked_special; exact Hsp|].
      exact (scc_refs SCCs HC before S after E (IH _ E) f g Hr Hf). }
  intros SCC f g H1 H2 H3 H4. exact (G SCCs [] (eq_sym (app_nil_r _)) SCC f g H1 H2 H3 H4).
Qed.
End M.

(** *** Nothing is invented *)
Lemma calls_trans M f g h : calls M f g -> calls M g h -> calls M f h.
Proof. induction 1 as [f|f c g E R IH]; intros H; [exact H|]. exact (c_step M f c h E (IH H)). Qed.
Theorem precise M SCCs : connected M SCCs -> forall f g, In g (runOnModule M SCCs f) ->
  exists h, calls M f h /\ ((gEmpty M h = false /\ exists v, In v (gOperands M h) /\ mentions v g) \/
                          (In None (gEdges M h) /\ In g (gGlobals M)) \/
                          (gEmpty M h = true /\ gLib M h = true /\ In g (gGlobals M))).
Proof.
  intros HC. unfold runOnModule.
  assert (G : forall l acc, (forall S, In S l -> In S SCCs) ->
    (forall f g, In g (acc f) -> exists h, calls M f h /\ ((gEmpty M h = false /\ exists v, In v (gOperands M h) /\ mentions v g) \/
      (In None (gEdges M h) /\ In g (gGlobals M)) \/ (gEmpty M h = true /\ gLib M h = true /\ In g (gGlobals M)))) ->
    forall f g, In g (fold_left (visitSCC M) l acc f) -> exists h, calls M f h /\ ((gEmpty M h = false /\ exists v, In v (gOperands M h) /\ mentions v g) \/
      (In None (gEdges M h) /\ In g (gGlobals M)) \/ (gEmpty M h = true /\ gLib M h = true /\ In g (gGlobals M)))).
  2:{ apply (G SCCs); [tauto|]. intros f g []. }
  induction l as [|S l IH]; intros acc HI Hacc f g; cbn [fold_left]; [apply Hacc|].
  apply (IH (visitSCC M acc S)); [intros; apply HI; right; assumption|]. clear f g. intros f g H. apply visit_spec in H.
  destruct H as [H|(Hf & _ & H)]; [exact (Hacc f g H)|].
  pose proof (HC S f (HI S (or_introl eq_refl)) Hf) as Hconn.
  unfold sccSet in H. destruct (unknownSCC M S) eqn:U.
  - unfold unknownSCC in U. apply orb_true_iff in U. destruct U as [U|U]; apply existsb_exists in U; destruct U as (n & Hn & U);
      destruct (Hconn n Hn) as (h & -> & Hc); exists h; (split; [exact Hc|]).
    + cbn [unknownNode] in U. right; right. destruct (gEmpty M h), (gIntrinsic M h), (gLib M h); try discriminate. tauto.
    + cbn [unknownCallee] in U. apply existsb_exists in U. destruct U as ([c|] & He & U); [discriminate|]. right; left. tauto.
  - apply in_app_iff in H. destruct H as [H|H]; apply in_flat_map in H; destruct H as (n & Hn & H); destruct (Hconn n Hn) as (h & -> & Hc).
    + cbn [fromCallees] in H. apply in_flat_map in H. destruct H as ([c|] & He & H); [|destruct H].
      destruct (Hacc c g H) as (k & Hk & Hd). exists k. split; [|exact Hd]. apply (calls_trans M f h); [exact Hc|]. exact (c_step M h c k He Hk).
    + apply own_spec in H. destruct H as [Em (v & Hv & E)]. exists h. split; [exact Hc|]. left. split; [exact Em|]. exists v. split; [exact Hv|].
      apply underlying_mentions. exact E.
Qed.
