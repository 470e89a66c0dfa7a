(** Proofs of C103. *)
From Coq Require Import List Bool Arith Lia.
From Verif Require Import IncludeModel IncludeSpec.
Import ListNotations.

Definition ids (t : tree) : list nat := map fst (files t).
Lemma hasFile_spec : forall f t, hasFile f t = true <-> In f (ids t).
Proof.
  intros f t. unfold hasFile, ids. rewrite existsb_exists, in_map_iff. split.
  - intros (x & I & E). apply Nat.eqb_eq in E. exists x. split; assumption.
  - intros (x & E & I). exists x. split; [exact I|apply Nat.eqb_eq; exact E].
Qed.
Lemma nodup_snoc : forall A (l : list A) x, NoDup l -> ~ In x l -> NoDup (l ++ [x]).
Proof.
  induction l as [|a l IH]; intros x N I; cbn; [constructor; [intros []|constructor]|].
  inversion N as [|? ? Na Nl]; subst. constructor.
  - rewrite in_app_iff. intros [H|[H|[]]]; [exact (Na H)|]. apply I. left. symmetry. exact H.
  - apply IH; [exact Nl|]. intros H. apply I. right. exact H.
Qed.
Section Single.
Context (inc : nat -> option nat) (k : nat) (O : forall f p, inc f = Some p -> p < f).
(** [s = Some f]: an edge to a new file [f] is not added yet. *)
Definition Inv (s : option nat) (t : tree) : Prop :=
  NoDup (ids t) /\ NoDup (edges t) /\
  (forall p g, In (p, g) (edges t) <-> In g (ids t) /\ inc g = Some p /\ s <> Some g) /\
  (forall g p, In g (ids t) -> inc g = Some p -> s <> Some g -> In p (ids t)) /\
  (forall x, In x (files t) -> snd x = k).
Lemma closed_inc : forall t g f, Inv None t -> includes inc g f -> In g (ids t) -> In f (ids t).
Proof.
  intros t g f (_ & _ & _ & C & _) H. induction H as [|g p r E H IH]; intros I; [exact I|]. apply IH. apply (C _ _ I E). discriminate.
Qed.
Lemma climb_ok : forall n f (new : bool) t, f < n -> In f (ids t) -> Inv (if new then Some f else None) t ->
  let t' := climb n k inc f new t in
  Inv None t' /\ (forall g, In g (ids t') <-> In g (ids t) \/ includes inc f g) /\
  owned t' = owned t /\ internals t' = internals t.
Proof.
  induction n as [|n IH]; intros f new t L I V; [lia|]. cbn [climb]. destruct (inc f) as [p|] eqn:E.
  - destruct new.
    + destruct V as (V1 & V2 & V3 & V4 & V5). assert (P := O _ _ E). unfold insert. destruct (hasFile p t) eqn:Hp.
      * apply hasFile_spec in Hp.
        destruct (IH p false (pushFile p f t)) as (A & B & C & D); [lia|exact Hp| |].
        { split; [exact V1|]. split; [|split; [|split; [|exact V5]]].
          - apply nodup_snoc; [exact V2|]. intros H. apply V3 in H. destruct H as (_ & _ & H). apply H. reflexivity.
          - intros q g. cbn [pushFile edges]. rewrite in_app_iff, V3. cbn [In]. split.
            + intros [(X & Y & _)|[X|[]]]; [repeat split; [exact X|exact Y|discriminate]|]. inversion X; subst. repeat split; [exact I|exact E|discriminate].
            + intros (X & Y & _). destruct (Nat.eq_dec g f) as [->|N]; [right; left; congruence|left]. repeat split; [exact X|exact Y|congruence].
          - intros g q X Y _. destruct (Nat.eq_dec g f) as [->|N]; [rewrite E in Y; inversion Y; subst; exact Hp|].
            apply (V4 g q X Y). congruence. }
        split; [exact A|]. split; [|split; [exact C|exact D]]. intros g. rewrite B. change (ids (pushFile p f t)) with (ids t). split.
        { intros [H|H]; [left; exact H|right; apply (i_step _ _ p); assumption]. }
        { intros [H|H]; [left; exact H|]. inversion H as [|? q ? Eq Hq]; subst; [left; exact I|right]. congruence. }
      * assert (Np : ~ In p (ids t)) by (intros X; apply hasFile_spec in X; congruence).
        set (t1 := Tree (files t ++ [(p, k)]) (edges t) (owned t) (internals t)).
        assert (I1 : forall g, In g (ids (pushFile p f t1)) <-> In g (ids t) \/ g = p).
        { intros g. unfold ids, t1. cbn [pushFile files]. rewrite map_app, in_app_iff. cbn. intuition. }
        destruct (IH p true (pushFile p f t1)) as (A & B & C & D); [lia|apply I1; right; reflexivity| |].
        { split; [|split; [|split; [|split]]].
          - unfold ids, t1. cbn [pushFile files]. rewrite map_app. apply nodup_snoc; [exact V1|exact Np].
          - apply nodup_snoc; [exact V2|]. intros H. apply V3 in H. destruct H as (_ & _ & H). apply H. reflexivity.
          - intros q g. rewrite I1. cbn [pushFile edges t1]. rewrite in_app_iff, V3. cbn [In]. split.
            + intros [(X & Y & _)|[X|[]]].
              * repeat split; [left; exact X|exact Y|congruence].
              * inversion X; subst. repeat split; [left; exact I|exact E|]. intros Z. inversion Z. lia.
            + intros ([X|X] & Y & Z); [|congruence]. destruct (Nat.eq_dec g f) as [->|N]; [right; left; congruence|left].
              repeat split; [exact X|exact Y|congruence].
          - intros g q X Y Z. apply I1. apply I1 in X. destruct X as [X|X]; [|congruence].
            destruct (Nat.eq_dec g f) as [->|N]; [right; congruence|left]. apply (V4 g q X Y). congruence.
          - intros x X. cbn [pushFile files t1] in X. apply in_app_iff in X. destruct X as [X|[<-|[]]]; [apply V5; exact X|reflexivity]. }
        split; [exact A|]. split; [|split; [exact C|exact D]]. intros g. rewrite B, I1. split.
        { intros [[H|H]|H]; [left; exact H|subst; right; apply (i_step _ _ p); [exact E|constructor]|right; apply (i_step _ _ p); assumption]. }
        { intros [H|H]; [left; left; exact H|]. inversion H as [|? q ? Eq Hq]; subst; [left; left; exact I|right]. congruence. }
    + split; [exact V|]. split; [|split; reflexivity]. intros g. split; [intros H; left; exact H|]. intros [H|H]; [exact H|].
      apply (closed_inc t f g V H I).
  - split.
    + destruct new; [|exact V]. destruct V as (V1 & V2 & V3 & V4 & V5). split; [exact V1|]. split; [exact V2|]. split; [|split; [|exact V5]].
      * intros p g. rewrite V3. split; intros (X & Y & Z); repeat split; try assumption; try discriminate; congruence.
      * intros g p X Y _. apply (V4 g p X Y). congruence.
    + split; [|split; reflexivity]. intros g. split; [intros H; left; exact H|]. intros [H|H]; [exact H|].
      inversion H; subst; [exact I|congruence].
Qed.
Lemma add_ok : forall x t, Inv None t -> let t' := addDecl k inc t x in
  Inv None t' /\ (forall g, In g (ids t') <-> In g (ids t) \/ exists f, snd x = Some f /\ includes inc f g) /\
  owned t' = owned t ++ (match snd x with Some f => [(fst x, f)] | None => [] end) /\
  internals t' = internals t ++ (match snd x with Some _ => [] | None => [fst x] end).
Proof.
  intros [d [f|]] t V; unfold addDecl; cbn [fst snd].
  - unfold insert. destruct (hasFile f t) eqn:Hf.
    + apply hasFile_spec in Hf. destruct (climb_ok (S f) f false (pushDecl f d t)) as (A & B & C & D); [lia|exact Hf|exact V|].
      split; [exact A|]. split; [|split; [exact C|rewrite D, app_nil_r; reflexivity]]. intros g. rewrite B.
      split; (intros [H|H]; [left; exact H|right]); [exists f; split; [reflexivity|exact H]|]. destruct H as (f' & E & H). inversion E; subst. exact H.
    + assert (Nf : ~ In f (ids t)) by (intros X; apply hasFile_spec in X; congruence).
      set (t1 := Tree (files t ++ [(f, k)]) (edges t) (owned t) (internals t)).
      assert (I1 : forall g, In g (ids (pushDecl f d t1)) <-> In g (ids t) \/ g = f).
      { intros g. unfold ids, t1. cbn [pushDecl files]. rewrite map_app, in_app_iff. cbn. intuition. }
      destruct V as (V1 & V2 & V3 & V4 & V5).
      destruct (climb_ok (S f) f true (pushDecl f d t1)) as (A & B & C & D); [lia|apply I1; right; reflexivity| |].
      { split; [|split; [exact V2|split; [|split]]].
        - unfold ids, t1. cbn [pushDecl files]. rewrite map_app. apply nodup_snoc; [exact V1|exact Nf].
        - intros p g. rewrite I1. cbn [pushDecl edges t1]. rewrite V3. split.
          + intros (X & Y & _). repeat split; [left; exact X|exact Y|congruence].
          + intros ([X|X] & Y & Z); [|congruence]. repeat split; [exact X|exact Y|discriminate].
        - intros g p X Y Z. apply I1. apply I1 in X. destruct X as [X|X]; [|congruence]. left. apply (V4 g p X Y). discriminate.
        - intros x X. cbn [pushDecl files t1] in X. apply in_app_iff in X. destruct X as [X|[<-|[]]]; [apply V5; exact X|reflexivity]. }
      split; [exact A|]. split; [|split; [exact C|rewrite D, app_nil_r; reflexivity]]. intros g. rewrite B, I1. split.
      * intros [[H|H]|H]; [left; exact H|subst; right; exists f; split; [reflexivity|constructor]|right; exists f; split; [reflexivity|exact H]].
      * intros [H|(f' & E & H)]; [left; left; exact H|]. inversion E; subst. right. exact H.
  - split; [exact V|]. split; [|split; [cbn; rewrite app_nil_r; reflexivity|reflexivity]].
    intros g. split; [intros H; left; exact H|]. intros [H|(f' & E & _)]; [exact H|discriminate].
Qed.
Lemma fold_ok : forall ds t, Inv None t -> let t' := fold_left (addDecl k inc) ds t in
  Inv None t' /\ (forall g, In g (ids t') <-> In g (ids t) \/ exists d f, In (d, Some f) ds /\ includes inc f g) /\
  owned t' = owned t ++ flat_map (fun x => match snd x with Some f => [(fst x, f)] | None => [] end) ds /\
  internals t' = internals t ++ flat_map (fun x => match snd x with Some _ => [] | None => [fst x] end) ds.
Proof.
  induction ds as [|x ds IH]; intros t V; cbn [fold_left flat_map].
  - rewrite !app_nil_r. split; [exact V|]. split; [|split; reflexivity]. intros g. split; [intros H; left; exact H|].
    intros [H|(d & f & [] & _)]. exact H.
  - destruct (add_ok x t V) as (A & B & C & D). destruct (IH _ A) as (A' & B' & C' & D'). split; [exact A'|].
    rewrite C', D', C, D, !app_assoc. split; [|split; reflexivity]. intros g. rewrite B', B. split.
    + intros [[H|(f & E & H)]|(d & f & I & H)]; [left; exact H| |].
      * right. exists (fst x), f. split; [left; destruct x; cbn in *; congruence|exact H].
      * right. exists d, f. split; [right; exact I|exact H].
    + intros [H|(d & f & [->|I] & H)]; [left; left; exact H| |].
      * left. right. exists f. split; [reflexivity|exact H].
      * right. exists d, f. split; assumption.
Qed.
End Single.
Lemma empty_inv : forall i k, Inv i k None (Tree [] [] [] []).
Proof.
  intros i k. split; [constructor|]. split; [constructor|]. split; [|split].
  - intros p g. cbn. tauto.
  - intros g p [].
  - intros x [].
Qed.
Lemma all_one : forall c, reconstructAll [c] = fold_left (addDecl 0 (inc c)) (decls c) (Tree [] [] [] []).
Proof. reflexivity. Qed.
Lemma tree_ok : C103_tree_claim.
Proof.
  intros c H t. destruct (fold_ok (inc c) 0 H (decls c) _ (empty_inv _ _)) as ((V1 & V2 & V3 & V4 & V5) & B & C & D).
  rewrite <- all_one in *. fold t in V1, V2, V3, V4, V5, B, C, D. fold (ids t).
  split; [intros f; rewrite B; cbn; split; [intros [[]|X]; exact X|intros X; right; exact X]|].
  split; [exact V1|]. split; [|split; [exact V2|split; [exact C|exact D]]].
  intros p f. rewrite V3. split; [intros (X & Y & _); split; assumption|intros (X & Y); repeat split; [exact X|exact Y|discriminate]].
Qed.
Lemma parent_ok : forall c f, ordered c -> let t := reconstructAll [c] in In f (map fst (files t)) -> parentOf f t = inc c f.
Proof.
  intros c f H t I. destruct (tree_ok c H) as (_ & _ & E & _). fold t in E. unfold parentOf.
  destruct (List.find (fun x => Nat.eqb (snd x) f) (rev (edges t))) as [[p g]|] eqn:F.
  - apply find_some in F. destruct F as [F G]. apply Nat.eqb_eq in G. cbn in G. subst g. apply in_rev in F. apply E in F.
    destruct F as [_ F]. symmetry. exact F.
  - destruct (inc c f) as [p|] eqn:Ep; [|reflexivity]. exfalso.
    assert (X : In (p, f) (edges t)) by (apply E; split; assumption). apply in_rev in X.
    apply (find_none _ _ F) in X. cbn in X. rewrite Nat.eqb_refl in X. discriminate.
Qed.
Lemma root_in : forall c r, ordered c -> In r (map fst (files (reconstructAll [c]))) -> inc c r = None ->
  In (r, 0) (roots [c] (reconstructAll [c])).
Proof.
  intros c r H I E. apply in_map_iff in I. destruct I as ([r' k] & R & I). cbn in R. subst r'.
  destruct (fold_ok (inc c) 0 H (decls c) _ (empty_inv _ _)) as ((_ & _ & _ & _ & V5) & _). rewrite <- all_one in V5.
  assert (K := V5 _ I). cbn in K. subst k. apply filter_In. split; [exact I|]. unfold isInclude. cbn. rewrite E. reflexivity.
Qed.
Lemma root_ok : C103_root_claim.
Proof.
  intros c f H t I.
  assert (G : forall n f, f < n -> In f (map fst (files t)) ->
    includes (inc c) f (findRoot n f t) /\ inc c (findRoot n f t) = None /\ In (findRoot n f t) (map fst (files t))).
  { induction n as [|n IH]; intros g L Ig; [lia|]. cbn [findRoot]. unfold t in *. rewrite (parent_ok c g H Ig).
    destruct (inc c g) as [p|] eqn:E.
    - assert (P := H _ _ E). destruct (IH p) as (A & B & C); [lia| |].
      + destruct (tree_ok c H) as (F & _). apply F in Ig. destruct Ig as (d & h & Id & Ih). apply F. exists d, h. split; [exact Id|].
        clear - Ih E. induction Ih as [|h q r Eh Hh IHh]; [apply (i_step _ _ p); [exact E|constructor]|]. apply (i_step _ _ q); [exact Eh|apply IHh; exact E].
      + split; [apply (i_step _ _ p); assumption|]. split; assumption.
    - split; [constructor|]. split; assumption. }
  destruct (G (S f) f) as (A & B & C); [lia|exact I|]. split; [exact A|]. split; [exact B|]. apply root_in; assumption.
Qed.
Lemma nodup_filter_map : forall (l : list (nat * nat)) g, NoDup (map fst l) -> NoDup (map fst (filter g l)).
Proof.
  induction l as [|x l IH]; intros g N; [constructor|]. cbn in *. inversion N as [|? ? A B]; subst. destruct (g x); [|apply IH; exact B].
  cbn. constructor; [|apply IH; exact B]. intros I. apply A. apply in_map_iff in I. destruct I as (y & E & I). apply filter_In in I.
  apply in_map_iff. exists y. split; [exact E|apply I].
Qed.
Lemma count_ok : C103_count_claim true.
Proof.
  intros c H G t. specialize (G eq_refl). destruct (tree_ok c H) as (_ & N & _ & _ & _ & D). fold t in N, D.
  exists (map fst (roots [c] t)). unfold rootSize. rewrite map_length. split; [|split].
  - rewrite D. replace (flat_map _ (decls c)) with (@nil nat); [reflexivity|]. symmetry.
    clear - G. induction (decls c) as [|[d [f|]] ds IH]; [reflexivity| |].
    + cbn. apply IH. intros e I. apply (G e). right. exact I.
    + exfalso. apply (G d). left. reflexivity.
  - apply nodup_filter_map. exact N.
  - intros f. split.
    + intros I. apply in_map_iff in I. destruct I as ([g k] & E & I). cbn in E. subst g. apply filter_In in I. destruct I as [I J].
      split; [apply in_map_iff; exists (f, k); split; [reflexivity|exact I]|].
      destruct (fold_ok (inc c) 0 H (decls c) _ (empty_inv _ _)) as ((_ & _ & _ & _ & V5) & _). rewrite <- all_one in V5.
      assert (K := V5 _ I). cbn in K. subst k. unfold isInclude in J. cbn in J. destruct (inc c f); [discriminate|reflexivity].
    + intros [I E]. apply in_map_iff. exists (f, 0). split; [reflexivity|]. apply root_in; assumption.
Qed.
Lemma find_owned : forall ds d f, NoDup (map fst ds) -> In (d, Some f) ds ->
  List.find (fun x => Nat.eqb (fst x) d) (flat_map (fun x : nat * option nat => match snd x with Some f => [(fst x, f)] | None => [] end) ds) = Some (d, f).
Proof.
  induction ds as [|[e o] ds IH]; intros d f N I0; [destruct I0|]. cbn in N. inversion N as [|? ? A B]; subst. destruct I0 as [E|I].
  - inversion E; subst. cbn. rewrite Nat.eqb_refl. reflexivity.
  - assert (X : e <> d) by (intros ->; apply A; apply in_map_iff; exists (d, Some f); split; [reflexivity|exact I]).
    destruct o as [g|]; cbn; [|apply IH; assumption]. destruct (Nat.eqb_spec e d); [contradiction|]. apply IH; assumption.
Qed.
Lemma find_ok : C103_find_claim true.
Proof.
  intros cs k c d f G H N K I. specialize (G eq_refl). destruct cs as [|c0 [|c1 cs]]; [destruct k; discriminate| |cbn in G; lia].
  destruct k as [|k]; [|destruct k; discriminate]. inversion K; subst c0. cbn [flat_map] in N. rewrite app_nil_r in N.
  assert (O : ordered c) by (apply H; left; reflexivity).
  destruct (fold_ok (inc c) 0 O (decls c) _ (empty_inv _ _)) as ((_ & _ & _ & _ & V5) & B & C & _). rewrite <- all_one in V5, B, C.
  unfold find. rewrite C. cbn [owned app]. rewrite (find_owned _ _ _ N I).
  assert (Hf : In f (ids (reconstructAll [c]))) by (apply B; right; exists d, f; split; [exact I|constructor]).
  destruct (List.find (fun x => Nat.eqb (fst x) f) (files (reconstructAll [c]))) as [[g k]|] eqn:F.
  - apply find_some in F. destruct F as [F E]. apply Nat.eqb_eq in E. assert (X := V5 _ F). cbn in E, X. congruence.
  - exfalso. unfold ids in Hf. apply in_map_iff in Hf. destruct Hf as (x & E & X). apply (find_none _ _ F) in X. rewrite E, Nat.eqb_refl in X. discriminate.
Qed.
