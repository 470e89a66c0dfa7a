(** C78: removal of stores to memory which is not read. *)
From Coq Require Import PeanoNat Bool List Lia Permutation.
From Verif Require Import DseModel DseSpec DseProof.
Import ListNotations.

Theorem C78_same_partial : C78_same_claim true.
Proof.
  intros m A is R V n c. exact (same_steps m A is R (V eq_refl) n c).
Qed.
Print Assumptions C78_same_partial.

(** Locations are addresses; registers hold a value which has been loaded.  The address 0 is a
    local variable which is only stored to, 1 is a local variable which is also loaded, 2 is an
    argument. *)
Definition mach : machine :=
  Machine nat nat nat (fun a _ => a) (fun v r => v + r) (fun _ v _ => v)
    (fun u r M => (M 2 + u, fun l => if Nat.eqb l 2 then r else M l)) (fun o r => o + r)
    Nat.eq_dec (fun pc r => if Nat.eqb pc 5 && (r <? 40) then 0 else S pc) (fun l => l < 2).
Definition ana : analysis :=
  Analysis (fun a => a) (fun _ => [2]) [0; 1; 2] (fun a => a <? 2).
Lemma mach_right : rightAnalysis mach ana.
Proof.
  exists (fun l => Some l). repeat split.
  - cbn. rewrite (H 2); [reflexivity|]. cbn. intros s [= <-]. now left.
  - cbn. intros l HL. destruct (Nat.eqb l 2); [reflexivity|]. now apply H.
  - cbn. intros u r M l s [= ->] N. destruct (Nat.eqb_spec s 2); [|reflexivity].
    destruct N. now left.
  - intros a r H. exact (proj1 (Nat.ltb_lt a 2) H).
Qed.
Definition ex : list instr :=
  [Store false 0 7; Store false 1 4; Load 1 0; Op 3; Store true 2 1; Unknown 5; Store false 0 9; Ret].
Example C78_same_case :
  rightAnalysis mach ana /\
  (forall a v, In (Store true a v) ex -> isPlainAlloca ana a = false) /\
  eliminate ana ex =
    [Nop; Store false 1 4; Load 1 0; Op 3; Store true 2 1; Unknown 5; Nop; Ret] /\
  let c := steps mach ex 40 (Config (m := mach) 0 1 (fun _ => 0) [] false) in
  cDone c = true /\ length (cEvents c) > 4.
Proof.
  split; [exact mach_right|]. split.
  - cbn. intros a v [H|[H|[H|[H|[H|[H|[H|[H|[]]]]]]]]]; try discriminate H.
    injection H as <- <-. reflexivity.
  - vm_compute. repeat split; lia.
Qed.

Theorem C78_same_refuted : ~ C78_same_claim false.
Proof.
  intro H.
  specialize (H mach ana [Store true 0 7; Ret] mach_right ltac:(discriminate) 1
    (Config (m := mach) 0 1 (fun _ => 0) [] false)).
  destruct H as (_ & _ & H & _). vm_compute in H. discriminate H.
Qed.
Print Assumptions C78_same_refuted.

Theorem C78_found : C78_found_claim.
Proof.
  intros A is.
  assert (LE : forall dead js pc, length (removeAt dead pc js) = length js).
  { intros dead js. induction js as [|j js IH]; intro pc; cbn [removeAt length]; auto. }
  split; [apply LE|]. intros k i E.
  assert (LT : k < length is) by (apply nth_error_Some; congruence).
  assert (NE : nth_error (eliminate A is) k
    = Some (if has k (toRemove A is) then Nop else i)).
  { rewrite (nth_error_nth' _ Ret) by (unfold eliminate; now rewrite LE).
    unfold eliminate. rewrite nth_removeAt. cbn [Nat.add].
    rewrite (proj2 (Nat.ltb_lt k (length is)) LT), andb_true_r.
    now rewrite (nth_error_nth _ _ Ret E). }
  rewrite NE. split.
  - intros vol a v -> IM OS.
    destruct (visitAll_found A (setOf A a) is OS 0 (map (fun s => (s, [])) (modSets A)) [])
      as (L & IL & _ & F).
    { apply in_map_iff. eauto. }
    assert (X : has k (toRemove A is) = true).
    { apply has_In. unfold toRemove. apply in_flat_map. exists (setOf A a, L).
      split; [exact IL|]. exact (F k vol a v E eq_refl). }
    now rewrite X.
  - destruct (has k (toRemove A is)) eqn:X; [right|now left]. split; [reflexivity|].
    apply has_In in X. unfold toRemove in X. apply in_flat_map in X. destruct X as ([s L] & IL & IP).
    destruct (proj2 (findStores_Inv A is s L IL) k IP) as (vol & a & v & E' & _).
    exists vol, a, v. congruence.
Qed.
Print Assumptions C78_found.
Example C78_found_case : nth_error ex 6 = Some (Store false 0 9) /\
  nth_error (eliminate ana ex) 6 = Some Nop /\ nth_error (eliminate ana ex) 1 = Some (Store false 1 4).
Proof. repeat split. Qed.

Theorem C78_operands : C78_operands_claim.
Proof.
  intros G order live x O S. unfold removeStore.
  destruct (pushOps G (ops G x) ([], [])) as [W V] eqn:P.
  pose proof (start_ok G live x W V S P) as K. split.
  - set (N := length live).
    destruct (outer_total G live x order N O (N * Datatypes.S N + N + Datatypes.S N) _ K) as [s' E].
    + intros y [].
    + cbn [sLive]. apply NoDup_incl_length; [apply (k_live _ _ _ _ K)|].
      intros y IY. apply (k_sub _ _ _ _ K y IY).
    + assert (length (without x live) <= N).
      { apply NoDup_incl_length; [apply (k_live _ _ _ _ K)|].
        intros y IY. apply (k_sub _ _ _ _ K y IY). }
      cbn [sLive]. lia.
    + eexists. eexists. rewrite E. reflexivity.
  - intros fuel live' H.
    destruct (outer fuel G order _) as [s|] eqn:E; [|discriminate]. injection H as <-.
    destruct (outer_ok G live x order O _ _ _ K (fun y (F : In y []) => match F with end) E)
      as (K' & W' & C').
    destruct K' as [K1 K2 K3 K4 K5 K6 K7 K8 K9 K10 K11]. repeat split; auto.
    + intro Q. destruct (K8 x Q). auto.
    + intros y IY. now apply K8.
    + intros y z IY NY IZ M LZ. apply hasUses_true.
      destruct (K10 y z IY NY IZ M LZ) as [Q|Q].
      * rewrite W' in Q. destruct Q.
      * apply (K11 C' z Q). rewrite W'. auto.
Qed.
Print Assumptions C78_operands.

(** 1 is a store of 3 to 2; 3 uses 4 and 5; 2 uses 4; 4 uses 6, which is a load; 5 is also used by 7. *)
Definition gr : graph := Graph
  (fun y => match y with 1 => [2; 3] | 2 => [4] | 3 => [4; 5] | 4 => [6] | 7 => [5] | _ => [] end)
  (fun y => Nat.eqb y 1 || Nat.eqb y 6 || Nat.eqb y 7).
Example C78_operands_case : someOrder (fun l => l) /\ storeIn gr [1; 2; 3; 4; 5; 6; 7] 1 /\
  removeStore 100 gr (fun l => l) [1; 2; 3; 4; 5; 6; 7] 1 = Some [5; 6; 7].
Proof.
  split; [intro l; apply Permutation_refl|]. split; [|reflexivity]. repeat split.
  - repeat constructor; cbn; intuition discriminate.
  - intros y x H IX. cbn in H.
    repeat (destruct H as [<-|H]; [cbn in IX |- *; tauto|]). destruct H.
  - cbn. tauto.
  - intros y H IX. cbn in H.
    repeat (destruct H as [<-|H]; [cbn in IX; intuition discriminate|]). destruct H.
Qed.

Theorem C78_terminators_partial : C78_terminators_claim true.
Proof.
  intros G order live x T O S TX GI fuel live' H y IY TY.
  destruct (C78_operands G order live x O S) as [_ K].
  destruct (K fuel live' H) as (_ & _ & _ & _ & GO & _).
  destruct (in_dec Nat.eq_dec y live') as [Q|N]; [exact Q|exfalso].
  destruct (GO y IY N) as [->|M]; [congruence|].
  rewrite (GI eq_refl y TY) in M. discriminate M.
Qed.
Print Assumptions C78_terminators_partial.
Theorem C78_terminators_refuted : ~ C78_terminators_claim false.
Proof.
  intro H.
  specialize (H (Graph (fun y => match y with 1 => [2] | _ => [] end) (fun y => Nat.eqb y 1))
    (fun l => l) [1; 2] 1 (fun y => Nat.eqb y 2) (fun l => Permutation_refl l)).
  assert (F : In 2 []); [|destruct F].
  apply (H ltac:(repeat split; [repeat constructor; cbn; intuition discriminate
    |intros y x Q IX; cbn in Q; repeat (destruct Q as [<-|Q]; [cbn in IX |- *; tauto|]); destruct Q
    |cbn; tauto
    |intros y Q IX; cbn in Q; repeat (destruct Q as [<-|Q]; [cbn in IX; intuition discriminate|]); destruct Q])
    eq_refl ltac:(discriminate) 10 []); [reflexivity|cbn; tauto|reflexivity].
Qed.
Print Assumptions C78_terminators_refuted.
