(** A small ScalarEvolution, which meets all requirements: for examples and
    counterexamples.  It folds constants, drops zeros and ones, flattens products and
    cancels x - x, as LLVM does. *)
From Coq Require Import ZArith List Bool Lia Ring.
From Verif Require Import SCEVModel SCEVSpec SCEVProof.
Import ListNotations.
Local Open Scope Z_scope.

(** variables below 10 have 64 bits, others have 32 *)
Fixpoint cTy (s : sc) : nat :=
  match s with
  | Cst t _ => t
  | Unk v => if Nat.ltb v 10 then 64%nat else 32%nat
  | Add (x :: _) | Mul (x :: _) | Rec (x :: _) _ | Opq _ (x :: _) => cTy x
  | Cast _ t _ => t
  | _ => 64%nat
  end.
Definition hdTy (l : list sc) : nat := match l with [] => 64%nat | x :: _ => cTy x end.
Definition isC (s : sc) : bool := match s with Cst _ _ => true | _ => false end.
Definition cVal (s : sc) : Z := match s with Cst _ z => z | _ => 0 end.
Definition cAdd0 (l : list sc) : sc :=
  let c := sum (map cVal (filter isC l)) in
  match filter (fun s => negb (isC s)) l with
  | [] => Cst (hdTy l) c
  | [x] => if Z.eqb c 0 then x else Add [Cst (hdTy l) c; x]
  | o => if Z.eqb c 0 then Add o else Add (Cst (hdTy l) c :: o)
  end.
Definition cAdd (l : list sc) : sc :=
  match l with
  | [Mul (Cst t (-1) :: r); x] => if sceq x (Mul r) then Cst t 0 else cAdd0 l
  | _ => cAdd0 l
  end.
Definition mulOps (s : sc) : list sc := match s with Mul l => l | _ => [s] end.
Definition cMul (l : list sc) : sc :=
  let f := flat_map mulOps l in
  let c := prod (map cVal (filter isC f)) in
  if Z.eqb c 0 then Cst (hdTy l) 0
  else
    match filter (fun s => negb (isC s)) f with
    | [] => Cst (hdTy l) c
    | [x] => if Z.eqb c 1 then x else Mul [Cst (hdTy l) c; x]
    | o => if Z.eqb c 1 then Mul o else Mul (Cst (hdTy l) c :: o)
    end.
Definition cRec (l : list sc) (L : nat) : sc :=
  match l with
  | [a] => a
  | [a; b] => if isZero b then a else Rec l L
  | _ => Rec l L
  end.
Definition cMinus (a b : sc) : sc :=
  if sceq a b then Cst (cTy a) 0 else cAdd [a; cMul [Cst (cTy b) (-1); b]].
Fixpoint occurs (v : nat) (s : sc) : bool :=
  match s with
  | Unk w => Nat.eqb v w
  | Add l | Mul l | Rec l _ | Opq _ l => existsb (fun x => occurs v x) l
  | Cast _ _ x => occurs v x
  | _ => false
  end.
Definition cOpq (k : nat) (l : list sc) : sc :=
  match l with
  | [x; y] => if sceq x y then x else Opq k l
  | _ => Opq k l
  end.
Fixpoint cRewrite (s : sc) (v : nat) (c : sc) : sc :=
  if occurs v s then
    match s with
    | Unk _ => c
    | Add l => cAdd (map (fun x => cRewrite x v c) l)
    | Mul l => cMul (map (fun x => cRewrite x v c) l)
    | Rec l L => cRec (map (fun x => cRewrite x v c) l) L
    | Opq k l => cOpq k (map (fun x => cRewrite x v c) l)
    | Cast k t x => Cast k t (cRewrite x v c)
    | _ => s
    end
  else s.
Fixpoint nodes (s : sc) : list sc :=
  s :: match s with
       | Add l | Mul l | Rec l _ | Opq _ l => flat_map (fun x => nodes x) l
       | Cast _ _ x => nodes x
       | _ => []
       end.
Fixpoint dedup (l : list sc) : list sc :=
  match l with
  | [] => []
  | x :: l => if existsb (sceq x) l then dedup l else x :: dedup l
  end.
Definition cSize (s : sc) : Z := Z.of_nat (length (dedup (nodes s))).
Fixpoint cInvariant (s : sc) (L : nat) : bool :=
  match s with
  | Rec l L' => negb (Nat.eqb L L') && forallb (fun x => cInvariant x L) l
  | Add l | Mul l | Opq _ l => forallb (fun x => cInvariant x L) l
  | Cast _ _ x => cInvariant x L
  | _ => true
  end.
Definition cCast (k : castKind) (s : sc) (t : nat) : sc :=
  match s with Cst _ z => Cst t z | _ => Cast k t s end.
Definition cSE : SE :=
  mkSE cTy Z.of_nat cAdd cMul cRec cMinus cCast cRewrite cSize cInvariant.

Section S.
Variable I : interp.
Variable e : env.
Notation V s := (ev I e s).
Lemma isC_val s : isC s = true -> V s = cVal s.
Proof. destruct s; cbn; try discriminate; reflexivity. Qed.
Lemma split_sum l : sum (map (ev I e) l) =
  sum (map cVal (filter isC l)) + sum (map (ev I e) (filter (fun s => negb (isC s)) l)).
Proof.
  induction l as [|x l IH]; [reflexivity|]. cbn [filter map].
  destruct (isC x) eqn:Ex; cbn [negb map]; unfold sum in *; cbn [fold_right]; rewrite IH.
  - rewrite (isC_val x Ex). ring.
  - ring.
Qed.
Lemma split_prod l : prod (map (ev I e) l) =
  prod (map cVal (filter isC l)) * prod (map (ev I e) (filter (fun s => negb (isC s)) l)).
Proof.
  induction l as [|x l IH]; [reflexivity|]. cbn [filter map].
  destruct (isC x) eqn:Ex; cbn [negb map]; unfold prod in *; cbn [fold_right]; rewrite IH.
  - rewrite (isC_val x Ex). ring.
  - ring.
Qed.
Lemma cAdd0_ev l : V (cAdd0 l) = sum (map (ev I e) l).
Proof.
  rewrite split_sum. unfold cAdd0. set (c := sum (map cVal _)). set (o := filter _ _).
  destruct o as [|x [|y o]].
  - cbn. ring.
  - destruct (Z.eqb_spec c 0) as [->|]; [|reflexivity]. cbn [map]. rewrite sum1. ring.
  - destruct (Z.eqb_spec c 0) as [->|]; reflexivity.
Qed.
Lemma cAdd_ev l : V (cAdd l) = sum (map (ev I e) l).
Proof.
  assert (G : forall t r x, sceq x (Mul r) = true -> V (Cst t 0) = sum (map (ev I e) [Mul (Cst t (-1) :: r); x])).
  { intros t r x ->%sceq_eq. cbn [ev map]. unfold sum, prod. cbn [fold_right]. ring. }
  unfold cAdd. repeat (match goal with |- context [match ?x with _ => _ end] => is_var x; destruct x end; try exact (cAdd0_ev _)).
  destruct (sceq _ _) eqn:Q; [exact (G _ _ _ Q)|exact (cAdd0_ev _)].
Qed.
Lemma flat_prod l : prod (map (ev I e) (flat_map mulOps l)) = prod (map (ev I e) l).
Proof.
  induction l as [|x l IH]; [reflexivity|]. cbn [flat_map]. rewrite map_app, prod_app, IH.
  cbn [map]. unfold prod at 3. cbn [fold_right]. f_equal.
  destruct x; cbn [mulOps map]; try (rewrite prod1; reflexivity). reflexivity.
Qed.
Lemma cMul_ev l : V (cMul l) = prod (map (ev I e) l).
Proof.
  rewrite <- flat_prod, split_prod. unfold cMul. set (c := prod (map cVal _)). set (o := filter _ _).
  destruct (Z.eqb_spec c 0) as [->|]; [reflexivity|]. clearbody c o.
  destruct o as [|x [|y o]].
  - cbn [map ev]. unfold prod. cbn [fold_right]. ring.
  - destruct (Z.eqb_spec c 1) as [->|].
    + cbn [map]. rewrite prod1. ring.
    + reflexivity.
  - destruct (Z.eqb_spec c 1) as [->|].
    + change (V (Mul (x :: y :: o))) with (prod (map (ev I e) (x :: y :: o))). ring.
    + reflexivity.
Qed.
Lemma cRec_ev l L : V (cRec l L) = chrecFrom 0 (map (ev I e) l) (iter e L).
Proof.
  destruct l as [|a [|b [|c l]]]; try reflexivity.
  - cbn [cRec map chrecFrom]. rewrite binom0. ring.
  - cbn [cRec]. destruct (isZero b) eqn:Zb; [|reflexivity]. cbn [map]. rewrite chrec2, (isZero_ev I e b Zb). ring.
Qed.
Lemma cMinus_ev a b : V (cMinus a b) = V a - V b.
Proof.
  unfold cMinus. destruct (sceq a b) eqn:Q; [apply sceq_eq in Q; subst; cbn [ev]; ring|].
  rewrite cAdd_ev. cbn [map]. rewrite cMul_ev. cbn [map ev]. unfold sum, prod. cbn [fold_right]. ring.
Qed.
End S.

Lemma cSE_sound I M : sound I M cSE.
Proof.
  constructor; intros; apply cong_eq; cbn [seAdd seMul seRec seMinus cSE].
  - apply cAdd_ev.
  - apply cMul_ev.
  - apply cRec_ev.
  - apply cMinus_ev.
Qed.
Lemma occurs_sub v s : occurs v s = true -> sub (Unk v) s.
Proof.
  induction s as [t z|w|l IH|l IH|l L IH|k t x IH|k l IH|] using sc_ind'; cbn [occurs]; try discriminate.
  - intros H%Nat.eqb_eq. subst. constructor.
  - intros (x & Hx & Ho)%existsb_exists. rewrite Forall_forall in IH. exact (sub_add _ _ _ Hx (IH x Hx Ho)).
  - intros (x & Hx & Ho)%existsb_exists. rewrite Forall_forall in IH. exact (sub_mul _ _ _ Hx (IH x Hx Ho)).
  - intros (x & Hx & Ho)%existsb_exists. rewrite Forall_forall in IH. exact (sub_rec _ _ _ _ Hx (IH x Hx Ho)).
  - intros H. constructor. auto.
  - intros (x & Hx & Ho)%existsb_exists. rewrite Forall_forall in IH. exact (sub_opq _ _ _ _ Hx (IH x Hx Ho)).
Qed.
Lemma cSE_canonical : canonical cSE.
Proof.
  constructor; cbn [rewrite_ seMinus sizeOf ty cSE].
  - intros x v c F. assert (H : occurs v x = false).
    { destruct (occurs v x) eqn:O; [exfalso; exact (F (occurs_sub v x O))|reflexivity]. }
    destruct x; cbn [cRewrite]; rewrite H; reflexivity.
  - intros x. unfold cMinus. assert (Q : sceq x x = true) by (apply sceq_eq; reflexivity). rewrite Q. reflexivity.
  - intros t z l. unfold cSize. cbn [nodes dedup]. cbn [existsb].
    assert (G : forall (x : sc) m, (1 <= length (dedup (x :: m)))%nat).
    { intros x m. revert x. induction m as [|y m IH]; intros x; [cbn; lia|]. cbn [dedup]. fold dedup.
      destruct (existsb (sceq x) (y :: m)); [exact (IH y)|cbn [length]; lia]. }
    specialize (G (Mul l) (flat_map (fun x => nodes x) l)).
    cbn [dedup length] in *. lia.
Qed.
