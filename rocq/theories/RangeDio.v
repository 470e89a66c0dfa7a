(** A solver of linear Diophantine equations.  The solver of the program is
    outside of the repository (bcl/Equation.h); this one shows that what the
    theorems ask of it can be met, and runs the examples. *)
From Coq Require Import ZArith Bool List Lia.
From Verif Require Import RangeModel RangeSpec.
Import ListNotations.
Open Scope Z_scope.

Definition dioInst (K1 K2 c : Z) : option (Z * Z * Z * Z) :=
  let G := Z.gcd K1 K2 in
  let B := Z.quot K2 G in
  match find (fun X => (K1 * X - c) mod K2 =? 0) (map Z.of_nat (seq 0 (Z.to_nat B))) with
  | Some X => Some (X, B, (K1 * X - c) / K2, Z.quot K1 G)
  | None => None
  end.
Lemma dioInst_ok : dioSpec dioInst.
Proof.
  intros K1 K2 c H1 H2. unfold dioInst.
  set (G := Z.gcd K1 K2).
  assert (HG : 0 < G).
  { pose proof (Z.gcd_nonneg K1 K2).
    assert (G <> 0) by (intros Hc; apply Z.gcd_eq_0 in Hc; lia). unfold G in *. lia. }
  destruct (Z.gcd_divide_l K1 K2) as [a Ha]. destruct (Z.gcd_divide_r K1 K2) as [b Hb].
  fold G in Ha, Hb.
  assert (Qa : Z.quot K1 G = a) by (rewrite Ha; apply Z.quot_mul; lia).
  assert (Qb : Z.quot K2 G = b) by (rewrite Hb; apply Z.quot_mul; lia).
  assert (Pa : 0 < a) by nia. assert (Pb : 0 < b) by nia.
  assert (Ex : K1 * b = K2 * a) by (rewrite Ha, Hb; ring).
  rewrite Qa, Qb.
  destruct (find _ _) as [X0|] eqn:Ef.
  - apply find_some in Ef. destruct Ef as [_ Ef]. apply Z.eqb_eq in Ef.
    apply Z.mod_divide in Ef; [|lia]. destruct Ef as [q Hq].
    assert (Eq : (K1 * X0 - c) / K2 = q) by (rewrite Hq; apply Z.div_mul; lia).
    rewrite Eq. split; [auto|split; [auto|]]. intros X Y. split.
    + intros HXY.
      assert (Hg1 : Z.gcd a b = 1).
      { pose proof (Z.gcd_mul_mono_r_nonneg a b G ltac:(lia)) as Hg. rewrite <- Ha, <- Hb in Hg.
        fold G in Hg. nia. }
      assert (Hd : (b | a * (X - X0))).
      { exists (Y - q). apply (Z.mul_cancel_r _ _ G ltac:(lia)).
        replace (a * (X - X0) * G) with (a * G * (X - X0)) by ring.
        replace ((Y - q) * b * G) with (b * G * (Y - q)) by ring. rewrite <- Ha, <- Hb. lia. }
      apply Z.gauss in Hd; [|rewrite Z.gcd_comm; auto]. destruct Hd as [t Ht].
      exists t. split; [lia|]. apply (Z.mul_cancel_l _ _ K2 ltac:(lia)).
      replace (K2 * (q + a * t)) with (q * K2 + K2 * a * t) by ring. rewrite <- Ex.
      replace (K1 * b * t) with (K1 * (t * b)) by ring. rewrite <- Ht. lia.
    + intros (t & -> & ->).
      replace (K1 * (X0 + b * t) - K2 * (q + a * t)) with (K1 * X0 - q * K2 + (K1 * b - K2 * a) * t) by ring.
      rewrite Ex. lia.
  - intros X Y HXY.
    assert (Hm := Z.div_mod X b ltac:(lia)). pose proof (Z.mod_pos_bound X b Pb) as Hbd.
    set (x := X mod b) in *. set (t := X / b) in *.
    assert (Hin : In x (map Z.of_nat (seq 0 (Z.to_nat b)))).
    { apply in_map_iff. exists (Z.to_nat x). split; [lia|]. apply in_seq. lia. }
    apply (find_none _ _ Ef) in Hin. apply Z.eqb_neq in Hin. apply Hin.
    apply Z.mod_divide; [lia|]. exists (Y - a * t).
    assert (K1 * X = K1 * x + K2 * a * t) by (rewrite Hm, Z.mul_add_distr_l, Z.mul_assoc, Ex; ring).
    lia.
Qed.
