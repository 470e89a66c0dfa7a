(** Properties of names of dumped files, C94. *)
From Coq Require Import PeanoNat NArith Bool List Lia.
From Verif Require Import DumpNameModel DumpNameSpec DumpNameProof.
Import ListNotations.

(** Names are different if each file is dumped less than 10000 times. *)
Theorem C94_distinct_partial : C94_distinct_claim true.
Proof. exact distinct_true. Qed.
Print Assumptions C94_distinct_partial.
(** The name of the 10000th dump is the name of the 1000th one. *)
Theorem C94_distinct_refuted_many : ~ C94_distinct_claim false.
Proof. exact distinct_many. Qed.
Print Assumptions C94_distinct_refuted_many.

(** A dump contains its number. *)
Theorem C94_number_partial : C94_number_claim true.
Proof. exact number_true. Qed.
Print Assumptions C94_number_partial.
Theorem C94_number_refuted_many : ~ C94_number_claim false.
Proof. exact number_many. Qed.
Print Assumptions C94_number_refuted_many.

(** A dump is placed near its source file and does not replace it. *)
Theorem C94_place : C94_place_claim.
Proof. exact place_true. Qed.
Print Assumptions C94_place.

(** A dump does not replace any source file if names contain a single dot. *)
Theorem C94_sources_partial : C94_sources_claim true.
Proof. exact sources_true. Qed.
Print Assumptions C94_sources_partial.
Theorem C94_sources_refuted_dots : ~ C94_sources_claim false.
Proof. exact sources_dots. Qed.
Print Assumptions C94_sources_refuted_dots.

Theorem C94_total : C94_total_claim.
Proof. exact total_true. Qed.
Print Assumptions C94_total.
(** Names do not depend on next requests. *)
Theorem C94_history : C94_history_claim.
Proof. exact history_true. Qed.
Print Assumptions C94_history.

(** a.c, d/b, a.c, d.1/a.c, a.c *)
Example C94_example :
  let fs := [[97; 46; 99]; [100; 47; 98]; [97; 46; 99]; [100; 46; 49; 47; 97; 46; 99]; [97; 46; 99]] in
  (forall f, (N.of_nat (requests fs f) < 10000)%N)
  /\ dumps fs = [[97; 46; 49; 46; 99]; [100; 47; 98; 46; 49]; [97; 46; 50; 46; 99];
                 [100; 46; 49; 47; 97; 46; 49; 46; 99]; [97; 46; 51; 46; 99]].
Proof.
  cbv zeta. split; [ | vm_compute; reflexivity]. intros f. unfold requests.
  pose proof (count_occ_bound (list_eq_dec Nat.eq_dec) f
    [[97; 46; 99]; [100; 47; 98]; [97; 46; 99]; [100; 46; 49; 47; 97; 46; 99]; [97; 46; 99]]) as H.
  cbn [length] in H. lia.
Qed.
(** a.c and b.c contain a single dot. *)
Example C94_example_sources : forall f, In f [[97; 46; 99]; [98; 46; 99]] -> count_occ Nat.eq_dec f 46 = 1.
Proof. intros f [<- | [<- | []]]; reflexivity. Qed.
