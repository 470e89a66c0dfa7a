(** C74: traits of variables stay correct after loading of external results of analysis, and results which are
    written and loaded again stay correct.  Each condition is necessary. *)
From Coq Require Import List Bool Arith ZArith Lia.
From Verif Require Import ReaderModel ReaderSpec ReaderProof.
Import ListNotations.

Theorem C74_load_partial : C74_claim (Conds true true true true).
Proof. exact C74_proof. Qed.
Print Assumptions C74_load_partial.
Theorem C74_roundtrip_partial : C74_roundtrip_claim (CondsW true true true true true true).
Proof. exact C74_roundtrip_proof. Qed.
Print Assumptions C74_roundtrip_partial.
Theorem C74_lookup_partial : C74_lookup_claim true true.
Proof. exact C74_lookup_proof. Qed.
Print Assumptions C74_lookup_partial.

(** ** Concrete executions *)
Definition only (e e2 : exec) : Prop := e2 = e.
Definition noI : exec -> Prop := fun _ => False.
Definition noR : nat -> exec -> Prop := fun _ _ => False.
Definition anyD : kind -> nat -> range -> exec -> Prop := fun _ _ _ _ => True.
Lemma occurs_inv e k n : occurs e k n -> exists i, i + n < length (its e) /\ 0 < n /\ ends k (it e i) (it e (i + n)) /\ forall m, i < m -> m < i + n -> ~ writes (it e m).
Proof.
  intros (N & i & EN & B). exists i. split; [|repeat split; assumption]. destruct (lt_dec (i + n) (length (its e))) as [L|L]; [exact L|]. unfold it in EN. rewrite (nth_overflow (its e) [] (n := i + n)) in EN by lia.
  destruct k; destruct EN as (_ & EN); [discriminate EN|destruct EN|destruct EN].
Qed.
Lemma all_its (P : list access -> Prop) e : P [] -> Forall P (its e) -> forall i, P (it e i).
Proof. intros P0 F i. unfold it. destruct (nth_in_or_default i (its e) []) as [I|D]; [rewrite Forall_forall in F; exact (F _ I)|now rewrite D]. Qed.
Ltac absurds := unfold writes, reads, exposed in *; cbn in *; intuition (try discriminate; try lia).
(** Cases of a dependence in a loop with a few iterations *)
Ltac occ H :=
  apply occurs_inv in H; let i := fresh "i" in let L := fresh "L" in let N := fresh "N" in let EN := fresh "EN" in let B := fresh "B" in
  destruct H as (i & L & N & EN & B);
  match type of L with _ < ?x => let v := eval vm_compute in x in change x with v in L end;
  repeat (destruct i as [|i]; [|try lia]); cbn [Nat.add] in L;
  match type of N with 0 < ?n => repeat (destruct n as [|n]; try lia) end; cbn [it its nth Nat.add ends] in EN.
Ltac its_all :=
  cbn [xFirst]; unfold noExposed, noWrites;
  match goal with
  | |- forall i, ~ exposed (it ?e i) => apply (all_its (fun l => ~ exposed l) e)
  | |- forall i, writes (it ?e i) -> False => apply (all_its (fun l => writes l -> False) e)
  end; [absurds|repeat (constructor; [absurds|]); constructor].

(** t = ...; ... = t in two iterations *)
Definition ePriv2 := Exec [[Wr; Rd]; [Wr; Rd]] false.
Definition dUnknown (u : bool) : desc :=
  Desc false false None false (Some (Some (Dep true [1] []))) (Some (Some (Dep true [1] []))) (Some (Some (Dep true [1] []))) false false false false false false u.
Lemma unknown_sound R I D (E : exec -> Prop) u : (u = false -> forall e, E e -> used e = false) -> sound R I D (dUnknown u) E.
Proof.
  intro U. split.
  - intros e EE. constructor; cbn; try (intros; discriminate).
    + intros _ k n _. destruct k; discriminate.
    + intros [] p r H; injection H as <-; discriminate.
    + intros [] p i r H; injection H as <-; destruct i; discriminate.
    + intro H. exact (U H e EE).
  - intros [] p H; injection H as <-; discriminate.
Qed.
(** A private variable in a file with its dependencies *)
Definition fPrivate : entry := Entry None true false true true true (Some (Some 1%Z, Some 1%Z)) None.
Lemma fPrivate_ok : describes noR (Conds true true true true) fPrivate (only ePriv2).
Proof.
  constructor; cbn [fPrivate eRed ePriv eUal eW eR eOut eAnti eFlow]; try reflexivity; try (intros; discriminate).
  - intros e ->. discriminate.
  - intros e -> _. its_all.
  - intros e k n -> H _. destruct k; cbn [listed fPrivate eOut eAnti eFlow].
    + occ H; absurds.
    + exists (Some 1%Z, Some 1%Z). split; [reflexivity|]. occ H. split; cbn [fst snd]; intros z Z; injection Z as <-; lia.
    + reflexivity.
  - intros H. now destruct H.
  - intros _. exists ePriv2, 1. split; [reflexivity|]. split; [lia|]. exists 0. split; [cbn; absurds|intros; lia].
  - intros _. exists ePriv2, 1. split; [reflexivity|]. split; [lia|]. exists 0. split; [cbn; absurds|intros; lia].
Qed.
Example C74_load_example : exists d1, loadAll [Some fPrivate] (dUnknown false) = Ok d1 /\ priv d1 = true /\ shared d1 = false /\ sound noR noI anyD d1 (only ePriv2).
Proof.
  destruct (C74_load_partial noR noI anyD [(fPrivate, only ePriv2)] (dUnknown false) (only ePriv2)) as (d1 & L & S).
  - intro e. split; [intro H; now left|intro H; inversion H as [? ? H1|? ? H1]; [exact H1|inversion H1]].
  - constructor; [exact fPrivate_ok|constructor].
  - intros _. repeat constructor. intros e H. exact H.
  - intros _ []; discriminate.
  - apply unknown_sound. intros _ e ->. reflexivity.
  - exists d1. split; [exact L|]. cbn in L. injection L as <-. split; [reflexivity|]. split; [reflexivity|exact S].
Qed.

(** ** Dependencies of private variables are not listed: the variable becomes shared *)
Definition fPrivateOnly : entry := Entry None true false true true false None None.
Theorem C74_deps_refuted : ~ C74_claim (Conds false true true true).
Proof.
  intro C. destruct (C noR noI anyD [(fPrivateOnly, only ePriv2)] (dUnknown false) (only ePriv2)) as (d1 & L & S).
  - intro e. split; [intro H; now left|intro H; inversion H as [? ? H1|? ? H1]; [exact H1|inversion H1]].
  - constructor; [|constructor]. constructor; cbn [fst snd fPrivateOnly eRed ePriv eUal eW eR eOut eAnti eFlow]; try reflexivity; try (intros; discriminate).
    + intros e ->. discriminate.
    + intros e -> _. its_all.
    + intros e k n -> H [X|[X _]]; discriminate.
    + intros H. now destruct H.
    + intros H. now destruct H.
  - intros _. repeat constructor. intros e H. exact H.
  - intros _ []; discriminate.
  - apply unknown_sound. intros _ e ->. reflexivity.
  - cbn in L. injection L as <-. destruct S as (S & _). destruct (S ePriv2 eq_refl) as [_ _ _ _ IN _ _ _ _ _ _ _ _ _ _]. destruct (IN eq_refl 0 1 ltac:(lia)) as (_ & W); [now left|]. apply W. now left.
Qed.
Print Assumptions C74_deps_refuted.

(** ** A private variable with a value from outside a loop: the value is lost *)
Definition eFirst1 := Exec [[Rd; Wr]] false.
Definition dFirst (sh : bool) : desc := Desc false false None false None None None false sh false true false false false.
Lemma dFirst_sound R I D sh : sound R I D (dFirst sh) (only eFirst1).
Proof.
  split; [|intros [] p H; discriminate]. intros e ->. constructor; cbn; try (intros; discriminate).
  - intros _ i j NE W. destruct i as [|[|i]]; [|destruct W|destruct W]. destruct j as [|[|j]]; [lia|split; intros []|split; intros []].
  - intros _ n H. occ H.
  - intros [H|[H|H]]; now destruct H.
  - intros [] p r H; discriminate.
  - intros [] p i r H; discriminate.
  - reflexivity.
Qed.
Theorem C74_first_refuted : ~ C74_claim (Conds true false true true).
Proof.
  intro C. destruct (C noR noI anyD [(fPrivateOnly, only eFirst1)] (dFirst false) (only eFirst1)) as (d1 & L & S).
  - intro e. split; [intro H; now left|intro H; inversion H as [? ? H1|? ? H1]; [exact H1|inversion H1]].
  - constructor; [|constructor]. constructor; cbn [fst snd fPrivateOnly eRed ePriv eUal eW eR eOut eAnti eFlow]; try reflexivity; try (intros; discriminate).
    + intros e ->. discriminate.
    + cbn [xFirst]. intros e -> _ n H. occ H.
    + intros e k n -> H _. occ H.
    + intros H. now destruct H.
    + intros H. now destruct H.
  - intros _. repeat constructor. intros e H. exact H.
  - intros _ []; discriminate.
  - apply dFirst_sound.
  - cbn in L. injection L as <-. destruct S as (S & _). destruct (S eFirst1 eq_refl) as [_ _ _ _ _ P _ _ _ _ _ _ _ _ _]. apply (P eq_refl 0). reflexivity.
Qed.
Print Assumptions C74_first_refuted.

(** ** Two files which describe different executions: results of the second one are lost *)
Definition eRead := Exec [[Rd]] false.
Definition eFlow2 := Exec [[Wr]; [Rd]] false.
Definition fRead : entry := Entry None false false false true false None None.
Definition fFlow2 : entry := Entry None false false true true false None (Some (Some 1%Z, Some 1%Z)).
Lemma fFlow2_ok X : describes noR X fFlow2 (only eFlow2).
Proof.
  constructor; cbn [fFlow2 eRed ePriv eUal eW eR eOut eAnti eFlow]; try reflexivity; try (intros; discriminate).
  - intros e ->. discriminate.
  - intros e k n -> H _. destruct k; occ H; try (absurds; fail). cbn [listed]. exists (Some 1%Z, Some 1%Z). split; [reflexivity|]. split; cbn [fst snd]; intros z Z; injection Z as <-; lia.
  - intros _. exists eFlow2, 1. split; [reflexivity|]. split; [lia|]. exists 0. split; [cbn; absurds|intros; lia].
  - intros H. now destruct H.
Qed.
Theorem C74_files_refuted : ~ C74_claim (Conds true true false true).
Proof.
  intro C. destruct (C noR noI anyD [(fRead, only eRead); (fFlow2, only eFlow2)] (dUnknown false) (fun e => e = eRead \/ e = eFlow2)) as (d1 & L & S).
  - intro e. split; [intros [H|H]; [now left|right; now left]|]. rewrite Exists_exists. intros (q & [<-|[<-|[]]] & Q); [now left|now right].
  - constructor; [|constructor; [|constructor]].
    + constructor; cbn [fst snd fRead eRed ePriv eUal eW eR eOut eAnti eFlow]; try reflexivity; try (intros; discriminate).
      * intros e i -> W. exfalso. revert i W. its_all.
      * intros e ->. discriminate.
      * intros e k n -> H _. occ H.
      * intros H. now destruct H.
      * intros H. now destruct H.
    + cbn [fst snd]. apply fFlow2_ok.
  - discriminate.
  - intros _ []; discriminate.
  - apply unknown_sound. intros _ e [->| ->]; reflexivity.
  - cbn in L. injection L as <-. destruct S as (S & _). destruct (S eFlow2 (or_intror eq_refl)) as [_ P _ _ _ _ _ _ _ _ _ _ _ _ _]. apply (P eq_refl 0). now left.
Qed.
Print Assumptions C74_files_refuted.

(** ** A dependence without a description: the pass crashes *)
Definition dNull : desc := Desc false false None false (Some None) None None false false false false false false false.
Lemma dNull_sound R I D : sound R I D dNull (only eFlow2).
Proof.
  split; [|intros [] p H; discriminate]. intros e ->. constructor; cbn; try (intros; discriminate).
  - intros _ k n H. destruct k; cbn; [discriminate| |]; occ H; absurds.
  - intros [] p r H; discriminate.
  - intros [] p i r H; discriminate.
  - reflexivity.
Qed.
Theorem C74_null_refuted : ~ C74_claim (Conds true true true false).
Proof.
  intro C. destruct (C noR noI anyD [(fFlow2, only eFlow2)] dNull (only eFlow2)) as (d1 & L & S).
  - intro e. split; [intro H; now left|intro H; inversion H as [? ? H1|? ? H1]; [exact H1|inversion H1]].
  - constructor; [apply fFlow2_ok|constructor].
  - intros _. repeat constructor. intros e H. exact H.
  - discriminate.
  - apply dNull_sound.
  - cbn in L. discriminate.
Qed.
Print Assumptions C74_null_refuted.

(** ** Causes of dependencies are lost *)
Theorem C74_causes_refuted : ~ forall f d d1 p p1 c, update f d = Ok d1 -> flowD d = Some (Some p) -> In c (dCauses p) -> flowD d1 = Some (Some p1) -> In c (dCauses p1).
Proof. intro C. exact (C fFlow2 (dUnknown false) _ _ _ 1 eq_refl eq_refl (or_introl eq_refl) eq_refl). Qed.
Print Assumptions C74_causes_refuted.

(** ** Written results *)
Definition dFlow (may : bool) (r : range) : desc := Desc false false None false (Some (Some (Dep may [1] [r]))) None None false false false false false false false.
Lemma dFlow_sound R I D may r : within r 1 -> sound R I D (dFlow may r) (only eFlow2).
Proof.
  intro WI. split.
  - intros e ->. constructor; cbn; try (intros; discriminate).
    + intros _ k n H. destruct k; cbn; [discriminate| |]; occ H; absurds.
    + intros [] p q H; try discriminate. injection H as <-. cbn. intro H. injection H as <-. intros n H. occ H. exact WI.
    + intros [] p i q H; try discriminate. injection H as <-. destruct i; discriminate.
    + reflexivity.
  - intros [] p H; try discriminate. intros _. exists eFlow2, 1. split; [reflexivity|]. split; [lia|]. exists 0. split; [cbn; absurds|intros; lia].
Qed.
Lemma within11 : within (Some 1%Z, Some 1%Z) 1.
Proof. split; cbn [fst snd]; intros z Z; injection Z as <-; lia. Qed.
Example C74_roundtrip_example : exists d1, roundTrip (dFlow false (Some 1%Z, Some 1%Z)) = Ok d1 /\ flowD d1 = Some (Some (Dep false [] [(Some 1%Z, Some 1%Z)])) /\ sound noR noI anyD d1 (only eFlow2).
Proof.
  destruct (C74_roundtrip_partial noR noI anyD (dFlow false (Some 1%Z, Some 1%Z)) (only eFlow2)) as (d1 & L & S); try (intros; discriminate).
  - reflexivity.
  - intros _. now right.
  - intros _ [] p r z H; try discriminate. injection H as <-. cbn. intro H. injection H as <-. cbn [fst snd]. intros [H|H]; injection H as <-; lia.
  - intros _ [] p H; try discriminate. injection H as <-. reflexivity.
  - intros _ []; discriminate.
  - apply dFlow_sound. exact within11.
  - exists d1. split; [exact L|]. vm_compute in L. injection L as <-. split; [reflexivity|exact S].
Qed.

(** A private variable becomes shared *)
Definition dPriv : desc := Desc false false None false None None None true false false false false false false.
Theorem C74_roundtrip_private_refuted : ~ C74_roundtrip_claim (CondsW false true true true true true).
Proof.
  intro C. destruct (C noR noI anyD dPriv (only ePriv2)) as (d1 & L & S); try (intros; discriminate).
  - reflexivity.
  - intros _. now left.
  - intros _ [] p r z H; discriminate.
  - intros _ [] p H; discriminate.
  - intros _ []; discriminate.
  - split; [|intros [] p H; discriminate]. intros e ->. constructor; cbn; try (intros; discriminate).
    + intros _. its_all.
    + intros [H|[H|H]]; now destruct H.
    + intros [] p r H; discriminate.
    + intros [] p i r H; discriminate.
    + reflexivity.
  - cbn in L. injection L as <-. destruct S as (S & _). destruct (S ePriv2 eq_refl) as [_ _ _ _ IN _ _ _ _ _ _ _ _ _ _]. destruct (IN eq_refl 0 1 ltac:(lia)) as (_ & W); [now left|]. apply W. now left.
Qed.
Print Assumptions C74_roundtrip_private_refuted.
(** A variable with a value from outside a loop becomes private *)
Theorem C74_roundtrip_first_refuted : ~ C74_roundtrip_claim (CondsW true false true true true true).
Proof.
  intro C. destruct (C noR noI anyD (dFirst true) (only eFirst1)) as (d1 & L & S); try (intros; discriminate).
  - reflexivity.
  - intros _. now left.
  - intros _ [] p r z H; discriminate.
  - intros _ [] p H; discriminate.
  - intros _ []; discriminate.
  - apply dFirst_sound.
  - cbn in L. injection L as <-. destruct S as (S & _). destruct (S eFirst1 eq_refl) as [_ _ _ _ _ P _ _ _ _ _ _ _ _ _]. apply (P eq_refl 0). reflexivity.
Qed.
Print Assumptions C74_roundtrip_first_refuted.
(** Distances of an anti-dependence are replaced with distances of a flow-dependence *)
Definition eAnti4 := Exec [[Rd]; []; [Wr]; [Rd]] false.
Definition dBoth : desc := Desc false false None false (Some (Some (Dep false [1] [(Some 1%Z, Some 1%Z)]))) (Some (Some (Dep false [1] [(Some 2%Z, Some 2%Z)]))) None false false false false false false false.
Theorem C74_roundtrip_anti_refuted : ~ C74_roundtrip_claim (CondsW true true false true true true).
Proof.
  intro C. destruct (C noR noI anyD dBoth (only eAnti4)) as (d1 & L & S); try (intros; discriminate).
  - reflexivity.
  - intros _ [] p r z H; try discriminate; injection H as <-; cbn; intro H; injection H as <-; cbn [fst snd]; intros [H|H]; injection H as <-; lia.
  - intros _ [] p H; try discriminate; injection H as <-; reflexivity.
  - intros _ []; discriminate.
  - split.
    + intros e ->. constructor; cbn; try (intros; discriminate).
      * intros _ k n H. destruct k; cbn; [discriminate|discriminate|]. occ H; absurds.
      * intros [] p r H; try discriminate; injection H as <-; cbn; intro H; injection H as <-; intros n H; occ H; try (exfalso; absurds; fail); split; cbn [fst snd]; intros z Z; injection Z as <-; lia.
      * intros [] p i r H; try discriminate; injection H as <-; destruct i; discriminate.
      * reflexivity.
    + intros [] p H; try discriminate; intros _; exists eAnti4.
      * exists 1. split; [reflexivity|]. split; [lia|]. exists 2. split; [cbn; absurds|intros; lia].
      * exists 2. split; [reflexivity|]. split; [lia|]. exists 0. split; [cbn; absurds|]. intros m M1 M2. assert (m = 1) as -> by lia. cbn. intros [].
  - vm_compute in L. injection L as <-. destruct S as (S & _). destruct (S eAnti4 eq_refl) as [_ _ _ _ _ _ _ _ _ _ _ _ CD _ _]. destruct (CD KAnti _ _ eq_refl eq_refl 2) as (_ & H); [|specialize (H _ eq_refl); lia].
    split; [lia|]. exists 0. split; [cbn; absurds|]. intros m M1 M2. assert (m = 1) as -> by lia. cbn. intros [].
Qed.
Print Assumptions C74_roundtrip_anti_refuted.
(** A distance is truncated *)
Theorem C74_roundtrip_int_refuted : ~ C74_roundtrip_claim (CondsW true true true false true true).
Proof.
  intro C. destruct (C noR noI anyD (dFlow false (None, Some (2 ^ 32)%Z)) (only eFlow2)) as (d1 & L & S); try (intros; discriminate).
  - reflexivity.
  - intros _. now right.
  - intros _ [] p H; try discriminate. injection H as <-. reflexivity.
  - intros _ []; discriminate.
  - apply dFlow_sound. split; cbn [fst snd]; intros z Z; [discriminate|]. injection Z as <-. lia.
  - vm_compute in L. injection L as <-. destruct S as (S & _). destruct (S eFlow2 eq_refl) as [_ _ _ _ _ _ _ _ _ _ _ _ CD _ _]. destruct (CD KFlow _ _ eq_refl eq_refl 1) as (_ & H); [|specialize (H _ eq_refl); lia].
    split; [lia|]. exists 0. split; [cbn; absurds|intros; lia].
Qed.
Print Assumptions C74_roundtrip_int_refuted.
(** A possible dependence becomes a dependence which occurs *)
Theorem C74_roundtrip_may_refuted : ~ C74_roundtrip_claim (CondsW true true true true false true).
Proof.
  intro C. destruct (C noR noI anyD (dFlow true (None, None)) (only eRead)) as (d1 & L & S); try (intros; discriminate).
  - reflexivity.
  - intros _. now right.
  - intros _ [] p r z H; try discriminate. injection H as <-. cbn. intro H. injection H as <-. cbn [fst snd]. intros [H|H]; discriminate.
  - intros _ []; discriminate.
  - split; [|intros [] p H; try discriminate; injection H as <-; discriminate]. intros e ->. constructor; cbn; try (intros; discriminate).
    + intros _ k n H. occ H.
    + intros k p r _ _ n H. occ H.
    + intros [] p i r H; try discriminate. injection H as <-. destruct i; discriminate.
    + reflexivity.
  - vm_compute in L. injection L as <-. destruct S as (_ & S). destruct (S KFlow _ eq_refl eq_refl) as (e & n & -> & H). occ H.
Qed.
Print Assumptions C74_roundtrip_may_refuted.
Theorem C74_roundtrip_null_refuted : ~ C74_roundtrip_claim (CondsW true true true true true false).
Proof.
  intro C. destruct (C noR noI anyD dNull (only eFlow2)) as (d1 & L & S); try (intros; discriminate).
  - reflexivity.
  - intros _. now right.
  - intros _ [] p r z H; discriminate.
  - intros _ [] p H; discriminate.
  - apply dNull_sound.
Qed.
Print Assumptions C74_roundtrip_null_refuted.

(** ** Search in a file *)
Definition l1 : loopRec := LoopRec (Some 7) [] [1] [] [0; 1] [0; 1] [] [] [(0, (Some 1%Z, None))].
Definition l2 : loopRec := LoopRec (Some 8) [(0, 3)] [] [1] [0] [0; 1] [] [] [].
Example C74_lookup_example : external (Info [Some 20; Some 30; None] [l1; l2]) 7 20 = Some (Entry None false false true true false None (Some (Some 1%Z, None))) /\
  external (Info [Some 20; Some 30; None] [l1; l2]) 8 30 = Some (Entry None false true false true false None None) /\ external (Info [Some 20; Some 30; None] [l1; l2]) 9 30 = None.
Proof. repeat split. Qed.
Theorem C74_lookup_loops_refuted : ~ C74_lookup_claim false true.
Proof.
  intro C. pose (I := Info [Some 20] [LoopRec (Some 7) [] [] [] [0] [] [] [] []; LoopRec (Some 7) [] [] [] [] [] [0] [] []]). specialize (C I 7 20 ltac:(discriminate)). cbn [external] in C.
  destruct C as (_ & _ & _ & _ & O & _).
  - intros _ [|[|i]] [|[|j]] A B; try reflexivity; discriminate.
  - intros L [<-|[<-|[]]]; repeat constructor.
  - destruct O as (_ & O). discriminate O. exists (LoopRec (Some 7) [] [] [] [] [] [0] [] []), 0. repeat split; [right; now left|now left].
Qed.
Print Assumptions C74_lookup_loops_refuted.
Theorem C74_lookup_vars_refuted : ~ C74_lookup_claim true false.
Proof.
  intro C. pose (I := Info [Some 20; Some 20] [LoopRec (Some 7) [] [] [] [] [] [] [] [(0, (Some 1%Z, Some 1%Z)); (1, (Some 2%Z, Some 2%Z))]]).
  assert (U : forall L1 L2 : loopRec, In L1 (loops I) -> In L2 (loops I) -> lLoc L1 = Some 7 -> lLoc L2 = Some 7 -> L1 = L2) by (intros L1 L2 [<-|[]] [<-|[]] _ _; reflexivity).
  specialize (C I 7 20 (fun _ => U) ltac:(discriminate)). destruct C as (_ & _ & _ & _ & _ & _ & _ & F).
  - intros L [<-|[]]. cbn. repeat constructor; cbn; intuition discriminate.
  - destruct (F (Some 1%Z, Some 1%Z)) as (_ & F1). discriminate F1. exists (LoopRec (Some 7) [] [] [] [] [] [] [] [(0, (Some 1%Z, Some 1%Z)); (1, (Some 2%Z, Some 2%Z))]), 0. repeat split; now left.
Qed.
Print Assumptions C74_lookup_vars_refuted.
