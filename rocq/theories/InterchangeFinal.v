(** Proofs about the interchange of loops: the main theorem. *)
From Coq Require Import ZArith List Bool Lia Permutation.
From Verif Require Import CanonModel CanonSpec InterchangeModel InterchangeSpec InterchangeProof InterchangeExec InterchangeNest.
Import ListNotations.
Local Open Scope Z_scope.

Section Machine.
Variable C : ctx.
Variable info : nat -> forInfo.
Variables globalAddr argVal allocAddr constVal : nat -> Z.
Variable compute : opcode -> list Z -> option Z.
Variable callSem : nat -> list Z -> memory -> Z -> Prop.
Variable nary : nat -> list Z -> Z.
Variable varAddr : nat -> Z.
Variable goOn : nat -> Z -> Z -> bool.
Variable norm : nat -> Z -> Z.
Variable B : memory -> option memory.
Notation denotes := (denotes C globalAddr argVal allocAddr constVal compute callSem).
Notation startIs := (startIs C info globalAddr argVal allocAddr constVal compute callSem).
Notation endIs := (endIs C info globalAddr argVal allocAddr constVal compute callSem).
Notation stepIs := (stepIs C info globalAddr argVal allocAddr constVal compute callSem nary).
Notation addrOf := (addrOf info varAddr).
Notation loopRel := (loopRel C info globalAddr argVal allocAddr constVal compute callSem nary varAddr goOn norm).
Notation run := (run C info globalAddr argVal allocAddr constVal compute callSem nary varAddr goOn norm B).
Notation after := (after norm).
Variable covers : nat -> Z -> Prop.
Variable fs : list nat.
Variable m0 : memory.
Variable k0 : nat -> Z.
Variables R W : list Z -> Z -> Prop.
Variable red : Z -> option (Z -> Z -> Z).
Notation trip := (trip C info globalAddr argVal allocAddr constVal compute callSem nary goOn norm m0 k0).
Notation valueAt := (valueAt C info globalAddr argVal allocAddr constVal compute callSem nary norm m0 k0).
Notation inSpace := (inSpace C info globalAddr argVal allocAddr constVal compute callSem nary goOn norm fs m0 k0).
Notation isVarOf := (isVarOf info varAddr).
Notation similar := (similar C info globalAddr argVal allocAddr constVal compute callSem nary varAddr goOn norm fs m0 k0 W).
Notation written := (written C info globalAddr argVal allocAddr constVal compute callSem nary goOn norm fs m0 k0 W).
Notation atIter := (atIter C info globalAddr argVal allocAddr constVal compute callSem nary varAddr norm fs m0 k0).
Notation bodyRight := (bodyRight C info globalAddr argVal allocAddr constVal compute callSem nary varAddr goOn norm B fs m0 k0 R W red).
Notation noDepAt := (noDepAt C info globalAddr argVal allocAddr constVal compute callSem nary goOn norm fs m0 k0 R W).
Notation privateAt := (privateAt C info globalAddr argVal allocAddr constVal compute callSem nary goOn norm fs m0 k0 R W).
Notation lastAt := (lastAt C info globalAddr argVal allocAddr constVal compute callSem nary goOn norm fs m0 k0 R W).

Notation denotesS := (denotesS C globalAddr argVal allocAddr constVal compute callSem nary).
Notation traitsRight := (traitsRight C info globalAddr argVal allocAddr constVal compute callSem nary varAddr goOn norm covers fs m0 k0 R W red).
Notation canonicalRight := (canonicalRight C info globalAddr argVal allocAddr constVal compute callSem nary varAddr goOn norm fs m0 k0 W).
Notation aliasRight := (aliasRight C info globalAddr argVal allocAddr constVal compute callSem nary varAddr goOn norm covers fs m0 k0 W).
Notation inductionRight := (inductionRight info varAddr covers fs).
Notation headsCallFree := (headsCallFree C info fs).
Notation isPrivate := (isPrivate info covers fs).

Variable fuel : nat.
Variable ACC : forall J f, nth_error fs J = Some f -> fCanonical (info f) = true /\ exists ts d p, fDeps (info f) = Some ts /\ depLoop (fVar (info f)) ts None [] = (Some d, p, false) /\
    forall K g, (J < K)%nat -> nth_error fs K = Some g -> unused C d f fuel (info g).
Variable tree : treeRight C covers.
Variable BR : bodyRight.
Variable TR : traitsRight.
Variable IR : inductionRight.
Variable CR : canonicalRight.
Variable AR : aliasRight.
Variable CF : headsCallFree.
Variable NDv : NoDup (map addrOf fs).
Variable trips : forall f, In f fs -> exists n, trip f n.

Lemma NDa f g : In f fs -> In g fs -> addrOf f = addrOf g -> f = g.
Proof.
  clear - NDv. induction fs as [|a l IH]; intros Hf Hg E; [destruct Hf|]. cbn [map] in NDv. inversion NDv; subst.
  destruct Hf as [<-|Hf], Hg as [<-|Hg]; auto.
  - exfalso. apply H1. rewrite E. now apply in_map.
  - exfalso. apply H1. rewrite <- E. now apply in_map.
Qed.
Lemma NDf : NoDup fs.
Proof. eapply NoDup_map_inv. exact NDv. Qed.

(** * Bounds do not change *)
Definition isVarb (l : list nat) (x : Z) : bool := existsb (fun f => x =? addrOf f) l.
Lemma isVarb_spec l x : isVarb l x = true <-> isVarOf l x.
Proof.
  unfold isVarb. rewrite existsb_exists. split; intros (f & Hf & E); exists f; (split; [exact Hf|]); [now apply Z.eqb_eq|subst; apply Z.eqb_refl].
Qed.
Definition mm (m : memory) (I : nat) : memory := fun x => if isVarb (firstn I fs) x then m x else m0 x.
Definition kk (k : nat -> Z) (I : nat) : nat -> Z := fun g => if inb g (firstn I fs) then k g else k0 g.
Lemma firstn_in {A} (l : list A) n x : In x (firstn n l) -> In x l.
Proof. revert n. induction l as [|a l IH]; intros [|n] H; cbn in *; try tauto. destruct H; eauto. Qed.
Lemma firstn_S {A} (l : list A) n x : nth_error l n = Some x -> firstn (S n) l = firstn n l ++ [x].
Proof. revert n. induction l as [|a l IH]; intros [|n] H; try discriminate; cbn [nth_error firstn app] in *; [now injection H as ->|]. f_equal. now apply IH. Qed.
Lemma mm_similar m I : similar (mm m I).
Proof.
  intros x _ Hx. unfold mm. destruct (isVarb (firstn I fs) x) eqn:E; [|reflexivity]. exfalso. apply isVarb_spec in E. destruct E as (f & Hf & ->). apply Hx. exists f. split; [eapply firstn_in; eauto|reflexivity].
Qed.
Lemma mm_step m I f x : nth_error fs I = Some f -> x <> addrOf f -> mm m I x = mm m (S I) x.
Proof.
  intros Hf Ne. unfold mm. rewrite (firstn_S fs I f Hf). unfold isVarb. rewrite existsb_app. cbn [existsb].
  destruct (Z.eqb_spec x (addrOf f)); [contradiction|]. now rewrite !orb_false_r.
Qed.
Lemma kk_step k I f g : nth_error fs I = Some f -> g <> f -> kk k I g = kk k (S I) g.
Proof.
  intros Hf Ne. unfold kk. rewrite (firstn_S fs I f Hf). unfold inb. rewrite existsb_app. cbn [existsb].
  destruct (Nat.eqb_spec g f); [contradiction|]. now rewrite !orb_false_r.
Qed.
Definition same (f : nat) (m m' : memory) (k k' : nat -> Z) : Prop :=
  (forall z, startIs f m z -> startIs f m' z) /\ (forall z, endIs f m z -> endIs f m' z) /\ (forall z, stepIs f m k z -> stepIs f m' k' z).
Lemma same_step m k I J f g : nth_error fs I = Some g -> nth_error fs J = Some f -> (I < J)%nat -> same f (mm m I) (mm m (S I)) (kk k I) (kk k (S I)).
Proof.
  intros Hg Hf L. destruct (ACC I g Hg) as (_ & ts & dd & p & Ets & Ed & Un). specialize (Un J f L Hf). destruct Un as (U1 & U2 & U3).
  destruct (depLoop_spec _ _ _ _ _ _ Ed) as [_ [K|(t & Ht & Et & Ei & Es)]]; [discriminate|]. injection Et as ->.
  assert (Hd : covers (tNode t) (addrOf g)). { eapply IR; [eapply nth_error_In; exact Hg|exact Ets|exact Ht|exact Ei|exact Es]. }
  assert (Hif : In f fs) by (eapply nth_error_In; exact Hf).
  assert (UN : forall v z fu, callFree C v -> accessedIn C (tNode t) fu v = Some false -> denotes (mm m I) v z -> denotes (mm m (S I)) v z).
  { intros v z fu Cv Av Dv. eapply (proj1 (unaccessed C globalAddr argVal allocAddr constVal compute callSem covers tree (mm m I) (mm m (S I)) (fun (x : nat) (p : value) (a : Z) (n : nat) => AR (mm m I) x p a n (mm_similar m I)) (tNode t) (addrOf g) Hd (fun x => mm_step m I g x Hg))); eauto. }
  repeat split.
  - intros z (v & Ev & Dv). exists v. split; [exact Ev|]. rewrite Ev in U1. cbn [accessedInO] in U1. eapply UN; [|exact U1|exact Dv]. apply (CF f v Hif). now left.
  - intros z (v & Ev & Dv). exists v. split; [exact Ev|]. rewrite Ev in U2. cbn [accessedInO] in U2. eapply UN; [|exact U2|exact Dv]. apply (CF f v Hif). right. now left.
  - intros z (v & Ev & Dv). exists v. split; [exact Ev|]. rewrite Ev in U3. cbn [accessedInStep] in U3. destruct (hasRec g v) eqn:Eh; [discriminate|].
    eapply (proj1 (unaccessedS C globalAddr argVal allocAddr constVal compute callSem nary covers tree (mm m I) (mm m (S I)) (fun (x : nat) (p : value) (a : Z) (n : nat) => AR (mm m I) x p a n (mm_similar m I)) (tNode t) (addrOf g) Hd (fun x => mm_step m I g x Hg) (kk k I) (kk k (S I)) g (fun h => kk_step k I g h Hg))); [exact Dv| |exact Eh].
    intros w Hw. split; [|exists fuel; eapply anyAccessed_false; eauto]. apply (CF f w Hif). right. right. eauto.
Qed.
Lemma same_prefix m k J f : nth_error fs J = Some f -> forall I, (I <= J)%nat -> same f (mm m 0) (mm m I) (kk k 0) (kk k I).
Proof.
  intros Hf. induction I as [|I IH]; intros L; [repeat split; auto|]. destruct (nth_error fs I) as [g|] eqn:Eg.
  - destruct (IH ltac:(lia)) as (A1 & A2 & A3). destruct (same_step m k I J f g Eg Hf ltac:(lia)) as (B1 & B2 & B3). repeat split; auto.
  - exfalso. apply nth_error_None in Eg. assert (J < length fs)%nat by (apply nth_error_Some; congruence). lia.
Qed.
Lemma same_all m k f : In f fs -> similar m -> (forall g, ~ In g fs -> k g = k0 g) -> same f m0 m k0 k.
Proof.
  intros Hf Sm Hk. apply In_nth_error in Hf. destruct Hf as (J & HJ). destruct (same_prefix m k J f HJ J (le_n J)) as (A1 & A2 & A3).
  destruct (CR J f (mm m J) m (kk k J) k HJ (proj1 (ACC J f HJ)) (mm_similar m J) Sm) as (B1 & B2 & B3).
  - intros x Wx Vx. unfold mm. destruct (isVarb (firstn J fs) x) eqn:E; [reflexivity|]. symmetry. apply Sm; [exact Wx|]. intros (g & Hg & ->).
    rewrite <- (firstn_skipn J fs) in Hg. apply in_app_iff in Hg. destruct Hg as [Hg|Hg]; [|apply Vx; exists g; auto].
    assert (isVarb (firstn J fs) (addrOf g) = true) by (apply isVarb_spec; exists g; auto). congruence.
  - intros g Hg. unfold kk. destruct (inb g (firstn J fs)) eqn:E; [reflexivity|]. symmetry. apply Hk. intros K.
    rewrite <- (firstn_skipn J fs) in K. apply in_app_iff in K. destruct K as [K|K]; [|contradiction]. apply inb_spec in K. congruence.
  - assert (E0 : mm m 0 = m0) by reflexivity. assert (K0 : kk k 0 = k0) by reflexivity. rewrite E0, K0 in *. repeat split; auto.
Qed.
Lemma start_det f m z z' : In f fs -> startIs f m z -> startIs f m z' -> z = z'.
Proof. intros Hf (v & E & D) (v' & E' & D'). assert (v = v') by congruence. subst v'. eapply (proj1 (denotes_det C globalAddr argVal allocAddr constVal compute callSem m)); eauto; apply (CF f v Hf); auto. Qed.
Lemma end_det f m z z' : In f fs -> endIs f m z -> endIs f m z' -> z = z'.
Proof. intros Hf (v & E & D) (v' & E' & D'). assert (v = v') by congruence. subst v'. eapply (proj1 (denotes_det C globalAddr argVal allocAddr constVal compute callSem m)); eauto; apply (CF f v Hf); auto. Qed.
Lemma step_det f m k z z' : In f fs -> stepIs f m k z -> stepIs f m k z' -> z = z'.
Proof.
  intros Hf (v & E & D) (v' & E' & D'). assert (v = v') by congruence. subst v'.
  eapply (proj1 (denotesS_det C globalAddr argVal allocAddr constVal compute callSem nary m k)); eauto. intros w Hw. apply (CF f w Hf). right. right. eauto.
Qed.

(** * Classes of locations *)
Lemma kinds ks x I f : inSpace ks -> W ks x \/ R ks x -> nth_error fs I = Some f ->
  noDepAt I x \/ (privateAt I x /\ isPrivate x) \/ red x <> None \/ lastAt x.
Proof.
  intros Hs Hx Hf. destruct (ACC I f Hf) as (_ & ts & dd & p & Ets & Ed & _). destruct (depLoop_spec _ _ _ _ _ _ Ed) as [Ok _].
  destruct (TR I f ts ks x Hf Ets Hs Hx) as (t & Ht & Cv & Hc & Sc & T1 & T2 & T3 & T4).
  destruct (Ok t Ht Cv) as [K|[K|[K|[[K1 K2]|K]]]]; auto.
  - right. left. split; [auto|]. exists f, ts, t. repeat split; auto. eapply nth_error_In; exact Hf.
  - exfalso. destruct BR as (F & _). apply (F ks x Hs Hx). exists f. split; [eapply nth_error_In; exact Hf|]. apply Sc. exact K2.
Qed.
Lemma all_kinds ks x n : inSpace ks -> W ks x \/ R ks x ->
  red x <> None \/ lastAt x \/ (forall I, (I < n)%nat -> (I < length fs)%nat -> noDepAt I x) \/
  ((exists I, (I < n)%nat /\ (I < length fs)%nat /\ privateAt I x /\ isPrivate x) /\ forall I, (I < n)%nat -> (I < length fs)%nat -> noDepAt I x \/ privateAt I x).
Proof.
  intros Hs Hx. induction n as [|n IH]; [right; right; left; intros; lia|].
  destruct IH as [IH|[IH|IH]]; auto. destruct (nth_error fs n) as [f|] eqn:Ef.
  - assert (Ln : (n < length fs)%nat) by (apply nth_error_Some; congruence).
    destruct (kinds ks x n f Hs Hx Ef) as [K|[[K K']|[K|K]]]; auto.
    + destruct IH as [IH|[(I & A1 & A2 & A3) IH]].
      * right. right. left. intros J LJ LJ'. destruct (Nat.eq_dec J n) as [->|]; [exact K|]. apply IH; lia.
      * right. right. right. split; [exists I; split; [lia|auto]|]. intros J LJ LJ'. destruct (Nat.eq_dec J n) as [->|]; [now left|]. apply IH; lia.
    + right. right. right. split; [exists n; auto|]. intros J LJ LJ'. destruct (Nat.eq_dec J n) as [->|]; [now right|].
      destruct IH as [IH|[_ IH]]; [left|]; apply IH; lia.
  - apply nth_error_None in Ef. right. right. destruct IH as [IH|[(I & A1 & A2 & A3) IH]].
    + left. intros J LJ LJ'. apply IH; lia.
    + right. split; [exists I; split; [lia|auto]|]. intros J LJ LJ'. apply IH; lia.
Qed.
Lemma Forall2_len {A B'} (P : A -> B' -> Prop) l l' : Forall2 P l l' -> length l = length l'.
Proof. induction 1; cbn [length]; congruence. Qed.
Lemma space_length ks : inSpace ks -> length ks = length fs.
Proof. intros H. symmetry. exact (Forall2_len _ _ _ H). Qed.
Lemma private_noRead x : (forall I, (I < length fs)%nat -> noDepAt I x \/ privateAt I x) ->
  forall n I ks, (length fs - I = n)%nat -> privateAt I x -> inSpace ks -> R ks x -> False.
Proof.
  intros HK. induction n as [n IH] using lt_wf_ind. intros I ks En HP Hs Hr.
  destruct (HP ks Hs Hr) as (ks' & Hs' & Ep & Ne & Hw).
  destruct (diff_at Z.eq_dec ks' ks) as (J & D1 & D2 & D3); [now rewrite !space_length|exact Ne|]. rewrite space_length in D3 by exact Hs'.
  assert (LJ : (S I <= J)%nat).
  { destruct (le_lt_dec (S I) J) as [|L]; [assumption|]. exfalso. apply D2.
    rewrite <- (nth_firstn ks' (S I) J) by lia. rewrite <- (nth_firstn ks (S I) J) by lia. now rewrite Ep. }
  destruct (HK J D3) as [K|K].
  - apply (K ks' ks Hs' Hs D1 D2 Hw). exact Hr.
  - exact (IH (length fs - J)%nat ltac:(lia) J ks eq_refl K Hs Hr).
Qed.
Lemma classes ks x : inSpace ks -> W ks x \/ R ks x ->
  red x <> None \/ (forall ks ks', inSpace ks -> inSpace ks' -> ks <> ks' -> W ks x -> ~ W ks' x /\ ~ R ks' x) \/
  ((forall ks, inSpace ks -> ~ R ks x) /\ (isPrivate x \/ lastAt x)).
Proof.
  intros Hs Hx. destruct (all_kinds ks x (length fs) Hs Hx) as [K|[K|[K|[(I & A1 & A2 & A3 & A4) K]]]].
  - now left.
  - right. right. split; [|now right]. intros ks' Hs' Hr. exact (proj2 (K ks' Hs') Hr).
  - right. left. intros k1 k2 H1 H2 Ne Hw. destruct (diff_at Z.eq_dec k1 k2) as (J & D1 & D2 & D3); [now rewrite !space_length|exact Ne|].
    rewrite space_length in D3 by exact H1. exact (K J D3 D3 k1 k2 H1 H2 D1 D2 Hw).
  - right. right. split; [|now left]. intros ks' Hs' Hr. eapply (private_noRead x); [intros J LJ; now apply K|reflexivity|exact A3|exact Hs'|exact Hr].
Qed.

Theorem interchanged hs st st' : Permutation fs hs -> mem st = m0 -> cnt st = k0 -> run fs st st' -> exists st'', run hs st st'' /\
  forall x, ~ isPrivate x -> ~ (isVarOf fs x /\ exists f, In f fs /\ trip f 0) -> mem st' x = mem st'' x.
Proof.
  intros P Em Ek HR.
  destruct (finite_choice (fun f t => let '(n, s, e, d) := t in startIs f m0 s /\ endIs f m0 e /\ stepIs f m0 k0 d /\ 0 <= n /\
    (forall j, 0 <= j < n -> goOn f (after f s d (Z.to_nat j)) e = true) /\ goOn f (after f s d (Z.to_nat n)) e = false) (0, 0, 0, 0) fs) as (g & Hg).
  { intros f Hf. destruct (trips f Hf) as (n & s & e & d & T). exists (n, s, e, d). exact T. }
  set (N := fun f => fst (fst (fst (g f)))). set (s := fun f => snd (fst (fst (g f)))). set (e := fun f => snd (fst (g f))). set (d := fun f => snd (g f)).
  assert (HN : forall f, In f fs -> startIs f m0 (s f) /\ endIs f m0 (e f) /\ stepIs f m0 k0 (d f) /\ 0 <= N f /\
    (forall j, 0 <= j < N f -> goOn f (after f (s f) (d f) (Z.to_nat j)) (e f) = true) /\ goOn f (after f (s f) (d f) (Z.to_nat (N f))) (e f) = false).
  { intros f Hf. specialize (Hg f Hf). unfold N, s, e, d. destruct (g f) as [[[n' s'] e'] d']. exact Hg. }
  destruct (permuted C info globalAddr argVal allocAddr constVal compute callSem nary varAddr goOn norm B covers fs m0 k0 R W red N s e d HN) with (hidden := isPrivate) (hs := hs) (st := st) (st' := st') as (st'' & HR' & Q); auto.
  - intros f m k Hf Sm Hk. destruct (same_all m k f Hf Sm Hk) as (A1 & A2 & A3). destruct (HN f Hf) as (B1 & B2 & B3 & _).
    split; [|split]; intros z; (split; [intros H|intros ->; auto]).
    + eapply start_det; [exact Hf|exact H|auto].
    + eapply end_det; [exact Hf|exact H|auto].
    + eapply step_det; [exact Hf|exact H|auto].
  - apply NDf.
  - apply NDa.
  - exact classes.
  - exists st''. split; [exact HR'|]. intros x Hp Hz. apply Q; [|exact Hp]. intros (V & f & Hf & E). apply Hz. split; [exact V|]. exists f. split; [exact Hf|].
    pose proof (HN f Hf) as T. rewrite E in T. exists (s f), (e f), (d f). exact T.
Qed.
End Machine.
