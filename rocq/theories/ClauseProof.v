(** Proofs about recognition of clauses (C101). *)
From Coq Require Import List Bool Arith Lia.
From Verif Require Import ClauseModel ClauseSpec.
Import ListNotations.

Scheme item_mind := Induction for item Sort Prop
with seq_mind := Induction for seq Sort Prop
with alts_mind := Induction for alts Sort Prop.
Combined Scheme grammar_ind from item_mind, seq_mind, alts_mind.

(** ** Recognition with ordered choice *)
Definition nomatch (k : nat) (ts : list tok) : Prop := match ts with t :: _ => fst t <> k | [] => True end.
Inductive okI : item -> list tok -> list tok -> list tok -> Prop :=
| okI_tok : forall k v ts, okI (Tk k) ((k, v) :: ts) [(k, v)] ts
| okI_opt1 : forall b ts c r, okS b ts c r -> okI (Opt b) ts c r
| okI_opt0 : forall b ts, flS b ts -> okI (Opt b) ts [] ts
| okI_many : forall b ts c r, okM b ts c r -> okI (Many b) ts c r
| okI_many1 : forall b ts c r c' r', okS b ts c r -> okM b r c' r' -> okI (Many1 b) ts (c ++ c') r'
| okI_ch : forall a ts c r, okA a ts c r -> okI (Choice a) ts c r
with flI : item -> list tok -> Prop :=
| flI_tok : forall k ts, nomatch k ts -> flI (Tk k) ts
| flI_many1 : forall b ts, flS b ts -> flI (Many1 b) ts
| flI_ch : forall a ts, flA a ts -> flI (Choice a) ts
with okS : seq -> list tok -> list tok -> list tok -> Prop :=
| okS_nil : forall ts, okS Nil ts [] ts
| okS_cons : forall i s ts c r c' r', okI i ts c r -> okS s r c' r' -> okS (Cons i s) ts (c ++ c') r'
with flS : seq -> list tok -> Prop :=
| flS_here : forall i s ts, flI i ts -> flS (Cons i s) ts
| flS_next : forall i s ts c r, okI i ts c r -> flS s r -> flS (Cons i s) ts
with okM : seq -> list tok -> list tok -> list tok -> Prop :=
| okM_stop : forall b ts, flS b ts -> okM b ts [] ts
| okM_more : forall b ts c r c' r', okS b ts c r -> okM b r c' r' -> okM b ts (c ++ c') r'
with okA : alts -> list tok -> list tok -> list tok -> Prop :=
| okA_tok : forall k v a ts, okA (ATok k a) ((k, v) :: ts) [(k, v)] ts
| okA_tokN : forall k a ts c r, nomatch k ts -> okA a ts c r -> okA (ATok k a) ts c r
| okA_one : forall b a ts c r, okS b ts c r -> okA (AOne b a) ts c r
| okA_oneN : forall b a ts c r, flS b ts -> okA a ts c r -> okA (AOne b a) ts c r
with flA : alts -> list tok -> Prop :=
| flA_end : forall ts, flA AEnd ts
| flA_tok : forall k a ts, nomatch k ts -> flA a ts -> flA (ATok k a) ts
| flA_one : forall b a ts, flS b ts -> flA a ts -> flA (AOne b a) ts.
Scheme okI_m := Minimality for okI Sort Prop with flI_m := Minimality for flI Sort Prop
with okS_m := Minimality for okS Sort Prop with flS_m := Minimality for flS Sort Prop
with okM_m := Minimality for okM Sort Prop with okA_m := Minimality for okA Sort Prop
with flA_m := Minimality for flA Sort Prop.
Combined Scheme peg_ind from okI_m, flI_m, okS_m, flS_m, okM_m, okA_m, flA_m.

Lemma peg_sound :
  (forall i ts c r, okI i ts c r -> langI i c /\ ts = c ++ r) /\ (forall i ts, flI i ts -> True) /\
  (forall s ts c r, okS s ts c r -> lang s c /\ ts = c ++ r) /\ (forall s ts, flS s ts -> True) /\
  (forall s ts c r, okM s ts c r -> langM s c /\ ts = c ++ r) /\
  (forall s ts c r, okA s ts c r -> langA s c /\ ts = c ++ r) /\ (forall s ts, flA s ts -> True).
Proof.
  apply peg_ind; intros; auto.
  - split; [constructor|reflexivity].
  - destruct H0. split; [apply l_opt1; assumption|assumption].
  - split; [apply l_opt0|reflexivity].
  - destruct H0. split; [apply l_many; assumption|assumption].
  - destruct H0, H2. split; [apply l_many1; assumption|]. rewrite <- app_assoc. congruence.
  - destruct H0. split; [apply l_choice; assumption|assumption].
  - split; [constructor|reflexivity].
  - destruct H0, H2. split; [apply l_cons; assumption|]. rewrite <- app_assoc. congruence.
  - split; [apply l_stop|reflexivity].
  - destruct H0, H2. split; [apply l_more; assumption|]. rewrite <- app_assoc. congruence.
  - split; [constructor|reflexivity].
  - destruct H1. split; [apply l_atokN; assumption|assumption].
  - destruct H0. split; [apply l_aone; assumption|assumption].
  - destruct H2. split; [apply l_aoneN; assumption|assumption].
Qed.
Lemma okM_total : forall b, (forall ts, (exists c r, okS b ts c r) \/ flS b ts) -> ~ lang b [] ->
  forall n ts, length ts <= n -> exists c r, okM b ts c r.
Proof.
  intros b T N. induction n as [|n IH]; intros ts L; destruct (T ts) as [(c & r & H) | H]; try (exists [], ts; apply okM_stop; exact H).
  - exfalso. destruct (proj1 (proj2 (proj2 peg_sound)) _ _ _ _ H) as [Lg E]. destruct c; [auto|].
    subst ts. cbn in L. lia.
  - destruct (proj1 (proj2 (proj2 peg_sound)) _ _ _ _ H) as [Lg E]. destruct c as [|x c]; [contradiction|].
    destruct (IH r) as (c' & r' & H'); [subst ts; cbn [app length] in L; rewrite app_length in L; lia|].
    exists ((x :: c) ++ c'), r'. eapply okM_more; eauto.
Qed.
Lemma peg_total :
  (forall i, wfI true true i -> forall ts, (exists c r, okI i ts c r) \/ flI i ts) /\
  (forall s, wf true true s -> forall ts, (exists c r, okS s ts c r) \/ flS s ts) /\
  (forall a, wfA true true a -> forall ts, (exists c r, okA a ts c r) \/ flA a ts).
Proof.
  apply grammar_ind; cbn [wfI wf wfA].
  - intros k _ [|[k' v] ts]; [right; apply flI_tok; exact Logic.I|].
    destruct (Nat.eq_dec k' k) as [-> | E]; [left; exists [(k, v)], ts; constructor|right; apply flI_tok; exact E].
  - intros b IH W ts. left. destruct (IH W ts) as [(c & r & H) | H]; [exists c, r; apply okI_opt1; exact H|].
    exists [], ts. apply okI_opt0. exact H.
  - intros b IH [W N] ts. left. destruct (okM_total b (IH W) (N eq_refl) _ ts (le_n _)) as (c & r & H).
    exists c, r. apply okI_many. exact H.
  - intros b IH [W N] ts. destruct (IH W ts) as [(c & r & H) | H]; [left|right; apply flI_many1; exact H].
    destruct (okM_total b (IH W) (N eq_refl) _ r (le_n _)) as (c' & r' & H').
    exists (c ++ c'), r'. eapply okI_many1; eauto.
  - intros a IH [_ W] ts. destruct (IH W ts) as [(c & r & H) | H]; [left; exists c, r; apply okI_ch; exact H|right; apply flI_ch; exact H].
  - intros _ ts. left. exists [], ts. constructor.
  - intros i IHi s IHs [Wi Ws] ts. destruct (IHi Wi ts) as [(c & r & H) | H]; [|right; apply flS_here; exact H].
    destruct (IHs Ws r) as [(c' & r' & H') | H']; [left; exists (c ++ c'), r'; eapply okS_cons; eauto|right; eapply flS_next; eauto].
  - intros _ ts. right. constructor.
  - intros k a IH W ts. assert (D : nomatch k ts \/ exists v ts', ts = (k, v) :: ts').
    { destruct ts as [|[k' v] ts]; [left; exact Logic.I|]. destruct (Nat.eq_dec k' k) as [-> | E]; [right; eauto|left; exact E]. }
    destruct D as [D | (v & ts' & ->)]; [|left; exists [(k, v)], ts'; constructor].
    destruct (IH W ts) as [(c & r & H) | H]; [left; exists c, r; apply okA_tokN; assumption|right; apply flA_tok; assumption].
  - intros b IHb a IHa (Wb & _ & Wa) ts. destruct (IHb Wb ts) as [(c & r & H) | H]; [left; exists c, r; apply okA_one; exact H|].
    destruct (IHa Wa ts) as [(c & r & H') | H']; [left; exists c, r; apply okA_oneN; assumption|right; apply flA_one; assumption].
Qed.

(** ** Positions in prototypes *)
Lemma loop_flat :
  (forall i n K, anchorLoop n (flatI i ++ K) = anchorLoop n K) /\
  (forall s n K, anchorLoop n (flat s ++ K) = anchorLoop n K) /\
  (forall a n K, anchorLoop n (flatA a ++ K) = anchorLoop n K).
Proof.
  apply grammar_ind; cbn [flatI flat flatA]; intros; try reflexivity.
  - cbn [app anchorLoop isSingle]. rewrite <- app_assoc, H. reflexivity.
  - cbn [app anchorLoop isSingle]. rewrite <- app_assoc, H. reflexivity.
  - cbn [app anchorLoop isSingle]. rewrite <- app_assoc, H. reflexivity.
  - cbn [app anchorLoop isSingle]. rewrite <- app_assoc, H. reflexivity.
  - rewrite <- app_assoc, H, H0. reflexivity.
  - cbn [app anchorLoop isSingle]. apply H.
  - cbn [app anchorLoop isSingle]. rewrite <- app_assoc, H. cbn [app anchorLoop]. apply H0.
Qed.
Lemma find_complex : forall e s K, isSingle e = false -> findAnchor (e :: flat s ++ EAnchor :: K) = EAnchor :: K.
Proof. intros e s K H. destruct e; try discriminate H; cbn [findAnchor]; rewrite (proj1 (proj2 loop_flat)); reflexivity. Qed.
Lemma find_choice : forall a K, findAnchor (EOneOf :: flatA a ++ EAnchor :: K) = EAnchor :: K.
Proof. intros a K. cbn [findAnchor]. rewrite (proj2 (proj2 loop_flat)). reflexivity. Qed.
Lemma skip_flat : forall s n K, length (flat s) < n -> skip n (flat s ++ EAnchor :: K) = EAnchor :: K.
Proof.
  induction s as [|i s IH]; intros n K L; (destruct n as [|n]; [lia|]); [reflexivity|].
  cbn [flat] in *. rewrite app_length in L. rewrite <- app_assoc.
  destruct i as [k | b | b | b | a]; cbn [flatI app skip isSingle] in *.
  - cbn [findAnchor]. rewrite (proj1 (proj2 loop_flat)). reflexivity.
  - rewrite <- app_assoc. cbn [app]. rewrite find_complex by reflexivity. cbn [tl]. apply IH. cbn [length] in L. lia.
  - rewrite <- app_assoc. cbn [app]. rewrite find_complex by reflexivity. cbn [tl]. apply IH. cbn [length] in L. lia.
  - rewrite <- app_assoc. cbn [app]. rewrite find_complex by reflexivity. cbn [tl]. apply IH. cbn [length] in L. lia.
  - rewrite <- app_assoc. cbn [app]. rewrite find_choice by reflexivity. cbn [tl]. apply IH. cbn [length] in L. lia.
Qed.

(** ** Simulation *)
Definition state : Type := list ek * list tok * list level * list tok.
Definition exec (n : nat) (s : state) : result := let '(I0, ts, st, out) := s in run n I0 ts st out.
Definition reach (s s' : state) : Prop := exists n, forall m, exec (n + m) s = exec m s'.
Definition bt (m : nat) (I0 : list ek) (st : list level) : result :=
  match backtrack I0 st with Some (I1, ts1, st1, out1) => run m (tl I1) ts1 st1 out1 | None => Reject end.
Definition fails (s : state) (I0 : list ek) (st : list level) : Prop := exists n, forall m, exec (S n + m) s = bt m I0 st.
Definition notChoice (st : list level) : Prop := match st with l :: _ => kind l <> EOneOf | [] => True end.
Lemma reach_refl : forall s, reach s s.
Proof. intros s. exists 0. reflexivity. Qed.
Lemma reach_trans : forall a b c, reach a b -> reach b c -> reach a c.
Proof. intros a b c [n H] [k K]. exists (n + k). intros m. rewrite <- Nat.add_assoc, H. apply K. Qed.
Lemma reach_step : forall a b c, (forall m, exec (S m) a = exec m b) -> reach b c -> reach a c.
Proof. intros a b c H [n K]. exists (S n). intros m. cbn [Nat.add]. rewrite H. apply K. Qed.
Lemma reach_fails : forall a b I0 st, reach a b -> fails b I0 st -> fails a I0 st.
Proof. intros a b I0 st [n H] [k K]. exists (n + k). intros m. replace (S (n + k) + m) with (n + (S k + m)) by lia. rewrite H. apply K. Qed.
Lemma step_fails : forall a b I0 st, (forall m, exec (S m) a = exec m b) -> fails b I0 st -> fails a I0 st.
Proof. intros a b I0 st H F. apply (reach_fails a b); [|exact F]. apply (reach_step a b); [exact H|apply reach_refl]. Qed.
Lemma fails_reach : forall s I0 st s' , fails s I0 st -> (forall m, bt m I0 st = exec m s') -> reach s s'.
Proof. intros s I0 st s' [n F] B. exists (S n). intros m. rewrite F. apply B. Qed.
Lemma fails_fails : forall s I0 st I1 st1, fails s I0 st -> backtrack I0 st = backtrack I1 st1 -> fails s I1 st1.
Proof. intros s I0 st I1 st1 [n F] B. exists n. intros m. rewrite F. unfold bt. rewrite B. reflexivity. Qed.
Lemma pop_not : forall I0 st, notChoice st -> popChoices I0 st = (I0, st).
Proof. intros I0 [|l st] H; [reflexivity|]. cbn in *. destruct (kind l); try reflexivity. contradiction. Qed.

Definition PokI (i : item) (ts c r : list tok) : Prop := wfI true true i -> forall K st out, notChoice st ->
  reach (flatI i ++ K, ts, st, out) (K, r, st, out ++ c).
Definition PflI (i : item) (ts : list tok) : Prop := wfI true true i -> forall K st out, notChoice st ->
  exists x, (mayFail i = false -> exists k, x = ETok k) /\ fails (flatI i ++ K, ts, st, out) (x :: K) st.
Definition PokS (s : seq) (ts c r : list tok) : Prop := wf true true s -> forall K st out, notChoice st ->
  reach (flat s ++ K, ts, st, out) (K, r, st, out ++ c).
Definition PflS (s : seq) (ts : list tok) : Prop := wf true true s -> forall K st out, notChoice st ->
  exists x s2, (simple s = true -> exists k, x = ETok k) /\ fails (flat s ++ K, ts, st, out) (x :: flat s2 ++ K) st.
Definition PokM (b : seq) (ts c r : list tok) : Prop := wf true true b -> forall K st out k occ,
  (k = EZeroOrMore \/ (k = EOneOrMore /\ occ = true)) ->
  reach (flat b ++ EAnchor :: K, ts, Lv (k :: flat b ++ EAnchor :: K) k occ ts out :: st, out) (K, r, st, out ++ c).
Definition PokA (a : alts) (ts c r : list tok) : Prop := wfA true true a -> forall K st out P,
  notChoice st -> findAnchor P = EAnchor :: K ->
  reach (flatA a ++ EAnchor :: K, ts, Lv P EOneOf false ts out :: st, out) (K, r, st, out ++ c).
Definition PflA (a : alts) (ts : list tok) : Prop := wfA true true a -> a <> AEnd -> forall K st out P,
  notChoice st -> findAnchor P = EAnchor :: K ->
  fails (flatA a ++ EAnchor :: K, ts, Lv P EOneOf false ts out :: st, out) (EAnchor :: K) st.

Lemma step_nomatch : forall k K ts st out m, nomatch k ts -> exec (S m) (ETok k :: K, ts, st, out) = bt m (ETok k :: K) st.
Proof.
  intros k K [|t ts] st out m H; cbn [exec run nomatch] in *; [reflexivity|].
  apply Nat.eqb_neq in H. rewrite H. reflexivity.
Qed.
Lemma fails_nomatch : forall k K ts st out, nomatch k ts -> fails (ETok k :: K, ts, st, out) (ETok k :: K) st.
Proof. intros k K ts st out H. exists 0. intros m. apply step_nomatch. exact H. Qed.
Lemma anchor_pop : forall K ts l st out, kind l <> EZeroOrMore -> kind l <> EOneOrMore -> notChoice st ->
  forall m, exec (S m) (EAnchor :: K, ts, l :: st, out) = exec m (K, ts, st, out).
Proof.
  intros K ts l st out H1 H2 N m. cbn [exec run]. destruct (kind l); try contradiction; rewrite (pop_not _ _ N); reflexivity.
Qed.
Lemma skip_bt : forall x s2 K, skip (length (x :: flat s2 ++ EAnchor :: K)) (flat s2 ++ EAnchor :: K) = EAnchor :: K.
Proof. intros x s2 K. apply skip_flat. cbn [length]. rewrite app_length. lia. Qed.
Lemma alts_head : forall a K, a <> AEnd -> exists e R, flatA a ++ K = e :: R /\ e <> EAnchor.
Proof. intros [|k a|b a] K H; [contradiction| |]; cbn [flatA app]; eexists _, _; (split; [reflexivity|discriminate]). Qed.
Lemma okA_not_end : forall a ts c r, okA a ts c r -> a <> AEnd.
Proof. intros a ts c r H. destruct H; discriminate. Qed.
Lemma bt_choice : forall x R a K l st m, kind l = EOneOf -> a <> AEnd -> R = flatA a ++ EAnchor :: K ->
  bt m (x :: R) (l :: st) = run m R (saved l) (l :: st) (savedOut l).
Proof.
  intros x R a K l st m E N ->. unfold bt. cbn [backtrack tl]. rewrite E.
  destruct (alts_head a (EAnchor :: K) N) as (e & Q & -> & Ne). destruct e; try reflexivity. contradiction.
Qed.

Lemma simulation :
  (forall i ts c r, okI i ts c r -> PokI i ts c r) /\ (forall i ts, flI i ts -> PflI i ts) /\
  (forall s ts c r, okS s ts c r -> PokS s ts c r) /\ (forall s ts, flS s ts -> PflS s ts) /\
  (forall s ts c r, okM s ts c r -> PokM s ts c r) /\
  (forall s ts c r, okA s ts c r -> PokA s ts c r) /\ (forall s ts, flA s ts -> PflA s ts).
Proof.
  apply peg_ind; unfold PokI, PflI, PokS, PflS, PokM, PokA, PflA; cbn [wfI wf wfA flatI flat flatA].
  - (* token *) intros k v ts _ K st out N. cbn [app]. exists 1. intros m. cbn [Nat.add exec run fst]. rewrite Nat.eqb_refl.
    destruct st as [|l st]; [reflexivity|]. cbn in N. destruct (kind l); try reflexivity. contradiction.
  - (* opt1 *) intros b ts c r _ IH W K st out N. cbn [app]. rewrite <- app_assoc. cbn [app].
    eapply reach_step; [intros m; cbn [exec run]; instantiate (1 := (_, _, _, _)); reflexivity|].
    eapply reach_trans; [apply IH; [exact W|cbn; discriminate]|].
    eapply reach_step; [apply anchor_pop; [discriminate|discriminate|exact N]|apply reach_refl].
  - (* opt0 *) intros b ts _ IH W K st out N. cbn [app]. rewrite <- app_assoc. cbn [app].
    eapply reach_step; [intros m; cbn [exec run]; instantiate (1 := (_, _, _, _)); reflexivity|].
    destruct (IH W (EAnchor :: K) (Lv (EZeroOrOne :: flat b ++ EAnchor :: K) EZeroOrOne false ts out :: st) out) as (x & s2 & _ & F); [cbn; discriminate|].
    eapply fails_reach; [exact F|]. intros m. unfold bt. cbn [backtrack kind tl saved savedOut]. rewrite skip_bt.
    cbn [tl exec]. rewrite app_nil_r. reflexivity.
  - (* many *) intros b ts c r _ IH [W _] K st out N. cbn [app]. rewrite <- app_assoc. cbn [app].
    eapply reach_step; [intros m; cbn [exec run]; instantiate (1 := (_, _, _, _)); reflexivity|].
    apply IH; [exact W|left; reflexivity].
  - (* many1 *) intros b ts c r c' r' _ IH _ IH' [W _] K st out N. cbn [app]. rewrite <- app_assoc. cbn [app].
    eapply reach_step; [intros m; cbn [exec run]; instantiate (1 := (_, _, _, _)); reflexivity|].
    eapply reach_trans; [apply IH; [exact W|cbn; discriminate]|].
    eapply reach_step; [intros m; cbn [exec run kind start tl]; instantiate (1 := (_, _, _, _)); reflexivity|].
    rewrite app_assoc. apply IH'; [exact W|right; auto].
  - (* choice *) intros a ts c r _ IH [_ W] K st out N. cbn [app]. rewrite <- app_assoc. cbn [app].
    eapply reach_step; [intros m; cbn [exec run]; instantiate (1 := (_, _, _, _)); reflexivity|].
    apply IH; [exact W|exact N|apply find_choice].
  - (* fail: token *) intros k ts H _ K st out N. exists (ETok k). split; [eauto|]. apply fails_nomatch. exact H.
  - (* fail: many1 *) intros b ts _ IH [W _] K st out N. exists EAnchor. split; [discriminate|]. cbn [app]. rewrite <- app_assoc. cbn [app].
    eapply step_fails; [intros m; cbn [exec run]; instantiate (1 := (_, _, _, _)); reflexivity|].
    destruct (IH W (EAnchor :: K) (Lv (EOneOrMore :: flat b ++ EAnchor :: K) EOneOrMore false ts out :: st) out) as (x & s2 & _ & F); [cbn; discriminate|].
    eapply fails_fails; [exact F|]. cbn [backtrack kind tl occurred]. rewrite skip_bt. reflexivity.
  - (* fail: choice *) intros a ts _ IH [Ne W] K st out N. exists EAnchor. split; [discriminate|]. cbn [app]. rewrite <- app_assoc. cbn [app].
    eapply step_fails; [intros m; cbn [exec run]; instantiate (1 := (_, _, _, _)); reflexivity|].
    apply IH; [exact W|exact Ne|exact N|apply find_choice].
  - (* nil *) intros ts _ K st out N. cbn [app]. rewrite app_nil_r. apply reach_refl.
  - (* cons *) intros i s ts c r c' r' _ IH _ IH' [W W'] K st out N. rewrite <- app_assoc.
    eapply reach_trans; [apply IH; [exact W|exact N]|]. rewrite app_assoc. apply IH'; [exact W'|exact N].
  - (* fail: here *) intros i s ts _ IH [W W'] K st out N. rewrite <- app_assoc.
    destruct (IH W (flat s ++ K) st out N) as (x & Sx & F). exists x, s. split; [|exact F].
    cbn [simple]. intros S0. apply andb_true_iff in S0. destruct S0 as [S0 _]. apply Sx. destruct (mayFail i); [discriminate|reflexivity].
  - (* fail: next *) intros i s ts c r _ IH _ IH' [W W'] K st out N. rewrite <- app_assoc.
    destruct (IH' W' K st (out ++ c) N) as (x & s2 & Sx & F). exists x, s2. split.
    + cbn [simple]. intros S0. apply andb_true_iff in S0. apply Sx. tauto.
    + eapply reach_fails; [apply IH; [exact W|exact N]|exact F].
  - (* many: stop *) intros b ts _ IH W K st out k occ Kk.
    destruct (IH W (EAnchor :: K) (Lv (k :: flat b ++ EAnchor :: K) k occ ts out :: st) out) as (x & s2 & _ & F).
    + cbn. destruct Kk as [-> | [-> _]]; discriminate.
    + eapply fails_reach; [exact F|]. intros m. unfold bt. cbn [backtrack kind tl saved savedOut occurred]. rewrite skip_bt.
      rewrite app_nil_r. destruct Kk as [-> | [-> ->]]; reflexivity.
  - (* many: more *) intros b ts c r c' r' _ IH _ IH' W K st out k occ Kk.
    eapply reach_trans; [apply IH; [exact W|]|].
    + cbn. destruct Kk as [-> | [-> _]]; discriminate.
    + eapply reach_step; [|rewrite app_assoc; apply (IH' W K st (out ++ c) k true)].
      * intros m. cbn [exec run kind start tl]. destruct Kk as [-> | [-> _]]; reflexivity.
      * destruct Kk as [-> | [-> _]]; auto.
  - (* choice: token *) intros k v a ts W K st out P N FP. cbn [app].
    eapply reach_step with (b := (EAnchor :: K, ts, Lv P EOneOf false ((k, v) :: ts) out :: st, out ++ [(k, v)])).
    + intros m. cbn [exec run fst kind]. rewrite Nat.eqb_refl. cbn [findAnchor]. rewrite (proj2 (proj2 loop_flat)). reflexivity.
    + eapply reach_step; [apply anchor_pop; [discriminate|discriminate|exact N]|apply reach_refl].
  - (* choice: next after a token *) intros k a ts c r Nm Ok IH W K st out P N FP. cbn [app].
    eapply reach_step; [|apply IH; [exact W|exact N|exact FP]]. intros m. rewrite step_nomatch by exact Nm.
    rewrite (bt_choice _ _ a K) by (first [reflexivity | eapply okA_not_end; exact Ok]). reflexivity.
  - (* choice: group *) intros b a ts c r _ IH (W & _ & Wa) K st out P N FP. cbn [app]. rewrite <- app_assoc. cbn [app].
    eapply reach_step; [intros m; cbn [exec run]; instantiate (1 := (_, _, _, _)); reflexivity|].
    eapply reach_trans; [apply IH; [exact W|cbn; discriminate]|].
    eapply reach_step; [|apply reach_refl]. intros m. cbn [exec run kind popChoices start]. rewrite FP, (pop_not _ _ N). reflexivity.
  - (* choice: next after a group *) intros b a ts c r _ IHb Ok IH (W & Sm & Wa) K st out P N FP. cbn [app]. rewrite <- app_assoc. cbn [app].
    eapply reach_step; [intros m; cbn [exec run]; instantiate (1 := (_, _, _, _)); reflexivity|].
    destruct (IHb W (EAnchor :: flatA a ++ EAnchor :: K) (Lv (EOne :: flat b ++ EAnchor :: flatA a ++ EAnchor :: K) EOne false ts out :: Lv P EOneOf false ts out :: st) out) as (x & s2 & Sx & F); [cbn; discriminate|].
    destruct (Sx (Sm eq_refl)) as (k & ->).
    eapply reach_trans; [eapply fails_reach; [exact F|]|apply IH; [exact Wa|exact N|exact FP]].
    intros m. unfold bt. cbn [backtrack kind]. cbn [findAnchor]. rewrite (proj1 (proj2 loop_flat)). cbn [anchorLoop tl].
    destruct (alts_head a (EAnchor :: K) (okA_not_end _ _ _ _ Ok)) as (e & Q & E & Ne). rewrite E.
    cbn [saved savedOut exec]. destruct e; try reflexivity. contradiction.
  - (* fail: no variants *) intros ts _ Ne. contradiction.
  - (* fail: token of a choice *) intros k a ts Nm Fa IH W _ K st out P N FP. cbn [app].
    destruct a as [|k' a|b' a].
    + eapply fails_fails; [apply fails_nomatch; exact Nm|]. reflexivity.
    + eapply step_fails; [|apply IH; [exact W|discriminate|exact N|exact FP]]. intros m. rewrite step_nomatch by exact Nm. reflexivity.
    + eapply step_fails; [|apply IH; [exact W|discriminate|exact N|exact FP]]. intros m. rewrite step_nomatch by exact Nm.
      rewrite (bt_choice _ _ (AOne b' a) K) by (first [reflexivity | discriminate]). reflexivity.
  - (* fail: group of a choice *) intros b a ts _ IHb Fa IH (W & Sm & Wa) _ K st out P N FP. cbn [app]. rewrite <- app_assoc. cbn [app].
    eapply step_fails; [intros m; cbn [exec run]; instantiate (1 := (_, _, _, _)); reflexivity|].
    destruct (IHb W (EAnchor :: flatA a ++ EAnchor :: K) (Lv (EOne :: flat b ++ EAnchor :: flatA a ++ EAnchor :: K) EOne false ts out :: Lv P EOneOf false ts out :: st) out) as (x & s2 & Sx & F); [cbn; discriminate|].
    destruct (Sx (Sm eq_refl)) as (k & ->).
    destruct a as [|k' a|b' a].
    + eapply fails_fails; [exact F|]. cbn [backtrack kind findAnchor]. rewrite (proj1 (proj2 loop_flat)). reflexivity.
    + eapply reach_fails; [eapply fails_reach; [exact F|]|apply IH; [exact Wa|discriminate|exact N|exact FP]].
      intros m. unfold bt. cbn [backtrack kind findAnchor]. rewrite (proj1 (proj2 loop_flat)). reflexivity.
    + eapply reach_fails; [eapply fails_reach; [exact F|]|apply IH; [exact Wa|discriminate|exact N|exact FP]].
      intros m. unfold bt. cbn [backtrack kind findAnchor]. rewrite (proj1 (proj2 loop_flat)). reflexivity.
Qed.

Lemma run_mono : forall n I0 ts st out m, run n I0 ts st out <> Fuel -> run (n + m) I0 ts st out = run n I0 ts st out.
Proof.
  induction n as [|n IH]; intros I0 ts st out m H; [contradiction H; reflexivity|].
  cbn [Nat.add run] in *. destruct I0 as [|e I0]; [reflexivity|].
  destruct e; try (apply IH; exact H).
  - destruct ts as [|t ts].
    + destruct (backtrack _ _) as [[[[I1 ts1] st1] out1]|]; [apply IH; exact H|reflexivity].
    + destruct (Nat.eqb (fst t) k); [apply IH; exact H|].
      destruct (backtrack _ _) as [[[[I1 ts1] st1] out1]|]; [apply IH; exact H|reflexivity].
  - destruct st as [|l st]; [reflexivity|]. destruct (kind l); try (apply IH; exact H);
      destruct (popChoices _ _) as [I1 st1]; apply IH; exact H.
Qed.
Lemma run_det : forall n n' I0 ts st out, run n I0 ts st out <> Fuel -> run n' I0 ts st out <> Fuel ->
  run n I0 ts st out = run n' I0 ts st out.
Proof.
  intros n n' I0 ts st out H H'. rewrite <- (run_mono n _ _ _ _ n' H), <- (run_mono n' _ _ _ _ n H'). f_equal. lia.
Qed.
Lemma run_ok : forall g ts c r, wf true true g -> okS g ts c r -> exists n, run n (flat g) ts [] [] = Accept c r.
Proof.
  intros g ts c r W H. destruct simulation as (_ & _ & P & _).
  destruct (P _ _ _ _ H W [] [] [] Logic.I) as [n R]. exists (n + 1). specialize (R 1). cbn [exec app] in R.
  rewrite app_nil_r in R. rewrite R. reflexivity.
Qed.
Lemma run_fl : forall g ts, wf true true g -> flS g ts -> exists n, run n (flat g) ts [] [] = Reject.
Proof.
  intros g ts W H. destruct simulation as (_ & _ & _ & P & _).
  destruct (P _ _ H W [] [] [] Logic.I) as (x & s2 & _ & n & F). exists (S n + 0). specialize (F 0). cbn [exec] in F.
  rewrite app_nil_r in F. rewrite F. reflexivity.
Qed.
Theorem stops_partial : C101_stops_claim true true.
Proof.
  intros g ts W. destruct (proj1 (proj2 peg_total) g W ts) as [(c & r & H) | H].
  - destruct (run_ok _ _ _ _ W H) as [n E]. exists n. right. eauto.
  - destruct (run_fl _ _ W H) as [n E]. exists n. left. exact E.
Qed.
Theorem sound_partial : C101_sound_claim true true.
Proof.
  intros g ts n out rest W R. destruct (proj1 (proj2 peg_total) g W ts) as [(c & r & H) | H].
  - destruct (run_ok _ _ _ _ W H) as [n' E].
    assert (K : Accept out rest = Accept c r).
    { rewrite <- R, <- E. apply run_det; rewrite ?R, ?E; discriminate. }
    injection K as -> ->. apply (proj1 (proj2 (proj2 peg_sound))). exact H.
  - destruct (run_fl _ _ W H) as [n' E]. exfalso.
    assert (K : Accept out rest = Reject) by (rewrite <- R, <- E; apply run_det; rewrite ?R, ?E; discriminate).
    discriminate.
Qed.

(** ** Completeness *)
Scheme langI_m := Minimality for langI Sort Prop with lang_m := Minimality for lang Sort Prop
with langM_m := Minimality for langM Sort Prop with langA_m := Minimality for langA Sort Prop.
Combined Scheme lang_mut from langI_m, lang_m, langM_m, langA_m.
Lemma fail_first : forall b ts, wf true true b -> ~ lang b [] -> (forall k, starts b k -> nomatch k ts) -> flS b ts.
Proof.
  intros b ts W N H. destruct (proj1 (proj2 peg_total) b W ts) as [(c & r & O) | O]; [exfalso|exact O].
  destruct (proj1 (proj2 (proj2 peg_sound)) _ _ _ _ O) as [L E]. destruct c as [|[k v] c]; [contradiction|].
  subst ts. apply (H k); [exists v, c; exact L|reflexivity].
Qed.
Lemma follows_nomatch : forall (F : nat -> Prop) rest k, follows F rest -> ~ F k -> nomatch k rest.
Proof. intros F [|t rest] k H N; cbn in *; [exact Logic.I|]. congruence. Qed.
Lemma langM_first : forall b w, langM b w -> ~ lang b [] -> w = [] \/ exists k v w', w = (k, v) :: w' /\ starts b k.
Proof.
  intros b w H N. destruct H as [b | b w w' H H']; [left; reflexivity|right].
  destruct w as [|[k v] w]; [contradiction|]. exists k, v, (w ++ w'). split; [reflexivity|]. exists v, w. exact H.
Qed.
Lemma langA_first : forall a F w, detA a F -> langA a w -> exists k v w', w = (k, v) :: w'.
Proof.
  induction a as [|k a IH|b a IH]; intros F w D H; cbn [detA] in D; inversion H; subst.
  - eauto.
  - eapply IH; [apply D|assumption].
  - destruct w as [|[k v] w]; [|eauto]. exfalso. apply D. assumption.
  - eapply IH; [apply D|assumption].
Qed.
Lemma lang_ok :
  (forall i w, langI i w -> forall F rest, wfI true true i -> detI i F -> follows F rest -> okI i (w ++ rest) w rest) /\
  (forall s w, lang s w -> forall F rest, wf true true s -> det s F -> follows F rest -> okS s (w ++ rest) w rest) /\
  (forall s w, langM s w -> forall F rest, wf true true s -> ~ lang s [] -> det s (fun k => F k \/ starts s k) ->
     (forall k, starts s k -> ~ F k) -> follows F rest -> okM s (w ++ rest) w rest) /\
  (forall a w, langA a w -> forall F rest, wfA true true a -> detA a F -> follows F rest -> okA a (w ++ rest) w rest).
Proof.
  apply lang_mut; cbn [wfI wf wfA detI det detA].
  - intros k v F rest _ _ _. constructor.
  - intros b F rest W (D & N & S0) Fo. apply okI_opt0. apply fail_first; [exact W|exact N|].
    intros k K. eapply follows_nomatch; [exact Fo|]. apply S0. exact K.
  - intros b w _ IH F rest W (D & N & S0) Fo. apply okI_opt1. eapply IH; eauto.
  - intros b w _ IH F rest [W N] [D S0] Fo. apply okI_many. apply (IH F); auto.
  - intros b w w' _ IH HM IH' F rest [W N] [D S0] Fo. rewrite <- app_assoc. eapply okI_many1; [|apply (IH' F); auto].
    apply (IH (fun k => F k \/ starts b k)); [exact W|exact D|].
    destruct (langM_first _ _ HM (N eq_refl)) as [-> | (k & v & w2 & -> & K)].
    + cbn [app]. destruct rest; [exact Logic.I|left; exact Fo].
    + right. exact K.
  - intros a w _ IH F rest [_ W] D Fo. apply okI_ch. eapply IH; eauto.
  - intros F rest _ _ _. constructor.
  - intros i s w w' _ IH Ls IH' F rest [W W'] [D D'] Fo. rewrite <- app_assoc. eapply okS_cons; [|eapply IH'; eauto].
    eapply IH; [exact W|exact D|]. destruct w' as [|[k v] w'].
    + cbn [app]. destruct rest; [exact Logic.I|right; split; [exact Ls|exact Fo]].
    + left. exists v, w'. exact Ls.
  - intros b F rest W N D S0 Fo. apply okM_stop. apply fail_first; [exact W|exact N|].
    intros k K. eapply follows_nomatch; [exact Fo|]. apply S0. exact K.
  - intros b w w' _ IH HM IH' F rest W N D S0 Fo. rewrite <- app_assoc. eapply okM_more; [|apply (IH' F); auto].
    apply (IH (fun k => F k \/ starts b k)); [exact W|exact D|].
    destruct (langM_first _ _ HM N) as [-> | (k & v & w2 & -> & K)].
    + cbn [app]. destruct rest; [exact Logic.I|left; exact Fo].
    + right. exact K.
  - intros k v a F rest _ _ _. constructor.
  - intros b a w _ IH F rest (W & _ & _) (D & _) Fo. apply okA_one. eapply IH; eauto.
  - intros k a w La IH F rest W [N D] Fo. apply okA_tokN; [|eapply IH; eauto].
    destruct (langA_first _ _ _ D La) as (k' & v & w' & ->). cbn. intros ->. apply N. exists v, w'. exact La.
  - intros b a w La IH F rest (W & _ & Wa) (D & N & S0 & Da) Fo. apply okA_oneN; [|eapply IH; eauto].
    destruct (langA_first _ _ _ Da La) as (k' & v & w' & ->). apply fail_first; [exact W|exact N|].
    intros k K. cbn. intros ->. apply (S0 k K). exists v, w'. exact La.
Qed.
Theorem complete_partial : C101_complete_claim true.
Proof.
  intros g w rest W L D. destruct (D eq_refl) as (F & D' & Fo). apply run_ok; [exact W|].
  eapply (proj1 (proj2 lang_ok)); eauto.
Qed.

(** ** Refutations *)
Lemma loop_forever : forall n b, run n [EAnchor] [] [Lv [EZeroOrMore; EAnchor] EZeroOrMore b [] []] [] = Fuel.
Proof. induction n as [|n IH]; intros b; [reflexivity|]. cbn [run kind start tl]. apply IH. Qed.
Theorem stops_refuted_loop : ~ C101_stops_claim false true.
Proof.
  intros H. destruct (H (Cons (Many Nil) Nil) []) as [n K]; [cbn; repeat split; discriminate|].
  assert (E : run n (flat (Cons (Many Nil) Nil)) [] [] [] = Fuel) by (destruct n as [|n]; [reflexivity|]; cbn [flat flatI app run]; apply loop_forever).
  rewrite E in K. destruct K as [K | (o & r & K)]; discriminate.
Qed.
(** OneOf<[One<[OneOrMore<[1]>, 2]>, 3]> *)
Definition badGrammar : seq := Cons (Choice (AOne (Cons (Many1 (Cons (Tk 1) Nil)) (Cons (Tk 2) Nil)) (ATok 3 AEnd))) Nil.
Lemma not_empty_tok : forall k s, ~ lang (Cons (Tk k) s) [].
Proof.
  intros k s H. inversion H as [|i s' w w' HI HS E1 E2]; subst. inversion HI; subst. discriminate.
Qed.
Theorem stops_refuted_group : ~ C101_stops_claim true false.
Proof.
  intros H. destruct (H badGrammar [(2, 0); (3, 0)]) as [n K].
  - cbn. repeat split; try discriminate. intros _. apply not_empty_tok.
  - assert (B : run 20 (flat badGrammar) [(2, 0); (3, 0)] [] [] = Bad) by reflexivity.
    assert (E : run n (flat badGrammar) [(2, 0); (3, 0)] [] [] = run 20 (flat badGrammar) [(2, 0); (3, 0)] [] []).
    { apply run_det; [|rewrite B; discriminate]. destruct K as [K | (o & r & K)]; rewrite K; discriminate. }
    rewrite E, B in K. destruct K as [K | (o & r & K)]; discriminate.
Qed.
(** ZeroOrOne<[1]>, 1 *)
Definition optGrammar : seq := Cons (Opt (Cons (Tk 1) Nil)) (Cons (Tk 1) Nil).
Theorem complete_refuted : ~ C101_complete_claim false.
Proof.
  intros H. destruct (H optGrammar [(1, 0)] []) as [n K]; [cbn; tauto| |discriminate|].
  - apply (l_cons _ _ [] [(1, 0)]); [constructor|]. apply (l_cons _ _ [(1, 0)] []); constructor.
  - cbn [app] in K. set (g := optGrammar) in K.
    assert (B : run 20 (flat g) [(1, 0)] [] [] = Reject) by reflexivity.
    assert (E : run n (flat g) [(1, 0)] [] [] = run 20 (flat g) [(1, 0)] [] []).
    { exact (run_det n 20 (flat g) [(1, 0)] [] [] (fun X => eq_ind (Accept [(1, 0)] []) (fun r => match r with Fuel => False | _ => True end) Logic.I _ (eq_trans (eq_sym K) X)) (fun X => eq_ind Reject (fun r => match r with Fuel => False | _ => True end) Logic.I _ (eq_trans (eq_sym B) X))). }
    pose proof (eq_trans (eq_sym K) (eq_trans E B)) as Y. discriminate Y.
Qed.
