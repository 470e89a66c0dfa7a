(** Proofs about the interchange of loops: execution of a nest. *)
From Coq Require Import ZArith List Bool Lia Permutation.
From Verif Require Import CanonModel CanonSpec InterchangeModel InterchangeSpec.
Import ListNotations.
Local Open Scope Z_scope.

Scheme denotes_mind := Minimality for denotes Sort Prop
with denotesL_mind := Minimality for denotesL Sort Prop.
Combined Scheme denotes_both from denotes_mind, denotesL_mind.
Scheme denotesS_mind := Minimality for denotesS Sort Prop
with denotesSL_mind := Minimality for denotesSL Sort Prop.
Combined Scheme denotesS_both from denotesS_mind, denotesSL_mind.

Lemma updZ_same m a z : updZ m a z a = z.
Proof. unfold updZ. now rewrite Z.eqb_refl. Qed.
Lemma updZ_other m a z x : x <> a -> updZ m a z x = m x.
Proof. unfold updZ. destruct (Z.eqb_spec x a); [contradiction|reflexivity]. Qed.
Lemma updN_same k f z : updN k f z f = z.
Proof. unfold updN. now rewrite Nat.eqb_refl. Qed.
Lemma updN_other k f z g : g <> f -> updN k f z g = k g.
Proof. unfold updN. destruct (Nat.eqb_spec g f); [contradiction|reflexivity]. Qed.
Lemma finite_choice {A} (P : nat -> A -> Prop) (d : A) (l : list nat) : (forall f, In f l -> exists t, P f t) -> exists g, forall f, In f l -> P f (g f).
Proof.
  induction l as [|a l IH]; intros H; [exists (fun _ => d); intros f []|].
  destruct IH as [g G]; [intros f Hf; apply H; now right|]. destruct (H a) as [t T]; [now left|].
  exists (fun f => if Nat.eqb f a then t else g f). intros f Hf. destruct (Nat.eqb_spec f a) as [->|Ne]; [exact T|].
  destruct Hf as [->|Hf]; [contradiction|auto].
Qed.
Lemma NoDup_flat_map {A B} (g : A -> list B) l : NoDup l -> (forall a, In a l -> NoDup (g a)) ->
  (forall a b x, In a l -> In b l -> In x (g a) -> In x (g b) -> a = b) -> NoDup (flat_map g l).
Proof.
  induction l as [|a l IH]; intros N1 N2 D; [constructor|]. cbn [flat_map]. inversion N1; subst.
  assert (K1 : NoDup (flat_map g l)).
  { apply IH; [assumption|intros b Hb; apply N2; now right|intros b c x Hb Hc; apply D; now right]. }
  assert (K2 : NoDup (g a)) by (apply N2; now left).
  assert (K3 : forall x, In x (g a) -> ~ In x (flat_map g l)).
  { intros x Hx Hf. apply in_flat_map in Hf. destruct Hf as (b & Hb & Hxb). assert (a = b) by (eapply D; [now left|now right|exact Hx|exact Hxb]). now subst. }
  clear - K1 K2 K3. induction (g a) as [|y ys IH]; cbn [app]; [exact K1|]. inversion K2; subst. constructor.
  - rewrite in_app_iff. intros [K|K]; [contradiction|]. eapply K3; [now left|exact K].
  - apply IH; [assumption|]. intros x Hx. apply K3. now right.
Qed.

Section Machine.
Variable C : ctx.
Variable info : nat -> forInfo.
Variables globalAddr argVal allocAddr constVal : nat -> Z.
Variable compute : opcode -> list Z -> option Z.
Variable callSem : nat -> list Z -> memory -> Z -> Prop.
Variable nary : nat -> list Z -> Z.
Variable varAddr : nat -> Z.
Variable goOn : nat -> Z -> Z -> bool.
Variable norm : nat -> Z -> Z.
Variable B : memory -> option memory.
Notation op := (fun x => iOp (cInst C x)).
Notation args := (fun x => iArgs (cInst C x)).
Notation denotes := (denotes C globalAddr argVal allocAddr constVal compute callSem).
Notation denotesL := (denotesL C globalAddr argVal allocAddr constVal compute callSem).
Notation denotesS := (denotesS C globalAddr argVal allocAddr constVal compute callSem nary).
Notation denotesSL := (denotesSL C globalAddr argVal allocAddr constVal compute callSem nary).
Notation startIs := (startIs C info globalAddr argVal allocAddr constVal compute callSem).
Notation endIs := (endIs C info globalAddr argVal allocAddr constVal compute callSem).
Notation stepIs := (stepIs C info globalAddr argVal allocAddr constVal compute callSem nary).
Notation addrOf := (addrOf info varAddr).
Notation loopRel := (loopRel C info globalAddr argVal allocAddr constVal compute callSem nary varAddr goOn norm).
Notation run := (run C info globalAddr argVal allocAddr constVal compute callSem nary varAddr goOn norm B).
Notation after := (after norm).

(** * Values of expressions *)
Lemma callFree_arg x v : callFree C (VUser x) -> In v (args x) -> callFree C v.
Proof. intros H Hv y z f -> N. apply (H x z f eq_refl). eapply n_arg; eauto. Qed.
Lemma denotes_det m : (forall v z, denotes m v z -> callFree C v -> forall z', denotes m v z' -> z = z') /\
  (forall vs zs, denotesL m vs zs -> (forall v, In v vs -> callFree C v) -> forall zs', denotesL m vs zs' -> zs = zs').
Proof.
  apply denotes_both.
  - intros z _ z' H. now inversion H.
  - intros z _ z' H. now inversion H.
  - intros z _ z' H. now inversion H.
  - intros x Ho _ z' H. inversion H; subst; cbv beta in *; try congruence. rewrite Ho in *. contradiction.
  - intros x Ho _ z' H. inversion H; subst; cbv beta in *; try congruence. rewrite Ho in *. contradiction.
  - intros x p a Ho Ha D IH CF z' H. inversion H; subst; cbv beta in *; try congruence.
    + assert (p = p0) by congruence. subst p0. f_equal. apply IH; [|assumption]. eapply callFree_arg; [exact CF|]. cbv beta. rewrite Ha. now left.
    + rewrite Ho in *. contradiction.
  - intros x zs z Ho D IH E CF z' H. inversion H; subst; cbv beta in *; try (match goal with K : iOp (cInst C x) = _ |- _ => rewrite K in Ho; contradiction end).
    assert (zs = zs0). { apply IH; [|assumption]. intros v Hv. eapply callFree_arg; eauto. } subst. congruence.
  - intros x f zs z Ho D IH E CF. exfalso. apply (CF x x f eq_refl); [constructor|exact Ho].
  - intros _ zs' H. now inversion H.
  - intros v z vs zs D IH Dl IHl CF zs' H. inversion H; subst. f_equal; [apply IH; [apply CF; now left|assumption]|apply IHl; [intros; apply CF; now right|assumption]].
Qed.
Lemma denotesS_det m k : (forall s z, denotesS m k s z -> (forall v, In v (unknowns s) -> callFree C v) -> forall z', denotesS m k s z' -> z = z') /\
  (forall ss zs, denotesSL m k ss zs -> (forall v, In v (flat_map unknowns ss) -> callFree C v) -> forall zs', denotesSL m k ss zs' -> zs = zs').
Proof.
  apply denotesS_both.
  - intros z _ z' H. now inversion H.
  - intros v z D CF z' H. inversion H; subst. eapply (proj1 (denotes_det m)); eauto. apply CF. now left.
  - intros l a b x y D1 IH1 D2 IH2 CF z' H. inversion H; subst. cbn [unknowns] in CF.
    rewrite (IH1 ltac:(intros; apply CF, in_or_app; now left) _ ltac:(eassumption)), (IH2 ltac:(intros; apply CF, in_or_app; now right) _ ltac:(eassumption)). reflexivity.
  - intros o ss zs D IH CF z' H. inversion H; subst. f_equal. now apply IH.
  - intros _ zs' H. now inversion H.
  - intros s z ss zs D IH Dl IHl CF zs' H. inversion H; subst. cbn [flat_map] in CF.
    f_equal; [apply IH; [intros; apply CF, in_or_app; now left|assumption]|apply IHl; [intros; apply CF, in_or_app; now right|assumption]].
Qed.

(** * A location which is not accessed in an expression *)
Section Unaccessed.
Variable covers : nat -> Z -> Prop.
Variable tree : treeRight C covers.
Variables m m' : memory.
Variable alias : forall x p a n, op x = OLoad -> args x = [p] -> denotes m p a -> cDim C x 0 = Some n -> covers n a.
Variables (d : nat) (a0 : Z).
Variable Hd : covers d a0.
Variable same : forall x, x <> a0 -> m x = m' x.
Notation opsLoop fuel := (fix ops (os : list value) : option bool :=
             match os with
             | [] => Some false
             | o :: os =>
               match o with
               | VConst _ | VGlobal _ => ops os
               | _ => match accessedIn C d fuel o with None => None | Some true => Some true | Some false => ops os end
               end
             end).
Lemma ops_args fuel os : opsLoop fuel os = Some false -> forall o, In o os -> (exists z, o = VConst z) \/ (exists g, o = VGlobal g) \/ accessedIn C d fuel o = Some false.
Proof.
  induction os as [|a os IH]; intros H o Ho; [destruct Ho|]. destruct a as [y|z|g|y].
  - destruct (accessedIn C d fuel (VUser y)) as [[|]|] eqn:E; try discriminate. destruct Ho as [<-|Ho]; auto.
  - destruct Ho as [<-|Ho]; eauto.
  - destruct Ho as [<-|Ho]; eauto.
  - destruct (accessedIn C d fuel (VArg y)) as [[|]|] eqn:E; try discriminate. destruct Ho as [<-|Ho]; auto.
Qed.
Lemma accessed_user fuel x : accessedIn C d fuel (VUser x) = Some false -> op x <> OConstExpr ->
  fold_left (accessHit C d x) (accesses C x) false = false /\
  forall o, In o (args x) -> (exists z, o = VConst z) \/ (exists g, o = VGlobal g) \/ exists fuel', accessedIn C d fuel' o = Some false.
Proof.
  destruct fuel as [|fuel]; [discriminate|]. cbn [accessedIn]. intros H Ho. unfold isInstruction in H. cbv beta in Ho.
  assert (E : match iOp (cInst C x) with OConstExpr => false | _ => true end = true) by (destruct (iOp (cInst C x)); congruence).
  rewrite E in H. destruct (fold_left _ _ _) eqn:F; [discriminate|]. split; [reflexivity|].
  intros o Hin. destruct (ops_args fuel _ H o Hin) as [K|[K|K]]; eauto.
Qed.
Lemma unaccessed : (forall v z, denotes m v z -> callFree C v -> forall fuel, accessedIn C d fuel v = Some false -> denotes m' v z) /\
  (forall vs zs, denotesL m vs zs -> (forall v, In v vs -> callFree C v) ->
     (forall o, In o vs -> (exists z, o = VConst z) \/ (exists g, o = VGlobal g) \/ exists fuel, accessedIn C d fuel o = Some false) -> denotesL m' vs zs).
Proof.
  apply denotes_both.
  - intros; constructor.
  - intros; constructor.
  - intros; constructor.
  - intros x Ho _ fuel _. now constructor.
  - intros x Ho _ fuel _. now constructor.
  - intros x p a Ho Ha D IH CF fuel H. cbv beta in Ho, Ha.
    destruct (accessed_user fuel x H) as [F O]; [cbv beta; congruence|].
    assert (P : denotes m' p a).
    { destruct (O p) as [(z & ->)|[(g & ->)|(fu & K)]]; [cbv beta; rewrite Ha; now left|inversion D; constructor|inversion D; constructor|].
      eapply IH; [|exact K]. eapply callFree_arg; [exact CF|]. cbv beta. rewrite Ha. now left. }
    unfold accesses in F. rewrite Ho in F. cbn [fold_left accessHit negb andb] in F.
    assert (A : m a = m' a).
    { apply same. destruct (cDim C x 0) as [n|] eqn:En; [|discriminate]. apply negb_false_iff in F. intros ->.
      eapply tree; [exact F| |exact Hd]. eapply alias; eauto. }
    rewrite A. eapply d_load; eauto.
  - intros x zs z Ho D IH E CF fuel H.
    destruct (accessed_user fuel x H) as [F O]; [cbv beta in *; intros K; rewrite K in Ho; contradiction|].
    eapply d_compute; [exact Ho| |exact E]. apply IH; [|exact O]. intros v Hv. eapply callFree_arg; eauto.
  - intros x f zs z Ho D IH E CF. exfalso. apply (CF x x f eq_refl); [constructor|exact Ho].
  - intros; constructor.
  - intros v z vs zs D IH Dl IHl CF O. constructor.
    + destruct (O v) as [(c & ->)|[(g & ->)|(fu & K)]]; [now left|inversion D; constructor|inversion D; constructor|].
      eapply IH; [apply CF; now left|exact K].
    + apply IHl; [intros; apply CF; now right|intros; apply O; now right].
Qed.
Variables k k' : nat -> Z.
Variable l : nat.
Variable sameK : forall g, g <> l -> k g = k' g.
Lemma anyAccessed_false fuel vs : anyAccessed C d fuel vs = Some false -> forall v, In v vs -> accessedIn C d fuel v = Some false.
Proof.
  induction vs as [|u vs IH]; intros H v Hv; [destruct Hv|]. cbn [anyAccessed] in H.
  destruct (accessedIn C d fuel u) as [[|]|] eqn:E; try discriminate. destruct Hv as [<-|Hv]; auto.
Qed.
Lemma unaccessedS : (forall s z, denotesS m k s z -> (forall v, In v (unknowns s) -> callFree C v /\ exists fuel, accessedIn C d fuel v = Some false) ->
    hasRec l s = false -> denotesS m' k' s z) /\
  (forall ss zs, denotesSL m k ss zs -> (forall v, In v (flat_map unknowns ss) -> callFree C v /\ exists fuel, accessedIn C d fuel v = Some false) ->
    existsb (hasRec l) ss = false -> denotesSL m' k' ss zs).
Proof.
  apply denotesS_both.
  - intros; constructor.
  - intros v z D H _. destruct (H v) as [H1 (fuel & H2)]; [now left|]. constructor. eapply (proj1 unaccessed); eauto.
  - intros g a b x y D1 IH1 D2 IH2 H HR. cbn [unknowns hasRec] in *. apply orb_false_iff in HR. destruct HR as [HR HR2]. apply orb_false_iff in HR. destruct HR as [HR HR1].
    apply Nat.eqb_neq in HR. rewrite (sameK g HR). constructor; [apply IH1|apply IH2]; auto; intros v Hv; apply H, in_or_app; auto.
  - intros o ss zs D IH H HR. constructor. now apply IH.
  - intros; constructor.
  - intros s z ss zs D IH Dl IHl H HR. cbn [flat_map existsb] in *. apply orb_false_iff in HR. destruct HR as [HR1 HR2].
    constructor; [apply IH|apply IHl]; auto; intros v Hv; apply H, in_or_app; auto.
Qed.
End Unaccessed.
End Machine.
