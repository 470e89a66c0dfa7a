(* Proofs about graph traversals (C02, C03). *)
From Coq Require Import List Arith Bool Lia.
Import ListNotations.
From Verif Require Import DFlowModel DFlowSpec DFlowProof.

Lemma filter_length_le : forall A (f : A -> bool) l,
  length (filter f l) <= length l.
Proof.
  induction l as [|a l IH]; simpl; auto. destruct (f a); simpl; lia.
Qed.

Section Paths.
  Variable next : node -> list node.

  Lemma path_trans : forall a b c,
    path next a b -> path next b c -> path next a c.
  Proof. intros a b c H. induction H; auto. intros. econstructor; eauto. Qed.

  Lemma path_snoc : forall a b c,
    path next a b -> In c (next b) -> path next a c.
  Proof.
    intros. eapply path_trans; eauto. econstructor; eauto. constructor.
  Qed.

  Lemma path_closed : forall U a b,
    closedUnder next U -> path next a b -> In a U -> In b U.
  Proof. intros U a b C H. induction H; eauto. Qed.
End Paths.

(* ---- back edges ---- *)
Section Back.
  Variable children : node -> list node.
  Notation pth := (path children).

  Lemma setColor_same : forall m n c, setColor m n c n = c.
  Proof. intros. unfold setColor. now rewrite Nat.eqb_refl. Qed.
  Lemma setColor_other : forall m n c x, x <> n -> setColor m n c x = m x.
  Proof.
    intros. unfold setColor. apply Nat.eqb_neq in H. now rewrite H.
  Qed.

  (* Nodes which are done are closed under edges and lie on no cycle. *)
  Definition blackOk (vis : node -> color) : Prop :=
    forall x, vis x = Black ->
      (forall y, In y (children x) -> vis y = Black) /\ ~ onCycle children x.

  Lemma black_path : forall vis x y,
    blackOk vis -> vis x = Black -> pth x y -> vis y = Black.
  Proof.
    intros vis x y B H P. induction P; auto. apply IHP.
    now apply (proj1 (B a H)).
  Qed.

  Definition post (n : node) (vis : node -> color) (r : search) : Prop :=
    match r with
    | SFuel => True
    | SFound u v => pth n u /\ In v (children u) /\ pth v u
    | SNone vis' =>
      blackOk vis' /\ (forall x, vis' x = Gray <-> vis x = Gray) /\
      (forall x, vis x = Black -> vis' x = Black) /\
      (forall y, In y (children n) -> vis' y = Black)
    end.

  Lemma fbe_post : forall fuel n vis,
    vis n = Gray -> (forall g, vis g = Gray -> pth g n) -> blackOk vis ->
    post n vis (findBackEdgeFrom children fuel n vis).
  Proof.
    induction fuel as [|f IH]; intros n vis Hn Hg HB; [exact I|].
    cbn [findBackEdgeFrom].
    match goal with |- post _ _ (?L (children n) vis) => set (loop := L) end.
    assert (G : forall cs vis1, incl cs (children n) ->
      blackOk vis1 -> (forall x, vis1 x = Gray <-> vis x = Gray) ->
      (forall x, vis x = Black -> vis1 x = Black) ->
      (forall y, In y (children n) -> In y cs \/ vis1 y = Black) ->
      post n vis (loop cs vis1)).
    { induction cs as [|c cs IHc]; intros vis1 Hi B1 G1 K1 D1.
      - simpl. split; [exact B1|]. split; [exact G1|]. split; [exact K1|].
        intros y Hy. destruct (D1 y Hy) as [[]|]; auto.
      - assert (Hc : In c (children n)) by (apply Hi; now left).
        assert (Hi' : incl cs (children n)) by
          (intros z Hz; apply Hi; now right).
        cbn [loop]. fold loop. destruct (vis1 c) eqn:Ec.
        + specialize (IH c (setColor vis1 c Gray)).
          assert (P : post c (setColor vis1 c Gray)
            (findBackEdgeFrom children f c (setColor vis1 c Gray))).
          { apply IH.
            - apply setColor_same.
            - intros g Hgg. destruct (Nat.eq_dec g c) as [->|N].
              + constructor.
              + rewrite setColor_other in Hgg by auto.
                eapply path_snoc; [|exact Hc]. apply Hg. now apply G1.
            - intros x Hx. destruct (Nat.eq_dec x c) as [->|N].
              + rewrite setColor_same in Hx. discriminate.
              + rewrite setColor_other in Hx by auto.
                destruct (B1 x Hx) as [Q1 Q2]. split; auto.
                intros y Hy. destruct (Nat.eq_dec y c) as [->|N'].
                * specialize (Q1 c Hy). congruence.
                * rewrite setColor_other by auto. auto. }
          destruct (findBackEdgeFrom children f c (setColor vis1 c Gray))
            as [|u v|vis2].
          * exact I.
          * simpl in *. destruct P as [P1 [P2 P3]]. split; auto.
            econstructor; eauto.
          * simpl in P. destruct P as [B2 [G2 [K2 D2]]].
            assert (C2 : vis2 c = Gray) by (apply G2; apply setColor_same).
            apply IHc; auto.
            -- intros x Hx. destruct (Nat.eq_dec x c) as [->|N].
               ++ split.
                  ** intros y Hy. destruct (Nat.eq_dec y c) as [->|N'].
                     { apply setColor_same. }
                     rewrite setColor_other by auto. auto.
                  ** intros [y [Hy Py]].
                     assert (vis2 c = Black) by
                       (eapply black_path; [exact B2|apply D2; exact Hy|auto]).
                     congruence.
               ++ rewrite setColor_other in Hx by auto.
                  destruct (B2 x Hx) as [Q1 Q2]. split; auto.
                  intros y Hy. destruct (Nat.eq_dec y c) as [->|N'].
                  { apply setColor_same. }
                  rewrite setColor_other by auto. auto.
            -- intros x. destruct (Nat.eq_dec x c) as [->|N].
               ++ rewrite setColor_same. split; [discriminate|].
                  intros Q. apply G1 in Q. congruence.
               ++ rewrite setColor_other by auto. rewrite G2.
                  rewrite setColor_other by auto. apply G1.
            -- intros x Hx. destruct (Nat.eq_dec x c) as [->|N].
               ++ apply setColor_same.
               ++ rewrite setColor_other by auto. apply K2.
                  rewrite setColor_other by auto. auto.
            -- intros y Hy. destruct (Nat.eq_dec y c) as [->|N].
               ++ right. apply setColor_same.
               ++ destruct (D1 y Hy) as [[->|Q]|Q]; [congruence|auto|].
                  right. rewrite setColor_other by auto. apply K2.
                  rewrite setColor_other by auto. auto.
        + simpl. split; [constructor|]. split; auto.
          apply Hg. now apply G1.
        + apply IHc; auto. intros y Hy.
          destruct (D1 y Hy) as [[->|Q]|Q]; auto. }
    apply G; auto; try tauto. apply incl_refl.
  Qed.

  (* Fuel. *)
  Definition whites (U : list node) (vis : node -> color) : nat :=
    length (filter (fun x => isWhite (vis x)) U).

  Lemma whites_le : forall U v1 v2,
    (forall x, v2 x = White -> v1 x = White) -> whites U v2 <= whites U v1.
  Proof.
    intros U v1 v2 H. unfold whites. induction U as [|x U IH]; simpl; auto.
    destruct (v2 x) eqn:E2; simpl.
    - rewrite (H x E2). simpl. lia.
    - destruct (isWhite (v1 x)); simpl; lia.
    - destruct (isWhite (v1 x)); simpl; lia.
  Qed.

  Lemma whites_lt : forall U v1 v2 c,
    (forall x, v2 x = White -> v1 x = White) -> In c U ->
    v1 c = White -> v2 c <> White -> whites U v2 < whites U v1.
  Proof.
    intros U v1 v2 c H. unfold whites.
    induction U as [|x U IH]; simpl; intros I C1 C2; [tauto|].
    destruct I as [->|I].
    - rewrite C1. simpl. destruct (v2 c) eqn:E; [congruence| |]; simpl;
      pose proof (whites_le U v1 v2 H) as W; unfold whites in W; lia.
    - specialize (IH I C1 C2). destruct (v2 x) eqn:E2; simpl.
      + rewrite (H x E2). simpl. lia.
      + destruct (isWhite (v1 x)); simpl; lia.
      + destruct (isWhite (v1 x)); simpl; lia.
  Qed.

  Lemma fbe_fuel : forall U, closedUnder children U ->
    forall fuel n vis, In n U -> whites U vis < fuel ->
    findBackEdgeFrom children fuel n vis <> SFuel /\
    forall vis', findBackEdgeFrom children fuel n vis = SNone vis' ->
      forall x, vis' x = White -> vis x = White.
  Proof.
    intros U CU. induction fuel as [|f IH]; intros n vis Hn W; [lia|].
    cbn [findBackEdgeFrom].
    match goal with |- ?L (children n) vis <> _ /\ _ => set (loop := L) end.
    assert (G : forall cs vis1, incl cs (children n) ->
      (forall x, vis1 x = White -> vis x = White) ->
      loop cs vis1 <> SFuel /\
      forall vis', loop cs vis1 = SNone vis' ->
        forall x, vis' x = White -> vis x = White).
    { induction cs as [|c cs IHc]; intros vis1 Hi H1.
      - simpl. split; [discriminate|]. intros v Q. inversion Q; subst. auto.
      - assert (Hc : In c U) by (eapply CU; [exact Hn|apply Hi; now left]).
        assert (Hi' : incl cs (children n)) by
          (intros z Hz; apply Hi; now right).
        cbn [loop]. fold loop. destruct (vis1 c) eqn:Ec.
        + destruct (IH c (setColor vis1 c Gray) Hc) as [A B].
          { assert (whites U (setColor vis1 c Gray) < whites U vis1).
            { apply whites_lt with (c := c); auto.
              - intros x Hx. destruct (Nat.eq_dec x c) as [->|N]; auto.
                now rewrite setColor_other in Hx.
              - rewrite setColor_same. discriminate. }
            pose proof (whites_le U vis vis1 H1). lia. }
          destruct (findBackEdgeFrom children f c (setColor vis1 c Gray))
            as [|u v|vis2]; [congruence| |].
          * split; discriminate.
          * apply IHc; auto. intros x Hx.
            destruct (Nat.eq_dec x c) as [->|N].
            { rewrite setColor_same in Hx. discriminate. }
            rewrite setColor_other in Hx by auto.
            apply B in Hx; auto. rewrite setColor_other in Hx by auto. auto.
        + split; discriminate.
        + apply IHc; auto. }
    apply G; auto. apply incl_refl.
  Qed.

  Lemma findBackEdge_ok : forall fuel entry,
    match findBackEdge children fuel entry with
    | SFuel => True
    | SFound u v => pth entry u /\ In v (children u) /\ pth v u
    | SNone _ => acyclicFrom children entry
    end.
  Proof.
    intros fuel entry. unfold findBackEdge.
    pose proof (fbe_post fuel entry (setColor (fun _ => White) entry Gray))
      as P.
    destruct (findBackEdgeFrom children fuel entry
      (setColor (fun _ => White) entry Gray)) as [|u v|vis].
    - auto.
    - apply P.
      + apply setColor_same.
      + intros g Hg. destruct (Nat.eq_dec g entry) as [->|N]; [constructor|].
        rewrite setColor_other in Hg by auto. discriminate.
      + intros x Hx. destruct (Nat.eq_dec x entry) as [->|N].
        * rewrite setColor_same in Hx. discriminate.
        * rewrite setColor_other in Hx by auto. discriminate.
    - destruct P as [B [G [_ D]]].
      + apply setColor_same.
      + intros g Hg. destruct (Nat.eq_dec g entry) as [->|N]; [constructor|].
        rewrite setColor_other in Hg by auto. discriminate.
      + intros x Hx. destruct (Nat.eq_dec x entry) as [->|N].
        * rewrite setColor_same in Hx. discriminate.
        * rewrite setColor_other in Hx by auto. discriminate.
      + assert (GE : vis entry = Gray) by (apply G; apply setColor_same).
        intros b Pb Cb. inversion Pb; subst.
        * destruct Cb as [y [Hy Py]].
          assert (vis b = Black) by
            (eapply black_path; [exact B|apply D; exact Hy|auto]).
          congruence.
        * assert (vis b = Black) by
            (eapply black_path; [exact B|apply D; exact H|auto]).
          now apply (proj2 (B b H1)).
  Qed.

  Lemma findBackEdge_fuel : forall U fuel entry,
    closedUnder children U -> In entry U -> length U < fuel ->
    findBackEdge children fuel entry <> SFuel.
  Proof.
    intros U fuel entry C I L. unfold findBackEdge.
    apply (fbe_fuel U C); auto.
    unfold whites. eapply Nat.le_lt_trans; [apply filter_length_le|exact L].
  Qed.
End Back.

(* ---- reverse post-order ---- *)
Section Post.
  Variable succs : node -> list node.
  Notation pth := (path succs).

  (* Each node of the list stands before all its successors. *)
  Definition topo (ord : list node) : Prop :=
    forall l1 u l2, ord = l1 ++ u :: l2 -> forall w, In w (succs u) -> In w l2.

  Lemma topo_cons : forall n ord,
    topo ord -> (forall w, In w (succs n) -> In w ord) -> topo (n :: ord).
  Proof.
    intros n ord T H l1 u l2 E w Hw. destruct l1 as [|a l1].
    - simpl in E. inversion E; subst. auto.
    - simpl in E. inversion E; subst. eapply T; eauto.
  Qed.

  Record poInv (n : node) (vis : node -> bool) (ord : list node) : Prop := {
    piVis : forall x, In x ord -> vis x = true;
    piDup : NoDup ord;
    piTopo : topo ord;
    piGray : forall x, vis x = true -> ~ In x ord -> pth x n
  }.

  Lemma postOrder_ok : forall entry, acyclicFrom succs entry ->
    forall fuel n vis ord vis' ord',
    pth entry n -> vis n = true -> ~ In n ord -> poInv n vis ord ->
    (forall x, In x ord -> pth entry x) ->
    postOrder succs fuel n (vis, ord) = Some (vis', ord') ->
    (exists pre, ord' = n :: pre ++ ord) /\
    (forall x, In x ord' -> vis' x = true) /\ NoDup ord' /\ topo ord' /\
    (forall x, vis x = true -> vis' x = true) /\
    (forall x, vis' x = true -> ~ In x ord' -> vis x = true) /\
    (forall x, In x ord' -> pth entry x).
  Proof.
    intros entry AC. induction fuel as [|f IH];
      intros n vis ord vis' ord' Pn Vn Nn I R H; [discriminate|].
    cbn [postOrder] in H.
    match type of H with
      match ?L (succs n) _ with _ => _ end = _ => set (visit := L) in H end.
    assert (G : forall cs vis1 ord1 vis2 ord2, incl cs (succs n) ->
      (exists pre, ord1 = pre ++ ord) -> ~ In n ord1 -> vis1 n = true ->
      (forall x, In x ord1 -> vis1 x = true) -> NoDup ord1 -> topo ord1 ->
      (forall x, vis x = true -> vis1 x = true) ->
      (forall x, vis1 x = true -> ~ In x ord1 -> vis x = true) ->
      (forall x, In x ord1 -> pth entry x) ->
      (forall y, In y (succs n) -> In y cs \/ In y ord1) ->
      visit cs (vis1, ord1) = Some (vis2, ord2) ->
      (exists pre, ord2 = pre ++ ord) /\ ~ In n ord2 /\
      (forall x, In x ord2 -> vis2 x = true) /\ NoDup ord2 /\ topo ord2 /\
      (forall x, vis x = true -> vis2 x = true) /\
      (forall x, vis2 x = true -> ~ In x ord2 -> vis x = true) /\
      (forall x, In x ord2 -> pth entry x) /\
      (forall y, In y (succs n) -> In y ord2)).
    { induction cs as [|c cs IHc]; intros vis1 ord1 vis2 ord2 Hi E1 N1 V1 A1
        D1 T1 M1 K1 R1 S1 Hv.
      - cbn [visit] in Hv. inversion Hv; subst.
        do 8 (split; [assumption|]). intros y Hy.
        destruct (S1 y Hy) as [[]|]; auto.
      - assert (Hc : In c (succs n)) by (apply Hi; now left).
        assert (Hi' : incl cs (succs n)) by
          (intros z Hz; apply Hi; now right).
        cbn [visit] in Hv. fold visit in Hv. cbn [fst snd] in Hv.
        destruct (vis1 c) eqn:Vc.
        + eapply IHc; [exact Hi'|exact E1| | | | | | | | | |exact Hv];
            try assumption.
          intros y Hy. destruct (S1 y Hy) as [[->|Q]|Q]; auto.
          right. destruct (in_dec Nat.eq_dec y ord1) as [|NI]; auto.
          exfalso.
          assert (Py : pth y n).
          { apply (piGray _ _ _ I).
            - now apply K1.
            - intro Q. apply NI. destruct E1 as [pre ->].
              apply in_or_app. now right. }
          apply (AC n Pn). exists y. split; auto.
        + destruct (postOrder succs f c
            ((fun m : node => Nat.eqb m c || vis1 m), ord1)) as [[vis3 ord3]|] eqn:Ep;
            [|discriminate].
          assert (NC : ~ In c ord1).
          { intro Q. apply A1 in Q. congruence. }
          apply IH in Ep as [E3 [A3 [D3 [T3 [M3 [K3 R3]]]]]]; auto.
          * eapply IHc; [exact Hi'| | | |exact A3|exact D3|exact T3| | |exact R3| |exact Hv].
            -- destruct E3 as [p3 ->]. destruct E1 as [p1 ->].
               exists (c :: p3 ++ p1). simpl. now rewrite app_assoc.
            -- intro Q.
               (* n in ord3: n = c or reachable from c through new nodes *)
               assert (VV : vis3 n = true) by (now apply A3).
               destruct (Nat.eq_dec n c) as [->|NE].
               { congruence. }
               destruct E3 as [p3 E3]. 
               (* topological order of ord3: n before ... c is a successor of
                  n, so c occurs after n, but c is the first element *)
               destruct (in_split n ord3 Q) as [l1 [l2 E]].
               assert (I2 : In c l2) by (eapply T3; eauto).
               rewrite E3 in E. destruct l1 as [|a l1].
               { simpl in E. inversion E. congruence. }
               simpl in E. inversion E; subst a.
               rewrite E3 in D3. apply NoDup_cons_iff in D3 as [D3 _].
               apply D3.
               match goal with Q : p3 ++ ord1 = _ |- _ => rewrite Q end.
               apply in_or_app. right. right. exact I2.
            -- apply M3. now rewrite V1, orb_true_r.
            -- intros x Hx. apply M3. rewrite (M1 x Hx). apply orb_true_r.
            -- intros x Hx Nx. specialize (K3 x Hx Nx).
               apply orb_true_iff in K3 as [Q|Q].
               ++ apply Nat.eqb_eq in Q. subst. exfalso. apply Nx.
                  destruct E3 as [p3 ->]. now left.
               ++ apply K1; auto. intro Q'. apply Nx.
                  destruct E3 as [p3 ->]. right. apply in_or_app. now right.
            -- intros y Hy. destruct (S1 y Hy) as [[->|Q]|Q]; auto.
               ++ right. destruct E3 as [p3 ->]. now left.
               ++ right. destruct E3 as [p3 ->]. right.
                  apply in_or_app. now right.
          * eapply path_snoc; eauto.
          * now rewrite Nat.eqb_refl.
          * constructor; auto.
            -- intros x Hx. rewrite (A1 x Hx). apply orb_true_r.
            -- intros x Hx Nx. apply orb_true_iff in Hx as [Q|Q].
               ++ apply Nat.eqb_eq in Q. subst. constructor.
               ++ eapply path_snoc; [|exact Hc]. apply (piGray _ _ _ I).
                  ** now apply K1.
                  ** intro Q'. apply Nx. destruct E1 as [pre ->].
                     apply in_or_app. now right. }
    destruct (visit (succs n) (vis, ord)) as [[vis2 ord2]|] eqn:Ev;
      [|discriminate].
    inversion H; subst; clear H.
    apply G in Ev as [E2 [N2 [A2 [D2 [T2 [M2 [K2 [R2 S2]]]]]]]];
      try assumption; auto; try apply I; try apply incl_refl.
    - split. { destruct E2 as [p ->]. now exists p. }
      split. { intros x [<-|Hx]; auto. }
      split. { constructor; auto. }
      split. { apply topo_cons; auto. }
      split; auto. split.
      + intros x Hx Nx. apply K2; auto. intro Q. apply Nx. now right.
      + intros x [<-|Hx]; auto.
    - now exists [].
  Qed.

  (* Fuel. *)
  Definition unvisited (U : list node) (vis : node -> bool) : nat :=
    length (filter (fun x => negb (vis x)) U).

  Lemma unvisited_le : forall U v1 v2,
    (forall x, v1 x = true -> v2 x = true) -> unvisited U v2 <= unvisited U v1.
  Proof.
    intros U v1 v2 H. unfold unvisited.
    induction U as [|x U IH]; simpl; auto.
    destruct (v1 x) eqn:E1; simpl.
    - rewrite (H x E1). simpl. lia.
    - destruct (v2 x); simpl; lia.
  Qed.

  Lemma unvisited_lt : forall U v1 v2 c,
    (forall x, v1 x = true -> v2 x = true) -> In c U -> v1 c = false ->
    v2 c = true -> unvisited U v2 < unvisited U v1.
  Proof.
    intros U v1 v2 c H. unfold unvisited.
    induction U as [|x U IH]; simpl; intros I C1 C2; [tauto|].
    destruct I as [->|I].
    - rewrite C1, C2. simpl.
      pose proof (unvisited_le U v1 v2 H) as W. unfold unvisited in W. lia.
    - specialize (IH I C1 C2). destruct (v1 x) eqn:E1; simpl.
      + rewrite (H x E1). simpl. lia.
      + destruct (v2 x); simpl; lia.
  Qed.

  Lemma postOrder_fuel : forall U, closedUnder succs U ->
    forall fuel n vis ord, In n U -> unvisited U vis < fuel ->
    exists vis' ord', postOrder succs fuel n (vis, ord) = Some (vis', ord') /\
      forall x, vis x = true -> vis' x = true.
  Proof.
    intros U CU. induction fuel as [|f IH]; intros n vis ord Hn W; [lia|].
    cbn [postOrder].
    match goal with |- context [match ?L (succs n) _ with _ => _ end] =>
      set (visit := L) end.
    assert (G : forall cs vis1 ord1, incl cs (succs n) ->
      (forall x, vis x = true -> vis1 x = true) ->
      exists vis2 ord2, visit cs (vis1, ord1) = Some (vis2, ord2) /\
        forall x, vis x = true -> vis2 x = true).
    { induction cs as [|c cs IHc]; intros vis1 ord1 Hi H1.
      - cbn [visit]. eauto.
      - assert (Hc : In c U) by (eapply CU; [exact Hn|apply Hi; now left]).
        assert (Hi' : incl cs (succs n)) by
          (intros z Hz; apply Hi; now right).
        cbn [visit]. fold visit. cbn [fst snd].
        destruct (vis1 c) eqn:Ec; auto.
        destruct (IH c (fun m : node => Nat.eqb m c || vis1 m) ord1 Hc)
          as [v3 [o3 [E3 M3]]].
        { assert (unvisited U (fun m : node => Nat.eqb m c || vis1 m)
                  < unvisited U vis1).
          { apply unvisited_lt with (c := c); auto.
            - intros x Hx. rewrite Hx. apply orb_true_r.
            - now rewrite Nat.eqb_refl. }
          pose proof (unvisited_le U vis vis1 H1). lia. }
        rewrite E3. apply IHc; auto. intros x Hx. apply M3.
        rewrite (H1 x Hx). apply orb_true_r. }
    destruct (G (succs n) vis ord (incl_refl _)) as [v2 [o2 [E2 M2]]]; auto.
    rewrite E2. eauto.
  Qed.

  Lemma rpo_ok : forall fuel entry ord, acyclicFrom succs entry ->
    reversePostOrder entry succs fuel = Some ord ->
    hd_error ord = Some entry /\ NoDup ord /\ topo ord /\
    forall x, In x ord <-> pth entry x.
  Proof.
    intros fuel entry ord AC H. unfold reversePostOrder in H.
    destruct (postOrder succs fuel entry (fun m : node => Nat.eqb m entry, []))
      as [[vis out]|] eqn:E; [|discriminate].
    inversion H; subst; clear H.
    apply (postOrder_ok entry AC) in E as [E1 [A [D [T [_ [_ R]]]]]]; auto.
    - destruct E1 as [pre E1]. split; [now rewrite E1|].
      split; auto. split; auto. intros x. split; auto.
      intros P. assert (I0 : In entry ord) by (rewrite E1; now left).
      assert (C : forall a b, pth a b -> In a ord -> In b ord).
      { intros a b Pab. induction Pab; auto. intros Ia. apply IHPab.
        destruct (in_split a ord Ia) as [l1 [l2 El]].
        rewrite El. apply in_or_app. right. right. eapply T; eauto. }
      eauto.
    - constructor.
    - now rewrite Nat.eqb_refl.
    - constructor.
      + intros x [].
      + constructor.
      + intros l1 u l2 Q. destruct l1; discriminate.
      + intros x Hx _. apply Nat.eqb_eq in Hx. subst. constructor.
    - intros x [].
  Qed.

  Lemma rpo_fuel : forall U fuel entry, closedUnder succs U -> In entry U ->
    length U < fuel -> exists ord, reversePostOrder entry succs fuel = Some ord.
  Proof.
    intros U fuel entry C I L. unfold reversePostOrder.
    destruct (postOrder_fuel U C fuel entry (fun m : node => Nat.eqb m entry) [] I)
      as [v [o [E _]]].
    - unfold unvisited. eapply Nat.le_lt_trans; [apply filter_length_le|exact L].
    - rewrite E. eauto.
  Qed.
End Post.

(* ---- single pass ---- *)
Section Single.
  Context {V : Type} (F : framework V).
  Variable preds succs : node -> list node.
  Hypothesis INV : mutuallyInverse preds succs.

  Lemma gather_ext : forall s t n,
    (forall p, In p (preds n) -> s p = t p) ->
    gather F preds s n = gather F preds t n.
  Proof.
    intros s t n H. unfold gather. generalize (fwTop F).
    induction (preds n) as [|p ps IH]; simpl; intros v; auto.
    rewrite (H p) by (now left). apply IH. intros; apply H; now right.
  Qed.

  Definition evalAll (ns : list node) (s : node -> V) : node -> V :=
    fold_left (fun s n => setValue s n (fwTransfer F n (gather F preds s n)))
              ns s.

  Lemma evalAll_other : forall ns s n, ~ In n ns -> evalAll ns s n = s n.
  Proof.
    unfold evalAll. induction ns as [|m ns IH]; simpl; intros s n H; auto.
    rewrite IH by tauto. apply setValue_other. intro; subst; tauto.
  Qed.

  Lemma evalAll_eq : forall ns s n,
    NoDup ns -> topo succs ns -> In n ns ->
    evalAll ns s n = fwTransfer F n (gather F preds (evalAll ns s) n).
  Proof.
    induction ns as [|m ns IH]; simpl; intros s n D T I; [tauto|].
    apply NoDup_cons_iff in D as [D1 D2].
    assert (T' : topo succs ns).
    { intros l1 u l2 E w Hw. apply (T (m :: l1) u l2); auto.
      simpl. now rewrite E. }
    destruct (Nat.eq_dec n m) as [->|N].
    - change (evalAll (m :: ns) s) with
        (evalAll ns (setValue s m (fwTransfer F m (gather F preds s m)))).
      rewrite evalAll_other by auto. rewrite setValue_same. f_equal.
      apply gather_ext. intros p Hp. apply INV in Hp.
      assert (Np : ~ In p (m :: ns)).
      { intros Q. destruct (in_split p (m :: ns) Q) as [l1 [l2 E]].
        assert (Im : In m l2) by (eapply T; eauto).
        destruct l1 as [|a l1]; simpl in E; inversion E; subst.
        - now apply D1.
        - apply D1. apply in_or_app. right. now right. }
      rewrite evalAll_other by (intro; apply Np; now right).
      symmetry. apply setValue_other. intro; subst; apply Np; now left.
    - destruct I as [->|I]; [congruence|].
      exact (IH _ n D2 T' I).
  Qed.
End Single.
