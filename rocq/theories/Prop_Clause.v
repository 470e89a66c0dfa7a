(** C101: recognition of clauses. *)
From Coq Require Import List Bool Arith Lia.
From Verif Require Import ClauseModel ClauseSpec ClauseProof.
Import ListNotations.

(** replace(A, B, ...) as an optional list, Directives.td 144-145:
    [ZeroOrOne<[LParen, Identifier, ZeroOrMore<[Comma, Identifier]>, RParen]>], where 1 is a left
    parenthesis, 2 is an identifier, 3 is a comma, 4 is a right parenthesis *)
Definition exBody : seq :=
  Cons (Tk 1) (Cons (Tk 2) (Cons (Many (Cons (Tk 3) (Cons (Tk 2) Nil))) (Cons (Tk 4) Nil))).
Definition exGrammar : seq := Cons (Opt exBody) Nil.
(** (A, B) and an identifier of the next clause *)
Definition exText : list tok := [(1, 0); (2, 10); (3, 0); (2, 11); (4, 0)].
(** reverse(I) or reverse(1), Directives.td 149-150, with a group: OneOf<[One<[2, 3]>, 5]> *)
Definition exChoice : seq :=
  Cons (Tk 1) (Cons (Choice (AOne (Cons (Tk 2) (Cons (Tk 3) Nil)) (ATok 5 AEnd))) (Cons (Tk 4) Nil)).
Lemma ex_wf : wf true true exGrammar.
Proof. cbn. repeat split. intros _. apply not_empty_tok. Qed.
Lemma ex_wf_choice : wf true true exChoice.
Proof. cbn. repeat split. discriminate. Qed.
Lemma tok_lang : forall k v s w, lang s w -> lang (Cons (Tk k) s) ((k, v) :: w).
Proof. intros k v s w H. apply (l_cons _ _ [(k, v)] w); [constructor|exact H]. Qed.
Lemma ex_lang : lang exGrammar exText.
Proof.
  apply (l_cons _ _ exText []); [|constructor]. apply l_opt1. apply tok_lang. apply tok_lang.
  apply (l_cons _ _ [(3, 0); (2, 11)] [(4, 0)]); [|apply tok_lang; constructor]. apply l_many.
  apply (l_more _ [(3, 0); (2, 11)] []); [|constructor]. apply tok_lang. apply tok_lang. constructor.
Qed.
Lemma tok_starts : forall k s k', starts (Cons (Tk k) s) k' -> k' = k.
Proof.
  intros k s k' (v & w & H). inversion H as [|i s' w1 w2 HI HS E1 E2]; subst. inversion HI; subst.
  cbn in E2. congruence.
Qed.
Lemma ex_det : det exGrammar (fun k => k = 2).
Proof.
  cbn. repeat split; try apply not_empty_tok.
  all: intros k S1 [S2 | [L S2]]; apply tok_starts in S1;
    first [apply tok_starts in S2; congruence | destruct S2 as (v & w & S2); inversion S2 | apply not_empty_tok in L; exact L | congruence].
Qed.
(** The clause of the directive metadata, Directives.td 163-231: 6 is a period, 7 is an equal, 8 and 9 are
    squares, 10 and 11 are braces *)
Definition seqT (l : list nat) (s : seq) : seq := fold_right (fun k s => Cons (Tk k) s) s l.
Definition metaField : seq := Cons (Opt (seqT [8; 9] Nil)) (seqT [6; 2; 7; 2] Nil).
Definition metaArg : item :=
  Choice (AOne (seqT [2] Nil)
         (AOne (Cons (Tk 10) (Cons (Opt (Cons (Opt (seqT [8; 9] Nil)) (seqT [6; 2; 7; 2]
            (Cons (Many (Cons (Tk 3) metaField)) Nil)))) (Cons (Tk 11) Nil))) AEnd)).
Definition metaCall (k : seq) : seq :=
  seqT [2; 1] (Cons (Opt (Cons metaArg (Cons (Many (Cons (Tk 3) (Cons metaArg Nil))) Nil))) (Cons (Tk 4) k)).
Definition metaGrammar : seq :=
  Cons (Tk 1) (metaCall (Cons (Many (Cons (Tk 3) (metaCall Nil))) (Cons (Tk 4) Nil))).
Lemma meta_wf : wf true true metaGrammar.
Proof. cbn. repeat split; try discriminate; intros _; apply not_empty_tok. Qed.

(** What is missing: repeated parts which may be empty; groups of choices which directly contain obligatory choices or repetitions; variants of choices which are optional or repeated parts. *)
Theorem C101_stops_partial : C101_stops_claim true true.
Proof. exact stops_partial. Qed.
Print Assumptions C101_stops_partial.
Example C101_stops_example : wf true true metaGrammar /\ wf true true exGrammar /\ wf true true exChoice
  /\ run 20 (flat exChoice) [(1, 0); (2, 0); (4, 0)] [] [] = Reject
  /\ run 20 (flat exChoice) [(1, 0); (5, 7); (4, 0)] [] [] = Accept [(1, 0); (5, 7); (4, 0)] [].
Proof. exact (conj meta_wf (conj ex_wf (conj ex_wf_choice (conj eq_refl eq_refl)))). Qed.

Theorem C101_stops_refuted_loop : ~ C101_stops_claim false true.
Proof. exact stops_refuted_loop. Qed.
Print Assumptions C101_stops_refuted_loop.

Theorem C101_stops_refuted_group : ~ C101_stops_claim true false.
Proof. exact stops_refuted_group. Qed.
Print Assumptions C101_stops_refuted_group.

(** What is missing: repeated parts which may be empty; groups of choices which directly contain obligatory choices or repetitions; variants of choices which are optional or repeated parts. *)
Theorem C101_sound_partial : C101_sound_claim true true.
Proof. exact sound_partial. Qed.
Print Assumptions C101_sound_partial.
Example C101_sound_example : wf true true exGrammar
  /\ run 40 (flat exGrammar) (exText ++ [(2, 12)]) [] [] = Accept exText [(2, 12)]
  /\ run 40 (flat exGrammar) [(1, 0); (2, 10); (3, 0); (4, 0)] [] [] = Accept [] [(1, 0); (2, 10); (3, 0); (4, 0)].
Proof. exact (conj ex_wf (conj eq_refl eq_refl)). Qed.

(** What is missing: descriptions for which the next token does not determine what to do. *)
Theorem C101_complete_partial : C101_complete_claim true.
Proof. exact complete_partial. Qed.
Print Assumptions C101_complete_partial.
Example C101_complete_example : wf true true exGrammar /\ lang exGrammar exText /\ det exGrammar (fun k => k = 2)
  /\ follows (fun k => k = 2) [(2, 12)].
Proof. exact (conj ex_wf (conj ex_lang (conj ex_det eq_refl))). Qed.

Theorem C101_complete_refuted : ~ C101_complete_claim false.
Proof. exact complete_refuted. Qed.
Print Assumptions C101_complete_refuted.
