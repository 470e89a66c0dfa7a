(** C102: names of directives and clauses, prototypes, clauses of pragmas. *)
From Coq Require Import List Bool Arith String Lia.
From Verif Require Import ClauseModel DirectiveModel DirectiveSpec DirectiveProof.
Import ListNotations.
Local Open Scope string_scope.

(** Names from /repo/include/tsar/Support/Directives.td 82-264: namespaces, directives, some
    clauses (in the order of this file). *)
Definition tdNamespaces : list string := ["spf"; "dvm"].
Definition tdDirectives : list directive :=
  [Dir "analysis" 1 false; Dir "transform" 1 false; Dir "assert" 1 false; Dir "region" 1 false;
   Dir "metadata" 1 false; Dir "parallel" 1 false;
   Dir "template" 2 true; Dir "array" 2 false; Dir "inherit" 2 true; Dir "region" 2 false;
   Dir "host_section" 2 false; Dir "parallel" 2 true; Dir "actual" 2 true; Dir "get_actual" 2 true;
   Dir "redistribute" 2 true; Dir "realign" 2 true; Dir "remote_access" 2 true; Dir "interval" 2 true;
   Dir "endinterval" 2 false].
(** Kinds of tokens: 1 is a left parenthesis, 2 is an identifier, 3 is a comma, 4 is a right parenthesis. *)
Definition tk (k : nat) : desc := D (ETok k) [].
Definition idList : list desc := [tk 1; tk 2; D EZeroOrMore [tk 3; tk 2]; tk 4].
Definition tdClauses : list clause :=
  [Cl "processprivate" 6 idList; Cl "nostrict" 2 []; Cl "inline" 2 []; Cl "replace" 2 [D EZeroOrOne idList];
   Cl "with" 2 [tk 1; tk 2; tk 4]; Cl "private" 1 idList; Cl "induction" 1 idList; Cl "nomacro" 3 [];
   Cl "name" 4 idList;
   (* clauses without names, Directives.td 234-242 *)
   Cl "" 7 []; Cl "" 13 []; Cl "" 12 []; Cl "" 14 []; Cl "" 15 []; Cl "" 10 []; Cl "" 17 []; Cl "" 9 []; Cl "" 18 [];
   Cl "distribute" 8 []; Cl "distribute" 7 []; Cl "private" 12 []; Cl "reduction" 12 []; Cl "in" 10 []; Cl "out" 10 []].
Fixpoint nodupb (l : list (string * nat)) : bool :=
  match l with
  | [] => true
  | x :: l' => negb (existsb (fun y => String.eqb (fst x) (fst y) && Nat.eqb (snd x) (snd y)) l') && nodupb l'
  end.
Lemma nodupb_ok : forall l, nodupb l = true -> forall i j x, nth_error l i = Some x -> nth_error l j = Some x -> i = j.
Proof.
  assert (N : forall x l j, existsb (fun y : string * nat => String.eqb (fst x) (fst y) && Nat.eqb (snd x) (snd y)) l = false -> nth_error l j <> Some x).
  { intros x l j E H. apply nth_error_In in H. rewrite <- not_true_iff_false in E. apply E. apply existsb_exists.
    exists x. split; [exact H|]. rewrite String.eqb_refl, Nat.eqb_refl. reflexivity. }
  induction l as [|a l IH]; cbn; intros H i j x Hi Hj; [destruct i; discriminate|].
  apply andb_true_iff in H. destruct H as [A B]. apply negb_true_iff in A.
  destruct i as [|i], j as [|j]; cbn in Hi, Hj; [reflexivity| | |].
  - inversion Hi; subst. exfalso. apply (N _ _ _ A Hj).
  - inversion Hj; subst. exfalso. apply (N _ _ _ A Hi).
  - f_equal. apply (IH B _ _ x Hi Hj).
Qed.
Lemma unique_clauses : forall cs, nodupb (map (fun c => (cname c, cparent c)) cs) = true -> uniqueClauses cs.
Proof.
  intros cs H i j p n (k & x & -> & K & A & B) (k2 & x2 & -> & K2 & A2 & B2). f_equal.
  apply (nodupb_ok _ H k k2 (n, p)).
  - rewrite <- A, <- B. apply (map_nth_error (fun c => (cname c, cparent c)) _ _ K).
  - rewrite <- A2, <- B2. apply (map_nth_error (fun c => (cname c, cparent c)) _ _ K2).
Qed.
Lemma unique_directives : forall ds, nodupb (map (fun d => (dname d, dparent d)) ds) = true -> uniqueDirectives ds.
Proof.
  intros cs H i j p n (k & x & -> & K & A & B) (k2 & x2 & -> & K2 & A2 & B2). f_equal.
  apply (nodupb_ok _ H k k2 (n, p)).
  - rewrite <- A, <- B. apply (map_nth_error (fun c => (dname c, dparent c)) _ _ K).
  - rewrite <- A2, <- B2. apply (map_nth_error (fun c => (dname c, dparent c)) _ _ K2).
Qed.
Lemma unique_namespaces : forall ns, nodupb (map (fun n => (n, 0)) ns) = true -> uniqueNamespaces ns.
Proof.
  intros cs H i j n (k & -> & K) (k2 & -> & K2). f_equal. apply (nodupb_ok _ H k k2 (n, 0)).
  - apply (map_nth_error (fun c => (c, 0)) _ _ K).
  - apply (map_nth_error (fun c => (c, 0)) _ _ K2).
Qed.
Lemma td_clauses : uniqueClauses tdClauses.
Proof. apply unique_clauses. reflexivity. Qed.
Lemma td_directives : uniqueDirectives tdDirectives.
Proof. apply unique_directives. reflexivity. Qed.
Lemma td_namespaces : uniqueNamespaces tdNamespaces.
Proof. apply unique_namespaces. reflexivity. Qed.
(** Recognition of bodies: tokens up to the next name *)
Fixpoint others (ts : list ptok) : list ptok * list ptok :=
  match ts with Other k :: ts' => let (b, r) := others ts' in (Other k :: b, r) | _ => ([], ts) end.
Definition exBody (c : nat) (ts : list ptok) : option (list ptok * list ptok) := Some (others ts).
Lemma ex_recognized : forall c l, recognized exBody c (map Other l).
Proof.
  intros c l rest R. unfold exBody. f_equal. induction l as [|k l IH]; cbn.
  - destruct R as [->|(s & r & ->)]; reflexivity.
  - rewrite IH. reflexivity.
Qed.

Theorem C102_namespace_partial : C102_namespace_claim true.
Proof. exact namespace_ok. Qed.
Print Assumptions C102_namespace_partial.
Example C102_namespace_ex : getNamespace tdNamespaces "dvm" = Found 2 /\ isNamespace tdNamespaces 2 "dvm" /\
  getNamespace tdNamespaces "omp" = NotFound.
Proof. split; [reflexivity|]. split; [exists 1; split; reflexivity|reflexivity]. Qed.

Theorem C102_namespace_refuted : ~ C102_namespace_claim false.
Proof. 
  intros H. destruct (H tdNamespaces "not_namespace" td_namespaces) as [_ N]; [discriminate|discriminate|].
  assert (E : getNamespace tdNamespaces "not_namespace" = NotFound).
  { apply N. intros i (k & _ & K). destruct k as [|[|[|k]]]; discriminate. }
  discriminate E.
 Qed.
Print Assumptions C102_namespace_refuted.

Theorem C102_directive_partial : C102_directive_claim true.
Proof. exact directive_ok. Qed.
Print Assumptions C102_directive_partial.
(** The same name in two namespaces *)
Example C102_directive_ex : getDirective tdDirectives 1 "region" = Found 4 /\ getDirective tdDirectives 2 "region" = Found 10 /\
  isDirective tdDirectives 10 2 "region" /\ getDirective tdDirectives 1 "realign" = NotFound /\ uniqueDirectives tdDirectives.
Proof.
  split; [reflexivity|]. split; [reflexivity|]. split; [exists 9, (Dir "region" 2 false); repeat split|].
  split; [reflexivity|exact td_directives].
Qed.

Theorem C102_directive_refuted : ~ C102_directive_claim false.
Proof. 
  intros H. destruct (H tdDirectives 1 "not_directive" td_directives) as [_ N]; [discriminate|discriminate|].
  assert (E : getDirective tdDirectives 1 "not_directive" = NotFound).
  { apply N. intros i (k & d & _ & K & A & _). apply nth_error_In in K. cbn in K.
    repeat (destruct K as [<-|K]; [discriminate|]). contradiction. }
  discriminate E.
 Qed.
Print Assumptions C102_directive_refuted.

Theorem C102_clause_partial : C102_clause_claim true.
Proof. exact clause_ok. Qed.
Print Assumptions C102_clause_partial.
Example C102_clause_ex : getClause tdClauses 1 "private" = Found 6 /\ getClause tdClauses 12 "private" = Found 21 /\
  getClause tdClauses 2 "private" = NotFound /\ getClause tdClauses 12 "" = Found 12 /\ uniqueClauses tdClauses.
Proof. repeat split. exact td_clauses. Qed.

Theorem C102_clause_refuted : ~ C102_clause_claim false.
Proof. 
  intros H. destruct (H tdClauses 1 "not_clause" td_clauses) as [_ N]; [discriminate|].
  assert (E : getClause tdClauses 1 "not_clause" = NotFound).
  { apply N. intros i (k & d & _ & K & A & _). apply nth_error_In in K. cbn in K.
    repeat (destruct K as [<-|K]; [discriminate|]). contradiction. }
  discriminate E.
 Qed.
Print Assumptions C102_clause_refuted.

Theorem C102_prototype : C102_prototype_claim.
Proof. exact prototype_ok. Qed.
Print Assumptions C102_prototype.
Example C102_prototype_ex :
  prototype tdClauses 4 = Some [EZeroOrOne; ETok 1; ETok 2; EZeroOrMore; ETok 3; ETok 2; EAnchor; ETok 4; EAnchor] /\
  prototype tdClauses 5 = Some [ETok 1; ETok 2; ETok 4] /\ prototype tdClauses 3 = Some [].
Proof. repeat split. Qed.

Theorem C102_found_partial : C102_found_claim true true.
Proof. exact found_ok. Qed.
Print Assumptions C102_found_partial.
(** transform replace(..) nostrict replace(..) with(..) *)
Definition exWritten : list written :=
  [((4, "replace"), map Other [1; 2; 4]); ((2, "nostrict"), []); ((4, "replace"), map Other [7]); ((5, "with"), map Other [8; 9])].
Example C102_found_ex :
  (forall c n b, In ((c, n), b) exWritten ->
     isClause tdClauses c 2 n /\ n <> "" /\ recognized exBody c b /\ (true = true -> n <> "not_clause")) /\
  exists nodes, handlePragma tdClauses exBody false 2 (pragmaText false [] exWritten) = Done nodes /\
    findClause tdClauses 2 nodes 4 = [("replace", map Other [1; 2; 4]); ("replace", map Other [7])] /\
    findClause tdClauses 2 nodes 2 = [("nostrict", [])] /\ findClause tdClauses 2 nodes 6 = [].
Proof.
  split.
  - assert (R : forall c b, (exists l, b = map Other l) -> recognized exBody c b) by (intros c b [l ->]; apply ex_recognized).
    intros c n b [I|[I|[I|[I|[]]]]]; inversion I; subst; (split; [|split; [discriminate|split; [apply R|discriminate]]]);
      first [exists 3; eexists; repeat split; reflexivity | exists 1; eexists; repeat split; reflexivity
        | exists 4; eexists; repeat split; reflexivity | exists [1; 2; 4]; reflexivity | exists []; reflexivity
        | exists [7]; reflexivity | exists [8; 9]; reflexivity].
  - eexists. repeat split.
Qed.

Theorem C102_found_refuted_body : ~ C102_found_claim false true.
Proof. 
  intros H. destruct (H tdClauses exBody true 12 12 (map Other [5]) [((21, "private"), map Other [6])] td_clauses)
    as (nodes & E & F & _); try discriminate.
  - intros _. split; [exists 11, (Cl "" 12 []); repeat split|apply ex_recognized].
  - intros c n b [I|[]]. inversion I; subst. split; [exists 20, (Cl "private" 12 []); repeat split|].
    split; [discriminate|]. split; [apply (ex_recognized 21 [6])|discriminate].
  - vm_compute in E. inversion E; subst. specialize (F 21 "private"). vm_compute in F.
    assert (X : isClause tdClauses 21 12 "private") by (exists 20, (Cl "private" 12 []); repeat split).
    specialize (F X). assert (Y : "private" <> "") by discriminate. specialize (F Y). discriminate F.
 Qed.
Print Assumptions C102_found_refuted_body.

Theorem C102_found_refuted_name : ~ C102_found_claim true false.
Proof. 
  intros H. destruct (H [Cl "not_clause" 1 []] exBody false 1 0 [] [((1, "not_clause"), [])]) as (nodes & E & _); try discriminate.
  - apply unique_clauses. reflexivity.
  - intros _. reflexivity.
  - intros c n b [I|[]]. inversion I; subst. split; [exists 0, (Cl "not_clause" 1 []); repeat split|].
    split; [discriminate|]. split; [apply (ex_recognized 1 [])|discriminate].
 Qed.
Print Assumptions C102_found_refuted_name.

Theorem C102_unknown_partial : C102_unknown_claim true.
Proof. exact unknown_ok. Qed.
Print Assumptions C102_unknown_partial.
Example C102_unknown_ex : handlePragma tdClauses exBody false 1 [Name "inline"] = Error /\
  (forall c, ~ isClause tdClauses c 1 "inline").
Proof.
  split; [reflexivity|]. intros i (k & d & _ & K & A & B). apply nth_error_In in K. cbn in K.
  repeat (destruct K as [<-|K]; [discriminate|]). contradiction.
Qed.

Theorem C102_unknown_refuted : ~ C102_unknown_claim false.
Proof. 
  intros H. assert (E := H tdClauses exBody 1 "not_clause" [] td_clauses).
  assert (X : handlePragma tdClauses exBody false 1 [Name "not_clause"] = Error).
  { apply E; [discriminate|]. intros i (k & d & _ & K & A & _). apply nth_error_In in K. cbn in K.
    repeat (destruct K as [<-|K]; [discriminate|]). contradiction. }
  discriminate X.
 Qed.
Print Assumptions C102_unknown_refuted.

Theorem C102_select : C102_select_claim.
Proof. exact select_ok. Qed.
Print Assumptions C102_select.
Example C102_select_ex : isClause tdClauses 4 2 "replace" /\
  findClause tdClauses 2 [("unknown", []); ("replace", [Other 1]); ("with", [])] 4 = [("replace", [Other 1])].
Proof. split; [exists 3; eexists; repeat split|reflexivity]. Qed.

(** The directive realign has a body, but the clause for its body belongs to the directive region
    (Directives.td, DvmRealignBody), so an error is reported for each text of this directive. *)
Theorem C102_realign_refuted : forall body ts,
  getDirective tdDirectives 2 "realign" = Found 16 /\ handlePragma tdClauses body true 16 ts = Error.
Proof. intros body ts. split; reflexivity. Qed.
Print Assumptions C102_realign_refuted.

