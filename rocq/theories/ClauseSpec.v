(** Grammars of clauses and their languages (C101).  Definitions of this file do not mention
    positions, levels and backtracking. *)
From Coq Require Import List Bool Arith.
From Verif Require Import ClauseModel.
Import ListNotations.

(** Descriptions of clauses as in /repo/include/tsar/Support/Directives.td 25-81.  Variants of
    a choice are tokens and groups (as in all clauses of Directives.td). *)
Inductive item := Tk (k : nat) | Opt (b : seq) | Many (b : seq) | Many1 (b : seq) | Choice (a : alts)
with seq := Nil | Cons (i : item) (s : seq)
with alts := AEnd | ATok (k : nat) (a : alts) | AOne (b : seq) (a : alts).
(** A prototype of a clause: GenExprDescription, /repo/utils/TableGen/TableGen.cpp 118-129 *)
Fixpoint flatI (i : item) : list ek :=
  match i with
  | Tk k => [ETok k]
  | Opt b => EZeroOrOne :: flat b ++ [EAnchor]
  | Many b => EZeroOrMore :: flat b ++ [EAnchor]
  | Many1 b => EOneOrMore :: flat b ++ [EAnchor]
  | Choice a => EOneOf :: flatA a ++ [EAnchor]
  end
with flat (s : seq) : list ek := match s with Nil => [] | Cons i s => flatI i ++ flat s end
with flatA (a : alts) : list ek :=
  match a with AEnd => [] | ATok k a => ETok k :: flatA a | AOne b a => EOne :: flat b ++ EAnchor :: flatA a end.

(** Texts which match a description *)
Inductive langI : item -> list tok -> Prop :=
| l_tok : forall k v, langI (Tk k) [(k, v)]
| l_opt0 : forall b, langI (Opt b) []
| l_opt1 : forall b w, lang b w -> langI (Opt b) w
| l_many : forall b w, langM b w -> langI (Many b) w
| l_many1 : forall b w w', lang b w -> langM b w' -> langI (Many1 b) (w ++ w')
| l_choice : forall a w, langA a w -> langI (Choice a) w
with lang : seq -> list tok -> Prop :=
| l_nil : lang Nil []
| l_cons : forall i s w w', langI i w -> lang s w' -> lang (Cons i s) (w ++ w')
with langM : seq -> list tok -> Prop :=
| l_stop : forall b, langM b []
| l_more : forall b w w', lang b w -> langM b w' -> langM b (w ++ w')
with langA : alts -> list tok -> Prop :=
| l_atok : forall k v a, langA (ATok k a) [(k, v)]
| l_aone : forall b a w, lang b w -> langA (AOne b a) w
| l_atokN : forall k a w, langA a w -> langA (ATok k a) w
| l_aoneN : forall b a w, langA a w -> langA (AOne b a) w.

(** Well-formed descriptions.  [gLoop]: there is a token in each repeated part, [gOne]: a group of
    tokens in a choice does not directly contain obligatory choices and repetitions, a choice is
    not empty. *)
Definition mayFail (i : item) : bool := match i with Many1 _ | Choice _ => true | _ => false end.
Fixpoint simple (s : seq) : bool := match s with Nil => true | Cons i s => negb (mayFail i) && simple s end.
Fixpoint wfI (gLoop gOne : bool) (i : item) : Prop :=
  match i with
  | Tk _ => True
  | Opt b => wf gLoop gOne b
  | Many b | Many1 b => wf gLoop gOne b /\ (gLoop = true -> ~ lang b [])
  | Choice a => a <> AEnd /\ wfA gLoop gOne a
  end
with wf (gLoop gOne : bool) (s : seq) : Prop :=
  match s with Nil => True | Cons i s => wfI gLoop gOne i /\ wf gLoop gOne s end
with wfA (gLoop gOne : bool) (a : alts) : Prop :=
  match a with
  | AEnd => True
  | ATok _ a => wfA gLoop gOne a
  | AOne b a => wf gLoop gOne b /\ (gOne = true -> simple b = true) /\ wfA gLoop gOne a
  end.

(** Recognition stops and assertions do not fail. *)
Definition C101_stops_claim (gLoop gOne : bool) : Prop :=
  forall g ts, wf gLoop gOne g ->
    exists n, run n (flat g) ts [] [] = Reject \/ exists out rest, run n (flat g) ts [] [] = Accept out rest.
(** An accepted body matches the description, replaced tokens are exactly tokens of the body
    in the same order. *)
Definition C101_sound_claim (gLoop gOne : bool) : Prop :=
  forall g ts n out rest, wf gLoop gOne g -> run n (flat g) ts [] [] = Accept out rest ->
    lang g out /\ ts = out ++ rest.

(** Descriptions for which the next token determines what to do.  [F] are kinds of tokens which
    may be after a part. *)
Definition starts (s : seq) (k : nat) : Prop := exists v w, lang s ((k, v) :: w).
Definition startsA (a : alts) (k : nat) : Prop := exists v w, langA a ((k, v) :: w).
Fixpoint detI (i : item) (F : nat -> Prop) : Prop :=
  match i with
  | Tk _ => True
  | Opt b => det b F /\ ~ lang b [] /\ (forall k, starts b k -> ~ F k)
  | Many b | Many1 b => det b (fun k => F k \/ starts b k) /\ (forall k, starts b k -> ~ F k)
  | Choice a => detA a F
  end
with det (s : seq) (F : nat -> Prop) : Prop :=
  match s with Nil => True | Cons i s => detI i (fun k => starts s k \/ (lang s [] /\ F k)) /\ det s F end
with detA (a : alts) (F : nat -> Prop) : Prop :=
  match a with
  | AEnd => True
  | ATok k a => ~ startsA a k /\ detA a F
  | AOne b a => det b F /\ ~ lang b [] /\ (forall k, starts b k -> ~ startsA a k) /\ detA a F
  end.
Definition follows (F : nat -> Prop) (rest : list tok) : Prop := match rest with [] => True | t :: _ => F (fst t) end.
(** A text which matches a description is accepted, what is after it (for example, the next clause)
    is not touched.  [gDet]: the next token determines what to do. *)
Definition C101_complete_claim (gDet : bool) : Prop :=
  forall g w rest, wf true true g -> lang g w ->
    (gDet = true -> exists F, det g F /\ follows F rest) ->
    exists n, run n (flat g) (w ++ rest) [] [] = Accept w rest.
