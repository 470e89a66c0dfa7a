(** Specification of C97. *)
From Coq Require Import PeanoNat Bool List.
From Verif Require Import NoMacroModel.
Import ListNotations.

(** A file is a list of lines. *)
Definition lineTokens (l : list tok) : list token :=
  match l with [] => [] | t :: r => (t, true) :: map (fun x => (x, false)) r end.
Definition fileTokens (ls : list (list tok)) : list token := concat (map lineTokens ls).
(** A macro is defined in a line. *)
Definition defines (l : list tok) (s : nat) : Prop := exists r, l = THash :: TId nDefine :: TId s :: r.
Definition defined (ls : list (list tok)) (s : nat) : Prop := exists l, In l ls /\ defines l s.

(** Guards: no null directives; a file is named in each #include directive; a macro is named in
    each #define directive. *)
Definition noNull (ls : list (list tok)) : Prop := ~ In [THash] ls.
Definition goodInclude (ls : list (list tok)) : Prop :=
  forall r, In (THash :: TId nInclude :: r) ls ->
    (exists r', r = TLit :: r') \/ exists a b, r = TLess :: a ++ TGreater :: b.
Definition goodDefine (ls : list (list tok)) : Prop :=
  forall r, In (THash :: TId nDefine :: r) ls -> exists s r', r = TId s :: r'.

(** All macros which are defined in a file are collected. *)
Definition C97_collect_claim (gn gi : bool) : Prop :=
  forall ls ms ids s,
    (gn = true -> noNull ls) -> (gi = true -> goodInclude ls) ->
    collectFile (fileTokens ls) = Ok ms ids -> defined ls s -> In s ms.
(** Only such macros are collected. *)
Definition C97_only_claim (gn gd : bool) : Prop :=
  forall ls ms ids s,
    (gn = true -> noNull ls) -> (gd = true -> goodDefine ls) ->
    collectFile (fileTokens ls) = Ok ms ids -> In s ms -> defined ls s.
(** The collection finishes successfully. *)
Definition C97_total_claim (gn gi gd : bool) : Prop :=
  forall ls,
    (gn = true -> noNull ls) -> (gi = true -> goodInclude ls) -> (gd = true -> goodDefine ls) ->
    exists ms ids, collectFile (fileTokens ls) = Ok ms ids.

(** ** A search *)
(** A preprocessor: which tokens are names of expanded macros. Names of directives are not
    expanded, names are defined in files or outside of them (a command line, files which are
    not visited). *)
Record world := World { wFiles : list (list (list tok)); wOutside : nat -> Prop;
                        wExpanded : nat -> bool; wRange : list (nat * token); wLocs : list astLoc }.
Definition valid (w : world) : Prop :=
  (forall l h t r, wRange w = l ++ h :: t :: r -> isHash (snd h) = true -> wExpanded w (fst t) = false)
  /\ (forall p t, In (p, t) (wRange w) -> wExpanded w p = true ->
        exists s, fst t = TId s /\ (wOutside w s \/ exists ls, In ls (wFiles w) /\ defined ls s))
  /\ (forall p b, In (p, b) (wLocs w) -> b = wExpanded w p).
(** If no macros are found, there are no macros and no directives in a range except pragmas.
    Guards: no null directives and good includes in files, no macros from outside. *)
Definition C97_search_claim (gn gi go : bool) : Prop :=
  forall w ms ids same,
    valid w ->
    (gn = true -> forall ls, In ls (wFiles w) -> noNull ls) ->
    (gi = true -> forall ls, In ls (wFiles w) -> goodInclude ls) ->
    (go = true -> forall s, ~ wOutside w s) ->
    collectFiles (map fileTokens (wFiles w)) = Ok ms ids ->
    accepted (forEachMacro ms (wLocs w) same (wRange w)) = true ->
    same = true
    /\ (forall p t, In (p, t) (wRange w) -> wExpanded w p = false)
    /\ (forall l h t r, wRange w = l ++ h :: t :: r -> isHash (snd h) = true -> fst (snd t) = TId nPragma).
(** Each macro which is found in AST is reported once. *)
Definition C97_once_claim : Prop :=
  forall locs rep v, checkLocs locs [] = (rep, v) ->
    NoDup rep /\ (forall p, In p rep -> In (p, true) locs)
    /\ ((forall p, In (p, true) locs -> ~ In (p, false) locs) -> forall p, In (p, true) locs -> In p rep).
(** An assertion is not violated. Guard: no null directives in the range. *)
Definition C97_noassert_claim (gn : bool) : Prop :=
  forall ms locs same range,
    (gn = true -> forall l h r, range = l ++ h :: r -> isHash (snd h) = true -> exists p s b r', r = (p, (TId s, b)) :: r') ->
    fst (forEachMacro ms locs same range) <> RAssert.

(** ** Assertions in a source code *)
Inductive sub : node -> node -> Prop :=
| sub_self : forall n, sub n n
| sub_child : forall i cs c m, In c cs -> sub c m -> sub (Node i cs) m.
Definition isPrag (n : node) : Prop := match n with Prag _ => True | Node _ _ => False end.
(** The next statement after an assertion. *)
Definition asserted (root : node) (i : nat) (cs : list node) : Prop :=
  exists k l ps r, sub root (Node k (l ++ Prag true :: ps ++ Node i cs :: r)) /\ Forall isPrag ps.
(** Each asserted node is checked or it is a part of a checked node. *)
Definition C97_assert_claim : Prop :=
  forall k ns i cs, asserted (Node k ns) i cs ->
    exists j cj, In j (snd (traverse (Node k ns) false)) /\ sub (Node k ns) (Node j cj) /\ sub (Node j cj) (Node i cs).
(** Only asserted nodes are checked. Guard: there is a statement after each assertion. *)
Definition followed (root : node) : Prop :=
  forall k l r, sub root (Node k (l ++ Prag true :: r)) -> exists ps i cs r', r = ps ++ Node i cs :: r' /\ Forall isPrag ps.
Definition C97_checked_claim (gf : bool) : Prop :=
  forall k ns j, (gf = true -> followed (Node k ns)) ->
    In j (snd (traverse (Node k ns) false)) -> exists cj, asserted (Node k ns) j cj.
