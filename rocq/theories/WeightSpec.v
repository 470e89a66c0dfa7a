(** Specification of weights (C73). *)
From Coq Require Import List Bool Arith ZArith Sorted.
From Verif Require Import WeightModel.
Import ListNotations.
Local Open Scope Z_scope.

(** Positions in a source text *)
Definition leq (a b : nat * nat) : Prop := (fst a < fst b)%nat \/ (fst a = fst b /\ (snd a <= snd b)%nat).
Definition pos (s : seg) : nat * nat := (sLine s, sCol s).
(** The number of executions at a position is known from the last segment which starts not after it *)
Definition countAt (cov : list seg) (loc : option (nat * nat)) (c : Z) : Prop :=
  match loc with
  | None => c = 0
  | Some l =>
    (exists l1 s l2, cov = l1 ++ s :: l2 /\ leq (pos s) l /\ (forall t, In t l2 -> ~ leq (pos t) l) /\ c = sCount s) \/
    ((forall t, In t cov -> ~ leq (pos t) l) /\ c = 0)
  end.
Definition sorted (cov : list seg) : Prop := StronglySorted (fun a b => leq (pos a) (pos b)) cov.

Section Spec.
Variable fn : nat -> func.
Variables unkF unkB : Z.
(** Numbers of executions of instructions *)
Variable cnt : list seg -> inst -> Z.
(** The weight of one execution of an instruction if weights of calls of estimated functions are known *)
Definition weightOf (self : nat -> option Z) (i : inst) : Z :=
  iCost i + match iCall i with
            | CNone | CDbg => 0
            | CInd => unkF
            | CFn f bi => match self f, bi with Some w, _ => w | None, true => unkB | None, false => unkF end
            end.
Definition weights (self : nat -> option Z) (cov : list seg) (is : list inst) : Z :=
  fold_right Z.add 0 (map (fun i => cnt cov i * weightOf self i) is).
(** The number of iterations is the first known number of executions of an instruction of a header *)
Definition iterations (cov : list seg) (is : list inst) : Z :=
  match find (fun i => 0 <? cnt cov i) is with Some i => cnt cov i | None => 0 end.
(** The number of calls of a function; a function which is not executed is considered as called once *)
Definition calls (n : Z) : Z := Z.max 1 n.
(** Weights of loops: [P] is the number of iterations of the parent loop *)
Inductive loopSpec (self : nat -> option Z) (tot selfL : nat -> option (Z * Z)) (cov : list seg) (bls : list (list inst)) (entry : Z) : Z -> loop -> Prop :=
| LsId P i hdr bs subs T N :
    tot i = Some (T, N) -> T = weights self cov (flat_map (fun b => nth b bls []) bs) -> N = iterations cov (nth hdr bls []) ->
    selfL i = Some (T / P, N / P) -> (forall l, In l subs -> loopSpec self tot selfL cov bls entry N l) ->
    loopSpec self tot selfL cov bls entry P (Loop (Some i) hdr bs subs)
| LsNo P hdr bs subs :
    (forall l, In l subs -> loopSpec self tot selfL cov bls entry entry l) -> loopSpec self tot selfL cov bls entry P (Loop None hdr bs subs).
Definition funcSpec (s : state) (f : nat) : Prop :=
  let self := get (selfF s) in
  forall n cov, fDecl (fn f) = false -> fProf (fn f) = Some (n, cov) ->
    exists T, get (totF s) f = Some T /\ T = weights self cov (concat (fBlocks (fn f))) /\ self f = Some (T / calls n) /\
      forall l, In l (fLoops (fn f)) -> loopSpec self (get (loopTot s)) (get (loopSelf s)) cov (fBlocks (fn f)) (calls n) (calls n) l.
(** Functions without recursion *)
Definition straight (sccs : list (bool * list nat)) : list nat := flat_map (fun c : bool * list nat => if fst c then nil else snd c) sccs.
Fixpoint idsOf (l : loop) : list nat :=
  match l with Loop id _ _ subs => match id with Some i => [i] | None => [] end ++ flat_map idsOf subs end.
(** Loops with inner loops are executed *)
Inductive outerOk (cov : list seg) (bls : list (list inst)) : loop -> Prop :=
| OuterOk id hdr bs subs :
    (id <> None -> subs <> [] -> exists i, In i (nth hdr bls []) /\ 0 < cnt cov i) -> (forall l, In l subs -> outerOk cov bls l) ->
    outerOk cov bls (Loop id hdr bs subs).
End Spec.

(** Switches: numbers of executions of functions are less than 2^32; each loop with inner loops is executed *)
Record conds := Conds { xEntry : bool; xOuter : bool }.
Definition callsOf (F : func) : list nat :=
  flat_map (fun i => match iCall i with CFn g _ => [g] | _ => [] end) (concat (fBlocks F)).
Record wfProg (X : conds) (fn : nat -> func) (unkF unkB : Z) (cnt : list seg -> inst -> Z) (sccs : list (bool * list nat)) : Prop := WfProg {
  (* data of a profile *)
  wCnt : forall cov i, sorted cov -> countAt cov (iLoc i) (cnt cov i);
  wSorted : forall f n cov, fProf (fn f) = Some (n, cov) -> sorted cov /\ 0 <= n /\ forall s, In s cov -> 0 <= sCount s;
  wCost : 0 <= unkF /\ 0 <= unkB /\ forall f i, In i (concat (fBlocks (fn f))) -> 0 <= iCost i;
  (* components of a call graph are visited from callees to callers *)
  wNoDup : NoDup (flat_map snd sccs);
  wOrder : forall l1 c fs l2 f g, sccs = l1 ++ (c, fs) :: l2 -> In f fs -> In g (callsOf (fn f)) -> ~ In g (flat_map snd l2) /\ (c = false -> ~ In g fs);
  wIds : NoDup (flat_map (fun f => flat_map idsOf (fLoops (fn f))) (straight sccs));
  wEntry : xEntry X = true -> forall f n cov, fProf (fn f) = Some (n, cov) -> n < 2 ^ 32;
  wOuter : xOuter X = true -> forall f n cov l, fProf (fn f) = Some (n, cov) -> In l (fLoops (fn f)) -> outerOk cnt cov (fBlocks (fn f)) l }.

(** C73: the estimation finishes and finds weights of all functions and loops without recursion which are
    covered by a profile, and only of them *)
Definition C73_claim (X : conds) : Prop :=
  forall fn unkF unkB cnt sccs, wfProg X fn unkF unkB cnt sccs ->
    exists s, estimate fn unkF unkB sccs = Some s /\
      (forall f, In f (straight sccs) -> funcSpec fn unkF unkB cnt s f) /\
      (forall f, get (selfF s) f <> None -> In f (straight sccs) /\ fDecl (fn f) = false /\ fProf (fn f) <> None).
