(** Model of the estimation of weights of functions and loops from a profile,
    /repo/lib/Analysis/Reader/RegionWeights.cpp:64-217.

    Simplifications.  Weights are integers without overflow (InstructionCost saturates); the cost of an
    instruction is a known number.  A profile is already loaded: each function has a list of segments and a
    number of executions, or it is not covered.  An undefined division by zero is [None]. *)
From Coq Require Import List Bool Arith ZArith.
Import ListNotations.

(** A segment of coverage data: the position of its beginning and the number of executions *)
Record seg := Seg { sLine : nat; sCol : nat; sCount : Z }.
Definition seg0 : seg := Seg 0 0 0.
(** Comparison of positions, 72-73 and 80-81 *)
Definition notAfter (s : seg) (l : nat * nat) : bool :=
  (sLine s <? fst l) || ((sLine s =? fst l) && (sCol s <=? snd l)).
(** Binary search, 75-86: [b] and [e] are bounds of the current range *)
Fixpoint bsearch (fuel : nat) (cov : list seg) (l : nat * nat) (b e : nat) : option Z :=
  match fuel with
  | 0 => None
  | S fuel =>
    if e - b =? 1 then Some (sCount (nth b cov seg0))
    else let h := b + Nat.div2 (e - b) in
         if notAfter (nth h cov seg0) l then bsearch fuel cov l h e else bsearch fuel cov l b h
  end.
(** getExecutionCount, 64-88 *)
Definition getExecutionCount (cov : list seg) (loc : option (nat * nat)) : option Z :=
  match loc, cov with
  | Some l, s :: _ => if negb (notAfter s l) then Some 0%Z else bsearch (length cov) cov l 0 (length cov)
  | _, _ => Some 0%Z
  end.

(** A call of an unknown function, a debug or marker intrinsic or a function; [bi] marks intrinsics and library
    functions *)
Inductive callee := CNone | CInd | CDbg | CFn (f : nat) (bi : bool).
Record inst := Inst { iLoc : option (nat * nat); iCost : Z; iCall : callee }.
(** A loop: its identifier, its header, all its blocks, inner loops *)
Inductive loop := Loop (id : option nat) (hdr : nat) (bs : list nat) (subs : list loop).
(** [fProf]: the number of executions and coverage data *)
Record func := Func { fDecl : bool; fProf : option (Z * list seg); fBlocks : list (list inst); fLoops : list loop }.

Section Weights.
Variable fn : nat -> func.
(** Options with weights of unknown functions and of unknown intrinsics *)
Variables unkF unkB : Z.

Definition bind {A B : Type} (o : option A) (f : A -> option B) : option B := match o with Some a => f a | None => None end.
Definition get {A : Type} (m : list (nat * A)) (k : nat) : option A :=
  match find (fun p => fst p =? k) m with Some p => Some (snd p) | None => None end.
(** try_emplace does not change a known value *)
Definition emplace {A : Type} (m : list (nat * A)) (k : nat) (v : A) : list (nat * A) := m ++ [(k, v)].
Fixpoint sumZ (l : list Z) : Z := match l with [] => 0 | z :: l => z + sumZ l end%Z.
Fixpoint mapO {A B : Type} (f : A -> option B) (l : list A) : option (list B) :=
  match l with [] => Some [] | a :: l => bind (f a) (fun b => bind (mapO f l) (fun bs => Some (b :: bs))) end.
(** Unsigned division *)
Definition divO (a b : Z) : option Z := if Z.eqb b 0 then None else Some (Z.quot a b).

(** Weights of functions (mSelfWeights, mTotalWeights), weights and numbers of iterations of loops *)
Record state := St { selfF : list (nat * Z); totF : list (nat * Z); loopTot : list (nat * (Z * Z)); loopSelf : list (nat * (Z * Z)) }.

(** getLoopExecutionCount, 90-98 *)
Fixpoint firstCount (cov : list seg) (is : list inst) : option Z :=
  match is with
  | [] => Some 0%Z
  | i :: is => bind (getExecutionCount cov (iLoc i)) (fun c => if Z.ltb 0 c then Some c else firstCount cov is)
  end.
(** The first component of getWeight, 100-127 *)
Definition selfWeight (selfs : list (nat * Z)) (i : inst) : Z :=
  (iCost i + match iCall i with
             | CNone | CDbg => 0
             | CInd => unkF
             | CFn f bi => match get selfs f with Some w => w | None => if bi then unkB else unkF end
             end)%Z.
(** The second component *)
Definition totalWeight (selfs : list (nat * Z)) (cov : list seg) (i : inst) : option Z :=
  bind (getExecutionCount cov (iLoc i)) (fun c => Some (selfWeight selfs i * c)%Z).
(** An entry count is stored in a variable of the type unsigned, 185-187 *)
Definition assumed (n : Z) : Z := if Z.ltb 0 n then (n mod 2 ^ 32)%Z else 1%Z.

(** Loops in pre-order, 196-214; [ws] are total weights of instructions of blocks, [parent] is an identifier of
    the parent loop if the loop has a parent with an identifier *)
Definition parentIters (s : state) (entry : Z) (parent : option nat) : Z :=
  match parent with
  | Some p => match get (loopTot s) p with Some w => snd w | None => 0%Z end
  | None => entry
  end.
Definition loopWeight (cov : list seg) (bls : list (list inst)) (ws : list (list Z)) (entry : Z) (parent : option nat)
    (i hdr : nat) (bs : list nat) (s : state) : option state :=
  let P := parentIters s entry parent in
  let total := sumZ (map (fun b => sumZ (nth b ws [])) bs) in
  bind (divO total P) (fun self =>
  bind (firstCount cov (nth hdr bls [])) (fun iters =>
  bind (divO iters P) (fun selfIters =>
  Some (St (selfF s) (totF s) (emplace (loopTot s) i (total, iters)) (emplace (loopSelf s) i (self, selfIters)))))).
Fixpoint visitLoop (cov : list seg) (bls : list (list inst)) (ws : list (list Z)) (entry : Z) (parent : option nat)
    (l : loop) (s : state) : option state :=
  match l with
  | Loop id hdr bs subs =>
    bind (match id with Some i => loopWeight cov bls ws entry parent i hdr bs s | None => Some s end)
      ((fix visitLoops (ls : list loop) (s : state) := match ls with
        | [] => Some s
        | l :: ls => bind (visitLoop cov bls ws entry id l s) (visitLoops ls)
        end) subs)
  end.
Fixpoint visitLoops (cov : list seg) (bls : list (list inst)) (ws : list (list Z)) (entry : Z) (parent : option nat)
    (ls : list loop) (s : state) : option state :=
  match ls with [] => Some s | l :: ls => bind (visitLoop cov bls ws entry parent l s) (visitLoops cov bls ws entry parent ls) end.

(** A function, 163-214 *)
Definition visitFunction (f : nat) (s : state) : option state :=
  let F := fn f in
  if fDecl F then Some s
  else match fProf F with
       | None => Some s
       | Some (n, cov) =>
         bind (mapO (mapO (totalWeight (selfF s) cov)) (fBlocks F)) (fun ws =>
         let total := sumZ (map sumZ ws) in
         bind (divO total (assumed n)) (fun self =>
         visitLoops cov (fBlocks F) ws (assumed n) None (fLoops F)
           (St (emplace (selfF s) f self) (emplace (totF s) f total) (loopTot s) (loopSelf s))))
       end.
Fixpoint visitFunctions (fs : list nat) (s : state) : option state :=
  match fs with [] => Some s | f :: fs => bind (visitFunction f s) (visitFunctions fs) end.
(** Strongly connected components of a call graph, 150-163; the flag is hasCycle *)
Fixpoint runOnModule (sccs : list (bool * list nat)) (s : state) : option state :=
  match sccs with
  | [] => Some s
  | (c, fs) :: sccs => if c then runOnModule sccs s else bind (visitFunctions fs s) (runOnModule sccs)
  end.
Definition estimate (sccs : list (bool * list nat)) : option state := runOnModule sccs (St [] [] [] []).
End Weights.

(** The check of a loop which may be parallelized, /repo/lib/Transform/Clang/SharedMemoryAutoPar.cpp:144-152 *)
Definition heavy (s : state) (i : nat) (threshold : Z) : bool :=
  match get (loopSelf s) i with Some w => negb (Z.ltb (fst w) threshold) | None => true end.
