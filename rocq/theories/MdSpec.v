(** Specification of the search for variables which hold a value (C69).

    An execution follows edges of the graph, definitions of registers obtain any values, and
    llvm.dbg.value says which value a variable has from now on.  A variable is a sequence of bits. *)
From Coq Require Import List Bool Arith ZArith.
From Verif Require Import MdModel.
Import ListNotations.

(** A bit of a variable: the number of a bit of some word *)
Record state := State { regs : nat -> Z; vars : nat -> nat -> option (Z * nat) }.
Definition valueOf (s : state) (v : value) : Z := match v with VReg n => regs s n | VConst z => z end.
Definition inFrag (r : frag) (k : nat) : Prop := match r with None => True | Some (o, n) => o <= k < o + n end.
Definition inFragb (r : frag) (k : nat) : bool := match r with None => true | Some (o, n) => (o <=? k) && (k <? o + n) end.
Definition fragOff (r : frag) : nat := match r with None => 0 | Some (o, _) => o end.

(** What llvm.dbg.value says about a variable; [mem] is the content of memory *)
Definition described (mem : Z -> Z) (op : dwop) (z : Z) : Z :=
  match op with OpNone => z | OpPlus c => (z + c)%Z | OpDeref => mem z end.
Definition setVar (mem : Z -> Z) (d : dbg) (s : state) : state :=
  State (regs s) (fun x k => if (x =? dVar d) && inFragb (dFrag d) k
                             then Some (described mem (dOp d) (valueOf s (dVal d)), k - fragOff (dFrag d))
                             else vars s x k).
Definition setReg (n : nat) (z : Z) (s : state) : state :=
  State (fun m => if m =? n then z else regs s m) (vars s).
Inductive instStep (mem : Z -> Z) : inst -> state -> state -> Prop :=
| st_dbg : forall d s, instStep mem (IDbg d) s (setVar mem d s)
| st_def : forall n us z s, instStep mem (IDef n us) s (setReg n z s)
| st_phi : forall n inc z s, instStep mem (IPhi n inc) s (setReg n z s)
| st_use : forall us s, instStep mem (IUse us) s s.

(** Executed positions (the last one is the first), the current position and the current state *)
Inductive exec (mem : Z -> Z) (f : func) : list pos -> pos -> state -> Prop :=
| ex_start : forall s, exec mem f [] (0, 0) s
| ex_inst : forall h b i s is s', exec mem f h (b, i) s -> instAt f (b, i) = Some is -> instStep mem is s s' ->
    exec mem f ((b, i) :: h) (b, S i) s'
| ex_jump : forall h b i c s, exec mem f h (b, i) s -> i = length (bIns (blk f b)) -> In c (bSucc (blk f b)) ->
    c < length f -> exec mem f ((b, i) :: h) (c, 0) s.

(** A path is an execution without states *)
Inductive path (f : func) : list pos -> pos -> Prop :=
| pa_start : path f [] (0, 0)
| pa_inst : forall h b i is, path f h (b, i) -> instAt f (b, i) = Some is -> path f ((b, i) :: h) (b, S i)
| pa_jump : forall h b i c, path f h (b, i) -> i = length (bIns (blk f b)) -> In c (bSucc (blk f b)) ->
    c < length f -> path f ((b, i) :: h) (c, 0).
(** The dominator tree is correct *)
Definition domOk (f : func) (domB : nat -> nat -> bool) : Prop :=
  forall a b h i, domB a b = true -> a <> b -> path f h (b, i) -> exists j, In (a, j) h.
(** Successors of blocks exist *)
Definition wf (f : func) : Prop := 0 < length f.

Definition defines (n : nat) (i : inst) : Prop :=
  match i with IDef m _ | IPhi m _ => m = n | _ => False end.
(** A value is defined before it is described: the definition dominates intrinsics *)
Definition defFirst (f : func) (V : value) : Prop :=
  forall n q i e d h, V = VReg n -> instAt f q = Some i -> defines n i ->
    instAt f e = Some (IDbg d) -> dVal d = V -> path f h e -> In q h.

(** A variable (or its fragment) holds a value *)
Definition holds (s : state) (l : loc) (V : value) : Prop :=
  forall k, inFrag (lFrag l) k -> vars s (lVar l) k = Some (valueOf s V, k - fragOff (lFrag l)).

(** Optional conditions: which intrinsics describe variables *)
Record conds := Conds {
  xPlus : bool;    (* no operations which change a value *)
  xDeref : bool;   (* no dereference *)
  xFrag : bool     (* fragments of a variable are equal or disjoint *)
}.
Definition overlap (a b : frag) : Prop := exists k, inFrag a k /\ inFrag b k.
Definition dbgIn (f : func) (d : dbg) : Prop := exists p, instAt f p = Some (IDbg d).
Definition condsOk (X : conds) (f : func) : Prop :=
  (xPlus X = true -> forall d z, dbgIn f d -> dOp d <> OpPlus z) /\
  (xDeref X = true -> forall d, dbgIn f d -> dOp d <> OpDeref) /\
  (xFrag X = true -> forall d e, dbgIn f d -> dbgIn f e -> dVar d = dVar e -> overlap (dFrag d) (dFrag e) -> dFrag d = dFrag e).

(** C69: a reported variable holds the value whenever some of the users is going to be executed *)
Definition C69_claim (X : conds) : Prop :=
  forall mem f domB V users l u h s,
    wf f -> domOk f domB -> defFirst f V -> condsOk X f ->
    In l (fst (findMetadata f domB V users)) -> In u users ->
    exec mem f h u s -> holds s l V.

(** The same for uses of a value anywhere: an operand of a phi-node is used at the end of the
    corresponding block *)
Inductive usedAt (f : func) (V : value) : pos -> Prop :=
| ua_inst : forall p i us, instAt f p = Some i -> (i = IUse us \/ exists n, i = IDef n us) -> In V us -> usedAt f V p
| ua_term : forall b, In V (bTerm (blk f b)) -> usedAt f V (b, length (bIns (blk f b)))
| ua_phi : forall p n inc b, instAt f p = Some (IPhi n inc) -> In (b, V) inc -> usedAt f V (b, length (bIns (blk f b))).
Definition noPhiUse (f : func) (V : value) : Prop :=
  forall p n inc b, instAt f p = Some (IPhi n inc) -> ~ In (b, V) inc.
Definition C69_all_claim (X : conds) (phi : func -> value -> Prop) : Prop :=
  forall mem f domB V l u h s,
    wf f -> domOk f domB -> defFirst f V -> condsOk X f -> phi f V ->
    In l (fst (findMetadataAll f domB V)) -> usedAt f V u ->
    exec mem f h u s -> holds s l V.

(** The returned variable is described before other reported variables are *)
Definition C69_first_claim : Prop :=
  forall f domB V users r l p d h,
    wf f -> domOk f domB ->
    snd (findMetadata f domB V users) = Some r -> In l (fst (findMetadata f domB V users)) -> l <> r ->
    instAt f p = Some (IDbg d) -> dVal d = V -> hasDeref d = false -> getLoc d = l ->
    (forall u, In u users -> domI domB p u = true) ->
    path f h p ->
    exists q e, In q h /\ instAt f q = Some (IDbg e) /\ dVal e = V /\ getLoc e = r.

(** The only value which a variable has is found *)
Definition C69_found_claim : Prop :=
  forall f domB V users l p d, users <> [] ->
    instAt f p = Some (IDbg d) -> dVal d = V -> dOp d <> OpDeref -> getLoc d = l ->
    (forall u, In u users -> domI domB p u = true) ->
    (forall e, dbgIn f e -> dVar e = lVar l -> dOp e <> OpDeref -> dVal e = V /\ getLoc e = l) ->
    In l (fst (findMetadata f domB V users)).
