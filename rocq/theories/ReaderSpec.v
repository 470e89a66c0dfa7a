(** Specification of traits of a variable in a loop.

    An execution of a loop is a list of iterations, and an iteration is a list of accesses to the variable; a write
    overwrites the whole variable. *)
From Coq Require Import List Bool Arith ZArith.
From Verif Require Import ReaderModel.
Import ListNotations.

Inductive access := Rd | Wr.
Record exec := Exec { its : list (list access); used : bool (* the value is used after the loop *) }.
Definition it (e : exec) (i : nat) : list access := nth i (its e) [].
Definition reads (l : list access) : Prop := In Rd l.
Definition writes (l : list access) : Prop := In Wr l.
(** A value of another iteration is read *)
Definition exposed (l : list access) : Prop := hd_error l = Some Rd.
Inductive kind := KFlow | KAnti | KOut.
Definition ends (k : kind) (a b : list access) : Prop :=
  match k with KFlow => writes a /\ exposed b | KAnti => reads a /\ writes b | KOut => writes a /\ writes b end.
(** A dependence at a distance [n] between an iteration and the nearest one *)
Definition occurs (e : exec) (k : kind) (n : nat) : Prop :=
  0 < n /\ exists i, ends k (it e i) (it e (i + n)) /\ forall m, i < m -> m < i + n -> ~ writes (it e m).
(** Iterations may be executed in any order without privatization *)
Definition independent (e : exec) : Prop :=
  forall i j, i <> j -> writes (it e i) -> ~ reads (it e j) /\ ~ writes (it e j).
Definition noExposed (e : exec) : Prop := forall i, ~ exposed (it e i).
Definition noWrites (e : exec) : Prop := forall i, ~ writes (it e i).
Definition within (r : range) (n : nat) : Prop :=
  (forall l, fst r = Some l -> (l <= Z.of_nat n)%Z) /\ (forall h, snd r = Some h -> (Z.of_nat n <= h)%Z).

Section Spec.
(** Reductions, inductions and distances in inner loops *)
Variable isRed : nat -> exec -> Prop.
Variable isInd : exec -> Prop.
Variable inner : kind -> nat -> range -> exec -> Prop.

Definition depOf (d : desc) (k : kind) : option (option dep) := match k with KFlow => flowD d | KAnti => antiD d | KOut => outD d end.
(** Claims of traits about one execution *)
Record claims (d : desc) (e : exec) : Prop := Claims {
  cNoAcc : noAcc d = true -> forall i, it e i = [];
  cRo : ro d = true -> noWrites e;
  cRed : forall k, red d = Some k -> isRed k e;
  cInd : ind d = true -> isInd e;
  cShared : shared d = true -> independent e;
  cPriv : priv d = true -> noExposed e;
  cLast : lastP d || secondP d || dynP d = true -> firstP d = false -> noExposed e;
  cFirst : firstP d = true -> forall n, ~ occurs e KFlow n;
  cOut : priv d || firstP d = true -> lastP d || secondP d || dynP d || shared d = false -> used e = true -> noWrites e;
  cLastIt : lastP d = true -> used e = true -> writes (last (its e) []);
  cSecondIt : secondP d = true -> used e = true -> writes (last (removelast (its e)) []);
  (* kinds which are not listed do not occur, known bounds of distances are correct *)
  cDep : flowD d <> None \/ antiD d <> None \/ outD d <> None -> forall k n, occurs e k n -> depOf d k <> None;
  cDist : forall k p r, depOf d k = Some (Some p) -> hd_error (dLv p) = Some r -> forall n, occurs e k n -> within r n;
  cInner : forall k p i r, depOf d k = Some (Some p) -> nth_error (dLv p) (S i) = Some r -> inner k (S i) r e;
  cUal : ual d = false -> used e = false }.
(** Traits are correct for a set of executions; a dependence which is not marked as possible only does occur *)
Definition sound (d : desc) (E : exec -> Prop) : Prop :=
  (forall e, E e -> claims d e) /\
  forall k p, depOf d k = Some (Some p) -> dMay p = false -> exists e n, E e /\ occurs e k n.

(** Switches: dependencies of private variables and reductions are listed in a file; variables which are listed as
    private do not have values from outside a loop; each file describes all executions; all dependencies have
    descriptions *)
Record conds := Conds { xDeps : bool; xFirst : bool; xAll : bool; xNull : bool }.
Definition listed (f : entry) (k : kind) (n : nat) : Prop :=
  match k with
  | KFlow => exists r, eFlow f = Some r /\ within r n
  | KAnti => exists r, eAnti f = Some r /\ within r n
  | KOut => eOut f = true
  end.
(** An entry of a file tells the truth about executions *)
Record describes (X : conds) (f : entry) (E : exec -> Prop) : Prop := Describes {
  fW : forall e i, E e -> writes (it e i) -> eW f = true;
  fR : forall e i, E e -> reads (it e i) -> eR f = true;
  fUal : forall e, E e -> used e = true -> eUal f = true;
  fRed : forall e k, E e -> eRed f = Some k -> isRed k e;
  fPriv : forall e, E e -> ePriv f = true -> if xFirst X then noExposed e else forall n, ~ occurs e KFlow n;
  fDep : forall e k n, E e -> occurs e k n -> xDeps X = true \/ (ePriv f = false /\ eRed f = None) -> listed f k n;
  fFlowReal : eFlow f <> None -> exists e n, E e /\ occurs e KFlow n;
  fAntiReal : eAnti f <> None -> exists e n, E e /\ occurs e KAnti n;
  fOutReal : eOut f = true -> exists e n, E e /\ occurs e KOut n }.
End Spec.

(** C74: traits which are correct for all executions stay correct after loading of files which describe executions *)
Definition C74_claim (X : conds) : Prop :=
  forall isRed isInd inner (fs : list (entry * (exec -> Prop))) d (E : exec -> Prop),
    (forall e, E e <-> Exists (fun f : entry * (exec -> Prop) => snd f e) fs) ->
    Forall (fun f : entry * (exec -> Prop) => describes isRed X (fst f) (snd f)) fs ->
    (xAll X = true -> Forall (fun f : entry * (exec -> Prop) => forall e, E e -> snd f e) fs) ->
    (xNull X = true -> forall k, depOf d k <> Some None) ->
    sound isRed isInd inner d E ->
    exists d1, loadAll (map (fun f : entry * (exec -> Prop) => Some (fst f)) fs) d = Ok d1 /\ sound isRed isInd inner d1 E.

(** Results which are written and loaded again stay correct.  Switches: private variables are shared also; there are
    no variables with values from outside a loop; a flow-dependence and an anti-dependence are not mixed; distances fit 32 bits; dependencies are not marked as
    possible only *)
Record condsW := CondsW { yPriv : bool; yFirst : bool; yAnti : bool; yInt : bool; yMay : bool; yNull : bool }.
Definition C74_roundtrip_claim (Y : condsW) : Prop :=
  forall isRed isInd inner d (E : exec -> Prop),
    (yPriv Y = true -> priv d || secondP d || dynP d || firstP d = true -> shared d = true) ->
    (yFirst Y = true -> firstP d = false) ->
    (yAnti Y = true -> flowD d = None \/ antiD d = None) ->
    (yInt Y = true -> forall k p r z, depOf d k = Some (Some p) -> hd_error (dLv p) = Some r -> fst r = Some z \/ snd r = Some z -> (- 2 ^ 31 <= z < 2 ^ 31)%Z) ->
    (yMay Y = true -> forall k p, depOf d k = Some (Some p) -> dMay p = false) ->
    (yNull Y = true -> forall k, depOf d k <> Some None) ->
    sound isRed isInd inner d E ->
    exists d1, roundTrip d = Ok d1 /\ sound isRed isInd inner d1 E.

(** A file: traits of a variable are traits which are listed for it.  Switches: positions of loops are unique;
    positions of variables are unique *)
Definition inS (I : info) (sel : loopRec -> list nat) (loc k : nat) : Prop :=
  exists L i, In L (loops I) /\ lLoc L = Some loc /\ In i (sel L) /\ nth_error (vars I) i = Some (Some k).
Definition inM {A : Type} (I : info) (sel : loopRec -> list (nat * A)) (loc k : nat) (a : A) : Prop :=
  exists L i, In L (loops I) /\ lLoc L = Some loc /\ In (i, a) (sel L) /\ nth_error (vars I) i = Some (Some k).
Definition C74_lookup_claim (uniqueLoops uniqueVars : bool) : Prop :=
  forall I loc k,
    (uniqueLoops = true -> forall L1 L2, In L1 (loops I) -> In L2 (loops I) -> lLoc L1 = Some loc -> lLoc L2 = Some loc -> L1 = L2) ->
    (uniqueVars = true -> forall i j, nth_error (vars I) i = Some (Some k) -> nth_error (vars I) j = Some (Some k) -> i = j) ->
    (forall L, In L (loops I) -> NoDup (map fst (lRed L)) /\ NoDup (map fst (lAnti L)) /\ NoDup (map fst (lFlow L))) ->
    match external I loc k with
    | Some e =>
      (ePriv e = true <-> inS I lPriv loc k) /\ (eUal e = true <-> inS I lUal loc k) /\ (eW e = true <-> inS I lW loc k) /\
      (eR e = true <-> inS I lR loc k) /\ (eOut e = true <-> inS I lOut loc k) /\
      (forall a, eRed e = Some a <-> inM I lRed loc k a) /\ (forall a, eAnti e = Some a <-> inM I lAnti loc k a) /\
      (forall a, eFlow e = Some a <-> inM I lFlow loc k a)
    | None =>
      ~ inS I lPriv loc k /\ ~ inS I lUal loc k /\ ~ inS I lW loc k /\ ~ inS I lR loc k /\ ~ inS I lOut loc k /\
      (forall a, ~ inM I lRed loc k a) /\ (forall a, ~ inM I lAnti loc k a) /\ (forall a, ~ inM I lFlow loc k a)
    end.
