(** Specification of the clause tie. *)
From Coq Require Import PeanoNat Bool List ZArith.
From Verif Require Import TieModel.
Import ListNotations.

Definition valueOf (env : nat -> Z) (c : coef) : Z := match c with CConst z => z | CSym s => env s end.
(** Monoms of the subscript in the dimension [d]. *)
Definition monomsAt (a : access) (d : nat) : list monom :=
  match nth_error (aSubs a) d with Some (Some s) => match sAffine s with Some ms => ms | None => [] end | _ => [] end.
(** Monoms with loops of the nest. *)
Definition loopsAt (nest : list nat) (a : access) (d : nat) : list monom :=
  filter (fun m => existsb (Nat.eqb (mCol m)) nest && match mCoef m with CConst z => negb (Z.eqb z 0) | CSym _ => true end)
    (monomsAt a d).
Definition wellFormed (accs : list access) : Prop :=
  forall a d s, In a accs -> nth_error (aSubs a) d = Some (Some s) -> sDim s = d.
Definition toArray (arr : nat) (accs : list access) (a : access) : Prop :=
  In a accs /\ aArr a = arr /\ aEstimate a = true.

(** If a dimension of an array is tied to a loop then each access to the array in the nest uses the
    loop, and no other loop of the nest, in this dimension with the specified direction.
    [gSame]: accesses to an array use loops in the same way; [gSingle]: a subscript uses at most one
    loop; [gConst]: coefficients are constants. *)
Definition C83_tie_claim (gSame gSingle gConst : bool) : Prop :=
  forall nest private accs maps env arr mp d l s,
    wellFormed accs -> NoDup (map fst maps) -> (forall a m, In (a, m) maps -> m = []) ->
    (gSame = true -> forall a b e, toArray arr accs a -> toArray arr accs b -> loopsAt nest a e = loopsAt nest b e) ->
    (gSingle = true -> forall a e, toArray arr accs a -> length (loopsAt nest a e) <= 1) ->
    (gConst = true -> forall a e m, toArray arr accs a -> In m (loopsAt nest a e) -> exists z, mCoef m = CConst z) ->
    In (arr, mp) (tie nest private accs maps) -> nth_error mp d = Some (Some l, s) ->
    In l nest /\ ~ In arr private /\
    forall a, toArray arr accs a ->
      exists m, In m (monomsAt a d) /\ mCol m = l /\ valueOf env (mCoef m) <> 0%Z /\
        (s = true <-> (0 < valueOf env (mCoef m))%Z) /\
        forall m', In m' (monomsAt a d) -> In (mCol m') nest -> valueOf env (mCoef m') <> 0%Z -> mCol m' = l.
(** If each access uses some loops of the nest in a dimension then this dimension is tied. *)
Definition C83_found_claim : Prop :=
  forall nest private accs maps arr mp d,
    wellFormed accs -> NoDup (map fst maps) -> In (arr, []) maps -> ~ In arr private ->
    (exists a, toArray arr accs a) -> (forall a, toArray arr accs a -> loopsAt nest a d <> []) ->
    In (arr, mp) (tie nest private accs maps) ->
    exists l s, nth_error mp d = Some (Some l, s).

(** Some variable with dependencies is not tied in a dimension with a dependence. *)
Definition isUntied (p : place) : Prop :=
  exists arr ds, In (arr, ds) (pAcross p) /\
    ((forall mp, ~ In (arr, mp) (pMaps p)) \/
     exists mp d x, In (arr, mp) (pMaps p) /\ nth_error ds d = Some x /\ x <> (false, false) /\
       forall l s, nth_error mp d <> Some (Some l, s)).
Definition count (k : item) (l : list item) : nat := length (filter (isItem k) l).
(** Directives of a place are created for a single loop. *)
Definition created (p : place) : Prop :=
  NoDup (map fst (pMaps p)) /\
  count IParallel (pEntry p) <= 1 /\ count IRegion (pEntry p) <= 1 /\ count IActual (pEntry p) <= 1 /\
  count IMarker (pExit p) = count IRegion (pEntry p) /\ count IGetActual (pExit p) <= 1 /\
  (forall x, In x (pExit p) -> isItem IParallel x = false /\ isItem IRegion x = false /\ isItem IActual x = false) /\
  (forall x, In x (pEntry p) -> isItem IMarker x = false /\ isItem IGetActual x = false).
Definition others (l : list item) : list item := filter (fun x => match x with IOther _ => true | _ => false end) l.
(** A loop is not parallel any more if variables with dependencies are not tied: all its directives
    are removed and other directives are not changed.  Other loops are not changed.
    [gRegion]: each parallel loop is in a region. *)
Definition C83_sanitize_claim (gRegion : bool) : Prop :=
  forall ps, (forall p, In p ps -> created p) ->
    (gRegion = true -> forall p, In p ps -> In IParallel (pEntry p) -> In IRegion (pEntry p)) ->
    exists ps', sanitize ps = Some ps' /\ length ps' = length ps /\
    forall k p p', nth_error ps k = Some p -> nth_error ps' k = Some p' ->
      (In IParallel (pEntry p') -> ~ isUntied p') /\
      (In IParallel (pEntry p) -> isUntied p -> pEntry p' = others (pEntry p) /\ pExit p' = others (pExit p)) /\
      (~ (In IParallel (pEntry p) /\ isUntied p) -> p' = p).
