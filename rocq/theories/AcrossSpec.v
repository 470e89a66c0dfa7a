(** Specification of parallel nests with regular dependencies. *)
From Coq Require Import PeanoNat Bool List ZArith.
From Verif Require Import AcrossModel.
Import ListNotations.

(** A parallel nest consists of the first loops of a nest.  Each of them is perfectly nested into
    the previous one, it is not for a host only, it has the same reductions and the same private
    variables (except induction variables of inner loops of the nest). *)
Definition inducts (ls : list level) : list (nat * nat) := map (fun l => (vId l, vInduct l)) ls.
Definition C82_nest_claim : Prop :=
  forall ls x, parallelize ls = Some x -> exists n,
    1 <= n <= length ls /\ xInduct x = inducts (firstn n ls) /\
    forall k l, nth_error (firstn n ls) k = Some l ->
      vOk l = true /\ (S k < n -> vPerfect l = true) /\ (vDeps l <> [] -> vStep l <> None) /\
      (1 <= k -> vHost l = false) /\
      (forall l0, nth_error ls 0 = Some l0 -> vReduct l = vReduct l0 /\
        forall v, In v (vPrivate l) <-> In v (vPrivate l0) /\ ~ In v (map vInduct (firstn k (tl ls)))).

(** A distance vector of a dependence between iterations: its components are in ranges and it is
    carried by the outermost loop. *)
Definition within (ds : list (Z * Z)) (v : list Z) : Prop :=
  Forall2 (fun r d => (fst r <= d <= snd r)%Z) ds v.
Definition carried (ds : list (Z * Z)) : Prop := match ds with [] => True | d :: _ => (0 < fst d)%Z end.
Definition vectors (d : dep) (ds : list (Z * Z)) : Prop := (ds = dFlow d \/ ds = dAnti d) /\ ds <> [].
Definition sum (v : list Z) : Z := fold_right Z.add 0%Z v.
(** Loops of a parallel nest of [n] loops with dependencies are executed by fronts: iterations with
    the same sum of numbers are executed at the same time.  A dependence must go to a later front.
    [gTwo]: there are at most two loops in a nest. *)
Definition C82_fronts_claim (gTwo : bool) : Prop :=
  forall ls x, parallelize ls = Some x ->
    (gTwo = true -> length (xInduct x) <= 2) ->
    forall k l d ds v, nth_error ls k = Some l -> k < length (xInduct x) -> In d (vDeps l) ->
      vectors d ds -> carried ds -> within ds v ->
      length (xInduct x) - k <= length ds /\ (0 < sum (firstn (length (xInduct x) - k) v))%Z.
(** A weaker property: no inner loop is able to outrun the outer one. *)
Definition C82_pairs_claim : Prop :=
  forall ls x, parallelize ls = Some x ->
    forall k l d ds v, nth_error ls k = Some l -> k < length (xInduct x) -> In d (vDeps l) ->
      vectors d ds -> carried ds -> within ds v ->
      forall i di d0, 0 < i < length (xInduct x) - k -> nth_error v i = Some di -> nth_error v 0 = Some d0 ->
      (0 < d0 + di)%Z.

(** Arrays are accessed in a consistent way: all accesses to an array have the same number of
    subscripts, one for each dimension; accesses in an inner loop are accesses in an outer one;
    identifiers of loops are different; a dependence of a variable is described once. *)
Definition wellFormed (dims : nat -> nat) (ls : list level) : Prop :=
  NoDup (map vId ls) /\
  (forall l a, In l ls -> In a (vAccs l) -> map sDim (aSubs a) = seq 0 (dims (aArr a))) /\
  (forall l, In l ls -> NoDup (map dArr (vDeps l))) /\
  (forall i j l l' a, i <= j -> nth_error ls i = Some l -> nth_error ls j = Some l' -> In a (vAccs l') -> In a (vAccs l)).
(** A loop is used in the subscript in the dimension [d] and nothing else is used there. *)
Definition alone (loop d : nat) (a : access) : Prop :=
  forall s, In s (aSubs a) -> (forall c, In c (sCols s) -> (sDim s = d <-> c = loop)).
Definition mentions (loop : nat) (a : access) : Prop := exists s, In s (aSubs a) /\ In loop (sCols s).
Definition covers (o : option Z) (ds : list (Z * Z)) : Prop :=
  match ds with [] => o = None | d :: _ => o = Some (snd d) end.
(** The clause across describes each dependence.  [gFirst]: the first access to an array mentions
    the loop. *)
Definition C82_across_claim (gFirst : bool) : Prop :=
  forall dims ls x, parallelize ls = Some x -> wellFormed dims ls ->
    (gFirst = true -> forall l d a, In l ls -> In d (vDeps l) ->
       hd_error (filter (fun a => Nat.eqb (aArr a) (dArr d)) (vAccs l)) = Some a -> mentions (vId l) a) ->
    forall k l d, nth_error ls k = Some l -> k < length (xInduct x) -> In d (vDeps l) ->
    exists step dim vec lo hi,
      vStep l = Some step /\
      In (dArr d, vec) (xAcross x) /\ length vec = dims (dArr d) /\ nth_error vec dim = Some (lo, hi) /\
      (if (step <? 0)%Z then covers hi (dFlow d) /\ covers lo (dAnti d) else covers lo (dFlow d) /\ covers hi (dAnti d)) /\
      (forall a, In a (vAccs l) -> aArr a = dArr d -> alone (vId l) dim a).

(** If an inner loop is not added to a nest then the directive of the nest is not changed, the
    induction variable of the loop is still private.  [gRegular]: there are no regular
    dependencies in the inner loop. *)
Definition C82_kept_claim (gRegular : bool) : Prop :=
  forall l x, xFinal x = false -> In (vInduct l) (xPrivate x) ->
    xInduct (exploitInner l x) = xInduct x ->
    (gRegular = true -> vDeps l = []) ->
    xAcross (exploitInner l x) = xAcross x /\
    forall v, In v (xPrivate (exploitInner l x)) <-> In v (xPrivate x).
