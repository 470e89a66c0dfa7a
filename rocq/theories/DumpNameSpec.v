(** Specification of C94. *)
From Coq Require Import PeanoNat NArith Bool List.
From Verif Require Import DumpNameModel.
Import ListNotations.

(** The number of requests for a file. *)
Definition requests (fs : list str) (f : str) : nat := count_occ (list_eq_dec Nat.eq_dec) fs f.

(** Names of dumps are different. Guard: a file is dumped less than 10000 times. *)
Definition C94_distinct_claim (gc : bool) : Prop :=
  forall fs i j n m,
    (gc = true -> forall f, (N.of_nat (requests fs f) < 10000)%N) ->
    i < j -> nth_error (dumps fs) i = Some n -> nth_error (dumps fs) j = Some m -> n <> m.

(** A dump does not replace its source file, it is in the same directory, its name is the
    name of the file with decimal digits before the extension. *)
Definition C94_place_claim : Prop :=
  forall fs i f, nth_error fs i = Some f ->
    exists n, nth_error (dumps fs) i = Some n /\ n <> f
    /\ exists dir stem digits ext,
         f = dir ++ stem ++ ext /\ n = dir ++ stem ++ [46] ++ digits ++ ext
         /\ (dir = [] \/ exists d, dir = d ++ [47])
         /\ ~ In 47 (stem ++ ext)
         /\ (ext = [] /\ ~ In 46 stem \/ exists e, ext = 46 :: e /\ ~ In 46 e)
         /\ digits <> [] /\ length digits <= 4 /\ (forall d, In d digits -> 48 <= d <= 57).

(** A dump does not replace any source file. Guard: names of files contain a single dot. *)
Definition C94_sources_claim (gd : bool) : Prop :=
  forall fs i n, (gd = true -> forall f, In f fs -> count_occ Nat.eq_dec f 46 = 1) ->
    nth_error (dumps fs) i = Some n -> ~ In n fs.

(** The number of names is the number of requests. *)
Definition C94_total_claim : Prop := forall fs, length (dumps fs) = length fs.

(** The first [k] requests do not depend on next requests. *)
Definition C94_history_claim : Prop :=
  forall fs gs k, k <= length fs -> firstn k (dumps (fs ++ gs)) = firstn k (dumps fs).

(** The value of a string of digits. *)
Definition value (l : str) : N := fold_left (fun a d => (10 * a + (N.of_nat d - 48))%N) l 0%N.
(** A dump contains the number of previous requests for this file plus one. Guard: the
    same as above. *)
Definition C94_number_claim (gc : bool) : Prop :=
  forall fs i f, nth_error fs i = Some f ->
    (gc = true -> (N.of_nat (requests (firstn i fs) f) < 9999)%N) ->
    exists a b digits, f = a ++ b /\ nth_error (dumps fs) i = Some (a ++ [46] ++ digits ++ b)
      /\ value digits = N.of_nat (requests (firstn i fs) f + 1).
