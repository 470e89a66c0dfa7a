(** What edits of Fortran sources mean (C100).  Definitions of this file do not mention ranges,
    mappings and intervals of the rewriter. *)
From Coq Require Import ZArith List Bool.
From Verif Require Import RewriterModel FlangRwModel.
Import ListNotations.
Local Open Scope Z_scope.

(** A character of a file is at [p]. *)
Definition atFile (cooked : list char) (f : nat) (p : Z) : Prop := exists o, In (p, Some (f, o)) cooked.
(** [p] is inside of a file. *)
Definition covered (cooked : list char) (f : nat) (p : Z) : Prop :=
  exists p1 p2, atFile cooked f p1 /\ atFile cooked f p2 /\ p1 <= p <= p2.
(** Sources which Flang creates: provenances of a file are contiguous, that is the character at
    [p] has the offset [p - base f] in its text, different files have different provenances, there
    are characters of the main file, sizes are reasonable. *)
Definition valid (content : nat -> list nat) (base : nat -> Z) (mainFile : nat) (cooked : list char) : Prop :=
  (forall p f o, In (p, Some (f, o)) cooked -> 0 <= p < 2 ^ 60 /\ o = p - base f /\ 0 <= o < Z.of_nat (length (content f))) /\
  (forall f g p, covered cooked f p -> covered cooked g p -> f = g) /\
  (exists p, atFile cooked mainFile p) /\
  (forall f, Z.of_nat (length (content f)) < 2 ^ 60).
(** A rewriter after some history of edits and questions *)
Definition reached (content : nat -> list nat) (mainFile : nat) (cooked : list char) (h : list op) (r : rewriter) : Prop :=
  exists r0, construct content mainFile cooked = Some r0 /\ run content r0 h = Some r.

(** A rewriter can be created, at first texts are original. *)
Definition C100_created_claim : Prop :=
  forall content base mainFile cooked, valid content base mainFile cooked ->
    exists r, construct content mainFile cooked = Some r /\
      (forall f p, atFile cooked f p -> text r f = Some (content f)) /\
      (forall f, (forall p, ~ atFile cooked f p) -> text r f = None).

(** A place is reported to be included if and only if it is inside of an included file, it is
    reported to be a macro if and only if it is not inside of a file.  [gGap]: a place which is
    outside of files is after all files. *)
Definition C100_class_claim (gGap : bool) : Prop :=
  forall content mainFile cooked h r p, reached content mainFile cooked h r ->
    (gGap = true -> (exists f, covered cooked f p) \/ (forall f p', atFile cooked f p' -> p' < p)) ->
    (isInclude r p = true <-> exists f, f <> mainFile /\ covered cooked f p) /\
    (isMacroOrCompiler r p = true <-> ~ exists f, covered cooked f p).

(** An edit changes only the file which contains all edited characters. *)
Definition place (o : op) : option (Z * Z) :=
  match o with Rep p n _ => Some (p, p + n - 1) | Ins p _ _ => Some (p, p) | Query => None end.
Definition C100_scope_claim : Prop :=
  forall content mainFile cooked h r o b r', reached content mainFile cooked h r ->
    step content r o = Some (b, r') ->
    forall f, text r' f <> text r f ->
      exists p q, place o = Some (p, q) /\ (p <= q -> covered cooked f p /\ covered cooked f q).

(** An edit is reported as a failure (true) if and only if there is no file which contains all
    edited characters.  [gRep]: an edit is a replacement. *)
Definition C100_reported_claim (gRep : bool) : Prop :=
  forall content mainFile cooked h r o p q b r', reached content mainFile cooked h r ->
    place o = Some (p, q) -> p <= q ->
    (gRep = true -> exists n s, o = Rep p n s) ->
    step content r o = Some (b, r') ->
    (b = true <-> ~ exists f, covered cooked f p /\ covered cooked f q).

(** The first replacement replaces exactly the range which is asked for.  [gEnds]: the first and
    the last characters of the range are characters of a cooked source (they are not in comments,
    they are not spaces ignored by a parser). *)
Definition C100_replace_claim (gEnds : bool) : Prop :=
  forall content base mainFile cooked r f p n s, valid content base mainFile cooked ->
    construct content mainFile cooked = Some r ->
    1 <= n -> Z.of_nat (length s) < 2 ^ 60 ->
    covered cooked f p -> covered cooked f (p + n - 1) ->
    (gEnds = true -> atFile cooked f p /\ atFile cooked f (p + n - 1)) ->
    exists r', replace r p n s = Some (false, r') /\
      text r' f = Some (firstn (Z.to_nat (p - base f)) (content f) ++ s ++
                        skipn (Z.to_nat (p - base f + n)) (content f)) /\
      forall g, g <> f -> text r' g = text r g.
(** The same for insertions. *)
Definition C100_insert_claim (gEnds : bool) : Prop :=
  forall content base mainFile cooked r f p s after, valid content base mainFile cooked ->
    construct content mainFile cooked = Some r ->
    Z.of_nat (length s) < 2 ^ 60 ->
    covered cooked f p ->
    (gEnds = true -> atFile cooked f p) ->
    exists b r', insert r p s after = Some (b, r') /\
      text r' f = Some (firstn (Z.to_nat (p - base f)) (content f) ++ s ++
                        skipn (Z.to_nat (p - base f)) (content f)) /\
      forall g, g <> f -> text r' g = text r g.

(** It is reported that there are modifications if and only if a text differs from the original
    one.  [gFirst]: there were no questions before. *)
Definition changed (content : nat -> list nat) (r : rewriter) : Prop :=
  exists f t, text r f = Some t /\ t <> content f.
Definition C100_modified_claim (gFirst : bool) : Prop :=
  forall content mainFile cooked h r, reached content mainFile cooked h r ->
    (gFirst = true -> ~ In Query h) ->
    (fst (hasModification content r) = true <-> changed content r).
(** A modification is never missed. *)
Definition C100_noticed_claim : Prop :=
  forall content mainFile cooked h r, reached content mainFile cooked h r ->
    changed content r -> fst (hasModification content r) = true.
