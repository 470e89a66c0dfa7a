(** Model of names of dumped files (C94): [getDumpFilenameAdjuster],
    lib/Core/TransformationContext.cpp 48-64.

    A string is a list of codes. Names "." and ".." are not names of files, they
    are not modelled, a path does not end with a slash. *)
From Coq Require Import PeanoNat NArith Bool List.
Import ListNotations.

Definition str := list nat.
Definition dot : nat := 46.
Definition slash : nat := 47.

(** StringRef::find_last_of and substr: text before and after the last character [c]. *)
Fixpoint splitLast (c : nat) (l : str) : option (str * str) :=
  match l with
  | [] => None
  | x :: r =>
      match splitLast c r with
      | Some (a, b) => Some (x :: a, b)
      | None => if x =? c then Some ([], r) else None
      end
  end.

(** A directory (with a slash) and a name, llvm::sys::path::filename. *)
Definition splitDir (p : str) : str * str :=
  match splitLast slash p with
  | Some (d, b) => (d ++ [slash], b)
  | None => ([], p)
  end.
(** A stem and an extension (with a dot), llvm::sys::path::extension. *)
Definition splitExt (b : str) : str * str :=
  match splitLast dot b with
  | Some (s, e) => (s, dot :: e)
  | None => (b, [])
  end.

(** snprintf with "%d": decimal digits of a number, [fuel] is enough for a number with
    this number of digits. *)
Fixpoint decimal (fuel : nat) (n : N) : str :=
  match fuel with
  | O => []
  | S k => (if (n <? 10)%N then [] else decimal k (n / 10)%N) ++ [48 + N.to_nat (n mod 10)%N]
  end.
(** TransformationContext.cpp 54-57: MaxDigits is 5, the last character of the buffer is
    zero, so that at most 4 digits are stored. *)
Definition buffer (n : N) : str := firstn 4 (decimal 5 n).

(** TransformationContext.cpp 58-59: an extension is replaced with the number and the
    extension. *)
Definition rename (p : str) (b : str) : str :=
  let (d, f) := splitDir p in
  let (s, e) := splitExt f in
  d ++ s ++ [dot] ++ b ++ e.

(** Numbers of dumps of files, values are 16-bit. *)
Definition counts := str -> option N.
Definition str_eq_dec : forall a b : str, {a = b} + {a <> b} := list_eq_dec Nat.eq_dec.

(** TransformationContext.cpp 50-53. *)
Definition nextCount (st : counts) (f : str) : N :=
  match st f with
  | None => 1%N
  | Some c => ((c + 1) mod 65536)%N
  end.
Definition dump (st : counts) (f : str) : counts * str :=
  let c := nextCount st f in
  (fun x => if str_eq_dec x f then Some c else st x, rename f (buffer c)).

(** A sequence of requests. *)
Fixpoint dumpAll (st : counts) (fs : list str) : list str :=
  match fs with
  | [] => []
  | f :: rest => let (st', n) := dump st f in n :: dumpAll st' rest
  end.
Definition dumps (fs : list str) : list str := dumpAll (fun _ => None) fs.
