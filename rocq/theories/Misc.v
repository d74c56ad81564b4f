(** Helpers of include/bw_tree/utility.hpp. *)
From Coq Require Import NArith List Bool.
Import ListNotations.
Open Scope N_scope.

(** utility.hpp:100-106 Log2; size_t has 64 bits, so 64 halvings reach 0 or 1. *)
Fixpoint log2_loop (fuel : nat) (v : N) : option N :=
  match fuel with
  | O => None
  | S f =>
      if v =? 0 then Some 0
      else if v =? 1 then Some 0
      else match log2_loop f (N.shiftr v 1) with Some x => Some (x + 1) | None => None end
  end.
Definition log2_c (v : N) : option N := log2_loop 65 v.

(** strcmp on the bytes of two strings up to the terminating NUL (unsigned compare);
    the end of a list is the NUL. *)
Fixpoint strcmp (a b : list N) : comparison :=
  match a, b with
  | [], [] => Eq
  | [], d :: _ => N.compare 0 d
  | c :: _, [] => N.compare c 0
  | c :: a', d :: b' =>
      if c =? d then (if c =? 0 then Eq else strcmp a' b') else N.compare c d
  end.

(** utility.hpp:66-78 CompareAsCString; [None] is the null pointer. *)
Definition as_cstring_lt (a b : option (list N)) : bool :=
  match a, b with
  | None, _ => false
  | Some _, None => true
  | Some x, Some y => match strcmp x y with Lt => true | _ => false end
  end.
