(** What a scan may return if the variable of its end key takes values from [lo] to [hi]
    while the scan goes on. *)
From Coq Require Import ZArith NArith List Sorting.Sorted.
From Verif Require Import Config Api Spec ScanSpec.
Import ListNotations.
Open Scope Z_scope.

(** Keys ascend; every record is one of the map [M], inside the interval up to [hi]; every
    record of the interval up to [lo] is returned, unless the caller stopped before it
    ([fin = false]) after [n] rounds.  The key of an excluded begin bound may be returned as
    well (C13). *)
Definition end_ok (M : smap) (b : option (key * bool)) (closed : bool) (lo hi : key) (n : nat)
    (l : list (key * val)) (fin : bool) : Prop :=
  StronglySorted (fun x y => fst x < fst y) l /\
  (forall k w, In (k, w) l ->
     M k = Some w /\ (after b k \/ b = Some (k, false)) /\ before (Some (hi, closed)) k) /\
  (forall k w, M k = Some w -> after b k -> before (Some (lo, closed)) k ->
     In (k, w) l \/ fin = false /\ Forall (fun x => fst x < k) l) /\
  (fin = false -> length l = n).
