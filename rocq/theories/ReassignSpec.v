(** What an iterator returns whose end bound was replaced on the way. *)
From Coq Require Import ZArith NArith List Sorting.Sorted.
From Verif Require Import Config Api Spec ScanSpec.
Import ListNotations.
Open Scope Z_scope.

(** Keys ascend; every record is one of [M] after [b] and within one of the end bounds [e1],
    [e2]; those within both are all there.  The key of an excluded begin bound may be returned
    as well (C13). *)
Definition two_ends (M : smap) (b e1 e2 : option (key * bool)) (l : list (key * val)) : Prop :=
  StronglySorted (fun x y => fst x < fst y) l /\
  (forall k w, In (k, w) l ->
     M k = Some w /\ (after b k \/ b = Some (k, false)) /\ (before e1 k \/ before e2 k)) /\
  (forall k w, M k = Some w -> after b k -> before e1 k -> before e2 k -> In (k, w) l).
