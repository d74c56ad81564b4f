(** What a scan may return: the interval given to Scan (bw_tree.hpp:199-205, a key and
    whether it is included, or no key). *)
From Coq Require Import ZArith.
From Verif Require Import Config Api.
Open Scope Z_scope.

(** [k] satisfies the begin bound. *)
Definition after (b : option (key * bool)) (k : key) : Prop :=
  match b with None => True | Some (x, true) => x <= k | Some (x, false) => x < k end.
(** [k] satisfies the end bound. *)
Definition before (e : option (key * bool)) (k : key) : Prop :=
  match e with None => True | Some (x, true) => k <= x | Some (x, false) => k < x end.
