(** Assigning the result of a new Scan to an iterator variable: it = index.Scan(b, e).
    The move assignment (record_iterator.hpp:99-109) takes over the page, the positions and
    is_end_; bw_tree_ and end_key_ stay what they were. *)
From Coq Require Import ZArith NArith List Bool.
From Verif Require Import Config Page Machine Tree Scan.
Import ListNotations.
Open Scope prog_scope.

(** record_iterator.hpp:99-109 operator=(RecordIterator && ). *)
Definition assign (old new : iter) : iter :=
  mk_iter (i_pos new) (i_end new) (i_isend new) (i_ekey old).

(** it = index.Scan(b, e); for (; it; ++it) use( *it ), where [it] was [old]. *)
Definition scan_again (g : cfg) (fuel : nat) (old : iter) (b e : bound) : prog (list (key * val)) :=
  '(pg, it) <- op_scan g fuel b e ;; collect g fuel pg (assign old it).

(** it = other.Scan(b, e) for an iterator of another index: the page comes from [other], and
    the iteration goes on in the index [s] that [it] was made for. *)
Definition scan_other (g : cfg) (fuel : nat) (old : iter) (b e : bound) (other s : st)
    : res (list (key * val)) :=
  match run (op_scan g fuel b e) other with
  | Done (pg, it) _ => run (collect g fuel pg (assign old it)) s
  | Crash u => Crash u
  | NoFuel => NoFuel
  end.
