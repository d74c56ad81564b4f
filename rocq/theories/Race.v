(** Concurrent clients that may also scan: each thread runs one program made of
    point calls and scans, interleaved by an arbitrary schedule at the granularity
    of single shared-memory accesses (as in Conc.v, with programs instead of call
    lists). *)
From Coq Require Import ZArith NArith List Bool.
From Verif Require Import Config Api Page Machine Tree Scan.
Import ListNotations.
Open Scope prog_scope.

(** What a client obtains: the results of its calls, the records of a scan, or a
    traversal stack. *)
Inductive out :=
| OCalls (l : list ret) | OScan (l : list (key * val)) | OStack (l : list pid).

(** Point calls issued one after the other. *)
Fixpoint calls_prog (g : cfg) (fuel : nat) (os : list call) : prog (list ret) :=
  match os with
  | [] => Ret []
  | o :: t => r <- call_prog g fuel o ;; rs <- calls_prog g fuel t ;; Ret (r :: rs)
  end.
Definition caller (g : cfg) (fuel : nat) (os : list call) : prog out :=
  rs <- calls_prog g fuel os ;; Ret (OCalls rs).
(** for (auto it = Scan(b, e); it; ++it) (README). *)
Definition scanner (g : cfg) (fuel : nat) (b e : bound) : prog out :=
  l <- scan_all g fuel b e ;; Ret (OScan l).

(** The rest of an iteration whose Scan call has returned. *)
Definition iterator (g : cfg) (fuel : nat) (pg : node) (it : iter) : prog out :=
  l <- collect g fuel pg it ;; Ret (OScan l).
(** Read up to the point where it has replaced a removed leaf
    (bw_tree.hpp:152-180). *)
Definition redescend (g : cfg) (fuel : nat) (k : key) : prog out :=
  stack <- search_leaf fuel k true ;;
  match stack with
  | [] => UB UbStack
  | p :: rest =>
      head <- load p ;;
      if is_remove head
      then '(_, st') <- search_child_node fuel k true rest 0%N ;; Ret (OStack st')
      else Ret (OStack stack)
  end.

Definition rstep (ms : list (prog out)) (s : st) (t : nat) (spur : bool)
    : list (prog out) * st :=
  match nth_error ms t with
  | None => (ms, s)
  | Some m =>
      match pstep m spur s with
      | Some (m', s') => (firstn t ms ++ m' :: skipn (S t) ms, s')
      | None => (ms, s)
      end
  end.

Fixpoint race (ms : list (prog out)) (s : st) (sch : list (nat * bool))
    : list (prog out) * st :=
  match sch with
  | [] => (ms, s)
  | (t, b) :: r => let '(ms1, s1) := rstep ms s t b in race ms1 s1 r
  end.

(** [n] consecutive steps of thread [t] without spurious failures. *)
Definition steps (t : nat) (n : N) : list (nat * bool) := repeat (t, false) (N.to_nat n).
