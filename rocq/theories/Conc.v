(** Threads: any number of clients, each issuing a list of calls, interleaved by
    an arbitrary schedule at the granularity of single shared-memory accesses. *)
From Coq Require Import ZArith NArith List Bool.
From Verif Require Import Config Api Page Machine Tree Spec.
Import ListNotations.

Inductive thread :=
| TIdle (todo : list call)
| TRun (m : prog ret) (todo : list call).

Record cst := mk_cst { c_mem : st; c_thr : list thread }.

(** One scheduled step of thread [t]; [spur] makes a weak compare-and-swap fail
    spuriously.  A thread that has nothing to do, has hit undefined behaviour or
    has run out of model fuel does not move. *)
Definition cstep (g : cfg) (fuel : nat) (c : cst) (t : tid) (spur : bool)
    : cst * list event :=
  match nth_error (c_thr c) t with
  | None => (c, [])
  | Some th =>
      let put m th' := mk_cst m (firstn t (c_thr c) ++ th' :: skipn (S t) (c_thr c)) in
      match th with
      | TIdle [] => (c, [])
      | TIdle (o :: r) => (put (c_mem c) (TRun (call_prog g fuel o) r), [EInv t o])
      | TRun (Ret x) r => (put (c_mem c) (TIdle r), [ERes t x])
      | TRun m r =>
          match pstep m spur (c_mem c) with
          | Some (m', s') => (put s' (TRun m' r), [])
          | None => (c, [])
          end
      end
  end.

Fixpoint exec (g : cfg) (fuel : nat) (c : cst) (sch : list (tid * bool))
    : cst * list event :=
  match sch with
  | [] => (c, [])
  | (t, b) :: r =>
      let '(c1, h1) := cstep g fuel c t b in
      let '(c2, h2) := exec g fuel c1 r in (c2, h1 ++ h2)
  end.

Definition start (s : st) (todos : list (list call)) : cst :=
  mk_cst s (map TIdle todos).

(** Some thread has run into undefined behaviour. *)
Definition crashed (c : cst) : Prop :=
  exists u r, In (TRun (UB u) r) (c_thr c).
