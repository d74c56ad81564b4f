(** The threads of Conc.v on a memory whose addresses are used again.

    In Machine.v an address is the identity of an object: every allocation gives a new one.
    Here [loc] says where in memory each object is; several objects may be at the same
    place one after the other.  What the code compares are places: CASWeak and CASStrong
    (logical_ptr.hpp:114-158) succeed when the slot holds a pointer to the same place, be
    it to another object or not. *)
From Coq Require Import ZArith NArith List Bool.
From Verif Require Import Config Api Page Machine Tree Spec Conc.
Import ListNotations.

Definition cas_at (loc : addr -> N) (s : st) (weak spur : bool) (p : pid) (e : addr) : bool :=
  match s_tbl s p with
  | Some c => (loc (h_addr c) =? loc e)%N && negb (weak && spur)
  | None => false
  end.
Definition pstep_at (loc : addr -> N) {A} (m : prog A) (spur : bool) (s : st) : option (prog A * st) :=
  match m with
  | Cas w p e c k =>
      if cas_at loc s w spur p e then Some (k true, set_tbl s p (Some c)) else Some (k false, s)
  | _ => pstep m spur s
  end.

(** As [cstep] and [exec]. *)
Definition cstep_at (loc : addr -> N) (g : cfg) (fuel : nat) (c : cst) (t : tid) (spur : bool)
    : cst * list event :=
  match nth_error (c_thr c) t with
  | None => (c, [])
  | Some th =>
      let put m th' := mk_cst m (firstn t (c_thr c) ++ th' :: skipn (S t) (c_thr c)) in
      match th with
      | TIdle [] => (c, [])
      | TIdle (o :: r) => (put (c_mem c) (TRun (call_prog g fuel o) r), [EInv t o])
      | TRun (Ret x) r => (put (c_mem c) (TIdle r), [ERes t x])
      | TRun m r =>
          match pstep_at loc m spur (c_mem c) with
          | Some (m', s') => (put s' (TRun m' r), [])
          | None => (c, [])
          end
      end
  end.
Fixpoint exec_at (loc : addr -> N) (g : cfg) (fuel : nat) (c : cst) (sch : list (tid * bool))
    : cst * list event :=
  match sch with
  | [] => (c, [])
  | (t, b) :: r =>
      let '(c1, h1) := cstep_at loc g fuel c t b in
      let '(c2, h2) := exec_at loc g fuel c1 r in (c2, h1 ++ h2)
  end.
