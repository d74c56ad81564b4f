(** Shared memory of a tree and programs over it.

    Every access to shared memory (mapping-table slots through LogicalPtr, the
    root_ word, the payload cell of an index-delete delta, the page-ID counter)
    is one atomic step.  Memory order is sequentially consistent. *)
From Coq Require Import ZArith NArith List Bool.
From Verif Require Import Config Page.
Import ListNotations.
Open Scope N_scope.

Record st := mk_st {
  s_tbl   : pid -> option chain;  (* mapping table; None = null / unknown ID *)
  s_root  : pid;                  (* root_, bw_tree.hpp:1690 *)
  s_npid  : pid;                  (* next page ID; uniqueness and validity of
                                     IDs are proved separately, MapTable.v *)
  s_naddr : addr;                 (* next fresh address *)
  s_cell  : addr -> pid;          (* payload word of index-delete deltas *)
  s_gc    : list addr             (* addresses handed to the collector *)
}.

(** Undefined behaviour, by cause. *)
Inductive ub :=
| UbNull        (* null or unallocated page dereferenced *)
| UbStack       (* back()/pop_back() on an empty std::vector *)
| UbGarbage     (* record interpreted as a page of the wrong kind, or a
                   position outside a page *)
| UbOverflow    (* more bytes written than a page has *)
| UbArray       (* more records than the temporary sorting array has slots *)
| UbSplit.      (* split-right page without records *)

Inductive prog (A : Type) : Type :=
| Ret (a : A)
| Load (p : pid) (k : chain -> prog A)                  (* logical_ptr.hpp:65-73 *)
| Store (p : pid) (c : chain) (k : prog A)              (* logical_ptr.hpp:83-90 *)
| Clear (p : pid) (k : prog A)                          (* logical_ptr.hpp:96-100 *)
| Cas (weak : bool) (p : pid) (e : addr) (c : chain) (k : bool -> prog A)
                                                        (* logical_ptr.hpp:114-158 *)
| LoadRoot (k : pid -> prog A)
| StoreRoot (p : pid) (k : prog A)
| CasRoot (old new : pid) (k : bool -> prog A)
| NewPid (k : pid -> prog A)                            (* mapping_table.hpp:124-165 *)
| Alloc (k : addr -> prog A)                            (* GetNodePage/GetRecPage *)
| LoadCell (a : addr) (k : pid -> prog A)
| StoreCell (a : addr) (p : pid) (k : prog A)
| Retire (l : list addr) (k : prog A)                   (* gc_.AddGarbage *)
| UB (u : ub)
| Fuel.                                                 (* model fuel exhausted *)
Arguments Ret {A} a.
Arguments Load {A} p k.
Arguments Store {A} p c k.
Arguments Clear {A} p k.
Arguments Cas {A} weak p e c k.
Arguments LoadRoot {A} k.
Arguments StoreRoot {A} p k.
Arguments CasRoot {A} old new k.
Arguments NewPid {A} k.
Arguments Alloc {A} k.
Arguments LoadCell {A} a k.
Arguments StoreCell {A} a p k.
Arguments Retire {A} l k.
Arguments UB {A} u.
Arguments Fuel {A}.

Fixpoint bind {A B} (m : prog A) (f : A -> prog B) : prog B :=
  match m with
  | Ret a => f a
  | Load p k => Load p (fun c => bind (k c) f)
  | Store p c k => Store p c (bind k f)
  | Clear p k => Clear p (bind k f)
  | Cas w p e c k => Cas w p e c (fun b => bind (k b) f)
  | LoadRoot k => LoadRoot (fun r => bind (k r) f)
  | StoreRoot p k => StoreRoot p (bind k f)
  | CasRoot o n k => CasRoot o n (fun b => bind (k b) f)
  | NewPid k => NewPid (fun p => bind (k p) f)
  | Alloc k => Alloc (fun a => bind (k a) f)
  | LoadCell a k => LoadCell a (fun p => bind (k p) f)
  | StoreCell a p k => StoreCell a p (bind k f)
  | Retire l k => Retire l (bind k f)
  | UB u => UB u
  | Fuel => Fuel
  end.

Declare Scope prog_scope.
Notation "x <- m ;; k" := (bind m (fun x => k))
  (at level 61, m at next level, right associativity) : prog_scope.
Notation "' p <- m ;; k" := (bind m (fun x => match x with p => k end))
  (at level 61, p pattern, m at next level, right associativity) : prog_scope.

Definition upd {A} (m : N -> A) (i : N) (x : A) : N -> A :=
  fun j => if j =? i then x else m j.

Definition set_tbl (s : st) (p : pid) (c : option chain) : st :=
  mk_st (upd (s_tbl s) p c) (s_root s) (s_npid s) (s_naddr s) (s_cell s) (s_gc s).
Definition set_root (s : st) (p : pid) : st :=
  mk_st (s_tbl s) p (s_npid s) (s_naddr s) (s_cell s) (s_gc s).
Definition set_cell (s : st) (a : addr) (p : pid) : st :=
  mk_st (s_tbl s) (s_root s) (s_npid s) (s_naddr s) (upd (s_cell s) a p) (s_gc s).
Definition bump_pid (s : st) : st :=
  mk_st (s_tbl s) (s_root s) (s_npid s + 1) (s_naddr s) (s_cell s) (s_gc s).
Definition bump_addr (s : st) : st :=
  mk_st (s_tbl s) (s_root s) (s_npid s) (s_naddr s + 1) (s_cell s) (s_gc s).
Definition add_gc (s : st) (l : list addr) : st :=
  mk_st (s_tbl s) (s_root s) (s_npid s) (s_naddr s) (s_cell s) (s_gc s ++ l).

(** Whether a compare-and-swap on slot [p] with expected address [e] succeeds;
    [spur] is a spurious failure, possible for the weak form only. *)
Definition cas_ok (s : st) (weak spur : bool) (p : pid) (e : addr) : bool :=
  match s_tbl s p with
  | Some c => (h_addr c =? e) && negb (weak && spur)
  | None => false
  end.

(** One atomic step of a program; [None] when it has stopped. *)
Definition pstep {A} (m : prog A) (spur : bool) (s : st) : option (prog A * st) :=
  match m with
  | Ret _ | UB _ | Fuel => None
  | Load p k =>
      match s_tbl s p with
      | Some c => Some (k c, s)
      | None => Some (UB UbNull, s)
      end
  | Store p c k => Some (k, set_tbl s p (Some c))
  | Clear p k => Some (k, set_tbl s p None)
  | Cas w p e c k =>
      if cas_ok s w spur p e
      then Some (k true, set_tbl s p (Some c))
      else Some (k false, s)
  | LoadRoot k => Some (k (s_root s), s)
  | StoreRoot p k => Some (k, set_root s p)
  | CasRoot o n k =>
      if s_root s =? o then Some (k true, set_root s n) else Some (k false, s)
  | NewPid k => Some (k (s_npid s), bump_pid s)
  | Alloc k => Some (k (s_naddr s), bump_addr s)
  | LoadCell a k => Some (k (s_cell s a), s)
  | StoreCell a p k => Some (k, set_cell s a p)
  | Retire l k => Some (k, add_gc s l)
  end.

(** Result of running a program alone (single-threaded, no spurious failures). *)
Inductive res (A : Type) :=
| Done (a : A) (s : st)
| Crash (u : ub)
| NoFuel.
Arguments Done {A} a s.
Arguments Crash {A} u.
Arguments NoFuel {A}.

Fixpoint run {A} (m : prog A) (s : st) : res A :=
  match m with
  | Ret a => Done a s
  | UB u => Crash u
  | Fuel => NoFuel
  | Load p k =>
      match s_tbl s p with Some c => run (k c) s | None => Crash UbNull end
  | Store p c k => run k (set_tbl s p (Some c))
  | Clear p k => run k (set_tbl s p None)
  | Cas w p e c k =>
      if cas_ok s w false p e then run (k true) (set_tbl s p (Some c)) else run (k false) s
  | LoadRoot k => run (k (s_root s)) s
  | StoreRoot p k => run k (set_root s p)
  | CasRoot o n k =>
      if s_root s =? o then run (k true) (set_root s n) else run (k false) s
  | NewPid k => run (k (s_npid s)) (bump_pid s)
  | Alloc k => run (k (s_naddr s)) (bump_addr s)
  | LoadCell a k => run (k (s_cell s a)) s
  | StoreCell a p k => run k (set_cell s a p)
  | Retire l k => run k (add_gc s l)
  end.
