(** Threads that issue point calls and iterate over scans, in any order, interleaved by
    an arbitrary schedule at the granularity of single shared-memory accesses (as in
    Conc.v).  A thread owns at most one iterator at a time: all iterators of a thread
    share one page buffer (bw_tree.hpp:213-217), see C14. *)
From Coq Require Import ZArith NArith List Bool.
From Verif Require Import Config Api Page Machine Tree Scan Spec.
Import ListNotations.
Open Scope prog_scope.

(** A point call; Scan(b, e) (bw_tree.hpp:206-242); one round of the client's loop,
    [if (it) { use( *it ); ++it; }] (record_iterator.hpp:138-180); or
    CollectStatisticalData (bw_tree.hpp:561-571), [drec] being kDeltaRecSize. *)
Inductive req := QCall (o : call) | QOpen (b e : bound) | QNext | QStat (drec : Z).
(** The result of a point call; the return of Scan; the record of a round, or that the
    iterator has no more; for each level its pages, used bytes and reserved bytes. *)
Inductive ans := ACall (r : ret) | AOpen | ARec (r : key * val) | AEnd | AStat (l : list (Z * Z * Z)).
(** The iterator of a thread: the thread's scan page and the iterator's own fields. *)
Definition cursor := option (node * iter).

Definition next_prog (g : cfg) (fuel : nat) (pg : node) (it : iter) : prog (ans * cursor) :=
  '(more, pg1, it1) <- has_record g fuel pg it ;;
  if more : bool then
    match get_record pg1 it1 with
    | None => UB UbGarbage
    | Some r => Ret (ARec r, Some (pg1, advance it1))
    end
  else Ret (AEnd, Some (pg1, it1)).
Definition req_prog (g : cfg) (fuel : nat) (cu : cursor) (q : req) : prog (ans * cursor) :=
  match q with
  | QCall o => r <- call_prog g fuel o ;; Ret (ACall r, cu)
  | QOpen b e => '(pg, it) <- op_scan g fuel b e ;; Ret (AOpen, Some (pg, it))
  | QNext => match cu with None => Ret (AEnd, None) | Some (pg, it) => next_prog g fuel pg it end
  | QStat drec => l <- op_stats g drec fuel ;; Ret (AStat l, cu)
  end.

Inductive client :=
| KIdle (cu : cursor) (todo : list req)
| KRun (m : prog (ans * cursor)) (todo : list req).
Record kst := mk_kst { k_mem : st; k_thr : list client }.
Inductive kevent := VInv (t : tid) (q : req) | VRes (t : tid) (a : ans).

(** One scheduled step of thread [t]; [spur] makes a weak compare-and-swap fail
    spuriously. *)
Definition kstep (g : cfg) (fuel : nat) (c : kst) (t : tid) (spur : bool)
    : kst * list kevent :=
  match nth_error (k_thr c) t with
  | None => (c, [])
  | Some th =>
      let put m th' := mk_kst m (firstn t (k_thr c) ++ th' :: skipn (S t) (k_thr c)) in
      match th with
      | KIdle _ [] => (c, [])
      | KIdle cu (q :: r) => (put (k_mem c) (KRun (req_prog g fuel cu q) r), [VInv t q])
      | KRun (Ret (a, cu)) r => (put (k_mem c) (KIdle cu r), [VRes t a])
      | KRun m r =>
          match pstep m spur (k_mem c) with
          | Some (m', s') => (put s' (KRun m' r), [])
          | None => (c, [])
          end
      end
  end.

Fixpoint kexec (g : cfg) (fuel : nat) (c : kst) (sch : list (tid * bool))
    : kst * list kevent :=
  match sch with
  | [] => (c, [])
  | (t, b) :: r =>
      let '(c1, h1) := kstep g fuel c t b in
      let '(c2, h2) := kexec g fuel c1 r in (c2, h1 ++ h2)
  end.

Definition kstart (s : st) (todos : list (list req)) : kst :=
  mk_kst s (map (KIdle None) todos).

(** Some thread has run into undefined behaviour. *)
Definition kcrashed (c : kst) : Prop := exists u r, In (KRun (UB u) r) (k_thr c).
