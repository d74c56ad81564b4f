(** Epoch-based reclamation as the tree uses it: every point call creates a guard first
    and drops it on return (bw_tree.hpp:151, 268, 320, 374, 422), and the collector
    (an external library) reclaims a retired page only when every guard that existed at
    the time of retirement is gone. *)
From Coq Require Import ZArith NArith List Bool.
From Verif Require Import Config Api Page Machine Tree Spec Conc.
Import ListNotations.

(** Thread [t] is inside a call. *)
Definition busy (c : cst) (t : tid) : Prop := exists m r, nth_error (c_thr c) t = Some (TRun m r).

(** After the schedule [sch] the collector is free to reclaim the page or record at
    [a]: at some moment it had been retired, and all calls in progress at that moment
    have returned since. *)
Definition may_free (g : cfg) (fuel : nat) (c0 : cst) (sch : list (tid * bool)) (a : addr) : Prop :=
  exists s1 s2, sch = s1 ++ s2 /\
    let e := fst (exec g fuel c0 s1) in
    In a (s_gc (c_mem e)) /\
    forall t, busy e t -> exists x, In (ERes t x) (snd (exec g fuel e s2)).

(** The next step of thread [t] hands it the address [a]: as part of the chain that it
    loads, or freshly allocated. *)
Definition obtains (c : cst) (t : tid) (a : addr) : Prop :=
  (exists p k r h, nth_error (c_thr c) t = Some (TRun (Load p k) r) /\
     s_tbl (c_mem c) p = Some h /\ In a (chain_addrs h)) \/
  (exists k r, nth_error (c_thr c) t = Some (TRun (Alloc k) r) /\ a = s_naddr (c_mem c)).
