(** Epoch-based reclamation when threads also scan and collect statistics: Scan and the
    point calls create a guard first and drop it on return (bw_tree.hpp:151, 212, 268,
    320, 374, 422); the iterator (record_iterator.hpp:167-180, bw_tree.hpp:1124-1141) and
    CollectStatisticalData (bw_tree.hpp:561-572) create none.  The collector (an external
    library) reclaims a retired page only when every guard that existed at the time of
    retirement is gone. *)
From Coq Require Import ZArith NArith List Bool.
From Verif Require Import Config Api Page Machine Tree Scan Spec Client.
Import ListNotations.

(** The request of thread [t] in progress after the history [h]. *)
Definition running (h : list kevent) (t : tid) : option req :=
  fold_left (fun o e =>
    match e with
    | VInv u q => if Nat.eqb u t then Some q else o
    | VRes u _ => if Nat.eqb u t then None else o
    end) h None.
Definition guarded (q : req) : bool :=
  match q with QCall _ | QOpen _ _ => true | QNext | QStat _ => false end.

(** After the schedule [sch] the collector is free to reclaim the page or record at
    [a]: at some moment it had been retired, and all guards of that moment have been
    dropped since. *)
Definition kmay_free (g : cfg) (fuel : nat) (c0 : kst) (sch : list (tid * bool)) (a : addr) : Prop :=
  exists s1 s2, sch = s1 ++ s2 /\
    let '(e, h) := kexec g fuel c0 s1 in
    In a (s_gc (k_mem e)) /\
    forall t q, running h t = Some q -> guarded q = true ->
      exists x, In (VRes t x) (snd (kexec g fuel e s2)).

(** The next step of thread [t] hands it the address [a]: as part of the chain that it
    loads, or freshly allocated. *)
Definition kobtains (c : kst) (t : tid) (a : addr) : Prop :=
  (exists p k r h, nth_error (k_thr c) t = Some (KRun (Load p k) r) /\
     s_tbl (k_mem c) p = Some h /\ In a (chain_addrs h)) \/
  (exists k r, nth_error (k_thr c) t = Some (KRun (Alloc k) r) /\ a = s_naddr (k_mem c)).
