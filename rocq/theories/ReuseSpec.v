(** When the allocator may put an object at a place that was used before. *)
From Coq Require Import ZArith NArith List Bool.
From Verif Require Import Config Api Page Machine Tree Spec Conc EpochSpec BulkSpec.
Import ListNotations.

(** [ex c sch]: the execution from [c] by the schedule [sch].  After [sch] the collector is
    free to reclaim [a], as [may_free] of EpochSpec.v. *)
Definition reclaimable (ex : cst -> list (tid * bool) -> cst * list event) (c0 : cst) (sch : list (tid * bool)) (a : addr) : Prop :=
  exists s1 s2, sch = s1 ++ s2 /\
    let e := fst (ex c0 s1) in
    In a (s_gc (c_mem e)) /\
    forall t, busy e t -> exists x, In (ERes t x) (snd (ex e s2)).

(** Objects that exist at the start are at different places.  When an object is allocated,
    every other object at its place is free for reuse, or is one that no thread ever puts
    into the mapping table: a page or record that its thread has dropped and keeps for the
    next allocation (tls_node, bw_tree.hpp:1184-1210; tls_delta_page_, 669 and 1700). *)
Definition placed_by (free : list (tid * bool) -> addr -> Prop) (ex : cst -> list (tid * bool) -> cst * list event)
    (c0 : cst) (sch : list (tid * bool)) (loc : addr -> N) : Prop :=
  (forall a b, (a < s_naddr (c_mem c0))%N -> (b < s_naddr (c_mem c0))%N -> loc a = loc b -> a = b) /\
  forall s1 t b s2, sch = s1 ++ (t, b) :: s2 ->
    forall k r, nth_error (c_thr (fst (ex c0 s1))) t = Some (TRun (Alloc k) r) ->
    let a := s_naddr (c_mem (fst (ex c0 s1))) in
    forall x, (x < a)%N -> loc x = loc a ->
      free s1 x \/ forall i, ~ linked (c_mem (fst (ex c0 (firstn i sch)))) x.

(** Reuse after reclamation, as the collector does it. *)
Definition placed (ex : cst -> list (tid * bool) -> cst * list event) (c0 : cst) (sch : list (tid * bool)) (loc : addr -> N) : Prop :=
  placed_by (reclaimable ex c0) ex c0 sch loc.
(** Reuse of everything that was retired, without waiting for calls in progress. *)
Definition placed_eagerly (ex : cst -> list (tid * bool) -> cst * list event) (c0 : cst) (sch : list (tid * bool)) (loc : addr -> N) : Prop :=
  placed_by (fun s a => In a (s_gc (c_mem (fst (ex c0 s))))) ex c0 sch loc.

(** During [sch] the call that thread [t] is in has obtained [a]. *)
Definition held (ex : cst -> list (tid * bool) -> cst * list event) (c0 : cst) (sch : list (tid * bool)) (t : tid) (a : addr) : Prop :=
  exists s1 b s2, sch = s1 ++ (t, b) :: s2 /\ obtains (fst (ex c0 s1)) t a /\
    forall x, ~ In (ERes t x) (snd (ex (fst (ex c0 s1)) ((t, b) :: s2))).
