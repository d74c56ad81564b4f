(** Specification: what a call of Bulkload leaves behind. *)
From Coq Require Import ZArith NArith List Bool Sorting.Sorted.
From Verif Require Import Config Api Page Machine Tree Bulk.
Import ListNotations.
Open Scope Z_scope.

(** [Bulkload(es, thread_num)] on [s] ends in [s']: by the calling thread alone, or after
    all workers have ended, in any interleaving [sch] (bw_tree.hpp:471-548). *)
Inductive bulkloaded (g : cfg) (es : list (key * val)) (s s' : st) : Prop :=
| bl_one f thread_num : thread_num <= 1 \/ Z.of_nat (length es) < thread_num ->
    run (op_bulkload g f es thread_num) s = Done Success s' -> bulkloaded g es s s'
| bl_many f f' thread_num sch ts s1 : 1 < thread_num <= Z.of_nat (length es) -> (length es + 1 < f)%nat ->
    work (bulk_workers g f es thread_num) s sch = (map (fun x => Ret x) ts, s1) ->
    run (bulk_join g f' ts) s1 = Done Success s' -> bulkloaded g es s s'.

(** Sorted by key, without duplicates. *)
Definition ascending (es : list (key * val)) : Prop := StronglySorted (fun x y => fst x < fst y) es.
(** The map [M] holds exactly the entries [es]. *)
Definition holds_only (M : key -> option val) (es : list (key * val)) : Prop :=
  forall k v, M k = Some v <-> In (k, v) es.

(** The page or record at [a] is reachable through the mapping table. *)
Definition linked (s : st) (a : addr) : Prop := exists p c, s_tbl s p = Some c /\ In a (chain_addrs c).
(** What lies at an address of a chain: a page or a delta record. *)
Inductive piece : chain -> kind -> addr -> Prop :=
| pc_base n : piece (CBase n) NodePage (n_addr n)
| pc_rec d c : piece (CRec d c) DeltaPage (d_addr d)
| pc_merge d n c : piece (CMerge d n c) DeltaPage (d_addr d)
| pc_merged d n c : piece (CMerge d n c) NodePage (n_addr n)
| pc_remove a l : piece (CRemove a l) DeltaPage a
| pc_below d c k a : piece c k a -> piece (CRec d c) k a
| pc_below_merge d n c k a : piece c k a -> piece (CMerge d n c) k a.
(** Everything that was linked still is, or has been registered with the collector. *)
Definition nothing_lost (s s' : st) : Prop := forall a, linked s a -> linked s' a \/ In a (s_gc s').
