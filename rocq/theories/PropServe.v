(** * C61: one thread that keeps an iterator open between its own calls
    Property theorems only.  A thread alone on the tree mixes point calls, Scan, rounds of
    the iteration and CollectStatisticalData as it likes; nodes may split and merge and
    the root may change under the open iterator. *)
From Coq Require Import ZArith NArith List Bool Lia Sorting.Sorted.
From Verif Require Import Config Api Spec ScanSpec Page Machine Tree Scan Bulk BulkSpec Client ClientSpec Valid Serve ServeFacts ServeMain
  ByteLifeSpec ByteLifeMain PropBytes PropTree PropSeq PropScan PropByteTree PropByteMrg PropByteLife.
Import ListNotations.
Open Scope Z_scope.

(** On a new tree: the requests end with enough fuel, are cut short with less, and never run
    into undefined behaviour; the answers are those of one list, which [replies] allows. *)
Theorem C61_open_iterator g qs : cfg_ok g ->
  exists l s, replies sempty None qs l /\
    (exists F, forall f, (F <= f)%nat -> serve g f None qs (init g) = Done l s) /\
    (forall f, serve g f None qs (init g) = NoFuel \/ serve g f None qs (init g) = Done l s).
Proof. exact (serve_new g qs). Qed.
Print Assumptions C61_open_iterator.

(** The same on a tree of fixed-length nodes that Bulkloads and programs have been through. *)
Theorem C61_open_iterator_loaded g K M s0 qs : cfg_ok g -> c_varlen g = false -> bulk_ok g ->
  lived g K M s0 ->
  exists l s, replies M None qs l /\
    (exists F, forall f, (F <= f)%nat -> serve g f None qs s0 = Done l s) /\
    (forall f, serve g f None qs s0 = NoFuel \/ serve g f None qs s0 = Done l s).
Proof. exact (serve_lived g K M s0 qs). Qed.
Print Assumptions C61_open_iterator_loaded.

(** A user's view of it.  An iterator over [b], [e] is opened after the requests [pre] and run
    to its end by [qs], among other calls of the same thread; no call changes key [k] before
    the iterator has returned it.  Then it returns [k] if and only if the tree held [k] when
    it was opened, with the value of that time ... *)
Theorem C61_late_changes g f pre b e qs l0 l s k v : cfg_ok g ->
  serve g f None (pre ++ QOpen b e :: qs) (init g) = Done (l0 ++ AOpen :: l) s -> length l0 = length pre ->
  unspoilt k qs l -> In AEnd l -> ScanSpec.after b k -> before e k ->
  (In (k, v) (recs l) <-> after_reqs sempty pre k = Some v).
Proof. exact (serve_late g f pre b e qs l0 l s k v). Qed.
Print Assumptions C61_late_changes.

(** ... and keys come in ascending order, each at most once, whatever the calls do. *)
Theorem C61_ascending g f pre b e qs l0 l s : cfg_ok g ->
  serve g f None (pre ++ QOpen b e :: qs) (init g) = Done (l0 ++ AOpen :: l) s -> length l0 = length pre ->
  Forall no_open qs -> StronglySorted (fun x y => fst x < fst y) (recs l).
Proof. exact (serve_ascending g f pre b e qs l0 l s). Qed.
Print Assumptions C61_ascending.

(** A stronger claim fails: that an iterator never returns a key its own thread has just
    deleted.  The records of a page are copied when the iterator comes to the page
    (bw_tree.hpp:213-217). *)
Theorem C61_own_delete_refuted : exists g f pre b e l s k v, cfg_ok g /\
  serve g f None (pre ++ QOpen b e :: [QNext; QCall (KDelete k); QNext]) (init g) =
    Done (l ++ [ACall (RCode Success); ARec (k, v)]) s.
Proof.
  exists cfg_small, 60%nat, (map QCall (writes 1 5)), None, None.
  destruct (serve cfg_small 60 None (map QCall (writes 1 5) ++ QOpen None None :: [QNext; QCall (KDelete 2); QNext]) (init cfg_small)) as [l s| |] eqn:E;
    [|vm_compute in E; discriminate|vm_compute in E; discriminate].
  exists (firstn 7 l), s, 2, 7%N. split; [exact cfg_small_ok|]. rewrite E. f_equal. vm_compute in E. injection E as <- _. reflexivity.
Qed.
Print Assumptions C61_own_delete_refuted.

(** ** The hypotheses hold
    Thirty records on four leaves; the thread deletes each record as it is returned, and
    finds all of them; two leaves are merged away and the statistics show the rest. *)
Definition ks (a n : nat) : list key := map Z.of_nat (seq a n).
Definition drain (l : list key) : list req := flat_map (fun k => [QNext; QCall (KDelete k)]) l.
Definition said {A} (r : res (list A)) : list A := match r with Done l _ => l | _ => [] end.
Notation run_drain := (serve cfg_small 60 None (map QCall (writes 1 30) ++ QOpen None None :: drain (ks 1 30) ++ [QNext; QStat 40]) (init cfg_small)).
Example C61_case_drain : map fst (recs (said run_drain)) = ks 1 30 /\
  skipn 91 (said run_drain) = [AEnd; AStat [(1, 48, 256); (1, 32, 256)]] /\
  unspoilt 17 (drain (ks 1 30) ++ [QNext; QStat 40]) (skipn 31 (said run_drain)).
Proof.
  split; [vm_compute; reflexivity|]. split; [vm_compute; reflexivity|].
  vm_compute. repeat split; congruence || (repeat constructor).
Qed.
(** The iterator stands on page 1 when the records of the next leaf are deleted; the page it
    leads to, 2, is removed, and the iteration goes on with the leaf that has taken over.
    Records 5 and 6 are still in its copy of page 1. *)
Notation run_ahead := (serve cfg_small 60 None (map QCall (writes 1 30) ++ QOpen (Some (3, true)) None :: QNext ::
  map (fun k => QCall (KDelete k)) (ks 5 20) ++ [QNext; QNext; QNext; QNext; QNext]) (init cfg_small)).
Definition gone (p : pid) {A} (r : res A) : bool := match r with Done _ s => match s_tbl s p with Some c => is_remove c | None => false end | _ => false end.
Example C61_case_ahead : map fst (recs (said run_ahead)) = [3; 4; 5; 6; 25; 26] /\ gone 2 run_ahead = true /\ gone 1 run_ahead = false.
Proof. vm_compute. auto. Qed.
(** A tree that programs and Bulkload have been through (PropByteLife.v). *)
Example C61_case_loaded : exists M s0, lived cfg_p256 ex_u64 M s0 /\
  exists l s, replies M None (QOpen None None :: drain (ks 1 30) ++ [QNext; QStat 40]) l /\
    (exists F, forall f, (F <= f)%nat -> serve cfg_p256 f None (QOpen None None :: drain (ks 1 30) ++ [QNext; QStat 40]) s0 = Done l s) /\
    (forall f, serve cfg_p256 f None (QOpen None None :: drain (ks 1 30) ++ [QNext; QStat 40]) s0 = NoFuel \/
       serve cfg_p256 f None (QOpen None None :: drain (ks 1 30) ++ [QNext; QStat 40]) s0 = Done l s).
Proof.
  destruct C60_life_case as (s0 & H & _). eexists _, s0. split; [exact H|].
  apply (C61_open_iterator_loaded cfg_p256 ex_u64 _ s0 _ cfg_p256_ok eq_refl cfg_p256_bulk H).
Qed.
