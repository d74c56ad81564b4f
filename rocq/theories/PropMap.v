(** C18-C21 and part of C32: the mapping table under any number of threads. *)
From Coq Require Import ZArith NArith List Bool Lia.
From Verif Require Import Page MapTable MapTableProps.
Import ListNotations.
Open Scope N_scope.

(** No thread has left the array [tables_] (C20 says when this can happen). *)
Definition in_bounds (s : mst) : Prop := forall u, ms_pc s u <> POob.
(** The schedule only runs threads 0 .. k-1. *)
Definition threads_below (k : nat) (sch : list (nat * bool)) : Prop :=
  Forall (fun x => (fst x < k)%nat) sch.

(** C18: returned IDs are pairwise different, non-zero, and their slot lies inside
    an allocated row. *)
Theorem C18_page_ids_unique sch : let s := mt_exec ms_init sch in in_bounds s ->
  NoDup (ms_out s) /\
  forall id, In id (ms_out s) ->
    id <> 0 /\ exists r i, slot (ms_mem s) id = Some (r, i) /\ i < 512.
Proof. intros s H. apply (c18 sch). intros [u Hu]. exact (H u Hu). Qed.
Print Assumptions C18_page_ids_unique.

(** C19: different returned IDs have different slots, and the slot of a returned ID
    is the same after any continuation. *)
Theorem C19_slots_distinct_and_stable sch1 sch2 id :
  let s1 := mt_exec ms_init sch1 in let s2 := mt_exec s1 sch2 in in_bounds s2 ->
  In id (ms_out s1) ->
  slot (ms_mem s2) id = slot (ms_mem s1) id /\
  forall id', In id' (ms_out s1) -> id <> id' ->
    slot (ms_mem s1) id <> slot (ms_mem s1) id'.
Proof. intros s1 s2 H. apply (c19 sch1 sch2 id). intros [u Hu]. exact (H u Hu). Qed.
Print Assumptions C19_slots_distinct_and_stable.

(** C20 as stated is false: a schedule leaves [tables_] although the assertion of
    line 130 never fails (it compares with 512; the array has 504 elements). *)
Theorem C20_capacity_assertion_refuted :
  exists sch u, ms_pc (mt_exec ms_init sch) u = POob /\
    forall w, ms_pc (mt_exec ms_init sch) w <> PAbort.
Proof. exact c20_ref. Qed.
Print Assumptions C20_capacity_assertion_refuted.

(** C20, what holds: below the true capacity (counting IDs in flight) no thread
    fails, leaves the array or meets a null table.  Missing from the full claim: the
    assertion itself does not enforce this bound. *)
Theorem C20_allocation_in_bounds_partial k sch : threads_below k sch ->
  let s := mt_exec ms_init sch in
  N.of_nat (length (ms_out s)) + N.of_nat k < 504 * 512 * 512 ->
  forall u, ms_pc s u <> POob /\ ms_pc s u <> PAbort /\ ms_pc s u <> PNull.
Proof. exact (c20 k sch). Qed.
Print Assumptions C20_allocation_in_bounds_partial.

(** C21 as stated is false in every reachable state: the row holding the newest IDs
    and its table are never released, nor are the nodes of that row; while the first
    table is in use nothing is released at all. *)
Theorem C21_destructor_leaks_refuted sch : let s := mt_exec ms_init sch in in_bounds s ->
  let m := ms_mem s in
  exists t r, m_tabs m (tab_of (m_cnt m)) = Some t /\ m_rows m t (row_of (m_cnt m)) = Some r /\
    ~ In t (dtor_tables m) /\ ~ In r (dtor_rows m) /\ (forall i, ~ In (r, i) (dtor_slots m)) /\
    (tab_of (m_cnt m) = 0 -> dtor_tables m = [] /\ dtor_rows m = [] /\ dtor_slots m = []).
Proof. intros s H. apply (c21_ref sch). intros [u Hu]. exact (H u Hu). Qed.
Print Assumptions C21_destructor_leaks_refuted.

(** C21, what holds: the destructor releases nothing twice and follows no null
    pointer.  Missing: completeness. *)
Theorem C21_no_double_release_partial sch : let s := mt_exec ms_init sch in in_bounds s ->
  let m := ms_mem s in
  NoDup (dtor_tables m) /\ NoDup (dtor_rows m) /\ NoDup (dtor_slots m) /\
  (forall i, i < tab_of (m_cnt m) -> exists t, m_tabs m i = Some t /\
     forall j, j < dtor_row_num (m_cnt m) i -> m_rows m t j <> None).
Proof. intros s H. apply (c21 sch). intros [u Hu]. exact (H u Hu). Qed.
Print Assumptions C21_no_double_release_partial.

(** C32 for the mapping table: used bytes stay within the reserved bytes below the
    capacity; in the last state before overflow they do not. *)
Theorem C32_table_usage_partial sch k : threads_below k sch ->
  let s := mt_exec ms_init sch in
  N.of_nat (length (ms_out s)) + N.of_nat k < 504 * 512 * 512 ->
  (0 <= fst (mt_stats (ms_mem s)) <= snd (mt_stats (ms_mem s)))%Z.
Proof. exact (c32_mt sch k). Qed.
Print Assumptions C32_table_usage_partial.
Theorem C32_table_usage_refuted : exists sch, let s := mt_exec ms_init sch in
  in_bounds s /\ (snd (mt_stats (ms_mem s)) < fst (mt_stats (ms_mem s)))%Z.
Proof.
  destruct c32_mt_ref as (sch & A & B). exists sch. split; [|exact B].
  intros u Hu. apply A. exists u. exact Hu.
Qed.
Print Assumptions C32_table_usage_refuted.

(** Example: two threads, a failed compare-and-swap, a full row, a waiting thread. *)
Definition ex_map_sch : list (nat * bool) :=
  [(0%nat, false); (1%nat, false); (0%nat, false); (1%nat, false); (1%nat, false); (1%nat, true)]
  ++ flat_map (fun _ => [(0%nat, false); (0%nat, false); (0%nat, false)]) (seq 0 515)
  ++ repeat (1%nat, false) 9.
Definition ex_map : mst := mt_exec ms_init ex_map_sch.
Example ex_map_ids : length (ms_out ex_map) = 517%nat /\
  hd 0 (ms_out ex_map) = 2^63 + 65536 + 5 /\ last (ms_out ex_map) 0 = 2^63 /\
  ms_pc ex_map 0%nat <> POob /\ ms_pc ex_map 1%nat <> POob /\
  slot (ms_mem ex_map) (2^63 + 65536 + 5) = Some (2, 5).
Proof. vm_compute. repeat split; congruence. Qed.
Lemma ex_pc_other s sch u : threads_below 2 sch -> (2 <= u)%nat ->
  ms_pc s u = PLoad -> ms_pc (mt_exec s sch) u = PLoad.
Proof. intros H Hu E. rewrite (pc_unused 2 sch s H u Hu). exact E. Qed.
Example ex_map_below : threads_below 2 ex_map_sch.
Proof. unfold threads_below. apply Forall_forall. intros x Hx.
  assert (G : forallb (fun x => Nat.ltb (fst x) 2) ex_map_sch = true) by (vm_compute; reflexivity).
  rewrite forallb_forall in G. specialize (G x Hx). apply PeanoNat.Nat.ltb_lt in G. exact G. Qed.
Example ex_map_in_bounds : in_bounds ex_map.
Proof.
  intros u. destruct u as [|[|u]]; [apply ex_map_ids|apply ex_map_ids|].
  unfold ex_map. rewrite ex_pc_other; [discriminate|exact ex_map_below|lia|reflexivity].
Qed.
