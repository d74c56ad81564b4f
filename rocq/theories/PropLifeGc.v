(** * C30, C31, C35, C39, C48, C57 over the life of a tree
    Property theorems only.  [lived]: any sequence of programs (calls and scans) and Bulkloads
    on a tree of fixed-length nodes; then any threads, merging included. *)
From Coq Require Import ZArith NArith List Bool.
From Verif Require Import Config Api Page Machine Tree Scan Spec Bulk BulkSpec Valid Conc EpochSpec Client KEpochSpec Reuse ReuseSpec ReuseFacts ByteLifeSpec LifeGc
  ByteSeqSpec PropBulk PropScan PropBytes PropTree PropMerge PropLoad PropByteTree PropByteBulk PropByteMrg PropByteLife.
From Verif Require GcFacts KGcFacts EpochFacts BulkGc.
Import ListNotations.
Open Scope Z_scope.

(** C31: at any time of such a life, and of everything threads do afterwards, what has been
    retired has been retired once and is not linked. *)
Theorem C31_retired_once_life g K M s fuel todos sch : cfg_ok g -> c_varlen g = false -> bulk_ok g -> lived g K M s ->
  let s' := k_mem (fst (kexec g fuel (kstart s todos) sch)) in
  NoDup (s_gc s') /\ forall p c a, s_tbl s' p = Some c -> In a (chain_addrs c) -> ~ In a (s_gc s').
Proof. exact (fun OK FX BC H => KGcFacts.kgc_once_from g s fuel todos sch (lived_owns g OK FX BC K M s H)). Qed.
Print Assumptions C31_retired_once_life.

(** C35: nothing that a call has obtained is reclaimed before the call returns. *)
Theorem C35_no_use_after_reclamation_life g K M s fuel todos s1 s2 t a : cfg_ok g -> c_varlen g = false -> bulk_ok g -> lived g K M s ->
  let c0 := start s todos in
  let e := fst (exec g fuel c0 s1) in
  obtains e t a -> (forall x, ~ In (ERes t x) (snd (exec g fuel e s2))) -> ~ may_free g fuel c0 (s1 ++ s2) a.
Proof. exact (fun OK FX BC H => EpochFacts.not_freed_from g fuel s todos s1 s2 t a (lived_owns g OK FX BC K M s H)). Qed.
Print Assumptions C35_no_use_after_reclamation_life.

(** C30: the same of point calls and Scan next to iterators and statistics.  Missing, as in
    [C30_scan_protected_partial]: the iterator itself. *)
Theorem C30_scan_protected_life_partial g K M s fuel todos s1 s2 t q a : cfg_ok g -> c_varlen g = false -> bulk_ok g -> lived g K M s ->
  let c0 := kstart s todos in
  let e := fst (kexec g fuel c0 s1) in
  running (snd (kexec g fuel c0 s1)) t = Some q -> guarded q = true ->
  kobtains e t a -> (forall x, ~ In (VRes t x) (snd (kexec g fuel e s2))) ->
  ~ kmay_free g fuel c0 (s1 ++ s2) a.
Proof. exact (fun OK FX BC H => KGcFacts.knot_freed_from g s fuel todos s1 s2 t q a (lived_owns g OK FX BC K M s H)). Qed.
Print Assumptions C30_scan_protected_life_partial.

(** C39: what threads unlink is handed to the collector.  (What a Bulkload itself loses is
    the subject of C48.) *)
Theorem C39_pages_not_lost_life g K M s fuel todos s1 s2 p c a : cfg_ok g -> c_varlen g = false -> bulk_ok g -> lived g K M s ->
  let e1 := fst (kexec g fuel (kstart s todos) s1) in
  let e2 := fst (kexec g fuel (kstart s todos) (s1 ++ s2)) in
  s_tbl (k_mem e1) p = Some c -> In a (chain_addrs c) ->
  (forall th, In th (k_thr e2) -> exists cu td, th = KIdle cu td) ->
  In a (s_gc (k_mem e2)) \/ exists q d, s_tbl (k_mem e2) q = Some d /\ In a (chain_addrs d).
Proof. exact (fun OK FX BC H => KGcFacts.kno_leak_from g s fuel todos s1 s2 p c a (lived_owns g OK FX BC K M s H)). Qed.
Print Assumptions C39_pages_not_lost_life.

(** C48: a Bulkload at any time of the life retires the head of the old root's chain and
    loses nothing but the rest of that chain.  Missing: that this rest is retired, and the
    head as what it is ([C48_bulkload_memory_refuted]). *)
Theorem C48_bulkload_life_partial g K M s es s' : cfg_ok g -> c_varlen g = false -> bulk_ok g -> lived g K M s ->
  ascending es -> es <> [] -> bulkloaded g es s s' ->
  exists c0, s_tbl s (s_root s) = Some c0 /\ s_gc s' = s_gc s ++ map snd (bulk_adds c0) /\
    forall a, linked s a -> linked s' a \/ In a (s_gc s') \/ (In a (chain_addrs c0) /\ a <> h_addr c0).
Proof. exact (fun OK FX BC H A N B => lived_retires g OK FX BC K M s es s' H A N B). Qed.
Print Assumptions C48_bulkload_life_partial.

(** C57: places of what the life has retired, a root replaced by Bulkload included, may be
    given out again to the threads that work on the tree afterwards; the executions are the
    same.  (During the life itself no place is used twice here.) *)
Theorem C57_same_execution_life g K M s fuel todos sch loc : cfg_ok g -> c_varlen g = false -> bulk_ok g -> lived g K M s ->
  placed (exec_at loc g fuel) (start s todos) sch loc ->
  exec_at loc g fuel (start s todos) sch = exec g fuel (start s todos) sch.
Proof. exact (fun OK FX BC H => same_execution g fuel s todos (lived_owns g OK FX BC K M s H) loc sch). Qed.
Print Assumptions C57_same_execution_life.
Theorem C57_places_identify_life g K M s fuel todos s1 s2 loc t a b : cfg_ok g -> c_varlen g = false -> bulk_ok g -> lived g K M s ->
  let c0 := start s todos in
  placed (exec_at loc g fuel) c0 (s1 ++ s2) loc -> held (exec_at loc g fuel) c0 s1 t a ->
  (exists i, linked (c_mem (fst (exec_at loc g fuel c0 (firstn i (s1 ++ s2))))) a) ->
  linked (c_mem (fst (exec_at loc g fuel c0 s1))) b -> loc a = loc b -> a = b.
Proof. exact (fun OK FX BC H => places_identify g fuel s todos (lived_owns g OK FX BC K M s H) loc s1 s2 t a b). Qed.
Print Assumptions C57_places_identify_life.

(** ** The hypotheses hold: forty writes, then a Bulkload of forty entries with workers that
    take turns, then three threads that delete and write with merging; more than fifteen
    objects are retired on the way ([C48_case]). *)
Lemma calls_items g f : forall os s rs s', run_calls g f os s = Done rs s' ->
  run_items g f (map ICall os) s = Done (map JRet rs) s'.
Proof.
  induction os as [|o os IH]; intros s rs s' E; cbn [run_calls map run_items item_prog] in *; [injection E as <- <-; reflexivity|].
  rewrite RunFacts.run_bind. destruct (run (call_prog g f o) s) as [r s1| |]; try discriminate. cbn [run].
  destruct (run_calls g f os s1) as [rs1 s2| |] eqn:E2; try discriminate. injection E as <- <-.
  rewrite (IH _ _ _ E2). reflexivity.
Qed.
Lemma writes_u64 : Forall (item_keys ex_u64) (map ICall (writes 1 40)).
Proof. repeat (constructor; [cbn; unfold ex_u64; split; [discriminate|reflexivity]|]). constructor. Qed.
Lemma tree40_lived : lived cfg_p256 ex_u64 (after_items sempty (map ICall (writes 1 40))) tree40.
Proof.
  destruct tree40_reached as (rs & R).
  exact (lv_run cfg_p256 ex_u64 sempty (init cfg_p256) 60 (map ICall (writes 1 40)) (map JRet rs) tree40
    (lv_new cfg_p256 ex_u64) writes_u64 (calls_items cfg_p256 60 (writes 1 40) (init cfg_p256) rs tree40 R)).
Qed.
Example C31_life_case : lived cfg_p256 ex_u64 map40 over40 /\
  (length (s_gc over40) + 15 < length (s_gc (c_mem (fst (exec cfg_p256 60 (start over40 todos_mrg) (turns_mrg 120))))))%nat.
Proof.
  split; [|apply C48_case].
  exact (lv_load cfg_p256 ex_u64 (after_items sempty (map ICall (writes 1 40))) tree40 (entries 1 40) over40 map40
    tree40_lived entries40_u64 entries40_asc ltac:(discriminate) over40_ok map40_holds).
Qed.
(** The root page that Bulkload replaced (64) is reclaimed before the threads start; the first
    record they allocate (73) is put at its place, and is retired in its turn. *)
Example C57_life_case :
  placed (exec_at (twice 73 64) cfg_p256 60) (start over40 todos_mrg) (turns_mrg 120) (twice 73 64) /\
  existsb (N.eqb 64) (s_gc over40) = true /\
  existsb (N.eqb 73) (s_gc (c_mem (fst (exec cfg_p256 60 (start over40 todos_mrg) (turns_mrg 120))))) = true.
Proof.
  split; [|split; vm_compute; reflexivity].
  apply (placed_twice cfg_p256 60 over40 todos_mrg [] [] (turns_mrg 120) 73 64
    (lived_owns cfg_p256 cfg_p256_ok eq_refl cfg_p256_bulk ex_u64 map40 over40 (proj1 C31_life_case)));
    [apply N.leb_le; vm_compute; reflexivity|reflexivity|vm_compute; reflexivity..].
Qed.
