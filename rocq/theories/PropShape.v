(** C50: the tree stays balanced; C42 for trees with merged pages. *)
From Coq Require Import ZArith NArith List Bool.
From Verif Require Import Config Api Page Machine Tree Spec Conc ChainSpec ConcChain Valid ConcSpec MrgSpec ShapeSpec MrgMain MrgShape
  PropTree PropScan PropLive PropMerge.
Import ListNotations.
Open Scope Z_scope.

(** C50 as stated is false, merging disabled: after the two overlapping root splits of
    [C37_calls_return_refuted] an inner page stands among the leaves. *)
Theorem C50_balanced_refuted : exists g fuel todos sch, cfg_ok g /\ hdr_ok g /\ no_merge g /\
  let c := fst (exec g fuel (start (init g) todos) sch) in
  (forall th, In th (c_thr c) -> th = TIdle []) /\ ~ balanced (c_mem c).
Proof.
  exists cfg_live, 100%nat, todos_live, sch_live.
  split; [exact (proj1 cfg_live_ok)|]. split; [exact (proj1 (proj2 cfg_live_ok))|]. split; [exact (proj2 (proj2 cfg_live_ok))|].
  assert (U : uneven_b (c_mem (fst (exec cfg_live 100 (start (init cfg_live) todos_live) sch_live)))
    [HKid 0; HKid 0] [HKid 0; HNext; HNext; HKid 1] = true) by (vm_compute; reflexivity).
  split; [apply all_idle; vm_compute; reflexivity|exact (uneven _ _ _ U)].
Qed.
Print Assumptions C50_balanced_refuted.

(** What holds: with merging, from any state a sequence of calls leads to, while the root
    node stays in place. *)
Theorem C50_balanced_partial g f0 os rs s0 fuel todos sch : cfg_ok g ->
  run_calls g f0 os (init g) = Done rs s0 ->
  root_stays g fuel (s_root s0) (start s0 todos) sch ->
  balanced (c_mem (fst (exec g fuel (start s0 todos) sch))).
Proof. exact (fun OK R RS => mrg_balanced g OK f0 os rs s0 R fuel todos sch RS). Qed.
Print Assumptions C50_balanced_partial.

(** In single-threaded use, merging, root splits and root removals included. *)
Theorem C50_single_thread_partial g f os rs s : cfg_ok g ->
  run_calls g f os (init g) = Done rs s -> balanced s.
Proof.
  intros OK R. refine (mrg_balanced g OK f os rs s R O [] [] _). intros pre post E.
  symmetry in E. apply app_eq_nil in E as [-> _]. exact (calls_root g OK f os rs s R).
Qed.
Print Assumptions C50_single_thread_partial.

(** C42: node_size_ of every page that can be reached from the root, merged pages
    included, unless it is marked as removed. *)
Theorem C42_sizes_exact_merging_partial g f0 os rs s0 fuel todos sch : cfg_ok g ->
  run_calls g f0 os (init g) = Done rs s0 ->
  root_stays g fuel (s_root s0) (start s0 todos) sch ->
  let s := c_mem (fst (exec g fuel (start s0 todos) sch)) in
  forall d p c, linked s d p -> s_tbl s p = Some c -> is_remove c = false ->
    c_hdr g <= h_size c <= c_page g + excess g /\
    h_size c = if h_leaf c then lbytes g (c_lo c) (c_hi c) (lrecs c)
               else ibytes g (c_lo c) (c_hi c) (ients c).
Proof. exact (fun OK R RS => mrg_sizes g OK f0 os rs s0 R fuel todos sch RS). Qed.
Print Assumptions C42_sizes_exact_merging_partial.

(** The execution of C45_case: two leaves are merged into their left neighbours; the chain
    of the first leaf holds a merge delta and stands for seven records.  [tree100] has three
    levels. *)
Fixpoint merges_in (c : chain) : bool :=
  match c with CMerge _ _ _ => true | CRec _ x => merges_in x | _ => false end.
Example C50_case : root_stays cfg_p256 60 (s_root tree40) (start tree40 todos_mrg) (turns_mrg 120) /\
  follow (c_mem (fst run_mrg)) [HKid 0; HNext; HNext] 0 (s_root tree40) = Some (1%nat, 6%N, true) /\
  match s_tbl (c_mem (fst run_mrg)) 1 with Some c => (merges_in c, h_size c, length (lrecs c)) | None => (false, 0, O) end
    = (true, 144, 7%nat) /\
  follow tree100 [HKid 1; HKid 2; HNext] 0 (s_root tree100) = Some (2%nat, 11%N, true).
Proof.
  split; [apply root_stays_ok; vm_compute; reflexivity|]. vm_compute. auto.
Qed.
