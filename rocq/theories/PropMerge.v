(** Concurrent executions with node merging while the root node stays in place (C10, C43,
    C44, C45): from any state a sequence of calls leads to, any number of threads, any
    calls, any schedule in whose states the root word is unchanged and the root node is
    neither marked as removed nor split. *)
From Coq Require Import ZArith NArith List Bool.
From Verif Require Import Config Api Page Machine Tree Spec Conc Valid ConcSpec HistSpec Client ClientSpec MrgSpec MrgMain MrgClient PropTree PropScan.
Import ListNotations.
Open Scope Z_scope.

(** C10: linearizable, without undefined behaviour. *)
Theorem C10_linearizable_partial g f0 os rs s0 fuel todos sch : cfg_ok g ->
  run_calls g f0 os (init g) = Done rs s0 ->
  root_stays g fuel (s_root s0) (start s0 todos) sch ->
  linearizable (snd (spec_run sempty os)) (snd (exec g fuel (start s0 todos) sch)).
Proof. exact (fun OK R RS => mrg_linearizable g OK f0 os rs s0 R fuel todos sch RS). Qed.
Print Assumptions C10_linearizable_partial.

Theorem C10_no_undefined_behaviour_partial g f0 os rs s0 fuel todos sch : cfg_ok g ->
  run_calls g f0 os (init g) = Done rs s0 ->
  root_stays g fuel (s_root s0) (start s0 todos) sch ->
  ~ crashed (fst (exec g fuel (start s0 todos) sch)).
Proof. exact (fun OK R RS => mrg_nocrash g OK f0 os rs s0 R fuel todos sch RS). Qed.
Print Assumptions C10_no_undefined_behaviour_partial.

(** C45: in every state Reads report a map, and only calls change it, once and as
    specified; splits and merges do not.  To begin with, the root is in place. *)
Theorem C45_merges_invisible g f0 os rs s0 : cfg_ok g ->
  run_calls g f0 os (init g) = Done rs s0 ->
  root_in_place (s_root s0) s0 /\
  forall fuel todos sch, root_stays g fuel (s_root s0) (start s0 todos) sch ->
    explained g fuel (start s0 todos) (snd (spec_run sempty os)) (fun _ => SIdle) sch.
Proof.
  exact (fun OK R => conj (calls_root g OK f0 os rs s0 R)
    (fun fuel todos sch RS => mrg_explained g OK f0 os rs s0 R fuel todos sch RS)).
Qed.
Print Assumptions C45_merges_invisible.

Theorem C45_insert_atomic g f0 os rs s0 fuel todos sch k h1 h2 h3 : cfg_ok g ->
  run_calls g f0 os (init g) = Done rs s0 ->
  root_stays g fuel (s_root s0) (start s0 todos) sch ->
  snd (exec g fuel (start s0 todos) sch) = h1 ++ h2 ++ h3 ->
  (forall t, pending no_call h1 t <> Some (KDelete k)) -> (forall t, ~ In (EInv t (KDelete k)) h2) ->
  (wins k no_call h2 <= 1)%nat.
Proof. exact (fun OK R RS => mrg_wins g OK f0 os rs s0 R fuel todos sch RS k h1 h2 h3). Qed.
Print Assumptions C45_insert_atomic.

(** C43 and C44. *)
Theorem C43_values_with_merging_partial g f0 os rs s0 fuel todos sch : cfg_ok g ->
  run_calls g f0 os (init g) = Done rs s0 ->
  root_stays g fuel (s_root s0) (start s0 todos) sch ->
  values_from (snd (spec_run sempty os)) (snd (exec g fuel (start s0 todos) sch)).
Proof. exact (fun OK R RS => mrg_values g OK f0 os rs s0 R fuel todos sch RS). Qed.
Print Assumptions C43_values_with_merging_partial.

Theorem C44_stays_with_merging_partial g f0 os rs s0 fuel todos sch : cfg_ok g ->
  run_calls g f0 os (init g) = Done rs s0 ->
  root_stays g fuel (s_root s0) (start s0 todos) sch ->
  stored_stays g (exec g fuel (start s0 todos) sch).
Proof. exact (fun OK R RS => mrg_stays g OK f0 os rs s0 R fuel todos sch RS). Qed.
Print Assumptions C44_stays_with_merging_partial.

(** C28 and C46: iterations with node merging, next to other calls.  Scans have a begin
    key, or the tree has at most two levels (an inner page that stands leftmost is marked
    as removed for a moment even if it cannot be merged: [C28_inner_page_refuted]). *)
Theorem C46_scans_with_merging_partial g f0 os rs s0 fuel todos sch : cfg_ok g ->
  run_calls g f0 os (init g) = Done rs s0 ->
  begins_given todos \/ two_levels s0 ->
  kroot_stays g fuel (s_root s0) (kstart s0 todos) sch ->
  kexplained g fuel (kstart s0 todos) (snd (spec_run sempty os)) no_view sch.
Proof. exact (fun OK R B RS => mrg_kexplained g OK f0 os rs s0 R fuel todos sch B RS). Qed.
Print Assumptions C46_scans_with_merging_partial.

Theorem C28_scans_safe_partial g f0 os rs s0 fuel todos sch : cfg_ok g ->
  run_calls g f0 os (init g) = Done rs s0 ->
  begins_given todos \/ two_levels s0 ->
  kroot_stays g fuel (s_root s0) (kstart s0 todos) sch ->
  ~ kcrashed (fst (kexec g fuel (kstart s0 todos) sch)).
Proof. exact (fun OK R B RS => mrg_knocrash g OK f0 os rs s0 R fuel todos sch B RS). Qed.
Print Assumptions C28_scans_safe_partial.

(** The hypotheses hold of three threads on a tree of forty keys: two delete most of the
    records of two leaves, from both sides, while the third reads, writes and inserts
    there.  Both leaves are merged into their left neighbours. *)
Fixpoint turns_mrg (n : nat) : list (tid * bool) :=
  match n with
  | O => []
  | S m => [(0, false); (1, Nat.eqb (m mod 5) 0); (2, false)]%nat ++ turns_mrg m
  end.
Definition todos_mrg : list (list call) :=
  [map KDelete [8; 9; 10; 11; 12; 13; 14]; map KDelete [20; 19; 18; 17; 16; 15];
   [KRead 9; KWrite 14 3%N; KInsert 20 4%N; KRead 20; KUpdate 16 5%N; KRead 20; KRead 14]].
Definition run_mrg : cst * list event := exec cfg_p256 60 (start tree40 todos_mrg) (turns_mrg 120).
Definition removed_at (s : st) (p : pid) : bool :=
  match s_tbl s p with Some (CRemove _ _) => true | _ => false end.
Example C45_case : cfg_ok cfg_p256 /\ (exists rs, run_calls cfg_p256 60 (writes 1 40) (init cfg_p256) = Done rs tree40) /\
  root_stays cfg_p256 60 (s_root tree40) (start tree40 todos_mrg) (turns_mrg 120) /\
  c_thr (fst run_mrg) = [TIdle []; TIdle []; TIdle []] /\
  existsb (removed_at tree40) [2; 4]%N = false /\ forallb (removed_at (c_mem (fst run_mrg))) [2; 4]%N = true.
Proof.
  split; [exact cfg_p256_ok|]. split; [exact tree40_reached|].
  split; [apply root_stays_ok; vm_compute; reflexivity|]. vm_compute. auto.
Qed.
(** Hence that execution is linearizable. *)
Example C10_case : linearizable (snd (spec_run sempty (writes 1 40))) (snd run_mrg).
Proof.
  destruct C45_case as (OK & (rs & R) & RS & _).
  exact (C10_linearizable_partial cfg_p256 60 (writes 1 40) rs tree40 60 todos_mrg (turns_mrg 120) OK R RS).
Qed.

(** The same tree; the third thread scans it from the left while the leaves with the page
    IDs 2 and 4 are removed: it has read the leaf left of each of them before and follows
    the link afterwards. *)
Definition todos_sc : list (list req) :=
  [map (fun k => QCall (KDelete k)) [8; 9; 10; 11; 12; 13; 14]; map (fun k => QCall (KDelete k)) [20; 19; 18; 17; 16; 15];
   QOpen None (Some (24, true)) :: repeat QNext 20].
Definition run_sc : kst * list kevent := kexec cfg_p256 60 (kstart tree40 todos_sc) (turns_mrg 130).
Definition recs_of (h : list kevent) : list key :=
  flat_map (fun e => match e with VRes _ (ARec r) => [fst r] | _ => [] end) h.
Example C46_scans_with_merging_case :
  (exists rs, run_calls cfg_p256 60 (writes 1 40) (init cfg_p256) = Done rs tree40) /\
  two_levels tree40 /\
  kroot_stays cfg_p256 60 (s_root tree40) (kstart tree40 todos_sc) (turns_mrg 130) /\
  recs_of (snd run_sc) = [1; 2; 3; 4; 5; 6; 7; 10; 11; 12; 13; 14; 15; 16; 17; 21; 22; 23; 24] /\
  forallb (fun t => match t with KIdle _ [] => true | _ => false end) (k_thr (fst run_sc)) = true /\
  forallb (removed_at (k_mem (fst run_sc))) [2; 4]%N = true.
Proof.
  split; [exact tree40_reached|]. split; [apply two_levels_ok; vm_compute; reflexivity|].
  split; [apply kroot_stays_ok; vm_compute; reflexivity|].
  split; [vm_compute; reflexivity|]. split; vm_compute; reflexivity.
Qed.

(** The condition on the levels is needed: a tree with three levels, whose root stays.  The
    deleting thread consolidates the leftmost inner page below kMinNodeSize and marks it as
    removed; only afterwards it finds that the page has no left sibling and puts it back
    (bw_tree.hpp:1444-1464).  Scan without begin key descends through the page in between. *)
Definition tree100 : st :=
  match run_calls cfg_p256 60 (writes 1 100) (init cfg_p256) with Done _ s => s | _ => init cfg_p256 end.
Definition todos_lm : list (list req) :=
  [map (fun k => QCall (KDelete (Z.of_nat k))) (seq 1 45); [QOpen None None]].
Definition sch_lm : list (tid * bool) := repeat (0%nat, false) 390 ++ repeat (1%nat, false) 6.
Definition tree100_b : bool :=
  match run_calls cfg_p256 60 (writes 1 100) (init cfg_p256) with Done _ _ => true | _ => false end.
Lemma tree100_reached : exists rs, run_calls cfg_p256 60 (writes 1 100) (init cfg_p256) = Done rs tree100.
Proof.
  assert (E : tree100_b = true) by (vm_compute; reflexivity). unfold tree100_b in E.
  unfold tree100. destruct (run_calls _ _ _ _) as [rs s| |]; [|discriminate|discriminate]. exists rs. reflexivity.
Qed.
Theorem C28_inner_page_refuted : exists g f0 os rs s0 fuel todos sch, cfg_ok g /\
  run_calls g f0 os (init g) = Done rs s0 /\
  kroot_stays g fuel (s_root s0) (kstart s0 todos) sch /\
  kcrashed (fst (kexec g fuel (kstart s0 todos) sch)).
Proof.
  destruct tree100_reached as (rs & R).
  exists cfg_p256, 60%nat, (writes 1 100), rs, tree100, 60%nat, todos_lm, sch_lm.
  split; [exact cfg_p256_ok|]. split; [exact R|].
  split; [apply kroot_stays_ok; vm_compute; reflexivity|apply kcrashed_ok; vm_compute; reflexivity].
Qed.
Print Assumptions C28_inner_page_refuted.
