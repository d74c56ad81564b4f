(** Statistics of the tree (C32) and page sizes with merging (C07). *)
From Coq Require Import ZArith NArith List Bool.
From Verif Require Import Config Api Page Machine Tree Scan Spec Conc Valid StatSpec PropTree StatFacts.
Import ListNotations.
Open Scope Z_scope.

(** C32: after any single-threaded calls, the statistics have exactly one entry for
    each level that searches pass through; its number of nodes is the number of
    different pages that searches visit on that level, and the used bytes do not exceed
    the reserved bytes. *)
Theorem C32_level_statistics g os drec : cfg_ok g ->
  exists F s st, (forall f, (F <= f)%nat ->
      run_calls g f os (init g) = Done (fst (spec_run sempty os)) s /\
      run (op_stats g drec f) s = Done st s) /\
    forall i, match nth_error st i with
      | Some (n, used, reserved) => used <= reserved /\
          exists l, NoDup l /\ n = Z.of_nat (length l) /\ forall q, In q l <-> visits s i q
      | None => forall q, ~ visits s i q
      end.
Proof. exact (c32_levels g os drec). Qed.
Print Assumptions C32_level_statistics.

(** C07, partial: in single-threaded use, merging included, no call overflows a page and
    every page in the mapping table, merged pages included, is within the page size.
    Missing: Bulkload, and what [C07_static_assert_refuted] excludes ([cfg_ok]). *)
Theorem C07_single_thread_pages_fit_partial g os : cfg_ok g ->
  exists F s, (forall f, (F <= f)%nat ->
      run_calls g f os (init g) = Done (fst (spec_run sempty os)) s) /\
    forall p c, s_tbl s p = Some c -> pfit g c.
Proof. exact (c07_seq g os). Qed.
Print Assumptions C07_single_thread_pages_fit_partial.

(** C07, partial: pages that other threads can reach are within the page size in every
    concurrent execution, merging included.  Missing: that no thread overflows a page
    while it is private; with merging disabled [C07_concurrent_pages_fit_partial]. *)
Theorem C07_published_pages_fit_partial g fuel todos sch : cfg_ok g ->
  let e := fst (exec g fuel (start (init g) todos) sch) in
  forall p c, s_tbl (c_mem e) p = Some c -> pfit g c.
Proof. exact (c07_conc g fuel todos sch). Qed.
Print Assumptions C07_published_pages_fit_partial.

(** A tree of three levels after 100 writes and 70 deletes with merges. *)
Definition stat_calls : list call := writes 1 100 ++ map (fun k => KDelete (Z.of_nat k)) (seq 1 70).
Example C32_case :
  match run_calls cfg_p256 60 stat_calls (init cfg_p256) with
  | Done _ s => match run (op_stats cfg_p256 32 60) s with
                | Done st _ => st = [(1, 64, 256); (2, 272, 576); (7, 1008, 2048)]
                | _ => False end
  | _ => False end.
Proof. vm_compute. reflexivity. Qed.
Example C32_hyps : cfg_ok cfg_p256.
Proof. constructor; vm_compute; intros; repeat split; congruence. Qed.
