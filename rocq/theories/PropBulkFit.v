(** Page sizes (C07) and statistics (C32) of trees of fixed-length nodes that programs and
    Bulkloads have been through, in any order.  Property theorems only. *)
From Coq Require Import ZArith NArith List Bool Lia.
From Verif Require Import Config Api Page Machine Tree Scan Spec Conc Valid StatSpec Bulk BulkSpec ByteLifeSpec ByteSeqSpec BulkFit
  PropBytes PropTree PropScan PropSeq PropByteTree PropByteMrg PropByteSeq PropByteLife.
Import ListNotations.
Open Scope Z_scope.

(** C07, partial: every page in the mapping table is within the page size, after any number
    of Bulkloads by any number of workers in any interleaving ...
    Missing: the variable-length layout, where it is false ([C15_bulkload_varlen_refuted]). *)
Theorem C07_loaded_pages_fit_partial g K M s : cfg_ok g -> c_varlen g = false -> bulk_ok g -> lived g K M s ->
  forall p c, s_tbl s p = Some c -> pfit g c.
Proof. exact (fun OK HV BC => lived_fits g OK HV BC K M s). Qed.
Print Assumptions C07_loaded_pages_fit_partial.

(** ... and in every concurrent execution afterwards, merging and root changes included. *)
Theorem C07_loaded_then_published_partial g K M s fuel todos sch : cfg_ok g -> c_varlen g = false -> bulk_ok g -> lived g K M s ->
  forall p c, s_tbl (c_mem (fst (exec g fuel (start s todos) sch))) p = Some c -> pfit g c.
Proof. exact (fun OK HV BC => lived_conc g OK HV BC K M s fuel todos sch). Qed.
Print Assumptions C07_loaded_then_published_partial.

(** C32 on such a tree: one entry for each level that searches pass through, with the number
    of different pages they visit there, and no more used than reserved bytes. *)
Theorem C32_level_statistics_loaded g K M s drec : cfg_ok g -> c_varlen g = false -> bulk_ok g -> lived g K M s ->
  exists F st, (forall f, (F <= f)%nat -> run (op_stats g drec f) s = Done st s) /\
    forall i, match nth_error st i with
      | Some (n, used, reserved) => used <= reserved /\
          exists l, NoDup l /\ n = Z.of_nat (length l) /\ forall q, In q l <-> visits s i q
      | None => forall q, ~ visits s i q
      end.
Proof. exact (fun OK HV BC => lived_stats g OK HV BC K M s drec). Qed.
Print Assumptions C32_level_statistics_loaded.

(** The tree of PropByteLife.v, after a program, a Bulkload by three workers and a program,
    meets the hypotheses. *)
Example C32_loaded_case : exists s, lived cfg_p256 ex_u64 (after_items map40 (map snd (with_ones prog_lf2))) s /\
  (forall p c, s_tbl s p = Some c -> pfit cfg_p256 c) /\
  exists F st, forall f, (F <= f)%nat -> run (op_stats cfg_p256 40 f) s = Done st s.
Proof.
  destruct C60_life_case as (s & H & _). exists s. split; [exact H|].
  split; [exact (C07_loaded_pages_fit_partial cfg_p256 ex_u64 _ s cfg_p256_ok eq_refl cfg_p256_bulk H)|].
  destruct (C32_level_statistics_loaded cfg_p256 ex_u64 _ s 40 cfg_p256_ok eq_refl cfg_p256_bulk H) as (F & st & A & _). eauto.
Qed.
(** Bulkload of 40 entries into a new tree: the statistics. *)
Example C32_loaded_numbers :
  match run (op_bulkload cfg_p256 60 (map (fun k => (k, 5%N)) (map Z.of_nat (seq 1 40))) 1) (init cfg_p256) with
  | Done Success s => match run (op_stats cfg_p256 40 60) s with Done st _ => st = [(1, 96, 256); (4, 768, 1024)] | _ => False end
  | _ => False end.
Proof. vm_compute. reflexivity. Qed.
