(** Bulk loading (C15, C17, C07). *)
From Coq Require Import ZArith NArith List Bool Sorting.Sorted.
From Verif Require Import Config Api Page Machine Tree Scan Bulk Spec Valid ScanSpec BulkFacts.
Import ListNotations.
Open Scope Z_scope.

(** C15, fixed-length layout.  Bulkload of a sorted duplicate-free vector with any
    number of workers into any tree built by single-threaded calls returns; later
    calls then answer as on the map of exactly these entries, and so does a scan after
    them.  [bulk_ok]: a page takes one leaf record and two index entries within the
    bulk-loading capacity.  Missing: the variable-length layout, for which this is
    false ([C15_bulkload_varlen_refuted]). *)
Theorem C15_bulkload_fixlen_partial g pre es T os b e :
  cfg_ok g -> c_varlen g = false -> bulk_ok g ->
  StronglySorted (fun x y => fst x < fst y) es -> es <> [] -> (forall k, b <> Some (k, false)) ->
  exists F s0 s1 s2 l M, (forall k v, M k = Some v <-> In (k, v) es) /\ forall f, (F <= f)%nat ->
    run_calls g f pre (init g) = Done (fst (spec_run sempty pre)) s0 /\
    run (op_bulkload g f es T) s0 = Done Success s1 /\
    run_calls g f os s1 = Done (fst (spec_run M os)) s2 /\
    run (scan_all g f b e) s2 = Done l s2 /\
    StronglySorted (fun x y => fst x < fst y) l /\
    (forall k v, In (k, v) l <-> snd (spec_run M os) k = Some v /\ after b k /\ before e k).
Proof. exact (c15 g pre es T os b e). Qed.
Print Assumptions C15_bulkload_fixlen_partial.

Definition entries (d : Z) (n : nat) : list (key * val) :=
  map (fun i => (d * Z.of_nat i, N.of_nat i)) (seq 1 n).
Example C15_hyps : cfg_ok cfg_fix8 /\ c_varlen cfg_fix8 = false /\ bulk_ok cfg_fix8 /\
  StronglySorted (fun x y => fst x < fst y) (entries 2 9).
Proof.
  split; [constructor; vm_compute; intros; repeat split; congruence|].
  split; [reflexivity|]. split; [repeat split; vm_compute; congruence|].
  repeat (constructor; [|repeat constructor]). constructor.
Qed.
(** Four workers, three levels (kPageSize = 128), and calls afterwards. *)
Definition cfg_b128 : cfg := mk_cfg false (fun _ => 8) 8 8 8 32 128 0 2 8 115 0 false.
Example C15_case : cfg_ok cfg_b128 /\ bulk_ok cfg_b128 /\
  match run (op_bulkload cfg_b128 60 (entries 2 30) 4) (init cfg_b128) with
  | Done r s1 => r = Success /\
      match run_calls cfg_b128 60 [KInsert 6 1%N; KInsert 7 1%N; KDelete 8; KRead 8; KRead 60] s1 with
      | Done rs s2 => rs = [RCode KeyExist; RCode Success; RCode Success; RVal None; RVal (Some 30%N)] /\
          match run (scan_all cfg_b128 60 (Some (6, true)) (Some (14, false))) s2 with
          | Done l _ => l = [(6, 3%N); (7, 1%N); (10, 5%N); (12, 6%N)]
          | _ => False
          end
      | _ => False
      end
  | _ => False
  end.
Proof.
  split; [constructor; vm_compute; intros; repeat split; congruence|].
  split; [repeat split; vm_compute; congruence|]. vm_compute. repeat split; reflexivity.
Qed.

(** C15 and C07 are false in the variable-length layout: Bulkload leaves the length of
    the low key out of the size of a leaf (varlen/node.hpp:610, 635: the variable called
    is_leaf is 1 for inner nodes), so the consolidation of that leaf believes that the
    records fit and writes past the page.  Default settings, keys of 36 and 64 bytes. *)
Definition cfg_str : cfg :=
  mk_cfg true (fun k => if k mod 10 =? 0 then 64 else 36) 8 128 8 32 1024 64 4 64 921 0 true.
Theorem C15_bulkload_varlen_refuted :
  cfg_ok cfg_str /\ c_maxklen cfg_str + c_paylen cfg_str <= c_page cfg_str / 4 /\
  StronglySorted (fun x y => fst x < fst y) (entries 10 24) /\
  exists s, run (op_bulkload cfg_str 50 (entries 10 24) 1) (init cfg_str) = Done Success s /\
    run_calls cfg_str 60 [KInsert 111 7%N; KInsert 112 7%N; KInsert 113 7%N; KInsert 114 7%N] s
      = Crash UbOverflow.
Proof.
  split; [constructor; [intros k; unfold klen; cbn; destruct (k mod 10 =? 0); split; reflexivity || discriminate|..];
          vm_compute; repeat split; congruence|].
  split; [vm_compute; congruence|]. split; [repeat (constructor; [|repeat constructor]); constructor|].
  assert (E : match run (op_bulkload cfg_str 50 (entries 10 24) 1) (init cfg_str) with
              | Done Success s => match run_calls cfg_str 60 [KInsert 111 7%N; KInsert 112 7%N; KInsert 113 7%N; KInsert 114 7%N] s with
                                  | Crash UbOverflow => True | _ => False end
              | _ => False end) by (vm_compute; exact I).
  destruct (run (op_bulkload cfg_str 50 (entries 10 24) 1) (init cfg_str)) as [[] s| |]; try contradiction.
  exists s. split; [reflexivity|].
  destruct (run_calls cfg_str 60 _ s) as [| []|]; try contradiction. reflexivity.
Qed.
Print Assumptions C15_bulkload_varlen_refuted.

(** C07 is false of sizes that the static assertion (bw_tree.hpp:1683) accepts: with
    252-byte keys and 4-byte payloads in the fixed-length layout (header 16 + 2 * 252),
    the third insert writes two records into a page with room for one. *)
Definition cfg_fix252 : cfg :=
  mk_cfg false (fun _ => 252) 252 252 4 520 1024 64 4 64 921 0 false.
Theorem C07_static_assert_refuted :
  c_maxklen cfg_fix252 + c_paylen cfg_fix252 <= c_page cfg_fix252 / 4 /\
  run_calls cfg_fix252 60 [KInsert 1 7%N; KInsert 2 7%N; KInsert 3 7%N] (init cfg_fix252)
    = Crash UbOverflow.
Proof. split; [vm_compute; congruence|vm_compute; reflexivity]. Qed.
Print Assumptions C07_static_assert_refuted.

(** C17, the part that holds: in the fixed-length layout Bulkload returns for every
    sorted vector and every thread count if [bulk_ok] holds.  Missing: sizes that are
    accepted at compile time but fail [bulk_ok] ([C17_bulkload_terminates_refuted]),
    unsorted vectors, the variable-length layout. *)
Theorem C17_bulkload_terminates_partial g pre es T : cfg_ok g -> c_varlen g = false -> bulk_ok g ->
  StronglySorted (fun x y => fst x < fst y) es ->
  exists F s0 s1, forall f, (F <= f)%nat ->
    run_calls g f pre (init g) = Done (fst (spec_run sempty pre)) s0 /\
    run (op_bulkload g f es T) s0 = Done Success s1.
Proof. exact (c17p g pre es T). Qed.
Print Assumptions C17_bulkload_terminates_partial.
Example C17_hyps : cfg_ok cfg_fix8 /\ c_varlen cfg_fix8 = false /\ bulk_ok cfg_fix8.
Proof. split; [exact (proj1 C15_hyps)|exact (conj eq_refl (proj1 (proj2 (proj2 C15_hyps))))]. Qed.
