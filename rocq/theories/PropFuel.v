(** The bounds on loops and recursion in the model ("fuel") do not hide anything (C01,
    C12, C15, C32): with whatever bound, a run either does not get to its end within the
    bound or ends as the theorems on large bounds say; in particular it never ends in
    undefined behaviour. *)
From Coq Require Import ZArith NArith List Bool Lia Sorting.Sorted.
From Verif Require Import Config Api Page Machine Tree Scan Bulk Spec Valid SeqSpec ScanSpec FuelFacts StatSpec PropTree PropSeq PropScan PropBulk PropStat.
Import ListNotations.
Open Scope Z_scope.

Theorem C01_no_other_outcome g os : cfg_ok g ->
  exists s, (exists f, run_calls g f os (init g) = Done (fst (spec_run sempty os)) s) /\
  forall f, run_calls g f os (init g) = NoFuel \/
            run_calls g f os (init g) = Done (fst (spec_run sempty os)) s.
Proof.
  intros OK. destruct (C01_single_thread_is_a_map g os OK) as (F & s & H). exists s. split; [exists F; auto|].
  exact (any_calls _ _ _ F _ H).
Qed.
Print Assumptions C01_no_other_outcome.

(** After any calls that returned, with any bounds. *)
Theorem C12_no_other_outcome g f0 os rs s b e : cfg_ok g -> (forall k, b <> Some (k, false)) ->
  run_calls g f0 os (init g) = Done rs s ->
  exists l, StronglySorted (fun x y => fst x < fst y) l /\
    (forall k v, In (k, v) l <-> snd (spec_run sempty os) k = Some v /\ ScanSpec.after b k /\ before e k) /\
    forall f, run (scan_all g f b e) s = NoFuel \/ run (scan_all g f b e) s = Done l s.
Proof.
  intros OK B R. destruct (C12_scan_exact g os b e OK B) as (F & s1 & l & H).
  destruct (any_calls g os (init g) F (Done (fst (spec_run sempty os)) s1)
    (fun f L => proj1 (H f L)) f0) as [X|X]; [congruence|].
  replace s1 with s in * by congruence. destruct (H F) as (_ & _ & SO & IN); [lia|].
  exists l. split; [exact SO|]. split; [exact IN|].
  apply (any_run (fun f => scan_all g f b e) s F); [intros; apply mono_scan_all; auto|].
  intros f L. exact (proj1 (proj2 (H f L))).
Qed.
Print Assumptions C12_no_other_outcome.

(** Bulkload after any calls that returned, in the fixed-length layout. *)
Theorem C15_no_other_outcome_partial g f0 pre rs s0 es T os :
  cfg_ok g -> c_varlen g = false -> bulk_ok g ->
  StronglySorted (fun x y => fst x < fst y) es -> es <> [] ->
  run_calls g f0 pre (init g) = Done rs s0 ->
  exists s1 s2 M, (forall k v, M k = Some v <-> In (k, v) es) /\
    (forall f, run (op_bulkload g f es T) s0 = NoFuel \/ run (op_bulkload g f es T) s0 = Done Success s1) /\
    (forall f, run_calls g f os s1 = NoFuel \/ run_calls g f os s1 = Done (fst (spec_run M os)) s2).
Proof.
  intros OK V BO SO NE R.
  destruct (C15_bulkload_fixlen_partial g pre es T os None None OK V BO SO NE ltac:(discriminate))
    as (F & s & s1 & s2 & l & M & HM & H).
  destruct (any_calls g pre (init g) F (Done (fst (spec_run sempty pre)) s)
    (fun f L => proj1 (H f L)) f0) as [X|X]; [congruence|].
  replace s with s0 in * by congruence.
  exists s1, s2, M. split; [exact HM|]. split.
  - apply (any_run (fun f => op_bulkload g f es T) s0 F); [intros; apply mono_bulkload; auto|].
    intros f L. exact (proj1 (proj2 (H f L))).
  - apply (any_calls g os s1 F). intros f L. exact (proj1 (proj2 (proj2 (H f L)))).
Qed.
Print Assumptions C15_no_other_outcome_partial.

Theorem C32_no_other_outcome g f0 os rs s drec : cfg_ok g ->
  run_calls g f0 os (init g) = Done rs s ->
  exists st, (forall f, run (op_stats g drec f) s = NoFuel \/ run (op_stats g drec f) s = Done st s) /\
    forall i, match nth_error st i with
      | Some (n, used, reserved) => used <= reserved /\
          exists l, NoDup l /\ n = Z.of_nat (length l) /\ forall q, In q l <-> visits s i q
      | None => forall q, ~ visits s i q
      end.
Proof.
  intros OK R. destruct (C32_level_statistics g os drec OK) as (F & s1 & st & H & V).
  destruct (any_calls g os (init g) F (Done (fst (spec_run sempty os)) s1)
    (fun f L => proj1 (H f L)) f0) as [X|X]; [congruence|].
  replace s1 with s in * by congruence. exists st. split; [|exact V].
  apply (any_run (op_stats g drec) s F); [intros; apply mono_op_stats; auto|].
  intros f L. exact (proj2 (H f L)).
Qed.
Print Assumptions C32_no_other_outcome.

(** Both outcomes occur, and the hypotheses hold: forty writes, scans, a bulk load. *)
Definition nofuel {A} (r : res A) : bool := match r with NoFuel => true | _ => false end.
Example C01_case_fuel : cfg_ok cfg_p256 /\ nofuel (run_calls cfg_p256 2 (writes 1 40) (init cfg_p256)) = true /\
  nofuel (run_calls cfg_p256 60 (writes 1 40) (init cfg_p256)) = false /\
  nofuel (run (scan_all cfg_p256 2 None None) tree40) = true /\
  nofuel (run (op_stats cfg_p256 32 1) tree40) = true /\
  nofuel (run (op_bulkload cfg_p256 0 (entries 2 9) 1) tree40) = true.
Proof. split; [exact cfg_p256_ok|]. vm_compute. repeat split. Qed.
