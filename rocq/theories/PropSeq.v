(** C01 and C02: a tree used by one thread. *)
From Coq Require Import ZArith NArith List Bool.
From Verif Require Import Config Api Page Machine Tree Spec Valid SeqProps PropChain.
Import ListNotations.
Open Scope Z_scope.

(** C01: every sequence of calls returns, with the results of a map. *)
Theorem C01_single_thread_is_a_map g os : cfg_ok g ->
  exists F s, forall f, (F <= f)%nat ->
    run_calls g f os (init g) = Done (fst (spec_run sempty os)) s.
Proof. exact (c01 g os). Qed.
Print Assumptions C01_single_thread_is_a_map.

(** C02: a call that fails, and every read, leaves the mapping table, the root,
    the payload cells, the page IDs and the retired pages as they were. *)
Theorem C02_failed_calls_change_nothing g os o : cfg_ok g ->
  exists F rs s r s',
  (forall f, (F <= f)%nat ->
     run_calls g f os (init g) = Done rs s /\ run (call_prog g f o) s = Done r s') /\
  (r = RCode KeyExist \/ r = RCode KeyNotExist ->
     s_tbl s' = s_tbl s /\ s_root s' = s_root s /\ s_npid s' = s_npid s /\
     s_cell s' = s_cell s /\ s_gc s' = s_gc s) /\
  (forall k, o = KRead k -> s' = s).
Proof. exact (c02 g os o). Qed.
Print Assumptions C02_failed_calls_change_nothing.

(** The hypotheses hold for the default configurations, [cfg_fix8_ok] and
    [cfg_var8_ok].  In these examples leaves and inner nodes are split and merged,
    the root is split twice (page IDs 1, 3, 18) and removed again. *)
Definition cfg_small : cfg := mk_cfg false (fun _ => 8) 8 8 8 32 256 64 1 64 230 0 false.
Example cfg_small_ok : cfg_ok cfg_small.
Proof. constructor; vm_compute; intros; repeat split; congruence. Qed.
Definition ex_keys (n : nat) : list key := map Z.of_nat (seq 1 n).
Definition ex_grow := map (fun k => KWrite k 7%N) (ex_keys 200).
Definition ex_shrink := map KDelete (ex_keys 200).
Definition root_after (g : cfg) (os : list call) : option pid :=
  match run_calls g 60 os (init g) with Done _ s => Some (s_root s) | _ => None end.
Example ex_smos :
  root_after cfg_small [] = Some 1%N /\ root_after cfg_small (firstn 30 ex_grow) = Some 3%N /\
  root_after cfg_small ex_grow = Some 18%N /\
  root_after cfg_small (ex_grow ++ ex_shrink) = Some 3%N /\
  root_after cfg_fix8 ex_grow = Some 3%N /\ root_after cfg_var8 ex_grow = Some 3%N.
Proof. vm_compute. repeat split; congruence. Qed.
Example ex_fail :
  match run_calls cfg_fix8 60 ex_grow (init cfg_fix8) with
  | Done _ s => match run (call_prog cfg_fix8 60 (KInsert 5 9%N)) s with
                | Done r _ => r = RCode KeyExist | _ => False end
  | _ => False
  end.
Proof. vm_compute. reflexivity. Qed.
