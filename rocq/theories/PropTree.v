(** Properties settled on concrete executions (C10, C13, C14, C17, C28, C29, C30) and
    the bulk-load partition (C16).  The executions use 8-byte keys and payloads in
    the fixed-length layout with the default settings, or with these settings and a
    page size of 256 bytes, which keeps the executions short. *)
From Coq Require Import ZArith NArith List Bool.
From Verif Require Import Config Api Page Machine Tree Scan Bulk Spec Conc Race TreeRef.
Import ListNotations.
Open Scope Z_scope.

Definition writes (a n : nat) : list call :=
  map (fun k => KWrite (Z.of_nat k) 7%N) (seq a n).
Definition deletes_but (keep : key) (a n : nat) : list call :=
  map KDelete (filter (fun k => negb (k =? keep)) (map Z.of_nat (seq a n))).

(** The default build with kPageSize = 256. *)
Definition cfg_p256 : cfg := mk_cfg false (fun _ => 8) 8 8 8 32 256 64 4 64 230 0 false.
(** The state after some calls on a new tree. *)
Definition after (os : list call) : st :=
  match run_calls cfg_p256 60 os (init cfg_p256) with Done _ s => s | _ => init cfg_p256 end.
Definition tree40 : st := after (writes 1 40).
Example tree40_reached : exists rs, run_calls cfg_p256 60 (writes 1 40) (init cfg_p256) = Done rs tree40.
Proof.
  assert (E : match run_calls cfg_p256 60 (writes 1 40) (init cfg_p256) with Done _ _ => true | _ => false end = true)
    by (vm_compute; reflexivity).
  unfold tree40, after. destruct (run_calls _ _ _ _); try discriminate. eauto.
Qed.

(** C10 as stated is false.  First, undefined behaviour: two threads, one writing
    key 1 four times, one reading it; the reader takes back() of an empty stack
    (bw_tree.hpp:178-179) when the root leaf is marked as removed. *)
Theorem C10_no_undefined_behaviour_refuted :
  exists sch, crashed (fst (exec cfg_fix8 50
    (start (init cfg_fix8) [repeat (KWrite 1 1%N) 4; [KRead 1]]) sch)).
Proof.
  exists (steps 1 3 ++ steps 0 31 ++ steps 1 30).
  exists UbStack, []. vm_compute. auto.
Qed.
Print Assumptions C10_no_undefined_behaviour_refuted.

(** Second, a wrong answer: a Read of key 10, which was written before the Read is
    invoked and is never deleted, returns no value. *)
Definition c10_calls : list call := writes 1 40 ++ deletes_but 10 1 40 ++ writes 50 110.
Definition c10_sch : list (tid * bool) :=
  steps 0 415 ++ steps 1 5 ++ steps 0 321 ++ steps 1 2 ++ steps 0 1460 ++ steps 1 20.
Theorem C10_linearizable_refuted :
  exists sch, let e := exec cfg_p256 60 (start (init cfg_p256) [c10_calls; [KRead 10]]) sch in
    ~ linearizable sempty (snd e) /\ ~ crashed (fst e) /\
    last (snd e) (EInv 0%nat (KRead 0)) = ERes 1%nat (RVal None).
Proof.
  exists c10_sch. cbv zeta. split; [|split].
  - apply (not_lin 10). vm_compute. reflexivity.
  - assert (E : c_thr (fst (exec cfg_p256 60
        (start (init cfg_p256) [c10_calls; [KRead 10]]) c10_sch)) = [TIdle []; TIdle []])
      by (vm_compute; reflexivity).
    intros (u & r & H). rewrite E in H. destruct H as [H | [H | []]]; discriminate.
  - vm_compute. reflexivity.
Qed.
Print Assumptions C10_linearizable_refuted.

(** C13 as stated is false: the scan excludes its begin key 13, which separates two
    leaves, and returns it nevertheless (record_iterator.hpp:176-178 continue with a
    closed bound). *)
Theorem C13_exclusive_begin_refuted :
  exists s', run (scan_all cfg_p256 60 (Some (13, false)) (Some (15, true))) tree40
    = Done [(13, 7%N); (14, 7%N); (15, 7%N)] s'.
Proof.
  assert (E : match run (scan_all cfg_p256 60 (Some (13, false)) (Some (15, true))) tree40 with
              | Done l _ => Some l | _ => None end = Some [(13, 7%N); (14, 7%N); (15, 7%N)])
    by (vm_compute; reflexivity).
  destruct (run _ tree40); try discriminate. injection E as ->. eauto.
Qed.
Print Assumptions C13_exclusive_begin_refuted.

(** C14 as stated is false: the page of an iterator is the scan page of its thread
    (bw_tree.hpp:213-217), which the next Scan call of this thread overwrites.
    [it1] is over [3, 5]; with the page of the second scan it returns key 21. *)
Theorem C14_iterators_interfere_refuted :
  exists pg1 it1 s1 pg2 it2 s2,
    run (op_scan cfg_p256 60 (Some (3, true)) (Some (5, true))) tree40 = Done (pg1, it1) s1 /\
    get_record pg1 it1 = Some (3, 7%N) /\
    run (op_scan cfg_p256 60 (Some (20, true)) None) s1 = Done (pg2, it2) s2 /\
    get_record pg2 it1 = Some (21, 7%N).
Proof.
  assert (E : match run (op_scan cfg_p256 60 (Some (3, true)) (Some (5, true))) tree40 with
              | Done (pg1, it1) s1 =>
                  match run (op_scan cfg_p256 60 (Some (20, true)) None) s1 with
                  | Done (pg2, _) _ => Some (get_record pg1 it1, get_record pg2 it1)
                  | _ => None end
              | _ => None end = Some (Some (3, 7%N), Some (21, 7%N)))
    by (vm_compute; reflexivity).
  destruct (run (op_scan cfg_p256 60 (Some (3, true)) (Some (5, true))) tree40)
    as [[pg1 it1] s1| |]; try discriminate.
  destruct (run (op_scan cfg_p256 60 (Some (20, true)) None) s1) as [[pg2 it2] s2| |] eqn:E2;
    try discriminate. injection E as E3 E4.
  exists pg1, it1, s1, pg2, it2, s2. auto.
Qed.
Print Assumptions C14_iterators_interfere_refuted.

(** C16: the slices of the worker threads are consecutive, cover the entries exactly,
    are not empty and differ in size by at most one. *)
Theorem C16_partition_covers {A} (es : list A) T : 1 <= T <= Z.of_nat (length es) ->
  let ps := partition T 0 (Z.to_nat T) (Z.of_nat (length es)) es in
  concat ps = es /\ Z.of_nat (length ps) = T /\
  (forall p, In p ps -> p <> []) /\
  (forall p q, In p ps -> In q ps ->
     Z.abs (Z.of_nat (length p) - Z.of_nat (length q)) <= 1).
Proof. exact (c16 es T). Qed.
Print Assumptions C16_partition_covers.
Example ex_partition :
  partition 3 0 3 8 [1;2;3;4;5;6;7;8] = [[1;2]; [3;4;5]; [6;7;8]].
Proof. reflexivity. Qed.

(** C17 as stated is false: with 240-byte keys and 8-byte payloads, accepted by the
    static assertion of bw_tree.hpp:1683, an inner page takes one entry only and the
    loop of bw_tree.hpp:1609 (as that of line 535) never ends: whatever the number
    of iterations allowed, the bulk load of two entries is still running. *)
Theorem C17_bulkload_terminates_refuted :
  c_maxklen cfg_fix240 + c_paylen cfg_fix240 <= c_page cfg_fix240 / 4 /\
  forall f s, run (op_bulkload cfg_fix240 f [(1, 10%N); (2, 20%N)] 1) s = NoFuel.
Proof. split; [vm_compute; congruence | exact c17]. Qed.
Print Assumptions C17_bulkload_terminates_refuted.

(** C28 as stated is false: Scan without a begin key loads the root while another
    thread has marked it as removed, and follows the null next pointer of the
    remove-node record (bw_tree.hpp:849-866, fixlen/node.hpp:300-311). *)
Theorem C28_leftmost_scan_refuted :
  exists os sch m0 s, race [caller cfg_p256 60 os; scanner cfg_p256 60 None None] (init cfg_p256) sch
    = ([m0; UB UbNull], s).
Proof.
  exists (writes 1 40 ++ deletes_but 10 1 40), (steps 0 603 ++ steps 1 3).
  assert (E : match race [caller cfg_p256 60 (writes 1 40 ++ deletes_but 10 1 40);
      scanner cfg_p256 60 None None] (init cfg_p256) (steps 0 603 ++ steps 1 3) with
    | ([_; UB UbNull], _) => true | _ => false end = true) by (vm_compute; reflexivity).
  destruct (race _ _ _) as [[|m0 [|[| | | | | | | | | | | | |[]|] [|]]] s]; try discriminate.
  eauto.
Qed.
Print Assumptions C28_leftmost_scan_refuted.

(** C29 as stated is false: a traversal that meets a removed leaf and a removed root
    restarts from the root that is current then, and returns an inner node (page ID
    3) where Read expects a leaf. *)
Definition c29_sch : list (nat * bool) :=
  steps 0 335 ++ steps 1 4 ++ steps 0 268 ++ steps 1 2 ++ steps 0 1220 ++ steps 1 20.
Theorem C29_redescent_level_refuted :
  exists sch m0 s, race [caller cfg_p256 60 c10_calls; redescend cfg_p256 60 10] (init cfg_p256) sch
      = ([m0; Ret (OStack [3%N; 23%N])], s) /\
    exists c, s_tbl s 3%N = Some c /\ h_leaf c = false.
Proof.
  exists c29_sch.
  assert (E : match race [caller cfg_p256 60 c10_calls; redescend cfg_p256 60 10]
      (init cfg_p256) c29_sch with
    | ([_; Ret (OStack l)], s) => Some (l, option_map h_leaf (s_tbl s 3%N))
    | _ => None end = Some ([3%N; 23%N], Some false)) by (vm_compute; reflexivity).
  destruct (race _ _ _) as [[|m0 [|[[]| | | | | | | | | | | | | |] [|]]] s]; try discriminate.
  injection E as -> E. exists m0, s. split; auto.
  destruct (s_tbl s 3%N) as [c|]; [|discriminate]. injection E as E. eauto.
Qed.
Print Assumptions C29_redescent_level_refuted.

(** C30 as stated is false: after Scan has returned and released its guard, the
    iterator loads the next leaf (bw_tree.hpp:1124-1141 create no guard); all records
    of the chain it has just loaded and is about to read are handed to the garbage
    collector meanwhile. *)
Definition next_load (m : prog out) : option pid := match m with Load p _ => Some p | _ => None end.
Theorem C30_iterator_unprotected_refuted :
  exists pg it s0 p c os sch ms s2,
    run (op_scan cfg_p256 60 None None) tree40 = Done (pg, it) s0 /\
    next_load (iterator cfg_p256 60 pg it) = Some p /\ s_tbl s0 p = Some c /\
    race [caller cfg_p256 60 os; iterator cfg_p256 60 pg it] s0 (steps 1 1 ++ sch) = (ms, s2) /\
    Forall (fun x => fst x = 0%nat) sch /\
    forall a, In a (chain_addrs c) -> In a (s_gc s2).
Proof.
  assert (E : match run (op_scan cfg_p256 60 None None) tree40 with
    | Done (pg, it) s0 =>
        match next_load (iterator cfg_p256 60 pg it) with
        | Some p =>
            match s_tbl s0 p with
            | Some c =>
                let s2 := snd (race [caller cfg_p256 60 (writes 7 4); iterator cfg_p256 60 pg it] s0
                                 (steps 1 1 ++ steps 0 100)) in
                forallb (fun a => existsb (N.eqb a) (s_gc s2)) (chain_addrs c)
            | None => false end
        | None => false end
    | _ => false end = true) by (vm_compute; reflexivity).
  destruct (run (op_scan cfg_p256 60 None None) tree40) as [[pg it] s0| |]; try discriminate.
  destruct (next_load (iterator cfg_p256 60 pg it)) as [p|] eqn:Ep; try discriminate.
  destruct (s_tbl s0 p) as [c|] eqn:Ec; try discriminate.
  exists pg, it, s0, p, c, (writes 7 4), (steps 0 100).
  destruct (race _ _ _) as [ms s2]. exists ms, s2. repeat (split; auto).
  - apply Forall_forall. intros x Hx. apply repeat_spec in Hx. subst. reflexivity.
  - intros a Ha. cbv zeta in E. rewrite forallb_forall in E. specialize (E a Ha).
    apply existsb_exists in E as (b & Hb & Eb). apply N.eqb_eq in Eb. subst. exact Hb.
Qed.
Print Assumptions C30_iterator_unprotected_refuted.
