(** Properties of concurrent executions (C07, C08, C09, C11, C27, C31, C33, C39): any
    number of threads, any calls, any schedule, spurious compare-and-swap failures
    included.  Merging is disabled ([no_merge]) except in C08, C31 and C39. *)
From Coq Require Import ZArith NArith List Bool.
From Verif Require Import Config Api Page Machine Tree Spec Conc Valid ConcSpec ConcChain ConcMain CountFacts WinFacts GcFacts.
Import ListNotations.
Open Scope Z_scope.

(** ** A concrete case *)

(** Pages of 128 bytes hold six records of 16 bytes; kMinNodeSize = 0. *)
Definition cfg_nm : cfg := mk_cfg false (fun _ => 8) 8 8 8 32 128 0 2 8 115 0 false.
Example cfg_nm_ok : cfg_ok cfg_nm /\ hdr_ok cfg_nm /\ no_merge cfg_nm.
Proof. split; [|split]; [constructor|..]; try (vm_compute; congruence); try (intros k; vm_compute; split; congruence). vm_compute. split; congruence. Qed.
(** Variable-length layout, default page size. *)
Definition cfg_nm_var : cfg := mk_cfg true (fun k => if k <? 0 then 1 else 8) 8 8 8 32 1024 0 4 64 921 0 true.
Example cfg_nm_var_ok : cfg_ok cfg_nm_var /\ hdr_ok cfg_nm_var /\ no_merge cfg_nm_var.
Proof.
  repeat split; try (vm_compute; congruence).
  - unfold klen. cbn. destruct (k <? 0); reflexivity.
  - unfold klen. cbn. destruct (k <? 0); discriminate.
Qed.

(** Three threads taking turns: two insert the same twenty keys in opposite orders,
    one deletes, updates and reads; some weak compare-and-swap operations fail spuriously. *)
Definition inserts (v : val) : list call := map (fun k => KInsert (Z.of_nat k) v) (seq 1 20).
Definition todos3 : list (list call) :=
  [inserts 5%N; rev (inserts 6%N); [KRead 9; KDelete 3; KRead 3; KRead 15; KUpdate 7 1%N; KWrite 21 2%N; KRead 21]].
Fixpoint turns (n : nat) : list (tid * bool) :=
  match n with
  | O => []
  | S m => [(0, false); (1, Nat.eqb (m mod 5) 0); (2, false)]%nat ++ turns m
  end.
Definition run3 : cst * list event := exec cfg_nm 200 (start (init cfg_nm) todos3) (turns 400).
(** All calls return; the root was split; each of the threads 0 and 1 found keys of
    the other. *)
Example run3_done : c_thr (fst run3) = [TIdle []; TIdle []; TIdle []] /\ length (snd run3) = 94%nat /\
  s_root (c_mem (fst run3)) <> 1%N /\
  existsb (fun e => match e with ERes 0%nat (RCode KeyExist) => true | _ => false end) (snd run3) = true /\
  existsb (fun e => match e with ERes 1%nat (RCode KeyExist) => true | _ => false end) (snd run3) = true.
Proof. vm_compute. repeat split; congruence. Qed.

(** ** C09: linearizability *)
Theorem C09_linearizable : forall g fuel todos sch, cfg_ok g -> hdr_ok g -> no_merge g ->
  linearizable sempty (snd (exec g fuel (start (init g) todos) sch)).
Proof. exact conc_linearizable. Qed.
Print Assumptions C09_linearizable.
Example C09_case : linearizable sempty (snd run3).
Proof. exact (C09_linearizable cfg_nm 200 todos3 (turns 400) (proj1 cfg_nm_ok) (proj1 (proj2 cfg_nm_ok)) (proj2 (proj2 cfg_nm_ok))). Qed.

(** ** C11: only calls change the map, once and as specified *)
Theorem C11_smo_invisible : forall g fuel todos sch, cfg_ok g -> hdr_ok g -> no_merge g ->
  explained g fuel (start (init g) todos) sempty (fun _ => SIdle) sch.
Proof. exact conc_explained. Qed.
Print Assumptions C11_smo_invisible.
Example C11_case : explained cfg_nm 200 (start (init cfg_nm) todos3) sempty (fun _ => SIdle) (turns 400).
Proof. exact (C11_smo_invisible cfg_nm 200 todos3 (turns 400) (proj1 cfg_nm_ok) (proj1 (proj2 cfg_nm_ok)) (proj2 (proj2 cfg_nm_ok))). Qed.

(** ** C27: no undefined behaviour *)
Theorem C27_no_undefined_behaviour : forall g fuel todos sch, cfg_ok g -> hdr_ok g -> no_merge g ->
  ~ crashed (fst (exec g fuel (start (init g) todos) sch)).
Proof. exact conc_nocrash. Qed.
Print Assumptions C27_no_undefined_behaviour.
Example C27_case : ~ crashed (fst run3).
Proof. exact (C27_no_undefined_behaviour cfg_nm 200 todos3 (turns 400) (proj1 cfg_nm_ok) (proj1 (proj2 cfg_nm_ok)) (proj2 (proj2 cfg_nm_ok))). Qed.

(** ** C07, partial: every page fits.  Missing: concurrent merges and Bulkload. *)
Theorem C07_concurrent_pages_fit_partial : forall g fuel todos sch, cfg_ok g -> hdr_ok g -> no_merge g ->
  let e := fst (exec g fuel (start (init g) todos) sch) in
  (forall r, ~ In (TRun (UB UbOverflow) r) (c_thr e)) /\
  forall p n, s_tbl (c_mem e) p = Some (CBase n) -> n_size n <= c_page g.
Proof. exact conc_pages. Qed.
Print Assumptions C07_concurrent_pages_fit_partial.
Example C07_case : exists p n, s_tbl (c_mem (fst run3)) p = Some (CBase n) /\ n_size n = 128 /\ c_page cfg_nm = 128.
Proof.
  assert (E : match s_tbl (c_mem (fst run3)) 3%N with Some (CBase n) => n_size n | _ => 0 end = 128)
    by (vm_compute; reflexivity).
  exists 3%N. destruct (s_tbl (c_mem (fst run3)) 3%N) as [[n| | |]|]; try discriminate. eauto.
Qed.

(** ** C08: the sorting array is never overrun, with or without merging *)
Theorem C08_chains_bounded : forall g fuel todos sch, 1 <= c_maxd g ->
  let e := fst (exec g fuel (start (init g) todos) sch) in
  (forall p c, s_tbl (c_mem e) p = Some c -> deltas c <= c_maxd g) /\
  forall r, ~ In (TRun (UB UbArray) r) (c_thr e).
Proof. exact count_bounded. Qed.
Print Assumptions C08_chains_bounded.
(** With a capacity of 2, four threads writing key 1 fill it. *)
Definition cfg_two : cfg := mk_cfg false (fun _ => 8) 8 8 8 32 128 0 2 2 115 0 false.
Example C08_case : exists c, 1 <= c_maxd cfg_two /\ s_tbl (c_mem (fst (exec cfg_two 20
    (start (init cfg_two) (repeat [KWrite 1 1%N] 4)) (concat (repeat [(0, false); (1, false); (2, false); (3, false)] 9)%nat)))) 1%N = Some c /\
    deltas c = c_maxd cfg_two.
Proof. eexists. split; [vm_compute; congruence|]. split; vm_compute; reflexivity. Qed.

(** ** C31: garbage collection, for every configuration *)
Theorem C31_retired_once_unlinked : forall g fuel todos sch,
  let s := c_mem (fst (exec g fuel (start (init g) todos) sch)) in
  NoDup (s_gc s) /\ forall p c a, s_tbl s p = Some c -> In a (chain_addrs c) -> ~ In a (s_gc s).
Proof. exact gc_once. Qed.
Print Assumptions C31_retired_once_unlinked.
(** Two threads insert and delete; pages are split and merged, and a removed page
    stays in its slot. *)
Definition cfg_mg : cfg := mk_cfg false (fun _ => 8) 8 8 8 32 128 64 2 8 115 0 false.
Definition todos_mg : list (list call) :=
  let ks := map Z.of_nat (seq 1 12) in
  [map (fun k => KInsert (2 * k) 5%N) ks ++ map (fun k => KDelete (2 * k)) ks;
   map (fun k => KInsert (2 * k + 1) 6%N) ks ++ map (fun k => KDelete (2 * k + 1)) ks].
Definition run_mg : cst * list event := exec cfg_mg 200 (start (init cfg_mg) todos_mg) (turns 600).
Example C31_case : c_thr (fst run_mg) = [TIdle []; TIdle []] /\
  existsb (fun p => match s_tbl (c_mem (fst run_mg)) p with Some (CRemove _ _) => true | _ => false end)
    (map N.of_nat (seq 1 20)) = true /\
  (40 <? Z.of_nat (length (s_gc (c_mem (fst run_mg))))) = true.
Proof. vm_compute. auto. Qed.

(** ** C39: no page is lost, for every configuration *)
Theorem C39_published_pages_not_lost : forall g fuel todos s1 s2 p c a,
  let e1 := fst (exec g fuel (start (init g) todos) s1) in
  let e2 := fst (exec g fuel (start (init g) todos) (s1 ++ s2)) in
  s_tbl (c_mem e1) p = Some c -> In a (chain_addrs c) ->
  (forall th, In th (c_thr e2) -> exists td, th = TIdle td) ->
  In a (s_gc (c_mem e2)) \/ exists q d, s_tbl (c_mem e2) q = Some d /\ In a (chain_addrs d).
Proof. exact no_leak. Qed.
Print Assumptions C39_published_pages_not_lost.
(** In the case above a chain with several pages is in the table after 300 steps; in
    the end no call is running and all its pages are retired. *)
Definition pages_at (e : cst) (p : pid) : list addr := match s_tbl (c_mem e) p with Some c => chain_addrs c | None => [] end.
Example C39_case :
  forallb (fun th => match th with TIdle _ => true | _ => false end) (c_thr (fst run_mg)) = true /\
  (let l := pages_at (fst (exec cfg_mg 200 (start (init cfg_mg) todos_mg) (firstn 300 (turns 600)))) 3%N in
   (1 <? Z.of_nat (length l)) && forallb (fun a => existsb (N.eqb a) (s_gc (c_mem (fst run_mg)))) l) = true.
Proof. vm_compute. auto. Qed.

(** ** C33: at most one of racing Inserts succeeds *)
Theorem C33_insert_atomic : forall g fuel todos sch k h1 h2 h3, cfg_ok g -> hdr_ok g -> no_merge g ->
  snd (exec g fuel (start (init g) todos) sch) = h1 ++ h2 ++ h3 ->
  (forall t, pending no_call h1 t <> Some (KDelete k)) -> (forall t, ~ In (EInv t (KDelete k)) h2) ->
  (wins k no_call h2 <= 1)%nat.
Proof. exact conc_wins. Qed.
Print Assumptions C33_insert_atomic.
(** In the case above both threads insert key 11 at the same time and one of them succeeds. *)
Example C33_case : wins 11 no_call (snd run3) = 1%nat /\ forall t, ~ In (EInv t (KDelete 11)) (snd run3).
Proof.
  assert (E : existsb (fun e => match e with EInv _ (KDelete 11) => true | _ => false end) (snd run3) = false)
    by (vm_compute; reflexivity).
  split; [vm_compute; reflexivity|]. intros t H. 
  enough (existsb (fun e => match e with EInv _ (KDelete 11) => true | _ => false end) (snd run3) = true) by congruence.
  apply existsb_exists. exists (EInv t (KDelete 11)). split; [exact H|reflexivity].
Qed.
