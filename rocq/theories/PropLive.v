(** C37: calls return when no other call is running. *)
From Coq Require Import ZArith NArith List Bool.
From Verif Require Import Config Api Page Machine Tree Spec Conc Valid ConcSpec ConcChain LiveFacts.
Import ListNotations.
Open Scope Z_scope.

(** Keys and payloads of 8 bytes, pages of 128 bytes (six records a page);
    kMinNodeSize = 0, so no merging. *)
Definition cfg_live : cfg := mk_cfg false (fun _ => 8) 8 8 8 32 128 0 2 8 115 0 false.
Lemma cfg_live_ok : cfg_ok cfg_live /\ hdr_ok cfg_live /\ no_merge cfg_live.
Proof. split; [|split]; [constructor|..]; try (vm_compute; congruence); try (intros k; vm_compute; split; congruence). vm_compute. split; congruence. Qed.

(** Thread 0 is delayed inside TryRootSplit (bw_tree.hpp:1411-1421), between the
    check of the root and the store; meanwhile thread 1 replaces the root and splits the
    new root.  Thread 0 then puts its own root in place, thread 1 finds that the
    root has changed, walks from the new root down to a leaf and adds the entry for
    the upper half of a page of level two to a page of level one below it. *)
Definition ins (l : list Z) : list call := map (fun k => KInsert k 1%N) l.
Definition todos_live : list (list call) :=
  [ins (map (fun i => 100 * Z.of_nat i) (seq 1 17)); ins (map (fun i => 100 + Z.of_nat i) (seq 1 33))].
Definition turn (t : tid) (n : nat) : list (tid * bool) := repeat (t, false) n.
Definition sch_live : list (tid * bool) := turn 0%nat 231 ++ turn 1%nat 575 ++ turn 0%nat 20 ++ turn 1%nat 100.

Lemma live_case : witness_ok
  (fst (exec cfg_live 100 (start (init cfg_live) todos_live) sch_live))
  (snd (exec cfg_live 100 (start (init cfg_live) todos_live) sch_live)) 110 [10;3;16;20;33]%N = true.
Proof. vm_compute. reflexivity. Qed.

(** C37 is false of the code as modelled, merging disabled: two threads insert
    different keys, every insertion returns kSuccess, and afterwards no call on a
    stored key ever returns, whatever the number of steps it is given. *)
Theorem C37_calls_return_refuted : exists g todos sch t v k,
  cfg_ok g /\ hdr_ok g /\ no_merge g /\
  (exists l, nth_error todos t = Some l /\ In (KInsert k v) l) /\
  (forall l o, In l todos -> In o l -> exists k' v', o = KInsert k' v') /\
  exists fuel,
  let c := fst (exec g fuel (start (init g) todos) sch) in
  let h := snd (exec g fuel (start (init g) todos) sch) in
  (forall th, In th (c_thr c) -> th = TIdle []) /\
  (forall t' r, In (ERes t' r) h -> r = RCode Success) /\
  (forall o f, match o with KRead x | KWrite x _ | KInsert x _ | KUpdate x _ | KDelete x => x = k end ->
     run (call_prog g f o) (c_mem c) = NoFuel).
Proof.
  exists cfg_live, todos_live, sch_live, 1%nat, 1%N, 110.
  split; [exact (proj1 cfg_live_ok)|]. split; [exact (proj1 (proj2 cfg_live_ok))|]. split; [exact (proj2 (proj2 cfg_live_ok))|].
  split; [eexists; split; [reflexivity|do 9 right; left; reflexivity]|].
  split.
  { intros l o [<-|[<-|[]]] H; apply in_map_iff in H; destruct H as (k & <- & _); eauto. }
  exists 100%nat. exact (live_ref cfg_live 100 todos_live sch_live 110 [10;3;16;20;33]%N live_case).
Qed.
Print Assumptions C37_calls_return_refuted.

(** What holds: if all calls are issued one after the other, merging included, every
    call returns. *)
Theorem C37_calls_return_partial g os o : cfg_ok g -> exists F s r s', forall f, (F <= f)%nat ->
  run_calls g f os (init g) = Done (fst (spec_run sempty os)) s /\
  run (call_prog g f o) s = Done r s'.
Proof. exact (alone_returns g os o). Qed.
Print Assumptions C37_calls_return_partial.

(** The calls of the witness, issued one after the other. *)
Example C37_case : exists F s r s', forall f, (F <= f)%nat ->
  run_calls cfg_live f (concat todos_live) (init cfg_live) = Done (fst (spec_run sempty (concat todos_live))) s /\
  run (call_prog cfg_live f (KRead 110)) s = Done r s'.
Proof. exact (C37_calls_return_partial cfg_live (concat todos_live) (KRead 110) (proj1 cfg_live_ok)). Qed.
