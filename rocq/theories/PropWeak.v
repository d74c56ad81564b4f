(** C38: the memory orders of the code keep calls from reading pages that are not
    there yet. *)
From Coq Require Import ZArith NArith List Bool.
From Verif Require Import Config Api Page Machine Tree Spec Conc Valid ConcSpec ConcChain Weak WeakFacts WeakInit.
Import ListNotations.
Open Scope Z_scope.

(** Keys and payloads of 8 bytes, pages of 128 bytes; kMinNodeSize = 0. *)
Definition cfg_weak : cfg := mk_cfg false (fun _ => 8) 8 8 8 32 128 0 2 8 115 0 false.
Lemma cfg_weak_ok : cfg_ok cfg_weak /\ hdr_ok cfg_weak /\ no_merge cfg_weak.
Proof. split; [|split]; [constructor|..]; try (vm_compute; congruence); try (intros k; vm_compute; split; congruence). vm_compute. split; congruence. Qed.

(** Thread 0 inserts seven records, the last insertion splits the root; thread 1
    reads the new root_ (the message with time stamp 2) and then the slot of the new
    root as it was before (time stamp 0): nothing orders the two. *)
Definition todos_weak : list (list call) := [map (fun k => KInsert k 1%N) [1;2;3;4;5;6;7]; [KRead 1]].
Definition late (n : nat) : list (tid * choice) :=
  firstn n (map (fun h => (1%nat, h)) [mk_choice 0 0 0 false; mk_choice 2 0 0 false; mk_choice 0 0 0 false]).
Definition sch_weak (n : nat) : list (tid * choice) :=
  sc_choices cfg_weak 60 (wstart cfg_weak todos_weak) (repeat (0%nat, false) 80) ++ late n.

Lemma weak_case : null_crash (fst (wexec false cfg_weak 60 (wstart cfg_weak todos_weak) (sch_weak 3))) 1%nat = true.
Proof. vm_compute. reflexivity. Qed.

(** C38 is false of the code as modelled: with the memory orders of the code, merging
    disabled, a reader may follow the new root_ to a slot it still sees as null. *)
Theorem C38_memory_orders_suffice_refuted : exists g fuel todos sch t r v,
  cfg_ok g /\ hdr_ok g /\ no_merge g /\
  (forall l o, In l todos -> In o l -> (exists k' v', o = KInsert k' v') \/ (exists k', o = KRead k')) /\
  nth_error (wc_thr (fst (wexec false g fuel (wstart g todos) sch))) t = Some (TRun (UB UbNull) r, v).
Proof.
  destruct (null_crash_spec _ _ weak_case) as (r & v & E).
  exists cfg_weak, 60%nat, todos_weak, (sch_weak 3), 1%nat, r, v.
  split; [exact (proj1 cfg_weak_ok)|]. split; [exact (proj1 (proj2 cfg_weak_ok))|]. split; [exact (proj2 (proj2 cfg_weak_ok))|].
  split; [|exact E].
  intros l o [<-|[<-|[]]] H; [apply in_map_iff in H; destruct H as (k & <- & _); eauto|].
  destruct H as [<-|[]]; eauto.
Qed.
Print Assumptions C38_memory_orders_suffice_refuted.

(** The weak executions contain every interleaving of Conc.v: each run of [exec] has
    a run of [wexec] with the same events and the same programs left to run. *)
Theorem C38_interleavings_included g fuel todos sch : exists wsch,
  snd (exec g fuel (start (init g) todos) sch) = snd (wexec false g fuel (wstart g todos) wsch) /\
  c_thr (fst (exec g fuel (start (init g) todos) sch)) = map fst (wc_thr (fst (wexec false g fuel (wstart g todos) wsch))).
Proof. exact (sc_included g fuel todos sch). Qed.
Print Assumptions C38_interleavings_included.

(** What holds, merging included, if root_ and the payload cells of index-delete
    records are accessed with release and acquire ([strong = true]): a thread that
    loads the slot of an ID reads a page, never the null that was there before the
    page.  Missing: that no call looks up the null ID or a payload (which have the
    type of IDs in the model); the other kinds of undefined behaviour; that results
    are right. *)
Theorem C38_memory_orders_suffice_partial g fuel todos sch t p k r v ts x v' :
  let c := fst (wexec true g fuel (wstart g todos) sch) in
  nth_error (wc_thr c) t = Some (TRun (Load p k) r, v) ->
  do_read (wc_mem c) true v (LSlot p) ts = Some (x, v') ->
  p <> 0%N ->
  (forall l o y, In l todos -> In o l -> (o = KWrite y p \/ o = KInsert y p \/ o = KUpdate y p) -> False) ->
  exists page, x = WPage (Some page).
Proof. exact (load_initialised g fuel todos sch t p k r v ts x v'). Qed.
Print Assumptions C38_memory_orders_suffice_partial.

(** The schedule of the witness up to the load of the new root: with release and
    acquire the reader sees the page (time stamp 1) and can no longer see null. *)
Example C38_case : exists k r v page v',
  let c := fst (wexec true cfg_weak 60 (wstart cfg_weak todos_weak) (sch_weak 2)) in
  nth_error (wc_thr c) 1%nat = Some (TRun (Load 3%N k) r, v) /\
  do_read (wc_mem c) true v (LSlot 3%N) 1%N = Some (WPage (Some page), v') /\
  do_read (wc_mem c) true v (LSlot 3%N) 0%N = None.
Proof.
  assert (E : at_load (fst (wexec true cfg_weak 60 (wstart cfg_weak todos_weak) (sch_weak 2))) 1%nat 3%N 1%N = true)
    by (vm_compute; reflexivity).
  exact (at_load_spec _ _ _ _ E).
Qed.
