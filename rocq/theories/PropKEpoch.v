(** C30, C31, C39, C49: pages and their reclamation when threads issue point calls, scan
    and collect statistics in any order; every configuration, merging included, any
    schedule. *)
From Coq Require Import ZArith NArith List Bool.
From Verif Require Import Config Api Page Machine Tree Scan Spec Client KEpochSpec GcFacts KGcFacts PropClient.
Import ListNotations.
Open Scope Z_scope.

(** C30, the part that holds: an address that a point call or Scan itself obtains, by
    loading a chain that contains it or by allocating it, may not be reclaimed before
    that request has returned, whatever iterators and statistics do next to it.  Missing:
    the same of the iterator, which is false ([C30_iterator_reclaimed_refuted]). *)
Theorem C30_scan_protected_partial g fuel todos s1 s2 t q a :
  let c0 := kstart (init g) todos in
  let e := fst (kexec g fuel c0 s1) in
  running (snd (kexec g fuel c0 s1)) t = Some q -> guarded q = true ->
  kobtains e t a -> (forall x, ~ In (VRes t x) (snd (kexec g fuel e s2))) ->
  ~ kmay_free g fuel c0 (s1 ++ s2) a.
Proof. exact (knot_freed_from g (init g) fuel todos s1 s2 t q a (init_owns g)). Qed.
Print Assumptions C30_scan_protected_partial.

(** C31 and C39 with scans and statistics. *)
Theorem C31_retired_once_with_scans : forall g fuel todos sch,
  let s := k_mem (fst (kexec g fuel (kstart (init g) todos) sch)) in
  NoDup (s_gc s) /\ forall p c a, s_tbl s p = Some c -> In a (chain_addrs c) -> ~ In a (s_gc s).
Proof. exact (fun g fuel todos sch => kgc_once_from g (init g) fuel todos sch (init_owns g)). Qed.
Print Assumptions C31_retired_once_with_scans.
Theorem C39_pages_not_lost_with_scans : forall g fuel todos s1 s2 p c a,
  let e1 := fst (kexec g fuel (kstart (init g) todos) s1) in
  let e2 := fst (kexec g fuel (kstart (init g) todos) (s1 ++ s2)) in
  s_tbl (k_mem e1) p = Some c -> In a (chain_addrs c) ->
  (forall th, In th (k_thr e2) -> exists cu td, th = KIdle cu td) ->
  In a (s_gc (k_mem e2)) \/ exists q d, s_tbl (k_mem e2) q = Some d /\ In a (chain_addrs d).
Proof. exact (fun g fuel todos s1 s2 p c a => kno_leak_from g (init g) fuel todos s1 s2 p c a (init_owns g)). Qed.
Print Assumptions C39_pages_not_lost_with_scans.

(** ** Concrete cases *)
(** Thread 0 fills two leaves and then uses them; thread 1 writes to the second. *)
Definition todos_ke (last : list req) : list (list req) :=
  [map (fun k => QCall (KInsert (Z.of_nat k) 1%N)) (seq 1 8) ++ last;
   map (fun k => QCall (KWrite k 2%N)) [5; 6; 7; 8]].
Definition at_ke (l : list req) (n m : nat) : kst * list kevent :=
  kexec cfg_kc 200 (kstart (init cfg_kc) (todos_ke l)) (repeat (0%nat, false) n ++ repeat (1%nat, false) m).
Definition kobtains_b (c : kst) (t : tid) (a : addr) : bool :=
  match nth_error (k_thr c) t with
  | Some (KRun (Load p _) _) => match s_tbl (k_mem c) p with Some h => existsb (N.eqb a) (chain_addrs h) | None => false end
  | _ => false
  end.
Lemma kobtains_ok c t a : kobtains_b c t a = true -> kobtains c t a.
Proof.
  unfold kobtains_b. destruct (nth_error (k_thr c) t) as [[|m r]|] eqn:E; try discriminate.
  destruct m as [|p k| | | | | | | | | | | | |]; try discriminate.
  destruct (s_tbl (k_mem c) p) as [h|] eqn:Et; [|discriminate].
  intros H. apply existsb_exists in H as (x & Hx & Ex). apply N.eqb_eq in Ex. subst x.
  left. exists p, k, r, h. auto.
Qed.
Definition gc_b (c : kst) (a : addr) : bool := existsb (N.eqb a) (s_gc (k_mem c)).
Lemma gc_ok c a : gc_b c a = true -> In a (s_gc (k_mem c)).
Proof. intros H. apply existsb_exists in H as (x & Hx & Ex). apply N.eqb_eq in Ex. subst x. exact Hx. Qed.
Definition no_guard_b (h : list kevent) : bool :=
  forallb (fun e => match e with
    | VInv t _ => match running h t with Some q => negb (guarded q) | None => true end
    | VRes _ _ => true end) h.
Lemma running_in h t q : running h t = Some q -> In (VInv t q) h.
Proof.
  revert q. induction h as [|e h IH] using rev_ind; intros q H; [discriminate|].
  rewrite running_app in H. cbn in H. apply in_app_iff. destruct e as [u q'|u x]; destruct (PeanoNat.Nat.eqb_spec u t) as [->|]; auto.
  - inversion H; subst. right. left. reflexivity.
  - discriminate.
Qed.
Lemma no_guard_free g fuel c0 sch a : gc_b (fst (kexec g fuel c0 sch)) a = true ->
  no_guard_b (snd (kexec g fuel c0 sch)) = true -> kmay_free g fuel c0 sch a.
Proof.
  intros A B. exists sch, []. split; [symmetry; apply app_nil_r|].
  destruct (kexec g fuel c0 sch) as [e h]. cbn [fst snd] in A, B. split; [apply gc_ok; exact A|].
  intros t q R Q. exfalso. pose proof (running_in h t q R) as I. unfold no_guard_b in B. rewrite forallb_forall in B.
  specialize (B _ I). cbn in B. rewrite R, Q in B. discriminate.
Qed.
Definition silent_b (t : tid) (h : list kevent) : bool :=
  forallb (fun e => match e with VRes u _ => negb (Nat.eqb u t) | _ => true end) h.
Lemma silent_ok t h : silent_b t h = true -> forall x, ~ In (VRes t x) h.
Proof.
  intros H x I. unfold silent_b in H. rewrite forallb_forall in H. specialize (H _ I). cbn in H.
  rewrite PeanoNat.Nat.eqb_refl in H. discriminate.
Qed.

(** Thread 0 loads the second leaf within Scan; thread 1 replaces that leaf and retires its
    records (16 and 13) before Scan returns; later they may be reclaimed. *)
Definition open_ke : list req := [QOpen (Some (5, true)) None].
Example C30_case :
  running (snd (at_ke open_ke 87 0)) 0%nat = Some (QOpen (Some (5, true)) None) /\
  kobtains (fst (at_ke open_ke 87 0)) 0%nat 16%N /\
  silent_b 0%nat (snd (kexec cfg_kc 200 (fst (at_ke open_ke 87 0)) (repeat (1%nat, false) 100))) = true /\
  gc_b (fst (at_ke open_ke 87 100)) 16%N = true /\
  kmay_free cfg_kc 200 (kstart (init cfg_kc) (todos_ke open_ke))
    ((repeat (0%nat, false) 87 ++ repeat (1%nat, false) 100) ++ repeat (0%nat, false) 100) 16%N.
Proof.
  split; [vm_compute; reflexivity|]. split; [apply kobtains_ok; vm_compute; reflexivity|].
  split; [vm_compute; reflexivity|]. split; [vm_compute; reflexivity|].
  apply no_guard_free; vm_compute; reflexivity.
Qed.

(** C30 as stated is false: the records that an iterator has just loaded may be reclaimed
    while it still uses them. *)
Definition next_ke : list req := [QOpen None None; QNext; QNext; QNext].
Theorem C30_iterator_reclaimed_refuted : exists g fuel todos s1 s2 t a,
  let c0 := kstart (init g) todos in
  let e := fst (kexec g fuel c0 s1) in
  running (snd (kexec g fuel c0 s1)) t = Some QNext /\ kobtains e t a /\
  (forall x, ~ In (VRes t x) (snd (kexec g fuel e s2))) /\ kmay_free g fuel c0 (s1 ++ s2) a.
Proof.
  exists cfg_kc, 200%nat, (todos_ke next_ke), (repeat (0%nat, false) 94), ((0%nat, false) :: repeat (1%nat, false) 100), 0%nat, 16%N.
  cbv zeta. split; [vm_compute; reflexivity|]. split; [apply kobtains_ok; vm_compute; reflexivity|].
  split; [apply silent_ok; vm_compute; reflexivity|]. apply no_guard_free; vm_compute; reflexivity.
Qed.
Print Assumptions C30_iterator_reclaimed_refuted.

(** The same of the statistics (C49). *)
Theorem C49_statistics_reclaimed_refuted : exists g fuel todos s1 s2 t a d,
  let c0 := kstart (init g) todos in
  let e := fst (kexec g fuel c0 s1) in
  running (snd (kexec g fuel c0 s1)) t = Some (QStat d) /\ kobtains e t a /\
  (forall x, ~ In (VRes t x) (snd (kexec g fuel e s2))) /\ kmay_free g fuel c0 (s1 ++ s2) a.
Proof.
  exists cfg_kc, 200%nat, (todos_ke [QStat 32]), (repeat (0%nat, false) 87), ((0%nat, false) :: repeat (1%nat, false) 100), 0%nat, 16%N, 32.
  cbv zeta. split; [vm_compute; reflexivity|]. split; [apply kobtains_ok; vm_compute; reflexivity|].
  split; [apply silent_ok; vm_compute; reflexivity|]. apply no_guard_free; vm_compute; reflexivity.
Qed.
Print Assumptions C49_statistics_reclaimed_refuted.

(** In the end of the case all requests have returned, the records of the leaf seen at
    step 87 are retired. *)
Example C31_C39_case :
  forallb (fun th => match th with KIdle _ _ => true | _ => false end) (k_thr (fst (at_ke next_ke 98 100))) = true /\
  (match s_tbl (k_mem (fst (at_ke next_ke 87 0))) 2%N with
   | Some c => chain_addrs c = [16%N; 13%N] | None => False end) /\
  gc_b (fst (at_ke next_ke 98 100)) 16%N = true /\ gc_b (fst (at_ke next_ke 98 100)) 13%N = true.
Proof. vm_compute. auto. Qed.
