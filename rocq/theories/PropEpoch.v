(** C35: no call uses a page that has been reclaimed. *)
From Coq Require Import ZArith NArith List Bool.
From Verif Require Import Config Api Page Machine Tree Spec Conc EpochSpec EpochFacts PropConc.
Import ListNotations.

(** C35, every configuration, merging included: an address that a call obtains, by
    loading a chain that contains it or by allocating it, may not be reclaimed before
    that call has returned.  [s1] is the schedule up to the access of thread [t], [s2]
    the schedule after it. *)
Theorem C35_no_use_after_reclamation g fuel todos s1 s2 t a :
  let c0 := start (init g) todos in
  let e := fst (exec g fuel c0 s1) in
  obtains e t a -> (forall x, ~ In (ERes t x) (snd (exec g fuel e s2))) ->
  ~ may_free g fuel c0 (s1 ++ s2) a.
Proof. exact (not_freed g fuel todos s1 s2 t a). Qed.
Print Assumptions C35_no_use_after_reclamation.

(** Thread 0 loads a chain with the page at address 3 in step 34; thread 1 retires it in
    step 44, while the call of thread 0 is still running; in the end it may be reclaimed. *)
Definition at_step (n : nat) : cst := fst (exec cfg_mg 200 (start (init cfg_mg) todos_mg) (firstn n (turns 600))).
Definition obtains_b (c : cst) (t : tid) (a : addr) : bool :=
  match nth_error (c_thr c) t with
  | Some (TRun (Load p _) _) => match s_tbl (c_mem c) p with Some h => existsb (N.eqb a) (chain_addrs h) | None => false end
  | _ => false
  end.
Lemma obtains_ok c t a : obtains_b c t a = true -> obtains c t a.
Proof.
  unfold obtains_b. destruct (nth_error (c_thr c) t) as [[|m r]|] eqn:E; try discriminate.
  destruct m as [|p k| | | | | | | | | | | | |]; try discriminate.
  destruct (s_tbl (c_mem c) p) as [h|] eqn:Et; [|discriminate].
  intros H. apply existsb_exists in H as (x & Hx & Ex). apply N.eqb_eq in Ex. subst x.
  left. exists p, k, r, h. auto.
Qed.
Lemma retired_ok a l : existsb (N.eqb a) l = true -> In a l.
Proof. intros H. apply existsb_exists in H as (x & Hx & Ex). apply N.eqb_eq in Ex. subst x. exact Hx. Qed.
Lemma idle_free g fuel c0 sch a : let e := fst (exec g fuel c0 sch) in
  forallb (fun th => match th with TIdle _ => true | _ => false end) (c_thr e) = true ->
  In a (s_gc (c_mem e)) -> may_free g fuel c0 sch a.
Proof.
  intros e H Ha. exists sch, []. split; [rewrite app_nil_r; reflexivity|]. split; [exact Ha|].
  intros t (m & r & Ht). rewrite forallb_forall in H. apply nth_error_In in Ht. apply H in Ht. discriminate Ht.
Qed.
Example C35_case :
  obtains (at_step 33) 0%nat 3%N /\
  snd (exec cfg_mg 200 (at_step 33) (firstn 11 (skipn 33 (turns 600)))) = [] /\
  In 3%N (s_gc (c_mem (at_step 44))) /\
  may_free cfg_mg 200 (start (init cfg_mg) todos_mg) (turns 600) 3%N.
Proof.
  assert (E1 : obtains_b (at_step 33) 0%nat 3%N = true) by (vm_compute; reflexivity).
  assert (E2 : snd (exec cfg_mg 200 (at_step 33) (firstn 11 (skipn 33 (turns 600)))) = []) by (vm_compute; reflexivity).
  assert (E3 : existsb (N.eqb 3) (s_gc (c_mem (at_step 44))) = true) by (vm_compute; reflexivity).
  assert (E4 : forallb (fun th => match th with TIdle _ => true | _ => false end)
    (c_thr (fst (exec cfg_mg 200 (start (init cfg_mg) todos_mg) (turns 600)))) = true) by (vm_compute; reflexivity).
  assert (E5 : existsb (N.eqb 3) (s_gc (c_mem (fst (exec cfg_mg 200 (start (init cfg_mg) todos_mg) (turns 600))))) = true)
    by (vm_compute; reflexivity).
  exact (conj (obtains_ok _ _ _ E1) (conj E2 (conj (retired_ok _ _ E3) (idle_free _ _ _ _ _ E4 (retired_ok _ _ E5))))).
Qed.
