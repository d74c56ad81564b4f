(** C57: using the memory of reclaimed pages again causes no ABA. *)
From Coq Require Import ZArith NArith List Bool Lia.
From Verif Require Import Config Api Page Machine Tree Spec Conc GcFacts EpochSpec EpochFacts BulkSpec
  Valid ConcSpec ConcChain ConcMain Reuse ReuseSpec ReuseFacts PropConc.
Import ListNotations.
Open Scope Z_scope.

(** ** C57, every configuration, merging included *)

(** With places given out again only after reclamation, comparing places gives the very
    execution that comparing objects gives: states and histories are the same.  So what is
    proved of [exec] holds of [exec_at]. *)
Theorem C57_same_execution : forall g fuel todos sch loc,
  placed (exec_at loc g fuel) (start (init g) todos) sch loc ->
  exec_at loc g fuel (start (init g) todos) sch = exec g fuel (start (init g) todos) sch.
Proof. exact (fun g fuel todos sch loc => same_execution g fuel (init g) todos (init_owns g) loc sch). Qed.
Print Assumptions C57_same_execution.

(** While a call runs, no object that it has obtained and that was linked at some time is
    at the place of another object that is linked now. *)
Theorem C57_places_identify : forall g fuel todos s s' loc t a b,
  let c0 := start (init g) todos in
  placed (exec_at loc g fuel) c0 (s ++ s') loc -> held (exec_at loc g fuel) c0 s t a ->
  (exists i, linked (c_mem (fst (exec_at loc g fuel c0 (firstn i (s ++ s'))))) a) ->
  linked (c_mem (fst (exec_at loc g fuel c0 s))) b -> loc a = loc b -> a = b.
Proof. exact (fun g fuel todos s s' loc t a b => places_identify g fuel (init g) todos (init_owns g) loc s s' t a b). Qed.
Print Assumptions C57_places_identify.

(** Hence, without merging, calls on reused memory are linearizable. *)
Theorem C57_linearizable : forall g fuel todos sch loc, cfg_ok g -> hdr_ok g -> no_merge g ->
  placed (exec_at loc g fuel) (start (init g) todos) sch loc ->
  linearizable sempty (snd (exec_at loc g fuel (start (init g) todos) sch)).
Proof.
  intros g fuel todos sch loc OK HO NM P. rewrite (C57_same_execution g fuel todos sch loc P).
  exact (conc_linearizable g fuel todos sch OK HO NM).
Qed.
Print Assumptions C57_linearizable.

(** Two threads insert and delete while pages are split and merged.  The first page, at
    place 1, is reclaimed after 160 steps, and the object 20 allocated after that is put at
    its place.  It is linked after 200 steps and retired after 260. *)
Definition loc_mg : addr -> N := twice 20 1.
Lemma turns_cut : turns 600 = firstn 100 (turns 600) ++ firstn 60 (skipn 100 (turns 600)) ++ skipn 60 (skipn 100 (turns 600)).
Proof. now rewrite !firstn_skipn. Qed.
Example C57_placed_case : placed (exec_at loc_mg cfg_mg 200) (start (init cfg_mg) todos_mg) (turns 600) loc_mg.
Proof.
  rewrite turns_cut. apply placed_twice; [apply init_owns|vm_compute; discriminate|reflexivity|vm_compute; reflexivity..].
Qed.
Example C57_reuse_case : loc_mg 20 = loc_mg 1 /\
  existsb (N.eqb 20) (s_gc (c_mem (fst (exec_at loc_mg cfg_mg 200 (start (init cfg_mg) todos_mg) (firstn 260 (turns 600)))))) = true /\
  exec_at loc_mg cfg_mg 200 (start (init cfg_mg) todos_mg) (turns 600) = run_mg.
Proof.
  assert (E : existsb (N.eqb 20) (s_gc (c_mem (fst (exec_at loc_mg cfg_mg 200 (start (init cfg_mg) todos_mg) (firstn 260 (turns 600)))))) = true)
    by (vm_compute; reflexivity).
  exact (conj eq_refl (conj E (C57_same_execution cfg_mg 200 todos_mg (turns 600) loc_mg C57_placed_case))).
Qed.

(** ** Waiting for the calls in progress is needed *)

(** Were a place given out again as soon as the object there is retired, the compare-and-swap
    of a call still running could succeed by mistake: thread 0 has found no record of key 5
    in the page at place 1; thread 1 inserts key 5, consolidates and retires that page, and
    its next record is put at place 1 and linked; thread 0 then inserts key 5 once more. *)
Definition todos_aba : list (list call) := [[KInsert 5 1%N]; [KInsert 5 2%N; KWrite 6 6%N; KWrite 7 7%N]].
Definition sch_aba : list (tid * bool) := repeat (0%nat, false) 5 ++ repeat (1%nat, false) 25 ++ repeat (0%nat, false) 2.
Lemma aba_placed : placed_eagerly (exec_at (twice 6 1) cfg_nm 50) (start (init cfg_nm) todos_aba) sch_aba (twice 6 1).
Proof.
  split.
  - cbn [start c_mem init s_naddr]. intros x y X Y Q. apply twice_eq in Q as [Q|[[-> ->]|[-> ->]]]; auto; lia.
  - intros s1 t b s2 Hs k r Et a x Lx Q. left. apply twice_eq in Q as [Q|[[-> Q]|[-> Q]]]; [lia|lia|]. subst a.
    assert (C : forallb (fun i => let e := fst (exec_at (twice 6 1) cfg_nm 50 (start (init cfg_nm) todos_aba) (firstn i sch_aba)) in
        negb (s_naddr (c_mem e) =? 6)%N || existsb (N.eqb 1) (s_gc (c_mem e)) ||
        negb (existsb (fun th => match th with TRun (Alloc _) _ => true | _ => false end) (c_thr e))) (seq 0 33) = true)
      by (vm_compute; reflexivity).
    rewrite forallb_forall in C. specialize (C (length s1)).
    assert (F : firstn (length s1) sch_aba = s1) by (rewrite Hs, firstn_app, Nat.sub_diag, firstn_all, app_nil_r; reflexivity).
    rewrite F in C. cbv zeta in C. rewrite Q in C. cbn [negb N.eqb Pos.eqb orb] in C.
    assert (LS : In (length s1) (seq 0 33)).
    { apply in_seq. split; [lia|]. assert (LL : length sch_aba = 32%nat) by reflexivity. rewrite Hs, app_length in LL. cbn [length] in LL. lia. }
    specialize (C LS). apply orb_true_iff in C as [C|C].
    2:{ apply negb_true_iff in C. apply nth_error_In in Et. rewrite <- not_true_iff_false in C. destruct C. apply existsb_exists. eexists. split; [exact Et|reflexivity]. }
    apply existsb_exists in C as (y & Y & Z). apply N.eqb_eq in Z. subst y. exact Y.
Qed.
Theorem C57_waiting_needed : exists g fuel todos sch loc, cfg_ok g /\ hdr_ok g /\ no_merge g /\
  placed_eagerly (exec_at loc g fuel) (start (init g) todos) sch loc /\
  ~ linearizable sempty (snd (exec_at loc g fuel (start (init g) todos) sch)).
Proof.
  exists cfg_nm, 50%nat, todos_aba, sch_aba, (twice 6 1). destruct cfg_nm_ok as (A & B & C).
  split; [exact A|]. split; [exact B|]. split; [exact C|]. split; [exact aba_placed|].
  assert (H : snd (exec_at (twice 6 1) cfg_nm 50 (start (init cfg_nm) todos_aba) sch_aba) =
    [EInv 0%nat (KInsert 5 1%N); EInv 1%nat (KInsert 5 2%N); ERes 1%nat (RCode Success);
     EInv 1%nat (KWrite 6 6%N); ERes 1%nat (RCode Success); EInv 1%nat (KWrite 7 7%N); ERes 1%nat (RCode Success); ERes 0%nat (RCode Success)]) by (vm_compute; reflexivity).
  rewrite H. apply lost_insert.
Qed.
Print Assumptions C57_waiting_needed.
