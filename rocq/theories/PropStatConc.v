(** Statistics collected while other threads work (C49). *)
From Coq Require Import ZArith NArith List Bool.
From Verif Require Import Config Api Page Machine Tree Scan Spec ScanSpec Valid ConcSpec ConcChain Client ClientSpec MrgSpec PropTree PropScan PropClient PropMerge.
From Verif Require ClientFacts MrgClient StatRace.
Import ListNotations.
Open Scope Z_scope.

(** C49 as stated is false: CollectStatisticalData walks down from a consolidated copy of
    the parent and loads the head of each child "while it is a remove delta"
    (bw_tree.hpp:729-733).  If a child is merged into its left neighbour after the copy was
    made, its slot holds the remove delta for good.  The other thread has returned from
    all its calls, the root node has stayed in place; still the collecting thread never
    returns, however it is scheduled ([sch2]) and however often its loops run ([f]). *)
Definition dels_st : list req := map (fun k => QCall (KDelete k)) [8; 9; 10; 11; 12; 13; 14].
Definition sch_st : list (tid * bool) :=
  repeat (0%nat, false) 0 ++ [(1%nat, false); (1%nat, false); (1%nat, false)] ++ repeat (0%nat, false) 110.
Theorem C49_collection_returns_refuted : exists g f0 os rs s0 cs sch drec, cfg_ok g /\
  run_calls g f0 os (init g) = Done rs s0 /\
  forall f sch2, let fuel := (f0 + f)%nat in let c0 := kstart s0 [cs; [QStat drec]] in
    let e := kexec g fuel c0 (sch ++ sch2) in
    kroot_stays g fuel (s_root s0) c0 (sch ++ sch2) /\
    (exists cu, nth_error (k_thr (fst e)) 0 = Some (KIdle cu [])) /\
    In (VInv 1%nat (QStat drec)) (snd e) /\ forall x, ~ In (VRes 1%nat x) (snd e).
Proof.
  destruct tree40_reached as (rs & R). exists cfg_p256, 60%nat, (writes 1 40), rs, tree40, dels_st, sch_st, 32.
  split; [exact cfg_p256_ok|]. split; [exact R|]. intros f.
  apply (StatRace.collector_waits cfg_p256 32 (57 + f) tree40 dels_st 0 110 2%N); vm_compute; reflexivity.
Qed.
Print Assumptions C49_collection_returns_refuted.

(** Nor does it create an epoch guard (bw_tree.hpp:561-571, 718-758): thread 1 is about to
    load the page with ID [p] and loads [c]; before it reads the page, thread 0 rewrites
    it and hands every record of [c] to the garbage collector. *)
Definition wr_st : list req := map (fun k => QCall (KWrite k 5%N)) [1; 2; 3; 4].
Definition next_load_of (c : kst) (t : tid) : option pid :=
  match nth_error (k_thr c) t with Some (KRun (Load p _) _) => Some p | _ => None end.
Theorem C49_unprotected_refuted : exists g f0 os rs s0 fuel todos sch1 sch2 p c, cfg_ok g /\
  run_calls g f0 os (init g) = Done rs s0 /\
  nth_error todos 1 = Some [QStat 32] /\
  next_load_of (fst (kexec g fuel (kstart s0 todos) sch1)) 1%nat = Some p /\
  s_tbl (k_mem (fst (kexec g fuel (kstart s0 todos) sch1))) p = Some c /\
  Forall (fun x => fst x = 0%nat) sch2 /\
  forall a, In a (chain_addrs c) ->
    In a (s_gc (k_mem (fst (kexec g fuel (kstart s0 todos) (sch1 ++ (1%nat, false) :: sch2))))).
Proof.
  destruct tree40_reached as (rs & R).
  assert (E : match next_load_of (fst (kexec cfg_p256 60 (kstart tree40 [wr_st; [QStat 32]]) (repeat (1%nat, false) 3))) 1%nat with
    | Some p =>
        match s_tbl (k_mem (fst (kexec cfg_p256 60 (kstart tree40 [wr_st; [QStat 32]]) (repeat (1%nat, false) 3)))) p with
        | Some c => forallb (fun a => existsb (N.eqb a) (s_gc (k_mem (fst (kexec cfg_p256 60 (kstart tree40 [wr_st; [QStat 32]])
                      (repeat (1%nat, false) 3 ++ (1%nat, false) :: repeat (0%nat, false) 100)))))) (chain_addrs c)
        | None => false end
    | None => false end = true) by (vm_compute; reflexivity).
  destruct (next_load_of _ _) as [p|] eqn:Ep; [|discriminate]. destruct (s_tbl _ p) as [c|] eqn:Ec; [|discriminate].
  exists cfg_p256, 60%nat, (writes 1 40), rs, tree40, 60%nat, [wr_st; [QStat 32]], (repeat (1%nat, false) 3), (repeat (0%nat, false) 100), p, c.
  split; [exact cfg_p256_ok|]. split; [exact R|]. split; [reflexivity|]. split; [exact Ep|]. split; [exact Ec|]. split.
  - apply Forall_forall. intros x Hx. apply repeat_spec in Hx. subst. reflexivity.
  - intros a Ha. rewrite forallb_forall in E. specialize (E a Ha).
    apply existsb_exists in E as (b & Hb & Eb). apply N.eqb_eq in Eb. subst. exact Hb.
Qed.
Print Assumptions C49_unprotected_refuted.

(** What holds, with merging disabled: if the collection returns, the first level has one
    page, the root, and every further level at least one; the collection changes nothing
    for the calls and iterations of the other threads; no thread runs into undefined
    behaviour. *)
Theorem C49_statistics_partial : forall g fuel todos sch, cfg_ok g -> hdr_ok g -> no_merge g ->
  kexplained g fuel (kstart (init g) todos) sempty no_view sch /\
  ~ kcrashed (fst (kexec g fuel (kstart (init g) todos) sch)).
Proof.
  exact (fun g fuel todos sch A B C =>
    conj (ClientFacts.client_explained g A B C fuel todos sch) (ClientFacts.client_nocrash g A B C fuel todos sch)).
Qed.
Print Assumptions C49_statistics_partial.

(** The same with merging while the root node stays in place. *)
Theorem C49_statistics_merging_partial g f0 os rs s0 fuel todos sch : cfg_ok g ->
  run_calls g f0 os (init g) = Done rs s0 ->
  begins_given todos \/ two_levels s0 ->
  kroot_stays g fuel (s_root s0) (kstart s0 todos) sch ->
  kexplained g fuel (kstart s0 todos) (snd (spec_run sempty os)) no_view sch /\
  ~ kcrashed (fst (kexec g fuel (kstart s0 todos) sch)).
Proof.
  exact (fun OK R B RS => conj (MrgClient.mrg_kexplained g OK f0 os rs s0 R fuel todos sch B RS)
    (MrgClient.mrg_knocrash g OK f0 os rs s0 R fuel todos sch B RS)).
Qed.
Print Assumptions C49_statistics_merging_partial.

(** What [kexplained] says of the statistics a thread is given. *)
Lemma explained_stat g fuel t l : forall sch c M f, kexplained g fuel c M f sch ->
  In (VRes t (AStat l)) (snd (kexec g fuel c sch)) -> stat_ok l.
Proof.
  induction sch as [|[t' b] sch IH]; intros c M f H Hin; [destruct Hin|].
  inversion H as [|? ? ? ? ? ? c' h M' f' Hr E Ke Hx]; subst. cbn [kexec] in Hin. rewrite E in Hin.
  specialize (IH c' M' _ Hx). destruct (kexec g fuel c' sch) as [c2 h2]. cbn [snd] in *.
  apply in_app_or in Hin as [Hin|Hin]; [|auto]. clear -Ke Hin.
  inversion Ke; subst; cbn [In] in Hin; try (destruct Hin as [Hin|[]]; inversion Hin; subst); try contradiction; auto.
Qed.
Theorem C49_levels_partial g fuel todos sch t l : cfg_ok g -> hdr_ok g -> no_merge g ->
  In (VRes t (AStat l)) (snd (kexec g fuel (kstart (init g) todos) sch)) ->
  exists used reserved below, l = (1, used, reserved) :: below /\ Forall (fun e => 1 <= fst (fst e)) below.
Proof.
  intros A B C H. apply (explained_stat g fuel t l sch _ _ _ (ClientFacts.client_explained g A B C fuel todos sch)) in H.
  destruct l as [|[[n u] r] below]; [destruct H|]. destruct H as [H1 H2]. cbn in H1. subst. eauto.
Qed.
Print Assumptions C49_levels_partial.

(** Merging disabled: thread 0 fills the tree and splits its pages while thread 1 collects
    statistics five times. *)
Definition todos_stc : list (list req) :=
  [map (fun k => QCall (KInsert (Z.of_nat k) 7%N)) (seq 1 24); repeat (QStat 32) 5].
Fixpoint turns_stc (n : nat) : list (tid * bool) :=
  match n with O => [] | S m => repeat (0%nat, false) 5 ++ (1%nat, false) :: turns_stc m end.
Definition stats_of (h : list kevent) : list (list (Z * Z * Z)) :=
  flat_map (fun e => match e with VRes _ (AStat l) => [l] | _ => [] end) h.
Example C49_case : cfg_ok cfg_kc /\ hdr_ok cfg_kc /\ no_merge cfg_kc /\
  stats_of (snd (kexec cfg_kc 60 (kstart (init cfg_kc) todos_stc) (turns_stc 80))) =
    [[(1, 96, 192)]; [(1, 96, 128)]; [(1, 128, 128)]; [(1, 64, 128)]; [(1, 64, 128); (2, 128, 256)]].
Proof. destruct cfg_kc_ok as (A & B & C). split; [exact A|]. split; [exact B|]. split; [exact C|]. vm_compute. reflexivity. Qed.
(** Merging: a leaf is merged away between two collections. *)
Definition todos_stm : list (list req) :=
  [map (fun k => QCall (KDelete k)) [8; 9; 10; 11; 12; 13; 14]; repeat (QStat 32) 9].
Example C49_merging_case :
  (exists rs, run_calls cfg_p256 60 (writes 1 40) (init cfg_p256) = Done rs tree40) /\
  two_levels tree40 /\
  kroot_stays cfg_p256 60 (s_root tree40) (kstart tree40 todos_stm) (turns_stc 40) /\
  stats_of (snd (kexec cfg_p256 60 (kstart tree40 todos_stm) (turns_stc 40))) =
    [[(1, 128, 256); (6, 912, 1632)]; [(1, 160, 288); (5, 816, 1408)];
     [(1, 160, 288); (5, 848, 1440)]; [(1, 160, 288); (5, 848, 1440)]].
Proof.
  split; [exact tree40_reached|]. split; [apply MrgClient.two_levels_ok; vm_compute; reflexivity|].
  split; [apply MrgClient.kroot_stays_ok; vm_compute; reflexivity|]. vm_compute. reflexivity.
Qed.
