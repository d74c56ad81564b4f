(** Memory over the life of a tree of fixed-length nodes: the ownership invariant (GcFacts.v)
    holds after any sequence of programs and Bulkloads. *)
From Coq Require Import ZArith NArith List Bool Lia.
From Verif Require Import Config Api Page Machine Tree Scan Bulk Spec Valid SeqSpec SeqOps RunFacts BulkSpec Conc EpochSpec
  ByteSeqSpec ByteLifeSpec ByteLifeMain BulkGc.
From Verif Require GcFacts KGcFacts MrgStart.
Import ListNotations.
Open Scope Z_scope.

Section L.
Variable g : cfg.

Lemma ro_collect_all : forall f pg it, GcFacts.ro g (collect g f pg it).
Proof.
  induction f as [|f IH]; intros pg it; cbn [collect]; [apply GcFacts.ro_fuel|].
  apply GcFacts.ro_bind; [apply KGcFacts.ro_has_record|]. intros [[more pg1] it1]. destruct more; [|apply GcFacts.ro_ret].
  destruct (get_record pg1 it1); [|apply GcFacts.ro_ub]. apply GcFacts.ro_bind; [apply IH|]. intros r. apply GcFacts.ro_ret.
Qed.
Lemma ro_scan_all f b e : GcFacts.ro g (scan_all g f b e).
Proof. apply GcFacts.ro_bind; [apply KGcFacts.ro_op_scan|]. intros [pg it]. apply ro_collect_all. Qed.

Lemma item_gc f i s j s' G : GcFacts.inv g G s -> GcFacts.clean tt (GcFacts.g_hold G 0%nat) ->
  run (item_prog g f i) s = Done j s' -> exists G', GcFacts.inv g G' s' /\ GcFacts.clean tt (GcFacts.g_hold G' 0%nat).
Proof.
  intros Hi C E. destruct i as [o|b e]; cbn [item_prog] in E; rewrite run_bind in E.
  - destruct (run (call_prog g f o) s) as [r s1| |] eqn:E1; try discriminate. injection E as _ <-.
    exact (MrgStart.run_gc g _ _ _ _ _ Hi (GcFacts.wp_call g f o _ C) E1).
  - destruct (run (scan_all g f b e) s) as [l s1| |] eqn:E1; try discriminate. injection E as _ <-.
    apply (MrgStart.run_gc g (bind (scan_all g f b e) (fun _ => Ret (RCode Success))) s (RCode Success) s1 G Hi).
    + apply KGcFacts.wp_clean_ro; auto. apply GcFacts.ro_bind; [apply ro_scan_all|]. intros l0. apply GcFacts.ro_ret.
    + rewrite run_bind, E1. reflexivity.
Qed.
Lemma items_gc f : forall is s js s' G, GcFacts.inv g G s -> GcFacts.clean tt (GcFacts.g_hold G 0%nat) ->
  run_items g f is s = Done js s' -> exists G', GcFacts.inv g G' s'.
Proof.
  induction is as [|i is IH]; intros s js s' G Hi C E; cbn [run_items] in E; [injection E as _ <-; eauto|].
  destruct (run (item_prog g f i) s) as [j s1| |] eqn:E1; try discriminate.
  destruct (item_gc _ _ _ _ _ _ Hi C E1) as (G1 & H1 & C1).
  destruct (run_items g f is s1) as [js1 s2| |] eqn:E2; try discriminate. injection E as _ <-. eapply IH; eauto.
Qed.
Lemma items_owns f is s js s' : GcFacts.owns s -> run_items g f is s = Done js s' -> GcFacts.owns s'.
Proof.
  intros O E. destruct (GcFacts.start_owns g s [[]] O) as (G & Hi & Ht). cbn [c_mem start] in Hi.
  pose proof (Ht 0%nat) as C. cbn in C. destruct (items_gc f is s js s' G Hi C E) as (G' & H). eapply GcFacts.inv_owns; eauto.
Qed.

Hypothesis OK : cfg_ok g.
Hypothesis FX : c_varlen g = false.
Hypothesis BC : bulk_ok g.
Lemma lived_owns K M s : lived g K M s -> GcFacts.owns s.
Proof.
  induction 1 as [|M s f is js s' H IH Hk R|M s es s' M' H IH Hk Ha Hn B HM].
  - apply GcFacts.init_owns.
  - eapply items_owns; eauto.
  - destruct (lived_tree g K OK FX BC (fun _ _ => 0%N) M s H) as [T A]. exact (owns_at g OK FX BC s M T A IH es s' Ha Hn B).
Qed.
Lemma lived_retires K M s es s' : lived g K M s -> ascending es -> es <> [] -> bulkloaded g es s s' ->
  exists c0, s_tbl s (s_root s) = Some c0 /\ s_gc s' = s_gc s ++ map snd (bulk_adds c0) /\
    forall a, linked s a -> linked s' a \/ In a (s_gc s') \/ (In a (chain_addrs c0) /\ a <> h_addr c0).
Proof.
  intros H Ha Hn B. destruct (lived_tree g K OK FX BC (fun _ _ => 0%N) M s H) as [T A].
  exact (retires_at g OK FX BC s M T A (lived_owns K M s H) es s' Ha Hn B).
Qed.
End L.
