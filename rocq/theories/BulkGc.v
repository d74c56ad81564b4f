(** Memory across Bulkload: what it retires, and the ownership invariant (GcFacts.v) of the
    tree it leaves behind. *)
From Coq Require Import ZArith NArith List Bool Lia Sorting.Sorted.
From Coq Require Import ZifyBool ZifyNat ZifyN.
From Verif Require Import Config Api Page Machine Tree Bulk Spec ListFacts Valid SeqSpec SeqOps RunFacts BulkFacts
  BulkSpec BulkPar Conc EpochSpec.
From Verif Require GcFacts EpochFacts MrgStart BulkConc MrgMain.
Import ListNotations.
Open Scope Z_scope.

Lemma adds_addrs c : map snd (gc_adds c) = chain_addrs c.
Proof. induction c; cbn; congruence. Qed.
Lemma adds_piece c k a : In (k, a) (gc_adds c) <-> piece c k a.
Proof.
  split.
  - induction c; cbn; intros H; repeat (destruct H as [H|H]; [inversion H; subst; constructor; fail|]);
      try contradiction; constructor; auto.
  - induction 1; cbn; auto.
Qed.

Lemma nd_snoc {A} (l : list A) x : NoDup l -> ~ In x l -> NoDup (l ++ [x]).
Proof.
  induction 1 as [|y l H1 H2 IH]; cbn; intros N; [constructor; [easy|constructor]|].
  constructor; [|apply IH; auto]. rewrite in_app_iff. intros [H|[->|[]]]; auto.
Qed.
Definition unlinked_b (s : st) (a : addr) : bool :=
  forallb (fun p => match s_tbl s p with Some c => negb (existsb (N.eqb a) (chain_addrs c)) | None => true end)
    (map N.of_nat (seq 0 (N.to_nat (s_npid s)))).
Lemma unlinked_ok s a : GcFacts.owns s -> unlinked_b s a = true -> ~ linked s a.
Proof.
  intros O H (p & c & T & X). unfold unlinked_b in H. rewrite forallb_forall in H. specialize (H p).
  rewrite T in H. assert (E : existsb (N.eqb a) (chain_addrs c) = true) by (apply existsb_exists; exists a; split; [auto|apply N.eqb_refl]).
  rewrite E in H. discriminate H. apply in_map_iff. exists (N.to_nat p). split; [lia|]. apply in_seq.
  destruct (N.lt_ge_cases p (s_npid s)) as [L|L]; [lia|]. rewrite (GcFacts.o_np _ O) in T by auto. discriminate.
Qed.
Section B.
Variable g : cfg.
Hypothesis OK : cfg_ok g.
Hypothesis FX : c_varlen g = false.
Hypothesis BC : bulk_ok g.

Lemma calls_owns f os rs s : run_calls g f os (init g) = Done rs s -> GcFacts.owns s.
Proof.
  intros E. destruct (GcFacts.start_inv g [[]]) as (G & Hi & Ht). cbn [c_mem start] in Hi.
  pose proof (Ht 0%nat) as C. cbn in C. destruct (MrgStart.calls_gc g f os _ _ _ G Hi C E) as (G' & H).
  eapply GcFacts.inv_owns; eauto.
Qed.

(** From any tree whose addresses obey the ownership invariant. *)
Section L.
Variables (s0 : st) (M0 : smap).
Hypothesis HT0 : tree g s0 M0.
Hypothesis HA0 : MrgStart.addr_lt s0.
Hypothesis O : GcFacts.owns s0.
Variable es : list (key * val).
Variable s' : st.
Hypothesis Hs : ascending es.
Hypothesis Hne : es <> [].
Hypothesis BL : bulkloaded g es s0 s'.

Lemma shape : exists c0 s1 p, s_tbl s0 (s_root s0) = Some c0 /\
  s' = set_tbl (add_gc (set_root s1 p) [h_addr c0]) (s_root s0) None /\ s_gc s1 = s_gc s0 /\ fresh s1 /\
  (s_naddr s0 <= s_naddr s1)%N /\ (s_npid s0 <= s_npid s1)%N /\
  (forall q, (q < s_npid s0)%N -> q <> s_root s0 -> s_tbl s' q = s_tbl s0 q) /\
  (forall q c, (s_npid s0 <= q)%N -> s_tbl s' q = Some c ->
     chain_addrs c = [h_addr c] /\ (s_naddr s0 <= h_addr c < s_naddr s1)%N) /\
  (forall q r c d, (s_npid s0 <= q)%N -> (s_npid s0 <= r)%N -> s_tbl s' q = Some c -> s_tbl s' r = Some d ->
     h_addr c = h_addr d -> q = r).
Proof.
  destruct (BulkConc.loaded g OK FX BC s0 M0 es s' HT0 HA0 Hs Hne BL) as (_ & (s1 & p & c1 & (D & F & N) & T1 & E) & _ & K1 & c0 & l & T0 & EG).
  assert (Eh : h_addr c1 = h_addr c0).
  { rewrite E in EG. cbn in EG. apply app_inj_tail in EG. apply EG. }
  rewrite Eh in E. exists c0, s1, p. split; auto. split; auto. split; [apply D|]. split; auto. split; [apply D|]. split; auto. split; auto.
  assert (K : forall q c, s_tbl s' q = Some c -> s_tbl s1 q = Some c).
  { intros q c. rewrite E. destruct (N.eq_dec q (s_root s0)) as [->|H]; [rewrite tbl_same; discriminate|rewrite tbl_other by auto; auto]. }
  split.
  - intros q c Hq Tq. apply K in Tq. destruct (d_ba _ _ _ _ _ D _ _ Hq Tq) as [[B _] L]. split; auto. destruct c; try discriminate. reflexivity.
  - intros q r c d Hq Hr Tq Tr. apply K in Tq. apply K in Tr. apply (d_in _ _ _ _ _ D q r c d); auto.
Qed.

Lemma owns_at : GcFacts.owns s'.
Proof.
  destruct shape as (c0 & s1 & p & T0 & E & EG & F & NA & NP & K1 & K2 & K3).
  assert (Rt : s_tbl s' (s_root s0) = None) by (rewrite E; apply tbl_same).
  assert (Hn : s_naddr s' = s_naddr s1) by (rewrite E; reflexivity).
  assert (Hg : s_gc s' = s_gc s0 ++ [h_addr c0]) by (rewrite E; cbn; rewrite EG; auto).
  assert (Old : forall q c, (q < s_npid s0)%N -> s_tbl s' q = Some c -> s_tbl s0 q = Some c /\ q <> s_root s0).
  { intros q c L T. destruct (N.eq_dec q (s_root s0)) as [->|H]; [congruence|]. split; auto. rewrite <- K1; auto. }
  constructor.
  - intros q c T. destruct (N.lt_ge_cases q (s_npid s0)) as [L|L].
    + apply Old in T as [T _]; auto. eapply GcFacts.o_nd; eauto.
    + destruct (K2 _ _ L T) as [-> _]. constructor; [intros []|constructor].
  - intros q r c d x Tq Tr Xq Xr. destruct (N.lt_ge_cases q (s_npid s0)) as [Lq|Lq], (N.lt_ge_cases r (s_npid s0)) as [Lr|Lr].
    + apply Old in Tq as [Tq _]; auto. apply Old in Tr as [Tr _]; auto. apply (GcFacts.o_dj _ O _ _ _ _ _ Tq Tr Xq Xr).
    + apply Old in Tq as [Tq _]; auto. apply (GcFacts.o_lt _ O _ _ _ Tq) in Xq. destruct (K2 _ _ Lr Tr) as [B L]. rewrite B in Xr. destruct Xr as [<-|[]]. lia.
    + apply Old in Tr as [Tr _]; auto. apply (GcFacts.o_lt _ O _ _ _ Tr) in Xr. destruct (K2 _ _ Lq Tq) as [B L]. rewrite B in Xq. destruct Xq as [<-|[]]. lia.
    + destruct (K2 _ _ Lq Tq) as [B1 _]. destruct (K2 _ _ Lr Tr) as [B2 _]. rewrite B1 in Xq. rewrite B2 in Xr.
      destruct Xq as [<-|[]], Xr as [Ex|[]]. apply (K3 q r c d); auto.
  - intros q c x T X. rewrite Hn. destruct (N.lt_ge_cases q (s_npid s0)) as [L|L].
    + apply Old in T as [T _]; auto. apply (GcFacts.o_lt _ O _ _ _ T) in X. lia.
    + destruct (K2 _ _ L T) as [B Z]. rewrite B in X. destruct X as [<-|[]]. lia.
  - rewrite Hg. apply nd_snoc.
    + apply O.
    + intros X. apply (GcFacts.o_gl _ O) in X as [_ X]. apply (X _ _ T0). apply GcFacts.h_addr_in.
  - intros x. rewrite Hg, Hn, in_app_iff. intros [X|[<-|[]]].
    + apply (GcFacts.o_gl _ O) in X as [X Y]. split; [lia|]. intros q c T Z. destruct (N.lt_ge_cases q (s_npid s0)) as [L|L].
      * apply Old in T as [T _]; auto. apply (Y _ _ T Z).
      * destruct (K2 _ _ L T) as [B W]. rewrite B in Z. destruct Z as [<-|[]]. lia.
    + pose proof (GcFacts.o_lt _ O _ _ _ T0 (GcFacts.h_addr_in c0)) as Lx. split; [lia|]. intros q c T Z. destruct (N.lt_ge_cases q (s_npid s0)) as [L|L].
      * apply Old in T as [T Hq]; auto. apply Hq. apply (GcFacts.o_dj _ O _ _ _ _ _ T T0 Z (GcFacts.h_addr_in c0)).
      * destruct (K2 _ _ L T) as [B W]. rewrite B in Z. destruct Z as [Ez|[]]. lia.
  - intros q Hq. assert (Hq' : (s_npid s1 <= q)%N) by (rewrite E in Hq; exact Hq). rewrite E.
    destruct (N.eq_dec q (s_root s0)) as [->|H]; [apply tbl_same|]. rewrite tbl_other by auto. apply F. auto.
Qed.

(** What is registered, and what is lost. *)
Lemma retires_at : exists c0, s_tbl s0 (s_root s0) = Some c0 /\ s_gc s' = s_gc s0 ++ map snd (bulk_adds c0) /\
  forall a, linked s0 a -> linked s' a \/ In a (s_gc s') \/ (In a (chain_addrs c0) /\ a <> h_addr c0).
Proof.
  destruct shape as (c0 & s1 & p & T0 & E & EG & F & NA & NP & K1 & K2 & K3). exists c0. split; auto.
  assert (Hg : s_gc s' = s_gc s0 ++ [h_addr c0]) by (rewrite E; cbn; rewrite EG; auto). split; auto.
  intros a (q & c & T & X).
  destruct (N.eq_dec q (s_root s0)) as [->|H].
  - assert (c = c0) by congruence. subst c. destruct (N.eq_dec a (h_addr c0)) as [->|Hd]; auto.
    right. left. rewrite Hg. apply in_app_iff. right. left. auto.
  - left. exists q, c. split; auto. rewrite K1; auto. destruct (N.lt_ge_cases q (s_npid s0)) as [L|L]; auto.
    rewrite (GcFacts.o_np _ O) in T by auto. discriminate.
Qed.
Lemma page_at n : s_tbl s0 (s_root s0) = Some (CBase n) ->
  nothing_lost s0 s' /\ s_gc s' = s_gc s0 ++ map snd (bulk_adds (CBase n)) /\
  forall k a, In (k, a) (bulk_adds (CBase n)) -> piece (CBase n) k a.
Proof.
  intros T. destruct retires_at as (c0 & T0 & Hg & K). assert (c0 = CBase n) by congruence. subst c0. split; [|split; auto].
  - intros a H. destruct (K a H) as [Y|[Y|[Y1 Y2]]]; auto. destruct Y1 as [Y1|[]]. now destruct Y2.
  - intros k a [Y|[]]. inversion Y. constructor.
Qed.

Lemma memory_at fuel todos : let c0 := start s' todos in
  (forall sch, let s := c_mem (fst (exec g fuel c0 sch)) in NoDup (s_gc s) /\ forall a, linked s a -> ~ In a (s_gc s)) /\
  (forall sch1 sch2 t a, let e := fst (exec g fuel c0 sch1) in
     obtains e t a -> (forall x, ~ In (ERes t x) (snd (exec g fuel e sch2))) -> ~ may_free g fuel c0 (sch1 ++ sch2) a) /\
  (forall sch1 sch2, let e1 := fst (exec g fuel c0 sch1) in let e2 := fst (exec g fuel c0 (sch1 ++ sch2)) in
     (forall th, In th (c_thr e2) -> exists td, th = TIdle td) -> nothing_lost (c_mem e1) (c_mem e2)).
Proof.
  pose proof owns_at as O'. cbn zeta. split; [|split].
  - intros sch. destruct (GcFacts.gc_once_from g s' fuel todos sch O') as [A B]. split; auto.
    intros a (p & c & T & X). eapply B; eauto.
  - intros. eapply EpochFacts.not_freed_from; eauto.
  - intros sch1 sch2 I a (p & c & T & X). destruct (GcFacts.no_leak_from g s' fuel todos sch1 sch2 p c a O' T X I) as [Y|(q & d & Y)]; auto.
    left. exists q, d. auto.
Qed.
End L.

(** From the trees that calls lead to. *)
Section C.
Variables (f0 : nat) (pre : list call) (rs : list ret) (s0 : st).
Hypothesis R0 : run_calls g f0 pre (init g) = Done rs s0.
Variable es : list (key * val).
Variable s' : st.
Hypothesis Hs : ascending es.
Hypothesis Hne : es <> [].
Hypothesis BL : bulkloaded g es s0 s'.
Lemma loaded_owns : GcFacts.owns s'.
Proof.
  destruct (MrgMain.calls_tree g OK f0 pre rs s0 R0) as (T & A & _).
  exact (owns_at s0 _ T A (calls_owns _ _ _ _ R0) es s' Hs Hne BL).
Qed.
Lemma loaded_page n : s_tbl s0 (s_root s0) = Some (CBase n) ->
  nothing_lost s0 s' /\ s_gc s' = s_gc s0 ++ map snd (bulk_adds (CBase n)) /\
  forall k a, In (k, a) (bulk_adds (CBase n)) -> piece (CBase n) k a.
Proof.
  destruct (MrgMain.calls_tree g OK f0 pre rs s0 R0) as (T & A & _).
  exact (page_at s0 _ T A (calls_owns _ _ _ _ R0) es s' Hs Hne BL n).
Qed.
Lemma loaded_memory fuel todos : let c0 := start s' todos in
  (forall sch, let s := c_mem (fst (exec g fuel c0 sch)) in NoDup (s_gc s) /\ forall a, linked s a -> ~ In a (s_gc s)) /\
  (forall sch1 sch2 t a, let e := fst (exec g fuel c0 sch1) in
     obtains e t a -> (forall x, ~ In (ERes t x) (snd (exec g fuel e sch2))) -> ~ may_free g fuel c0 (sch1 ++ sch2) a) /\
  (forall sch1 sch2, let e1 := fst (exec g fuel c0 sch1) in let e2 := fst (exec g fuel c0 (sch1 ++ sch2)) in
     (forall th, In th (c_thr e2) -> exists td, th = TIdle td) -> nothing_lost (c_mem e1) (c_mem e2)).
Proof.
  destruct (MrgMain.calls_tree g OK f0 pre rs s0 R0) as (T & A & _).
  exact (memory_at s0 _ T A (calls_owns _ _ _ _ R0) es s' Hs Hne BL fuel todos).
Qed.
End C.
End B.
