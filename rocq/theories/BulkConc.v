(** Concurrent calls and iterations after Bulkload. *)
From Coq Require Import ZArith NArith List Bool Lia Sorting.Sorted.
From Coq Require Import ZifyBool ZifyNat ZifyN.
From Verif Require Import Config Api Page Machine Tree Scan Bulk Spec ListFacts Valid SeqSpec SeqOps RunFacts BulkFacts
  BulkSpec BulkPar FuelFacts ConcSpec Conc Client ClientSpec MrgSpec SeqScan.
From Verif Require ConcChain ConcInv ConcMain ConcStart ClientFacts MrgStart MrgMain MrgClient.
Import ListNotations.
Open Scope Z_scope.

Section B.
Variable g : cfg.
Hypothesis OK : cfg_ok g.
Hypothesis FX : c_varlen g = false.
Hypothesis BC : bulk_ok g.

Lemma holds_find es : ascending es -> holds_only (fun k => find k es) es.
Proof. intros Hs k v. split; [apply find_in|apply in_find; exact Hs]. Qed.

Lemma loaded s M es s' : tree g s M -> MrgStart.addr_lt s -> ascending es -> es <> [] -> bulkloaded g es s s' ->
  tree g s' (fun k => find k es) /\ exchanged g (s_npid s) s (s_naddr s) s' /\ MrgStart.addr_lt s' /\ kept s s'.
Proof.
  intros HT AD Hs Hne [f T _ R|f f' T sch ts s1 HT' Hf W R].
  - destruct (bulk_addr g s M es T OK FX BC HT AD Hs Hne) as (F & s2 & H & T2 & X & KP & A).
    assert (E : s' = s2).
    { destruct (any_run (fun f => op_bulkload g f es T) s F (Done Success s2)) with (f := f) as [E|E]; auto.
      - intros. apply mono_bulkload; auto.
      - congruence.
      - congruence. }
    subst. auto.
  - destruct (par_tree g s M es T f sch OK FX BC HT AD Hs HT' Hf) as (_ & _ & K). rewrite W in K. cbn [fst snd] in K.
    destruct (K ts eq_refl) as (F & s2 & H & T2 & X & KP & A).
    assert (E : s' = s2).
    { destruct (any_run (fun f => bulk_join g f ts) s1 F (Done Success s2)) with (f := f') as [E|E]; auto.
      - intros. apply mono_join; auto.
      - congruence.
      - congruence. }
    subst. auto.
Qed.

(** ** Node merging switched off, into a new tree *)
Lemma loaded_plain s' : exchanged g (s_npid (init g)) (init g) (s_naddr (init g)) s' ->
  ConcStart.plain g s'.
Proof.
  intros (s1 & q & c1 & ([D1 D2 D3 D4 D5 D6] & F & N) & T1 & ->). change (s_root (init g)) with 1%N in *.
  change (s_npid (init g)) with 2%N in *. change (s_naddr (init g)) with 2%N in *.
  assert (K : forall p c, s_tbl (set_tbl (add_gc (set_root s1 q) [h_addr c1]) 1%N None) p = Some c -> s_tbl s1 p = Some c /\ (2 <= p)%N).
  { intros p c. destruct (N.eq_dec p 1) as [->|H]; [rewrite tbl_same; discriminate|]. rewrite tbl_other by auto. cbn. intros T. split; auto.
    destruct (N.lt_ge_cases p 2) as [L|L]; auto. destruct (D4 _ _ L T) as [_ X]. exfalso. apply X. cbn. unfold upd.
    destruct (N.eqb_spec p 1); [easy|reflexivity]. }
  destruct (D4 1%N c1 ltac:(lia) T1) as [A1 _].
  constructor.
  - intros p c T. apply K in T as [T L]. destruct (D2 _ _ L T) as [H1 H2]. split; [exact H1|cbn; lia].
  - intros p r c d Tp Tr. apply K in Tp as [Tp Lp]. apply K in Tr as [Tr Lr]. apply D3; auto.
  - intros p c T. apply K in T as [T L]. cbn. destruct (N.lt_ge_cases p (s_npid s1)) as [|H]; auto. rewrite (proj2 F) in T by auto. discriminate.
  - cbn. rewrite D6. cbn. constructor; [easy|constructor].
  - cbn. rewrite D6. cbn. intros a [<-|[]]. split; [lia|]. intros p c T. apply K in T as [T L]. destruct (D2 _ _ L T). lia.
Qed.

Section NoMerge.
Hypothesis HO : ConcChain.hdr_ok g.
Hypothesis NM : no_merge g.
Variables (es : list (key * val)) (s' : st).
Hypothesis Hs : ascending es.
Hypothesis Hne : es <> [].
Hypothesis BL : bulkloaded g es (init g) s'.
Variables (fuel : nat) (sch : list (tid * bool)).

Lemma init_addr : MrgStart.addr_lt (init g).
Proof. intros p c. cbn. unfold upd. destruct (N.eqb_spec p 1); [|discriminate]. intros X; inversion X. cbn. lia. Qed.
Lemma loaded_inv : exists N lv, ConcInv.inv g (ConcInv.mk_w s' (ConcStart.bgh s' (fun k => find k es) N lv)).
Proof.
  destruct (loaded (init g) sempty es s' (init_tree g OK) init_addr Hs Hne BL) as ((flat & N & lv & UP & GL & FM) & X & _).
  exists N, lv. eapply ConcStart.base_inv; eauto. apply loaded_plain; auto.
Qed.
Lemma loaded_calls todos : let e := exec g fuel (start s' todos) sch in
  linearizable (fun k => find k es) (snd e) /\ ~ crashed (fst e) /\
  (forall p n, s_tbl (c_mem (fst e)) p = Some (CBase n) -> n_size n <= c_page g) /\
  NoDup (s_gc (c_mem (fst e))) /\
  forall p c a, s_tbl (c_mem (fst e)) p = Some c -> In a (chain_addrs c) -> ~ In a (s_gc (c_mem (fst e))).
Proof.
  destruct loaded_inv as (N & lv & Hi). set (gh := ConcStart.bgh s' (fun k => find k es) N lv) in *.
  assert (C : ConcMain.cinv g (start s' todos) gh).
  { split; [exact Hi|]. cbn [c_mem c_thr start]. intros t th E. apply nth_error_In in E.
    apply in_map_iff in E as (td & <- & _). reflexivity. }
  destruct (ConcMain.explained_ok g OK HO NM fuel sch _ _ C) as [A [gh' B]]. cbv zeta. split; [|split; [|split]].
  - apply ConcMain.explained_lin in A. exact A.
  - eapply ConcMain.cinv_nocrash; eauto.
  - intros p n T. apply (ConcMain.cinv_pages g _ gh' p (CBase n) B T eq_refl).
  - apply (ConcMain.cinv_gc g _ gh' B).
Qed.
Lemma loaded_scans todos :
  kexplained g fuel (kstart s' todos) (fun k => find k es) no_view sch /\ ~ kcrashed (fst (kexec g fuel (kstart s' todos) sch)).
Proof.
  destruct loaded_inv as (N & lv & Hi). set (gh := ConcStart.bgh s' (fun k => find k es) N lv) in *.
  assert (C : ClientFacts.kinv g (kstart s' todos) gh no_view).
  { split; [exact Hi|]. cbn [k_mem k_thr kstart]. intros t th E. apply nth_error_In in E.
    apply in_map_iff in E as (td & <- & _). repeat split; reflexivity. }
  destruct (ClientFacts.kexplained_ok g OK HO NM fuel sch _ _ _ C) as [A (gh' & f' & B)]. split; [exact A|].
  eapply ClientFacts.kinv_nocrash; eauto.
Qed.
End NoMerge.

(** ** With node merging, into any tree *)
Section Merge.
Variables (f0 : nat) (pre : list call) (rs : list ret) (s0 : st) (es : list (key * val)) (s' : st).
Hypothesis R0 : run_calls g f0 pre (init g) = Done rs s0.
Hypothesis Hs : ascending es.
Hypothesis Hne : es <> [].
Hypothesis BL : bulkloaded g es s0 s'.
Lemma loaded_tree : tree g s' (fun k => find k es) /\ MrgStart.addr_lt s'.
Proof.
  destruct (MrgMain.calls_tree g OK f0 pre rs s0 R0) as (T & A & _).
  destruct (loaded s0 _ es s' T A Hs Hne BL) as (T' & _ & A' & _). auto.
Qed.
Lemma loaded_root : root_in_place (s_root s') s'.
Proof. eapply MrgMain.tree_stable. apply loaded_tree. Qed.
Variables (fuel : nat) (sch : list (tid * bool)).
Lemma loaded_mcalls todos : root_stays g fuel (s_root s') (start s' todos) sch ->
  let e := exec g fuel (start s' todos) sch in
  linearizable (fun k => find k es) (snd e) /\ ~ crashed (fst e).
Proof.
  intros RS. destruct loaded_tree as [T A]. destruct (MrgMain.tree_explained g OK s' _ fuel todos sch T A RS) as [X Y].
  split; [apply ConcMain.explained_lin; exact X|exact Y].
Qed.
Lemma loaded_mscans todos : begins_given todos \/ two_levels s' -> kroot_stays g fuel (s_root s') (kstart s' todos) sch ->
  kexplained g fuel (kstart s' todos) (fun k => find k es) no_view sch /\ ~ kcrashed (fst (kexec g fuel (kstart s' todos) sch)).
Proof. intros BG RS. destruct loaded_tree as [T A]. apply (MrgClient.tree_kexplained g OK s' _ fuel todos sch T A BG RS). Qed.

(** ** One thread *)
Lemma loaded_seq os b e : (forall k, b <> Some (k, false)) -> exists F s2 l,
  forall f, (F <= f)%nat -> run_calls g f os s' = Done (fst (spec_run (fun k => find k es) os)) s2 /\
    run (scan_all g f b e) s2 = Done l s2 /\ StronglySorted (fun x y => fst x < fst y) l /\
    (forall k v, In (k, v) l <-> snd (spec_run (fun k => find k es) os) k = Some v /\ ScanSpec.after b k /\ ScanSpec.before e k).
Proof.
  intros Hb. destruct loaded_tree as [T _].
  destruct (calls_ok g OK os s' _ T) as (F2 & s2 & T2 & H2).
  destruct (scan_tree g s2 _ b e OK T2) as (F3 & l & b' & H3 & S3 & I3 & B3).
  exists (max F2 F3), s2, l. intros f Hf. split; [apply H2; lia|]. split; [apply H3; lia|]. split; [exact S3|].
  destruct B3 as [->|(bk & E & _)]; [exact I3|destruct (Hb _ E)].
Qed.
End Merge.

(** ** The workers *)
Lemma workers f0 pre rs s0 es T f sch : run_calls g f0 pre (init g) = Done rs s0 -> ascending es ->
  1 < T <= Z.of_nat (length es) -> (length es + 1 < f)%nat ->
  let ws := bulk_workers g f es T in let w := work ws s0 sch in
  (forall m u, In m (fst w) -> m <> UB u /\ m <> Fuel) /\
  (exists sch' ts, fst (work ws s0 (sch ++ sch')) = map (fun x => Ret x) ts) /\
  (forall ts, fst w = map (fun x => Ret x) ts -> exists F s', forall f', (F <= f')%nat ->
     run (bulk_join g f' ts) (snd w) = Done Success s').
Proof.
  intros R0 Hs HT Hf ws w. destruct (MrgMain.calls_tree g OK f0 pre rs s0 R0) as (T0 & A & _).
  destruct (par_tree g s0 _ es T f sch OK FX BC T0 A Hs HT Hf) as (P1 & P2 & P3). split; [exact P1|]. split; [exact P2|].
  intros ts E. destruct (P3 ts E) as (F & s2 & H & _). eauto.
Qed.
End B.
