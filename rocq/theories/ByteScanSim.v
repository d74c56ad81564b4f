(** The clients of ByteScan.v follow the clients of Client.v. *)
From Coq Require Import ZArith NArith List Bool Lia.
From Coq Require Import ZifyBool ZifyNat ZifyN.
From Verif Require Import Config Api Spec Page Machine Tree Scan Client Valid Bytes ByteCons ByteConsSpec ByteConsFacts ByteFind ByteFindSpec
  ByteTree ByteTreeSpec ByteTreeRel ByteTreeSim ByteTreeMain ByteScan ByteScanSpec.
Import ListNotations.
Open Scope Z_scope.

Lemma nth_ext_error {A} : forall l l' : list A, (forall i, nth_error l i = nth_error l' i) -> l = l'.
Proof.
  induction l as [|x l IH]; intros [|y l'] H; auto; try (specialize (H 0%nat); discriminate).
  pose proof (H 0%nat) as H0. injection H0 as ->. f_equal. apply IH. intros i. exact (H (S i)).
Qed.
(** Copying keeps what has been copied. *)
Lemma cur_copy g sz r s : cs_pend s = false -> cs_cur (copy_rec g sz r s) = cs_cur s ++ [r] /\ cs_pend (copy_rec g sz r s) = false.
Proof. intros E. unfold copy_rec. rewrite E. auto. Qed.
Lemma cur_recs g ps rs : forall s, cs_pend s = false ->
  cs_cur (snd (merge_recs g ps rs [] s)) = cs_cur s ++ rs /\ fst (merge_recs g ps rs [] s) = [].
Proof.
  induction rs as [|[k v] rs IH]; intros s E; cbn [merge_recs flush_below fst snd]; [rewrite app_nil_r; auto|].
  destruct (cur_copy g (recsz g ps k) (k, v) s E) as [A B]. destruct (IH _ B) as [-> ->]. rewrite A, <- app_assoc. auto.
Qed.
Lemma scan_base_recs g inner n a ra q : consolidate g inner a ra [n] [] false true = COne q -> n_recs q = n_recs n.
Proof.
  unfold consolidate. cbn [rev app merge_nodes last hd].
  destruct (merge_node g (paysz g inner) n [] (mk_cs None [] (c_hdr g) false)) as [ds1 s1] eqn:Em.
  assert (E : ds1 = [] /\ cs_cur s1 = n_recs n).
  { unfold merge_node in Em. destruct (n_inner n && is_leftmost n).
    - destruct (n_recs n) as [|r rt] eqn:Er; [injection Em as <- <-; auto|].
      destruct (cur_copy g (nullsz g) r (mk_cs None [] (c_hdr g) false) eq_refl) as [A B].
      destruct (cur_recs g (paysz g inner) rt _ B) as [C1 C2]. rewrite Em in C1, C2. cbn [fst snd] in *. rewrite C1, A. auto.
    - destruct (cur_recs g (paysz g inner) (n_recs n) (mk_cs None [] (c_hdr g) false) eq_refl) as [C1 C2]. rewrite Em in C1, C2. auto. }
  destruct E as [-> E]. cbn [fold_left]. destruct (low_of _ _ _ _). intros Q. injection Q as <-. exact E.
Qed.
(** A page built for a scan differs from another one in its size only. *)
Lemma scan_as_one g inner a ra ns ds n : consolidate g inner a ra ns ds false true = COne n ->
  exists n', consolidate g inner a ra ns ds false false = COne n' /\
    n_addr n = a /\ n_inner n = inner /\ n_next n = n_next (hd (dummy_node inner) ns) /\
    n_low n = n_low n' /\ n_high n = n_high n' /\ n_recs n = n_recs n' /\ n_inner n' = inner.
Proof.
  unfold consolidate. destruct (low_of _ _ _ _) as [low add]. intros E. injection E as <-. eexists. split; [reflexivity|]. repeat split.
Qed.

Section Sim.
Context {P D : Type}.
Variable C : klass P D.
Variable lt : list N -> list N -> bool.
Variable g : cfg.
Variables (K : Z -> Prop) (ek : Z -> list N) (evl : N -> list N).
Variables (NP : node -> P -> Prop) (DP : delta -> D -> Prop).
Hypothesis HK : klass_ok C lt g K ek evl NP DP.
Variables (pmem : P -> mem) (stat_mem : pid -> mem).

Notation ch := (tchain P D).
Notation crl := (crl C K ek NP DP).
Notation prl := (prl K NP).
Notation sane := (sane g).
Notation prel := (prel C g K ek NP DP).
Notation prel_bind := (prel_bind C g K ek NP DP).
Ltac pb := eapply prel_bind.
Ltac ub := apply pr_ub.
Ltac re := apply pr_ret; auto.

Lemma scan_page_sim m c b : crl c b -> sane c ->
  prel (fun p n => prl n p /\ n_inner n = negb (h_leaf c)) (xscan_page C m b) (scan_page g c).
Proof.
  intros Hc Hs. unfold xscan_page, scan_page. destruct (dc_sort c [] []) as [[ds ns]|] eqn:Es; [|ub].
  destruct (c_maxd g <? Z.of_nat (length ds)); [ub|]. destruct (Z.ltb_spec (2 * c_page g) (scan_bytes g (negb (h_leaf c)) ns ds)) as [|Hf]; [ub|].
  destruct b as [x|a l]; [|cbn in Hc; subst c; discriminate].
  rewrite (x_leaf_ok C lt g K ek evl NP DP HK c _ Hc). pose proof (sane_lev g c Hs) as Lv.
  set (inner := negb (h_leaf c)) in *.
  destruct (consolidate g inner 0%N 0%N ns ds false true) as [n| |] eqn:Ec; try ub.
  destruct (scan_as_one g inner 0%N 0%N ns ds n Ec) as (n' & Ec' & A1 & A2 & A3 & A4 & A5 & A6 & A7).
  cbn [ByteTreeRel.crl] in Hc.
  assert (PO : pages_ok inner ns /\ (inner = true -> n_recs n <> [])).
  { destruct c as [n0|d nx|d n0 nx|a l]; [| | |destruct x; contradiction]; cbn [ByteTreeSpec.sane] in Hs.
    - cbn in Es. injection Es as <- <-. cbn [lev] in Lv. rewrite Lv in Hs. split.
      + split; [discriminate|]. split; [constructor; auto|]. split; [constructor|]. cbn [last]. intros E. apply andb_prop in E as [E _]. auto.
      + rewrite (scan_base_recs _ _ _ _ _ _ Ec). auto.
    - destruct Hs as [_ Hs]. destruct (Hs _ _ Es) as [Q1 Q2]. split; auto. intros Hi. rewrite A6. eapply Q2; eauto.
    - destruct Hs as [_ Hs]. destruct (Hs _ _ Es) as [Q1 Q2]. split; auto. intros Hi. rewrite A6. eapply Q2; eauto. }
  destruct PO as [PO1 PO2]. destruct (rep_ok C K ek NP DP inner c x Hc Lv) as [R1 R2].
  destruct (sort_good C K ek NP DP c x [] [] ds ns inner Hc Lv Es) as [G1 G2]; [constructor|constructor|].
  pose proof (cons_good g K inner 0%N 0%N ns ds false PO1 G2 G1) as CG. rewrite Ec' in CG. destruct CG as [CG1 _].
  destruct (ko_scan _ _ _ _ _ _ _ _ HK inner c (bodies x) ds ns n 0%N 0%N m m (Z.to_N (x_size C (TLive x))) R1 R2 Es PO1 Ec PO2) as (q & Q1 & Q2); [lia|].
  rewrite Q1. re. pose proof (sort_next C K ek NP DP c x [] [] ds ns (dummy_node inner) Hc Es) as En. cbn in En.
  split; auto. unfold ByteTreeRel.prl. cbn [tp_addr tp_inner tp_next tp_body]. rewrite A3, En. do 3 (split; [congruence|]). split; auto.
  destruct CG1 as (B1 & B2 & B3 & B4). unfold ngood. rewrite A2, A4, A5, A6, A7 in *. split; auto.
  intros i k v Hn Hk. rewrite A6 in Hn. apply (B1 i k v Hn). unfold nokey, is_leftmost in *. rewrite <- A4. exact Hk.
Qed.

Lemma cons_for_scan_sim m k closed : K k -> forall fuel stack,
  prel (fun x y => prl (fst y) (fst x) /\ snd x = snd y)
    (xcons_for_scan C lt g m fuel (ek k) closed stack) (cons_for_scan g fuel k closed stack).
Proof.
  intros Hk. induction fuel as [|f IH]; intros stack; cbn [xcons_for_scan cons_for_scan]; [apply pr_fuel|].
  pb; [apply (get_head_sim C lt g K ek evl NP DP HK); auto|]. intros [ob st] [oc st'] [O E]. cbn in O, E. subst st.
  destruct ob as [b|], oc as [c|]; cbn in O; try contradiction; [|ub]. destruct O as (Hc & Hs & Er). rewrite Er.
  destruct b as [x|a l]; [|cbn in Hc; subst c; discriminate].
  pb; [apply scan_page_sim; eauto|]. intros p n [Hp _].
  rewrite (search_ok C lt g K ek evl NP DP HK n p (tp_inner p) k Hk Hp). destruct (node_search n k) as [found pos]. re.
Qed.

Lemma leftmost_ok : forall c x v, lrl C K ek NP DP c x -> lev true c -> leftmost_child c = Some v -> b_leftmost C x = v.
Proof.
  induction c as [n|d nx IH|d n nx IH|]; intros [p|bd bx|bd p bx] v S Lv E; try contradiction; cbn in S, Lv, E; cbn [b_leftmost].
  - destruct (n_recs n) as [|[k w] t] eqn:Er; [discriminate|]. injection E as <-.
    assert (Hp : pay_at n 0 = Some w) by (unfold pay_at; cbn; rewrite Er; reflexivity).
    pose proof (pay_ok C lt g K ek evl NP DP HK n p 0 w S Hp) as Ev. pose proof (pay_max K NP n p 0 w S Lv Hp) as Hv.
    rewrite Lv in Ev. cbn [Z.to_N evi] in Ev. rewrite Ev. apply unle8, Hv.
  - apply IH; auto; apply S || apply Lv.
  - apply IH; auto; apply S || apply Lv.
Qed.
Lemma leftmost_loop_sim : forall fuel stack, prel eq (xleftmost_loop C fuel stack) (leftmost_loop fuel stack).
Proof.
  induction fuel as [|f IH]; intros stack; cbn [xleftmost_loop leftmost_loop]; [apply pr_fuel|].
  destruct stack as [|p rest]; [ub|]. cbn [xload load xbind bind]. apply pr_load. intros b c Hc Hs.
  rewrite (x_leaf_ok C lt g K ek evl NP DP HK c b Hc). destruct (h_leaf c) eqn:El; [re|].
  destruct (leftmost_child c) as [v|] eqn:Ev; [|ub]. destruct b as [x|a l]; [|cbn in Hc; subst c; discriminate].
  pose proof (sane_lev g c Hs) as Lv. rewrite El in Lv. rewrite (leftmost_ok c x v Hc Lv Ev). apply IH.
Qed.
Lemma leftmost_head_sim : forall fuel p, prel (fun b c => crl c b /\ sane c) (xleftmost_head fuel p) (leftmost_head fuel p).
Proof.
  induction fuel as [|f IH]; intros p; cbn [xleftmost_head leftmost_head]; [apply pr_fuel|].
  cbn [xload load xbind bind]. apply pr_load. intros b c Hc Hs. destruct b as [x|a l].
  - rewrite (crl_live C K ek NP DP c x Hc). re.
  - cbn in Hc. subst c. apply IH.
Qed.

Lemma end_ok n p e : prl n p -> bound_key K e -> x_end C lt p (enc_bound ek e) = search_end n e.
Proof.
  intros S He. pose proof S as (_ & Ei & _ & HN & _ & _ & Gh & _).
  destruct (ko_page _ _ _ _ _ _ _ _ HK _ _ (tp_inner p) HN) as (E1 & _ & _ & _ & E5).
  assert (R : x_rightmost C lt p (enc_bound ek e) = is_rightmost_of n e).
  { unfold x_rightmost, is_rightmost_of. cbn [t_find q_high]. rewrite E5. destruct (n_high n) as [h|]; cbn [option_map]; auto.
    destruct e as [[k cl]|]; cbn [enc_bound option_map fst snd]; auto. cbn in He, Gh. rewrite !(ko_lt _ _ _ _ _ _ _ _ HK) by auto. reflexivity. }
  unfold x_end, search_end. rewrite R. cbn [t_find q_cnt]. rewrite E1, nat_N_Z.
  destruct (is_rightmost_of n e); auto. destruct e as [[k cl]|]; cbn [enc_bound option_map fst snd]; auto.
  pose proof (search_ok C lt g K ek evl NP DP HK n p (tp_inner p) k He S) as Q. rewrite Q. reflexivity.
Qed.

Definition itrl (b : biter) (i : iter) : Prop :=
  bi_pos b = i_pos i /\ bi_end b = i_end i /\ bi_isend b = i_isend i /\ bi_ekey b = enc_bound ek (i_ekey i) /\ bound_key K (i_ekey i).
Definition onrl (x : tpage P * biter) (y : node * iter) : Prop := prl (fst y) (fst x) /\ itrl (snd x) (snd y).

Lemma scan_sim m fuel b e : bound_key K b -> bound_key K e ->
  prel onrl (xscan C lt g m fuel (enc_bound ek b) (enc_bound ek e)) (op_scan g fuel b e).
Proof.
  intros Hb He. unfold xscan, op_scan. pb.
  - instantiate (1 := fun x y => prl (fst y) (fst x) /\ snd x = snd y). destruct b as [[k cl]|]; cbn [enc_bound option_map fst snd].
    + pb; [apply (search_leaf_sim C lt g K ek evl NP DP HK); auto|]. intros x st ->. apply cons_for_scan_sim; auto.
    + pb; [apply pr_loadroot; intros r _; apply leftmost_loop_sim|]. intros x st ->. destruct st as [|p st]; [ub|].
      pb; [apply leftmost_head_sim|]. intros h c [Hc Hs]. pb; [apply scan_page_sim; eauto|]. intros q n [Hq _]. re.
  - intros [p pos] [n pos'] [Hp E]. cbn [fst snd] in *. subst pos'. rewrite (end_ok n p e Hp He).
    destruct (search_end n e) as [ie ep]. re. split; auto. repeat split; auto.
Qed.
Lemma sibling_sim fuel p n k e : prl n p -> K k -> bound_key K e ->
  prel onrl (xsibling_scan C lt g pmem fuel p (ek k) (enc_bound ek e)) (sibling_scan g fuel (n_next n) k e).
Proof.
  intros S Hk He. unfold xsibling_scan, sibling_scan. pose proof S as (_ & _ & -> & _). pb; [apply cons_for_scan_sim; auto|].
  intros [q pos] [n' pos'] [Hp E]. cbn [fst snd] in *. subst pos'. rewrite (end_ok n' q e Hp He).
  destruct (search_end n' e) as [ie ep]. re. split; auto. repeat split; auto.
Qed.
Lemma has_record_sim : forall fuel p n bi it, prl n p -> itrl bi it ->
  prel (fun x y => fst (fst x) = fst (fst y) /\ prl (snd (fst y)) (snd (fst x)) /\ itrl (snd x) (snd y))
    (xhas_record C lt g pmem fuel p bi) (has_record g fuel n it).
Proof.
  induction fuel as [|f IH]; intros p n bi it S I; cbn [xhas_record has_record]; [apply pr_fuel|].
  pose proof I as (I1 & I2 & I3 & I4 & I5). rewrite I1, I2, I3, I4. destruct (i_pos it <? i_end it); [re|].
  destruct (i_isend it); [re|]. pose proof S as (_ & Ei & _ & HN & _ & _ & Gh & _).
  destruct (ko_page _ _ _ _ _ _ _ _ HK _ _ (tp_inner p) HN) as (_ & _ & _ & _ & E5). cbn [t_find q_high]. rewrite E5.
  destruct (n_high n) as [h|] eqn:Eh; cbn [option_map]; [|ub]. pb; [apply sibling_sim; auto|].
  intros [p' bi'] [n' it'] [Sp Si]. apply IH; auto.
Qed.
Lemma get_record_ok p n bi it k v : prl n p -> itrl bi it -> get_record n it = Some (k, v) ->
  xget_record C p bi = Some (ek k, evl v).
Proof.
  intros S (I1 & _) E. unfold get_record in E. destruct (n_inner n) eqn:Ei; [discriminate|].
  pose proof S as (_ & Ep & _ & HN & _). destruct (ko_page _ _ _ _ _ _ _ _ HK _ _ false HN) as (E1 & E2 & _).
  unfold xget_record. cbn [t_find q_cnt q_key q_pay]. rewrite Ep, Ei, E1, I1. cbn [orb].
  assert (L : (Z.to_nat (i_pos it) < length (n_recs n))%nat) by (apply nth_error_Some; congruence).
  replace (i_pos it <? Z.of_N (N.of_nat (length (n_recs n)))) with true by lia. cbn [negb].
  replace (Z.to_N (i_pos it)) with (N.of_nat (Z.to_nat (i_pos it))) by lia.
  rewrite (E2 _ _ _ E) by (unfold nokey; rewrite Ei; reflexivity).
  pose proof (ko_ppay _ _ _ _ _ _ _ _ HK _ _ _ _ _ HN E) as Q. rewrite Ei in Q. cbn [evi] in Q. rewrite Q. reflexivity.
Qed.

Lemma valid_head_sim : forall fuel p, prel (fun b c => crl c b /\ sane c) (xvalid_head C g fuel p) (valid_head_not_removed g fuel p).
Proof.
  induction fuel as [|f IH]; intros p; cbn [xvalid_head valid_head_not_removed]; [apply pr_fuel|].
  pb; [apply (load_valid_sim C lt g K ek evl NP DP HK)|]. intros b c [Hc Hs]. destruct b as [x|a l].
  - rewrite (crl_live C K ek NP DP c x Hc). re.
  - cbn in Hc. subst c. apply IH.
Qed.
Lemma usage_ok : forall c x, lrl C K ek NP DP c x -> node_usage c = Some (b_usage C x).
Proof.
  induction c as [n|d nx IH|d n nx IH|]; intros [p|bd bx|bd p bx] S; try contradiction; cbn in S; cbn [node_usage b_usage].
  - pose proof S as (_ & _ & _ & HN & _). rewrite (ko_psize _ _ _ _ _ _ _ _ HK _ _ HN). reflexivity.
  - destruct S as [_ S]. rewrite (IH _ S). destruct (b_usage C bx). reflexivity.
  - destruct S as (_ & _ & S). rewrite (IH _ S). destruct (b_usage C bx). reflexivity.
Qed.
Lemma children_ok n p : prl n p -> n_inner n = true -> x_children C p = map snd (n_recs n).
Proof.
  intros S Hi. pose proof S as (_ & _ & _ & HN & _ & _ & _ & G). specialize (G Hi).
  destruct (ko_page _ _ _ _ _ _ _ _ HK _ _ true HN) as (E1 & _).
  unfold x_children. cbn [t_find q_cnt q_pay]. rewrite E1, Nat2N.id.
  apply nth_ext_error. intros i. rewrite !nth_error_map. destruct (nth_error (n_recs n) i) as [[k v]|] eqn:E.
  - assert (L : (i < length (n_recs n))%nat) by (apply nth_error_Some; congruence).
    rewrite (nth_error_nth' (seq 0 (length (n_recs n))) 0%nat) by (rewrite seq_length; auto). rewrite seq_nth by auto. cbn [option_map snd].
    pose proof (ko_ppay _ _ _ _ _ _ _ _ HK _ _ _ _ _ HN E) as Q. rewrite Hi in Q. cbn [evi] in Q. cbn [plus]. rewrite Q, unle8; auto.
    rewrite Forall_forall in G. apply (G (k, v)). eapply nth_error_In; eauto.
  - apply nth_error_None in E. replace (nth_error (seq 0 (length (n_recs n))) i) with (@None nat); auto.
    symmetry. apply nth_error_None. rewrite seq_length. auto.
Qed.
Lemma stats_sim drec : forall fuel p lvl acc,
  prel eq (xcollect_stats C g stat_mem drec fuel p lvl acc) (collect_stats g drec fuel p lvl acc).
Proof.
  induction fuel as [|f IH]; intros p lvl acc; cbn [xcollect_stats collect_stats]; [apply pr_fuel|].
  pb; [apply valid_head_sim|]. intros b c [Hc Hs]. destruct b as [x|a l]; [|cbn in Hc; subst c; ub].
  rewrite (usage_ok c x Hc). destruct (b_usage C x) as [sz dn]. cbv zeta. rewrite (x_leaf_ok C lt g K ek evl NP DP HK c _ Hc).
  destruct (h_leaf c) eqn:El; [re|]. pb; [apply scan_page_sim; eauto|]. intros q n [Hq Hi]. rewrite El in Hi.
  rewrite (children_ok n q Hq Hi). generalize (add_stat lvl (sz + dn * drec) (c_page g + dn * drec) acc).
  induction (n_recs n) as [|[k v] t IHt]; intros ac; cbn [map snd]; [re|].
  pb; [apply IH|]. intros x0 y ->. apply IHt.
Qed.

Definition curl (b : bcursor (P := P)) (c : cursor) : Prop :=
  match b, c with BNew _, None => True | BOn p bi, Some (n, it) => prl n p /\ itrl bi it | _, _ => False end.
Definition arl (x : bans * bcursor (P := P)) (y : ans * cursor) : Prop := fst x = enc_ans ek evl (fst y) /\ curl (snd x) (snd y).

Lemma req_sim fuel bc c q : curl bc c -> req_keys K q ->
  prel arl (breq_prog C lt g pmem stat_mem fuel bc (enc_req ek evl q)) (req_prog g fuel c q).
Proof.
  intros Hc Hq. destruct q as [o|b e| |drec]; cbn [enc_req breq_prog req_prog req_keys] in *.
  - pb; [apply (call_sim C lt g K ek evl NP DP HK); auto|]. intros x y ->. re. split; auto.
  - destruct Hq as [Hb He]. pb; [apply scan_sim; auto|]. intros [p bi] [n it] Ho. re. split; auto.
  - destruct bc as [m|p bi], c as [[n it]|]; cbn in Hc; try contradiction; [re; split; cbn; auto|]. destruct Hc as [Hp Hi].
    unfold bnext_prog, next_prog. pb; [apply has_record_sim; eauto|].
    intros [[mb p1] bi1] [[ma n1] it1] (E1 & Hp1 & Hi1). cbn [fst snd] in *. subst ma.
    destruct mb; [|re; split; cbn; auto]. destruct (get_record n1 it1) as [[k v]|] eqn:Eg; [|ub].
    rewrite (get_record_ok p1 n1 bi1 it1 k v Hp1 Hi1 Eg). re. split; cbn; auto. split; auto.
    destruct Hi1 as (J1 & J2 & J3 & J4 & J5). unfold itrl, xadvance, advance. cbn. rewrite J1. auto.
  - pb; [unfold xstats, op_stats; apply pr_loadroot; intros r _; apply stats_sim|]. intros x y ->. re. split; auto.
Qed.

(** ** Executions *)
Variables (junk : addr -> mem) (fuel : nat).
Notation srl := (srl C K ek NP DP).

Definition krl (b : @bclient P D) (t : client) : Prop :=
  match b, t with
  | BKIdle cb bt, KIdle ca td => curl cb ca /\ bt = map (enc_req ek evl) td /\ Forall (req_keys K) td
  | BKRun x bt, KRun m td => prel arl x m /\ bt = map (enc_req ek evl) td /\ Forall (req_keys K) td
  | _, _ => False
  end.
Definition krl_st (b : @bkst P D) (c : kst) : Prop := srl (bk_mem b) (k_mem c) /\ Forall2 krl (bk_thr b) (k_thr c).
Definition kokst (c : kst) : Prop := ~ kcrashed c /\ (s_npid (k_mem c) <= max64)%N.
Definition kmetst (c : kst) (t : nat) (b : bool) : Prop :=
  forall m r x, nth_error (k_thr c) t = Some (KRun m r) -> meets m b (k_mem c) x -> sane x.
Notation BK := (bkstep C lt g pmem stat_mem junk fuel).

Lemma kstep_sim b c t spur : krl_st b c -> kokst c -> kmetst c t spur -> kokst (fst (kstep g fuel c t spur)) ->
  krl_st (fst (BK b t spur)) (fst (kstep g fuel c t spur)) /\
  snd (BK b t spur) = map (enc_kevent ek evl) (snd (kstep g fuel c t spur)).
Proof.
  intros [Hs Ht] (N1 & _) S1 (N2 & S2). unfold bkstep, kstep in *. pose proof (f2_nth _ _ _ Ht t) as Q.
  destruct (nth_error (bk_thr b) t) as [bt|] eqn:Eb, (nth_error (k_thr c) t) as [th|] eqn:Ec; try contradiction.
  2: { split; [split; auto|reflexivity]. }
  destruct bt as [cb bt|x bt], th as [ca td|m td]; cbn [krl] in Q; try contradiction.
  - destruct Q as (Hc & -> & Hk). destruct td as [|o td]; cbn [map]; [split; [split; auto|reflexivity]|].
    cbn [fst snd]. split; [|reflexivity]. split; [exact Hs|]. apply f2_put; auto. cbn. split; [|split; [reflexivity|exact (Forall_inv_tail Hk)]].
    apply req_sim; auto. exact (Forall_inv Hk).
  - destruct Q as (Hp & -> & Hk).
    assert (NU : forall u, m <> UB u).
    { intros u ->. apply N1. exists u, td. eapply nth_error_In; eauto. }
    assert (RET : (exists r, m = Ret r) \/ m = Fuel \/ (exists m' s', pstep m spur (k_mem c) = Some (m', s') /\ forall r, m <> Ret r)).
    { destruct m; cbn [pstep]; eauto 10; try (destruct (s_tbl _ _)); try (destruct (cas_ok _ _ _ _ _)); try (destruct (N.eqb _ _));
        try (right; right; eexists _, _; split; [reflexivity|discriminate]). destruct (NU _ eq_refl). }
    destruct RET as [[[r cu] ->]|[->|(m' & s' & Ep & Nr)]].
    + inversion Hp as [| |[xa xc] ya Ha| | | | | | | | | | |]; subst. destruct Ha as [E Hcu]. cbn [fst snd] in *. subst xa.
      split; [|reflexivity]. split; [exact Hs|]. apply f2_put; auto. cbn. auto.
    + inversion Hp; subst. cbn. split; [split; auto|reflexivity].
    + assert (Em : match m with Ret (x0, cu0) => (mk_kst (k_mem c) (firstn t (k_thr c) ++ KIdle cu0 td :: skipn (S t) (k_thr c)), [VRes t x0]) | _ =>
        match pstep m spur (k_mem c) with Some (m', s') => (mk_kst s' (firstn t (k_thr c) ++ KRun m' td :: skipn (S t) (k_thr c)), []) | None => (c, []) end end =
        (mk_kst s' (firstn t (k_thr c) ++ KRun m' td :: skipn (S t) (k_thr c)), @nil kevent)).
      { rewrite Ep. destruct m; auto. destruct (Nr _ eq_refl). }
      rewrite Em in *. clear Em. cbn [fst snd k_mem] in *.
      assert (NU' : forall u, m' <> UB u).
      { intros u ->. apply N2. exists u, td. cbn. apply in_or_app. right. left. reflexivity. }
      destruct (pstep_sim C g K ek NP DP junk _ x m spur (bk_mem b) (k_mem c) m' s' Hp Hs (fun c0 => S1 m td c0 Ec) Ep S2 NU') as (x' & xs' & Ex & Hp' & Hs').
      assert (Nx : forall r, x <> XRet r) by (intros r ->; cbn in Ex; discriminate).
      destruct x; try (destruct (Nx _ eq_refl)); rewrite Ex; cbn [fst snd]; (split; [|reflexivity]); (split; [exact Hs'|]); apply f2_put; auto; cbn; auto.
Qed.

Lemma kexec_sim sch : forall b c, krl_st b c -> (forall i, kokst (fst (kexec g fuel c (firstn i sch)))) ->
  (forall i t b0, nth_error sch i = Some (t, b0) -> kmetst (fst (kexec g fuel c (firstn i sch))) t b0) ->
  krl_st (fst (bkexec C lt g pmem stat_mem junk fuel b sch)) (fst (kexec g fuel c sch)) /\
  snd (bkexec C lt g pmem stat_mem junk fuel b sch) = map (enc_kevent ek evl) (snd (kexec g fuel c sch)).
Proof.
  induction sch as [|[t spur] sch IH]; intros b c Hr Hok Hmt; cbn [bkexec kexec]; [split; [exact Hr|reflexivity]|].
  pose proof (Hok 0%nat) as H0. pose proof (Hok 1%nat) as H1. cbn [firstn kexec fst] in H0, H1.
  assert (H1' : kokst (fst (kstep g fuel c t spur))) by (destruct (kstep g fuel c t spur); exact H1). clear H1.
  destruct (kstep_sim b c t spur Hr H0 (Hmt 0%nat t spur eq_refl) H1') as [A B].
  assert (Hok' : forall i, kokst (fst (kexec g fuel (fst (kstep g fuel c t spur)) (firstn i sch)))).
  { intros i. specialize (Hok (S i)). cbn [firstn kexec] in Hok. destruct (kstep g fuel c t spur) as [c1 h1]. cbn [fst].
    destruct (kexec g fuel c1 (firstn i sch)). exact Hok. }
  assert (Hmt' : forall i u b0, nth_error sch i = Some (u, b0) -> kmetst (fst (kexec g fuel (fst (kstep g fuel c t spur)) (firstn i sch))) u b0).
  { intros i u b0 E. specialize (Hmt (S i) u b0 E). cbn [firstn kexec] in Hmt. destruct (kstep g fuel c t spur) as [c1 h1]. cbn [fst].
    destruct (kexec g fuel c1 (firstn i sch)). exact Hmt. }
  destruct (IH _ _ A Hok' Hmt') as [A2 B2].
  destruct (BK b t spur) as [b1 e1], (kstep g fuel c t spur) as [c1 h1]. cbn [fst snd] in *.
  destruct (bkexec C lt g pmem stat_mem junk fuel b1 sch) as [b2 e2], (kexec g fuel c1 sch) as [c2 h2]. cbn [fst snd] in *.
  split; [exact A2|]. rewrite map_app. congruence.
Qed.

Lemma kstart_rl todos mems : Forall (Forall (req_keys K)) todos -> length mems = length todos ->
  krl_st (bkstart (xinit C junk) (combine mems (map (map (enc_req ek evl)) todos))) (kstart (init g) todos).
Proof.
  intros Hk Hl. split; [apply (init_srl C lt g K ek evl NP DP HK)|]. cbn [bkstart kstart bk_thr k_thr].
  revert mems Hl. induction Hk as [|td todos H _ IH]; intros [|m mems] Hl; try discriminate; cbn; constructor; auto. cbn. auto.
Qed.

Lemma clients_follow todos mems sch : Forall (Forall (req_keys K)) todos -> length mems = length todos -> ksteady g fuel (kstart (init g) todos) sch ->
  let e := bkexec C lt g pmem stat_mem junk fuel (bkstart (xinit C junk) (combine mems (map (map (enc_req ek evl)) todos))) sch in
  ~ bkcrashed (fst e) /\ snd e = map (enc_kevent ek evl) (snd (kexec g fuel (kstart (init g) todos) sch)).
Proof.
  intros Hk Hl Hst. cbn zeta. destruct (kexec_sim sch _ _ (kstart_rl todos mems Hk Hl)) as [[A1 A2] B].
  { intros i. destruct (Hst i) as (S1 & S2 & S3). split; [exact S1|exact S3]. }
  { intros i t b0 E m r x. destruct (Hst i) as (S1 & S2 & S3). eapply S2; eauto. }
  split; [|exact B]. intros (u & r & Hin). apply In_nth_error in Hin as [t E].
  pose proof (f2_nth _ _ _ A2 t) as Q. rewrite E in Q. destruct (nth_error _ t) as [[|m td]|] eqn:Et in Q; try contradiction.
  cbn in Q. destruct Q as (Q & _). destruct (Hst (length sch)) as (S1 & _). rewrite firstn_all in S1.
  inversion Q; subst. apply S1. exists u0, td. eapply nth_error_In; eauto.
Qed.
End Sim.
