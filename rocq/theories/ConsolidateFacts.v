(** Consolidate (bw_tree.hpp:1275-1337) on well-formed chains. *)
From Coq Require Import ZArith NArith List Bool Lia.
From Coq Require Import Sorting.Sorted ZifyBool ZifyNat ZifyN.
From Verif Require Import Config Page ListFacts SearchFacts ChainFacts ConsFacts Valid.
Import ListNotations.
Open Scope Z_scope.

Lemma pages_base c : mhigh_ok c -> forall dn, last (pages c) dn = c_base c.
Proof.
  induction c as [n|d nx IH|d n nx IH|]; intros Hm dn; cbn [pages c_base mhigh_ok] in *; auto.
  - destruct Hm as [_ Hm]. specialize (IH Hm dn).
    destruct (pages nx) eqn:E; [|rewrite <- IH; reflexivity].
    exfalso. clear -E Hm. induction nx; simpl in *; try discriminate; tauto.
  - contradiction.
Qed.

Lemma pages_front c : mhigh_ok c -> forall dn, hd dn (pages c) = c_front c.
Proof.
  induction c as [n|d nx IH|d n nx IH|]; intros Hm dn; cbn [pages c_front mhigh_ok] in *; auto.
  contradiction.
Qed.

Definition plain (n : node) : Prop := n_inner n && is_leftmost n = false.

Lemma merge_nodes_plain g ps : forall ns ds s, Forall plain ns ->
  merge_nodes g ps ns ds s = cpr g ps (tot (concat (map n_recs ns)) ds) s.
Proof.
  induction ns as [|n ns IH]; intros ds s Hp.
  - simpl. rewrite tot_nil. revert s. induction ds as [|d ds IHd]; intros s; auto.
    simpl. rewrite IHd, copy_delta_cpr. unfold drecs. simpl. rewrite cpr_app. reflexivity.
  - inversion Hp; subst. cbn [merge_nodes map concat]. unfold merge_node. rewrite H1.
    rewrite merge_mrg. rewrite IH by auto. unfold tot. rewrite mrg_app.
    destruct (mrg (n_recs n) ds) as [r o]. cbn [fst snd].
    destruct (mrg (concat (map n_recs ns)) r) as [r2 o2]. cbn [fst snd].
    rewrite !cpr_app. reflexivity.
Qed.

(** ** Leaf chains *)
Definition flat (c : chain) : list (key * val) := concat (map n_recs (rev (pages c))).

Lemma flat_merge d n nx : flat (CMerge d n nx) = flat nx ++ n_recs n.
Proof. unfold flat. cbn [pages rev]. rewrite map_app, concat_app. simpl. rewrite app_nil_r. reflexivity. Qed.

Lemma lflat_spec g c : lwf g c ->
  sorted (flat c) /\ Forall (fun r => in_rng (c_lo c) (c_hi c) (fst r)) (flat c) /\
  (forall k d, newest k c = Some d -> d_key d = k /\ in_rng (c_lo c) (c_hi c) k) /\
  (forall k, lget c k = match newest k c with Some d => dval d | None => find k (flat c) end).
Proof.
  induction c as [n|d nx IH|d n nx IH|]; intros Hw; cbn [lwf] in Hw; try contradiction.
  - destruct Hw as (_ & S & F & _). unfold flat. simpl. rewrite app_nil_r.
    repeat split; auto; try discriminate.
  - destruct Hw as (Hw & _ & Hr & _ & Ht). destruct (IH Hw) as (S & F & N & L).
    rewrite c_lo_rec, c_hi_rec. change (flat (CRec d nx)) with (flat nx). split; [auto|split; [auto|split]].
    + intros k d' H. cbn [newest] in H. destruct (Z.eqb_spec (d_key d) k); auto.
      inversion H; subst. auto.
    + intros k. unfold lget in *. cbn [lrecs newest].
      pose proof (lwf_sorted _ _ Hw) as [Hs _]. unfold dval.
      destruct (Z.eqb_spec (d_key d) k); destruct (d_type d) eqn:Et; try contradiction;
        rewrite ?find_put, ?find_del by auto; destruct (Z.eqb_spec k (d_key d)); try lia; rewrite ?L; auto.
  - destruct Hw as (Hw & Hn & _ & _ & E1 & E2 & E3 & _ & _). destruct (IH Hw) as (S & F & N & L).
    pose proof (lwf_rng _ _ Hw) as R. destruct Hn as (_ & Sn & Fn & Rn & _).
    rewrite flat_merge, c_lo_merge, c_hi_merge. rewrite E2 in *. rewrite E1 in *.
    split; [|split; [|split]].
    + apply sorted_app; auto. intros x y Hx Hy. rewrite Forall_forall in F, Fn.
      specialize (F _ Hx). specialize (Fn _ Hy). rng.
    + apply Forall_app. split.
      * eapply Forall_impl; [|apply F]. simpl. intros; rng.
      * eapply Forall_impl; [|apply Fn]. simpl. intros; rng.
    + intros k d' H. cbn [newest] in H. destruct (N _ _ H) as [A B]. split; auto. rng.
    + intros k. unfold lget in *. cbn [lrecs newest]. rewrite find_app, L.
      destruct (newest k nx) as [d'|] eqn:EN.
      * destruct (N _ _ EN) as [A B]. rewrite (find_none_lt k (n_recs n)); [destruct (dval d'); auto|].
        eapply Forall_impl; [|apply Fn]. simpl. intros; rng.
      * rewrite find_app. auto.
Qed.

Lemma lwf_tot g c ds : lwf g c -> sorted (da ds) -> (forall k, find k (da ds) = newest k c) ->
  tot (flat c) ds = lrecs c.
Proof.
  intros Hw Hs Hn. destruct (lflat_spec _ _ Hw) as (S & _ & _ & L).
  destruct (tot_spec (flat c) ds S Hs) as [T1 T2]. pose proof (lwf_sorted _ _ Hw) as [Hs2 _].
  apply sorted_ext; auto. intros k. rewrite T2. unfold overlay. rewrite Hn. symmetry. apply L.
Qed.

Lemma lwf_plain g c : lwf g c -> Forall plain (rev (pages c)).
Proof.
  intros H. apply Forall_rev. induction c; cbn [pages lwf] in *; try tauto.
  - constructor; auto. destruct H as (H & _). unfold plain. rewrite H. auto.
  - destruct H as (H1 & (H2 & _) & _). constructor; auto. unfold plain. rewrite H2. auto.
Qed.

Lemma csum_put_new g ps k v l : sorted l -> find k l = None -> csum g ps (put k v l) = csum g ps l + recsz g ps k.
Proof.
  induction l as [|[x w] l IH]; intros Hs Hf; cbn [put find] in *.
  - rewrite csum_cons. simpl. lia.
  - apply sorted_cons_inv in Hs as [Hs Hfa]. destruct (Z.eqb_spec x k); [discriminate|].
    destruct (Z.ltb_spec x k).
    + rewrite !csum_cons, IH by auto. lia.
    + destruct (Z.ltb_spec k x); [|lia]. rewrite !csum_cons. simpl fst. lia.
Qed.
Lemma csum_put_old g ps k v w l : sorted l -> find k l = Some w -> csum g ps (put k v l) = csum g ps l.
Proof.
  induction l as [|[x u] l IH]; intros Hs Hf; cbn [put find] in *; [discriminate|].
  apply sorted_cons_inv in Hs as [Hs Hfa]. destruct (Z.eqb_spec x k).
  - subst. rewrite Z.ltb_irrefl. rewrite !csum_cons. reflexivity.
  - assert (x < k). { apply find_in in Hf. rewrite Forall_forall in Hfa. specialize (Hfa _ Hf). auto. }
    destruct (Z.ltb_spec x k); [|lia]. rewrite !csum_cons, IH by auto. lia.
Qed.
Lemma csum_del g ps k w l : find k l = Some w -> csum g ps (del k l) = csum g ps l - recsz g ps k.
Proof.
  induction l as [|[x u] l IH]; intros Hf; cbn [del find] in *; [discriminate|].
  destruct (Z.eqb_spec x k).
  - subst. rewrite !csum_cons. simpl fst. lia.
  - rewrite !csum_cons, IH by auto. lia.
Qed.

Lemma okl_fix g k : c_varlen g = false -> okl g k = 0.
Proof. intros H. unfold okl. rewrite H. auto. Qed.

Lemma lwf_size g c : lwf g c -> h_size c = lbytes g (c_lo c) (c_hi c) (lrecs c).
Proof.
  induction c as [n|d nx IH|d n nx IH|]; intros Hw; cbn [lwf] in Hw; try contradiction.
  - destruct Hw as (_ & _ & _ & _ & H). exact H.
  - destruct Hw as (Hw & _ & _ & _ & Ht). specialize (IH Hw). rewrite c_lo_rec, c_hi_rec.
    pose proof (lwf_sorted _ _ Hw) as [Hs _]. unfold lbytes in *. cbn [h_size lrecs].
    destruct (d_type d); try contradiction.
    + destruct Ht as [H ->]. rewrite csum_put_new by auto. lia.
    + destruct Ht as [[w H] ->]. erewrite csum_put_old by eauto. lia.
    + destruct Ht as [[w H] ->]. erewrite csum_del by eauto. lia.
  - destruct Hw as (Hw & Hn & _ & _ & E1 & E2 & _ & _ & Hsz). specialize (IH Hw).
    rewrite c_lo_merge, c_hi_merge. destruct Hn as (Hi & _ & _ & _ & Hns).
    unfold lbytes in *. cbn [h_size lrecs]. rewrite Hsz, csum_app. unfold node_diff.
    rewrite Hi, Hns, E1, IH, E2. lia.
Qed.

Lemma ndelta_cnt_l g c : lwf g c -> is_base c = false -> Z.of_nat (ndelta c) <= h_cnt c.
Proof.
  induction c as [n|d nx IH|d n nx IH|]; intros Hw Hb; cbn [lwf] in Hw; try contradiction; try discriminate.
  - destruct Hw as (Hw & _ & _ & Hc & _). cbn [ndelta h_cnt]. rewrite Hc. unfold next_cnt.
    destruct (is_base nx) eqn:E; [destruct nx; try discriminate; simpl; lia|].
    specialize (IH Hw eq_refl). lia.
  - destruct Hw as (Hw & _ & _ & _ & _ & _ & _ & Hc & _). cbn [ndelta h_cnt]. rewrite Hc. unfold next_cnt.
    destruct (is_base nx) eqn:E; [destruct nx; try discriminate; simpl; lia|].
    specialize (IH Hw eq_refl). lia.
Qed.

Definition cons_page (c : chain) (inner : bool) (a : addr) (rs : list (key * val)) (sz : Z) : node :=
  mk_node a inner (c_lo c) (c_hi c) (c_next c) rs sz.

Definition sort_ok (c : chain) (ds : list delta) : Prop :=
  dc_sort c [] [] = Some (ds, pages c) /\ sorted (da ds) /\
  (forall k, find k (da ds) = newest k c) /\ (length ds <= ndelta c)%nat.

Lemma sort_ok_ex c : mhigh_ok c -> exists ds, sort_ok c ds.
Proof.
  intros Hm. destruct (dc_sort_spec c [] [] ltac:(constructor) Hm) as (ds & E & S & F & L).
  exists ds. split; [exact E|]. repeat split; auto.
Qed.

Lemma low_of_leaf g n rs : low_of g false n rs = (n_low n, okl g (n_low n)).
Proof. unfold low_of. rewrite andb_false_r. reflexivity. Qed.

Lemma cons_leaf_one g c ds a ra : lwf g c -> sort_ok c ds ->
  consolidate g false a ra (pages c) ds false false = COne (cons_page c false a (lrecs c) (h_size c)).
Proof.
  intros Hw (_ & Hs & Hn & _). pose proof (lwf_mhigh _ _ Hw) as Hm. unfold consolidate.
  rewrite (pages_base c Hm), (pages_front c Hm), low_of_leaf.
  rewrite merge_nodes_plain by (eapply lwf_plain; eauto). fold (flat c).
  rewrite (lwf_tot g c ds Hw Hs Hn). rewrite cpr_nosplit by reflexivity.
  cbn [cs_cur cs_size app]. unfold cons_page. do 2 f_equal.
  rewrite (lwf_size _ _ Hw). unfold lbytes. change (paysz g false) with (c_paylen g).
  unfold c_lo, c_hi. lia.
Qed.

Lemma cons_leaf_scan g c ds a ra : lwf g c -> sort_ok c ds ->
  consolidate g false a ra (pages c) ds false true = COne (cons_page c false a (lrecs c) (2 * c_page g)) /\
  scan_bytes g false (pages c) ds = h_size c.
Proof.
  intros Hw (_ & Hs & Hn & _). pose proof (lwf_mhigh _ _ Hw) as Hm. unfold consolidate, scan_bytes.
  rewrite (pages_base c Hm), (pages_front c Hm), low_of_leaf.
  rewrite merge_nodes_plain by (eapply lwf_plain; eauto). fold (flat c).
  rewrite (lwf_tot g c ds Hw Hs Hn). rewrite cpr_nosplit by reflexivity.
  cbn [cs_cur cs_size app snd]. split; [reflexivity|].
  rewrite (lwf_size _ _ Hw). unfold lbytes. change (paysz g false) with (c_paylen g).
  unfold c_lo, c_hi. lia.
Qed.

Section Sizes.
Variable g : cfg.
Hypothesis OK : cfg_ok g.

Lemma okl_bound k : 0 <= okl g k <= kovh g.
Proof.
  unfold okl, kovh. destruct (c_varlen g); [|lia]. destruct k as [k|].
  - pose proof (ok_key g OK k). lia.
  - pose proof (ok_key g OK 0). lia.
Qed.

Lemma recsz_leaf k : 0 < recsz g (c_paylen g) k <= maxrec g.
Proof.
  unfold recsz, maxrec. pose proof (ok_key g OK k). pose proof (ok_pay g OK).
  unfold metalen. destruct (c_varlen g); lia.
Qed.
Lemma recsz_inner k : 0 < recsz g ptrlen k <= maxrec g.
Proof.
  unfold recsz, maxrec, ptrlen. pose proof (ok_key g OK k). pose proof (ok_pay g OK).
  unfold metalen. destruct (c_varlen g); lia.
Qed.
Lemma nullsz_bound : 0 < nullsz g <= maxrec g.
Proof.
  unfold nullsz, maxrec, ptrlen. pose proof (ok_key g OK 0) as H. pose proof (ok_pay g OK).
  unfold klen in H. unfold metalen. destruct (c_varlen g); lia.
Qed.
Lemma ifirst_bound lo : 0 < ifirst g lo <= maxrec g.
Proof. destruct lo; simpl. apply recsz_inner. apply nullsz_bound. Qed.

Lemma half_bound : excess g + c_hdr g + 2 * kovh g <= half g /\ 2 * half g <= c_page g - c_hdr g.
Proof.
  pose proof (ok_page g OK). unfold half.
  pose proof (Z.div_mod (c_page g - c_hdr g) 2 ltac:(lia)).
  pose proof (Z.mod_pos_bound (c_page g - c_hdr g) 2 ltac:(lia)). lia.
Qed.
Lemma kovh_nn : 0 <= kovh g.
Proof. unfold kovh. pose proof (ok_key g OK 0). destruct (c_varlen g); lia. Qed.
Lemma maxrec_excess : maxrec g <= excess g. Proof. unfold excess; lia. Qed.

Lemma csum_nn ps rs : (forall k, 0 < recsz g ps k) -> 0 <= csum g ps rs.
Proof.
  intros H. induction rs as [|r rs IH]; [simpl; lia|]. rewrite csum_cons. specialize (H (fst r)). lia.
Qed.

Lemma cons_leaf_two c ds a ra : lwf g c -> sort_ok c ds ->
  c_page g < h_size c <= c_page g + excess g ->
  exists l1 sep v l2 sz1 sz2,
    lrecs c = l1 ++ (sep, v) :: l2 /\ l1 <> [] /\
    let l := mk_node a false (c_lo c) (Some sep) 0%N l1 sz1 in
    let r := mk_node ra false (Some sep) (c_hi c) (c_next c) ((sep, v) :: l2) sz2 in
    consolidate g false a ra (pages c) ds true false = CTwo l r /\
    lnode g l /\ lnode g r /\ sz1 <= c_page g /\ sz2 <= c_page g.
Proof.
  intros Hw (_ & Hs & Hn & _) Hsz. pose proof (lwf_mhigh _ _ Hw) as Hm.
  pose proof half_bound as [HB1 HB2]. pose proof kovh_nn as HK. pose proof maxrec_excess as HX.
  pose proof (lwf_size _ _ Hw) as Hb. unfold lbytes in Hb.
  pose proof (okl_bound (c_lo c)) as Ol. pose proof (okl_bound (c_hi c)) as Oh.
  pose proof (ok_hdr g OK) as Hh.
  unfold consolidate.
  rewrite (pages_base c Hm), (pages_front c Hm).
  rewrite merge_nodes_plain by (eapply lwf_plain; eauto). fold (flat c).
  rewrite (lwf_tot g c ds Hw Hs Hn). change (paysz g false) with (c_paylen g).
  destruct (cpr_split g (c_paylen g) (lrecs c) (mk_cs None [] (c_hdr g) true) eq_refl eq_refl)
    as [[H1 H2]|(r1 & x & r2 & E1 & E2 & L1 & L2)]; cbn [cs_size cs_left cs_cur] in *.
  - pose proof (recsz_leaf 0). lia.
  - lia.
  - rewrite E2. cbn [cs_size cs_left cs_cur app].
    rewrite E1 in Hb. rewrite csum_app, csum_cons in Hb.
    pose proof (recsz_leaf (fst x)) as Rx.
    rewrite csum_app, csum_cons in L2. simpl (csum g (c_paylen g) []) in L2.
    destruct r2 as [|[sep v] r2].
    { simpl in Hb. lia. }
    exists (r1 ++ [x]), sep, v, r2.
    pose proof (okl_bound (Some sep)) as Os.
    rewrite low_of_leaf.
    do 2 eexists. split; [rewrite E1, <- app_assoc; reflexivity|]. split; [destruct r1; discriminate|].
    cbn zeta. split; [reflexivity|].
    pose proof (lwf_sorted _ _ Hw) as [Hsr Hfr]. rewrite E1 in Hsr, Hfr.
    replace (r1 ++ x :: (sep, v) :: r2) with ((r1 ++ [x]) ++ (sep, v) :: r2) in Hsr, Hfr by (rewrite <- app_assoc; reflexivity).
    apply sorted_app_inv in Hsr as (S1 & S2 & S3). apply Forall_app in Hfr as [F1 F2].
    assert (Fs : in_rng (c_lo c) (c_hi c) sep) by (inversion F2; auto).
    assert (Hx : fst x < sep) by (apply (S3 x (sep, v)); [apply in_or_app; right; left; auto|left; auto]).
    assert (Hxr : in_rng (c_lo c) (c_hi c) (fst x)).
    { apply Forall_app in F1 as [_ F1]. inversion F1; auto. }
    split; [|split; [|split]].
    + split; [reflexivity|]. cbn [n_recs n_low n_high n_size]. split; [auto|]. split; [|split].
      * apply Forall_forall. intros y Hy. rewrite Forall_forall in F1. specialize (F1 _ Hy).
        specialize (S3 y (sep, v) Hy (or_introl eq_refl)). simpl in S3. rng.
      * rng.
      * unfold lbytes, c_lo. lia.
    + split; [reflexivity|]. cbn [n_recs n_low n_high n_size]. split; [auto|]. split; [|split].
      * apply Forall_forall. intros y Hy. rewrite Forall_forall in F2. specialize (F2 _ Hy).
        apply sorted_cons_inv in S2 as [S2 S2']. destruct Hy as [<-|Hy]; simpl in *; [rng|].
        rewrite Forall_forall in S2'. specialize (S2' _ Hy). rng.
      * rng.
      * unfold lbytes, c_hi. lia.
    + rewrite csum_app, csum_cons. simpl (csum g (c_paylen g) []). fold (c_lo c). lia.
    + fold (c_hi c). lia.
Qed.

(** ** Inner chains *)
Fixpoint iflat (c : chain) : list (key * val) :=
  match c with
  | CBase n => nents n
  | CRec _ nx => iflat nx
  | CMerge _ n nx => iflat nx ++ n_recs n
  | CRemove _ _ => []
  end.

Lemma inode_recs n l : inode g n -> n_low n = Some l -> n_recs n = (l, nlead n) :: nents n.
Proof. intros (_ & (k0 & E & H) & _) El. rewrite El in H. subst. auto. Qed.

Lemma iflat_spec c : iwf g c ->
  sorted (iflat c) /\ Forall (fun r => in_srng (c_lo c) (c_hi c) (fst r)) (iflat c) /\
  (forall k d, newest k c = Some d -> d_key d = k /\ in_srng (c_lo c) (c_hi c) k) /\
  (forall k, find k (ients c) = match newest k c with Some d => dval d | None => find k (iflat c) end).
Proof.
  induction c as [n|d nx IH|d n nx IH|]; intros Hw; cbn [iwf] in Hw; try contradiction.
  - destruct (inode_parts _ _ Hw) as [S F]. simpl.
    repeat split; auto; try discriminate.
  - destruct Hw as (Hw & _ & Hr & _ & Ht). destruct (IH Hw) as (S & F & N & L).
    rewrite c_lo_rec, c_hi_rec. change (iflat (CRec d nx)) with (iflat nx). split; [auto|split; [auto|split]].
    + intros k d' H. cbn [newest] in H. destruct (Z.eqb_spec (d_key d) k); auto.
      inversion H; subst. auto.
    + intros k. cbn [ients newest].
      pose proof (iwf_sorted _ _ Hw) as [Hs _]. unfold dval.
      destruct (Z.eqb_spec (d_key d) k); destruct (d_type d) eqn:Et; try contradiction;
        rewrite ?find_put, ?find_del by auto; destruct (Z.eqb_spec k (d_key d)); try lia; rewrite ?L; auto.
  - destruct Hw as (Hw & Hn & _ & _ & E1 & E2 & E3 & _ & _). destruct (IH Hw) as (S & F & N & L).
    pose proof (iwf_rng _ _ Hw) as R. pose proof (inode_parts _ _ Hn) as [Sn Fn].
    assert (Rn : rng_ne (n_low n) (n_high n)) by apply Hn.
    cbn [iflat]. rewrite (inode_recs _ _ Hn E1). rewrite c_lo_merge, c_hi_merge. rewrite E2 in *. rewrite E1 in *.
    assert (Sn' : sorted ((d_key d, nlead n) :: nents n)).
    { apply sorted_cons; auto. eapply Forall_impl; [|apply Fn]. simpl. intros; rng. }
    assert (Fn' : Forall (fun r => d_key d <= fst r /\ hi_ok (n_high n) (fst r)) ((d_key d, nlead n) :: nents n)).
    { constructor; [simpl; rng|]. eapply Forall_impl; [|apply Fn]. simpl. intros; rng. }
    split; [|split; [|split]].
    + apply sorted_app; auto. intros x y Hx Hy. rewrite Forall_forall in F, Fn'.
      specialize (F _ Hx). specialize (Fn' _ Hy). rng.
    + apply Forall_app. split.
      * eapply Forall_impl; [|apply F]. simpl. intros; rng.
      * eapply Forall_impl; [|apply Fn']. simpl. intros; rng.
    + intros k d' H. cbn [newest] in H. destruct (N _ _ H) as [A B]. split; auto. rng.
    + intros k. cbn [ients newest]. rewrite find_app, L.
      destruct (newest k nx) as [d'|] eqn:EN.
      * destruct (N _ _ EN) as [A B].
        rewrite (find_none_lt k ((d_key d, nlead n) :: nents n)); [destruct (dval d'); auto|].
        eapply Forall_impl; [|apply Fn']. simpl. intros; rng.
      * rewrite find_app. auto.
Qed.

Lemma iwf_tot c ds : iwf g c -> sorted (da ds) -> (forall k, find k (da ds) = newest k c) ->
  tot (iflat c) ds = ients c /\ Forall (fun d => lo_lt (c_lo c) (d_key d)) ds.
Proof.
  intros Hw Hs Hn. destruct (iflat_spec _ Hw) as (S & _ & N & L).
  destruct (tot_spec (iflat c) ds S Hs) as [T1 T2]. pose proof (iwf_sorted _ _ Hw) as [Hs2 _]. split.
  - apply sorted_ext; auto. intros k. rewrite T2. unfold overlay. rewrite Hn. symmetry. apply L.
  - apply Forall_forall. intros d Hd.
    assert (E : find (d_key d) (da ds) = Some d).
    { apply in_find; auto. apply (in_map (fun d => (d_key d, d))); auto. }
    rewrite Hn in E. apply N in E as [_ [A _]]. auto.
Qed.

(** Key slot of the first record of the base page. *)
Fixpoint ikey0 (c : chain) : key :=
  match c with
  | CBase n => fst (hd (0, 0%N) (n_recs n))
  | CRec _ nx | CMerge _ _ nx => ikey0 nx
  | CRemove _ _ => 0
  end.

Lemma iwf_base c : iwf g c -> inode g (c_base c).
Proof. induction c; cbn [iwf c_base]; tauto. Qed.

Lemma ikey0_spec c : iwf g c ->
  n_recs (c_base c) = (ikey0 c, ilead c) :: nents (c_base c) /\
  match c_lo c with Some l => ikey0 c = l | None => True end.
Proof.
  induction c as [n|d nx IH|d n nx IH|]; intros Hw; cbn [iwf] in Hw; try contradiction.
  - destruct Hw as (_ & (k0 & E & H) & _). unfold c_lo. cbn [c_base ikey0 ilead]. rewrite E. simpl. auto.
  - cbn [c_base ikey0 ilead]. rewrite c_lo_rec. apply IH, Hw.
  - cbn [c_base ikey0 ilead]. rewrite c_lo_merge. apply IH, Hw.
Qed.

Lemma iflat_pages c : iwf g c -> exists ms, rev (pages c) = c_base c :: ms /\ Forall plain ms /\
  iflat c = nents (c_base c) ++ concat (map n_recs ms).
Proof.
  induction c as [n|d nx IH|d n nx IH|]; intros Hw; cbn [iwf] in Hw; try contradiction.
  - exists []. simpl. rewrite app_nil_r. auto.
  - cbn [pages c_base iflat]. apply IH, Hw.
  - destruct Hw as (Hw & Hn & _ & _ & E1 & _). destruct (IH Hw) as (ms & E & P & F).
    exists (ms ++ [n]). cbn [pages c_base iflat rev]. rewrite E. split; [reflexivity|]. split.
    + apply Forall_app. split; auto. constructor; auto. unfold plain, is_leftmost. rewrite E1.
      apply andb_false_r.
    + rewrite F, map_app, concat_app. simpl. rewrite app_nil_r, app_assoc. reflexivity.
Qed.

Lemma merge_nodes_inner c ds s : iwf g c -> sorted (da ds) -> (forall k, find k (da ds) = newest k c) ->
  merge_nodes g ptrlen (rev (pages c)) ds s =
  cpr g ptrlen (ients c) (copy_rec g (ifirst g (c_lo c)) (ikey0 c, ilead c) s).
Proof.
  intros Hw Hs Hn. destruct (iwf_tot c ds Hw Hs Hn) as [HT HF].
  destruct (iflat_pages c Hw) as (ms & E & P & F). destruct (ikey0_spec c Hw) as [R K].
  pose proof (iwf_base c Hw) as (Hi & _). rewrite E.
  destruct (is_leftmost (c_base c)) eqn:El.
  - cbn [merge_nodes]. unfold merge_node. rewrite Hi, El. cbn [andb]. rewrite R.
    rewrite merge_mrg. rewrite merge_nodes_plain by auto.
    rewrite <- HT, F. unfold tot. rewrite mrg_app.
    destruct (mrg (nents (c_base c)) ds) as [r o]. cbn [fst snd].
    destruct (mrg (concat (map n_recs ms)) r) as [r2 o2]. cbn [fst snd].
    rewrite !cpr_app. unfold is_leftmost in El. unfold ifirst, c_lo.
    destruct (n_low (c_base c)); [discriminate|]. reflexivity.
  - rewrite merge_nodes_plain.
    2:{ constructor; auto. unfold plain. rewrite El. apply andb_false_r. }
    cbn [map concat]. rewrite R. rewrite <- app_comm_cons, <- F.
    unfold is_leftmost in El. unfold ifirst, c_lo in *. destruct (n_low (c_base c)) as [l|]; [|discriminate].
    subst l. rewrite tot_first; auto. rewrite HT. reflexivity.
Qed.

Lemma iwf_size c : iwf g c -> h_size c = ibytes g (c_lo c) (c_hi c) (ients c).
Proof.
  induction c as [n|d nx IH|d n nx IH|]; intros Hw; cbn [iwf] in Hw; try contradiction.
  - destruct Hw as (_ & _ & _ & _ & _ & H). exact H.
  - destruct Hw as (Hw & _ & _ & _ & Ht). specialize (IH Hw). rewrite c_lo_rec, c_hi_rec.
    pose proof (iwf_sorted _ _ Hw) as [Hs _]. unfold ibytes in *. cbn [h_size ients].
    destruct (d_type d); try contradiction.
    + destruct Ht as [H ->]. rewrite csum_put_new by auto. lia.
    + destruct Ht as [[w H] ->]. erewrite csum_del by eauto. lia.
  - destruct Hw as (Hw & Hn & _ & _ & E1 & E2 & _ & _ & Hsz). specialize (IH Hw).
    rewrite c_lo_merge, c_hi_merge. destruct Hn as (Hi & _ & _ & _ & _ & Hns).
    unfold ibytes in *. cbn [h_size ients]. rewrite Hsz, csum_app, csum_cons. unfold node_diff.
    rewrite Hi, Hns, E1, IH, E2. simpl. lia.
Qed.

Lemma ndelta_cnt_i c : iwf g c -> is_base c = false -> Z.of_nat (ndelta c) <= h_cnt c.
Proof.
  induction c as [n|d nx IH|d n nx IH|]; intros Hw Hb; cbn [iwf] in Hw; try contradiction; try discriminate.
  - destruct Hw as (Hw & _ & _ & Hc & _). cbn [ndelta h_cnt]. rewrite Hc. unfold next_cnt.
    destruct (is_base nx) eqn:E; [destruct nx; try discriminate; simpl; lia|].
    specialize (IH Hw eq_refl). lia.
  - destruct Hw as (Hw & _ & _ & _ & _ & _ & _ & Hc & _). cbn [ndelta h_cnt]. rewrite Hc. unfold next_cnt.
    destruct (is_base nx) eqn:E; [destruct nx; try discriminate; simpl; lia|].
    specialize (IH Hw eq_refl). lia.
Qed.

Lemma low_of_inner c rest : iwf g c ->
  low_of g true (c_base c) ((ikey0 c, ilead c) :: rest) = (c_lo c, 0).
Proof.
  intros Hw. destruct (ikey0_spec c Hw) as [_ K]. unfold low_of, is_leftmost, c_lo in *.
  destruct (c_varlen g) eqn:Ev; cbn [andb].
  - destruct (n_low (c_base c)); [subst; auto|auto].
  - rewrite okl_fix by auto. auto.
Qed.

Lemma cons_inner_one c ds a ra : iwf g c -> sort_ok c ds ->
  consolidate g true a ra (pages c) ds false false =
  COne (cons_page c true a ((ikey0 c, ilead c) :: ients c) (h_size c)).
Proof.
  intros Hw (_ & Hs & Hn & _). pose proof (iwf_mhigh _ _ Hw) as Hm. unfold consolidate.
  rewrite (pages_base c Hm), (pages_front c Hm).
  change (paysz g true) with ptrlen. rewrite (merge_nodes_inner c ds _ Hw Hs Hn).
  rewrite cpr_nosplit by reflexivity. unfold copy_rec. cbn [cs_cur cs_size app cs_pend andb].
  rewrite low_of_inner by auto. unfold cons_page. do 2 f_equal.
  rewrite (iwf_size _ Hw). unfold ibytes. unfold c_lo, c_hi. lia.
Qed.

Lemma cons_inner_node c a : iwf g c -> inode g (cons_page c true a ((ikey0 c, ilead c) :: ients c) (h_size c)).
Proof.
  intros Hw. destruct (iwf_sorted _ _ Hw) as [S F]. destruct (ikey0_spec c Hw) as [_ K].
  split; [reflexivity|]. split; [exists (ikey0 c); split; auto|]. split; [auto|]. split; [auto|].
  split; [apply (iwf_rng g); auto|]. apply iwf_size; auto.
Qed.

Lemma cons_leaf_node c a : lwf g c -> lnode g (cons_page c false a (lrecs c) (h_size c)).
Proof.
  intros Hw. destruct (lwf_sorted _ _ Hw) as [S F].
  split; [reflexivity|]. split; [auto|]. split; [auto|].
  split; [apply (lwf_rng g); auto|]. apply lwf_size; auto.
Qed.

Lemma cons_inner_two c ds a ra : iwf g c -> sort_ok c ds ->
  c_page g < h_size c <= c_page g + excess g ->
  exists l1 sep v l2 sz1 sz2,
    ients c = l1 ++ (sep, v) :: l2 /\ l1 <> [] /\
    let l := mk_node a true (c_lo c) (Some sep) 0%N ((ikey0 c, ilead c) :: l1) sz1 in
    let r := mk_node ra true (Some sep) (c_hi c) (c_next c) ((sep, v) :: l2) sz2 in
    consolidate g true a ra (pages c) ds true false = CTwo l r /\
    inode g l /\ inode g r /\ sz1 <= c_page g /\ sz2 <= c_page g.
Proof.
  intros Hw (_ & Hs & Hn & _) Hsz. pose proof (iwf_mhigh _ _ Hw) as Hm.
  pose proof half_bound as [HB1 HB2]. pose proof kovh_nn as HK. pose proof maxrec_excess as HX.
  pose proof (iwf_size _ Hw) as Hb. unfold ibytes in Hb.
  pose proof (okl_bound (c_hi c)) as Oh. pose proof (ifirst_bound (c_lo c)) as Of.
  pose proof (ok_hdr g OK) as Hh.
  unfold consolidate.
  rewrite (pages_base c Hm), (pages_front c Hm). change (paysz g true) with ptrlen.
  rewrite (merge_nodes_inner c ds _ Hw Hs Hn).
  assert (EC : copy_rec g (ifirst g (c_lo c)) (ikey0 c, ilead c) (mk_cs None [] (c_hdr g) true)
    = mk_cs None [(ikey0 c, ilead c)] (c_hdr g + ifirst g (c_lo c)) true).
  { unfold copy_rec. cbn [cs_pend cs_cur cs_size app cs_left]. fold (half g).
    replace (true && (half g <? c_hdr g + ifirst g (c_lo c))) with false by lia. reflexivity. }
  rewrite EC.
  destruct (cpr_split g ptrlen (ients c) (mk_cs None [(ikey0 c, ilead c)] (c_hdr g + ifirst g (c_lo c)) true) eq_refl eq_refl)
    as [[H1 H2]|(r1 & x & r2 & E1 & E2 & L1 & L2)]; cbn [cs_size cs_left cs_cur] in *.
  - lia.
  - lia.
  - rewrite E2. cbn [cs_size cs_left cs_cur app].
    rewrite E1 in Hb. rewrite csum_app, csum_cons in Hb.
    pose proof (recsz_inner (fst x)) as Rx.
    rewrite csum_app, csum_cons in L2. simpl (csum g ptrlen []) in L2.
    destruct r2 as [|[sep v] r2].
    { simpl in Hb. lia. }
    exists (r1 ++ [x]), sep, v, r2.
    pose proof (okl_bound (Some sep)) as Os.
    rewrite low_of_inner by auto.
    do 2 eexists. split; [rewrite E1, <- app_assoc; reflexivity|]. split; [destruct r1; discriminate|].
    cbn zeta. split; [reflexivity|].
    destruct (ikey0_spec c Hw) as [_ K0].
    pose proof (iwf_sorted _ _ Hw) as [Hsr Hfr]. rewrite E1 in Hsr, Hfr.
    replace (r1 ++ x :: (sep, v) :: r2) with ((r1 ++ [x]) ++ (sep, v) :: r2) in Hsr, Hfr by (rewrite <- app_assoc; reflexivity).
    apply sorted_app_inv in Hsr as (S1 & S2 & S3). apply Forall_app in Hfr as [F1 F2].
    assert (Fs : in_srng (c_lo c) (c_hi c) sep) by (inversion F2; auto).
    assert (Hx : fst x < sep) by (apply (S3 x (sep, v)); [apply in_or_app; right; left; auto|left; auto]).
    assert (Hxr : in_srng (c_lo c) (c_hi c) (fst x)).
    { apply Forall_app in F1 as [_ F1]. inversion F1; auto. }
    split; [|split; [|split]].
    + split; [reflexivity|]. unfold nents, nlead. cbn [n_recs n_low n_high n_size tl].
      split; [exists (ikey0 c); auto|]. split; [auto|]. split; [|split].
      * apply Forall_forall. intros y Hy. rewrite Forall_forall in F1. specialize (F1 _ Hy).
        specialize (S3 y (sep, v) Hy (or_introl eq_refl)). simpl in S3. rng.
      * rng.
      * unfold ibytes, c_lo. lia.
    + split; [reflexivity|]. unfold nents, nlead. cbn [n_recs n_low n_high n_size tl].
      apply sorted_cons_inv in S2 as [S2 S2'].
      split; [exists sep; auto|]. split; [auto|]. split; [|split].
      * apply Forall_forall. intros y Hy. rewrite Forall_forall in F2. specialize (F2 _ (or_intror Hy)).
        rewrite Forall_forall in S2'. specialize (S2' _ Hy). rng.
      * rng.
      * unfold ibytes, c_hi. rewrite csum_cons. simpl. lia.
    + rewrite csum_app, csum_cons. simpl (csum g ptrlen []). lia.
    + fold (c_hi c). rewrite csum_cons in *. simpl fst in *. lia.
Qed.
End Sizes.
