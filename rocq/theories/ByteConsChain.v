(** Consolidation of byte chains that stand for well-formed chains. *)
From Coq Require Import ZArith NArith List Bool Lia Sorting.Sorted.
From Coq Require Import ZifyBool ZifyNat ZifyN.
From Verif Require Import Config Page ListFacts ChainSpec Valid ChainFacts ConsFacts ConsolidateFacts ChainProps SeqSpec.
From Verif Require Import Bytes FixLayout VarLayout DeltaBytes ByteCons ByteConsSpec DeltaBytesFacts ByteConsFacts ByteConsFix.
Import ListNotations.
Open Scope Z_scope.

Lemma pages_last c : mhigh_ok c -> forall d, last (pages c) d = c_base c /\ pages c <> [].
Proof.
  induction c as [n|d nx IH|d n nx IH|]; cbn [mhigh_ok pages c_base]; intros Hm d0; try contradiction.
  - split; [reflexivity|discriminate].
  - apply IH. tauto.
  - destruct (IH (proj2 Hm) d0) as [A B]. split; [|discriminate].
    destruct (pages nx) as [|x t] eqn:E; [congruence|]. exact A.
Qed.

Lemma pages_cwf g inner c : cwf g inner c -> pages_ok inner (pages c).
Proof.
  intros Hw. assert (Hm : mhigh_ok c) by (destruct inner; [eapply iwf_mhigh|eapply lwf_mhigh]; eauto).
  destruct (pages_last c Hm (dummy_node inner)) as [El Ne]. split; [exact Ne|].
  unfold cwf in Hw. destruct inner.
  - split; [|split].
    + clear - Hw. induction c as [n|d nx IH|d n nx IH|]; cbn [iwf pages] in *; try contradiction.
      * constructor; auto. apply Hw.
      * apply IH, Hw.
      * constructor; [apply Hw|apply IH, Hw].
    + destruct (iflat_pages g c Hw) as (ms & E & P & _).
      assert (E2 : removelast (pages c) = rev ms).
      { rewrite <- (rev_involutive (pages c)), E. cbn [rev]. apply removelast_last. }
      rewrite E2. apply Forall_rev. clear - P E Hw.
      assert (I : Forall (fun n => n_inner n = true) ms).
      { assert (J : Forall (fun n => n_inner n = true) (rev (pages c))).
        { apply Forall_rev. clear - Hw. induction c as [n|d nx IH|d n nx IH|]; cbn [iwf pages] in *; try contradiction.
          - constructor; auto. apply Hw.
          - apply IH, Hw.
          - constructor; [apply Hw|apply IH, Hw]. }
        rewrite E in J. exact (Forall_inv_tail J). }
      clear - P I. induction P as [|n ms H P IH]; constructor.
      * unfold plain in H. rewrite (Forall_inv I) in H. exact H.
      * apply IH. exact (Forall_inv_tail I).
    + intros _. rewrite El. destruct (ikey0_spec g c Hw) as [R _]. rewrite R. discriminate.
  - split; [|split].
    + clear - Hw. induction c as [n|d nx IH|d n nx IH|]; cbn [lwf pages] in *; try contradiction.
      * constructor; auto. apply Hw.
      * apply IH, Hw.
      * constructor; [apply Hw|apply IH, Hw].
    + apply Forall_forall. reflexivity.
    + discriminate.
Qed.

(** One page. *)
Lemma cons_one g inner c (scan : bool) a ra : cfg_ok g -> cwf g inner c -> (scan = true -> inner = false) ->
  exists ds n, dc_sort c [] [] = Some (ds, pages c) /\
    consolidate g inner a ra (pages c) ds false scan = COne n /\ scan_bytes g inner (pages c) ds = h_size c /\
    n_inner n = inner /\ holds inner c (n_recs n) /\ n_low n = c_lo c /\ n_high n = c_hi c /\
    n_size n = (if scan then 2 * c_page g else h_size c) /\ (inner = true -> n_recs n <> []).
Proof.
  intros OK Hw Hsc. assert (Hm : mhigh_ok c) by (destruct inner; [eapply iwf_mhigh|eapply lwf_mhigh]; eauto).
  destruct (sort_ok_ex c Hm) as (ds & Hs). destruct inner; cbn [cwf] in Hw.
  - destruct scan; [discriminate (Hsc eq_refl)|].
    exists ds, (cons_page c true a ((ikey0 c, ilead c) :: ients c) (h_size c)). split; [apply Hs|].
    pose proof (cons_inner_one g c ds a ra Hw Hs) as HC. split; [exact HC|]. split.
    { unfold consolidate in HC. unfold scan_bytes.
      destruct (low_of g true _ _) as [low add]. injection HC as _ _ _ _ HC. cbn [snd]. exact HC. }
    cbn [n_inner n_recs n_low n_high n_size cons_page holds]. split; [auto|]. split; [eexists; reflexivity|].
    repeat split; auto. discriminate.
  - destruct (cons_leaf_scan g c ds a ra Hw Hs) as [H1 H2].
    exists ds, (cons_page c false a (lrecs c) (if scan then 2 * c_page g else h_size c)). split; [apply Hs|].
    split; [destruct scan; [exact H1|exact (cons_leaf_one g c ds a ra Hw Hs)]|]. split; [exact H2|].
    cbn [n_inner n_recs n_low n_high n_size cons_page holds]. split; [auto|].
    destruct (lwf_sorted _ _ Hw) as [S _]. split.
    { split; [exact S|]. intros k v. rewrite <- (lget_visible g) by auto. split; [apply in_find|apply find_in]; auto. }
    repeat split; auto. discriminate.
Qed.

(** Two pages. *)
Lemma cons_two g inner c a ra : cfg_ok g -> cwf g inner c -> c_page g < h_size c <= c_page g + excess g ->
  exists ds l r sep, dc_sort c [] [] = Some (ds, pages c) /\
    consolidate g inner a ra (pages c) ds true false = CTwo l r /\
    n_recs l <> [] /\ holds inner c (n_recs l ++ n_recs r) /\ (exists v, hd_error (n_recs r) = Some (sep, v)) /\
    (forall k v, In (k, v) (if inner then tl (n_recs l) else n_recs l) -> k < sep) /\
    n_low l = c_lo c /\ n_high l = Some sep /\ n_low r = Some sep /\ n_high r = c_hi c /\
    n_size l <= c_page g /\ n_size r <= c_page g.
Proof.
  intros OK Hw Hsz. destruct inner; cbn [cwf] in Hw.
  - destruct (c06_inner g c a ra OK Hw Hsz) as (ds & l & r & sep & A1 & A2 & A3 & A4 & A5 & (k0 & A6) & A7 & A8 & A9 & B1 & B2 & B3 & B4 & _ & B5 & B6).
    exists ds, l, r, sep. split; [auto|]. split; [auto|]. split; [auto|]. split.
    { cbn [holds]. exists k0. destruct (n_recs l) as [|x t]; [discriminate|]. cbn in A5, A6 |- *. injection A6 as ->. rewrite A5. auto. }
    repeat split; auto.
  - destruct (c06_leaf g c a ra OK Hw Hsz) as (ds & l & r & sep & A1 & A2 & A3 & A4 & A5 & A6 & A7 & A8 & B1 & B2 & B3 & B4 & _ & B5 & B6).
    destruct (sort_ok_ex c (lwf_mhigh _ _ Hw)) as (ds' & Hs).
    destruct (cons_leaf_two g OK c ds' a ra Hw Hs Hsz) as (l1 & s & v & l2 & z1 & z2 & E & _ & HC & _).
    assert (ds' = ds) by (destruct Hs as (Hs & _); congruence). subst ds'.
    exists ds, l, r, sep. split; [auto|]. split; [auto|]. split; [auto|]. split.
    { cbn [holds]. split; [|intros; symmetry; apply A5].
      rewrite A2 in HC. injection HC as -> ->. cbn [n_recs]. rewrite <- E. apply (lwf_sorted _ _ Hw). }
    repeat split; auto.
Qed.

Lemma fence_room g c1 c2 : cfg_ok g -> c_hdr g + okl g c1 + okl g c2 <= c_page g.
Proof.
  intros OK. pose proof (okl_bound g OK c1). pose proof (okl_bound g OK c2). pose proof (ok_page g OK). pose proof (ok_hdr g OK).
  pose proof (kovh_nn g OK). pose proof (recsz_leaf g OK 0). pose proof (maxrec_excess g). lia.
Qed.

(** ** Variable-length layout *)
Lemma var_chain_one g inner K lt ek ev page c b m1 m2 size (scan : bool) :
  cfg_ok g -> c_varlen g = true -> c_hdr g = 32 -> Z.of_N page = c_page g -> 2 * c_page g < 65536 ->
  coding g inner K lt ek ev -> cwf g inner c -> (scan = true -> inner = false) ->
  chain_rep (vnode_rep ek ev inner) (vdelta_rep ek ev) c b -> chain_keys K inner c -> Z.of_N size = h_size c ->
  h_size c <= (if scan then 2 * c_page g else c_page g) ->
  exists p n, var_try page inner lt m1 m2 b size scan = BOne p /\ vnode_rep ek ev inner n p /\
    holds inner c (n_recs n) /\ n_low n = c_lo c /\ n_high n = c_hi c /\
    n_size n = (if scan then 2 * c_page g else h_size c) /\
    (forall x, (x < 32 \/ (if scan then page * 2 else page) <= x)%N -> vp_mem p x = m1 x).
Proof.
  intros OK HV Hh Hp H16 HC Hw Hsc Hr Hkc Hsz Hfit.
  destruct (cons_one g inner c scan 0%N 0%N OK Hw Hsc) as (ds & n & A1 & A2 & A3 & A4 & A5 & A6 & A7 & A8 & A9).
  destruct (var_one g inner K lt ek ev page HC HV Hp Hh (fun k => proj1 (ok_key g OK k)) c b ds (pages c) n 0%N 0%N m1 m2 size scan Hr Hkc A1
     (pages_cwf g inner c Hw) A2 A9) as (p & B1 & B2 & B3).
  - lia.
  - rewrite <- Hh. apply fence_room; auto.
  - lia.
  - destruct scan; [auto|right; lia].
  - exists p, n. auto 10.
Qed.

Lemma var_chain_two g inner K lt ek ev page c b m1 m2 size :
  cfg_ok g -> c_varlen g = true -> c_hdr g = 32 -> Z.of_N page = c_page g -> c_page g < 65536 ->
  coding g inner K lt ek ev -> cwf g inner c ->
  chain_rep (vnode_rep ek ev inner) (vdelta_rep ek ev) c b -> chain_keys K inner c -> Z.of_N size = h_size c ->
  c_page g < h_size c <= c_page g + excess g ->
  exists pl pr l r sep, var_try page inner lt m1 m2 b size false = BTwo pl pr /\
    vnode_rep ek ev inner l pl /\ vnode_rep ek ev inner r pr /\
    n_recs l <> [] /\ holds inner c (n_recs l ++ n_recs r) /\ (exists v, hd_error (n_recs r) = Some (sep, v)) /\
    (forall k v, In (k, v) (if inner then tl (n_recs l) else n_recs l) -> k < sep) /\
    n_low l = c_lo c /\ n_high l = Some sep /\ n_low r = Some sep /\ n_high r = c_hi c /\
    n_size l <= c_page g /\ n_size r <= c_page g /\
    (forall x, (x < 32 \/ page <= x)%N -> vp_mem pl x = m1 x /\ vp_mem pr x = m2 x).
Proof.
  intros OK HV Hh Hp H16 HC Hw Hr Hkc Hsz Hfit.
  destruct (cons_two g inner c 0%N 0%N OK Hw Hfit) as (ds & l & r & sep & A1 & A2 & A3 & A4 & A5 & A6 & A7 & A8 & A9 & B1 & B2 & B3).
  destruct (var_two g inner K lt ek ev page HC HV Hp Hh (fun k => proj1 (ok_key g OK k)) c b ds (pages c) l r 0%N 0%N m1 m2 size Hr Hkc A1
     (pages_cwf g inner c Hw) A2) as (pl & pr & D1 & D2 & D3 & D4); auto; try (rewrite <- Hh; apply fence_room; auto); try lia.
  exists pl, pr, l, r, sep. repeat (split; [assumption|]). assumption.
Qed.

(** ** Fixed-length layout *)
Lemma flay_hdr g L e : cfg_ok g -> c_varlen g = false -> flay_ok g L e -> (0 < fl_hdr L <= fl_page L)%N.
Proof.
  intros OK HV (A & B & C & D & E & _). pose proof (fence_room g None None OK) as F. unfold okl in F. rewrite HV in F.
  pose proof (ok_key g OK 0) as K. unfold klen in K. rewrite HV in K. lia.
Qed.

Lemma fix_chain_one g inner K lt ek ev L e c b m1 m2 size (scan : bool) :
  let ps := Z.to_N (paysz g inner) in
  cfg_ok g -> c_varlen g = false -> flay_ok g L e ->
  coding g inner K lt ek ev -> cwf g inner c -> (scan = true -> inner = false) ->
  chain_rep (fnode_rep L ps ek ev inner) (fdelta_rep L ps ek ev) c b -> chain_keys K inner c -> Z.of_N size = h_size c ->
  h_size c <= (if scan then 2 * c_page g else c_page g) ->
  exists p n, fix_try L ps inner lt m1 m2 b size scan = BOne p /\ fnode_rep L ps ek ev inner n p /\
    holds inner c (n_recs n) /\ n_low n = c_lo c /\ n_high n = c_hi c /\
    n_size n = (if scan then 2 * c_page g else h_size c) /\
    (forall x, (x < fl_koff L - 2 * fl_ks L \/ (if scan then fl_page L * 2 else fl_page L) <= x)%N -> fp_mem (fn_page p) x = m1 x).
Proof.
  intros ps OK HV HL HC Hw Hsc Hr Hkc Hsz Hfit. destruct (flay_hdr g L e OK HV HL) as [L7 L8].
  destruct HL as (L1 & L2 & L3 & L4 & L5 & L6).
  assert (Hps : Z.of_N ps = paysz g inner).
  { unfold ps. rewrite Z2N.id; auto. pose proof (ok_pay g OK). unfold paysz, ptrlen. destruct inner; lia. }
  destruct (cons_one g inner c scan 0%N 0%N OK Hw Hsc) as (ds & n & A1 & A2 & A3 & A4 & A5 & A6 & A7 & A8 & A9).
  destruct (fix_one g L ps inner K lt ek ev e HC HV L1 L2 L3 Hps L4 L5 L7 L6 c b ds (pages c) n 0%N 0%N m1 m2 size scan Hr Hkc A1
     (pages_cwf g inner c Hw) A2) as (p & B1 & B2 & B3); auto.
  - lia.
  - destruct scan; [auto|right; lia].
  - exists p, n. auto 10.
Qed.

Lemma fix_chain_two g inner K lt ek ev L e c b m1 m2 size :
  let ps := Z.to_N (paysz g inner) in
  cfg_ok g -> c_varlen g = false -> flay_ok g L e ->
  coding g inner K lt ek ev -> cwf g inner c ->
  chain_rep (fnode_rep L ps ek ev inner) (fdelta_rep L ps ek ev) c b -> chain_keys K inner c -> Z.of_N size = h_size c ->
  c_page g < h_size c <= c_page g + excess g ->
  exists pl pr l r sep, fix_try L ps inner lt m1 m2 b size false = BTwo pl pr /\
    fnode_rep L ps ek ev inner l pl /\ fnode_rep L ps ek ev inner r pr /\
    n_recs l <> [] /\ holds inner c (n_recs l ++ n_recs r) /\ (exists v, hd_error (n_recs r) = Some (sep, v)) /\
    (forall k v, In (k, v) (if inner then tl (n_recs l) else n_recs l) -> k < sep) /\
    n_low l = c_lo c /\ n_high l = Some sep /\ n_low r = Some sep /\ n_high r = c_hi c /\
    n_size l <= c_page g /\ n_size r <= c_page g /\
    (forall x, (x < fl_koff L - 2 * fl_ks L \/ fl_page L <= x)%N -> fp_mem (fn_page pl) x = m1 x /\ fp_mem (fn_page pr) x = m2 x).
Proof.
  intros ps OK HV HL HC Hw Hr Hkc Hsz Hfit. destruct (flay_hdr g L e OK HV HL) as [L7 L8].
  destruct HL as (L1 & L2 & L3 & L4 & L5 & L6).
  assert (Hps : Z.of_N ps = paysz g inner).
  { unfold ps. rewrite Z2N.id; auto. pose proof (ok_pay g OK). unfold paysz, ptrlen. destruct inner; lia. }
  destruct (cons_two g inner c 0%N 0%N OK Hw Hfit) as (ds & l & r & sep & A1 & A2 & A3 & A4 & A5 & A6 & A7 & A8 & A9 & B1 & B2 & B3).
  destruct (fix_two g L ps inner K lt ek ev e HC HV L1 L2 L3 Hps L4 L5 L7 L6 c b ds (pages c) l r 0%N 0%N m1 m2 size Hr Hkc A1
     (pages_cwf g inner c Hw) A2) as (pl & pr & D1 & D2 & D3 & D4); auto; try lia.
  exists pl, pr, l, r, sep. repeat (split; [assumption|]). assumption.
Qed.

(** ** Delta records *)
Lemma var_deltas g inner K lt ek ev d m : c_varlen g = true -> coding g inner K lt ek ev ->
  klen g (d_key d) + 48 + paysz g inner < 65536 ->
  (inner = false -> d_type d <> DDelete -> vdelta_rep ek ev d (vard_put m (d_type d) (ek (d_key d)) (ev (d_pay d)))) /\
  (inner = false -> d_type d = DDelete -> vdelta_rep ek ev d (vard_del m (ek (d_key d)))) /\
  (forall n p, vnode_rep ek ev inner n p -> n_low n = Some (d_key d) ->
     48 + klen g (d_key d) + okl g (n_high n) < 65536 ->
     (inner = true -> d_type d <> DDelete -> vdelta_rep ek ev d (vard_smo m (d_type d) inner p (ev (d_pay d)))) /\
     (forall pid, d_type d = DDelete -> blen pid = 8%N ->
        vdelta_rep ek ev d (vard_idel m p) /\ vdelta_rep ek ev d (vard_set (vard_idel m p) pid))).
Proof.
  intros HV (_ & C2 & C3) Hl. pose proof (C2 (d_key d)) as Lk. pose proof (C3 (d_pay d)) as Lv.
  split; [|split].
  - intros Hi Ht. destruct (vard_put_ok m (d_type d) (ek (d_key d)) (ev (d_pay d))) as (A & B & _ & T & _ & M & _); [lia|].
    split; [exact A|]. split; [exact T|]. intros _. split; [exact B|]. rewrite M. reflexivity.
  - intros Hi Ht. destruct (vard_del_ok m (ek (d_key d))) as (A & _ & T & _); [lia|].
    split; [exact A|]. split; [congruence|]. congruence.
  - intros n p (_ & _ & _ & Rl & Rh) Hn Hb. rewrite Hn in Rl. cbn [fence] in Rl.
    assert (Lh : Z.of_N (blen (fence ek (n_high n))) = okl g (n_high n)).
    { unfold okl. rewrite HV. destruct (n_high n); cbn [fence]; auto. }
    split.
    + intros Hi Ht. assert (L8 : blen (ev (d_pay d)) = 8%N) by (rewrite Hi in Lv; cbn [paysz] in Lv; unfold ptrlen in Lv; lia).
      destruct (vard_smo_ok m (d_type d) inner p (ev (d_pay d)) _ _ Rl Rh L8) as (A & B & _ & T & _ & M & _); [lia|].
      split; [exact A|]. split; [exact T|]. intros _. rewrite L8. split; [exact B|]. rewrite M. reflexivity.
    + intros pid Ht L8. destruct (vard_idel_ok m p pid _ _ Rl Rh L8) as (A & _ & _ & T & _ & _ & A' & _); [lia|].
      split; (split; [assumption|]; split; [|congruence]); [congruence|]. cbn [vard_set vd_type]. congruence.
Qed.

Lemma fix_deltas g inner K lt ek ev L e d m :
  let ps := Z.to_N (paysz g inner) in
  cfg_ok g -> c_varlen g = false -> flay_ok g L e -> coding g inner K lt ek ev ->
  (inner = false -> d_type d <> DDelete -> fdelta_rep L ps ek ev d (fixd_put L m (d_type d) (ek (d_key d)) (ev (d_pay d)))) /\
  (inner = false -> d_type d = DDelete -> fdelta_rep L ps ek ev d (fixd_del L m (ek (d_key d)))) /\
  (forall n p, fnode_rep L ps ek ev inner n p -> n_low n = Some (d_key d) ->
     (inner = true -> d_type d <> DDelete -> fdelta_rep L ps ek ev d (fixd_smo L m (d_type d) inner p (ev (d_pay d)))) /\
     (forall pid, d_type d = DDelete -> blen pid = 8%N ->
        fdelta_rep L ps ek ev d (fixd_idel L m p) /\ fdelta_rep L ps ek ev d (fixd_set L (fixd_idel L m p) pid))).
Proof.
  intros ps OK HV (L1 & L2 & L3 & L4 & L5 & L6) (_ & C2 & C3). pose proof (C2 (d_key d)) as Lk. pose proof (C3 (d_pay d)) as Lv.
  unfold klen in Lk. rewrite HV in Lk.
  assert (Hps : Z.of_N ps = paysz g inner) by (unfold ps; lia).
  split; [|split].
  - intros Hi Ht. destruct (fixd_put_ok L L4 L5 m (d_type d) (ek (d_key d)) (ev (d_pay d))) as (A & B & _ & T & _); [lia|].
    split; [exact A|]. split; [exact T|]. intros _. replace ps with (blen (ev (d_pay d))) by lia. exact B.
  - intros Hi Ht. destruct (fixd_del_ok L L4 L5 m (ek (d_key d))) as (A & _ & T & _); [lia|].
    split; [exact A|]. split; [congruence|]. congruence.
  - intros n p (_ & _ & _ & _ & Rl & _) Hn. specialize (Rl _ Hn).
    split.
    + intros Hi Ht. assert (L8 : blen (ev (d_pay d)) = 8%N) by (rewrite Hi in Lv; cbn [paysz] in Lv; unfold ptrlen in Lv; lia).
      destruct (fixd_smo_ok L L4 L5 m (d_type d) inner p (ev (d_pay d)) L8) as (A & B & _ & T & _).
      split; [congruence|]. split; [exact T|]. intros _. replace ps with 8%N by lia. exact B.
    + intros pid Ht L8. destruct (fixd_idel_ok L L4 L5 m p pid L8) as (A & _ & _ & T & _ & _ & A' & _).
      split; (split; [congruence|]; split; [|congruence]); [congruence|]. cbn [fixd_set fd_type]. congruence.
Qed.

(** ** Every chain of pages that fit has bytes *)
Lemma csum_rsum g inner K lt ek ev : c_varlen g = true -> coding g inner K lt ek ev -> forall rs,
  Z.of_N (8 * N.of_nat (length (map (er ek ev) rs)) + LayoutSpec.rsum (map (er ek ev) rs)) = csum g (paysz g inner) rs.
Proof.
  intros HV (_ & C2 & C3). induction rs as [|[k v] t IH]; [reflexivity|]. rewrite csum_cons. cbn [map length LayoutSpec.rsum].
  unfold LayoutSpec.rec_bytes, er at 2 3. cbn [fst snd]. unfold recsz, metalen. rewrite HV. specialize (C2 k). specialize (C3 v). lia.
Qed.

Lemma var_page_ex g inner K lt ek ev page n :
  cfg_ok g -> c_varlen g = true -> c_hdr g = 32 -> Z.of_N page = c_page g -> c_page g < 65536 ->
  coding g inner K lt ek ev -> (if inner then inode g n else lnode g n) -> n_size n <= c_page g ->
  exists p, vnode_rep ek ev inner n p.
Proof.
  intros OK HV Hh Hp H16 HC Hn Hs. set (m := (fun _ => 0%N) : mem).
  assert (Ha : exists add, low_of g inner n (n_recs n) = (n_low n, add) /\
     n_size n = Z.of_N (vp_size (fst (var_fill (var_new page m) page (encl ek ev [] (inner && is_leftmost n) (n_recs n))))) + add + okl g (n_high n) /\
     n_inner n = inner /\ (inner = true -> n_recs n <> [])).
  { rewrite fill_sz. unfold low_of. rewrite HV. cbn [andb]. pose proof HC as (_ & C2 & C3). destruct inner.
    - destruct Hn as (Hi & (k0 & E & H) & _ & _ & _ & Z). exists 0. rewrite E. unfold is_leftmost. split; [|split; [|split; [auto|discriminate]]].
      + destruct (n_low n); congruence.
      + pose proof (csum_rsum g true K lt ek ev HV HC (nents n)) as CS. rewrite Z. unfold ibytes, ifirst. cbn [andb encl length LayoutSpec.rsum].
        unfold LayoutSpec.rec_bytes. cbn [fst snd]. change (paysz g true) with ptrlen in *. specialize (C3 (nlead n)). unfold ptrlen in *.
        destruct (n_low n) as [l|].
        * subst k0. specialize (C2 l). unfold recsz, metalen. rewrite HV. lia.
        * unfold nullsz, metalen. rewrite HV. change (blen []) with 0%N. unfold ptrlen. lia.
    - destruct Hn as (Hi & _ & _ & _ & Z). exists (okl g (n_low n)). split; [reflexivity|]. split; [|split; [auto|discriminate]].
      cbn [andb]. rewrite encl_false. pose proof (csum_rsum g false K lt ek ev HV HC (n_recs n)) as CS.
      change (paysz g false) with (c_paylen g) in CS. rewrite Z. unfold lbytes. lia. }
  destruct Ha as (add & E1 & E2 & E3 & E4).
  pose proof (fin_page g inner K lt ek ev page HC HV (fun k => proj1 (ok_key g OK k)) m page n (n_recs n) (n_low n) add (n_high n) (n_addr n) (n_next n) E1 E4
    ltac:(lia) ltac:(lia)) as FP. cbn zeta in FP.
  destruct FP as [FP _]; [lia|rewrite <- Hh, Hp; apply fence_room; auto|].
  rewrite <- E2 in FP. rewrite <- E3 in FP at 2. assert (En : n = mk_node (n_addr n) (n_inner n) (n_low n) (n_high n) (n_next n) (n_recs n) (n_size n)) by (destruct n; reflexivity).
  rewrite <- En in FP. eexists. exact FP.
Qed.

Lemma var_chain_ex g inner K lt ek ev page c :
  cfg_ok g -> c_varlen g = true -> c_hdr g = 32 -> Z.of_N page = c_page g -> c_page g < 65536 ->
  coding g inner K lt ek ev -> cwf g inner c -> Forall (fun n => n_size n <= c_page g) (pages c) ->
  exists b, chain_rep (vnode_rep ek ev inner) (vdelta_rep ek ev) c b.
Proof.
  intros OK HV Hh Hp H16 HC Hw Hs.
  assert (HD : forall d, exists b, vdelta_rep ek ev d b).
  { intros d. exists (vard_put (fun _ => 0%N) (d_type d) (ek (d_key d)) (ev (d_pay d))). pose proof HC as (_ & C2 & C3).
    specialize (C2 (d_key d)). specialize (C3 (d_pay d)).
    assert (Hl : (blen (ek (d_key d)) + blen (ev (d_pay d)) < 65536)%N).
    { pose proof (fence_room g None None OK). pose proof (ok_page g OK). pose proof (kovh_nn g OK). pose proof (ok_hdr g OK).
      assert (recsz g (paysz g inner) (d_key d) <= maxrec g) by (destruct inner; [apply (recsz_inner g OK)|apply (recsz_leaf g OK)]).
      pose proof (maxrec_excess g). unfold recsz, metalen in *. rewrite HV in *. lia. }
    destruct (vard_put_ok (fun _ => 0%N) (d_type d) (ek (d_key d)) (ev (d_pay d)) Hl) as (A & B & _ & T & _ & M & _).
    split; [exact A|]. split; [exact T|]. intros _. split; [exact B|]. rewrite M. reflexivity. }
  assert (HN : forall n, (if inner then inode g n else lnode g n) -> n_size n <= c_page g -> exists p, vnode_rep ek ev inner n p)
    by (intros n; apply (var_page_ex g inner K lt ek ev page n); auto).
  clear - HD HN Hw Hs. induction c as [n|d nx IH|d n nx IH|]; cbn [pages] in Hs.
  - destruct (HN n) as [p Hpn]; [destruct inner; exact Hw|exact (Forall_inv Hs)|]. exists (BBase p). exact Hpn.
  - destruct (HD d) as [bd Hd]. destruct IH as [b Hb]; [destruct inner; apply Hw|exact Hs|]. exists (BRec bd b). split; assumption.
  - destruct (HD d) as [bd Hd]. destruct IH as [b Hb]; [destruct inner; apply Hw|exact (Forall_inv_tail Hs)|].
    destruct (HN n) as [p Hpn]; [destruct inner; apply Hw|exact (Forall_inv Hs)|]. exists (BMerge bd p b). split; assumption.
  - destruct inner; contradiction.
Qed.

Lemma csum_fix g inner K lt ek ev : c_varlen g = false -> coding g inner K lt ek ev -> forall rs,
  csum g (paysz g inner) rs = (c_ksize g + paysz g inner) * Z.of_nat (length rs).
Proof.
  intros HV HC. induction rs as [|[k v] t IH]; [cbn; lia|]. rewrite csum_cons, IH. cbn [length fst].
  unfold recsz, metalen, klen. rewrite HV. lia.
Qed.

Lemma fix_page_ex g inner K lt ek ev L e n :
  let ps := Z.to_N (paysz g inner) in
  cfg_ok g -> c_varlen g = false -> flay_ok g L e ->
  coding g inner K lt ek ev -> (if inner then inode g n else lnode g n) -> n_size n <= c_page g ->
  exists p, fnode_rep L ps ek ev inner n p.
Proof.
  intros ps OK HV HL HC Hn Hs. destruct (flay_hdr g L e OK HV HL) as [L7 L8].
  destruct HL as (L1 & L2 & L3 & L4 & L5 & L6). set (m := (fun _ => 0%N) : mem).
  pose proof HC as (_ & C2 & C3).
  assert (Hps : Z.of_N ps = paysz g inner) by (unfold ps; specialize (C3 0%N); lia).
  set (z := repeat 0%N (N.to_nat (fl_ks L))).
  assert (Lz : blen z = fl_ks L) by (unfold z, blen; rewrite repeat_length; lia).
  pose proof (fencl_ok g L ps inner K lt ek ev e HC HV L3 Hps L4 L5 L7 L6 z (inner && is_leftmost n) (n_recs n) Lz) as FO.
  set (F := fst (fill (fcopy L) (fixn_new L m, fl_page L) (encl ek ev z (inner && is_leftmost n) (n_recs n)))).
  assert (SZ : n_inner n = inner /\ n_size n = Z.of_N (fp_size (fn_page F))).
  { assert (E : fp_size (fn_page F) = (fl_hdr L + (fl_ks L + ps) * N.of_nat (length (n_recs n)))%N).
    { rewrite <- (fencl_len ek ev z (inner && is_leftmost n) (n_recs n)). unfold F. clear - FO.
      induction (encl ek ev z (inner && is_leftmost n) (n_recs n)) as [|x t IH] using rev_ind; [cbn; lia|].
      rewrite fill_snoc, fix_sz. apply Forall_app in FO as [G1 G2]. pose proof (Forall_inv G2) as [_ G3].
      rewrite (IH G1), app_length. unfold frsz. cbn [length]. lia. }
    rewrite E. pose proof (csum_fix g inner K lt ek ev HV HC) as CF. destruct inner.
    - destruct Hn as (Hi & (k0 & En & _) & _ & _ & _ & Z). split; [auto|]. rewrite Z, En. unfold ibytes, ifirst.
      change (paysz g true) with ptrlen in *. rewrite (CF (nents n)), okl_fix by auto. cbn [length].
      assert (X : (match n_low n with Some l => recsz g ptrlen l | None => nullsz g end) = c_ksize g + ptrlen).
      { unfold recsz, nullsz, metalen, klen. rewrite HV. destruct (n_low n); lia. }
      rewrite X. lia.
    - destruct Hn as (Hi & _ & _ & _ & Z). split; [auto|]. rewrite Z. unfold lbytes. change (c_paylen g) with (paysz g false).
      rewrite (CF (n_recs n)), !okl_fix by auto. lia. }
  destruct SZ as [Ei SZ].
  pose proof (fix_fin g L ps inner K lt ek ev e HC HV L1 L3 Hps L4 L5 L7 L6 m (fl_page L) false z (inner && is_leftmost n) (n_recs n)
    (match n_low n with Some k => ek k | None => z end) (n_low n) (match n_low n with Some _ => true | None => false end)
    (match n_high n with Some k => ek k | None => z end) (n_high n) (n_addr n) (n_next n) (n_size n) eq_refl Lz) as FIN.
  cbn zeta in FIN. fold F in FIN.
  assert (EK : forall k, blen (ek k) = fl_ks L) by (intros k; specialize (C2 k); unfold klen in C2; rewrite HV in C2; lia).
  destruct FIN as [FIN _]; auto.
  - intros Hi. rewrite Hi. reflexivity.
  - intros Hi. rewrite Hi. reflexivity.
  - destruct (n_low n); auto.
  - intros k E. rewrite E. reflexivity.
  - destruct (n_high n); auto.
  - intros k E. rewrite E. reflexivity.
  - lia.
  - rewrite <- Ei in FIN at 2. assert (En : n = mk_node (n_addr n) (n_inner n) (n_low n) (n_high n) (n_next n) (n_recs n) (n_size n)) by (destruct n; reflexivity).
    rewrite <- En in FIN. eexists. exact FIN.
Qed.

Lemma fix_chain_ex g inner K lt ek ev L e c :
  let ps := Z.to_N (paysz g inner) in
  cfg_ok g -> c_varlen g = false -> flay_ok g L e ->
  coding g inner K lt ek ev -> cwf g inner c -> Forall (fun n => n_size n <= c_page g) (pages c) ->
  exists b, chain_rep (fnode_rep L ps ek ev inner) (fdelta_rep L ps ek ev) c b.
Proof.
  intros ps OK HV HL HC Hw Hs.
  assert (HD : forall d, exists b, fdelta_rep L ps ek ev d b).
  { intros d. destruct HL as (L1 & L2 & L3 & L4 & L5 & L6). destruct HC as (_ & C2 & C3).
    specialize (C2 (d_key d)). specialize (C3 (d_pay d)). unfold klen in C2. rewrite HV in C2.
    exists (fixd_put L (fun _ => 0%N) (d_type d) (ek (d_key d)) (ev (d_pay d))).
    destruct (fixd_put_ok L L4 L5 (fun _ => 0%N) (d_type d) (ek (d_key d)) (ev (d_pay d))) as (A & B & _ & T & _); [lia|].
    split; [exact A|]. split; [exact T|]. intros _. replace ps with (blen (ev (d_pay d))) by (unfold ps; lia). exact B. }
  assert (HN : forall n, (if inner then inode g n else lnode g n) -> n_size n <= c_page g -> exists p, fnode_rep L ps ek ev inner n p)
    by (intros n; apply (fix_page_ex g inner K lt ek ev L e n); auto).
  clear - HD HN Hw Hs. clearbody ps. induction c as [n|d nx IH|d n nx IH|]; cbn [pages] in Hs.
  - destruct (HN n) as [p Hpn]; [destruct inner; exact Hw|exact (Forall_inv Hs)|]. exists (BBase p). exact Hpn.
  - destruct (HD d) as [bd Hd]. destruct IH as [b Hb]; [destruct inner; apply Hw|exact Hs|]. exists (BRec bd b). split; assumption.
  - destruct (HD d) as [bd Hd]. destruct IH as [b Hb]; [destruct inner; apply Hw|exact (Forall_inv_tail Hs)|].
    destruct (HN n) as [p Hpn]; [destruct inner; apply Hw|exact (Forall_inv Hs)|]. exists (BMerge bd p b). split; assumption.
  - destruct inner; contradiction.
Qed.
