(** Consolidation on bytes in the fixed-length layout does what consolidation of Page.v
    does. *)
From Coq Require Import ZArith NArith List Bool Lia.
From Coq Require Import ZifyBool ZifyNat ZifyN.
From Verif Require Import Config Page Bytes FixLayout VarLayout DeltaBytes ByteCons ByteConsSpec LayoutSpec LayoutFacts DeltaBytesFacts ByteConsFacts.
Import ListNotations.
Open Scope Z_scope.

Section Fix.
Variable g : cfg.
Variable L : flay.
Variable ps : N.
Variable inner : bool.
Variable K : Z -> Prop.
Variable lt : list N -> list N -> bool.
Variables (ek : Z -> list N) (ev : N -> list N).
Variable e : N.
Hypothesis HC : coding g inner K lt ek ev.
Hypothesis HV : c_varlen g = false.
Hypothesis Hpage : Z.of_N (fl_page L) = c_page g.
Hypothesis Hhdr : Z.of_N (fl_hdr L) = c_hdr g.
Hypothesis Hks : Z.of_N (fl_ks L) = c_ksize g.
Hypothesis Hps : Z.of_N ps = paysz g inner.
Hypothesis HK : (2 * fl_ks L <= fl_koff L)%N.
Hypothesis HH : (fl_koff L <= fl_hdr L)%N.
Hypothesis H0 : (0 < fl_hdr L)%N.
Hypothesis He : fl_page L = (2 ^ e)%N.

Definition frsz (r : list N * list N) : N := (fl_ks L + blen (snd r))%N.
Definition fcopy (st : fnode * N) (r : list N * list N) : fnode * N := fixn_copy L st (fst r) (snd r).

Lemma ek_len k : blen (ek k) = fl_ks L.
Proof. destruct HC as (_ & C & _). specialize (C k). unfold klen in C. rewrite HV in C. lia. Qed.
Lemma ev_len v : blen (ev v) = ps.
Proof. destruct HC as (_ & _ & C). specialize (C v). lia. Qed.
Lemma okl0 k : okl g k = 0.
Proof. unfold okl. rewrite HV. reflexivity. Qed.

Lemma fix_sz st r : fp_size (fn_page (fst (fcopy st r))) = (fp_size (fn_page (fst st)) + frsz r)%N.
Proof. clear. destruct st as [p o], r as [k v]. cbn. unfold frsz. cbn. lia. Qed.

Lemma fill_fix rs m o : let '(p, o') := fix_fill L (fix_new L m) o rs in
  fill fcopy (fixn_new L m, o) rs = (mk_fnode p false false, o').
Proof.
  induction rs as [|r rs IH] using rev_ind; [cbn; auto|].
  rewrite fix_fill_snoc, fill_snoc. destruct (fix_fill L (fix_new L m) o rs) as [p o']. rewrite IH.
  destruct r as [k v]. unfold fcopy, fixn_copy. cbn [fst snd fn_page fn_haslow fn_hashigh].
  destruct (fix_copy L (p, o') (k, v)). auto.
Qed.

Lemma fix_nrep kb0 n p : n_inner n = inner -> page_keys K inner n -> fnode_rep L ps ek ev inner n p ->
  (inner && is_leftmost n = true -> kb0 = fix_key L (fn_page p) 0) ->
  srep (fix_ops L ps) inner ek ev fcopy kb0 K n p.
Proof.
  intros _ HKn (A & B & C & E & _) K0. split; [exact A|]. split; [intros _; cbn; rewrite E; apply negb_involutive|].
  intros i k v Hi. destruct (C i k v Hi) as [C1 C2]. pose proof (HKn i k v Hi) as HKi. unfold nokey in *.
  destruct (inner && is_leftmost n) eqn:EL; cbn [andb] in *.
  - destruct (Nat.eqb i 0) eqn:Ei.
    + apply Nat.eqb_eq in Ei. subst i. intros st. cbn. rewrite (K0 eq_refl). unfold fcopy. cbn [fst snd].
      change (N.of_nat 0) with 0%N in C2. rewrite C2. reflexivity.
    + split; [auto|]. split; [cbn; auto|]. intros st. cbn. rewrite C1, C2 by auto. reflexivity.
  - split; [auto|]. split; [cbn; auto|]. intros st. cbn. rewrite C1, C2 by auto. reflexivity.
Qed.

Lemma fix_drep d b : K (d_key d) -> fdelta_rep L ps ek ev d b -> drep (fix_ops L ps) ek ev fcopy K d b.
Proof.
  intros HKd (A & B & C). split; [exact HKd|]. split; [exact A|]. split; [exact B|]. intros H st. cbn. rewrite A, (C H). reflexivity.
Qed.

Lemma fencl_nth kb0 lm rs i k v : nth_error rs i = Some (k, v) ->
  nth_error (encl ek ev kb0 lm rs) i = Some (if lm && Nat.eqb i 0 then kb0 else ek k, ev v).
Proof.
  destruct rs as [|[k0 v0] t]; [destruct i; discriminate|]. destruct i as [|i]; cbn.
  - intros H. injection H as -> ->. rewrite andb_true_r. reflexivity.
  - intros H. rewrite andb_false_r. rewrite (map_nth_error _ _ _ H). reflexivity.
Qed.
Lemma fencl_len kb0 lm rs : length (encl ek ev kb0 lm rs) = length rs.
Proof. destruct rs as [|[k v] t]; cbn; auto. rewrite map_length. auto. Qed.
Lemma fencl_ok kb0 lm rs : blen kb0 = fl_ks L ->
  Forall (fun r : list N * list N => blen (fst r) = fl_ks L /\ blen (snd r) = ps) (encl ek ev kb0 lm rs).
Proof.
  intros H. assert (M : forall t, Forall (fun r : list N * list N => blen (fst r) = fl_ks L /\ blen (snd r) = ps) (map (er ek ev) t)).
  { induction t; constructor; auto. unfold er. cbn. rewrite ek_len, ev_len. auto. }
  destruct rs as [|[k v] t]; [constructor|]. constructor; [|apply M]. cbn. rewrite ev_len.
  split; auto. destruct lm; auto. apply ek_len.
Qed.

Lemma fix_core c b ds ns (split : bool) o m1 m2 : chain_rep (fnode_rep L ps ek ev inner) (fdelta_rep L ps ek ev) c b -> chain_keys K inner c ->
  dc_sort c [] [] = Some (ds, ns) -> pages_ok inner ns -> (fl_hdr L <= fl_page L)%N ->
  let W := fix_ops L ps in
  let base := last ns (dummy_node inner) in
  let '(bds, bps) := b_sort W lt b [] [] in
  let kb0 := fix_key L (fn_page (last bps (fixn_new L m1))) 0 in
  sim W ek ev fcopy kb0 (fl_page L) (fixn_new L m1) (fixn_new L m2) o (inner && is_leftmost base)
    (merge_nodes g (paysz g inner) (rev ns) ds (mk_cs None [] (c_hdr g) split))
    (b_nodes W lt (fl_page L) (fl_hdr L) inner (rev bps) bds (mk_bst None (fixn_new L m1) o (if split then Some (fixn_new L m2) else None))) /\
  fnode_rep L ps ek ev inner base (last bps (fixn_new L m1)) /\
  fnode_rep L ps ek ev inner (hd (dummy_node inner) ns) (hd (fixn_new L m1) bps).
Proof.
  intros Hc Hkc Hs (P1 & P2 & P3 & P4) Hpg. pose proof HC as (C1 & C2 & C3). cbn zeta.
  pose proof (sort_sim (fix_ops L ps) lt ek K C1 (fun n p => page_keys K inner n /\ fnode_rep L ps ek ev inner n p)
    (fun d b => K (d_key d) /\ fdelta_rep L ps ek ev d b)
    (fun d b H => conj (proj1 H) (proj1 (proj2 H))) c b [] [] [] [] ds ns (rep_keys K inner _ _ c b Hc Hkc) (Forall2_nil _) (Forall2_nil _) Hs) as HS.
  destruct (b_sort (fix_ops L ps) lt b [] []) as [bds bps]. destruct HS as [Fd Fnk].
  assert (Fn : Forall2 (fnode_rep L ps ek ev inner) ns bps).
  { clear - Fnk. induction Fnk; constructor; tauto. }
  assert (Fk : Forall (page_keys K inner) ns).
  { clear - Fnk. induction Fnk; constructor; tauto. }
  apply Forall_rev in Fk.
  assert (Hl : fnode_rep L ps ek ev inner (last ns (dummy_node inner)) (last bps (fixn_new L m1))) by (apply Forall2_last; auto).
  split; [|split; [exact Hl|]].
  2:{ inversion Fn; subst; [congruence|assumption]. }
  set (base := last ns (dummy_node inner)) in *. set (bb := last bps (fixn_new L m1)) in *.
  assert (Er : rev ns = base :: rev (removelast ns)) by (apply rev_cons_last; auto).
  assert (Hb : bps <> []) by (intros ->; inversion Fn; congruence).
  assert (Eb : rev bps = bb :: rev (removelast bps)) by (apply rev_cons_last; auto).
  assert (Fr : Forall2 (fnode_rep L ps ek ev inner) (rev (removelast ns)) (rev (removelast bps))).
  { pose proof (Forall2_rev _ _ _ Fn) as F. rewrite Er, Eb in F. inversion F; auto. }
  rewrite Er, Eb.
  apply (all_sim (fix_ops L ps) g inner lt ek ev fcopy frsz (fix_key L (fn_page bb) 0) (fl_page L) (fl_hdr L) K); auto.
  - intros st r. apply fix_sz.
  - intros k v. unfold frsz, recsz, metalen, klen. rewrite HV. cbn [fst snd]. specialize (C3 v). lia.
  - intros Hi v. unfold frsz, nullsz, metalen. rewrite HV. cbn [fst snd]. specialize (C3 v). rewrite Hi in C3.
    cbn [paysz] in C3. lia.
  - rewrite Er in Fk. constructor. { apply fix_nrep; auto; [|exact (Forall_inv Fk)]. apply Forall_rev in P2. rewrite Er in P2. inversion P2; auto. }
    apply Forall_rev in P2. rewrite Er in P2. apply Forall_inv_tail in P2.
    apply Forall_rev in P3. apply Forall_inv_tail in Fk. clear - Fr Fk P2 P3 HC. induction Fr; constructor.
    + apply fix_nrep; [exact (Forall_inv P2)|exact (Forall_inv Fk)|auto|]. intros E. pose proof (Forall_inv P3). cbn in *. congruence.
    + apply IHFr; eapply Forall_inv_tail; eauto.
  - rewrite <- Er. apply Forall_rev. exact P2.
  - apply Forall_rev. exact P3.
  - clear - Fd HC. induction Fd as [|x y l l' [F1 F2] F IH]; constructor; auto. eapply fix_drep; eauto.
Qed.

(** A filled page whose fence keys have been written. *)
Lemma fix_fin m o (scan : bool) kb0 lm (rs : list (key * val)) lowb low (hl : bool) highb high a nx sz :
  o = (if scan then fl_page L * 2 else fl_page L)%N -> blen kb0 = fl_ks L ->
  (inner = true -> lm = match low with Some _ => false | None => true end) -> (inner = false -> lm = false) ->
  blen lowb = fl_ks L -> (forall k, low = Some k -> lowb = ek k) ->
  hl = match low with Some _ => true | None => false end ->
  blen highb = fl_ks L -> (forall k, high = Some k -> highb = ek k) ->
  let F := fst (fill fcopy (fixn_new L m, o) (encl ek ev kb0 lm rs)) in
  Z.of_N (fp_size (fn_page F)) <= Z.of_N o -> 
  sz = (if scan then 2 * c_page g else Z.of_N (fp_size (fn_page F))) ->
  let q := fixn_setmem (fixn_setmem F (fl_low L) lowb hl false) (fl_high L) highb hl
              (match high with Some _ => true | None => false end) in
  fnode_rep L ps ek ev inner (mk_node a inner low high nx rs sz)
     (if scan then mk_fnode (fix_scan_size L (fn_page q)) (fn_haslow q) (fn_hashigh q) else q) /\
  (forall x, (x < fl_koff L - 2 * fl_ks L \/ o <= x)%N ->
     fp_mem (fn_page (if scan then mk_fnode (fix_scan_size L (fn_page q)) (fn_haslow q) (fn_hashigh q) else q)) x = m x).
Proof.
  intros Ho Hkb Hlm Hlm' Hlb Hlow -> Hhb Hhigh F Hfit -> q.
  pose proof (fencl_ok kb0 lm rs Hkb) as FO. pose proof (fill_fix (encl ek ev kb0 lm rs) m o) as FF.
  pose proof (fix_fill_ok L ps m o (encl ek ev kb0 lm rs) FO) as HF.
  destruct (fix_fill L (fix_new L m) o (encl ek ev kb0 lm rs)) as [p o'] eqn:EF.
  assert (EFn : F = mk_fnode p false false) by (unfold F; rewrite FF; reflexivity).
  assert (Hsize : fp_size p = (fl_hdr L + (fl_ks L + ps) * N.of_nat (length (encl ek ev kb0 lm rs)))%N).
  { clear - EF FO. revert p o' EF. induction (encl ek ev kb0 lm rs) as [|r t IH] using rev_ind; intros p o' EF.
    - cbn in EF. injection EF as <- <-. cbn. lia.
    - rewrite fix_fill_snoc in EF. apply Forall_app in FO as [F1 F2]. pose proof (Forall_inv F2) as [G1 G2].
      destruct (fix_fill L (fix_new L m) o t) as [p1 o1]. specialize (IH F1 _ _ eq_refl).
      destruct r as [k v]. cbn in EF, G2. injection EF as <- <-. cbn. rewrite app_length. cbn [length]. lia. }
  rewrite fencl_len in *. rewrite EFn in Hfit. cbn [fn_page] in Hfit.
  destruct HF as (A & B & _ & R & G); [lia|].
  assert (AL : align_up (if scan then 2 * fl_page L else fp_size p)%N (fl_page L) = o).
  { subst o. rewrite He. destruct scan; [rewrite align_up_two; lia|]. apply align_up_page. lia. }
  assert (Q : q = mk_fnode (mk_fpage (wr (wr (fp_mem p) (fl_low L) lowb) (fl_high L) highb) (fp_cnt p) (fp_size p))
     (match low with Some _ => true | None => false end) (match high with Some _ => true | None => false end)).
  { unfold q. rewrite EFn. reflexivity. }
  unfold fnode_rep. unfold fl_low, fl_high in Q.
  assert (RD : forall a n, (fl_koff L <= a)%N -> rd (wr (wr (fp_mem p) (fl_koff L - 2 * fl_ks L) lowb) (fl_koff L - fl_ks L) highb) a n = rd (fp_mem p) a n).
  { intros x n Hx. rewrite !rd_wr_other by lia. reflexivity. }
  assert (REC : forall i k v, nth_error rs i = Some (k, v) -> forall z, z = (if scan then 2 * fl_page L else fp_size p)%N ->
     let P := mk_fpage (wr (wr (fp_mem p) (fl_koff L - 2 * fl_ks L) lowb) (fl_koff L - fl_ks L) highb) (fp_cnt p) z in
     (lm && Nat.eqb i 0 = false -> fix_key L P (N.of_nat i) = ek k) /\ fix_pay L P ps (N.of_nat i) = ev v).
  { intros i k v Hi z -> P. pose proof (fencl_nth kb0 lm rs i k v Hi) as Hn. destruct (R i _ _ Hn) as [R1 R2].
    split.
    - intros E. unfold fix_key, P. cbn [fp_mem]. rewrite RD by lia. rewrite R1, E. reflexivity.
    - unfold fix_pay, fix_pay_addr, P. cbn [fp_mem fp_size]. rewrite AL. rewrite RD; [exact R2|].
      assert (i < length rs)%nat by (apply nth_error_Some; congruence). nia. }
  assert (NK : forall i, nokey inner (mk_node a inner low high nx rs 0) i = false -> lm && Nat.eqb i 0 = false).
  { intros i. unfold nokey, is_leftmost. cbn [n_low]. clear - Hlm Hlm'. destruct inner.
    - rewrite Hlm by auto. destruct low; auto.
    - rewrite Hlm' by auto. auto. }
  assert (LOW : forall k, low = Some k -> rd (wr (wr (fp_mem p) (fl_koff L - 2 * fl_ks L) lowb) (fl_koff L - fl_ks L) highb) (fl_koff L - 2 * fl_ks L) (fl_ks L) = ek k).
  { intros k Hk. rewrite rd_wr_other by lia. rewrite rd_wr_eq; auto. }
  assert (HIGH : forall k, high = Some k -> rd (wr (wr (fp_mem p) (fl_koff L - 2 * fl_ks L) lowb) (fl_koff L - fl_ks L) highb) (fl_koff L - fl_ks L) (fl_ks L) = ek k).
  { intros k Hk. rewrite rd_wr_eq; auto. }
  clear EF FF. split.
  2:{ intros x Hx. rewrite Q. destruct scan; cbn [fn_page fp_mem fix_scan_size]. all: rewrite !wr_other by lia; apply G; lia. }
  rewrite Q. unfold fixn_low, fixn_high, fl_low, fl_high, is_leftmost.
  destruct scan; cbn [fn_page fn_haslow fn_hashigh fix_scan_size fp_mem fp_cnt fp_size n_recs n_low n_high n_size].
  - split; [auto|]. split; [lia|]. split.
    { intros i k v Hi. destruct (REC i k v Hi _ eq_refl) as [R1 R2]. split; [|exact R2]. intros E. apply R1. apply NK. exact E. }
    split; [destruct low; reflexivity|]. auto.
  - split; [auto|]. split; [rewrite EFn; reflexivity|]. split.
    { intros i k v Hi. destruct (REC i k v Hi _ eq_refl) as [R1 R2]. split; [|exact R2]. intros E. apply R1. apply NK. exact E. }
    split; [destruct low; reflexivity|]. auto.
Qed.

Lemma fix_one c b ds ns n a ra m1 m2 size (scan : bool) :
  chain_rep (fnode_rep L ps ek ev inner) (fdelta_rep L ps ek ev) c b -> chain_keys K inner c ->
  dc_sort c [] [] = Some (ds, ns) -> pages_ok inner ns ->
  consolidate g inner a ra ns ds false scan = COne n ->
  scan_bytes g inner ns ds <= (if scan then 2 * c_page g else c_page g) ->
  (fl_hdr L <= fl_page L)%N ->
  (scan = true \/ (size <= fl_page L)%N) ->
  exists p, fix_try L ps inner lt m1 m2 b size scan = BOne p /\ fnode_rep L ps ek ev inner n p /\
    (forall x, (x < fl_koff L - 2 * fl_ks L \/ (if scan then fl_page L * 2 else fl_page L) <= x)%N -> fp_mem (fn_page p) x = m1 x).
Proof.
  intros Hc Hkc Hs HP Hcons Hfit Hpg Hsp.
  unfold fix_try, b_try. set (o := (if scan then fl_page L * 2 else fl_page L)%N).
  pose proof (fix_core c b ds ns false o m1 m2 Hc Hkc Hs HP Hpg) as CO. cbn zeta in CO.
  destruct (b_sort (fix_ops L ps) lt b [] []) as [bds bps]. destruct CO as ((_ & S2 & S3) & Rb & Rf).
  replace (negb scan && (fl_page L <? size)%N) with false by (destruct scan; cbn; lia).
  unfold b_consolidate. fold o. set (B := b_nodes _ _ _ _ _ _ _ _) in *.
  unfold consolidate in Hcons. unfold scan_bytes in Hfit.
  set (s := merge_nodes g (paysz g inner) (rev ns) ds (mk_cs None [] (c_hdr g) false)) in *.
  set (base := last ns (dummy_node inner)) in *. set (front := hd (dummy_node inner) ns) in *.
  set (bb := last bps (fixn_new L m1)) in *. set (bf := hd (fixn_new L m1) bps) in *.
  assert (NL : cs_left s = None /\ b_left B = None).
  { assert (E : cs_left s = None) by (apply no_left). rewrite E in S3 |- *. destruct (b_left B); [contradiction|auto]. }
  destruct NL as [NL1 NL2]. rewrite NL1, NL2 in S3. clear NL1 NL2.
  unfold low_of in Hcons, Hfit. rewrite HV in Hcons, Hfit. cbn [andb snd] in Hcons, Hfit. rewrite !okl0 in Hfit. rewrite !okl0 in Hcons.
  injection Hcons as <-.
  destruct Rb as (_ & _ & _ & Rb1 & Rb2 & _). destruct Rf as (_ & _ & _ & _ & _ & Rf1 & Rf2).
  set (kb0 := fix_key L (fn_page bb) 0) in *.
  assert (Ecur : b_cur B = fst (fill fcopy (fixn_new L m1, o) (encl ek ev kb0 (inner && is_leftmost base) (cs_cur s)))).
  { rewrite <- S3. reflexivity. }
  assert (Hsz : Z.of_N (fp_size (fn_page (b_cur B))) = cs_size s) by exact S2.
  eexists. split; [reflexivity|].
  cbn [o_high o_low o_scan fix_ops fst].
  pose proof (fix_fin m1 o scan kb0 (inner && is_leftmost base) (cs_cur s) (fixn_low L bb) (n_low base) (fn_haslow bb)
     (fixn_high L bf) (n_high front) a (n_next front)
     (if scan then 2 * c_page g else cs_size s + 0 + 0) eq_refl) as FIN.
  cbn zeta in FIN. rewrite <- Ecur in FIN. cbn [fixn_setmem] in *.
  unfold fixn_setmem in *. cbn [fn_page fn_haslow fn_hashigh fp_mem fp_cnt fp_size] in *. rewrite Rf1.
  apply FIN; auto.
  - apply rd_len.
  - intros Hi. rewrite Hi. reflexivity.
  - intros Hi. rewrite Hi. reflexivity.
  - apply rd_len.
  - rewrite Rb1. unfold is_leftmost. destruct (n_low base); reflexivity.
  - apply rd_len.
  - unfold o. destruct scan; lia.
  - rewrite Hsz. destruct scan; lia.
Qed.

Lemma fix_two c b ds ns l r a ra m1 m2 size :
  chain_rep (fnode_rep L ps ek ev inner) (fdelta_rep L ps ek ev) c b -> chain_keys K inner c ->
  dc_sort c [] [] = Some (ds, ns) -> pages_ok inner ns ->
  consolidate g inner a ra ns ds true false = CTwo l r ->
  n_size l <= c_page g -> n_size r <= c_page g -> (fl_hdr L <= fl_page L)%N ->
  (fl_page L < size)%N ->
  exists pl pr, fix_try L ps inner lt m1 m2 b size false = BTwo pl pr /\
    fnode_rep L ps ek ev inner l pl /\ fnode_rep L ps ek ev inner r pr /\
    (forall x, (x < fl_koff L - 2 * fl_ks L \/ fl_page L <= x)%N -> fp_mem (fn_page pl) x = m1 x /\ fp_mem (fn_page pr) x = m2 x).
Proof.
  intros Hc Hkc Hs HP Hcons Fl1 Fr1 Hpg Hsp.
  unfold fix_try, b_try.
  pose proof (fix_core c b ds ns true (fl_page L) m1 m2 Hc Hkc Hs HP Hpg) as CO. cbn zeta in CO.
  destruct (b_sort (fix_ops L ps) lt b [] []) as [bds bps]. destruct CO as ((_ & S2 & S3) & Rb & Rf).
  replace (negb false && (fl_page L <? size)%N) with true by (cbn; lia).
  unfold b_consolidate. set (B := b_nodes _ _ _ _ _ _ _ _) in *.
  unfold consolidate in Hcons.
  set (s := merge_nodes g (paysz g inner) (rev ns) ds (mk_cs None [] (c_hdr g) true)) in *.
  set (base := last ns (dummy_node inner)) in *. set (front := hd (dummy_node inner) ns) in *.
  set (bb := last bps (fixn_new L m1)) in *. set (bf := hd (fixn_new L m1) bps) in *.
  destruct (cs_left s) as [[lrs lsz]|]; [|discriminate]. destruct (b_left B) as [bl|]; [|contradiction].
  destruct S3 as (_ & L1 & L2 & L3 & S3).
  destruct (cs_cur s) as [|[rk rv] rt] eqn:EC; [discriminate|].
  unfold low_of in Hcons. rewrite HV in Hcons. cbn [andb snd] in Hcons. rewrite !okl0 in Hcons.
  injection Hcons as <- <-. cbn [n_size] in *.
  destruct Rb as (_ & _ & _ & Rb1 & Rb2 & _). destruct Rf as (_ & _ & _ & _ & _ & Rf1 & Rf2).
  set (kb0 := fix_key L (fn_page bb) 0) in *.
  set (F2 := fst (fill fcopy (fixn_new L m2, fl_page L) (encl ek ev kb0 false ((rk, rv) :: rt)))).
  assert (E2 : b_cur B = F2).
  { unfold F2. rewrite encl_false, <- S3. reflexivity. }
  assert (Z2 : Z.of_N (fp_size (fn_page F2)) = cs_size s) by (rewrite <- E2; exact S2).
  assert (Z1 : Z.of_N (fp_size (fn_page bl)) = lsz) by exact L3.
  assert (Hkb : blen kb0 = fl_ks L) by apply rd_len.
  assert (Hlm1 : inner = true -> inner && is_leftmost base = match n_low base with Some _ => false | None => true end) by (intros ->; reflexivity).
  assert (Hlm2 : inner = false -> inner && is_leftmost base = false) by (intros ->; reflexivity).
  assert (Hbl : fn_haslow bb = match n_low base with Some _ => true | None => false end)
    by (rewrite Rb1; unfold is_leftmost; destruct (n_low base); reflexivity).
  assert (Hrad : (if inner then 0 else 0) = 0) by (destruct inner; reflexivity).
  rewrite Hrad in *.
  assert (K0 : fix_key L (fn_page F2) 0 = ek rk).
  { pose proof (fencl_ok kb0 false ((rk, rv) :: rt) Hkb) as FO.
    pose proof (fill_fix (encl ek ev kb0 false ((rk, rv) :: rt)) m2 (fl_page L)) as FF.
    pose proof (fix_page_ok L ps e m2 (encl ek ev kb0 false ((rk, rv) :: rt)) FO He H0 HH) as PO. cbn zeta in PO.
    assert (Hln : (fp_size (fn_page F2) = fl_hdr L + (fl_ks L + ps) * N.of_nat (length (encl ek ev kb0 false ((rk, rv) :: rt))))%N).
    { unfold F2. clear - FO. induction (encl ek ev kb0 false ((rk, rv) :: rt)) as [|x t IH] using rev_ind.
      - cbn. lia.
      - rewrite fill_snoc, fix_sz. apply Forall_app in FO as [G1 G2]. pose proof (Forall_inv G2) as [_ G3].
        rewrite (IH G1), app_length. unfold frsz. cbn [length]. lia. }
    unfold F2. destruct (fix_fill L (fix_new L m2) (fl_page L) _) as [p o'] eqn:EP. rewrite FF.
    cbn [fst fn_page] in *. destruct PO as (_ & PO & _); [lia|].
    destruct (PO 0%nat (ek rk) (ev rv) eq_refl) as [PK _]. exact PK. }
  set (PL := fixn_setmem (fixn_setmem bl (fl_low L) (fixn_low L bb) (fn_haslow bb) false) (fl_high L) (ek rk) (fn_haslow bb) true).
  set (PR := fixn_setmem (fixn_setmem F2 (fl_low L) (ek rk) true false) (fl_high L) (fixn_high L bf) true
        (match n_high front with Some _ => true | None => false end)).
  assert (LF : fnode_rep L ps ek ev inner (mk_node a inner (n_low base) (Some rk) 0%N lrs (lsz + 0 + 0)) PL /\
     (forall x, (x < fl_koff L - 2 * fl_ks L \/ fl_page L <= x)%N -> fp_mem (fn_page PL) x = m1 x)).
  { pose proof (fix_fin m1 (fl_page L) false kb0 (inner && is_leftmost base) lrs (fixn_low L bb) (n_low base) (fn_haslow bb)
      (ek rk) (Some rk) a 0%N (lsz + 0 + 0) eq_refl Hkb Hlm1 Hlm2) as FIN.
    cbn zeta in FIN. rewrite <- L2 in FIN. apply FIN; auto.
    + apply rd_len.
    + apply ek_len.
    + intros k E. injection E as <-. reflexivity.
    + lia.
    + lia. }
  assert (RF : fnode_rep L ps ek ev inner (mk_node ra inner (Some rk) (n_high front) (n_next front) ((rk, rv) :: rt) (cs_size s + 0 + 0)) PR /\
     (forall x, (x < fl_koff L - 2 * fl_ks L \/ fl_page L <= x)%N -> fp_mem (fn_page PR) x = m2 x)).
  { pose proof (fix_fin m2 (fl_page L) false kb0 false ((rk, rv) :: rt) (ek rk) (Some rk) true
      (fixn_high L bf) (n_high front) ra (n_next front) (cs_size s + 0 + 0) eq_refl Hkb) as FIN.
    cbn zeta in FIN. fold F2 in FIN. apply FIN; auto.
    + apply ek_len.
    + intros k E. injection E as <-. reflexivity.
    + apply rd_len.
    + lia.
    + lia. }
  destruct LF as [LF1 LF2]. destruct RF as [RF1 RF2].
  exists PL, PR. split; [|split; [exact LF1|split; [exact RF1|intros x Hx; split; [exact (LF2 x Hx)|exact (RF2 x Hx)]]]].
  cbn [o_high o_low o_lowself o_highleft fix_ops fst]. rewrite E2, K0. unfold PL, PR, fixn_setmem.
  cbn [fn_page fn_haslow fn_hashigh fp_mem fp_cnt fp_size]. rewrite Rf1. reflexivity.
Qed.
End Fix.
