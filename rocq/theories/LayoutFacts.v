(** Reading back what was written to pages and delta records. *)
From Coq Require Import ZArith NArith List Bool Lia.
From Coq Require Import ZifyBool ZifyNat ZifyN.
From Verif Require Import Bytes FixLayout VarLayout Misc LayoutSpec.
Import ListNotations.
Open Scope N_scope.

(** ** Bytes *)
Lemma rd_ext m m' o n : (forall a, o <= a < o + n -> m a = m' a) -> rd m o n = rd m' o n.
Proof. intros H. apply map_ext_in. intros i Hi. apply in_seq in Hi. apply H. lia. Qed.
Lemma wr_other m o bs a : a < o \/ o + blen bs <= a -> wr m o bs a = m a.
Proof. intros H. unfold wr. destruct (N.leb_spec o a), (N.ltb_spec a (o + blen bs)); cbn; auto; lia. Qed.
Lemma rd_wr_other m o bs o' n : o' + n <= o \/ o + blen bs <= o' -> rd (wr m o bs) o' n = rd m o' n.
Proof. intros H. apply rd_ext. intros a Ha. apply wr_other. lia. Qed.
Lemma rd_len m o n : blen (rd m o n) = n.
Proof. unfold rd, blen. rewrite map_length, seq_length. lia. Qed.
Lemma map_nth_seq (bs : list N) : map (fun i => nth i bs 0) (seq 0 (length bs)) = bs.
Proof.
  induction bs as [|b bs IH]; cbn; auto. f_equal. rewrite <- seq_shift, map_map. exact IH.
Qed.
Lemma rd_wr_same m o bs : rd (wr m o bs) o (blen bs) = bs.
Proof.
  unfold rd, blen. rewrite Nat2N.id. etransitivity; [|apply map_nth_seq]. apply map_ext_in. intros i Hi.
  apply in_seq in Hi. unfold wr. unfold blen. destruct (N.leb_spec o (o + N.of_nat i)); [|lia].
  destruct (N.ltb_spec (o + N.of_nat i) (o + N.of_nat (length bs))); [|lia]. cbn. f_equal. lia.
Qed.
Lemma rd_wr_eq m o bs n : blen bs = n -> rd (wr m o bs) o n = bs.
Proof. intros <-. apply rd_wr_same. Qed.
Lemma rd_app m o a b : rd m o (a + b) = rd m o a ++ rd m (o + a) b.
Proof.
  unfold rd. rewrite N2Nat.inj_add, seq_app, map_app. f_equal.
  replace (0 + N.to_nat a)%nat with (N.to_nat a + 0)%nat by lia.
  rewrite <- (map_id (seq (N.to_nat a + 0) (N.to_nat b))).
  generalize 0%nat. induction (N.to_nat b) as [|n IH]; intros k; auto. cbn. f_equal; [f_equal; lia|].
  specialize (IH (S k)). rewrite <- IH. repeat f_equal. lia.
Qed.
Lemma blen_app a b : blen (a ++ b) = blen a + blen b.
Proof. unfold blen. rewrite app_length. lia. Qed.
Lemma app_split {A} (a b c d : list A) : length a = length c -> a ++ b = c ++ d -> a = c /\ b = d.
Proof.
  revert c. induction a as [|x a IH]; intros [|y c] L E; cbn in *; try discriminate; auto.
  inversion E; subst. destruct (IH c) as [-> ->]; auto.
Qed.
Lemma rd_wr_pair m o k v : rd (wr m o (k ++ v)) o (blen k) = k /\ rd (wr m o (k ++ v)) (o + blen k) (blen v) = v.
Proof.
  pose proof (rd_wr_same m o (k ++ v)) as H. rewrite blen_app, rd_app in H. apply app_split in H; auto.
  unfold rd. rewrite map_length, seq_length. unfold blen. lia.
Qed.

Lemma le_len n x : length (le n x) = n.
Proof. revert x. induction n; intros x; cbn; auto. Qed.
Lemma unle_le n x : x < 256 ^ N.of_nat n -> unle (le n x) = x.
Proof.
  revert x. induction n as [|n IH]; intros x Hx; [cbn in *; lia|].
  cbn [le unle]. rewrite IH.
  - pose proof (N.div_mod x 256). lia.
  - rewrite Nat2N.inj_succ, N.pow_succ_r' in Hx. apply N.div_lt_upper_bound; lia.
Qed.
Lemma ldiff_pow x e : N.ldiff x (2 ^ e - 1) = x / 2 ^ e * 2 ^ e.
Proof.
  replace (2 ^ e - 1) with (N.ones e).
  - rewrite N.ldiff_ones_r, N.shiftr_div_pow2, N.shiftl_mul_pow2. auto.
  - rewrite N.ones_equiv. lia.
Qed.
Lemma align_up_pow x e : align_up x (2 ^ e) = (x + (2 ^ e - 1)) / 2 ^ e * 2 ^ e.
Proof. unfold align_up. apply ldiff_pow. Qed.
Lemma align_up_page x e : 0 < x <= 2 ^ e -> align_up x (2 ^ e) = 2 ^ e.
Proof.
  intros H. rewrite align_up_pow. replace ((x + (2 ^ e - 1)) / 2 ^ e) with 1; [lia|].
  apply (N.div_unique _ _ 1 (x - 1)); lia.
Qed.
Lemma align_up_two e : align_up (2 * 2 ^ e) (2 ^ e) = 2 * 2 ^ e.
Proof.
  rewrite align_up_pow. pose proof (N.pow_nonzero 2 e). replace ((2 * 2 ^ e + (2 ^ e - 1)) / 2 ^ e) with 2; [lia|].
  apply (N.div_unique _ _ 2 (2 ^ e - 1)); lia.
Qed.

(** ** Fixed-length pages *)
Section fix_page.
Variables (L : flay) (ps : N).
Notation rlen_ok := (Forall (fun r : list N * list N => blen (fst r) = fl_ks L /\ blen (snd r) = ps)).

Lemma fix_fill_snoc p o rs r : fix_fill L p o (rs ++ [r]) = fix_copy L (fix_fill L p o rs) r.
Proof. unfold fix_fill. rewrite fold_left_app. reflexivity. Qed.

Lemma fix_fill_ok m o rs : rlen_ok rs -> fl_koff L + (fl_ks L + ps) * N.of_nat (length rs) <= o ->
  let '(p, o') := fix_fill L (fix_new L m) o rs in
  fp_cnt p = N.of_nat (length rs) /\ fp_size p = fl_hdr L + (fl_ks L + ps) * N.of_nat (length rs) /\
  o' = o - ps * N.of_nat (length rs) /\
  (forall i k v, nth_error rs i = Some (k, v) ->
     rd (fp_mem p) (fl_koff L + fl_ks L * N.of_nat i) (fl_ks L) = k /\
     rd (fp_mem p) (o - ps * (N.of_nat i + 1)) ps = v) /\
  (forall a, a < fl_koff L \/ o <= a -> fp_mem p a = m a).
Proof.
  induction rs as [|r rs IH] using rev_ind; intros F H.
  - cbn. repeat split; try lia; intros; try (destruct i; discriminate); auto.
  - rewrite fix_fill_snoc. apply Forall_app in F as [F Fr]. apply Forall_inv in Fr as [F1 F2].
    rewrite app_length in *. cbn [length] in *.
    destruct (fix_fill L (fix_new L m) o rs) as [p o'] eqn:E. destruct r as [k v]. cbn [fst snd] in *.
    destruct IH as (A & B & C & D & G); auto; [lia|].
    set (n := length rs) in *. cbn [fix_copy fp_cnt fp_size fp_mem].
    assert (Hn : N.of_nat (n + 1) = N.of_nat n + 1) by lia. rewrite Hn in *.
    assert (NL : fl_koff L + fl_ks L * (N.of_nat n + 1) <= o - ps * (N.of_nat n + 1)) by lia.
    split; [lia|]. split; [lia|]. split; [lia|]. split.
    + intros i k' v' Hi. destruct (Nat.lt_ge_cases i n) as [Hlt|Hge].
      * rewrite nth_error_app1 in Hi by auto. destruct (D i k' v' Hi) as [D1 D2].
        assert (fl_ks L * (N.of_nat i + 1) <= fl_ks L * N.of_nat n) by (apply N.mul_le_mono_l; lia).
        assert (ps * (N.of_nat i + 1) <= ps * N.of_nat n) by (apply N.mul_le_mono_l; lia).
        split.
        { rewrite !rd_wr_other; auto; lia. }
        { rewrite !rd_wr_other; auto; lia. }
      * rewrite nth_error_app2 in Hi by auto. fold n in Hi. destruct (i - n)%nat as [|j] eqn:Ei; [|destruct j; discriminate].
        cbn in Hi. inversion Hi; subst k' v'. assert (i = n) by lia. subst i. split.
        { rewrite rd_wr_other by lia. rewrite A, <- F1. apply rd_wr_same. }
        { replace (o - ps * (N.of_nat n + 1)) with (o' - blen v) by lia. rewrite <- F2. apply rd_wr_same. }
    + intros a Ha. rewrite !wr_other; [apply G; lia| |]; lia.
Qed.

Lemma fix_page_ok e m rs : rlen_ok rs -> fl_page L = 2 ^ e -> 0 < fl_hdr L -> fl_koff L <= fl_hdr L ->
  fl_hdr L + (fl_ks L + ps) * N.of_nat (length rs) <= fl_page L ->
  let p := fst (fix_fill L (fix_new L m) (fl_page L) rs) in
  fp_cnt p = N.of_nat (length rs) /\
  (forall i k v, nth_error rs i = Some (k, v) ->
     fix_key L p (N.of_nat i) = k /\ fix_pay L p ps (N.of_nat i) = v) /\
  (forall a, a < fl_koff L \/ fl_page L <= a -> fp_mem p a = m a).
Proof.
  intros F He H0 Hk Hf. pose proof (fix_fill_ok m (fl_page L) rs F) as H.
  destruct (fix_fill L (fix_new L m) (fl_page L) rs) as [p o']. destruct H as (A & B & C & D & G); [lia|].
  cbn [fst]. split; auto. split; auto. intros i k v Hi. destruct (D i k v Hi) as [D1 D2]. split; auto.
  unfold fix_pay, fix_pay_addr. replace (align_up (fp_size p) (fl_page L)) with (fl_page L); auto.
  rewrite He. symmetry. apply align_up_page. lia.
Qed.

Lemma fix_scan_ok e m rs : rlen_ok rs -> fl_page L = 2 ^ e -> fl_koff L <= fl_hdr L ->
  fl_hdr L + (fl_ks L + ps) * N.of_nat (length rs) <= 2 * fl_page L ->
  let p := fix_scan_size L (fst (fix_fill L (fix_new L m) (2 * fl_page L) rs)) in
  fp_cnt p = N.of_nat (length rs) /\
  (forall i k v, nth_error rs i = Some (k, v) ->
     fix_key L p (N.of_nat i) = k /\ fix_pay L p ps (N.of_nat i) = v) /\
  (forall a, a < fl_koff L \/ 2 * fl_page L <= a -> fp_mem p a = m a).
Proof.
  intros F He Hk Hf. pose proof (fix_fill_ok m (2 * fl_page L) rs F) as H.
  destruct (fix_fill L (fix_new L m) (2 * fl_page L) rs) as [p o']. destruct H as (A & B & C & D & G); [lia|].
  cbn [fst]. split; auto. split; auto. intros i k v Hi. destruct (D i k v Hi) as [D1 D2]. split; auto.
  unfold fix_pay, fix_pay_addr. cbn [fix_scan_size fp_size fp_mem].
  replace (align_up (2 * fl_page L) (fl_page L)) with (2 * fl_page L) by (rewrite He; symmetry; apply align_up_two). auto.
Qed.
End fix_page.

Lemma fix_root_ok L e m k l r : fl_page L = 2 ^ e -> fl_koff L <= fl_hdr L ->
  blen k = fl_ks L -> blen l = 8 -> blen r = 8 -> fl_hdr L + 2 * (fl_ks L + 8) <= fl_page L ->
  let p := fix_root L m k l r in
  fix_key L p 1 = k /\ fix_pay L p 8 0 = l /\ fix_pay L p 8 1 = r /\
  (forall a, a < fl_koff L \/ fl_page L <= a -> fp_mem p a = m a).
Proof.
  intros He Hk Lk Ll Lr Hf. cbn zeta. unfold fix_key, fix_pay, fix_pay_addr, fix_root. cbn [fp_mem fp_size].
  replace (align_up (fl_hdr L + 2 * (fl_ks L + 8)) (fl_page L)) with (fl_page L)
    by (rewrite He; symmetry; apply align_up_page; lia).
  split; [|split; [|split]].
  - rewrite !rd_wr_other by lia. apply rd_wr_eq, Lk.
  - replace (fl_page L - 8 * (0 + 1)) with (fl_page L - 8) by lia. rewrite rd_wr_other by lia.
    apply rd_wr_eq, Ll.
  - replace (fl_page L - 8 * (1 + 1)) with (fl_page L - 8 - 8) by lia. apply rd_wr_eq, Lr.
  - intros a Ha. rewrite !wr_other; auto; lia.
Qed.

(** Delta records. *)
Lemma align_up_ge x e : x <= align_up x (2 ^ e).
Proof.
  rewrite align_up_pow. pose proof (N.pow_nonzero 2 e). pose proof (N.div_mod (x + (2 ^ e - 1)) (2 ^ e)).
  pose proof (N.mod_lt (x + (2 ^ e - 1)) (2 ^ e)). lia.
Qed.
Lemma align8 x : align_up x 8 = (x + 7) / 8 * 8.
Proof. apply (align_up_pow x 3). Qed.
Lemma align64 x : align_up x 64 = (x + 63) / 64 * 64.
Proof. apply (align_up_pow x 6). Qed.
Lemma ldiff7 x : N.ldiff x 7 = x / 8 * 8.
Proof. apply (ldiff_pow x 3). Qed.
Ltac Zify.zify_post_hook ::= Z.div_mod_to_equations.
Lemma fixd_fits L paylen : fl_koff L <= fl_hdr L -> fl_hdr L mod 8 = 0 ->
  fixd_end L paylen <= fixd_max L paylen /\ fixd_end L 8 <= fixd_max L paylen /\
  fixd_index_delete_end L <= fixd_max L paylen.
Proof.
  intros H H8. unfold fixd_end, fixd_index_delete_end, fixd_pay_offset, fixd_max. rewrite align64, align8.
  destruct (N.ltb_spec 8 paylen); repeat split; lia.
Qed.
Lemma vard_fits maxk paylen klen hlen : klen <= maxk -> hlen <= maxk ->
  vard_leaf_end klen paylen <= vard_max maxk paylen /\ vard_smo_end klen hlen <= vard_max maxk paylen /\
  (maxk mod 8 = 0 -> vard_index_delete_end klen hlen <= vard_max maxk paylen).
Proof.
  intros A B. unfold vard_leaf_end, vard_smo_end, vard_index_delete_end, vard_max. rewrite align64, ldiff7.
  destruct (N.ltb_spec 8 paylen); repeat split; intros; lia.
Qed.
Ltac Zify.zify_post_hook ::= idtac.

(** ** Metadata and variable-length pages *)
Lemma u16_id x : x < 65536 -> u16 x = x.
Proof. apply N.mod_small. Qed.
Lemma meta_len x : blen (meta_bytes x) = 8.
Proof. unfold blen, meta_bytes. rewrite !app_length, !le_len. reflexivity. Qed.
Lemma meta_rw m o x : mt_off x < 2 ^ 32 -> mt_klen x < 65536 -> mt_rlen x < 65536 ->
  meta_read (wr m o (meta_bytes x)) o = x.
Proof.
  intros A B C. unfold meta_read. pose proof (rd_wr_same m o (meta_bytes x)) as H. rewrite meta_len in H.
  change 8 with (4 + (2 + 2)) in H. rewrite !rd_app in H. unfold meta_bytes in H.
  apply app_split in H as [H1 H]; [|rewrite le_len; reflexivity].
  apply app_split in H as [H2 H3]; [|rewrite le_len; reflexivity].
  fold (meta_bytes x) in *. rewrite H1, H2. replace (o + 6) with (o + 4 + 2) by lia. rewrite H3.
  rewrite !unle_le; [destruct x; auto| | |]; cbn; auto.
Qed.
Lemma new_meta_fit o k r : o < 65536 -> k < 65536 -> r < 65536 -> new_meta o k r = mk_meta o k r.
Proof. intros. unfold new_meta. rewrite !u16_id; auto. Qed.
Lemma meta_other m o bs o' : o' + 8 <= o \/ o + blen bs <= o' -> meta_read (wr m o bs) o' = meta_read m o'.
Proof. intros H. unfold meta_read. rewrite !rd_wr_other; auto; lia. Qed.

Lemma rsum_app a b : rsum (a ++ b) = rsum a + rsum b.
Proof. induction a; cbn; lia. Qed.
Lemma rsum_firstn i rs : rsum (firstn i rs) <= rsum rs.
Proof. rewrite <- (firstn_skipn i rs) at 2. rewrite rsum_app. lia. Qed.

(** What the bytes and metadata of [n] records look like. *)
Definition recs_at (m : mem) (o : N) (rs : list (list N * list N)) : Prop :=
  forall i k v, nth_error rs i = Some (k, v) ->
    let off := o - rsum (firstn (S i) rs) in
    meta_read m (var_hdr + 8 * N.of_nat i) = mk_meta off (blen k) (blen k + blen v) /\
    rd m off (blen k) = k /\ rd m (off + blen k) (blen v) = v.

Lemma var_fill_snoc p o rs r : var_fill p o (rs ++ [r]) = var_copy (var_fill p o rs) r.
Proof. unfold var_fill. rewrite fold_left_app. reflexivity. Qed.

Lemma var_fill_ok page m o rs : o < 65536 -> var_hdr + 8 * N.of_nat (length rs) + rsum rs <= o ->
  let '(p, o') := var_fill (var_new page m) o rs in
  vp_cnt p = N.of_nat (length rs) /\ vp_size p = var_hdr + 8 * N.of_nat (length rs) + rsum rs /\
  o' = o - rsum rs /\ recs_at (vp_mem p) o rs /\
  vp_low p = new_meta page 0 0 /\ vp_high p = new_meta page 0 0 /\
  (forall a, a < var_hdr \/ o <= a -> vp_mem p a = m a).
Proof.
  intros Ho. induction rs as [|r rs IH] using rev_ind; intros H.
  - cbn in *. repeat split; try lia; intros; try (destruct i; discriminate); auto.
  - rewrite var_fill_snoc. rewrite app_length, rsum_app in *. cbn [length rsum] in *.
    destruct (var_fill (var_new page m) o rs) as [p o'] eqn:E. destruct r as [k v].
    unfold rec_bytes in *. cbn [fst snd] in *.
    destruct IH as (A & B & C & D & E1 & E2 & G); [lia|].
    set (n := length rs) in *. cbn [var_copy vp_cnt vp_size vp_mem vp_low vp_high].
    assert (Hn : N.of_nat (n + 1) = N.of_nat n + 1) by lia. rewrite Hn in *. unfold var_hdr in *.
    repeat split; auto; try lia.
    + unfold set_meta. destruct (Nat.lt_ge_cases i n) as [Hlt|Hge].
      * rewrite nth_error_app1 in H0 by auto. destruct (D i k0 v0 H0) as [D1 _]. unfold var_hdr in *.
        rewrite firstn_app. replace (S i - length rs)%nat with 0%nat by (unfold n in *; lia). rewrite firstn_O, app_nil_r.
        rewrite meta_other by (rewrite meta_len; lia). rewrite meta_other by (rewrite blen_app; lia). auto.
      * rewrite nth_error_app2 in H0 by auto. fold n in H0. destruct (i - n)%nat as [|j] eqn:Ei; [|destruct j; discriminate].
        cbn in H0. inversion H0; subst k0 v0. assert (i = n) by lia. subst i. rewrite A. unfold var_hdr in *.
        rewrite firstn_all2 by (rewrite app_length; cbn; unfold n; lia). rewrite rsum_app. cbn [rsum]. unfold rec_bytes. cbn [fst snd].
        rewrite new_meta_fit by lia. rewrite meta_rw; cbn; try lia. f_equal; lia.
    + unfold set_meta. destruct (Nat.lt_ge_cases i n) as [Hlt|Hge].
      * rewrite nth_error_app1 in H0 by auto. destruct (D i k0 v0 H0) as (_ & D2 & _). unfold var_hdr in *.
        rewrite firstn_app. replace (S i - length rs)%nat with 0%nat by (unfold n in *; lia). rewrite firstn_O, app_nil_r.
        pose proof (rsum_firstn (S i) rs). assert (rec_bytes (k0, v0) <= rsum (firstn (S i) rs)).
        { apply nth_error_split in H0 as (l1 & l2 & -> & <-). rewrite firstn_app.
          replace (S (length l1) - length l1)%nat with 1%nat by lia. rewrite rsum_app. cbn. lia. }
        unfold rec_bytes in *. cbn [fst snd] in *.
        rewrite !rd_wr_other; auto; rewrite ?meta_len, ?blen_app; lia.
      * rewrite nth_error_app2 in H0 by auto. fold n in H0. destruct (i - n)%nat as [|j] eqn:Ei; [|destruct j; discriminate].
        cbn in H0. inversion H0; subst k0 v0. assert (i = n) by lia. subst i. rewrite A.
        rewrite firstn_all2 by (rewrite app_length; cbn; unfold n; lia). rewrite rsum_app. cbn [rsum]. unfold rec_bytes. cbn [fst snd].
        rewrite rd_wr_other by (rewrite meta_len; unfold var_hdr; lia).
        replace (o - (rsum rs + (blen k + blen v + 0))) with (o' - (blen k + blen v)) by lia. apply rd_wr_pair.
    + unfold set_meta. destruct (Nat.lt_ge_cases i n) as [Hlt|Hge].
      * rewrite nth_error_app1 in H0 by auto. destruct (D i k0 v0 H0) as (_ & _ & D2). unfold var_hdr in *.
        rewrite firstn_app. replace (S i - length rs)%nat with 0%nat by (unfold n in *; lia). rewrite firstn_O, app_nil_r.
        pose proof (rsum_firstn (S i) rs). assert (rec_bytes (k0, v0) <= rsum (firstn (S i) rs)).
        { apply nth_error_split in H0 as (l1 & l2 & -> & <-). rewrite firstn_app.
          replace (S (length l1) - length l1)%nat with 1%nat by lia. rewrite rsum_app. cbn. lia. }
        unfold rec_bytes in *. cbn [fst snd] in *.
        rewrite !rd_wr_other; auto; rewrite ?meta_len, ?blen_app; lia.
      * rewrite nth_error_app2 in H0 by auto. fold n in H0. destruct (i - n)%nat as [|j] eqn:Ei; [|destruct j; discriminate].
        cbn in H0. inversion H0; subst k0 v0. assert (i = n) by lia. subst i. rewrite A.
        rewrite firstn_all2 by (rewrite app_length; cbn; unfold n; lia). rewrite rsum_app. cbn [rsum]. unfold rec_bytes. cbn [fst snd].
        rewrite rd_wr_other by (rewrite meta_len; unfold var_hdr; lia).
        replace (o - (rsum rs + (blen k + blen v + 0))) with (o' - (blen k + blen v)) by lia. apply rd_wr_pair.
    + intros a Ha. unfold set_meta. rewrite !wr_other; [apply G; lia| |]; rewrite ?meta_len, ?blen_app; unfold var_hdr; lia.
Qed.

Lemma recs_at_wr m o rs a bs : recs_at m o rs -> var_hdr + 8 * N.of_nat (length rs) + rsum rs <= o ->
  (a + blen bs <= o - rsum rs /\ var_hdr + 8 * N.of_nat (length rs) <= a) \/ o <= a ->
  recs_at (wr m a bs) o rs.
Proof.
  intros D H Ha i k v Hi. destruct (D i k v Hi) as (D1 & D2 & D3). cbn zeta in *.
  pose proof (rsum_firstn (S i) rs). assert (rec_bytes (k, v) <= rsum (firstn (S i) rs)).
  { apply nth_error_split in Hi as (l1 & l2 & -> & <-). rewrite firstn_app.
    replace (S (length l1) - length l1)%nat with 1%nat by lia. rewrite rsum_app. cbn. lia. }
  assert (i < length rs)%nat by (apply nth_error_Some; congruence).
  unfold rec_bytes in *. cbn [fst snd] in *. unfold var_hdr in *.
  rewrite meta_other by lia. rewrite !rd_wr_other by lia. auto.
Qed.

Lemma recs_read p o rs : recs_at (vp_mem p) o rs -> forall i k v, nth_error rs i = Some (k, v) ->
  var_key p (N.of_nat i) = k /\ var_pay p (blen v) (N.of_nat i) = v.
Proof.
  intros D i k v Hi. destruct (D i k v Hi) as (D1 & D2 & D3). unfold var_key, var_pay, key_of, pay_of, meta_at.
  rewrite D1. cbn. auto.
Qed.

Lemma firstn_last {A} (rs : list A) n : length rs = S n -> firstn (S n) rs = rs.
Proof. intros H. apply firstn_all2. lia. Qed.
Lemma last_off m o rs n : recs_at m o rs -> length rs = S n ->
  mt_off (meta_read m (var_hdr + 8 * (N.of_nat (length rs) - 1))) = o - rsum rs.
Proof.
  intros D L. destruct (nth_error rs n) as [[k v]|] eqn:E; [|apply nth_error_None in E; lia].
  destruct (D n k v E) as [D1 _]. rewrite firstn_last in D1 by auto.
  replace (N.of_nat (length rs) - 1) with (N.of_nat n) by lia. rewrite D1. auto.
Qed.

Lemma var_leaf_ok page m o rs low high : o < 65536 -> page <= o ->
  var_hdr + 8 * N.of_nat (length rs) + rsum rs + blen low + blen high <= o ->
  var_hdr + blen low + blen high <= page ->
  let p := var_high (var_low_leaf (fst (var_fill (var_new page m) o rs)) low) high in
  vp_cnt p = N.of_nat (length rs) /\
  vp_size p = var_hdr + 8 * N.of_nat (length rs) + rsum rs + blen low + blen high /\
  recs_at (vp_mem p) o rs /\
  key_of (vp_mem p) (vp_low p) = low /\ key_of (vp_mem p) (vp_high p) = high /\
  mt_klen (vp_low p) = blen low /\ mt_klen (vp_high p) = blen high /\
  (forall a, a < var_hdr \/ o <= a -> vp_mem p a = m a).
Proof.
  intros Ho Hp H H'. pose proof (var_fill_ok page m o rs Ho) as F.
  destruct (var_fill (var_new page m) o rs) as [p0 o']. destruct F as (A & B & C & D & E1 & E2 & G); [lia|].
  cbn [fst]. unfold var_low_leaf. set (x := if vp_cnt p0 =? 0 then _ else _).
  assert (X : x <= o /\ (x <= o - rsum rs) /\ var_hdr + 8 * N.of_nat (length rs) + blen low + blen high <= x).
  { unfold x. rewrite A. destruct (N.eqb_spec (N.of_nat (length rs)) 0) as [Z|Z].
    - rewrite E2. unfold new_meta. cbn [mt_off]. rewrite u16_id by lia.
      destruct rs; [|cbn in Z; lia]. cbn [rsum length] in *. lia.
    - unfold meta_at. rewrite (last_off _ o rs (length rs - 1)%nat) by (auto; lia). lia. }
  clearbody x. destruct X as (X1 & X2 & X3). cbn [var_high vp_cnt vp_size vp_mem vp_low vp_high].
  unfold var_hdr in *. split; [lia|]. split; [lia|]. split; [|split; [|split; [|split; [|split]]]].
  - apply recs_at_wr; [apply recs_at_wr; auto| |]; unfold var_hdr in *; try lia. 
  - unfold key_of. rewrite new_meta_fit by lia. cbn [mt_off mt_klen].
    rewrite rd_wr_other by lia. apply rd_wr_same.
  - unfold key_of. rewrite new_meta_fit by lia. cbn [mt_off mt_klen]. apply rd_wr_same.
  - rewrite new_meta_fit by lia. auto.
  - rewrite new_meta_fit by lia. auto.
  - intros a Ha. rewrite !wr_other; [apply G| |]; lia.
Qed.

Lemma var_inner_ok page m o k0 v0 rs high : o < 65536 ->
  var_hdr + 8 * N.of_nat (S (length rs)) + rsum ((k0, v0) :: rs) + blen high <= o ->
  let p := var_high (var_low_inner (fst (var_fill (var_new page m) o ((k0, v0) :: rs)))) high in
  vp_cnt p = N.of_nat (S (length rs)) /\
  vp_size p = var_hdr + 8 * N.of_nat (S (length rs)) + rsum ((k0, v0) :: rs) + blen high /\
  recs_at (vp_mem p) o ((k0, v0) :: rs) /\
  key_of (vp_mem p) (vp_low p) = k0 /\ key_of (vp_mem p) (vp_high p) = high /\
  mt_klen (vp_low p) = blen k0 /\ mt_klen (vp_high p) = blen high /\
  (forall a, a < var_hdr \/ o <= a -> vp_mem p a = m a).
Proof.
  intros Ho H. set (R := (k0, v0) :: rs) in *. change (S (length rs)) with (length R) in *.
  pose proof (var_fill_ok page m o R Ho) as F.
  destruct (var_fill (var_new page m) o R) as [p0 o']. destruct F as (A & B & C & D & E1 & E2 & G); [lia|].
  cbn [fst]. unfold var_low_inner. destruct (D 0%nat k0 v0) as (D1 & _); [reflexivity|].
  assert (EL : mt_off (meta_at p0 (vp_cnt p0 - 1)) = o - rsum R).
  { rewrite A. unfold meta_at. apply (last_off _ o R (length rs)); auto. }
  rewrite EL. change (meta_at p0 0 = mk_meta (o - rsum (firstn 1 R)) (blen k0) (blen k0 + blen v0)) in D1. rewrite !D1. cbn [var_high vp_cnt vp_size vp_mem vp_low vp_high mt_off mt_klen].
  assert (RA : recs_at (wr (vp_mem p0) (o - rsum R - blen high) high) o R).
  { apply recs_at_wr; auto; unfold var_hdr in *; lia. }
  destruct (RA 0%nat k0 v0) as (_ & RA2 & _); [reflexivity|].
  unfold var_hdr in *.
  split; [lia|]. split; [lia|]. split; [exact RA|]. split; [exact RA2|]. split.
  { unfold key_of. rewrite new_meta_fit by lia. cbn [mt_off mt_klen]. apply rd_wr_same. }
  split; auto. split; [rewrite new_meta_fit by lia; auto|].
  intros a Ha. rewrite !wr_other; [apply G|]; lia.
Qed.

Lemma var_bulk_ok page maxk m k0 v0 rs high : page < 65536 -> blen high <= maxk ->
  var_hdr + 8 * N.of_nat (S (length rs)) + rsum ((k0, v0) :: rs) + maxk <= page ->
  let p := var_link page (var_bulk page maxk m ((k0, v0) :: rs)) high in
  vp_cnt p = N.of_nat (S (length rs)) /\
  recs_at (vp_mem p) (page - maxk) ((k0, v0) :: rs) /\
  key_of (vp_mem p) (vp_low p) = k0 /\ key_of (vp_mem p) (vp_high p) = high /\
  (forall a, a < var_hdr \/ page <= a -> vp_mem p a = m a).
Proof.
  intros Ho Hh H. set (R := (k0, v0) :: rs) in *. change (S (length rs)) with (length R) in *. unfold var_bulk.
  pose proof (var_fill_ok page m (page - maxk) R) as F.
  destruct (var_fill (var_new page m) (page - maxk) R) as [p0 o']. destruct F as (A & B & C & D & E1 & E2 & G); [lia|lia|].
  cbn [fst]. destruct (D 0%nat k0 v0) as (D1 & D2 & D3); [reflexivity|].
  change (meta_at p0 0 = mk_meta (page - maxk - rsum (firstn 1 R)) (blen k0) (blen k0 + blen v0)) in D1. rewrite !D1.
  cbn [var_link vp_cnt vp_size vp_mem vp_low vp_high mt_off mt_klen].
  assert (RA : recs_at (wr (vp_mem p0) (page - blen high) high) (page - maxk) R).
  { apply recs_at_wr; auto; unfold var_hdr in *; lia. }
  destruct (RA 0%nat k0 v0) as (_ & RA2 & _); [reflexivity|].
  unfold var_hdr in *.
  split; [lia|]. split; [exact RA|]. split; [exact RA2|]. split.
  { unfold key_of. rewrite new_meta_fit by lia. cbn [mt_off mt_klen]. apply rd_wr_same. }
  intros a Ha. rewrite !wr_other; [apply G|]; lia.
Qed.

Lemma var_drop_ok page p o k0 v0 rs : o < 65536 ->
  var_hdr + 8 * N.of_nat (S (length rs)) + rsum ((k0, v0) :: rs) <= o ->
  recs_at (vp_mem p) o ((k0, v0) :: rs) ->
  let p' := var_drop_key0 page p in
  var_key p' 0 = [] /\ var_pay p' (blen v0) 0 = v0 /\
  (forall i k v, nth_error rs i = Some (k, v) ->
     var_key p' (N.of_nat (S i)) = k /\ var_pay p' (blen v) (N.of_nat (S i)) = v).
Proof.
  intros Ho H D. destruct (D 0%nat k0 v0) as (D1 & D2 & D3); [reflexivity|]. cbn [firstn rsum N.of_nat] in D1, D2, D3.
  unfold var_drop_key0, meta_at. rewrite D1. cbn [mt_off mt_klen mt_rlen]. cbn [rsum] in H. unfold rec_bytes in *. cbn [fst snd] in *.
  unfold var_hdr in *.
  assert (M : meta_read (set_meta (vp_mem p) 0 (new_meta (o - (blen k0 + blen v0 + 0) + blen k0) 0 (blen k0 + blen v0 - blen k0))) (32 + 8 * 0)
    = mk_meta (o - blen v0) 0 (blen v0)).
  { unfold set_meta, var_hdr. rewrite new_meta_fit by lia. assert (2 ^ 32 > 65536) by reflexivity.
    rewrite meta_rw by (cbn [mt_off mt_klen mt_rlen]; lia). f_equal; lia. }
  split; [|split].
  - unfold var_key, key_of, meta_at. cbn [vp_mem]. unfold var_hdr. rewrite M. reflexivity.
  - unfold var_pay, pay_of, meta_at. cbn [vp_mem]. unfold var_hdr. rewrite M. cbn [mt_off mt_klen].
    unfold set_meta. rewrite rd_wr_other by (rewrite meta_len; unfold var_hdr; lia).
    etransitivity; [|exact D3]. f_equal. lia.
  - intros i k v Hi. destruct (D (S i) k v Hi) as (X1 & X2 & X3).
    assert (rec_bytes (k, v) <= rsum (firstn (S i) rs)).
    { apply nth_error_split in Hi as (l1 & l2 & -> & <-). rewrite firstn_app.
      replace (S (length l1) - length l1)%nat with 1%nat by lia. rewrite rsum_app. cbn. lia. }
    pose proof (rsum_firstn (S i) rs). unfold rec_bytes in *. cbn [fst snd] in *.
    replace (rsum (firstn (S (S i)) ((k0, v0) :: rs))) with (blen k0 + blen v0 + rsum (firstn (S i) rs)) in * by reflexivity.
    unfold var_key, var_pay, key_of, pay_of, meta_at. cbn [vp_mem]. unfold set_meta. unfold var_hdr in *.
    rewrite meta_other by (rewrite meta_len; lia). rewrite X1. cbn [mt_off mt_klen].
    rewrite !rd_wr_other by (rewrite meta_len; lia). auto.
Qed.

Lemma var_root_ok page m k l r : page < 65536 -> blen l = 8 -> blen r = 8 -> var_hdr + 2 * 8 + 16 + blen k <= page ->
  let p := var_root page m k l r in
  var_key p 0 = [] /\ var_pay p 8 0 = l /\ var_key p 1 = k /\ var_pay p 8 1 = r /\
  vp_size p = var_hdr + (8 + 8) + (8 + blen k + 8) /\
  (forall a, a < var_hdr \/ page <= a -> vp_mem p a = m a).
Proof.
  intros Hp Ll Lr H. unfold var_root. cbn zeta. unfold var_key, var_pay, key_of, pay_of, meta_at, set_meta. cbn [vp_mem vp_size].
  unfold var_hdr in *. rewrite !new_meta_fit by lia.
  rewrite (meta_other _ (32 + 8 * 1) _ (32 + 8 * 0)) by (rewrite ?meta_len; lia).
  rewrite (meta_other _ (page - 8 - 8 - blen k) _ (32 + 8 * 0)) by lia.
  rewrite (meta_other _ (page - 8 - 8) _ (32 + 8 * 0)) by lia.
  assert (2 ^ 32 > 65536) by reflexivity.
  rewrite !meta_rw by (cbn [mt_off mt_klen mt_rlen]; lia). cbn [mt_off mt_klen].
  rewrite !(rd_wr_other _ (32 + 8 * 1)) by (rewrite ?meta_len; lia).
  split; [reflexivity|]. split.
  { rewrite !rd_wr_other by (rewrite ?meta_len; lia). replace (page - 8 + 0) with (page - 8) by lia. apply rd_wr_eq, Ll. }
  split; [apply rd_wr_same|]. split.
  { rewrite rd_wr_other by lia. replace (page - 8 - 8 - blen k + blen k) with (page - 8 - 8) by lia. apply rd_wr_eq, Lr. }
  split; [lia|]. intros a Ha. rewrite !wr_other; rewrite ?meta_len; auto; lia.
Qed.

(** ** Log2 and CompareAsCString *)
Lemma log2_loop_ok f v : v < 2 ^ N.of_nat f -> log2_loop (S f) v = Some (N.log2 v).
Proof.
  revert v. induction f as [|f IH]; intros v Hv.
  - change (2 ^ N.of_nat 0) with 1 in Hv. assert (v = 0) by lia. subst. reflexivity.
  - cbn [log2_loop]. destruct (N.eqb_spec v 0) as [->|H0]; [reflexivity|]. destruct (N.eqb_spec v 1) as [->|H1]; [reflexivity|].
    cbn [log2_loop] in IH. rewrite N.shiftr_div_pow2. change (2 ^ 1) with 2. rewrite (IH (v / 2)).
    + f_equal. symmetry. assert (E : 0 < v / 2). { apply N.div_str_pos. lia. }
      rewrite (N.div_mod v 2) at 1 by lia. pose proof (N.mod_lt v 2). 
      assert (M : v mod 2 = 0 \/ v mod 2 = 1) by lia. destruct M as [-> | ->].
      * rewrite N.add_0_r, N.log2_double by lia. lia.
      * rewrite N.log2_succ_double by lia. lia.
    + rewrite Nat2N.inj_succ, N.pow_succ_r' in Hv. apply N.div_lt_upper_bound; lia.
Qed.

Lemma strcmp_lex a : cstr a -> forall b, cstr b -> (strcmp a b = Lt <-> lex a b).
Proof.
  induction 1 as [|c a Hc Ha IH]; intros b Hb; destruct Hb as [|d b Hd Hb]; cbn [strcmp].
  - split; [discriminate|inversion 1].
  - split; [constructor|]. intros _. apply N.compare_lt_iff. lia.
  - split; [|inversion 1]. rewrite N.compare_lt_iff. lia.
  - destruct (N.eqb_spec c d) as [->|Hne].
    + destruct (N.eqb_spec d 0); [contradiction|]. rewrite IH by auto. split; [intros; apply lex_eq; auto|].
      inversion 1; subst; auto. lia.
    + rewrite N.compare_lt_iff. split; [intros; apply lex_lt; auto|]. inversion 1; subst; auto. congruence.
Qed.
Lemma strcmp_eq a : cstr a -> forall b, cstr b -> (strcmp a b = Eq <-> a = b).
Proof.
  induction 1 as [|c a Hc Ha IH]; intros b Hb; destruct Hb as [|d b Hd Hb]; cbn [strcmp].
  - tauto.
  - rewrite N.compare_eq_iff. split; [lia|discriminate].
  - rewrite N.compare_eq_iff. split; [lia|discriminate].
  - destruct (N.eqb_spec c d) as [->|Hne].
    + destruct (N.eqb_spec d 0); [contradiction|]. rewrite IH by auto. split; congruence.
    + rewrite N.compare_eq_iff. split; congruence.
Qed.
Lemma strcmp_flip a : forall b, strcmp b a = CompOpp (strcmp a b).
Proof.
  induction a as [|c a IH]; intros [|d b]; cbn [strcmp]; auto using N.compare_antisym.
  rewrite (N.eqb_sym d c). destruct (N.eqb_spec c d) as [->|]; [|apply N.compare_antisym].
  destruct (d =? 0); auto.
Qed.
Lemma lex_trans a b c : lex a b -> lex b c -> lex a c.
Proof.
  intros H. revert c. induction H as [d b|d e a b Hd|d a b H IH]; intros c Hc; inversion Hc; subst; try constructor; auto; lia.
Qed.

(** What follows the terminator does not matter. *)
Lemma strcmp_tail a : forall b x y, cstr a -> cstr b -> strcmp (a ++ 0 :: x) (b ++ 0 :: y) = strcmp a b.
Proof.
  induction a as [|c a IH]; intros [|d b] x y Ha Hb; cbn [app strcmp].
  - rewrite N.eqb_refl. auto.
  - inversion Hb; subst. destruct (N.eqb_spec 0 d); congruence.
  - inversion Ha; subst. destruct (N.eqb_spec c 0); congruence.
  - inversion Ha; inversion Hb; subst. rewrite IH by auto. auto.
Qed.
