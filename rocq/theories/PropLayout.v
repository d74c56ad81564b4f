(** C22-C26 and C34: byte layouts and helper functions. *)
From Coq Require Import NArith List Bool Lia.
From Verif Require Import Bytes FixLayout VarLayout Misc LayoutSpec LayoutFacts.
Import ListNotations.
Open Scope N_scope.

(** ** C22: delta records fit their allocation *)

(** Fixed-length layout: all constructors, all sizes (the header contains a pointer,
    so its size is a multiple of eight). *)
Theorem C22_fixlen_deltas_fit L paylen : fl_koff L <= fl_hdr L -> fl_hdr L mod 8 = 0 ->
  fixd_end L paylen <= fixd_max L paylen /\ fixd_end L 8 <= fixd_max L paylen /\
  fixd_index_delete_end L <= fixd_max L paylen.
Proof. exact (fixd_fits L paylen). Qed.
Print Assumptions C22_fixlen_deltas_fit.

(** Variable-length layout: all constructors when the maximum key length is a multiple
    of eight; all but the index-entry delete otherwise. *)
Theorem C22_varlen_deltas_fit_partial maxk paylen klen hlen : klen <= maxk -> hlen <= maxk ->
  vard_leaf_end klen paylen <= vard_max maxk paylen /\
  vard_smo_end klen hlen <= vard_max maxk paylen /\
  (maxk mod 8 = 0 -> vard_index_delete_end klen hlen <= vard_max maxk paylen).
Proof. exact (vard_fits maxk paylen klen hlen). Qed.
Print Assumptions C22_varlen_deltas_fit_partial.

(** The full claim is false: 12-byte keys with 8-byte payloads pass the static_assert
    of bw_tree.hpp:1683, but an index-entry delete ends four bytes behind the
    allocation. *)
Theorem C22_index_delete_overflow_refuted :
  exists maxk paylen, maxk + paylen <= 1024 / 4 /\
    vard_max maxk paylen + 4 = vard_index_delete_end maxk maxk.
Proof. exists 12, 8. split; [vm_compute; congruence|reflexivity]. Qed.
Print Assumptions C22_index_delete_overflow_refuted.

Example ex_delta_sizes :
  let L := mk_flay 1024 32 32 8 in
  fixd_max L 8 = 64 /\ fixd_index_delete_end L = 40 /\
  vard_max 8 8 = 64 /\ vard_index_delete_end 8 8 = 56 /\
  vard_max 128 8 = 320 /\ vard_index_delete_end 121 128 = 296.
Proof. vm_compute. repeat split. Qed.

(** ** C23: metadata *)

(** Values below 2^16 are read back as stored.  Offsets are at most 2 * kPageSize, so
    this covers page sizes up to 32 KiB; missing: larger pages. *)
Theorem C23_metadata_roundtrip_partial m o off klen rlen :
  off < 65536 -> klen < 65536 -> rlen < 65536 ->
  meta_read (wr m o (meta_bytes (new_meta off klen rlen))) o = mk_meta off klen rlen.
Proof.
  intros A B C. rewrite new_meta_fit by assumption. apply meta_rw; cbn [mt_off mt_klen mt_rlen]; lia.
Qed.
Print Assumptions C23_metadata_roundtrip_partial.

(** The member has 32 bits but the constructor keeps 16: with 64 KiB pages the initial
    low-key metadata [{kPageSize, 0, 0}] is read back as offset 0. *)
Theorem C23_metadata_truncates_refuted m o :
  let page := 65536 in
  mt_off (meta_read (wr m o (meta_bytes (new_meta page 0 0))) o) = 0 /\ page < 2 ^ 32.
Proof.
  cbn zeta. split; [|reflexivity].
  change (new_meta 65536 0 0) with (mk_meta 0 0 0). rewrite meta_rw; reflexivity.
Qed.
Print Assumptions C23_metadata_truncates_refuted.

Example ex_meta : meta_read (wr (fun _ => 7) 40 (meta_bytes (new_meta 1000 8 16))) 40 = mk_meta 1000 8 16.
Proof. vm_compute. reflexivity. Qed.

(** ** C24: fixed-length pages *)

(** Pages filled by consolidation, split or bulkload: every record is read back, the
    header and everything behind the page is untouched. *)
Theorem C24_fixlen_page_roundtrip L ps e m rs :
  Forall (fun r => blen (fst r) = fl_ks L /\ blen (snd r) = ps) rs ->
  fl_page L = 2 ^ e -> 0 < fl_hdr L -> fl_koff L <= fl_hdr L ->
  fl_hdr L + (fl_ks L + ps) * N.of_nat (length rs) <= fl_page L ->
  let p := fst (fix_fill L (fix_new L m) (fl_page L) rs) in
  fp_cnt p = N.of_nat (length rs) /\
  (forall i k v, nth_error rs i = Some (k, v) ->
     fix_key L p (N.of_nat i) = k /\ fix_pay L p ps (N.of_nat i) = v) /\
  (forall a, a < fl_koff L \/ fl_page L <= a -> fp_mem p a = m a).
Proof. exact (fix_page_ok L ps e m rs). Qed.
Print Assumptions C24_fixlen_page_roundtrip.

(** Pages filled for a scan, which have twice the size. *)
Theorem C24_fixlen_scan_page_roundtrip L ps e m rs :
  Forall (fun r => blen (fst r) = fl_ks L /\ blen (snd r) = ps) rs ->
  fl_page L = 2 ^ e -> fl_koff L <= fl_hdr L ->
  fl_hdr L + (fl_ks L + ps) * N.of_nat (length rs) <= 2 * fl_page L ->
  let p := fix_scan_size L (fst (fix_fill L (fix_new L m) (2 * fl_page L) rs)) in
  fp_cnt p = N.of_nat (length rs) /\
  (forall i k v, nth_error rs i = Some (k, v) ->
     fix_key L p (N.of_nat i) = k /\ fix_pay L p ps (N.of_nat i) = v) /\
  (forall a, a < fl_koff L \/ 2 * fl_page L <= a -> fp_mem p a = m a).
Proof. exact (fix_scan_ok L ps e m rs). Qed.
Print Assumptions C24_fixlen_scan_page_roundtrip.

(** New root pages. *)
Theorem C24_fixlen_root_roundtrip L e m k left right :
  fl_page L = 2 ^ e -> fl_koff L <= fl_hdr L ->
  blen k = fl_ks L -> blen left = 8 -> blen right = 8 ->
  fl_hdr L + 2 * (fl_ks L + 8) <= fl_page L ->
  let p := fix_root L m k left right in
  fix_key L p 1 = k /\ fix_pay L p 8 0 = left /\ fix_pay L p 8 1 = right /\
  (forall a, a < fl_koff L \/ fl_page L <= a -> fp_mem p a = m a).
Proof. exact (fix_root_ok L e m k left right). Qed.
Print Assumptions C24_fixlen_root_roundtrip.

Definition ex_lay := mk_flay 1024 32 32 8.
Definition ex_rec (n : N) : list N * list N := (le 8 (n * 1000), le 8 (n * n)).
Definition ex_recs := map (fun i => ex_rec (N.of_nat i)) (seq 0 62).
Example ex_fix_page : Forall (fun r => blen (fst r) = 8 /\ blen (snd r) = 8) ex_recs /\
  fl_hdr ex_lay + (8 + 8) * N.of_nat (length ex_recs) = fl_page ex_lay /\
  fix_pay ex_lay (fst (fix_fill ex_lay (fix_new ex_lay (fun _ => 255)) 1024 ex_recs)) 8 40 = le 8 1600.
Proof.
  split; [|vm_compute; auto]. unfold ex_recs. apply Forall_forall. intros r H. apply in_map_iff in H as (i & <- & _).
  split; unfold blen; cbn [ex_rec fst snd]; rewrite le_len; reflexivity.
Qed.

(** ** C25: variable-length pages *)

(** Leaf pages filled from offset [o] (kPageSize, or 2 * kPageSize for a scan), with
    their low and high keys. *)
Theorem C25_varlen_leaf_roundtrip page m o rs low high : o < 65536 -> page <= o ->
  32 + 8 * N.of_nat (length rs) + rsum rs + blen low + blen high <= o ->
  32 + blen low + blen high <= page ->
  let p := var_high (var_low_leaf (fst (var_fill (var_new page m) o rs)) low) high in
  vp_cnt p = N.of_nat (length rs) /\
  vp_size p = 32 + 8 * N.of_nat (length rs) + rsum rs + blen low + blen high /\
  (forall i k v, nth_error rs i = Some (k, v) ->
     var_key p (N.of_nat i) = k /\ var_pay p (blen v) (N.of_nat i) = v) /\
  key_of (vp_mem p) (vp_low p) = low /\ key_of (vp_mem p) (vp_high p) = high /\
  mt_klen (vp_low p) = blen low /\ mt_klen (vp_high p) = blen high /\
  (forall a, a < 32 \/ o <= a -> vp_mem p a = m a).
Proof.
  intros A B C D. destruct (var_leaf_ok page m o rs low high A B C D) as (X1 & X2 & X3 & X).
  split; [exact X1|]. split; [exact X2|]. split; [exact (recs_read _ _ _ X3)|exact X].
Qed.
Print Assumptions C25_varlen_leaf_roundtrip.

(** Inner pages: the low key is the key of record 0. *)
Theorem C25_varlen_inner_roundtrip page m o k0 v0 rs high : o < 65536 ->
  32 + 8 * N.of_nat (S (length rs)) + rsum ((k0, v0) :: rs) + blen high <= o ->
  let p := var_high (var_low_inner (fst (var_fill (var_new page m) o ((k0, v0) :: rs)))) high in
  vp_cnt p = N.of_nat (S (length rs)) /\
  vp_size p = 32 + 8 * N.of_nat (S (length rs)) + rsum ((k0, v0) :: rs) + blen high /\
  (forall i k v, nth_error ((k0, v0) :: rs) i = Some (k, v) ->
     var_key p (N.of_nat i) = k /\ var_pay p (blen v) (N.of_nat i) = v) /\
  key_of (vp_mem p) (vp_low p) = k0 /\ key_of (vp_mem p) (vp_high p) = high /\
  mt_klen (vp_low p) = blen k0 /\ mt_klen (vp_high p) = blen high /\
  (forall a, a < 32 \/ o <= a -> vp_mem p a = m a).
Proof.
  intros A C. destruct (var_inner_ok page m o k0 v0 rs high A C) as (X1 & X2 & X3 & X).
  split; [exact X1|]. split; [exact X2|]. split; [exact (recs_read _ _ _ X3)|exact X].
Qed.
Print Assumptions C25_varlen_inner_roundtrip.

(** Bulkloaded pages with the high key written afterwards into the reserved space. *)
Theorem C25_varlen_bulk_roundtrip page maxk m k0 v0 rs high : page < 65536 -> blen high <= maxk ->
  32 + 8 * N.of_nat (S (length rs)) + rsum ((k0, v0) :: rs) + maxk <= page ->
  let p := var_link page (var_bulk page maxk m ((k0, v0) :: rs)) high in
  vp_cnt p = N.of_nat (S (length rs)) /\
  (forall i k v, nth_error ((k0, v0) :: rs) i = Some (k, v) ->
     var_key p (N.of_nat i) = k /\ var_pay p (blen v) (N.of_nat i) = v) /\
  key_of (vp_mem p) (vp_low p) = k0 /\ key_of (vp_mem p) (vp_high p) = high /\
  (forall a, a < 32 \/ page <= a -> vp_mem p a = m a).
Proof.
  intros A B C. destruct (var_bulk_ok page maxk m k0 v0 rs high A B C) as (X1 & X3 & X).
  split; [exact X1|]. split; [exact (recs_read _ _ _ X3)|exact X].
Qed.
Print Assumptions C25_varlen_bulk_roundtrip.

(** Removing the key of record 0 of a bulkloaded leftmost inner page keeps all
    payloads and all other keys. *)
Theorem C25_varlen_leftmost_roundtrip page maxk m k0 v0 rs high : page < 65536 -> blen high <= maxk ->
  32 + 8 * N.of_nat (S (length rs)) + rsum ((k0, v0) :: rs) + maxk <= page ->
  let p := var_drop_key0 page (var_link page (var_bulk page maxk m ((k0, v0) :: rs)) high) in
  var_key p 0 = [] /\ var_pay p (blen v0) 0 = v0 /\
  (forall i k v, nth_error rs i = Some (k, v) ->
     var_key p (N.of_nat (S i)) = k /\ var_pay p (blen v) (N.of_nat (S i)) = v).
Proof.
  intros A B C. destruct (var_bulk_ok page maxk m k0 v0 rs high A B C) as (X1 & X3 & X).
  refine (var_drop_ok page (var_link page (var_bulk page maxk m ((k0, v0) :: rs)) high) (page - maxk) k0 v0 rs _ _ X3).
  - clear X1 X3 X. lia.
  - clear X1 X3 X. unfold var_hdr. lia.
Qed.
Print Assumptions C25_varlen_leftmost_roundtrip.

(** New root pages. *)
Theorem C25_varlen_root_roundtrip page m k left right : page < 65536 ->
  blen left = 8 -> blen right = 8 -> 32 + 2 * 8 + 16 + blen k <= page ->
  let p := var_root page m k left right in
  var_key p 0 = [] /\ var_pay p 8 0 = left /\ var_key p 1 = k /\ var_pay p 8 1 = right /\
  vp_size p = 32 + (8 + 8) + (8 + blen k + 8) /\
  (forall a, a < 32 \/ page <= a -> vp_mem p a = m a).
Proof. exact (var_root_ok page m k left right). Qed.
Print Assumptions C25_varlen_root_roundtrip.

Definition ex_vrecs : list (list N * list N) :=
  [([97; 0], le 8 1); ([97; 98; 99; 0], le 8 2); ([99; 0], le 8 3)].
Example ex_var_page :
  let p := var_high (var_low_leaf (fst (var_fill (var_new 1024 (fun _ => 255)) 1024 ex_vrecs)) [97; 0]) [100; 100; 0] in
  32 + 8 * N.of_nat (length ex_vrecs) + rsum ex_vrecs + 2 + 3 = 93 /\ vp_size p = 93 /\
  var_key p 1 = [97; 98; 99; 0] /\ var_pay p 8 2 = le 8 3 /\ key_of (vp_mem p) (vp_high p) = [100; 100; 0].
Proof. vm_compute. repeat split. Qed.

(** ** C26: CompareAsCString; the bytes behind the terminator do not matter *)
Theorem C26_cstring_order_is_strict_total :
  let s o := match o with None => True | Some a => cstr a end in
  let lt := as_cstring_lt in
  (forall a, lt a a = false) /\
  (forall a b c, s a -> s b -> s c -> lt a b = true -> lt b c = true -> lt a c = true) /\
  (forall a b, s a -> s b -> lt a b = true \/ lt b a = true \/ a = b) /\
  (forall a, lt (Some a) None = true /\ lt None (Some a) = false) /\
  (forall a b, cstr a -> cstr b -> (lt (Some a) (Some b) = true <-> lex a b)) /\
  (forall a b x y, cstr a -> cstr b -> lt (Some (a ++ 0 :: x)) (Some (b ++ 0 :: y)) = lt (Some a) (Some b)).
Proof.
  cbn zeta. repeat split.
  - intros [a|]; cbn; auto. assert (E : strcmp a a = Eq); [|rewrite E; auto].
    induction a as [|c a IH]; cbn; auto. rewrite N.eqb_refl. destruct (c =? 0); auto.
  - intros [a|] [b|] [c|]; cbn; try discriminate; auto. intros A B C.
    destruct (strcmp a b) eqn:E1; try discriminate. destruct (strcmp b c) eqn:E2; try discriminate. intros _ _.
    apply strcmp_lex in E1, E2; auto. assert (E : strcmp a c = Lt) by (apply strcmp_lex; eauto using lex_trans).
    rewrite E. auto.
  - intros [a|] [b|]; cbn; auto. intros A B. rewrite (strcmp_flip a b). destruct (strcmp a b) eqn:E; cbn; auto.
    right. right. f_equal. apply strcmp_eq; auto.
  - cbn. destruct (strcmp a b) eqn:E; try discriminate. intros _. apply strcmp_lex; auto.
  - intros Hl. apply strcmp_lex in Hl; auto. cbn. rewrite Hl. auto.
  - intros a b x y Ha Hb. cbn [as_cstring_lt]. rewrite strcmp_tail; auto.
Qed.
Print Assumptions C26_cstring_order_is_strict_total.
Example ex_cstr : cstr [97; 98] /\ cstr [97; 200] /\
  as_cstring_lt (Some [97; 98]) (Some [97; 200]) = true /\ as_cstring_lt (Some [97]) (Some [97; 98]) = true.
Proof. repeat split; try reflexivity; repeat constructor; discriminate. Qed.

(** ** C34: Log2 *)
Theorem C34_log2_is_floor_log v : v < 2 ^ 64 ->
  exists r, log2_c v = Some r /\ (v = 0 -> r = 0) /\ (0 < v -> 2 ^ r <= v < 2 ^ (r + 1)).
Proof.
  intros H. exists (N.log2 v). split; [exact (log2_loop_ok 64 v H)|]. split; [intros ->; reflexivity|].
  intros Hv. rewrite N.add_1_r. apply N.log2_spec. exact Hv.
Qed.
Print Assumptions C34_log2_is_floor_log.
Example ex_log2 : log2_c 1024 = Some 10 /\ log2_c 1023 = Some 9 /\ log2_c (2 ^ 64 - 1) = Some 63.
Proof. vm_compute. auto. Qed.
