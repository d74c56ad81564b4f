(** Proofs about the bytes of delta records. *)
From Coq Require Import NArith List Bool Lia.
From Coq Require Import ZifyBool ZifyNat ZifyN.
From Verif Require Import Config Page Bytes FixLayout VarLayout DeltaBytes LayoutFacts.
Import ListNotations.
Open Scope N_scope.

Lemma rd_key_len m x : blen (key_of m x) = mt_klen x.
Proof. apply rd_len. Qed.

Ltac far := repeat rewrite rd_wr_other by (rewrite ?rd_len, ?le_len; unfold var_hdr in *; lia).

Lemma vard_put_ok m t k v : blen k + blen v < 65536 ->
  let d := vard_put m t k v in
  vard_key d = k /\ vard_pay d (blen v) = v /\ vard_high d = None /\
  vd_type d = t /\ vd_inner d = false /\
  vd_meta d = mk_meta 32 (blen k) (blen k + blen v) /\
  (forall a, a < 32 \/ 32 + blen k + blen v <= a -> vd_mem d a = m a).
Proof.
  intros H. cbn zeta. unfold vard_put, vard_key, vard_pay, vard_high, key_of, pay_of.
  cbn [vd_mem vd_meta vd_high vd_type vd_inner]. rewrite new_meta_fit by (unfold var_hdr; lia).
  cbn [mt_off mt_klen mt_rlen meta0]. unfold var_hdr in *.
  split; [far; apply rd_wr_same|]. split; [apply rd_wr_same|]. do 4 (split; [reflexivity|]).
  intros a Ha. rewrite !wr_other by lia. reflexivity.
Qed.

Lemma vard_del_ok m k : blen k < 65536 ->
  let d := vard_del m k in
  vard_key d = k /\ vard_high d = None /\ vd_type d = DDelete /\ vd_inner d = false /\
  (forall a, a < 32 \/ 32 + blen k <= a -> vd_mem d a = m a).
Proof.
  intros H. cbn zeta. unfold vard_del, vard_key, vard_high, key_of.
  cbn [vd_mem vd_meta vd_high vd_type vd_inner]. rewrite new_meta_fit by (unfold var_hdr; lia).
  cbn [mt_off mt_klen mt_rlen meta0]. unfold var_hdr in *.
  split; [apply rd_wr_same|]. do 3 (split; [reflexivity|]). intros a Ha. apply wr_other. lia.
Qed.

(** A fence key as the accessors report it: an empty one stands for none. *)
Definition okey (b : list N) : option (list N) := if blen b =? 0 then None else Some b.

Lemma vard_smo_ok m t inner r pid lo hi : key_of (vp_mem r) (vp_low r) = lo ->
  key_of (vp_mem r) (vp_high r) = hi -> blen pid = 8 -> 40 + blen lo + blen hi < 65536 ->
  let d := vard_smo m t inner r pid in
  vard_key d = lo /\ vard_pay d 8 = pid /\ vard_high d = okey hi /\ vd_type d = t /\
  vd_inner d = (match t with DInsert => true | _ => inner end) /\
  vd_meta d = mk_meta 32 (blen lo) (blen lo + 8) /\
  (forall a, a < 32 \/ 32 + blen lo + 8 + blen hi <= a -> vd_mem d a = m a).
Proof.
  intros <- <- Hp H. rewrite !rd_key_len in *. cbn zeta.
  unfold vard_smo, vard_key, vard_pay, vard_high, pay_of.
  cbn [vd_mem vd_meta vd_high vd_type vd_inner]. unfold key_of at 1.
  fold (key_of (vp_mem r) (vp_low r)). fold (key_of (vp_mem r) (vp_high r)).
  set (lo := key_of (vp_mem r) (vp_low r)) in *. set (hi := key_of (vp_mem r) (vp_high r)) in *.
  assert (El : blen lo = mt_klen (vp_low r)) by apply rd_key_len.
  assert (Eh : blen hi = mt_klen (vp_high r)) by apply rd_key_len. rewrite <- El, <- Eh in *.
  rewrite !new_meta_fit by (unfold var_hdr; lia).
  cbn [mt_off mt_klen mt_rlen]. unfold var_hdr in *.
  split; [far; apply rd_wr_same|]. split; [far; apply rd_wr_eq; auto|]. split.
  { unfold okey, key_of. cbn [mt_off mt_klen]. destruct (blen hi =? 0); auto. f_equal. apply rd_wr_same. }
  do 3 (split; [reflexivity|]).
  intros a Ha. rewrite !wr_other by lia. reflexivity.
Qed.

Lemma vard_idel_ok m r pid lo hi : key_of (vp_mem r) (vp_low r) = lo ->
  key_of (vp_mem r) (vp_high r) = hi -> blen pid = 8 -> 48 + blen lo + blen hi < 65536 ->
  let d := vard_idel m r in
  vard_key d = lo /\ unle (vard_pay d 8) = 0 /\ vard_high d = okey hi /\ vd_type d = DDelete /\
  vd_inner d = true /\ vard_pay_addr d mod 8 = 0 /\
  vard_key (vard_set d pid) = lo /\ vard_pay (vard_set d pid) 8 = pid /\ vard_high (vard_set d pid) = okey hi /\
  (forall a, a < 32 \/ vard_index_delete_end (blen lo) (blen hi) <= a ->
     vd_mem d a = m a /\ vd_mem (vard_set d pid) a = m a).
Proof.
  intros <- <- Hp H. rewrite !rd_key_len in *. cbn zeta.
  unfold vard_set, vard_idel, vard_key, vard_pay, vard_high, vard_pay_addr, pay_of, vard_index_delete_end.
  cbn [vd_mem vd_meta vd_high vd_type vd_inner].
  fold (key_of (vp_mem r) (vp_low r)). fold (key_of (vp_mem r) (vp_high r)).
  set (lo := key_of (vp_mem r) (vp_low r)) in *. set (hi := key_of (vp_mem r) (vp_high r)) in *.
  assert (El : blen lo = mt_klen (vp_low r)) by apply rd_key_len.
  assert (Eh : blen hi = mt_klen (vp_high r)) by apply rd_key_len. rewrite <- El, <- Eh in *.
  rewrite !ldiff7. unfold var_hdr in *.
  set (x := (32 + 7 + blen lo) / 8 * 8).
  assert (Hx : 32 + blen lo <= x <= 32 + 7 + blen lo /\ x mod 8 = 0).
  { unfold x. pose proof (N.div_mod (32 + 7 + blen lo) 8). pose proof (N.mod_lt (32 + 7 + blen lo) 8).
    split; [lia|]. apply N.mod_mul. lia. }
  clearbody x. destruct Hx as [Hx Hm]. assert (L8 : blen (le 8 0) = 8) by (unfold blen; rewrite le_len; reflexivity).
  rewrite !new_meta_fit by lia. cbn [mt_off mt_klen mt_rlen].
  replace (x - blen lo + blen lo) with x by lia. unfold key_of. cbn [mt_off mt_klen].
  split; [far; apply rd_wr_same|].
  split; [far; rewrite rd_wr_eq by auto; reflexivity|].
  split. { unfold okey. destruct (blen hi =? 0); auto. f_equal. apply rd_wr_same. }
  split; [reflexivity|]. split; [reflexivity|]. split; [auto|].
  split; [far; apply rd_wr_same|]. split; [apply rd_wr_eq; auto|].
  split. { unfold okey. destruct (blen hi =? 0); auto. f_equal. far. apply rd_wr_same. }
  intros a Ha. rewrite !wr_other by lia. auto.
Qed.

(** ** Fixed-length layout *)
Section F.
Variable L : flay.
Hypothesis HK : 2 * fl_ks L <= fl_koff L.
Hypothesis HH : fl_koff L <= fl_hdr L.

Ltac fixd := unfold fixd_key, fixd_pay, fixd_high, fixd_child, fl_low, fl_high in *;
  cbn [fd_mem fd_inner fd_type fd_haslow fd_hashigh].

Lemma fixd_pay_offset_ok : fl_hdr L <= fixd_pay_offset L /\ fixd_pay_offset L mod 8 = 0.
Proof.
  unfold fixd_pay_offset. split; [apply (align_up_ge _ 3)|]. rewrite align8. apply N.mod_mul. lia.
Qed.

Lemma fixd_put_ok m t k v : blen k = fl_ks L ->
  let d := fixd_put L m t k v in
  fixd_key L d = k /\ fixd_pay L d (blen v) = v /\ fixd_high L d = None /\
  fd_type d = t /\ fd_inner d = false /\
  (forall a, a < fl_koff L - 2 * fl_ks L \/ fl_koff L + blen v <= a -> fd_mem d a = m a).
Proof.
  intros H. cbn zeta. unfold fixd_put. fixd.
  assert (R : blen (repeat 0 (N.to_nat (fl_ks L))) = fl_ks L) by (unfold blen; rewrite repeat_length; lia).
  split; [far; apply rd_wr_eq; auto|]. split; [apply rd_wr_same|]. do 3 (split; [reflexivity|]).
  intros a Ha. rewrite !wr_other by lia. reflexivity.
Qed.

Lemma fixd_del_ok m k : blen k = fl_ks L ->
  let d := fixd_del L m k in
  fixd_key L d = k /\ fixd_high L d = None /\ fd_type d = DDelete /\ fd_inner d = false /\
  (forall a, a < fl_koff L - 2 * fl_ks L \/ fl_koff L <= a -> fd_mem d a = m a).
Proof.
  intros H. cbn zeta. unfold fixd_del. fixd.
  assert (R : blen (repeat 0 (N.to_nat (fl_ks L))) = fl_ks L) by (unfold blen; rewrite repeat_length; lia).
  split; [far; apply rd_wr_eq; auto|]. do 3 (split; [reflexivity|]).
  intros a Ha. rewrite !wr_other by lia. reflexivity.
Qed.

Definition fhigh (r : fnode) : option (list N) := if fn_hashigh r then Some (fixn_high L r) else None.

Lemma fixd_smo_ok m t inner r pid : blen pid = 8 ->
  let d := fixd_smo L m t inner r pid in
  fixd_key L d = fixn_low L r /\ fixd_pay L d 8 = pid /\ fixd_high L d = fhigh r /\
  fd_type d = t /\ fd_inner d = (match t with DInsert => true | _ => inner end) /\
  (forall a, a < fl_koff L - 2 * fl_ks L \/ fl_koff L + 8 <= a -> fd_mem d a = m a).
Proof.
  intros H. cbn zeta. unfold fixd_smo. fixd.
  assert (R1 : blen (fixn_low L r) = fl_ks L) by apply rd_len.
  assert (R2 : blen (fixn_high L r) = fl_ks L) by apply rd_len.
  split; [far; apply rd_wr_eq; auto|]. split; [apply rd_wr_eq; auto|].
  split. { unfold fhigh. destruct (fn_hashigh r); auto. f_equal. far. apply rd_wr_eq; auto. }
  do 2 (split; [reflexivity|]). intros a Ha. rewrite !wr_other by lia. reflexivity.
Qed.

Lemma fixd_idel_ok m r pid : blen pid = 8 ->
  let d := fixd_idel L m r in
  fixd_key L d = fixn_low L r /\ unle (fixd_child L d) = 0 /\ fixd_high L d = fhigh r /\
  fd_type d = DDelete /\ fd_inner d = true /\ fixd_pay_offset L mod 8 = 0 /\
  fixd_key L (fixd_set L d pid) = fixn_low L r /\ fixd_child L (fixd_set L d pid) = pid /\
  fixd_high L (fixd_set L d pid) = fhigh r /\
  (forall a, a < fl_koff L - 2 * fl_ks L \/ fixd_index_delete_end L <= a ->
     fd_mem d a = m a /\ fd_mem (fixd_set L d pid) a = m a).
Proof.
  intros H. cbn zeta. destruct fixd_pay_offset_ok as [O1 O2].
  unfold fixd_set, fixd_idel, fixd_index_delete_end. fixd. set (x := fixd_pay_offset L) in *. clearbody x.
  assert (R1 : blen (fixn_low L r) = fl_ks L) by apply rd_len.
  assert (R2 : blen (fixn_high L r) = fl_ks L) by apply rd_len.
  assert (L8 : blen (le 8 0) = 8) by (unfold blen; rewrite le_len; reflexivity).
  split; [far; apply rd_wr_eq; auto|]. split; [far; rewrite rd_wr_eq by auto; reflexivity|].
  split. { unfold fhigh. destruct (fn_hashigh r); auto. f_equal. far. apply rd_wr_eq; auto. }
  do 2 (split; [reflexivity|]). split; [auto|].
  split; [far; apply rd_wr_eq; auto|]. split; [apply rd_wr_eq; auto|].
  split. { unfold fhigh. destruct (fn_hashigh r); auto. f_equal. far. apply rd_wr_eq; auto. }
  intros a Ha. rewrite !wr_other by lia. auto.
Qed.
End F.
