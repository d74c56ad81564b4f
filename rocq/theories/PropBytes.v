(** C51 and C52: delta records and consolidation as bytes. *)
From Coq Require Import ZArith NArith List Bool Lia Sorting.Sorted.
From Verif Require Import Config Page ListFacts ChainSpec Valid SeqSpec PropChain Bytes FixLayout VarLayout LayoutFacts
  DeltaBytes DeltaBytesFacts ByteCons ByteConsSpec ByteConsChain.
Import ListNotations.

(** ** C51: delta records keep what they are given *)
Open Scope N_scope.

(** Variable-length layout, leaf records: the bytes of key and payload, no high key,
    and no other byte of the recycled page is written. *)
Theorem C51_varlen_leaf_deltas m t k v : blen k + blen v < 65536 ->
  (let d := vard_put m t k v in
   vard_key d = k /\ vard_pay d (blen v) = v /\ vard_high d = None /\ vd_type d = t /\
   vd_inner d = false /\ vd_meta d = mk_meta 32 (blen k) (blen k + blen v) /\
   (forall a, a < 32 \/ 32 + blen k + blen v <= a -> vd_mem d a = m a)) /\
  (let d := vard_del m k in
   vard_key d = k /\ vard_high d = None /\ vd_type d = DDelete /\ vd_inner d = false /\
   (forall a, a < 32 \/ 32 + blen k <= a -> vd_mem d a = m a)).
Proof. intros H. split; [exact (vard_put_ok m t k v H)|]. apply vard_del_ok. lia. Qed.
Print Assumptions C51_varlen_leaf_deltas.

(** Variable-length layout, structure modifications: the separator is the low key of the
    right page, the high key its high key (none if it has none), the child is the page
    ID; setting the child of an index-entry delete changes nothing else and writes an
    aligned word. *)
Theorem C51_varlen_index_deltas m t inner r pid : blen pid = 8 ->
  let lo := key_of (vp_mem r) (vp_low r) in
  let hi := key_of (vp_mem r) (vp_high r) in
  let high := if blen hi =? 0 then None else Some hi in
  48 + blen lo + blen hi < 65536 ->
  (let d := vard_smo m t inner r pid in
   vard_key d = lo /\ vard_pay d 8 = pid /\ vard_high d = high /\ vd_type d = t /\
   vd_inner d = (match t with DInsert => true | _ => inner end) /\
   vd_meta d = mk_meta 32 (blen lo) (blen lo + 8) /\
   (forall a, a < 32 \/ 32 + blen lo + 8 + blen hi <= a -> vd_mem d a = m a)) /\
  (let d := vard_idel m r in
   vard_key d = lo /\ unle (vard_pay d 8) = 0 /\ vard_high d = high /\ vd_type d = DDelete /\
   vd_inner d = true /\ vard_pay_addr d mod 8 = 0 /\
   vard_key (vard_set d pid) = lo /\ vard_pay (vard_set d pid) 8 = pid /\ vard_high (vard_set d pid) = high /\
   (forall a, a < 32 \/ vard_index_delete_end (blen lo) (blen hi) <= a ->
      vd_mem d a = m a /\ vd_mem (vard_set d pid) a = m a)).
Proof.
  intros Hp lo hi high H. split.
  - apply (vard_smo_ok m t inner r pid lo hi); auto. lia.
  - exact (vard_idel_ok m r pid lo hi eq_refl eq_refl Hp H).
Qed.
Print Assumptions C51_varlen_index_deltas.

(** Fixed-length layout. *)
Theorem C51_fixlen_leaf_deltas L m t k v : 2 * fl_ks L <= fl_koff L -> fl_koff L <= fl_hdr L -> blen k = fl_ks L ->
  (let d := fixd_put L m t k v in
   fixd_key L d = k /\ fixd_pay L d (blen v) = v /\ fixd_high L d = None /\
   fd_type d = t /\ fd_inner d = false /\
   (forall a, a < fl_koff L - 2 * fl_ks L \/ fl_koff L + blen v <= a -> fd_mem d a = m a)) /\
  (let d := fixd_del L m k in
   fixd_key L d = k /\ fixd_high L d = None /\ fd_type d = DDelete /\ fd_inner d = false /\
   (forall a, a < fl_koff L - 2 * fl_ks L \/ fl_koff L <= a -> fd_mem d a = m a)).
Proof. intros A B H. split; [exact (fixd_put_ok L A B m t k v H)|exact (fixd_del_ok L A B m k H)]. Qed.
Print Assumptions C51_fixlen_leaf_deltas.

Theorem C51_fixlen_index_deltas L m t inner r pid : 2 * fl_ks L <= fl_koff L -> fl_koff L <= fl_hdr L -> blen pid = 8 ->
  let lo := fixn_low L r in
  let high := if fn_hashigh r then Some (fixn_high L r) else None in
  (let d := fixd_smo L m t inner r pid in
   fixd_key L d = lo /\ fixd_pay L d 8 = pid /\ fixd_high L d = high /\
   fd_type d = t /\ fd_inner d = (match t with DInsert => true | _ => inner end) /\
   (forall a, a < fl_koff L - 2 * fl_ks L \/ fl_koff L + 8 <= a -> fd_mem d a = m a)) /\
  (let d := fixd_idel L m r in
   fixd_key L d = lo /\ unle (fixd_child L d) = 0 /\ fixd_high L d = high /\
   fd_type d = DDelete /\ fd_inner d = true /\ fixd_pay_offset L mod 8 = 0 /\
   fixd_key L (fixd_set L d pid) = lo /\ fixd_child L (fixd_set L d pid) = pid /\
   fixd_high L (fixd_set L d pid) = high /\
   (forall a, a < fl_koff L - 2 * fl_ks L \/ fixd_index_delete_end L <= a ->
      fd_mem d a = m a /\ fd_mem (fixd_set L d pid) a = m a)).
Proof.
  intros A B H lo high. split; [exact (fixd_smo_ok L A B m t inner r pid H)|exact (fixd_idel_ok L A B m r pid H)].
Qed.
Print Assumptions C51_fixlen_index_deltas.

(** A right page with low key "ab" and no high key, on memory full of ones. *)
Definition ex_ones : mem := fun _ => 1.
Definition ex_right : vpage := mk_vpage (wr ex_ones 1000 [97; 98]) 0 32 (mk_meta 1000 2 2) (mk_meta 1024 0 0).
Example ex_var_deltas :
  let d := vard_idel ex_ones ex_right in
  vard_key d = [97; 98] /\ vard_pay d 8 = le 8 0 /\ vard_high d = None /\ vard_pay_addr d = 40 /\
  vard_pay (vard_set d (le 8 513)) 8 = [1; 2; 0; 0; 0; 0; 0; 0] /\
  vard_key (vard_smo ex_ones DInsert false ex_right (le 8 7)) = [97; 98] /\
  vard_pay (vard_smo ex_ones DInsert false ex_right (le 8 7)) 8 = le 8 7.
Proof. vm_compute. repeat split. Qed.
Example ex_fix_deltas :
  let L := mk_flay 1024 32 32 8 in
  let r := mk_fnode (mk_fpage (wr (wr ex_ones 16 (le 8 5)) 24 (le 8 9)) 0 32) true true in
  let d := fixd_set L (fixd_idel L ex_ones r) (le 8 513) in
  fixd_key L d = le 8 5 /\ fixd_high L d = Some (le 8 9) /\ fixd_child L d = le 8 513 /\
  fixd_key L (fixd_put L ex_ones DModify (le 8 6) (le 8 60)) = le 8 6 /\
  fixd_pay L (fixd_put L ex_ones DModify (le 8 6) (le 8 60)) 8 = le 8 60.
Proof. vm_compute. repeat split. Qed.

(** ** C52: consolidation on bytes *)
Open Scope Z_scope.

(** The constructors of C51 yield the delta records of the chain. *)
Theorem C52_varlen_deltas_stand g inner K lt ek ev d m : c_varlen g = true -> coding g inner K lt ek ev ->
  klen g (d_key d) + 48 + paysz g inner < 65536 ->
  (inner = false -> d_type d <> DDelete -> vdelta_rep ek ev d (vard_put m (d_type d) (ek (d_key d)) (ev (d_pay d)))) /\
  (inner = false -> d_type d = DDelete -> vdelta_rep ek ev d (vard_del m (ek (d_key d)))) /\
  (forall n p, vnode_rep ek ev inner n p -> n_low n = Some (d_key d) ->
     48 + klen g (d_key d) + okl g (n_high n) < 65536 ->
     (inner = true -> d_type d <> DDelete -> vdelta_rep ek ev d (vard_smo m (d_type d) inner p (ev (d_pay d)))) /\
     (forall pid, d_type d = DDelete -> blen pid = 8%N ->
        vdelta_rep ek ev d (vard_idel m p) /\ vdelta_rep ek ev d (vard_set (vard_idel m p) pid))).
Proof. exact (var_deltas g inner K lt ek ev d m). Qed.
Print Assumptions C52_varlen_deltas_stand.

Theorem C52_fixlen_deltas_stand g inner K lt ek ev L e d m :
  let ps := Z.to_N (paysz g inner) in
  cfg_ok g -> c_varlen g = false -> flay_ok g L e -> coding g inner K lt ek ev ->
  (inner = false -> d_type d <> DDelete -> fdelta_rep L ps ek ev d (fixd_put L m (d_type d) (ek (d_key d)) (ev (d_pay d)))) /\
  (inner = false -> d_type d = DDelete -> fdelta_rep L ps ek ev d (fixd_del L m (ek (d_key d)))) /\
  (forall n p, fnode_rep L ps ek ev inner n p -> n_low n = Some (d_key d) ->
     (inner = true -> d_type d <> DDelete -> fdelta_rep L ps ek ev d (fixd_smo L m (d_type d) inner p (ev (d_pay d)))) /\
     (forall pid, d_type d = DDelete -> blen pid = 8%N ->
        fdelta_rep L ps ek ev d (fixd_idel L m p) /\ fdelta_rep L ps ek ev d (fixd_set L (fixd_idel L m p) pid))).
Proof. exact (fix_deltas g inner K lt ek ev L e d m). Qed.
Print Assumptions C52_fixlen_deltas_stand.

(** Variable-length layout, one page: the bytes of the new page hold exactly the visible
    records (or the separators and children) of the chain and its fence keys; nothing in
    front of the data block or behind the page is written. *)
Theorem C52_varlen_consolidation g inner K lt ek ev page c b m1 m2 size (scan : bool) :
  cfg_ok g -> c_varlen g = true -> c_hdr g = 32 -> Z.of_N page = c_page g -> 2 * c_page g < 65536 ->
  coding g inner K lt ek ev -> cwf g inner c -> (scan = true -> inner = false) ->
  chain_rep (vnode_rep ek ev inner) (vdelta_rep ek ev) c b -> chain_keys K inner c -> Z.of_N size = h_size c ->
  h_size c <= (if scan then 2 * c_page g else c_page g) ->
  exists p n, var_try page inner lt m1 m2 b size scan = BOne p /\ vnode_rep ek ev inner n p /\
    holds inner c (n_recs n) /\ n_low n = c_lo c /\ n_high n = c_hi c /\
    n_size n = (if scan then 2 * c_page g else h_size c) /\
    (forall x, (x < 32 \/ (if scan then page * 2 else page) <= x)%N -> vp_mem p x = m1 x).
Proof. exact (var_chain_one g inner K lt ek ev page c b m1 m2 size scan). Qed.
Print Assumptions C52_varlen_consolidation.

(** Variable-length layout, split: both halves together hold the chain, the separator is
    the first key of the right one and the fence between them, both fit. *)
Theorem C52_varlen_split g inner K lt ek ev page c b m1 m2 size :
  cfg_ok g -> c_varlen g = true -> c_hdr g = 32 -> Z.of_N page = c_page g -> c_page g < 65536 ->
  coding g inner K lt ek ev -> cwf g inner c ->
  chain_rep (vnode_rep ek ev inner) (vdelta_rep ek ev) c b -> chain_keys K inner c -> Z.of_N size = h_size c ->
  c_page g < h_size c <= c_page g + excess g ->
  exists pl pr l r sep, var_try page inner lt m1 m2 b size false = BTwo pl pr /\
    vnode_rep ek ev inner l pl /\ vnode_rep ek ev inner r pr /\
    n_recs l <> [] /\ holds inner c (n_recs l ++ n_recs r) /\ (exists v, hd_error (n_recs r) = Some (sep, v)) /\
    (forall k v, In (k, v) (if inner then tl (n_recs l) else n_recs l) -> k < sep) /\
    n_low l = c_lo c /\ n_high l = Some sep /\ n_low r = Some sep /\ n_high r = c_hi c /\
    n_size l <= c_page g /\ n_size r <= c_page g /\
    (forall x, (x < 32 \/ page <= x)%N -> vp_mem pl x = m1 x /\ vp_mem pr x = m2 x).
Proof. exact (var_chain_two g inner K lt ek ev page c b m1 m2 size). Qed.
Print Assumptions C52_varlen_split.

(** Fixed-length layout. *)
Theorem C52_fixlen_consolidation g inner K lt ek ev L e c b m1 m2 size (scan : bool) :
  let ps := Z.to_N (paysz g inner) in
  cfg_ok g -> c_varlen g = false -> flay_ok g L e ->
  coding g inner K lt ek ev -> cwf g inner c -> (scan = true -> inner = false) ->
  chain_rep (fnode_rep L ps ek ev inner) (fdelta_rep L ps ek ev) c b -> chain_keys K inner c -> Z.of_N size = h_size c ->
  h_size c <= (if scan then 2 * c_page g else c_page g) ->
  exists p n, fix_try L ps inner lt m1 m2 b size scan = BOne p /\ fnode_rep L ps ek ev inner n p /\
    holds inner c (n_recs n) /\ n_low n = c_lo c /\ n_high n = c_hi c /\
    n_size n = (if scan then 2 * c_page g else h_size c) /\
    (forall x, (x < fl_koff L - 2 * fl_ks L \/ (if scan then fl_page L * 2 else fl_page L) <= x)%N -> fp_mem (fn_page p) x = m1 x).
Proof. exact (fix_chain_one g inner K lt ek ev L e c b m1 m2 size scan). Qed.
Print Assumptions C52_fixlen_consolidation.

Theorem C52_fixlen_split g inner K lt ek ev L e c b m1 m2 size :
  let ps := Z.to_N (paysz g inner) in
  cfg_ok g -> c_varlen g = false -> flay_ok g L e ->
  coding g inner K lt ek ev -> cwf g inner c ->
  chain_rep (fnode_rep L ps ek ev inner) (fdelta_rep L ps ek ev) c b -> chain_keys K inner c -> Z.of_N size = h_size c ->
  c_page g < h_size c <= c_page g + excess g ->
  exists pl pr l r sep, fix_try L ps inner lt m1 m2 b size false = BTwo pl pr /\
    fnode_rep L ps ek ev inner l pl /\ fnode_rep L ps ek ev inner r pr /\
    n_recs l <> [] /\ holds inner c (n_recs l ++ n_recs r) /\ (exists v, hd_error (n_recs r) = Some (sep, v)) /\
    (forall k v, In (k, v) (if inner then tl (n_recs l) else n_recs l) -> k < sep) /\
    n_low l = c_lo c /\ n_high l = Some sep /\ n_low r = Some sep /\ n_high r = c_hi c /\
    n_size l <= c_page g /\ n_size r <= c_page g /\
    (forall x, (x < fl_koff L - 2 * fl_ks L \/ fl_page L <= x)%N -> fp_mem (fn_page pl) x = m1 x /\ fp_mem (fn_page pr) x = m2 x).
Proof. exact (fix_chain_two g inner K lt ek ev L e c b m1 m2 size). Qed.
Print Assumptions C52_fixlen_split.

(** Unsigned 64-bit keys and payloads in little endian: the hypotheses hold for the
    default settings, and every well-formed chain of pages that fit has its bytes
    ([ex_leaf] with a merged page, [ex_inner], and chains that have to be split). *)
Definition ex_u64 (k : Z) : Prop := 0 <= k < 2 ^ 64.
Definition ex_ek (k : Z) : list N := le 8 (Z.to_N k).
Definition ex_ev (v : N) : list N := le 8 v.
Definition ex_lt (a b : list N) : bool := (unle a <? unle b)%N.
Lemma ex_coding (varlen inner : bool) : coding (if varlen then cfg_var8 else cfg_fix8) inner ex_u64 ex_lt ex_ek ex_ev.
Proof.
  split; [|split].
  - intros a b A B. unfold ex_lt, ex_ek, ex_u64 in *.
    rewrite !unle_le by (change (256 ^ N.of_nat 8)%N with (Z.to_N (2 ^ 64)); lia). lia.
  - intros k. unfold ex_ek, blen. rewrite le_len. destruct varlen; reflexivity.
  - intros v. unfold ex_ev, blen. rewrite le_len. destruct varlen, inner; reflexivity.
Qed.
Definition ex_L : flay := mk_flay 1024 32 32 8.
Example ex_L_ok : flay_ok cfg_fix8 ex_L 10.
Proof. unfold flay_ok. cbn. repeat split; lia. Qed.

Example ex_fix_bytes inner c : In (inner, c) [(false, ex_leaf); (true, ex_inner); (false, ex_big); (true, ex_big_inner)] ->
  cwf cfg_fix8 inner c /\
  exists b, chain_rep (fnode_rep ex_L 8 ex_ek ex_ev inner) (fdelta_rep ex_L 8 ex_ek ex_ev) c b.
Proof.
  intros H. assert (W : cwf cfg_fix8 inner c /\ Forall (fun n => n_size n <= 1024) (pages c)).
  { destruct H as [H|[H|[H|[H|[]]]]]; inversion H; subst; (split; [|unfold pages, ex_leaf, ex_inner, ex_big, ex_big_inner; repeat (apply Forall_cons; [cbn; lia|]); apply Forall_nil]).
    - exact ex_leaf_wf. - apply ex_inner_wf. - apply ex_big_split. - apply ex_big_inner_split. }
  destruct W as [W F]. split; [exact W|].
  pose proof (fix_chain_ex cfg_fix8 inner ex_u64 ex_lt ex_ek ex_ev ex_L 10 c cfg_fix8_ok eq_refl ex_L_ok (ex_coding false inner) W F) as X.
  destruct inner; exact X.
Qed.

(** Variable-length records take 24 bytes: 41 of them and a header make 1016 bytes. *)
Definition ex_vleaf : chain :=
  CRec (mk_delta 6 false DInsert 4 None 44 4 112)
  (CRec (mk_delta 5 false DDelete 20 None 0 3 88)
  (CRec (mk_delta 4 false DModify 3 None 33 2 112)
  (CMerge (mk_delta 3 false DMerge 10 (Some 30) 0 1 112)
     (mk_node 2 false (Some 10) (Some 30) 9 [(10, 1%N); (20, 2%N)] 96)
  (CBase (mk_node 1 false None (Some 10) 7 [(3, 3%N)] 64))))).
Definition ex_vbig : chain :=
  CRec (mk_delta 2 false DInsert 100 None 7 1 1040)
    (CBase (mk_node 1 false None None 0 (ex_recs 41) 1016)).
Definition ex_vinner : chain :=
  CRec (mk_delta 3 true DInsert 15 (Some 20) 103 2 104)
  (CRec (mk_delta 2 true DDelete 10 (Some 20) 0 1 80)
  (CBase (mk_node 1 true None (Some 90) 7 [(0, 100%N); (10, 101%N); (20, 102%N)] 104))).
Lemma ex_v_wf : lwf cfg_var8 ex_vleaf /\ lwf cfg_var8 ex_vbig /\ iwf cfg_var8 ex_vinner /\
  c_page cfg_var8 < h_size ex_vbig <= c_page cfg_var8 + excess cfg_var8.
Proof.
  split; [|split; [|split]].
  - unfold lwf, ex_vleaf, lnode, sorted; wf.
  - unfold ex_vbig, lwf, lnode. repeat split; try reflexivity; try exact I.
    + apply (ex_recs_sorted 41 1).
    + apply Forall_forall. intros x _. split; exact I.
  - unfold ex_vinner, iwf, inode, sorted; wf.
  - vm_compute; split; congruence.
Qed.
Example ex_var_bytes inner c : In (inner, c) [(false, ex_vleaf); (true, ex_vinner); (false, ex_vbig)] ->
  cwf cfg_var8 inner c /\
  exists b, chain_rep (vnode_rep ex_ek ex_ev inner) (vdelta_rep ex_ek ex_ev) c b.
Proof.
  intros H. assert (W : cwf cfg_var8 inner c /\ Forall (fun n => n_size n <= 1024) (pages c)).
  { destruct H as [H|[H|[H|[]]]]; inversion H; subst; (split; [|unfold pages, ex_vleaf, ex_vinner, ex_vbig; repeat (apply Forall_cons; [cbn; lia|]); apply Forall_nil]); apply ex_v_wf. }
  destruct W as [W F]. split; [exact W|].
  pose proof (var_chain_ex cfg_var8 inner ex_u64 ex_lt ex_ek ex_ev 1024%N c cfg_var8_ok) as X.
  apply X; auto; try reflexivity. apply (ex_coding true inner).
Qed.

(** An empty leaf, a record inserted, another one inserted before it, the first one
    deleted, a third one inserted, consolidated: read back from the bytes. *)
Open Scope N_scope.
Example ex_var_run :
  let put k v := vard_put ex_ones DInsert (ex_ek k) (ex_ev v) in
  let b := BRec (put 9%Z 90) (BRec (vard_del ex_ones (ex_ek 5)) (BRec (put 3%Z 30) (BRec (put 5%Z 50) (BBase (var_new 1024 ex_ones))))) in
  match var_try 1024 false ex_lt ex_ones ex_ones b 80 false with
  | BOne p => vp_cnt p = 2 /\ map (var_key p) [0; 1] = [le 8 3; le 8 9] /\ map (var_pay p 8) [0; 1] = [le 8 30; le 8 90]
  | _ => False
  end.
Proof. vm_compute. repeat split. Qed.
Example ex_fix_run :
  let put k v := fixd_put ex_L ex_ones DInsert (ex_ek k) (ex_ev v) in
  let b := BRec (put 9%Z 90) (BRec (fixd_del ex_L ex_ones (ex_ek 5)) (BRec (put 3%Z 30) (BRec (put 5%Z 50) (BBase (fixn_new ex_L ex_ones))))) in
  match fix_try ex_L 8 false ex_lt ex_ones ex_ones b 64 false with
  | BOne n => let p := fn_page n in
      fp_cnt p = 2 /\ map (fix_key ex_L p) [0; 1] = [le 8 3; le 8 9] /\ map (fix_pay ex_L p 8) [0; 1] = [le 8 30; le 8 90]
  | _ => False
  end.
Proof. vm_compute. repeat split. Qed.
