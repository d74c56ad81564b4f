(** * C62: an iterator kept open between calls of its own thread, on bytes
    Property theorems only.  The thread of C61 on the tree of ByteTree.v: calls, openings and
    rounds of the iteration and CollectStatisticalData, mixed as it likes, on memory with any
    old contents; nodes split and merge and the root changes under the open iterator. *)
From Coq Require Import ZArith NArith List Bool Lia Sorting.Sorted.
From Verif Require Import Config Api Spec ScanSpec Page Machine Tree Scan Client ClientSpec Valid Bytes FixLayout VarLayout DeltaBytes ByteCons ByteConsSpec
  ByteTree ByteTreeSpec ByteTreeInst ByteTreeMain ByteScan ByteScanSpec ByteBulk ByteSeq ByteSeqSpec ByteLifeSpec ByteLifeMain Serve ServeFacts ServeMain
  ByteServe ByteServeMain PropBytes PropTree PropScan PropSeq PropClient PropBulk PropLoad PropMerge PropByteTree PropByteScan PropByteBulk PropByteMrg PropByteSeq PropByteLife PropServe.
Import ListNotations.
Open Scope Z_scope.

(** With enough fuel every request ends, with answers that [replies] allows, byte for byte;
    with less the thread is cut short, and it never runs into undefined behaviour.  [s] is the
    state of Tree.v after the same requests; it only bounds the page IDs given out.  [m0] is
    what the thread's page buffer held at first. *)
Theorem C62_fixlen_runs g K lt ek ev L e junk stat_mem m0 qs :
  cfg_ok g -> c_varlen g = false -> flay_ok g L e -> coding g false K lt ek ev -> Forall (req_keys K) qs ->
  let C := fix_klass L (Z.to_N (c_paylen g)) lt in
  let X f := xserve C lt g fix_pmem stat_mem junk f (BNew m0) (map (enc_req ek ev) qs) (xinit C junk) in
  exists F l s, replies sempty None qs l /\
    (forall f, (F <= f)%nat -> serve g f None qs (init g) = Done l s) /\
    ((s_npid s <= 2 ^ 64)%N -> forall f,
       (exists xs, X f = XDone (map (enc_ans ek ev) l) xs) \/ (f < F)%nat /\ X f = XNoFuel).
Proof.
  exact (fun OK HV HL HC Hk => new_bytes _ lt g OK K ek ev _ _ (fix_ok g K lt ek ev L e OK HV HL HC) fix_pmem stat_mem junk m0 qs Hk).
Qed.
Print Assumptions C62_fixlen_runs.

Theorem C62_varlen_runs g K lt ek ev page junk stat_mem m0 qs :
  cfg_ok g -> c_varlen g = true -> c_hdr g = 32 -> Z.of_N page = c_page g -> 2 * c_page g < 65536 ->
  coding g false K lt ek ev -> Forall (req_keys K) qs ->
  let C := var_klass page (Z.to_N (c_paylen g)) lt in
  let X f := xserve C lt g var_pmem stat_mem junk f (BNew m0) (map (enc_req ek ev) qs) (xinit C junk) in
  exists F l s, replies sempty None qs l /\
    (forall f, (F <= f)%nat -> serve g f None qs (init g) = Done l s) /\
    ((s_npid s <= 2 ^ 64)%N -> forall f,
       (exists xs, X f = XDone (map (enc_ans ek ev) l) xs) \/ (f < F)%nat /\ X f = XNoFuel).
Proof.
  exact (fun OK HV Hh Hp H16 HC Hk => new_bytes _ lt g OK K ek ev _ _ (var_ok g K lt ek ev page OK HV Hh Hp H16 HC) var_pmem stat_mem junk m0 qs Hk).
Qed.
Print Assumptions C62_varlen_runs.

(** A user's view, with no reference to Tree.v.  An iterator over [b], [e'] is opened after the
    requests [pre] and moved by [qs] among other calls.  Its keys ascend; and a key that no call
    changes before it is returned is returned by a complete iteration exactly if the tree held it
    when the iterator was opened, with the value of that time. *)
Theorem C62_fixlen_iterator g K lt ek ev L e junk stat_mem m0 pre b e' qs f bl xs :
  cfg_ok g -> c_varlen g = false -> flay_ok g L e -> coding g false K lt ek ev ->
  Forall (req_keys K) (pre ++ QOpen b e' :: qs) ->
  let C := fix_klass L (Z.to_N (c_paylen g)) lt in
  xserve C lt g fix_pmem stat_mem junk f (BNew m0) (map (enc_req ek ev) (pre ++ QOpen b e' :: qs)) (xinit C junk) = XDone bl xs ->
  (x_npid xs <= 2 ^ 64)%N ->
  exists l0 l, bl = map (enc_ans ek ev) (l0 ++ AOpen :: l) /\ length l0 = length pre /\
    (Forall no_open qs -> StronglySorted (fun x y => fst x < fst y) (recs l)) /\
    (forall k v, unspoilt k qs l -> In AEnd l -> ScanSpec.after b k -> before e' k ->
       (In (k, v) (recs l) <-> after_reqs sempty pre k = Some v)).
Proof.
  exact (fun OK HV HL HC Hk E Hn => new_user _ lt g OK K ek ev _ _ (fix_ok g K lt ek ev L e OK HV HL HC) fix_pmem stat_mem junk m0 pre b e' qs f bl xs Hk E Hn).
Qed.
Print Assumptions C62_fixlen_iterator.

Theorem C62_varlen_iterator g K lt ek ev page junk stat_mem m0 pre b e' qs f bl xs :
  cfg_ok g -> c_varlen g = true -> c_hdr g = 32 -> Z.of_N page = c_page g -> 2 * c_page g < 65536 ->
  coding g false K lt ek ev -> Forall (req_keys K) (pre ++ QOpen b e' :: qs) ->
  let C := var_klass page (Z.to_N (c_paylen g)) lt in
  xserve C lt g var_pmem stat_mem junk f (BNew m0) (map (enc_req ek ev) (pre ++ QOpen b e' :: qs)) (xinit C junk) = XDone bl xs ->
  (x_npid xs <= 2 ^ 64)%N ->
  exists l0 l, bl = map (enc_ans ek ev) (l0 ++ AOpen :: l) /\ length l0 = length pre /\
    (Forall no_open qs -> StronglySorted (fun x y => fst x < fst y) (recs l)) /\
    (forall k v, unspoilt k qs l -> In AEnd l -> ScanSpec.after b k -> before e' k ->
       (In (k, v) (recs l) <-> after_reqs sempty pre k = Some v)).
Proof.
  exact (fun OK HV Hh Hp H16 HC Hk E Hn => new_user _ lt g OK K ek ev _ _ (var_ok g K lt ek ev page OK HV Hh Hp H16 HC) var_pmem stat_mem junk m0 pre b e' qs f bl xs Hk E Hn).
Qed.
Print Assumptions C62_varlen_iterator.

(** The same at any time of the life of a tree of fixed-length nodes (C60). *)
Theorem C62_fixlen_life g K lt ek ev L e junk stat_mem M xs :
  cfg_ok g -> c_varlen g = false -> bulk_ok g -> flay_ok g L e -> coding g false K lt ek ev ->
  xlived g K lt ek ev L junk M xs -> (x_npid xs <= 2 ^ 64)%N ->
  let C := fix_klass L (Z.to_N (c_paylen g)) lt in
  exists s, lived g K M s /\ x_npid xs = s_npid s /\
  forall m0 qs, Forall (req_keys K) qs ->
  let X f := xserve C lt g fix_pmem stat_mem junk f (BNew m0) (map (enc_req ek ev) qs) xs in
  exists F l s', replies M None qs l /\
    (forall f, (F <= f)%nat -> serve g f None qs s = Done l s') /\
    ((s_npid s' <= 2 ^ 64)%N -> forall f,
       (exists xs', X f = XDone (map (enc_ans ek ev) l) xs') \/ (f < F)%nat /\ X f = XNoFuel).
Proof.
  exact (fun OK HV BC HL HC H Hn => life_serve g K lt ek ev L e OK HV HL HC BC stat_mem junk M xs H Hn).
Qed.
Print Assumptions C62_fixlen_life.

Theorem C62_fixlen_life_answers g K lt ek ev L e junk stat_mem M xs m0 qs f bl xs' :
  cfg_ok g -> c_varlen g = false -> bulk_ok g -> flay_ok g L e -> coding g false K lt ek ev ->
  xlived g K lt ek ev L junk M xs -> Forall (req_keys K) qs ->
  let C := fix_klass L (Z.to_N (c_paylen g)) lt in
  xserve C lt g fix_pmem stat_mem junk f (BNew m0) (map (enc_req ek ev) qs) xs = XDone bl xs' -> (x_npid xs' <= 2 ^ 64)%N ->
  exists l, bl = map (enc_ans ek ev) l /\ replies M None qs l.
Proof.
  exact (fun OK HV BC HL HC H Hk => life_serve_left g K lt ek ev L e OK HV HL HC BC stat_mem junk M xs m0 qs f bl xs' H Hk).
Qed.
Print Assumptions C62_fixlen_life_answers.

(** ** Concrete cases
    Thirty keys are written; the thread deletes each record as it is returned; then it asks
    for the statistics.  Both layouts, memory full of ones. *)
Definition reqs30 : list req := map QCall (writes 1 30).
Definition drain30 : list req := drain (ks 1 30) ++ [QNext; QStat 40].
Lemma reqs30_keys : Forall (req_keys ex_u64) (reqs30 ++ QOpen None None :: drain30).
Proof.
  apply Forall_app. split; [|apply Forall_cons; [split; exact I|]].
  - unfold reqs30. cbn. repeat (apply Forall_cons; [vm_compute; repeat split; congruence|]). apply Forall_nil.
  - unfold drain30. cbn. repeat (apply Forall_cons; [vm_compute; repeat split; congruence|]). apply Forall_nil.
Qed.
Notation xsv_gs := (xserve ex_gs_C ex_lt cfg_gs fix_pmem (fun _ => ex_ones) (fun _ => ex_ones) 60 (BNew ex_ones)
  (map (enc_req ex_ek ex_ev) (reqs30 ++ QOpen None None :: drain30)) (xinit ex_gs_C (fun _ => ex_ones))).
Notation xsv_gv := (xserve ex_gv_C ex_lt cfg_gv var_pmem (fun _ => ex_ones) (fun _ => ex_ones) 60 (BNew ex_ones)
  (map (enc_req ex_ek ex_ev) (reqs30 ++ QOpen None None :: drain30)) (xinit ex_gv_C (fun _ => ex_ones))).
Definition brecs (l : list bans) : list (list N) := flat_map (fun a => match a with BARec k _ => [k] | _ => [] end) l.
Example C62_fixlen_drain : xended xsv_gs = true /\ brecs (xsaid xsv_gs) = map ex_ek (ks 1 30) /\
  skipn 91 (xsaid xsv_gs) = [BAEnd; BAStat [(1, 48, 256); (1, 32, 256)]].
Proof. split; [|split]; vm_compute; reflexivity. Qed.
Example C62_varlen_drain : xended xsv_gv = true /\ brecs (xsaid xsv_gv) = map ex_ek (ks 1 30) /\
  skipn 91 (xsaid xsv_gv) = [BAEnd; BAStat [(1, 48, 256); (1, 32, 256)]].
Proof. split; [|split]; vm_compute; reflexivity. Qed.
Lemma xsv_gs_npid : (x_npid (xdone xsv_gs (xinit ex_gs_C (fun _ => ex_ones))) <= 2 ^ 64)%N.
Proof. apply N.leb_le. vm_compute. reflexivity. Qed.
Lemma xsv_gv_npid : (x_npid (xdone xsv_gv (xinit ex_gv_C (fun _ => ex_ones))) <= 2 ^ 64)%N.
Proof. apply N.leb_le. vm_compute. reflexivity. Qed.
(** The theorems apply to them. *)
Example C62_fixlen_case : exists l0 l, xsaid xsv_gs = map (enc_ans ex_ek ex_ev) (l0 ++ AOpen :: l) /\ length l0 = length reqs30 /\
    (Forall no_open drain30 -> StronglySorted (fun x y => fst x < fst y) (recs l)) /\
    (forall k v, unspoilt k drain30 l -> In AEnd l -> ScanSpec.after None k -> before None k ->
       (In (k, v) (recs l) <-> after_reqs sempty reqs30 k = Some v)).
Proof.
  exact (C62_fixlen_iterator cfg_gs ex_u64 ex_lt ex_ek ex_ev ex_gs_L 8%N (fun _ => ex_ones) (fun _ => ex_ones) ex_ones reqs30 None None drain30 60
    (xsaid xsv_gs) (xdone xsv_gs (xinit ex_gs_C (fun _ => ex_ones))) cfg_gs_ok eq_refl ex_gs_L_ok ex_gs_coding reqs30_keys
    (xended_ok xsv_gs (xinit ex_gs_C (fun _ => ex_ones)) (proj1 C62_fixlen_drain)) xsv_gs_npid).
Qed.
Example C62_varlen_case : exists l0 l, xsaid xsv_gv = map (enc_ans ex_ek ex_ev) (l0 ++ AOpen :: l) /\ length l0 = length reqs30 /\
    (Forall no_open drain30 -> StronglySorted (fun x y => fst x < fst y) (recs l)) /\
    (forall k v, unspoilt k drain30 l -> In AEnd l -> ScanSpec.after None k -> before None k ->
       (In (k, v) (recs l) <-> after_reqs sempty reqs30 k = Some v)).
Proof.
  exact (C62_varlen_iterator cfg_gv ex_u64 ex_lt ex_ek ex_ev 256 (fun _ => ex_ones) (fun _ => ex_ones) ex_ones reqs30 None None drain30 60
    (xsaid xsv_gv) (xdone xsv_gv (xinit ex_gv_C (fun _ => ex_ones))) cfg_gv_ok eq_refl eq_refl eq_refl eq_refl ex_gv_coding reqs30_keys
    (xended_ok xsv_gv (xinit ex_gv_C (fun _ => ex_ones)) (proj1 C62_varlen_drain)) xsv_gv_npid).
Qed.
(** On the tree of PropByteLife.v: the iterator returns 1 and 2, then 5 to 18 are deleted;
    it goes on with its copy of the first leaf, up to 12, and then with the leaves as they
    are now. *)
Definition reqs_lf : list req := [QOpen (Some (1, true)) (Some (24, false)); QNext; QNext] ++ map (fun k => QCall (KDelete k)) (ks 5 14) ++
  map (fun _ => QNext) (ks 1 20) ++ [QStat 40].
Lemma reqs_lf_keys : Forall (req_keys ex_u64) reqs_lf.
Proof. unfold reqs_lf; cbn; repeat (apply Forall_cons; [vm_compute; repeat split; congruence|]); apply Forall_nil. Qed.
Notation xsv_lf := (xserve ex_lf_C ex_lt cfg_p256 fix_pmem (fun _ => ex_ones) (fun _ => ex_ones) 60 (BNew ex_ones) (map (enc_req ex_ek ex_ev) reqs_lf) lf_three).
Example C62_life_bytes : xended xsv_lf = true /\ brecs (xsaid xsv_lf) = map ex_ek (ks 1 12 ++ ks 19 5) /\
  last (xsaid xsv_lf) BAEnd = BAStat [(1, 128, 256); (6, 832, 1696)].
Proof. split; [|split]; vm_compute; reflexivity. Qed.
Lemma xsv_lf_npid : (x_npid (xdone xsv_lf lf_new) <= 2 ^ 64)%N.
Proof. apply N.leb_le. vm_compute. reflexivity. Qed.
Example C62_life_case : exists l, xsaid xsv_lf = map (enc_ans ex_ek ex_ev) l /\ replies (after_items map40 (map snd (with_ones prog_lf2))) None reqs_lf l.
Proof.
  exact (C62_fixlen_life_answers cfg_p256 ex_u64 ex_lt ex_ek ex_ev ex_mg_L 8%N (fun _ => ex_ones) (fun _ => ex_ones) (after_items map40 (map snd (with_ones prog_lf2))) lf_three ex_ones reqs_lf 60
    (xsaid xsv_lf) (xdone xsv_lf lf_new) cfg_p256_ok eq_refl cfg_p256_bulk ex_mg_L_ok ex_mg_coding lf_three_lived reqs_lf_keys
    (xended_ok xsv_lf lf_new (proj1 C62_life_bytes)) xsv_lf_npid).
Qed.
