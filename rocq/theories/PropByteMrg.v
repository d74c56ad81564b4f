(** * C58: clients on bytes after Bulkload, with node merging
    Property theorems only.  Fixed-length layout; several threads write, read and iterate
    over the tree that Bulkload left behind in memory, and merge nodes on the way. *)
From Coq Require Import ZArith NArith List Bool Lia.
From Verif Require Import Config Api Spec Page Machine Tree Scan Bulk BulkSpec Client ClientSpec Valid Bytes FixLayout ByteCons ByteConsSpec
  ByteTree ByteTreeSpec ByteTreeInst ByteScan ByteScanSpec ByteBulk MrgSpec ByteMrgSpec ByteMrgMain PropBytes PropClient PropBulk PropLoad PropScan PropTree PropMerge PropByteScan PropByteBulk.
From Verif Require BulkConc.
Import ListNotations.
Open Scope Z_scope.

(** While the root node that Bulkload installed stays in place (which can be read off the
    bytes, [xroot_stays]): no undefined behaviour on any interleaving, point calls take
    effect once each on a map that holds exactly the loaded entries at first, and iterations
    answer as [scan_ok] says.  Iterations from the smallest key are covered when leaves lie
    right below the root. *)
Theorem C58_fixlen_merging_partial g K lt ek ev L e junk es xs' stat_mem mems fuel todos sch :
  cfg_ok g -> c_varlen g = false -> bulk_ok g -> flay_ok g L e -> coding g false K lt ek ev ->
  Forall (fun x => K (fst x)) es -> ascending es -> es <> [] ->
  let C := fix_klass L (Z.to_N (c_paylen g)) lt in
  xbulkloaded L (Z.to_N (c_paylen g)) lt g junk (map (fun x => (ek (fst x), ev (snd x))) es) (xinit C junk) xs' ->
  Forall (Forall (req_keys K)) todos -> length mems = length todos -> begins_given todos \/ x_two_levels C xs' ->
  let c0 := bkstart xs' (combine mems (map (map (enc_req ek ev)) todos)) in
  xroot_stays C lt g fix_pmem stat_mem junk fuel (x_root xs') c0 sch ->
  (x_npid xs' + N.of_nat (length sch) <= 2 ^ 64)%N ->
  let e := bkexec C lt g fix_pmem stat_mem junk fuel c0 sch in
  ~ bkcrashed (fst e) /\
  exists M steps, holds_only M es /\ snd e = map (enc_kevent ek ev) (concat (map snd steps)) /\ map fst steps = map fst sch /\ told M no_view steps.
Proof.
  exact (fun OK HV BC HL HC Hk Ha Hn HB HT Hl BG Rs Hp =>
    match loaded_merging g K lt ek ev L e OK HV HL HC BC junk es xs' stat_mem mems fuel todos sch Hk Ha Hn HB HT Hl BG Rs Hp with
    | conj A (ex_intro _ steps B) => conj A (ex_intro _ _ (ex_intro _ steps (conj (BulkConc.holds_find es Ha) B))) end).
Qed.
Print Assumptions C58_fixlen_merging_partial.

(** ** A concrete case: forty entries in 256-byte pages full of ones, loaded by three workers
    that take turns; two threads write and update, the nodes they consolidate are merged; the
    third iterates from the smallest key. *)
Definition ex_mg_L : flay := mk_flay 256 32 32 8.
Lemma ex_mg_L_ok : flay_ok cfg_p256 ex_mg_L 8.
Proof. unfold flay_ok. cbn. repeat split; lia. Qed.
Lemma ex_mg_coding : coding cfg_p256 false ex_u64 ex_lt ex_ek ex_ev.
Proof. pose proof (ex_coding false false) as (A & B & E). split; [exact A|split; [exact B|exact E]]. Qed.
Definition ex_mg_C := fix_klass ex_mg_L (Z.to_N (c_paylen cfg_p256)) ex_lt.
Definition xzig_mg (es : bents) : option (xst (tchain DeltaBytes.fnode DeltaBytes.fdelta)) :=
  let w := xwork (fun _ => ex_ones) (xworkers ex_mg_L cfg_p256 60 es 3) (xinit ex_mg_C (fun _ => ex_ones)) (zigzag 40) in
  match xresults (fst w) with
  | Some ts => match xrun x_addr (fun _ => ex_ones) (xjoin ex_mg_L (Z.to_N (c_paylen cfg_p256)) ex_lt cfg_p256 60 ts) (snd w) with XDone Success s' => Some s' | _ => None end
  | None => None
  end.
Lemma xzig_mg_loaded es s' : 3 <= Z.of_nat (length es) < 59 -> xzig_mg es = Some s' ->
  xbulkloaded ex_mg_L (Z.to_N (c_paylen cfg_p256)) ex_lt cfg_p256 (fun _ => ex_ones) es (xinit ex_mg_C (fun _ => ex_ones)) s'.
Proof.
  unfold xzig_mg. intros L. destruct (xwork _ _ _ _) as [ws s1] eqn:W. cbn [fst snd]. destruct (xresults ws) as [ts|] eqn:R; [|discriminate].
  destruct (xrun _ _ _ _) as [[] s2| |] eqn:J; try discriminate. intros E. inversion E; subst.
  apply xresults_ok in R. subst ws. eapply xl_many; [| |exact W|exact J]; lia.
Qed.
Definition ex_mg_ents : bents := map (fun x => (ex_ek (fst x), ex_ev (snd x))) (entries 1 40).
Definition xover40 : xst (tchain DeltaBytes.fnode DeltaBytes.fdelta) :=
  match xzig_mg ex_mg_ents with Some s => s | None => xinit ex_mg_C (fun _ => ex_ones) end.
Lemma xover40_ok :
  xbulkloaded ex_mg_L (Z.to_N (c_paylen cfg_p256)) ex_lt cfg_p256 (fun _ => ex_ones) ex_mg_ents (xinit ex_mg_C (fun _ => ex_ones)) xover40.
Proof.
  apply xzig_mg_loaded; [vm_compute; split; congruence|].
  assert (E : is_some (xzig_mg ex_mg_ents) = true) by (vm_compute; reflexivity).
  exact (some_default _ (xinit ex_mg_C (fun _ => ex_ones)) E).
Qed.
Lemma entries40_u64 : Forall (fun x => ex_u64 (fst x)) (entries 1 40).
Proof. repeat (apply Forall_cons; [vm_compute; split; congruence|]). apply Forall_nil. Qed.
Lemma todos_ov_u64 : Forall (Forall (req_keys ex_u64)) todos_ov.
Proof.
  unfold todos_ov, ex_u64. cbn [map seq rev app repeat].
  repeat (apply Forall_cons; [repeat (apply Forall_cons; [cbn; lia|]); apply Forall_nil|]). apply Forall_nil.
Qed.
Lemma xover40_npid : (x_npid xover40 + N.of_nat (length (turns_mrg 130)) <= 2 ^ 64)%N.
Proof. apply N.leb_le. vm_compute. reflexivity. Qed.
Definition ex_mg_start : @bkst DeltaBytes.fnode DeltaBytes.fdelta :=
  bkstart xover40 (combine [ex_ones; ex_ones; ex_ones] (map (map (enc_req ex_ek ex_ev)) todos_ov)).
Definition run_mg := bkexec ex_mg_C ex_lt cfg_p256 fix_pmem (fun _ => ex_ones) (fun _ => ex_ones) 60 ex_mg_start (turns_mrg 130).
Lemma xover40_two : x_two_levels ex_mg_C xover40.
Proof. apply x_two_levels_ok. vm_compute. reflexivity. Qed.
Lemma xover40_stays : xroot_stays ex_mg_C ex_lt cfg_p256 fix_pmem (fun _ => ex_ones) (fun _ => ex_ones) 60 (x_root xover40) ex_mg_start (turns_mrg 130).
Proof. apply xroot_stays_ok. vm_compute. reflexivity. Qed.
Lemma cfg_p256_bulk : bulk_ok cfg_p256.
Proof. repeat split; vm_compute; congruence. Qed.
Example C58_merging_case :
  ~ bkcrashed (fst run_mg) /\
  exists M steps, holds_only M (entries 1 40) /\ snd run_mg = map (enc_kevent ex_ek ex_ev) (concat (map snd steps)) /\
    map fst steps = map fst (turns_mrg 130) /\ told M no_view steps.
Proof.
  exact (C58_fixlen_merging_partial cfg_p256 ex_u64 ex_lt ex_ek ex_ev ex_mg_L 8%N (fun _ => ex_ones) (entries 1 40) xover40 (fun _ => ex_ones)
    [ex_ones; ex_ones; ex_ones] 60 todos_ov (turns_mrg 130) cfg_p256_ok eq_refl cfg_p256_bulk ex_mg_L_ok ex_mg_coding entries40_u64 entries40_asc ltac:(discriminate)
    xover40_ok todos_ov_u64 eq_refl (or_intror xover40_two) xover40_stays xover40_npid).
Qed.
(** Two nodes have been merged into their left siblings, on bytes, by the time every request
    is answered. *)
Definition xgone (s : xst (tchain DeltaBytes.fnode DeltaBytes.fdelta)) : list pid :=
  filter (fun p => match x_tbl s p with Some (TGone _ _) => true | _ => false end) (map N.of_nat (seq 0 40)).
Example C58_merging_bytes :
  forallb (fun t => match t with BKIdle _ [] => true | _ => false end) (bk_thr (fst run_mg)) = true /\
  (length (xgone xover40), length (xgone (bk_mem (fst run_mg)))) = (0%nat, 2%nat).
Proof. split; vm_compute; reflexivity. Qed.
