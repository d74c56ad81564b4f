(** * C60: a tree of fixed-length nodes on bytes, at any time of its life
    Property theorems only.  A new tree is changed by programs of one thread and by
    Bulkloads, as many of them and in any order ([xlived], ByteLifeSpec.v); memory may hold
    anything before it is handed out. *)
From Coq Require Import ZArith NArith List Bool Lia Sorting.Sorted.
From Verif Require Import Config Api Spec Page Machine Tree Scan Bulk BulkSpec Client ClientSpec Valid Bytes FixLayout DeltaBytes ByteCons ByteConsSpec
  ByteTree ByteTreeSpec ByteTreeInst ByteTreeMain ByteScan ByteScanSpec ByteBulk MrgSpec ByteMrgSpec ByteMrgMain ByteSeq ByteSeqSpec ByteLifeSpec ByteLifeMain
  PropBytes PropTree PropScan PropSeq PropClient PropBulk PropLoad PropMerge PropByteTree PropByteScan PropByteBulk PropByteMrg PropByteSeq.
From Verif Require BulkConc.
Import ListNotations.
Open Scope Z_scope.

(** A program that has ended answered like the map the tree held. *)
Theorem C60_fixlen_answers g K lt ek ev L e junk M xs f (xis : list (mem * item)) b xs' :
  cfg_ok g -> c_varlen g = false -> bulk_ok g -> flay_ok g L e -> coding g false K lt ek ev ->
  xlived g K lt ek ev L junk M xs -> Forall (item_keys K) (map snd xis) ->
  let C := fix_klass L (Z.to_N (c_paylen g)) lt in
  xrun_items C lt g fix_pmem junk f (map (enc_item ek ev) xis) xs = XDone b xs' -> (x_npid xs' <= 2 ^ 64)%N ->
  exists js, b = map (enc_answer ek ev) js /\ answers M (map snd xis) js.
Proof.
  exact (fun OK HV BC HL HC H Hk => life_answers g K lt ek ev L e OK HV HL HC BC junk M xs f xis b xs' H Hk).
Qed.
Print Assumptions C60_fixlen_answers.

(** It ends with enough fuel, is cut short with less, and never runs into undefined
    behaviour; [s] and [s'] are states of Tree.v and only bound the page IDs given out. *)
Theorem C60_fixlen_runs g K lt ek ev L e junk M xs :
  cfg_ok g -> c_varlen g = false -> bulk_ok g -> flay_ok g L e -> coding g false K lt ek ev ->
  xlived g K lt ek ev L junk M xs -> (x_npid xs <= 2 ^ 64)%N ->
  let C := fix_klass L (Z.to_N (c_paylen g)) lt in
  exists s, lived g K M s /\ x_npid xs = s_npid s /\
  forall xis, Forall (item_keys K) (map snd xis) ->
  let X f := xrun_items C lt g fix_pmem junk f (map (enc_item ek ev) xis) xs in
  exists F js s', answers M (map snd xis) js /\
    (forall f, (F <= f)%nat -> run_items g f (map snd xis) s = Done js s') /\
    ((s_npid s' <= 2 ^ 64)%N -> forall f,
       (exists xs', X f = XDone (map (enc_answer ek ev) js) xs') \/ (f < F)%nat /\ X f = XNoFuel).
Proof.
  exact (fun OK HV BC HL HC H Hp => life_runs g K lt ek ev L e OK HV HL HC BC junk M xs H Hp).
Qed.
Print Assumptions C60_fixlen_runs.

(** Bulkload on a tree in use: its workers, in any interleaving, never come to undefined
    behaviour and never run out of fuel ... *)
Theorem C60_fixlen_workers g K lt ek ev L e junk M xs es T f sch :
  cfg_ok g -> c_varlen g = false -> bulk_ok g -> flay_ok g L e -> coding g false K lt ek ev ->
  xlived g K lt ek ev L junk M xs ->
  Forall (fun x => K (fst x)) es -> ascending es -> 1 < T <= Z.of_nat (length es) -> (length es + 1 < f)%nat ->
  let w := xwork junk (xworkers L g f (map (fun x => (ek (fst x), ev (snd x))) es) T) xs sch in
  (x_npid (snd w) <= 2 ^ 64)%N -> forall m u, In m (fst w) -> m <> XUB u /\ m <> XFuel.
Proof.
  exact (fun OK HV BC HL HC H Hk Ha HT Hf => life_workers g K lt ek ev L e OK HV HL HC BC junk M xs es T f sch H Hk Ha HT Hf).
Qed.
Print Assumptions C60_fixlen_workers.

(** ... and whenever Bulkload of Bulk.v ends, Bulkload on bytes ends as well. *)
Theorem C60_fixlen_loads g K lt ek ev L e junk M xs :
  cfg_ok g -> c_varlen g = false -> bulk_ok g -> flay_ok g L e -> coding g false K lt ek ev ->
  xlived g K lt ek ev L junk M xs -> (x_npid xs <= 2 ^ 64)%N ->
  exists s, lived g K M s /\ x_npid xs = s_npid s /\
  forall es s', Forall (fun x => K (fst x)) es -> ascending es -> es <> [] -> bulkloaded g es s s' -> (s_npid s' <= 2 ^ 64)%N ->
  exists xs', xbulkloaded L (Z.to_N (c_paylen g)) lt g junk (map (fun x => (ek (fst x), ev (snd x))) es) xs xs' /\ x_npid xs' = s_npid s'.
Proof.
  exact (fun OK HV BC HL HC H Hp => life_loads g K lt ek ev L e OK HV HL HC BC junk M xs H Hp).
Qed.
Print Assumptions C60_fixlen_loads.

(** C58 on such a tree: clients with node merging while the root node stays in place. *)
Theorem C58_fixlen_life_partial g K lt ek ev L e junk M xs stat_mem mems fuel todos sch :
  cfg_ok g -> c_varlen g = false -> bulk_ok g -> flay_ok g L e -> coding g false K lt ek ev ->
  xlived g K lt ek ev L junk M xs ->
  Forall (Forall (req_keys K)) todos -> length mems = length todos ->
  let C := fix_klass L (Z.to_N (c_paylen g)) lt in
  begins_given todos \/ x_two_levels C xs ->
  let c0 := bkstart xs (combine mems (map (map (enc_req ek ev)) todos)) in
  xroot_stays C lt g fix_pmem stat_mem junk fuel (x_root xs) c0 sch ->
  (x_npid xs + N.of_nat (length sch) <= 2 ^ 64)%N ->
  let e := bkexec C lt g fix_pmem stat_mem junk fuel c0 sch in
  ~ bkcrashed (fst e) /\
  exists steps, snd e = map (enc_kevent ek ev) (concat (map snd steps)) /\ map fst steps = map fst sch /\ told M no_view steps.
Proof.
  exact (fun OK HV BC HL HC H => life_clients g K lt ek ev L e OK HV HL HC BC junk M xs stat_mem mems fuel todos sch H).
Qed.
Print Assumptions C58_fixlen_life_partial.

(** ** A concrete life: a program, a Bulkload by three workers that take turns, a program,
    and then the three threads of PropByteMrg.v; 256-byte pages full of ones *)
Definition prog_lf1 : list item :=
  map (fun k => ICall (KWrite k 9%N)) (ex_keys 20) ++ [ICall (KDelete 4); IScan (Some (3, true)) (Some (6, true))].
Definition prog_lf2 : list item := [ICall (KRead 4); ICall (KDelete 3); ICall (KInsert 3 8%N); ICall (KUpdate 90 1%N); IScan (Some (1, true)) (Some (4, true))].
Notation ex_lf_C := (fix_klass ex_mg_L (Z.to_N (c_paylen cfg_p256)) ex_lt).
Notation lf_items is := (map (enc_item ex_ek ex_ev) (with_ones is)).
Notation lf_run is s := (xrun_items ex_lf_C ex_lt cfg_p256 fix_pmem (fun _ => ex_ones) 60 (lf_items is) s).
Notation lf_new := (xinit ex_lf_C (fun _ => ex_ones)).
Notation lf_one := (xdone (lf_run prog_lf1 lf_new) lf_new).
Definition zig_from (es : bents) (s : xst (tchain fnode fdelta)) : option (xst (tchain fnode fdelta)) :=
  let w := xwork (fun _ => ex_ones) (xworkers ex_mg_L cfg_p256 60 es 3) s (zigzag 40) in
  match xresults (fst w) with
  | Some ts => match xrun x_addr (fun _ => ex_ones) (xjoin ex_mg_L (Z.to_N (c_paylen cfg_p256)) ex_lt cfg_p256 60 ts) (snd w) with XDone Success s' => Some s' | _ => None end
  | None => None
  end.
Lemma zig_from_loaded es s s' : 3 <= Z.of_nat (length es) < 59 -> zig_from es s = Some s' ->
  xbulkloaded ex_mg_L (Z.to_N (c_paylen cfg_p256)) ex_lt cfg_p256 (fun _ => ex_ones) es s s'.
Proof.
  unfold zig_from. intros L. destruct (xwork _ _ _ _) as [ws s1] eqn:W. cbn [fst snd]. destruct (xresults ws) as [ts|] eqn:R; [|discriminate].
  destruct (xrun _ _ _ _) as [[] s2| |] eqn:J; try discriminate. intros E. inversion E; subst.
  apply xresults_ok in R. subst ws. eapply xl_many; [| |exact W|exact J]; lia.
Qed.
Definition or_else {A : Type} (d : A) (o : option A) : A := match o with Some s => s | None => d end.
Lemma or_else_ok {A : Type} (d : A) (o : option A) : is_some o = true -> o = Some (or_else d o).
Proof. destruct o; [reflexivity|discriminate]. Qed.
Notation lf_two := (or_else lf_new (zig_from ex_mg_ents lf_one)).
Notation lf_three := (xdone (lf_run prog_lf2 lf_two) lf_new).
Lemma prog_lf1_keys : Forall (item_keys ex_u64) (map snd (with_ones prog_lf1)).
Proof.
  unfold with_ones. rewrite map_map. cbn [snd]. rewrite map_id. unfold prog_lf1, ex_u64. cbn [map seq ex_keys app].
  repeat (apply Forall_cons; [vm_compute; repeat split; congruence|]). apply Forall_nil.
Qed.
Lemma prog_lf2_keys : Forall (item_keys ex_u64) (map snd (with_ones prog_lf2)).
Proof.
  unfold with_ones. rewrite map_map. cbn [snd]. rewrite map_id. unfold prog_lf2, ex_u64.
  repeat (apply Forall_cons; [vm_compute; repeat split; congruence|]). apply Forall_nil.
Qed.
Lemma lf_one_ends : xended (lf_run prog_lf1 lf_new) = true.
Proof. vm_compute. reflexivity. Qed.
Lemma lf_two_ends : is_some (zig_from ex_mg_ents lf_one) = true.
Proof. vm_compute. reflexivity. Qed.
Lemma lf_three_ends : xended (lf_run prog_lf2 lf_two) = true.
Proof. vm_compute. reflexivity. Qed.
Definition map40 : smap := fun k => ListFacts.find k (entries 1 40).
Lemma map40_holds : holds_only map40 (entries 1 40).
Proof. exact (BulkConc.holds_find _ entries40_asc). Qed.
Lemma ex_mg_ents_len : 3 <= Z.of_nat (length ex_mg_ents) < 59.
Proof. vm_compute. split; congruence. Qed.
Lemma lf_one_lived : xlived cfg_p256 ex_u64 ex_lt ex_ek ex_ev ex_mg_L (fun _ => ex_ones) (after_items sempty (map snd (with_ones prog_lf1))) lf_one.
Proof.
  exact (xlv_run _ _ _ _ _ _ _ _ _ 60 (with_ones prog_lf1) _ _ (xlv_new _ _ _ _ _ _ _) prog_lf1_keys
    (xended_ok (lf_run prog_lf1 lf_new) lf_new lf_one_ends)).
Qed.
Lemma lf_two_lived : xlived cfg_p256 ex_u64 ex_lt ex_ek ex_ev ex_mg_L (fun _ => ex_ones) map40 lf_two.
Proof.
  exact (xlv_load cfg_p256 ex_u64 ex_lt ex_ek ex_ev ex_mg_L (fun _ => ex_ones) _ lf_one (entries 1 40) lf_two map40
    lf_one_lived entries40_u64 entries40_asc ltac:(discriminate) (zig_from_loaded ex_mg_ents lf_one lf_two ex_mg_ents_len (or_else_ok lf_new (zig_from ex_mg_ents lf_one) lf_two_ends)) map40_holds).
Qed.
Lemma lf_three_lived : xlived cfg_p256 ex_u64 ex_lt ex_ek ex_ev ex_mg_L (fun _ => ex_ones) (after_items map40 (map snd (with_ones prog_lf2))) lf_three.
Proof.
  exact (xlv_run cfg_p256 ex_u64 ex_lt ex_ek ex_ev ex_mg_L (fun _ => ex_ones) map40 lf_two 60 (with_ones prog_lf2) (xsaid (lf_run prog_lf2 lf_two)) lf_three lf_two_lived prog_lf2_keys
    (xended_ok (lf_run prog_lf2 lf_two) lf_new lf_three_ends)).
Qed.
Lemma lf_three_npid : (x_npid lf_three <= 2 ^ 64)%N.
Proof. apply N.leb_le. vm_compute. reflexivity. Qed.
(** What the two programs said on bytes. *)
Example C60_life_bytes :
  skipn 20 (xsaid (lf_run prog_lf1 lf_new)) = [BJRet (BCode Success); BJRecs (map (fun k => (ex_ek k, ex_ev 9%N)) [3; 5; 6])] /\
  xsaid (lf_run prog_lf2 lf_two) = [BJRet (BVal (Some (ex_ev 4%N))); BJRet (BCode Success); BJRet (BCode Success); BJRet (BCode KeyNotExist);
    BJRecs [(ex_ek 1, ex_ev 1%N); (ex_ek 2, ex_ev 2%N); (ex_ek 3, ex_ev 8%N); (ex_ek 4, ex_ev 4%N)]].
Proof. split; vm_compute; reflexivity. Qed.
Example C60_answers_case :
  exists js, xsaid (lf_run prog_lf2 lf_two) = map (enc_answer ex_ek ex_ev) js /\ answers map40 (map snd (with_ones prog_lf2)) js.
Proof.
  exact (C60_fixlen_answers cfg_p256 ex_u64 ex_lt ex_ek ex_ev ex_mg_L 8%N (fun _ => ex_ones) map40 lf_two 60 (with_ones prog_lf2) _ _
    cfg_p256_ok eq_refl cfg_p256_bulk ex_mg_L_ok ex_mg_coding lf_two_lived prog_lf2_keys
    (xended_ok (lf_run prog_lf2 lf_two) lf_new lf_three_ends) lf_three_npid).
Qed.
(** The tree after all that meets the hypotheses of the others. *)
Example C60_life_case : exists s, lived cfg_p256 ex_u64 (after_items map40 (map snd (with_ones prog_lf2))) s /\ x_npid lf_three = s_npid s.
Proof.
  destruct (C60_fixlen_runs cfg_p256 ex_u64 ex_lt ex_ek ex_ev ex_mg_L 8%N (fun _ => ex_ones) _ lf_three
    cfg_p256_ok eq_refl cfg_p256_bulk ex_mg_L_ok ex_mg_coding lf_three_lived lf_three_npid) as (s & A & B & _).
  exists s. split; [exact A|exact B].
Qed.
Notation lf_start := (bkstart lf_three (combine [ex_ones; ex_ones; ex_ones] (map (map (enc_req ex_ek ex_ev)) todos_ov))).
Notation lf_exec := (bkexec ex_lf_C ex_lt cfg_p256 fix_pmem (fun _ => ex_ones) (fun _ => ex_ones) 60 lf_start (turns_mrg 130)).
Lemma lf_three_two : x_two_levels ex_lf_C lf_three.
Proof. apply x_two_levels_ok. vm_compute. reflexivity. Qed.
Lemma lf_three_stays : xroot_stays ex_lf_C ex_lt cfg_p256 fix_pmem (fun _ => ex_ones) (fun _ => ex_ones) 60 (x_root lf_three) lf_start (turns_mrg 130).
Proof. apply xroot_stays_ok. vm_compute. reflexivity. Qed.
Lemma lf_three_npids : (x_npid lf_three + N.of_nat (length (turns_mrg 130)) <= 2 ^ 64)%N.
Proof. apply N.leb_le. vm_compute. reflexivity. Qed.
Example C58_life_case :
  ~ bkcrashed (fst lf_exec) /\
  exists steps, snd lf_exec = map (enc_kevent ex_ek ex_ev) (concat (map snd steps)) /\ map fst steps = map fst (turns_mrg 130) /\
    told (after_items map40 (map snd (with_ones prog_lf2))) no_view steps.
Proof.
  exact (C58_fixlen_life_partial cfg_p256 ex_u64 ex_lt ex_ek ex_ev ex_mg_L 8%N (fun _ => ex_ones) _ lf_three (fun _ => ex_ones)
    [ex_ones; ex_ones; ex_ones] 60 todos_ov (turns_mrg 130) cfg_p256_ok eq_refl cfg_p256_bulk ex_mg_L_ok ex_mg_coding lf_three_lived
    todos_ov_u64 eq_refl (or_intror lf_three_two) lf_three_stays lf_three_npids).
Qed.
