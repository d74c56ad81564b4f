(** * C59: one thread on bytes
    Property theorems only.  A thread carries out calls and complete scans one after the
    other on the tree of ByteTree.v, in either layout and on memory with any old contents;
    nodes are split and merged, the root is split and removed on the way. *)
From Coq Require Import ZArith NArith List Bool Lia.
From Verif Require Import Config Api Spec Page Machine Tree Scan Client ClientSpec Valid Bytes FixLayout VarLayout DeltaBytes ByteCons ByteConsSpec
  ByteTree ByteTreeSpec ByteTreeInst ByteTreeMain ByteScan ByteScanSpec ByteBulk MrgSpec ByteMrgSpec ByteMrgMain ByteSeq ByteSeqSpec ByteSeqMain
  PropBytes PropTree PropScan PropSeq PropClient PropMerge PropByteTree PropByteScan PropByteMrg.
Import ListNotations.
Open Scope Z_scope.

(** With enough fuel the program ends with the answers of a map, byte for byte; with less
    it is cut short, and it never runs into undefined behaviour.  [s] is the state of Tree.v
    after the same program; it only bounds the number of page IDs given out. *)
Theorem C59_fixlen_single_thread g K lt ek ev L e junk (xis : list (mem * item)) :
  cfg_ok g -> c_varlen g = false -> flay_ok g L e -> coding g false K lt ek ev ->
  Forall (item_keys K) (map snd xis) ->
  let C := fix_klass L (Z.to_N (c_paylen g)) lt in
  let X f := xrun_items C lt g fix_pmem junk f (map (enc_item ek ev) xis) (xinit C junk) in
  exists F js s, answers sempty (map snd xis) js /\
    (forall f, (F <= f)%nat -> run_items g f (map snd xis) (init g) = Done js s) /\
    ((s_npid s <= 2 ^ 64)%N -> forall f,
       (exists xs, X f = XDone (map (enc_answer ek ev) js) xs) \/ (f < F)%nat /\ X f = XNoFuel).
Proof.
  exact (fun OK HV HL HC Hk => seq_bytes _ lt g OK K ek ev _ _ (fix_ok g K lt ek ev L e OK HV HL HC) fix_pmem junk xis Hk).
Qed.
Print Assumptions C59_fixlen_single_thread.

Theorem C59_varlen_single_thread g K lt ek ev page junk (xis : list (mem * item)) :
  cfg_ok g -> c_varlen g = true -> c_hdr g = 32 -> Z.of_N page = c_page g -> 2 * c_page g < 65536 ->
  coding g false K lt ek ev -> Forall (item_keys K) (map snd xis) ->
  let C := var_klass page (Z.to_N (c_paylen g)) lt in
  let X f := xrun_items C lt g var_pmem junk f (map (enc_item ek ev) xis) (xinit C junk) in
  exists F js s, answers sempty (map snd xis) js /\
    (forall f, (F <= f)%nat -> run_items g f (map snd xis) (init g) = Done js s) /\
    ((s_npid s <= 2 ^ 64)%N -> forall f,
       (exists xs, X f = XDone (map (enc_answer ek ev) js) xs) \/ (f < F)%nat /\ X f = XNoFuel).
Proof.
  exact (fun OK HV Hh Hp H16 HC Hk => seq_bytes _ lt g OK K ek ev _ _ (var_ok g K lt ek ev page OK HV Hh Hp H16 HC) var_pmem junk xis Hk).
Qed.
Print Assumptions C59_varlen_single_thread.

(** The answers of a run on bytes that has ended, with no reference to Tree.v. *)
Theorem C59_fixlen_answers g K lt ek ev L e junk (xis : list (mem * item)) f js xs :
  cfg_ok g -> c_varlen g = false -> flay_ok g L e -> coding g false K lt ek ev ->
  Forall (item_keys K) (map snd xis) ->
  let C := fix_klass L (Z.to_N (c_paylen g)) lt in
  xrun_items C lt g fix_pmem junk f (map (enc_item ek ev) xis) (xinit C junk) = XDone js xs -> (x_npid xs <= 2 ^ 64)%N ->
  exists js', js = map (enc_answer ek ev) js' /\ answers sempty (map snd xis) js'.
Proof.
  exact (fun OK HV HL HC Hk E Hn =>
    match seq_left _ lt g OK K ek ev _ _ (fix_ok g K lt ek ev L e OK HV HL HC) fix_pmem junk xis Hk f js xs E Hn with
    | ex_intro _ js' (ex_intro _ _ (conj A (conj B _))) => ex_intro _ js' (conj A B) end).
Qed.
Print Assumptions C59_fixlen_answers.

Theorem C59_varlen_answers g K lt ek ev page junk (xis : list (mem * item)) f js xs :
  cfg_ok g -> c_varlen g = true -> c_hdr g = 32 -> Z.of_N page = c_page g -> 2 * c_page g < 65536 ->
  coding g false K lt ek ev -> Forall (item_keys K) (map snd xis) ->
  let C := var_klass page (Z.to_N (c_paylen g)) lt in
  xrun_items C lt g var_pmem junk f (map (enc_item ek ev) xis) (xinit C junk) = XDone js xs -> (x_npid xs <= 2 ^ 64)%N ->
  exists js', js = map (enc_answer ek ev) js' /\ answers sempty (map snd xis) js'.
Proof.
  exact (fun OK HV Hh Hp H16 HC Hk E Hn =>
    match seq_left _ lt g OK K ek ev _ _ (var_ok g K lt ek ev page OK HV Hh Hp H16 HC) var_pmem junk xis Hk f js xs E Hn with
    | ex_intro _ js' (ex_intro _ _ (conj A (conj B _))) => ex_intro _ js' (conj A B) end).
Qed.
Print Assumptions C59_varlen_answers.

(** C58 in both layouts: clients with node merging on the tree that such a thread leaves
    behind in memory, while its root node stays in place. *)
Theorem C58_fixlen_after_partial g K lt ek ev L e junk (xis : list (mem * item)) f js xs stat_mem mems fuel todos sch :
  cfg_ok g -> c_varlen g = false -> flay_ok g L e -> coding g false K lt ek ev ->
  Forall (item_keys K) (map snd xis) ->
  let C := fix_klass L (Z.to_N (c_paylen g)) lt in
  xrun_items C lt g fix_pmem junk f (map (enc_item ek ev) xis) (xinit C junk) = XDone js xs ->
  Forall (Forall (req_keys K)) todos -> length mems = length todos -> begins_given todos \/ x_two_levels C xs ->
  let c0 := bkstart xs (combine mems (map (map (enc_req ek ev)) todos)) in
  xroot_stays C lt g fix_pmem stat_mem junk fuel (x_root xs) c0 sch ->
  (x_npid xs + N.of_nat (length sch) <= 2 ^ 64)%N ->
  let e := bkexec C lt g fix_pmem stat_mem junk fuel c0 sch in
  ~ bkcrashed (fst e) /\
  exists steps, snd e = map (enc_kevent ek ev) (concat (map snd steps)) /\ map fst steps = map fst sch /\
    told (after_items sempty (map snd xis)) no_view steps.
Proof.
  exact (fun OK HV HL HC Hk E => seq_clients _ lt g OK K ek ev _ _ (fix_ok g K lt ek ev L e OK HV HL HC) fix_pmem junk xis Hk stat_mem f js xs mems fuel todos sch E).
Qed.
Print Assumptions C58_fixlen_after_partial.

Theorem C58_varlen_after_partial g K lt ek ev page junk (xis : list (mem * item)) f js xs stat_mem mems fuel todos sch :
  cfg_ok g -> c_varlen g = true -> c_hdr g = 32 -> Z.of_N page = c_page g -> 2 * c_page g < 65536 ->
  coding g false K lt ek ev -> Forall (item_keys K) (map snd xis) ->
  let C := var_klass page (Z.to_N (c_paylen g)) lt in
  xrun_items C lt g var_pmem junk f (map (enc_item ek ev) xis) (xinit C junk) = XDone js xs ->
  Forall (Forall (req_keys K)) todos -> length mems = length todos -> begins_given todos \/ x_two_levels C xs ->
  let c0 := bkstart xs (combine mems (map (map (enc_req ek ev)) todos)) in
  xroot_stays C lt g var_pmem stat_mem junk fuel (x_root xs) c0 sch ->
  (x_npid xs + N.of_nat (length sch) <= 2 ^ 64)%N ->
  let e := bkexec C lt g var_pmem stat_mem junk fuel c0 sch in
  ~ bkcrashed (fst e) /\
  exists steps, snd e = map (enc_kevent ek ev) (concat (map snd steps)) /\ map fst steps = map fst sch /\
    told (after_items sempty (map snd xis)) no_view steps.
Proof.
  exact (fun OK HV Hh Hp H16 HC Hk E => seq_clients _ lt g OK K ek ev _ _ (var_ok g K lt ek ev page OK HV Hh Hp H16 HC) var_pmem junk xis Hk stat_mem f js xs mems fuel todos sch E).
Qed.
Print Assumptions C58_varlen_after_partial.

(** Concrete programs: keys are written in ascending order, scanned in part, removed again
    and scanned.  In either layout the root is split twice and removed. *)
Definition prog_gs (n : nat) : list item :=
  map (fun k => ICall (KWrite k 7%N)) (ex_keys n) ++ [IScan (Some (3, true)) (Some (8, false))] ++
  map (fun k => ICall (KDelete k)) (ex_keys n) ++ [IScan None None].
Definition with_ones (is : list item) : list (mem * item) := map (fun i => (ex_ones, i)) is.
Definition cfg_gs : cfg := mk_cfg false (fun _ => 8) 8 8 8 32 256 64 1 64 230 0 false.
Definition cfg_gv : cfg := mk_cfg true (fun _ => 8) 8 8 8 32 256 64 1 64 230 0 false.
Lemma cfg_gs_ok : cfg_ok cfg_gs.
Proof. constructor; vm_compute; intros; repeat split; congruence. Qed.
Lemma cfg_gv_ok : cfg_ok cfg_gv.
Proof. constructor; vm_compute; intros; repeat split; congruence. Qed.
Definition ex_gs_L := mk_flay 256 32 32 8.
Lemma ex_gs_L_ok : flay_ok cfg_gs ex_gs_L 8.
Proof. unfold flay_ok. cbn. repeat split; lia. Qed.
Lemma ex_gs_coding : coding cfg_gs false ex_u64 ex_lt ex_ek ex_ev.
Proof. pose proof (ex_coding false false) as (A & B & E). split; [exact A|split; [exact B|exact E]]. Qed.
Lemma ex_gv_coding : coding cfg_gv false ex_u64 ex_lt ex_ek ex_ev.
Proof. pose proof (ex_coding true false) as (A & B & E). split; [exact A|split; [exact B|exact E]]. Qed.
Lemma prog_gs_keys n : Z.of_nat n < 2 ^ 64 -> Forall (item_keys ex_u64) (map snd (with_ones (prog_gs n))).
Proof.
  intros Hn. unfold with_ones. rewrite map_map. cbn [snd]. rewrite map_id. unfold prog_gs, ex_keys.
  assert (U : forall k, In k (map Z.of_nat (seq 1 n)) -> ex_u64 k).
  { intros k Hk. apply in_map_iff in Hk as (x & <- & Hx). apply in_seq in Hx. unfold ex_u64. lia. }
  assert (V : forall f : key -> call, (forall k, call_key (f k) = k) -> Forall (item_keys ex_u64) (map (fun k => ICall (f k)) (map Z.of_nat (seq 1 n)))).
  { intros f Hf. apply Forall_forall. intros i Hi. apply in_map_iff in Hi as (k & <- & Hk). unfold item_keys. rewrite Hf. exact (U k Hk). }
  apply Forall_app. split; [apply (V (fun k => KWrite k 7%N)); reflexivity|]. apply Forall_app. split.
  - apply Forall_cons; [|apply Forall_nil]. unfold item_keys, bound_key, ex_u64. repeat split; try lia. congruence.
  - apply Forall_app. split; [apply (V KDelete); reflexivity|]. apply Forall_cons; [|apply Forall_nil].
    unfold item_keys, bound_key. repeat split. congruence.
Qed.
Definition xdone {A C0 : Type} (r : xres C0 A) (d : xst C0) : xst C0 := match r with XDone _ s => s | _ => d end.
Definition xsaid {A C0 : Type} (r : xres C0 (list A)) : list A := match r with XDone a _ => a | _ => [] end.
Definition xended {A C0 : Type} (r : xres C0 A) : bool := match r with XDone _ _ => true | _ => false end.
Lemma xended_ok {A C0 : Type} (r : xres C0 (list A)) d : xended r = true -> r = XDone (xsaid r) (xdone r d).
Proof. destruct r; [reflexivity|discriminate|discriminate]. Qed.
Definition ex_gs_C := fix_klass ex_gs_L (Z.to_N (c_paylen cfg_gs)) ex_lt.
Definition ex_gv_C := var_klass 256 (Z.to_N (c_paylen cfg_gv)) ex_lt.
Definition run_gs (n : nat) := xrun_items ex_gs_C ex_lt cfg_gs fix_pmem (fun _ => ex_ones) 60
  (map (enc_item ex_ek ex_ev) (with_ones (firstn n (prog_gs 95)))) (xinit ex_gs_C (fun _ => ex_ones)).
Definition run_gv (n : nat) := xrun_items ex_gv_C ex_lt cfg_gv var_pmem (fun _ => ex_ones) 60
  (map (enc_item ex_ek ex_ev) (with_ones (firstn n (prog_gs 60)))) (xinit ex_gv_C (fun _ => ex_ones)).
Definition root_gs n := x_root (xdone (run_gs n) (xinit ex_gs_C (fun _ => ex_ones))).
Definition root_gv n := x_root (xdone (run_gv n) (xinit ex_gv_C (fun _ => ex_ones))).
(** Roots before, with 20 and with all keys, and at the end; the scans' answers. *)
Example C59_fixlen_runs :
  (root_gs 0, root_gs 20, root_gs 95, root_gs 192) = (1, 3, 18, 3)%N /\
  nth_error (xsaid (run_gs 192)) 95 = Some (BJRecs (map (fun k => (ex_ek k, ex_ev 7%N)) [3; 4; 5; 6; 7])) /\
  nth_error (xsaid (run_gs 192)) 191 = Some (BJRecs []).
Proof. split; [|split]; vm_compute; reflexivity. Qed.
Example C59_varlen_runs :
  (root_gv 0, root_gv 20, root_gv 60, root_gv 122) = (1, 3, 13, 3)%N /\
  nth_error (xsaid (run_gv 122)) 60 = Some (BJRecs (map (fun k => (ex_ek k, ex_ev 7%N)) [3; 4; 5; 6; 7])) /\
  nth_error (xsaid (run_gv 122)) 121 = Some (BJRecs []).
Proof. split; [|split]; vm_compute; reflexivity. Qed.
(** The theorems apply to them. *)
Example C59_fixlen_case :
  exists F js s, answers sempty (map snd (with_ones (prog_gs 95))) js /\
    (forall f, (F <= f)%nat -> run_items cfg_gs f (map snd (with_ones (prog_gs 95))) (init cfg_gs) = Done js s) /\
    ((s_npid s <= 2 ^ 64)%N -> forall f,
       (exists xs, xrun_items ex_gs_C ex_lt cfg_gs fix_pmem (fun _ => ex_ones) f (map (enc_item ex_ek ex_ev) (with_ones (prog_gs 95)))
          (xinit ex_gs_C (fun _ => ex_ones)) = XDone (map (enc_answer ex_ek ex_ev) js) xs) \/
       (f < F)%nat /\ xrun_items ex_gs_C ex_lt cfg_gs fix_pmem (fun _ => ex_ones) f (map (enc_item ex_ek ex_ev) (with_ones (prog_gs 95)))
          (xinit ex_gs_C (fun _ => ex_ones)) = XNoFuel).
Proof.
  exact (C59_fixlen_single_thread cfg_gs ex_u64 ex_lt ex_ek ex_ev ex_gs_L 8%N (fun _ => ex_ones) (with_ones (prog_gs 95))
    cfg_gs_ok eq_refl ex_gs_L_ok ex_gs_coding (prog_gs_keys 95 eq_refl)).
Qed.
Example C59_varlen_case :
  exists F js s, answers sempty (map snd (with_ones (prog_gs 60))) js /\
    (forall f, (F <= f)%nat -> run_items cfg_gv f (map snd (with_ones (prog_gs 60))) (init cfg_gv) = Done js s) /\
    ((s_npid s <= 2 ^ 64)%N -> forall f,
       (exists xs, xrun_items ex_gv_C ex_lt cfg_gv var_pmem (fun _ => ex_ones) f (map (enc_item ex_ek ex_ev) (with_ones (prog_gs 60)))
          (xinit ex_gv_C (fun _ => ex_ones)) = XDone (map (enc_answer ex_ek ex_ev) js) xs) \/
       (f < F)%nat /\ xrun_items ex_gv_C ex_lt cfg_gv var_pmem (fun _ => ex_ones) f (map (enc_item ex_ek ex_ev) (with_ones (prog_gs 60)))
          (xinit ex_gv_C (fun _ => ex_ones)) = XNoFuel).
Proof.
  exact (C59_varlen_single_thread cfg_gv ex_u64 ex_lt ex_ek ex_ev 256 (fun _ => ex_ones) (with_ones (prog_gs 60))
    cfg_gv_ok eq_refl eq_refl eq_refl eq_refl ex_gv_coding (prog_gs_keys 60 eq_refl)).
Qed.

(** Clients on a tree of variable-length nodes that one thread has filled with 40 keys:
    a remover, a writer and a scan; one node is merged into its left sibling. *)
Definition cfg_gc : cfg := mk_cfg true (fun _ => 8) 8 8 8 32 256 64 2 64 230 0 false.
Lemma cfg_gc_ok : cfg_ok cfg_gc.
Proof. constructor; vm_compute; intros; repeat split; congruence. Qed.
Lemma ex_gc_coding : coding cfg_gc false ex_u64 ex_lt ex_ek ex_ev.
Proof. pose proof (ex_coding true false) as (A & B & E). split; [exact A|split; [exact B|exact E]]. Qed.
Definition fill40 : list item := map (fun k => ICall (KWrite k 7%N)) (ex_keys 40).
Lemma fill40_keys : Forall (item_keys ex_u64) (map snd (with_ones fill40)).
Proof.
  unfold with_ones. rewrite map_map. cbn [snd]. rewrite map_id. unfold fill40, ex_keys.
  apply Forall_forall. intros i Hi. apply in_map_iff in Hi as (k & <- & Hk). apply in_map_iff in Hk as (x & <- & Hx). apply in_seq in Hx.
  unfold item_keys, call_key, ex_u64. lia.
Qed.
Notation ex_gc_C := (var_klass 256 (Z.to_N (c_paylen cfg_gc)) ex_lt).
Notation run_gc := (xrun_items ex_gc_C ex_lt cfg_gc var_pmem (fun _ => ex_ones) 60 (map (enc_item ex_ek ex_ev) (with_ones fill40)) (xinit ex_gc_C (fun _ => ex_ones))).
Notation filled := (xdone run_gc (xinit ex_gc_C (fun _ => ex_ones))).
Lemma run_gc_ends : xended run_gc = true.
Proof. vm_compute. reflexivity. Qed.
Lemma filled_ok : run_gc = XDone (xsaid run_gc) filled.
Proof. exact (xended_ok run_gc (xinit ex_gc_C (fun _ => ex_ones)) run_gc_ends). Qed.
Definition todos_gc : list (list req) :=
  [map (fun k => QCall (KDelete k)) [11; 12; 13; 14; 15; 16]; map (fun v => QCall (KUpdate 26 v)) [1; 2; 3; 4; 5; 6]%N;
   QOpen None (Some (30, false)) :: repeat QNext 36].
Lemma todos_gc_u64 : Forall (Forall (req_keys ex_u64)) todos_gc.
Proof.
  unfold todos_gc, ex_u64. cbn [map repeat].
  repeat (apply Forall_cons; [repeat (apply Forall_cons; [cbn; lia|]); apply Forall_nil|]). apply Forall_nil.
Qed.
Notation start_gc := (bkstart filled (combine [ex_ones; ex_ones; ex_ones] (map (map (enc_req ex_ek ex_ev)) todos_gc))).
Notation exec_gc := (bkexec ex_gc_C ex_lt cfg_gc var_pmem (fun _ => ex_ones) (fun _ => ex_ones) 60 start_gc (turns_mrg 200)).
Lemma filled_two : x_two_levels ex_gc_C filled.
Proof. apply x_two_levels_ok. vm_compute. reflexivity. Qed.
Lemma filled_stays : xroot_stays ex_gc_C ex_lt cfg_gc var_pmem (fun _ => ex_ones) (fun _ => ex_ones) 60 (x_root filled) start_gc (turns_mrg 200).
Proof. apply xroot_stays_ok. vm_compute. reflexivity. Qed.
Lemma filled_npid : (x_npid filled + N.of_nat (length (turns_mrg 200)) <= 2 ^ 64)%N.
Proof. apply N.leb_le. vm_compute. reflexivity. Qed.
Example C58_varlen_after_case :
  ~ bkcrashed (fst exec_gc) /\
  exists steps, snd exec_gc = map (enc_kevent ex_ek ex_ev) (concat (map snd steps)) /\ map fst steps = map fst (turns_mrg 200) /\
    told (after_items sempty (map snd (with_ones fill40))) no_view steps.
Proof.
  exact (C58_varlen_after_partial cfg_gc ex_u64 ex_lt ex_ek ex_ev 256 (fun _ => ex_ones) (with_ones fill40) 60 (xsaid run_gc) filled (fun _ => ex_ones)
    [ex_ones; ex_ones; ex_ones] 60 todos_gc (turns_mrg 200) cfg_gc_ok eq_refl eq_refl eq_refl eq_refl ex_gc_coding fill40_keys filled_ok
    todos_gc_u64 eq_refl (or_intror filled_two) filled_stays filled_npid).
Qed.
Definition xmerged {P D : Type} (s : xst (tchain P D)) : list pid :=
  filter (fun p => match x_tbl s p with Some (TGone _ _) => true | _ => false end) (map N.of_nat (seq 0 40)).
Example C58_varlen_after_bytes :
  forallb (fun t => match t with BKIdle _ [] => true | _ => false end) (bk_thr (fst exec_gc)) = true /\
  (xmerged filled, xmerged (bk_mem (fst exec_gc))) = ([], [5%N]).
Proof. split; vm_compute; reflexivity. Qed.
