(** * C55: iterations and statistics carried out on bytes
    Property theorems only.  The clients of ByteScan.v read all of their pages and delta
    records out of bytes; each thread rebuilds nodes in its own page, whatever that page
    held before ([mems]: at the start).  They follow the clients of Client.v. *)
From Coq Require Import ZArith NArith List Bool Lia ZifyBool ZifyNat ZifyN.
From Verif Require Import Config Api Spec Page Machine Tree Scan Client ClientSpec Valid ConcChain ClientFacts Bytes FixLayout ByteCons ByteConsSpec
  ByteTree ByteTreeSpec ByteTreeInst ByteScan ByteScanSpec ByteScanSim ByteScanConc PropBytes PropClient.
Import ListNotations.
Open Scope Z_scope.

(** ** Variable-length layout *)
Theorem C55_varlen_follows g K lt ek ev page junk stat_mem mems fuel todos sch :
  cfg_ok g -> c_varlen g = true -> c_hdr g = 32 -> Z.of_N page = c_page g -> 2 * c_page g < 65536 ->
  coding g false K lt ek ev -> Forall (Forall (req_keys K)) todos -> length mems = length todos ->
  ksteady g fuel (kstart (init g) todos) sch ->
  let C := var_klass page (Z.to_N (c_paylen g)) lt in
  let e := bkexec C lt g var_pmem stat_mem junk fuel (bkstart (xinit C junk) (combine mems (map (map (enc_req ek ev)) todos))) sch in
  ~ bkcrashed (fst e) /\
  snd e = map (enc_kevent ek ev) (snd (kexec g fuel (kstart (init g) todos) sch)).
Proof.
  intros OK HV Hh Hp H16 HC HT HL HS.
  exact (clients_follow _ lt g K ek ev _ _ (var_ok g K lt ek ev page OK HV Hh Hp H16 HC) var_pmem stat_mem junk fuel todos mems sch HT HL HS).
Qed.
Print Assumptions C55_varlen_follows.

(** Merging disabled: the answers are those of point calls that take effect once each and of
    iterations as [scan_ok] says (C36). *)
Theorem C55_varlen_explained g K lt ek ev page junk stat_mem mems fuel todos sch :
  cfg_ok g -> hdr_ok g -> no_merge g -> c_varlen g = true -> c_hdr g = 32 -> Z.of_N page = c_page g -> 2 * c_page g < 65536 ->
  coding g false K lt ek ev -> Forall (Forall (req_keys K)) todos -> length mems = length todos ->
  (s_npid (k_mem (fst (kexec g fuel (kstart (init g) todos) sch))) <= 2 ^ 64)%N ->
  let C := var_klass page (Z.to_N (c_paylen g)) lt in
  let e := bkexec C lt g var_pmem stat_mem junk fuel (bkstart (xinit C junk) (combine mems (map (map (enc_req ek ev)) todos))) sch in
  ~ bkcrashed (fst e) /\
  exists steps, snd e = map (enc_kevent ek ev) (concat (map snd steps)) /\ map fst steps = map fst sch /\ told sempty no_view steps.
Proof.
  intros OK HO NM HV Hh Hp H16 HC HT HL HP C e.
  destruct (C55_varlen_follows g K lt ek ev page junk stat_mem mems fuel todos sch OK HV Hh Hp H16 HC HT HL (nm_ksteady g fuel todos sch OK HO NM HP)) as [A B].
  split; [exact A|]. destruct (told_history g fuel sch _ _ _ (client_explained g OK HO NM fuel todos sch)) as (steps & E & X & Y).
  exists steps. split; [|split; [exact X|exact Y]]. rewrite <- E. exact B.
Qed.
Print Assumptions C55_varlen_explained.

(** ** Fixed-length layout *)
Theorem C55_fixlen_follows g K lt ek ev L e junk stat_mem mems fuel todos sch :
  cfg_ok g -> c_varlen g = false -> flay_ok g L e ->
  coding g false K lt ek ev -> Forall (Forall (req_keys K)) todos -> length mems = length todos ->
  ksteady g fuel (kstart (init g) todos) sch ->
  let C := fix_klass L (Z.to_N (c_paylen g)) lt in
  let e := bkexec C lt g fix_pmem stat_mem junk fuel (bkstart (xinit C junk) (combine mems (map (map (enc_req ek ev)) todos))) sch in
  ~ bkcrashed (fst e) /\
  snd e = map (enc_kevent ek ev) (snd (kexec g fuel (kstart (init g) todos) sch)).
Proof.
  intros OK HV HLy HC HT HL HS.
  exact (clients_follow _ lt g K ek ev _ _ (fix_ok g K lt ek ev L e OK HV HLy HC) fix_pmem stat_mem junk fuel todos mems sch HT HL HS).
Qed.
Print Assumptions C55_fixlen_follows.

Theorem C55_fixlen_explained g K lt ek ev L e junk stat_mem mems fuel todos sch :
  cfg_ok g -> hdr_ok g -> no_merge g -> c_varlen g = false -> flay_ok g L e ->
  coding g false K lt ek ev -> Forall (Forall (req_keys K)) todos -> length mems = length todos ->
  (s_npid (k_mem (fst (kexec g fuel (kstart (init g) todos) sch))) <= 2 ^ 64)%N ->
  let C := fix_klass L (Z.to_N (c_paylen g)) lt in
  let e := bkexec C lt g fix_pmem stat_mem junk fuel (bkstart (xinit C junk) (combine mems (map (map (enc_req ek ev)) todos))) sch in
  ~ bkcrashed (fst e) /\
  exists steps, snd e = map (enc_kevent ek ev) (concat (map snd steps)) /\ map fst steps = map fst sch /\ told sempty no_view steps.
Proof.
  intros OK HO NM HV HLy HC HT HL HP C e'.
  destruct (C55_fixlen_follows g K lt ek ev L e junk stat_mem mems fuel todos sch OK HV HLy HC HT HL (nm_ksteady g fuel todos sch OK HO NM HP)) as [A B].
  split; [exact A|]. destruct (told_history g fuel sch _ _ _ (client_explained g OK HO NM fuel todos sch)) as (steps & E & X & Y).
  exists steps. split; [|split; [exact X|exact Y]]. rewrite <- E. exact B.
Qed.
Print Assumptions C55_fixlen_explained.

(** ** The case of PropClient.v on bytes: an iteration next to splits *)
Lemma ex_kc_coding : coding cfg_kc false ex_u64 ex_lt ex_ek ex_ev.
Proof. pose proof (ex_coding false false) as (A & B & E). split; [exact A|split; [exact B|exact E]]. Qed.
Definition ex_kc_L : flay := mk_flay 128 32 32 8.
Example ex_kc_L_ok : flay_ok cfg_kc ex_kc_L 7.
Proof. unfold flay_ok. cbn. repeat split; lia. Qed.
Lemma todos_kc_u64 : Forall (Forall (req_keys ex_u64)) todos_kc.
Proof.
  unfold todos_kc, ex_u64. cbn [map seq rev app repeat].
  repeat (apply Forall_cons; [repeat (apply Forall_cons; [cbn; lia|]); apply Forall_nil|]). apply Forall_nil.
Qed.
Lemma run_kc_npid : (s_npid (k_mem (fst (kexec cfg_kc 200 (kstart (init cfg_kc) todos_kc) (turns_kc 260)))) <= 2 ^ 64)%N.
Proof. apply N.leb_le. vm_compute. reflexivity. Qed.
Example C55_fixlen_case :
  let C := fix_klass ex_kc_L (Z.to_N (c_paylen cfg_kc)) ex_lt in
  let e := bkexec C ex_lt cfg_kc fix_pmem (fun _ => ex_ones) (fun _ => ex_ones) 200
    (bkstart (xinit C (fun _ => ex_ones)) (combine [ex_ones; ex_ones] (map (map (enc_req ex_ek ex_ev)) todos_kc))) (turns_kc 260) in
  ~ bkcrashed (fst e) /\ snd e = map (enc_kevent ex_ek ex_ev) (snd (kexec cfg_kc 200 (kstart (init cfg_kc) todos_kc) (turns_kc 260))).
Proof.
  destruct cfg_kc_ok as (A & B & D).
  exact (C55_fixlen_follows cfg_kc ex_u64 ex_lt ex_ek ex_ev ex_kc_L 7%N (fun _ => ex_ones) (fun _ => ex_ones) [ex_ones; ex_ones] 200 todos_kc (turns_kc 260)
    A eq_refl ex_kc_L_ok ex_kc_coding todos_kc_u64 eq_refl (nm_ksteady cfg_kc 200 todos_kc (turns_kc 260) A B D run_kc_npid)).
Qed.

(** The same requests with records of variable length, pages of 256 bytes. *)
Definition cfg_kv : cfg := mk_cfg true (fun _ => 8) 8 8 8 32 256 0 2 8 230 0 false.
Example cfg_kv_ok : cfg_ok cfg_kv /\ hdr_ok cfg_kv /\ no_merge cfg_kv.
Proof. split; [|split]; [constructor|..]; try (vm_compute; congruence); try (intros k; vm_compute; split; congruence). vm_compute. split; congruence. Qed.
Lemma ex_kv_coding : coding cfg_kv false ex_u64 ex_lt ex_ek ex_ev.
Proof. pose proof (ex_coding true false) as (A & B & E). split; [exact A|split; [exact B|exact E]]. Qed.
Lemma run_kv_npid : (s_npid (k_mem (fst (kexec cfg_kv 200 (kstart (init cfg_kv) todos_kc) (turns_kc 260)))) <= 2 ^ 64)%N.
Proof. apply N.leb_le. vm_compute. reflexivity. Qed.
Lemma run_kv_done : let e := kexec cfg_kv 200 (kstart (init cfg_kv) todos_kc) (turns_kc 260) in
  (map (fun c => match c with KIdle _ [] => true | _ => false end) (k_thr (fst e)), negb (s_root (k_mem (fst e)) =? 1)%N) = ([true; true], true).
Proof. vm_compute. reflexivity. Qed.
Example C55_varlen_case :
  let C := var_klass 256%N (Z.to_N (c_paylen cfg_kv)) ex_lt in
  let e := bkexec C ex_lt cfg_kv var_pmem (fun _ => ex_ones) (fun _ => ex_ones) 200
    (bkstart (xinit C (fun _ => ex_ones)) (combine [ex_ones; ex_ones] (map (map (enc_req ex_ek ex_ev)) todos_kc))) (turns_kc 260) in
  ~ bkcrashed (fst e) /\ snd e = map (enc_kevent ex_ek ex_ev) (snd (kexec cfg_kv 200 (kstart (init cfg_kv) todos_kc) (turns_kc 260))).
Proof.
  destruct cfg_kv_ok as (A & B & D).
  exact (C55_varlen_follows cfg_kv ex_u64 ex_lt ex_ek ex_ev 256%N (fun _ => ex_ones) (fun _ => ex_ones) [ex_ones; ex_ones] 200 todos_kc (turns_kc 260)
    A eq_refl eq_refl eq_refl eq_refl ex_kv_coding todos_kc_u64 eq_refl (nm_ksteady cfg_kv 200 todos_kc (turns_kc 260) A B D run_kv_npid)).
Qed.

(** Carried out on bytes: eight keys, then an iteration over two leaves, and statistics. *)
Definition ex_scan_reqs : list breq :=
  map (fun k => BQCall (BInsert (ex_ek k) (ex_ev 7))) [1; 2; 3; 4; 5; 6; 7; 8] ++
  [BQOpen (Some (ex_ek 3, true)) (Some (ex_ek 7, false)); BQNext; BQNext; BQNext; BQNext; BQNext; BQStat 32].
Definition ex_answers (l : list bkevent) : list bans :=
  flat_map (fun e => match e with BVRes _ r => [r] | BVInv _ _ => [] end) l.
Definition ex_scan_answers : list bans :=
  BAOpen :: map (fun k => BARec (ex_ek k) (ex_ev 7)) [3; 4; 5; 6] ++ [BAEnd].
Example ex_scan_fix : let C := fix_klass ex_kc_L 8%N ex_lt in
  let e := bkexec C ex_lt cfg_kc fix_pmem (fun _ => ex_ones) (fun _ => ex_ones) 200
    (bkstart (xinit C (fun _ => ex_ones)) [(ex_ones, ex_scan_reqs)]) (repeat (0%nat, false) 260) in
  (firstn 6 (skipn 8 (ex_answers (snd e))), length (ex_answers (snd e)), (x_root (bk_mem (fst e)) =? 1)%N) = (ex_scan_answers, 15%nat, false).
Proof. vm_compute. reflexivity. Qed.
Example ex_scan_var : let C := var_klass 256%N 8%N ex_lt in
  let e := bkexec C ex_lt cfg_kv var_pmem (fun _ => ex_ones) (fun _ => ex_ones) 200
    (bkstart (xinit C (fun _ => ex_ones)) [(ex_ones, ex_scan_reqs)]) (repeat (0%nat, false) 260) in
  (firstn 6 (skipn 8 (ex_answers (snd e))), length (ex_answers (snd e))) = (ex_scan_answers, 15%nat).
Proof. vm_compute. reflexivity. Qed.
