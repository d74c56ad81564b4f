(** * C54: calls carried out on bytes
    Property theorems only.  The tree of ByteTree.v reads keys, payloads, fence keys and
    links out of the bytes of pages and delta records, in either layout, for any former
    contents [junk] of the memory that is handed out.  It follows Tree.v. *)
From Coq Require Import ZArith NArith List Bool Lia ZifyBool ZifyNat ZifyN.
From Verif Require Import Config Api Spec Page Machine Tree Conc Valid ConcChain ConcMain Bytes FixLayout ByteCons ByteConsSpec
  ByteTree ByteTreeSpec ByteTreeInst ByteTreeMain ByteTreeConc PropConc PropBytes.
Import ListNotations.
Open Scope Z_scope.

(** ** Variable-length layout *)
Theorem C54_varlen_follows g K lt ek ev page junk fuel todos sch :
  cfg_ok g -> c_varlen g = true -> c_hdr g = 32 -> Z.of_N page = c_page g -> 2 * c_page g < 65536 ->
  coding g false K lt ek ev -> Forall (Forall (fun o => K (call_key o))) todos ->
  steady g fuel (start (init g) todos) sch ->
  let C := var_klass page (Z.to_N (c_paylen g)) lt in
  let e := bexec C lt g junk fuel (bstart (xinit C junk) (map (map (enc_call ek ev)) todos)) sch in
  ~ bcrashed (fst e) /\
  snd e = map (enc_event ek ev) (snd (exec g fuel (start (init g) todos) sch)).
Proof.
  intros OK HV Hh Hp H16 HC HT HS.
  exact (bytes_follow _ lt g K ek ev _ _ (var_ok g K lt ek ev page OK HV Hh Hp H16 HC) junk fuel todos sch HT HS).
Qed.
Print Assumptions C54_varlen_follows.

Theorem C54_varlen_linearizable g K lt ek ev page junk fuel todos sch :
  cfg_ok g -> hdr_ok g -> no_merge g -> c_varlen g = true -> c_hdr g = 32 -> Z.of_N page = c_page g -> 2 * c_page g < 65536 ->
  coding g false K lt ek ev -> Forall (Forall (fun o => K (call_key o))) todos ->
  (s_npid (c_mem (fst (exec g fuel (start (init g) todos) sch))) <= 2 ^ 64)%N ->
  let C := var_klass page (Z.to_N (c_paylen g)) lt in
  let e := bexec C lt g junk fuel (bstart (xinit C junk) (map (map (enc_call ek ev)) todos)) sch in
  ~ bcrashed (fst e) /\ exists h, snd e = map (enc_event ek ev) h /\ linearizable sempty h.
Proof.
  intros OK HO NM HV Hh Hp H16 HC HT HP C e.
  destruct (C54_varlen_follows g K lt ek ev page junk fuel todos sch OK HV Hh Hp H16 HC HT (nm_steady g fuel todos sch OK HO NM HP)) as [A B].
  split; [exact A|]. exists (snd (exec g fuel (start (init g) todos) sch)). split; [exact B|].
  exact (conc_linearizable g fuel todos sch OK HO NM).
Qed.
Print Assumptions C54_varlen_linearizable.

(** ** Fixed-length layout *)
Theorem C54_fixlen_follows g K lt ek ev L e junk fuel todos sch :
  cfg_ok g -> c_varlen g = false -> flay_ok g L e ->
  coding g false K lt ek ev -> Forall (Forall (fun o => K (call_key o))) todos ->
  steady g fuel (start (init g) todos) sch ->
  let C := fix_klass L (Z.to_N (c_paylen g)) lt in
  let e := bexec C lt g junk fuel (bstart (xinit C junk) (map (map (enc_call ek ev)) todos)) sch in
  ~ bcrashed (fst e) /\
  snd e = map (enc_event ek ev) (snd (exec g fuel (start (init g) todos) sch)).
Proof.
  intros OK HV HL HC HT HS.
  exact (bytes_follow _ lt g K ek ev _ _ (fix_ok g K lt ek ev L e OK HV HL HC) junk fuel todos sch HT HS).
Qed.
Print Assumptions C54_fixlen_follows.

Theorem C54_fixlen_linearizable g K lt ek ev L e junk fuel todos sch :
  cfg_ok g -> hdr_ok g -> no_merge g -> c_varlen g = false -> flay_ok g L e ->
  coding g false K lt ek ev -> Forall (Forall (fun o => K (call_key o))) todos ->
  (s_npid (c_mem (fst (exec g fuel (start (init g) todos) sch))) <= 2 ^ 64)%N ->
  let C := fix_klass L (Z.to_N (c_paylen g)) lt in
  let e := bexec C lt g junk fuel (bstart (xinit C junk) (map (map (enc_call ek ev)) todos)) sch in
  ~ bcrashed (fst e) /\ exists h, snd e = map (enc_event ek ev) h /\ linearizable sempty h.
Proof.
  intros OK HO NM HV HL HC HT HP C e'.
  destruct (C54_fixlen_follows g K lt ek ev L e junk fuel todos sch OK HV HL HC HT (nm_steady g fuel todos sch OK HO NM HP)) as [A B].
  split; [exact A|]. exists (snd (exec g fuel (start (init g) todos) sch)). split; [exact B|].
  exact (conc_linearizable g fuel todos sch OK HO NM).
Qed.
Print Assumptions C54_fixlen_linearizable.

(** ** The cases of PropConc.v on bytes: pages of 128 bytes, the root splits *)
Lemma ex_nm_coding : coding cfg_nm false ex_u64 ex_lt ex_ek ex_ev.
Proof. pose proof (ex_coding false false) as (A & B & E). split; [exact A|split; [exact B|exact E]]. Qed.
Definition ex_nm_L : flay := mk_flay 128 32 32 8.
Example ex_nm_L_ok : flay_ok cfg_nm ex_nm_L 7.
Proof. unfold flay_ok. cbn. repeat split; lia. Qed.
Lemma todos3_u64 : Forall (Forall (fun o => ex_u64 (call_key o))) todos3.
Proof.
  unfold todos3, inserts, ex_u64. cbn [map seq rev app].
  repeat (apply Forall_cons; [repeat (apply Forall_cons; [cbn; lia|]); apply Forall_nil|]). apply Forall_nil.
Qed.
Lemma run3_npid : (s_npid (c_mem (fst (exec cfg_nm 200 (start (init cfg_nm) todos3) (turns 400)))) <= 2 ^ 64)%N.
Proof. apply N.leb_le. vm_compute. reflexivity. Qed.
Example C54_fixlen_case :
  let C := fix_klass ex_nm_L (Z.to_N (c_paylen cfg_nm)) ex_lt in
  let e := bexec C ex_lt cfg_nm (fun _ => ex_ones) 200 (bstart (xinit C (fun _ => ex_ones)) (map (map (enc_call ex_ek ex_ev)) todos3)) (turns 400) in
  ~ bcrashed (fst e) /\ snd e = map (enc_event ex_ek ex_ev) (snd (exec cfg_nm 200 (start (init cfg_nm) todos3) (turns 400))).
Proof.
  destruct cfg_nm_ok as (A & B & D).
  exact (C54_fixlen_follows cfg_nm ex_u64 ex_lt ex_ek ex_ev ex_nm_L 7%N (fun _ => ex_ones) 200 todos3 (turns 400) A eq_refl ex_nm_L_ok
    ex_nm_coding todos3_u64 (nm_steady cfg_nm 200 todos3 (turns 400) A B D run3_npid)).
Qed.

(** The same calls with records of variable length, pages of 256 bytes. *)
Definition cfg_vb : cfg := mk_cfg true (fun _ => 8) 8 8 8 32 256 0 2 8 230 0 false.
Example cfg_vb_ok : cfg_ok cfg_vb /\ hdr_ok cfg_vb /\ no_merge cfg_vb.
Proof. split; [|split]; [constructor|..]; try (vm_compute; congruence); try (intros k; vm_compute; split; congruence). vm_compute. split; congruence. Qed.
Lemma ex_vb_coding : coding cfg_vb false ex_u64 ex_lt ex_ek ex_ev.
Proof. pose proof (ex_coding true false) as (A & B & E). split; [exact A|split; [exact B|exact E]]. Qed.
Lemma run_vb_npid : (s_npid (c_mem (fst (exec cfg_vb 200 (start (init cfg_vb) todos3) (turns 400)))) <= 2 ^ 64)%N.
Proof. apply N.leb_le. vm_compute. reflexivity. Qed.
(** All calls return and the root was split. *)
Lemma run_vb_done : let e := exec cfg_vb 200 (start (init cfg_vb) todos3) (turns 400) in
  (Nat.eqb (length (snd e)) 94 && negb (s_root (c_mem (fst e)) =? 1)%N)%bool = true.
Proof. vm_compute. reflexivity. Qed.
Example C54_varlen_case :
  let C := var_klass 256%N (Z.to_N (c_paylen cfg_vb)) ex_lt in
  let e := bexec C ex_lt cfg_vb (fun _ => ex_ones) 200 (bstart (xinit C (fun _ => ex_ones)) (map (map (enc_call ex_ek ex_ev)) todos3)) (turns 400) in
  ~ bcrashed (fst e) /\ snd e = map (enc_event ex_ek ex_ev) (snd (exec cfg_vb 200 (start (init cfg_vb) todos3) (turns 400))).
Proof.
  destruct cfg_vb_ok as (A & B & D).
  exact (C54_varlen_follows cfg_vb ex_u64 ex_lt ex_ek ex_ev 256%N (fun _ => ex_ones) 200 todos3 (turns 400) A eq_refl eq_refl eq_refl eq_refl
    ex_vb_coding todos3_u64 (nm_steady cfg_vb 200 todos3 (turns 400) A B D run_vb_npid)).
Qed.

(** A short execution on bytes, carried out. *)
Definition ex_short : list (list bcall) :=
  [[BInsert (ex_ek 5) (ex_ev 50); BWrite (ex_ek 3) (ex_ev 30); BRead (ex_ek 5)]; [BInsert (ex_ek 5) (ex_ev 51); BDelete (ex_ek 3)]].
Fixpoint ex_turns2 (n : nat) : list (nat * bool) := match n with O => [] | S m => (0, false)%nat :: (1, false)%nat :: ex_turns2 m end.
Definition ex_results (l : list bevent) : list (nat * bret) :=
  flat_map (fun e => match e with BRes t r => [(t, r)] | BInv _ _ => [] end) l.
Definition ex_short_results : list (nat * bret) :=
  [(0%nat, BCode Success); (1%nat, BCode KeyExist); (0%nat, BCode Success); (1%nat, BCode Success); (0%nat, BVal (Some (ex_ev 50)))].
Example ex_short_fix : let C := fix_klass ex_nm_L 8%N ex_lt in
  ex_results (snd (bexec C ex_lt cfg_nm (fun _ => ex_ones) 200 (bstart (xinit C (fun _ => ex_ones)) ex_short) (ex_turns2 30))) = ex_short_results.
Proof. vm_compute. reflexivity. Qed.
Example ex_short_var : let C := var_klass 256%N 8%N ex_lt in
  ex_results (snd (bexec C ex_lt cfg_vb (fun _ => ex_ones) 200 (bstart (xinit C (fun _ => ex_ones)) ex_short) (ex_turns2 30))) = ex_short_results.
Proof. vm_compute. reflexivity. Qed.
(** Eight keys, written by one thread and read by the other behind a split of the root. *)
Definition ex_split : list (list bcall) := [map (fun k => BInsert (ex_ek k) (ex_ev 7)) [1; 2; 3; 4; 5; 6; 7; 8]; [BRead (ex_ek 2); BRead (ex_ek 7)]].
Definition ex_one (t n : nat) : list (nat * bool) := repeat (t, false) n.
Example ex_split_fix : let C := fix_klass ex_nm_L 8%N ex_lt in
  let e := bexec C ex_lt cfg_nm (fun _ => ex_ones) 200 (bstart (xinit C (fun _ => ex_ones)) ex_split) (ex_one 0 150 ++ ex_one 1 20) in
  (ex_results (snd e), (x_root (bc_mem (fst e)) =? 1)%N) =
  (repeat (0%nat, BCode Success) 8 ++ repeat (1%nat, BVal (Some (ex_ev 7))) 2, false).
Proof. vm_compute. reflexivity. Qed.
