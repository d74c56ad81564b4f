(** Executions of the mapping table: the lemmas behind PropMap.v. *)
From Coq Require Import ZArith NArith List Bool Lia.
From Coq Require Import ZifyBool ZifyNat ZifyN.
From Verif Require Import Config Page MapTable MapTableFacts.
Import ListNotations.
Open Scope N_scope.

Definition overrun (s : mst) : Prop := exists u, ms_pc s u = POob.

Lemma overrun_step s t b : overrun s -> overrun (mt_step s t b).
Proof.
  intros [u E]. exists u. unfold mt_step. destruct (mstep (ms_mem s) (ms_pc s t) b) as [[m p] o] eqn:Em. cbn.
  destruct (Nat.eqb_spec u t) as [->|]; auto. rewrite E in Em. cbn in Em. inversion Em. auto.
Qed.
Lemma overrun_exec sch : forall s, overrun s -> overrun (mt_exec s sch).
Proof. unfold mt_exec. induction sch as [|[t b] sch IH]; cbn; auto. intros s H. apply IH, overrun_step, H. Qed.

Lemma exec_inv sch : forall s R c, Inv s R c ->
  (exists R' c', Inv (mt_exec s sch) R' c' /\ R * 512 + c <= R' * 512 + c') \/ overrun (mt_exec s sch).
Proof.
  unfold mt_exec. induction sch as [|[t b] sch IH]; cbn; intros s R c I.
  - left. exists R, c. split; auto. lia.
  - destruct (step_ok s t b R c I) as [(R' & c' & I' & L)|[_ E]].
    + destruct (IH _ _ _ I') as [(R2 & c2 & I2 & L2)|H]; auto. left. exists R2, c2. split; auto. lia.
    + right. apply overrun_exec. exists t. auto.
Qed.

(** Rows in use are never replaced. *)
Lemma step_rows s t b R c : Inv s R c -> forall i, i <= R ->
  rowat (ms_mem (mt_step s t b)) i = rowat (ms_mem s) i.
Proof.
  intros I i Hi. pose proof (v_prep _ _ _ I) as V.
  assert (HV : prep (ms_pc s t) = true -> prep_ok (ms_mem s) R (ms_pc s t)).
  { intros Hp. destruct (c <? 512); [rewrite V in Hp; discriminate|]. destruct V as (u & A & B).
    destruct (Nat.eq_dec t u) as [->|N]; auto. rewrite (B _ N) in Hp. discriminate. }
  clear V. unfold mt_step. destruct (ms_pc s t) as [|cur|cur new|cur new ta ro|cur new|cur new|cur new ta|cur new|id| | |] eqn:P;
    cbn [mstep]; auto; try specialize (HV eq_refl).
  - destruct (negb _); auto. destruct (_ <? _); auto.
  - destruct (_ && _); auto. destruct (_ <? _); auto. destruct (_ <? _); auto.
  - destruct (negb _); auto. destruct (m_tabs _ _); auto.
  - destruct HV as (E1 & E2 & E3 & E4 & E5 & E6).
    assert (HN : tab_of new = R / 512 /\ row_of new = R mod 512 + 1 /\ col_of new = 512).
    { pose proof (v_R _ _ _ I). rewrite E2; apply fields; clear I; lia. }
    destruct HN as (_ & K2 & _). rewrite K2. cbn [ms_mem].
    assert (Ed : (R + 1) / 512 = R / 512) by (clear I; lia). assert (Em : (R + 1) mod 512 = R mod 512 + 1) by (clear I; lia).
    pose proof (rowat_set2 (ms_mem s) (m_cnt (ms_mem s)) (m_next (ms_mem s)) ta (R + 1) ro) as ER.
    rewrite Ed, Em in ER. rewrite ER; auto; [|apply (v_tabi _ _ _ I)]. destruct (N.eqb_spec i (R + 1)); [clear I; lia|auto].
  - cbn [ms_mem]. unfold rowat, set2. cbn. destruct (m_tabs (ms_mem s) (i / 512)) as [x|] eqn:Ex; auto.
    apply (v_tab _ _ _ I) in Ex. destruct (N.eqb_spec x (m_next (ms_mem s) + 1)); [clear I; lia|auto].
  - destruct HV as (E1 & E2 & E3 & E4 & E5 & _).
    assert (HN : tab_of new = R / 512 + 1 /\ row_of new = 512 /\ col_of new = 512).
    { pose proof (v_R _ _ _ I). rewrite E2; apply fields; clear I; lia. }
    destruct HN as (K1 & _). rewrite K1. destruct (negb _); auto. cbn [ms_mem]. unfold rowat, set1. cbn.
    destruct (N.eqb_spec (i / 512) (R / 512 + 1)); [clear I; lia|auto].
Qed.

Lemma exec_rows sch : forall s R c, Inv s R c -> ~ overrun (mt_exec s sch) -> forall i, i <= R ->
  rowat (ms_mem (mt_exec s sch)) i = rowat (ms_mem s) i.
Proof.
  unfold mt_exec. induction sch as [|[t b] sch IH]; cbn; intros s R c I Ho i Hi; auto.
  destruct (step_ok s t b R c I) as [(R' & c' & I' & L)|[_ E]].
  - rewrite (IH _ _ _ I') by (auto; lia). apply (step_rows s t b R c I i Hi).
  - exfalso. apply Ho. apply (overrun_exec sch). exists t. auto.
Qed.

Lemma slot_enc m i : i < cap ->
  slot m (enc i) = match rowat m (i / 512) with Some r => Some (r, i mod 512) | None => None end.
Proof.
  intros Hi. unfold cap in Hi. unfold slot, rowat, enc.
  destruct (fields (i / 262144) (i / 512 mod 512) (i mod 512)) as (A & B & C); try lia.
  rewrite A, B, C. replace (i / 262144) with (i / 512 / 512) by lia. destruct (m_tabs m _); auto.
Qed.

Lemma n_cap s R c : Inv s R c -> R * 512 + c <= cap.
Proof. intros I. pose proof (v_c _ _ _ I). pose proof (v_R _ _ _ I). unfold cap. lia. Qed.

Lemma c18 sch : let s := mt_exec ms_init sch in ~ overrun s ->
  NoDup (ms_out s) /\
  forall id, In id (ms_out s) -> id <> 0 /\ exists r i, slot (ms_mem s) id = Some (r, i) /\ i < 512.
Proof.
  intros s Ho. destruct (exec_inv sch _ _ _ inv_init) as [(R & c & I & _)|H]; [|contradiction].
  fold s in I. split; [apply I|]. intros id Hid. destruct (v_out2 _ _ _ I _ Hid) as (i & Hi & ->).
  pose proof (n_cap _ _ _ I). pose proof (v_c _ _ _ I). split; [apply mkid_pos|]. rewrite slot_enc by lia.
  pose proof (v_row _ _ _ I (i / 512)) as HR. destruct (rowat (ms_mem s) (i / 512)) as [r|].
  - exists r, (i mod 512). split; auto. apply N.mod_lt. lia.
  - exfalso. apply HR; auto. lia.
Qed.

Lemma c19 sch1 sch2 id : let s1 := mt_exec ms_init sch1 in let s2 := mt_exec s1 sch2 in ~ overrun s2 ->
  In id (ms_out s1) ->
  slot (ms_mem s2) id = slot (ms_mem s1) id /\
  forall id', In id' (ms_out s1) -> id <> id' -> slot (ms_mem s1) id <> slot (ms_mem s1) id'.
Proof.
  intros s1 s2 Ho Hid. destruct (exec_inv sch1 _ _ _ inv_init) as [(R & c & I & _)|H].
  2: { exfalso. apply Ho. unfold s2. apply overrun_exec. exact H. }
  fold s1 in I. destruct (v_out2 _ _ _ I _ Hid) as (i & Hi & ->).
  pose proof (n_cap _ _ _ I). pose proof (v_c _ _ _ I). split.
  - rewrite !slot_enc by lia. unfold s2. rewrite (exec_rows sch2 s1 R c I Ho); auto. lia.
  - intros id' Hid' Hne. destruct (v_out2 _ _ _ I _ Hid') as (j & Hj & ->). rewrite !slot_enc by lia.
    pose proof (v_row _ _ _ I (i / 512)) as HR. destruct (rowat (ms_mem s1) (i / 512)) as [r|] eqn:E1.
    2: { exfalso. apply HR; auto. lia. }
    destruct (rowat (ms_mem s1) (j / 512)) as [r'|] eqn:E2; [|discriminate].
    intros E. inversion E; subst r'. pose proof (v_inj _ _ _ I _ _ _ E1 E2). apply Hne. f_equal. lia.
Qed.

(** ** Counting *)
Lemma nodup_map_in {A B} (f : A -> B) l : NoDup l ->
  (forall a b, In a l -> In b l -> f a = f b -> a = b) -> NoDup (map f l).
Proof.
  induction 1 as [|x l Hx ND IH]; intros Hf; cbn; constructor.
  - intros H. apply in_map_iff in H as (y & E & Hy). apply Hf in E; [subst; auto|right; auto|left; auto].
  - apply IH. intros a b Ha Hb. apply Hf; right; auto.
Qed.

Definition used (k : nat) (sch : list (nat * bool)) : Prop := Forall (fun x => (fst x < k)%nat) sch.

Lemma pc_unused k sch : forall s, used k sch -> forall u, (k <= u)%nat -> ms_pc (mt_exec s sch) u = ms_pc s u.
Proof.
  unfold mt_exec. induction sch as [|[t b] sch IH]; cbn; auto. intros s H u Hu. inversion H; subst. cbn in *.
  rewrite IH by auto. unfold mt_step. destruct (mstep _ _ _) as [[m p] o]. cbn.
  destruct (Nat.eqb_spec u t); [lia|auto].
Qed.

Lemma count_ids k s R c : Inv s R c -> (forall u, (k <= u)%nat -> cur_of (ms_pc s u) = None) ->
  R * 512 + c <= N.of_nat (length (ms_out s)) + N.of_nat k.
Proof.
  intros I Hk. pose proof (n_cap _ _ _ I) as Hn. set (n := R * 512 + c) in *.
  set (ids := map (fun i => enc (N.of_nat i)) (seq 0 (N.to_nat n))).
  set (fl := flat_map (fun u => match cur_of (ms_pc s u) with Some x => [x] | None => [] end) (seq 0 k)).
  assert (L1 : (length fl <= k)%nat).
  { unfold fl. rewrite flat_map_concat_map. generalize 0%nat. clear. induction k; intros i; cbn; auto.
    rewrite app_length. specialize (IHk (S i)). destruct (cur_of (ms_pc s i)); cbn; lia. }
  assert (ND : NoDup ids).
  { unfold ids. apply nodup_map_in; [apply seq_NoDup|].
    intros a b Ha Hb E. apply in_seq in Ha, Hb. apply enc_inj in E; unfold cap in *; lia. }
  assert (IN : incl ids (ms_out s ++ fl)).
  { intros x Hx. unfold ids in Hx. apply in_map_iff in Hx as (i & <- & Hi). apply in_seq in Hi.
    destruct (v_all _ _ _ I (N.of_nat i)) as [H|[u H]]; [fold n; lia|apply in_app_iff; auto|].
    apply in_app_iff. right. unfold fl. apply in_flat_map. exists u. split.
    - apply in_seq. destruct (Nat.lt_ge_cases u k); [lia|]. rewrite Hk in H by auto. discriminate.
    - rewrite H. left. auto. }
  apply NoDup_incl_length in IN; auto. rewrite app_length in IN. unfold ids in IN. rewrite map_length, seq_length in IN. lia.
Qed.

Lemma out_mono sch : forall s, (length (ms_out s) <= length (ms_out (mt_exec s sch)))%nat.
Proof.
  unfold mt_exec. induction sch as [|[t b] sch IH]; cbn; auto. intros s. etransitivity; [|apply IH].
  unfold mt_step. destruct (mstep _ _ _) as [[m p] [o|]]; cbn; lia.
Qed.

Lemma c20 k sch : used k sch -> let s := mt_exec ms_init sch in
  N.of_nat (length (ms_out s)) + N.of_nat k < cap ->
  forall u, ms_pc s u <> POob /\ ms_pc s u <> PAbort /\ ms_pc s u <> PNull.
Proof.
  intros Hu s Hl. 
  assert (G : forall sch s R c, used k sch -> Inv s R c -> (forall u, (k <= u)%nat -> cur_of (ms_pc s u) = None) ->
     N.of_nat (length (ms_out (mt_exec s sch))) + N.of_nat k < cap ->
     exists R' c', Inv (mt_exec s sch) R' c').
  { clear. induction sch as [|[t b] sch IH]; intros s R c Hu I Hk Hl; [exists R, c; auto|].
    inversion Hu as [|? ? Ht Hu']; subst. cbn in Ht. change (mt_exec s ((t, b) :: sch)) with (mt_exec (mt_step s t b) sch) in *.
    destruct (step_ok s t b R c I) as [(R' & c' & I' & L)|[E _]].
    - apply (IH _ R' c'); auto. intros u Hku. unfold mt_step. destruct (mstep _ _ _) as [[m p] o]. cbn.
      destruct (Nat.eqb_spec u t); [lia|auto].
    - exfalso. pose proof (count_ids k s R c I Hk). pose proof (out_mono sch (mt_step s t b)).
      assert (length (ms_out s) <= length (ms_out (mt_step s t b)))%nat.
      { unfold mt_step. destruct (mstep _ _ _) as [[m p] [o|]]; cbn; lia. }
      lia. }
  destruct (G sch ms_init 0 0 Hu inv_init) as (R & c & I); auto.
  intros u. pose proof (v_prep _ _ _ I) as V. destruct (c <? 512).
  - specialize (V u). unfold s. destruct (ms_pc (mt_exec ms_init sch) u); try discriminate; repeat split; discriminate.
  - destruct V as (w & A & B). unfold s. destruct (Nat.eq_dec u w) as [->|Hne].
    + destruct (ms_pc (mt_exec ms_init sch) w); cbn in A; try contradiction; repeat split; discriminate.
    + specialize (B _ Hne). destruct (ms_pc (mt_exec ms_init sch) u); try discriminate; repeat split; discriminate.
Qed.

(** ** A single thread fills the table *)
Definition idle (s : mst) (R c : N) : Prop :=
  m_cnt (ms_mem s) = mkid (R / 512) (R mod 512) c /\ c < 512 /\ R < 504 * 512 /\
  (forall u, ms_pc s u = PLoad) /\ m_tabs (ms_mem s) (R / 512) <> None.

Lemma step_pc s t b m p o : mstep (ms_mem s) (ms_pc s t) b = (m, p, o) ->
  ms_mem (mt_step s t b) = m /\ forall u, ms_pc (mt_step s t b) u = if Nat.eqb u t then p else ms_pc s u.
Proof. intros E. unfold mt_step. rewrite E. auto. Qed.
Lemma exec_app s a b : mt_exec s (a ++ b) = mt_exec (mt_exec s a) b.
Proof. unfold mt_exec. apply fold_left_app. Qed.

(** Running thread 0 alone. *)
Definition solo (m : mt) (p : pc) (m' : mt) (p' : pc) : Prop :=
  forall s, ms_mem s = m -> ms_pc s 0%nat = p -> (forall u, u <> 0%nat -> ms_pc s u = PLoad) ->
  exists sch, let s' := mt_exec s sch in
    ms_mem s' = m' /\ ms_pc s' 0%nat = p' /\ (forall u, u <> 0%nat -> ms_pc s' u = PLoad).
Lemma solo_refl m p : solo m p m p.
Proof. intros s A B C. exists []. cbn. auto. Qed.
Lemma solo_step m p m1 p1 o m' p' : mstep m p false = (m1, p1, o) -> solo m1 p1 m' p' -> solo m p m' p'.
Proof.
  intros E H s A B C. subst m p. destruct (step_pc s 0 false _ _ _ E) as [X Y].
  destruct (H (mt_step s 0 false)) as (sch & Z); auto.
  - rewrite Y. auto.
  - intros u Hu. rewrite Y. destruct (Nat.eqb_spec u 0); [contradiction|auto].
  - exists ((0%nat, false) :: sch). exact Z.
Qed.

Lemma one_call m R c : m_cnt m = mkid (R / 512) (R mod 512) c -> c < 512 -> R < 504 * 512 ->
  m_tabs m (R / 512) <> None ->
  if R * 512 + c + 1 <? cap then
    exists m', solo m PLoad m' PLoad /\
      let n := R * 512 + c + 1 in m_cnt m' = enc n /\ m_tabs m' (n / 262144) <> None
  else exists m', solo m PLoad m' POob.
Proof.
  intros E Hc HR Ht.
  assert (HF : tab_of (mkid (R / 512) (R mod 512) c) = R / 512 /\ row_of (mkid (R / 512) (R mod 512) c) = R mod 512 /\
    col_of (mkid (R / 512) (R mod 512) c) = c) by (apply fields; lia). destruct HF as (F1 & F2 & F3).
  assert (HF : tab_of (mkid (R / 512) (R mod 512) (c + 1)) = R / 512 /\ row_of (mkid (R / 512) (R mod 512) (c + 1)) = R mod 512 /\
    col_of (mkid (R / 512) (R mod 512) (c + 1)) = c + 1) by (apply fields; lia). destruct HF as (G1 & G2 & G3).
  assert (Enew : mkid (R / 512) (R mod 512) c + kColIDUnit = mkid (R / 512) (R mod 512) (c + 1)) by (unfold mkid, kColIDUnit; lia).
  assert (Enew2 : mkid (R / 512) (R mod 512) (c + 1) + kRowIDUnit = mkid (R / 512) (R mod 512 + 1) (c + 1)).
  { unfold mkid. change kRowIDUnit with 65536. change (2 ^ 16) with 65536. lia. }
  assert (HF : tab_of (mkid (R / 512) (R mod 512 + 1) (c + 1)) = R / 512 /\ row_of (mkid (R / 512) (R mod 512 + 1) (c + 1)) = R mod 512 + 1 /\
    col_of (mkid (R / 512) (R mod 512 + 1) (c + 1)) = c + 1) by (apply fields; lia). destruct HF as (K1 & K2 & K3).
  assert (S1 : mstep m PLoad false = (m, PCas (mkid (R / 512) (R mod 512) c), None)).
  { cbn [mstep]. rewrite E, F1, F3. change kArrayCapacity with 512.
    destruct (N.ltb_spec (R / 512) 512); [|lia]. destruct (N.ltb_spec c 512); [auto|lia]. }
  set (m1 := mk_mt (mkid (R / 512) (R mod 512) (c + 1)) (m_tabs m) (m_rows m) (m_next m)).
  assert (S2 : mstep m (PCas (mkid (R / 512) (R mod 512) c)) false =
    (m1, if c + 1 <? 512 then PRet (mkid (R / 512) (R mod 512) c) else
         if R mod 512 + 1 <? 512 then PRow1 (mkid (R / 512) (R mod 512) c) (mkid (R / 512) (R mod 512 + 1) (c + 1))
         else PTab1 (mkid (R / 512) (R mod 512) c) (mkid (R / 512) (R mod 512 + 1) (c + 1)), None)).
  { cbn [mstep]. rewrite E, N.eqb_refl, Enew, G3, Enew2, K2. cbn [andb negb]. change kArrayCapacity with 512.
    destruct (c + 1 <? 512); auto. destruct (R mod 512 + 1 <? 512); auto. }
  destruct (N.ltb_spec (c + 1) 512) as [L|L].
  { destruct (N.ltb_spec (R * 512 + c + 1) cap) as [Lc|Lc]; [|unfold cap in Lc; lia].
    exists m1. split.
    - eapply solo_step; [exact S1|]. eapply solo_step; [exact S2|]. eapply solo_step; [reflexivity|apply solo_refl].
    - cbn zeta. replace (R * 512 + c + 1) with (R * 512 + (c + 1)) by lia. rewrite enc_at by auto. split; auto.
      unfold m1. cbn. replace ((R * 512 + (c + 1)) / 262144) with (R / 512) by lia. auto. }
  assert (Ec : c = 511) by lia.
  destruct (N.ltb_spec (R mod 512 + 1) 512) as [L2|L2].
  { destruct (N.ltb_spec (R * 512 + c + 1) cap) as [Lc|Lc]; [|unfold cap in Lc; lia].
    destruct (m_tabs m (R / 512)) as [ta|] eqn:ET; [|contradiction].
    eexists. split.
    - eapply solo_step; [exact S1|]. eapply solo_step; [exact S2|].
      eapply solo_step.
      { cbn [mstep]. rewrite K1. change kTableCapacity with 504. destruct (N.ltb_spec (R / 512) 504); [|lia]. cbn [negb].
        unfold m1. cbn [m_tabs]. rewrite ET. reflexivity. }
      eapply solo_step; [reflexivity|]. eapply solo_step; [reflexivity|]. eapply solo_step; [reflexivity|]. apply solo_refl.
    - cbn [m_cnt m_tabs]. rewrite next_row by lia.
      replace (R * 512 + c + 1) with ((R + 1) * 512 + 0) by lia. rewrite enc_at by lia.
      split; [f_equal; lia|]. replace (((R + 1) * 512 + 0) / 262144) with (R / 512) by lia. rewrite ET. discriminate. }
  assert (Et : mkid (R / 512) (R mod 512 + 1) (c + 1) + kTabIDUnit = mkid (R / 512 + 1) 512 512).
  { unfold mkid. change kTabIDUnit with (2 ^ 32). lia. }
  destruct (fields (R / 512 + 1) 512 512) as (X1 & X2 & X3); try lia.
  destruct (N.ltb_spec (R * 512 + c + 1) cap) as [Lc|Lc]; unfold cap in Lc.
  - eexists. split.
    + eapply solo_step; [exact S1|]. eapply solo_step; [exact S2|].
      eapply solo_step; [cbn [mstep]; rewrite Et; reflexivity|].
      eapply solo_step.
      { cbn [mstep]. rewrite X1. change kTableCapacity with 504. destruct (N.ltb_spec (R / 512 + 1) 504); [|lia]. reflexivity. }
      eapply solo_step; [reflexivity|]. eapply solo_step; [reflexivity|]. apply solo_refl.
    + cbn [m_cnt m_tabs]. rewrite next_tab by lia.
      replace (R * 512 + c + 1) with ((R + 1) * 512 + 0) by lia. rewrite enc_at by lia.
      split; [f_equal; lia|]. replace (((R + 1) * 512 + 0) / 262144) with (R / 512 + 1) by lia.
      unfold set1. rewrite N.eqb_refl. discriminate.
  - eexists. eapply solo_step; [exact S1|]. eapply solo_step; [exact S2|].
    eapply solo_step; [cbn [mstep]; rewrite Et; reflexivity|].
    eapply solo_step; [|apply solo_refl].
    cbn [mstep]. rewrite X1. change kTableCapacity with 504. destruct (N.ltb_spec (R / 512 + 1) 504); [lia|]. reflexivity.
Qed.

Lemma solo_trans m p m1 p1 m2 p2 : solo m p m1 p1 -> solo m1 p1 m2 p2 -> solo m p m2 p2.
Proof.
  intros H1 H2 s A B C. destruct (H1 s A B C) as (a & X & Y & Z).
  destruct (H2 _ X Y Z) as (b & X' & Y' & Z'). exists (a ++ b). rewrite exec_app. auto.
Qed.

Lemma fill n : n < cap -> exists m, solo mt_init PLoad m PLoad /\ m_cnt m = enc n /\ m_tabs m (n / 262144) <> None.
Proof.
  induction n as [|n IH] using N.peano_ind; intros Hn.
  - exists mt_init. split; [apply solo_refl|]. split; [reflexivity|]. discriminate.
  - destruct IH as (m & H1 & H2 & H3); [lia|].
    pose proof (one_call m (n / 512) (n mod 512)) as H.
    assert (Er : n / 512 * 512 + n mod 512 = n) by lia. rewrite Er in H.
    destruct (N.ltb_spec (n + 1) cap); [|lia].
    destruct H as (m' & X & Y & Z).
    + rewrite H2. unfold enc. f_equal. lia.
    + lia.
    + unfold cap in Hn. lia.
    + replace (n / 512 / 512) with (n / 262144) by lia. auto.
    + exists m'. split; [eapply solo_trans; eauto|]. rewrite <- N.add_1_r. auto.
Qed.

Lemma c20_ref : exists sch u, ms_pc (mt_exec ms_init sch) u = POob /\
  forall w, ms_pc (mt_exec ms_init sch) w <> PAbort.
Proof.
  destruct (fill (cap - 1)) as (m & H1 & H2 & H3); [unfold cap; lia|].
  pose proof (one_call m ((cap - 1) / 512) ((cap - 1) mod 512)) as H.
  assert (Er : (cap - 1) / 512 * 512 + (cap - 1) mod 512 = cap - 1) by reflexivity. rewrite Er in H.
  replace (cap - 1 + 1 <? cap) with false in H by reflexivity.
  destruct H as (m' & X).
  - rewrite H2. reflexivity.
  - reflexivity.
  - reflexivity.
  - exact H3.
  - destruct (solo_trans _ _ _ _ _ _ H1 X ms_init) as (sch & A & B & C); auto.
    exists sch, 0%nat. split; auto. intros w. destruct (Nat.eq_dec w 0) as [->|Hne]; [rewrite B; easy|rewrite C; easy].
Qed.

(** ** The destructor *)
Lemma in_upto i n : In i (upto n) <-> i < n.
Proof.
  unfold upto. rewrite in_map_iff. split.
  - intros (x & <- & H). apply in_seq in H. lia.
  - intros H. exists (N.to_nat i). rewrite in_seq. lia.
Qed.

Lemma nodup_upto n : NoDup (upto n).
Proof. unfold upto. apply nodup_map_in; [apply seq_NoDup|]. intros; lia. Qed.
Local Opaque upto.

Lemma cur_fields s R c : Inv s R c ->
  tab_of (m_cnt (ms_mem s)) = R / 512 /\ row_of (m_cnt (ms_mem s)) = R mod 512 /\ col_of (m_cnt (ms_mem s)) = c.
Proof. intros I. rewrite (v_cnt _ _ _ I). pose proof (v_c _ _ _ I). pose proof (v_R _ _ _ I). apply fields; lia. Qed.

Lemma in_tables m t : In t (dtor_tables m) -> exists i, i < tab_of (m_cnt m) /\ m_tabs m i = Some t.
Proof.
  unfold dtor_tables. intros H. apply in_flat_map in H as (i & Hi & H). apply in_upto in Hi.
  exists i. split; auto. destruct (m_tabs m i); cbn in H; [destruct H as [->|[]]; auto|contradiction].
Qed.
Lemma row_num_le cur i : row_of cur <= 512 -> dtor_row_num cur i <= 512.
Proof. unfold dtor_row_num. change kArrayCapacity with 512. destruct (_ =? _); lia. Qed.
Lemma in_rows m r : row_of (m_cnt m) < 512 -> In r (dtor_rows m) ->
  exists i, i < tab_of (m_cnt m) * 512 /\ rowat m i = Some r.
Proof.
  unfold dtor_rows. intros Hr H. apply in_flat_map in H as (i & Hi & H). apply in_upto in Hi.
  destruct (m_tabs m i) as [t|] eqn:E; [|contradiction]. apply in_flat_map in H as (j & Hj & H). apply in_upto in Hj.
  pose proof (row_num_le (m_cnt m) i). exists (i * 512 + j). split; [lia|]. unfold rowat.
  rewrite (div_unique _ 512 i j), (mod_unique _ 512 i j), E by lia.
  destruct (m_rows m t j); cbn in H; [destruct H as [->|[]]; auto|contradiction].
Qed.
Lemma in_slots m r k : In (r, k) (dtor_slots m) -> In r (dtor_rows m).
Proof.
  unfold dtor_rows, dtor_slots. intros H. apply in_flat_map in H as (i & Hi & H). apply in_flat_map. exists i.
  split; [exact Hi|]. destruct (m_tabs m i) as [t|]; [|contradiction]. apply in_flat_map in H as (j & Hj & H). apply in_flat_map.
  exists j. split; [exact Hj|]. destruct (m_rows m t j) as [r'|]; [|contradiction].
  apply in_map_iff in H as (x & E & _). inversion E; subst. left. auto.
Qed.

Lemma nodup_flat_map {A B} (f : A -> list B) l : NoDup l -> (forall a, In a l -> NoDup (f a)) ->
  (forall a a' b, In a l -> In a' l -> In b (f a) -> In b (f a') -> a = a') -> NoDup (flat_map f l).
Proof.
  induction 1 as [|x l Hx ND IH]; intros H1 H2; cbn; [constructor|].
  assert (G : forall p q : list B, NoDup p -> NoDup q -> (forall z, In z p -> ~ In z q) -> NoDup (p ++ q)).
  { clear. intros p q Hp Hq Hd. induction Hp as [|z p Hz Hp IH]; cbn; auto. constructor.
    - rewrite in_app_iff. intros [H|H]; auto. apply (Hd z); [left|]; auto.
    - apply IH. intros y Hy. apply Hd. right. auto. }
  apply G.
  - apply H1. left. auto.
  - apply IH; [intros; apply H1; right; auto|]. intros a a' b Ha Ha'. apply H2; right; auto.
  - intros z Hz Hz'. apply in_flat_map in Hz' as (y & Hy & Hz'). apply Hx.
    rewrite (H2 x y z); auto; [left|right]; auto.
Qed.
Lemma in_ocons {A} (o : option A) x : In x (ocons o []) -> o = Some x.
Proof. destruct o; cbn; [intros [->|[]]; auto|contradiction]. Qed.

Lemma c21_ref sch : let s := mt_exec ms_init sch in ~ overrun s ->
  let m := ms_mem s in
  exists t r, m_tabs m (tab_of (m_cnt m)) = Some t /\ m_rows m t (row_of (m_cnt m)) = Some r /\
    ~ In t (dtor_tables m) /\ ~ In r (dtor_rows m) /\ (forall i, ~ In (r, i) (dtor_slots m)) /\
    (tab_of (m_cnt m) = 0 -> dtor_tables m = [] /\ dtor_rows m = [] /\ dtor_slots m = []).
Proof.
  intros s Ho. destruct (exec_inv sch _ _ _ inv_init) as [(R & c & I & _)|H]; [|contradiction].
  fold s in I. destruct (cur_fields _ _ _ I) as (F1 & F2 & F3). intros m. fold m in F1, F2, F3.
  pose proof (v_row _ _ _ I R) as HR. assert (Hlt : R mod 512 < 512) by (apply N.mod_lt; lia).
  destruct (rowat (ms_mem s) R) as [r|] eqn:E; [|exfalso; apply HR; auto; lia].
  pose proof E as E0. unfold rowat in E. fold m in E, E0. destruct (m_tabs m (R / 512)) as [t|] eqn:Et; [|discriminate].
  rewrite F1, F2. exists t, r. split; auto. split; auto.
  assert (NR : ~ In r (dtor_rows m)).
  { intros H. apply in_rows in H as (i & Hi & H); [|rewrite F2; auto].
    pose proof (v_inj _ _ _ I _ _ _ E0 H). lia. }
  repeat split; auto.
  - intros H. apply in_tables in H as (i & Hi & H). pose proof (v_tabi _ _ _ I _ _ _ Et H). lia.
  - intros i H. apply in_slots in H. exact (NR H).
  - unfold dtor_tables. rewrite F1, H. change (upto 0) with (@nil N). reflexivity.
  - unfold dtor_rows. rewrite F1, H. change (upto 0) with (@nil N). reflexivity.
  - unfold dtor_slots. rewrite F1, H. change (upto 0) with (@nil N). reflexivity.
Qed.

Lemma c21 sch : let s := mt_exec ms_init sch in ~ overrun s ->
  let m := ms_mem s in
  NoDup (dtor_tables m) /\ NoDup (dtor_rows m) /\ NoDup (dtor_slots m) /\
  (forall i, i < tab_of (m_cnt m) -> exists t, m_tabs m i = Some t /\
     forall j, j < dtor_row_num (m_cnt m) i -> m_rows m t j <> None).
Proof.
  intros s Ho. destruct (exec_inv sch _ _ _ inv_init) as [(R & c & I & _)|H]; [|contradiction].
  fold s in I. destruct (cur_fields _ _ _ I) as (F1 & F2 & F3). intros m. fold m in F1, F2, F3.
  pose proof (v_tabi _ _ _ I) as HT. pose proof (v_inj _ _ _ I) as HI. fold m in HT, HI.
  assert (HI2 : forall i i' t t' j j' r, m_tabs m i = Some t -> m_tabs m i' = Some t' -> j < 512 -> j' < 512 ->
    m_rows m t j = Some r -> m_rows m t' j' = Some r -> i = i' /\ j = j').
  { intros i i' t t' j j' r A A' B B' C C'. assert (i * 512 + j = i' * 512 + j'); [|lia].
    apply (HI _ _ r); unfold rowat.
    - rewrite (div_unique _ 512 i j), (mod_unique _ 512 i j), A by lia. auto.
    - rewrite (div_unique _ 512 i' j'), (mod_unique _ 512 i' j'), A' by lia. auto. }
  assert (Hlt : forall i, dtor_row_num (m_cnt m) i <= 512).
  { intros i. apply row_num_le. rewrite F2. pose proof (N.mod_lt R 512). lia. }
  split; [|split; [|split]].
  - apply nodup_flat_map; [apply nodup_upto| |].
    + intros i _. destruct (m_tabs m i); repeat constructor; auto.
    + intros i i' b _ _ H H'. apply in_ocons in H, H'. eauto.
  - apply nodup_flat_map; [apply nodup_upto| |].
    + intros i _. destruct (m_tabs m i) as [t|] eqn:E; [|constructor]. apply nodup_flat_map; [apply nodup_upto| |].
      * intros j _. destruct (m_rows m t j); repeat constructor; auto.
      * intros j j' b Hj Hj' H H'. apply in_ocons in H, H'. apply in_upto in Hj, Hj'. specialize (Hlt i).
        eapply (HI2 i i t t); eauto; lia.
    + intros i i' b _ _ H H'. destruct (m_tabs m i) as [t|] eqn:E; [|contradiction].
      destruct (m_tabs m i') as [t'|] eqn:E'; [|contradiction].
      apply in_flat_map in H as (j & Hj & H), H' as (j' & Hj' & H'). apply in_ocons in H, H'. apply in_upto in Hj, Hj'.
      pose proof (Hlt i). pose proof (Hlt i'). eapply (HI2 i i' t t' j j'); eauto; lia.
  - apply nodup_flat_map; [apply nodup_upto| |].
    + intros i _. destruct (m_tabs m i) as [t|] eqn:E; [|constructor]. apply nodup_flat_map; [apply nodup_upto| |].
      * intros j _. destruct (m_rows m t j); [|constructor]. apply nodup_map_in; [apply nodup_upto|]. congruence.
      * intros j j' [r k] Hj Hj' H H'. destruct (m_rows m t j) eqn:A; [|contradiction]. destruct (m_rows m t j') eqn:A'; [|contradiction].
        apply in_map_iff in H as (x & Ex & _), H' as (x' & Ex' & _). inversion Ex; inversion Ex'; subst.
        apply in_upto in Hj, Hj'. specialize (Hlt i). eapply (HI2 i i t t); eauto; lia.
    + intros i i' [r k] _ _ H H'. destruct (m_tabs m i) as [t|] eqn:E; [|contradiction].
      destruct (m_tabs m i') as [t'|] eqn:E'; [|contradiction].
      apply in_flat_map in H as (j & Hj & H), H' as (j' & Hj' & H').
      destruct (m_rows m t j) eqn:A; [|contradiction]. destruct (m_rows m t' j') eqn:A'; [|contradiction].
      apply in_map_iff in H as (x & Ex & _), H' as (x' & Ex' & _). inversion Ex; inversion Ex'; subst.
      apply in_upto in Hj, Hj'. pose proof (Hlt i). pose proof (Hlt i'). eapply (HI2 i i' t t' j j'); eauto; lia.
  - intros i Hi. rewrite F1 in Hi. pose proof (v_row _ _ _ I) as HR. fold m in HR. unfold rowat in HR.
    destruct (m_tabs m i) as [t|] eqn:E.
    + exists t. split; auto. intros j Hj. specialize (Hlt i). specialize (HR (i * 512 + j)).
      rewrite (div_unique _ 512 i j), (mod_unique _ 512 i j), E in HR by lia. apply HR. lia.
    + exfalso. apply (HR (i * 512)); [lia|]. rewrite (div_unique _ 512 i 0), E by lia. auto.
Qed.


(** ** Statistics *)
Lemma c32_mt sch k : used k sch -> let s := mt_exec ms_init sch in
  N.of_nat (length (ms_out s)) + N.of_nat k < cap ->
  (0 <= fst (mt_stats (ms_mem s)) <= snd (mt_stats (ms_mem s)))%Z.
Proof.
  intros Hu s Hl. pose proof (c20 k sch Hu Hl) as HO.
  destruct (exec_inv sch _ _ _ inv_init) as [(R & c & I & _)|[u H]]; [|exfalso; destruct (HO u) as [HO1 _]; exact (HO1 H)].
  fold s in I. pose proof (count_ids k s R c I) as HC.
  destruct (cur_fields _ _ _ I) as (F1 & F2 & F3). pose proof (v_c _ _ _ I). pose proof (v_R _ _ _ I).
  assert (R * 512 + c < cap).
  { assert (forall u, (k <= u)%nat -> cur_of (ms_pc s u) = None); [|specialize (HC H1); lia].
    intros u Hk. unfold s. rewrite (pc_unused k sch) by auto. reflexivity. }
  unfold mt_stats. rewrite F1, F2, F3. cbn [fst snd]. unfold cap in *.
  change (Z.of_N kArrayCapacity) with 512%Z. change (Z.of_N kVMPageSize) with 4096%Z. change (Z.of_N kTableCapacity) with 504%Z.
  change (Z.of_N kWordSize) with 8%Z. lia.
Qed.

Lemma c32_mt_ref : exists sch, let s := mt_exec ms_init sch in
  ~ overrun s /\ (snd (mt_stats (ms_mem s)) < fst (mt_stats (ms_mem s)))%Z.
Proof.
  destruct (fill (cap - 1)) as (m & H1 & H2 & H3); [unfold cap; lia|].
  assert (E : m_cnt m = mkid 503 511 511) by (rewrite H2; reflexivity).
  assert (X : solo m PLoad (mk_mt (mkid 503 511 512) (m_tabs m) (m_rows m) (m_next m)) (PTab1 (mkid 503 511 511) (mkid 503 512 512))).
  { eapply solo_step; [cbn [mstep]; rewrite E; reflexivity|].
    eapply solo_step; [cbn [mstep]; rewrite E, N.eqb_refl; reflexivity|]. apply solo_refl. }
  destruct (solo_trans _ _ _ _ _ _ H1 X ms_init) as (sch & A & B & C); auto.
  exists sch. cbn zeta. split.
  - intros [u Hu]. destruct (Nat.eq_dec u 0) as [->|Hne]; [rewrite B in Hu; discriminate|rewrite C in Hu by auto; discriminate].
  - rewrite A. reflexivity.
Qed.
