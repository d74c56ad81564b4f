(** Invariant of the mapping table under all interleavings. *)
From Coq Require Import ZArith NArith List Bool Lia.
From Coq Require Import ZifyBool ZifyNat ZifyN.
From Verif Require Import Config Page MapTable.
Import ListNotations.
Open Scope N_scope.

(** The ID with the given fields; the n-th ID. *)
Definition mkid (t r c : N) : N := 2^63 + t * 2^32 + r * 2^16 + c.
Definition enc (n : N) : N := mkid (n / 262144) (n / 512 mod 512) (n mod 512).

Lemma land16 x : N.land x kIDMask = x mod 65536.
Proof. change kIDMask with (N.ones 16). rewrite N.land_ones. reflexivity. Qed.
Lemma shr16 x : N.shiftr x kRowShift = x / 65536.
Proof. rewrite N.shiftr_div_pow2. reflexivity. Qed.
Lemma shr32 x : N.shiftr x kTabShift = x / 4294967296.
Proof. rewrite N.shiftr_div_pow2. reflexivity. Qed.
Lemma div_unique a b q r : r < b -> a = b * q + r -> a / b = q.
Proof. intros. symmetry. eapply N.div_unique; eauto. Qed.
Lemma mod_unique a b q r : r < b -> a = b * q + r -> a mod b = r.
Proof. intros. symmetry. eapply N.mod_unique; eauto. Qed.

Lemma fields t r c : t < 65536 -> r < 65536 -> c < 65536 ->
  tab_of (mkid t r c) = t /\ row_of (mkid t r c) = r /\ col_of (mkid t r c) = c.
Proof.
  intros Ht Hr Hc. unfold tab_of, row_of, col_of, mkid. rewrite !land16, shr16, shr32.
  change (2^63) with (32768 * 65536 * 65536 * 65536). change (2^32) with (65536 * 65536). change (2^16) with 65536.
  split; [|split].
  - rewrite (div_unique _ _ (32768 * 65536 + t) (r * 65536 + c)) by lia.
    apply (mod_unique _ _ 32768); lia.
  - rewrite (div_unique _ _ (32768 * 65536 * 65536 + t * 65536 + r) c) by lia.
    apply (mod_unique _ _ (32768 * 65536 + t)); lia.
  - apply (mod_unique _ _ (32768 * 65536 * 65536 + t * 65536 + r)); lia.
Qed.
Lemma next_row t r c : r < 65536 -> c < 65536 -> N.ldiff (mkid t r c) kIDMask = mkid t r 0.
Proof.
  intros. change kIDMask with (N.ones 16). rewrite N.ldiff_ones_r, N.shiftr_div_pow2, N.shiftl_mul_pow2.
  unfold mkid. change (2^63) with (32768 * 65536 * 65536 * 65536). change (2^32) with (65536 * 65536). change (2^16) with 65536.
  rewrite (div_unique _ _ (32768 * 65536 * 65536 + t * 65536 + r) c) by lia. lia.
Qed.
Lemma next_tab t r c : r < 65536 -> c < 65536 -> N.ldiff (mkid t r c) (kTabIDUnit - 1) = mkid t 0 0.
Proof.
  intros. change (kTabIDUnit - 1) with (N.ones 32). rewrite N.ldiff_ones_r, N.shiftr_div_pow2, N.shiftl_mul_pow2.
  unfold mkid. change (2^63) with (32768 * 65536 * 65536 * 65536). change (2^32) with (65536 * 65536). change (2^16) with 65536.
  rewrite (div_unique _ _ (32768 * 65536 + t) (r * 65536 + c)) by lia. lia.
Qed.
Lemma mkid_inj t r c t' r' c' : t < 65536 -> r < 65536 -> c < 65536 ->
  t' < 65536 -> r' < 65536 -> c' < 65536 -> mkid t r c = mkid t' r' c' -> t = t' /\ r = r' /\ c = c'.
Proof.
  intros A B C A' B' C' E. destruct (fields t r c A B C) as (X & Y & Z).
  destruct (fields t' r' c' A' B' C') as (X' & Y' & Z'). rewrite E in X, Y, Z. split; [|split]; congruence.
Qed.
Lemma mkid_pos t r c : mkid t r c <> 0. Proof. unfold mkid. lia. Qed.

Definition cap : N := 504 * 262144.

(** Row pages in use: (table, row) pairs below a row number. *)
Definition rowat (m : mt) (i : N) : option N :=
  match m_tabs m (i / 512) with Some t => m_rows m t (i mod 512) | None => None end.

Definition cur_of (p : pc) : option N :=
  match p with
  | PRow1 c _ | PRow2 c _ _ _ | PRow3 c _ | PTab1 c _ | PTab2 c _ _ | PTab3 c _ | PRet c => Some c
  | _ => None
  end.
Definition prep (p : pc) : bool :=
  match p with PLoad | PCas _ | PRet _ => false | _ => true end.

(** State of the preparing thread, when the current row R is full. *)
Definition prep_ok (m : mt) (R : N) (p : pc) : Prop :=
  let t := R / 512 in let r := R mod 512 in
  match p with
  | PRow1 c n => c = mkid t r 511 /\ n = mkid t (r + 1) 512 /\ r < 511
  | PRow2 c n ta ro => c = mkid t r 511 /\ n = mkid t (r + 1) 512 /\ r < 511 /\ m_tabs m t = Some ta /\
      ro < m_next m /\ (forall i a, rowat m i = Some a -> a <> ro)
  | PRow3 c n => c = mkid t r 511 /\ n = mkid t (r + 1) 512 /\ r < 511 /\ rowat m (R + 1) <> None
  | PTab1 c n => c = mkid t r 511 /\ n = mkid t 512 512 /\ r = 511
  | PTab2 c n ta => c = mkid t r 511 /\ n = mkid (t + 1) 512 512 /\ r = 511 /\ ta < m_next m /\
      (forall i, m_tabs m i <> Some ta) /\
      exists ro, m_rows m ta 0 = Some ro /\ (forall j, j <> 0 -> m_rows m ta j = None) /\
        (forall i a, rowat m i = Some a -> a <> ro)
  | PTab3 c n => c = mkid t r 511 /\ n = mkid (t + 1) 512 512 /\ r = 511 /\ R + 1 < 504 * 512 /\ rowat m (R + 1) <> None
  | _ => False
  end.

Ltac Zify.zify_post_hook ::= Z.div_mod_to_equations.

Record Inv (s : mst) (R c : N) : Prop := {
  v_cnt : m_cnt (ms_mem s) = mkid (R / 512) (R mod 512) c;
  v_c : c <= 512;
  v_R : R < 504 * 512;
  v_row : forall i, i <= R -> rowat (ms_mem s) i <> None;
  v_inj : forall i j a, rowat (ms_mem s) i = Some a -> rowat (ms_mem s) j = Some a -> i = j;
  v_tab : forall i t, m_tabs (ms_mem s) i = Some t -> t < m_next (ms_mem s);
  v_tabi : forall i j t, m_tabs (ms_mem s) i = Some t -> m_tabs (ms_mem s) j = Some t -> i = j;
  v_rows : forall t j a, m_rows (ms_mem s) t j = Some a -> t < m_next (ms_mem s) /\ a < m_next (ms_mem s);
  v_prep : if c <? 512 then forall u, prep (ms_pc s u) = false
           else exists u, prep_ok (ms_mem s) R (ms_pc s u) /\ forall w, w <> u -> prep (ms_pc s w) = false;
  v_cas : forall u x, ms_pc s u = PCas x -> col_of x < 512;
  v_cur : forall u x, cur_of (ms_pc s u) = Some x -> exists i, i < R * 512 + c /\ x = enc i;
  v_cur2 : forall u w x, cur_of (ms_pc s u) = Some x -> cur_of (ms_pc s w) = Some x -> u = w;
  v_cur3 : forall u x, cur_of (ms_pc s u) = Some x -> ~ In x (ms_out s);
  v_out : NoDup (ms_out s);
  v_out2 : forall x, In x (ms_out s) -> exists i, i < R * 512 + c /\ x = enc i;
  v_all : forall i, i < R * 512 + c -> In (enc i) (ms_out s) \/ exists u, cur_of (ms_pc s u) = Some (enc i)
}.

Lemma enc_at R c : c < 512 -> enc (R * 512 + c) = mkid (R / 512) (R mod 512) c.
Proof.
  intros H. unfold enc.
  assert (E1 : (R * 512 + c) / 512 = R) by (apply (div_unique _ _ R c); lia).
  assert (E2 : (R * 512 + c) mod 512 = c) by (apply (mod_unique _ _ R c); lia).
  rewrite E1, E2. f_equal. change 262144 with (512 * 512). rewrite <- N.div_div, E1 by lia. auto.
Qed.
Lemma enc_inj i j : i < 65536 * 262144 -> j < 65536 * 262144 -> enc i = enc j -> i = j.
Proof.
  intros Hi Hj E. apply mkid_inj in E; lia.
Qed.

Lemma inv_init : Inv ms_init 0 0.
Proof.
  constructor; cbn; try easy; try (intros; discriminate); try lia.
  - intros i Hi. assert (i = 0) by lia. subst. cbn. discriminate.
  - intros i j a. unfold rowat. cbn. 
    destruct (N.eqb_spec (i / 512) 0), (N.eqb_spec (j / 512) 0); try discriminate.
    destruct (N.eqb_spec (i mod 512) 0), (N.eqb_spec (j mod 512) 0); try discriminate. lia.
  - intros i t. destruct (N.eqb_spec i 0); try discriminate. intros E; inversion E. lia.
  - intros i j t. destruct (N.eqb_spec i 0), (N.eqb_spec j 0); try discriminate. lia.
  - intros t j a. destruct (N.eqb_spec t 1), (N.eqb_spec j 0); try discriminate. intros E; inversion E. lia.
  - constructor.
Qed.

(** A step that changes neither memory nor ghost position, only one thread's pc. *)
Definition setpc (s : mst) (t : nat) (p : pc) : mst :=
  mk_mst (ms_mem s) (fun u => if Nat.eqb u t then p else ms_pc s u) (ms_out s).

Lemma inv_setpc s R c t p : Inv s R c -> prep (ms_pc s t) = false -> prep p = false ->
  (forall x, p = PCas x -> col_of x < 512) -> cur_of p = None -> cur_of (ms_pc s t) = None -> Inv (setpc s t p) R c.
Proof.
  intros I P1 P2 HC Hp Hp'. destruct I. constructor; auto; cbn.
  - destruct (c <? 512).
    + intros u. destruct (Nat.eqb_spec u t); auto.
    + destruct v_prep0 as (u & A & B). exists u. assert (u <> t).
      { intros ->. destruct (ms_pc s t); cbn in *; try discriminate; contradiction. }
      destruct (Nat.eqb_spec u t); [contradiction|]. split; auto.
      intros w Hw. destruct (Nat.eqb_spec w t); auto.
  - intros u x. destruct (Nat.eqb_spec u t); eauto.
  - intros u x. destruct (Nat.eqb_spec u t); [congruence|eauto].
  - intros u w x. destruct (Nat.eqb_spec u t), (Nat.eqb_spec w t); try congruence; eauto.
  - intros u x. destruct (Nat.eqb_spec u t); [congruence|eauto].
  - intros i Hi. destruct (v_all0 i Hi) as [H|[u H]]; auto. right. exists u.
    destruct (Nat.eqb_spec u t); [congruence|auto].
Qed.

Definition minv (m : mt) (R : N) : Prop :=
  (forall i, i <= R -> rowat m i <> None) /\
  (forall i j a, rowat m i = Some a -> rowat m j = Some a -> i = j) /\
  (forall i t, m_tabs m i = Some t -> t < m_next m) /\
  (forall i j t, m_tabs m i = Some t -> m_tabs m j = Some t -> i = j) /\
  (forall t j a, m_rows m t j = Some a -> t < m_next m /\ a < m_next m).

Lemma inv_move s R c R' c' u p' m' : Inv s R c -> m_cnt m' = mkid (R' / 512) (R' mod 512) c' ->
  c' <= 512 -> R' < 504 * 512 -> minv m' R' -> R' * 512 + c' = R * 512 + c ->
  cur_of p' = cur_of (ms_pc s u) -> (forall x, p' <> PCas x) ->
  (forall w, w <> u -> prep (ms_pc s w) = false) ->
  (if c' <? 512 then prep p' = false else prep_ok m' R' p') ->
  Inv (mk_mst m' (fun w => if Nat.eqb w u then p' else ms_pc s w) (ms_out s)) R' c'.
Proof.
  intros I E L1 L2 (M1 & M2 & M3 & M4 & M5) En Ec Hc Hw Hp.
  assert (HC : forall w, cur_of (if Nat.eqb w u then p' else ms_pc s w) = cur_of (ms_pc s w)).
  { intros w. destruct (Nat.eqb_spec w u); subst; auto. }
  constructor; cbn; auto; try rewrite En; try apply I.
  - destruct (c' <? 512).
    + intros w. destruct (Nat.eqb_spec w u); auto.
    + exists u. rewrite Nat.eqb_refl. split; auto. intros w Hne. destruct (Nat.eqb_spec w u); [contradiction|auto].
  - intros w x. destruct (Nat.eqb_spec w u); [intros Hx; exfalso; eapply Hc; eauto|apply I].
  - intros w x. rewrite HC. apply I.
  - intros w w' x. rewrite !HC. apply I.
  - intros w x. rewrite HC. apply I.
  - intros i Hi. destruct (v_all _ _ _ I i Hi) as [H|[w H]]; auto. right. exists w. rewrite HC. auto.
Qed.

Lemma rowat_set2 m cnt nx t R a : m_tabs m (R / 512) = Some t ->
  (forall i j t, m_tabs m i = Some t -> m_tabs m j = Some t -> i = j) ->
  forall i, rowat (mk_mt cnt (m_tabs m) (set2 (m_rows m) t (R mod 512) (Some a)) nx) i =
    if i =? R then Some a else rowat m i.
Proof.
  intros E Hi i. unfold rowat, set2. cbn. destruct (N.eqb_spec i R) as [->|Hne].
  - rewrite E, !N.eqb_refl. auto.
  - destruct (m_tabs m (i / 512)) as [t'|] eqn:E'; auto.
    destruct (N.eqb_spec t' t) as [->|]; auto. specialize (Hi _ _ _ E E').
    destruct (N.eqb_spec (i mod 512) (R mod 512)); auto. exfalso. apply Hne. lia.
Qed.

Lemma step_ok s t spur R c : Inv s R c ->
  (exists R' c', Inv (mt_step s t spur) R' c' /\ (R <= R' /\ R * 512 + c <= R' * 512 + c')) \/
  (R * 512 + c = cap /\ ms_pc (mt_step s t spur) t = POob).
Proof.
  intros I. pose proof (v_out2 _ _ _ I) as HO2. pose proof (v_cur2 _ _ _ I) as HC2. pose proof (v_cur3 _ _ _ I) as HC3.
  pose proof I as I0. destruct I0.
  assert (HF : tab_of (mkid (R / 512) (R mod 512) c) = R / 512 /\ row_of (mkid (R / 512) (R mod 512) c) = R mod 512 /\
    col_of (mkid (R / 512) (R mod 512) c) = c) by (apply fields; lia). destruct HF as (F1 & F2 & F3).
  unfold mt_step. destruct (ms_pc s t) as [|cur|cur new|cur new ta ro|cur new|cur new|cur new ta|cur new|id| | |] eqn:P; cbn [mstep].
  - (* load *)
    left. exists R, c. split; [|lia]. rewrite v_cnt0, F1, F3. change kArrayCapacity with 512.
    destruct (N.ltb_spec (R / 512) 512) as [L|L]; [|lia]. cbn [negb].
    destruct (N.ltb_spec c 512) as [L2|L2].
    + apply (inv_setpc s R c t (PCas _)); auto; rewrite ?P; auto. intros x E. inversion E. rewrite F3. auto.
    + apply (inv_setpc s R c t PLoad); auto; rewrite ?P; auto. intros x E. discriminate.
  - (* compare and swap *)
    destruct (N.eqb_spec (m_cnt (ms_mem s)) cur) as [E|E]; cbn [andb];
      [|left; exists R, c; split; [apply (inv_setpc s R c t PLoad); auto; rewrite ?P; auto; discriminate|lia]].
    destruct spur; cbn [negb].
    { left; exists R, c; split; [apply (inv_setpc s R c t PLoad); auto; rewrite ?P; auto; discriminate|lia]. }
    left. exists R, (c + 1). split; [|lia].
    assert (Hc : c < 512). { pose proof (v_cas0 _ _ P) as H. rewrite <- E, v_cnt0, F3 in H. auto. }
    assert (Ecur : cur = enc (R * 512 + c)) by (rewrite enc_at by auto; congruence).
    assert (Enew : cur + kColIDUnit = mkid (R / 512) (R mod 512) (c + 1)).
    { rewrite <- E, v_cnt0. unfold mkid, kColIDUnit. lia. }
    rewrite Enew.
    assert (HF : tab_of (mkid (R / 512) (R mod 512) (c + 1)) = R / 512 /\ row_of (mkid (R / 512) (R mod 512) (c + 1)) = R mod 512 /\
      col_of (mkid (R / 512) (R mod 512) (c + 1)) = c + 1) by (apply fields; lia). destruct HF as (G1 & G2 & G3).
    rewrite G3. change kArrayCapacity with 512.
    assert (Hprep : forall u, prep (ms_pc s u) = false).
    { destruct (N.ltb_spec c 512); [auto|lia]. }
    assert (Hfresh : forall u, cur_of (ms_pc s u) <> Some cur).
    { intros u Hu. destruct (v_cur0 _ _ Hu) as (i & Hi & Hx). rewrite Ecur in Hx. apply enc_inj in Hx; lia. }
    assert (Hfresh2 : ~ In cur (ms_out s)).
    { intros Hu. destruct (HO2 _ Hu) as (i & Hi & Hx). rewrite Ecur in Hx. apply enc_inj in Hx; lia. }
    assert (Gen : forall p, cur_of p = Some cur -> (forall x, p <> PCas x) ->
      (if c + 1 <? 512 then prep p = false
       else prep_ok (mk_mt (mkid (R / 512) (R mod 512) (c + 1)) (m_tabs (ms_mem s)) (m_rows (ms_mem s)) (m_next (ms_mem s))) R p) ->
      Inv (mk_mst (mk_mt (mkid (R / 512) (R mod 512) (c + 1)) (m_tabs (ms_mem s)) (m_rows (ms_mem s)) (m_next (ms_mem s)))
            (fun u => if Nat.eqb u t then p else ms_pc s u) (ms_out s)) R (c + 1)).
    { intros p Hp Hp2 Hq. constructor; auto; cbn; auto; try lia.
      - destruct (c + 1 <? 512).
        + intros u. destruct (Nat.eqb_spec u t); auto.
        + exists t. rewrite Nat.eqb_refl. split; auto. intros w Hw. destruct (Nat.eqb_spec w t); [contradiction|auto].
      - intros u x. destruct (Nat.eqb_spec u t); eauto. intros Hx; exfalso; eapply Hp2; eauto.
      - intros u x. destruct (Nat.eqb_spec u t).
        + intros Hx. exists (R * 512 + c). split; [lia|]. congruence.
        + intros Hx. destruct (v_cur0 _ _ Hx) as (i & Hi & Ei). exists i. split; [lia|auto].
      - intros u w x. destruct (Nat.eqb_spec u t), (Nat.eqb_spec w t); subst; auto; intros A B.
        + exfalso. apply (Hfresh w). congruence.
        + exfalso. apply (Hfresh u). congruence.
        + eauto.
      - intros u x. destruct (Nat.eqb_spec u t); [|eauto]. intros Hx. replace x with cur by congruence. auto.
      - intros x Hx. destruct (HO2 _ Hx) as (i & Hi & Ei). exists i. split; [lia|auto].
      - intros i Hi. destruct (N.eqb_spec i (R * 512 + c)) as [->|Hne].
        + right. exists t. rewrite Nat.eqb_refl, Hp, Ecur. auto.
        + destruct (v_all0 i) as [H|[u H]]; [lia|auto|]. right. exists u.
          destruct (Nat.eqb_spec u t) as [->|]; auto. rewrite P in H. discriminate. }
    destruct (N.ltb_spec (c + 1) 512) as [L|L].
    + apply Gen; auto; easy.
    + assert (Ec : c = 511) by lia.
      assert (Enew2 : mkid (R / 512) (R mod 512) (c + 1) + kRowIDUnit = mkid (R / 512) (R mod 512 + 1) 512).
      { unfold mkid. change kRowIDUnit with 65536. change (2 ^ 16) with 65536. lia. }
      rewrite Enew2.
      assert (HF : tab_of (mkid (R / 512) (R mod 512 + 1) 512) = R / 512 /\ row_of (mkid (R / 512) (R mod 512 + 1) 512) = R mod 512 + 1 /\
        col_of (mkid (R / 512) (R mod 512 + 1) 512) = 512) by (apply fields; lia). destruct HF as (K1 & K2 & K3).
      rewrite K2. assert (Elast : cur = mkid (R / 512) (R mod 512) 511) by congruence.
      destruct (N.ltb_spec (R mod 512 + 1) 512) as [L'|L'].
      * apply Gen; auto; [easy|]. cbn. split; auto. split; auto. lia.
      * apply Gen; auto; [easy|]. cbn. split; auto. replace (R mod 512) with 511 by lia. auto.
  - (* allocate a row *)
    destruct (N.ltb_spec c 512) as [L|L]; [specialize (v_prep0 t); rewrite P in v_prep0; discriminate|].
    destruct v_prep0 as (u & HP & HP2). destruct (Nat.eqb_spec t u) as [->|Hne];
      [|specialize (HP2 _ Hne); rewrite P in HP2; discriminate].
    rewrite P in HP. destruct HP as (E1 & E2 & E3).
    assert (HN : tab_of new = R / 512 /\ row_of new = R mod 512 + 1 /\ col_of new = 512) by (rewrite E2; apply fields; lia).
    destruct HN as (K1 & K2 & K3). rewrite K1. change kTableCapacity with 504.
    destruct (N.ltb_spec (R / 512) 504); [|lia]. cbn [negb].
    destruct (m_tabs (ms_mem s) (R / 512)) as [ta|] eqn:ET.
    2: { exfalso. apply (v_row0 R); [lia|]. unfold rowat. rewrite ET. auto. }
    assert (c = 512) by lia. left. exists R, c. split; [|lia].
    assert (ER : forall i, rowat (mk_mt (m_cnt (ms_mem s)) (m_tabs (ms_mem s)) (m_rows (ms_mem s)) (m_next (ms_mem s) + 1)) i
       = rowat (ms_mem s) i) by reflexivity.
    apply inv_move with (R := R) (c := c); auto; rewrite ?P; auto; try easy.
    + split; auto. split; auto. split; [|split; auto]; cbn.
      * intros i x Hx. apply v_tab0 in Hx. lia.
      * intros x j y Hx. apply v_rows0 in Hx. lia.
    + destruct (N.ltb_spec c 512); [lia|]. cbn. do 4 (split; [auto; lia|]). split; [lia|].
      intros i a Hi. unfold rowat in Hi. cbn in Hi. destruct (m_tabs (ms_mem s) (i / 512)); [|discriminate].
      apply v_rows0 in Hi. lia.
  - (* publish the row *)
    destruct (N.ltb_spec c 512) as [L|L]; [specialize (v_prep0 t); rewrite P in v_prep0; discriminate|].
    destruct v_prep0 as (u & HP & HP2). destruct (Nat.eqb_spec t u) as [->|Hne];
      [|specialize (HP2 _ Hne); rewrite P in HP2; discriminate].
    rewrite P in HP. destruct HP as (E1 & E2 & E3 & E4 & E5 & E6).
    assert (HN : tab_of new = R / 512 /\ row_of new = R mod 512 + 1 /\ col_of new = 512) by (rewrite E2; apply fields; lia).
    destruct HN as (K1 & K2 & K3). rewrite K2. left. exists R, c. split; [|lia].
    assert (Ed : (R + 1) / 512 = R / 512) by lia. assert (Em : (R + 1) mod 512 = R mod 512 + 1) by lia.
    pose proof (rowat_set2 (ms_mem s) (m_cnt (ms_mem s)) (m_next (ms_mem s)) ta (R + 1) ro) as ER.
    rewrite Ed, Em in ER. specialize (ER E4 v_tabi0).
    apply inv_move with (R := R) (c := c); auto; rewrite ?P; auto; try easy.
    + split; [|split; [|split; [|split]]]; auto.
      * intros i Hi. rewrite ER. destruct (N.eqb_spec i (R + 1)); [easy|auto].
      * intros i j a. rewrite !ER. destruct (N.eqb_spec i (R + 1)), (N.eqb_spec j (R + 1)); subst; auto; intros A B.
        -- exfalso. apply (E6 j a); congruence.
        -- exfalso. apply (E6 i a); congruence.
        -- eauto.
      * cbn. unfold set2. intros x j y. destruct (N.eqb_spec x ta), (N.eqb_spec j (R mod 512 + 1)); cbn; eauto.
        intros Hx; inversion Hx; subst. split; eauto.
    + destruct (N.ltb_spec c 512); [lia|]. cbn [prep_ok]. do 3 (split; [auto; lia|]). rewrite ER, N.eqb_refl. easy.
  - (* store the counter *)
    destruct (N.ltb_spec c 512) as [L|L]; [specialize (v_prep0 t); rewrite P in v_prep0; discriminate|].
    destruct v_prep0 as (u & HP & HP2). destruct (Nat.eqb_spec t u) as [->|Hne];
      [|specialize (HP2 _ Hne); rewrite P in HP2; discriminate].
    rewrite P in HP. destruct HP as (E1 & E2 & E3 & E4).
    assert (Ed : (R + 1) / 512 = R / 512) by lia. assert (Em : (R + 1) mod 512 = R mod 512 + 1) by lia.
    left. exists (R + 1), 0. split; [|lia]. rewrite E2, next_row by lia.
    apply inv_move with (R := R) (c := c); auto; rewrite ?P; auto; try easy; try lia; cbn.
    + rewrite Ed, Em. auto.
    + split; [|split; [|split; [|split]]]; auto.
      intros i Hi. change (rowat _ i) with (rowat (ms_mem s) i).
      destruct (N.eqb_spec i (R + 1)) as [->|]; [auto|]. apply v_row0. lia.
  - (* allocate row and table *)
    destruct (N.ltb_spec c 512) as [L|L]; [specialize (v_prep0 t); rewrite P in v_prep0; discriminate|].
    destruct v_prep0 as (u & HP & HP2). destruct (Nat.eqb_spec t u) as [->|Hne];
      [|specialize (HP2 _ Hne); rewrite P in HP2; discriminate].
    rewrite P in HP. destruct HP as (E1 & E2 & E3). left. exists R, c. split; [|lia].
    assert (En : new + kTabIDUnit = mkid (R / 512 + 1) 512 512).
    { rewrite E2. unfold mkid. change kTabIDUnit with (2 ^ 32). lia. }
    rewrite En. set (nt := m_next (ms_mem s) + 1).
    set (m' := mk_mt _ _ _ _).
    assert (ER : forall i, rowat m' i = rowat (ms_mem s) i).
    { intros i. unfold rowat, m', set2. cbn. destruct (m_tabs (ms_mem s) (i / 512)) as [x|] eqn:Ex; auto.
      apply v_tab0 in Ex. destruct (N.eqb_spec x nt); [unfold nt in *; lia|auto]. }
    apply inv_move with (R := R) (c := c); auto; rewrite ?P; auto; try easy.
    + split; [|split; [|split; [|split]]].
      * intros i Hi. rewrite ER. auto.
      * intros i j a. rewrite !ER. eauto.
      * cbn. intros i x Hx. apply v_tab0 in Hx. lia.
      * cbn. auto.
      * cbn. unfold set2. intros x j y. destruct (N.eqb_spec x nt), (N.eqb_spec j 0); cbn;
          try (intros Hx; apply v_rows0 in Hx; lia).
        intros Hx; inversion Hx; subst. unfold nt. lia.
    + destruct (N.ltb_spec c 512); [lia|]. cbn [prep_ok]. do 3 (split; [auto; lia|]). split; [|split].
      * unfold nt, m'. cbn. lia.
      * unfold m'. cbn. intros i Hi. apply v_tab0 in Hi. unfold nt in Hi. lia.
      * exists (m_next (ms_mem s)). unfold m', set2. cbn. rewrite N.eqb_refl. cbn. split; auto. split.
        -- intros j Hj. destruct (N.eqb_spec j 0); [contradiction|]. destruct (m_rows (ms_mem s) nt j) eqn:Ej; auto.
           apply v_rows0 in Ej. unfold nt in Ej. lia.
        -- intros i a Hi. change (rowat m' i = Some a) in Hi. rewrite ER in Hi.
           unfold rowat in Hi. destruct (m_tabs (ms_mem s) (i / 512)); [|discriminate].
           apply v_rows0 in Hi. lia.
  - (* publish the table *)
    destruct (N.ltb_spec c 512) as [L|L]; [specialize (v_prep0 t); rewrite P in v_prep0; discriminate|].
    destruct v_prep0 as (u & HP & HP2). destruct (Nat.eqb_spec t u) as [->|Hne];
      [|specialize (HP2 _ Hne); rewrite P in HP2; discriminate].
    rewrite P in HP. destruct HP as (E1 & E2 & E3 & E4 & E5 & ro & E6 & E7 & E8).
    assert (HN : tab_of new = R / 512 + 1 /\ row_of new = 512 /\ col_of new = 512) by (rewrite E2; apply fields; lia).
    destruct HN as (K1 & K2 & K3). rewrite K1. change kTableCapacity with 504.
    destruct (N.ltb_spec (R / 512 + 1) 504) as [L3|L3]; cbn [negb].
    2: { right. split; [unfold cap; lia|]. cbn. rewrite Nat.eqb_refl. auto. }
    left. exists R, c. split; [|lia]. set (m' := mk_mt _ _ _ _).
    assert (ER : forall i, rowat m' i = if i / 512 =? R / 512 + 1 then (if i =? R + 1 then Some ro else None)
       else rowat (ms_mem s) i).
    { intros i. unfold rowat, m', set1. cbn. destruct (N.eqb_spec (i / 512) (R / 512 + 1)); auto.
      destruct (N.eqb_spec i (R + 1)) as [->|].
      - replace ((R + 1) mod 512) with 0 by lia. auto.
      - apply E7. lia. }
    apply inv_move with (R := R) (c := c); auto; rewrite ?P; auto; try easy.
    + split; [|split; [|split; [|split]]].
      * intros i Hi. rewrite ER. destruct (N.eqb_spec (i / 512) (R / 512 + 1)); [lia|auto].
      * intros i j a. rewrite !ER. destruct (N.eqb_spec (i / 512) (R / 512 + 1)), (N.eqb_spec (j / 512) (R / 512 + 1));
          destruct (N.eqb_spec i (R + 1)), (N.eqb_spec j (R + 1)); subst; auto; try easy; intros A B; try lia; try eauto;
          exfalso; eapply E8; eauto; congruence.
      * cbn. unfold set1. intros i x. destruct (N.eqb_spec i (R / 512 + 1)); eauto. intros Hx; inversion Hx; subst; auto.
      * cbn. unfold set1. intros i j x. destruct (N.eqb_spec i (R / 512 + 1)), (N.eqb_spec j (R / 512 + 1)); subst; intros A B;
          [auto|exfalso; apply (E5 j); congruence|exfalso; apply (E5 i); congruence|eauto].
      * cbn. auto.
    + destruct (N.ltb_spec c 512); [lia|]. cbn [prep_ok]. do 3 (split; [auto; lia|]). split; [lia|].
      rewrite ER. destruct (N.eqb_spec ((R + 1) / 512) (R / 512 + 1)); [|lia]. rewrite N.eqb_refl. easy.
  - (* store the counter *)
    destruct (N.ltb_spec c 512) as [L|L]; [specialize (v_prep0 t); rewrite P in v_prep0; discriminate|].
    destruct v_prep0 as (u & HP & HP2). destruct (Nat.eqb_spec t u) as [->|Hne];
      [|specialize (HP2 _ Hne); rewrite P in HP2; discriminate].
    rewrite P in HP. destruct HP as (E1 & E2 & E3 & E4 & E5).
    left. exists (R + 1), 0. split; [|lia]. rewrite E2, next_tab by lia.
    apply inv_move with (R := R) (c := c); auto; rewrite ?P; auto; try easy; try lia; cbn.
    + f_equal; lia.
    + split; [|split; [|split; [|split]]]; auto.
      intros i Hi. change (rowat _ i) with (rowat (ms_mem s) i).
      destruct (N.eqb_spec i (R + 1)) as [->|]; [auto|]. apply v_row0. lia.
  - (* return *)
    left. exists R, c. split; [|lia].
    assert (HO : cur_of (ms_pc s t) = Some id) by (rewrite P; auto).
    assert (HC : forall w x, cur_of (if Nat.eqb w t then PLoad else ms_pc s w) = Some x ->
       w <> t /\ cur_of (ms_pc s w) = Some x).
    { intros w x. destruct (Nat.eqb_spec w t); [discriminate|auto]. }
    constructor; cbn; auto.
    + destruct (c <? 512).
      * intros w. destruct (Nat.eqb_spec w t); auto.
      * destruct v_prep0 as (u & HP & HP2). exists u. destruct (Nat.eqb_spec u t) as [->|].
        -- rewrite P in HP. contradiction.
        -- split; auto. intros w Hw. destruct (Nat.eqb_spec w t); auto.
    + intros w x. destruct (Nat.eqb_spec w t); [discriminate|eauto].
    + intros w x Hx. apply HC in Hx as [_ Hx]. eauto.
    + intros w w' x Hx Hx'. apply HC in Hx as [_ Hx]. apply HC in Hx' as [_ Hx']. eauto.
    + intros w x Hx. apply HC in Hx as [Hw Hx]. intros [->|Hi]; [|eapply HC3; eauto].
      apply Hw. eapply HC2; eauto.
    + constructor; auto. eapply HC3; eauto.
    + intros x [<-|Hx]; eauto.
    + intros i Hi. destruct (v_all0 i Hi) as [H|[w H]]; auto.
      destruct (Nat.eqb_spec w t) as [->|Hne]; [left; left; congruence|]. right. exists w.
      destruct (Nat.eqb_spec w t); [contradiction|auto].
  - exfalso. destruct (c <? 512).
    + specialize (v_prep0 t). rewrite P in v_prep0. discriminate.
    + destruct v_prep0 as (u & HP & HP2). destruct (Nat.eqb_spec t u) as [->|Hne];
      [rewrite P in HP; auto|specialize (HP2 _ Hne); rewrite P in HP2; discriminate].
  - exfalso. destruct (c <? 512).
    + specialize (v_prep0 t). rewrite P in v_prep0. discriminate.
    + destruct v_prep0 as (u & HP & HP2). destruct (Nat.eqb_spec t u) as [->|Hne];
      [rewrite P in HP; auto|specialize (HP2 _ Hne); rewrite P in HP2; discriminate].
  - exfalso. destruct (c <? 512).
    + specialize (v_prep0 t). rewrite P in v_prep0. discriminate.
    + destruct v_prep0 as (u & HP & HP2). destruct (Nat.eqb_spec t u) as [->|Hne];
      [rewrite P in HP; auto|specialize (HP2 _ Hne); rewrite P in HP2; discriminate].
Qed.
