(** The pages and delta records of C51 and C52 meet the conditions of the byte searches. *)
From Coq Require Import ZArith NArith List Bool Lia.
From Verif Require Import Config Page ListFacts ChainSpec Valid Bytes FixLayout VarLayout
  DeltaBytes DeltaBytesFacts ByteCons ByteConsSpec ByteFind ByteFindSpec.
Import ListNotations.
Open Scope Z_scope.

Lemma rd_blen m o n : blen (rd m o n) = n.
Proof. unfold blen, rd. rewrite map_length, seq_length. lia. Qed.

Section Var.
Variables (g : cfg) (inner : bool) (K : Z -> Prop) (lt : list N -> list N -> bool) (ek : Z -> list N) (ev : N -> list N).
Hypothesis OK : cfg_ok g.
Hypothesis HV : c_varlen g = true.
Hypothesis HC : coding g inner K lt ek ev.
Let ps := Z.to_N (paysz g inner).

Lemma ek_pos k : (0 < blen (ek k))%N.
Proof.
  destruct HC as (_ & C2 & _). specialize (C2 k). pose proof (ok_key g OK k). lia.
Qed.
Lemma ev_ps v : blen (ev v) = ps.
Proof. destruct HC as (_ & _ & C3). specialize (C3 v). unfold ps. lia. Qed.

Lemma var_fence m x k : VarLayout.key_of m x = fence ek k ->
  (mt_klen x =? 0)%N = match k with None => true | Some _ => false end.
Proof.
  intros H. assert (E : mt_klen x = blen (fence ek k)) by (rewrite <- H; unfold VarLayout.key_of; rewrite rd_blen; reflexivity).
  rewrite E. destruct k; cbn [fence]; [pose proof (ek_pos z); apply N.eqb_neq; lia|reflexivity].
Qed.

Lemma var_page_stands n p : n_inner n = inner -> vnode_rep ek ev inner n p ->
  page_stands (var_finder ps) ek ev inner n p.
Proof.
  intros Hi (R1 & _ & R3 & R4 & R5). split; [exact Hi|]. split; [exact R1|]. split; [|split; [|split]].
  - intros i k v E. destruct (R3 i k v E) as (A & B & _). cbn. rewrite ev_ps in B. split; [|exact B].
    intros Hn. rewrite Hn in A. exact A.
  - cbn. rewrite (var_fence _ _ _ R4). reflexivity.
  - intros l E. cbn. rewrite R4, E. reflexivity.
  - cbn. rewrite (var_fence _ _ _ R5), R5. destruct (n_high n); reflexivity.
Qed.

Lemma var_okey k : okey (fence ek k) = option_map ek k.
Proof.
  unfold okey. destruct k as [k|]; cbn; auto. pose proof (ek_pos k). destruct (N.eqb_spec (blen (ek k)) 0); [lia|reflexivity].
Qed.

Lemma var_delta_stands cell d m : klen g (d_key d) + 48 + paysz g inner < 65536 ->
  (inner = false -> d_type d <> DDelete ->
     delta_stands (var_finder ps) ek ev cell inner d (vard_put m (d_type d) (ek (d_key d)) (ev (d_pay d)))) /\
  (inner = false -> d_type d = DDelete -> delta_stands (var_finder ps) ek ev cell inner d (vard_del m (ek (d_key d)))) /\
  (forall n p, vnode_rep ek ev inner n p -> n_low n = Some (d_key d) -> n_high n = d_high d ->
     48 + klen g (d_key d) + okl g (n_high n) < 65536 ->
     (inner = true -> d_type d = DInsert ->
        delta_stands (var_finder ps) ek ev cell inner d (vard_smo m DInsert inner p (ev (d_pay d)))) /\
     (inner = true -> d_type d = DDelete ->
        delta_stands (var_finder ps) ek ev cell inner d (vard_set (vard_idel m p) (ev (cell (d_addr d))))) /\
     (forall pid, blen pid = 8%N -> merge_stands (var_finder ps) ek d (vard_smo m DMerge inner p pid))).
Proof.
  intros Hl. pose proof HC as (_ & C2 & C3). pose proof (C2 (d_key d)) as Lk. pose proof (C3 (d_pay d)) as Lv.
  split; [|split].
  - intros Hi Ht. destruct (vard_put_ok m (d_type d) (ek (d_key d)) (ev (d_pay d))) as (A & B & _ & T & _); [lia|].
    split; [exact T|]. split; [exact A|]. split; [|split]; try congruence.
    intros _. rewrite ev_ps in B. exact B.
  - intros Hi Ht. destruct (vard_del_ok m (ek (d_key d))) as (A & _ & T & _); [lia|].
    split; [cbn; congruence|]. split; [exact A|]. split; [|split]; congruence.
  - intros n p (_ & _ & _ & Rl & Rh) Hn Hh Hb. rewrite Hn in Rl. cbn [fence] in Rl.
    assert (Lh : Z.of_N (blen (fence ek (n_high n))) = okl g (n_high n)).
    { unfold okl. rewrite HV. destruct (n_high n); cbn [fence]; auto. }
    split; [|split].
    + intros Hi Ht. assert (L8 : blen (ev (d_pay d)) = 8%N) by (rewrite Hi in Lv; cbn [paysz] in Lv; unfold ptrlen in Lv; lia).
      destruct (vard_smo_ok m DInsert inner p (ev (d_pay d)) _ _ Rl Rh L8) as (A & B & H & T & _); [lia|].
      split; [cbn; congruence|]. split; [exact A|]. split; [|split].
      * intros _. rewrite <- L8, ev_ps in B. exact B.
      * intros _. rewrite var_okey, Hh in H. exact H.
      * congruence.
    + intros Hi Ht. pose proof (C3 (cell (d_addr d))) as Lc.
      assert (L8 : blen (ev (cell (d_addr d))) = 8%N) by (rewrite Hi in Lc; cbn [paysz] in Lc; unfold ptrlen in Lc; lia).
      destruct (vard_idel_ok m p _ _ _ Rl Rh L8) as (_ & _ & _ & T & _ & _ & A & B & H & _); [lia|].
      split; [cbn [var_finder r_type vard_set vd_type]; congruence|]. split; [exact A|]. split; [congruence|]. split.
      * intros _. rewrite var_okey, Hh in H. exact H.
      * intros _ _. exact B.
    + intros pid L8. destruct (vard_smo_ok m DMerge inner p pid _ _ Rl Rh L8) as (A & _ & H & _); [lia|].
      split; [exact A|]. rewrite var_okey, Hh in H. exact H.
Qed.
End Var.

Section Fix.
Variables (g : cfg) (inner : bool) (K : Z -> Prop) (lt : list N -> list N -> bool) (ek : Z -> list N) (ev : N -> list N).
Variables (L : flay) (e : N).
Hypothesis OK : cfg_ok g.
Hypothesis HV : c_varlen g = false.
Hypothesis HC : coding g inner K lt ek ev.
Hypothesis HL : flay_ok g L e.
Let ps := Z.to_N (paysz g inner).

Lemma fix_page_stands n p : n_inner n = inner -> fnode_rep L ps ek ev inner n p ->
  page_stands (fix_finder L ps) ek ev inner n p.
Proof.
  intros Hi (R1 & _ & R3 & R4 & R5 & R6 & R7). split; [exact Hi|]. split; [exact R1|]. split; [exact R3|]. split; [|split].
  - cbn. rewrite R4. destruct (is_leftmost n); reflexivity.
  - exact R5.
  - cbn. rewrite R6. destruct (n_high n) eqn:E; cbn; auto. rewrite (R7 _ eq_refl). reflexivity.
Qed.

Lemma fix_delta_stands cell d m :
  (inner = false -> d_type d <> DDelete ->
     delta_stands (fix_finder L ps) ek ev cell inner d (fixd_put L m (d_type d) (ek (d_key d)) (ev (d_pay d)))) /\
  (inner = false -> d_type d = DDelete -> delta_stands (fix_finder L ps) ek ev cell inner d (fixd_del L m (ek (d_key d)))) /\
  (forall n p, fnode_rep L ps ek ev inner n p -> n_low n = Some (d_key d) -> n_high n = d_high d ->
     (inner = true -> d_type d = DInsert ->
        delta_stands (fix_finder L ps) ek ev cell inner d (fixd_smo L m DInsert inner p (ev (d_pay d)))) /\
     (inner = true -> d_type d = DDelete ->
        delta_stands (fix_finder L ps) ek ev cell inner d (fixd_set L (fixd_idel L m p) (ev (cell (d_addr d))))) /\
     (forall pid, blen pid = 8%N -> merge_stands (fix_finder L ps) ek d (fixd_smo L m DMerge inner p pid))).
Proof.
  pose proof HC as (_ & C2 & C3). pose proof (C2 (d_key d)) as Lk. pose proof (C3 (d_pay d)) as Lv.
  destruct HL as (L1 & L2 & L3 & L4 & L5 & L6). unfold klen in Lk. rewrite HV in Lk.
  assert (EP : forall v, blen (ev v) = ps) by (intros v; specialize (C3 v); unfold ps; lia).
  split; [|split].
  - intros Hi Ht. destruct (fixd_put_ok L L4 L5 m (d_type d) (ek (d_key d)) (ev (d_pay d))) as (A & B & _ & T & _); [lia|].
    split; [exact T|]. split; [exact A|]. split; [|split]; try congruence.
    intros _. rewrite EP in B. exact B.
  - intros Hi Ht. destruct (fixd_del_ok L L4 L5 m (ek (d_key d))) as (A & _ & T & _); [lia|].
    split; [cbn; congruence|]. split; [exact A|]. split; [|split]; congruence.
  - intros n p (_ & _ & _ & _ & Rl & Rf & Rh) Hn Hh. specialize (Rl _ Hn).
    assert (FH : fhigh L p = option_map ek (d_high d)).
    { unfold fhigh. rewrite Rf, <- Hh. destruct (n_high n) eqn:E; cbn; auto. rewrite (Rh _ eq_refl). reflexivity. }
    split; [|split].
    + intros Hi Ht. assert (L8 : blen (ev (d_pay d)) = 8%N) by (rewrite Hi in Lv; cbn [paysz] in Lv; unfold ptrlen in Lv; lia).
      destruct (fixd_smo_ok L L4 L5 m DInsert inner p (ev (d_pay d)) L8) as (A & B & H & T & _).
      split; [cbn; congruence|]. split; [etransitivity; [exact A|exact Rl]|]. split; [|split].
      * intros _. rewrite <- L8, EP in B. exact B.
      * intros _. rewrite FH in H. exact H.
      * congruence.
    + intros Hi Ht. pose proof (C3 (cell (d_addr d))) as Lc.
      assert (L8 : blen (ev (cell (d_addr d))) = 8%N) by (rewrite Hi in Lc; cbn [paysz] in Lc; unfold ptrlen in Lc; lia).
      destruct (fixd_idel_ok L L4 L5 m p _ L8) as (_ & _ & _ & T & _ & _ & A & B & H & _).
      split; [cbn [fix_finder r_type fixd_set fd_type]; congruence|]. split; [etransitivity; [exact A|exact Rl]|]. split; [congruence|]. split.
      * intros _. rewrite FH in H. exact H.
      * intros _ _. exact B.
    + intros pid L8. destruct (fixd_smo_ok L L4 L5 m DMerge inner p pid L8) as (A & _ & H & _).
      split; [etransitivity; [exact A|exact Rl]|]. rewrite FH in H. exact H.
Qed.
End Fix.
