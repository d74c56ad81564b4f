(** Every well-formed chain whose pages fit has bytes that stand for it. *)
From Coq Require Import ZArith NArith List Bool Lia.
From Verif Require Import Config Page ListFacts ChainSpec Valid SeqSpec Bytes FixLayout VarLayout LayoutFacts
  DeltaBytes DeltaBytesFacts ByteCons ByteConsSpec ByteConsChain ByteFind ByteFindSpec ByteFindRep.
Import ListNotations.
Open Scope Z_scope.

Definition zmem : mem := fun _ => 0%N.
Definition vmake (lo hi : list N) : vpage :=
  mk_vpage (wr (wr zmem 0 lo) (blen lo) hi) 0 32 (mk_meta 0 (blen lo) (blen lo)) (mk_meta (blen lo) (blen hi) (blen hi)).
Lemma vmake_ok lo hi : VarLayout.key_of (vp_mem (vmake lo hi)) (vp_low (vmake lo hi)) = lo /\
  VarLayout.key_of (vp_mem (vmake lo hi)) (vp_high (vmake lo hi)) = hi.
Proof.
  unfold vmake, VarLayout.key_of. cbn [vp_mem vp_low vp_high mt_off mt_klen]. split; [|apply rd_wr_same].
  rewrite rd_wr_other by lia. apply rd_wr_same.
Qed.
Definition fmake (L : flay) (lo hi : list N) (hh : bool) : fnode :=
  mk_fnode (mk_fpage (wr (wr zmem (fl_low L) lo) (fl_high L) hi) 0 0) true hh.

Section Ex.
Variables (g : cfg) (inner : bool) (K : Z -> Prop) (lt : list N -> list N -> bool) (ek : Z -> list N) (ev : N -> list N).
Variable cell : addr -> pid.
Hypothesis OK : cfg_ok g.
Hypothesis HC : coding g inner K lt ek ev.
Let ps := Z.to_N (paysz g inner).

Lemma chain_ex {P D} (F : finder P D) c :
  (forall n, (if inner then inode g n else lnode g n) -> n_size n <= c_page g -> exists p, page_stands F ek ev inner n p) ->
  (forall d, exists b, delta_stands F ek ev cell inner d b) ->
  (forall d, exists b, merge_stands F ek d b) ->
  cwf g inner c -> Forall (fun n => n_size n <= c_page g) (pages c) -> exists b, chain_stands F ek ev cell inner c b.
Proof.
  intros HN HD HM Hw Hs. clear HC. induction c as [n|d nx IH|d n nx IH|]; cbn [pages] in Hs.
  - destruct (HN n) as [p Hpn]; [destruct inner; exact Hw|exact (Forall_inv Hs)|]. exists (BBase p). exact Hpn.
  - destruct (HD d) as [bd Hd]. destruct IH as [b Hb]; [destruct inner; apply Hw|exact Hs|]. exists (BRec bd b). split; assumption.
  - destruct (HM d) as [bd Hd]. destruct IH as [b Hb]; [destruct inner; apply Hw|exact (Forall_inv_tail Hs)|].
    destruct (HN n) as [p Hpn]; [destruct inner; apply Hw|exact (Forall_inv Hs)|]. exists (BMerge bd p b). split; [|split]; assumption.
  - destruct inner; contradiction.
Qed.

Lemma cn_inner n : (if inner then inode g n else lnode g n) -> n_inner n = inner.
Proof. clear. destruct inner; intros H; apply H. Qed.

Lemma var_stands_ex page c : c_varlen g = true -> c_hdr g = 32 -> Z.of_N page = c_page g ->
  c_page g < 65536 -> 2 * c_maxklen g + c_paylen g + 48 < 65536 ->
  cwf g inner c -> Forall (fun n => n_size n <= c_page g) (pages c) ->
  exists b, chain_stands (var_finder ps) ek ev cell inner c b.
Proof.
  intros HV Hh Hp H16 Hk Hw Hs. pose proof HC as (_ & C2 & C3).
  assert (EP : forall v, blen (ev v) = ps) by (intros v; specialize (C3 v); unfold ps; lia).
  assert (BK : forall k, Z.of_N (blen (ek k)) <= c_maxklen g) by (intros k; rewrite C2; apply (ok_key g OK k)).
  assert (BF : forall k, Z.of_N (blen (fence ek k)) <= c_maxklen g).
  { intros [k|]; cbn [fence]; auto. change (blen []) with 0%N. pose proof (ok_key g OK 0). lia. }
  assert (P0 : 0 <= c_paylen g) by apply (ok_pay g OK).
  apply chain_ex; auto.
  - intros n Hn Hz. destruct (var_page_ex g inner K lt ek ev page n) as [p Hpn]; auto.
    exists p. apply (var_page_stands g inner K lt ek ev OK HC); auto. apply cn_inner, Hn.
  - intros d. destruct inner eqn:Ei.
    + destruct (vmake_ok (ek (d_key d)) (fence ek (d_high d))) as [R1 R2].
      set (pay := match d_type d with DDelete => ev (cell (d_addr d)) | _ => ev (d_pay d) end).
      assert (L8 : blen pay = 8%N).
      { specialize (EP (d_pay d)) as E1. specialize (EP (cell (d_addr d))) as E2. unfold ps in E1, E2. cbn in E1, E2.
        unfold pay. destruct (d_type d); auto. }
      exists (vard_smo zmem (d_type d) true (vmake (ek (d_key d)) (fence ek (d_high d))) pay).
      destruct (vard_smo_ok zmem (d_type d) true _ pay _ _ R1 R2 L8) as (A & B & H & T & _).
      { specialize (BK (d_key d)). specialize (BF (d_high d)). lia. }
      split; [exact T|]. split; [exact A|]. split; [|split].
      * intros Ht. cbn [var_finder r_pay]. replace ps with 8%N by reflexivity. rewrite B. unfold pay. destruct (d_type d); congruence.
      * intros _. rewrite (var_okey g true K lt ek ev OK HC) in H. exact H.
      * intros _ Ht. cbn [var_finder r_child]. rewrite B. unfold pay. rewrite Ht. reflexivity.
    + exists (vard_put zmem (d_type d) (ek (d_key d)) (ev (d_pay d))).
      destruct (vard_put_ok zmem (d_type d) (ek (d_key d)) (ev (d_pay d))) as (A & B & _ & T & _).
      { specialize (BK (d_key d)). rewrite EP. unfold ps. cbn [paysz]. lia. }
      split; [exact T|]. split; [exact A|]. split; [|split]; try congruence. intros _. rewrite EP in B. exact B.
  - intros d. destruct (vmake_ok (ek (d_key d)) (fence ek (d_high d))) as [R1 R2].
    exists (vard_smo zmem DMerge inner (vmake (ek (d_key d)) (fence ek (d_high d))) (le 8 0)).
    destruct (vard_smo_ok zmem DMerge inner _ (le 8 0) _ _ R1 R2 eq_refl) as (A & B & H & T & _).
    { specialize (BK (d_key d)). specialize (BF (d_high d)). lia. }
    split; [exact A|]. rewrite (var_okey g inner K lt ek ev OK HC) in H. exact H.
Qed.

Lemma fix_stands_ex L e c : c_varlen g = false -> flay_ok g L e ->
  cwf g inner c -> Forall (fun n => n_size n <= c_page g) (pages c) ->
  exists b, chain_stands (fix_finder L ps) ek ev cell inner c b.
Proof.
  intros HV HL Hw Hs. pose proof HC as (_ & C2 & C3). pose proof HL as (L1 & L2 & L3 & L4 & L5 & L6).
  assert (EP : forall v, blen (ev v) = ps) by (intros v; specialize (C3 v); unfold ps; lia).
  assert (EK : forall k, blen (ek k) = fl_ks L).
  { intros k. specialize (C2 k). unfold klen in C2. rewrite HV in C2. lia. }
  set (hi := fun k => match k with Some x => ek x | None => ek 0 end).
  assert (EH : forall k, blen (hi k) = fl_ks L) by (intros [k|]; apply EK).
  set (mk := fun d => fmake L (ek (d_key d)) (hi (d_high d)) (match d_high d with Some _ => true | None => false end)).
  assert (ML : forall d, fixn_low L (mk d) = ek (d_key d)).
  { intros d. unfold mk, fmake, fixn_low. cbn [fn_page fp_mem]. pose proof (EK (d_key d)). pose proof (EH (d_high d)).
    unfold fl_low, fl_high. rewrite rd_wr_other by lia. apply rd_wr_eq; auto. }
  assert (MH : forall d, fhigh L (mk d) = option_map ek (d_high d)).
  { intros d. unfold fhigh, mk, fmake, fixn_high. cbn [fn_page fp_mem fn_hashigh]. pose proof (EH (d_high d)).
    rewrite rd_wr_eq by auto. destruct (d_high d); reflexivity. }
  apply chain_ex; auto.
  - intros n Hn Hz. destruct (fix_page_ex g inner K lt ek ev L e n) as [p Hpn]; auto.
    exists p. apply fix_page_stands; auto. apply cn_inner, Hn.
  - intros d. destruct inner eqn:Ei.
    + destruct (d_type d) eqn:Et.
      3:{ assert (L8 : blen (ev (cell (d_addr d))) = 8%N) by (rewrite EP; reflexivity).
          exists (fixd_set L (fixd_idel L zmem (mk d)) (ev (cell (d_addr d)))).
          destruct (fixd_idel_ok L L4 L5 zmem (mk d) _ L8) as (_ & _ & _ & T & _ & _ & A & B & H & _).
          split; [cbn [fix_finder r_type fixd_set fd_type]; congruence|]. split; [etransitivity; [exact A|apply ML]|].
          split; [congruence|]. split; [intros _; etransitivity; [exact H|apply MH]|]. intros _ _. exact B. }
      all: assert (L8 : blen (ev (d_pay d)) = 8%N) by (rewrite EP; reflexivity);
        exists (fixd_smo L zmem (d_type d) true (mk d) (ev (d_pay d)));
        destruct (fixd_smo_ok L L4 L5 zmem (d_type d) true (mk d) _ L8) as (A & B & H & T & _);
        (split; [exact T|]); (split; [etransitivity; [exact A|apply ML]|]); (split; [intros _; exact B|]);
        (split; [intros _; etransitivity; [exact H|apply MH]|]); congruence.
    + exists (fixd_put L zmem (d_type d) (ek (d_key d)) (ev (d_pay d))).
      destruct (fixd_put_ok L L4 L5 zmem (d_type d) (ek (d_key d)) (ev (d_pay d)) (EK _)) as (A & B & _ & T & _).
      split; [exact T|]. split; [exact A|]. split; [|split]; try congruence. intros _. rewrite EP in B. exact B.
  - intros d. exists (fixd_smo L zmem DMerge inner (mk d) (le 8 0)).
    destruct (fixd_smo_ok L L4 L5 zmem DMerge inner (mk d) (le 8 0) eq_refl) as (A & B & H & T & _).
    split; [etransitivity; [exact A|apply ML]|]. etransitivity; [exact H|apply MH].
Qed.
End Ex.
