(** The page and record classes of both layouts provide what ByteTreeRel.v asks for. *)
From Coq Require Import ZArith NArith List Bool Lia.
From Coq Require Import ZifyBool ZifyNat ZifyN.
From Verif Require Import Config Api Page Machine Tree Valid ConsFacts ConsolidateFacts Bytes FixLayout VarLayout LayoutFacts
  DeltaBytes DeltaBytesFacts ByteCons ByteConsSpec ByteConsFacts ByteConsFix ByteConsChain ByteFind ByteFindSpec ByteFindRep
  ByteTree ByteTreeSpec ByteTreeRel.
Import ListNotations.
Open Scope Z_scope.

Lemma le8_len x : blen (le 8 x) = 8%N.
Proof. unfold blen. rewrite le_len. reflexivity. Qed.
Lemma rep_mono {P D} (np np' : node -> P -> Prop) (dp dp' : delta -> D -> Prop) :
  (forall n p, np n p -> np' n p) -> (forall d b, dp d b -> dp' d b) ->
  forall c b, chain_rep np dp c b -> chain_rep np' dp' c b.
Proof.
  intros A B. induction c; intros [p|bd bx|bd p bx]; cbn [chain_rep]; try tauto; auto.
  - intros [H1 H2]. split; auto.
  - intros [H1 H2]. split; auto.
Qed.
Lemma coding_lvl g K lt ek evl : coding g false K lt ek evl -> forall inner, coding g inner K lt ek (evi evl inner).
Proof.
  intros (A & B & H) [|]; split; [exact A| |exact A|]; (split; [exact B|]); [|exact H].
  intros v. cbn [evi]. rewrite le8_len. reflexivity.
Qed.
Lemma one_size g inner a ra ns ds n : consolidate g inner a ra ns ds false false = COne n -> n_size n = scan_bytes g inner ns ds.
Proof.
  unfold consolidate, scan_bytes. destruct (low_of g inner _ _) as [low add]. intros H. injection H as <-. reflexivity.
Qed.
Lemma root_room g k : cfg_ok g -> c_hdr g + nullsz g + recsz g ptrlen k <= c_page g.
Proof.
  intros OK. pose proof (ok_page g OK). pose proof (recsz_inner g OK k). pose proof (maxrec_excess g). pose proof (kovh_nn g OK).
  pose proof (ok_hdr g OK). pose proof (ok_key g OK k) as Hk.
  assert (nullsz g <= maxrec g).
  { unfold nullsz, maxrec, metalen, ptrlen. unfold klen in Hk. destruct (c_varlen g); lia. }
  lia.
Qed.

(** ** Variable-length layout *)
Section Var.
Variables (g : cfg) (K : Z -> Prop) (lt : list N -> list N -> bool) (ek : Z -> list N) (evl : N -> list N) (page : N).
Hypothesis OK : cfg_ok g.
Hypothesis HV : c_varlen g = true.
Hypothesis Hh : c_hdr g = 32.
Hypothesis Hp : Z.of_N page = c_page g.
Hypothesis H16 : 2 * c_page g < 65536.
Hypothesis HC : coding g false K lt ek evl.
Let lps := Z.to_N (c_paylen g).
Let C := var_klass page lps lt.

Definition vNP (n : node) (p : vpage) : Prop := vnode_rep ek (evi evl (n_inner n)) (n_inner n) n p.
Definition vDP (d : delta) (b : vdelta) : Prop :=
  vdelta_rep ek (evi evl (d_inner d)) d b /\ vard_high b = option_map ek (d_high d) /\ vd_inner b = d_inner d.

Lemma vfind i : k_find C i = var_finder (Z.to_N (paysz g i)).
Proof. destruct i; reflexivity. Qed.
Lemma v_kb k : Z.of_N (blen (ek k)) <= kovh g.
Proof. destruct HC as (_ & C2 & _). rewrite C2. pose proof (ok_key g OK k). unfold kovh. rewrite HV. lia. Qed.
Lemma v_room : 40 + 2 * kovh g + c_paylen g < 65536 /\ 48 + 2 * kovh g < 65536 /\ 0 <= kovh g.
Proof.
  pose proof (ok_page g OK) as H. pose proof (ok_key g OK 0) as H2. pose proof (ok_pay g OK) as H3.
  unfold excess, maxrec, metalen, kovh, ptrlen in *. rewrite HV in *. lia.
Qed.
Lemma v_fence k : Z.of_N (blen (fence ek k)) <= kovh g.
Proof. destruct k; cbn [fence]; [apply v_kb|]. pose proof v_room. change (blen []) with 0%N. lia. Qed.

Lemma var_root_meta m k l r : (32 + 2 * 8 + 16 + blen k <= page)%N -> blen l = 8%N -> blen r = 8%N ->
  meta_at (var_root page m k l r) 0 = mk_meta (page - 8) 0 8 /\
  meta_at (var_root page m k l r) 1 = mk_meta (page - 8 - 8 - blen k) (blen k) (blen k + 8).
Proof.
  intros H Ll Lr. assert (page < 65536)%N by lia. unfold var_root, meta_at, set_meta. cbn zeta. cbn [vp_mem]. unfold var_hdr.
  rewrite !new_meta_fit by lia. assert (2 ^ 32 > 65536)%N by reflexivity. split.
  - rewrite (meta_other _ (32 + 8 * 1)%N _ (32 + 8 * 0)%N) by (rewrite ?meta_len; lia).
    rewrite (meta_other _ (page - 8 - 8 - blen k)%N _ (32 + 8 * 0)%N) by lia.
    rewrite (meta_other _ (page - 8 - 8)%N _ (32 + 8 * 0)%N) by lia.
    apply meta_rw; cbn [mt_off mt_klen mt_rlen]; lia.
  - apply meta_rw; cbn [mt_off mt_klen mt_rlen]; lia.
Qed.

Lemma var_ok : klass_ok C lt g K ek evl vNP vDP.
Proof.
  pose proof v_room as (Rm1 & Rm2 & Rm3). pose proof HC as (C1 & C2 & C3). pose proof (coding_lvl g K lt ek evl HC) as HCi.
  assert (PG : (page < 65536)%N) by lia.
  constructor.
  - exact OK.
  - exact C1.
  - exact C2.
  - intros n p i H. rewrite vfind.
    destruct (var_page_stands g (n_inner n) K lt ek _ OK (HCi _) n p eq_refl H) as (_ & A1 & A2 & A3 & A4 & A5).
    split; [exact A1|]. split; [|split; [exact A3|split; [exact A4|exact A5]]].
    intros j k v E Hn. exact (proj1 (A2 j k v E) Hn).
  - intros n p j k v H E. rewrite vfind.
    destruct (var_page_stands g (n_inner n) K lt ek _ OK (HCi _) n p eq_refl H) as (_ & A1 & A2 & _). exact (proj2 (A2 j k v E)).
  - intros n p (_ & H & _). exact H.
  - intros n n' p (E1 & E2 & E3 & E4 & E5). unfold vNP, vnode_rep, nokey, is_leftmost. rewrite E1, E2, E3, E4, E5. auto.
  - intros d b i ((A1 & A2 & _) & A3 & _). rewrite vfind. auto.
  - intros d b ((_ & _ & A) & _) Ht. rewrite vfind. cbn [var_finder r_pay]. destruct (A Ht) as [B _].
    rewrite (ev_ps g (d_inner d) K lt ek _ (HCi _)) in B. exact B.
  - intros d b (_ & _ & A). exact A.
  - intros d d' b (E1 & E2 & E3 & E4 & E5). unfold vDP, vdelta_rep. rewrite E1, E2, E3, E4, E5. auto.
  - intros m a. unfold vNP, vnode_rep. cbn [empty_leaf n_inner n_recs n_size n_low n_high length C var_klass k_new var_new vp_cnt vp_size].
    split; [reflexivity|]. split; [rewrite Hh; reflexivity|]. split; [intros [|i] k v; discriminate|]. split; reflexivity.
  - intros m a l r k Hl Hr. pose proof (root_room g k OK) as RR. unfold nullsz, recsz, metalen, ptrlen in RR. rewrite HV in RR.
    pose proof (C2 k) as Lk. assert (HF : (32 + 2 * 8 + 16 + blen (ek k) <= page)%N) by lia.
    destruct (var_root_ok page m (ek k) (le 8 l) (le 8 r) PG (le8_len l) (le8_len r) HF) as (A1 & A2 & A3 & A4 & A5 & _).
    destruct (var_root_meta m (ek k) (le 8 l) (le 8 r) HF (le8_len l) (le8_len r)) as [M1 M2].
    unfold vNP, vnode_rep, new_root. cbn [n_inner n_recs n_size n_low n_high length]. cbn [C var_klass k_root]. cbn [evi].
    split; [reflexivity|]. split.
    { rewrite A5. unfold nullsz, recsz, metalen, ptrlen, var_hdr. rewrite HV. lia. }
    split; [|split; reflexivity].
    intros [|[|i]] k0 v E; cbn [nth_error] in E; [| |destruct i; discriminate]; injection E as <- <-; rewrite le8_len.
    + change (N.of_nat 0) with 0%N. rewrite M1. cbn. auto.
    + change (N.of_nat 1) with 1%N. rewrite M2. auto.
  - intros m a t k v Ht. destruct (vard_put_ok m t (ek k) (evl v)) as (A1 & A2 & A3 & A4 & A5 & A6 & _).
    { pose proof (v_kb k). specialize (C3 v). cbn [paysz] in C3. lia. }
    split; [|split; [exact A3|exact A5]]. cbn [leaf_delta d_inner evi]. split; [exact A1|]. split; [exact A4|].
    intros _. split; [exact A2|]. cbn [C var_klass k_put]. rewrite A6. reflexivity.
  - intros m a k. destruct (vard_del_ok m (ek k)) as (A1 & A2 & A3 & A4 & _).
    { pose proof (v_kb k). lia. }
    split; [|split; [exact A2|exact A4]]. split; [exact A1|]. split; [exact A3|]. cbn. congruence.
  - intros a t t' k v b ((A1 & A2 & A3) & A4 & A5) Ht. split; [|split; [exact A4|exact A5]].
    split; [exact A1|]. split; [reflexivity|]. intros _. exact (A3 Ht).
  - intros m a n p k pid (_ & _ & _ & Rl & Rh) Hl. rewrite Hl in Rl.
    destruct (vard_smo_ok m DInsert (n_inner n) p (le 8 pid) _ _ Rl Rh (le8_len _)) as (A1 & A2 & A3 & A4 & A5 & A6 & _).
    { pose proof (v_fence (Some k)). pose proof (v_fence (n_high n)). lia. }
    split; [|split; [|exact A5]].
    + split; [exact A1|]. split; [exact A4|]. intros _. cbn [d_inner evi d_pay C var_klass k_smo]. rewrite le8_len. split; [exact A2|]. rewrite A6. reflexivity.
    + cbn [C var_klass k_smo d_high]. rewrite A3. apply (var_okey g false K lt ek evl OK HC).
  - intros m a n p k pid (_ & _ & _ & Rl & Rh) Hl. rewrite Hl in Rl.
    destruct (vard_smo_ok m DMerge (n_inner n) p (le 8 pid) _ _ Rl Rh (le8_len _)) as (A1 & A2 & A3 & A4 & A5 & A6 & _).
    { pose proof (v_fence (Some k)). pose proof (v_fence (n_high n)). lia. }
    split; [exact A5|]. intros i. rewrite vfind. split; [exact A1|].
    cbn [var_finder r_high d_high C var_klass k_smo]. rewrite A3. apply (var_okey g false K lt ek evl OK HC).
  - intros m a n p k (_ & _ & _ & Rl & Rh) Hl. rewrite Hl in Rl.
    destruct (vard_idel_ok m p (le 8 0) _ _ Rl Rh (le8_len _)) as (A1 & _ & A3 & A4 & A5 & _).
    { pose proof (v_fence (Some k)). pose proof (v_fence (n_high n)). lia. }
    split; [|split; [|exact A5]].
    + split; [exact A1|]. split; [exact A4|]. cbn. congruence.
    + cbn [C var_klass k_idel d_high]. rewrite A3. apply (var_okey g false K lt ek evl OK HC).
  - intros inner c b ds ns n a ra m m' size Hr Hk Es Hpo Ec Hne Hf Hsz.
    destruct (var_one g inner K lt ek (evi evl inner) page (HCi inner) HV Hp Hh (fun k => proj1 (ok_key g OK k)) c b ds ns n a ra m m' size false)
      as (q & Q1 & Q2 & _); auto.
    + eapply rep_mono; [| |exact Hr]; intros x y [<- H]; [exact H|apply H].
    + rewrite <- (one_size g inner a ra ns ds n Ec). lia.
    + rewrite <- Hh. apply fence_room; auto.
    + lia.
    + right. lia.
    + exists q. split; [exact Q1|]. unfold vNP.
      assert (Ei : n_inner n = inner).
      { clear - Ec. unfold consolidate in Ec. destruct (low_of g inner _ _) in Ec. injection Ec as <-. reflexivity. }
      rewrite Ei. exact Q2.
  - intros inner c b ds ns l r a ra m m' size Hr Hk Es Hpo Ec Hfl Hfr Hsz.
    destruct (var_two g inner K lt ek (evi evl inner) page (HCi inner) HV Hp Hh (fun k => proj1 (ok_key g OK k)) c b ds ns l r a ra m m' size)
      as (ql & qr & Q1 & Q2 & Q3 & _); auto; try (rewrite <- Hh; apply fence_room; auto); try lia.
    + eapply rep_mono; [| |exact Hr]; intros x y [<- H]; [exact H|apply H].
    + exists ql, qr. split; [exact Q1|]. unfold vNP.
      assert (Ei : n_inner l = inner /\ n_inner r = inner).
      { clear - Ec. unfold consolidate in Ec. destruct (cs_left _) as [[lrs lsz]|]; [|discriminate].
        destruct (cs_cur _) as [|[rk rv] rt]; [discriminate|]. destruct (low_of g inner _ lrs) in Ec. injection Ec as <- <-. auto. }
      destruct Ei as [-> ->]. auto.
  - intros inner c b ds ns n a ra m m' size Hr Hk Es Hpo Ec Hne Hf.
    destruct (var_one g inner K lt ek (evi evl inner) page (HCi inner) HV Hp Hh (fun k => proj1 (ok_key g OK k)) c b ds ns n a ra m m' size true)
      as (q & Q1 & Q2 & _); auto.
    + eapply rep_mono; [| |exact Hr]; intros x y [<- H]; [exact H|apply H].
    + rewrite <- Hh. apply fence_room; auto.
    + lia.
    + exists q. split; [exact Q1|]. unfold vNP.
      assert (Ei : n_inner n = inner).
      { clear - Ec. unfold consolidate in Ec. destruct (low_of g inner _ _) in Ec. injection Ec as <-. reflexivity. }
      rewrite Ei. exact Q2.
Qed.
End Var.

(** ** Fixed-length layout *)
Section Fix.
Variables (g : cfg) (K : Z -> Prop) (lt : list N -> list N -> bool) (ek : Z -> list N) (evl : N -> list N) (L : flay) (e : N).
Hypothesis OK : cfg_ok g.
Hypothesis HV : c_varlen g = false.
Hypothesis HL : flay_ok g L e.
Hypothesis HC : coding g false K lt ek evl.
Let lps := Z.to_N (c_paylen g).
Let C := fix_klass L lps lt.
Let psz (i : bool) := Z.to_N (paysz g i).

Definition fNP (n : node) (p : fnode) : Prop := fnode_rep L (Z.to_N (paysz g (n_inner n))) ek (evi evl (n_inner n)) (n_inner n) n p.
Definition fDP (d : delta) (b : fdelta) : Prop :=
  fdelta_rep L (Z.to_N (paysz g (d_inner d))) ek (evi evl (d_inner d)) d b /\ fixd_high L b = option_map ek (d_high d) /\ fd_inner b = d_inner d.

Lemma ffind i : k_find C i = fix_finder L (Z.to_N (paysz g i)).
Proof. destruct i; reflexivity. Qed.

Lemma fix_ok : klass_ok C lt g K ek evl fNP fDP.
Proof.
  pose proof HC as (C1 & C2 & C3). pose proof (coding_lvl g K lt ek evl HC) as HCi.
  destruct (flay_hdr g L e OK HV HL) as [L7 L8]. pose proof HL as (L1 & L2 & L3 & L4 & L5 & L6).
  assert (EK : forall k, blen (ek k) = fl_ks L) by (intros k; specialize (C2 k); unfold klen in C2; rewrite HV in C2; lia).
  assert (EV : forall i v, blen (evi evl i v) = Z.to_N (paysz g i)).
  { intros i v. destruct (HCi i) as (_ & _ & H). specialize (H v). lia. }
  assert (PS : forall i, Z.of_N (Z.to_N (paysz g i)) = paysz g i).
  { intros i. destruct (HCi i) as (_ & _ & H). specialize (H 0%N). lia. }
  assert (FH : forall n p, fNP n p -> fhigh L p = option_map ek (n_high n)).
  { intros n p (_ & _ & _ & _ & _ & Rf & Rh). unfold fhigh. rewrite Rf. destruct (n_high n) eqn:E; cbn; auto. rewrite (Rh _ eq_refl). reflexivity. }
  constructor.
  - exact OK.
  - exact C1.
  - exact C2.
  - intros n p i H. rewrite ffind.
    destruct (fix_page_stands g (n_inner n) ek _ L n p eq_refl H) as (_ & A1 & A2 & A3 & A4 & A5).
    split; [exact A1|]. split; [|split; [exact A3|split; [exact A4|exact A5]]].
    intros j k v E Hn. exact (proj1 (A2 j k v E) Hn).
  - intros n p j k v H E. rewrite ffind.
    destruct (fix_page_stands g (n_inner n) ek _ L n p eq_refl H) as (_ & A1 & A2 & _). exact (proj2 (A2 j k v E)).
  - intros n p (_ & H & _). exact H.
  - intros n n' p (E1 & E2 & E3 & E4 & E5). unfold fNP, fnode_rep, nokey, is_leftmost. rewrite E1, E2, E3, E4, E5. auto.
  - intros d b i ((A1 & A2 & _) & A3 & _). rewrite ffind. auto.
  - intros d b ((_ & _ & A) & _) Ht. rewrite ffind. exact (A Ht).
  - intros d b (_ & _ & A). exact A.
  - intros d d' b (E1 & E2 & E3 & E4 & E5). unfold fDP, fdelta_rep. rewrite E1, E2, E3, E4, E5. auto.
  - intros m a. unfold fNP, fnode_rep. cbn [empty_leaf n_inner n_recs n_size n_low n_high length C fix_klass k_new fixn_new fix_new fn_page fn_haslow fn_hashigh fp_cnt fp_size].
    split; [reflexivity|]. split; [lia|]. split; [intros [|i] k v; discriminate|]. split; [reflexivity|]. split; [discriminate|].
    split; [reflexivity|discriminate].
  - intros m a l r k Hl Hr. pose proof (root_room g k OK) as RR. unfold nullsz, recsz, metalen, ptrlen, klen in RR. rewrite HV in RR.
    destruct (fix_root_ok L e m (ek k) (le 8 l) (le 8 r) L6 L5 (EK k) (le8_len l) (le8_len r)) as (A1 & A2 & A3 & _); [lia|].
    unfold fNP, fnode_rep, new_root. cbn [n_inner n_recs n_size n_low n_high length]. cbn [C fix_klass k_root fn_page fn_haslow fn_hashigh]. cbn [evi].
    split; [reflexivity|]. split.
    { unfold fix_root. cbn [fp_size]. unfold nullsz, recsz, metalen, ptrlen, klen. rewrite HV. lia. }
    split; [|split; [reflexivity|split; [discriminate|split; [reflexivity|discriminate]]]].
    intros [|[|i]] k0 v E; cbn [nth_error] in E; [| |destruct i; discriminate]; injection E as <- <-.
    + split; [cbn; discriminate|]. exact A2.
    + split; [intros _; exact A1|exact A3].
  - intros m a t k v Ht. destruct (fixd_put_ok L L4 L5 m t (ek k) (evl v) (EK k)) as (A1 & A2 & A3 & A4 & A5 & _).
    split; [|split; [exact A3|exact A5]]. cbn [leaf_delta d_inner evi]. split; [exact A1|]. split; [exact A4|].
    intros _. cbn [d_pay]. rewrite <- (EV false v). exact A2.
  - intros m a k. destruct (fixd_del_ok L L4 L5 m (ek k) (EK k)) as (A1 & A2 & A3 & A4 & _).
    split; [|split; [exact A2|exact A4]]. split; [exact A1|]. split; [exact A3|]. cbn. congruence.
  - intros a t t' k v b ((A1 & A2 & A3) & A4 & A5) Ht. split; [|split; [exact A4|exact A5]].
    split; [exact A1|]. split; [reflexivity|]. intros _. exact (A3 Ht).
  - intros m a n p k pid HN Hl. pose proof (FH n p HN) as EH. destruct HN as (_ & _ & _ & _ & Rl & _). specialize (Rl _ Hl).
    destruct (fixd_smo_ok L L4 L5 m DInsert (n_inner n) p (le 8 pid) (le8_len _)) as (A1 & A2 & A3 & A4 & A5 & _).
    split; [|split; [|exact A5]].
    + split; [etransitivity; [exact A1|exact Rl]|]. split; [exact A4|]. intros _. exact A2.
    + cbn [C fix_klass k_smo d_high]. rewrite A3. exact EH.
  - intros m a n p k pid HN Hl. pose proof (FH n p HN) as EH. destruct HN as (_ & _ & _ & _ & Rl & _). specialize (Rl _ Hl).
    destruct (fixd_smo_ok L L4 L5 m DMerge (n_inner n) p (le 8 pid) (le8_len _)) as (A1 & A2 & A3 & A4 & A5 & _).
    split; [exact A5|]. intros i. rewrite ffind. split; [etransitivity; [exact A1|exact Rl]|].
    cbn [fix_finder r_high d_high C fix_klass k_smo]. rewrite A3. exact EH.
  - intros m a n p k HN Hl. pose proof (FH n p HN) as EH. destruct HN as (_ & _ & _ & _ & Rl & _). specialize (Rl _ Hl).
    destruct (fixd_idel_ok L L4 L5 m p (le 8 0) (le8_len _)) as (A1 & _ & A3 & A4 & A5 & _).
    split; [|split; [|exact A5]].
    + split; [etransitivity; [exact A1|exact Rl]|]. split; [exact A4|]. cbn. congruence.
    + cbn [C fix_klass k_idel d_high]. rewrite A3. exact EH.
  - intros inner c b ds ns n a ra m m' size Hr Hk Es Hpo Ec Hne Hf Hsz.
    destruct (fix_one g L (Z.to_N (paysz g inner)) inner K lt ek (evi evl inner) e (HCi inner) HV L1 L2 L3 (PS inner) L4 L5 L7 L6
      c b ds ns n a ra m m' size false) as (q & Q1 & Q2 & _); auto.
    + eapply rep_mono; [| |exact Hr]; intros x y [<- H]; [exact H|apply H].
    + rewrite <- (one_size g inner a ra ns ds n Ec). lia.
    + right. lia.
    + exists q. split; [destruct inner; exact Q1|]. unfold fNP.
      assert (Ei : n_inner n = inner).
      { clear - Ec. unfold consolidate in Ec. destruct (low_of g inner _ _) in Ec. injection Ec as <-. reflexivity. }
      rewrite Ei. exact Q2.
  - intros inner c b ds ns l r a ra m m' size Hr Hk Es Hpo Ec Hfl Hfr Hsz.
    destruct (fix_two g L (Z.to_N (paysz g inner)) inner K lt ek (evi evl inner) e (HCi inner) HV L1 L2 L3 (PS inner) L4 L5 L7 L6
      c b ds ns l r a ra m m' size) as (ql & qr & Q1 & Q2 & Q3 & _); auto; try lia.
    + eapply rep_mono; [| |exact Hr]; intros x y [<- H]; [exact H|apply H].
    + exists ql, qr. split; [destruct inner; exact Q1|]. unfold fNP.
      assert (Ei : n_inner l = inner /\ n_inner r = inner).
      { clear - Ec. unfold consolidate in Ec. destruct (cs_left _) as [[lrs lsz]|]; [|discriminate].
        destruct (cs_cur _) as [|[rk rv] rt]; [discriminate|]. destruct (low_of g inner _ lrs) in Ec. injection Ec as <- <-. auto. }
      destruct Ei as [-> ->]. auto.
  - intros inner c b ds ns n a ra m m' size Hr Hk Es Hpo Ec Hne Hf.
    destruct (fix_one g L (Z.to_N (paysz g inner)) inner K lt ek (evi evl inner) e (HCi inner) HV L1 L2 L3 (PS inner) L4 L5 L7 L6
      c b ds ns n a ra m m' size true) as (q & Q1 & Q2 & _); auto.
    + eapply rep_mono; [| |exact Hr]; intros x y [<- H]; [exact H|apply H].
    + exists q. split; [destruct inner; exact Q1|]. unfold fNP.
      assert (Ei : n_inner n = inner).
      { clear - Ec. unfold consolidate in Ec. destruct (low_of g inner _ _) in Ec. injection Ec as <-. reflexivity. }
      rewrite Ei. exact Q2.
Qed.
End Fix.
