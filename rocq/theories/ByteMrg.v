(** Executions with node merging are steady as long as the root stays in place. *)
From Coq Require Import ZArith NArith List Bool Lia.
From Verif Require Import Config Api Spec Page Machine Tree Scan Conc Client ClientSpec Valid ListFacts ChainSpec ChainFacts ConsolidateFacts SeqSpec SeqAux SeqOps
  MrgSpec MrgInv Bytes ByteCons ByteConsSpec ByteConsFacts ByteConsChain ByteTree ByteTreeSpec ByteScanSpec.
From Verif Require MrgStart MrgMain MrgClient ByteTreeConc ByteScanConc.
Import ListNotations.
Open Scope Z_scope.

Lemma iwf_lev g c : iwf g c -> ByteTreeSpec.lev true c.
Proof. induction c as [n|d nx IH|d n nx IH|]; cbn [iwf ByteTreeSpec.lev]; auto; [intros H; apply H|tauto|]. intros (A & B & E & _). repeat split; auto. apply B. Qed.
Lemma iwf_keeps g n : iwf g (CBase n) -> n_recs n <> [].
Proof. cbn [iwf]. intros (_ & (k0 & H & _) & _). rewrite H. discriminate. Qed.

Section Sane.
Variable g : cfg.
Lemma iwf_sane c : iwf g c -> sane g c.
Proof.
  intros H. pose proof (iwf_inner g c H) as E. unfold sane. destruct c as [n|d nx|d n nx|a l]; auto; try rewrite E; cbn [negb].
  { intros _. exact (iwf_keeps g n H). }
  all: split; [apply (iwf_lev g); exact H|]; intros ds ns Es; destruct (ByteTreeConc.sort_pages _ _ _ (iwf_mhigh g _ H) Es) as [Hs ->].
  all: split; [apply (pages_cwf g true); exact H|]; intros _ a ra m Ec.
  all: destruct (SeqAux.cons_one g true _ ds a ra H Hs) as (m' & C & W & _); rewrite C in Ec; injection Ec as <-; exact (iwf_keeps g m' W).
Qed.
Lemma cwf_sane i c : cwf g i c -> sane g c.
Proof. destruct i; cbn [cwf]; [apply iwf_sane|apply ByteTreeConc.lwf_sane]. Qed.

Variables (A0 : addr) (R0 : pid) (L0 : nat) (fuel : nat).
Notation inv := (inv g A0 R0 L0). Notation stable := (stable R0).
Lemma tbl_sane x p c : inv x -> $nd x p <> None -> $tbl x p = Some c -> sane g c.
Proof.
  intros Hi E T. destruct ($nd x p) as [[l lo]|] eqn:En; [|contradiction]. destruct (is_remove c) eqn:Rc.
  - destruct c; try discriminate. exact I.
  - destruct (live_at _ _ _ _ _ _ _ _ _ Hi En T Rc) as (_ & _ & Kc). eapply cwf_sane. apply Kc.
Qed.

Lemma wp_meets t {A} (m : prog A) Q spur x c : wp g A0 R0 L0 t m Q x -> inv x -> stable (w_s x) ->
  (forall m' s', pstep m spur (w_s x) = Some (m', s') -> stable s') -> meets m spur (w_s x) c -> sane g c.
Proof.
  intros W Hi St St' M. destruct m; cbn [meets] in M; try contradiction; cbn [MrgInv.wp] in W;
    destruct (W x (conj (rely_refl _ _ _ _) (conj Hi St))) as (Hn & H).
  - eapply tbl_sane; eauto.
  - destruct M as [-> M]. cbn [pstep] in St'. rewrite M in St'. specialize (St' _ _ eq_refl). destruct H as [H _].
    unfold cas_ok in M. destruct ($tbl x p) as [c1|] eqn:T; [|discriminate]. apply andb_true_iff in M as [M _]. apply N.eqb_eq in M.
    destruct (H c1 eq_refl M St') as (gh & Hi' & [G _] & _).
    apply (tbl_sane (mk_w (set_tbl (w_s x) p (Some c0)) gh) p); auto.
    + destruct ($nd x p) as [v|] eqn:En; [|contradiction]. pose proof (r_nd _ _ _ _ _ (G (S t) ltac:(lia)) _ _ En) as X. cbn [w_g] in *. congruence.
    + cbn. unfold upd. rewrite N.eqb_refl. reflexivity.
Qed.
Lemma rp_meets t {A} (m : prog A) Q spur L x c : MrgClient.rp g A0 R0 L0 t m Q L x -> inv x -> stable (w_s x) -> MrgClient.logged L x ->
  meets m spur (w_s x) c -> sane g c.
Proof.
  intros W Hi St Hl M. destruct m; cbn [meets] in M; try contradiction; cbn [MrgClient.rp] in W; try contradiction.
  destruct (W L x (conj (MrgClient.later_refl _ _ _ _ _) (conj Hi (conj St Hl)))) as (Hn & _). eapply tbl_sane; eauto.
Qed.

Lemma cstep_meets c gh t b m r x : MrgMain.cinv g A0 R0 L0 c gh -> stable (c_mem c) -> stable (c_mem (fst (cstep g fuel c t b))) ->
  nth_error (c_thr c) t = Some (TRun m r) -> meets m b (c_mem c) x -> sane g x.
Proof.
  intros [Hi Ht] St St' E M. pose proof (Ht _ _ E) as W. cbn [MrgMain.thr_ok] in W.
  eapply (wp_meets t m _ b (mk_w (c_mem c) gh)); eauto. intros m' s' Ep. cbn [w_s] in Ep. unfold cstep in St'. rewrite E in St'.
  destruct m; try discriminate; rewrite Ep in St'; exact St'.
Qed.
Lemma kstep_meets c gh f t b m r x : MrgClient.kinv g A0 R0 L0 c gh f -> stable (k_mem c) -> stable (k_mem (fst (kstep g fuel c t b))) ->
  nth_error (k_thr c) t = Some (KRun m r) -> meets m b (k_mem c) x -> sane g x.
Proof.
  intros [Hi Ht] St St' E M. pose proof (Ht _ _ E) as W. cbn [MrgClient.kthr] in W.
  destruct W as [(cu & _ & _ & W)|[(_ & _ & W)|(cu & L & _ & _ & _ & D & W)]].
  - eapply (wp_meets t m _ b (mk_w (k_mem c) gh)); eauto. intros m' s' Ep. cbn [w_s] in Ep. unfold kstep in St'. rewrite E in St'.
    destruct m as [[]| | | | | | | | | | | | | |]; try discriminate; rewrite Ep in St'; exact St'.
  - destruct (v_cur (f t)) as [[[[b0 e] L] l]|]; [|subst m; contradiction]. destruct W as [D [W|[_ W]]];
      eapply (rp_meets t m _ b L (mk_w (k_mem c) gh)); eauto.
  - eapply (rp_meets t m _ b L (mk_w (k_mem c) gh)); eauto.
Qed.
End Sane.

Lemma firstn_next {A} (l : list A) i x : nth_error l i = Some x -> firstn (S i) l = firstn i l ++ [x].
Proof. revert l. induction i as [|i IH]; intros [|y l] E; try discriminate; [inversion E; reflexivity|]. cbn [firstn app]. f_equal. apply IH. exact E. Qed.

Section Closed.
Variable g : cfg.
Hypothesis OK : cfg_ok g.

Lemma mrg_steady s M fuel todos sch : tree g s M -> MrgStart.addr_lt s -> root_stays g fuel (s_root s) (start s todos) sch ->
  (s_npid (c_mem (fst (exec g fuel (start s todos) sch))) <= 2 ^ 64)%N -> steady g fuel (start s todos) sch.
Proof.
  intros (flat & N & lv & UP & GL & FM) AD Rs Hp i. cbn zeta.
  pose proof (MrgStart.start_inv g OK s M N lv flat UP GL FM AD) as Hi.
  assert (C : MrgMain.cinv g (s_naddr s) (s_root s) (length lv) (start s todos) (MrgStart.sgh M N lv)).
  { split; [exact Hi|]. cbn [c_mem c_thr start]. intros t th E. apply nth_error_In in E.
    apply in_map_iff in E as (td & <- & _). reflexivity. }
  assert (Rp : root_stays g fuel (s_root s) (start s todos) (firstn i sch)).
  { intros pre post E. apply (Rs pre (post ++ skipn i sch)). rewrite app_assoc, <- E. symmetry. apply firstn_skipn. }
  destruct (MrgMain.explained_ok g OK _ _ _ fuel (firstn i sch) _ _ C Rp) as [_ [gh B]].
  split; [eapply MrgMain.cinv_nocrash; eauto|]. split; [|eapply N.le_trans; [apply ByteTreeConc.exec_npid|exact Hp]].
  intros t b m r x En Et Mt. eapply (cstep_meets g); [exact B| | |exact Et|exact Mt].
  - apply (Rs (firstn i sch) (skipn i sch)). symmetry. apply firstn_skipn.
  - pose proof (Rs (firstn (S i) sch) (skipn (S i) sch) (eq_sym (firstn_skipn _ _))) as X.
    rewrite (firstn_next (A := tid * bool) sch i (t, b) En) in X. rewrite ByteTreeConc.exec_snoc in X. exact X.
Qed.

Lemma mrg_ksteady s M fuel todos sch : tree g s M -> MrgStart.addr_lt s -> begins_given todos \/ two_levels s ->
  kroot_stays g fuel (s_root s) (kstart s todos) sch ->
  (s_npid (k_mem (fst (kexec g fuel (kstart s todos) sch))) <= 2 ^ 64)%N -> ksteady g fuel (kstart s todos) sch.
Proof.
  intros T AD BG Rs Hp i. cbn zeta. pose proof T as (flat & N & lv & UP & GL & FM).
  pose proof (MrgStart.start_inv g OK s M N lv flat UP GL FM AD) as Hi.
  assert (C : MrgClient.kinv g (s_naddr s) (s_root s) (length lv) (kstart s todos) (MrgStart.sgh M N lv) no_view).
  { split; [exact Hi|]. cbn [k_mem k_thr kstart]. intros t th E. apply nth_error_In in E.
    apply in_map_iff in E as (td & <- & _). repeat split; reflexivity. }
  assert (Q : MrgClient.kreqs (length lv) (kstart s todos)).
  { cbn [k_thr kstart]. intros t th E. apply nth_error_In in E. apply in_map_iff in E as (td & <- & Htd). cbn [MrgClient.todo_of].
    apply Forall_forall. intros [o|[b|] e| |drec] Hq; cbn [MrgClient.okreq]; auto.
    destruct BG as [BG|BG]; [exfalso; apply (BG _ _ _ Htd Hq); auto|]. eapply MrgClient.two_levels_lev; eauto. }
  assert (Rp : kroot_stays g fuel (s_root s) (kstart s todos) (firstn i sch)).
  { intros pre post E. apply (Rs pre (post ++ skipn i sch)). rewrite app_assoc, <- E. symmetry. apply firstn_skipn. }
  destruct (MrgClient.kexplained_ok g OK _ _ _ fuel (firstn i sch) _ _ _ C Q Rp) as [_ (gh & f & B)].
  split; [eapply MrgClient.kinv_nocrash; eauto|]. split; [|eapply N.le_trans; [apply ByteScanConc.kexec_npid|exact Hp]].
  intros t b m r x En Et Mt. eapply (kstep_meets g); [exact B| | |exact Et|exact Mt].
  - apply (Rs (firstn i sch) (skipn i sch)). symmetry. apply firstn_skipn.
  - pose proof (Rs (firstn (S i) sch) (skipn (S i) sch) (eq_sym (firstn_skipn _ _))) as X.
    rewrite (firstn_next (A := tid * bool) sch i (t, b) En) in X. rewrite ByteScanConc.kexec_snoc in X. exact X.
Qed.
End Closed.
