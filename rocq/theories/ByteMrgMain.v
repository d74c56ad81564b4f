(** Clients on bytes with node merging, the root in place. *)
From Coq Require Import ZArith NArith List Bool Lia.
From Coq Require Import ZifyBool ZifyNat ZifyN.
From Verif Require Import Config Api Spec Page Machine Tree Scan Bulk BulkSpec Client ClientSpec Valid ChainSpec ChainFacts Bytes FixLayout DeltaBytes ByteCons ByteConsSpec ByteConsFacts
  ByteFind ByteTree ByteTreeSpec ByteTreeRel ByteTreeInst ByteTreeSim ByteTreeMain ByteScan ByteScanSpec ByteScanSim ByteBulk ByteBulkSim ByteBulkMain MrgSpec ByteMrgSpec ByteMrg.
From Verif Require SeqScan SeqOps MrgInv MrgStart MrgMain MrgClient BulkConc ByteTreeConc ByteScanConc.
Import ListNotations.
Open Scope Z_scope.

Section Main.
Context {P D : Type}.
Variable C : klass P D.
Variable lt : list N -> list N -> bool.
Variable g : cfg.
Hypothesis OK : cfg_ok g.
Variables (K : Z -> Prop) (ek : Z -> list N) (evl : N -> list N).
Variables (NP : node -> P -> Prop) (DP : delta -> D -> Prop).
Hypothesis HK : klass_ok C lt g K ek evl NP DP.
Variables (pmem : P -> mem) (stat_mem junk : addr -> mem) (fuel : nat).
Notation prel := (prel C g K ek NP DP). Notation srl := (srl C K ek NP DP). Notation crl := (crl C K ek NP DP). Notation lrl := (lrl C K ek NP DP).
Notation krl_st := (krl_st C g K ek evl NP DP).
Notation BK := (bkstep C lt g pmem stat_mem junk fuel). Notation BX := (bkexec C lt g pmem stat_mem junk fuel).

(** ** The root on bytes *)
Lemma high_ok c : forall x, lrl c x -> x_high C x = option_map ek (c_hi c).
Proof.
  induction c as [n|d nx IH|d n nx IH|]; intros [p|bd bx|bd p bx]; cbn [ByteTreeRel.lrl x_high]; try contradiction; intros S.
  - destruct S as (_ & _ & _ & S & _). apply (ko_page _ _ _ _ _ _ _ _ HK _ _ (tp_inner p) S).
  - exact (IH _ (proj2 S)).
  - destruct S as (_ & (_ & _ & _ & S & _) & _). apply (ko_page _ _ _ _ _ _ _ _ HK _ _ (tp_inner p) S).
Qed.
Lemma in_place xs s r : srl xs s -> xroot_in_place C r xs -> root_in_place r s.
Proof.
  intros Hs (E & x & T & H). split; [rewrite <- (sr_root _ _ _ _ _ _ _ Hs); exact E|].
  pose proof (sr_tbl _ _ _ _ _ _ _ Hs r) as Q. rewrite T in Q. destruct (s_tbl s r) as [c|]; [|contradiction]. cbn in Q.
  exists c. split; auto. pose proof (high_ok c x Q) as Hh. rewrite H in Hh. split.
  - destruct c; auto. destruct x; contradiction.
  - destruct (c_hi c); [discriminate|auto].
Qed.

(** ** The memory follows, whatever threads meet *)
Lemma pstep_mem {B A} (R : B -> A -> Prop) x m spur xs s m' s' : prel R x m -> (forall u, m <> UB u) -> srl xs s ->
  pstep m spur s = Some (m', s') -> exists x' xs', xstep x_addr junk x spur xs = Some (x', xs') /\ srl xs' s'.
Proof.
  intros H Hu Hs Hp. pose proof Hs as [T1 T2 T3 T4 T5 T6 T7]. destruct H; cbn [pstep] in Hp; try discriminate.
  - cbn [xstep]. pose proof (T1 p) as Q. destruct (s_tbl s p), (x_tbl xs p); try contradiction; injection Hp as <- <-; eauto.
  - injection Hp as <- <-. cbn [xstep]. eexists _, _. split; [reflexivity|]. apply put_srl; auto.
  - cbn [xstep]. assert (E : cas_ok s w spur p e = match x_tbl xs p with Some c0 => (x_addr c0 =? e)%N && negb (w && spur) | None => false end).
    { unfold cas_ok. pose proof (T1 p) as Q. destruct (s_tbl s p) as [c0|], (x_tbl xs p) as [b0|]; try contradiction; auto.
      cbn in Q. rewrite (x_addr_ok C K ek NP DP c0 b0 Q). reflexivity. }
    rewrite <- E. destruct (cas_ok s w spur p e); injection Hp as <- <-; eexists _, _; (split; [reflexivity|]); auto. apply put_srl; auto.
  - injection Hp as <- <-. cbn [xstep]. eauto.
  - injection Hp as <- <-. cbn [xstep]. eexists _, _. split; [reflexivity|]. constructor; auto.
  - cbn [xstep]. rewrite T2. destruct (N.eqb (s_root s) o); injection Hp as <- <-; eexists _, _; (split; [reflexivity|]); auto. constructor; auto.
  - injection Hp as <- <-. cbn [xstep]. eexists _, _. split; [reflexivity|]. rewrite T4. constructor; auto.
  - injection Hp as <- <-. cbn [xstep]. eexists _, _. split; [reflexivity|]. rewrite T5. constructor; auto.
  - injection Hp as <- <-. cbn [xstep]. eauto.
  - injection Hp as <- <-. cbn [xstep]. eexists _, _. split; [reflexivity|]. constructor; auto.
    cbn. intros q. unfold upd. destruct (N.eqb q a); auto.
  - injection Hp as <- <-. cbn [xstep]. eexists _, _. split; [reflexivity|]. constructor; auto. cbn. rewrite T7. reflexivity.
Qed.
Lemma kstep_mem b c t spur : krl_st b c -> ~ kcrashed c -> srl (bk_mem (fst (BK b t spur))) (k_mem (fst (kstep g fuel c t spur))).
Proof.
  intros [Hs Ht] N1. unfold bkstep, kstep. pose proof (f2_nth _ _ _ Ht t) as Q.
  destruct (nth_error (bk_thr b) t) as [bt|] eqn:Eb, (nth_error (k_thr c) t) as [th|] eqn:Ec; try contradiction; [|exact Hs].
  destruct bt as [cb bt|x bt], th as [ca td|m td]; cbn [krl] in Q; try contradiction.
  - destruct Q as (_ & -> & _). destruct td; exact Hs.
  - destruct Q as (Hp & _ & _).
    assert (NU : forall u, m <> UB u).
    { intros u ->. apply N1. exists u, td. eapply nth_error_In; eauto. }
    destruct (pstep m spur (k_mem c)) as [[m' s']|] eqn:Ep.
    + destruct (pstep_mem _ x m spur (bk_mem b) (k_mem c) m' s' Hp NU Hs Ep) as (x' & xs' & Ex & Hs').
      assert (Nx : forall r, x <> XRet r) by (intros r ->; cbn in Ex; discriminate).
      destruct x; try (destruct (Nx _ eq_refl)); rewrite Ex; destruct m; try discriminate; exact Hs'.
    + destruct Hp; cbn [pstep] in Ep; try discriminate; try (destruct (s_tbl _ _); discriminate); try (destruct (cas_ok _ _ _ _ _); discriminate); try (destruct (N.eqb _ _); discriminate).
      * destruct (NU _ eq_refl).
      * exact Hs.
      * destruct b0, a. exact Hs.
Qed.

(** ** Both executions side by side *)
Variables (A0 : addr) (R0 : pid) (L0 : nat).
Notation kinv := (MrgClient.kinv g A0 R0 L0). Notation kreqs := (MrgClient.kreqs L0).
Lemma kjoint sch : forall b c gh f, krl_st b c -> kinv c gh f -> kreqs c -> xroot_stays C lt g pmem stat_mem junk fuel R0 b sch ->
  (s_npid (k_mem c) + N.of_nat (length sch) <= max64)%N ->
  kroot_stays g fuel R0 c sch /\ krl_st (fst (BX b sch)) (fst (kexec g fuel c sch)) /\
  snd (BX b sch) = map (enc_kevent ek evl) (snd (kexec g fuel c sch)).
Proof.
  induction sch as [|[t spur] sch IH]; intros b c gh f Hr Hi Hq Hst Hn; pose proof (in_place _ _ _ (proj1 Hr) (Hst [] _ eq_refl)) as St.
  { split; [|split; [exact Hr|reflexivity]]. intros [|? ?] post E; [exact St|discriminate]. }
  pose proof (MrgClient.kinv_nocrash _ _ _ _ _ _ _ Hi) as NC. pose proof (kstep_mem b c t spur Hr NC) as Hm.
  assert (Hst' : xroot_stays C lt g pmem stat_mem junk fuel R0 (fst (BK b t spur)) sch).
  { intros pre post ->. pose proof (Hst ((t, spur) :: pre) post eq_refl) as X. cbn [bkexec] in X.
    destruct (BK b t spur) as [b1 h1]. cbn [fst]. destruct (BX b1 pre). exact X. }
  pose proof (in_place _ _ _ Hm (Hst' [] sch eq_refl)) as St'.
  destruct (MrgClient.kstep_ok g OK _ _ _ fuel c gh f t spur Hi Hq St St') as (gh' & f' & Hi' & _).
  pose proof (MrgClient.kreqs_step g L0 fuel c t spur Hq) as Hq'.
  assert (Np : (s_npid (k_mem (fst (kstep g fuel c t spur))) <= s_npid (k_mem c) + 1)%N).
  { pose proof (kexec_npid1 g 0%N stat_mem junk fuel [(t, spur)] c) as X. cbn [kexec length] in X. destruct (kstep g fuel c t spur). cbn [fst] in *. lia. }
  cbn [length] in Hn.
  destruct (kstep_sim C lt g K ek evl NP DP HK pmem stat_mem junk fuel b c t spur Hr) as [A B].
  { split; [exact NC|lia]. }
  { intros m r x Et Mt. eapply (kstep_meets g); [exact Hi|exact St|exact St'|exact Et|exact Mt]. }
  { split; [eapply MrgClient.kinv_nocrash; eauto|lia]. }
  destruct (IH _ _ _ _ A Hi' Hq' Hst' ltac:(lia)) as (S2 & A2 & B2). cbn [bkexec kexec].
  split.
  - intros [|[t1 b1] pre] post E; [exact St|]. injection E as <- <- E. pose proof (S2 pre post E) as X. cbn [kexec].
    destruct (kstep g fuel c t spur) as [c1 h1]. cbn [fst] in X. destruct (kexec g fuel c1 pre). exact X.
  - destruct (BK b t spur) as [b1 e1], (kstep g fuel c t spur) as [c1 h1]. cbn [fst snd] in *.
    destruct (BX b1 sch) as [b2 e2], (kexec g fuel c1 sch) as [c2 h2]. cbn [fst snd] in *.
    split; [exact A2|]. rewrite map_app. congruence.
Qed.
End Main.

Section Start.
Context {P D : Type}.
Variable C : klass P D.
Variable lt : list N -> list N -> bool.
Variable g : cfg.
Hypothesis OK : cfg_ok g.
Variables (K : Z -> Prop) (ek : Z -> list N) (evl : N -> list N).
Variables (NP : node -> P -> Prop) (DP : delta -> D -> Prop).
Hypothesis HK : klass_ok C lt g K ek evl NP DP.
Variables (pmem : P -> mem) (stat_mem junk : addr -> mem) (fuel : nat).

Lemma two_levels_bytes xs s M : srl C K ek NP DP xs s -> SeqOps.tree g s M -> MrgStart.addr_lt s -> x_two_levels C xs -> two_levels s.
Proof.
  intros Hs T AD H c Tc. pose proof (sr_tbl _ _ _ _ _ _ _ Hs) as Q. pose proof (Q (s_root s)) as Qr. rewrite Tc in Qr.
  destruct (x_tbl xs (s_root s)) as [b|] eqn:Tb; [|contradiction]. cbn in Qr.
  rewrite <- (sr_root _ _ _ _ _ _ _ Hs) in Tb. destruct (H b Tb) as [Lf|(x & d & -> & Td & Lf)].
  - left. rewrite <- (x_leaf_ok C lt g K ek evl NP DP HK c b Qr). exact Lf.
  - destruct (h_leaf c) eqn:El; [auto|right]. pose proof T as (flat & N & lv & UP & GL & FM).
    pose proof (MrgStart.start_inv g OK s M N lv flat UP GL FM AD) as Hi.
    destruct (MrgMain.tree_stable g s M T) as (_ & c' & Tc' & Rc & _). rewrite Tc in Tc'. injection Tc' as <-.
    destruct (MrgInv.live_at _ _ _ _ _ _ _ _ _ Hi (MrgInv.i_root _ _ _ _ _ Hi) Tc Rc) as (_ & _ & Kc).
    pose proof (MrgInv.s_wf _ _ _ (MrgInv.n_sok _ _ _ _ _ _ _ Kc)) as W. pose proof (MrgInv.cwf_lf _ _ _ W) as Hl.
    rewrite El in Hl. destruct (MrgInv.inn (length lv)); [|discriminate]. cbn in W.
    pose proof (SeqScan.leftmost_inner g c W) as Lm. pose proof (leftmost_ok C lt g K ek evl NP DP HK c x _ Qr (iwf_lev g c W) Lm) as Eb.
    rewrite Eb in Td. pose proof (Q (ilead c)) as Qd. rewrite Td in Qd. destruct (s_tbl s (ilead c)) as [dc|] eqn:Ed; [|contradiction].
    exists (ilead c), dc. split; [exact Lm|]. split; [exact Ed|]. rewrite <- (x_leaf_ok C lt g K ek evl NP DP HK dc d Qd). exact Lf.
Qed.

Lemma mrg_clients xs s M todos mems sch : srl C K ek NP DP xs s -> SeqOps.tree g s M -> MrgStart.addr_lt s ->
  Forall (Forall (req_keys K)) todos -> length mems = length todos -> begins_given todos \/ x_two_levels C xs ->
  let c0 := bkstart xs (combine mems (map (map (enc_req ek evl)) todos)) in
  xroot_stays C lt g pmem stat_mem junk fuel (x_root xs) c0 sch -> (x_npid xs + N.of_nat (length sch) <= max64)%N ->
  let e := bkexec C lt g pmem stat_mem junk fuel c0 sch in
  ~ bkcrashed (fst e) /\
  exists steps, snd e = map (enc_kevent ek evl) (concat (map snd steps)) /\ map fst steps = map fst sch /\ told M no_view steps.
Proof.
  intros Hs T AD Hk Hl BG c0 Rs Hn e. subst c0 e.
  pose proof T as (flat & N & lv & UP & GL & FM). pose proof (MrgStart.start_inv g OK s M N lv flat UP GL FM AD) as Hi.
  assert (BG' : begins_given todos \/ two_levels s) by (destruct BG as [BG|BG]; [auto|right; eapply two_levels_bytes; eauto]).
  assert (Ki : MrgClient.kinv g (s_naddr s) (s_root s) (length lv) (kstart s todos) (MrgStart.sgh M N lv) no_view).
  { split; [exact Hi|]. cbn [k_mem k_thr kstart]. intros t th E. apply nth_error_In in E.
    apply in_map_iff in E as (td & <- & _). repeat split; reflexivity. }
  assert (Kq : MrgClient.kreqs (length lv) (kstart s todos)).
  { cbn [k_thr kstart]. intros t th E. apply nth_error_In in E. apply in_map_iff in E as (td & <- & Htd). cbn [MrgClient.todo_of].
    apply Forall_forall. intros [o|[b|] e| |drec] Hq; cbn [MrgClient.okreq]; auto.
    destruct BG' as [BG'|BG']; [exfalso; apply (BG' _ _ _ Htd Hq); auto|]. eapply MrgClient.two_levels_lev; eauto. }
  assert (Kr : krl_st C g K ek evl NP DP (bkstart xs (combine mems (map (map (enc_req ek evl)) todos))) (kstart s todos)).
  { split; [exact Hs|]. cbn [bkstart kstart bk_thr k_thr]. clear Rs Ki Kq BG BG'. revert mems Hl.
    induction Hk as [|td todos H _ IH]; intros [|m mems] Hl; try discriminate; cbn; constructor; auto. cbn. auto. }
  rewrite (sr_root _ _ _ _ _ _ _ Hs) in Rs. rewrite (sr_npid _ _ _ _ _ _ _ Hs) in Hn.
  destruct (kjoint C lt g OK K ek evl NP DP HK pmem stat_mem junk fuel _ _ _ sch _ _ _ _ Kr Ki Kq Rs Hn) as (S1 & [_ A] & B).
  destruct (MrgClient.kexplained_ok g OK _ _ _ fuel sch _ _ _ Ki Kq S1) as [Ex (gh & f & Ki')].
  pose proof (MrgClient.kinv_nocrash _ _ _ _ _ _ _ Ki') as NC. split.
  - intros (u & r & Hin). apply In_nth_error in Hin as [t E].
    pose proof (f2_nth _ _ _ A t) as Q. rewrite E in Q. destruct (nth_error _ t) as [[|m td]|] eqn:Et in Q; try contradiction.
    cbn in Q. destruct Q as (Q & _). inversion Q; subst. apply NC. exists u0, td. eapply nth_error_In; eauto.
  - destruct (ByteScanConc.told_history g fuel sch _ _ _ Ex) as (steps & E & X & Y). exists steps. split; [|auto].
    rewrite B. f_equal. exact E.
Qed.

Lemma xroot_stays_ok r sch : forall c, xroot_stays_b C lt g pmem stat_mem junk fuel r c sch = true -> xroot_stays C lt g pmem stat_mem junk fuel r c sch.
Proof.
  assert (P0 : forall s, xroot_in_place_b C r s = true -> xroot_in_place C r s).
  { unfold xroot_in_place_b, xroot_in_place. intros s H. apply andb_true_iff in H as [H1 H2]. apply N.eqb_eq in H1. split; auto.
    destruct (x_tbl s r) as [[x|]|]; try discriminate. exists x. split; auto. destruct (x_high C x); [discriminate|auto]. }
  induction sch as [|[t b] sch IH]; intros c H; cbn [xroot_stays_b] in H; apply andb_true_iff in H as [H1 H2];
    intros [|[t' b'] pre] post E; cbn [app] in E; try discriminate; try (apply P0; exact H1).
  injection E as <- <- E. specialize (IH _ H2 pre post E). cbn [bkexec].
  destruct (bkstep C lt g pmem stat_mem junk fuel c t b) as [c' h]. cbn [fst] in *. destruct (bkexec C lt g pmem stat_mem junk fuel c' pre). exact IH.
Qed.
Lemma x_two_levels_ok s : x_two_levels_b C s = true -> x_two_levels C s.
Proof.
  intros B b Hb. unfold x_two_levels_b in B. rewrite Hb in B. apply orb_true_iff in B.
  destruct B as [B|B]; [left; exact B|right]. destruct b as [x|]; [|discriminate].
  destruct (x_tbl s (b_leftmost C x)) as [d|] eqn:E; [|discriminate]. eauto.
Qed.
End Start.

(** ** After Bulkload *)
Section Loaded.
Variables (g : cfg) (K : Z -> Prop) (lt : list N -> list N -> bool) (ek : Z -> list N) (evl : N -> list N) (L : flay) (e : N).
Hypothesis OK : cfg_ok g.
Hypothesis HV : c_varlen g = false.
Hypothesis HL : flay_ok g L e.
Hypothesis HC : coding g false K lt ek evl.
Hypothesis BC : bulk_ok g.
Notation lps := (Z.to_N (c_paylen g)).
Notation C := (fix_klass L lps lt).
Lemma loaded_merging junk es xs' stat_mem mems fuel todos sch : Forall (fun x => K (fst x)) es -> ascending es -> es <> [] ->
  xbulkloaded L lps lt g junk (map (fun x => (ek (fst x), evl (snd x))) es) (xinit C junk) xs' ->
  Forall (Forall (req_keys K)) todos -> length mems = length todos -> begins_given todos \/ x_two_levels C xs' ->
  let c0 := bkstart xs' (combine mems (map (map (enc_req ek evl)) todos)) in
  xroot_stays C lt g fix_pmem stat_mem junk fuel (x_root xs') c0 sch -> (x_npid xs' + N.of_nat (length sch) <= max64)%N ->
  let e := bkexec C lt g fix_pmem stat_mem junk fuel c0 sch in
  ~ bkcrashed (fst e) /\
  exists steps, snd e = map (enc_kevent ek evl) (concat (map snd steps)) /\ map fst steps = map fst sch /\ told (fun k => ListFacts.find k es) no_view steps.
Proof.
  intros Hk Ha Hn HB HT Hl BG c0 Rs Hp. destruct (loaded_bytes g K lt ek evl L e OK HV HL HC BC junk es xs' Hk Ha Hn HB ltac:(lia)) as (s' & BL & Hs).
  destruct (BulkConc.loaded_tree g OK HV BC 1%nat [] [] (init g) es s' eq_refl Ha Hn BL) as [T AD].
  exact (mrg_clients C lt g OK K ek evl _ _ (fix_ok g K lt ek evl L e OK HV HL HC) fix_pmem stat_mem junk fuel xs' s' _ todos mems sch
    (weak_srl g K lt ek evl L xs' s' Hs) T AD HT Hl BG Rs Hp).
Qed.
End Loaded.
