(** Concurrent executions without merging are steady. *)
From Coq Require Import ZArith NArith List Bool Lia.
From Verif Require Import Config Api Spec Page Machine Tree Conc Valid ListFacts ChainSpec ChainFacts ConsolidateFacts SeqSpec
  ConcChain ConcInv ConcMain Bytes ByteCons ByteConsSpec ByteConsFacts ByteConsChain ByteTree ByteTreeSpec.
From Verif Require GcFacts.
Import ListNotations.
Open Scope Z_scope.

Lemma sort_pages c ds ns : mhigh_ok c -> dc_sort c [] [] = Some (ds, ns) -> sort_ok c ds /\ ns = pages c.
Proof.
  intros Hm Es. destruct (sort_ok_ex c Hm) as (ds' & Hs). pose proof Hs as (E & _).
  rewrite Es in E. injection E as -> ->. auto.
Qed.
Lemma lwf_lev g c : lwf g c -> lev false c.
Proof. induction c as [n|d nx IH|d n nx IH|]; cbn [lwf lev]; auto; [intros H; apply H|tauto|]. intros (A & B & E & _). repeat split; auto. apply B. Qed.
Lemma jwf_lev g c : jwf g c -> lev true c.
Proof. induction c as [n|d nx IH|d n nx IH|]; cbn [jwf lev]; auto; [intros H; apply H|tauto|tauto]. Qed.
Lemma lwf_hleaf g c : lwf g c -> h_leaf c = true.
Proof. destruct c; cbn [lwf h_leaf]; try tauto; [intros (H & _)|intros (_ & H & _)|intros (_ & _ & H & _)]; rewrite H; reflexivity. Qed.

Lemma lwf_sane g c : lwf g c -> sane g c.
Proof.
  intros H. pose proof (lwf_hleaf g c H) as E. unfold sane. destruct c as [n|d nx|d n nx|a l]; auto; try rewrite E; cbn [negb].
  - cbn in H, E. intros X. rewrite X in E. discriminate.
  - split; [apply (lwf_lev g); exact H|]. intros ds ns Es. destruct (sort_pages _ _ _ (lwf_mhigh g _ H) Es) as [_ ->].
    split; [apply (pages_cwf g false); exact H|discriminate].
  - split; [apply (lwf_lev g); exact H|]. intros ds ns Es. destruct (sort_pages _ _ _ (lwf_mhigh g _ H) Es) as [_ ->].
    split; [apply (pages_cwf g false); exact H|discriminate].
Qed.
Lemma jwf_sane g c : cfg_ok g -> jwf g c -> sane g c.
Proof.
  intros OK H. pose proof (jwf_inner g c H) as E. unfold sane. destruct c as [n|d nx|d n nx|a l]; auto; try rewrite E; cbn [negb]; [| |destruct H].
  { intros _. destruct H as (_ & (k0 & -> & _) & _). discriminate. }
  split; [apply (jwf_lev g); exact H|]. intros ds ns Es. destruct (sort_pages _ _ _ (jwf_mhigh g _ H) Es) as [Hs ->].
  set (c := CRec d nx) in *. pose proof (jpages g c H) as Ep. assert (Ep' : pages c = [c_base c]) by (rewrite <- (rev_involutive (pages c)), Ep; reflexivity).
  rewrite Ep'. destruct (jwf_base g c H) as (Bi & (k0 & Er & _) & _). split.
  - split; [discriminate|]. split; [constructor; auto|]. split; [constructor|]. cbn [last]. rewrite Er. discriminate.
  - intros _ a ra n Ec. rewrite <- Ep' in Ec. rewrite (cons_j_one g c ds a ra H Hs) in Ec. injection Ec as <-. discriminate.
Qed.

(** Page IDs only grow. *)
Lemma pstep_npid {A} (m : prog A) spur s m' s' : pstep m spur s = Some (m', s') -> (s_npid s <= s_npid s')%N.
Proof.
  destruct m; cbn [pstep]; try discriminate; try (destruct (s_tbl s p)); try (destruct (cas_ok s weak spur p e)); try (destruct (N.eqb (s_root s) old));
    intros E; injection E as <- <-; cbn; lia.
Qed.
Lemma cstep_npid g fuel c t b : (s_npid (c_mem c) <= s_npid (c_mem (fst (cstep g fuel c t b))))%N.
Proof.
  unfold cstep. destruct (nth_error (c_thr c) t) as [[[|o r]|m r]|]; cbn; try lia.
  destruct (pstep m b (c_mem c)) as [[m' s']|] eqn:E; [apply pstep_npid in E|]; destruct m; cbn; try lia.
Qed.
Lemma exec_npid g fuel sch : forall c i,
  (s_npid (c_mem (fst (exec g fuel c (firstn i sch)))) <= s_npid (c_mem (fst (exec g fuel c sch))))%N.
Proof.
  assert (M : forall sch c, (s_npid (c_mem c) <= s_npid (c_mem (fst (exec g fuel c sch))))%N).
  { induction sch0 as [|[t b] sch0 IH]; intros c; cbn [exec]; [cbn; lia|]. pose proof (cstep_npid g fuel c t b) as H.
    destruct (cstep g fuel c t b) as [c1 h1]. specialize (IH c1). destruct (exec g fuel c1 sch0). cbn [fst] in *. lia. }
  induction sch as [|[t b] sch IH]; intros c [|i]; cbn [firstn]; try (cbn; lia); [apply M|].
  cbn [exec]. destruct (cstep g fuel c t b) as [c1 h1]. specialize (IH c1 i).
  destruct (exec g fuel c1 (firstn i sch)), (exec g fuel c1 sch). exact IH.
Qed.

Lemma exec_snoc g fuel c s t b : fst (exec g fuel c (s ++ [(t, b)])) = fst (cstep g fuel (fst (exec g fuel c s)) t b).
Proof. rewrite GcFacts.exec_app. cbn [exec]. destruct (cstep g fuel (fst (exec g fuel c s)) t b). reflexivity. Qed.

Lemma nm_steady g fuel todos sch : cfg_ok g -> hdr_ok g -> no_merge g ->
  (s_npid (c_mem (fst (exec g fuel (start (init g) todos) sch))) <= 2 ^ 64)%N ->
  steady g fuel (start (init g) todos) sch.
Proof.
  intros OK HO NM Hp i. cbn zeta.
  assert (TB : forall sch p x, s_tbl (c_mem (fst (exec g fuel (start (init g) todos) sch))) p = Some x -> sane g x).
  { clear Hp i sch. intros sch p x T. destruct (conc_inv g fuel todos sch OK HO NM) as [gh [Hi _]]. set (c' := fst (exec _ _ _ _)) in *.
    destruct (nd gh p) as [[lf lo]|] eqn:E.
    - pose proof (n_wf _ _ _ _ _ _ (nok_at g (mk_w (c_mem c') gh) _ _ _ _ Hi E T)) as W. destruct lf; [apply lwf_sane|apply jwf_sane]; auto.
    - destruct (i_prv _ _ Hi p x E T) as ((B & _ & R) & _). destruct x; try discriminate. cbn. apply R; auto. }
  set (c' := fst (exec _ _ _ _)). destruct (conc_inv g fuel todos (firstn i sch) OK HO NM) as [gh H].
  fold c' in H. split; [eapply cinv_nocrash; eauto|]. split; [|eapply N.le_trans; [apply exec_npid|exact Hp]].
  intros t b m r x _ Et M. destruct m; cbn [meets] in M; try contradiction; [exact (TB _ _ _ M)|].
  destruct M as [-> M]. apply (TB (firstn i sch ++ [(t, b)]) p c). rewrite exec_snoc. transitivity (s_tbl (c_mem (fst (cstep g fuel c' t b))) p); [reflexivity|].
  unfold cstep. rewrite Et. cbn [pstep]. rewrite M. cbn. unfold upd. rewrite N.eqb_refl. reflexivity.
Qed.
