(** Concurrent executions of clients without merging are steady, and their histories are
    explained without looking at the tree. *)
From Coq Require Import ZArith NArith List Bool Lia.
From Verif Require Import Config Api Spec Page Machine Tree Scan Client ClientSpec ClientFacts Valid ConcChain ConcInv ConcMain
  Bytes ByteTree ByteTreeSpec ByteTreeConc ByteScan ByteScanSpec.
From Verif Require KGcFacts.
Import ListNotations.
Open Scope Z_scope.

Lemma kstep_npid g fuel c t b : (s_npid (k_mem c) <= s_npid (k_mem (fst (kstep g fuel c t b))))%N.
Proof.
  unfold kstep. destruct (nth_error (k_thr c) t) as [[cu [|o r]|m r]|]; cbn; try lia.
  destruct (pstep m b (k_mem c)) as [[m' s']|] eqn:E; [apply pstep_npid in E|]; destruct m as [[]| | | | | | | | | | | | | |]; cbn; try lia.
Qed.
Lemma kexec_npid g fuel sch : forall c i,
  (s_npid (k_mem (fst (kexec g fuel c (firstn i sch)))) <= s_npid (k_mem (fst (kexec g fuel c sch))))%N.
Proof.
  assert (M : forall sch c, (s_npid (k_mem c) <= s_npid (k_mem (fst (kexec g fuel c sch))))%N).
  { induction sch0 as [|[t b] sch0 IH]; intros c; cbn [kexec]; [cbn; lia|]. pose proof (kstep_npid g fuel c t b) as H.
    destruct (kstep g fuel c t b) as [c1 h1]. specialize (IH c1). destruct (kexec g fuel c1 sch0). cbn [fst] in *. lia. }
  induction sch as [|[t b] sch IH]; intros c [|i]; cbn [firstn]; try (cbn; lia); [apply M|].
  cbn [kexec]. destruct (kstep g fuel c t b) as [c1 h1]. specialize (IH c1 i).
  destruct (kexec g fuel c1 (firstn i sch)), (kexec g fuel c1 sch). exact IH.
Qed.

Lemma kexec_snoc g fuel c s t b : fst (kexec g fuel c (s ++ [(t, b)])) = fst (kstep g fuel (fst (kexec g fuel c s)) t b).
Proof. rewrite KGcFacts.kexec_app. cbn [fst kexec]. destruct (kstep g fuel (fst (kexec g fuel c s)) t b). reflexivity. Qed.

Lemma nm_ksteady g fuel todos sch : cfg_ok g -> hdr_ok g -> no_merge g ->
  (s_npid (k_mem (fst (kexec g fuel (kstart (init g) todos) sch))) <= 2 ^ 64)%N ->
  ksteady g fuel (kstart (init g) todos) sch.
Proof.
  intros OK HO NM Hp i. cbn zeta.
  assert (TB : forall sch p x, s_tbl (k_mem (fst (kexec g fuel (kstart (init g) todos) sch))) p = Some x -> sane g x).
  { clear Hp i sch. intros sch p x T.
    destruct (kexplained_ok g OK HO NM fuel sch _ (gh0 g) no_view (kstart_inv g OK todos)) as [_ (gh & f & Hi & _)].
    set (c' := fst (kexec _ _ _ _)) in *. destruct (nd gh p) as [[lf lo]|] eqn:E.
    - pose proof (n_wf _ _ _ _ _ _ (nok_at g (mk_w (k_mem c') gh) _ _ _ _ Hi E T)) as W. destruct lf; [apply lwf_sane|apply jwf_sane]; auto.
    - destruct (i_prv _ _ Hi p x E T) as ((B & _ & R) & _). destruct x; try discriminate. cbn. apply R; auto. }
  set (c' := fst (kexec _ _ _ _)).
  destruct (kexplained_ok g OK HO NM fuel (firstn i sch) _ (gh0 g) no_view (kstart_inv g OK todos)) as [_ (gh & f & H)].
  fold c' in H. split; [eapply kinv_nocrash; eauto|]. split; [|eapply N.le_trans; [apply kexec_npid|exact Hp]].
  intros t b m r x _ Et M. destruct m; cbn [meets] in M; try contradiction; [exact (TB _ _ _ M)|].
  destruct M as [-> M]. apply (TB (firstn i sch ++ [(t, b)]) p c). rewrite kexec_snoc. transitivity (s_tbl (k_mem (fst (kstep g fuel c' t b))) p); [reflexivity|].
  unfold kstep. rewrite Et. cbn [pstep]. rewrite M. cbn. unfold upd. rewrite N.eqb_refl. reflexivity.
Qed.

Lemma told_history g fuel sch : forall c M f, kexplained g fuel c M f sch ->
  exists steps, snd (kexec g fuel c sch) = concat (map snd steps) /\ map fst steps = map fst sch /\ told M f steps.
Proof.
  induction sch as [|[t b] sch IH]; intros c M f H; inversion H as [|? ? ? ? ? ? c2 h M2 f2 R1 R2 R3 R4]; subst.
  - exists []. split; [reflexivity|]. split; [reflexivity|constructor].
  - destruct (IH _ _ _ R4) as (steps & A & B & D). exists ((t, h) :: steps). cbn [kexec]. rewrite R2.
    destruct (kexec g fuel c2 sch) as [c3 h2]. cbn [snd fst map concat] in *. subst h2. rewrite B. split; auto. split; auto. econstructor; eauto.
Qed.
