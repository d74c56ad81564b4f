(** Executions of the tree on bytes follow executions of Tree.v. *)
From Coq Require Import ZArith NArith List Bool Lia.
From Verif Require Import Config Api Spec Page Machine Tree Conc Valid Bytes ByteCons ByteConsSpec ByteFind ByteFindSpec
  ByteTree ByteTreeSpec ByteTreeRel ByteTreeSim.
Import ListNotations.
Open Scope Z_scope.

Section Main.
Context {P D : Type}.
Variable C : klass P D.
Variable lt : list N -> list N -> bool.
Variable g : cfg.
Variables (K : Z -> Prop) (ek : Z -> list N) (evl : N -> list N).
Variables (NP : node -> P -> Prop) (DP : delta -> D -> Prop).
Hypothesis HK : klass_ok C lt g K ek evl NP DP.
Variables (junk : addr -> mem) (fuel : nat).

Notation ch := (tchain P D).
Notation crl := (crl C K ek NP DP).
Notation prel := (prel C g K ek NP DP).

Definition trl (b : option ch) (c : option chain) : Prop :=
  match b, c with Some b, Some c => crl c b | None, None => True | _, _ => False end.
Record srl (x : xst ch) (s : st) : Prop := mk_srl {
  sr_tbl : forall p, trl (x_tbl x p) (s_tbl s p);
  sr_root : x_root x = s_root s;
  sr_max : (s_root s < max64)%N;
  sr_npid : x_npid x = s_npid s;
  sr_naddr : x_naddr x = s_naddr s;
  sr_cell : forall a, x_cell x a = s_cell s a;
  sr_gc : x_gc x = s_gc s }.

Lemma put_srl x s p b c : srl x s -> crl c b ->
  srl (mk_xst (upd (x_tbl x) p (Some b)) (x_root x) (x_npid x) (x_naddr x) (x_cell x) (x_gc x)) (set_tbl s p (Some c)).
Proof.
  intros [] Hc. constructor; auto. cbn. intros q. unfold upd. destruct (N.eqb q p); [exact Hc|apply sr_tbl0].
Qed.

Lemma pstep_sim {B A} (R : B -> A -> Prop) x m spur xs s m' s' : prel R x m -> srl xs s -> (forall c, meets m spur s c -> sane g c) ->
  pstep m spur s = Some (m', s') -> (s_npid s' <= max64)%N -> (forall u, m' <> UB u) ->
  exists x' xs', xstep x_addr junk x spur xs = Some (x', xs') /\ prel R x' m' /\ srl xs' s'.
Proof.
  intros H Hs S1 Hp S3 Hu. pose proof Hs as [T1 T2 T3 T4 T5 T6 T7].
  destruct H; cbn [pstep] in Hp; try discriminate.
  - destruct (s_tbl s p) as [c|] eqn:E; injection Hp as <- <-; [|destruct (Hu _ eq_refl)]. pose proof (T1 p) as Q. rewrite E in Q.
    cbn [xstep]. destruct (x_tbl xs p) as [b|]; [|contradiction]. eauto 10.
  - injection Hp as <- <-. cbn [xstep]. eexists _, _. split; [reflexivity|]. split; [auto|]. apply put_srl; auto.
  - cbn [xstep]. assert (E : cas_ok s w spur p e = match x_tbl xs p with Some c0 => (x_addr c0 =? e)%N && negb (w && spur) | None => false end).
    { unfold cas_ok. pose proof (T1 p) as Q. destruct (s_tbl s p) as [c0|], (x_tbl xs p) as [b0|]; try contradiction; auto.
      cbn in Q. rewrite (x_addr_ok C K ek NP DP c0 b0 Q). reflexivity. }
    rewrite <- E. destruct (cas_ok s w spur p e) eqn:Ek; injection Hp as <- <-.
    + eexists _, _. split; [reflexivity|]. split.
      * apply H0. apply S1. cbn. auto.
      * apply put_srl; auto.
    + eexists _, _. split; [reflexivity|]. auto.
  - injection Hp as <- <-. cbn [xstep]. rewrite T2. eexists _, _. split; [reflexivity|]. split; [apply H; auto|auto].
  - injection Hp as <- <-. cbn [xstep]. eexists _, _. split; [reflexivity|]. split; [auto|]. constructor; auto.
  - cbn [xstep]. rewrite T2. destruct (N.eqb (s_root s) o); injection Hp as <- <-; eexists _, _; (split; [reflexivity|]); (split; [auto|]); auto.
    constructor; auto.
  - injection Hp as <- <-. cbn [xstep]. eexists _, _. split; [reflexivity|]. rewrite T4. split.
    + apply H. change (s_npid s + 1 <= max64)%N in S3. lia.
    + constructor; auto.
  - injection Hp as <- <-. cbn [xstep]. eexists _, _. split; [reflexivity|]. rewrite T5. split; [auto|]. constructor; auto.
  - injection Hp as <- <-. cbn [xstep]. eexists _, _. split; [reflexivity|]. rewrite T6. split; auto.
  - injection Hp as <- <-. cbn [xstep]. eexists _, _. split; [reflexivity|]. split; [auto|]. constructor; auto.
    cbn. intros q. unfold upd. destruct (N.eqb q a); auto.
  - injection Hp as <- <-. cbn [xstep]. eexists _, _. split; [reflexivity|]. split; [auto|]. constructor; auto.
    cbn. rewrite T7. reflexivity.
Qed.

Definition thr_rl (b : @bthread P D) (t : thread) : Prop :=
  match b, t with
  | UIdle bt, TIdle td => bt = map (enc_call ek evl) td /\ Forall (fun o => K (call_key o)) td
  | URun x bt, TRun m td => bt = map (enc_call ek evl) td /\ Forall (fun o => K (call_key o)) td /\ prel (fun b r => b = enc_ret evl r) x m
  | _, _ => False
  end.
Definition crl_st (b : @bcst P D) (c : cst) : Prop := srl (bc_mem b) (c_mem c) /\ Forall2 thr_rl (bc_thr b) (c_thr c).

Lemma f2_nth {A B} (R : A -> B -> Prop) l l' : Forall2 R l l' -> forall i,
  match nth_error l i, nth_error l' i with Some a, Some b => R a b | None, None => True | _, _ => False end.
Proof. induction 1; intros [|i]; cbn; auto. apply IHForall2. Qed.
Lemma f2_put {A B} (R : A -> B -> Prop) l l' : Forall2 R l l' -> forall t a b, R a b ->
  Forall2 R (firstn t l ++ a :: skipn (S t) l) (firstn t l' ++ b :: skipn (S t) l').
Proof.
  induction 1 as [|x y l l' Hxy HF IH]; intros [|t] a b Hab; cbn; auto.
  constructor; [exact Hxy|]. apply (IH t a b Hab).
Qed.

Definition okst (c : cst) : Prop := ~ crashed c /\ (s_npid (c_mem c) <= max64)%N.
Definition metst (c : cst) (t : nat) (b : bool) : Prop :=
  forall m r x, nth_error (c_thr c) t = Some (TRun m r) -> meets m b (c_mem c) x -> sane g x.

Lemma cstep_sim b c t spur : crl_st b c -> okst c -> metst c t spur -> okst (fst (cstep g fuel c t spur)) ->
  crl_st (fst (bstep C lt g junk fuel b t spur)) (fst (cstep g fuel c t spur)) /\
  snd (bstep C lt g junk fuel b t spur) = map (enc_event ek evl) (snd (cstep g fuel c t spur)).
Proof.
  intros [Hs Ht] (N1 & _) S1 (N2 & S2). unfold bstep, cstep in *. pose proof (f2_nth _ _ _ Ht t) as Q.
  destruct (nth_error (bc_thr b) t) as [bt|] eqn:Eb, (nth_error (c_thr c) t) as [th|] eqn:Ec; try contradiction.
  2: { split; [split; auto|reflexivity]. }
  destruct bt as [bt|x bt], th as [td|m td]; cbn [thr_rl] in Q; try contradiction.
  - destruct Q as [-> Hk]. destruct td as [|o td]; cbn [map]; [split; [split; auto|reflexivity]|].
    cbn [fst snd]. split; [|reflexivity]. split; [exact Hs|]. apply f2_put; auto. cbn. split; [reflexivity|]. split; [exact (Forall_inv_tail Hk)|].
    apply (call_sim C lt g K ek evl NP DP HK). exact (Forall_inv Hk).
  - destruct Q as (-> & Hk & Hp).
    assert (NU : forall u, m <> UB u).
    { intros u ->. apply N1. exists u, td. eapply nth_error_In; eauto. }
    assert (RET : (exists r, m = Ret r) \/ m = Fuel \/ (exists m' s', pstep m spur (c_mem c) = Some (m', s') /\ forall r, m <> Ret r)).
    { destruct m; cbn [pstep]; eauto 10; try (destruct (s_tbl _ _)); try (destruct (cas_ok _ _ _ _ _)); try (destruct (N.eqb _ _));
        try (right; right; eexists _, _; split; [reflexivity|discriminate]). destruct (NU _ eq_refl). }
    destruct RET as [[r ->]|[->|(m' & s' & Ep & Nr)]].
    + inversion Hp; subst. cbn [fst snd]. split; [|reflexivity]. split; [exact Hs|]. apply f2_put; auto. cbn. auto.
    + inversion Hp; subst. cbn. split; [split; auto|reflexivity].
    + assert (Em : match m with Ret x0 => (mk_cst (c_mem c) (firstn t (c_thr c) ++ TIdle td :: skipn (S t) (c_thr c)), [ERes t x0]) | _ =>
        match pstep m spur (c_mem c) with Some (m', s') => (mk_cst s' (firstn t (c_thr c) ++ TRun m' td :: skipn (S t) (c_thr c)), []) | None => (c, []) end end =
        (mk_cst s' (firstn t (c_thr c) ++ TRun m' td :: skipn (S t) (c_thr c)), @nil event)).
      { rewrite Ep. destruct m; auto. destruct (Nr _ eq_refl). }
      rewrite Em in *. clear Em. cbn [fst snd c_mem] in *.
      assert (NU' : forall u, m' <> UB u).
      { intros u ->. apply N2. exists u, td. cbn. apply in_or_app. right. left. reflexivity. }
      destruct (pstep_sim _ x m spur (bc_mem b) (c_mem c) m' s' Hp Hs (fun c0 => S1 m td c0 Ec) Ep S2 NU') as (x' & xs' & Ex & Hp' & Hs').
      assert (Nx : forall r, x <> XRet r) by (intros r ->; cbn in Ex; discriminate).
      destruct x; try (destruct (Nx _ eq_refl)); rewrite Ex; cbn [fst snd]; (split; [|reflexivity]); (split; [exact Hs'|]); apply f2_put; auto; cbn; auto.
Qed.

Lemma exec_sim sch : forall b c, crl_st b c -> (forall i, okst (fst (exec g fuel c (firstn i sch)))) ->
  (forall i t b0, nth_error sch i = Some (t, b0) -> metst (fst (exec g fuel c (firstn i sch))) t b0) ->
  crl_st (fst (bexec C lt g junk fuel b sch)) (fst (exec g fuel c sch)) /\
  snd (bexec C lt g junk fuel b sch) = map (enc_event ek evl) (snd (exec g fuel c sch)).
Proof.
  induction sch as [|[t spur] sch IH]; intros b c Hr Hok Hmt; cbn [bexec exec]; [split; [exact Hr|reflexivity]|].
  pose proof (Hok 0%nat) as H0. pose proof (Hok 1%nat) as H1. cbn [firstn exec fst] in H0, H1.
  assert (H1' : okst (fst (cstep g fuel c t spur))) by (destruct (cstep g fuel c t spur); exact H1). clear H1.
  destruct (cstep_sim b c t spur Hr H0 (Hmt 0%nat t spur eq_refl) H1') as [A B].
  assert (Hok' : forall i, okst (fst (exec g fuel (fst (cstep g fuel c t spur)) (firstn i sch)))).
  { intros i. specialize (Hok (S i)). cbn [firstn exec] in Hok. destruct (cstep g fuel c t spur) as [c1 h1]. cbn [fst].
    destruct (exec g fuel c1 (firstn i sch)). exact Hok. }
  assert (Hmt' : forall i u b0, nth_error sch i = Some (u, b0) -> metst (fst (exec g fuel (fst (cstep g fuel c t spur)) (firstn i sch))) u b0).
  { intros i u b0 E. specialize (Hmt (S i) u b0 E). cbn [firstn exec] in Hmt. destruct (cstep g fuel c t spur) as [c1 h1]. cbn [fst].
    destruct (exec g fuel c1 (firstn i sch)). exact Hmt. }
  destruct (IH _ _ A Hok' Hmt') as [A2 B2].
  destruct (bstep C lt g junk fuel b t spur) as [b1 e1], (cstep g fuel c t spur) as [c1 h1]. cbn [fst snd] in *.
  destruct (bexec C lt g junk fuel b1 sch) as [b2 e2], (exec g fuel c1 sch) as [c2 h2]. cbn [fst snd] in *.
  split; [exact A2|]. rewrite map_app. congruence.
Qed.

Lemma init_srl : srl (xinit C junk) (init g).
Proof.
  constructor; auto; try reflexivity. intros p. cbn [xinit x_tbl init s_tbl]. unfold upd. destruct (N.eqb p 1); [|exact I].
  cbn [trl]. cbn. unfold prl. cbn [tp_addr tp_inner tp_next tp_body n_addr n_inner n_next empty_leaf].
  do 3 (split; [reflexivity|]). split; [apply (ko_new _ _ _ _ _ _ _ _ HK)|].
  unfold ngood. cbn. split; [intros [|i]; discriminate|]. repeat split; auto.
Qed.

Lemma start_rl todos : Forall (Forall (fun o => K (call_key o))) todos ->
  crl_st (bstart (xinit C junk) (map (map (enc_call ek evl)) todos)) (start (init g) todos).
Proof.
  intros Hk. split; [apply init_srl|]. cbn [bstart start bc_thr c_thr]. induction Hk; cbn; constructor; auto. cbn. auto.
Qed.

Lemma bytes_follow todos sch : Forall (Forall (fun o => K (call_key o))) todos -> steady g fuel (start (init g) todos) sch ->
  let e := bexec C lt g junk fuel (bstart (xinit C junk) (map (map (enc_call ek evl)) todos)) sch in
  ~ bcrashed (fst e) /\ snd e = map (enc_event ek evl) (snd (exec g fuel (start (init g) todos) sch)).
Proof.
  intros Hk Hst. cbn zeta. destruct (exec_sim sch _ _ (start_rl todos Hk)) as [[A1 A2] B].
  { intros i. destruct (Hst i) as (S1 & S2 & S3). split; [exact S1|exact S3]. }
  { intros i t b0 E m r x. destruct (Hst i) as (S1 & S2 & S3). eapply S2; eauto. }
  split; [|exact B]. intros (u & r & Hin). apply In_nth_error in Hin as [t E].
  pose proof (f2_nth _ _ _ A2 t) as Q. rewrite E in Q. destruct (nth_error _ t) as [[|m td]|] eqn:Et in Q; try contradiction.
  cbn in Q. destruct Q as (_ & _ & Q). destruct (Hst (length sch)) as (S1 & _). rewrite firstn_all in S1.
  inversion Q; subst. apply S1. exists u0, td. eapply nth_error_In; eauto.
Qed.
End Main.
