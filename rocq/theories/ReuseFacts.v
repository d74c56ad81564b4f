(** Reusing the places of reclaimed objects changes no execution. *)
From Coq Require Import ZArith NArith List Bool Lia.
From Coq Require Import ZifyBool ZifyNat ZifyN.
From Verif Require Import Config Api Page Machine Tree Spec Conc GcFacts EpochSpec EpochFacts BulkSpec Reuse ReuseSpec.
Import ListNotations.

Section S.
Variables (g : cfg) (fuel : nat) (s0 : st) (todos : list (list call)).
Hypothesis OW : owns s0.
Notation ex := (exec g fuel).
Notation c0 := (start s0 todos).
Notation E s := (fst (exec g fuel (start s0 todos) s)).
Notation M s := (c_mem (fst (exec g fuel (start s0 todos) s))).

Lemma E_app s1 s2 : E (s1 ++ s2) = fst (ex (E s1) s2).
Proof. rewrite EpochFacts.exec_app. reflexivity. Qed.
Lemma E_snoc s t b : E (s ++ [(t, b)]) = fst (cstep g fuel (E s) t b).
Proof. rewrite E_app. cbn [exec]. destruct (cstep g fuel (E s) t b). reflexivity. Qed.

Lemma pstep_naddr {A} (m : prog A) b s m' s' : pstep m b s = Some (m', s') ->
  s_naddr s' = s_naddr s \/ exists k, m = Alloc k /\ s_naddr s' = (s_naddr s + 1)%N.
Proof.
  destruct m; cbn [pstep]; try discriminate; try (destruct (s_tbl s p)); try (destruct (cas_ok s weak b p e)); try (destruct (N.eqb (s_root s) old));
    intros X; inversion X; subst; eauto.
Qed.
Lemma cstep_naddr c t b : s_naddr (c_mem (fst (cstep g fuel c t b))) = s_naddr (c_mem c) \/
  exists k r, nth_error (c_thr c) t = Some (TRun (Alloc k) r) /\ s_naddr (c_mem (fst (cstep g fuel c t b))) = (s_naddr (c_mem c) + 1)%N.
Proof.
  unfold cstep. destruct (nth_error (c_thr c) t) as [[[|o r]|m r]|]; auto.
  assert (H : forall m', s_naddr (c_mem (fst (match pstep m' b (c_mem c) with
      | Some (m1, s') => (mk_cst s' (firstn t (c_thr c) ++ TRun m1 r :: skipn (S t) (c_thr c)), @nil event) | None => (c, []) end))) = s_naddr (c_mem c) \/
    exists k, m' = Alloc k /\ s_naddr (c_mem (fst (match pstep m' b (c_mem c) with
      | Some (m1, s') => (mk_cst s' (firstn t (c_thr c) ++ TRun m1 r :: skipn (S t) (c_thr c)), @nil event) | None => (c, []) end))) = (s_naddr (c_mem c) + 1)%N).
  { intros m'. destruct (pstep m' b (c_mem c)) as [[m1 s']|] eqn:Ep; auto. apply pstep_naddr in Ep. exact Ep. }
  specialize (H m). destruct m; auto; destruct H as [H|(k0 & H & H')]; auto; right; exists k0, r; rewrite H; auto.
Qed.
Lemma alloc_at s : forall x, (s_naddr s0 <= x)%N -> (x < s_naddr (M s))%N ->
  exists s1 t b s2 k r, s = s1 ++ (t, b) :: s2 /\ nth_error (c_thr (E s1)) t = Some (TRun (Alloc k) r) /\ x = s_naddr (M s1).
Proof.
  induction s as [|[t b] s IH] using rev_ind; intros x L1 L2; [cbn in L2; lia|].
  rewrite E_snoc in L2.
  assert (K : (x < s_naddr (M s))%N -> exists s1 t0 b0 s2 k r, s ++ [(t, b)] = s1 ++ (t0, b0) :: s2 /\
    nth_error (c_thr (E s1)) t0 = Some (TRun (Alloc k) r) /\ x = s_naddr (M s1)).
  { intros L. destruct (IH x L1 L) as (s1 & t0 & b0 & s2 & k & r & -> & A & B). exists s1, t0, b0, (s2 ++ [(t, b)]), k, r.
    rewrite <- app_assoc. auto. }
  destruct (cstep_naddr (E s) t b) as [Q|(k & r & Q1 & Q2)]; [rewrite Q in L2; auto|].
  destruct (N.lt_ge_cases x (s_naddr (M s))) as [L|L]; auto. rewrite Q2 in L2.
  exists s, t, b, [], k, r. split; [reflexivity|]. split; [exact Q1|]. lia.
Qed.
Lemma naddr_mono s1 s2 : (s_naddr (M s1) <= s_naddr (M (s1 ++ s2)))%N.
Proof.
  induction s2 as [|[t b] s2 IH] using rev_ind; [rewrite app_nil_r; lia|]. rewrite app_assoc, E_snoc.
  destruct (cstep_naddr (E (s1 ++ s2)) t b) as [Q|(k & r & _ & Q)]; rewrite Q; lia.
Qed.

Lemma reclaim_ext s1 s2 a : reclaimable ex c0 s1 a -> reclaimable ex c0 (s1 ++ s2) a.
Proof.
  intros (r1 & r2 & -> & A & B). exists r1, (r2 ++ s2). split; [now rewrite app_assoc|]. split; [exact A|].
  intros t Ht. destruct (B t Ht) as [x Hx]. exists x. rewrite EpochFacts.exec_app. cbn [snd]. apply in_app_iff. auto.
Qed.
Lemma reclaim_gc s1 a : reclaimable ex c0 s1 a -> In a (s_gc (M s1)).
Proof. intros (r1 & r2 & -> & A & _). rewrite E_app. apply exec_gc. exact A. Qed.
Lemma linked_live s a : linked (M s) a -> ~ In a (s_gc (M s)).
Proof. intros (p & c & T & X). exact (proj2 (gc_once_from g s0 fuel todos s OW) p c a T X). Qed.
Lemma held_live s t a : held ex c0 s t a -> ~ reclaimable ex c0 s a.
Proof. intros (s1 & b & s2 & -> & H & R). exact (not_freed_from g fuel s0 todos s1 ((t, b) :: s2) t a OW H R). Qed.
Lemma linked_lt s a : linked (M s) a -> (a < s_naddr (M s))%N.
Proof.
  intros (p & c & T & X). destruct (start_owns g s0 todos OW) as [G0 H0]. destruct (exec_inv g fuel s _ _ H0) as (G & [H _] & _).
  eapply tbl_lt; eauto.
Qed.
Lemma held_lt s t a : held ex c0 s t a -> (a < s_naddr (M s))%N.
Proof.
  intros (s1 & b & s2 & -> & H & _). change ((t, b) :: s2) with ([(t, b)] ++ s2). rewrite app_assoc.
  pose proof (naddr_mono (s1 ++ [(t, b)]) s2) as L. enough (a < s_naddr (M (s1 ++ [(t, b)])))%N by lia.
  destruct H as [(p & k & r & h & Et & Ec & Ha)|(k & r & Et & ->)].
  - pose proof (naddr_mono s1 [(t, b)]). pose proof (linked_lt s1 a (ex_intro _ p (ex_intro _ h (conj Ec Ha)))). lia.
  - rewrite E_snoc. unfold cstep. rewrite Et. cbn. lia.
Qed.

(** An object that the running call of a thread has obtained, and one that is linked now, are
    at different places unless they are the same. *)
Lemma apart s s' loc t a b : placed ex c0 (s ++ s') loc -> held ex c0 s t a -> (exists i, linked (M (firstn i (s ++ s'))) a) ->
  linked (M s) b -> loc a = loc b -> a = b.
Proof.
  intros [P0 P1] Ha [i La] Hb E1. pose proof (held_lt _ _ _ Ha) as A1. pose proof (linked_lt _ _ Hb) as B1.
  destruct (N.lt_trichotomy a b) as [L|[L|L]]; auto; exfalso.
  - destruct (N.lt_ge_cases b (s_naddr s0)) as [Lb|Lb]; [assert (a = b) by (apply P0; cbn; auto; lia); lia|].
    destruct (alloc_at s b Lb B1) as (s1 & u & x & s2 & k & r & -> & Et & ->).
    rewrite <- app_assoc in P1, La. cbn [app] in P1, La.
    destruct (P1 _ _ _ _ eq_refl _ _ Et a L E1) as [X|X]; [|exact (X i La)].
    apply (held_live _ _ _ Ha). apply reclaim_ext. exact X.
  - destruct (N.lt_ge_cases a (s_naddr s0)) as [Lb|Lb]; [assert (a = b) by (apply P0; cbn; auto; lia); lia|].
    destruct (alloc_at s a Lb A1) as (s1 & u & x & s2 & k & r & -> & Et & ->).
    assert (PP := P1). rewrite <- app_assoc in P1. cbn [app] in P1.
    destruct (P1 _ _ _ _ eq_refl _ _ Et b L (eq_sym E1)) as [X|X].
    + apply (linked_live _ _ Hb). apply reclaim_gc. apply reclaim_ext. exact X.
    + apply (X (length (s1 ++ (u, x) :: s2))). change ((u, x) :: s2 ++ s') with (((u, x) :: s2) ++ s'). rewrite app_assoc, firstn_app, Nat.sub_diag, firstn_all, app_nil_r. exact Hb.
Qed.

(** ** What a thread holds was obtained by the call it is in *)
Lemma inv_wipe G s f : inv g G s -> (forall t, f t = g_hold G t \/ (f t = hold0 /\ clean tt (g_hold G t))) ->
  inv g (mk_ghost (g_own G) (g_head G) (g_tok G) (g_pid G) f) s.
Proof.
  intros H F. destruct H. constructor; cbn [g_own g_head g_tok g_pid g_hold]; auto.
  all: try (intros t; destruct (F t) as [->|[-> CL]]; eauto; cbn; intros; tauto).
  intros x t Hx. apply i_xu in Hx. destruct (F t) as [->|[-> CL]]; auto. destruct (CL _ Hx).
Qed.

Definition hinv (s : list (tid * bool)) (G : ghost) : Prop :=
  cinv g G (E s) /\
  (forall t h, kn (g_hold G t) h -> held ex c0 s t (h_addr h) /\ exists i, linked (M (firstn i s)) (h_addr h)) /\
  (forall t x, fr (g_hold G t) x -> held ex c0 s t x) /\
  (forall t, match nth_error (c_thr (E s)) t with Some (TRun _ _) => True | _ => g_hold G t = hold0 end).

Lemma held_step s t a u b : held ex c0 s t a -> (forall x, ~ In (ERes t x) (snd (cstep g fuel (E s) u b))) -> held ex c0 (s ++ [(u, b)]) t a.
Proof.
  intros (s1 & x & s2 & -> & O & R) N. exists s1, x, (s2 ++ [(u, b)]). split; [now rewrite <- app_assoc|]. split; [exact O|].
  intros y. change ((t, x) :: s2 ++ [(u, b)]) with (((t, x) :: s2) ++ [(u, b)]). rewrite EpochFacts.exec_app. cbn [snd]. rewrite in_app_iff. intros [X|X]; [exact (R _ X)|].
  rewrite <- E_app in X. cbn [exec] in X. destruct (cstep g fuel (E (s1 ++ (t, x) :: s2)) u b) as [c1 h1] eqn:Ec. cbn [snd] in X.
  rewrite app_nil_r in X. apply (N y). exact X.
Qed.
Lemma linked_ext s s' a : (exists i, linked (M (firstn i s)) a) -> exists i, linked (M (firstn i (s ++ s'))) a.
Proof.
  intros [i L]. exists (Nat.min i (length s)). rewrite firstn_app.
  replace (Nat.min i (length s) - length s)%nat with 0%nat by lia. rewrite firstn_O, app_nil_r.
  destruct (Nat.le_ge_cases i (length s)) as [K|K]; [rewrite Nat.min_l by auto; exact L|].
  rewrite Nat.min_r, firstn_all by auto. rewrite firstn_all2 in L by auto. exact L.
Qed.
Lemma linked_here s a : linked (M s) a -> exists i, linked (M (firstn i s)) a.
Proof. intros L. exists (length s). rewrite firstn_all. exact L. Qed.

Lemma hinv_start : exists G, hinv [] G.
Proof.
  destruct (start_owns g s0 todos OW) as [G [H1 H2]].
  exists (mk_ghost (g_own G) (g_head G) (g_tok G) (g_pid G) (fun _ => hold0)). split; [split|split; [|split]]; cbn [exec fst].
  - apply inv_wipe; auto. intros t. right. split; auto. specialize (H2 t). cbn [start c_thr] in H2. rewrite nth_error_map in H2.
    destruct (nth_error todos t); exact H2.
  - intros t. cbn [start c_thr]. rewrite nth_error_map. destruct (nth_error todos t); intros x X; exact X.
  - intros t h [].
  - intros t x [].
  - intros t. cbn [start c_thr]. rewrite nth_error_map. destruct (nth_error todos t); reflexivity.
Qed.
Lemma cstep_quiet c u b t x : In (ERes t x) (snd (cstep g fuel c u b)) -> u = t /\ exists r, nth_error (c_thr c) t = Some (TRun (Ret x) r).
Proof.
  unfold cstep. destruct (nth_error (c_thr c) u) as [[[|o r]|m r]|] eqn:Eu; try (intros []); try discriminate.
  - destruct H.
  - destruct m; try (match goal with |- context[pstep ?m0 ?b0 ?s1] => destruct (pstep m0 b0 s1) as [[? ?]|] end; intros []; fail).
    cbn. intros [X|[]]. inversion X; subst. eauto.
Qed.
Lemma hinv_step s G u b : hinv s G -> exists G', hinv (s ++ [(u, b)]) G'.
Proof.
  intros ([Hi Ht] & K & F & I0).
  assert (SAME : fst (cstep g fuel (E s) u b) = E s -> snd (cstep g fuel (E s) u b) = [] -> exists G', hinv (s ++ [(u, b)]) G').
  { intros Q1 Q2. exists G. unfold hinv. rewrite E_snoc, Q1. split; [split; auto|].
    split; [|split; [|exact I0]]; intros t h Hh.
    - destruct (K t h Hh) as [A B]. split; [apply held_step; auto; rewrite Q2; intros x []|apply linked_ext; auto].
    - apply held_step; auto. rewrite Q2. intros x []. }
  pose proof (E_snoc s u b) as ES. unfold cstep in SAME, ES.
  destruct (nth_error (c_thr (E s)) u) as [th|] eqn:Eu; [|apply SAME; reflexivity].
  pose proof (Ht u) as Hu. rewrite Eu in Hu. pose proof (I0 u) as Iu. rewrite Eu in Iu.
  destruct th as [[|o r]|m r]; [apply SAME; reflexivity| |].
  - (* a call begins *)
    cbn [fst] in ES. exists G. unfold hinv. rewrite ES. split; [split; [exact Hi|]|].
    + intros t. cbn [c_thr]. rewrite (nth_put _ _ _ _ _ Eu). destruct (Nat.eqb t u) eqn:Et; [|apply Ht].
      apply Nat.eqb_eq in Et. subst t. cbn [thr_wp]. apply wp_call. exact Hu.
    + assert (Q : forall t x, ~ In (ERes t x) (snd (cstep g fuel (E s) u b))).
      { intros t x X. apply cstep_quiet in X as [<- (r0 & X)]. rewrite Eu in X. discriminate. }
      split; [|split].
      * intros t h Hh. destruct (K t h Hh). split; [apply held_step; auto|apply linked_ext; auto].
      * intros t x Hx. apply held_step; auto.
      * intros t. cbn [c_thr]. rewrite (nth_put _ _ _ _ _ Eu). destruct (Nat.eqb t u) eqn:Et; [exact I|apply I0].
  - cbn [thr_wp] in Hu.
    assert (STEP : forall m1 s1, (forall x, m <> Ret x) -> pstep m b (M s) = Some (m1, s1) ->
      E (s ++ [(u, b)]) = mk_cst s1 (firstn u (c_thr (E s)) ++ TRun m1 r :: skipn (S u) (c_thr (E s))) ->
      exists G', hinv (s ++ [(u, b)]) G').
    { intros m1 s1 NR Ep Es. destruct (wp_pstep_grows g m b _ _ _ G u Hi Hu Ep) as (G' & (A & _) & (B & GK & GF) & C).
      assert (Q : forall t x, ~ In (ERes t x) (snd (cstep g fuel (E s) u b))).
      { intros t x X. apply cstep_quiet in X as [<- (r0 & X)]. rewrite Eu in X. inversion X; subst. eapply NR; eauto. }
      assert (HF : forall t x, fr (g_hold G' t) x -> held ex c0 (s ++ [(u, b)]) t x).
      { intros t x Hx. destruct (Nat.eq_dec t u) as [->|Nu]; [|rewrite C in Hx by auto; apply held_step; auto].
        destruct (GF x Hx) as [X|(k & -> & ->)]; [apply held_step; auto|].
        exists s, b, []. split; auto. split; [right; eauto|]. intros y Y. cbn [exec] in Y. destruct (cstep g fuel (E s) u b) as [c1 h1] eqn:Ec.
        cbn [snd] in Y. rewrite app_nil_r in Y. apply (Q u y). exact Y. }
      exists G'. unfold hinv. split; [|split; [|split; [exact HF|]]].
      - rewrite Es. split; [exact A|]. intros t. cbn [c_thr]. rewrite (nth_put _ _ _ _ _ Eu). destruct (Nat.eqb t u) eqn:Et.
        + apply Nat.eqb_eq in Et. subst t. exact B.
        + apply Nat.eqb_neq in Et. specialize (Ht t). destruct (nth_error (c_thr (E s)) t) as [[?|? ?]|]; cbn [thr_wp] in *; rewrite C; auto.
      - intros t h Hh. destruct (Nat.eq_dec t u) as [->|Nu].
        + destruct (GK h Hh) as [X|[(p & k & -> & X)|(p & X & Y)]].
          * destruct (K u h X). split; [apply held_step; auto|apply linked_ext; auto].
          * assert (L : linked (M s) (h_addr h)) by (exists p, h; split; auto; apply h_addr_in). split; [|apply linked_ext, linked_here, L].
            exists s, b, []. split; auto. split; [left; exists p, k, r, h; repeat split; auto; apply h_addr_in|].
            intros y Z. cbn [exec] in Z. destruct (cstep g fuel (E s) u b) as [c1 h1] eqn:Ec.
            cbn [snd] in Z. rewrite app_nil_r in Z. apply (Q u y). exact Z.
          * split; [apply held_step; auto|]. apply linked_here. rewrite Es. exists p, h. split; auto. apply h_addr_in.
        + rewrite C in Hh by auto. destruct (K t h Hh). split; [apply held_step; auto|apply linked_ext; auto].
      - rewrite Es. intros t. cbn [c_thr]. rewrite (nth_put _ _ _ _ _ Eu). destruct (Nat.eqb t u) eqn:Et; [exact I|].
        apply Nat.eqb_neq in Et. rewrite C by auto. apply I0. }
    assert (GEN : (forall x, m <> Ret x) -> exists G', hinv (s ++ [(u, b)]) G').
    { intros NR. destruct (pstep m b (M s)) as [[m1 s1]|] eqn:Ep.
      - apply (STEP m1 s1 NR eq_refl). destruct m; [exfalso; eapply NR; eauto|..]; exact ES.
      - destruct m; [exfalso; eapply NR; eauto|..]; apply SAME; reflexivity. }
    destruct m; try (apply GEN; discriminate).
    (* a call returns *)
    cbn [fst] in ES. cbn [wp] in Hu.
    exists (mk_ghost (g_own G) (g_head G) (g_tok G) (g_pid G) (hset (g_hold G) u hold0)). unfold hinv. rewrite ES.
    assert (Q : forall t, t <> u -> forall x, ~ In (ERes t x) (snd (cstep g fuel (E s) u b))).
    { intros t Nt x X. apply cstep_quiet in X as [<- _]. auto. }
    split; [split|split; [|split]].
    + apply inv_wipe; auto. intros t. unfold hset. destruct (Nat.eqb t u) eqn:Et; auto. apply Nat.eqb_eq in Et. subst t. right. split; auto.
    + intros t. cbn [c_thr]. rewrite (nth_put _ _ _ _ _ Eu). destruct (Nat.eqb t u) eqn:Et.
      * apply Nat.eqb_eq in Et. subst t. cbn [thr_wp g_hold]. rewrite hset_same. intros x X; exact X.
      * apply Nat.eqb_neq in Et. specialize (Ht t). destruct (nth_error (c_thr (E s)) t) as [[?|? ?]|]; cbn [thr_wp g_hold] in *; rewrite hset_other; auto.
    + cbn [g_hold]. intros t h. unfold hset. destruct (Nat.eqb t u) eqn:Et; [intros []|]. apply Nat.eqb_neq in Et. intros Hh.
      destruct (K t h Hh). split; [apply held_step; auto|apply linked_ext; auto].
    + cbn [g_hold]. intros t h. unfold hset. destruct (Nat.eqb t u) eqn:Et; [intros []|]. apply Nat.eqb_neq in Et. intros Hh. apply held_step; auto.
    + cbn [g_hold c_thr]. intros t. rewrite (nth_put _ _ _ _ _ Eu). unfold hset. destruct (Nat.eqb t u) eqn:Et; [reflexivity|apply I0].
Qed.
Lemma hinv_all s : exists G, hinv s G.
Proof. induction s as [|[u b] s [G IH]] using rev_ind; [apply hinv_start|eapply hinv_step; eauto]. Qed.

(** ** Comparing places is comparing objects *)
Variable loc : addr -> N.
Notation exl := (exec_at loc g fuel).

Lemma exec_at_app s1 : forall c s2, exl c (s1 ++ s2) = (fst (exl (fst (exl c s1)) s2), snd (exl c s1) ++ snd (exl (fst (exl c s1)) s2)).
Proof.
  induction s1 as [|[t b] s1 IH]; intros c s2; cbn [exec_at app]; [cbn [fst snd app]; destruct (exl c s2); reflexivity|].
  destruct (cstep_at loc g fuel c t b) as [c1 h1]. rewrite IH. destruct (exl c1 s1) as [c2 h2]. cbn [fst snd]. rewrite app_assoc. reflexivity.
Qed.
Lemma step_same s u b : placed ex c0 s loc -> cstep_at loc g fuel (E s) u b = cstep g fuel (E s) u b.
Proof.
  intros P. destruct (hinv_all s) as (G & [Hi Ht] & K & _ & _). unfold cstep_at, cstep.
  destruct (nth_error (c_thr (E s)) u) as [[[|o r]|m r]|] eqn:Eu; auto.
  destruct m; auto. cbn [pstep_at pstep]. specialize (Ht u). rewrite Eu in Ht. cbn [thr_wp wp] in Ht.
  destruct Ht as (h & l & kp & Hk & He & _). destruct (K u h Hk) as [Hh Hl]. rewrite He in Hh, Hl.
  replace (cas_at loc (M s) weak b p e) with (cas_ok (M s) weak b p e); [reflexivity|].
  unfold cas_at, cas_ok. destruct (s_tbl (M s) p) as [d|] eqn:Ed; auto. f_equal.
  destruct (N.eqb_spec (h_addr d) e) as [->|Ne]; [symmetry; apply N.eqb_refl|]. symmetry. apply N.eqb_neq. intros X. apply Ne. symmetry.
  apply (apart s [] loc u e (h_addr d)); auto; rewrite ?app_nil_r; auto. exists p, d. split; auto. apply h_addr_in.
Qed.
Lemma split_snoc {X} (s s1 s2 : list X) x : s ++ [x] = s1 ++ s2 -> (s1 = s ++ [x] /\ s2 = []) \/ exists s3, s2 = s3 ++ [x] /\ s = s1 ++ s3.
Proof.
  destruct s2 as [|y s2 _] using rev_ind; [rewrite app_nil_r; auto|]. rewrite app_assoc. intros Q. apply app_inj_tail in Q as [-> ->]. eauto.
Qed.
Lemma firstn_pre {X} i (s s' : list X) : exists j, firstn i s = firstn j (s ++ s').
Proof.
  exists (Nat.min i (length s)). rewrite firstn_app. replace (Nat.min i (length s) - length s)%nat with 0%nat by lia. rewrite firstn_O, app_nil_r.
  destruct (Nat.le_ge_cases i (length s)) as [L|L]; [rewrite Nat.min_l by auto; auto|]. rewrite Nat.min_r, firstn_all, firstn_all2 by auto. auto.
Qed.
Lemma placed_prefix e1 s s' : placed e1 c0 (s ++ s') loc -> placed e1 c0 s loc.
Proof.
  intros [P0 P1]. split; auto. intros s1 t b s2 -> k r Et a x Lx El.
  destruct (P1 s1 t b (s2 ++ s') (eq_sym (app_assoc s1 ((t, b) :: s2) s')) k r Et x Lx El) as [A|A]; auto. right. intros i L.
  destruct (firstn_pre i (s1 ++ (t, b) :: s2) s') as [j Ej]. apply (A j). rewrite <- Ej. exact L.
Qed.
Definition agree s := forall s1 s2, s = s1 ++ s2 -> exl c0 s1 = ex c0 s1.
Lemma agree_tail s s1 s2 : agree s -> s = s1 ++ s2 -> exl (E s1) s2 = ex (E s1) s2.
Proof.
  intros A ->. pose proof (A (s1 ++ s2) [] (eq_sym (app_nil_r _))) as Q. rewrite exec_at_app, EpochFacts.exec_app, (A s1 s2 eq_refl) in Q.
  inversion Q as [[Q1 Q2]]. apply app_inv_head in Q2. destruct (exl (E s1) s2), (ex (E s1) s2). cbn [fst snd] in *. congruence.
Qed.
Lemma placed_agree s : agree s -> placed exl c0 s loc -> placed ex c0 s loc.
Proof.
  intros A [P0 P1]. split; auto. intros s1 t b s2 Hs k r Et a x Lx El. pose proof (A s1 _ Hs) as A1. specialize (P1 s1 t b s2 Hs). rewrite A1 in P1.
  destruct (P1 k r Et x Lx El) as [(r1 & r2 & -> & B & C)|B].
  - left. exists r1, r2. split; auto. rewrite <- app_assoc in Hs. pose proof (A r1 _ Hs) as A2. rewrite A2 in B, C. split; auto.
    intros u Hu. destruct (C u Hu) as [y Y]. exists y.
    assert (A3 : agree (r1 ++ r2)).
    { intros q1 q2 Hq. apply (A q1 (q2 ++ (t, b) :: s2)). rewrite Hs, app_assoc, Hq, <- app_assoc. reflexivity. }
    rewrite (agree_tail _ r1 r2 A3 eq_refl) in Y. exact Y.
  - right. intros i L. apply (B i). rewrite (A (firstn i s) (skipn i s) (eq_sym (firstn_skipn i s))). exact L.
Qed.
Lemma same s : forall s', placed exl c0 (s ++ s') loc -> agree s.
Proof.
  induction s as [|[u b] s IH] using rev_ind; intros s' P s1 s2 Hs.
  - symmetry in Hs. apply app_eq_nil in Hs as [-> ->]. reflexivity.
  - rewrite <- app_assoc in P. pose proof (IH _ P) as A. apply split_snoc in Hs as [[-> _]|(s3 & -> & ->)]; [|apply (A s1 s3 eq_refl)].
    apply placed_prefix in P. apply placed_agree in P; auto. rewrite exec_at_app, EpochFacts.exec_app, (A s [] (eq_sym (app_nil_r s))).
    cbn [exec_at exec]. rewrite (step_same s u b P). reflexivity.
Qed.
Lemma same_execution s : placed exl c0 s loc -> exl c0 s = ex c0 s.
Proof. intros P. apply (same s []) with (s2 := []); [rewrite app_nil_r; exact P|]. symmetry. apply app_nil_r. Qed.
Lemma placed_same s : placed exl c0 s loc -> placed ex c0 s loc.
Proof. intros P. apply placed_agree; auto. apply (same s []). rewrite app_nil_r. exact P. Qed.

Lemma same' s : placed ex c0 s loc -> agree s.
Proof.
  induction s as [|[u b] s IH] using rev_ind; intros P s1 s2 Hs.
  - symmetry in Hs. apply app_eq_nil in Hs as [-> ->]. reflexivity.
  - apply placed_prefix in P. pose proof (IH P) as A. apply split_snoc in Hs as [[-> _]|(s3 & -> & ->)]; [|apply (A s1 s3 eq_refl)].
    rewrite exec_at_app, EpochFacts.exec_app, (A s [] (eq_sym (app_nil_r s))). cbn [exec_at exec]. rewrite (step_same s u b P). reflexivity.
Qed.
Lemma placed_back s : placed ex c0 s loc -> placed exl c0 s loc.
Proof.
  intros P. pose proof (same' s P) as A. destruct P as [P0 P1]. split; auto. intros s1 t b s2 Hs k r Et a x Lx El. unfold a in *. pose proof (A s1 _ Hs) as A1.
  rewrite A1 in Et, Lx, El. destruct (P1 s1 t b s2 Hs k r Et x Lx El) as [(r1 & r2 & -> & B & C)|B].
  - left. exists r1, r2. split; auto. rewrite <- app_assoc in Hs. pose proof (A r1 _ Hs) as A2. rewrite A2. split; auto.
    intros u Hu. destruct (C u Hu) as [y Y]. exists y.
    assert (A3 : agree (r1 ++ r2)).
    { intros q1 q2 Hq. apply (A q1 (q2 ++ (t, b) :: s2)). rewrite Hs, app_assoc, Hq, <- app_assoc. reflexivity. }
    rewrite (agree_tail _ r1 r2 A3 eq_refl). exact Y.
  - right. intros i L. apply (B i). rewrite (A (firstn i s) (skipn i s) (eq_sym (firstn_skipn i s))) in L. exact L.
Qed.
Lemma places_identify s s' t a b : placed exl c0 (s ++ s') loc -> held exl c0 s t a ->
  (exists i, linked (c_mem (fst (exl c0 (firstn i (s ++ s'))))) a) -> linked (c_mem (fst (exl c0 s))) b -> loc a = loc b -> a = b.
Proof.
  intros P (s1 & d & s2 & Hs & O & R) [i L] Lb. assert (A : agree (s ++ s')) by (apply (same (s ++ s') []); rewrite app_nil_r; exact P).
  apply placed_agree in P; auto. rewrite (A _ _ eq_refl) in Lb. rewrite (A _ _ (eq_sym (firstn_skipn i _))) in L.
  apply (apart s s' loc t a b P); eauto. exists s1, d, s2. split; auto.
  assert (A1 : agree s). { intros q1 q2 ->. apply (A q1 (q2 ++ s')). now rewrite app_assoc. }
  rewrite (A1 s1 _ Hs) in O, R. rewrite (agree_tail s s1 _ A1 Hs) in R. auto.
Qed.
End S.

(** ** Using one place twice *)
Definition twice (n a : N) : addr -> N := fun x => if (x =? n)%N then a else x.
Lemma twice_eq n a x y : twice n a x = twice n a y -> x = y \/ (x = n /\ y = a) \/ (x = a /\ y = n).
Proof. unfold twice. destruct (N.eqb_spec x n), (N.eqb_spec y n); subst; intuition. Qed.
(** All calls in progress after [s1] return in [s2]. *)
Definition all_return g fuel c s2 : bool :=
  forallb (fun t => match nth_error (c_thr c) t with
    | Some (TRun _ _) => existsb (fun e => match e with ERes u _ => Nat.eqb u t | _ => false end) (snd (exec g fuel c s2))
    | _ => true end) (seq 0 (length (c_thr c))).
Lemma placed_twice g fuel s0 todos s1 s2 s3 n a : owns s0 -> (s_naddr s0 <= n)%N -> (a < n)%N ->
  existsb (N.eqb a) (s_gc (c_mem (fst (exec g fuel (start s0 todos) s1)))) = true ->
  all_return g fuel (fst (exec g fuel (start s0 todos) s1)) s2 = true ->
  (s_naddr (c_mem (fst (exec g fuel (start s0 todos) (s1 ++ s2)))) <=? n)%N = true ->
  placed (exec_at (twice n a) g fuel) (start s0 todos) (s1 ++ s2 ++ s3) (twice n a).
Proof.
  intros OW Ln La H1 H2 H3. apply placed_back; auto. split.
  - cbn [start c_mem]. intros x y X Y Q. apply twice_eq in Q as [Q|[[-> ->]|[-> ->]]]; auto; lia.
  - intros r1 t b r2 Hs k r Et a0 x Lx Q. apply twice_eq in Q as [Q|[[-> Q]|[-> Q]]]; [lia| |]; subst a0.
    { lia. }
    left. rewrite app_assoc in Hs. set (q := s1 ++ s2) in *.
    assert (K : exists q', r1 = q ++ q').
    { apply N.leb_le in H3. destruct (Nat.le_gt_cases (length q) (length r1)) as [L|L].
      - exists (firstn (length r1 - length q) s3). assert (F : r1 = firstn (length r1) (q ++ s3)).
        { rewrite Hs, firstn_app, Nat.sub_diag, firstn_all, app_nil_r. reflexivity. }
        rewrite firstn_app, (firstn_all2 q) in F by auto. exact F.
      - exfalso. assert (F : q = r1 ++ (t, b) :: firstn (length q - S (length r1)) r2).
        { assert (F : q = firstn (length q) (q ++ s3)) by (rewrite firstn_app, Nat.sub_diag, firstn_all, app_nil_r; reflexivity).
          rewrite Hs, firstn_app, (firstn_all2 r1) in F by lia. destruct (length q - length r1)%nat as [|d] eqn:Ed; [lia|].
          cbn [firstn] in F. rewrite F at 1. replace (length q - S (length r1))%nat with d by lia. reflexivity. }
        pose proof (naddr_mono g fuel s0 todos (r1 ++ [(t, b)]) (firstn (length q - S (length r1)) r2)) as NM.
        rewrite <- app_assoc in NM. cbn [app] in NM. rewrite <- F, E_snoc in NM. 
        assert (NA : s_naddr (c_mem (fst (cstep g fuel (fst (exec g fuel (start s0 todos) r1)) t b))) = (n + 1)%N).
        { unfold cstep. rewrite Et, <- Q. reflexivity. }
        rewrite NA in NM. clear - NM H3. unfold q in *. lia. }
    destruct K as [q' ->]. apply reclaim_ext. exists s1, s2. split; auto. split.
    + apply existsb_exists in H1 as (y & Y1 & Y2). apply N.eqb_eq in Y2. subst y. exact Y1.
    + intros u (m & w & Hu). unfold all_return in H2. rewrite forallb_forall in H2.
      assert (Lu : In u (seq 0 (length (c_thr (fst (exec g fuel (start s0 todos) s1)))))).
      { apply in_seq. split; [lia|]. apply nth_error_Some. congruence. }
      specialize (H2 u Lu). rewrite Hu in H2. apply existsb_exists in H2 as ([?|v y] & Y1 & Y2); [discriminate|]. apply Nat.eqb_eq in Y2. subst v. eauto.
Qed.

(** ** A history that is not linearizable *)
Open Scope Z_scope.

(** Two inserts of the same key, no delete: they do not both succeed. *)
Definition keeps_key (o : call) : Prop := forall k, o <> KDelete k.
Lemma spec_keeps m o k : keeps_key o -> m k <> None -> snd (spec m o) k <> None.
Proof.
  intros D H. destruct o as [q|q v|q v|q v|q]; cbn [spec]; try (destruct (m q)); cbn [snd]; auto; unfold sset; try (destruct (k =? q); congruence);
    destruct (D q eq_refl).
Qed.
Lemma late_insert k v t h1 h2 m f : lin m f (h1 ++ ERes t (RCode Success) :: h2) -> m k <> None ->
  (forall u o, f u = SPend o -> keeps_key o) -> (forall u o, In (EInv u o) h1 -> keeps_key o /\ u <> t) ->
  f t = SPend (KInsert k v) \/ f t = SDone (RCode KeyExist) -> False.
Proof.
  remember (h1 ++ ERes t (RCode Success) :: h2) as h eqn:Eh. intros L. revert h1 Eh.
  induction L as [m f|m f u o h Hu L IH|m f u r h Hu L IH|m f u o h Hu L IH]; intros h1 Eh Hm Hf Hh Ht.
  - destruct h1; discriminate.
  - destruct h1 as [|e h1]; [discriminate|]. inversion Eh; subst. destruct (Hh u o (or_introl eq_refl)) as [D Nu].
    apply (IH h1 eq_refl Hm); [|intros; apply Hh; right; auto|unfold tset; rewrite (proj2 (Nat.eqb_neq t u)) by auto; exact Ht].
    intros w o' Hw. unfold tset in Hw. destruct (Nat.eqb w u); [inversion Hw; subst; auto|eauto].
  - destruct h1 as [|e h1]; inversion Eh; subst.
    + destruct Ht as [Ht|Ht]; rewrite Ht in Hu; discriminate.
    + destruct (Nat.eq_dec u t) as [->|Nu].
      * (* an earlier response of t *)
        destruct Ht as [Ht|Ht]; rewrite Ht in Hu; [discriminate|]. inversion Hu; subst. clear IH.
        assert (Z : forall m f h1, lin m f (h1 ++ ERes t (RCode Success) :: h2) -> f t = SIdle -> (forall u o, In (EInv u o) h1 -> u <> t) -> False).
        { clear. intros m f h1 L. remember (h1 ++ ERes t (RCode Success) :: h2) as h eqn:Eh. revert h1 Eh.
          induction L as [m f|m f u o h Hu L IH|m f u r h Hu L IH|m f u o h Hu L IH]; intros h1 Eh Ht Hh.
          - destruct h1; discriminate.
          - destruct h1 as [|e h1]; [discriminate|]. inversion Eh; subst. pose proof (Hh u o (or_introl eq_refl)) as Nu.
            apply (IH h1 eq_refl); [unfold tset; rewrite (proj2 (Nat.eqb_neq t u)) by auto; exact Ht|intros; eapply Hh; right; eauto].
          - destruct h1 as [|e h1]; inversion Eh; subst; [congruence|]. apply (IH h1 eq_refl); [|intros; eapply Hh; right; eauto].
            unfold tset. destruct (Nat.eqb t u); auto.
          - apply (IH h1 Eh); [|exact Hh]. unfold tset. destruct (Nat.eqb_spec t u) as [->|]; auto. congruence. }
        apply (Z _ _ _ L); [unfold tset; rewrite Nat.eqb_refl; reflexivity|]. intros w o Hw. apply (Hh w o). right; auto.
      * apply (IH h1 eq_refl Hm); [|intros; apply Hh; right; auto|unfold tset; rewrite (proj2 (Nat.eqb_neq t u)) by auto; exact Ht].
        intros w o' Hw. unfold tset in Hw. destruct (Nat.eqb w u); [discriminate|eauto].
  - apply (IH h1 Eh); [apply spec_keeps; eauto| |exact Hh|].
    + intros w o' Hw. unfold tset in Hw. destruct (Nat.eqb w u); [discriminate|eauto].
    + unfold tset. destruct (Nat.eqb_spec t u) as [->|Nt]; auto. destruct Ht as [Ht|Ht]; rewrite Ht in Hu; inversion Hu; subst.
      right. cbn [spec]. destruct (m k) eqn:Em; [reflexivity|congruence].
Qed.
Lemma lost_insert v w : ~ linearizable sempty [EInv 0%nat (KInsert 5 v); EInv 1%nat (KInsert 5 w); ERes 1%nat (RCode Success);
  EInv 1%nat (KWrite 6 6%N); ERes 1%nat (RCode Success); EInv 1%nat (KWrite 7 7%N); ERes 1%nat (RCode Success); ERes 0%nat (RCode Success)].
Proof.
  intros L. inversion L as [|? ? ? ? ? _ L1| |? ? ? ? ? X]; subst; [|discriminate X]. clear L.
  inversion L1 as [|? ? ? ? ? _ L2| |? ? t o ? X L2]; subst; clear L1.
  - inversion L2 as [| |? ? ? ? ? X|? ? t o ? X L3]; subst; clear L2; [discriminate X|].
    destruct t as [|[|t]]; cbn in X; [| |discriminate X]; inversion X; subst; clear X.
    + apply (late_insert 5 w 1%nat [] _ _ _ L3); cbn; auto; try discriminate; [|intros ? ? []].
      intros u o. unfold tset. destruct (Nat.eqb u 0); [discriminate|]. destruct (Nat.eqb u 1); [|discriminate]. intros X; inversion X; subst. discriminate.
    + apply (late_insert 5 v 0%nat [ERes 1%nat (RCode Success); EInv 1%nat (KWrite 6 6%N); ERes 1%nat (RCode Success);
        EInv 1%nat (KWrite 7 7%N); ERes 1%nat (RCode Success)] [] _ _ L3); cbn; auto; try discriminate.
      * intros u o. unfold tset. destruct (Nat.eqb u 1); [discriminate|]. destruct (Nat.eqb u 0); [|discriminate]. intros X; inversion X; subst. discriminate.
      * intros u o [X|[X|[X|[X|[X|[]]]]]]; inversion X; subst; split; try discriminate; intros k; discriminate.
  - destruct t as [|t]; cbn in X; [|discriminate X]; inversion X; subst; clear X.
    inversion L2 as [|? ? ? ? ? _ L3| |? ? t o ? X]; subst; clear L2; [|destruct t; discriminate X].
    apply (late_insert 5 w 1%nat [] _ _ _ L3); cbn; auto; try discriminate; [|intros ? ? []].
    intros u o. unfold tset. destruct (Nat.eqb u 1); [intros X; inversion X; subst; discriminate|]. destruct (Nat.eqb u 0); discriminate.
Qed.
