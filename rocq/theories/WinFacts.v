(** Racing Inserts in linearizable histories. *)
From Coq Require Import ZArith NArith List Bool Lia.
From Verif Require Import Config Api Machine Tree Spec Conc Valid ConcChain ConcSpec ConcMain.
Import ListNotations.
Open Scope nat_scope.

Lemma lin_app a : forall M f b, lin M f (a ++ b) ->
  lin M f a /\ exists M' f', lin M' f' b /\ forall p : tid -> option call,
    (forall t o, f t = SPend o -> p t = Some o) -> (forall t, f t = SIdle -> p t = None) ->
    forall t o, f' t = SPend o -> pending p a t = Some o.
Proof.
  intros M f b H. remember (a ++ b) as h eqn:E. revert a E.
  induction H as [M f|M f t o h H1 H2 IH|M f t r h H1 H2 IH|M f t o h H1 H2 IH]; intros a E.
  - symmetry in E. apply app_eq_nil in E as [-> ->]. split; [constructor|]. exists M, f. split; [constructor|]. cbn. auto.
  - destruct a as [|x a]; cbn [app] in E.
    + subst. split; [constructor|]. exists M, f. split; [constructor; auto|]. cbn. auto.
    + inversion E; subst. destruct (IH a eq_refl) as [I1 (M' & f' & I2 & I3)]. split; [constructor; auto|].
      exists M', f'. split; auto. intros p P1 P2 u o'. cbn [pending]. apply I3.
      * intros v o2. unfold tset, cset. destruct (Nat.eqb v t); [intros X; inversion X; auto|apply P1].
      * intros v. unfold tset, cset. destruct (Nat.eqb v t); [discriminate|apply P2].
  - destruct a as [|x a]; cbn [app] in E.
    + subst. split; [constructor|]. exists M, f. split; [econstructor; eauto|]. cbn. auto.
    + inversion E; subst. destruct (IH a eq_refl) as [I1 (M' & f' & I2 & I3)]. split; [econstructor; eauto|].
      exists M', f'. split; auto. intros p P1 P2 u o'. cbn [pending]. apply I3.
      * intros v o2. unfold tset, cset. destruct (Nat.eqb v t); [discriminate|apply P1].
      * intros v. unfold tset, cset. destruct (Nat.eqb v t); [auto|apply P2].
  - subst h. destruct (IH a eq_refl) as [I1 (M' & f' & I2 & I3)]. split; [eapply lin_eff; eauto|].
    exists M', f'. split; auto. intros p P1 P2. apply I3.
    + intros v o2. unfold tset. destruct (Nat.eqb v t); [discriminate|apply P1].
    + intros v. unfold tset. destruct (Nat.eqb v t); [discriminate|apply P2].
Qed.

Section W.
Variable k : key.
(** Thread [t] has a counted Insert that succeeded and has not returned. *)
Definition won (w : tid -> option call) (f : tid -> status) (t : tid) : Prop :=
  is_insert k (w t) = true /\ f t = SDone (RCode Success).

Lemma spec_keep M o : o <> KDelete k -> M k <> None -> snd (spec M o) k <> None.
Proof.
  intros Ho HM. destruct o as [x|x v|x v|x v|x]; cbn [spec]; auto; unfold sset;
    try (destruct (M x); cbn [snd]; auto); cbn [snd]; destruct (Z.eqb_spec k x); try congruence.
Qed.

Lemma wins_bound M f h : lin M f h -> forall w,
  (forall t o, w t = Some o -> f t = SPend o \/ exists r, f t = SDone r) ->
  (forall t, f t <> SPend (KDelete k)) -> (forall t, ~ In (EInv t (KDelete k)) h) ->
  (M k = None -> (forall t, ~ won w f t) -> wins k w h <= 1) /\
  (M k <> None -> (forall t, ~ won w f t) -> wins k w h = 0) /\
  (M k <> None -> forall t0, (forall t, won w f t -> t = t0) -> wins k w h <= 1).
Proof.
  intros H. induction H as [M f|M f t o h H1 H2 IH|M f t r h H1 H2 IH|M f t o h H1 H2 IH]; intros w P1 P2 P3.
  - cbn. auto.
  - assert (Hw : w t = None).
    { destruct (w t) eqn:E; auto. destruct (P1 _ _ E) as [X|[r X]]; congruence. }
    assert (W : forall u, won (cset w t (Some o)) (tset f t (SPend o)) u -> won w f u).
    { intros u [A1 A2]. unfold won, cset, tset in *. destruct (Nat.eqb u t); [discriminate|auto]. }
    cbn [wins]. destruct (IH (cset w t (Some o))) as (I1 & I2 & I3).
    + intros u x. unfold cset, tset. destruct (Nat.eqb u t); [intros X; inversion X; auto|apply P1].
    + intros u. unfold tset. destruct (Nat.eqb u t); [|apply P2]. intros X; inversion X; subst.
      apply (P3 t). left. auto.
    + intros u X. apply (P3 u). right. auto.
    + split; [|split]; intros HM.
      * intros HN. apply I1; auto. intros u Hu. apply (HN u). auto.
      * intros HN. apply I2; auto. intros u Hu. apply (HN u). auto.
      * intros t0 HN. apply (I3 HM t0). auto.
  - assert (W : forall u, won (cset w t None) (tset f t SIdle) u -> won w f u /\ u <> t).
    { intros u [A1 A2]. unfold won, cset, tset in *. destruct (Nat.eqb_spec u t); [discriminate|auto]. }
    cbn [wins]. destruct (IH (cset w t None)) as (I1 & I2 & I3).
    + intros u x. unfold cset, tset. destruct (Nat.eqb u t); [discriminate|apply P1].
    + intros u. unfold tset. destruct (Nat.eqb u t); [discriminate|apply P2].
    + intros u X. apply (P3 u). right. auto.
    + assert (HC : forall b, is_insert k (w t) && is_success r = b -> b = true -> won w f t).
      { intros b E ->. apply andb_true_iff in E as [E1 E2]. split; auto. rewrite H1.
        destruct r as [|[]]; try discriminate. auto. }
      destruct (is_insert k (w t) && is_success r) eqn:E; specialize (HC _ eq_refl).
      * specialize (HC eq_refl). split; [|split]; intros HM.
        -- intros HN. destruct (HN t HC).
        -- intros HN. destruct (HN t HC).
        -- intros t0 HN. rewrite I2; auto. intros u Hu. apply W in Hu as [Hu1 Hu2]. apply HN in Hu1, HC. congruence.
      * clear HC. split; [|split]; intros HM.
        -- intros HN. apply I1; auto. intros u Hu. apply W in Hu as [Hu _]. apply (HN u); auto.
        -- intros HN. apply I2; auto. intros u Hu. apply W in Hu as [Hu _]. apply (HN u); auto.
        -- intros t0 HN. apply (I3 HM t0). intros u Hu. apply HN, W; auto.
  - assert (Ho : o <> KDelete k) by (intros ->; apply (P2 t); auto).
    assert (W : forall u, u <> t -> won w (tset f t (SDone (fst (spec M o)))) u -> won w f u).
    { intros u Hu [A1 A2]. unfold won, tset in *. destruct (Nat.eqb_spec u t); [congruence|auto]. }
    assert (WT : won w (tset f t (SDone (fst (spec M o)))) t -> M k = None /\ snd (spec M o) k <> None).
    { intros [A1 A2]. destruct (w t) as [o'|] eqn:E; [|discriminate]. destruct (P1 _ _ E) as [X|[r X]]; [|congruence].
      assert (o' = o) by congruence. subst o'. destruct o as [x|x v|x v|x v|x]; try discriminate.
      cbn [is_insert] in A1. apply Z.eqb_eq in A1. subst x. unfold tset in A2. rewrite Nat.eqb_refl in A2.
      cbn [spec] in *. destruct (M k); [discriminate|]. cbn [snd]. unfold sset. rewrite Z.eqb_refl. split; congruence. }
    destruct (IH w) as (I1 & I2 & I3).
    + intros u x E. unfold tset. destruct (Nat.eqb u t); eauto.
    + intros u. unfold tset. destruct (Nat.eqb u t); [discriminate|apply P2].
    + auto.
    + pose proof (spec_keep M o Ho) as HK. split; [|split]; intros HM.
      * intros HN. destruct (snd (spec M o) k) eqn:E.
        -- apply (I3 ltac:(congruence) t). intros u Hu. destruct (Nat.eq_dec u t); auto.
           destruct (HN u). auto.
        -- apply I1; auto. intros u Hu. destruct (Nat.eq_dec u t) as [->|Hne]; [apply WT in Hu; tauto|].
           destruct (HN u). auto.
      * intros HN. apply I2; auto. intros u Hu. destruct (Nat.eq_dec u t) as [->|Hne]; [apply WT in Hu; tauto|].
        destruct (HN u). auto.
      * intros t0 HN. apply (I3 (HK HM) t0). intros u Hu. destruct (Nat.eq_dec u t) as [->|Hne]; [apply WT in Hu; tauto|].
        auto.
Qed.

Lemma wins_window M h1 h2 h3 : lin M (fun _ => SIdle) (h1 ++ h2 ++ h3) ->
  (forall t, pending no_call h1 t <> Some (KDelete k)) -> (forall t, ~ In (EInv t (KDelete k)) h2) ->
  wins k no_call h2 <= 1.
Proof.
  intros H P1 P2. apply lin_app in H as [_ (M1 & f1 & H & HP)]. apply lin_app in H as [H _].
  assert (P3 : forall t, f1 t <> SPend (KDelete k)).
  { intros t E. apply (P1 t). apply (HP no_call); auto; discriminate. }
  destruct (wins_bound M1 f1 h2 H no_call ltac:(discriminate) P3 P2) as (I1 & I2 & _).
  assert (HN : forall t, ~ won no_call f1 t) by (intros t [X _]; discriminate).
  destruct (M1 k) eqn:E; [rewrite I2; auto; congruence|auto].
Qed.
End W.

Lemma conc_wins : forall g fuel todos sch k h1 h2 h3, cfg_ok g -> hdr_ok g -> no_merge g ->
  snd (exec g fuel (start (init g) todos) sch) = h1 ++ h2 ++ h3 ->
  (forall t, pending no_call h1 t <> Some (KDelete k)) -> (forall t, ~ In (EInv t (KDelete k)) h2) ->
  wins k no_call h2 <= 1.
Proof.
  intros g fuel todos sch k h1 h2 h3 OK HO NM E. apply (wins_window k sempty h1 h2 h3). rewrite <- E.
  apply conc_linearizable; auto.
Qed.
