(** No page is reclaimed while a call still uses it. *)
From Coq Require Import ZArith NArith List Bool Lia.
From Verif Require Import Config Api Page Machine Tree Spec Conc GcFacts EpochSpec.
Import ListNotations.

Section S.
Variable g : cfg.
Variable fuel : nat.

Lemma exec_app s1 : forall c s2, exec g fuel c (s1 ++ s2) =
  (fst (exec g fuel (fst (exec g fuel c s1)) s2),
   snd (exec g fuel c s1) ++ snd (exec g fuel (fst (exec g fuel c s1)) s2)).
Proof.
  induction s1 as [|[t b] s1 IH]; intros c s2; cbn [exec app fst snd].
  - destruct (exec g fuel c s2); reflexivity.
  - destruct (cstep g fuel c t b) as [c1 h1]. rewrite (IH c1 s2).
    destruct (exec g fuel c1 s1) as [c2 h2]. cbn [fst snd]. rewrite app_assoc. reflexivity.
Qed.

Lemma pstep_gc {A} (m : prog A) b s m' s' : pstep m b s = Some (m', s') -> forall a, In a (s_gc s) -> In a (s_gc s').
Proof.
  intros H a Ha. destruct m; cbn [pstep] in H; try discriminate;
    repeat match type of H with context [if ?x then _ else _] => destruct x
                              | context [match ?x with _ => _ end] => destruct x end;
    inversion H; subst; auto.
  cbn. apply in_app_iff. auto.
Qed.

Lemma cstep_gc c t b a : In a (s_gc (c_mem c)) -> In a (s_gc (c_mem (fst (cstep g fuel c t b)))).
Proof.
  intros H. unfold cstep. destruct (nth_error (c_thr c) t) as [[[|o r]|m r]|]; auto.
  destruct m; auto; match goal with |- context [pstep ?m ?b ?s] => destruct (pstep m b s) as [[m' s']|] eqn:E end;
    auto; cbn [fst c_mem]; eapply pstep_gc; eauto.
Qed.
Lemma exec_gc sch : forall c a, In a (s_gc (c_mem c)) -> In a (s_gc (c_mem (fst (exec g fuel c sch)))).
Proof.
  induction sch as [|[t b] r IH]; intros c a H; cbn [exec]; auto.
  pose proof (cstep_gc c t b a H) as H1. destruct (cstep g fuel c t b) as [c1 h1]. cbn [fst] in H1.
  specialize (IH _ _ H1). destruct (exec g fuel c1 r). exact IH.
Qed.

Lemma nth_upd (l : list thread) t x u : nth_error l t <> None ->
  nth_error (firstn t l ++ x :: skipn (S t) l) u = if Nat.eqb u t then Some x else nth_error l u.
Proof.
  revert t u. induction l as [|y l IH]; intros [|t] u H; try (destruct H; reflexivity).
  - destruct u; reflexivity.
  - destruct u; [reflexivity|]. cbn [firstn skipn app nth_error Nat.eqb]. apply IH. exact H.
Qed.

(** A call ends only with its return event. *)
Lemma cstep_busy c t b u : busy c u -> busy (fst (cstep g fuel c t b)) u \/ exists x, In (ERes u x) (snd (cstep g fuel c t b)).
Proof.
  intros (m0 & r0 & Hu). unfold cstep. destruct (nth_error (c_thr c) t) as [th|] eqn:E; [|left; exists m0, r0; auto].
  assert (Hn : nth_error (c_thr c) t <> None) by congruence.
  assert (K : forall s m r, busy (mk_cst s (firstn t (c_thr c) ++ TRun m r :: skipn (S t) (c_thr c))) u).
  { intros s m r. unfold busy. cbn [c_thr]. rewrite nth_upd by auto. destruct (Nat.eqb u t); eauto. }
  destruct th as [[|o r]|m r].
  - left. exists m0, r0. auto.
  - left. apply K.
  - destruct m as [x|p k|p c1 k|p k|w p e c1 k|k|p k|o n k|k|k|a k|a p k|l k|u0|]; try (left;
      match goal with |- context [pstep ?m ?b ?s] => destruct (pstep m b s) as [[m' s']|] end;
      [apply K|exists m0, r0; auto]; fail).
    destruct (PeanoNat.Nat.eqb_spec u t) as [->|N].
    + right. exists x. left; auto.
    + left. unfold busy. cbn [fst c_thr]. rewrite nth_upd by auto.
      destruct (PeanoNat.Nat.eqb_spec u t); [easy|eauto].
Qed.
Lemma exec_busy sch : forall c u, busy c u -> busy (fst (exec g fuel c sch)) u \/ exists x, In (ERes u x) (snd (exec g fuel c sch)).
Proof.
  induction sch as [|[t b] r IH]; intros c u H; cbn [exec]; auto.
  destruct (cstep_busy c t b u H) as [H1|[x H1]]; destruct (cstep g fuel c t b) as [c1 h1]; cbn [fst snd] in H1.
  - specialize (IH _ _ H1). destruct (exec g fuel c1 r) as [c2 h2]. cbn [fst snd] in *.
    destruct IH as [IH|[x IH]]; auto. right. exists x. apply in_app_iff; auto.
  - right. exists x. destruct (exec g fuel c1 r). apply in_app_iff; auto.
Qed.

Lemma app_split {A} : forall (a b c d : list A), a ++ b = c ++ d ->
  (exists x, a = c ++ x /\ d = x ++ b) \/ (exists x, c = a ++ x /\ b = x ++ d).
Proof.
  induction a as [|y a IH]; intros b c d E.
  - right. exists c. auto.
  - destruct c as [|z c]; [left; exists (y :: a); auto|]. cbn in E. inversion E; subst.
    destruct (IH b c d H1) as [(x & -> & ->)|(x & -> & ->)]; [left|right]; exists x; auto.
Qed.

Lemma fresh_not_gc s0 todos sch : owns s0 -> let s := c_mem (fst (exec g fuel (start s0 todos) sch)) in
  ~ In (s_naddr s) (s_gc s).
Proof.
  intros OW. destruct (start_owns g s0 todos OW) as [G0 H0]. destruct (exec_inv g fuel sch _ _ H0) as (G & [H _] & _).
  intros s X. apply (proj2 (i_gc _ _ _ H)) in X. pose proof (i_new _ _ _ H (s_naddr s) (N.le_refl _)) as Y. congruence.
Qed.

Lemma not_freed_from s0 todos s1 s2 t a : owns s0 -> let c0 := start s0 todos in let e := fst (exec g fuel c0 s1) in
  obtains e t a -> (forall x, ~ In (ERes t x) (snd (exec g fuel e s2))) ->
  ~ may_free g fuel c0 (s1 ++ s2) a.
Proof.
  intros OW c0 e Ho Hr (r1 & r2 & E & Hg & Hb).
  assert (Ng : ~ In a (s_gc (c_mem e))).
  { destruct Ho as [(p & k & r & h & _ & Et & Ha)|(k & r & _ & ->)].
    - exact (proj2 (gc_once_from g s0 fuel todos s1 OW) p h a Et Ha).
    - apply (fresh_not_gc s0 todos s1 OW). }
  assert (Bu : busy e t) by (destruct Ho as [(p & k & r & h & E1 & _)|(k & r & E1 & _)]; unfold busy; eauto).
  apply app_split in E as [(x & -> & ->)|(x & -> & ->)].
  - (* retired before the access *)
    apply Ng. unfold e. rewrite exec_app. cbn [fst]. apply exec_gc. exact Hg.
  - assert (Ex : exec g fuel c0 (s1 ++ x) = (fst (exec g fuel e x), snd (exec g fuel c0 s1) ++ snd (exec g fuel e x)))
      by apply exec_app.
    destruct (exec_busy x e t Bu) as [B|[y B]].
    + destruct (Hb t) as [y Hy]; [rewrite Ex; exact B|]. rewrite Ex in Hy. cbn [fst] in Hy.
      apply (Hr y). rewrite exec_app. cbn [snd]. apply in_app_iff. right. exact Hy.
    + apply (Hr y). rewrite exec_app. cbn [snd]. apply in_app_iff. left. exact B.
Qed.
Lemma not_freed todos s1 s2 t a : let c0 := start (init g) todos in let e := fst (exec g fuel c0 s1) in
  obtains e t a -> (forall x, ~ In (ERes t x) (snd (exec g fuel e s2))) ->
  ~ may_free g fuel c0 (s1 ++ s2) a.
Proof. apply not_freed_from, init_owns. Qed.
End S.
