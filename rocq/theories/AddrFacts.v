(** Calls publish only chains whose head they have allocated themselves. *)
From Coq Require Import ZArith NArith List Bool Lia.
From Verif Require Import Config Api Page Machine Tree.
From Verif Require MrgStart GcFacts.
Import ListNotations.
Open Scope Z_scope.

(** Heads that are published lie below [b] or are allocated at or behind [b]. *)
Fixpoint aok {A} (b : N) (m : prog A) : Prop :=
  match m with
  | Ret _ | UB _ | Fuel => True
  | Load _ k => forall c, aok b (k c)
  | Store _ c k => (h_addr c < b)%N /\ aok b k
  | Clear _ k => aok b k
  | Cas _ _ _ c k => (h_addr c < b)%N /\ forall x, aok b (k x)
  | LoadRoot k => forall p, aok b (k p)
  | StoreRoot _ k => aok b k
  | CasRoot _ _ k => forall x, aok b (k x)
  | NewPid k => forall p, aok b (k p)
  | Alloc k => forall a, (b <= a)%N -> aok (a + 1) (k a)
  | LoadCell _ k => forall p, aok b (k p)
  | StoreCell _ _ k => aok b k
  | Retire _ k => aok b k
  end.
Lemma aok_mono {A} (m : prog A) : forall b b', (b <= b')%N -> aok b m -> aok b' m.
Proof.
  induction m; intros b0 b' L H0; cbn [aok] in *; auto; try (intros; eapply H; eauto; fail); try (eapply IHm; eauto; fail).
  - destruct H0. split; [lia|eauto].
  - destruct H0. split; [lia|eauto].
  - intros a Ha. apply H0. lia.
Qed.
Lemma aok_bind {A B} (m : prog A) (f : A -> prog B) : forall b, aok b m -> (forall a b', (b <= b')%N -> aok b' (f a)) -> aok b (bind m f).
Proof.
  induction m; intros b0 H0 Hf; cbn [aok bind] in *; auto; try (apply Hf; lia).
  - destruct H0. auto.
  - destruct H0. auto.
  - intros a Ha. apply H; auto. intros a' b' L. apply Hf. lia.
Qed.
Lemma aok_run {A} (m : prog A) : forall b s r s', aok b m -> (b <= s_naddr s)%N -> MrgStart.addr_lt s -> run m s = Done r s' ->
  MrgStart.addr_lt s'.
Proof.
  assert (P : forall s p c, MrgStart.addr_lt s -> (h_addr c < s_naddr s)%N -> MrgStart.addr_lt (set_tbl s p (Some c))).
  { intros s p c H L q d. cbn. unfold upd. destruct (N.eqb q p); [intros E; injection E as <-; exact L|apply H]. }
  induction m; intros b0 s0 r s' Ha Hb Hs E; cbn [aok run] in *; try discriminate; try (eapply H; eauto; fail); try (refine (IHm b0 _ r s' Ha _ _ E); [exact Hb|exact Hs]);
    try (refine (H _ b0 _ r s' (Ha _) _ _ E); [exact Hb|exact Hs]).
  - injection E as <- <-. exact Hs.
  - destruct (s_tbl s0 p); [|discriminate]. eapply H; eauto.
  - destruct Ha as [A1 A2]. refine (IHm b0 _ r s' A2 _ _ E); [exact Hb|apply P; [exact Hs|lia]].
  - eapply IHm; [exact Ha| | |exact E]; [exact Hb|]. intros q d. cbn. unfold upd. destruct (N.eqb q p); [discriminate|apply Hs].
  - destruct Ha as [A1 A2]. destruct (cas_ok s0 weak false p e); [|eapply H; eauto]. refine (H true b0 _ r s' (A2 true) _ _ E); [exact Hb|apply P; [exact Hs|lia]].
  - match type of E with (if ?x then _ else _) = _ => destruct x end; [|eapply H; eauto]. refine (H true b0 _ r s' (Ha true) _ _ E); [exact Hb|exact Hs].
  - refine (H (s_naddr s0) _ _ r s' (Ha (s_naddr s0) Hb) _ _ E); [cbn; lia|]. intros q d Q. cbn in *. specialize (Hs q d Q). lia.
Qed.

Ltac a1 := match goal with
  | |- True => exact I
  | |- aok _ Fuel => exact I
  | |- aok _ (Ret _) => exact I
  | |- aok _ (UB _) => exact I
  | |- aok _ (load _) => intros ?; exact I
  | |- aok _ (retire _) => exact I
  | H : forall _, _ |- aok _ _ => apply H; cbn [h_addr d_addr n_addr with_next]; try lia
  | |- aok _ (bind alloc _) => intros ? ?; cbn [bind alloc]
  | |- aok _ (bind (cas _ _ _ _) _) => split; [|intros ?; cbn [bind cas]]
  | |- aok _ (bind _ _) => apply aok_bind; [|intros]
  | |- aok _ (cas _ _ _ _) => split; [|intros; exact I]
  | |- aok _ (store _ _) => split; [|exact I]
  | |- aok _ alloc => intros ? ?; exact I
  | |- aok _ (Load _ _) => intros ?; cbv beta
  | |- aok _ (Store _ _ _) => split
  | |- aok _ (Cas _ _ _ _ _) => split; [|intros]
  | |- aok _ (LoadRoot _) => intros ?; cbv beta
  | |- aok _ (StoreRoot _ _) => cbn [aok]
  | |- aok _ (CasRoot _ _ _) => intros ?; cbv beta
  | |- aok _ (NewPid _) => intros ?; cbv beta
  | |- aok _ (Alloc _) => intros ? ?; cbv beta
  | |- aok _ (LoadCell _ _) => intros ?; cbv beta
  | |- aok _ (StoreCell _ _ _) => cbn [aok]
  | |- aok _ (Retire _ _) => cbn [aok]
  | |- aok _ (match ?x with _ => _ end) => destruct x eqn:?
  | |- aok _ (let '(_, _) := ?x in _) => destruct x eqn:?
  | |- (_ < _)%N => cbn [h_addr d_addr n_addr with_next leaf_delta set_next new_root]; lia
  end.
Ltac aa := repeat (cbv zeta; a1).

Section Addr.
Variable g : cfg.
Lemma a_load_valid p : forall f b, aok b (load_valid g f p).
Proof. induction f; intros b; cbn [load_valid]; aa. Qed.
Lemma a_wait a : forall f b, aok b (wait_cell f a).
Proof. induction f; intros b; cbn [wait_cell]; aa. Qed.
Lemma a_child k cl tgt : forall f st b, aok b (search_child_node f k cl st tgt).
Proof. pose proof a_wait. induction f; intros st b; cbn [search_child_node]; aa. Qed.
Lemma a_leaf_loop k cl : forall f st b, aok b (leaf_loop f k cl st).
Proof. pose proof a_child. induction f; intros st b; cbn [leaf_loop]; aa. Qed.
Lemma a_leaf k cl f b : aok b (search_leaf f k cl).
Proof. pose proof a_leaf_loop. unfold search_leaf. aa. Qed.
Lemma a_target_loop k tgt : forall f st l b, aok b (target_loop f k tgt st l).
Proof. pose proof a_child. induction f; intros st l b; cbn [target_loop]; aa. Qed.
Lemma a_target k tgt : forall f b, aok b (search_target f k tgt).
Proof. pose proof a_target_loop. induction f; intros b; cbn [search_target]; aa. Qed.
Lemma a_head k cl tgt : forall f st b, aok b (get_head g f k cl st tgt).
Proof. pose proof a_load_valid. pose proof a_leaf. pose proof a_child. induction f; intros st b; cbn [get_head]; aa. Qed.
Lemma a_head_kc k : forall f st b, aok b (get_head_kc g f k st).
Proof. pose proof a_load_valid. pose proof a_leaf. pose proof a_child. induction f; intros st b; cbn [get_head_kc]; aa. Qed.
Lemma a_head_merge k : forall f sib st b, aok b (get_head_merge g f k sib st).
Proof. pose proof a_load_valid. pose proof a_child. induction f; intros sib st b; cbn [get_head_merge]; aa. Qed.

Section Smo.
Variable smos : chain -> list pid -> prog unit.
Hypothesis HS : forall c st b, aok b (smos c st).
Lemma a_root_split sep r l b : aok b (try_root_split g sep r l).
Proof. unfold try_root_split. aa. Qed.
Lemma a_split_loop d l : forall f st b, (d_addr d < b)%N -> aok b (split_loop g smos f d l st).
Proof. pose proof a_root_split. pose proof a_target. pose proof a_head. induction f; intros st b Hb; cbn [split_loop]; aa. Qed.
Lemma a_split f l r st b : (n_addr l < b)%N -> (n_addr r < b)%N -> aok b (split g smos f l r st).
Proof. intros Hl Hr. pose proof a_split_loop. unfold split. aa. Qed.
Lemma a_remove_root n p st b : aok b (try_remove_root n p st).
Proof. unfold try_remove_root. aa. Qed.
Lemma a_delete_loop d : forall f sib st b, (d_addr d < b)%N -> aok b (delete_loop g f d sib st).
Proof. pose proof a_head_merge. induction f; intros sib st b Hb; cbn [delete_loop]; aa. Qed.
Lemma a_delete_entry f n st b : aok b (try_delete_entry g smos f n st).
Proof. pose proof a_delete_loop. unfold try_delete_entry. aa. Qed.
Lemma a_merge_loop d n rp da : forall f x st b, (d_addr d < b)%N -> aok b (merge_loop g smos f d n rp da x st).
Proof. pose proof a_target. pose proof a_head. pose proof a_child. induction f; intros x st b Hb; cbn [merge_loop]; aa. Qed.
Lemma a_merge f head n st b : (n_addr n < b)%N -> aok b (try_merge g smos f head n st).
Proof. intros Hn. pose proof a_delete_entry. pose proof a_merge_loop. pose proof a_remove_root. unfold try_merge. aa. Qed.
End Smo.
Lemma a_smos : forall f head st b, aok b (try_smos g f head st).
Proof.
  induction f; intros head st b; cbn [try_smos]; [exact I|]. destruct st as [|p st]; [exact I|]. apply aok_bind; [intros c; exact I|]. intros c b1 L1.
  destruct (negb _); [exact I|]. intros a Ha. cbn [bind alloc]. destruct (dc_sort head [] []) as [[ds ns]|]; [|exact I]. destruct (_ <? _); [exact I|]. cbv zeta.
  destruct (_ <? _).
  - intros ra Hr. cbn [bind alloc]. destruct (consolidate _ _ _ _ _ _ _ _) as [n|l r|] eqn:E; try exact I. apply GcFacts.cons_two in E as [El Er].
    destruct (_ && _); [|exact I]. apply aok_bind; [|intros; exact I]. apply a_split; [exact IHf|lia|lia].
  - destruct (consolidate _ _ _ _ _ _ _ _) as [n|l r|] eqn:E; try exact I. apply GcFacts.cons_one in E.
    destruct (fits g n); [|exact I]. destruct (_ <=? _).
    + apply aok_bind; [apply a_merge; [exact IHf|lia]|]. intros [] b2 L2; exact I.
    + split; [cbn [h_addr]; lia|]. intros []; exact I.
Qed.
Lemma a_finish f c st b : aok b (finish g f c st).
Proof. pose proof a_smos. unfold finish. aa. Qed.
Lemma a_read k : forall f st b, aok b (read_loop g f k st).
Proof. pose proof a_load_valid. pose proof a_leaf. pose proof a_child. induction f; intros st b; cbn [read_loop]; aa. Qed.
Lemma a_write a k v : forall f st b, (a < b)%N -> aok b (write_loop g f a k v st).
Proof. pose proof a_head_kc. pose proof a_head. pose proof a_finish. induction f; intros st b Hb; cbn [write_loop]; aa. destruct b0; aa. Qed.
Lemma a_insert a k v : forall f st b, (a < b)%N -> aok b (insert_loop g f a k v st).
Proof. pose proof a_head_kc. pose proof a_finish. induction f; intros st b Hb; cbn [insert_loop]; aa. Qed.
Lemma a_update a k v : forall f st b, (a < b)%N -> aok b (update_loop g f a k v st).
Proof. pose proof a_head_kc. pose proof a_finish. induction f; intros st b Hb; cbn [update_loop]; aa. Qed.
Lemma a_delete a k : forall f st b, (a < b)%N -> aok b (remove_loop g f a k st).
Proof. pose proof a_head_kc. pose proof a_finish. induction f; intros st b Hb; cbn [remove_loop]; aa. Qed.
Lemma a_call f o b : aok b (call_prog g f o).
Proof.
  pose proof a_leaf. pose proof a_read. pose proof a_write. pose proof a_insert. pose proof a_update. pose proof a_delete.
  destruct o; cbn [call_prog]; unfold op_read, op_write, op_insert, op_update, op_delete; aa.
Qed.
Lemma call_addr f o s r s' : MrgStart.addr_lt s -> run (call_prog g f o) s = Done r s' -> MrgStart.addr_lt s'.
Proof. intros Hs E. eapply aok_run; [apply (a_call f o 0%N)|lia|exact Hs|exact E]. Qed.
End Addr.
