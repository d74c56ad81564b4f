(** Sizes of pages in any execution, merging included: what is published has passed
    the size check that stands for undefined behaviour. *)
From Coq Require Import ZArith NArith List Bool Lia.
From Coq Require Import ZifyBool ZifyNat ZifyN.
From Verif Require Import Config Api Page Machine Tree Spec Conc ConcSpec StatSpec.
Import ListNotations.
Open Scope Z_scope.

Section Sizes.
Variable g : cfg.
Hypothesis RD : forall k, c_hdr g + nullsz g + recsz g ptrlen k <= c_page g.

Local Notation pfit := (pfit g).

(** [m] only publishes chains that satisfy [pfit], given that it loads only
    such chains. *)
Fixpoint sp {A} (m : prog A) (Q : A -> Prop) : Prop :=
  match m with
  | Ret a => Q a
  | Load _ k => forall c, pfit c -> sp (k c) Q
  | Store _ c k => pfit c /\ sp k Q
  | Clear _ k => sp k Q
  | Cas _ _ _ c k => pfit c /\ forall b, sp (k b) Q
  | LoadRoot k => forall r, sp (k r) Q
  | StoreRoot _ k => sp k Q
  | CasRoot _ _ k => forall b, sp (k b) Q
  | NewPid k => forall p, sp (k p) Q
  | Alloc k => forall a, sp (k a) Q
  | LoadCell _ k => forall p, sp (k p) Q
  | StoreCell _ _ k => sp k Q
  | Retire _ k => sp k Q
  | UB _ => True
  | Fuel => True
  end.
Definition any {A} (_ : A) : Prop := True.

Lemma sp_mono {A} (m : prog A) : forall Q Q' : A -> Prop, (forall a, Q a -> Q' a) -> sp m Q -> sp m Q'.
Proof. induction m; intros Q Q' HQ; cbn [sp]; auto; intros; intuition eauto. Qed.
Lemma sp_bind {A B} (m : prog A) (f : A -> prog B) Q : sp m (fun a => sp (f a) Q) -> sp (bind m f) Q.
Proof. induction m; cbn [sp bind]; auto; intros; intuition eauto. Qed.

(** Programs that publish nothing. *)
Lemma sp_bind_any {A B} (m : prog A) (f : A -> prog B) Q : sp m any -> (forall a, sp (f a) Q) -> sp (bind m f) Q.
Proof. intros H1 H2. apply sp_bind. eapply sp_mono; [|apply H1]. auto. Qed.

Lemma sp_wait_cell a : forall f, sp (wait_cell f a) any.
Proof. induction f; cbn [wait_cell sp]; auto. intros p. destruct (N.eqb p 0); [apply IHf|exact I]. Qed.

Lemma sp_child k cl tgt : forall f st, sp (search_child_node f k cl st tgt) any.
Proof.
  induction f; intros st; cbn [search_child_node]; [exact I|]. destruct st as [|p rest]; [exact I|].
  cbn [bind load sp]. intros c _. destruct (dc_search_child c k cl false); try exact I; try exact I.
  - destruct (h_leaf c); [exact I|exact I].
  - apply sp_bind_any; [apply sp_wait_cell|]. intros; exact I.
  - destruct rest; [destruct (negb (N.eqb tgt 0)); [exact I|cbn [sp]; intros r; apply IHf]|].
    apply sp_bind_any; [apply IHf|]. intros [[|] [|q st']]; try exact I; apply IHf.
  - match goal with |- context [N.eqb ?x tgt] => destruct (N.eqb x tgt) end; [exact I|apply IHf].
  - destruct (node_search_child n k cl); [destruct (h_leaf c); [exact I|exact I]|exact I].
Qed.

Lemma sp_leaf_loop k cl : forall f st, sp (leaf_loop f k cl st) any.
Proof.
  induction f; intros st; cbn [leaf_loop]; [exact I|]. destruct st as [|p rest]; [exact I|].
  cbn [bind load sp]. intros c _. destruct (h_leaf c); [exact I|].
  apply sp_bind_any; [apply sp_child|]. intros [b st']. apply IHf.
Qed.
Lemma sp_search_leaf k cl f : sp (search_leaf f k cl) any.
Proof. cbn [search_leaf sp]. intros r. apply sp_leaf_loop. Qed.

Lemma sp_target_loop k tgt : forall f st b, sp (target_loop f k tgt st b) any.
Proof.
  induction f; intros st b; cbn [target_loop]; [exact I|]. destruct b; [exact I|].
  apply sp_bind_any; [apply sp_child|]. intros [b st']. destruct b; [exact I|]. destruct st'; [exact I|].
  cbn [bind load sp]. intros c _. apply IHf.
Qed.
Lemma sp_search_target k tgt : forall f, sp (search_target f k tgt) any.
Proof.
  induction f; cbn [search_target]; [exact I|]. cbn [sp bind load]. intros r c _.
  apply sp_bind_any; [apply sp_target_loop|]. intros [|p st']; [apply IHf|exact I].
Qed.

Lemma sp_load_valid p : forall f, sp (load_valid g f p) pfit.
Proof.
  induction f; cbn [load_valid bind load sp]; [exact I|]. intros c Hc.
  destruct (need_wait g c) eqn:W; [apply IHf|]. exact Hc.
Qed.

Definition opfit (r : option chain * list pid) : Prop :=
  match fst r with Some c => pfit c | None => True end.
Lemma sp_get_head k cl tgt : forall f st, sp (get_head g f k cl st tgt) opfit.
Proof.
  induction f; intros st; cbn [get_head]; [exact I|]. destruct st as [|p rest]; [exact I|].
  apply sp_bind. eapply sp_mono; [|apply sp_load_valid]. intros c Hc.
  destruct (dc_validate c k cl); [exact Hc| |].
  - destruct rest; [destruct (negb (N.eqb tgt 0)); [exact I|]|].
    + apply sp_bind_any; [apply sp_search_leaf|]. intros; apply IHf.
    + apply sp_bind_any; [apply sp_child|]. intros [b [|q st']]; [exact I|apply IHf].
  - match goal with |- context [N.eqb ?x tgt] => destruct (N.eqb x tgt) end; [exact Hc|apply IHf].
Qed.

Lemma sp_get_kc k : forall f st, sp (get_head_kc g f k st) (fun r => pfit (fst (fst r))).
Proof.
  induction f; intros st; cbn [get_head_kc]; [exact I|]. destruct st as [|p rest]; [exact I|].
  apply sp_bind. eapply sp_mono; [|apply sp_load_valid]. intros c Hc.
  destruct (dc_search_record c k false); try exact Hc; try exact I; [|apply IHf].
  destruct rest.
  - apply sp_bind_any; [apply sp_search_leaf|]. intros; apply IHf.
  - apply sp_bind_any; [apply sp_child|]. intros [b st']; apply IHf.
Qed.

Lemma sp_get_merge k : forall f sib st, sp (get_head_merge g f k sib st) (fun r => opfit (fst r)).
Proof.
  induction f; intros sib st; cbn [get_head_merge]; [exact I|]. destruct st as [|p rest]; [exact I|].
  apply sp_bind. eapply sp_mono; [|apply sp_load_valid]. intros c Hc.
  destruct (dc_search_merge c k sib false _ false); try exact I; try exact Hc; try (cbn; discriminate); [apply IHf|].
  match goal with |- sp (if ?x then _ else _) _ => destruct x end; [exact Hc|exact I].
Qed.

(** ** Structure modifications *)
Definition smo_sp (smos : chain -> list pid -> prog unit) : Prop := forall c st, pfit c -> sp (smos c st) any.

Lemma sp_root_split sep r l : sp (try_root_split g sep r l) any.
Proof.
  cbn [try_root_split sp]. intros rt. destruct (negb (N.eqb rt l)); [exact I|].
  cbn [bind alloc sp]. intros a np. split; [cbn; apply RD|exact I].
Qed.

Lemma sp_split_loop smos d l : smo_sp smos -> forall f st, sp (split_loop g smos f d l st) any.
Proof.
  intros HS. induction f; intros st; cbn [split_loop]; [exact I|]. destruct st as [|p rest].
  - apply sp_bind_any; [apply sp_root_split|]. intros [|]; [exact I|].
    apply sp_bind_any; [apply sp_search_target|]. intros [|q t]; [exact I|apply IHf].
  - apply sp_bind. eapply sp_mono; [|apply sp_get_head]. intros [[head|] st'] Hh; [|apply IHf].
    destruct st' as [|q t]; [exact I|]. cbn [bind cas sp]. cbn [opfit fst] in Hh.
    assert (HC : pfit (CRec (set_next d head (recsz g ptrlen (d_key d))) head)) by exact Hh. split; auto. intros b.
    destruct b; [|apply IHf]. destruct (need_consolidation g _); [apply HS; auto|exact I].
Qed.

Lemma sp_split smos f l r st : smo_sp smos -> n_size l <= c_page g -> n_size r <= c_page g -> sp (split g smos f l r st) any.
Proof.
  intros HS Hl Hr. unfold split. cbn [sp]. intros rp. split; [exact Hr|]. destruct st as [|lp st']; [exact I|].
  destruct (n_low r); [|exact I]. cbn [sp bind alloc]. split; [exact Hl|]. intros a.
  apply sp_split_loop; auto.
Qed.

Lemma sp_delete_loop d : forall f sib st, sp (delete_loop g f d sib st)
  (fun r => match fst r with Some c => pfit c | None => True end).
Proof.
  induction f; intros sib st; cbn [delete_loop]; [exact I|]. apply sp_bind.
  eapply sp_mono; [|apply sp_get_merge]. intros [[[head|] st'] sib'] Hh; [|exact I].
  destruct st' as [|p t]; [exact I|]. cbn [bind cas sp]. cbn [opfit fst] in Hh.
  split; [exact Hh|]. intros [|]; [exact Hh|apply IHf].
Qed.

Lemma sp_delete_entry smos f n st : smo_sp smos -> sp (try_delete_entry g smos f n st) any.
Proof.
  intros HS. unfold try_delete_entry. destruct st; [exact I|]. destruct (n_low n); [|exact I].
  cbn [bind alloc sp]. intros a. apply sp_bind. eapply sp_mono; [|apply sp_delete_loop].
  intros [[c|] st'] Hc; [|exact I]. cbn [fst] in Hc. apply sp_bind_any; [|intros; exact I].
  destruct (need_consolidation g c); [apply HS; auto|exact I].
Qed.

Lemma sp_merge_loop smos d n rp da : smo_sp smos -> n_size n <= c_page g -> forall f b st, sp (merge_loop g smos f d n rp da b st) any.
Proof.
  intros HS Hn. induction f; intros b st; cbn [merge_loop]; [exact I|]. destruct b.
  - apply sp_bind. eapply sp_mono; [|apply sp_get_head]. intros [[head|] st'] Hh; [|apply IHf].
    destruct st' as [|q t]; [exact I|]. cbn [bind cas sp]. cbn [opfit fst] in Hh.
    assert (HC : pfit (CMerge (set_next d head (node_diff g n)) n head)) by (split; auto). split; auto. intros b.
    destruct b; [|apply IHf]. cbn [sp]. destruct (need_consolidation g _); [apply HS; auto|exact I].
  - destruct st.
    + apply sp_bind_any; [apply sp_search_target|]. intros; apply IHf.
    + apply sp_bind_any; [apply sp_child|]. intros [b [|q t]]; apply IHf.
Qed.

Lemma sp_remove_root n p st : sp (try_remove_root n p st) any.
Proof.
  unfold try_remove_root. destruct st; [|exact I].
  destruct ((1 <? Z.of_nat (length (n_recs n))) || negb (n_inner n)); [exact I|].
  destruct (leftmost_child (CBase n)); [|exact I]. cbn [bind load sp]. intros c _.
  destruct (h_leaf c); [exact I|]. cbn [sp]. intros [|]; exact I.
Qed.

Lemma sp_try_merge smos f c n st : smo_sp smos -> n_size n <= c_page g -> sp (try_merge g smos f c n st) any.
Proof.
  intros HS Hn. unfold try_merge. destruct st as [|p st]; [exact I|]. cbn [bind alloc cas sp]. intros a.
  split; [exact I|]. intros [|]; [|exact I]. cbn [negb].
  apply sp_bind_any; [apply sp_delete_entry; auto|]. intros od.
  assert (HR : sp (bind (try_remove_root n p st) (fun rr : bool =>
      if rr then Ret true else Store p (CBase n) (Retire [a] (Ret true)))) any).
  { apply sp_bind_any; [apply sp_remove_root|]. intros [|]; [exact I|]. cbn [sp]. split; [exact Hn|exact I]. }
  destruct od; [|exact HR]. destruct (n_low n); [|exact HR]. cbn [bind alloc sp]. intros ma.
  apply sp_bind_any; [apply sp_merge_loop; auto|]. intros; exact I.
Qed.

Lemma sp_smos : forall f, smo_sp (try_smos g f).
Proof.
  induction f; intros c st Hc; cbn [try_smos]; [exact I|]. destruct st as [|p t]; [exact I|].
  cbn [bind load sp]. intros c0 _. destruct (negb (N.eqb (h_addr c0) (h_addr c))); [exact I|].
  cbn [bind alloc sp]. intros a. destruct (dc_sort c [] []) as [[ds ns]|] eqn:E; [|exact I].
  destruct (c_maxd g <? Z.of_nat (length ds)) eqn:Eo; [exact I|].
  destruct (c_page g <? h_size c).
  - cbn [bind alloc sp]. intros ra. destruct (consolidate g _ a ra ns ds true false); try exact I.
    unfold fits. destruct (n_size l <=? c_page g) eqn:El; [|exact I]. destruct (n_size r <=? c_page g) eqn:Er; [|exact I].
    apply sp_bind_any; [apply sp_split; auto; lia|]. intros; exact I.
  - destruct (consolidate g _ a 0%N ns ds false false); try exact I.
    unfold fits. destruct (n_size n <=? c_page g) eqn:En; [|exact I]. destruct (h_size c <=? c_min g).
    + apply sp_bind_any; [apply sp_try_merge; auto; lia|]. intros [|]; exact I.
    + cbn [bind cas sp]. split; [cbn; lia|]. intros [|]; exact I.
Qed.

(** ** Calls *)
Lemma sp_finish f c st : pfit c -> sp (finish g f c st) any.
Proof.
  intros H. unfold finish. apply sp_bind_any; [|intros; exact I].
  destruct (need_consolidation g c); [apply sp_smos; auto|exact I].
Qed.

Lemma sp_read k : forall f st, sp (read_loop g f k st) any.
Proof.
  induction f; intros st; cbn [read_loop]; [exact I|]. destruct st as [|p rest]; [exact I|].
  cbn [bind load sp]. intros c _. destruct (dc_search_record c k false); try exact I; try exact I.
  - destruct (h_leaf c); [exact I|exact I].
  - apply sp_bind_any; [apply sp_child|]. intros [b st']. apply IHf.
  - apply IHf.
  - destruct (node_search n k) as [[|] pos]; [|exact I]. destruct (pay_at n pos); [destruct (h_leaf c); [exact I|exact I]|exact I].
Qed.

Ltac upd_loop IHf :=
  match goal with |- forall st, _ => intros st end;
  apply sp_bind; eapply sp_mono; [|apply sp_get_kc]; intros [[head found] st'] Hh; cbn [fst] in Hh.
Ltac upd_cas Hh IHf :=
  match goal with st' : list pid |- sp match ?x with _ => _ end _ => destruct x; [exact I|] end;
  cbn [bind cas sp]; split; [exact Hh|]; intros [|]; [apply sp_finish; exact Hh|apply IHf].

Lemma sp_write a k v : forall f st, sp (write_loop g f a k v st) any.
Proof.
  induction f; cbn [write_loop]; [intros; exact I|]. upd_loop IHf. destruct st'; [exact I|].
  cbn [bind cas sp]. destruct found; (split; [exact Hh|]; intros [|]; [apply sp_finish; exact Hh|apply IHf]).
Qed.
Lemma sp_insert a k v : forall f st, sp (insert_loop g f a k v st) any.
Proof. induction f; cbn [insert_loop]; [intros; exact I|]. upd_loop IHf. destruct found; [exact I|]. upd_cas Hh IHf. Qed.
Lemma sp_update a k v : forall f st, sp (update_loop g f a k v st) any.
Proof. induction f; cbn [update_loop]; [intros; exact I|]. upd_loop IHf. destruct found; [|exact I]. cbn [negb]. upd_cas Hh IHf. Qed.
Lemma sp_remove a k : forall f st, sp (remove_loop g f a k st) any.
Proof. induction f; cbn [remove_loop]; [intros; exact I|]. upd_loop IHf. destruct found; [|exact I]. cbn [negb]. upd_cas Hh IHf. Qed.

Lemma sp_call f o : sp (call_prog g f o) any.
Proof.
  destruct o; cbn [call_prog]; (apply sp_bind_any; [|intros; exact I]).
  - apply sp_bind_any; [apply sp_search_leaf|]. intros; apply sp_read.
  - apply sp_bind_any; [apply sp_search_leaf|]. intros st. cbn [bind alloc sp]. intros; apply sp_write.
  - apply sp_bind_any; [apply sp_search_leaf|]. intros st. cbn [bind alloc sp]. intros; apply sp_insert.
  - apply sp_bind_any; [apply sp_search_leaf|]. intros st. cbn [bind alloc sp]. intros; apply sp_update.
  - apply sp_bind_any; [apply sp_search_leaf|]. intros st. cbn [bind alloc sp]. intros; apply sp_remove.
Qed.

(** ** Executions *)
Definition mem_ok (s : st) : Prop := forall p c, s_tbl s p = Some c -> pfit c.
Definition thr_sp (th : thread) : Prop := match th with TIdle _ => True | TRun m _ => sp m any end.
Definition conf_ok (c : cst) : Prop := mem_ok (c_mem c) /\ Forall thr_sp (c_thr c).

Lemma mem_set s p c : mem_ok s -> match c with Some x => pfit x | None => True end -> mem_ok (set_tbl s p c).
Proof.
  intros H Hc q x. cbn. unfold upd. destruct (N.eqb q p); [intros ->; auto|apply H].
Qed.

Lemma sp_pstep (m : prog ret) b s m' s' : sp m any -> mem_ok s -> pstep m b s = Some (m', s') ->
  sp m' any /\ mem_ok s'.
Proof.
  intros W Hs. destruct m; cbn [pstep sp] in *; try discriminate.
  - destruct (s_tbl s p) as [c|] eqn:E; intros X; inversion X; subst; split; auto; [apply W; eapply Hs; eauto|exact I].
  - intros X; inversion X; subst. destruct W. split; auto. apply mem_set; auto.
  - intros X; inversion X; subst. split; auto. apply mem_set; auto.
  - destruct W. destruct (cas_ok s weak b p e); intros X; inversion X; subst; split; auto. apply mem_set; auto.
  - intros X; inversion X; subst; auto.
  - intros X; inversion X; subst; auto.
  - destruct (N.eqb (s_root s) old); intros X; inversion X; subst; auto.
  - intros X; inversion X; subst; auto.
  - intros X; inversion X; subst; auto.
  - intros X; inversion X; subst; auto.
  - intros X; inversion X; subst; auto.
  - intros X; inversion X; subst; auto.
Qed.

Lemma Forall_put {A} (R : A -> Prop) l t y : Forall R l -> R y -> Forall R (firstn t l ++ y :: skipn (S t) l).
Proof.
  intros H Hy. rewrite Forall_forall in *. intros x Hx. apply in_app_iff in Hx as [Hx|[<-|Hx]]; auto; apply H.
  - rewrite <- (firstn_skipn t l). apply in_app_iff. auto.
  - rewrite <- (firstn_skipn (S t) l). apply in_app_iff. auto.
Qed.

Lemma cstep_sp f c t b : conf_ok c -> conf_ok (fst (cstep g f c t b)).
Proof.
  intros H. pose proof H as [Hm Ht]. unfold cstep. destruct (nth_error (c_thr c) t) as [th|] eqn:E; [|auto].
  assert (Hth : thr_sp th) by (rewrite Forall_forall in Ht; apply Ht; eapply nth_error_In; eauto).
  destruct th as [[|o td]|m td]; auto.
  - split; auto. cbn [c_thr fst]. apply Forall_put; auto. cbn [thr_sp]. apply sp_call.
  - cbn [thr_sp] in Hth.
    assert (HP : conf_ok (fst (match pstep m b (c_mem c) with
        | Some (m', s') => (mk_cst s' (firstn t (c_thr c) ++ TRun m' td :: skipn (S t) (c_thr c)), @nil event)
        | None => (c, []) end))).
    { destruct (pstep m b (c_mem c)) as [[m' s']|] eqn:Ep; auto. destruct (sp_pstep _ _ _ _ _ Hth Hm Ep).
      split; auto. cbn [fst c_thr]. apply Forall_put; auto. }
    destruct m; try exact HP. cbn [fst]. split; auto. cbn [c_thr]. apply Forall_put; auto.
Qed.

Lemma exec_sp f sch : forall c, conf_ok c -> conf_ok (fst (exec g f c sch)).
Proof.
  induction sch as [|[t b] r IH]; intros c H; cbn [exec]; auto.
  pose proof (cstep_sp f c t b H) as H1. destruct (cstep g f c t b) as [c1 h1]. cbn [fst] in H1.
  specialize (IH _ H1). destruct (exec g f c1 r). exact IH.
Qed.

Lemma init_fits : c_hdr g <= c_page g -> mem_ok (init g).
Proof. intros H p c. cbn. unfold upd. destruct (N.eqb p 1); [|discriminate]. intros X; inversion X. cbn. auto. Qed.
Lemma start_sp todos : c_hdr g <= c_page g -> conf_ok (start (init g) todos).
Proof.
  intros H. split; [apply init_fits; auto|].
  cbn. rewrite Forall_forall. intros x Hx. apply in_map_iff in Hx as (td & <- & _). exact I.
Qed.

(** ** Running alone *)
Lemma run_sp {A} (m : prog A) Q : forall s a s', sp m Q -> mem_ok s -> run m s = Done a s' -> Q a /\ mem_ok s'.
Proof.
  induction m; intros s x s' W Hs E; cbn [run sp] in *; try discriminate; eauto.
  - inversion E; subst; auto.
  - destruct (s_tbl s p) as [c|] eqn:Et; [|discriminate]. eapply H; eauto. 
  - destruct W as [W1 W2]. refine (IHm _ _ _ W2 _ E). apply mem_set; auto.
  - refine (IHm _ _ _ W _ E). apply mem_set; auto.
  - destruct W as [W1 W2]. destruct (cas_ok s weak false p e).
    + refine (H _ _ _ _ (W2 _) _ E). apply mem_set; auto.
    + eauto.
  - refine (IHm _ _ _ W _ E). exact Hs.
  - destruct (N.eqb (s_root s) old); [|eauto]. refine (H _ _ _ _ (W _) _ E). exact Hs.
  - refine (H _ _ _ _ (W _) _ E). exact Hs.
  - refine (H _ _ _ _ (W _) _ E). exact Hs.
  - refine (IHm _ _ _ W _ E). exact Hs.
  - refine (IHm _ _ _ W _ E). exact Hs.
Qed.
Lemma run_calls_sp f : forall os s rs s', mem_ok s -> run_calls g f os s = Done rs s' -> mem_ok s'.
Proof.
  induction os as [|o os IH]; intros s rs s' H E; cbn [run_calls] in E; [inversion E; subst; auto|].
  destruct (run (call_prog g f o) s) as [r s1| |] eqn:E1; try discriminate.
  destruct (run_sp _ _ _ _ _ (sp_call f o) H E1) as [_ H1].
  destruct (run_calls g f os s1) as [rs1 s2| |] eqn:E2; try discriminate. inversion E; subst. eapply IH; eauto.
Qed.
End Sizes.
