(** Length of delta chains in any execution, merging included. *)
From Coq Require Import ZArith NArith List Bool Lia.
From Coq Require Import ZifyBool ZifyNat ZifyN.
From Verif Require Import Config Api Page Machine Tree Spec Conc ConcSpec.
Import ListNotations.
Open Scope Z_scope.

Section Count.
Variable g : cfg.
Hypothesis MD : 1 <= c_maxd g.

Definition cnt_ok (c : chain) : Prop := (is_base c = false -> h_cnt c = deltas c) /\ deltas c <= c_maxd g.

(** [m] only publishes chains that satisfy [cnt_ok], given that it loads only
    such chains, and never overruns the sorting array. *)
Fixpoint sp {A} (m : prog A) (Q : A -> Prop) : Prop :=
  match m with
  | Ret a => Q a
  | Load _ k => forall c, cnt_ok c -> sp (k c) Q
  | Store _ c k => cnt_ok c /\ sp k Q
  | Clear _ k => sp k Q
  | Cas _ _ _ c k => cnt_ok c /\ forall b, sp (k b) Q
  | LoadRoot k => forall r, sp (k r) Q
  | StoreRoot _ k => sp k Q
  | CasRoot _ _ k => forall b, sp (k b) Q
  | NewPid k => forall p, sp (k p) Q
  | Alloc k => forall a, sp (k a) Q
  | LoadCell _ k => forall p, sp (k p) Q
  | StoreCell _ _ k => sp k Q
  | Retire _ k => sp k Q
  | UB u => u <> UbArray
  | Fuel => True
  end.
Definition any {A} (_ : A) : Prop := True.

Lemma sp_mono {A} (m : prog A) : forall Q Q' : A -> Prop, (forall a, Q a -> Q' a) -> sp m Q -> sp m Q'.
Proof. induction m; intros Q Q' HQ; cbn [sp]; auto; intros; intuition eauto. Qed.
Lemma sp_bind {A B} (m : prog A) (f : A -> prog B) Q : sp m (fun a => sp (f a) Q) -> sp (bind m f) Q.
Proof. induction m; cbn [sp bind]; auto; intros; intuition eauto. Qed.

(** Programs that publish nothing. *)
Lemma sp_bind_any {A B} (m : prog A) (f : A -> prog B) Q : sp m any -> (forall a, sp (f a) Q) -> sp (bind m f) Q.
Proof. intros H1 H2. apply sp_bind. eapply sp_mono; [|apply H1]. auto. Qed.

Lemma sp_wait_cell a : forall f, sp (wait_cell f a) any.
Proof. induction f; cbn [wait_cell sp]; auto. intros p. destruct (N.eqb p 0); [apply IHf|exact I]. Qed.

Lemma sp_child k cl tgt : forall f st, sp (search_child_node f k cl st tgt) any.
Proof.
  induction f; intros st; cbn [search_child_node]; [exact I|]. destruct st as [|p rest]; [cbn; discriminate|].
  cbn [bind load sp]. intros c _. destruct (dc_search_child c k cl false); try exact I; try (cbn; discriminate).
  - destruct (h_leaf c); [cbn; discriminate|exact I].
  - apply sp_bind_any; [apply sp_wait_cell|]. intros; exact I.
  - destruct rest; [destruct (negb (N.eqb tgt 0)); [exact I|cbn [sp]; intros r; apply IHf]|].
    apply sp_bind_any; [apply IHf|]. intros [[|] [|q st']]; try exact I; apply IHf.
  - match goal with |- context [N.eqb ?x tgt] => destruct (N.eqb x tgt) end; [exact I|apply IHf].
  - destruct (node_search_child n k cl); [destruct (h_leaf c); [cbn; discriminate|exact I]|cbn; discriminate].
Qed.

Lemma sp_leaf_loop k cl : forall f st, sp (leaf_loop f k cl st) any.
Proof.
  induction f; intros st; cbn [leaf_loop]; [exact I|]. destruct st as [|p rest]; [cbn; discriminate|].
  cbn [bind load sp]. intros c _. destruct (h_leaf c); [exact I|].
  apply sp_bind_any; [apply sp_child|]. intros [b st']. apply IHf.
Qed.
Lemma sp_search_leaf k cl f : sp (search_leaf f k cl) any.
Proof. cbn [search_leaf sp]. intros r. apply sp_leaf_loop. Qed.

Lemma sp_target_loop k tgt : forall f st b, sp (target_loop f k tgt st b) any.
Proof.
  induction f; intros st b; cbn [target_loop]; [exact I|]. destruct b; [exact I|].
  apply sp_bind_any; [apply sp_child|]. intros [b st']. destruct b; [exact I|]. destruct st'; [exact I|].
  cbn [bind load sp]. intros c _. apply IHf.
Qed.
Lemma sp_search_target k tgt : forall f, sp (search_target f k tgt) any.
Proof.
  induction f; cbn [search_target]; [exact I|]. cbn [sp bind load]. intros r c _.
  apply sp_bind_any; [apply sp_target_loop|]. intros [|p st']; [apply IHf|exact I].
Qed.

(** Heads returned for an update have room for one more record. *)
Definition room (c : chain) : Prop := cnt_ok c /\ deltas c < c_maxd g.
Lemma room_wait c : cnt_ok c -> need_wait g c = false -> room c.
Proof.
  intros [H1 H2] W. split; [split; auto|]. unfold need_wait in W. destruct (is_base c) eqn:B.
  - destruct c; try discriminate. cbn [deltas]. lia.
  - rewrite <- H1 by auto. cbn [negb andb] in W. lia.
Qed.
Lemma cnt_base n : cnt_ok (CBase n). Proof. split; [discriminate|cbn; lia]. Qed.
Lemma cnt_remove a l : cnt_ok (CRemove a l). Proof. split; cbn; [auto|lia]. Qed.
Lemma room_cnt d c diff : room c -> d_cnt (set_next d c diff) = deltas c + 1.
Proof.
  intros [[H1 _] _]. cbn [set_next d_cnt]. destruct (is_base c) eqn:B; [|rewrite H1; auto].
  destruct c; try discriminate. reflexivity.
Qed.
Lemma cnt_rec d c diff : room c -> cnt_ok (CRec (set_next d c diff) c).
Proof. intros H. split; cbn [h_cnt deltas]; [intros _; apply room_cnt; auto|destruct H; lia]. Qed.
Lemma cnt_merge d n c diff : room c -> cnt_ok (CMerge (set_next d c diff) n c).
Proof. intros H. split; cbn [h_cnt deltas]; [intros _; apply room_cnt; auto|destruct H; lia]. Qed.

Lemma sp_load_valid p : forall f, sp (load_valid g f p) room.
Proof.
  induction f; cbn [load_valid bind load sp]; [exact I|]. intros c Hc.
  destruct (need_wait g c) eqn:W; [apply IHf|]. cbn [sp]. apply room_wait; auto.
Qed.

Definition oroom (r : option chain * list pid) : Prop :=
  match fst r with Some c => room c | None => True end.
Lemma sp_get_head k cl tgt : forall f st, sp (get_head g f k cl st tgt) oroom.
Proof.
  induction f; intros st; cbn [get_head]; [exact I|]. destruct st as [|p rest]; [cbn; discriminate|].
  apply sp_bind. eapply sp_mono; [|apply sp_load_valid]. intros c Hc.
  destruct (dc_validate c k cl); [exact Hc| |].
  - destruct rest; [destruct (negb (N.eqb tgt 0)); [exact I|]|].
    + apply sp_bind_any; [apply sp_search_leaf|]. intros; apply IHf.
    + apply sp_bind_any; [apply sp_child|]. intros [b [|q st']]; [exact I|apply IHf].
  - match goal with |- context [N.eqb ?x tgt] => destruct (N.eqb x tgt) end; [exact Hc|apply IHf].
Qed.

Lemma sp_get_kc k : forall f st, sp (get_head_kc g f k st) (fun r => room (fst (fst r))).
Proof.
  induction f; intros st; cbn [get_head_kc]; [exact I|]. destruct st as [|p rest]; [cbn; discriminate|].
  apply sp_bind. eapply sp_mono; [|apply sp_load_valid]. intros c Hc.
  destruct (dc_search_record c k false); try exact Hc; try (cbn; discriminate); [|apply IHf].
  destruct rest.
  - apply sp_bind_any; [apply sp_search_leaf|]. intros; apply IHf.
  - apply sp_bind_any; [apply sp_child|]. intros [b st']; apply IHf.
Qed.

Lemma sp_get_merge k : forall f sib st, sp (get_head_merge g f k sib st) (fun r => oroom (fst r)).
Proof.
  induction f; intros sib st; cbn [get_head_merge]; [exact I|]. destruct st as [|p rest]; [cbn; discriminate|].
  apply sp_bind. eapply sp_mono; [|apply sp_load_valid]. intros c Hc.
  destruct (dc_search_merge c k sib false _ false); try exact I; try exact Hc; try (cbn; discriminate); [apply IHf|].
  match goal with |- sp (if ?x then _ else _) _ => destruct x end; [exact Hc|exact I].
Qed.

(** ** Sorting *)
Lemma add_len d arr : (length (add_sorted d arr) <= S (length arr))%nat.
Proof.
  induction arr as [|x t IH]; cbn [add_sorted length]; auto.
  destruct (d_key x <? d_key d); cbn [length]; [lia|]. destruct (d_key d <? d_key x); cbn [length]; lia.
Qed.
Lemma sort_len c : forall arr ns ds ns', dc_sort c arr ns = Some (ds, ns') ->
  Z.of_nat (length ds) <= Z.of_nat (length arr) + deltas c.
Proof.
  induction c; intros arr ns ds ns' E; cbn [dc_sort deltas] in *; try discriminate.
  - inversion E; subst. lia.
  - apply IHc in E. pose proof (add_len d arr). lia.
  - apply IHc in E. lia.
Qed.

(** ** Structure modifications *)
Definition smo_sp (smos : chain -> list pid -> prog unit) : Prop := forall c st, cnt_ok c -> sp (smos c st) any.

Lemma sp_root_split sep r l : sp (try_root_split g sep r l) any.
Proof.
  cbn [try_root_split sp]. intros rt. destruct (negb (N.eqb rt l)); [exact I|].
  cbn [bind alloc sp]. intros a np. split; [apply cnt_base|exact I].
Qed.

Lemma sp_split_loop smos d l : smo_sp smos -> forall f st, sp (split_loop g smos f d l st) any.
Proof.
  intros HS. induction f; intros st; cbn [split_loop]; [exact I|]. destruct st as [|p rest].
  - apply sp_bind_any; [apply sp_root_split|]. intros [|]; [exact I|].
    apply sp_bind_any; [apply sp_search_target|]. intros [|q t]; [cbn; discriminate|apply IHf].
  - apply sp_bind. eapply sp_mono; [|apply sp_get_head]. intros [[head|] st'] Hh; [|apply IHf].
    destruct st' as [|q t]; [cbn; discriminate|]. cbn [bind cas sp]. cbn [oroom fst] in Hh.
    pose proof (cnt_rec d _ (recsz g ptrlen (d_key d)) Hh) as HC. split; auto. intros b.
    destruct b; [|apply IHf]. destruct (need_consolidation g _); [apply HS; auto|exact I].
Qed.

Lemma sp_split smos f l r st : smo_sp smos -> sp (split g smos f l r st) any.
Proof.
  intros HS. unfold split. cbn [sp]. intros rp. split; [apply cnt_base|]. destruct st as [|lp st']; [cbn; discriminate|].
  destruct (n_low r); [|cbn; discriminate]. cbn [sp bind alloc]. split; [apply cnt_base|]. intros a.
  apply sp_split_loop; auto.
Qed.

Lemma sp_delete_loop d : forall f sib st, sp (delete_loop g f d sib st)
  (fun r => match fst r with Some c => cnt_ok c | None => True end).
Proof.
  induction f; intros sib st; cbn [delete_loop]; [exact I|]. apply sp_bind.
  eapply sp_mono; [|apply sp_get_merge]. intros [[[head|] st'] sib'] Hh; [|exact I].
  destruct st' as [|p t]; [cbn; discriminate|]. cbn [bind cas sp]. cbn [oroom fst] in Hh.
  pose proof (cnt_rec d _ (- recsz g ptrlen (d_key d)) Hh) as HC. split; auto. intros [|]; [exact HC|apply IHf].
Qed.

Lemma sp_delete_entry smos f n st : smo_sp smos -> sp (try_delete_entry g smos f n st) any.
Proof.
  intros HS. unfold try_delete_entry. destruct st; [exact I|]. destruct (n_low n); [|exact I].
  cbn [bind alloc sp]. intros a. apply sp_bind. eapply sp_mono; [|apply sp_delete_loop].
  intros [[c|] st'] Hc; [|exact I]. cbn [fst] in Hc. apply sp_bind_any; [|intros; exact I].
  destruct (need_consolidation g c); [apply HS; auto|exact I].
Qed.

Lemma sp_merge_loop smos d n rp da : smo_sp smos -> forall f b st, sp (merge_loop g smos f d n rp da b st) any.
Proof.
  intros HS. induction f; intros b st; cbn [merge_loop]; [exact I|]. destruct b.
  - apply sp_bind. eapply sp_mono; [|apply sp_get_head]. intros [[head|] st'] Hh; [|apply IHf].
    destruct st' as [|q t]; [cbn; discriminate|]. cbn [bind cas sp]. cbn [oroom fst] in Hh.
    pose proof (cnt_merge d n _ (node_diff g n) Hh) as HC. split; auto. intros b.
    destruct b; [|apply IHf]. cbn [sp]. destruct (need_consolidation g _); [apply HS; auto|exact I].
  - destruct st.
    + apply sp_bind_any; [apply sp_search_target|]. intros; apply IHf.
    + apply sp_bind_any; [apply sp_child|]. intros [b [|q t]]; apply IHf.
Qed.

Lemma sp_remove_root n p st : sp (try_remove_root n p st) any.
Proof.
  unfold try_remove_root. destruct st; [|exact I].
  destruct ((1 <? Z.of_nat (length (n_recs n))) || negb (n_inner n)); [exact I|].
  destruct (leftmost_child (CBase n)); [|cbn; discriminate]. cbn [bind load sp]. intros c _.
  destruct (h_leaf c); [exact I|]. cbn [sp]. intros [|]; exact I.
Qed.

Lemma sp_try_merge smos f c n st : smo_sp smos -> sp (try_merge g smos f c n st) any.
Proof.
  intros HS. unfold try_merge. destruct st as [|p st]; [cbn; discriminate|]. cbn [bind alloc cas sp]. intros a.
  split; [apply cnt_remove|]. intros [|]; [|exact I]. cbn [negb].
  apply sp_bind_any; [apply sp_delete_entry; auto|]. intros od.
  assert (HR : sp (bind (try_remove_root n p st) (fun rr : bool =>
      if rr then Ret true else Store p (CBase n) (Retire [a] (Ret true)))) any).
  { apply sp_bind_any; [apply sp_remove_root|]. intros [|]; [exact I|]. cbn [sp]. split; [apply cnt_base|exact I]. }
  destruct od; [|exact HR]. destruct (n_low n); [|exact HR]. cbn [bind alloc sp]. intros ma.
  apply sp_bind_any; [apply sp_merge_loop; auto|]. intros; exact I.
Qed.

Lemma sp_smos : forall f, smo_sp (try_smos g f).
Proof.
  induction f; intros c st Hc; cbn [try_smos]; [exact I|]. destruct st as [|p t]; [cbn; discriminate|].
  cbn [bind load sp]. intros c0 _. destruct (negb (N.eqb (h_addr c0) (h_addr c))); [exact I|].
  cbn [bind alloc sp]. intros a. destruct (dc_sort c [] []) as [[ds ns]|] eqn:E; [|cbn; discriminate].
  apply sort_len in E. cbn [length] in E. destruct (c_maxd g <? Z.of_nat (length ds)) eqn:Eo; [destruct Hc; lia|].
  destruct (c_page g <? h_size c).
  - cbn [bind alloc sp]. intros ra. destruct (consolidate g _ a ra ns ds true false); try (cbn; discriminate).
    destruct (fits g l && fits g r); [|cbn; discriminate]. apply sp_bind_any; [apply sp_split; auto|]. intros; exact I.
  - destruct (consolidate g _ a 0%N ns ds false false); try (cbn; discriminate).
    destruct (fits g n); [|cbn; discriminate]. destruct (h_size c <=? c_min g).
    + apply sp_bind_any; [apply sp_try_merge; auto|]. intros [|]; exact I.
    + cbn [bind cas sp]. split; [apply cnt_base|]. intros [|]; exact I.
Qed.

(** ** Calls *)
Lemma sp_finish f c st : cnt_ok c -> sp (finish g f c st) any.
Proof.
  intros H. unfold finish. apply sp_bind_any; [|intros; exact I].
  destruct (need_consolidation g c); [apply sp_smos; auto|exact I].
Qed.

Lemma sp_read k : forall f st, sp (read_loop g f k st) any.
Proof.
  induction f; intros st; cbn [read_loop]; [exact I|]. destruct st as [|p rest]; [cbn; discriminate|].
  cbn [bind load sp]. intros c _. destruct (dc_search_record c k false); try exact I; try (cbn; discriminate).
  - destruct (h_leaf c); [exact I|cbn; discriminate].
  - apply sp_bind_any; [apply sp_child|]. intros [b st']. apply IHf.
  - apply IHf.
  - destruct (node_search n k) as [[|] pos]; [|exact I]. destruct (pay_at n pos); [destruct (h_leaf c); [exact I|cbn; discriminate]|cbn; discriminate].
Qed.

Ltac upd_loop IHf :=
  match goal with |- forall st, _ => intros st end;
  apply sp_bind; eapply sp_mono; [|apply sp_get_kc]; intros [[head found] st'] Hh; cbn [fst] in Hh.
Ltac upd_cas Hh IHf :=
  match goal with st' : list pid |- sp match ?x with _ => _ end _ => destruct x; [cbn; discriminate|] end;
  cbn [bind cas sp]; split; [apply cnt_rec; auto|]; intros [|]; [apply sp_finish, cnt_rec; auto|apply IHf].

Lemma sp_write a k v : forall f st, sp (write_loop g f a k v st) any.
Proof.
  induction f; cbn [write_loop]; [intros; exact I|]. upd_loop IHf. destruct st'; [cbn; discriminate|].
  cbn [bind cas sp]. destruct found; (split; [apply cnt_rec; auto|]; intros [|]; [apply sp_finish, cnt_rec; auto|apply IHf]).
Qed.
Lemma sp_insert a k v : forall f st, sp (insert_loop g f a k v st) any.
Proof. induction f; cbn [insert_loop]; [intros; exact I|]. upd_loop IHf. destruct found; [exact I|]. upd_cas Hh IHf. Qed.
Lemma sp_update a k v : forall f st, sp (update_loop g f a k v st) any.
Proof. induction f; cbn [update_loop]; [intros; exact I|]. upd_loop IHf. destruct found; [|exact I]. cbn [negb]. upd_cas Hh IHf. Qed.
Lemma sp_remove a k : forall f st, sp (remove_loop g f a k st) any.
Proof. induction f; cbn [remove_loop]; [intros; exact I|]. upd_loop IHf. destruct found; [|exact I]. cbn [negb]. upd_cas Hh IHf. Qed.

Lemma sp_call f o : sp (call_prog g f o) any.
Proof.
  destruct o; cbn [call_prog]; (apply sp_bind_any; [|intros; exact I]).
  - apply sp_bind_any; [apply sp_search_leaf|]. intros; apply sp_read.
  - apply sp_bind_any; [apply sp_search_leaf|]. intros st. cbn [bind alloc sp]. intros; apply sp_write.
  - apply sp_bind_any; [apply sp_search_leaf|]. intros st. cbn [bind alloc sp]. intros; apply sp_insert.
  - apply sp_bind_any; [apply sp_search_leaf|]. intros st. cbn [bind alloc sp]. intros; apply sp_update.
  - apply sp_bind_any; [apply sp_search_leaf|]. intros st. cbn [bind alloc sp]. intros; apply sp_remove.
Qed.

(** ** Executions *)
Definition mem_ok (s : st) : Prop := forall p c, s_tbl s p = Some c -> cnt_ok c.
Definition thr_sp (th : thread) : Prop := match th with TIdle _ => True | TRun m _ => sp m any end.
Definition conf_ok (c : cst) : Prop := mem_ok (c_mem c) /\ Forall thr_sp (c_thr c).

Lemma mem_set s p c : mem_ok s -> match c with Some x => cnt_ok x | None => True end -> mem_ok (set_tbl s p c).
Proof.
  intros H Hc q x. cbn. unfold upd. destruct (N.eqb q p); [intros ->; auto|apply H].
Qed.

Lemma sp_pstep (m : prog ret) b s m' s' : sp m any -> mem_ok s -> pstep m b s = Some (m', s') ->
  sp m' any /\ mem_ok s'.
Proof.
  intros W Hs. destruct m; cbn [pstep sp] in *; try discriminate.
  - destruct (s_tbl s p) as [c|] eqn:E; intros X; inversion X; subst; split; auto; [apply W; eapply Hs; eauto|cbn; discriminate].
  - intros X; inversion X; subst. destruct W. split; auto. apply mem_set; auto.
  - intros X; inversion X; subst. split; auto. apply mem_set; auto.
  - destruct W. destruct (cas_ok s weak b p e); intros X; inversion X; subst; split; auto. apply mem_set; auto.
  - intros X; inversion X; subst; auto.
  - intros X; inversion X; subst; auto.
  - destruct (N.eqb (s_root s) old); intros X; inversion X; subst; auto.
  - intros X; inversion X; subst; auto.
  - intros X; inversion X; subst; auto.
  - intros X; inversion X; subst; auto.
  - intros X; inversion X; subst; auto.
  - intros X; inversion X; subst; auto.
Qed.

Lemma Forall_put {A} (R : A -> Prop) l t y : Forall R l -> R y -> Forall R (firstn t l ++ y :: skipn (S t) l).
Proof.
  intros H Hy. rewrite Forall_forall in *. intros x Hx. apply in_app_iff in Hx as [Hx|[<-|Hx]]; auto; apply H.
  - rewrite <- (firstn_skipn t l). apply in_app_iff. auto.
  - rewrite <- (firstn_skipn (S t) l). apply in_app_iff. auto.
Qed.

Lemma cstep_sp f c t b : conf_ok c -> conf_ok (fst (cstep g f c t b)).
Proof.
  intros H. pose proof H as [Hm Ht]. unfold cstep. destruct (nth_error (c_thr c) t) as [th|] eqn:E; [|auto].
  assert (Hth : thr_sp th) by (rewrite Forall_forall in Ht; apply Ht; eapply nth_error_In; eauto).
  destruct th as [[|o td]|m td]; auto.
  - split; auto. cbn [c_thr fst]. apply Forall_put; auto. cbn [thr_sp]. apply sp_call.
  - cbn [thr_sp] in Hth.
    assert (HP : conf_ok (fst (match pstep m b (c_mem c) with
        | Some (m', s') => (mk_cst s' (firstn t (c_thr c) ++ TRun m' td :: skipn (S t) (c_thr c)), @nil event)
        | None => (c, []) end))).
    { destruct (pstep m b (c_mem c)) as [[m' s']|] eqn:Ep; auto. destruct (sp_pstep _ _ _ _ _ Hth Hm Ep).
      split; auto. cbn [fst c_thr]. apply Forall_put; auto. }
    destruct m; try exact HP. cbn [fst]. split; auto. cbn [c_thr]. apply Forall_put; auto.
Qed.

Lemma exec_sp f sch : forall c, conf_ok c -> conf_ok (fst (exec g f c sch)).
Proof.
  induction sch as [|[t b] r IH]; intros c H; cbn [exec]; auto.
  pose proof (cstep_sp f c t b H) as H1. destruct (cstep g f c t b) as [c1 h1]. cbn [fst] in H1.
  specialize (IH _ H1). destruct (exec g f c1 r). exact IH.
Qed.

Lemma start_sp todos : conf_ok (start (init g) todos).
Proof.
  split.
  - intros p c. cbn. unfold upd. destruct (N.eqb p 1); [|discriminate]. intros X; inversion X. apply cnt_base.
  - cbn. rewrite Forall_forall. intros x Hx. apply in_map_iff in Hx as (td & <- & _). exact I.
Qed.

Lemma chains_bounded f todos sch p c :
  s_tbl (c_mem (fst (exec g f (start (init g) todos) sch))) p = Some c -> deltas c <= c_maxd g.
Proof. intros H. apply (exec_sp f sch _ (start_sp todos)) in H. apply H. Qed.

Lemma no_array f todos sch r : ~ In (TRun (UB UbArray) r) (c_thr (fst (exec g f (start (init g) todos) sch))).
Proof.
  intros H. pose proof (exec_sp f sch _ (start_sp todos)) as [_ HT]. rewrite Forall_forall in HT.
  specialize (HT _ H). cbn in HT. congruence.
Qed.
End Count.

Lemma count_bounded : forall g fuel todos sch, 1 <= c_maxd g ->
  let e := fst (exec g fuel (start (init g) todos) sch) in
  (forall p c, s_tbl (c_mem e) p = Some c -> deltas c <= c_maxd g) /\
  forall r, ~ In (TRun (UB UbArray) r) (c_thr e).
Proof. intros g fuel todos sch H e. split; intros; [eapply chains_bounded; eauto|apply no_array; auto]. Qed.
