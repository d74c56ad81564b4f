(** Values of the header fields rec_count_ and node_size_ in any execution, merging
    included. *)
From Coq Require Import ZArith NArith List Bool Lia.
From Coq Require Import ZifyBool ZifyNat ZifyN.
From Verif Require Import Config Api Page Machine Tree Spec Conc ConcSpec StatSpec ChainSpec Valid CountFacts
  ConsolidateFacts ChainFacts ConcChain ConcInv ConcMain
  RunFacts SeqSpec SeqOps SeqProps.
Import ListNotations.
Open Scope Z_scope.

Section Sizes.
Variable g : cfg.
Hypothesis OK : cfg_ok g.

(** A page with its record count and size. *)
Definition pg (n : node) : Prop :=
  c_hdr g + Z.of_nat (length (n_recs n)) <= n_size n <= c_page g.
Fixpoint wpages (c : chain) : Prop :=
  match c with
  | CBase n => pg n
  | CRec _ nx => wpages nx
  | CMerge _ n nx => pg n /\ wpages nx
  | CRemove _ _ => True
  end.
Definition wok (c : chain) : Prop := wpages c /\ h_size c <= 2 * c_page g.
(** What may be appended to. *)
Definition room (c : chain) : Prop := wpages c /\ h_size c <= c_page g.

Lemma page_pos : 0 <= c_hdr g /\ 0 <= metalen g /\ maxrec g <= c_page g /\ 0 <= c_page g /\
  c_hdr g + nullsz g + maxrec g <= c_page g.
Proof.
  destruct OK as [H1 H2 H3 H4 H5]. pose proof (H1 0) as K. unfold excess, kovh, maxrec, nullsz, metalen, ptrlen, klen in *.
  destruct (c_varlen g); lia.
Qed.
Lemma rec_le k : recsz g ptrlen k <= maxrec g /\ recsz g (c_paylen g) k <= maxrec g.
Proof. destruct OK as [H1 _ _ _ _]. specialize (H1 k). unfold recsz, maxrec. lia. Qed.
Lemma rec_pos k ps : 0 <= ps -> 1 <= recsz g ps k.
Proof. destruct OK as [H1 _ _ _ _]. specialize (H1 k). pose proof page_pos. unfold recsz. lia. Qed.
Lemma null_pos : 1 <= nullsz g.
Proof.
  pose proof page_pos. destruct OK as [H1 _ _ _ _]. specialize (H1 0). unfold nullsz, ptrlen, klen in *.
  destruct (c_varlen g); lia.
Qed.
Lemma okl_pos k : 0 <= okl g k.
Proof. destruct OK as [H1 _ _ _ _]. unfold okl. destruct (c_varlen g); [|lia]. destruct k as [x|]; [|lia]. specialize (H1 x). lia. Qed.

Lemma rm_ok a l : wok (CRemove a l).
Proof. pose proof page_pos. split; cbn [wpages h_size]; [exact I|lia]. Qed.
Lemma base_ok n : pg n -> wok (CBase n).
Proof. intros H. pose proof page_pos. split; cbn [wpages h_size]; auto. unfold pg in H. lia. Qed.
Lemma add_ok d c diff : room c -> diff <= maxrec g -> wok (CRec (set_next d c diff) c).
Proof. intros [H1 H2] H. pose proof page_pos. split; cbn [wpages h_size]; auto. cbn [set_next d_size]. lia. Qed.
Lemma addm_ok d n c : room c -> pg n -> wok (CMerge (set_next d c (node_diff g n)) n c).
Proof.
  intros [H1 H2] H. pose proof page_pos. split; cbn [wpages h_size]; auto. cbn [set_next d_size].
  unfold node_diff. pose proof (okl_pos (n_low n)). unfold pg in H. destruct (n_inner n); nia.
Qed.

(** Pages filled by consolidation. *)
Definition cs_ok (s : cstate) : Prop :=
  c_hdr g + Z.of_nat (length (cs_cur s)) <= cs_size s /\
  match cs_left s with Some (l, z) => c_hdr g + Z.of_nat (length l) <= z | None => True end.
Lemma copy_ok sz r s : 1 <= sz -> cs_ok s -> cs_ok (copy_rec g sz r s).
Proof.
  intros H [H1 H2]. unfold copy_rec. destruct (cs_pend s && _); cbn [cs_ok cs_cur cs_size cs_left];
    (split; cbn [cs_cur cs_size cs_left length]; rewrite ?app_length; cbn [length]; auto; lia).
Qed.
Lemma cdelta_ok ps d s : 0 <= ps -> cs_ok s -> cs_ok (copy_delta g ps d s).
Proof. intros. unfold copy_delta. destruct (d_type d); auto; apply copy_ok; auto using rec_pos. Qed.
Lemma flush_ok ps k : 0 <= ps -> forall ds s, cs_ok s -> cs_ok (snd (flush_below g ps k ds s)).
Proof.
  intros Hp. induction ds as [|d t IH]; intros s H; cbn [flush_below]; auto.
  destruct (d_key d <? k); auto. apply IH, cdelta_ok; auto.
Qed.
Lemma mrecs_ok ps : 0 <= ps -> forall rs ds s, cs_ok s -> cs_ok (snd (merge_recs g ps rs ds s)).
Proof.
  intros Hp. induction rs as [|[k v] rt IH]; intros ds s H; cbn [merge_recs]; auto.
  pose proof (flush_ok ps k Hp ds s H) as F. destruct (flush_below g ps k ds s) as [ds1 s1]. cbn [snd] in F.
  destruct ds1 as [|d dt]; [apply IH, copy_ok; auto using rec_pos|].
  destruct (negb (k <? d_key d)); apply IH; [apply cdelta_ok|apply copy_ok]; auto using rec_pos.
Qed.
Lemma mnode_ok ps n ds s : 0 <= ps -> cs_ok s -> cs_ok (snd (merge_node g ps n ds s)).
Proof.
  intros Hp H. unfold merge_node. destruct (n_inner n && is_leftmost n); [|apply mrecs_ok; auto].
  destruct (n_recs n); auto. apply mrecs_ok, copy_ok; auto using null_pos.
Qed.
Lemma mnodes_ok ps : 0 <= ps -> forall ns ds s, cs_ok s -> cs_ok (merge_nodes g ps ns ds s).
Proof.
  intros Hp. induction ns as [|n t IH]; intros ds s H; cbn [merge_nodes].
  - revert s H. induction ds as [|d t IH]; intros s H; cbn [fold_left]; auto. apply IH, cdelta_ok; auto.
  - pose proof (mnode_ok ps n ds s Hp H) as F. destruct (merge_node g ps n ds s). apply IH. exact F.
Qed.
Lemma low_add i b rs : 0 <= snd (low_of g i b rs).
Proof. unfold low_of. destruct (c_varlen g && i); cbn [snd]; [lia|apply okl_pos]. Qed.
Lemma cons_ok i a ra ns ds sp :
  match consolidate g i a ra ns ds sp false with
  | COne n => c_hdr g + Z.of_nat (length (n_recs n)) <= n_size n
  | CTwo l r => c_hdr g + Z.of_nat (length (n_recs l)) <= n_size l /\
                c_hdr g + Z.of_nat (length (n_recs r)) <= n_size r
  | CSplitBad => True
  end.
Proof.
  unfold consolidate.
  assert (Hp : 0 <= paysz g i) by (destruct OK as [_ H2 _ _ _]; unfold paysz, ptrlen; destruct i; lia).
  assert (H0 : cs_ok (mk_cs None [] (c_hdr g) sp)) by (split; cbn; auto; lia).
  pose proof (mnodes_ok (paysz g i) Hp (rev ns) ds _ H0) as [H1 H2].
  set (s := merge_nodes _ _ _ _ _) in *. clearbody s.
  destruct sp.
  - destruct (cs_left s) as [[lrs lsz]|]; auto. destruct (cs_cur s) as [|[rk rv] rt] eqn:Ec; auto.
    pose proof (low_add i (last ns (dummy_node i)) lrs) as HL.
    destruct (low_of g i (last ns (dummy_node i)) lrs) as [llow ladd]. cbn [snd] in HL. cbn [n_recs n_size].
    pose proof (okl_pos (Some rk)). pose proof (okl_pos (n_high (hd (dummy_node i) ns))).
    split; [lia|]. destruct i; lia.
  - pose proof (low_add i (last ns (dummy_node i)) (cs_cur s)) as HL.
    destruct (low_of g i (last ns (dummy_node i)) (cs_cur s)) as [llow ladd]. cbn [snd] in HL. cbn [n_recs n_size].
    pose proof (okl_pos (n_high (hd (dummy_node i) ns))). lia.
Qed.

(** [m] only publishes chains that satisfy [wok], given that it loads only
    such chains. *)
Fixpoint sp {A} (m : prog A) (Q : A -> Prop) : Prop :=
  match m with
  | Ret a => Q a
  | Load _ k => forall c, wok c -> sp (k c) Q
  | Store _ c k => wok c /\ sp k Q
  | Clear _ k => sp k Q
  | Cas _ _ _ c k => wok c /\ forall b, sp (k b) Q
  | LoadRoot k => forall r, sp (k r) Q
  | StoreRoot _ k => sp k Q
  | CasRoot _ _ k => forall b, sp (k b) Q
  | NewPid k => forall p, sp (k p) Q
  | Alloc k => forall a, sp (k a) Q
  | LoadCell _ k => forall p, sp (k p) Q
  | StoreCell _ _ k => sp k Q
  | Retire _ k => sp k Q
  | UB _ => True
  | Fuel => True
  end.
Definition any {A} (_ : A) : Prop := True.

Lemma sp_mono {A} (m : prog A) : forall Q Q' : A -> Prop, (forall a, Q a -> Q' a) -> sp m Q -> sp m Q'.
Proof. induction m; intros Q Q' HQ; cbn [sp]; auto; intros; intuition eauto. Qed.
Lemma sp_bind {A B} (m : prog A) (f : A -> prog B) Q : sp m (fun a => sp (f a) Q) -> sp (bind m f) Q.
Proof. induction m; cbn [sp bind]; auto; intros; intuition eauto. Qed.

(** Programs that publish nothing. *)
Lemma sp_bind_any {A B} (m : prog A) (f : A -> prog B) Q : sp m any -> (forall a, sp (f a) Q) -> sp (bind m f) Q.
Proof. intros H1 H2. apply sp_bind. eapply sp_mono; [|apply H1]. auto. Qed.

Lemma sp_wait_cell a : forall f, sp (wait_cell f a) any.
Proof. induction f; cbn [wait_cell sp]; auto. intros p. destruct (N.eqb p 0); [apply IHf|exact I]. Qed.

Lemma sp_child k cl tgt : forall f st, sp (search_child_node f k cl st tgt) any.
Proof.
  induction f; intros st; cbn [search_child_node]; [exact I|]. destruct st as [|p rest]; [exact I|].
  cbn [bind load sp]. intros c _. destruct (dc_search_child c k cl false); try exact I; try exact I.
  - destruct (h_leaf c); [exact I|exact I].
  - apply sp_bind_any; [apply sp_wait_cell|]. intros; exact I.
  - destruct rest; [destruct (negb (N.eqb tgt 0)); [exact I|cbn [sp]; intros r; apply IHf]|].
    apply sp_bind_any; [apply IHf|]. intros [[|] [|q st']]; try exact I; apply IHf.
  - match goal with |- context [N.eqb ?x tgt] => destruct (N.eqb x tgt) end; [exact I|apply IHf].
  - destruct (node_search_child n k cl); [destruct (h_leaf c); [exact I|exact I]|exact I].
Qed.

Lemma sp_leaf_loop k cl : forall f st, sp (leaf_loop f k cl st) any.
Proof.
  induction f; intros st; cbn [leaf_loop]; [exact I|]. destruct st as [|p rest]; [exact I|].
  cbn [bind load sp]. intros c _. destruct (h_leaf c); [exact I|].
  apply sp_bind_any; [apply sp_child|]. intros [b st']. apply IHf.
Qed.
Lemma sp_search_leaf k cl f : sp (search_leaf f k cl) any.
Proof. cbn [search_leaf sp]. intros r. apply sp_leaf_loop. Qed.

Lemma sp_target_loop k tgt : forall f st b, sp (target_loop f k tgt st b) any.
Proof.
  induction f; intros st b; cbn [target_loop]; [exact I|]. destruct b; [exact I|].
  apply sp_bind_any; [apply sp_child|]. intros [b st']. destruct b; [exact I|]. destruct st'; [exact I|].
  cbn [bind load sp]. intros c _. apply IHf.
Qed.
Lemma sp_search_target k tgt : forall f, sp (search_target f k tgt) any.
Proof.
  induction f; cbn [search_target]; [exact I|]. cbn [sp bind load]. intros r c _.
  apply sp_bind_any; [apply sp_target_loop|]. intros [|p st']; [apply IHf|exact I].
Qed.

Lemma sp_load_valid p : forall f, sp (load_valid g f p) room.
Proof.
  induction f; cbn [load_valid bind load sp]; [exact I|]. intros c Hc.
  destruct (need_wait g c) eqn:W; [apply IHf|]. destruct Hc as [H1 H2]. split; auto.
  unfold need_wait in W. destruct c; cbn [is_base negb andb] in W; [cbn in *; unfold pg in *; lia|..]; cbn [h_size h_cnt] in *; lia.
Qed.

Definition oproom (r : option chain * list pid) : Prop :=
  match fst r with Some c => room c | None => True end.
Lemma sp_get_head k cl tgt : forall f st, sp (get_head g f k cl st tgt) oproom.
Proof.
  induction f; intros st; cbn [get_head]; [exact I|]. destruct st as [|p rest]; [exact I|].
  apply sp_bind. eapply sp_mono; [|apply sp_load_valid]. intros c Hc.
  destruct (dc_validate c k cl); [exact Hc| |].
  - destruct rest; [destruct (negb (N.eqb tgt 0)); [exact I|]|].
    + apply sp_bind_any; [apply sp_search_leaf|]. intros; apply IHf.
    + apply sp_bind_any; [apply sp_child|]. intros [b [|q st']]; [exact I|apply IHf].
  - match goal with |- context [N.eqb ?x tgt] => destruct (N.eqb x tgt) end; [exact Hc|apply IHf].
Qed.

Lemma sp_get_kc k : forall f st, sp (get_head_kc g f k st) (fun r => room (fst (fst r))).
Proof.
  induction f; intros st; cbn [get_head_kc]; [exact I|]. destruct st as [|p rest]; [exact I|].
  apply sp_bind. eapply sp_mono; [|apply sp_load_valid]. intros c Hc.
  destruct (dc_search_record c k false); try exact Hc; try exact I; [|apply IHf].
  destruct rest.
  - apply sp_bind_any; [apply sp_search_leaf|]. intros; apply IHf.
  - apply sp_bind_any; [apply sp_child|]. intros [b st']; apply IHf.
Qed.

Lemma sp_get_merge k : forall f sib st, sp (get_head_merge g f k sib st) (fun r => oproom (fst r)).
Proof.
  induction f; intros sib st; cbn [get_head_merge]; [exact I|]. destruct st as [|p rest]; [exact I|].
  apply sp_bind. eapply sp_mono; [|apply sp_load_valid]. intros c Hc.
  destruct (dc_search_merge c k sib false _ false); try exact I; try exact Hc; try (cbn; discriminate); [apply IHf|].
  match goal with |- sp (if ?x then _ else _) _ => destruct x end; [exact Hc|exact I].
Qed.

(** ** Structure modifications *)
Definition smo_sp (smos : chain -> list pid -> prog unit) : Prop := forall c st, wok c -> sp (smos c st) any.

Lemma sp_root_split sep r l : sp (try_root_split g sep r l) any.
Proof.
  cbn [try_root_split sp]. intros rt. destruct (negb (N.eqb rt l)); [exact I|].
  cbn [bind alloc sp]. intros a np. split; [|exact I].
  apply base_ok. unfold pg, new_root. cbn [n_recs n_size length].
  pose proof page_pos. pose proof (rec_le sep). pose proof (rec_pos sep ptrlen). pose proof null_pos. unfold ptrlen in *. lia.
Qed.

Lemma sp_split_loop smos d l : smo_sp smos -> forall f st, sp (split_loop g smos f d l st) any.
Proof.
  intros HS. induction f; intros st; cbn [split_loop]; [exact I|]. destruct st as [|p rest].
  - apply sp_bind_any; [apply sp_root_split|]. intros [|]; [exact I|].
    apply sp_bind_any; [apply sp_search_target|]. intros [|q t]; [exact I|apply IHf].
  - apply sp_bind. eapply sp_mono; [|apply sp_get_head]. intros [[head|] st'] Hh; [|apply IHf].
    destruct st' as [|q t]; [exact I|]. cbn [bind cas sp]. cbn [oproom fst] in Hh.
    assert (HC : wok (CRec (set_next d head (recsz g ptrlen (d_key d))) head)) by (apply add_ok; [exact Hh|apply rec_le]). split; auto. intros b.
    destruct b; [|apply IHf]. destruct (need_consolidation g _); [apply HS; auto|exact I].
Qed.

Lemma sp_split smos f l r st : smo_sp smos -> pg l -> pg r -> sp (split g smos f l r st) any.
Proof.
  intros HS Hl Hr. unfold split. cbn [sp]. intros rp. split; [apply base_ok; exact Hr|]. destruct st as [|lp st']; [exact I|].
  destruct (n_low r); [|exact I]. cbn [sp bind alloc]. split; [apply base_ok; exact Hl|]. intros a.
  apply sp_split_loop; auto.
Qed.

Lemma sp_delete_loop d : forall f sib st, sp (delete_loop g f d sib st)
  (fun r => match fst r with Some c => wok c | None => True end).
Proof.
  induction f; intros sib st; cbn [delete_loop]; [exact I|]. apply sp_bind.
  eapply sp_mono; [|apply sp_get_merge]. intros [[[head|] st'] sib'] Hh; [|exact I].
  destruct st' as [|p t]; [exact I|]. cbn [bind cas sp]. cbn [oproom fst] in Hh.
  assert (HC : wok (CRec (set_next d head (- recsz g ptrlen (d_key d))) head))
    by (apply add_ok; [exact Hh|]; pose proof (rec_pos (d_key d) ptrlen); pose proof (rec_le (d_key d)); unfold ptrlen in *; lia).
  split; [exact HC|]. intros [|]; [exact HC|apply IHf].
Qed.

Lemma sp_delete_entry smos f n st : smo_sp smos -> sp (try_delete_entry g smos f n st) any.
Proof.
  intros HS. unfold try_delete_entry. destruct st; [exact I|]. destruct (n_low n); [|exact I].
  cbn [bind alloc sp]. intros a. apply sp_bind. eapply sp_mono; [|apply sp_delete_loop].
  intros [[c|] st'] Hc; [|exact I]. cbn [fst] in Hc. apply sp_bind_any; [|intros; exact I].
  destruct (need_consolidation g c); [apply HS; auto|exact I].
Qed.

Lemma sp_merge_loop smos d n rp da : smo_sp smos -> pg n -> forall f b st, sp (merge_loop g smos f d n rp da b st) any.
Proof.
  intros HS Hn. induction f; intros b st; cbn [merge_loop]; [exact I|]. destruct b.
  - apply sp_bind. eapply sp_mono; [|apply sp_get_head]. intros [[head|] st'] Hh; [|apply IHf].
    destruct st' as [|q t]; [exact I|]. cbn [bind cas sp]. cbn [oproom fst] in Hh.
    assert (HC : wok (CMerge (set_next d head (node_diff g n)) n head)) by (apply addm_ok; auto). split; auto. intros b.
    destruct b; [|apply IHf]. cbn [sp]. destruct (need_consolidation g _); [apply HS; auto|exact I].
  - destruct st.
    + apply sp_bind_any; [apply sp_search_target|]. intros; apply IHf.
    + apply sp_bind_any; [apply sp_child|]. intros [b [|q t]]; apply IHf.
Qed.

Lemma sp_remove_root n p st : sp (try_remove_root n p st) any.
Proof.
  unfold try_remove_root. destruct st; [|exact I].
  destruct ((1 <? Z.of_nat (length (n_recs n))) || negb (n_inner n)); [exact I|].
  destruct (leftmost_child (CBase n)); [|exact I]. cbn [bind load sp]. intros c _.
  destruct (h_leaf c); [exact I|]. cbn [sp]. intros [|]; exact I.
Qed.

Lemma sp_try_merge smos f c n st : smo_sp smos -> pg n -> sp (try_merge g smos f c n st) any.
Proof.
  intros HS Hn. unfold try_merge. destruct st as [|p st]; [exact I|]. cbn [bind alloc cas sp]. intros a.
  split; [apply rm_ok|]. intros [|]; [|exact I]. cbn [negb].
  apply sp_bind_any; [apply sp_delete_entry; auto|]. intros od.
  assert (HR : sp (bind (try_remove_root n p st) (fun rr : bool =>
      if rr then Ret true else Store p (CBase n) (Retire [a] (Ret true)))) any).
  { apply sp_bind_any; [apply sp_remove_root|]. intros [|]; [exact I|]. cbn [sp]. split; [apply base_ok; exact Hn|exact I]. }
  destruct od; [|exact HR]. destruct (n_low n); [|exact HR]. cbn [bind alloc sp]. intros ma.
  apply sp_bind_any; [apply sp_merge_loop; auto|]. intros; exact I.
Qed.

Lemma sp_smos : forall f, smo_sp (try_smos g f).
Proof.
  induction f; intros c st Hc; cbn [try_smos]; [exact I|]. destruct st as [|p t]; [exact I|].
  cbn [bind load sp]. intros c0 _. destruct (negb (N.eqb (h_addr c0) (h_addr c))); [exact I|].
  cbn [bind alloc sp]. intros a. destruct (dc_sort c [] []) as [[ds ns]|] eqn:E; [|exact I].
  destruct (c_maxd g <? Z.of_nat (length ds)) eqn:Eo; [exact I|].
  destruct (c_page g <? h_size c).
  - cbn [bind alloc sp]. intros ra. pose proof (cons_ok (negb (h_leaf c)) a ra ns ds true) as CO.
    destruct (consolidate g _ a ra ns ds true false); try exact I. destruct CO as [CL CR].
    unfold fits. destruct (n_size l <=? c_page g) eqn:El; [|exact I]. destruct (n_size r <=? c_page g) eqn:Er; [|exact I].
    apply sp_bind_any; [apply sp_split; auto; unfold pg; lia|]. intros; exact I.
  - pose proof (cons_ok (negb (h_leaf c)) a 0%N ns ds false) as CO.
    destruct (consolidate g _ a 0%N ns ds false false); try exact I.
    unfold fits. destruct (n_size n <=? c_page g) eqn:En; [|exact I]. destruct (h_size c <=? c_min g).
    + apply sp_bind_any; [apply sp_try_merge; auto; unfold pg; lia|]. intros [|]; exact I.
    + cbn [bind cas sp]. split; [apply base_ok; unfold pg; lia|]. intros [|]; exact I.
Qed.

(** ** Calls *)
Lemma sp_finish f c st : wok c -> sp (finish g f c st) any.
Proof.
  intros H. unfold finish. apply sp_bind_any; [|intros; exact I].
  destruct (need_consolidation g c); [apply sp_smos; auto|exact I].
Qed.

Lemma sp_read k : forall f st, sp (read_loop g f k st) any.
Proof.
  induction f; intros st; cbn [read_loop]; [exact I|]. destruct st as [|p rest]; [exact I|].
  cbn [bind load sp]. intros c _. destruct (dc_search_record c k false); try exact I; try exact I.
  - destruct (h_leaf c); [exact I|exact I].
  - apply sp_bind_any; [apply sp_child|]. intros [b st']. apply IHf.
  - apply IHf.
  - destruct (node_search n k) as [[|] pos]; [|exact I]. destruct (pay_at n pos); [destruct (h_leaf c); [exact I|exact I]|exact I].
Qed.

Lemma diffs k : 0 <= recsz g (c_paylen g) k <= maxrec g.
Proof.
  pose proof (rec_le k). destruct OK as [_ H2 _ _ _]. pose proof (rec_pos k (c_paylen g) H2). lia.
Qed.
Ltac app Hh := apply add_ok; [exact Hh|match goal with k : key |- _ => pose proof (diffs k); lia end].
Ltac upd_loop IHf :=
  match goal with |- forall st, _ => intros st end;
  apply sp_bind; eapply sp_mono; [|apply sp_get_kc]; intros [[head found] st'] Hh; cbn [fst] in Hh.
Ltac upd_cas Hh IHf :=
  match goal with st' : list pid |- sp match ?x with _ => _ end _ => destruct x; [exact I|] end;
  cbn [bind cas sp]; split; [app Hh|]; intros [|]; [apply sp_finish; app Hh|apply IHf].

Lemma sp_write a k v : forall f st, sp (write_loop g f a k v st) any.
Proof.
  induction f; cbn [write_loop]; [intros; exact I|]. upd_loop IHf. destruct st'; [exact I|].
  cbn [bind cas sp]. destruct found; (split; [app Hh|]; intros [|]; [apply sp_finish; app Hh|apply IHf]).
Qed.
Lemma sp_insert a k v : forall f st, sp (insert_loop g f a k v st) any.
Proof. induction f; cbn [insert_loop]; [intros; exact I|]. upd_loop IHf. destruct found; [exact I|]. upd_cas Hh IHf. Qed.
Lemma sp_update a k v : forall f st, sp (update_loop g f a k v st) any.
Proof. induction f; cbn [update_loop]; [intros; exact I|]. upd_loop IHf. destruct found; [|exact I]. cbn [negb]. upd_cas Hh IHf. Qed.
Lemma sp_remove a k : forall f st, sp (remove_loop g f a k st) any.
Proof. induction f; cbn [remove_loop]; [intros; exact I|]. upd_loop IHf. destruct found; [|exact I]. cbn [negb]. upd_cas Hh IHf. Qed.

Lemma sp_call f o : sp (call_prog g f o) any.
Proof.
  destruct o; cbn [call_prog]; (apply sp_bind_any; [|intros; exact I]).
  - apply sp_bind_any; [apply sp_search_leaf|]. intros; apply sp_read.
  - apply sp_bind_any; [apply sp_search_leaf|]. intros st. cbn [bind alloc sp]. intros; apply sp_write.
  - apply sp_bind_any; [apply sp_search_leaf|]. intros st. cbn [bind alloc sp]. intros; apply sp_insert.
  - apply sp_bind_any; [apply sp_search_leaf|]. intros st. cbn [bind alloc sp]. intros; apply sp_update.
  - apply sp_bind_any; [apply sp_search_leaf|]. intros st. cbn [bind alloc sp]. intros; apply sp_remove.
Qed.

(** ** Executions *)
Definition mem_ok (s : st) : Prop := forall p c, s_tbl s p = Some c -> wok c.
Definition thr_sp (th : thread) : Prop := match th with TIdle _ => True | TRun m _ => sp m any end.
Definition conf_ok (c : cst) : Prop := mem_ok (c_mem c) /\ Forall thr_sp (c_thr c).

Lemma mem_set s p c : mem_ok s -> match c with Some x => wok x | None => True end -> mem_ok (set_tbl s p c).
Proof.
  intros H Hc q x. cbn. unfold upd. destruct (N.eqb q p); [intros ->; auto|apply H].
Qed.

Lemma sp_pstep (m : prog ret) b s m' s' : sp m any -> mem_ok s -> pstep m b s = Some (m', s') ->
  sp m' any /\ mem_ok s'.
Proof.
  intros W Hs. destruct m; cbn [pstep sp] in *; try discriminate.
  - destruct (s_tbl s p) as [c|] eqn:E; intros X; inversion X; subst; split; auto; [apply W; eapply Hs; eauto|exact I].
  - intros X; inversion X; subst. destruct W. split; auto. apply mem_set; auto.
  - intros X; inversion X; subst. split; auto. apply mem_set; auto.
  - destruct W. destruct (cas_ok s weak b p e); intros X; inversion X; subst; split; auto. apply mem_set; auto.
  - intros X; inversion X; subst; auto.
  - intros X; inversion X; subst; auto.
  - destruct (N.eqb (s_root s) old); intros X; inversion X; subst; auto.
  - intros X; inversion X; subst; auto.
  - intros X; inversion X; subst; auto.
  - intros X; inversion X; subst; auto.
  - intros X; inversion X; subst; auto.
  - intros X; inversion X; subst; auto.
Qed.

Lemma Forall_put {A} (R : A -> Prop) l t y : Forall R l -> R y -> Forall R (firstn t l ++ y :: skipn (S t) l).
Proof.
  intros H Hy. rewrite Forall_forall in *. intros x Hx. apply in_app_iff in Hx as [Hx|[<-|Hx]]; auto; apply H.
  - rewrite <- (firstn_skipn t l). apply in_app_iff. auto.
  - rewrite <- (firstn_skipn (S t) l). apply in_app_iff. auto.
Qed.

Lemma cstep_sp f c t b : conf_ok c -> conf_ok (fst (cstep g f c t b)).
Proof.
  intros H. pose proof H as [Hm Ht]. unfold cstep. destruct (nth_error (c_thr c) t) as [th|] eqn:E; [|auto].
  assert (Hth : thr_sp th) by (rewrite Forall_forall in Ht; apply Ht; eapply nth_error_In; eauto).
  destruct th as [[|o td]|m td]; auto.
  - split; auto. cbn [c_thr fst]. apply Forall_put; auto. cbn [thr_sp]. apply sp_call.
  - cbn [thr_sp] in Hth.
    assert (HP : conf_ok (fst (match pstep m b (c_mem c) with
        | Some (m', s') => (mk_cst s' (firstn t (c_thr c) ++ TRun m' td :: skipn (S t) (c_thr c)), @nil event)
        | None => (c, []) end))).
    { destruct (pstep m b (c_mem c)) as [[m' s']|] eqn:Ep; auto. destruct (sp_pstep _ _ _ _ _ Hth Hm Ep).
      split; auto. cbn [fst c_thr]. apply Forall_put; auto. }
    destruct m; try exact HP. cbn [fst]. split; auto. cbn [c_thr]. apply Forall_put; auto.
Qed.

Lemma exec_sp f sch : forall c, conf_ok c -> conf_ok (fst (exec g f c sch)).
Proof.
  induction sch as [|[t b] r IH]; intros c H; cbn [exec]; auto.
  pose proof (cstep_sp f c t b H) as H1. destruct (cstep g f c t b) as [c1 h1]. cbn [fst] in H1.
  specialize (IH _ H1). destruct (exec g f c1 r). exact IH.
Qed.

Lemma init_fits : mem_ok (init g).
Proof. pose proof page_pos as H. pose proof null_pos. pose proof (diffs 0). intros p c. cbn. unfold upd. destruct (N.eqb p 1); [|discriminate]. intros X; inversion X. apply base_ok. unfold pg. cbn. lia. Qed.
Lemma start_sp todos : conf_ok (start (init g) todos).
Proof.
  split; [apply init_fits; auto|].
  cbn. rewrite Forall_forall. intros x Hx. apply in_map_iff in Hx as (td & <- & _). exact I.
Qed.

Lemma wpages_in c : wpages c -> forall n, In n (pages c) -> pg n.
Proof. induction c; cbn [wpages pages]; intros H n0 Hn; [destruct Hn as [<-|[]]; auto|auto| |destruct Hn].
  destruct H as [H1 H2]. destruct Hn as [<-|Hn]; auto.
Qed.
End Sizes.

Lemma deltas_pos c : 0 <= deltas c.
Proof. induction c; cbn [deltas]; lia. Qed.

Lemma header_widths g fuel todos sch : cfg_ok g -> 0 < c_hdr g -> c_page g <= 2 ^ 16 -> c_maxd g < 2 ^ 16 ->
  let e := fst (exec g fuel (start (init g) todos) sch) in
  forall p c, s_tbl (c_mem e) p = Some c ->
    0 <= h_cnt c < 2 ^ 16 /\ h_size c < 2 ^ 32 /\
    forall n, In n (pages c) -> Z.of_nat (length (n_recs n)) < 2 ^ 16 /\ 0 <= n_size n < 2 ^ 32.
Proof.
  intros OK HD HP HM e p c T. pose proof (page_pos g OK) as PP.
  destruct (exec_sp g OK fuel sch _ (start_sp g OK todos)) as [Hm _]. specialize (Hm p c T). destruct Hm as [W Z].
  assert (M1 : 1 <= c_maxd g) by (destruct OK; lia).
  destruct (CountFacts.exec_sp g M1 fuel sch _ (CountFacts.start_sp g M1 todos)) as [Hc _].
  specialize (Hc p c T). destruct Hc as [C1 C2]. pose proof (deltas_pos c) as C3.
  assert (P : forall n, In n (pages c) -> Z.of_nat (length (n_recs n)) < 2 ^ 16 /\ 0 <= n_size n < 2 ^ 32).
  { intros n Hn. apply (wpages_in g c W) in Hn. unfold pg in Hn. lia. }
  split; [|split; [lia|exact P]].
  destruct c; cbn [is_base] in C1; try (rewrite C1 by reflexivity; lia).
  cbn [h_cnt]. specialize (P n (or_introl eq_refl)). lia.
Qed.

Lemma sizes_exact g fuel todos sch : cfg_ok g -> hdr_ok g -> no_merge g ->
  let e := fst (exec g fuel (start (init g) todos) sch) in
  forall p c, s_tbl (c_mem e) p = Some c ->
    c_hdr g <= h_size c <= c_page g + maxrec g /\
    (is_base c = false ->
     h_size c = if h_leaf c then lbytes g (c_lo c) (c_hi c) (lrecs c) else ibytes g (c_lo c) (c_hi c) (ients c)).
Proof.
  intros OK HO NM e p c T.
  destruct (exec_sp g OK fuel sch _ (start_sp g OK todos)) as [Hm _]. specialize (Hm p c T). destruct Hm as [W _].
  pose proof (page_pos g OK) as PP. pose proof (diffs g OK 0) as DD.
  destruct (conc_inv g fuel todos sch OK HO NM) as [gh [Hi _]].
  assert (B : is_base c = true -> c_hdr g <= h_size c <= c_page g + maxrec g).
  { destruct c; try discriminate. intros _. cbn in *. unfold pg in W. lia. }
  destruct (nd gh p) as [[lf lo]|] eqn:E.
  - pose proof (nok_at g _ p lf lo c Hi E T) as Nk. destruct Nk as [_ _ WF _ _ SZ _ _ _ _ _ _].
    assert (X : h_size c = if h_leaf c then lbytes g (c_lo c) (c_hi c) (lrecs c) else ibytes g (c_lo c) (c_hi c) (ients c)).
    { destruct lf; [rewrite (lwf_leaf _ _ WF); apply lwf_size; auto|rewrite (jwf_inner _ _ WF); apply jwf_size; auto]. }
    split; auto. split; auto. rewrite X.
    assert (CS : forall ps l, 0 <= ps -> 0 <= csum g ps l).
    { intros ps l Hp. induction l as [|r l IH]; cbn; [lia|]. pose proof (rec_pos g OK (fst r) ps Hp).
      unfold csum in IH. lia. }
    pose proof (okl_pos g OK (c_lo c)). pose proof (okl_pos g OK (c_hi c)).
    destruct (h_leaf c).
    + unfold lbytes. assert (0 <= c_paylen g) by (destruct OK; auto). specialize (CS (c_paylen g) (lrecs c)). lia.
    + unfold ibytes. specialize (CS ptrlen (ients c)). assert (0 <= ifirst g (c_lo c)).
      { unfold ifirst. destruct (c_lo c) as [l|]; [pose proof (rec_pos g OK l ptrlen)|pose proof (null_pos g OK)]; unfold ptrlen in *; lia. }
      unfold ptrlen in *. lia.
  - destruct (i_prv _ _ Hi p c E T) as [[Hb _] _]. split; auto. congruence.
Qed.

Lemma sizes_exact_seq g os k : cfg_ok g ->
  exists F s p path c, (forall f, (F <= f)%nat ->
      run_calls g f os (init g) = Done (fst (spec_run sempty os)) s /\
      run (search_leaf f k true) s = Done (p :: path) s) /\
    s_tbl s p = Some c /\ h_leaf c = true /\
    h_size c = lbytes g (c_lo c) (c_hi c) (lrecs c) /\ c_hdr g <= h_size c <= c_page g.
Proof.
  intros OK. destruct (calls_ok g OK os (init g) sempty (init_tree g OK)) as (F & s & T & H).
  destruct (search_leaf_ok g s _ k true T) as (n1 & p & c & n2 & lv & path & L & E).
  specialize (E (fun a s' => a = p :: path /\ s' = s) (conj eq_refl eq_refl)).
  apply evp_done in E. destruct E as (a & s' & [-> ->] & F' & E).
  exists (max F F'), s, p, path, c. split.
  { intros f Hf. split; [apply H; lia|apply E; lia]. }
  destruct L as [_ _ _ _ _ TB WF [_ Q]]. split; auto. split; [apply (lwf_leaf g); auto|].
  split; [apply lwf_size; auto|]. split; auto. rewrite (lwf_size g c WF). unfold lbytes.
  pose proof (okl_pos g OK (c_lo c)). pose proof (okl_pos g OK (c_hi c)).
  assert (CS : 0 <= csum g (c_paylen g) (lrecs c)).
  { assert (Hp : 0 <= c_paylen g) by (destruct OK; auto). clear - Hp OK.
    induction (lrecs c) as [|r l IH]; cbn; [lia|]. pose proof (rec_pos g OK (fst r) _ Hp). unfold csum in IH. lia. }
  lia.
Qed.
