(** With release/acquire accesses to root_ and to the payload cells, no thread loads
    a mapping-table slot before the store that initialised it. *)
From Coq Require Import ZArith NArith List Bool Lia.
From Coq Require Import ZifyBool ZifyNat ZifyN.
From Verif Require Import Config Api Page Machine Tree Spec Conc Weak WeakFacts.
Import ListNotations.
Open Scope N_scope.

(** Everything in a chain that a search may take for a page ID. *)
Definition node_pids (n : node) : list N := n_next n :: map snd (n_recs n).
Fixpoint pids (c : chain) : list N :=
  match c with
  | CBase n => node_pids n
  | CRec d nx => d_pay d :: pids nx
  | CMerge d n nx => node_pids n ++ pids nx
  | CRemove _ _ => []
  end.

Section K.
Variable g : cfg.
(** Payloads written by clients (payloads and page IDs have the same type). *)
Variable pay : N -> Prop.
Definition kset := N -> Prop.
Definition kle (K K' : kset) : Prop := forall p, K p -> K' p.
Definition kok (K : kset) : Prop := K 0 /\ forall v, pay v -> K v.
Definition kin (l : list N) (K : kset) : Prop := forall p, In p l -> K p.

(** [m] loads only slots it knows to be initialised; it knows those of the IDs in
    the records it has loaded and those it has written. *)
Fixpoint kp {A} (K : kset) (m : prog A) (Q : kset -> A -> Prop) : Prop :=
  match m with
  | Ret a => Q K a
  | Load p k => K p /\ forall c K', kle K K' -> kin (pids c) K' -> kp K' (k c) Q
  | Store p c k => kin (pids c) K /\ forall K', kle K K' -> K' p -> kp K' k Q
  | Clear p k => False
  | Cas _ p _ c k => kin (pids c) K /\ forall b K', kle K K' -> kp K' (k b) Q
  | LoadRoot k => forall r K', kle K K' -> K' r -> kp K' (k r) Q
  | StoreRoot p k => K p /\ forall K', kle K K' -> kp K' k Q
  | CasRoot _ n k => K n /\ forall b K', kle K K' -> kp K' (k b) Q
  | NewPid k => forall p K', kle K K' -> kp K' (k p) Q
  | Alloc k => forall a K', kle K K' -> kp K' (k a) Q
  | LoadCell _ k => forall p K', kle K K' -> K' p -> kp K' (k p) Q
  | StoreCell _ p k => K p /\ forall K', kle K K' -> kp K' k Q
  | Retire _ k => forall K', kle K K' -> kp K' k Q
  | UB _ => True
  | Fuel => True
  end.

Lemma kle_refl (K : kset) : kle K K. Proof. intros p; auto. Qed.
Lemma kle_trans K1 K2 K3 : kle K1 K2 -> kle K2 K3 -> kle K1 K3. Proof. intros H1 H2 p; auto. Qed.
Lemma kin_le l (K K' : kset) : kin l K -> kle K K' -> kin l K'. Proof. intros H1 H2 p; auto. Qed.
Lemma kok_le (K : kset) K' : kok K -> kle K K' -> kok K'. Proof. intros [H1 H2] H3. split; auto. Qed.

(** Results are used with what is known by then, at least [K]. *)
Lemma kp_mono {A} (m : prog A) : forall K (Q Q' : kset -> A -> Prop), (forall K' a, kle K K' -> Q K' a -> Q' K' a) -> kp K m Q -> kp K m Q'.
Proof.
  induction m; intros K Q Q' HQ; cbn [kp]; auto; intros W;
    repeat match goal with W : _ /\ _ |- _ => destruct W end;
    try (apply HQ; auto; apply kle_refl);
    repeat split; auto; intros;
    ((eapply H with (Q := Q) || eapply IHm with (Q := Q));
     [intros ? ? L1 L2; eapply HQ; [eapply kle_trans; eauto|exact L2]|eauto]).
Qed.
Lemma kp_bind {A B} (m : prog A) (f : A -> prog B) : forall K (Q : kset -> B -> Prop),
  kp K m (fun K' a => kle K K' -> kp K' (f a) Q) -> kp K (bind m f) Q.
Proof.
  induction m; intros K Q; cbn [kp bind]; auto; intros W;
    repeat match goal with W : _ /\ _ |- _ => destruct W end;
    try (apply W; apply kle_refl);
    repeat split; auto; intros;
    ((apply H || apply IHm); (eapply kp_mono; [|solve [eauto]])); cbn beta; intros ? ? L1 L2 L3; apply L2; eapply kle_trans; eauto.
Qed.
(** Sequencing with a known postcondition. *)
Lemma kp_seq {A B} (m : prog A) (f : A -> prog B) K (R : kset -> A -> Prop) (Q : kset -> B -> Prop) :
  kp K m R -> (forall K' a, kle K K' -> R K' a -> kp K' (f a) Q) -> kp K (bind m f) Q.
Proof. intros H1 H2. apply kp_bind. eapply kp_mono; [|apply H1]. cbn beta. intros; auto. Qed.

(** ** What searches and consolidation return *)
Lemma pay_at_in n i v : pay_at n i = Some v -> In v (map snd (n_recs n)).
Proof.
  unfold pay_at. destruct (i <? 0)%Z; [discriminate|]. destruct (nth_error _ _) as [x|] eqn:E; [|discriminate].
  intros [= <-]. apply in_map. eapply nth_error_In; eauto.
Qed.
Lemma nsc_in n k cl v : node_search_child n k cl = Some v -> In v (node_pids n).
Proof.
  unfold node_search_child. destruct (bsearch _ _ _ _ _) as [[|] b]; intros H; right; eapply pay_at_in; eauto.
Qed.

Definition dres_in (r : dres) (l : list N) : Prop :=
  match r with
  | RFound v => In v l | RSibling q => In q l | RBase n => incl (node_pids n) l | _ => True
  end.
Lemma dres_incl r l l' : dres_in r l -> incl l l' -> dres_in r l'.
Proof. destruct r; cbn; auto. intros; eapply incl_tran; eauto. Qed.
Lemma dsc_in k cl : forall c smo, dres_in (dc_search_child c k cl smo) (pids c).
Proof.
  assert (HN : forall n, In (n_next n) (node_pids n)) by (intros; left; auto).
  induction c as [n|d nx IH|d n nx IH|]; intros smo; cbn [dc_search_child pids].
  - destruct (negb smo && _); cbn [dres_in]; auto. apply incl_refl.
  - assert (forall r, dres_in r (pids nx) -> dres_in r (d_pay d :: pids nx))
      by (intros; eapply dres_incl; eauto; intros x; right; auto).
    destruct (d_type d); cbn [dres_in]; auto; destruct (_ && _); auto; try (left; reflexivity); try exact I.
  - assert (forall r, dres_in r (pids nx) -> dres_in r (node_pids n ++ pids nx))
      by (intros; eapply dres_incl; eauto; apply incl_appr, incl_refl).
    destruct (low_le _ _ _); auto. destruct (negb smo && _); cbn [dres_in].
    + apply in_or_app; auto.
    + apply incl_appl, incl_refl.
  - exact I.
Qed.
Lemma dsr_in k : forall c smo, match dc_search_record c k smo with RSibling q => In q (pids c) | _ => True end.
Proof.
  assert (HN : forall n, In (n_next n) (node_pids n)) by (intros; left; auto).
  induction c as [n|d nx IH|d n nx IH|]; intros smo; cbn [dc_search_record pids].
  - destruct (negb smo && _); auto.
  - specialize (IH smo). destruct (d_type d); auto; destruct (same_key _ _); auto;
      destruct (dc_search_record nx k smo); auto; right; auto.
  - specialize (IH true). destruct (low_le _ _ _).
    + destruct (negb smo && _); auto. apply in_or_app; auto.
    + destruct (dc_search_record nx k true); auto. apply in_or_app; auto.
  - exact I.
Qed.
Lemma dv_in k cl : forall c, match dc_validate c k cl with VSibling q => In q (pids c) | _ => True end.
Proof.
  assert (HN : forall n, In (n_next n) (node_pids n)) by (intros; left; auto).
  induction c as [n|d nx IH|d n nx IH|]; cbn [dc_validate pids]; auto.
  - destruct (high_ge _ _ _); auto.
  - destruct (dc_validate nx k cl); auto. right; auto.
  - destruct (high_ge _ _ _); auto. apply in_or_app; auto.
Qed.
Lemma dsm_in k sib : forall c kf sf smo, match dc_search_merge c k sib kf sf smo with MSibling q _ => In q (pids c) | _ => True end.
Proof.
  assert (HN : forall n, In (n_next n) (node_pids n)) by (intros; left; auto).
  induction c as [n|d nx IH|d n nx IH|]; intros kf sf smo; cbn [dc_search_merge pids]; auto.
  - destruct (negb kf); auto. destruct (_ && _); auto. destruct (negb smo); auto. destruct (high_ge _ _ _); auto.
  - assert (HI : forall a b, match dc_search_merge nx k sib a b smo with MSibling q _ => In q (d_pay d :: pids nx) | _ => True end).
    { intros a b. specialize (IH a b smo). destruct (dc_search_merge nx k sib a b smo); auto. right; auto. }
    destruct (d_type d); auto.
    + destruct (_ && _); auto. destruct (_ && _); auto. apply HI.
    + destruct (_ && _); auto. destruct (_ && _); auto. apply HI.
  - destruct (low_le _ _ _).
    + destruct (_ && _); auto. destruct (high_ge _ _ _); auto. apply in_or_app; auto.
    + destruct (_ && _); auto. match goal with |- match ?x with _ => _ end => pose proof (IH kf (sf || (negb sf && match sib with Some s => same_key (d_key d) s | None => false end)) true) as HI; destruct x end; auto.
      apply in_or_app; auto.
Qed.
Lemma lmc_in c v : leftmost_child c = Some v -> In v (pids c).
Proof.
  induction c as [n|d nx IH|d n nx IH|]; cbn [leftmost_child pids].
  - unfold node_pids. destruct (n_recs n) as [|[k w] r]; [discriminate|]. intros [= <-]. right. left. auto.
  - intros H. right. auto.
  - intros H. apply in_or_app. auto.
  - discriminate.
Qed.

(** Consolidation moves values, it does not make them up. *)
Definition cs_vals (s : cstate) : list N :=
  map snd (cs_cur s) ++ match cs_left s with Some (l, _) => map snd l | None => [] end.
Definition good (K : kset) (s : cstate) : Prop := kin (cs_vals s) K.
Lemma copy_good (K : kset) sz r s : K (snd r) -> good K s -> good K (copy_rec g sz r s).
Proof.
  unfold good, copy_rec, cs_vals. intros Hr H p.
  destruct (cs_pend s && _); cbn [cs_cur cs_left map app]; rewrite ?map_app, ?in_app_iff; cbn [map In].
  - intros [Hp|[<-|[]]]; auto. apply H. apply in_or_app; auto.
  - intros [[Hp|[<-|[]]]|Hp]; auto; apply H; apply in_or_app; auto.
Qed.
Lemma copyd_good (K : kset) ps d s : K (d_pay d) -> good K s -> good K (copy_delta g ps d s).
Proof. intros H1 H2. unfold copy_delta. destruct (d_type d); auto; apply copy_good; auto. Qed.
Definition dgood (K : kset) (ds : list delta) : Prop := forall d, In d ds -> K (d_pay d).
Lemma flush_good (K : kset) ps k : forall ds s, dgood K ds -> good K s ->
  dgood K (fst (flush_below g ps k ds s)) /\ good K (snd (flush_below g ps k ds s)).
Proof.
  induction ds as [|d t IH]; intros s Hd Hs; cbn [flush_below]; auto.
  destruct (d_key d <? k)%Z; [|auto]. apply IH; [intros x Hx; apply Hd; right; auto|].
  apply copyd_good; auto. apply Hd; left; auto.
Qed.
Lemma recs_good (K : kset) ps : forall rs ds s, kin (map snd rs) K -> dgood K ds -> good K s ->
  dgood K (fst (merge_recs g ps rs ds s)) /\ good K (snd (merge_recs g ps rs ds s)).
Proof.
  induction rs as [|[k v] rt IH]; intros ds s Hr Hd Hs; cbn [merge_recs]; auto.
  assert (Hv : K v) by (apply Hr; left; auto). assert (Ht : kin (map snd rt) K) by (intros x Hx; apply Hr; right; auto).
  destruct (flush_good K ps k ds s Hd Hs) as [F1 F2]. destruct (flush_below g ps k ds s) as [ds1 s1]. cbn [fst snd] in *.
  destruct ds1 as [|d dt]; [apply IH; auto; apply copy_good; auto|].
  destruct (negb (k <? d_key d)%Z).
  - apply IH; auto; [intros x Hx; apply F1; right; auto|]. apply copyd_good; auto. apply F1; left; auto.
  - apply IH; auto. apply copy_good; auto.
Qed.
Lemma node_good (K : kset) ps n ds s : kin (map snd (n_recs n)) K -> dgood K ds -> good K s ->
  dgood K (fst (merge_node g ps n ds s)) /\ good K (snd (merge_node g ps n ds s)).
Proof.
  intros Hn Hd Hs. unfold merge_node. destruct (n_inner n && is_leftmost n); [|apply recs_good; auto].
  destruct (n_recs n) as [|r rt]; auto. apply recs_good; auto; [intros x Hx; apply Hn; right; auto|].
  apply copy_good; auto. apply Hn; left; auto.
Qed.
Lemma nodes_good (K : kset) ps : forall ns ds s, (forall n, In n ns -> kin (node_pids n) K) -> dgood K ds -> good K s ->
  good K (merge_nodes g ps ns ds s).
Proof.
  induction ns as [|n t IH]; intros ds s Hn Hd Hs; cbn [merge_nodes].
  - revert s Hs. induction ds as [|d r IHd]; intros s Hs; cbn [fold_left]; auto.
    apply IHd; [intros x Hx; apply Hd; right; auto|]. apply copyd_good; auto. apply Hd; left; auto.
  - destruct (node_good K ps n ds s) as [F1 F2]; auto.
    { intros x Hx. apply (Hn n); [left; auto|right; auto]. }
    destruct (merge_node g ps n ds s) as [ds1 s1]. apply IH; auto. intros m Hm. apply Hn. right; auto.
Qed.
Definition cres_good (K : kset) (r : cons_res) : Prop :=
  match r with COne n => kin (node_pids n) K | CTwo l r => kin (node_pids l) K /\ kin (node_pids r) K | CSplitBad => True end.
Lemma cons_good (K : kset) inner a ra ns ds sp sc : K 0 -> (forall n, In n ns -> kin (node_pids n) K) -> dgood K ds ->
  cres_good K (consolidate g inner a ra ns ds sp sc).
Proof.
  intros K0 Hn Hd. unfold consolidate.
  assert (G : good K (merge_nodes g (paysz g inner) (rev ns) ds (mk_cs None [] (c_hdr g) sp))).
  { apply nodes_good; auto; [|intros p []]. intros n H. apply Hn. apply in_rev. auto. }
  set (s := merge_nodes _ _ _ _ _) in *.
  assert (HF : K (n_next (hd (dummy_node inner) ns))).
  { destruct ns as [|n t]; cbn [hd dummy_node n_next]; auto. apply (Hn n); left; auto. }
  unfold good, cs_vals in G.
  destruct sp.
  - destruct (cs_left s) as [[lrs lsz]|]; [|exact I]. destruct (cs_cur s) as [|[rk rv] rt]; [exact I|].
    destruct (low_of g inner _ lrs) as [llow ladd]. cbn [cres_good]. unfold node_pids. cbn [n_next n_recs].
    split; intros p [<-|Hp]; auto; apply G; apply in_or_app; auto.
  - destruct (low_of g inner _ _) as [low add]. cbn [cres_good]. unfold node_pids. cbn [n_next n_recs].
    intros p [<-|Hp]; auto. apply G. apply in_or_app; auto.
Qed.
Lemma add_good (K : kset) d arr : K (d_pay d) -> dgood K arr -> dgood K (add_sorted d arr).
Proof.
  intros H. induction arr as [|x t IH]; cbn [add_sorted]; intros Ha y.
  - intros [<-|[]]; auto.
  - destruct (d_key x <? d_key d)%Z; [|destruct (d_key d <? d_key x)%Z].
    + intros [<-|Hy]; [apply Ha; left; auto|]. apply IH; auto. intros z Hz. apply Ha; right; auto.
    + intros [<-|Hy]; auto.
    + auto.
Qed.
Lemma sort_good (K : kset) : forall c arr ns ds ns', kin (pids c) K -> dgood K arr ->
  (forall n, In n ns -> kin (node_pids n) K) -> dc_sort c arr ns = Some (ds, ns') ->
  dgood K ds /\ forall n, In n ns' -> kin (node_pids n) K.
Proof.
  induction c as [n|d nx IH|d n nx IH|]; intros arr ns ds ns' Hc Ha Hn; cbn [dc_sort pids] in *; [| | |discriminate].
  - intros [= <- <-]. split; auto. intros m Hm. apply in_app_iff in Hm. destruct Hm as [Hm|[<-|[]]]; auto.
  - apply IH; auto; [intros p Hp; apply Hc; right; auto|]. apply add_good; auto. apply Hc; left; auto.
  - apply IH; auto; [intros p Hp; apply Hc; apply in_or_app; auto|].
    intros m Hm. apply in_app_iff in Hm. destruct Hm as [Hm|[<-|[]]]; auto. intros p Hp. apply Hc. apply in_or_app; auto.
Qed.

(** ** Searches *)
Definition stq (K : kset) (st : list pid) : Prop := kin st K.
Lemma kin_cons p l (K : kset) : K p -> kin l K -> kin (p :: l) K. Proof. intros H1 H2 q [<-|H]; auto. Qed.
Lemma kin_nil (K : kset) : kin [] K. Proof. intros p []. Qed.
Lemma kin_tl p l (K : kset) : kin (p :: l) K -> kin l K. Proof. intros H q Hq. apply H; right; auto. Qed.
Lemma kin_hd p l (K : kset) : kin (p :: l) K -> K p. Proof. intros H. apply H; left; auto. Qed.
Hint Resolve kin_cons kin_nil kin_tl kin_le kok_le kle_refl : kdb.
Hint Extern 1 => match goal with H : kin (?p :: _) ?K |- ?K ?p => apply H; left; reflexivity end : kdb.
Hint Extern 2 => match goal with L : kle ?K ?K' |- ?K' ?p => apply L end : kdb.

Lemma kp_wait_cell a : forall f K, kp K (wait_cell f a) (fun K' p => K' p).
Proof. induction f; intros K; cbn [wait_cell kp]; auto. intros p K' L H. destruct (p =? 0); [apply IHf|exact H]. Qed.

Definition pq (K : kset) (r : bool * list pid) : Prop := kin (snd r) K.
Lemma kp_child k cl tgt : forall f K st, kin st K -> kp K (search_child_node f k cl st tgt) pq.
Proof.
  induction f; intros K st Hs; cbn [search_child_node]; [exact I|]. destruct st as [|p rest]; [exact I|].
  cbn [bind load kp]. split; [eauto with kdb|]. intros c K' L Hc.
  assert (Hs' : kin (p :: rest) K') by eauto with kdb.
  pose proof (dsc_in k cl c false) as D. destruct (dc_search_child c k cl false); cbn [dres_in] in D; try exact I.
  - destruct (h_leaf c); [exact I|]. unfold pq. cbn [kp snd]. auto with kdb.
  - eapply kp_seq; [apply kp_wait_cell|]. intros K2 v L2 Hv. cbn [kp pq snd]. unfold pq. cbn [snd]. eauto with kdb.
  - destruct rest as [|q t]; [destruct (negb (tgt =? 0)); [apply kin_nil|]|].
    + cbn [kp]. intros r K2 L2 Hr. apply IHf. auto with kdb.
    + eapply kp_seq; [apply IHf; eauto with kdb|]. intros K2 [[|] [|z st']] L2 H; unfold pq in *; cbn [kp snd] in *; auto.
  - destruct (p0 =? tgt); [exact Hs'|]. apply IHf. eauto with kdb.
  - destruct (node_search_child n k cl) eqn:E; [|exact I]. destruct (h_leaf c); [exact I|]. unfold pq. cbn [kp snd]. apply kin_cons; auto.
    apply Hc, D. eapply nsc_in; eauto.
Qed.

Lemma kp_leaf_loop k cl : forall f K st, kin st K -> kp K (leaf_loop f k cl st) stq.
Proof.
  induction f; intros K st Hs; cbn [leaf_loop]; [exact I|]. destruct st as [|p rest]; [exact I|].
  cbn [bind load kp]. split; [eauto with kdb|]. intros c K' L Hc. destruct (h_leaf c); [unfold stq; cbn [kp]; eauto with kdb|].
  eapply kp_seq; [apply kp_child; eauto with kdb|]. intros K2 [b st'] L2 H. apply IHf. exact H.
Qed.
Lemma kp_search_leaf k cl f (K : kset) : kp K (search_leaf f k cl) stq.
Proof. cbn [search_leaf kp]. intros r K' L H. apply kp_leaf_loop. auto with kdb. Qed.

Lemma kp_target_loop k tgt : forall f K st b, kin st K -> kp K (target_loop f k tgt st b) stq.
Proof.
  induction f; intros K st b Hs; cbn [target_loop]; [exact I|]. destruct b; [exact Hs|].
  eapply kp_seq; [apply kp_child; auto|]. intros K' [b st'] L H. unfold pq in H. cbn [snd] in H.
  destruct b; [exact H|]. destruct st' as [|p t]; [exact H|].
  cbn [bind load kp]. split; [eauto with kdb|]. intros c K2 L2 Hc. apply IHf. eauto with kdb.
Qed.
Lemma kp_search_target k tgt : forall f K, kp K (search_target f k tgt) stq.
Proof.
  induction f; intros K; cbn [search_target]; [exact I|]. cbn [kp bind load]. intros r K' L Hr. split; auto.
  intros c K2 L2 Hc. eapply kp_seq; [apply kp_target_loop; auto with kdb|].
  intros K3 [|p st'] L3 H; [apply IHf|exact H].
Qed.

Lemma kp_load_valid p : forall f (K : kset), K p -> kp K (load_valid g f p) (fun K' c => kin (pids c) K').
Proof.
  induction f; intros K Hp; cbn [load_valid bind load kp]; [exact I|]. split; auto. intros c K' L Hc.
  destruct (need_wait g c); [apply IHf; auto|]. exact Hc.
Qed.

Definition oq (K : kset) (r : option chain * list pid) : Prop :=
  match fst r with Some c => kin (pids c) K | None => True end /\ kin (snd r) K.
Lemma kp_get_head k cl tgt : forall f K st, kin st K -> kp K (get_head g f k cl st tgt) oq.
Proof.
  induction f; intros K st Hs; cbn [get_head]; [exact I|]. destruct st as [|p rest]; [exact I|].
  eapply kp_seq; [apply kp_load_valid; eauto with kdb|]. intros K' c L Hc.
  assert (Hs' : kin (p :: rest) K') by eauto with kdb.
  pose proof (dv_in k cl c) as D. destruct (dc_validate c k cl); [split; auto| |].
  - destruct rest as [|q t]; [destruct (negb (tgt =? 0)); [split; [exact I|apply kin_nil]|]|].
    + eapply kp_seq; [apply kp_search_leaf|]. intros; apply IHf; auto.
    + eapply kp_seq; [apply kp_child; eauto with kdb|]. intros K2 [b [|z st']] L2 H; [split; [exact I|apply kin_nil]|apply IHf; exact H].
  - destruct (p0 =? tgt); [split; auto|]. apply IHf. eauto with kdb.
Qed.

Lemma kp_get_kc k : forall f K st, kin st K ->
  kp K (get_head_kc g f k st) (fun K' r => kin (pids (fst (fst r))) K' /\ kin (snd r) K').
Proof.
  induction f; intros K st Hs; cbn [get_head_kc]; [exact I|]. destruct st as [|p rest]; [exact I|].
  eapply kp_seq; [apply kp_load_valid; eauto with kdb|]. intros K' c L Hc.
  assert (Hs' : kin (p :: rest) K') by eauto with kdb.
  pose proof (dsr_in k c false) as D.
  destruct (dc_search_record c k false); try exact I; try (split; auto; fail); [|apply IHf; eauto with kdb].
  destruct rest.
  - eapply kp_seq; [apply kp_search_leaf|]. intros; apply IHf; auto.
  - eapply kp_seq; [apply kp_child; eauto with kdb|]. intros K2 [b st'] L2 H; apply IHf; exact H.
Qed.

Lemma kp_get_merge k : forall f sib K st, kin st K -> kp K (get_head_merge g f k sib st) (fun K' r => oq K' (fst r)).
Proof.
  induction f; intros sib K st Hs; cbn [get_head_merge]; [exact I|]. destruct st as [|p rest]; [exact I|].
  eapply kp_seq; [apply kp_load_valid; eauto with kdb|]. intros K' c L Hc.
  assert (Hs' : kin (p :: rest) K') by eauto with kdb.
  match goal with |- context [dc_search_merge c k sib ?a ?b ?d] => pose proof (dsm_in k sib c a b d) as D; destruct (dc_search_merge c k sib a b d) end;
    try exact I; try (split; auto; fail); try (split; [exact I|auto]; fail).
  - apply IHf. eauto with kdb.
  - match goal with |- kp _ (if ?x then _ else _) _ => destruct x end; split; cbn [fst snd]; auto.
Qed.

(** ** Structure modifications *)
Definition anyk {A} (_ : kset) (_ : A) : Prop := True.
Definition smo_kp (smos : chain -> list pid -> prog unit) : Prop :=
  forall K c st, kok K -> kin (pids c) K -> kin st K -> kp K (smos c st) anyk.

Lemma kp_root_split (K : kset) sep r l : kok K -> K r -> K l -> kp K (try_root_split g sep r l) anyk.
Proof.
  intros [K0 _] Hr Hl. cbn [try_root_split kp]. intros rt K' L _. destruct (negb (rt =? l)); [exact I|].
  cbn [bind alloc kp]. intros a K2 L2 np K3 L3. split; [|intros; split; [auto|intros; exact I]].
  intros p. cbn. intros [<-|[<-|[<-|[]]]]; auto.
Qed.

Lemma kp_split_loop smos d l : smo_kp smos -> forall f K st, kok K -> K (d_pay d) -> K l -> kin st K ->
  kp K (split_loop g smos f d l st) anyk.
Proof.
  intros HS. induction f; intros K st KO Hd Hl Hs; cbn [split_loop]; [exact I|]. destruct st as [|p rest].
  - eapply kp_seq; [apply kp_root_split; auto|]. intros K' [|] L _; [exact I|].
    eapply kp_seq; [apply kp_search_target|]. intros K2 [|q t] L2 H; [exact I|]. apply IHf; eauto with kdb.
  - eapply kp_seq; [apply kp_get_head; auto|]. intros K' [[head|] st'] L [Hh H]; cbn [fst snd] in *; [|apply IHf; eauto with kdb].
    destruct st' as [|q t]; [exact I|]. cbn [bind cas kp pids].
    assert (HC : forall K2, kle K' K2 -> kin (pids (CRec (set_next d head (recsz g ptrlen (d_key d))) head)) K2).
    { intros K2 L2. cbn [pids set_next d_pay]. apply kin_cons; auto. eauto with kdb. }
    split; [apply (HC K'); apply kle_refl|]. intros b K2 L2.
    destruct b; [|apply IHf; eauto with kdb]. destruct (need_consolidation g _); [apply HS; eauto with kdb|exact I].
Qed.

Lemma kp_split smos f l r (K : kset) st : smo_kp smos -> kok K -> kin (map snd (n_recs l)) K -> kin (node_pids r) K -> kin st K ->
  kp K (split g smos f l r st) anyk.
Proof.
  intros HS KO Hl Hr Hs. unfold split. cbn [kp]. intros rp K' L. split; [cbn [pids]; eauto with kdb|].
  intros K2 L2 Hrp. assert (LL : kle K K2) by (eapply kle_trans; eauto). destruct st as [|lp st']; [exact I|].
  destruct (n_low r); [|exact I]. cbn [kp bind alloc]. split; [cbn [pids node_pids with_next n_next n_recs]; apply kin_cons; eauto with kdb|].
  intros K3 L3 _ a K4 L4. assert (L24 : kle K2 K4) by (eapply kle_trans; eauto).
  apply kp_split_loop; auto; eauto with kdb.
Qed.

Lemma kp_delete_loop d : forall f sib (K : kset) st, K (d_pay d) -> kin st K -> kp K (delete_loop g f d sib st) oq.
Proof.
  induction f; intros sib K st Hd Hs; cbn [delete_loop]; [exact I|].
  eapply kp_seq; [apply kp_get_merge; auto|]. intros K' [[[head|] st'] sib'] L [Hh H]; cbn [fst snd] in *; [|split; auto].
  destruct st' as [|p t]; [exact I|]. cbn [bind cas kp].
  assert (HC : forall K2, kle K' K2 -> kin (pids (CRec (set_next d head (- recsz g ptrlen (d_key d))) head)) K2).
  { intros K2 L2. cbn [pids set_next d_pay]. apply kin_cons; auto. eauto with kdb. }
  split; [apply (HC K'); apply kle_refl|]. intros [|] K2 L2; [split; [exact (HC K2 L2)|cbn [snd]; eauto with kdb]|].
  apply IHf; eauto with kdb.
Qed.

Lemma kp_delete_entry smos f n (K : kset) st : smo_kp smos -> kok K -> kin st K -> kp K (try_delete_entry g smos f n st) anyk.
Proof.
  intros HS KO Hs. unfold try_delete_entry. destruct st as [|p t]; [exact I|]. destruct (n_low n); [|exact I].
  cbn [bind alloc kp]. intros a K' L. split; [apply L, (proj1 KO)|]. intros K2 L2.
  assert (LL : kle K K2) by (eapply kle_trans; eauto).
  eapply kp_seq; [apply kp_delete_loop; [cbn [d_pay]; apply LL, (proj1 KO)|eauto with kdb]|].
  intros K3 [[c|] st'] L3 [Hc H]; cbn [fst snd] in *; [|exact I].
  eapply kp_seq; [|intros; exact I]. destruct (need_consolidation g c); [apply HS; eauto with kdb|exact I].
Qed.

Lemma kp_merge_loop smos d n rp da : smo_kp smos -> forall f b K st, kok K -> kin (node_pids n) K -> kin st K ->
  kp K (merge_loop g smos f d n rp da b st) anyk.
Proof.
  intros HS. induction f; intros b K st KO Hn Hs; cbn [merge_loop]; [exact I|]. destruct b.
  - eapply kp_seq; [apply kp_get_head; auto|]. intros K' [[head|] st'] L [Hh H]; cbn [fst snd] in *; [|apply IHf; eauto with kdb].
    destruct st' as [|q t]; [exact I|]. cbn [bind cas kp].
    assert (HC : forall K2, kle K' K2 -> kin (pids (CMerge (set_next d head (node_diff g n)) n head)) K2).
    { intros K2 L2 p Hp. cbn [pids] in Hp. apply in_app_iff in Hp. destruct Hp; auto. }
    split; [apply (HC K'), kle_refl|]. intros b K2 L2.
    destruct b; [|apply IHf; eauto with kdb]. cbn [kp]. split; [apply L2, H; left; auto|]. intros K3 L3.
    assert (L13 : kle K' K3) by (eapply kle_trans; eauto).
    destruct (need_consolidation g _); [apply HS; eauto with kdb|exact I].
  - destruct st.
    + eapply kp_seq; [apply kp_search_target|]. intros; apply IHf; eauto with kdb.
    + eapply kp_seq; [apply kp_child; auto|]. intros K' [b [|q t]] L H; apply IHf; eauto with kdb.
Qed.

Lemma kp_remove_root n p (K : kset) st : kin (node_pids n) K -> kp K (try_remove_root n p st) anyk.
Proof.
  intros Hn. unfold try_remove_root. destruct st; [|exact I].
  destruct ((1 <? Z.of_nat (length (n_recs n)))%Z || negb (n_inner n)); [exact I|].
  destruct (leftmost_child (CBase n)) as [np|] eqn:E; [|exact I]. assert (Hp : K np) by (apply Hn, (lmc_in _ _ E)).
  cbn [bind load kp]. split; auto. intros c K' L _.
  destruct (h_leaf c); [exact I|]. cbn [kp]. split; auto. intros [|] K2 L2; [cbn [kp]; intros; exact I|exact I].
Qed.

Lemma kp_try_merge smos f c n (K : kset) st : smo_kp smos -> kok K -> kin (node_pids n) K -> kin st K ->
  kp K (try_merge g smos f c n st) anyk.
Proof.
  intros HS KO Hn Hs. unfold try_merge. destruct st as [|p st]; [exact I|]. cbn [bind alloc cas kp]. intros a K1 L1.
  split; [apply kin_nil|]. intros [|] K' L2; [|exact I]. cbn [negb].
  assert (L : kle K K') by (eapply kle_trans; eauto).
  assert (Hst : kin st K') by (intros q Hq; apply L, Hs; right; auto).
  eapply kp_seq; [apply kp_delete_entry; eauto with kdb|]. intros K2 od L3 _.
  assert (LL : kle K K2) by (eapply kle_trans; eauto).
  assert (HR : kp K2 (bind (try_remove_root n p st) (fun rr : bool =>
      if rr then Ret true else Store p (CBase n) (Retire [a] (Ret true)))) anyk).
  { eapply kp_seq; [apply kp_remove_root; eauto with kdb|]. intros K3 [|] L4 _; [exact I|]. cbn [kp pids].
    split; [eauto with kdb|intros; exact I]. }
  destruct od; [|exact HR]. destruct (n_low n); [|exact HR]. cbn [bind alloc kp]. intros ma K4 L5.
  eapply kp_seq; [apply kp_merge_loop; auto|intros; exact I].
  - eapply kok_le; eauto. eapply kle_trans; eauto.
  - eapply kin_le; eauto. eapply kle_trans; eauto.
  - eapply kin_le; [exact Hst|]. eapply kle_trans; eauto.
Qed.

Lemma kp_smos : forall f, smo_kp (try_smos g f).
Proof.
  induction f; intros K c st KO Hc Hs; cbn [try_smos]; [exact I|]. destruct st as [|p t]; [exact I|].
  cbn [bind load kp]. split; [eauto with kdb|]. intros c0 K1 L1 _. destruct (negb (h_addr c0 =? h_addr c)); [exact I|].
  cbn [bind alloc kp]. intros a K2 L2. destruct (dc_sort c [] []) as [[ds ns]|] eqn:E; [|exact I].
  destruct (c_maxd g <? Z.of_nat (length ds))%Z eqn:Eo; [exact I|].
  assert (L : kle K K2) by (eapply kle_trans; eauto).
  destruct (sort_good K2 c [] [] ds ns) as [G1 G2]; eauto with kdb; [intros x []|intros x []|].
  destruct (c_page g <? h_size c)%Z.
  - cbn [bind alloc kp]. intros ra K3 L3.
    pose proof (cons_good K2 (negb (h_leaf c)) a ra ns ds true false (proj1 (kok_le _ _ KO L)) G2 G1) as CG.
    destruct (consolidate g _ a ra ns ds true false); try exact I. cbn [cres_good] in CG. destruct CG as [C1 C2].
    destruct (fits g l && fits g r); [|exact I]. assert (L' : kle K K3) by (eapply kle_trans; eauto).
    eapply kp_seq; [apply kp_split; auto|intros; cbn; intros; exact I]; eauto with kdb.
  - pose proof (cons_good K2 (negb (h_leaf c)) a 0 ns ds false false (proj1 (kok_le _ _ KO L)) G2 G1) as CG.
    destruct (consolidate g _ a 0 ns ds false false); try exact I. cbn [cres_good] in CG.
    destruct (fits g n); [|exact I]. destruct (h_size c <=? c_min g)%Z.
    + eapply kp_seq; [apply kp_try_merge; eauto with kdb|]. intros K3 [|] L3 _; cbn; intros; exact I.
    + cbn [bind cas kp]. split; [exact CG|]. intros [|] K3 L3; cbn; intros; exact I.
Qed.

(** ** Calls *)
Lemma kp_finish f c (K : kset) st : kok K -> kin (pids c) K -> kin st K -> kp K (finish g f c st) anyk.
Proof.
  intros KO Hc Hs. unfold finish. eapply kp_seq; [|intros; exact I].
  destruct (need_consolidation g c); [apply kp_smos; auto|exact I].
Qed.

Lemma kp_read k : forall f K st, kin st K -> kp K (read_loop g f k st) anyk.
Proof.
  induction f; intros K st Hs; cbn [read_loop]; [exact I|]. destruct st as [|p rest]; [exact I|].
  cbn [bind load kp]. split; [eauto with kdb|]. intros c K' L Hc. pose proof (dsr_in k c false) as D.
  assert (Hs' : kin (p :: rest) K') by eauto with kdb.
  destruct (dc_search_record c k false); try exact I.
  - destruct (h_leaf c); exact I.
  - eapply kp_seq; [apply kp_child; eauto with kdb|]. intros K2 [b st'] L2 H. apply IHf. exact H.
  - apply IHf. eauto with kdb.
  - destruct (node_search n k) as [[|] pos]; [|exact I]. destruct (pay_at n pos); [destruct (h_leaf c)|]; exact I.
Qed.

Definition call_pay (o : call) (v : N) : Prop :=
  match o with KWrite _ x | KInsert _ x | KUpdate _ x => v = x | _ => False end.

Lemma kp_cas {A} (K : kset) w p e d (head : chain) (k : bool -> prog A) (Q : kset -> A -> Prop) :
  kin (pids head) K -> K (d_pay d) ->
  (forall b K', kle K K' -> kin (pids (CRec d head)) K' -> kp K' (k b) Q) ->
  kp K (Cas w p e (CRec d head) k) Q.
Proof.
  intros H1 H2 H3. cbn [kp]. assert (kin (pids (CRec d head)) K) by (cbn [pids]; auto with kdb).
  split; auto. intros; apply H3; eauto with kdb.
Qed.

Lemma kp_write a k v : forall f K st, kok K -> K v -> kin st K -> kp K (write_loop g f a k v st) anyk.
Proof.
  induction f; intros K st KO Hv Hs; cbn [write_loop]; [exact I|].
  eapply kp_seq; [apply kp_get_kc; auto|]. intros K' [[head found] st'] L [Hh H]; cbn [fst snd] in *.
  destruct st' as [|p t]; [exact I|]. cbn [bind cas]. apply kp_cas; [exact Hh|destruct found; cbn; auto|].
  intros [|] K2 L2 HC; cbn [kp bind]; [apply kp_finish; eauto with kdb|apply IHf; eauto with kdb].
Qed.
Lemma kp_insert a k v : forall f K st, kok K -> K v -> kin st K -> kp K (insert_loop g f a k v st) anyk.
Proof.
  induction f; intros K st KO Hv Hs; cbn [insert_loop]; [exact I|].
  eapply kp_seq; [apply kp_get_kc; auto|]. intros K' [[head found] st'] L [Hh H]; cbn [fst snd] in *.
  destruct found; [exact I|]. destruct st' as [|p t]; [exact I|]. cbn [bind cas]. apply kp_cas; [exact Hh|cbn; auto|].
  intros [|] K2 L2 HC; cbn [kp bind]; [apply kp_finish; eauto with kdb|apply IHf; eauto with kdb].
Qed.
Lemma kp_update a k v : forall f K st, kok K -> K v -> kin st K -> kp K (update_loop g f a k v st) anyk.
Proof.
  induction f; intros K st KO Hv Hs; cbn [update_loop]; [exact I|].
  eapply kp_seq; [apply kp_get_kc; auto|]. intros K' [[head found] st'] L [Hh H]; cbn [fst snd] in *.
  destruct found; [|exact I]. cbn [negb]. destruct st' as [|p t]; [exact I|]. cbn [bind cas]. apply kp_cas; [exact Hh|cbn; auto|].
  intros [|] K2 L2 HC; cbn [kp bind]; [apply kp_finish; eauto with kdb|apply IHf; eauto with kdb].
Qed.
Lemma kp_remove a k : forall f K st, kok K -> kin st K -> kp K (remove_loop g f a k st) anyk.
Proof.
  induction f; intros K st KO Hs; cbn [remove_loop]; [exact I|].
  eapply kp_seq; [apply kp_get_kc; auto|]. intros K' [[head found] st'] L [Hh H]; cbn [fst snd] in *.
  destruct found; [|exact I]. cbn [negb]. destruct st' as [|p t]; [exact I|]. cbn [bind cas].
  apply kp_cas; [exact Hh|cbn; apply L, (proj1 KO)|].
  intros [|] K2 L2 HC; cbn [kp bind]; [apply kp_finish; eauto with kdb|apply IHf; eauto with kdb].
Qed.

Lemma kp_call f o K : kok K -> (forall v, call_pay o v -> pay v) -> kp K (call_prog g f o) anyk.
Proof.
  intros KO Hp. assert (HK : forall K' v, kle K K' -> call_pay o v -> K' v) by (intros K' v L H; apply L, KO, Hp, H).
  destruct o; cbn [call_prog]; (eapply kp_seq; [|intros; exact I]).
  - eapply kp_seq; [apply kp_search_leaf|]. intros; apply kp_read; auto.
  - eapply kp_seq; [apply kp_search_leaf|]. intros K1 st L1 H1. cbn [bind alloc kp]. intros a K2 L2.
    assert (kle K K2) by (eapply kle_trans; eauto). apply kp_write; eauto with kdb. apply HK; auto. reflexivity.
  - eapply kp_seq; [apply kp_search_leaf|]. intros K1 st L1 H1. cbn [bind alloc kp]. intros a K2 L2.
    assert (kle K K2) by (eapply kle_trans; eauto). apply kp_insert; eauto with kdb. apply HK; auto. reflexivity.
  - eapply kp_seq; [apply kp_search_leaf|]. intros K1 st L1 H1. cbn [bind alloc kp]. intros a K2 L2.
    assert (kle K K2) by (eapply kle_trans; eauto). apply kp_update; eauto with kdb. apply HK; auto. reflexivity.
  - eapply kp_seq; [apply kp_search_leaf|]. intros K1 st L1 H1. cbn [bind alloc kp]. intros a K2 L2.
    assert (kle K K2) by (eapply kle_trans; eauto). apply kp_remove; eauto with kdb.
Qed.
End K.

(** ** Executions *)
Section Exec.
Variable g : cfg.
Variable pay : N -> Prop.

(** Slots a view shows as initialised; IDs 0 and payloads are excepted. *)
Definition kv (v : view) : kset := fun p => p = 0 \/ pay p \/ p = 1 \/ 0 < v (LSlot p).
Definition vle (v w : view) : Prop := forall l, v l <= w l.
Lemma kv_ok v : kok pay (kv v). Proof. split; unfold kv; auto. Qed.
Lemma kv_le v w : vle v w -> kle (kv v) (kv w).
Proof. intros H p [E|[E|[E|E]]]; unfold kv; auto. right. right. right. specialize (H (LSlot p)). lia. Qed.

Definition wpids (x : wval) : list N :=
  match x with WPage (Some c) => pids c | WPage None => [] | WPid p => [p] end.
Definition msg_ok (m : msg) : Prop := kin (wpids (m_val m)) (kv (m_view m)).
(** No call writes null to a slot. *)
Definition full_ok (m : msg) : Prop := match m_loc m with LSlot _ => exists c, m_val m = WPage (Some c) | _ => True end.
Definition mem_ok (M : wmem) : Prop := Forall (fun m => msg_ok m /\ full_ok m) (w_msgs M).

Lemma init_ok l : msg_ok (init_msg l).
Proof. intros p. destruct l; cbn; [intros []| |]; intros [<-|[]]; left; auto. Qed.
Lemma find_ok M l t m : mem_ok M -> find_msg M l t = Some m -> msg_ok m.
Proof.
  unfold find_msg. intros H. destruct (find _ _) eqn:E.
  - intros [= <-]. apply find_some in E. unfold mem_ok in H. rewrite Forall_forall in H. apply H; tauto.
  - destruct (t =? 0); [|discriminate]. intros [= <-]. apply init_ok.
Qed.
Lemma loc_eqb_eq x y : loc_eqb x y = true -> x = y.
Proof. destruct x, y; cbn; try discriminate; auto; intros H; apply N.eqb_eq in H; congruence. Qed.
Lemma loc_eqb_refl x : loc_eqb x x = true.
Proof. destruct x; cbn; auto using N.eqb_refl. Qed.
Lemma vset_le v l t : v l <= t -> vle v (vset v l t).
Proof. intros H x. unfold vset. destruct (loc_eqb x l) eqn:E; [apply loc_eqb_eq in E; subst|]; lia. Qed.
Lemma vjoin_l v w : vle v (vjoin v w). Proof. intros x. unfold vjoin. lia. Qed.
Lemma vjoin_r v w : vle w (vjoin v w). Proof. intros x. unfold vjoin. lia. Qed.
Lemma vle_trans u v w : vle u v -> vle v w -> vle u w. Proof. intros H1 H2 x. specialize (H1 x). specialize (H2 x). lia. Qed.
Lemma vle_refl v : vle v v. Proof. intros x. lia. Qed.

Lemma rd_le acq v m : vle v (rd_view acq v m).
Proof.
  unfold rd_view. assert (H : vle v (vset v (m_loc m) (N.max (v (m_loc m)) (m_to m)))) by (apply vset_le; lia).
  destruct acq; auto. eapply vle_trans; [apply H|apply vjoin_l].
Qed.
Lemma read_le M acq v l t x v' : do_read M acq v l t = Some (x, v') -> vle v v'.
Proof.
  unfold do_read. destruct (v l <=? t); [|discriminate]. destruct (find_msg M l t); [|discriminate].
  intros [= <- <-]. apply rd_le.
Qed.
(** An acquire load knows the IDs in what it read. *)
Lemma read_acq M v l t x v' : mem_ok M -> do_read M true v l t = Some (x, v') -> kin (wpids x) (kv v').
Proof.
  unfold do_read. intros HM. destruct (v l <=? t); [|discriminate]. destruct (find_msg M l t) as [m|] eqn:E; [|discriminate].
  intros [= <- <-]. pose proof (find_ok _ _ _ _ HM E) as H. eapply kin_le; [exact H|]. apply kv_le.
  unfold rd_view. apply vjoin_r.
Qed.
(** A release write keeps the memory in order and shows its own word. *)
Lemma write_ok M rel v l f t x M' v' : mem_ok M -> do_write M rel v l f t x = Some (M', v') ->
  kin (wpids x) (if rel then kv v else fun _ => False) ->
  match l with LSlot _ => exists c, x = WPage (Some c) | _ => True end -> mem_ok M' /\ vle v v' /\ 0 < v' l.
Proof.
  unfold do_write. intros HM. destruct ((v l <? t) && free_at M l f t) eqn:E; [|discriminate].
  intros [= <- <-] Hx Hf. assert (L : vle v (vset v l t)) by (apply vset_le; lia).
  split; [|split; [exact L|unfold vset; rewrite loc_eqb_refl; lia]].
  constructor; [|exact HM]. split; [|exact Hf]. unfold msg_ok. cbn [m_val m_view]. destruct rel.
  - eapply kin_le; [exact Hx|apply kv_le, L].
  - intros p Hp. destruct (Hx p Hp).
Qed.
Lemma rmw_ok M acq v l f t x y M' v' : mem_ok M -> do_rmw M acq true v l f t x = Some (y, M', v') ->
  kin (wpids x) (kv v) -> match l with LSlot _ => exists c, x = WPage (Some c) | _ => True end ->
  mem_ok M' /\ vle v v'.
Proof.
  unfold do_rmw. intros HM. destruct ((v l <=? f) && free_at M l f t) eqn:E; [|discriminate].
  destruct (find_msg M l f) as [m|]; [|discriminate]. intros [= <- <- <-] Hx Hf.
  assert (F : f < t) by (unfold free_at in E; lia).
  set (v0 := if acq then vjoin v (m_view m) else v).
  assert (L : vle v (vset v0 l t)).
  { intros z. unfold vset. destruct (loc_eqb z l) eqn:Ez; [apply loc_eqb_eq in Ez; subst; lia|].
    unfold v0. destruct acq; [apply vjoin_l|lia]. }
  split; auto. constructor; [|exact HM]. split; [|exact Hf]. unfold msg_ok. cbn [m_val m_view].
  eapply kin_le; [exact Hx|]. apply kv_le. eapply vle_trans; [exact L|apply vjoin_r].
Qed.

Ltac rdwr := repeat match goal with
  | H : match do_read ?M ?a ?v ?l ?t with _ => _ end = _ |- _ => let E := fresh "E" in destruct (do_read M a v l t) as [[? ?]|] eqn:E; [|discriminate]
  | H : match do_write ?M ?a ?v ?l ?f ?t ?x with _ => _ end = _ |- _ => let E := fresh "E" in destruct (do_write M a v l f t x) as [[? ?]|] eqn:E; [|discriminate]
  end.

Lemma step_ok {A} (m : prog A) h M v m' M' v' Q :
  mem_ok M -> kp (kv v) m Q -> wstep true m h M v = Some (m', M', v') ->
  mem_ok M' /\ vle v v' /\ kp (kv v') m' Q.
Proof.
  intros HM HK HS. destruct m; cbn [wstep kp] in *; try discriminate.
  - destruct HK as [_ HK]. rdwr. pose proof (read_le _ _ _ _ _ _ _ E) as L. pose proof (read_acq _ _ _ _ _ _ HM E) as R.
    destruct w as [[c|]|]; injection HS as <- <- <-; (split; [exact HM|split; [exact L|]]); try exact I.
    apply HK; [apply kv_le, L|exact R].
  - destruct HK as [HC HK]. rdwr. injection HS as <- <- <-. destruct (write_ok _ true _ _ _ _ _ _ _ HM E HC (ex_intro _ c eq_refl)) as (W1 & W2 & W3).
    split; [exact W1|split; [exact W2|]]. apply HK; [apply kv_le, W2|]. unfold kv; auto.
  - destruct HK.
  - destruct HK as [HC HK].
    assert (HF : forall y w, do_read M false v (LSlot p) (h_rd h) = Some (y, w) -> vle v w /\ kp (kv w) (k false) Q).
    { intros y w E. apply read_le in E. split; auto. apply HK, kv_le, E. }
    destruct (do_rmw M false true v (LSlot p) (h_from h) (h_to h) (WPage (Some c))) as [[[x M1] v1]|] eqn:E.
    + destruct (rmw_ok _ _ _ _ _ _ _ _ _ _ HM E HC (ex_intro _ c eq_refl)) as [W1 W2]. destruct (holds x e && _).
      * injection HS as <- <- <-. split; [exact W1|split; [exact W2|]]. apply HK, kv_le, W2.
      * rdwr. destruct (holds _ _ && _); [discriminate|]. injection HS as <- <- <-. split; [exact HM|]. eapply HF; eauto.
    + rdwr. destruct (holds _ _ && _); [discriminate|]. injection HS as <- <- <-. split; [exact HM|]. eapply HF; eauto.
  - rdwr. pose proof (read_le _ _ _ _ _ _ _ E) as L. pose proof (read_acq _ _ _ _ _ _ HM E) as R.
    destruct w as [|r]; [discriminate|]. injection HS as <- <- <-. split; [exact HM|split; [exact L|]].
    apply HK; [apply kv_le, L|]. apply R. left; auto.
  - destruct HK as [HC HK]. rdwr. injection HS as <- <- <-.
    destruct (write_ok _ true _ _ _ _ _ _ _ HM E) as (W1 & W2 & W3); [intros q [<-|[]]; auto|exact I|].
    split; [exact W1|split; [exact W2|]]. apply HK, kv_le, W2.
  - destruct HK as [HC HK].
    assert (HF : forall y w, do_read M true v LRoot (h_rd h) = Some (y, w) -> vle v w /\ kp (kv w) (k false) Q).
    { intros y w E. apply read_le in E. split; auto. apply HK, kv_le, E. }
    assert (HG : match do_read M true v LRoot (h_rd h) with
          | Some (WPid y, v1) => if y =? old then None else Some (k false, M, v1)
          | _ => None end = Some (m', M', v') -> mem_ok M' /\ vle v v' /\ kp (kv v') m' Q).
    { intros HX. rdwr. destruct w as [|y]; [discriminate|]. destruct (y =? old); [discriminate|].
      injection HX as <- <- <-. split; [exact HM|]. eapply HF; eauto. }
    destruct (do_rmw M true true v LRoot (h_from h) (h_to h) (WPid new)) as [[[[|x] M1] v1]|] eqn:E; auto.
    destruct (rmw_ok _ _ _ _ _ _ _ _ _ _ HM E) as [W1 W2]; [intros q [<-|[]]; auto|exact I|]. destruct (x =? old); auto.
    injection HS as <- <- <-. split; [exact W1|split; [exact W2|]]. apply HK, kv_le, W2.
  - injection HS as <- <- <-. split; [exact HM|split; [apply vle_refl|]]. apply HK, kle_refl.
  - injection HS as <- <- <-. split; [exact HM|split; [apply vle_refl|]]. apply HK, kle_refl.
  - rdwr. pose proof (read_le _ _ _ _ _ _ _ E) as L. pose proof (read_acq _ _ _ _ _ _ HM E) as R.
    destruct w as [|r]; [discriminate|]. injection HS as <- <- <-. split; [exact HM|split; [exact L|]].
    apply HK; [apply kv_le, L|]. apply R. left; auto.
  - destruct HK as [HC HK]. rdwr. injection HS as <- <- <-.
    destruct (write_ok _ true _ _ _ _ _ _ _ HM E) as (W1 & W2 & W3); [intros q [<-|[]]; auto|exact I|].
    split; [exact W1|split; [exact W2|]]. apply HK, kv_le, W2.
  - injection HS as <- <- <-. split; [exact HM|split; [apply vle_refl|]]. apply HK, kle_refl.
Qed.

(** What is known of a thread. *)
Definition thr_ok (x : thread * view) : Prop :=
  0 < snd x (LSlot 1) /\
  match fst x with
  | TIdle l => forall o v, In o l -> call_pay o v -> pay v
  | TRun m l => (forall o v, In o l -> call_pay o v -> pay v) /\ kp (kv (snd x)) m (fun _ _ => True)
  end.
Definition wst_ok (c : wcst) : Prop := mem_ok (wc_mem c) /\ Forall thr_ok (wc_thr c).

Lemma put_ok (l : list (thread * view)) t x : Forall thr_ok l -> thr_ok x ->
  Forall thr_ok (firstn t l ++ x :: skipn (S t) l).
Proof.
  intros H1 H2. apply Forall_app. split; [|constructor; auto].
  - rewrite Forall_forall in *. intros y Hy. apply H1. rewrite <- (firstn_skipn t l). apply in_or_app; auto.
  - rewrite Forall_forall in *. intros y Hy. apply H1. rewrite <- (firstn_skipn (S t) l). apply in_or_app; auto.
Qed.

Lemma wcstep_ok fuel c t h : wst_ok c -> wst_ok (fst (wcstep true g fuel c t h)).
Proof.
  intros [HM HT]. unfold wcstep. destruct (nth_error (wc_thr c) t) as [[th v]|] eqn:E; [|split; auto].
  assert (HX : thr_ok (th, v)) by (rewrite Forall_forall in HT; apply HT; eapply nth_error_In; eauto).
  destruct HX as [H1 HX]; cbn [fst snd] in *. destruct th as [[|o r]|m r].
  - split; auto.
  - split; [exact HM|]. cbn [fst wc_thr]. apply put_ok; auto. split; [exact H1|]. cbn [fst snd]. split.
    + intros; eapply HX; eauto. right; auto.
    + eapply kp_mono; [|apply (kp_call g pay); [apply kv_ok|]]; [auto|]. intros x Hx. eapply HX; eauto. left; auto.
  - destruct HX as [HX HK].
    assert (HG : wst_ok (fst match wstep true m h (wc_mem c) v with
       | Some (m', M', v') => (mk_wcst M' (firstn t (wc_thr c) ++ (TRun m' r, v') :: skipn (S t) (wc_thr c)), [])
       | None => (c, @nil event) end)).
    { destruct (wstep true m h (wc_mem c) v) as [[[m' M'] v']|] eqn:ES; [|split; auto].
      destruct (step_ok _ _ _ _ _ _ _ _ HM HK ES) as (S1 & S2 & S3). split; [exact S1|]. cbn [fst wc_thr].
      apply put_ok; auto. split; cbn [fst snd]; [specialize (S2 (LSlot 1)); lia|split; auto]. }
    destruct m; try exact HG. split; [exact HM|]. cbn [fst wc_thr]. apply put_ok; auto. split; auto.
Qed.
Lemma wexec_ok fuel : forall sch c, wst_ok c -> wst_ok (fst (wexec true g fuel c sch)).
Proof.
  induction sch as [|[t h] r IH]; intros c H; cbn [wexec]; auto.
  pose proof (wcstep_ok fuel c t h H) as H1. destruct (wcstep true g fuel c t h) as [c1 h1].
  specialize (IH c1 H1). destruct (wexec true g fuel c1 r) as [c2 h2]. exact IH.
Qed.
Lemma wstart_ok todos : (forall l o v, In l todos -> In o l -> call_pay o v -> pay v) -> wst_ok (wstart g todos).
Proof.
  intros H. split.
  - constructor; [|constructor; [|constructor]]; (split; [|cbn; eauto]).
    + intros p [<-|[]]. right. right. left. auto.
    + intros p. cbn. intros [<-|[]]. left. auto.
  - cbn [wstart wc_thr]. rewrite Forall_forall. intros x Hx. apply in_map_iff in Hx. destruct Hx as (l & <- & Hl).
    split; cbn [fst snd]; [vm_compute; auto|]. intros. eapply H; eauto.
Qed.

(** A load never sees an uninitialised slot. *)
Lemma load_ok c t p (k : chain -> prog ret) r v ts x v' : wst_ok c ->
  nth_error (wc_thr c) t = Some (TRun (Load p k) r, v) ->
  do_read (wc_mem c) true v (LSlot p) ts = Some (x, v') ->
  p = 0 \/ pay p \/ exists c', x = WPage (Some c').
Proof.
  intros [HM HT] E HR. rewrite Forall_forall in HT. destruct (HT _ (nth_error_In _ _ E)) as [H1 [_ [HK _]]].
  cbn [fst snd] in *. unfold do_read in HR. destruct (v (LSlot p) <=? ts) eqn:EL; [|discriminate].
  destruct (find_msg _ _ _) as [m|] eqn:EF; [|discriminate]. injection HR as <- <-.
  destruct HK as [HK|[HK|HK]]; auto. right. right.
  assert (H0 : 0 < v (LSlot p)) by (destruct HK as [->|HK]; auto).
  unfold find_msg in EF. destruct (find _ _) eqn:E1.
  - injection EF as ->. apply find_some in E1. destruct E1 as [E1 E2]. unfold mem_ok in HM. rewrite Forall_forall in HM.
    destruct (HM _ E1) as [_ F]. unfold full_ok in F. apply andb_true_iff in E2. destruct E2 as [E2 _].
    apply loc_eqb_eq in E2. rewrite E2 in F. exact F.
  - destruct (ts =? 0) eqn:E2; [|discriminate]. lia.
Qed.
End Exec.

Lemma load_initialised g fuel todos sch t p k r v ts x v' :
  let c := fst (wexec true g fuel (wstart g todos) sch) in
  nth_error (wc_thr c) t = Some (TRun (Load p k) r, v) ->
  do_read (wc_mem c) true v (LSlot p) ts = Some (x, v') ->
  p <> 0 ->
  (forall l o y, In l todos -> In o l -> (o = KWrite y p \/ o = KInsert y p \/ o = KUpdate y p) -> False) ->
  exists page, x = WPage (Some page).
Proof.
  intros c E R Hp HN.
  set (pay := fun q => exists l o, In l todos /\ In o l /\ call_pay o q).
  assert (W : wst_ok pay c) by (apply wexec_ok, wstart_ok; intros l o q H1 H2 H3; exists l, o; auto).
  destruct (load_ok pay c t p k r v ts x v' W E R) as [H|[(l & o & H1 & H2 & H3)|H]]; [congruence| |exact H].
  exfalso. destruct o; cbn in H3; try contradiction; subst; eapply HN; eauto.
Qed.
