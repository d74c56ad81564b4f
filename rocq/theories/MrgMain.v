(** Executions of any number of threads with node merging, the root staying in place. *)
From Coq Require Import ZArith NArith List Bool Lia.
From Coq Require Import ZifyBool ZifyNat ZifyN.
From Verif Require Import Config Api Page Machine Tree Spec Conc ListFacts SearchFacts ChainSpec ChainFacts
  ConsFacts Valid ConsolidateFacts RunFacts SeqSpec LevelFacts SeqSmo SeqAux SeqOps ConcSpec MrgSpec
  MrgInv MrgSteps MrgSearch MrgSmo MrgOps MrgStart FuelFacts.
From Verif Require ConcMain WinFacts HistSpec HistFacts.
Import ListNotations.
Open Scope Z_scope.

(** ** Programs that only read *)
Fixpoint rdo {A} (m : prog A) : Prop :=
  match m with
  | Ret _ | UB _ | Fuel => True
  | Load _ k => forall c, rdo (k c)
  | LoadRoot k => forall p, rdo (k p)
  | LoadCell _ k => forall p, rdo (k p)
  | _ => False
  end.
Lemma rdo_bind {A B} (m : prog A) (f : A -> prog B) : rdo m -> (forall a, rdo (f a)) -> rdo (bind m f).
Proof. induction m; cbn; intros H1 H2; auto; contradiction. Qed.


Lemma rdo_wait a : forall f, rdo (wait_cell f a).
Proof. induction f as [|f IH]; cbn; auto. intros p. destruct (N.eqb p 0); cbn; auto. Qed.
Lemma rdo_child k cl tgt : forall f st, rdo (search_child_node f k cl st tgt).
Proof.
  induction f as [|f IH]; intros st; cbn [search_child_node]; [exact I|]. destruct st as [|p rest]; [exact I|].
  apply rdo_bind; [cbn; auto|]. intros c. destruct (dc_search_child c k cl false); try exact I.
  - destruct (h_leaf c); exact I.
  - apply rdo_bind; [apply rdo_wait|]. intros v. exact I.
  - destruct rest; [destruct (negb (N.eqb tgt 0)); [exact I|intros r; apply IH]|].
    apply rdo_bind; [apply IH|]. intros [[|] [|q st']]; try exact I. apply IH.
  - match goal with |- context [N.eqb ?x tgt] => destruct (N.eqb x tgt) end; [exact I|apply IH].
  - destruct (node_search_child n k cl); [destruct (h_leaf c)|]; exact I.
Qed.
Lemma rdo_leaf k cl : forall f st, rdo (leaf_loop f k cl st).
Proof.
  induction f as [|f IH]; intros st; cbn [leaf_loop]; [exact I|]. destruct st as [|p rest]; [exact I|].
  apply rdo_bind; [cbn; auto|]. intros c. destruct (h_leaf c); [exact I|].
  apply rdo_bind; [apply rdo_child|]. intros [b st']. apply IH.
Qed.
Lemma rdo_read_loop g k : forall f st, rdo (read_loop g f k st).
Proof.
  induction f as [|f IH]; intros st; cbn [read_loop]; [exact I|]. destruct st as [|p rest]; [exact I|].
  apply rdo_bind; [cbn; auto|]. intros c. destruct (dc_search_record c k false); try exact I; auto.
  - destruct (h_leaf c); exact I.
  - apply rdo_bind; [apply rdo_child|]. intros [b st']. apply IH.
  - destruct (node_search n k) as [[|] pos]; [|exact I]. destruct (pay_at n pos); [destruct (h_leaf c)|]; exact I.
Qed.
Lemma rdo_read g f k : rdo (op_read g f k).
Proof. apply rdo_bind; [intros r; apply rdo_leaf|]. intros st. apply rdo_read_loop. Qed.

Section Main.
Variable g : cfg.
Hypothesis OK : cfg_ok g.
Variable A0 : addr.
Variable R0 : pid.
Variable L0 : nat.
Variable fuel : nat.
Notation inv := (inv g A0 R0 L0). Notation rely := (rely g A0). Notation guar := (guar g A0).
Notation wp := (wp g A0 R0 L0). Notation stable := (stable R0).

Lemma wp_pstep t {A} (m : prog A) Q spur x m' s' : wp t m Q x -> inv x -> stable (w_s x) ->
  pstep m spur (w_s x) = Some (m', s') -> stable s' ->
  exists gh, inv (mk_w s' gh) /\ guar t x (mk_w s' gh) /\ wp t m' Q (mk_w s' gh).
Proof.
  intros W Hi St. assert (R : envst g A0 R0 L0 t x x) by (split; [apply rely_refl|auto]).
  destruct m; cbn [pstep MrgInv.wp] in *; try discriminate; try contradiction.
  - destruct (W x R) as (_ & c & -> & H). intros E; inversion E; subst. exact H.
  - intros E; inversion E; subst. apply (W x R).
  - destruct (W x R) as (_ & H1 & H2). unfold cas_ok. destruct (s_tbl (w_s x) p) as [c0|] eqn:T.
    + destruct ((h_addr c0 =? e)%N && negb (weak && spur)) eqn:Ee; intros E; inversion E; subst; auto.
      apply andb_true_iff in Ee as [Ee _]. apply N.eqb_eq in Ee. apply (H1 c0); auto.
    + intros E; inversion E; subst; auto.
  - intros E; inversion E; subst. apply (W x R).
  - intros E; inversion E; subst. apply (W x R).
  - intros E; inversion E; subst. apply (W x R).
  - intros E; inversion E; subst. apply (W x R).
  - intros E; inversion E; subst. apply (W x R).
  - intros E; inversion E; subst. apply (W x R).
Qed.

(** A reading program running alone. *)
Lemma wp_run t {A} (J : world -> Prop) : (forall x y, J x -> lstep t x y -> J y) ->
  forall (m : prog A) Q x, wp t m Q x -> rdo m -> inv x -> stable (w_s x) -> J x ->
  match run m (w_s x) with
  | Done a s => exists gh, inv (mk_w s gh) /\ J (mk_w s gh) /\ Q a (mk_w s gh)
  | Crash _ => False
  | NoFuel => True
  end.
Proof.
  intros HJ. induction m as [a|p k IH|p c m IH|p m IH|w p e c k IH|k IH|p m IH|o n k IH|k IH|k IH|a k IH|a p m IH|l m IH|u|];
    intros Q x W Rd Hi St Jx; assert (R : envst g A0 R0 L0 t x x) by (split; [apply rely_refl|auto]);
    cbn [run MrgInv.wp rdo] in *; try contradiction; auto.
  - exists (w_g x). destruct x; auto.
  - destruct (W x R) as (_ & c & -> & X). destruct (X St) as (gh & A1 & [_ A2] & A3). apply (IH c Q (mk_w (w_s x) gh)); eauto.
  - destruct (W x R St) as (gh & A1 & [_ A2] & A3). apply (IH _ Q (mk_w (w_s x) gh)); eauto.
  - destruct (W x R St) as (gh & A1 & [_ A2] & A3). apply (IH _ Q (mk_w (w_s x) gh)); eauto.
Qed.

Definition with_stat (gh : ghost) (f : tid -> status) : ghost :=
  mk_gh (nd gh) (lim gh) (pown gh) (hist gh) (own gh) (dele gh) (tok gh) (cont gh) f.
Lemma inv_stat s gh f : inv (mk_w s gh) -> inv (mk_w s (with_stat gh f)).
Proof.
  intros [A1 A2 A3 A4 A5 A6 A7 A8 A9 A10 A11 A12 A13 A14 A15 A16 A17]. constructor; auto.
  intros p l lo E1 E2. destruct (A4 _ _ _ E1 E2) as (c & C1 & C2). exists c. split; auto.
  destruct C2 as [B1 B2 B3 B4 B5]. constructor; auto.
Qed.

Lemma reads_ok s gh : inv (mk_w s gh) -> stable s -> reads_as g s (cont gh).
Proof.
  intros Hi St fl k. set (x := mk_w s (with_stat gh (tset (stat gh) 0%nat (SPend (KRead k))))).
  set (J := fun y : world =>
    $cont y = cont gh /\ ($stat y 0%nat = SPend (KRead k) \/ $stat y 0%nat = SDone (RVal (cont gh k)))).
  assert (HJ : forall y z : world, J y -> lstep 0%nat y z -> J z).
  { intros y z [E1 E2] [[L1 L2]|(o & L1 & L2 & L3)].
    - unfold J. rewrite L1, L2. auto.
    - destruct E2 as [E2|E2]; [|congruence]. rewrite E2 in L1. inversion L1; subst o.
      unfold J. rewrite L2, L3. cbn [spec fst snd]. split; auto. right. unfold tset. cbn. rewrite E1. auto. }
  assert (RD : rdo (call_prog g fl (KRead k))) by (apply rdo_bind; [apply rdo_read|intros; exact I]).
  pose proof (wp_run 0%nat J HJ (call_prog g fl (KRead k)) (fun v y => $stat y 0%nat = SDone v) x
    (call_wp g OK A0 R0 L0 0%nat fl (KRead k) x eq_refl) RD (inv_stat _ _ _ Hi) St
    (conj eq_refl (or_introl eq_refl))) as WR.
  change (w_s x) with s in WR. cbn [call_prog] in WR. rewrite run_bind in WR.
  destruct (run (op_read g fl k) s) as [v s'| |]; cbn [run] in WR; auto.
  destruct WR as (gh' & _ & [W1 W2] & W3). destruct W2 as [W2|W2]; congruence.
Qed.

(** ** The invariant of configurations *)
Definition thr_ok (x : world) (t : tid) (th : thread) : Prop :=
  match th with
  | TIdle _ => $stat x t = SIdle
  | TRun m _ => wp t m (fun r y => $stat y t = SDone r) x
  end.
Definition cinv (c : cst) (gh : ghost) : Prop :=
  inv (mk_w (c_mem c) gh) /\ forall t th, nth_error (c_thr c) t = Some th -> thr_ok (mk_w (c_mem c) gh) t th.

Lemma thr_rely x y t th : rely t x y -> thr_ok x t th -> thr_ok y t th.
Proof.
  intros R. destruct th as [td|m td]; cbn [thr_ok].
  - rewrite (r_stat _ _ _ _ _ R). auto.
  - apply wp_rely; auto. intros a z1 z2 E R2. rewrite (r_stat _ _ _ _ _ R2). auto.
Qed.

Lemma cinv_put c gh s' gh' t th th' : cinv c gh -> nth_error (c_thr c) t = Some th ->
  inv (mk_w s' gh') -> (forall u, u <> t -> rely u (mk_w (c_mem c) gh) (mk_w s' gh')) ->
  thr_ok (mk_w s' gh') t th' ->
  cinv (mk_cst s' (firstn t (c_thr c) ++ th' :: skipn (S t) (c_thr c))) gh'.
Proof.
  intros [Hi Ht] E Hi' Hr Ht'. split; auto. cbn [c_mem c_thr]. intros u thu. rewrite (ConcMain.nth_put _ _ _ _ _ E).
  destruct (Nat.eqb_spec u t) as [->|Hu]; [intros X; inversion X; subst; auto|].
  intros X. eapply thr_rely; [apply Hr; auto|]. apply Ht; auto.
Qed.

Lemma rely_stat u s gh f : f u = stat gh u -> rely u (mk_w s gh) (mk_w s (with_stat gh f)).
Proof. intros H. constructor; auto; try reflexivity. Qed.

Lemma cstep_ok c gh t b : cinv c gh -> stable (c_mem c) -> stable (c_mem (fst (cstep g fuel c t b))) ->
  exists gh', cinv (fst (cstep g fuel c t b)) gh' /\
    effect t (cont gh) (stat gh) (snd (cstep g fuel c t b)) (cont gh') (stat gh').
Proof.
  intros H St. pose proof H as [Hi Ht]. unfold cstep. destruct (nth_error (c_thr c) t) as [th|] eqn:E.
  2:{ intros St'. exists gh. split; auto. constructor. }
  pose proof (Ht _ _ E) as Hth. destruct th as [[|o td]|m td].
  - intros St'. exists gh. split; auto. constructor.
  - cbn [thr_ok] in Hth. intros St'. exists (with_stat gh (tset (stat gh) t (SPend o))). split.
    + cbn [fst]. eapply cinv_put; eauto.
      * apply inv_stat; auto.
      * intros u Hu. apply rely_stat. unfold tset. destruct (Nat.eqb_spec u t); congruence.
      * cbn [thr_ok]. apply call_wp; auto. cbn. unfold tset. rewrite Nat.eqb_refl. auto.
    + cbn [snd with_stat cont stat]. constructor. exact Hth.
  - cbn [thr_ok] in Hth.
    assert (Hstep : forall m' s', pstep m b (c_mem c) = Some (m', s') -> stable s' ->
      exists gh', cinv (mk_cst s' (firstn t (c_thr c) ++ TRun m' td :: skipn (S t) (c_thr c))) gh' /\
        effect t (cont gh) (stat gh) [] (cont gh') (stat gh')).
    { intros m' s' Ep St'. destruct (wp_pstep t m _ b (mk_w (c_mem c) gh) m' s' Hth Hi St Ep St') as (gh' & A1 & [A2 A3] & A4).
      exists gh'. split; [eapply cinv_put; eauto|].
      destruct A3 as [[L1 L2]|(o & L1 & L2 & L3)]; cbn in *.
      - rewrite L1, L2. constructor.
      - rewrite L2, L3. constructor. auto. }
    assert (Hmove : stable (c_mem (fst (match pstep m b (c_mem c) with
        | Some (m', s') => (mk_cst s' (firstn t (c_thr c) ++ TRun m' td :: skipn (S t) (c_thr c)), [])
        | None => (c, @nil event) end))) -> exists gh', cinv (fst (match pstep m b (c_mem c) with
        | Some (m', s') => (mk_cst s' (firstn t (c_thr c) ++ TRun m' td :: skipn (S t) (c_thr c)), [])
        | None => (c, @nil event) end)) gh' /\
        effect t (cont gh) (stat gh) [] (cont gh') (stat gh')).
    { destruct (pstep m b (c_mem c)) as [[m' s']|] eqn:Ep; cbn [fst c_mem]; intros St'; [apply (Hstep m' s'); auto|].
      exists gh. split; auto. constructor. }
    destruct m as [a| | | | | | | | | | | | |u|].
    2-15: intros St'; specialize (Hmove St'); clear - Hmove; destruct Hmove as (gh' & H1 & H2); exists gh'; split; [exact H1|];
      match goal with |- effect _ _ _ (snd ?X) _ _ => destruct X eqn:EX end; cbn [snd];
      match goal with |- effect _ _ _ ?l _ _ => enough (l = []) as -> by exact H2 end;
      revert EX; match goal with |- match ?p with _ => _ end = _ -> _ => destruct p as [[? ?]|] end; congruence.
    cbn [MrgInv.wp] in Hth. intros St'. exists (with_stat gh (tset (stat gh) t SIdle)). split.
    + cbn [fst]. eapply cinv_put; eauto.
      * apply inv_stat; auto.
      * intros u Hu. apply rely_stat. unfold tset. destruct (Nat.eqb_spec u t); congruence.
      * cbn. unfold tset. rewrite Nat.eqb_refl. auto.
    + cbn [snd with_stat cont stat]. constructor. exact Hth.
Qed.

Lemma stays_here c sch : root_stays g fuel R0 c sch -> stable (c_mem c).
Proof. intros H. apply (H [] sch eq_refl). Qed.
Lemma stays_next c t b sch : root_stays g fuel R0 c ((t, b) :: sch) -> root_stays g fuel R0 (fst (cstep g fuel c t b)) sch.
Proof.
  intros H pre post ->. pose proof (H ((t, b) :: pre) post eq_refl) as X. cbn [exec] in X.
  destruct (cstep g fuel c t b) as [c' h]. cbn [fst]. destruct (exec g fuel c' pre) as [c2 h2]. exact X.
Qed.

Lemma explained_ok sch : forall c gh, cinv c gh -> root_stays g fuel R0 c sch ->
  explained g fuel c (cont gh) (stat gh) sch /\ exists gh', cinv (fst (exec g fuel c sch)) gh'.
Proof.
  induction sch as [|[t b] sch IH]; intros c gh H Rs; pose proof (stays_here _ _ Rs) as St.
  - split; [constructor; apply reads_ok; [apply H|auto]|exists gh; auto].
  - apply stays_next in Rs. pose proof (stays_here _ _ Rs) as St'.
    destruct (cstep_ok c gh t b H St St') as (gh' & H' & Ef). cbn [exec].
    destruct (cstep g fuel c t b) as [c' h] eqn:E. cbn [fst snd] in *. destruct (IH c' gh' H' Rs) as [X Y].
    destruct (exec g fuel c' sch) as [c2 h2]. cbn [fst] in *. split; auto.
    econstructor; eauto. apply reads_ok; [apply H|auto].
Qed.

Lemma cinv_nocrash c gh : cinv c gh -> ~ crashed c.
Proof. intros [_ H] (u & r & Hin). apply In_nth_error in Hin as [t E]. apply (H _ _ E). Qed.
End Main.

(** ** Closed forms *)
Section Closed.
Variable g : cfg.
Hypothesis OK : cfg_ok g.

Lemma tree_stable s M : tree g s M -> root_in_place (s_root s) s.
Proof.
  intros (flat & N & lv & UP & GL & FM). split; auto.
  destruct (nth_error (N :: lv) (length lv)) as [N1|] eqn:E; [|apply nth_error_None in E; cbn in E; lia].
  pose proof (lev g s N lv flat UP _ _ E) as V. pose proof (v_top _ _ _ _ _ _ V eq_refl) as T.
  destruct N1 as [|[p c] [|? ?]]; try discriminate. inversion T. exists c.
  destruct (v_ok _ _ _ _ _ _ V p c (or_introl eq_refl)) as (A & B & _). rewrite <- H1. split; auto. split.
  - eapply cwf_nrem; eauto.
  - pose proof (v_lnk _ _ _ _ _ _ V) as X. destruct X as [X _]; cbn in X; congruence.
Qed.

Lemma tree_explained s M fuel todos sch : tree g s M -> addr_lt s ->
  root_stays g fuel (s_root s) (start s todos) sch ->
  explained g fuel (start s todos) M (fun _ => SIdle) sch /\ ~ crashed (fst (exec g fuel (start s todos) sch)).
Proof.
  intros (flat & N & lv & UP & GL & FM) AD Rs.
  pose proof (start_inv g OK s M N lv flat UP GL FM AD) as Hi.
  assert (C : cinv g (s_naddr s) (s_root s) (length lv) (start s todos) (sgh M N lv)).
  { split; [exact Hi|]. cbn [c_mem c_thr start]. intros t th E. apply nth_error_In in E.
    apply in_map_iff in E as (td & <- & _). reflexivity. }
  destruct (explained_ok g OK _ _ _ fuel sch _ _ C Rs) as [A [gh B]]. split; [exact A|]. eapply cinv_nocrash; eauto.
Qed.

Section Calls.
Variables (f0 : nat) (os : list call) (rs : list ret) (s0 : st).
Hypothesis R0 : run_calls g f0 os (init g) = Done rs s0.

Lemma calls_tree : tree g s0 (snd (spec_run sempty os)) /\ addr_lt s0 /\ rs = fst (spec_run sempty os).
Proof.
  destruct (calls_ok g OK os (init g) sempty (init_tree g OK)) as (F & s & T & H).
  assert (E : run_calls g (Nat.max f0 F) os (init g) = run_calls g f0 os (init g))
    by (apply run_calls_more; [lia|rewrite R0; discriminate]).
  rewrite H in E by lia. rewrite R0 in E. inversion E; subst. split; auto. split; auto. eapply calls_addr; exact R0.
Qed.
Lemma calls_root : root_in_place (s_root s0) s0.
Proof. eapply tree_stable. apply calls_tree. Qed.

Variables (fuel : nat) (todos : list (list call)) (sch : list (tid * bool)).
Hypothesis RS : root_stays g fuel (s_root s0) (start s0 todos) sch.
Let M0 := snd (spec_run sempty os).
Let e := exec g fuel (start s0 todos) sch.

Lemma mrg_explained : explained g fuel (start s0 todos) M0 (fun _ => SIdle) sch.
Proof. destruct calls_tree as (A & B & _). apply (tree_explained s0 _ fuel todos sch A B RS). Qed.
Lemma mrg_nocrash : ~ crashed (fst e).
Proof. destruct calls_tree as (A & B & _). apply (tree_explained s0 _ fuel todos sch A B RS). Qed.
Lemma mrg_linearizable : linearizable M0 (snd e).
Proof. apply ConcMain.explained_lin. apply mrg_explained. Qed.
Lemma mrg_wins k h1 h2 h3 : snd e = h1 ++ h2 ++ h3 ->
  (forall t, pending no_call h1 t <> Some (KDelete k)) -> (forall t, ~ In (EInv t (KDelete k)) h2) ->
  (wins k no_call h2 <= 1)%nat.
Proof. intros E. apply (WinFacts.wins_window k M0 h1 h2 h3). rewrite <- E. apply mrg_linearizable. Qed.
Lemma mrg_values : HistSpec.values_from M0 (snd e).
Proof. apply (HistFacts.explained_stays _ _ _ _ _ mrg_explained). Qed.
Lemma mrg_stays : HistSpec.stored_stays g e.
Proof. apply (HistFacts.explained_stays _ _ _ _ _ mrg_explained). Qed.
End Calls.
End Closed.

Lemma root_in_place_ok r s : root_in_place_b r s = true -> root_in_place r s.
Proof.
  unfold root_in_place_b, root_in_place. intros H. apply andb_true_iff in H as [H1 H2]. apply N.eqb_eq in H1. split; auto.
  destruct (s_tbl s r) as [c|]; [|discriminate]. apply andb_true_iff in H2 as [H2 H3]. exists c. split; auto.
  destruct (c_hi c); [discriminate|]. split; auto. apply negb_true_iff; auto.
Qed.
Lemma root_stays_ok g fuel r sch : forall c, root_stays_b g fuel r c sch = true -> root_stays g fuel r c sch.
Proof.
  induction sch as [|[t b] sch IH]; intros c H; cbn [root_stays_b] in H; apply andb_true_iff in H as [H1 H2];
    intros [|[t' b'] pre] post E; cbn [app] in E; try discriminate; try (apply root_in_place_ok; exact H1).
  inversion E; subst. specialize (IH _ H2 pre post eq_refl). cbn [exec].
  destruct (cstep g fuel c t' b') as [c' h]. cbn [fst] in *. destruct (exec g fuel c' pre). exact IH.
Qed.
