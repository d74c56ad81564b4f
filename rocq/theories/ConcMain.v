(** Executions of any number of threads, merging disabled. *)
From Coq Require Import ZArith NArith List Bool Lia.
From Coq Require Import ZifyBool ZifyNat ZifyN.
From Verif Require Import Config Api Page Machine Tree Spec Conc ListFacts SearchFacts ChainSpec ChainFacts
  ConsFacts Valid ConsolidateFacts RunFacts SeqAux SeqSmo SeqOps ConcChain ConcInv ConcSteps ConcSearch ConcSmo ConcOps ConcSpec.
Import ListNotations.
Open Scope Z_scope.

Section Main.
Variable g : cfg.
Hypothesis OK : cfg_ok g.
Hypothesis HO : hdr_ok g.
Hypothesis NM : no_merge g.
Variable fuel : nat.
Notation inv := (inv g). Notation rely := (rely g). Notation guar := (guar g). Notation wp := (wp g).

Lemma wp_pstep t {A} (m : prog A) Q spur x m' s' : wp t m Q x -> inv x -> pstep m spur (w_s x) = Some (m', s') ->
  exists gh, inv (mk_w s' gh) /\ guar t x (mk_w s' gh) /\ wp t m' Q (mk_w s' gh).
Proof.
  intros W Hi. pose proof (rely_refl g t x) as R.
  destruct m; cbn [pstep wp] in *; try discriminate; try contradiction.
  - destruct (W x R Hi) as (c & -> & H). intros E; inversion E; subst. exact H.
  - intros E; inversion E; subst. apply (W x R Hi).
  - destruct (W x R Hi) as [H1 H2]. unfold cas_ok. destruct (s_tbl (w_s x) p) as [c0|] eqn:T.
    + destruct ((h_addr c0 =? e)%N && negb (weak && spur)) eqn:Ee; intros E; inversion E; subst; auto.
      apply andb_true_iff in Ee as [Ee _]. apply N.eqb_eq in Ee. apply (H1 c0); auto.
    + intros E; inversion E; subst; auto.
  - intros E; inversion E; subst. apply (W x R Hi).
  - intros E; inversion E; subst. apply (W x R Hi).
  - intros E; inversion E; subst. apply (W x R Hi).
  - intros E; inversion E; subst. apply (W x R Hi).
  - intros E; inversion E; subst. apply (W x R Hi).
Qed.

(** A program running alone. *)
Lemma wp_run t {A} (J : world -> Prop) : (forall x y, J x -> lstep t x y -> J y) ->
  forall (m : prog A) Q x, wp t m Q x -> inv x -> J x ->
  match run m (w_s x) with
  | Done a s => exists gh, inv (mk_w s gh) /\ J (mk_w s gh) /\ Q a (mk_w s gh)
  | Crash _ => False
  | NoFuel => True
  end.
Proof.
  intros HJ. induction m as [a|p k IH|p c m IH|p m IH|w p e c k IH|k IH|p m IH|o n k IH|k IH|k IH|a k IH|a p m IH|l m IH|u|];
    intros Q x W Hi Jx; pose proof (rely_refl g t x) as R; cbn [run wp] in *; try contradiction; auto.
  - exists (w_g x). destruct x; auto.
  - destruct (W x R Hi) as (c & -> & gh & A1 & [_ A2] & A3). apply (IH c Q (mk_w (w_s x) gh)); eauto.
  - destruct (W x R Hi) as (gh & A1 & [_ A2] & A3). apply (IH Q (mk_w _ gh)); eauto.
  - destruct (W x R Hi) as [H1 H2]. unfold cas_ok. destruct (s_tbl (w_s x) p) as [c0|] eqn:T.
    + destruct (N.eqb_spec (h_addr c0) e) as [Ee|Ee]; cbn [andb].
      * rewrite andb_false_r. cbn [negb]. destruct (H1 c0 eq_refl Ee) as (gh & A1 & [_ A2] & A3).
        apply (IH true Q (mk_w _ gh)); eauto.
      * destruct H2 as (gh & A1 & [_ A2] & A3). apply (IH false Q (mk_w _ gh)); eauto.
    + destruct H2 as (gh & A1 & [_ A2] & A3). apply (IH false Q (mk_w _ gh)); eauto.
  - destruct (W x R Hi) as (gh & A1 & [_ A2] & A3). apply (IH _ Q (mk_w _ gh)); eauto.
  - destruct (W x R Hi) as (gh & A1 & [_ A2] & A3). apply (IH Q (mk_w _ gh)); eauto.
  - destruct (W x R Hi) as (gh & A1 & [_ A2] & A3). apply (IH _ Q (mk_w _ gh)); eauto.
  - destruct (W x R Hi) as (gh & A1 & [_ A2] & A3). apply (IH _ Q (mk_w _ gh)); eauto.
  - destruct (W x R Hi) as (gh & A1 & [_ A2] & A3). apply (IH Q (mk_w _ gh)); eauto.
Qed.

Definition with_stat (gh : ghost) (f : tid -> status) : ghost :=
  mk_gh (nd gh) (pown gh) (hist gh) (own gh) (ast gh) (tok gh) (cont gh) f.
Lemma inv_stat s gh f : inv (mk_w s gh) -> inv (mk_w s (with_stat gh f)).
Proof.
  intros [A1 A2 A3 A4 A5 A6 A7 A8 A9 A10 A11 A12]. constructor; auto.
  intros p lf lo E. destruct (A2 _ _ _ E) as [c Hc]. exists c. eapply nok_frame; eauto. apply Hc.
Qed.

Lemma reads_ok s gh : inv (mk_w s gh) -> reads_as g s (cont gh).
Proof.
  intros Hi fl k. set (x := mk_w s (with_stat gh (tset (stat gh) 0%nat (SPend (KRead k))))).
  set (J := fun y : world =>
    $cont y = cont gh /\ ($stat y 0%nat = SPend (KRead k) \/ $stat y 0%nat = SDone (RVal (cont gh k)))).
  assert (HJ : forall y z : world, J y -> lstep 0%nat y z -> J z).
  { intros y z [E1 E2] [[L1 L2]|(o & L1 & L2 & L3)].
    - unfold J. rewrite L1, L2. auto.
    - destruct E2 as [E2|E2]; [|congruence]. rewrite E2 in L1. inversion L1; subst o.
      unfold J. rewrite L2, L3. cbn [spec fst snd]. split; auto. right. unfold tset. cbn. rewrite E1. auto. }
  pose proof (wp_run 0%nat J HJ (call_prog g fl (KRead k)) (fun v y => $stat y 0%nat = SDone v) x
    (call_wp g OK HO NM 0%nat fl (KRead k) x eq_refl) (inv_stat _ _ _ Hi)
    (conj eq_refl (or_introl eq_refl))) as WR.
  change (w_s x) with s in WR. cbn [call_prog] in WR. rewrite run_bind in WR.
  destruct (run (op_read g fl k) s) as [v s'| |]; cbn [run] in WR; auto.
  destruct WR as (gh' & _ & [W1 W2] & W3). destruct W2 as [W2|W2]; congruence.
Qed.

(** ** The invariant of configurations *)
Definition thr_ok (x : world) (t : tid) (th : thread) : Prop :=
  match th with
  | TIdle _ => $stat x t = SIdle
  | TRun m _ => wp t m (fun r y => $stat y t = SDone r) x
  end.
Definition cinv (c : cst) (gh : ghost) : Prop :=
  inv (mk_w (c_mem c) gh) /\ forall t th, nth_error (c_thr c) t = Some th -> thr_ok (mk_w (c_mem c) gh) t th.

Lemma thr_rely x y t th : rely t x y -> thr_ok x t th -> thr_ok y t th.
Proof.
  intros R. destruct th as [td|m td]; cbn [thr_ok].
  - rewrite (r_stat _ _ _ _ R). auto.
  - apply wp_rely; auto. intros a z1 z2 E R2. rewrite (r_stat _ _ _ _ R2). auto.
Qed.

Lemma nth_put {A} (l : list A) t (x y : A) u : nth_error l t = Some x ->
  nth_error (firstn t l ++ y :: skipn (S t) l) u = if Nat.eqb u t then Some y else nth_error l u.
Proof.
  revert t u. induction l as [|a l IH]; intros [|t] [|u] H; cbn in H |- *; try discriminate; auto.
  rewrite <- IH by auto. auto.
Qed.

Lemma cinv_put c gh s' gh' t th th' : cinv c gh -> nth_error (c_thr c) t = Some th ->
  inv (mk_w s' gh') -> (forall u, u <> t -> rely u (mk_w (c_mem c) gh) (mk_w s' gh')) ->
  thr_ok (mk_w s' gh') t th' ->
  cinv (mk_cst s' (firstn t (c_thr c) ++ th' :: skipn (S t) (c_thr c))) gh'.
Proof.
  intros [Hi Ht] E Hi' Hr Ht'. split; auto. cbn [c_mem c_thr]. intros u thu. rewrite (nth_put _ _ _ _ _ E).
  destruct (Nat.eqb_spec u t) as [->|Hu]; [intros X; inversion X; subst; auto|].
  intros X. eapply thr_rely; [apply Hr; auto|]. apply Ht; auto.
Qed.

Lemma rely_stat u s gh f : f u = stat gh u -> rely u (mk_w s gh) (mk_w s (with_stat gh f)).
Proof. intros H. constructor; auto; try reflexivity. Qed.

Lemma cstep_ok c gh t b : cinv c gh ->
  exists gh', cinv (fst (cstep g fuel c t b)) gh' /\
    effect t (cont gh) (stat gh) (snd (cstep g fuel c t b)) (cont gh') (stat gh').
Proof.
  intros H. pose proof H as [Hi Ht]. unfold cstep. destruct (nth_error (c_thr c) t) as [th|] eqn:E.
  2:{ exists gh. split; auto. constructor. }
  pose proof (Ht _ _ E) as Hth. destruct th as [[|o td]|m td].
  - exists gh. split; auto. constructor.
  - cbn [thr_ok] in Hth. exists (with_stat gh (tset (stat gh) t (SPend o))). split.
    + cbn [fst]. eapply cinv_put; eauto.
      * apply inv_stat; auto.
      * intros u Hu. apply rely_stat. unfold tset. destruct (Nat.eqb_spec u t); congruence.
      * cbn [thr_ok]. apply call_wp; auto. cbn. unfold tset. rewrite Nat.eqb_refl. auto.
    + cbn [snd with_stat cont stat]. constructor. exact Hth.
  - cbn [thr_ok] in Hth.
    assert (Hstep : forall m' s', pstep m b (c_mem c) = Some (m', s') ->
      exists gh', cinv (mk_cst s' (firstn t (c_thr c) ++ TRun m' td :: skipn (S t) (c_thr c))) gh' /\
        effect t (cont gh) (stat gh) [] (cont gh') (stat gh')).
    { intros m' s' Ep. destruct (wp_pstep t m _ b (mk_w (c_mem c) gh) m' s' Hth Hi Ep) as (gh' & A1 & [A2 A3] & A4).
      exists gh'. split; [eapply cinv_put; eauto|].
      destruct A3 as [[L1 L2]|(o & L1 & L2 & L3)]; cbn in *.
      - rewrite L1, L2. constructor.
      - rewrite L2, L3. constructor. auto. }
    assert (Hmove : exists gh', cinv (fst (match pstep m b (c_mem c) with
        | Some (m', s') => (mk_cst s' (firstn t (c_thr c) ++ TRun m' td :: skipn (S t) (c_thr c)), [])
        | None => (c, @nil event) end)) gh' /\
        effect t (cont gh) (stat gh) [] (cont gh') (stat gh')).
    { destruct (pstep m b (c_mem c)) as [[m' s']|] eqn:Ep; [apply (Hstep m' s'); auto|].
      exists gh. split; auto. constructor. }
    destruct m as [a| | | | | | | | | | | | |u|].
    2-15: clear - Hmove; destruct Hmove as (gh' & H1 & H2); exists gh'; split; [exact H1|];
      match goal with |- effect _ _ _ (snd ?X) _ _ => destruct X eqn:EX end; cbn [snd];
      match goal with |- effect _ _ _ ?l _ _ => enough (l = []) as -> by exact H2 end;
      revert EX; match goal with |- match ?p with _ => _ end = _ -> _ => destruct p as [[? ?]|] end; congruence.
    cbn [wp] in Hth. exists (with_stat gh (tset (stat gh) t SIdle)). split.
    + cbn [fst]. eapply cinv_put; eauto.
      * apply inv_stat; auto.
      * intros u Hu. apply rely_stat. unfold tset. destruct (Nat.eqb_spec u t); congruence.
      * cbn. unfold tset. rewrite Nat.eqb_refl. auto.
    + cbn [snd with_stat cont stat]. constructor. exact Hth.
Qed.

Lemma explained_ok sch : forall c gh, cinv c gh ->
  explained g fuel c (cont gh) (stat gh) sch /\ exists gh', cinv (fst (exec g fuel c sch)) gh'.
Proof.
  induction sch as [|[t b] sch IH]; intros c gh H.
  - split; [constructor; apply reads_ok, H|exists gh; auto].
  - destruct (cstep_ok c gh t b H) as (gh' & H' & Ef). cbn [exec].
    destruct (cstep g fuel c t b) as [c' h] eqn:E. cbn [fst snd] in *. destruct (IH c' gh' H') as [X Y].
    destruct (exec g fuel c' sch) as [c2 h2]. cbn [fst] in *. split; auto.
    econstructor; eauto. apply reads_ok, H.
Qed.

Lemma explained_lin sch : forall c M f, explained g fuel c M f sch -> lin M f (snd (exec g fuel c sch)).
Proof.
  induction sch as [|[t b] sch IH]; intros c M f H; inversion H; subst; cbn [exec].
  - constructor.
  - match goal with E : cstep _ _ _ _ _ = _ |- _ => rewrite E end.
    match goal with X : explained _ _ _ _ _ sch |- _ => apply IH in X; rename X into HX end.
    destruct (exec g fuel c' sch) as [c2 h2]. cbn [snd] in *.
    match goal with X : effect _ _ _ _ _ _ |- _ => inversion X; subst; cbn [app] end.
    + apply lin_inv; auto.
    + apply lin_res with (r := r); auto.
    + auto.
    + apply lin_eff with (t := t) (o := o); auto.
Qed.

(** ** The initial state *)
Definition gh0 : ghost :=
  mk_gh (fun p => if (p =? 1)%N then Some (true, None) else None) (fun _ => 0%nat)
    (fun a => if (a =? 1)%N then Some (1%N, CBase (empty_leaf g 1%N)) else None) (fun _ => 0%nat)
    (fun a => if (a =? 1)%N then ALive 1%N else AFree) (fun _ => TkNone) sempty (fun _ => SIdle).

Lemma init_inv : inv (mk_w (init g) gh0).
Proof.
  assert (T1 : forall p c, s_tbl (init g) p = Some c -> p = 1%N /\ c = CBase (empty_leaf g 1%N)).
  { intros p c. cbn. unfold upd. destruct (N.eqb_spec p 1); [|discriminate]. intros X; inversion X; auto. }
  pose proof (page_pos g OK) as PP. pose proof (nullsz_bound g OK) as NB. pose proof (ok_hdr g OK). pose proof (ok_page g OK).
  pose proof (maxrec_excess g). pose proof (kovh_nn g OK).
  constructor; cbn [w_s w_g].
  - intros p v. cbn. destruct (N.eqb_spec p 1); [lia|discriminate].
  - intros p lf lo. cbn. destruct (N.eqb_spec p 1); [|discriminate]. intros X; inversion X; subst.
    exists (CBase (empty_leaf g 1%N)). constructor; cbn; auto; try discriminate; try lia.
    + unfold lnode. cbn. repeat split; auto; [constructor|]. unfold lbytes, okl. cbn. destruct (c_varlen g); lia.
    + constructor; [easy|constructor].
    + intros a [<-|[]]. auto.
  - intros p c Hn T. apply T1 in T as [-> _]. discriminate.
  - intros p q l1 l2 c1 c2 k _ _ T2 T3 _ _. apply T1 in T2 as [-> _]. apply T1 in T3 as [-> _]. auto.
  - intros p lo c k _ T _. apply T1 in T as [_ ->]. reflexivity.
  - intros k X. cbn in X. congruence.
  - exists true. reflexivity.
  - intros a. cbn. destruct (N.eqb_spec a 1); [lia|congruence].
  - intros a. cbn. destruct (N.eqb_spec a 1); [discriminate|auto].
  - cbn. constructor.
  - intros a [].
  - cbn. lia.
Qed.

Lemma start_cinv todos : cinv (start (init g) todos) gh0.
Proof.
  split; [apply init_inv|]. cbn [c_mem c_thr start]. intros t th E. apply nth_error_In in E.
  apply in_map_iff in E as (td & <- & _). reflexivity.
Qed.

(** ** Consequences of the invariant *)
Lemma cinv_nocrash c gh : cinv c gh -> ~ crashed c.
Proof.
  intros [_ H] (u & r & Hin). apply In_nth_error in Hin as [t E]. apply (H _ _ E).
Qed.

Lemma cinv_pages c gh p ch : cinv c gh -> s_tbl (c_mem c) p = Some ch ->
  is_base ch = true -> h_size ch <= c_page g.
Proof.
  intros [Hi _] T B. destruct (nd gh p) as [[lf lo]|] eqn:E.
  - apply (n_bse _ _ _ _ _ _ (nok_at g (mk_w (c_mem c) gh) _ _ _ _ Hi E T)); auto.
  - apply (i_prv _ _ Hi p ch E T).
Qed.

Lemma cinv_gc c gh : cinv c gh -> NoDup (s_gc (c_mem c)) /\
  forall p ch a, s_tbl (c_mem c) p = Some ch -> In a (chain_addrs ch) -> ~ In a (s_gc (c_mem c)).
Proof.
  intros [Hi _]. split; [apply (i_gcd _ _ Hi)|]. intros p ch a T Ha Hg.
  pose proof (i_gc _ _ Hi a Hg) as Q. destruct (nd gh p) as [[lf lo]|] eqn:E.
  - pose proof (n_ast _ _ _ _ _ _ (nok_at g (mk_w (c_mem c) gh) _ _ _ _ Hi E T) a Ha). congruence.
  - destruct (i_prv _ _ Hi p ch E T) as ([B _] & _ & B2). destruct ch; try discriminate.
    cbn [chain_addrs] in Ha. destruct Ha as [<-|[]]. cbn [h_addr] in B2. congruence.
Qed.
End Main.

(** ** Closed forms *)
Section Closed.
Variables (g : cfg) (fuel : nat) (todos : list (list call)) (sch : list (tid * bool)).
Hypothesis OK : cfg_ok g.
Hypothesis HO : hdr_ok g.
Hypothesis NM : no_merge g.
Let e := exec g fuel (start (init g) todos) sch.

Lemma conc_explained : explained g fuel (start (init g) todos) sempty (fun _ => SIdle) sch.
Proof. apply (explained_ok g OK HO NM fuel sch _ (gh0 g)). apply start_cinv; auto. Qed.
Lemma conc_linearizable : linearizable sempty (snd e).
Proof. apply explained_lin. apply conc_explained. Qed.
Lemma conc_inv : exists gh, cinv g (fst e) gh.
Proof. apply (explained_ok g OK HO NM fuel sch _ (gh0 g)). apply start_cinv; auto. Qed.
Lemma conc_nocrash : ~ crashed (fst e).
Proof. destruct conc_inv as [gh H]. eapply cinv_nocrash; eauto. Qed.
Lemma conc_pages : (forall r, ~ In (TRun (UB UbOverflow) r) (c_thr (fst e))) /\
  forall p n, s_tbl (c_mem (fst e)) p = Some (CBase n) -> n_size n <= c_page g.
Proof.
  split; [intros r H; apply conc_nocrash; exists UbOverflow, r; auto|].
  intros p n H. destruct conc_inv as [gh Hi]. apply (cinv_pages g _ gh p (CBase n) Hi H eq_refl).
Qed.
Lemma conc_gc : NoDup (s_gc (c_mem (fst e))) /\
  forall p c a, s_tbl (c_mem (fst e)) p = Some c -> In a (chain_addrs c) -> ~ In a (s_gc (c_mem (fst e))).
Proof. destruct conc_inv as [gh Hi]. apply (cinv_gc g _ gh Hi). Qed.
End Closed.
