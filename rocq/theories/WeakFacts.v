(** Every sequentially consistent execution (Conc.v) is an execution of Weak.v. *)
From Coq Require Import ZArith NArith List Bool Lia.
From Coq Require Import ZifyBool ZifyNat ZifyN.
From Verif Require Import Config Api Page Machine Tree Spec Conc Weak.
Import ListNotations.
Open Scope N_scope.

Lemma loc_eqb_eq x y : loc_eqb x y = true <-> x = y.
Proof.
  destruct x, y; cbn [loc_eqb]; try (split; [discriminate|congruence]);
    try (rewrite N.eqb_eq; split; [intros ->|intros [= ->]]; auto). tauto.
Qed.
Lemma loc_eqb_refl x : loc_eqb x x = true.
Proof. apply loc_eqb_eq; auto. Qed.

(** The newest time stamp of a word. *)
Definition top (M : wmem) (l : loc) : N :=
  fold_right (fun m n => if loc_eqb (m_loc m) l then N.max (m_to m) n else n) 0 (w_msgs M).

(** The choice that reads the newest message and writes behind it. *)
Definition new_choice (M : wmem) (l : loc) (sp : bool) : choice :=
  mk_choice (top M l) (top M l) (top M l + 1) sp.
Definition prog_loc {A} (m : prog A) : loc :=
  match m with
  | Load p _ | Store p _ _ | Clear p _ | Cas _ p _ _ _ => LSlot p
  | LoadCell a _ | StoreCell a _ _ => LCell a
  | _ => LRoot
  end.
Definition sc_choice (c : wcst) (t : tid) (sp : bool) : choice :=
  match nth_error (wc_thr c) t with
  | Some (TRun m _, _) => new_choice (wc_mem c) (prog_loc m) sp
  | _ => new_choice (wc_mem c) LRoot sp
  end.
(** The choices along an execution. *)
Fixpoint sc_choices (g : cfg) (fuel : nat) (c : wcst) (sch : list (tid * bool)) : list (tid * choice) :=
  match sch with
  | [] => []
  | (t, sp) :: r => let h := sc_choice c t sp in (t, h) :: sc_choices g fuel (fst (wcstep false g fuel c t h)) r
  end.

(** What a word holds in sequentially consistent memory. *)
Definition sval (s : st) (l : loc) : wval :=
  match l with
  | LSlot p => WPage (s_tbl s p)
  | LRoot => WPid (s_root s)
  | LCell a => WPid (s_cell s a)
  end.
Definition vle (v : view) (M : wmem) : Prop := forall l, v l <= top M l.

Record rel (s : st) (M : wmem) : Prop := {
  r_val  : forall l, exists m, find_msg M l (top M l) = Some m /\ m_val m = sval s l;
  r_view : forall m, In m (w_msgs M) -> vle (m_view m) M;
  r_pid  : w_npid M = s_npid s;
  r_addr : w_naddr M = s_naddr s;
  r_gc   : w_gc M = s_gc s
}.

Lemma find_msg_in M l t m : find_msg M l t = Some m ->
  (In m (w_msgs M) \/ m = init_msg l) /\ m_loc m = l /\ m_to m = t.
Proof.
  unfold find_msg. destruct (find _ _) as [x|] eqn:E.
  - intros [= <-]. apply find_some in E. destruct E as [E1 E2]. apply andb_prop in E2. destruct E2 as [E2 E3].
    apply loc_eqb_eq in E2. apply N.eqb_eq in E3. auto.
  - destruct (N.eqb_spec t 0); [|discriminate]. intros [= <-]. cbn. auto.
Qed.

Lemma top_ge M l m : In m (w_msgs M) -> m_loc m = l -> m_to m <= top M l.
Proof.
  unfold top. induction (w_msgs M) as [|x r IH]; [contradiction|]. cbn [fold_right]. intros [->|H] E.
  - rewrite <- E, loc_eqb_refl. lia.
  - specialize (IH H E). destruct (loc_eqb (m_loc x) l); lia.
Qed.

Lemma top_add M m l : top (add_msg M m) l = if loc_eqb (m_loc m) l then N.max (m_to m) (top M l) else top M l.
Proof. reflexivity. Qed.

Lemma find_add M m l t : find_msg (add_msg M m) l t =
  if loc_eqb (m_loc m) l && (m_to m =? t) then Some m else find_msg M l t.
Proof. unfold find_msg, add_msg. cbn [w_msgs find]. destruct (loc_eqb (m_loc m) l && (m_to m =? t)); auto. Qed.

Lemma free_top M l : free_at M l (top M l) (top M l + 1) = true.
Proof.
  unfold free_at. apply andb_true_intro. split; [apply N.ltb_lt; lia|]. apply forallb_forall. intros m Hm.
  destruct (loc_eqb (m_loc m) l) eqn:E; cbn [negb orb]; auto. apply loc_eqb_eq in E.
  pose proof (top_ge M l m Hm E). replace (m_to m <=? top M l) with true by (symmetry; apply N.leb_le; auto). auto.
Qed.

Lemma vle_set v M l t : vle v M -> t <= top M l -> vle (vset v l t) M.
Proof. intros H Ht x. unfold vset. destruct (loc_eqb x l) eqn:E; [apply loc_eqb_eq in E; subst; auto|apply H]. Qed.
Lemma vle_join v w M : vle v M -> vle w M -> vle (vjoin v w) M.
Proof. intros H1 H2 x. unfold vjoin. specialize (H1 x); specialize (H2 x). lia. Qed.
Lemma vle_add v M m : vle v M -> vle v (add_msg M m).
Proof. intros H x. rewrite top_add. specialize (H x). destruct (loc_eqb (m_loc m) x); lia. Qed.
Lemma vle_bot M : vle vbot M.
Proof. intros x. unfold vbot. lia. Qed.

Lemma rel_view s M m l t : rel s M -> find_msg M l t = Some m -> vle (m_view m) M.
Proof.
  intros R H. destruct (find_msg_in _ _ _ _ H) as [[Hm| ->] _]; [eapply r_view; eauto|apply vle_bot].
Qed.

Lemma read_top s M v l acq : rel s M -> vle v M ->
  exists v', do_read M acq v l (top M l) = Some (sval s l, v') /\ vle v' M.
Proof.
  intros R V. unfold do_read. pose proof (V l). replace (v l <=? top M l) with true by (symmetry; apply N.leb_le; auto).
  destruct (r_val _ _ R l) as (m & E & Em). rewrite E, Em. destruct (find_msg_in _ _ _ _ E) as (_ & L & T).
  eexists. split; [reflexivity|]. unfold rd_view. rewrite L, T. pose proof (rel_view _ _ _ _ _ R E).
  assert (vle (vset v l (N.max (v l) (top M l))) M) by (apply vle_set; auto; lia).
  destruct acq; auto. apply vle_join; auto.
Qed.

(** Writing the newest message. *)
Lemma rel_write s M l x w s' : rel s M -> sval s' l = x -> (forall l', l' <> l -> sval s' l' = sval s l') ->
  s_npid s' = s_npid s -> s_naddr s' = s_naddr s -> s_gc s' = s_gc s ->
  vle w (add_msg M (mk_msg l (top M l) (top M l + 1) x w)) ->
  rel s' (add_msg M (mk_msg l (top M l) (top M l + 1) x w)).
Proof.
  intros R Ex Eo E1 E2 E3 W. set (m := mk_msg _ _ _ _ _) in *. constructor.
  - intros l'. rewrite top_add, find_add. cbn [m m_loc m_to].
    destruct (loc_eqb l l') eqn:E; cbn [andb].
    + apply loc_eqb_eq in E. subst l'. replace (N.max (top M l + 1) (top M l)) with (top M l + 1) by lia.
      rewrite N.eqb_refl. exists m. split; auto.
    + destruct (r_val _ _ R l') as (m' & F & Em). exists m'. split; auto. rewrite Em. symmetry. apply Eo.
      intros ->. rewrite loc_eqb_refl in E. discriminate.
  - cbn [add_msg w_msgs]. intros m' [<-|H]; [exact W|apply vle_add; eapply r_view; eauto].
  - cbn. rewrite E1. apply R.
  - cbn. rewrite E2. apply R.
  - cbn. rewrite E3. apply R.
Qed.

Lemma write_top s M v l x (b : bool) s' : rel s M -> vle v M -> sval s' l = x ->
  (forall l', l' <> l -> sval s' l' = sval s l') ->
  s_npid s' = s_npid s -> s_naddr s' = s_naddr s -> s_gc s' = s_gc s ->
  exists M' v', do_write M b v l (top M l) (top M l + 1) x = Some (M', v') /\ rel s' M' /\ vle v' M' /\
    forall w, vle w M -> vle w M'.
Proof.
  intros R V E1 E2 E3 E4 E5. unfold do_write. rewrite free_top. pose proof (V l).
  replace (v l <? top M l + 1) with true by (symmetry; apply N.ltb_lt; lia). cbn [andb].
  eexists _, _. split; [reflexivity|].
  assert (T : forall w u, vle w M -> vle (vset w l (top M l + 1)) (add_msg M (mk_msg l (top M l) (top M l + 1) x u))).
  { intros w u Hw. apply vle_set; [apply vle_add; auto|]. rewrite top_add. cbn [m_loc m_to]. rewrite loc_eqb_refl. lia. }
  split; [|split].
  - apply rel_write with s; auto. destruct b; apply T; auto. apply vle_bot.
  - apply T; auto.
  - intros; apply vle_add; auto.
Qed.

Lemma rmw_top s M v l x (b1 b2 : bool) s' : rel s M -> vle v M -> sval s' l = x ->
  (forall l', l' <> l -> sval s' l' = sval s l') ->
  s_npid s' = s_npid s -> s_naddr s' = s_naddr s -> s_gc s' = s_gc s ->
  exists M' v', do_rmw M b1 b2 v l (top M l) (top M l + 1) x = Some (sval s l, M', v') /\ rel s' M' /\ vle v' M' /\
    forall w, vle w M -> vle w M'.
Proof.
  intros R V E1 E2 E3 E4 E5. unfold do_rmw. rewrite free_top. pose proof (V l).
  replace (v l <=? top M l) with true by (symmetry; apply N.leb_le; lia). cbn [andb].
  destruct (r_val _ _ R l) as (m & F & Em). rewrite F, Em. pose proof (rel_view _ _ _ _ _ R F) as Hm.
  eexists _, _. split; [reflexivity|].
  assert (T : forall w u, vle w M -> vle (vset w l (top M l + 1)) (add_msg M (mk_msg l (top M l) (top M l + 1) x u))).
  { intros w u Hw. apply vle_set; [apply vle_add; auto|]. rewrite top_add. cbn [m_loc m_to]. rewrite loc_eqb_refl. lia. }
  assert (V1 : vle (if b1 then vjoin v (m_view m) else v) M) by (destruct b1; auto; apply vle_join; auto).
  split; [|split].
  - apply rel_write with s; auto. apply vle_join; [apply vle_add; auto|]. destruct b2; apply T; auto. apply vle_bot.
  - apply T; auto.
  - intros; apply vle_add; auto.
Qed.

Lemma upd_tbl s p c : sval (set_tbl s p c) (LSlot p) = WPage c /\
  forall l, l <> LSlot p -> sval (set_tbl s p c) l = sval s l.
Proof.
  split; [cbn; unfold upd; rewrite N.eqb_refl; auto|]. intros [q| |a] H; cbn; auto. unfold upd.
  destruct (N.eqb_spec q p); [subst; congruence|auto].
Qed.
Lemma upd_root s p : sval (set_root s p) LRoot = WPid p /\
  forall l, l <> LRoot -> sval (set_root s p) l = sval s l.
Proof. split; auto. intros [q| |a] H; cbn; auto. congruence. Qed.
Lemma upd_cell s a p : sval (set_cell s a p) (LCell a) = WPid p /\
  forall l, l <> LCell a -> sval (set_cell s a p) l = sval s l.
Proof.
  split; [cbn; unfold upd; rewrite N.eqb_refl; auto|]. intros [q| |b] H; cbn; auto. unfold upd.
  destruct (N.eqb_spec b a); [subst; congruence|auto].
Qed.

Lemma sim_step {A} (m : prog A) sp s M v : rel s M -> vle v M ->
  match pstep m sp s with
  | None => wstep false m (new_choice M (prog_loc m) sp) M v = None
  | Some (m', s') => exists M' v', wstep false m (new_choice M (prog_loc m) sp) M v = Some (m', M', v') /\
      rel s' M' /\ vle v' M' /\ forall w, vle w M -> vle w M'
  end.
Proof.
  intros R V. destruct m; cbn [pstep wstep prog_loc new_choice h_rd h_from h_to h_spur]; auto.
  - destruct (read_top s M v (LSlot p) true R V) as (v' & E & V'). rewrite E. cbn [sval].
    destruct (s_tbl s p); eauto 8.
  - destruct (upd_tbl s p (Some c)) as [U1 U2].
    destruct (write_top s M v _ _ true (set_tbl s p (Some c)) R V U1 U2) as (M' & v' & E & H); auto. rewrite E. eauto.
  - destruct (upd_tbl s p None) as [U1 U2].
    destruct (write_top s M v _ _ false (set_tbl s p None) R V U1 U2) as (M' & v' & E & H); auto. rewrite E. eauto.
  - destruct (upd_tbl s p (Some c)) as [U1 U2].
    destruct (rmw_top s M v _ _ false true (set_tbl s p (Some c)) R V U1 U2) as (M' & v' & E & H); auto. rewrite E.
    destruct (read_top s M v (LSlot p) false R V) as (v1 & E1 & V1). rewrite E1.
    unfold cas_ok. cbn [sval]. destruct (s_tbl s p) as [c0|]; cbn [holds andb].
    + destruct ((h_addr c0 =? e) && negb (weak && sp)); eauto 8.
    + eauto 8.
  - destruct (read_top s M v LRoot false R V) as (v' & E & V'). rewrite E. cbn [sval]. eauto 8.
  - destruct (upd_root s p) as [U1 U2].
    destruct (write_top s M v _ _ false (set_root s p) R V U1 U2) as (M' & v' & E & H); auto. rewrite E. eauto.
  - destruct (upd_root s new) as [U1 U2].
    destruct (rmw_top s M v _ _ false false (set_root s new) R V U1 U2) as (M' & v' & E & H); auto. rewrite E.
    destruct (read_top s M v LRoot false R V) as (v1 & E1 & V1). rewrite E1. cbn [sval].
    destruct (s_root s =? old); eauto 8.
  - eexists _, _. split; [rewrite (r_pid _ _ R); reflexivity|]. split; [|split; auto].
    destruct R. constructor; auto; cbn; congruence.
  - eexists _, _. split; [rewrite (r_addr _ _ R); reflexivity|]. split; [|split; auto].
    destruct R. constructor; auto; cbn; congruence.
  - destruct (read_top s M v (LCell a) false R V) as (v' & E & V'). rewrite E. cbn [sval]. eauto 8.
  - destruct (upd_cell s a p) as [U1 U2].
    destruct (write_top s M v _ _ false (set_cell s a p) R V U1 U2) as (M' & v' & E & H); auto. rewrite E. eauto.
  - eexists _, _. split; [rewrite (r_gc _ _ R); reflexivity|]. split; [|split; auto].
    destruct R. constructor; auto.
Qed.

Record crel (c : cst) (w : wcst) : Prop := {
  cr_mem : rel (c_mem c) (wc_mem w);
  cr_thr : map fst (wc_thr w) = c_thr c;
  cr_vle : forall th v, In (th, v) (wc_thr w) -> vle v (wc_mem w)
}.

Lemma crel_put c w t th0 v0 s' M' th' v' : crel c w -> nth_error (wc_thr w) t = Some (th0, v0) ->
  rel s' M' -> vle v' M' -> (forall u, vle u (wc_mem w) -> vle u M') ->
  crel (mk_cst s' (firstn t (c_thr c) ++ th' :: skipn (S t) (c_thr c)))
       (mk_wcst M' (firstn t (wc_thr w) ++ (th', v') :: skipn (S t) (wc_thr w))).
Proof.
  intros [C1 C2 C3] N R V U. constructor; auto; cbn [c_mem c_thr wc_mem wc_thr].
  - rewrite map_app, <- firstn_map. cbn [map fst]. rewrite <- C2. rewrite skipn_map. reflexivity.
  - intros th v H. apply in_app_iff in H. destruct H as [H|[H|H]].
    + apply U, (C3 th). rewrite <- (firstn_skipn t). apply in_or_app; auto.
    + injection H as <- <-. auto.
    + apply U, (C3 th). rewrite <- (firstn_skipn (S t)). apply in_or_app; auto.
Qed.

Lemma sim_cstep g fuel c w t sp : crel c w ->
  crel (fst (cstep g fuel c t sp)) (fst (wcstep false g fuel w t (sc_choice w t sp))) /\
  snd (cstep g fuel c t sp) = snd (wcstep false g fuel w t (sc_choice w t sp)).
Proof.
  intros C. pose proof C as [C1 C2 C3]. unfold cstep, wcstep, sc_choice. rewrite <- C2, nth_error_map.
  destruct (nth_error (wc_thr w) t) as [[th v]|] eqn:N; cbn [option_map fst]; [|auto].
  assert (V : vle v (wc_mem w)) by (apply (C3 th); eapply nth_error_In; eauto).
  rewrite !C2. destruct th as [[|o r]|m r].
  - auto.
  - cbn [fst snd]. split; auto. eapply crel_put; eauto.
  - pose proof (sim_step m sp _ _ v C1 V) as S.
    destruct m; try (cbn [fst snd]; split; auto; eapply crel_put; eauto; fail);
      match goal with |- context [pstep ?m _ _] =>
        destruct (pstep m sp (c_mem c)) as [[m' s']|];
        [destruct S as (M' & v' & -> & R' & V' & U); cbn [fst snd]; split; auto; eapply crel_put; eauto
        |rewrite S; cbn [fst snd]; auto] end.
Qed.

Lemma sim_exec g fuel : forall sch c w, crel c w ->
  crel (fst (exec g fuel c sch)) (fst (wexec false g fuel w (sc_choices g fuel w sch))) /\
  snd (exec g fuel c sch) = snd (wexec false g fuel w (sc_choices g fuel w sch)).
Proof.
  induction sch as [|[t sp] r IH]; intros c w C; cbn [exec wexec sc_choices]; [auto|].
  pose proof (sim_cstep g fuel c w t sp C) as [S1 S2].
  destruct (cstep g fuel c t sp) as [c1 h1]. destruct (wcstep false g fuel w t (sc_choice w t sp)) as [w1 h1'].
  cbn [fst snd] in *. specialize (IH c1 w1 S1). destruct IH as [I1 I2].
  destruct (exec g fuel c1 r) as [c2 h2]. destruct (wexec false g fuel w1 (sc_choices g fuel w1 r)) as [w2 h2'].
  cbn [fst snd] in *. split; auto. congruence.
Qed.

Lemma start_crel g todos : crel (start (init g) todos) (wstart g todos).
Proof.
  assert (R : rel (init g) (winit g)).
  { constructor; auto.
    - intros [p| |a].
      + cbn [top winit w_msgs fold_right m_loc loc_eqb m_to]. unfold find_msg. cbn [winit w_msgs find m_loc m_to loc_eqb andb].
        destruct (N.eqb_spec 1 p) as [<-|Hp].
        * eexists. split; [reflexivity|reflexivity].
        * eexists. split; [reflexivity|]. cbn. unfold upd. destruct (N.eqb_spec p 1); [congruence|auto].
      + eexists. split; [reflexivity|reflexivity].
      + eexists. split; [reflexivity|reflexivity].
    - intros m [<-|[<-|[]]]; apply vle_bot. }
  constructor; auto.
  - cbn. rewrite map_map. cbn. rewrite <- map_map with (g := fun x => x). rewrite map_id. auto.
  - cbn [wstart wc_thr wc_mem]. intros th v H. apply in_map_iff in H. destruct H as (l & [= <- <-] & _).
    unfold view0. apply vle_set; [apply vle_set; [apply vle_bot|]|]; cbn; lia.
Qed.

Lemma sc_included g fuel todos sch : exists wsch,
  snd (exec g fuel (start (init g) todos) sch) = snd (wexec false g fuel (wstart g todos) wsch) /\
  c_thr (fst (exec g fuel (start (init g) todos) sch)) = map fst (wc_thr (fst (wexec false g fuel (wstart g todos) wsch))).
Proof.
  destruct (sim_exec g fuel sch _ _ (start_crel g todos)) as [H1 H2]. eexists. split; [exact H2|].
  symmetry. apply H1.
Qed.

(** Reading a crash off a final state. *)
Definition null_crash (c : wcst) (t : tid) : bool :=
  match nth_error (wc_thr c) t with Some (TRun (UB UbNull) _, _) => true | _ => false end.
Lemma null_crash_spec c t : null_crash c t = true -> exists r v, nth_error (wc_thr c) t = Some (TRun (UB UbNull) r, v).
Proof.
  unfold null_crash. destruct (nth_error _ _) as [[[|[]] v]|]; try discriminate. destruct u; try discriminate. eauto.
Qed.
(** Thread [t] is about to load slot [p] and can read the message at [ts] but not that at 0. *)
Definition at_load (c : wcst) (t : tid) (p : pid) (ts : N) : bool :=
  match nth_error (wc_thr c) t with
  | Some (TRun (Load q k) _, v) =>
      (q =? p)%N && match do_read (wc_mem c) true v (LSlot p) ts with Some (WPage (Some _), _) => true | _ => false end
      && match do_read (wc_mem c) true v (LSlot p) 0 with None => true | _ => false end
  | _ => false
  end.
Lemma at_load_spec c t p ts : at_load c t p ts = true -> exists k r v ch v',
  nth_error (wc_thr c) t = Some (TRun (Load p k) r, v) /\
  do_read (wc_mem c) true v (LSlot p) ts = Some (WPage (Some ch), v') /\
  do_read (wc_mem c) true v (LSlot p) 0 = None.
Proof.
  unfold at_load. destruct (nth_error _ _) as [[[|[|q k| | | | | | | | | | | | |]] v]|]; try discriminate.
  destruct (q =? p)%N eqn:E; [|discriminate]. apply N.eqb_eq in E. subst q.
  destruct (do_read _ _ _ _ ts) as [[[[ch|]|] v']|] eqn:E1; try discriminate.
  destruct (do_read _ _ _ _ 0) eqn:E2; [discriminate|]. intros _. exists k, todo, v, ch, v'. rewrite E1, E2. auto.
Qed.
