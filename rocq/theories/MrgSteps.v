(** The steps that change shared memory preserve the invariant (with merging). *)
From Coq Require Import ZArith NArith List Bool Lia.
From Coq Require Import ZifyBool ZifyNat ZifyN.
From Verif Require Import Config Api Page Machine Tree Spec Conc ListFacts SearchFacts ChainFacts
  ConsFacts Valid ConsolidateFacts SeqSpec LevelFacts SeqSmo MrgInv.
Import ListNotations.
Open Scope Z_scope.

Section Steps.
Variable g : cfg.
Variable A0 : addr.
Variable R0 : pid.
Variable L0 : nat.
Notation inv := (inv g A0 R0 L0). Notation cok := (cok g A0). Notation rely := (rely g A0). Notation guar := (guar g A0).
Notation step_ok := (step_ok g A0 R0 L0). Notation big := (big g). Notation ext := (ext A0). Notation keep := (keep A0).
Notation rok := (rok A0). Notation wok := (wok A0). Notation fr := (fr A0). Notation sok := (sok g).

(** ** Routing *)
Lemma wgood_ext x z m dk v : ext x z -> wgood x m dk v -> wgood z m dk v.
Proof. intros E (lo & A & B). exists lo. split; auto. apply (e_nd _ _ _ E); auto. Qed.
Lemma wok_ext x z m dk a : ext x z -> wok x m dk a -> wok z m dk a.
Proof.
  intros E [(A & B & C)|A]; [left|right; apply (e_dele _ _ _ E); auto].
  rewrite (e_cell _ _ _ E) by auto. split; auto. split; auto. eapply wgood_ext; eauto.
Qed.
Lemma kido_ext x z m c e v : ext x z -> kido x m c e v -> kido z m c e v.
Proof. intros E (l & A & B). exists l. split; auto. apply (e_nd _ _ _ E); auto. Qed.
Lemma ikids_ext x z m c : ext x z -> ikids x m c -> ikids z m c.
Proof. intros E. apply Forall_impl. intros e. apply (e_nd _ _ _ E). Qed.
Lemma rok_ext x z m c : ext x z -> rok x m c -> rok z m c.
Proof.
  intros E H k closed smo L Lh. specialize (H k closed smo L Lh).
  destruct (dc_search_child c k closed smo); auto.
  - eapply kido_ext; eauto.
  - destruct H as (dk & A & B). exists dk. split; auto. eapply wok_ext; eauto.
  - destruct H as (v & A & B). exists v. split; auto. eapply kido_ext; eauto.
Qed.

Lemma ents_kido x m n k closed : inode g n -> ikids x m (CBase n) -> lo_ok (n_low n) (eff k closed) ->
  exists v, node_search_child n k closed = Some v /\ kido x m (CBase n) (eff k closed) v.
Proof.
  intros (_ & (k0 & E0 & K0) & S & F & _) HK Hk.
  pose proof (node_search_child_spec n k closed _ _ _ E0 S) as R.
  unfold ikids in HK. cbn [cents ilead ients] in HK. apply Forall_cons_iff in HK as [HP1 HP2]. cbn [fst snd] in HP1.
  eexists. split; [exact R|].
  destruct (route_in (eff k closed) (nlead n) (nents n)) as [R1|(y & R1 & R2)].
  - rewrite R1. exists (c_lo (CBase n)). split; auto. split; [ord|]. exact Hk.
  - rewrite Forall_forall in HP2, F. exists (Some y).
    split; [|split; [|exact R2]].
    + specialize (HP2 (Some y, route (eff k closed) (nlead n) (nents n))). cbn [fst snd] in HP2. apply HP2.
      unfold ekey. apply in_map_iff. eexists. split; [|exact R1]. reflexivity.
    + destruct (F _ R1) as [F1 _]. cbn [fst] in F1. unfold c_lo. cbn [c_base]. destruct (n_low n); cbn in *; auto. lia.
Qed.

Lemma rok_base x m n : inode g n -> ikids x m (CBase n) -> rok x m (CBase n).
Proof.
  intros Hn HK k closed smo L _. cbn [dc_search_child].
  destruct (negb smo && negb (high_ge (n_high n) k (negb closed))) eqn:E.
  - apply andb_prop in E as [E1 E2]. apply negb_true_iff in E1, E2. split; auto. split; auto.
    apply high_ge_hi_f in E2 as (h & E2 & Lh). eauto.
  - apply ents_kido; auto.
Qed.

Lemma rok_ins x m d c : rok x m c -> d_type d = DInsert -> ole (c_lo c) (Some (d_key d)) ->
  $nd x (d_pay d) = Some (m, Some (d_key d)) -> rok x m (CRec d c).
Proof.
  intros H T O E k closed smo L Lh. cbn [dc_search_child]. rewrite T, low_le_eff. specialize (H k closed smo L Lh).
  destruct ((d_key d <=? eff k closed) && high_ge (d_high d) k (negb closed)) eqn:B; [|exact H].
  apply andb_prop in B as [B _]. exists (Some (d_key d)). split; auto. split; auto. cbn. lia.
Qed.

Lemma rok_del x m d c : rok x m c -> d_type d = DDelete -> wok x m (d_key d) (d_addr d) -> rok x m (CRec d c).
Proof.
  intros H T O k closed smo L Lh. cbn [dc_search_child]. rewrite T, low_le_eff. specialize (H k closed smo L Lh).
  destruct ((d_key d <=? eff k closed) && high_ge (d_high d) k (negb closed)) eqn:B; [|exact H].
  apply andb_prop in B as [B _]. exists (d_key d). split; auto. lia.
Qed.

Lemma rok_merge x m d n c : rok x m c -> inode g n -> ikids x m (CBase n) ->
  n_low n = Some (d_key d) -> c_hi c = Some (d_key d) -> d_high d = n_high n -> ole (c_lo c) (Some (d_key d)) ->
  rng_ne (n_low n) (n_high n) ->
  rok x m (CMerge d n c).
Proof.
  intros H Hn HK E1 E2 E3 O R k closed smo L _. cbn [dc_search_child]. rewrite low_le_eff.
  destruct (Z.leb_spec (d_key d) (eff k closed)) as [Lk|Lk].
  - rewrite E3. destruct (negb smo && negb (high_ge (n_high n) k (negb closed))) eqn:E.
    + apply andb_prop in E as [Ea Eb]. apply negb_true_iff in Ea, Eb. split; auto. split; auto.
      apply high_ge_hi_f in Eb as (h & Eb & Lh). exists h. split; auto.
    + destruct (ents_kido x m n k closed Hn HK) as (v & V1 & l & V2 & V3 & V4).
      { rewrite E1. exact Lk. }
      exists v. split; auto. exists l. split; auto. split; auto. unfold c_lo in V3. cbn in V3. rewrite E1 in V3.
      change (c_lo (CMerge d n c)) with (c_lo c). ord.
  - change (c_lo (CMerge d n c)) with (c_lo c) in L. specialize (H k closed true L). rewrite E2 in H. specialize (H (fun _ => Lk)).
    destruct (dc_search_child c k closed true); auto. destruct H as (? & _). discriminate.
Qed.

(** ** Frames *)
Lemma cok_frame x z p l lo c : cok x p l lo c -> ext x z ->
  ($lim x (c_next c) <> LDead -> $lim z (c_next c) <> LDead) ->
  (forall k, $tok x k = TkIn p -> $tok z k = TkIn p) -> cok z p l lo c.
Proof.
  intros [B1 B2 B3 B4 B5] E HL HT. constructor; auto.
  - intros h Hh. destruct (B3 _ Hh). split; auto. apply (e_nd _ _ _ E); auto.
  - intros m Hm. destruct (B4 _ Hm). split; [eapply ikids_ext; eauto|eapply rok_ext; eauto].
Qed.

Lemma guar_mk t y z :
  (forall q v, $nd y q = Some v -> $nd z q = Some v) ->
  (forall p a v, $hist y p a = Some v -> $hist z p a = Some v) ->
  ($naddr y <= $naddr z)%N -> ($npid y <= $npid z)%N ->
  (forall a, (a < $naddr y)%N -> $own z a = $own y a) ->
  (forall p, (p < $npid y)%N -> $pown z p = $pown y p) ->
  (forall a u, u <> t -> fr u y a -> fr u z a) ->
  (forall p, (p < $npid y)%N -> $pown y p <> t -> $nd y p = None -> $nd z p = None /\ $tbl z p = $tbl y p) ->
  (forall p c, $tbl y p = Some c -> $nd y p <> None -> big c -> $own y (h_addr c) <> t -> $tbl z p = Some c) ->
  (forall k u m, u <> t -> $tok y k = TkPend u m -> $tok z k = TkPend u m) ->
  (forall p u n, u <> t -> $lim y p = LRem u n -> $lim z p = LRem u n) ->
  (forall p, $lim y p = LDead -> $lim z p = LDead) ->
  (forall a v, $dele y a = Some v -> $dele z a = Some v) ->
  (forall a, (a < A0)%N -> $cell z a = $cell y a) ->
  (forall a u, u <> t -> fr u y a -> $cell z a = $cell y a) ->
  lstep t y z -> guar t y z.
Proof.
  intros H1 H2 H3 H4 H5 H6 H7 H8 H9 H10 H11 H12 H13 H14 H16 H15. split; [|exact H15]. intros u Hu. constructor; auto.
  - intros p Hp Ho Hn. apply H8; auto. congruence.
  - intros p c T N B _ O. apply H9; auto. congruence.
  - intros a Ha. apply (H16 a u); auto.
  - destruct H15 as [[_ E]|(o & _ & _ & E)]; rewrite E; auto. unfold tset.
    destruct (Nat.eqb_spec u t); congruence.
Qed.

Lemma tlev_mono f f' k m : (forall p v, f p = Some v -> f' p = Some v) -> tlev f k = Some m -> tlev f' k = Some m.
Proof.
  intros H. destruct k as [|u j|p]; cbn; auto. destruct (f p) as [[l lo]|] eqn:E; [|discriminate].
  rewrite (H _ _ E). auto.
Qed.

(** The invariant after a step that changes neither nodes nor tokens. *)
Lemma inv_same y z : inv y ->
  w_g z = mk_gh ($nd y) ($lim y) (pown (w_g z)) ($hist y) (own (w_g z)) ($dele y) ($tok y) ($cont y) (stat (w_g z)) ->
  (forall p, $nd y p <> None -> $tbl z p = $tbl y p) ->
  ($naddr y <= $naddr z)%N -> ($npid y <= $npid z)%N ->
  (forall a, (a < A0)%N -> $cell z a = $cell y a) ->
  (forall a m dk, $dele y a = Some (m, dk) -> $cell z a = $cell y a \/ wgood y m dk ($cell z a)) ->
  inv z.
Proof.
  intros H G T NA NP C1 C2.
  assert (EN : $nd z = $nd y) by (rewrite G; auto). assert (EL : $lim z = $lim y) by (rewrite G; auto).
  assert (EH : $hist z = $hist y) by (rewrite G; auto). assert (ED : $dele z = $dele y) by (rewrite G; auto).
  assert (ET : $tok z = $tok y) by (rewrite G; auto). assert (EC : $cont z = $cont y) by (rewrite G; auto).
  assert (X : ext y z).
  { constructor; auto; [rewrite EN|rewrite EL|rewrite ED]; auto. }
  assert (CU : forall p, $nd y p <> None -> cur z p = cur y p).
  { intros p Hp. unfold cur. rewrite EL, T; auto. }
  destruct H as [A1 A2 A3 A4 A5 A6 A7 A8 A9 A10 A11 A12 A13 A14 A15 A16 A17]. constructor.
  - intros p v. rewrite EN. intros E. specialize (A1 _ _ E). lia.
  - intros p. rewrite EL, EN. auto.
  - intros p t n. rewrite EL. apply A3.
  - intros p l lo. rewrite EN, EL. intros E D. destruct (A4 _ _ _ E D) as (c & B1 & B2). exists c.
    rewrite CU by congruence. split; auto. eapply cok_frame; eauto; [rewrite EL; auto|rewrite ET; auto].
  - intros p l lo. rewrite EN, EL, EH. intros E. destruct (A5 _ _ _ E) as (c & B1 & B2). exists c.
    rewrite T by congruence. auto.
  - intros p q l l1 l2 c1 c2 k. rewrite EN. intros E1 E2. rewrite !CU by congruence. eauto.
  - intros p lo c k. rewrite EN, EC. intros E1. rewrite !CU by congruence. eauto.
  - rewrite ET, EN. auto.
  - rewrite ET, EN, EL. auto.
  - rewrite ET, EN, EL. auto.
  - rewrite EN; auto.
  - rewrite EN; auto.
  - intros p a. rewrite EH. intros E. specialize (A13 _ _ E). lia.
  - intros a v. rewrite ED. intros E. specialize (A14 _ _ E). lia.
  - intros a m dk. rewrite ED. intros E. destruct (C2 _ _ _ E) as [->|W].
    + destruct (A15 _ _ _ E) as [|W]; auto. right. eapply wgood_ext; eauto.
    + right. eapply wgood_ext; eauto.
  - lia.
  - lia.
Qed.

(** ** Allocation *)
Lemma step_alloc t y : inv y -> step_ok t y (bump_addr (w_s y)) (fun z => rely t y z /\ fr t z ($naddr y)).
Proof.
  intros H _. destruct y as [s gh]. set (y := mk_w s gh) in *.
  exists (mk_gh (nd gh) (lim gh) (pown gh) (hist gh) (upd (own gh) (s_naddr s) t) (dele gh) (tok gh) (cont gh) (stat gh)).
  set (z := mk_w _ _).
  assert (Hf : forall p, hist gh p (s_naddr s) = None).
  { intros p. destruct (hist gh p (s_naddr s)) eqn:E; auto. pose proof (i_adr _ _ _ _ _ H p (s_naddr s)) as Q. cbn in Q.
    rewrite E in Q. specialize (Q ltac:(discriminate)). lia. }
  assert (Hd : dele gh (s_naddr s) = None).
  { destruct (dele gh (s_naddr s)) eqn:E; auto. pose proof (i_dadr _ _ _ _ _ H (s_naddr s) _ E) as Q. cbn in Q. lia. }
  assert (Hown : forall a, (a < s_naddr s)%N -> own (w_g z) a = own gh a).
  { intros a Ha. cbn. apply upd_other. lia. }
  assert (Hfr : forall u a, fr u y a -> fr u z a).
  { intros u a (F1 & F2 & F3 & F4). cbn in F1. split; [cbn; lia|]. split; [rewrite Hown by lia; auto|]. auto. }
  pose proof (i_a0 _ _ _ _ _ H) as Ha0. cbn in Ha0.
  split; [|split; [|split]].
  - eapply (inv_same y); eauto; cbn; try lia; try reflexivity.
  - apply guar_mk; auto; cbn; try lia. left; auto.
  - constructor; auto; cbn; try lia.
  - split; [cbn; lia|]. split; [cbn; apply upd_same|]. split; auto.
Qed.

Lemma step_newpid t y : inv y -> step_ok t y (bump_pid (w_s y)) (fun z =>
  rely t y z /\ $pown z ($npid y) = t /\ $nd z ($npid y) = None /\ (0 < $npid y < $npid z)%N).
Proof.
  intros H _. destruct y as [s gh]. set (y := mk_w s gh) in *.
  exists (mk_gh (nd gh) (lim gh) (upd (pown gh) (s_npid s) t) (hist gh) (own gh) (dele gh) (tok gh) (cont gh) (stat gh)).
  set (z := mk_w _ _).
  assert (Hf : nd gh (s_npid s) = None).
  { destruct (nd gh (s_npid s)) eqn:E; auto. pose proof (i_pid _ _ _ _ _ H (s_npid s) _ E) as Q. cbn in Q. lia. }
  assert (Hown : forall a, (a < s_npid s)%N -> pown (w_g z) a = pown gh a).
  { intros a Ha. cbn. apply upd_other. lia. }
  pose proof (i_npid _ _ _ _ _ H) as Hnp. cbn in Hnp.
  split; [|split; [|split; [|split; [|split]]]].
  - eapply (inv_same y); eauto; cbn; try lia; try reflexivity.
  - apply guar_mk; auto; cbn; try lia. left; auto.
  - constructor; auto; cbn; try lia.
  - cbn. apply upd_same.
  - exact Hf.
  - cbn. lia.
Qed.

(** ** Storing a page into a slot nobody knows yet *)
Lemma step_private t y p n : inv y -> $pown y p = t -> $nd y p = None ->
  step_ok t y (set_tbl (w_s y) p (Some (CBase n))) (fun z =>
    w_g z = w_g y /\ $naddr z = $naddr y /\ $npid z = $npid y /\ $cell z = $cell y /\
    $tbl z p = Some (CBase n) /\ (forall q, q <> p -> $tbl z q = $tbl y q)).
Proof.
  intros H Ho Hn _. destruct y as [s gh]. set (y := mk_w s gh) in *. cbn in Ho, Hn.
  exists gh. set (z := mk_w _ _).
  assert (T1 : $tbl z p = Some (CBase n)) by (cbn; apply upd_same).
  assert (T2 : forall q, q <> p -> $tbl z q = $tbl y q) by (intros; cbn; apply upd_other; auto).
  split; [|split].
  - eapply (inv_same y); eauto; cbn; try lia; [destruct gh; reflexivity|].
    intros q Hq. apply upd_other. congruence.
  - apply guar_mk; auto; try (cbn; lia).
    + intros q _ Eo En. split; auto. apply T2. intros ->. cbn in Eo. congruence.
    + intros q c T N _ _. rewrite T2; auto. intros ->. cbn in N. congruence.
    + left; auto.
  - repeat (split; [solve [auto]|]); auto.
Qed.

(** ** Payload cells, garbage collector, linearization without a memory change *)
Lemma step_cell t y a v : inv y -> (A0 <= a)%N -> $own y a = t ->
  (forall m dk, $dele y a = Some (m, dk) -> wgood y m dk v) ->
  step_ok t y (set_cell (w_s y) a v) (fun z => w_g z = w_g y /\ w_s z = set_cell (w_s y) a v).
Proof.
  intros H Ha Ho Hd _. destruct y as [s gh]. set (y := mk_w s gh) in *. exists gh. set (z := mk_w _ _).
  assert (C1 : forall b, b <> a -> $cell z b = $cell y b) by (intros; cbn; apply upd_other; auto).
  assert (C2 : $cell z a = v) by (cbn; apply upd_same).
  split; [|split; [|split]]; auto.
  - eapply (inv_same y); eauto; try (cbn; lia); [destruct gh; reflexivity| |].
    + intros b Hb. apply C1. lia.
    + intros b m dk E. destruct (N.eq_dec b a) as [->|Hb]; [right; rewrite C2; auto|left; auto].
  - apply guar_mk; auto; try (cbn; lia).
    + intros b Hb. apply C1. lia.
    + intros b u Hu (_ & Fb & _). apply C1. intros ->. congruence.
    + left; auto.
Qed.

Lemma step_retire t y l : inv y -> step_ok t y (add_gc (w_s y) l) (fun z => rely t y z /\ w_g z = w_g y).
Proof.
  intros H _. destruct y as [s gh]. set (y := mk_w s gh) in *. exists gh. set (z := mk_w _ _).
  split; [|split; [|split]].
  - eapply (inv_same y); eauto; try (cbn; lia); try (destruct gh; reflexivity).
  - apply guar_mk; auto; try (cbn; lia). left; auto.
  - constructor; auto; try (cbn; lia).
  - reflexivity.
Qed.

(** A call takes effect without changing memory. *)
Lemma step_lin t y o : inv y -> $stat y t = SPend o -> snd (spec ($cont y) o) = $cont y ->
  step_ok t y (w_s y) (fun z => $nd z = $nd y /\ $stat z t = SDone (fst (spec ($cont y) o))).
Proof.
  intros H E Ec _. destruct y as [s gh]. set (y := mk_w s gh) in *.
  exists (mk_gh (nd gh) (lim gh) (pown gh) (hist gh) (own gh) (dele gh) (tok gh) (cont gh)
            (tset (stat gh) t (SDone (fst (spec (cont gh) o))))). set (z := mk_w _ _).
  split; [|split].
  - eapply (inv_same y); eauto; try (cbn; lia); try reflexivity.
  - apply guar_mk; auto; try (cbn; lia). right. exists o. cbn in *. split; auto.
  - split; auto. cbn. unfold tset. rewrite Nat.eqb_refl. auto.
Qed.

(** ** Replacing the chain of a node by one with the same range: [ct] is stored in the
    mapping table, [c'] then stands for the node *)
Definition upd2 (f : pid -> addr -> option chain) (p : pid) (a : addr) (v : option chain) : pid -> addr -> option chain :=
  fun q b => if (N.eqb q p && N.eqb b a)%bool then v else f q b.

Lemma step_replace t y p l lo c ct c' lm tok' dele' cont' stat' : inv y ->
  $nd y p = Some (l, lo) -> cur y p = Some c ->
  (forall co, $tbl y p = Some co -> ~ big co) ->
  (forall u n, $lim y p = LRem u n -> u = t) ->
  (match lm with
   | LLive => ct = c'
   | LRem u n => u = t /\ c' = CBase n /\ ct = CRemove (h_addr ct) (negb (inn l)) /\ n_size n <= c_min g
   | LDead => False
   end) ->
  c_lo c' = c_lo c -> c_hi c' = c_hi c -> c_next c' = c_next c -> sok l c' ->
  (forall z, ext y z -> $dele z = dele' -> forall m, l = S m -> ikids z m c' /\ rok z m c') ->
  (l <> O -> forall k, find k (ients c') <> None -> tok' k = TkIn p) ->
  fr t y (h_addr ct) ->
  (forall a, a <> h_addr ct -> dele' a = $dele y a) ->
  (forall v, dele' (h_addr ct) = Some v -> $cell y (h_addr ct) = 0%N) ->
  (forall k q, q <> p -> $tok y k = TkIn q -> tok' k = TkIn q) ->
  (forall k u m, u <> t -> $tok y k = TkPend u m -> tok' k = TkPend u m) ->
  (forall k, tlev ($nd y) (tok' k) = tlev ($nd y) ($tok y k)) ->
  (forall k, $tok y k = TkNone -> tok' k = TkNone) ->
  (cont' = $cont y /\ stat' = $stat y \/
   exists o, $stat y t = SPend o /\ cont' = snd (spec ($cont y) o) /\
     stat' = tset ($stat y) t (SDone (fst (spec ($cont y) o)))) ->
  (l = O -> forall k, in_rng lo (c_hi c) k -> lget c' k = cont' k) ->
  (forall k, cont' k = $cont y k \/ (l = O /\ in_rng lo (c_hi c) k)) ->
  step_ok t y (set_tbl (w_s y) p (Some ct)) (fun z =>
    w_g z = mk_gh ($nd y) (upd ($lim y) p lm) ($pown y) (upd2 ($hist y) p (h_addr ct) (Some ct)) ($own y)
              dele' tok' cont' stat' /\
    w_s z = set_tbl (w_s y) p (Some ct) /\ ext y z).
Proof.
  intros H E T Hb Hu Hlm L1 L2 L3 W K1 K2 F D1 D2 U1 U2 U3 U4 EF C1 C2 _.
  destruct y as [s gh]. set (y := mk_w s gh) in *. cbn in E.
  set (a := h_addr ct) in *.
  exists (mk_gh (nd gh) (upd (lim gh) p lm) (pown gh) (upd2 (hist gh) p a (Some ct)) (own gh) dele' tok' cont' stat').
  set (z := mk_w _ _).
  assert (T1 : $tbl z p = Some ct) by (cbn; apply upd_same).
  assert (T2 : forall q, q <> p -> $tbl z q = $tbl y q) by (intros; cbn; apply upd_other; auto).
  assert (M1 : $lim z p = lm) by (cbn; apply upd_same).
  assert (M2 : forall q, q <> p -> $lim z q = $lim y q) by (intros; cbn; apply upd_other; auto).
  assert (Mp : $lim y p <> LDead) by (intros X; unfold cur in T; rewrite X in T; discriminate).
  assert (H1 : forall q b, b <> a -> $hist z q b = $hist y q b).
  { intros q b Hq. cbn. unfold upd2. destruct (N.eqb_spec b a); [congruence|]. rewrite andb_false_r. auto. }
  assert (H2 : forall q b v, $hist y q b = Some v -> $hist z q b = Some v).
  { intros q b v Eb. rewrite H1; auto. intros ->. destruct F as (_ & _ & F & _). rewrite F in Eb. discriminate. }
  assert (H3 : $hist z p a = Some ct) by (cbn; unfold upd2; rewrite !N.eqb_refl; auto).
  assert (Cu1 : cur z p = Some c').
  { unfold cur. rewrite M1. destruct lm; [congruence|destruct Hlm as (_ & -> & _); auto|contradiction]. }
  assert (Cu2 : forall q, q <> p -> cur z q = cur y q) by (intros q Hq; unfold cur; rewrite M2, T2; auto).
  assert (Hlm2 : lm <> LDead) by (intros ->; contradiction).
  assert (X : ext y z).
  { constructor; auto.
    - intros q Eq. rewrite M2; auto. intros ->. contradiction.
    - intros b v Eb. cbn. rewrite D1; auto. intros ->. destruct F as (_ & _ & _ & F). congruence. }
  destruct (i_cur _ _ _ _ _ H _ _ _ E Mp) as (c0 & T0 & Kc). rewrite T in T0. inversion T0; subst c0. clear T0.
  assert (Hfr : forall u b, b <> a -> fr u y b -> fr u z b).
  { intros u b Hb2 (F1 & F2 & F3 & F4). split; auto. split; auto. split.
    - intros q. rewrite H1; auto.
    - cbn. rewrite D1; auto. }
  assert (LD : forall q, $lim y q <> LDead -> $lim z q <> LDead).
  { intros q Hq. destruct (N.eq_dec q p) as [->|Hq2]; [congruence|]. rewrite M2; auto. }
  assert (Np : cok z p l lo c').
  { constructor; auto.
    - rewrite L1. apply Kc.
    - intros h Eh. rewrite L2 in Eh. rewrite L3. destruct (n_link _ _ _ _ _ _ _ Kc _ Eh). split; auto. }
  split; [|split].
  - pose proof H as [A1 A2 A3 A4 A5 A6 A7 A8 A9 A10 A11 A12 A13 A14 A15 A16 A17]. constructor; auto.
    + intros q Hq. destruct (N.eq_dec q p) as [->|Hq2]; [cbn; congruence|]. rewrite M2 in Hq by auto. apply A2; auto.
    + intros q u n Eq. destruct (N.eq_dec q p) as [->|Hq].
      * rewrite M1 in Eq. rewrite Eq in Hlm. apply Hlm.
      * rewrite M2 in Eq by auto. eapply A3; eauto.
    + intros q l' lo' Eq Dq. destruct (N.eq_dec q p) as [->|Hq].
      * cbn in Eq. rewrite E in Eq. inversion Eq; subst l' lo'. eauto.
      * rewrite M2 in Dq by auto. destruct (A4 _ _ _ Eq Dq) as (cq & B1 & B2). exists cq. rewrite Cu2 by auto. split; auto.
        eapply cok_frame; eauto.
    + intros q l' lo' Eq. destruct (N.eq_dec q p) as [->|Hq].
      * cbn in Eq. rewrite E in Eq. inversion Eq; subst l' lo'. exists ct. split; auto. split; auto. rewrite M1.
        intros Hl. destruct lm; [congruence| |congruence]. destruct Hlm as (_ & _ & Hct & _). exists a. exact Hct.
      * rewrite M2, T2 by auto. destruct (A5 _ _ _ Eq) as (cq & B1 & B2 & B3). eauto.
    + assert (Y : forall q cq, cur z q = Some cq -> exists cq', cur y q = Some cq' /\ c_hi cq' = c_hi cq).
      { intros q cq Tq. destruct (N.eq_dec q p) as [->|Hq].
        - rewrite Cu1 in Tq. inversion Tq; subst cq. exists c. auto.
        - rewrite Cu2 in Tq by auto. eauto. }
      intros q1 q2 j l1 l2 c1 c2 k E1 E2 TT1 TT2 R1 R2.
      destruct (Y _ _ TT1) as (c1' & V1 & V2). destruct (Y _ _ TT2) as (c2' & V3 & V4).
      rewrite <- V2 in R1. rewrite <- V4 in R2. eapply A6; eauto.
    + intros q j cq k Eq TT Rk. destruct (N.eq_dec q p) as [->|Hq].
      * cbn in Eq. rewrite E in Eq. inversion Eq; subst l j. rewrite Cu1 in TT. inversion TT; subst cq.
        rewrite L2 in Rk. cbn. auto.
      * rewrite Cu2 in TT by auto. cbn. destruct (C2 k) as [->|[-> Rk2]]; [eapply A7; eauto|].
        exfalso. apply Hq. eapply A6; eauto.
    + intros k Hk. cbn in *. rewrite U3. apply A8. intros Ek. apply Hk. auto.
    + intros q j k Eq Dq. cbn. rewrite U3. apply (A9 q); auto. destruct (N.eq_dec q p) as [->|Hq]; auto.
      rewrite M2 in Dq; auto.
    + intros k m j Ek Lj. cbn in Ek. rewrite U3 in Ek. destruct (A10 _ _ _ Ek Lj) as (q & B1 & B2). exists q. auto.
    + intros q b Eb. destruct (N.eq_dec b a) as [->|Hq]; [apply F|]. rewrite H1 in Eb by auto. apply (A13 q); auto.
    + intros b v Eb. destruct (N.eq_dec b a) as [->|Hq]; [apply F|]. cbn in Eb. rewrite D1 in Eb by auto. apply (A14 b v); auto.
    + intros b m dk Eb. cbn in Eb. destruct (N.eq_dec b a) as [->|Hq].
      * left. apply (D2 _ Eb).
      * rewrite D1 in Eb by auto. destruct (A15 _ _ _ Eb) as [|Wg]; auto.
  - apply guar_mk; auto; try (cbn; lia).
    + intros b u Hut Fb. apply Hfr; auto. intros ->. destruct F as (_ & F & _), Fb as (_ & Fb & _). congruence.
    + intros q _ _ En. split; auto. apply T2. intros ->. cbn in En. congruence.
    + intros q cq Tq N Bq _. rewrite T2; auto. intros ->. exfalso. eapply Hb; eauto.
    + intros q u n Hut Eq. rewrite M2; auto. intros ->. apply Hut. eauto.
    + apply X.
    + apply X.
  - auto.
Qed.

(** ** Separators in consolidated pages *)
Definition hasb {A} (o : option A) : bool := match o with Some _ => true | None => false end.
Lemma hasb_iff {A} (o : option A) : hasb o = true <-> o <> None.
Proof. destruct o; cbn; split; congruence. Qed.

Lemma cents_in c k v : find k (ients c) = Some v -> In (Some k, v) (cents true c).
Proof. intros H. right. apply in_ekey. exists k, v. split; auto. apply find_in; auto. Qed.
Lemma cents_find c k v : In (Some k, v) (cents true c) -> olt (c_lo c) (Some k) -> find k (ients c) <> None.
Proof.
  intros [H|H] O.
  - injection H as E _. rewrite E in O. cbn in O. lia.
  - apply in_ekey in H as (k' & v' & E & H). inversion E; subst. intros N. eapply find_none_in; eauto.
Qed.
Lemma ients_rng c k : iwf g c -> find k (ients c) <> None -> in_srng (c_lo c) (c_hi c) k.
Proof.
  intros W H. destruct (find k (ients c)) as [v|] eqn:E; [|congruence]. apply find_in in E.
  destruct (iwf_sorted _ _ W) as [_ F]. rewrite Forall_forall in F. apply (F _ E).
Qed.

Lemma ekey_inj l : forall l', ekey l = ekey l' -> l = l'.
Proof.
  induction l as [|[k v] l IH]; intros [|[k' v'] l']; cbn; try discriminate; auto.
  intros H. inversion H; subst. f_equal. apply IH; auto.
Qed.

(** ** Splitting a node *)
Definition stok (t : tid) (l : nat) (sep : key) (rp : pid) (nr : node) (f : key -> tok_t) : key -> tok_t :=
  fun k => if k =? sep then TkPend t l else if inn l && hasb (find k (nents nr)) then TkIn rp else f k.

Lemma step_split t y p l lo c nl nr rp sep : inv y ->
  $nd y p = Some (l, lo) -> $tbl y p = Some c -> is_remove c = false -> big c -> $own y (h_addr c) = t ->
  $nd y rp = None -> $tbl y rp = Some (CBase nr) -> $pown y rp = t -> (0 < rp < $npid y)%N ->
  fr t y (n_addr nl) -> fr t y (n_addr nr) ->
  n_low nl = lo -> n_high nl = Some sep -> n_next nl = rp ->
  n_low nr = Some sep -> n_high nr = c_hi c -> n_next nr = c_next c ->
  cwf g (inn l) (CBase nl) -> cwf g (inn l) (CBase nr) ->
  n_size nl <= c_page g -> n_size nr <= c_page g -> 0 < excess g ->
  olt lo (Some sep) -> hi_ok (c_hi c) sep ->
  cents (inn l) (CBase nl) ++ cents (inn l) (CBase nr) = cents (inn l) c ->
  step_ok t y (set_tbl (w_s y) p (Some (CBase nl))) (fun z =>
    (l < L0)%nat /\ ext y z /\ $nd z rp = Some (l, Some sep) /\ $tok z = stok t l sep rp nr ($tok y) /\
    $lim z = $lim y /\ $stat z = $stat y /\ (forall q a v, $hist y q a = Some v -> $hist z q a = Some v) /\
    (forall u a, fr u y a -> a <> n_addr nl -> a <> n_addr nr -> fr u z a) /\
    $own z = $own y /\ $naddr z = $naddr y /\
    (forall m, $tok y sep <> TkPend t m)).
Proof.
  intros H E T Hrm Hbig Ho En Tn Po Rn F1 F2 L1 L2 L3 R1 R2 R3 W1 W2 B1 B2 B0 Os1 Os2 CE Hst.
  destruct (live_at _ _ _ _ _ _ _ _ _ H E T Hrm) as (Elim & Cc & Kc).
  destruct y as [s gh]. set (y := mk_w s gh) in *. cbn in E, T, Ho, En, Tn, Po, Rn, Elim.
  assert (Hl : (l < L0)%nat).
  { destruct (i_rlev _ _ _ _ _ H p l lo E) as [Q1 Q2]. destruct (Nat.eq_dec l L0) as [Q|]; [|lia].
    specialize (Q2 Q). subst p. destruct Hst as (_ & cr & S1 & _ & S2). cbn in S1. rewrite upd_same in S1.
    inversion S1; subst cr. unfold c_hi in S2. cbn in S2. congruence. }
  assert (Hp : p <> rp) by (intros ->; congruence).
  assert (Hlr : lim gh rp = LLive).
  { destruct (lim gh rp) eqn:Q; auto; exfalso; apply (i_lim _ _ _ _ _ H rp); cbn; congruence. }
  set (tk := stok t l sep rp nr (tok gh)).
  exists (mk_gh (upd (nd gh) rp (Some (l, Some sep))) (lim gh) (pown gh)
            (upd2 (upd2 (hist gh) p (n_addr nl) (Some (CBase nl))) rp (n_addr nr) (Some (CBase nr)))
            (own gh) (dele gh) tk (cont gh) (stat gh)).
  set (z := mk_w _ _).
  assert (T1 : $tbl z p = Some (CBase nl)) by (cbn; apply upd_same).
  assert (T2 : forall q, q <> p -> $tbl z q = $tbl y q) by (intros; cbn; apply upd_other; auto).
  assert (N1 : forall q v, nd gh q = Some v -> $nd z q = Some v).
  { intros q v Eq. cbn. rewrite upd_other; auto. intros ->. congruence. }
  assert (N2 : $nd z rp = Some (l, Some sep)) by (cbn; apply upd_same).
  assert (N3 : forall q, q <> rp -> $nd z q = nd gh q) by (intros; cbn; apply upd_other; auto).
  assert (H1 : forall q b, b <> n_addr nl -> b <> n_addr nr -> $hist z q b = $hist y q b).
  { intros q b Q1 Q2. cbn. unfold upd2. destruct (N.eqb_spec b (n_addr nr)); [congruence|].
    destruct (N.eqb_spec b (n_addr nl)); [congruence|]. rewrite !andb_false_r. auto. }
  assert (H2 : forall q b v, $hist y q b = Some v -> $hist z q b = Some v).
  { intros q b v Eb. rewrite H1; auto.
    - intros ->. destruct F1 as (_ & _ & F1 & _). rewrite F1 in Eb. discriminate.
    - intros ->. destruct F2 as (_ & _ & F2 & _). rewrite F2 in Eb. discriminate. }
  assert (H3 : $hist z p (n_addr nl) = Some (CBase nl)).
  { cbn. unfold upd2. destruct (N.eqb_spec p rp); [congruence|]. cbn. rewrite !N.eqb_refl. auto. }
  assert (H4 : $hist z rp (n_addr nr) = Some (CBase nr)) by (cbn; unfold upd2; rewrite !N.eqb_refl; auto).
  assert (X : ext y z) by (constructor; auto).
  assert (Cu1 : cur z p = Some (CBase nl)) by (unfold cur; cbn [z w_g lim]; rewrite Elim; exact T1).
  assert (Cur : cur z rp = Some (CBase nr)) by (unfold cur; cbn [z w_g lim]; rewrite Hlr, T2; auto).
  assert (Cu2 : forall q, q <> p -> cur z q = cur y q) by (intros q Hq; unfold cur; rewrite T2; auto).
  assert (Hfr : forall u b, fr u y b -> b <> n_addr nl -> b <> n_addr nr -> fr u z b).
  { intros u b (G1 & G2 & G3 & G4) Q1 Q2. split; auto. split; auto. split; auto. intros q. rewrite H1; auto. }
  (* the separator was not a boundary of this level *)
  assert (Tsep : (l = O /\ tok gh sep = TkNone) \/ (exists m, l = S m /\ tok gh sep = TkIn p)).
  { destruct l as [|m].
    - left. split; auto. destruct (tok gh sep) eqn:Q; auto; exfalso;
      (assert (Q2 : tlev (nd gh) (tok gh sep) <> None) by (apply (i_tokw _ _ _ _ _ H sep); cbn; congruence));
      (destruct (tlev (nd gh) (tok gh sep)) as [j|] eqn:Q3; [|congruence]);
      (destruct (i_bot _ _ _ _ _ H sep j 0%nat Q3) as (q & V1 & V2); [lia|]);
      (destruct (i_cur _ _ _ _ _ H _ _ _ V1 V2) as (cq & V3 & V4));
      pose proof (cok_rng _ _ _ _ _ _ _ V4) as V5;
      (assert (q = p); [|subst q; cbn in V1; rewrite E in V1; inversion V1 as [V6]; rewrite V6 in Os1; cbn in Os1; lia]);
      apply (i_dis _ _ _ _ _ H q p 0%nat (Some sep) lo cq c sep); auto;
      clear -V5 Os1 Os2; ord.
    - right. exists m. split; auto. apply (n_tok _ _ _ _ _ _ _ Kc ltac:(discriminate)).
      apply (cents_find c sep (nlead nr)); [|rewrite (n_lo _ _ _ _ _ _ _ Kc); auto].
      cbn [inn] in CE. rewrite <- CE. apply in_app_iff. right. left. unfold c_lo. cbn. rewrite R1. auto. }
  assert (Nr : forall k, l <> O -> find k (nents nr) <> None -> k <> sep /\ tok gh k = TkIn p).
  { intros k Hl0 Hk. destruct l as [|m]; [congruence|]. cbn [inn cwf] in *.
    pose proof (ients_rng (CBase nr) k W2 Hk) as [Q1 Q2]. unfold c_lo in Q1. cbn in Q1. rewrite R1 in Q1. cbn in Q1.
    split; [lia|]. apply (n_tok _ _ _ _ _ _ _ Kc Hl0).
    destruct (find k (nents nr)) as [v|] eqn:Ev; [|congruence].
    apply (cents_find c k v).
    - rewrite <- CE. apply in_app_iff. right. apply cents_in. exact Ev.
    - rewrite (n_lo _ _ _ _ _ _ _ Kc). clear -Os1 Q1. ord. }
  assert (Nl : forall k, l <> O -> find k (nents nl) <> None -> k <> sep /\ find k (nents nr) = None /\ tok gh k = TkIn p).
  { intros k Hl0 Hk. destruct l as [|m]; [congruence|]. cbn [inn cwf] in *.
    pose proof (ients_rng (CBase nl) k W1 Hk) as [Q1 Q2]. unfold c_hi in Q2. cbn in Q2. rewrite L2 in Q2. cbn in Q2.
    split; [lia|]. split.
    - destruct (find k (nents nr)) as [v|] eqn:Ev; auto. exfalso.
      assert (Q3 : find k (ients (CBase nr)) <> None) by (cbn [ients]; congruence).
      pose proof (ients_rng (CBase nr) k W2 Q3) as [Q4 _]. unfold c_lo in Q4. cbn in Q4. rewrite R1 in Q4. cbn in Q4. lia.
    - apply (n_tok _ _ _ _ _ _ _ Kc Hl0).
      destruct (find k (nents nl)) as [v|] eqn:Ev; [|congruence].
      apply (cents_find c k v).
      + rewrite <- CE. apply in_app_iff. left. apply cents_in. exact Ev.
      + rewrite (n_lo _ _ _ _ _ _ _ Kc). unfold c_lo in Q1. cbn in Q1. rewrite L1 in Q1. clear -Q1. ord. }
  assert (Tk1 : tk sep = TkPend t l) by (unfold tk, stok; rewrite Z.eqb_refl; auto).
  assert (Tk2 : forall k, k <> sep -> tk k = tok gh k \/ (l <> O /\ find k (nents nr) <> None /\ tk k = TkIn rp /\ tok gh k = TkIn p)).
  { intros k Hk. unfold tk, stok. destruct (Z.eqb_spec k sep); [contradiction|].
    destruct l as [|m]; cbn [inn andb]; auto. destruct (hasb (find k (nents nr))) eqn:Q; auto.
    apply hasb_iff in Q. right. split; auto. split; auto. split; auto. apply Nr; auto. }
  assert (Tk3 : forall k q, q <> p -> tok gh k = TkIn q -> tk k = TkIn q).
  { intros k q Hq Ek. assert (Hk : k <> sep).
    { intros ->. destruct Tsep as [[_ Q]|(m & _ & Q)]; rewrite Ek in Q; congruence. }
    destruct (Tk2 k Hk) as [->|(_ & _ & _ & Q)]; auto. congruence. }
  assert (Tl : forall k, k <> sep -> tlev ($nd z) (tk k) = tlev (nd gh) (tok gh k)).
  { intros k Hk. destruct (Tk2 k Hk) as [->|(Hl0 & _ & -> & ->)].
    - destruct (tok gh k) as [| |q] eqn:Q; auto.
      assert (Q2 : tlev (nd gh) (tok gh k) <> None) by (apply (i_tokw _ _ _ _ _ H k); cbn; congruence).
      rewrite Q in Q2. cbn [tlev] in *. rewrite N3; auto. intros ->. rewrite En in Q2. congruence.
    - cbn [tlev]. rewrite N2, E. destruct l; congruence. }
  assert (Ks : forall m, l = S m -> ikids z m (CBase nl) /\ ikids z m (CBase nr)).
  { intros m ->. destruct (n_kids _ _ _ _ _ _ _ Kc m eq_refl) as [Q _]. apply (ikids_ext y z) in Q; auto.
    unfold ikids in *. cbn [inn] in CE. rewrite <- CE in Q. apply Forall_app in Q. exact Q. }
  assert (Np : cok z p l lo (CBase nl)).
  { constructor; auto.
    - constructor; auto; cbn; [lia|discriminate].
    - intros h Eh. unfold c_hi in Eh. cbn in Eh. rewrite L2 in Eh. injection Eh as Eh. rewrite <- Eh.
      unfold c_next. cbn [c_front]. rewrite L3. split; [exact N2|]. cbn. congruence.
    - intros m Em. destruct (Ks m Em) as [Q _]. split; auto. apply rok_base; auto.
      rewrite Em in W1. exact W1.
    - intros Hl0 k Hk. destruct (Nl k Hl0 Hk) as (Q1 & Q2 & Q3). cbn.
      destruct (Tk2 k Q1) as [->|(_ & Q4 & _)]; [auto|congruence]. }
  assert (Nn : cok z rp l (Some sep) (CBase nr)).
  { constructor; auto.
    - constructor; auto; cbn; [lia|discriminate].
    - intros h Eh. unfold c_hi in Eh. cbn in Eh. rewrite R2 in Eh.
      unfold c_next. cbn [c_front]. rewrite R3. destruct (n_link _ _ _ _ _ _ _ Kc _ Eh). split; auto.
    - intros m Em. destruct (Ks m Em) as [_ Q]. split; auto. apply rok_base; auto.
      rewrite Em in W2. exact W2.
    - intros Hl0 k Hk. cbn [ients] in Hk. destruct (Nr k Hl0 Hk) as (Q1 & Q3). cbn. unfold tk, stok.
      destruct (Z.eqb_spec k sep); [contradiction|]. apply hasb_iff in Hk. rewrite Hk.
      destruct l; [congruence|]. reflexivity. }
  assert (Lv : l = O -> forall k, (in_rng lo (Some sep) k -> find k (n_recs nl) = lget c k) /\
                                 (in_rng (Some sep) (c_hi c) k -> find k (n_recs nr) = lget c k)).
  { intros El k. rewrite El in CE, W1, W2. cbn [inn cents cwf lwf] in CE, W1, W2. rewrite <- ekey_app in CE.
    apply ekey_inj in CE. unfold lget. cbn [lrecs] in CE. rewrite <- CE, find_app.
    destruct W1 as (_ & _ & G1 & _), W2 as (_ & _ & G2 & _). rewrite L2 in G1. rewrite R1 in G2. split; intros [Q1 Q2].
    - rewrite (find_none_lt k (n_recs nr)); [destruct (find k (n_recs nl)); auto|].
      eapply Forall_impl; [|exact G2]. intros e [V1 V2]. cbn in *. lia.
    - rewrite (find_none_gt k (n_recs nl)); [auto|].
      eapply Forall_impl; [|exact G1]. intros e [V1 V2]. cbn in *. lia. }
  (* where the ranges come from *)
  assert (Y : forall q j lq cq k, $nd z q = Some (j, lq) -> cur z q = Some cq -> in_rng lq (c_hi cq) k ->
    exists q' lq' cq', nd gh q' = Some (j, lq') /\ cur y q' = Some cq' /\ in_rng lq' (c_hi cq') k /\
      (q' = q \/ (q' = p /\ q = rp)) /\ (q = p -> k < sep) /\ (q = rp -> sep <= k)).
  { intros q j lq cq k Eq Tq Rk. destruct (N.eq_dec q rp) as [Hq|Hq].
    - rewrite Hq in *. rewrite N2 in Eq. injection Eq as Ej Elq. rewrite Cur in Tq. injection Tq as Tq.
      rewrite <- Ej. exists p, lo, c. split; auto. split; auto. rewrite <- Tq, <- Elq in Rk. unfold c_hi in Rk. cbn in Rk. rewrite R2 in Rk.
      split; [|split; [auto|split; [congruence|]]].
      + clear -Rk Os1. destruct Rk as [Rk1 Rk2]. split; auto. ord.
      + intros _. destruct Rk as [Rk1 _]. exact Rk1.
    - rewrite N3 in Eq by auto. destruct (N.eq_dec q p) as [Hq2|Hq2].
      + rewrite Hq2 in *. rewrite E in Eq. injection Eq as Ej Elq. rewrite Cu1 in Tq. injection Tq as Tq.
        rewrite <- Ej. exists p, lo, c. split; auto. split; auto. rewrite <- Tq, <- Elq in Rk. unfold c_hi in Rk. cbn in Rk. rewrite L2 in Rk.
        split; [|split; [auto|split; [|congruence]]].
        * destruct Rk as [Rk1 Rk2]. split; auto. clear -Rk2 Os2. ord.
        * intros _. destruct Rk as [_ Rk2]. exact Rk2.
      + exists q, lq, cq. rewrite Cu2 in Tq by auto. split; auto. split; auto. split; auto. split; auto.
        split; congruence. }
  assert (Psep : forall m, tok gh sep <> TkPend t m).
  { intros m Q. destruct Tsep as [[_ Q2]|(m' & _ & Q2)]; congruence. }
  split; [|split].
  - pose proof H as [A1 A2 A3 A4 A5 A6 A7 A8 A9 A10 A11 A12 A13 A14 A15 A16 A17]. constructor; auto.
    + intros q v Eq. destruct (N.eq_dec q rp) as [->|Hq]; [exact Rn|]. rewrite N3 in Eq by auto. apply (A1 q v Eq).
    + intros q Hq. specialize (A2 q Hq). cbn in A2. destruct (nd gh q) eqn:Q; [|congruence]. rewrite (N1 _ _ Q). discriminate.
    + intros q l' lo' Eq Dq. destruct (N.eq_dec q rp) as [->|Hq].
      { rewrite N2 in Eq. injection Eq as <- <-. eauto. }
      rewrite N3 in Eq by auto. destruct (N.eq_dec q p) as [->|Hq2].
      { rewrite E in Eq. injection Eq as <- <-. eauto. }
      destruct (A4 _ _ _ Eq Dq) as (cq & V1 & V2). exists cq. rewrite Cu2 by auto. split; auto.
      eapply cok_frame; eauto.
    + intros q l' lo' Eq. destruct (N.eq_dec q rp) as [->|Hq].
      { exists (CBase nr). rewrite T2 by auto. split; auto. split; auto. cbn. congruence. }
      rewrite N3 in Eq by auto. destruct (N.eq_dec q p) as [->|Hq2].
      { exists (CBase nl). split; auto. split; auto. cbn. congruence. }
      destruct (A5 _ _ _ Eq) as (cq & V1 & V2 & V3). exists cq. rewrite T2 by auto. auto.
    + intros q1 q2 j l1 l2 c1 c2 k E1 E2 TT1 TT2 K3 K4.
      destruct (Y _ _ _ _ _ E1 TT1 K3) as (q1' & l1' & c1' & V1 & V2 & V3 & V4 & V5 & V6).
      destruct (Y _ _ _ _ _ E2 TT2 K4) as (q2' & l2' & c2' & X1 & X2 & X3 & X4 & X5 & X6).
      assert (Q : q1' = q2') by (eapply A6; eauto). rewrite Q in *. clear Q q1'.
      destruct V4 as [V4|[V4 V4']], X4 as [X4|[X4 X4']]; try congruence.
      * assert (Q1 : q1 = p) by congruence. specialize (V5 Q1). specialize (X6 X4'). lia.
      * assert (Q1 : q2 = p) by congruence. specialize (X5 Q1). specialize (V6 V4'). lia.
    + intros q lq cq k Eq Tq Rk. change ($cont z k) with (cont gh k). destruct (N.eq_dec q rp) as [Hq|Hq].
      { rewrite Hq in *. rewrite N2 in Eq. injection Eq as Ej Elq. rewrite Cur in Tq. injection Tq as Tq.
        rewrite <- Tq, <- Elq in Rk. unfold c_hi in Rk. cbn in Rk. rewrite R2 in Rk. rewrite <- Tq.
        unfold lget. cbn [lrecs]. rewrite (proj2 (Lv Ej k)) by auto. rewrite Ej in E. apply (A7 p lo c k); auto.
        destruct Rk as [Rk1 Rk2]. split; auto. clear -Rk1 Os1. ord. }
      rewrite N3 in Eq by auto. destruct (N.eq_dec q p) as [Hq2|Hq2].
      { rewrite Hq2 in *. rewrite E in Eq. injection Eq as Ej Elq. rewrite Cu1 in Tq. injection Tq as Tq.
        rewrite <- Tq, <- Elq in Rk. unfold c_hi in Rk. cbn in Rk. rewrite L2 in Rk. rewrite <- Tq.
        unfold lget. cbn [lrecs]. rewrite (proj1 (Lv Ej k)) by auto. rewrite Ej in E. apply (A7 p lo c k); auto.
        destruct Rk as [Rk1 Rk2]. split; auto. clear -Rk2 Os2. ord. }
      rewrite Cu2 in Tq by auto. eapply A7; eauto.
    + intros k Hk. destruct (Z.eq_dec k sep) as [->|Hne].
      * cbn. rewrite Tk1. discriminate.
      * change ($tok z k) with (tk k) in *. rewrite Tl by auto. apply A8. cbn.
        destruct (Tk2 k Hne) as [Q|(_ & _ & _ & Q)]; congruence.
    + intros q j k Eq Dq. destruct (N.eq_dec q rp) as [->|Hq].
      { rewrite N2 in Eq. injection Eq as <- <-. exists l. cbn. rewrite Tk1. split; auto. }
      rewrite N3 in Eq by auto. destruct (A9 q j k Eq Dq) as (m & V1 & V2).
      destruct (Z.eq_dec k sep) as [->|Hne].
      * exists l. cbn. rewrite Tk1. split; auto. destruct Tsep as [[_ Q]|(m' & Q1 & Q2)].
        -- cbn in V1. rewrite Q in V1. discriminate.
        -- cbn in V1. rewrite Q2 in V1. cbn in V1. rewrite E, Q1 in V1. injection V1 as <-. lia.
      * exists m. change ($tok z k) with (tk k). rewrite Tl by auto. auto.
    + intros k m j Em Lj. destruct (Z.eq_dec k sep) as [->|Hne].
      * cbn in Em. rewrite Tk1 in Em. injection Em as <-. destruct (Nat.eq_dec j l) as [->|Hj].
        -- exists rp. split; auto. cbn. congruence.
        -- destruct Tsep as [[Q _]|(m' & Q1 & Q2)]; [lia|].
           destruct (A10 sep m' j) as (q & V1 & V2); [cbn; rewrite Q2; cbn; rewrite E, Q1; auto|lia|].
           exists q. split; auto.
      * change ($tok z k) with (tk k) in Em. rewrite Tl in Em by auto. destruct (A10 k m j Em Lj) as (q & V1 & V2).
        exists q. split; auto.
    + intros q j lq Eq. destruct (N.eq_dec q rp) as [->|Hq].
      { rewrite N2 in Eq. injection Eq as <- <-. lia. }
      rewrite N3 in Eq by auto. eapply A12; eauto.
    + intros q b Eb. destruct (N.eq_dec b (n_addr nl)) as [->|Hq]; [apply F1|].
      destruct (N.eq_dec b (n_addr nr)) as [->|Hq2]; [apply F2|]. rewrite H1 in Eb by auto. apply (A13 q); auto.
    + intros b m dk Eb. destruct (A15 _ _ _ Eb) as [|Wg]; auto. right. eapply wgood_ext; eauto.
  - apply guar_mk; auto; try (cbn; lia).
    + intros b u Hu Fb. apply Hfr; auto; intros ->;
      [destruct F1 as (_ & F1 & _), Fb as (_ & Fb & _)|destruct F2 as (_ & F2 & _), Fb as (_ & Fb & _)]; congruence.
    + intros q _ Eo Eq. assert (q <> rp) by (intros ->; cbn in Eo; congruence). rewrite N3 by auto. split; auto.
      apply T2. intros ->. cbn in Eq. congruence.
    + intros q cq Tq N Bq Oq. rewrite T2; auto. intros ->. cbn in Tq. rewrite T in Tq. injection Tq as <-. cbn in Oq. congruence.
    + intros k u m Hu Ek. cbn in Ek. change ($tok z k) with (tk k).
      assert (Hk : k <> sep).
      { intros ->. destruct Tsep as [[_ Q]|(m' & _ & Q)]; rewrite Ek in Q; congruence. }
      destruct (Tk2 k Hk) as [->|(_ & _ & _ & Q)]; auto. congruence.
    + left; auto.
  - repeat (split; [solve [auto]|]). exact Psep.
Qed.

(** ** Absorbing a removed right sibling *)
Definition mtok (l : nat) (dk : key) (q : pid) (n : node) (f : key -> tok_t) : key -> tok_t :=
  fun k => if k =? dk then (if inn l then TkIn q else TkNone)
           else if inn l && hasb (find k (nents n)) then TkIn q else f k.

(** The node that ends just below the low key of a node is its left neighbour. *)
Lemma merge_adj y q p l lo c dk n t : inv y -> $nd y q = Some (l, lo) -> cur y q = Some c ->
  $nd y p = Some (l, Some dk) -> $lim y p = LRem t n -> in_rng lo (c_hi c) (dk - 1) -> c_hi c = Some dk.
Proof.
  intros H Eq Tq Ep Lp [R1 R2].
  destruct (i_cur _ _ _ _ _ H _ _ _ Ep) as (cn & Cn & Kn); [congruence|].
  pose proof (cok_rng _ _ _ _ _ _ _ Kn) as Rn.
  assert (Q : forall h, c_hi c = Some h -> h <= dk).
  { intros h Eh. destruct (Z_le_gt_dec h dk) as [|G]; auto. exfalso.
    assert (q = p).
    { apply (i_dis _ _ _ _ _ H q p l lo (Some dk) c cn dk); auto.
      - rewrite Eh. clear -R1 G. ord.
      - clear -Rn. ord. }
    subst q. rewrite Ep in Eq. injection Eq as <-. cbn in R1. lia. }
  destruct (c_hi c) as [h|] eqn:Eh.
  - f_equal. specialize (Q h eq_refl). cbn in R2. lia.
  - exfalso. assert (q = p).
    { apply (i_dis _ _ _ _ _ H q p l lo (Some dk) c cn dk); auto.
      - rewrite Eh. clear -R1. ord.
      - clear -Rn. ord. }
    subst q. rewrite Ep in Eq. injection Eq as <-. cbn in R1. lia.
Qed.

Lemma step_merge t y q p l lo c n d dk : inv y ->
  $nd y q = Some (l, lo) -> $tbl y q = Some c -> is_remove c = false -> ~ big c ->
  $nd y p = Some (l, Some dk) -> $lim y p = LRem t n -> $tok y dk = TkPend t l ->
  c_hi c = Some dk -> d_key d = dk -> sok l (CMerge d n c) -> fr t y (d_addr d) ->
  step_ok t y (set_tbl (w_s y) q (Some (CMerge d n c))) (fun z =>
    ext y z /\ $nd z = $nd y /\ $tok z = mtok l dk q n ($tok y) /\ $lim z = upd ($lim y) p LDead /\
    $stat z = $stat y /\ $own z = $own y /\ $dele z = $dele y /\
    (forall b a v, $hist y b a = Some v -> $hist z b a = Some v) /\
    $hist z q (d_addr d) = Some (CMerge d n c) /\
    (forall u a, fr u y a -> a <> d_addr d -> fr u z a) /\ w_s z = set_tbl (w_s y) q (Some (CMerge d n c))).
Proof.
  intros H E T Hrm Hb Ep Lp Tp Eh Ed Hs F _.
  destruct (live_at _ _ _ _ _ _ _ _ _ H E T Hrm) as (Elim & Cc & Kc).
  destruct (i_cur _ _ _ _ _ H _ _ _ Ep) as (cn & Cn & Kn); [congruence|].
  unfold cur in Cn. rewrite Lp in Cn. injection Cn as <-.
  destruct y as [s gh]. set (y := mk_w s gh) in *. cbn in E, T, Elim, Ep, Lp, Tp.
  assert (Hqp : q <> p) by congruence.
  set (c' := CMerge d n c) in *. set (tk := mtok l dk q n (tok gh)).
  exists (mk_gh (nd gh) (upd (lim gh) p LDead) (pown gh) (upd2 (hist gh) q (d_addr d) (Some c'))
            (own gh) (dele gh) tk (cont gh) (stat gh)).
  set (z := mk_w _ _).
  assert (T1 : $tbl z q = Some c') by (cbn; apply upd_same).
  assert (T2 : forall b, b <> q -> $tbl z b = $tbl y b) by (intros; cbn; apply upd_other; auto).
  assert (M1 : $lim z p = LDead) by (cbn; apply upd_same).
  assert (M2 : forall b, b <> p -> $lim z b = $lim y b) by (intros; cbn; apply upd_other; auto).
  assert (H1 : forall b a, a <> d_addr d -> $hist z b a = $hist y b a).
  { intros b a Q1. cbn. unfold upd2. destruct (N.eqb_spec a (d_addr d)); [congruence|]. rewrite !andb_false_r. auto. }
  assert (H2 : forall b a v, $hist y b a = Some v -> $hist z b a = Some v).
  { intros b a v Eb. rewrite H1; auto.
    intros ->. destruct F as (_ & _ & F & _). rewrite F in Eb. discriminate. }
  assert (H3 : $hist z q (d_addr d) = Some c') by (cbn; unfold upd2; rewrite !N.eqb_refl; auto).
  assert (X : ext y z).
  { constructor; auto. intros b Eb. destruct (N.eq_dec b p) as [->|Hb2]; auto. rewrite M2; auto. }
  assert (Cu1 : cur z q = Some c') by (unfold cur; rewrite M2 by auto; cbn [y w_g lim]; rewrite Elim; exact T1).
  assert (Cup : cur z p = None) by (unfold cur; rewrite M1; auto).
  assert (Cu2 : forall b, b <> q -> b <> p -> cur z b = cur y b).
  { intros b Q1 Q2. unfold cur. rewrite M2, T2; auto. }
  assert (Hfr : forall u a, fr u y a -> a <> d_addr d -> fr u z a).
  { intros u a (G1 & G2 & G3 & G4) Q1. split; auto. split; auto. split; auto. intros b. rewrite H1; auto. }
  assert (Wf : cwf g (inn l) c') by apply Hs.
  assert (El : n_low n = Some dk) by apply (n_lo _ _ _ _ _ _ _ Kn).
  assert (Rq : rng_ne lo (Some dk)) by (rewrite <- Eh; eapply cok_rng; eauto).
  assert (Rn : rng_ne (Some dk) (n_high n)) by apply (cok_rng _ _ _ _ _ _ _ Kn).
  (* entries of the absorbed page *)
  assert (Nn : forall k, l <> O -> find k (nents n) <> None -> k <> dk /\ tok gh k = TkIn p).
  { intros k Hl0 Hk. pose proof (n_tok _ _ _ _ _ _ _ Kn Hl0 k Hk) as Q. split; auto. intros ->.
    cbn in Q. congruence. }
  assert (Tk1 : tk dk = if inn l then TkIn q else TkNone) by (unfold tk, mtok; rewrite Z.eqb_refl; auto).
  assert (Tk2 : forall k, k <> dk -> tk k = tok gh k \/ (l <> O /\ find k (nents n) <> None /\ tk k = TkIn q /\ tok gh k = TkIn p)).
  { intros k Hk. unfold tk, mtok. destruct (Z.eqb_spec k dk); [contradiction|].
    destruct l as [|m]; cbn [inn andb]; auto. destruct (hasb (find k (nents n))) eqn:Q; auto.
    apply hasb_iff in Q. right. split; auto. split; auto. split; auto. apply Nn; auto. }
  assert (Tk3 : forall k b, b <> p -> tok gh k = TkIn b -> tk k = TkIn b).
  { intros k b Hb2 Ek. assert (Hk : k <> dk) by congruence.
    destruct (Tk2 k Hk) as [->|(_ & _ & _ & Q)]; auto. congruence. }
  assert (Tl : forall k, k <> dk -> tlev (nd gh) (tk k) = tlev (nd gh) (tok gh k)).
  { intros k Hk. destruct (Tk2 k Hk) as [->|(Hl0 & _ & -> & ->)]; auto. cbn [tlev]. rewrite E, Ep. auto. }
  assert (Ke : forall k, l <> O -> find k (ients c') <> None -> tk k = TkIn q).
  { intros k Hl0 Hk. destruct (Z.eq_dec k dk) as [->|Hne]; [rewrite Tk1; destruct l; [congruence|auto]|].
    unfold c' in Hk. cbn [ients] in Hk. rewrite find_app in Hk. destruct (find k (ients c)) eqn:Q.
    - apply Tk3; auto. apply (n_tok _ _ _ _ _ _ _ Kc Hl0). congruence.
    - cbn [find] in Hk. destruct (Z.eqb_spec (d_key d) k); [congruence|]. unfold tk, mtok.
      destruct (Z.eqb_spec k dk); [congruence|]. apply hasb_iff in Hk. rewrite Hk.
      destruct l; [congruence|]. reflexivity. }
  assert (Nq : cok z q l lo c').
  { constructor; auto.
    - change (c_lo c') with (c_lo c). apply Kc.
    - intros h Hh. change (c_hi c') with (n_high n) in Hh. change (c_next c') with (n_next n).
      destruct (n_link _ _ _ _ _ _ _ Kn h Hh) as [Q1 Q2]. split; auto. rewrite M2; auto.
      change (c_next (CBase n)) with (n_next n) in Q1. intros Q. rewrite Q in Q1. cbn in Q1.
      rewrite Ep in Q1. injection Q1 as Q1. rewrite Hh in Rn. cbn in Rn. lia.
    - intros m Em. destruct (n_kids _ _ _ _ _ _ _ Kc m Em) as [V1 V2]. destruct (n_kids _ _ _ _ _ _ _ Kn m Em) as [V3 V4].
      rewrite Em in Wf. cbn [inn cwf iwf c'] in Wf. destruct Wf as (U1 & U2 & _ & _ & U3 & U4 & U5 & _).
      assert (U6 : ole (c_lo c) (Some (d_key d))).
      { rewrite (n_lo _ _ _ _ _ _ _ Kc), Ed. clear -Rq. ord. }
      split.
      + unfold ikids in *. unfold c'. cbn [cents ilead ients] in *.
        change (c_lo (CMerge d n c)) with (c_lo c). apply Forall_cons_iff in V1 as [V1 V1'].
        constructor; [exact V1|]. rewrite ekey_app. apply Forall_app. split; [exact V1'|].
        change (c_lo (CBase n)) with (n_low n) in V3. rewrite U3 in V3. exact V3.
      + apply (rok_ext y); auto. apply rok_merge; auto. rewrite El. auto. }
  (* where the ranges come from *)
  assert (Y : forall b j lq cq k, $nd z b = Some (j, lq) -> cur z b = Some cq -> in_rng lq (c_hi cq) k ->
    b <> p /\ exists b' lq' cq', nd gh b' = Some (j, lq') /\ cur y b' = Some cq' /\ in_rng lq' (c_hi cq') k /\
      (b' = b \/ (b' = p /\ b = q))).
  { intros b j lq cq k Eq Tq Rk.
    assert (Hbp : b <> p) by (intros ->; congruence). split; auto.
    destruct (N.eq_dec b q) as [->|Hq].
    - cbn in Eq; rewrite E in Eq. injection Eq as <- <-. rewrite Cu1 in Tq. injection Tq as <-. change (c_hi c') with (n_high n) in Rk.
      destruct (Z_lt_ge_dec k dk).
      + exists q, lo, c. split; auto. split; auto. split; auto. rewrite Eh. destruct Rk. split; auto.
      + exists p, (Some dk), (CBase n). split; auto. split; [unfold cur; cbn [y w_g lim]; rewrite Lp; auto|].
        split; [|auto]. destruct Rk as [_ Rk]. split; auto. cbn. lia.
    - exists b, lq, cq. rewrite Cu2 in Tq by auto. auto. }
  assert (Cyp : cur y p = Some (CBase n)) by (unfold cur; cbn [y w_g lim]; rewrite Lp; auto).
  (* only the left neighbour is linked to the removed node *)
  assert (Lk : forall b lb cb, nd gh b = Some (l, lb) -> cur y b = Some cb -> cok y b l lb cb -> c_hi cb <> None -> c_next cb = p -> b = q).
  { intros b lb cb Eb Cb Kb Hh Nb. destruct (c_hi cb) as [h|] eqn:Q; [|congruence].
    destruct (n_link _ _ _ _ _ _ _ Kb h Q) as [V1 _]. rewrite Nb in V1. cbn in V1. rewrite Ep in V1. injection V1 as V1.
    pose proof (cok_rng _ _ _ _ _ _ _ Kb) as Rb. rewrite Q in Rb.
    apply (i_dis _ _ _ _ _ H b q l lb lo cb c (dk - 1)); auto.
    - rewrite Q. clear -Rb V1. ord.
    - rewrite Eh. clear -Rq. ord. }
  split; [|split].
  - pose proof H as [A1 A2 A3 A4 A5 A6 A7 A8 A9 A10 A11 A12 A13 A14 A15 A16 A17]. constructor; auto.
    + intros b Hb2. destruct (N.eq_dec b p) as [->|Hbp]; [cbn; congruence|]. rewrite M2 in Hb2 by auto. apply A2; auto.
    + intros b u nb Eb. destruct (N.eq_dec b p) as [->|Hbp]; [congruence|]. rewrite M2 in Eb by auto. eapply A3; eauto.
    + intros b l' lo' Eb Db. destruct (N.eq_dec b p) as [->|Hbp]; [congruence|]. rewrite M2 in Db by auto.
      destruct (N.eq_dec b q) as [->|Hbq]; [cbn in Eb; rewrite E in Eb; injection Eb as <- <-; eauto|].
      destruct (A4 _ _ _ Eb Db) as (cb & V1 & V2). exists cb. rewrite Cu2 by auto. split; auto.
      destruct (N.eq_dec (c_next cb) p) as [Q|Q].
      * destruct (c_hi cb) as [h|] eqn:Qh.
        -- exfalso. destruct (n_link _ _ _ _ _ _ _ V2 h Qh) as [V3 _]. rewrite Q in V3. cbn in V3. rewrite Ep in V3.
           injection V3 as V3 V4. rewrite <- V3 in V2, Eb. apply Hbq. apply (Lk b lo' cb); auto. congruence.
        -- destruct V2 as [G1 G2 G3 G4 G5]. constructor; auto.
           intros h Hh. congruence.
      * eapply cok_frame; eauto. rewrite M2 by auto. auto.
    + intros b l' lo' Eb. destruct (N.eq_dec b q) as [->|Hbq].
      * exists c'. split; auto. split; auto. rewrite M2 by auto. cbn. congruence.
      * rewrite T2 by auto. destruct (A5 _ _ _ Eb) as (cb & V1 & V2 & V3). exists cb. split; auto. split; auto.
        destruct (N.eq_dec b p) as [->|Hbp]; [|rewrite M2 by auto; auto].
        intros _. apply V3. cbn. congruence.
    + intros q1 q2 j l1 l2 c1 c2 k E1 E2 TT1 TT2 K3 K4.
      destruct (Y _ _ _ _ _ E1 TT1 K3) as (P1 & q1' & l1' & c1' & V1 & V2 & V3 & V4).
      destruct (Y _ _ _ _ _ E2 TT2 K4) as (P2 & q2' & l2' & c2' & X1 & X2 & X3 & X4).
      assert (Q : q1' = q2') by (eapply A6; eauto).
      destruct V4 as [V4|[V4 V4']], X4 as [X4|[X4 X4']]; congruence.
    + intros b lb cb k Eb Tb Rk. change ($cont z k) with ($cont y k).
      destruct (N.eq_dec b p) as [->|Hbp]; [congruence|].
      destruct (N.eq_dec b q) as [->|Hbq]; [|rewrite Cu2 in Tb by auto; eapply A7; eauto].
      cbn in Eb. rewrite E in Eb. injection Eb as El0 <-. rewrite Cu1 in Tb. injection Tb as <-.
      change (c_hi c') with (n_high n) in Rk. rewrite El0 in *. cbn [inn cwf] in Wf.
      pose proof Wf as Wf0. unfold c' in Wf0. cbn [lwf] in Wf0. destruct Wf0 as (U1 & U2 & _ & _ & U3 & U4 & U5 & _).
      destruct (lwf_sorted _ _ U1) as [_ F1]. destruct U2 as (_ & _ & F2 & _).
      unfold lget, c'. cbn [lrecs]. rewrite find_app. destruct (Z_lt_ge_dec k dk) as [Lk2|Lk2].
      * rewrite (find_none_lt k (n_recs n)).
        -- rewrite <- (A7 q lo c k E Cc); [unfold lget; destruct (find k (lrecs c)); auto|].
           rewrite Eh. destruct Rk. split; auto.
        -- eapply Forall_impl; [|exact F2]. intros e [G1 _]. rewrite El in G1. cbn in G1. lia.
      * rewrite (find_none_gt k (lrecs c)).
        -- rewrite <- (A7 p (Some dk) (CBase n) k Ep Cyp); [reflexivity|]. destruct Rk as [_ Rk]. split; auto. cbn. lia.
        -- eapply Forall_impl; [|exact F1]. intros e [_ G1]. rewrite Eh in G1. cbn in G1. lia.
    + intros k Hk. change ($tok z k) with (tk k) in *. change ($nd z) with (nd gh). destruct (Z.eq_dec k dk) as [->|Hne].
      * rewrite Tk1 in *. destruct l as [|m]; cbn [inn] in *; [congruence|]. cbn. rewrite E. discriminate.
      * rewrite Tl by auto. apply A8. cbn. destruct (Tk2 k Hne) as [Q|(_ & _ & _ & Q)]; congruence.
    + intros b j k Eb Db. destruct (N.eq_dec b p) as [->|Hbp]; [congruence|]. rewrite M2 in Db by auto.
      destruct (A9 b j k Eb Db) as (m & V1 & V2). change ($tok z k) with (tk k). change ($nd z) with (nd gh).
      destruct (Z.eq_dec k dk) as [->|Hne].
      * cbn in V1. rewrite Tp in V1. injection V1 as <-.
        assert (Hj : j <> l).
        { intros ->. apply Hbp. destruct (A4 _ _ _ Eb Db) as (cb & V3 & V4).
          pose proof (cok_rng _ _ _ _ _ _ _ V4) as V5.
          apply (A6 b p l (Some dk) (Some dk) cb (CBase n) dk); auto; [clear -V5|clear -Rn; change (c_hi (CBase n)) with (n_high n)]; ord. }
        rewrite Tk1. destruct l as [|m]; [lia|]. cbn [inn]. exists m. cbn. rewrite E. split; auto. lia.
      * exists m. rewrite Tl by auto. auto.
    + intros k m j Em Lj. change ($tok z k) with (tk k) in Em. change ($nd z) with (nd gh) in *.
      destruct (Z.eq_dec k dk) as [->|Hne].
      * rewrite Tk1 in Em. destruct l as [|l']; cbn [inn] in Em; [discriminate|]. cbn in Em. rewrite E in Em. injection Em as <-.
        destruct (A10 dk (S l') j) as (b & V1 & V2); [cbn; rewrite Tp; auto|lia|].
        exists b. split; auto. rewrite M2; auto. intros ->. cbn in V1. rewrite Ep in V1. injection V1 as V1. lia.
      * rewrite Tl in Em by auto. destruct (A10 k m j Em Lj) as (b & V1 & V2).
        exists b. split; auto. rewrite M2; auto. intros ->. cbn in V1. rewrite Ep in V1. congruence.
    + intros b a Eb. destruct (N.eq_dec a (d_addr d)) as [->|Hq]; [apply F|]. rewrite H1 in Eb by auto. apply (A13 b); auto.
  - apply guar_mk; auto; try (cbn; lia).
    + intros a u Hu Fa. apply Hfr; auto. intros ->. destruct F as (_ & F & _), Fa as (_ & Fa & _). congruence.
    + intros b _ Eo Eb. split; auto. apply T2. intros ->. cbn in Eb. congruence.
    + intros b cb Tb N Bb Ob. rewrite T2; auto. intros ->. cbn in Tb. rewrite T in Tb. injection Tb as <-. contradiction.
    + intros k u m Hu Ek. cbn in Ek. change ($tok z k) with (tk k).
      assert (Hk : k <> dk) by congruence.
      destruct (Tk2 k Hk) as [->|(_ & _ & _ & Q)]; auto. congruence.
    + intros b u nb Hu Eb. rewrite M2; auto. intros ->. cbn in Eb. rewrite Lp in Eb. congruence.
    + apply X.
    + left; auto.
  - repeat (split; [solve [auto]|]). split; auto.
Qed.
End Steps.
