(** The steps that change shared memory preserve the invariant. *)
From Coq Require Import ZArith NArith List Bool Lia.
From Coq Require Import ZifyBool ZifyNat ZifyN.
From Verif Require Import Config Api Page Machine Tree Spec Conc ListFacts SearchFacts ChainFacts
  ConsFacts Valid ConsolidateFacts SeqSmo ConcChain ConcInv.
Import ListNotations.
Open Scope Z_scope.

Definition outs (l : list addr) (t : tid) (m : addr -> ast_t) : addr -> ast_t :=
  fun a => if existsb (N.eqb a) l then AOut t else m a.

Lemma outs_in l t m a : In a l -> outs l t m a = AOut t.
Proof.
  intros H. unfold outs. replace (existsb (N.eqb a) l) with true; auto. symmetry. apply existsb_exists.
  exists a. split; auto. apply N.eqb_refl.
Qed.
Lemma outs_out l t m a : ~ In a l -> outs l t m a = m a.
Proof.
  intros H. unfold outs. destruct (existsb (N.eqb a) l) eqn:E; auto. apply existsb_exists in E as (b & Hb & E).
  apply N.eqb_eq in E. subst. contradiction.
Qed.
Lemma outs_cases l t m a : (In a l /\ outs l t m a = AOut t) \/ (~ In a l /\ outs l t m a = m a).
Proof.
  destruct (in_dec N.eq_dec a l); [left|right]; split; auto; [apply outs_in|apply outs_out]; auto.
Qed.

Section Steps.
Variable g : cfg.
Notation inv := (inv g). Notation nok := (nok g). Notation rely := (rely g). Notation guar := (guar g).
Notation step_ok := (step_ok g). Notation big := (big g).

Lemma nok_frame x z p lf lo c : nok x p lf lo c -> $tbl z p = Some c ->
  (forall q v, $nd x q = Some v -> $nd z q = Some v) ->
  (forall a v, $hist x a = Some v -> $hist z a = Some v) ->
  (forall a, $ast x a = ALive p -> $ast z a = ALive p) ->
  (forall k, $tok x k = TkIn p -> $tok z k = TkIn p) -> nok z p lf lo c.
Proof.
  intros [A1 A2 A3 A4 A5 A6 A7 A8 A9 A10 A11 A12] T N H S K. constructor; auto.
  intros E. eapply jkids_impl; [|apply (A9 E)]. intros l q [b Hb]. exists b. auto.
Qed.

Lemma guar_mk t y z :
  (forall q v, $nd y q = Some v -> $nd z q = Some v) ->
  (forall a v, $hist y a = Some v -> $hist z a = Some v) ->
  ($naddr y <= $naddr z)%N -> ($npid y <= $npid z)%N ->
  (forall a, (a < $naddr y)%N -> $own z a = $own y a) ->
  (forall p, (p < $npid y)%N -> $pown z p = $pown y p) ->
  (forall a, (a < $naddr y)%N -> $own y a <> t -> $hist y a = None -> $hist z a = None) ->
  (forall p, (p < $npid y)%N -> $pown y p <> t -> $nd y p = None -> $nd z p = None /\ $tbl z p = $tbl y p) ->
  (forall p c, $tbl y p = Some c -> $nd y p <> None -> big c -> $own y (h_addr c) <> t -> $tbl z p = Some c) ->
  (forall k u, u <> t -> $tok y k = TkPend u -> $tok z k = TkPend u) ->
  (forall a u, u <> t -> $ast y a = AOut u -> $ast z a = AOut u) ->
  lstep t y z -> guar t y z.
Proof.
  intros H1 H2 H3 H4 H5 H6 H7 H8 H9 H10 H11 H12. split; [|exact H12]. intros u Hu. constructor; auto.
  - intros a Ha Ho Hn. apply H7; auto. congruence.
  - intros p Hp Ho Hn. apply H8; auto. congruence.
  - intros p c T N B _ O. apply H9; auto. congruence.
  - destruct H12 as [[_ E]|(o & _ & _ & E)]; rewrite E; auto. unfold tset.
    destruct (Nat.eqb_spec u t); congruence.
Qed.

(** ** Allocation *)
Lemma step_alloc t y : inv y -> step_ok t y (bump_addr (w_s y)) (fun z =>
  rely t y z /\ $own z ($naddr y) = t /\ $hist z ($naddr y) = None /\ ($naddr y < $naddr z)%N).
Proof.
  intros H. destruct y as [s gh]. set (y := mk_w s gh) in *.
  exists (mk_gh (nd gh) (pown gh) (hist gh) (upd (own gh) (s_naddr s) t) (ast gh) (tok gh) (cont gh) (stat gh)).
  set (z := mk_w _ _).
  assert (Hf : hist gh (s_naddr s) = None).
  { destruct (hist gh (s_naddr s)) eqn:E; auto. pose proof (i_adr _ _ H (s_naddr s)) as Q. cbn in Q.
    rewrite E in Q. specialize (Q ltac:(discriminate)). lia. }
  assert (Hown : forall a, (a < s_naddr s)%N -> own (w_g z) a = own gh a).
  { intros a Ha. cbn. apply upd_other. lia. }
  split; [|split; [|split; [|split; [|split]]]].
  - destruct H as [A1 A2 A3 A4 A5 A6 A7 A8 A9 A10 A11 A12]. constructor; auto.
    + intros p lf lo E. destruct (A2 _ _ _ E) as [c Hc]. exists c. eapply nok_frame; eauto. apply Hc.
    + intros a Ha. specialize (A8 a Ha). cbn in *. lia.
  - apply guar_mk; auto; cbn; try lia. left; auto.
  - constructor; auto; cbn; try lia.
  - cbn. apply upd_same.
  - exact Hf.
  - cbn. lia.
Qed.

Lemma step_newpid t y : inv y -> step_ok t y (bump_pid (w_s y)) (fun z =>
  rely t y z /\ $pown z ($npid y) = t /\ $nd z ($npid y) = None /\ (0 < $npid y < $npid z)%N).
Proof.
  intros H. destruct y as [s gh]. set (y := mk_w s gh) in *.
  exists (mk_gh (nd gh) (upd (pown gh) (s_npid s) t) (hist gh) (own gh) (ast gh) (tok gh) (cont gh) (stat gh)).
  set (z := mk_w _ _).
  assert (Hf : nd gh (s_npid s) = None).
  { destruct (nd gh (s_npid s)) eqn:E; auto. pose proof (i_pid _ _ H (s_npid s) _ E) as Q. cbn in Q. lia. }
  assert (Hown : forall a, (a < s_npid s)%N -> pown (w_g z) a = pown gh a).
  { intros a Ha. cbn. apply upd_other. lia. }
  split; [|split; [|split; [|split; [|split]]]].
  - destruct H as [A1 A2 A3 A4 A5 A6 A7 A8 A9 A10 A11 A12]. constructor; auto.
    + intros p v E. specialize (A1 p v E). cbn in *. lia.
    + intros p lf lo E. destruct (A2 _ _ _ E) as [c Hc]. exists c. eapply nok_frame; eauto. apply Hc.
    + cbn in *. lia.
  - apply guar_mk; auto; cbn; try lia. left; auto.
  - constructor; auto; cbn; try lia.
  - cbn. apply upd_same.
  - exact Hf.
  - pose proof (i_npid _ _ H). cbn in *. lia.
Qed.

(** ** Storing a page into a slot nobody knows yet *)
Lemma step_private t y p n : inv y ->
  (p < $npid y)%N -> $pown y p = t -> $nd y p = None ->
  $hist y (n_addr n) = None -> (n_addr n < $naddr y)%N -> $own y (n_addr n) = t -> n_size n <= c_page g -> (n_inner n = true -> n_recs n <> []) ->
  step_ok t y (set_tbl (w_s y) p (Some (CBase n))) (fun z =>
    $nd z = $nd y /\ $tok z = $tok y /\ $own z = $own y /\ $pown z = $pown y /\ $stat z = $stat y /\
    $naddr z = $naddr y /\ $npid z = $npid y /\
    $tbl z p = Some (CBase n) /\ (forall q, q <> p -> $tbl z q = $tbl y q) /\
    (forall a, a <> n_addr n -> $hist z a = $hist y a) /\
    (forall a v, $hist y a = Some v -> $hist z a = Some v) /\
    (forall a, $ast y a <> AFree -> $ast z a = $ast y a)).
Proof.
  intros H Hp Ho Hn Hh Ha Hw Hsz Hne0. destruct y as [s gh]. set (y := mk_w s gh) in *. cbn in Hp, Ho, Hn, Hh, Ha, Hw.
  exists (mk_gh (nd gh) (pown gh) (upd (hist gh) (n_addr n) (Some (p, CBase n))) (own gh)
            (upd (ast gh) (n_addr n) (ALive p)) (tok gh) (cont gh) (stat gh)).
  set (z := mk_w _ _).
  assert (T1 : $tbl z p = Some (CBase n)) by (cbn; apply upd_same).
  assert (T2 : forall q, q <> p -> $tbl z q = $tbl y q) by (intros; cbn; apply upd_other; auto).
  assert (H1 : forall a, a <> n_addr n -> $hist z a = $hist y a) by (intros; cbn; apply upd_other; auto).
  assert (H2 : forall a v, $hist y a = Some v -> $hist z a = Some v).
  { intros a v E. rewrite H1; auto. intros ->. cbn in E. congruence. }
  assert (Hfr : ast gh (n_addr n) = AFree) by (apply (i_fre _ _ H); auto).
  assert (S1 : forall a, $ast y a <> AFree -> $ast z a = $ast y a).
  { intros a E. cbn. apply upd_other. intros ->. cbn in E. congruence. }
  assert (Hne : forall q v, nd gh q = Some v -> q <> p) by (intros q v E ->; congruence).
  split; [|split].
  - destruct H as [A1 A2 A3 A4 A5 A6 A7 A8 A9 A10 A11 A12]. constructor; auto.
    + intros q lf lo E. destruct (A2 _ _ _ E) as [c Hc]. exists c. eapply nok_frame; eauto.
      * rewrite T2; [apply Hc|eauto].
      * intros a Ea. rewrite S1; auto. congruence.
    + intros q c E T. destruct (N.eq_dec q p) as [->|Hq].
      * rewrite T1 in T. inversion T; subst. cbn. rewrite !upd_same. split; [split; [reflexivity|split; [exact Hsz|]]|auto]. intros n0 En; injection En as <-; exact Hne0.
      * rewrite T2 in T by auto. destruct (A3 q c E T) as (B1 & B2 & B3). split; auto. split; auto.
        rewrite S1; auto. congruence.
    + intros q1 q2 l1 l2 c1 c2 k E1 E2 TT1 TT2. rewrite T2 in TT1, TT2 by eauto. eapply A4; eauto.
    + intros q l c k E TT. rewrite T2 in TT by eauto. eapply A5; eauto.
    + intros a Ea. destruct (N.eq_dec a (n_addr n)) as [->|Hq]; [exact Ha|]. rewrite H1 in Ea by auto. apply A8; auto.
    + intros a Ea. destruct (N.eq_dec a (n_addr n)) as [->|Hq]; [cbn in Ea; rewrite upd_same in Ea; discriminate|].
      rewrite H1 in Ea by auto. cbn. rewrite upd_other by auto. apply A9; auto.
    + intros a Ea. rewrite S1; [apply A11; auto|]. rewrite (A11 _ Ea). discriminate.
  - apply guar_mk; auto; try (cbn; lia).
    + intros a _ Eo En. rewrite H1; auto. intros ->. cbn in Eo. congruence.
    + intros q _ Eo En. split; auto. apply T2. intros ->. cbn in Eo. congruence.
    + intros q c T N _ _. rewrite T2; auto. intros ->. cbn in N. congruence.
    + intros a u _ E. rewrite S1; auto. congruence.
    + left; auto.
  - repeat (split; [solve [auto]|]); auto.
Qed.

(** ** Replacing the chain of a node by one with the same range *)
Lemma step_replace t y p lf lo c c' R tok' cont' stat' : inv y ->
  $nd y p = Some (lf, lo) -> $tbl y p = Some c -> ~ big c ->
  c_lo c' = c_lo c -> c_hi c' = c_hi c -> c_next c' = c_next c ->
  (if lf then lwf g c' else jwf g c') ->
  (is_base c' = true -> h_size c' <= c_page g) -> h_size c' <= c_page g + maxrec g ->
  (is_base c' = false -> h_cnt c' <= c_maxd g) ->
  (lf = false -> jkids (kid y) c') ->
  (lf = false -> forall k, find k (ients c') <> None -> tok' k = TkIn p) ->
  $hist y (h_addr c') = None -> (h_addr c' < $naddr y)%N -> $own y (h_addr c') = t ->
  NoDup (chain_addrs c') ->
  (forall b, In b (chain_addrs c') -> b = h_addr c' \/ (In b (chain_addrs c) /\ ~ In b R)) ->
  (forall b, In b R -> In b (chain_addrs c)) ->
  (forall k q, $tok y k = TkIn q -> tok' k = TkIn q) ->
  (forall k u, u <> t -> $tok y k = TkPend u -> tok' k = TkPend u) ->
  (forall k, tok' k <> TkNone -> $tok y k <> TkNone) ->
  (cont' = $cont y /\ stat' = $stat y \/
   exists o, $stat y t = SPend o /\ cont' = snd (spec ($cont y) o) /\
     stat' = tset ($stat y) t (SDone (fst (spec ($cont y) o)))) ->
  (lf = true -> forall k, in_rng lo (c_hi c) k -> lget c' k = cont' k) ->
  (forall k, cont' k = $cont y k \/ (lf = true /\ in_rng lo (c_hi c) k)) ->
  step_ok t y (set_tbl (w_s y) p (Some c')) (fun z =>
    $nd z = $nd y /\ $hist z (h_addr c') = Some (p, c') /\ $tok z = tok' /\ $own z = $own y /\
    $stat z = stat' /\ $naddr z = $naddr y /\
    (forall a v, $hist y a = Some v -> $hist z a = Some v) /\
    (forall b, In b R -> $ast z b = AOut t) /\
    (forall b, $ast y b = AOut t -> $ast z b = AOut t)).
Proof.
  intros H E T Hb L1 L2 L3 W B1 B2 B3 K1 K2 F1 F2 F3 D1 D2 D3 U1 U2 U3 EF C1 C2.
  pose proof (nok_at _ _ _ _ _ _ H E T) as Hc.
  destruct y as [s gh]. set (y := mk_w s gh) in *. cbn in E, T, F1, F2, F3.
  set (a := h_addr c') in *.
  exists (mk_gh (nd gh) (pown gh) (upd (hist gh) a (Some (p, c'))) (own gh)
            (upd (outs R t (ast gh)) a (ALive p)) tok' cont' stat').
  set (z := mk_w _ _).
  assert (T1 : $tbl z p = Some c') by (cbn; apply upd_same).
  assert (T2 : forall q, q <> p -> $tbl z q = $tbl y q) by (intros; cbn; apply upd_other; auto).
  assert (H1 : forall b, b <> a -> $hist z b = $hist y b) by (intros; cbn; apply upd_other; auto).
  assert (H2 : forall b v, $hist y b = Some v -> $hist z b = Some v).
  { intros b v Eb. rewrite H1; auto. intros ->. cbn in Eb. congruence. }
  assert (Hfr : ast gh a = AFree) by (apply (i_fre _ _ H); auto).
  assert (RL : forall b, In b R -> ast gh b = ALive p) by (intros b Hb2; apply (n_ast _ _ _ _ _ _ Hc); auto).
  assert (S1 : forall b, ast gh b <> AFree -> ~ In b R -> $ast z b = ast gh b).
  { intros b Eb Hr. cbn. rewrite upd_other by congruence. apply outs_out; auto. }
  assert (S2 : forall b, In b R -> $ast z b = AOut t).
  { intros b Hr. cbn. rewrite upd_other by (intros ->; rewrite (RL _ Hr) in Hfr; discriminate). apply outs_in; auto. }
  assert (S3 : $ast z a = ALive p) by (cbn; apply upd_same).
  assert (Hfree : forall b u, ast gh b = AOut u -> $ast z b = AOut u).
  { intros b u Eb. rewrite S1; auto; try congruence. intros Hr. rewrite (RL _ Hr) in Eb. discriminate. }
  assert (Np : nok z p lf lo c').
  { constructor; auto.
    - rewrite L1. apply Hc.
    - cbn. apply upd_same.
    - intros h Eh. rewrite L2 in Eh. rewrite L3. apply (n_link _ _ _ _ _ _ Hc); auto.
    - intros b Hb2. destruct (D2 b Hb2) as [->|[Hb3 Hb4]]; [cbn; apply upd_same|].
      pose proof (n_ast _ _ _ _ _ _ Hc b Hb3) as Q. cbn in Q. rewrite S1; auto. congruence. }
  split; [|split].
  - pose proof H as [A1 A2 A3 A4 A5 A6 A7 A8 A9 A10 A11 A12]. constructor; auto.
    + intros q lf' lo' Eq. destruct (N.eq_dec q p) as [->|Hq].
      * cbn in Eq. rewrite E in Eq. inversion Eq; subst. eauto.
      * destruct (A2 _ _ _ Eq) as [cq Hcq]. exists cq. eapply nok_frame; eauto.
        -- rewrite T2 by auto. apply Hcq.
        -- intros b Eb. change ($ast y b) with (ast gh b) in Eb. rewrite S1; auto; [congruence|].
           intros Hr. rewrite (RL _ Hr) in Eb. congruence.
    + intros q cq Eq Tq. rewrite T2 in Tq by (intros ->; cbn in Eq; congruence).
      destruct (A3 q cq Eq Tq) as (Q1 & Q2 & Q3). split; auto. split; auto.
      change ($ast y (h_addr cq)) with (ast gh (h_addr cq)) in Q3.
      rewrite S1; auto; [congruence|]. intros Hr. rewrite (RL _ Hr) in Q3. cbn in Eq. congruence.
    + assert (X : forall q cq, $tbl z q = Some cq -> exists cq', $tbl y q = Some cq' /\ c_hi cq' = c_hi cq).
      { intros q cq Tq. destruct (N.eq_dec q p) as [->|Hq].
        - rewrite T1 in Tq. inversion Tq; subst. exists c. auto.
        - rewrite T2 in Tq by auto. eauto. }
      intros q1 q2 l1 l2 c1 c2 k E1 E2 TT1 TT2 R1 R2.
      destruct (X _ _ TT1) as (c1' & V1 & V2). destruct (X _ _ TT2) as (c2' & V3 & V4).
      rewrite <- V2 in R1. rewrite <- V4 in R2. eapply A4; eauto.
    + intros q l cq k Eq TT Rk. destruct (N.eq_dec q p) as [->|Hq].
      * cbn in Eq. rewrite E in Eq. inversion Eq; subst. rewrite T1 in TT. inversion TT; subst cq.
        rewrite L2 in Rk. cbn. auto.
      * rewrite T2 in TT by auto. cbn. destruct (C2 k) as [->|[-> Rk2]]; [eapply A5; eauto|].
        exfalso. apply Hq. eapply A4; eauto.
    + intros b Eb. destruct (N.eq_dec b a) as [->|Hq]; [exact F2|]. rewrite H1 in Eb by auto. apply A8; auto.
    + intros b Eb. destruct (N.eq_dec b a) as [->|Hq]; [cbn in Eb; rewrite upd_same in Eb; discriminate|].
      rewrite H1 in Eb by auto. cbn. rewrite upd_other by auto. rewrite outs_out; [apply A9; auto|].
      intros Hr. pose proof (RL _ Hr) as Q. pose proof (A9 _ Eb) as Q2. cbn in Q2. congruence.
    + intros b Hb2. pose proof (A11 _ Hb2) as Q. cbn in Q. rewrite S1; auto; [congruence|].
      intros Hr. rewrite (RL _ Hr) in Q. discriminate.
  - apply guar_mk; auto; try (cbn; lia).
    + intros b _ Eo En. rewrite H1; auto. intros ->. cbn in Eo. congruence.
    + intros q _ _ En. split; auto. apply T2. intros ->. cbn in En. congruence.
    + intros q cq Tq N Bq _. rewrite T2; auto. intros ->. cbn in Tq. rewrite T in Tq. inversion Tq; subst. contradiction.
  - split; [auto|]. split; [cbn; apply upd_same|]. repeat (split; [solve [auto]|]). intros b. apply Hfree.
Qed.

(** ** Splitting a node *)
Lemma step_split t y p lf lo c l r rp sep tok' : inv y ->
  $nd y p = Some (lf, lo) -> $tbl y p = Some c -> big c ->
  $own y (h_addr c) = t ->
  $nd y rp = None -> $tbl y rp = Some (CBase r) -> $pown y rp = t -> (0 < rp < $npid y)%N ->
  $hist y (n_addr l) = None -> (n_addr l < $naddr y)%N -> $own y (n_addr l) = t ->
  n_low l = lo -> n_high l = Some sep -> n_next l = rp ->
  n_low r = Some sep -> n_high r = c_hi c -> n_next r = c_next c ->
  (if lf then lnode g l /\ lnode g r else jnode g l /\ jnode g r) ->
  n_size l <= c_page g -> n_size r <= c_page g -> 0 < maxrec g ->
  (lf = false -> jkids (kid y) (CBase l) /\ jkids (kid y) (CBase r)) ->
  (lf = false -> forall k, (find k (nents l) <> None -> tok' k = TkIn p) /\
                           (find k (nents r) <> None -> tok' k = TkIn rp)) ->
  (forall k q, q <> p -> $tok y k = TkIn q -> tok' k = TkIn q) ->
  (forall k u, u <> t -> $tok y k = TkPend u -> tok' k = TkPend u) ->
  (forall k, tok' k <> TkNone -> $tok y k <> TkNone \/ (lf = true /\ k = sep)) ->
  (lf = true -> in_srng lo (c_hi c) sep /\
     forall k, (in_rng lo (Some sep) k -> find k (n_recs l) = lget c k) /\
               (in_rng (Some sep) (c_hi c) k -> find k (n_recs r) = lget c k)) ->
  step_ok t y (set_tbl (w_s y) p (Some (CBase l))) (fun z =>
    keep t y z /\ $nd z rp = Some (lf, Some sep) /\ $tok z = tok' /\ $naddr z = $naddr y /\
    (forall b, In b (chain_addrs c) -> $ast z b = AOut t)).
Proof.
  intros H E T Hbig Ho En Tn Po Rn F1 F2 F3 L1 L2 L3 R1 R2 R3 W B1 B2 B0 K1 K2 U1 U2 U3 C1.
  pose proof (nok_at _ _ _ _ _ _ H E T) as Hc.
  destruct (i_prv _ _ H rp _ En Tn) as (_ & Hhr & Har).
  destruct y as [s gh]. set (y := mk_w s gh) in *. cbn in E, T, Ho, En, Tn, Po, Rn, F1, F2, F3, Hhr, Har.
  set (a := n_addr l) in *.
  exists (mk_gh (upd (nd gh) rp (Some (lf, Some sep))) (pown gh) (upd (hist gh) a (Some (p, CBase l))) (own gh)
            (upd (outs (chain_addrs c) t (ast gh)) a (ALive p)) tok' (cont gh) (stat gh)).
  set (z := mk_w _ _).
  assert (Hprp : p <> rp) by (intros ->; congruence).
  assert (T1 : $tbl z p = Some (CBase l)) by (cbn; apply upd_same).
  assert (T2 : forall q, q <> p -> $tbl z q = $tbl y q) by (intros; cbn; apply upd_other; auto).
  assert (N1 : forall q v, nd gh q = Some v -> $nd z q = Some v).
  { intros q v Eq. cbn. rewrite upd_other; auto. intros ->. congruence. }
  assert (N2 : $nd z rp = Some (lf, Some sep)) by (cbn; apply upd_same).
  assert (N3 : forall q, q <> rp -> $nd z q = nd gh q) by (intros; cbn; apply upd_other; auto).
  assert (H1 : forall b, b <> a -> $hist z b = $hist y b) by (intros; cbn; apply upd_other; auto).
  assert (H2 : forall b v, $hist y b = Some v -> $hist z b = Some v).
  { intros b v Eb. rewrite H1; auto. intros ->. cbn in Eb. congruence. }
  assert (Hfr : ast gh a = AFree) by (apply (i_fre _ _ H); auto).
  assert (RL : forall b, In b (chain_addrs c) -> ast gh b = ALive p) by (intros b Hb2; apply (n_ast _ _ _ _ _ _ Hc); auto).
  assert (S1 : forall b, ast gh b <> AFree -> ast gh b <> ALive p -> $ast z b = ast gh b).
  { intros b Eb Hr. cbn. rewrite upd_other by congruence. apply outs_out. intros Hin. apply RL in Hin. contradiction. }
  assert (S2 : forall b, In b (chain_addrs c) -> $ast z b = AOut t).
  { intros b Hr. cbn. rewrite upd_other by (intros ->; rewrite (RL _ Hr) in Hfr; discriminate). apply outs_in; auto. }
  assert (KK : forall l v, kid y l v -> kid z l v) by (intros ? v [b Hb]; exists b; auto).
  assert (Np : nok z p lf lo (CBase l)).
  { constructor; auto.
    - destruct lf; apply W.
    - cbn. apply upd_same.
    - cbn. lia.
    - discriminate.
    - intros h Eh. unfold c_hi in Eh. cbn in Eh. rewrite L2 in Eh. inversion Eh; subst h.
      unfold c_next. cbn [c_front]. rewrite L3. exact N2.
    - intros Ef. eapply jkids_impl; [apply KK|apply K1; auto].
    - intros Ef k. apply K2; auto.
    - cbn. constructor; [easy|constructor].
    - cbn [chain_addrs]. intros b [<-|[]]. cbn. apply upd_same. }
  assert (Nr : nok z rp lf (Some sep) (CBase r)).
  { constructor; auto.
    - rewrite T2 by auto. exact Tn.
    - destruct lf; apply W.
    - cbn. lia.
    - discriminate.
    - intros h Eh. unfold c_hi in Eh. cbn in Eh. rewrite R2 in Eh.
      unfold c_next. cbn [c_front]. rewrite R3. apply N1. apply (n_link _ _ _ _ _ _ Hc); auto.
    - intros Ef. eapply jkids_impl; [apply KK|apply K1; auto].
    - intros Ef k. apply K2; auto.
    - cbn. constructor; [easy|constructor].
    - cbn [chain_addrs]. intros b [<-|[]]. cbn in Har. rewrite S1; auto; congruence. }
  split; [|split].
  - pose proof H as [A1 A2 A3 A4 A5 A6 A7 A8 A9 A10 A11 A12]. constructor; auto.
    + intros q v Eq. destruct (N.eq_dec q rp) as [->|Hq]; [exact Rn|]. rewrite N3 in Eq by auto. apply (A1 q v Eq).
    + intros q lf' lo' Eq. destruct (N.eq_dec q rp) as [->|Hq].
      { rewrite N2 in Eq. inversion Eq; subst. eauto. }
      rewrite N3 in Eq by auto. destruct (N.eq_dec q p) as [->|Hq2].
      { rewrite E in Eq. inversion Eq; subst. eauto. }
      destruct (A2 _ _ _ Eq) as [cq Hcq]. exists cq. eapply nok_frame; eauto.
      * rewrite T2 by auto. apply Hcq.
      * intros b Eb. change ($ast y b) with (ast gh b) in Eb. rewrite S1; auto; congruence.
    + intros q cq Eq Tq. assert (Hq : q <> rp) by (intros ->; congruence). rewrite N3 in Eq by auto.
      assert (Hq2 : q <> p) by (intros ->; congruence). rewrite T2 in Tq by auto.
      destruct (A3 q cq Eq Tq) as (Q1 & Q2 & Q3). split; auto. split; auto.
      change ($ast y (h_addr cq)) with (ast gh (h_addr cq)) in Q3. rewrite S1; auto; congruence.
    + (* disjoint leaves *)
      assert (X : forall q lq cq k, $nd z q = Some (true, lq) -> $tbl z q = Some cq -> in_rng lq (c_hi cq) k ->
        exists q' lq' cq', nd gh q' = Some (true, lq') /\ s_tbl s q' = Some cq' /\ in_rng lq' (c_hi cq') k /\
          (q' = q \/ (q' = p /\ q = rp)) /\ (q = p -> k < sep) /\ (q = rp -> sep <= k)).
      { intros q lq cq k Eq Tq Rk. destruct (N.eq_dec q rp) as [->|Hq].
        - rewrite N2 in Eq. inversion Eq; subst lf lq. rewrite T2 in Tq by auto. cbn in Tq. rewrite Tn in Tq. inversion Tq; subst cq.
          exists p, lo, c. split; auto. split; auto. unfold c_hi in Rk. cbn in Rk. rewrite R2 in Rk.
          destruct (C1 eq_refl) as [Cs _]. split; [|split; [auto|split; [congruence|]]].
          + destruct Rk as [Rk1 Rk2]. destruct Cs as [Cs1 Cs2]. split; auto. simpl in Rk1.
            destruct lo; simpl in *; auto. lia.
          + intros _. destruct Rk as [Rk1 _]. exact Rk1.
        - rewrite N3 in Eq by auto. destruct (N.eq_dec q p) as [->|Hq2].
          + rewrite E in Eq. inversion Eq; subst lf lq. rewrite T1 in Tq. inversion Tq; subst cq.
            exists p, lo, c. split; auto. split; auto. unfold c_hi in Rk. cbn in Rk. rewrite L2 in Rk.
            destruct (C1 eq_refl) as [Cs _]. split; [|split; [auto|split; [|congruence]]].
            * destruct Rk as [Rk1 Rk2]. destruct Cs as [Cs1 Cs2]. split; auto. simpl in Rk2.
              destruct (c_hi c); simpl in *; auto. lia.
            * intros _. destruct Rk as [_ Rk2]. exact Rk2.
          + exists q, lq, cq. rewrite T2 in Tq by auto. split; auto. split; auto. split; auto. split; auto.
            split; congruence. }
      intros q1 q2 l1 l2 c1 c2 k E1 E2 TT1 TT2 K3 K4.
      destruct (X _ _ _ _ E1 TT1 K3) as (q1' & l1' & c1' & V1 & V2 & V3 & V4 & V5 & V6).
      destruct (X _ _ _ _ E2 TT2 K4) as (q2' & l2' & c2' & W1 & W2 & W3 & W4 & W5 & W6).
      assert (q1' = q2') by (eapply A4; eauto). subst q2'.
      destruct V4 as [->|[-> ->]], W4 as [->|[V ->]]; auto.
      * subst q1. specialize (V5 eq_refl). specialize (W6 eq_refl). lia.
      * specialize (V6 eq_refl). specialize (W5 eq_refl). lia.
    + intros q lq cq k Eq Tq Rk. cbn [w_g cont z]. destruct (N.eq_dec q rp) as [->|Hq].
      { rewrite N2 in Eq. inversion Eq; subst lf lq. rewrite T2 in Tq by auto. cbn in Tq. rewrite Tn in Tq. inversion Tq; subst cq.
        unfold c_hi in Rk. cbn in Rk. rewrite R2 in Rk. destruct (C1 eq_refl) as [Cs Ck].
        unfold lget. cbn [lrecs]. rewrite (proj2 (Ck k)) by auto. apply (A5 p lo c k); auto.
        destruct Rk as [Rk1 Rk2]. destruct Cs as [Cs1 Cs2]. split; auto. simpl in Rk1. destruct lo; simpl in *; auto. lia. }
      rewrite N3 in Eq by auto. destruct (N.eq_dec q p) as [->|Hq2].
      { rewrite E in Eq. inversion Eq; subst lf lq. rewrite T1 in Tq. inversion Tq; subst cq.
        unfold c_hi in Rk. cbn in Rk. rewrite L2 in Rk. destruct (C1 eq_refl) as [Cs Ck].
        unfold lget. cbn [lrecs]. rewrite (proj1 (Ck k)) by auto. apply (A5 p lo c k); auto.
        destruct Rk as [Rk1 Rk2]. destruct Cs as [Cs1 Cs2]. split; auto. simpl in Rk2. destruct (c_hi c); simpl in *; auto. lia. }
      rewrite T2 in Tq by auto. eapply A5; eauto.
    + intros k Hk. destruct (U3 k Hk) as [Hk2|[-> ->]].
      * destruct (A6 k Hk2) as [q Hq]. exists q. auto.
      * exists rp. exact N2.
    + destruct A7 as [b Hb]. exists b. auto.
    + intros b Eb. destruct (N.eq_dec b a) as [->|Hq]; [exact F2|]. rewrite H1 in Eb by auto. apply A8; auto.
    + intros b Eb. destruct (N.eq_dec b a) as [->|Hq]; [cbn in Eb; rewrite upd_same in Eb; discriminate|].
      rewrite H1 in Eb by auto. cbn. rewrite upd_other by auto. rewrite outs_out; [apply A9; auto|].
      intros Hr. pose proof (RL _ Hr) as Q. pose proof (A9 _ Eb) as Q2. cbn in Q2. congruence.
    + intros b Hb2. pose proof (A11 _ Hb2) as Q. cbn in Q. rewrite S1; auto; congruence.
  - apply guar_mk; auto; try (cbn; lia).
    + intros b _ Eo Eb. rewrite H1; auto. intros ->. cbn in Eo. congruence.
    + intros q _ Eo Eq. assert (q <> rp) by (intros ->; cbn in Eo; congruence). rewrite N3 by auto. split; auto.
      apply T2. intros ->. cbn in Eq. congruence.
    + intros q cq Tq N Bq Oq. rewrite T2; auto. intros ->. cbn in Tq. rewrite T in Tq. inversion Tq; subst. cbn in Oq. congruence.
    + intros b u _ Eb. cbn in Eb. rewrite S1; auto; congruence.
    + left; auto.
  - split; [constructor; auto|].
    + intros b Eb. cbn in Eb. rewrite S1; auto; congruence.
    + repeat (split; [solve [auto]|]). exact S2.
Qed.

(** ** Linking a new root *)
Lemma step_newroot t y np n old rp sep b0 b1 : inv y ->
  $nd y np = None -> $pown y np = t -> (0 < np < $npid y)%N -> $tbl y np = None \/ True ->
  $nd y old = Some (b0, None) -> $nd y rp = Some (b1, Some sep) -> $tok y sep = TkPend t ->
  $hist y (n_addr n) = None -> (n_addr n < $naddr y)%N -> $own y (n_addr n) = t ->
  jnode g n -> n_low n = None -> n_high n = None -> nlead n = old -> nents n = [(sep, rp)] ->
  n_size n <= c_page g -> 0 < maxrec g ->
  step_ok t y (set_tbl (w_s y) np (Some (CBase n))) (fun z =>
    keep t y z /\ $nd z np = Some (false, None)).
Proof.
  intros H En Po Rn _ Eo Er Et F1 F2 F3 W L1 L2 L3 L4 B1 B0.
  destruct y as [s gh]. set (y := mk_w s gh) in *. cbn in En, Po, Rn, Eo, Er, Et, F1, F2, F3.
  set (a := n_addr n) in *.
  exists (mk_gh (upd (nd gh) np (Some (false, None))) (pown gh) (upd (hist gh) a (Some (np, CBase n))) (own gh)
            (upd (ast gh) a (ALive np)) (fun k => if k =? sep then TkIn np else tok gh k) (cont gh) (stat gh)).
  set (z := mk_w _ _).
  assert (T1 : $tbl z np = Some (CBase n)) by (cbn; apply upd_same).
  assert (T2 : forall q, q <> np -> $tbl z q = $tbl y q) by (intros; cbn; apply upd_other; auto).
  assert (N1 : forall q v, nd gh q = Some v -> $nd z q = Some v).
  { intros q v Eq. cbn. rewrite upd_other; auto. intros ->. congruence. }
  assert (N2 : $nd z np = Some (false, None)) by (cbn; apply upd_same).
  assert (N3 : forall q, q <> np -> $nd z q = nd gh q) by (intros; cbn; apply upd_other; auto).
  assert (H1 : forall b, b <> a -> $hist z b = $hist y b) by (intros; cbn; apply upd_other; auto).
  assert (H2 : forall b v, $hist y b = Some v -> $hist z b = Some v).
  { intros b v Eb. rewrite H1; auto. intros ->. cbn in Eb. congruence. }
  assert (Hfr : ast gh a = AFree) by (apply (i_fre _ _ H); auto).
  assert (S1 : forall b, ast gh b <> AFree -> $ast z b = ast gh b).
  { intros b Eb. cbn. rewrite upd_other by congruence. auto. }
  assert (U1 : forall k, k <> sep -> $tok z k = tok gh k).
  { intros k Hk. cbn. destruct (Z.eqb_spec k sep); congruence. }
  assert (U2 : $tok z sep = TkIn np) by (cbn; rewrite Z.eqb_refl; auto).
  assert (Nn : nok z np false None (CBase n)).
  { constructor; auto.
    - cbn. apply upd_same.
    - cbn. lia.
    - discriminate.
    - intros h Eh. unfold c_hi in Eh. cbn in Eh. congruence.
    - intros _. cbn [jkids]. rewrite L1, L3, L4. split; [exists b0; auto|]. constructor; [|constructor].
      cbn. exists b1; auto.
    - intros _ k. cbn [ients]. rewrite L4. cbn [find]. destruct (Z.eqb_spec sep k); [subst; auto|congruence].
    - cbn. constructor; [easy|constructor].
    - cbn [chain_addrs]. intros b [<-|[]]. cbn. apply upd_same. }
  split; [|split].
  - pose proof H as [A1 A2 A3 A4 A5 A6 A7 A8 A9 A10 A11 A12]. constructor; auto.
    + intros q v Eq. destruct (N.eq_dec q np) as [->|Hq]; [exact Rn|]. rewrite N3 in Eq by auto. apply (A1 q v Eq).
    + intros q lf' lo' Eq. destruct (N.eq_dec q np) as [->|Hq].
      { rewrite N2 in Eq. inversion Eq; subst. eauto. }
      rewrite N3 in Eq by auto. destruct (A2 _ _ _ Eq) as [cq Hcq]. exists cq. eapply nok_frame; eauto.
      * rewrite T2 by auto. apply Hcq.
      * intros b Eb. change ($ast y b) with (ast gh b) in Eb. rewrite S1; auto; congruence.
      * intros k Ek. rewrite U1; auto. intros ->. cbn in Ek. congruence.
    + intros q cq Eq Tq. assert (Hq : q <> np) by (intros ->; congruence). rewrite N3 in Eq by auto.
      rewrite T2 in Tq by auto. destruct (A3 q cq Eq Tq) as (Q1 & Q2 & Q3). split; auto. split; auto.
      change ($ast y (h_addr cq)) with (ast gh (h_addr cq)) in Q3. rewrite S1; auto; congruence.
    + intros q1 q2 l1 l2 c1 c2 k E1 E2 TT1 TT2.
      assert (q1 <> np) by (intros ->; congruence). assert (q2 <> np) by (intros ->; congruence).
      rewrite N3 in E1, E2 by auto. rewrite T2 in TT1, TT2 by auto. eapply A4; eauto.
    + intros q l c k E1 TT. assert (q <> np) by (intros ->; congruence).
      rewrite N3 in E1 by auto. rewrite T2 in TT by auto. eapply A5; eauto.
    + intros k Hk. destruct (Z.eq_dec k sep) as [->|Hne].
      * destruct (A6 sep) as [q Hq]; [cbn; rewrite Et; discriminate|]. exists q. auto.
      * rewrite U1 in Hk by auto. destruct (A6 k Hk) as [q Hq]. exists q. auto.
    + destruct A7 as [b Hb]. exists b. auto.
    + intros b Eb. destruct (N.eq_dec b a) as [->|Hq]; [exact F2|]. rewrite H1 in Eb by auto. apply A8; auto.
    + intros b Eb. destruct (N.eq_dec b a) as [->|Hq]; [cbn in Eb; rewrite upd_same in Eb; discriminate|].
      rewrite H1 in Eb by auto. cbn. rewrite upd_other by auto. apply A9; auto.
    + intros b Hb2. pose proof (A11 _ Hb2) as Q. cbn in Q. rewrite S1; auto; congruence.
  - apply guar_mk; auto; try (cbn; lia).
    + intros b _ Ew Eb. rewrite H1; auto. intros ->. cbn in Ew. congruence.
    + intros q _ Ew Eq. assert (q <> np) by (intros ->; cbn in Ew; congruence). rewrite N3 by auto. split; auto.
    + intros q cq Tq N Bq Oq. rewrite T2; auto. intros ->. cbn in N. congruence.
    + intros k u Hu Ek. rewrite U1; auto. intros ->. cbn in Ek. congruence.
    + intros b u _ Eb. cbn in Eb. rewrite S1; auto; congruence.
    + left; auto.
  - split; [constructor; auto|exact N2]. intros b Eb. cbn in Eb. rewrite S1; auto; congruence.
Qed.

(** ** Root word, garbage collector, linearization without a memory change *)
Lemma step_root t y np b : inv y -> $nd y np = Some (b, None) ->
  step_ok t y (set_root (w_s y) np) (fun z => keep t y z).
Proof.
  intros H E. destruct y as [s gh]. set (y := mk_w s gh) in *. exists gh. set (z := mk_w _ _).
  split; [|split].
  - destruct H as [A1 A2 A3 A4 A5 A6 A7 A8 A9 A10 A11 A12]. constructor; auto.
    + intros p lf lo Ep. destruct (A2 _ _ _ Ep) as [c Hc]. exists c. eapply nok_frame; eauto. apply Hc.
    + exists b. exact E.
  - apply guar_mk; auto; try (cbn; lia). left; auto.
  - constructor; auto.
Qed.

Lemma step_retire t y l : inv y -> NoDup l -> (forall a, In a l -> $ast y a = AOut t) ->
  step_ok t y (add_gc (w_s y) l) (fun z => $nd z = $nd y /\ $hist z = $hist y /\ $stat z = $stat y /\
    (forall a, ~ In a l -> $ast z a = $ast y a)).
Proof.
  intros H Hd Hl. destruct y as [s gh]. set (y := mk_w s gh) in *.
  exists (mk_gh (nd gh) (pown gh) (hist gh) (own gh) (fun a => if existsb (N.eqb a) l then AGone else ast gh a)
            (tok gh) (cont gh) (stat gh)). set (z := mk_w _ _).
  assert (S1 : forall a, ~ In a l -> $ast z a = ast gh a).
  { intros a Ha. cbn. destruct (existsb (N.eqb a) l) eqn:E; auto. apply existsb_exists in E as (b & Hb & E).
    apply N.eqb_eq in E. subst. contradiction. }
  assert (S2 : forall a, In a l -> $ast z a = AGone).
  { intros a Ha. cbn. replace (existsb (N.eqb a) l) with true; auto. symmetry. apply existsb_exists.
    exists a. split; auto. apply N.eqb_refl. }
  assert (S3 : forall a, ast gh a <> AOut t -> $ast z a = ast gh a).
  { intros a Ha. apply S1. intros Hin. apply Hl in Hin. cbn in Hin. contradiction. }
  split; [|split].
  - pose proof H as [A1 A2 A3 A4 A5 A6 A7 A8 A9 A10 A11 A12]. constructor; auto.
    + intros p lf lo Ep. destruct (A2 _ _ _ Ep) as [c Hc]. exists c. eapply nok_frame; eauto; [apply Hc|].
      intros a Ea. cbn in Ea. rewrite S3; auto. congruence.
    + intros q cq Eq Tq. destruct (A3 q cq Eq Tq) as (Q1 & Q2 & Q3). split; auto. split; auto.
      change ($ast y (h_addr cq)) with (ast gh (h_addr cq)) in Q3. rewrite S3; auto; congruence.
    + intros a Ha. pose proof (A9 a Ha) as Q. change ($ast y a) with (ast gh a) in Q. rewrite S3; auto. congruence.
    + cbn. cbn in A10, A11, Hl. clear -A10 Hd A11 Hl. revert A10 A11. generalize (s_gc s). intros gcl A10 A11.
      assert (X : forall a, In a gcl -> ~ In a l).
      { intros a Ha Ha2. specialize (Hl _ Ha2). specialize (A11 _ Ha). congruence. }
      clear A11 Hl. induction gcl as [|b gcl IH]; auto. cbn. inversion A10; subst. constructor.
      * rewrite in_app_iff. intros [?|?]; [contradiction|]. apply (X b); [left; auto|auto].
      * apply IH; auto. intros a Ha. apply X. right; auto.
    + intros a Ha. cbn in Ha. apply in_app_iff in Ha as [Ha|Ha]; [|apply S2; auto].
      pose proof (A11 _ Ha) as Q. cbn in Q. rewrite S3; auto; congruence.
  - apply guar_mk; auto; try (cbn; lia); [|left; auto]. intros a u Hu Ea. cbn in Ea. rewrite S3; auto. congruence.
  - auto.
Qed.

(** A call takes effect without changing memory. *)
Lemma step_lin t y o : inv y -> $stat y t = SPend o -> snd (spec ($cont y) o) = $cont y ->
  step_ok t y (w_s y) (fun z => $nd z = $nd y /\ $stat z t = SDone (fst (spec ($cont y) o))).
Proof.
  intros H E Ec. destruct y as [s gh]. set (y := mk_w s gh) in *.
  exists (mk_gh (nd gh) (pown gh) (hist gh) (own gh) (ast gh) (tok gh) (cont gh)
            (tset (stat gh) t (SDone (fst (spec (cont gh) o))))). set (z := mk_w _ _).
  split; [|split].
  - destruct H as [A1 A2 A3 A4 A5 A6 A7 A8 A9 A10 A11 A12]. constructor; auto.
    intros p lf lo Ep. destruct (A2 _ _ _ Ep) as [c Hc]. exists c. eapply nok_frame; eauto. apply Hc.
  - apply guar_mk; auto; try (cbn; lia). right. exists o. cbn in *. split; auto.
  - split; auto. cbn. unfold tset. rewrite Nat.eqb_refl. auto.
Qed.
End Steps.
