(** Inner chains as concurrent splits may leave them.

    Racing root splits can put an index entry into a node whose key range does
    not contain its separator, so this file works with a weaker notion than
    [iwf]: entries are only bounded from below, by the low key of the node, and
    one entry may carry the low key itself. *)
From Coq Require Import ZArith NArith List Bool Lia.
From Coq Require Import Sorting.Sorted ZifyBool ZifyNat ZifyN.
From Verif Require Import Config Page ListFacts SearchFacts ChainFacts ConsFacts Valid ConsolidateFacts.
Import ListNotations.
Open Scope Z_scope.

Definition hi_le (hi : option key) (k : key) : Prop :=
  match hi with Some h => k <= h | None => True end.
Definition rng_le (lo hi : option key) : Prop :=
  match hi with Some h => lo_ok lo h | None => True end.

Definition jnode (g : cfg) (n : node) : Prop :=
  n_inner n = true /\
  (exists k0, n_recs n = (k0, nlead n) :: nents n /\
     match n_low n with Some l => k0 = l | None => True end) /\
  sorted (nents n) /\
  Forall (fun r => lo_lt (n_low n) (fst r) /\ hi_le (n_high n) (fst r)) (nents n) /\
  rng_le (n_low n) (n_high n) /\
  n_size n = ibytes g (n_low n) (n_high n) (nents n).

Fixpoint jwf (g : cfg) (c : chain) : Prop :=
  match c with
  | CBase n => jnode g n
  | CRec d nx =>
      jwf g nx /\ d_inner d = true /\ d_type d = DInsert /\
      lo_ok (c_lo nx) (d_key d) /\ hi_le (c_hi nx) (d_key d) /\
      d_cnt d = next_cnt nx /\ find (d_key d) (ients nx) = None /\
      d_size d = h_size nx + recsz g ptrlen (d_key d)
  | CMerge _ _ _ | CRemove _ _ => False
  end.

(** One more index record than the page really needs has to be affordable: the
    node size counts an entry for the low key twice. *)
Definition hdr_ok (g : cfg) : Prop :=
  metalen g + c_maxklen g + ptrlen <= 2 * c_hdr g + kovh g.

Lemma jwf_inner g c : jwf g c -> h_leaf c = false.
Proof.
  destruct c; cbn [jwf h_leaf]; try tauto.
  - intros (H & _). rewrite H; auto.
  - intros (_ & H & _). rewrite H; auto.
Qed.

Lemma jwf_mhigh g c : jwf g c -> mhigh_ok c.
Proof. induction c; cbn [jwf mhigh_ok]; tauto. Qed.

Lemma jwf_base g c : jwf g c -> jnode g (c_base c).
Proof. induction c; cbn [jwf c_base]; tauto. Qed.

Lemma jwf_front g c : jwf g c -> c_front c = c_base c.
Proof. induction c; cbn [jwf c_base c_front]; tauto. Qed.

Lemma jwf_sorted g c : jwf g c ->
  sorted (ients c) /\ Forall (fun r => lo_ok (c_lo c) (fst r) /\ hi_le (c_hi c) (fst r)) (ients c).
Proof.
  induction c as [n|d nx IH|d n nx IH|]; cbn [jwf]; try tauto.
  - intros (_ & _ & S & F & _). split; auto. eapply Forall_impl; [|apply F]. unfold c_lo, lo_ok, lo_lt. cbn [c_base].
    intros x [Hx Hy]. split; auto. destruct (n_low n); auto. lia.
  - intros (H & _ & T & L & L2 & _). destruct (IH H) as [IH1 IH2]. rewrite c_lo_rec, c_hi_rec. cbn [ients]. rewrite T.
    split; [apply put_sorted|apply put_forall]; auto.
Qed.

Lemma jwf_size g c : jwf g c -> h_size c = ibytes g (c_lo c) (c_hi c) (ients c).
Proof.
  induction c as [n|d nx IH|d n nx IH|]; cbn [jwf]; try tauto.
  - intros (_ & _ & _ & _ & _ & H). exact H.
  - intros (H & _ & T & _ & _ & _ & N & Z). specialize (IH H). rewrite c_lo_rec, c_hi_rec.
    pose proof (jwf_sorted _ _ H) as [Hs _]. unfold ibytes in *. cbn [h_size ients]. rewrite T, Z.
    rewrite csum_put_new by auto. lia.
Qed.

Lemma jwf_ndelta g c : jwf g c -> is_base c = false -> Z.of_nat (ndelta c) = h_cnt c.
Proof.
  induction c as [n|d nx IH|d n nx IH|]; cbn [jwf]; intros Hw Hb; try contradiction; try discriminate.
  destruct Hw as (Hw & _ & _ & _ & _ & Hc & _). cbn [ndelta h_cnt]. rewrite Hc. unfold next_cnt.
  destruct (is_base nx) eqn:E; [destruct nx; try discriminate; reflexivity|].
  specialize (IH Hw eq_refl). lia.
Qed.

(** ** Searching for a child *)

(** The children of an inner chain and the separators they are listed under. *)
Fixpoint jkids (P : option key -> pid -> Prop) (c : chain) : Prop :=
  match c with
  | CBase n => P (n_low n) (nlead n) /\ Forall (fun r => P (Some (fst r)) (snd r)) (nents n)
  | CRec d nx => P (Some (d_key d)) (d_pay d) /\ jkids P nx
  | _ => True
  end.

Lemma jkids_impl (P Q : option key -> pid -> Prop) c :
  (forall l p, P l p -> Q l p) -> jkids P c -> jkids Q c.
Proof.
  intros H. induction c; cbn [jkids]; auto; intros [A B]; split; auto.
  eapply Forall_impl; [|apply B]. cbn beta. auto.
Qed.

Definition ole (a b : option key) : Prop :=
  match a, b with
  | None, _ => True
  | Some x, Some y => x <= y
  | Some _, None => False
  end.
Lemma ole_refl a : ole a a. Proof. destruct a; simpl; auto; lia. Qed.
Lemma ole_trans a b c : ole a b -> ole b c -> ole a c.
Proof. destruct a, b, c; simpl; auto; try tauto; lia. Qed.
Lemma ole_lo a b k : ole a b -> lo_ok b k -> lo_ok a k.
Proof. destruct a, b; simpl; auto; try tauto; lia. Qed.

Inductive jres (P : option key -> pid -> Prop) (c : chain) (k : key) (closed : bool) : dres -> Prop :=
| jr_found l v : P l v -> ole (c_lo c) l -> lo_ok l (eff k closed) -> jres P c k closed (RFound v)
| jr_base n l v : node_search_child n k closed = Some v -> P l v -> ole (c_lo c) l -> lo_ok l (eff k closed) ->
    jres P c k closed (RBase n)
| jr_sib h : c_hi c = Some h -> h <= eff k closed -> jres P c k closed (RSibling (c_next c)).

Lemma j_search_child g P c k closed : jwf g c -> jkids P c -> lo_ok (c_lo c) (eff k closed) ->
  jres P c k closed (dc_search_child c k closed false).
Proof.
  induction c as [n|d nx IH|d n nx IH|]; intros Hw HP Hk; cbn [jwf jkids] in *; try tauto.
  - cbn [dc_search_child negb andb]. destruct (high_ge (n_high n) k (negb closed)) eqn:E; cbn [negb].
    + destruct Hw as (_ & (k0 & E0 & K0) & S & F & _). destruct HP as [HP1 HP2].
      pose proof (node_search_child_spec n k closed _ _ _ E0 S) as R.
      destruct (route_in (eff k closed) (nlead n) (nents n)) as [R1|(x & R1 & R2)].
      * eapply jr_base; [exact R| | |].
        -- rewrite R1. exact HP1.
        -- apply ole_refl.
        -- exact Hk.
      * rewrite Forall_forall in HP2, F. eapply jr_base with (l := Some x); [exact R| | |].
        -- apply (HP2 _ R1).
        -- destruct (F _ R1) as [F1 _]. cbn [fst] in F1. unfold c_lo. cbn [c_base]. destruct (n_low n); simpl in *; auto. lia.
        -- exact R2.
    + apply high_ge_hi_f in E as (h & E & L). apply jr_sib with (h := h); auto.
  - destruct Hw as (Hw & _ & T & L & _). destruct HP as [HP1 HP2]. specialize (IH Hw HP2 Hk).
    cbn [dc_search_child]. rewrite T, low_le_eff.
    destruct ((d_key d <=? eff k closed) && high_ge (d_high d) k (negb closed)) eqn:E.
    + apply andb_prop in E as [E _]. apply jr_found with (l := Some (d_key d)); auto.
      simpl. lia.
    + inversion IH; subst; [eapply jr_found|eapply jr_base|rewrite <- (c_next_rec d nx); eapply jr_sib]; eauto.
Qed.

Lemma jwf_validate g c k closed : jwf g c ->
  dc_validate c k closed =
  match c_hi c with
  | Some h => if eff k closed <? h then VOk else VSibling (c_next c)
  | None => VOk
  end.
Proof. intros H. apply validate_spec. eapply jwf_mhigh; eauto. Qed.

(** ** Consolidation *)

(** The records of the consolidated page: an entry for the low key takes the
    place of the leading child. *)
Definition jdup (c : chain) : option val :=
  match c_lo c with Some l => find l (ients c) | None => None end.
Definition jfst (c : chain) : key * val :=
  (ikey0 c, match jdup c with Some v => v | None => ilead c end).
Definition jrest (c : chain) : list (key * val) :=
  match c_lo c with Some l => del l (ients c) | None => ients c end.

Lemma jkey0_spec g c : jwf g c ->
  n_recs (c_base c) = (ikey0 c, ilead c) :: nents (c_base c) /\
  match c_lo c with Some l => ikey0 c = l | None => True end.
Proof.
  induction c as [n|d nx IH|d n nx IH|]; intros Hw; cbn [jwf] in Hw; try contradiction.
  - destruct Hw as (_ & (k0 & E & H) & _). unfold c_lo. cbn [c_base ikey0 ilead]. rewrite E. simpl. auto.
  - cbn [c_base ikey0 ilead]. rewrite c_lo_rec. apply IH, Hw.
Qed.

Lemma jnewest g c : jwf g c -> 
  (forall k d, newest k c = Some d -> d_key d = k /\ dval d = Some (d_pay d)) /\
  (forall k, find k (ients c) = match newest k c with Some d => dval d | None => find k (nents (c_base c)) end).
Proof.
  induction c as [n|d nx IH|d n nx IH|]; intros Hw; cbn [jwf] in Hw; try contradiction.
  - split; [discriminate|reflexivity].
  - destruct Hw as (Hw & _ & T & _). destruct (IH Hw) as [N L]. cbn [newest ients c_base]. rewrite T. split.
    + intros k d' H. destruct (Z.eqb_spec (d_key d) k); auto. inversion H; subst. unfold dval. rewrite T. auto.
    + intros k. destruct (jwf_sorted _ _ Hw) as [Hs _]. rewrite find_put, Z.eqb_sym by auto.
      destruct (Z.eqb_spec (d_key d) k); auto. unfold dval. rewrite T. auto.
Qed.

Lemma jpages g c : jwf g c -> rev (pages c) = [c_base c].
Proof. induction c; cbn [jwf pages c_base]; try tauto. Qed.

Lemma jrest_spec g c : jwf g c -> 
  sorted (jrest c) /\ Forall (fun r => lo_lt (c_lo c) (fst r) /\ hi_le (c_hi c) (fst r)) (jrest c).
Proof.
  intros Hw. destruct (jwf_sorted _ _ Hw) as [S F]. unfold jrest. destruct (c_lo c) as [l|] eqn:El.
  - split; [apply del_sorted; auto|]. apply Forall_forall. intros x Hx. pose proof (del_in _ _ _ Hx) as Hx2.
    rewrite Forall_forall in F. destruct (F _ Hx2) as [F1 F2]. split; auto. cbn in F1 |- *.
    assert (fst x <> l); [|lia]. intros E. destruct x as [y v]. cbn [fst] in *. subst y.
    pose proof (in_find _ _ _ (del_sorted l _ S) Hx) as Q. rewrite find_del, Z.eqb_refl in Q by auto. discriminate.
  - split; auto.
Qed.

Lemma jwf_rng g c : jwf g c -> rng_le (c_lo c) (c_hi c).
Proof.
  intros Hw. pose proof (jwf_base _ _ Hw) as (_ & _ & _ & _ & R & _). unfold c_lo, c_hi.
  rewrite (jwf_front _ _ Hw). auto.
Qed.

Lemma merge_nodes_j g c ds s : jwf g c -> sorted (da ds) -> (forall k, find k (da ds) = newest k c) ->
  merge_nodes g ptrlen (rev (pages c)) ds s =
  cpr g ptrlen (jrest c) (copy_rec g (ifirst g (c_lo c)) (jfst c) s).
Proof.
  intros Hw Hs Hn. rewrite (jpages g c Hw). destruct (jkey0_spec g c Hw) as [R K].
  destruct (jwf_base g c Hw) as (Hi & _ & Sb & Fb & _). destruct (jnewest g c Hw) as [N L].
  destruct (jwf_sorted _ _ Hw) as [Si Fi]. destruct (jrest_spec _ _ Hw) as [Sj Fj].
  destruct (tot_spec (nents (c_base c)) ds Sb Hs) as [T1 T2].
  assert (Fb' : Forall (fun r => lo_lt (c_lo c) (fst r)) (nents (c_base c))).
  { eapply Forall_impl; [|apply Fb]. cbn. tauto. }
  assert (Fj' : Forall (fun r => lo_lt (c_lo c) (fst r)) (jrest c)).
  { eapply Forall_impl; [|apply Fj]. cbn. tauto. }
  unfold jfst, jdup, jrest in *.
  destruct (c_lo c) as [l|] eqn:El; unfold c_lo in El.
  - assert (Pl : plain (c_base c)) by (unfold plain, is_leftmost; rewrite El; apply andb_false_r).
    rewrite merge_nodes_plain by (constructor; auto). cbn [map concat]. rewrite app_nil_r, R, K.
    assert (Sa : sorted ((l, ilead c) :: nents (c_base c))) by (apply sorted_cons; auto).
    destruct (tot_spec _ ds Sa Hs) as [U1 U2].
    set (v := match find l (ients c) with Some v => v | None => ilead c end).
    replace (tot ((l, ilead c) :: nents (c_base c)) ds) with ((l, v) :: del l (ients c)).
    + reflexivity.
    + apply sorted_ext; auto.
      * apply sorted_cons; auto.
      * intros k. rewrite U2. unfold overlay. rewrite Hn. cbn [find]. rewrite find_del by auto.
        destruct (Z.eqb_spec l k) as [->|Hne].
        -- unfold v. rewrite L. destruct (newest k c) as [d|] eqn:En.
           ++ destruct (N _ _ En) as [_ ->]. auto.
           ++ rewrite (find_none_lt k (nents (c_base c))); auto.
        -- destruct (Z.eqb_spec k l); [congruence|]. apply L.
  - cbn [merge_nodes]. unfold merge_node, is_leftmost. rewrite Hi, El. cbn [andb]. rewrite R, merge_mrg.
    replace (ients c) with (tot (nents (c_base c)) ds).
    + unfold tot. destruct (mrg (nents (c_base c)) ds) as [r o]. cbn [fst snd].
      rewrite cpr_app. cbn [ifirst].
      generalize (cpr g ptrlen o (copy_rec g (nullsz g) (ikey0 c, ilead c) s)).
      clear. induction r as [|d r IH]; intros s; auto. cbn [fold_left]. rewrite IH, copy_delta_cpr.
      unfold drecs. cbn [flat_map]. rewrite cpr_app. reflexivity.
    + apply sorted_ext; auto. intros k. rewrite T2, L. unfold overlay. rewrite Hn. auto.
Qed.

Section Sizes.
Variable g : cfg.
Hypothesis OK : cfg_ok g.
Hypothesis HO : hdr_ok g.

Definition jbytes (c : chain) : Z := ibytes g (c_lo c) (c_hi c) (jrest c).

Lemma recsz_ptr k : recsz g ptrlen k <= 2 * c_hdr g + kovh g.
Proof. unfold recsz. pose proof (ok_key g OK k). unfold hdr_ok in HO. lia. Qed.

Lemma jbytes_size c : jwf g c -> h_size c - (2 * c_hdr g + kovh g) <= jbytes c <= h_size c.
Proof.
  intros Hw. rewrite (jwf_size _ _ Hw). unfold jbytes, ibytes, jrest.
  pose proof (ok_hdr g OK). pose proof (kovh_nn g OK).
  destruct (c_lo c) as [l|]; [|lia].
  destruct (find l (ients c)) eqn:E.
  - rewrite (csum_del g ptrlen l _ _ E). pose proof (recsz_ptr l). pose proof (recsz_inner g OK l). lia.
  - replace (del l (ients c)) with (ients c); [lia|].
    clear -E. induction (ients c) as [|[x v] t IH]; cbn [find del] in *; auto.
    destruct (x =? l); [discriminate|]. rewrite <- IH; auto.
Qed.

Lemma low_of_j c v rest : jwf g c -> low_of g true (c_base c) ((ikey0 c, v) :: rest) = (c_lo c, 0).
Proof.
  intros Hw. destruct (jkey0_spec g c Hw) as [_ K]. unfold low_of, is_leftmost, c_lo in *.
  destruct (c_varlen g) eqn:Ev; cbn [andb].
  - destruct (n_low (c_base c)); [subst; auto|auto].
  - rewrite okl_fix by auto. auto.
Qed.

Lemma cons_j_one c ds a ra : jwf g c -> sort_ok c ds ->
  consolidate g true a ra (pages c) ds false false =
  COne (cons_page c true a (jfst c :: jrest c) (jbytes c)).
Proof.
  intros Hw (_ & Hs & Hn & _). pose proof (jwf_mhigh _ _ Hw) as Hm. unfold consolidate.
  rewrite (pages_base c Hm), (pages_front c Hm).
  change (paysz g true) with ptrlen. rewrite (merge_nodes_j g c ds _ Hw Hs Hn).
  rewrite cpr_nosplit by reflexivity. unfold copy_rec. cbn [cs_cur cs_size app cs_pend andb].
  unfold jfst at 1. rewrite low_of_j by auto. unfold cons_page. do 2 f_equal.
  unfold jbytes, ibytes. unfold c_lo, c_hi. lia.
Qed.

Lemma cons_j_node c a : jwf g c -> jnode g (cons_page c true a (jfst c :: jrest c) (jbytes c)).
Proof.
  intros Hw. destruct (jrest_spec _ _ Hw) as [S F]. destruct (jkey0_spec g c Hw) as [_ K].
  split; [reflexivity|]. split; [exists (ikey0 c); split; auto|]. split; [auto|]. split; [auto|].
  split; [apply (jwf_rng g); auto|reflexivity].
Qed.

Lemma cons_j_two c ds a ra : jwf g c -> sort_ok c ds ->
  c_page g < h_size c <= c_page g + excess g ->
  exists l1 sep v l2 sz1 sz2,
    jrest c = l1 ++ (sep, v) :: l2 /\
    let l := mk_node a true (c_lo c) (Some sep) 0%N (jfst c :: l1) sz1 in
    let r := mk_node ra true (Some sep) (c_hi c) (c_next c) ((sep, v) :: l2) sz2 in
    consolidate g true a ra (pages c) ds true false = CTwo l r /\
    jnode g l /\ jnode g r /\ sz1 <= c_page g /\ sz2 <= c_page g.
Proof.
  intros Hw (_ & Hs & Hn & _) Hsz. pose proof (jwf_mhigh _ _ Hw) as Hm.
  pose proof (half_bound g OK) as [HB1 HB2]. pose proof (kovh_nn g OK) as HK. pose proof (maxrec_excess g) as HX.
  pose proof (jbytes_size _ Hw) as Hb. unfold jbytes, ibytes in Hb.
  pose proof (okl_bound g OK (c_hi c)) as Oh. pose proof (ifirst_bound g OK (c_lo c)) as Of.
  pose proof (ok_hdr g OK) as Hh. pose proof (ok_page g OK) as HP.
  unfold consolidate.
  rewrite (pages_base c Hm), (pages_front c Hm). change (paysz g true) with ptrlen.
  rewrite (merge_nodes_j g c ds _ Hw Hs Hn).
  assert (EC : copy_rec g (ifirst g (c_lo c)) (jfst c) (mk_cs None [] (c_hdr g) true)
    = mk_cs None [jfst c] (c_hdr g + ifirst g (c_lo c)) true).
  { unfold copy_rec. cbn [cs_pend cs_cur cs_size app cs_left]. fold (half g).
    replace (true && (half g <? c_hdr g + ifirst g (c_lo c))) with false by lia. reflexivity. }
  rewrite EC.
  destruct (cpr_split g ptrlen (jrest c) (mk_cs None [jfst c] (c_hdr g + ifirst g (c_lo c)) true) eq_refl eq_refl)
    as [[H1 H2]|(r1 & x & r2 & E1 & E2 & L1 & L2)]; cbn [cs_size cs_left cs_cur] in *.
  - lia.
  - lia.
  - rewrite E2. cbn [cs_size cs_left cs_cur app].
    rewrite E1 in Hb. rewrite csum_app, csum_cons in Hb.
    pose proof (recsz_inner g OK (fst x)) as Rx.
    rewrite csum_app, csum_cons in L2. simpl (csum g ptrlen []) in L2.
    destruct r2 as [|[sep v] r2].
    { change (csum g ptrlen []) with 0 in Hb. lia. }
    exists (r1 ++ [x]), sep, v, r2.
    pose proof (okl_bound g OK (Some sep)) as Os.
    unfold jfst at 1. rewrite low_of_j by auto.
    do 2 eexists. split; [rewrite E1, <- app_assoc; reflexivity|].
    cbn zeta. split; [reflexivity|].
    destruct (jkey0_spec g c Hw) as [_ K0].
    pose proof (jrest_spec _ _ Hw) as [Hsr Hfr]. rewrite E1 in Hsr, Hfr.
    replace (r1 ++ x :: (sep, v) :: r2) with ((r1 ++ [x]) ++ (sep, v) :: r2) in Hsr, Hfr by (rewrite <- app_assoc; reflexivity).
    apply sorted_app_inv in Hsr as (S1 & S2 & S3). apply Forall_app in Hfr as [F1 F2].
    assert (Fs : lo_lt (c_lo c) sep /\ hi_le (c_hi c) sep) by (inversion F2; auto).
    split; [|split; [|split]].
    + split; [reflexivity|]. unfold nents, nlead. cbn [n_recs n_low n_high n_size tl].
      split; [exists (ikey0 c); auto|]. split; [auto|]. split; [|split].
      * apply Forall_forall. intros y Hy. rewrite Forall_forall in F1. specialize (F1 _ Hy).
        specialize (S3 y (sep, v) Hy (or_introl eq_refl)). simpl in S3 |- *. split; [apply F1|lia].
      * destruct Fs as [Fs _]. unfold c_lo in *. cbn. destruct (n_low (c_base c)); simpl in *; auto. lia.
      * unfold ibytes, c_lo. lia.
    + split; [reflexivity|]. unfold nents, nlead. cbn [n_recs n_low n_high n_size tl].
      apply sorted_cons_inv in S2 as [S2 S2'].
      split; [exists sep; auto|]. split; [auto|]. split; [|split].
      * apply Forall_forall. intros y Hy. rewrite Forall_forall in F2, S2'. split; [apply (S2' _ Hy)|].
        apply (F2 y). right; auto.
      * destruct Fs as [_ Fs]. unfold c_hi in *. cbn. destruct (n_high (c_front c)); simpl in *; auto.
      * unfold ibytes, c_hi. rewrite csum_cons. simpl. lia.
    + rewrite csum_app, csum_cons. simpl (csum g ptrlen []). lia.
    + fold (c_hi c). rewrite csum_cons in *. simpl fst in *. lia.
Qed.
End Sizes.

(** Children of the consolidated pages. *)
Lemma jkids_ients g P c : jwf g c -> jkids P c ->
  P (c_lo c) (ilead c) /\ forall k v, In (k, v) (ients c) -> P (Some k) v.
Proof.
  induction c as [n|d nx IH|d n nx IH|]; intros Hw HP; cbn [jwf jkids] in *; try contradiction.
  - destruct HP as [A B]. split; auto. rewrite Forall_forall in B. intros k v Hin. apply (B _ Hin).
  - destruct Hw as (Hw & _ & T & _). destruct HP as [A B]. destruct (IH Hw B) as [C D]. rewrite c_lo_rec.
    split; auto. cbn [ients]. rewrite T. intros k v Hin. apply put_in in Hin as [E|Hin]; auto. inversion E; subst; auto.
Qed.

Lemma jrest_in c k v : In (k, v) (jrest c) -> In (k, v) (ients c).
Proof. unfold jrest. destruct (c_lo c); auto. apply del_in. Qed.

Lemma jkids_cons g P c : jwf g c -> jkids P c ->
  P (c_lo c) (snd (jfst c)) /\ Forall (fun r => P (Some (fst r)) (snd r)) (jrest c).
Proof.
  intros Hw HP. destruct (jkids_ients g P c Hw HP) as [A B]. split.
  - unfold jfst, jdup. cbn [snd]. destruct (c_lo c) as [l|]; auto.
    destruct (find l (ients c)) eqn:E; auto. apply B. apply find_in; auto.
  - apply Forall_forall. intros [k v] H. cbn [fst snd]. apply B, jrest_in; auto.
Qed.
