(** Relations between the tree on bytes (ByteTree.v) and the tree of Tree.v: what stands
    for what, and the searches of single chains. *)
From Coq Require Import ZArith NArith List Bool Lia.
From Coq Require Import ZifyBool ZifyNat ZifyN.
From Verif Require Import Config Api Page Machine Tree Valid Bytes LayoutFacts ByteCons ByteConsSpec ByteConsFacts ByteConsChain ByteFind ByteFindSpec ByteFindFacts ByteTree ByteTreeSpec.
Import ListNotations.
Open Scope Z_scope.

Definition max64 : N := (2 ^ 64)%N.
Lemma unle8 x : (x < max64)%N -> unle (le 8 x) = x.
Proof. intros H. apply unle_le. exact H. Qed.

(** Keys and payloads of a page, of a record. *)
Definition ngood (K : Z -> Prop) (n : node) : Prop :=
  page_keys K (n_inner n) n /\ opt_key K (n_low n) /\ opt_key K (n_high n) /\
  (n_inner n = true -> Forall (fun r => (snd r < max64)%N) (n_recs n)).
Definition dgood (K : Z -> Prop) (d : delta) : Prop :=
  K (d_key d) /\ opt_key K (d_high d) /\ (d_inner d = true -> (d_pay d < max64)%N).

(** ** Consolidation keeps keys and payloads good *)
Section Good.
Variables (g : cfg) (K : Z -> Prop) (inner : bool) (weak : bool).
Definition Qr (r : key * val) : Prop := K (fst r) /\ (inner = true -> (snd r < max64)%N).
Definition Qf (r : key * val) : Prop := inner = true -> (snd r < max64)%N.
Definition fg (l : list (key * val)) : Prop :=
  if weak then match l with [] => True | r :: t => Qf r /\ Forall Qr t end else Forall Qr l.
Definition csgood (s : cstate) : Prop :=
  match cs_left s with Some (l, _) => fg l /\ Forall Qr (cs_cur s) | None => fg (cs_cur s) end.

Lemma fg_snoc l r : fg l -> Qr r -> fg (l ++ [r]).
Proof.
  unfold fg. destruct weak.
  - destruct l as [|x t]; cbn [app]; intros H Q.
    + split; [exact (proj2 Q)|constructor].
    + destruct H. split; auto. apply Forall_app. split; auto.
  - intros. apply Forall_app. auto.
Qed.
Lemma copy_good sz r s : csgood s -> Qr r -> csgood (copy_rec g sz r s).
Proof.
  unfold csgood, copy_rec. intros H Q.
  destruct (cs_pend s && _); cbn [cs_left cs_cur].
  - destruct (cs_left s) as [[l z]|].
    + split; [|constructor]. unfold fg. destruct H as [_ H].
      assert (F : Forall Qr (cs_cur s ++ [r])) by (apply Forall_app; auto).
      destruct weak; auto. destruct (cs_cur s ++ [r]) as [|x t]; auto. inversion F; subst. split; auto. exact (proj2 H2).
    + split; [|constructor]. apply fg_snoc; auto.
  - destruct (cs_left s) as [[l z]|].
    + destruct H. split; auto. apply Forall_app. auto.
    + apply fg_snoc; auto.
Qed.
Lemma copyd_good d s : csgood s -> dgood K d -> d_inner d = inner -> csgood (copy_delta g (paysz g inner) d s).
Proof.
  intros H (D1 & _ & D3) Hi. unfold copy_delta. rewrite Hi in D3.
  destruct (d_type d); auto; apply copy_good; auto; split; auto.
Qed.
Notation dok := (fun d => dgood K d /\ d_inner d = inner).
Lemma flush_good k : forall ds s, Forall dok ds -> csgood s ->
  Forall dok (fst (flush_below g (paysz g inner) k ds s)) /\ csgood (snd (flush_below g (paysz g inner) k ds s)).
Proof.
  induction ds as [|d t IH]; intros s F H; cbn [flush_below fst snd]; auto.
  destruct (d_key d <? k); cbn [fst snd]; auto. destruct (Forall_inv F) as [A B]. pose proof (Forall_inv_tail F) as F'. apply IH; auto.
  apply copyd_good; auto.
Qed.
Lemma recs_good : forall rs ds s, Forall Qr rs -> Forall dok ds -> csgood s ->
  Forall dok (fst (merge_recs g (paysz g inner) rs ds s)) /\ csgood (snd (merge_recs g (paysz g inner) rs ds s)).
Proof.
  induction rs as [|[k v] rt IH]; intros ds s Fr F H; cbn [merge_recs fst snd]; auto.
  pose proof (Forall_inv Fr) as Q. pose proof (Forall_inv_tail Fr) as Fr'.
  destruct (flush_good k ds s F H) as [F1 H1]. destruct (flush_below g (paysz g inner) k ds s) as [ds1 s1]. cbn [fst snd] in *.
  destruct ds1 as [|d dt].
  - apply IH; auto. apply copy_good; auto.
  - destruct (negb (k <? d_key d)).
    + destruct (Forall_inv F1) as [A B]. pose proof (Forall_inv_tail F1) as F1'. apply IH; auto. apply copyd_good; auto.
    + apply IH; auto. apply copy_good; auto.
Qed.
Lemma nodes_good : forall ns ds s, Forall (fun n => n_inner n = inner /\ ngood K n /\ inner && is_leftmost n = false) ns ->
  Forall dok ds -> csgood s -> csgood (merge_nodes g (paysz g inner) ns ds s).
Proof.
  induction ns as [|n t IH]; intros ds s F D H; cbn [merge_nodes].
  - revert s H. induction D as [|d ds [A B] D IHd]; intros s H; cbn [fold_left]; auto. apply IHd. apply copyd_good; auto.
  - destruct (Forall_inv F) as (A & (B1 & B2 & B3 & B4) & C). pose proof (Forall_inv_tail F) as F'. rewrite A in B1, B4.
    unfold merge_node. rewrite A, C.
    assert (Fq : Forall Qr (n_recs n)).
    { apply Forall_forall. intros [k v] Hin. apply In_nth_error in Hin as [i Hn]. split.
      - eapply B1; eauto. unfold nokey. rewrite C. reflexivity.
      - intros Hi. specialize (B4 Hi). rewrite Forall_forall in B4. apply (B4 (k, v)). eapply nth_error_In; eauto. }
    destruct (recs_good (n_recs n) ds s Fq D H) as [D1 H1].
    destruct (merge_recs g (paysz g inner) (n_recs n) ds s). apply IH; auto.
Qed.
End Good.

Lemma base_good g K inner n t ds split : n_inner n = inner -> ngood K n ->
  Forall (fun n => n_inner n = inner /\ ngood K n /\ inner && is_leftmost n = false) t ->
  Forall (fun d => dgood K d /\ d_inner d = inner) ds ->
  csgood K inner (inner && is_leftmost n) (merge_nodes g (paysz g inner) (n :: t) ds (mk_cs None [] (c_hdr g) split)).
Proof.
  intros A B F D. destruct (inner && is_leftmost n) eqn:W.
  - cbn [merge_nodes]. unfold merge_node. rewrite A, W. destruct B as (B1 & B2 & B3 & B4).
    assert (I0 : csgood K inner true (mk_cs None [] (c_hdr g) split)) by (cbn; exact I).
    destruct (n_recs n) as [|[k v] rt] eqn:Er.
    + apply nodes_good; auto.
    + assert (Hv : Qf inner (k, v)).
      { intros Hi. rewrite A in B4. specialize (B4 Hi). inversion B4; subst. auto. }
      assert (C1 : csgood K inner true (copy_rec g (nullsz g) (k, v) (mk_cs None [] (c_hdr g) split))).
      { unfold copy_rec. cbn [cs_cur cs_size cs_pend cs_left app]. unfold csgood.
        destruct (split && _); cbn [cs_left cs_cur fg]; auto. }
      assert (Fq : Forall (Qr K inner) rt).
      { apply Forall_forall. intros [k' v'] Hin. apply In_nth_error in Hin as [i Hn]. split.
        - apply (B1 (S i) k' v'); [rewrite Er; exact Hn|]. unfold nokey. apply andb_false_r.
        - intros Hi. rewrite A in B4. specialize (B4 Hi). inversion B4; subst. rewrite Forall_forall in H2. apply (H2 (k', v')).
          eapply nth_error_In; eauto. }
      destruct (recs_good g K inner true rt ds _ Fq D C1) as [D1 H1].
      destruct (merge_recs g (paysz g inner) rt ds _). apply nodes_good; auto.
  - apply nodes_good; auto. cbn. constructor.
Qed.

Lemma cons_good g K inner a ra ns ds split : pages_ok inner ns -> Forall (ngood K) ns ->
  Forall (fun d => dgood K d /\ d_inner d = inner) ds ->
  match consolidate g inner a ra ns ds split false with
  | COne n => ngood K n /\ n_inner n = inner
  | CTwo l r => ngood K l /\ ngood K r /\ n_inner l = inner /\ n_inner r = inner /\ exists k, n_low r = Some k
  | CSplitBad => True
  end.
Proof.
  intros (P1 & P2 & P3 & P4) Fn Fd.
  assert (E : rev ns = last ns (dummy_node inner) :: rev (removelast ns)) by (apply rev_cons_last; auto).
  set (base := last ns (dummy_node inner)) in *.
  assert (Ib : In base ns) by (apply in_rev; rewrite E; left; reflexivity).
  assert (If : In (hd (dummy_node inner) ns) ns) by (destruct ns; [congruence|left; reflexivity]).
  rewrite Forall_forall in P2, Fn.
  pose proof (base_good g K inner base (rev (removelast ns)) ds split (P2 _ Ib) (Fn _ Ib)) as G.
  assert (Fr : Forall (fun n => n_inner n = inner /\ ngood K n /\ inner && is_leftmost n = false) (rev (removelast ns))).
  { apply Forall_rev. apply Forall_forall. intros x Hx. rewrite Forall_forall in P3.
    assert (Hin : In x ns).
    { rewrite (app_removelast_last (dummy_node inner) P1). apply in_or_app. auto. }
    split; [|split]; auto. }
  specialize (G Fr Fd). unfold consolidate. fold base. rewrite E.
  set (s := merge_nodes g (paysz g inner) (base :: rev (removelast ns)) ds (mk_cs None [] (c_hdr g) split)) in *.
  pose proof (Fn _ If) as (F1 & F2 & F3 & F4). pose proof (Fn _ Ib) as (B1 & B2 & B3 & B4).
  assert (PG : forall rs, fg K inner (inner && is_leftmost base) rs -> forall low high ad nx sz,
    opt_key K low -> opt_key K high -> (rs = [] \/ is_leftmost base = false \/ inner = false \/ low = None) ->
    ngood K (mk_node ad inner low high nx rs sz)).
  { intros rs FG low high ad nx sz Hl Hh Hlow. unfold ngood. cbn [n_inner n_low n_high n_recs].
    split; [|split; [|split]]; auto.
    - intros i k v Hn Hk. cbn [n_recs] in Hn. unfold nokey, is_leftmost in Hk. cbn [n_low] in Hk. unfold fg in FG.
      destruct (inner && is_leftmost base) eqn:W.
      + destruct rs as [|r t]; [destruct i; discriminate|]. destruct FG as [_ FG].
        apply andb_prop in W as [W1 W2]. destruct Hlow as [|[|[|]]]; try congruence. subst low. rewrite W1 in Hk.
        destruct i as [|i]; [discriminate|]. cbn in Hn. rewrite Forall_forall in FG. apply (FG (k, v)). eapply nth_error_In; eauto.
      + rewrite Forall_forall in FG. apply (FG (k, v)). eapply nth_error_In; eauto.
    - intros Hi. unfold fg in FG. destruct (inner && is_leftmost base).
      + destruct rs as [|r t]; [constructor|]. destruct FG as [A B]. constructor; auto.
        eapply Forall_impl; [|exact B]. intros x [_ Hx]. auto.
      + eapply Forall_impl; [|exact FG]. intros x [_ Hx]. auto. }
  assert (PR : forall rs, Forall (Qr K inner) rs -> forall low high ad nx sz,
    opt_key K low -> opt_key K high -> ngood K (mk_node ad inner low high nx rs sz)).
  { intros rs FG low high ad nx sz Hl Hh. unfold ngood. cbn [n_inner n_low n_high n_recs].
    split; [|split; [|split]]; auto.
    - intros i k v Hn Hk. cbn [n_recs] in Hn. rewrite Forall_forall in FG. apply (FG (k, v)). eapply nth_error_In; eauto.
    - intros Hi. eapply Forall_impl; [|exact FG]. intros x [_ Hx]. auto. }
  assert (LO : forall rs, fg K inner (inner && is_leftmost base) rs -> let low := fst (low_of g inner base rs) in
    opt_key K low /\ (rs = [] \/ is_leftmost base = false \/ inner = false \/ low = None)).
  { intros rs FG. unfold low_of. destruct (c_varlen g && inner) eqn:VI; cbn [fst].
    - apply andb_prop in VI as [_ Hi]. destruct (is_leftmost base) eqn:El; [split; [exact I|auto]|].
      split; auto. rewrite andb_false_r in FG. destruct rs as [|[k v] t]; [exact I|]. cbn in FG. inversion FG; subst. apply H1.
    - split; auto. unfold is_leftmost. destruct (n_low base); auto. }
  unfold csgood in G. destruct split.
  - destruct (cs_left s) as [[lrs lsz]|] eqn:El; auto. destruct (cs_cur s) as [|[rk rv] rt] eqn:Ec; auto.
    destruct G as [G1 G2]. destruct (LO lrs G1) as [L1 L2]. destruct (low_of g inner base lrs) as [llow ladd] eqn:Elo. cbn [fst] in *.
    assert (Hrk : K rk) by (inversion G2 as [|? ? HQ HF]; apply HQ).
    split; [apply PG; auto|]. split; [apply PR; auto|]. cbn [n_inner n_low]. eauto.
  - assert (Hl : cs_left s = None) by apply no_left. rewrite Hl in G. destruct (LO _ G) as [L1 L2].
    destruct (low_of g inner base (cs_cur s)) as [low add]. cbn [fst] in *. split; [apply PG; auto|reflexivity].
Qed.

Lemma fence_pos g : cfg_ok g -> 0 <= c_page g.
Proof. intros OK. pose proof (fence_room g None None OK) as F. pose proof (ok_hdr g OK). unfold okl in F. destruct (c_varlen g); lia. Qed.

(** ** What the page and record classes have to provide *)
Section Rel.
Context {P D : Type}.
Variable C : klass P D.
Variable lt : list N -> list N -> bool.
Variable g : cfg.
Variables (K : Z -> Prop) (ek : Z -> list N) (evl : N -> list N).
Variables (NP : node -> P -> Prop) (DP : delta -> D -> Prop).
Definition evi (inner : bool) : N -> list N := if inner then le 8 else evl.

Definition keys_stand (F : finder P D) (n : node) (p : P) : Prop :=
  q_cnt F p = N.of_nat (length (n_recs n)) /\
  (forall i k v, nth_error (n_recs n) i = Some (k, v) -> nokey (n_inner n) n i = false -> q_key F p (N.of_nat i) = ek k) /\
  q_lm F p = is_leftmost n /\
  (forall l, n_low n = Some l -> q_low F p = ek l) /\
  q_high F p = option_map ek (n_high n).
Definition same_body (d d' : delta) : Prop :=
  d_inner d = d_inner d' /\ d_type d = d_type d' /\ d_key d = d_key d' /\ d_high d = d_high d' /\ d_pay d = d_pay d'.
Definition same_page (n n' : node) : Prop :=
  n_inner n = n_inner n' /\ n_low n = n_low n' /\ n_high n = n_high n' /\ n_recs n = n_recs n' /\ n_size n = n_size n'.
(** A merge record. *)
Definition MP (d : delta) (b : D) : Prop :=
  k_dinner C b = d_inner d /\
  forall i, r_key (k_find C i) b = ek (d_key d) /\ r_high (k_find C i) b = option_map ek (d_high d).
Notation lvl_rep inner := (chain_rep (fun n p => n_inner n = inner /\ NP n p) (fun d b => d_inner d = inner /\ DP d b)).

Record klass_ok : Prop := {
  ko_cfg : cfg_ok g;
  ko_lt : forall a b, K a -> K b -> lt (ek a) (ek b) = (a <? b);
  ko_klen : forall k, Z.of_N (blen (ek k)) = klen g k;
  ko_page : forall n p i, NP n p -> keys_stand (k_find C i) n p;
  ko_ppay : forall n p j k v, NP n p -> nth_error (n_recs n) j = Some (k, v) ->
    q_pay (k_find C (n_inner n)) p (N.of_nat j) = evi (n_inner n) v;
  ko_psize : forall n p, NP n p -> Z.of_N (k_psize C p) = n_size n;
  ko_pext : forall n n' p, same_page n n' -> NP n p -> NP n' p;
  ko_delta : forall d b i, DP d b -> r_type (k_find C i) b = d_type d /\ r_key (k_find C i) b = ek (d_key d) /\
    r_high (k_find C i) b = option_map ek (d_high d);
  ko_dpay : forall d b, DP d b -> d_type d <> DDelete -> r_pay (k_find C (d_inner d)) b = evi (d_inner d) (d_pay d);
  ko_dinner : forall d b, DP d b -> k_dinner C b = d_inner d;
  ko_dext : forall d d' b, same_body d d' -> DP d b -> DP d' b;
  ko_new : forall m a, NP (empty_leaf g a) (k_new C m);
  ko_root : forall m a l r k, (l < max64)%N -> (r < max64)%N -> NP (new_root g a l k r) (k_root C m (ek k) (le 8 l) (le 8 r));
  ko_put : forall m a t k v, t = DInsert \/ t = DModify -> DP (leaf_delta a t k v) (k_put C m t (ek k) (evl v));
  ko_del : forall m a k, DP (leaf_delta a DDelete k 0%N) (k_del C m (ek k));
  ko_type : forall a t t' k v b, DP (leaf_delta a t k v) b -> t <> DDelete -> DP (leaf_delta a t' k v) (k_type C b t');
  ko_ins : forall m a n p k pid, NP n p -> n_low n = Some k ->
    DP (mk_delta a true DInsert k (n_high n) pid 0 0) (k_smo C m DInsert (n_inner n) p (le 8 pid));
  ko_mrg : forall m a n p k pid, NP n p -> n_low n = Some k ->
    MP (mk_delta a (n_inner n) DMerge k (n_high n) 0%N 0 0) (k_smo C m DMerge (n_inner n) p (le 8 pid));
  ko_idel : forall m a n p k, NP n p -> n_low n = Some k ->
    DP (mk_delta a true DDelete k (n_high n) 0%N 0 0) (k_idel C m p);
  ko_one : forall inner c b ds ns n a ra m m' size, lvl_rep inner c b -> chain_keys K inner c ->
    dc_sort c [] [] = Some (ds, ns) -> pages_ok inner ns ->
    consolidate g inner a ra ns ds false false = COne n -> (inner = true -> n_recs n <> []) ->
    n_size n <= c_page g -> Z.of_N size <= c_page g ->
    exists q, k_try C inner m m' b size false = BOne q /\ NP n q;
  ko_two : forall inner c b ds ns l r a ra m m' size, lvl_rep inner c b -> chain_keys K inner c ->
    dc_sort c [] [] = Some (ds, ns) -> pages_ok inner ns ->
    consolidate g inner a ra ns ds true false = CTwo l r ->
    n_size l <= c_page g -> n_size r <= c_page g -> c_page g < Z.of_N size ->
    exists ql qr, k_try C inner m m' b size false = BTwo ql qr /\ NP l ql /\ NP r qr;
  ko_scan : forall inner c b ds ns n a ra m m' size, lvl_rep inner c b -> chain_keys K inner c ->
    dc_sort c [] [] = Some (ds, ns) -> pages_ok inner ns ->
    consolidate g inner a ra ns ds false true = COne n -> (inner = true -> n_recs n <> []) ->
    scan_bytes g inner ns ds <= 2 * c_page g ->
    exists q, k_try C inner m m' b size true = BOne q /\ NP n q
}.
Hypothesis HK : klass_ok.

Notation ch := (tchain P D).
Definition prl (n : node) (p : tpage P) : Prop :=
  tp_addr p = n_addr n /\ tp_inner p = n_inner n /\ tp_next p = n_next n /\ NP n (tp_body p) /\ ngood K n.
Definition drl (d : delta) (b : tdelta D) : Prop :=
  td_addr b = d_addr d /\ td_cnt b = d_cnt d /\ td_size b = d_size d /\ DP d (td_body b) /\ dgood K d.
Definition mrl (d : delta) (b : tdelta D) : Prop :=
  td_addr b = d_addr d /\ td_cnt b = d_cnt d /\ td_size b = d_size d /\ MP d (td_body b) /\ K (d_key d) /\ opt_key K (d_high d).
Fixpoint lrl (c : chain) (b : bchain (tpage P) (tdelta D)) : Prop :=
  match c, b with
  | CBase n, BBase p => prl n p
  | CRec d nx, BRec bd bx => drl d bd /\ lrl nx bx
  | CMerge d n nx, BMerge bd p bx => mrl d bd /\ prl n p /\ lrl nx bx
  | _, _ => False
  end.
Definition crl (c : chain) (b : ch) : Prop :=
  match b with TLive x => lrl c x | TGone a l => c = CRemove a l end.

(** ** Accessors *)
Lemma crl_remove a l b : crl (CRemove a l) b -> b = TGone a l.
Proof. destruct b as [[]|]; cbn; try contradiction. intros E. injection E as <- <-. reflexivity. Qed.
Lemma x_addr_ok c b : crl c b -> x_addr b = h_addr c.
Proof.
  destruct b as [x|a l]; cbn [crl]; [|intros ->; reflexivity].
  destruct c, x; cbn [lrl]; try contradiction; intros H; cbn [x_addr h_addr]; apply H.
Qed.
Lemma x_leaf_ok c b : crl c b -> x_leaf C b = h_leaf c.
Proof.
  destruct b as [x|a l]; cbn [crl]; [|intros ->; reflexivity].
  destruct c, x; cbn [lrl]; try contradiction; intros H; cbn [x_leaf h_leaf]; f_equal.
  - apply H.
  - destruct H as [(_ & _ & _ & H & _) _]. apply (ko_dinner HK _ _ H).
  - destruct H as [(_ & _ & _ & H & _) _]. apply H.
Qed.
Lemma x_size_ok c b : crl c b -> x_size C b = h_size c.
Proof.
  destruct b as [x|a l]; cbn [crl]; [|intros ->; reflexivity].
  destruct c, x; cbn [lrl]; try contradiction; intros H; cbn [x_size h_size].
  - apply (ko_psize HK). apply H.
  - apply H.
  - apply H.
Qed.
Lemma x_base_ok c b : crl c b -> x_base b = is_base c.
Proof.
  destruct b as [x|a l]; cbn [crl]; [|intros ->; reflexivity].
  destruct c, x; cbn [lrl]; try contradiction; reflexivity.
Qed.
Lemma x_cnt_ok c b : crl c b -> x_cnt C b = h_cnt c.
Proof.
  destruct b as [x|a l]; cbn [crl]; [|intros ->; reflexivity].
  destruct c, x; cbn [lrl]; try contradiction; intros H; cbn [x_cnt h_cnt].
  - destruct H as (_ & _ & _ & H & _). destruct (ko_page HK _ _ (tp_inner p) H) as [E _]. rewrite E. lia.
  - apply H.
  - apply H.
Qed.
Lemma x_need_cons_ok c b : crl c b -> x_need_cons C g b = need_consolidation g c.
Proof. intros H. unfold x_need_cons, need_consolidation. rewrite (x_base_ok c b), (x_cnt_ok c b), (x_size_ok c b) by auto. reflexivity. Qed.
Lemma x_need_wait_ok c b : crl c b -> x_need_wait C g b = need_wait g c.
Proof. intros H. unfold x_need_wait, need_wait. rewrite (x_base_ok c b), (x_cnt_ok c b), (x_size_ok c b) by auto. reflexivity. Qed.
Lemma x_recsz_ok ps k : x_recsz g ps (ek k) = recsz g ps k.
Proof.
  unfold x_recsz, recsz, metalen. rewrite (ko_klen HK). unfold klen. destruct (c_varlen g); lia.
Qed.
Lemma x_diff_ok n p : prl n p -> x_diff C g p = node_diff g n.
Proof.
  intros (_ & E1 & _ & H & _). unfold x_diff, node_diff, t_find. cbn zeta. cbn [q_lm q_low].
  destruct (ko_page HK _ _ (tp_inner p) H) as (_ & _ & L & W & _).
  rewrite (ko_psize HK _ _ H), L, E1. unfold okl, is_leftmost. destruct (c_varlen g); auto.
  destruct (n_low n) as [l|]; auto. rewrite <- E1, (W _ eq_refl), (ko_klen HK). reflexivity.
Qed.
Lemma x_addrs_ok c b : crl c b -> x_addrs b = chain_addrs c.
Proof.
  destruct b as [x|a l]; cbn [crl]; [|intros ->; reflexivity]. cbn [x_addrs].
  revert x. induction c; intros [p|bd bx|bd p bx]; cbn [lrl]; try contradiction; intros H; cbn [b_addrs chain_addrs].
  - f_equal. apply H.
  - destruct H as [H1 H2]. rewrite (IHc _ H2). f_equal. apply H1.
  - destruct H as (H1 & H2 & H3). rewrite (IHc _ H3). f_equal; [apply H1|]. f_equal. apply H2.
Qed.

(** Records in front of a chain. *)
Lemma drl_rec c b d bd diff : crl c b -> DP d bd -> dgood K d ->
  drl (set_next d c diff) (x_rec C (d_addr d) bd b diff).
Proof.
  intros H H1 H2. unfold drl, x_rec, set_next.
  cbn [td_addr td_cnt td_size td_body d_addr d_cnt d_size].
  rewrite (x_base_ok c b), (x_cnt_ok c b), (x_size_ok c b) by auto.
  do 3 (split; [reflexivity|]). split; [|exact H2]. eapply (ko_dext HK); [|exact H1]. repeat split.
Qed.
Lemma mrl_rec c b d bd diff : crl c b -> MP d bd -> K (d_key d) -> opt_key K (d_high d) ->
  mrl (set_next d c diff) (x_rec C (d_addr d) bd b diff).
Proof.
  intros H H1 H2 H3. unfold mrl, x_rec, set_next.
  cbn [td_addr td_cnt td_size td_body d_addr d_cnt d_size].
  rewrite (x_base_ok c b), (x_cnt_ok c b), (x_size_ok c b) by auto.
  do 3 (split; [reflexivity|]). split; [|split]; auto.
Qed.
Lemma crl_live c x : crl c (TLive x) -> is_remove c = false.
Proof. destruct c, x; cbn; try contradiction; auto. Qed.
Lemma prl_next n p q : prl n p -> prl (with_next n q) (mk_tpage (tp_addr p) (tp_inner p) q (tp_body p)).
Proof.
  intros (A & B & C0 & D0 & E). unfold prl, with_next. cbn [tp_addr tp_inner tp_next tp_body n_addr n_inner n_next].
  do 3 (split; [assumption || reflexivity|]). split; [|exact E].
  eapply (ko_pext HK); [|exact D0]. repeat split.
Qed.

(** ** Searches *)
Notation bs := (b_same_ok K lt ek (ko_lt HK)).
Notation bl := (b_low_ok K lt ek (ko_lt HK)).
Notation bh := (b_high_ok K lt ek (ko_lt HK)).

Lemma sane_lev c : sane g c -> lev (negb (h_leaf c)) c.
Proof. destruct c; cbn [sane lev h_leaf]; rewrite ?negb_involutive; auto; intros [H _]; rewrite ?negb_involutive in H; exact H. Qed.

Definition rr_agree (lf : bool) (r : dres) (f : fres (tpage P)) : Prop :=
  match r, f with
  | RGarbage, _ => True
  | RFound v, FFound w => lf = true -> w = evl v
  | RNotFound, FNone => True
  | RSibling q, FSib p => tp_next p = q
  | RBase n, FBase p => prl n p /\ n_inner n = negb lf
  | _, _ => False
  end.
Lemma record_ok k lf : K k -> forall c b smo, lrl c b -> lev (negb lf) c ->
  rr_agree lf (dc_search_record c k smo) (bf_record (t_find C false) lt b (ek k) smo).
Proof.
  intros Hk. induction c as [n|d nx IH|d n nx IH|]; intros [p|bd bx|bd p bx] smo S Lv; try contradiction; cbn in S, Lv;
    cbn [dc_search_record bf_record].
  - pose proof S as (_ & _ & En & S4 & _ & _ & Gh & _). destruct (ko_page HK _ _ false S4) as (_ & _ & _ & _ & Eh).
    cbn [t_find q_high]. rewrite Eh, bh by auto. destruct (negb smo && negb (high_ge (n_high n) k false)); cbn; auto.
  - destruct S as ((_ & _ & _ & HD & G1 & _ & _) & S), Lv as [Lv1 Lv].
    pose proof (ko_dpay HK _ _ HD) as HP. destruct (ko_delta HK _ _ false HD) as (T1 & T2 & _).
    cbn [t_find r_type r_key r_pay]. rewrite T1, T2, bs by auto. specialize (IH bx smo S Lv).
    destruct (d_type d) eqn:Et; try exact I; destruct (same_key (d_key d) k); auto; cbn; auto;
      intros ->; cbn in Lv1; rewrite Lv1 in HP; apply HP; discriminate.
  - destruct S as ((_ & _ & _ & (_ & HM) & G1 & G2) & Sp & S), Lv as (Lv1 & Lv2 & Lv).
    destruct (HM false) as [T1 T2]. cbn [t_find r_key r_high]. rewrite T1, T2, bl, bh by auto.
    destruct (low_le (d_key d) k true); [|apply IH; auto].
    destruct (negb smo && negb (high_ge (d_high d) k false)); cbn; auto. apply Sp.
Qed.

Definition cr_agree (lf : bool) (r : dres) (f : tres (P:=P)) : Prop :=
  match r, f with
  | RGarbage, _ | RNotFound, _ => True
  | RFound v, TFound w => lf = false -> w = le 8 v /\ (v < max64)%N
  | RWait a, TWait b => a = b
  | RSibling q, TSib p => tp_next p = q
  | RBase n, TBase p => prl n p /\ n_inner n = negb lf
  | RRemoved, TRemoved => True
  | _, _ => False
  end.
Lemma child_in_ok k lf closed : K k -> forall c b smo, lrl c b -> lev (negb lf) c ->
  cr_agree lf (dc_search_child c k closed smo) (t_child_in C lt b (ek k) closed smo).
Proof.
  intros Hk. induction c as [n|d nx IH|d n nx IH|]; intros [p|bd bx|bd p bx] smo S Lv; try contradiction; cbn in S, Lv;
    cbn [dc_search_child t_child_in].
  - pose proof S as (_ & _ & En & S4 & _ & _ & Gh & _). destruct (ko_page HK _ _ true S4) as (_ & _ & _ & _ & Eh).
    cbn [t_find q_high]. rewrite Eh, bh by auto. destruct (negb smo && negb (high_ge (n_high n) k (negb closed))); cbn; auto.
  - destruct S as ((Ea & _ & _ & HD & G1 & G2 & G3) & S), Lv as [Lv1 Lv].
    pose proof (ko_dpay HK _ _ HD) as HP. destruct (ko_delta HK _ _ true HD) as (T1 & T2 & T3). cbv zeta.
    cbn [t_find r_type r_key r_pay r_high]. rewrite T1, T2, T3, bl, bh by auto. specialize (IH bx smo S Lv).
    destruct (d_type d) eqn:Et; try exact I; destruct (low_le (d_key d) k closed && high_ge (d_high d) k (negb closed)); auto; cbn; auto.
    intros ->; cbn in Lv1; rewrite Lv1 in HP, G3. split; auto. apply HP; discriminate.
  - destruct S as ((_ & _ & _ & (_ & HM) & G1 & G2) & Sp & S), Lv as (Lv1 & Lv2 & Lv).
    destruct (HM true) as [T1 T2]. cbn [t_find r_key r_high]. rewrite T1, T2, bl, bh by auto.
    destruct (low_le (d_key d) k closed); [|apply IH; auto].
    destruct (negb smo && negb (high_ge (d_high d) k (negb closed))); cbn; auto. apply Sp.
Qed.
Lemma child_ok k closed c b : K k -> crl c b -> sane g c ->
  cr_agree (h_leaf c) (dc_search_child c k closed false) (t_child C lt b (ek k) closed).
Proof.
  intros Hk Hc Hs. destruct b as [x|a l].
  - apply child_in_ok; auto. apply sane_lev; auto.
  - cbn in Hc. subst c. exact I.
Qed.

Definition mr_agree (r : mres) (f : tmres (P:=P)) : Prop :=
  match r, f with
  | MGarbage, _ => True
  | MFound, TMFound | MAbort, TMAbort | MRemoved, TMRemoved => True
  | MSibling q h, TMSib p hb => tp_next p = q /\ hb = option_map ek h /\ opt_key K h
  | MBase n kf sf h, TMBase p kf' sf' hb => prl n p /\ kf = kf' /\ sf = sf' /\ hb = option_map ek h /\ opt_key K h
  | _, _ => False
  end.
Lemma merge_in_ok k sib : K k -> opt_key K sib -> forall c b kf sf smo, lrl c b ->
  mr_agree (dc_search_merge c k sib kf sf smo) (t_merge_in C lt b (ek k) (option_map ek sib) kf sf smo).
Proof.
  intros Hk Hsb. assert (SB : forall x, K x -> match option_map ek sib with Some s => b_same lt (ek x) s | None => false end =
    match sib with Some s => same_key x s | None => false end).
  { intros x Hx. destruct sib; cbn in *; auto. apply bs; auto. }
  induction c as [n|d nx IH|d n nx IH|]; intros [p|bd bx|bd p bx] kf sf smo S; try contradiction; cbn in S;
    cbn [dc_search_merge t_merge_in]; cbv zeta.
  - pose proof S as (_ & _ & En & S4 & _ & Gl & Gh & _). destruct (ko_page HK _ _ true S4) as (_ & _ & El & Ew & Eh).
    cbn [t_find q_high q_lm q_low]. rewrite Eh, El, bh by auto. destruct kf; cbn [negb]; [cbn; auto|].
    assert (E : negb (is_leftmost n) && b_same lt (q_low (k_find C true) (tp_body p)) (ek k) =
                negb (is_leftmost n) && match n_low n with Some l => same_key l k | None => false end).
    { unfold is_leftmost. destruct (n_low n) as [l|] eqn:Eln; auto. rewrite (Ew _ eq_refl). cbn [negb andb]. apply bs; auto. }
    rewrite E. destruct (negb (is_leftmost n) && match n_low n with Some l => same_key l k | None => false end); [exact I|].
    destruct smo; cbn [negb]; [cbn; auto|]. destruct (high_ge (n_high n) k false); cbn; auto.
  - destruct S as ((_ & _ & _ & HD & G1 & _ & _) & S). destruct (ko_delta HK _ _ true HD) as (T1 & T2 & _).
    cbn [t_find r_type r_key]. rewrite T1, T2, !SB, bs by auto.
    set (q := match sib with Some s => same_key (d_key d) s | None => false end).
    destruct (d_type d) eqn:Et; try exact I.
    + destruct (negb kf && same_key (d_key d) k && sf); [exact I|].
      destruct (negb sf && q && (kf || negb kf && same_key (d_key d) k)); [exact I|]. apply IH; auto.
    + destruct (negb kf && same_key (d_key d) k); [exact I|]. destruct (negb sf && q); [exact I|]. apply IH; auto.
  - destruct S as ((_ & _ & _ & (_ & HM) & G1 & G2) & Sp & S). destruct (HM true) as [T1 T2].
    cbn [t_find r_key r_high]. rewrite T1, T2, !SB, bl, bh by auto.
    set (q := match sib with Some s => same_key (d_key d) s | None => false end).
    destruct (low_le (d_key d) k true).
    + destruct smo, kf; cbn [negb andb]; try (cbn; auto; fail). destruct (high_ge (d_high d) k false); cbn; auto.
      split; auto. apply Sp.
    + destruct (negb sf && q && kf); [exact I|]. apply IH; auto.
Qed.
Lemma merge_ok k sib sf c b : K k -> opt_key K sib -> crl c b ->
  mr_agree (dc_search_merge c k sib false sf false) (t_merge C lt b (ek k) (option_map ek sib) sf).
Proof.
  intros Hk Hs Hc. destruct b as [x|a l].
  - apply merge_in_ok; auto.
  - cbn in Hc. subst c. exact I.
Qed.

Lemma validate_ok k closed c b : K k -> crl c b ->
  match dc_validate c k closed with
  | VOk => t_validate C lt b (ek k) closed = TVOk /\ is_remove c = false
  | VRemoved => t_validate C lt b (ek k) closed = TVRemoved
  | VSibling q => t_validate C lt b (ek k) closed = TVSib q /\ is_remove c = false
  end.
Proof.
  intros Hk Hc. destruct b as [x|a l]; [|cbn in Hc; subst c; reflexivity].
  pose proof (crl_live _ _ Hc) as Er. rewrite Er. cbn [crl] in Hc. cbn [t_validate]. clear Er.
  set (i := negb (x_leaf C (TLive x))). clearbody i.
  assert (M : match dc_validate c k closed with
              | VOk => bf_validate (t_find C i) lt x (ek k) closed = None
              | VRemoved => False
              | VSibling q => exists p, bf_validate (t_find C i) lt x (ek k) closed = Some p /\ tp_next p = q
              end).
  { revert x Hc. induction c as [n|d nx IH|d n nx IH|]; intros [p|bd bx|bd p bx] S; try contradiction; cbn in S;
      cbn [dc_validate bf_validate].
    - pose proof S as (_ & _ & En & S4 & _ & Gl & Gh & _). destruct (ko_page HK _ _ i S4) as (_ & _ & El & Ew & Eh).
      cbn [t_find q_high]. rewrite Eh, bh by auto. destruct (high_ge (n_high n) k (negb closed)); eauto.
    - apply IH, S.
    - destruct S as ((_ & _ & _ & (_ & HM) & G1 & G2) & Sp & S). destruct (HM i) as [T1 T2].
      cbn [t_find r_high]. rewrite T2, bh by auto. destruct (high_ge (d_high d) k (negb closed)); auto. exists p. split; auto. apply Sp. }
  destruct (dc_validate c k closed); [rewrite M; auto|contradiction|]. destruct M as (p0 & -> & <-). auto.
Qed.

Lemma bsearch_ok n p i k : K k -> prl n p ->
  forall fuel b e, 0 <= b -> (n_inner n && is_leftmost n = true -> 1 <= b) -> e < Z.of_nat (length (n_recs n)) ->
  b_bsearch (t_find C i) lt fuel p (ek k) b e = bsearch fuel (n_recs n) k b e.
Proof.
  intros Hk (_ & _ & _ & HN & PK & _). destruct (ko_page HK _ _ i HN) as (S1 & S2 & _).
  induction fuel as [|f IH]; intros b e Hb Hlm He; cbn [b_bsearch bsearch]; auto.
  destruct (Z.leb_spec b e) as [L|]; auto. cbv zeta. assert (PP : b <= (b + e) / 2 <= e) by lia.
  set (pos := (b + e) / 2) in *. destruct (nth_error (n_recs n) (Z.to_nat pos)) as [[x v]|] eqn:En.
  2:{ apply nth_error_None in En. lia. }
  assert (NK : nokey (n_inner n) n (Z.to_nat pos) = false).
  { unfold nokey. destruct (n_inner n && is_leftmost n) eqn:E; auto. specialize (Hlm eq_refl). cbn [andb].
    apply Nat.eqb_neq. lia. }
  pose proof (S2 _ _ _ En NK) as S2'. rewrite Z_nat_N in S2'.
  assert (Ek : key_at (n_recs n) pos = x) by (unfold key_at; rewrite (nth_error_nth _ _ _ En); reflexivity).
  cbn [t_find q_key]. rewrite S2', Ek, !(ko_lt HK) by (auto; eapply PK; eauto). rewrite !IH by lia. reflexivity.
Qed.
Lemma search_ok n p i k : K k -> prl n p -> b_search (t_find C i) lt (tp_inner p) p (ek k) = node_search n k.
Proof.
  intros Hk S. pose proof S as (_ & E1 & _ & HN & _). destruct (ko_page HK _ _ i HN) as (S1 & _ & S3 & _).
  unfold b_search, node_search. cbn [t_find q_cnt q_lm]. rewrite S1, S3, E1, Nat2N.id, nat_N_Z.
  apply bsearch_ok; auto; destruct (n_inner n && is_leftmost n); lia.
Qed.
Lemma pay_ok n p i v : prl n p -> pay_at n i = Some v -> q_pay (t_find C (n_inner n)) p (Z.to_N i) = evi (n_inner n) v.
Proof.
  intros (_ & _ & _ & HN & _) H. unfold pay_at in H. destruct (Z.ltb_spec i 0); [discriminate|].
  destruct (nth_error (n_recs n) (Z.to_nat i)) as [[x w]|] eqn:En; [|discriminate]. injection H as <-.
  pose proof (ko_ppay HK _ _ _ _ _ HN En) as E. rewrite Z_nat_N in E. exact E.
Qed.
Lemma pay_max n p i v : prl n p -> n_inner n = true -> pay_at n i = Some v -> (v < max64)%N.
Proof.
  intros (_ & _ & _ & _ & _ & _ & _ & G) Hi H. unfold pay_at in H. destruct (Z.ltb_spec i 0); [discriminate|].
  destruct (nth_error (n_recs n) (Z.to_nat i)) as [[x w]|] eqn:En; [|discriminate]. injection H as <-.
  specialize (G Hi). rewrite Forall_forall in G. apply (G (x, w)). eapply nth_error_In; eauto.
Qed.
Lemma nchild_ok n p k closed v : K k -> prl n p -> n_inner n = true ->
  node_search_child n k closed = Some v -> unle (b_child (t_find C true) lt p (ek k) closed) = v.
Proof.
  intros Hk S Hi H. pose proof S as (_ & _ & _ & HN & _). destruct (ko_page HK _ _ true HN) as (S1 & _).
  assert (G : forall i, pay_at n i = Some v -> unle (q_pay (t_find C true) p (Z.to_N i)) = v).
  { intros i Hp. pose proof (pay_ok n p i v S Hp) as E. rewrite Hi in E. rewrite E. apply unle8. eapply pay_max; eauto. }
  unfold b_child. change (q_cnt (t_find C true) p) with (q_cnt (k_find C true) (tp_body p)). rewrite S1, Nat2N.id, nat_N_Z.
  rewrite (bsearch_ok n p true k) by (auto; lia). unfold node_search_child in H.
  destruct (bsearch _ _ _ _ _) as [[] pos]; apply G; auto.
Qed.

(** SearchRecord and the page it ends in. *)
Definition recok (c : chain) (k : key) (t : trres) : Prop :=
  match dc_search_record c k false with
  | RFound v => exists w, t = TRVal w /\ (h_leaf c = true -> w = evl v)
  | RNotFound => t = TRNone
  | RSibling q => t = TRSib q
  | RRemoved => t = TRRemoved
  | RBase n =>
      if fst (node_search n k) then
        exists w, t = TRVal w /\ (h_leaf c = true -> forall v, pay_at n (snd (node_search n k)) = Some v -> w = evl v)
      else t = TRNone
  | RGarbage | RWait _ => True
  end.
Lemma trecord_ok k c b : K k -> crl c b -> sane g c -> recok c k (t_record C lt b (ek k)).
Proof.
  intros Hk Hc Hs. unfold recok. destruct b as [x|a l]; [|cbn in Hc; subst c; reflexivity].
  pose proof (record_ok k (h_leaf c) Hk c x false Hc (sane_lev c Hs)) as A. cbn [t_record].
  destruct (dc_search_record c k false) as [v|a0| | |q|n|] eqn:E;
    destruct (bf_record (t_find C false) lt x (ek k) false) as [w| |p|p|]; cbn in A; try contradiction; auto.
  - eauto.
  - rewrite A. reflexivity.
  - destruct A as [Sp Li]. rewrite (search_ok n p false k Hk Sp). destruct (node_search n k) as [[] pos]; cbn [fst snd]; auto.
    eexists. split; [reflexivity|]. intros Hl v Hp. pose proof (pay_ok n p pos v Sp Hp) as E2. rewrite Li, Hl in E2. exact E2.
Qed.

(** ** Consolidation *)
Lemma sort_good : forall c b arr ns ds ns' inner, lrl c b -> lev inner c -> dc_sort c arr ns = Some (ds, ns') ->
  Forall (fun d => dgood K d /\ d_inner d = inner) arr -> Forall (ngood K) ns ->
  Forall (fun d => dgood K d /\ d_inner d = inner) ds /\ Forall (ngood K) ns'.
Proof.
  induction c as [n|d nx IH|d n nx IH|]; intros [p|bd bx|bd p bx] arr ns ds ns' inner S Lv E Fa Fn; try contradiction; cbn in S, Lv, E.
  - injection E as <- <-. split; auto. apply Forall_app. split; auto. constructor; [apply S|constructor].
  - destruct S as [(_ & _ & _ & _ & G) S], Lv as [L1 Lv]. eapply IH; eauto.
    clear - Fa G L1. assert (GD : dgood K d /\ d_inner d = inner) by auto. induction Fa as [|x t H F IHa]; cbn [add_sorted]; auto.
    destruct (d_key x <? d_key d); auto. destruct (d_key d <? d_key x); auto.
  - destruct S as (_ & Sp & S), Lv as (_ & _ & Lv). eapply IH; eauto. apply Forall_app. split; auto. constructor; [apply Sp|constructor].
Qed.
Lemma rep_ok inner : forall c b, lrl c b -> lev inner c -> lvl_rep inner c (bodies b) /\ chain_keys K inner c.
Proof.
  induction c as [n|d nx IH|d n nx IH|]; intros [p|bd bx|bd p bx] S Lv; try contradiction; cbn in S, Lv; cbn [bodies chain_rep chain_keys].
  - destruct S as (_ & _ & _ & HN & PK & _). rewrite Lv in PK. auto.
  - destruct S as ((_ & _ & _ & HD & G & _) & S), Lv as [L1 Lv]. destruct (IH _ S Lv). auto.
  - destruct S as (_ & (_ & _ & _ & HN & PK & _) & S), Lv as (L0 & L1 & Lv). destruct (IH _ S Lv). rewrite L1 in PK. auto.
Qed.
Lemma sort_next : forall c b arr ns ds ns' d0, lrl c b -> dc_sort c arr ns = Some (ds, ns') ->
  n_next (hd d0 ns') = match ns with [] => b_next b | n :: _ => n_next n end.
Proof.
  induction c as [n|d nx IH|d n nx IH|]; intros [p|bd bx|bd p bx] arr ns ds ns' d0 S E; try contradiction; cbn in S, E.
  - injection E as _ <-. destruct ns; cbn; auto. symmetry. apply S.
  - destruct S as [_ S]. rewrite (IH _ _ _ _ _ d0 S E). reflexivity.
  - destruct S as (_ & Sp & S). rewrite (IH _ _ _ _ _ d0 S E). destruct ns; cbn; auto. symmetry. apply Sp.
Qed.

Lemma one_ok c x ds ns n a m m' : lrl c x -> sane g c -> is_base c = false -> dc_sort c [] [] = Some (ds, ns) ->
  consolidate g (negb (h_leaf c)) a 0%N ns ds false false = COne n -> fits g n = true -> (c_page g <? h_size c) = false ->
  exists q, k_try C (negb (h_leaf c)) m m' (bodies x) (Z.to_N (h_size c)) false = BOne q /\
    prl n (mk_tpage a (negb (h_leaf c)) (b_next x) q).
Proof.
  intros S Hs Hb Es Ec Hf Hz. pose proof (sane_lev c Hs) as Lv. set (inner := negb (h_leaf c)) in *.
  assert (PO : pages_ok inner ns /\ (inner = true -> forall a ra n, consolidate g inner a ra ns ds false false = COne n -> n_recs n <> [])).
  { destruct c; try discriminate; try (cbn in S; contradiction); destruct Hs as [_ Hs]; apply Hs; auto. }
  destruct PO as [PO1 PO2]. destruct (rep_ok inner c x S Lv) as [R1 R2].
  destruct (sort_good c x [] [] ds ns inner S Lv Es) as [G1 G2]; [constructor|constructor|].
  pose proof (cons_good g K inner a 0%N ns ds false PO1 G2 G1) as CG. rewrite Ec in CG. destruct CG as [CG1 CG2].
  unfold fits in Hf.
  destruct (ko_one HK inner c (bodies x) ds ns n a 0%N m m' (Z.to_N (h_size c)) R1 R2 Es PO1 Ec) as (q & Q1 & Q2); eauto; try lia.
  { pose proof (fence_pos g (ko_cfg HK)). lia. }
  exists q. split; auto. pose proof (sort_next c x [] [] ds ns (dummy_node inner) S Es) as En. cbn in En.
  unfold prl. cbn [tp_addr tp_inner tp_next tp_body]. split; [|split; [|split; [|split]]]; auto.
  - unfold consolidate in Ec. destruct (low_of _ _ _ _). injection Ec as <-. reflexivity.
  - unfold consolidate in Ec. destruct (low_of _ _ _ _). injection Ec as <-. symmetry. exact En.
Qed.
Lemma two_ok c x ds ns l r a ra m m' : lrl c x -> sane g c -> is_base c = false -> dc_sort c [] [] = Some (ds, ns) ->
  consolidate g (negb (h_leaf c)) a ra ns ds true false = CTwo l r -> fits g l && fits g r = true -> (c_page g <? h_size c) = true ->
  exists ql qr, k_try C (negb (h_leaf c)) m m' (bodies x) (Z.to_N (h_size c)) false = BTwo ql qr /\
    prl l (mk_tpage a (negb (h_leaf c)) 0%N ql) /\ prl r (mk_tpage ra (negb (h_leaf c)) (b_next x) qr) /\ exists k, n_low r = Some k.
Proof.
  intros S Hs Hb Es Ec Hf Hz. pose proof (sane_lev c Hs) as Lv. set (inner := negb (h_leaf c)) in *.
  assert (PO1 : pages_ok inner ns).
  { destruct c; try discriminate; try (cbn in S; contradiction); destruct Hs as [_ Hs]; apply (Hs _ _ Es); auto. }
  destruct (rep_ok inner c x S Lv) as [R1 R2].
  destruct (sort_good c x [] [] ds ns inner S Lv Es) as [G1 G2]; [constructor|constructor|].
  pose proof (cons_good g K inner a ra ns ds true PO1 G2 G1) as CG. rewrite Ec in CG. destruct CG as (CG1 & CG2 & CG3 & CG4 & CG5).
  unfold fits in Hf. apply andb_prop in Hf as [Hf1 Hf2].
  destruct (ko_two HK inner c (bodies x) ds ns l r a ra m m' (Z.to_N (h_size c)) R1 R2 Es PO1 Ec) as (ql & qr & Q1 & Q2 & Q3); eauto; try lia.
  exists ql, qr. split; auto. pose proof (sort_next c x [] [] ds ns (dummy_node inner) S Es) as En. cbn in En.
  unfold consolidate in Ec. destruct (cs_left _) as [[lrs lsz]|]; [|discriminate]. destruct (cs_cur _) as [|[rk rv] rt] eqn:Ecc; [discriminate|].
  destruct (low_of g inner _ lrs). injection Ec as <- <-.
  unfold prl. cbn [tp_addr tp_inner tp_next tp_body n_addr n_next n_inner]. split; [|split]; auto.
Qed.
End Rel.
