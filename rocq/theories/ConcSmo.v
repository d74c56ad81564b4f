(** Structure modifications under interference. *)
From Coq Require Import ZArith NArith List Bool Lia.
From Coq Require Import ZifyBool ZifyNat ZifyN.
From Verif Require Import Config Api Page Machine Tree Spec Conc ListFacts SearchFacts ChainSpec ChainFacts
  ConsFacts Valid ConsolidateFacts SeqSmo SeqOps ConcChain ConcInv ConcSteps ConcSearch.
Import ListNotations.
Open Scope Z_scope.

(** What a split of the chain [c] of a node yields. *)
Record halves (g : cfg) (lf : bool) (c : chain) (l r : node) (sep : key) : Prop := mk_halves {
  h_l1 : n_low l = c_lo c;
  h_l2 : n_high l = Some sep;
  h_r1 : n_low r = Some sep;
  h_r2 : n_high r = c_hi c;
  h_r3 : n_next r = c_next c;
  h_wf : if lf then lnode g l /\ lnode g r else jnode g l /\ jnode g r;
  h_s1 : n_size l <= c_page g;
  h_s2 : n_size r <= c_page g;
  h_kd : lf = false -> forall P, jkids P c -> jkids P (CBase l) /\ jkids P (CBase r);
  h_en : lf = false -> find sep (ients c) <> None /\
           forall k, (find k (nents l) <> None -> find k (ients c) <> None /\ k < sep) /\
                     (find k (nents r) <> None -> find k (ients c) <> None /\ sep < k);
  h_lf : lf = true -> in_srng (c_lo c) (c_hi c) sep /\
           forall k, (in_rng (c_lo c) (Some sep) k -> find k (n_recs l) = lget c k) /\
                     (in_rng (Some sep) (c_hi c) k -> find k (n_recs r) = lget c k)
}.

Lemma find_app_l k (a b : list (key * val)) : find k a <> None -> find k (a ++ b) = find k a.
Proof. induction a as [|[x v] a IH]; cbn [find app]; [congruence|]. destruct (x =? k); auto. Qed.
Lemma find_app_r k (a b : list (key * val)) : find k a = None -> find k (a ++ b) = find k b.
Proof. induction a as [|[x v] a IH]; cbn [find app]; auto. destruct (x =? k); auto. discriminate. Qed.
Lemma find_some_in k (a : list (key * val)) : find k a <> None -> exists w, In (k, w) a.
Proof. destruct (find k a) as [w|] eqn:E; [|congruence]. intros _. exists w. apply find_in; auto. Qed.
Lemma find_none_lt k (a : list (key * val)) : Forall (fun r => k < fst r) a -> find k a = None.
Proof.
  intros H. destruct (find k a) as [w|] eqn:E; auto. apply find_in in E. rewrite Forall_forall in H.
  specialize (H _ E). cbn in H. lia.
Qed.
Lemma find_none_gt k (a : list (key * val)) : Forall (fun r => fst r < k) a -> find k a = None.
Proof.
  intros H. destruct (find k a) as [w|] eqn:E; auto. apply find_in in E. rewrite Forall_forall in H.
  specialize (H _ E). cbn in H. lia.
Qed.
Lemma sorted_split a k v (b : list (key * val)) : sorted (a ++ (k, v) :: b) ->
  Forall (fun r => fst r < k) a /\ Forall (fun r => k < fst r) b.
Proof.
  intros H. apply sorted_app_inv in H as (_ & H2 & H3). apply sorted_cons_inv in H2 as [_ H2]. split; auto.
  apply Forall_forall. intros x Hx. apply (H3 x (k, v) Hx). left; auto.
Qed.

Section Smo.
Variable g : cfg.
Hypothesis OK : cfg_ok g.
Hypothesis HO : hdr_ok g.
Hypothesis NM : no_merge g.
Notation inv := (inv g). Notation nok := (nok g). Notation rely := (rely g). Notation keep := (keep).
Notation step_ok := (step_ok g). Notation wp := (wp g). Notation big := (big g).

Lemma maxrec_pos : 0 < maxrec g.
Proof. pose proof (nullsz_bound g OK). lia. Qed.

Lemma size_min x p lf lo c : nok x p lf lo c -> c_min g < h_size c.
Proof.
  intros H. pose proof (n_wf _ _ _ _ _ _ H) as W. unfold no_merge in NM. destruct lf.
  - rewrite (lwf_size _ _ W). unfold lbytes. pose proof (csum_nn g (c_paylen g) (lrecs c)) as Q.
    assert (forall k, 0 < recsz g (c_paylen g) k) by (intros; apply recsz_leaf; auto). specialize (Q H0).
    pose proof (okl_bound g OK (c_lo c)). pose proof (okl_bound g OK (c_hi c)). lia.
  - rewrite (jwf_size _ _ W). unfold ibytes. pose proof (csum_nn g ptrlen (ients c)) as Q.
    assert (forall k, 0 < recsz g ptrlen k) by (intros; apply recsz_inner; auto). specialize (Q H0).
    pose proof (ifirst_bound g OK (c_lo c)). pose proof (okl_bound g OK (c_hi c)). lia.
Qed.

(** ** Consolidated pages *)
Lemma cons_split x p lf lo c ds a ra : nok x p lf lo c -> sort_ok c ds -> c_page g < h_size c ->
  exists l r sep, consolidate g (negb lf) a ra (pages c) ds true false = CTwo l r /\
    halves g lf c l r sep /\ n_addr l = a /\ n_addr r = ra.
Proof.
  intros H Hs Hz. pose proof (n_wf _ _ _ _ _ _ H) as W.
  assert (Hz2 : c_page g < h_size c <= c_page g + excess g).
  { pose proof (n_sz _ _ _ _ _ _ H). pose proof (maxrec_excess g). lia. }
  destruct lf; cbn [negb].
  - destruct (cons_leaf_two g OK c ds a ra W Hs Hz2) as (l1 & sep & v & l2 & sz1 & sz2 & E & Ne & C & Wl & Wr & S1 & S2).
    eexists _, _, sep. split; [exact C|]. split; [|split; reflexivity].
    destruct (lwf_sorted _ _ W) as [So Fo]. rewrite E in So, Fo. destruct (sorted_split _ _ _ _ So) as [F1 F2].
    constructor; auto; try discriminate. intros _. split.
    + apply Forall_app in Fo as [Fa Fb]. inversion Fb as [|? ? [Q1 Q2] _]; subst. cbn [fst] in *. split; auto.
      destruct l1 as [|[y w] l1]; [congruence|]. inversion Fa as [|? ? [Q3 _] _]; subst. inversion F1; subst. cbn [fst] in *.
      unfold lo_lt, lo_ok in *. destruct (c_lo c); auto. lia.
    + intros k. unfold lget. rewrite E. cbn [n_recs]. split.
      * intros [_ Hk]. cbn in Hk. destruct (find k l1) eqn:Ek.
        -- rewrite find_app_l by congruence. auto.
        -- rewrite find_app_r by auto. cbn [find]. destruct (Z.eqb_spec sep k); [lia|].
           symmetry. apply find_none_lt. eapply Forall_impl; [|exact F2]. cbn beta. intros; lia.
      * intros [Hk _]. cbn in Hk. rewrite find_app_r; auto. apply find_none_gt.
        eapply Forall_impl; [|exact F1]. cbn beta. intros; lia.
  - destruct (cons_j_two g OK HO c ds a ra W Hs Hz2) as (l1 & sep & v & l2 & sz1 & sz2 & E & C & Wl & Wr & S1 & S2).
    eexists _, _, sep. split; [exact C|]. split; [|split; reflexivity].
    destruct (jrest_spec _ _ W) as [So _]. pose proof So as So'. rewrite E in So. destruct (sorted_split _ _ _ _ So) as [F1 F2].
    destruct (jwf_sorted _ _ W) as [Si _].
    assert (Hin : forall k w, In (k, w) (jrest c) -> find k (ients c) <> None).
    { intros k w Hi. rewrite (in_find _ _ _ Si (jrest_in _ _ _ Hi)). discriminate. }
    constructor; auto; try discriminate.
    + intros _ P HP. destruct (jkids_cons g P c W HP) as [A B]. rewrite E in B. apply Forall_app in B as [B1 B2].
      inversion B2; subst. cbn [jkids]. unfold nlead, nents. revert A. destruct (jfst c). cbn. auto.
    + intros _. split.
      * apply (Hin sep v). rewrite E. apply in_or_app. right; left; auto.
      * intros k. unfold nents. cbn. split; intros Hk; apply find_some_in in Hk as [w Hw]; split.
        -- apply (Hin k w). rewrite E. apply in_or_app; auto.
        -- rewrite Forall_forall in F1. apply (F1 _ Hw).
        -- apply (Hin k w). rewrite E. apply in_or_app. right; right; auto.
        -- rewrite Forall_forall in F2. apply (F2 _ Hw).
Qed.

Lemma cons_whole x p lf lo c ds a ra : nok x p lf lo c -> sort_ok c ds -> h_size c <= c_page g ->
  exists n, consolidate g (negb lf) a ra (pages c) ds false false = COne n /\ n_addr n = a /\
    c_lo (CBase n) = c_lo c /\ c_hi (CBase n) = c_hi c /\ c_next (CBase n) = c_next c /\
    n_size n <= c_page g /\ (if lf then lnode g n else jnode g n) /\
    (lf = true -> forall k, lget (CBase n) k = lget c k) /\
    (lf = false -> (forall P, jkids P c -> jkids P (CBase n)) /\
       forall k, find k (nents n) <> None -> find k (ients c) <> None).
Proof.
  intros H Hs Hz. pose proof (n_wf _ _ _ _ _ _ H) as W. destruct lf; cbn [negb].
  - rewrite (cons_leaf_one g c ds a ra W Hs). eexists. split; [reflexivity|]. cbn [n_addr cons_page].
    repeat (split; [solve [auto; apply cons_leaf_node; auto]|]). discriminate.
  - rewrite (cons_j_one g c ds a ra W Hs). eexists. split; [reflexivity|]. cbn [n_addr cons_page].
    do 4 (split; [solve [auto]|]). split; [pose proof (jbytes_size g OK HO c W); cbn; lia|].
    split; [apply cons_j_node; auto|]. split; [discriminate|]. intros _. split.
    + intros P HP. destruct (jkids_cons g P c W HP) as [A B]. cbn [jkids]. unfold nlead, nents.
      revert A. destruct (jfst c). cbn. auto.
    + intros k. unfold nents. cbn. intros Hk. apply find_some_in in Hk as [w Hw].
      destruct (jwf_sorted _ _ W) as [Si _]. rewrite (in_find _ _ _ Si (jrest_in _ _ _ Hw)). discriminate.
Qed.
(** ** Fresh addresses and page IDs *)
Definition fr (t : tid) (x : world) (a : addr) : Prop := $own x a = t /\ $hist x a = None /\ (a < $naddr x)%N.
Definition fp (t : tid) (x : world) (p : pid) : Prop := $pown x p = t /\ $nd x p = None /\ (0 < p < $npid x)%N.
Lemma fr_rely t x y a : rely t x y -> fr t x a -> fr t y a.
Proof.
  intros R (A & B & C). split; [rewrite (r_own _ _ _ _ R); auto|]. split; [apply (r_free _ _ _ _ R); auto|].
  pose proof (r_nad _ _ _ _ R). lia.
Qed.
Lemma fp_rely t x y p : rely t x y -> fp t x p -> fp t y p /\ $tbl y p = $tbl x p.
Proof.
  intros R (A & B & C). destruct (r_priv _ _ _ _ R p) as [E1 E2]; auto; [lia|]. split; auto.
  split; [rewrite (r_pown _ _ _ _ R); auto; lia|]. split; auto. pose proof (r_npi _ _ _ _ R). lia.
Qed.

Lemma wp_alloc t {B} (K : addr -> prog B) Q x :
  (forall y a, rely t x y -> fr t y a -> inv y -> ($naddr x <= a)%N -> wp t (K a) Q y) -> wp t (Alloc K) Q x.
Proof.
  intros H. cbn [wp]. intros y Hr Hi. eapply step_mono; [|apply step_alloc; auto].
  intros z Hz (A & B0 & C & D). apply H; auto; [eapply rely_trans; eauto|split; auto|].
  apply (r_nad _ _ _ _ Hr).
Qed.
Lemma wp_newpid t {B} (K : pid -> prog B) Q x :
  (forall y p, rely t x y -> fp t y p -> inv y -> wp t (K p) Q y) -> wp t (NewPid K) Q x.
Proof.
  intros H. cbn [wp]. intros y Hr Hi. eapply step_mono; [|apply step_newpid; auto].
  intros z Hz (A & B0 & C & D). apply H; auto; [eapply rely_trans; eauto|]. split; auto.
Qed.

(** ** TryRootSplit *)
Lemma new_root_j a old sep rp : jnode g (new_root g a old sep rp) /\ n_size (new_root g a old sep rp) <= c_page g.
Proof.
  pose proof (ok_page g OK). pose proof (ok_hdr g OK). pose proof (kovh_nn g OK). pose proof (maxrec_excess g).
  pose proof (nullsz_bound g OK). pose proof (recsz_inner g OK sep).
  split; [|cbn; lia]. unfold jnode, new_root, nents, nlead. cbn. split; auto.
  split; [exists (c_garbage g); auto|]. split; [repeat constructor|]. split; [constructor; auto|]. split; auto.
  unfold ibytes, ifirst, csum, okl. cbn [fold_right fst]. destruct (c_varlen g); lia.
Qed.

Lemma root_split_wp t x sep rp old b1 : $nd x rp = Some (b1, Some sep) -> $tok x sep = TkPend t ->
  wp t (try_root_split g sep rp old) (fun r y => if r then keep t x y else rely t x y) x.
Proof.
  intros Er Et. unfold try_root_split. cbn [wp]. intros y Hr Hi. apply step_nop; auto.
  destruct (N.eqb_spec (s_root (w_s y)) old) as [Ho|Ho]; cbn [negb]; [|exact Hr].
  destruct (i_root _ _ Hi) as [b0 Eo]. rewrite Ho in Eo. cbn [bind alloc].
  apply wp_alloc. intros y1 a R1 Fa _ _. apply wp_newpid. intros y2 np R2 Fp _.
  cbn [wp]. intros y3 R3 Hi3.
  assert (Rx : rely t x y3) by (eapply rely_trans; [eauto|]; eapply rely_trans; [eauto|]; eapply rely_trans; eauto).
  destruct (fp_rely _ _ _ _ R3 Fp) as [(P1 & P2 & P3) _].
  pose proof (fr_rely _ _ _ _ (rely_trans _ _ _ _ _ R2 R3) Fa) as (A1 & A2 & A3).
  pose proof (r_nd _ _ _ _ Rx _ _ Er) as Er3. pose proof (r_tok _ _ _ _ Rx _ Et) as Et3.
  assert (Eo3 : $nd y3 old = Some (b0, None)).
  { apply (r_nd _ _ _ _ R3), (r_nd _ _ _ _ R2), (r_nd _ _ _ _ R1); auto. }
  destruct (new_root_j a old sep rp) as [J1 J2]. pose proof maxrec_pos.
  eapply step_mono; [|eapply (step_newroot g t y3 np (new_root g a old sep rp) old rp sep b0 b1); eauto].
  intros z3 Hz (K3 & N3) y4 R4 Hi4. eapply step_mono; [|eapply step_root; eauto; apply (r_nd _ _ _ _ R4); eauto].
  intros z4 Hz4 K4. eapply keep_trans; [apply (rely_keep g); eauto|]. eapply keep_trans; [eauto|].
  eapply keep_trans; [apply (rely_keep g); eauto|]. eauto.
Qed.

(** ** Posting an index entry *)
Definition smo_pre (t : tid) (x : world) (head : chain) (stack : list pid) : Prop :=
  exists p rest lf lo, stack = p :: rest /\ $nd x p = Some (lf, lo) /\ stk x lo rest /\
    $hist x (h_addr head) = Some (p, head) /\ $own x (h_addr head) = t /\ is_base head = false.

Lemma not_wait head : need_wait g head = false -> ~ big head.
Proof. unfold need_wait, ConcInv.big. intros H [B S]. rewrite B in H. cbn in H. lia. Qed.

Section Loop.
Variable t : tid.
Variable smos : chain -> list pid -> prog unit.
Hypothesis SM : forall head stack x, smo_pre t x head stack -> inv x -> wp t (smos head stack) (fun _ y => keep t x y) x.

Lemma split_loop_wp sep rp b1 a lp : forall fuel x stack hi, 
  $nd x rp = Some (b1, Some sep) -> $tok x sep = TkPend t -> fr t x a -> stk x (Some sep) stack ->
  wp t (split_loop g smos fuel (mk_delta a true DInsert sep hi rp 0 0) lp stack) (fun _ y => keep t x y) x.
Proof.
  induction fuel as [|f IH]; intros x stack hi Er Et Fa S; [exact I|].
  cbn [split_loop]. destruct stack as [|p0 rest0].
  - cbn [d_key d_pay]. apply wp_bind. eapply wp_mono; [|eapply root_split_wp; eauto].
    intros [|] y Hy; [exact Hy|]. apply wp_bind. eapply wp_mono; [|apply search_target_wp].
    intros st z (Hz & lf & p & r & lo & -> & E & L & Sr). cbn beta iota.
    pose proof (rely_trans _ _ _ _ _ Hy Hz) as Rz. eapply wp_mono; [|apply IH].
    + intros u w Hw. eapply keep_trans; [apply (rely_keep g); eauto|]. auto.
    + apply (r_nd _ _ _ _ Rz); auto.
    + apply (r_tok _ _ _ _ Rz); auto.
    + eapply fr_rely; eauto.
    + eapply stk_le; eauto.
  - cbn [d_key d_pay]. apply wp_bind. eapply wp_mono; [|eapply get_head_wp; eauto].
    2:{ apply stk_tstk; auto. discriminate. }
    intros ra y (Hy & head & p & rest & lo & -> & E & L & Sr & Hh & Hw & Hi). cbn beta iota.
    cbn [bind cas wp]. intros y2 R2 Hi2.
    pose proof (rely_trans _ _ _ _ _ Hy R2) as Rx.
    pose proof (r_nd _ _ _ _ Rx _ _ Er) as Er2. pose proof (r_tok _ _ _ _ Rx _ Et) as Et2.
    pose proof (fr_rely _ _ _ _ Rx Fa) as (A1 & A2 & A3).
    pose proof (r_nd _ _ _ _ R2 _ _ E) as E2. pose proof (r_hist _ _ _ _ R2 _ _ Hh) as Hh2.
    assert (S2 : stk y2 lo rest) by (eapply stk_mono; [apply (r_nd _ _ _ _ R2)|auto]).
    split.
    + intros c0 T0 A0. assert (c0 = head) by (eapply hist_same; eauto). subst c0.
      pose proof (nok_at _ _ _ _ _ _ Hi2 E2 T0) as Hc.
      set (d' := set_next _ _ _). pose proof (recsz_inner g OK sep) as Rz.
      assert (Hq : h_size head <= c_page g /\ (is_base head = false -> h_cnt head < c_maxd g)).
      { unfold need_wait in Hw. destruct (is_base head) eqn:Eb; cbn [negb andb] in Hw.
        - split; [apply (n_bse _ _ _ _ _ _ Hc); auto|discriminate].
        - split; [lia|intros; lia]. }
      pose proof (n_wf _ _ _ _ _ _ Hc) as W. pose proof (n_lo _ _ _ _ _ _ Hc) as Elo.
      assert (Fn : find sep (ients head) = None).
      { destruct (find sep (ients head)) eqn:Ef; auto.
        pose proof (n_tok _ _ _ _ _ _ Hc eq_refl sep) as Q. rewrite Ef in Q. specialize (Q ltac:(discriminate)). congruence. }
      assert (Na : ~ In a (chain_addrs head)).
      { intros Hin. pose proof (n_ast _ _ _ _ _ _ Hc _ Hin) as Q. rewrite (i_fre _ _ Hi2 _ A2) in Q. discriminate. }
      set (tok' := fun k => if k =? sep then TkIn p else $tok y2 k).
      eapply step_mono; [|eapply (step_replace g t y2 p false lo head (CRec d' head) [] tok' ($cont y2) ($stat y2))];
        auto; cbn [h_addr h_size h_cnt is_base d' d_addr d_size d_cnt set_next].
      * intros z Hz (N1 & N2 & N3 & N4 & N5 & N6 & N7 & N8 & N9).
        assert (Kz : keep t x z).
        { eapply keep_trans; [apply (rely_keep g); eauto|]. constructor; auto.
          - intros q v. rewrite N1. auto.
          - congruence. }
        destruct (need_consolidation g (CRec d' head)) eqn:Nc; [|exact Kz].
        eapply wp_mono; [|apply SM; auto].
        -- intros u w Kw. eapply keep_trans; eauto.
        -- exists p, rest, false, lo. split; auto. rewrite N1, N4. split; auto. split; [|auto].
           eapply stk_mono; [|exact S2]. intros q v. rewrite N1. auto.
      * apply not_wait; auto.
      * cbn [jwf d_inner d_type d_key d_cnt d_size]. split; [auto|]. split; [auto|]. split; [auto|].
        split; [rewrite Elo; apply ole_ok; auto|]. split; [auto|]. split; [reflexivity|]. split; auto.
      * discriminate.
      * lia.
      * pose proof (ok_thr g OK). destruct (is_base head); [lia|]. destruct Hq as [_ Hq]. specialize (Hq eq_refl). lia.
      * intros _. cbn [jkids d_key d_pay]. split; [exists b1; auto|]. apply (n_kids _ _ _ _ _ _ Hc); auto.
      * intros _ k. change (ients (CRec d' head)) with (put sep rp (ients head)). destruct (jwf_sorted _ _ W) as [Si _]. rewrite find_put by auto.
        unfold tok'. destruct (Z.eqb_spec k sep); auto. apply (n_tok _ _ _ _ _ _ Hc); auto.
      * cbn [chain_addrs d_addr]. constructor; auto. apply (n_dup _ _ _ _ _ _ Hc).
      * cbn [chain_addrs d_addr]. intros b [<-|Hb]; auto.
      * intros b [].
      * intros k q Hk. unfold tok'. destruct (Z.eqb_spec k sep); auto. subst. congruence.
      * intros k u Hu Hk. unfold tok'. destruct (Z.eqb_spec k sep); auto. subst. congruence.
      * intros k. unfold tok'. destruct (Z.eqb_spec k sep); auto. subst. rewrite Et2. discriminate.
      * discriminate.
    + apply step_nop; auto. eapply wp_mono; [|apply IH; auto].
      * intros u w Kw. eapply keep_trans; [apply (rely_keep g); eauto|]. auto.
      * split; auto.
      * cbn [stk]. exists lo. split; auto.
Qed.
(** ** Split *)
Lemma sep_lo (lf : bool) c l r sep : (if lf then lwf g c else jwf g c) -> halves g lf c l r sep -> ole (c_lo c) (Some sep).
Proof.
  intros W H. apply ole_ok. destruct lf.
  - destruct (h_lf _ _ _ _ _ _ H eq_refl) as [[A _] _]. unfold lo_lt, lo_ok in *. destruct (c_lo c); auto. lia.
  - destruct (h_en _ _ _ _ _ _ H eq_refl) as [A _]. apply find_some_in in A as [v Hv].
    destruct (jwf_sorted _ _ W) as [_ F]. rewrite Forall_forall in F. apply (F _ Hv).
Qed.

Lemma split_wp fuel x p rest lf lo head l r sep :
  $nd x p = Some (lf, lo) -> $tbl x p = Some head -> inv x -> big head ->
  $own x (h_addr head) = t -> (h_addr head < $naddr x)%N -> halves g lf head l r sep ->
  fr t x (n_addr l) -> fr t x (n_addr r) -> n_addr l <> n_addr r -> stk x lo rest ->
  wp t (split g smos fuel l r (p :: rest))
    (fun _ y => keep t x y /\ forall b, In b (chain_addrs head) -> $ast y b = AOut t) x.
Proof.
  intros E T Hi Hb Ho Ha HH Fl Fr Hne S. pose proof (nok_at _ _ _ _ _ _ Hi E T) as Hc0.
  pose proof (n_lo _ _ _ _ _ _ Hc0) as Elo. pose proof (n_wf _ _ _ _ _ _ Hc0) as W.
  pose proof (sep_lo _ _ _ _ _ W HH) as Osep. rewrite Elo in Osep.
  unfold split. rewrite (h_r1 _ _ _ _ _ _ HH). apply wp_newpid. intros y1 rp R1 Fp Hi1. cbn [wp]. intros y2 R2 Hi2.
  pose proof (rely_trans _ _ _ _ _ R1 R2) as Rx2.
  destruct (fp_rely _ _ _ _ R2 Fp) as [(P1 & P2 & P3) _].
  pose proof (fr_rely _ _ _ _ Rx2 Fr) as (A1 & A2 & A3). pose proof (fr_rely _ _ _ _ Rx2 Fl) as (B1 & B2 & B3).
  eapply step_mono; [|apply step_private; auto; [lia|apply HH|pose proof (h_wf _ _ _ _ _ _ HH) as Wr; destruct lf; [destruct Wr as [_ (Er & _)]; congruence|destruct Wr as [_ (_ & (k0 & Er & _) & _)]; rewrite Er; discriminate]]].
  intros z2 Hz2 (M1 & M2 & M3 & M4 & M5 & M6 & M7 & M8 & M9 & M10 & M11 & M12) y3 R3 Hi3.
  assert (E2 : $nd z2 p = Some (lf, lo)) by (rewrite M1; apply (r_nd _ _ _ _ Rx2); auto).
  assert (Hprp : p <> rp) by (intros ->; congruence).
  assert (T2 : $tbl z2 p = Some head).
  { rewrite M9 by auto. apply (r_big _ _ _ _ Rx2); auto. rewrite E. discriminate. }
  assert (T3 : $tbl y3 p = Some head).
  { apply (r_big _ _ _ _ R3); auto; [rewrite E2; discriminate| |].
    - rewrite M6. pose proof (r_nad _ _ _ _ Rx2). lia.
    - rewrite M3, (r_own _ _ _ _ Rx2); auto. }
  assert (E3 : $nd y3 p = Some (lf, lo)) by (apply (r_nd _ _ _ _ R3); auto).
  assert (Fp2 : fp t z2 rp) by (unfold fp; rewrite M4, M1, M7; auto).
  destruct (fp_rely _ _ _ _ R3 Fp2) as [(Q1 & Q2 & Q3) Q4]. rewrite M8 in Q4.
  assert (Fl2 : fr t z2 (n_addr l)) by (unfold fr; rewrite M3, M10, M6; auto).
  pose proof (fr_rely _ _ _ _ R3 Fl2) as (C1 & C2 & C3).
  assert (Own3 : $own y3 (h_addr head) = t).
  { rewrite (r_own _ _ _ _ R3); [rewrite M3; rewrite (r_own _ _ _ _ Rx2); auto|].
    rewrite M6. pose proof (r_nad _ _ _ _ Rx2). lia. }
  assert (K3 : keep t x y3).
  { eapply keep_trans; [apply (rely_keep g); eauto|]. eapply keep_trans; [|apply (rely_keep g); eauto].
    constructor; auto.
    - intros q v. rewrite M1. auto.
    - congruence.
    - intros b Hb2. rewrite M12; auto. congruence. }
  pose proof (nok_at _ _ _ _ _ _ Hi3 E3 T3) as Hc3.
  set (tok' := fun k => if k =? sep then TkPend t else
     match find k (nents r) with Some _ => if lf then $tok y3 k else TkIn rp | None => $tok y3 k end).
  assert (Tsep : lf = true -> $tok y3 sep = TkNone).
  { intros ->. destruct ($tok y3 sep) eqn:Et; auto.
    all: exfalso; destruct (i_tok _ _ Hi3 sep) as [q Hq]; [congruence|].
    all: destruct (inv_at _ _ _ _ _ Hi3 Hq) as (cq & Hcq & Tq).
    all: destruct (h_lf _ _ _ _ _ _ HH eq_refl) as [[I1 I2] _]; rewrite Elo in I1.
    all: assert (p = q); [apply (i_dis _ _ Hi3 p q lo (Some sep) head cq sep); auto|].
    all: try (split; [unfold lo_lt, lo_ok in *; destruct lo; auto; lia|exact I2]).
    all: try (split; [cbn; lia|]; pose proof (n_wf _ _ _ _ _ _ Hcq) as Wq; apply lwf_rng in Wq;
              rewrite (n_lo _ _ _ _ _ _ Hcq) in Wq; unfold rng_ne, lo_lt, hi_ok in *; destruct (c_hi cq); auto; fail).
    all: subst q; rewrite E3 in Hq; injection Hq as Hq; rewrite Hq in I1; cbn in I1; lia. }
  assert (Tin : lf = false -> forall k, find k (ients head) <> None -> $tok y3 k = TkIn p).
  { intros El. apply (n_tok _ _ _ _ _ _ Hc3 El). }
  pose proof maxrec_pos as MP.
  eapply step_mono; [|eapply (step_split g t y3 p lf lo head (with_next l rp) r rp sep tok')];
    auto; try apply HH; try (rewrite <- Elo; apply HH; fail).
  - intros z3 Hz3 (K & N1 & N2 & N3 & N4). cbn [bind alloc]. apply wp_alloc. intros y4 a R4 Fa Hi4 _.
    assert (Kx4 : keep t x y4).
    { eapply keep_trans; [exact K3|]. eapply keep_trans; [exact K|]. apply (rely_keep g); auto. }
    eapply wp_mono; [|eapply split_loop_wp; eauto].
    + intros u w Kw. split; [eapply keep_trans; eauto|]. intros b Hb2. apply (k_out _ _ _ Kw).
      apply (r_out _ _ _ _ R4). auto.
    + apply (r_nd _ _ _ _ R4). exact N1.
    + apply (r_tok _ _ _ _ R4). rewrite N2. unfold tok'. rewrite Z.eqb_refl. auto.
    + eapply stk_le; [exact Osep|]. eapply stk_mono; [|exact S]. intros q v Hq. apply (k_nd _ _ _ Kx4); auto.
  - intros El. destruct (h_kd _ _ _ _ _ _ HH El (kid y3)) as [J1 J2]; [apply (n_kids _ _ _ _ _ _ Hc3); auto|].
    split; [exact J1|exact J2].
  - intros El k. destruct (h_en _ _ _ _ _ _ HH El) as [_ He]. specialize (He k) as [He1 He2]. split; intros Hk.
    + change (nents (with_next l rp)) with (nents l) in Hk. destruct (He1 Hk) as [He3 He4]. unfold tok'.
      destruct (Z.eqb_spec k sep); [lia|]. destruct (find k (nents r)) eqn:Ek; [|apply Tin; auto].
      destruct He2 as [_ He2]; [discriminate|]. lia.
    + destruct (He2 Hk) as [He3 He4]. unfold tok'. destruct (Z.eqb_spec k sep); [lia|].
      destruct (find k (nents r)); [|congruence]. rewrite El. auto.
  - intros k q Hq Hk. unfold tok'. destruct (Z.eqb_spec k sep) as [->|].
    + exfalso. destruct lf; [rewrite Tsep in Hk; auto; discriminate|].
      destruct (h_en _ _ _ _ _ _ HH eq_refl) as [He _]. rewrite (Tin eq_refl _ He) in Hk. congruence.
    + destruct (find k (nents r)) eqn:Ek; auto. destruct lf; auto.
      exfalso. destruct (h_en _ _ _ _ _ _ HH eq_refl) as [_ He]. destruct (He k) as [_ He2].
      destruct He2 as [He2 _]; [congruence|]. rewrite (Tin eq_refl _ He2) in Hk. congruence.
  - intros k u Hu Hk. unfold tok'. destruct (Z.eqb_spec k sep) as [->|].
    + exfalso. destruct lf; [rewrite Tsep in Hk; auto; discriminate|].
      destruct (h_en _ _ _ _ _ _ HH eq_refl) as [He _]. rewrite (Tin eq_refl _ He) in Hk. congruence.
    + destruct (find k (nents r)) eqn:Ek; auto. destruct lf; auto.
      exfalso. destruct (h_en _ _ _ _ _ _ HH eq_refl) as [_ He]. destruct (He k) as [_ He2].
      destruct He2 as [He2 _]; [congruence|]. rewrite (Tin eq_refl _ He2) in Hk. congruence.
  - intros k. unfold tok'. destruct (Z.eqb_spec k sep) as [->|].
    + intros _. destruct lf; auto. left. destruct (h_en _ _ _ _ _ _ HH eq_refl) as [He _].
      rewrite (Tin eq_refl _ He). discriminate.
    + destruct (find k (nents r)) eqn:Ek; auto. destruct lf; auto.
      intros _. left. destruct (h_en _ _ _ _ _ _ HH eq_refl) as [_ He]. destruct (He k) as [_ He2].
      destruct He2 as [He2 _]; [congruence|]. rewrite (Tin eq_refl _ He2). discriminate.
Qed.
End Loop.

(** ** TrySMOs *)
Lemma retire_wp t x0 x l : keep t x0 x -> NoDup l -> (forall a, In a l -> $ast x a = AOut t) ->
  (forall a, In a l -> $ast x0 a <> AOut t) ->
  wp t (retire l) (fun _ y => keep t x0 y) x.
Proof.
  intros K D H H0. unfold retire. cbn [wp]. intros y R Hi.
  eapply step_mono; [|apply step_retire; auto; intros; apply (r_out _ _ _ _ R); auto].
  intros z Hz (N1 & N2 & N3 & N4). constructor.
  - intros p v Hp. rewrite N1. apply (r_nd _ _ _ _ R), K; auto.
  - intros a v Ha. rewrite N2. apply (r_hist _ _ _ _ R), K; auto.
  - rewrite N3, (r_stat _ _ _ _ R). apply K.
  - intros a Ha. rewrite N4; [apply (r_out _ _ _ _ R), K; auto|]. intros Hl. apply (H0 _ Hl Ha).
Qed.

Lemma smo_wp t : forall fuel head stack x, smo_pre t x head stack -> inv x ->
  wp t (try_smos g fuel head stack) (fun _ y => keep t x y) x.
Proof.
  induction fuel as [|f IH]; intros head stack x (p & rest & lf & lo & -> & E & S & Hh & Ho & Hb) Hix; [exact I|].
  cbn [try_smos bind load]. eapply wp_load; eauto. intros y c Hr Hi Hc. apply step_nop; auto.
  pose proof (r_nd _ _ _ _ Hr _ _ E) as Ey. pose proof (r_hist _ _ _ _ Hr _ _ Hh) as Hhy.
  destruct (N.eqb_spec (h_addr c) (h_addr head)) as [Ea|Ea]; cbn [negb]; [|apply (rely_keep g); auto].
  assert (c = head) by (eapply hist_same; eauto; apply Hc). subst c. clear Ea.
  assert (Hax : (h_addr head < $naddr x)%N) by (apply (i_adr _ _ Hix); congruence).
  assert (Oy : $own y (h_addr head) = t) by (rewrite (r_own _ _ _ _ Hr); auto).
  assert (Hay : (h_addr head < $naddr y)%N) by (pose proof (r_nad _ _ _ _ Hr); lia).
  assert (Sy : stk y lo rest) by (eapply stk_mono; [apply (r_nd _ _ _ _ Hr)|auto]).
  apply wp_alloc. intros y1 a R1 Fa Hi1 _. cbn [bind].
  assert (Hm : mhigh_ok head).
  { pose proof (n_wf _ _ _ _ _ _ Hc). destruct lf; [eapply lwf_mhigh|eapply jwf_mhigh]; eauto. }
  destruct (sort_ok_ex head Hm) as [ds Hs]. pose proof Hs as (Ed & _ & _ & Ln). rewrite Ed.
  assert (Hlen : Z.of_nat (length ds) <= c_maxd g).
  { pose proof (n_cnt _ _ _ _ _ _ Hc Hb). pose proof (n_wf _ _ _ _ _ _ Hc) as W.
    assert (Z.of_nat (ndelta head) <= h_cnt head); [|lia].
    destruct lf; [eapply ndelta_cnt_l; eauto|]. rewrite (jwf_ndelta _ _ W Hb). lia. }
  destruct (Z.ltb_spec (c_maxd g) (Z.of_nat (length ds))); [lia|].
  rewrite (nok_leaf _ _ _ _ _ _ Hc).
  pose proof (rely_trans _ _ _ _ _ Hr R1) as Rx1.
  destruct (Z.ltb_spec (c_page g) (h_size head)) as [Hz|Hz].
  - (* split *)
    assert (Bg : big head) by (split; auto).
    apply wp_alloc. intros y2 ra R2 Fra Hi2 Hra. cbn [bind].
    destruct (cons_split y p lf lo head ds a ra Hc Hs Hz) as (l & r & sep & C & HH & Al & Ar).
    rewrite C. unfold fits.
    destruct (Z.leb_spec (n_size l) (c_page g)); [|pose proof (h_s1 _ _ _ _ _ _ HH); lia].
    destruct (Z.leb_spec (n_size r) (c_page g)); [|pose proof (h_s2 _ _ _ _ _ _ HH); lia]. cbn [andb].
    pose proof (rely_trans _ _ _ _ _ R1 R2) as Ry2. pose proof (rely_trans _ _ _ _ _ Hr Ry2) as Rx2.
    assert (T2 : $tbl y2 p = Some head).
    { apply (r_big _ _ _ _ Ry2); auto; [apply Hc|rewrite Ey; discriminate]. }
    assert (E2 : $nd y2 p = Some (lf, lo)) by (apply (r_nd _ _ _ _ Rx2); auto).
    pose proof (nok_at _ _ _ _ _ _ Hi2 E2 T2) as Hc2.
    apply wp_bind. eapply wp_mono; [|eapply (split_wp t (try_smos g f)); eauto].
    + intros _ z [Kz Hout]. apply retire_wp; auto.
      * eapply keep_trans; [apply (rely_keep g); eauto|]. auto.
      * apply (n_dup _ _ _ _ _ _ Hc).
      * intros b Hb2 Hbx. pose proof (n_ast _ _ _ _ _ _ Hc2 _ Hb2) as Q. apply (r_out _ _ _ _ Rx2) in Hbx. congruence.
    + rewrite (r_own _ _ _ _ Ry2); auto.
    + pose proof (r_nad _ _ _ _ Ry2). lia.
    + rewrite Al. apply (fr_rely _ _ _ _ R2 Fa).
    + rewrite Ar. auto.
    + rewrite Al, Ar. intros Heq. destruct Fa as (_ & _ & Fa). lia.
    + eapply stk_mono; [apply (r_nd _ _ _ _ Ry2)|auto].
  - (* consolidate *)
    destruct (cons_whole y p lf lo head ds a 0%N Hc Hs Hz) as (n & C & An & L1 & L2 & L3 & Z1 & W & LG & IN).
    rewrite C. unfold fits. destruct (Z.leb_spec (n_size n) (c_page g)); [|lia].
    pose proof (size_min _ _ _ _ _ Hc). destruct (Z.leb_spec (h_size head) (c_min g)); [lia|].
    cbn [bind cas wp]. intros y2 R2 Hi2.
    pose proof (rely_trans _ _ _ _ _ R1 R2) as Ry2. pose proof (rely_trans _ _ _ _ _ Hr Ry2) as Rx2.
    assert (E2 : $nd y2 p = Some (lf, lo)) by (apply (r_nd _ _ _ _ Rx2); auto).
    pose proof (fr_rely _ _ _ _ R2 Fa) as (A1 & A2 & A3).
    split; [|apply step_nop; auto; cbn [wp]; apply (rely_keep g); auto].
    intros c0 T0 A0.
    assert (c0 = head) by (eapply hist_same; eauto; apply (r_hist _ _ _ _ Rx2); auto). subst c0.
    pose proof (nok_at _ _ _ _ _ _ Hi2 E2 T0) as Hc2. pose proof maxrec_pos.
    eapply step_mono; [|eapply (step_replace g t y2 p lf lo head (CBase n) (chain_addrs head) ($tok y2) ($cont y2) ($stat y2))];
      auto; cbn [h_addr h_size is_base]; try rewrite An; auto; try lia.
    + intros z Hz2 (N1 & N2 & N3 & N4 & N5 & N6 & N7 & N8 & N9). apply retire_wp; auto.
      * eapply keep_trans; [apply (rely_keep g); eauto|]. constructor; auto.
        -- intros q v. rewrite N1. auto.
        -- congruence.
      * apply (n_dup _ _ _ _ _ _ Hc).
      * intros b Hb2 Hbx. pose proof (n_ast _ _ _ _ _ _ Hc2 _ Hb2) as Q. apply (r_out _ _ _ _ Rx2) in Hbx. congruence.
    + intros [_ Hbig]. lia.
    + intros El. apply IN; auto. apply (n_kids _ _ _ _ _ _ Hc2); auto.
    + intros El k Hk. apply (n_tok _ _ _ _ _ _ Hc2); auto. apply IN; auto.
    + cbn [chain_addrs]. constructor; [easy|constructor].
    + cbn [chain_addrs]. intros b [<-|[]]. auto.
    + intros El k Hk. rewrite LG by auto. subst lf. eapply (i_con _ _ Hi2); eauto.
Qed.
End Smo.
