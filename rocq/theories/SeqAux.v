(** Preparations for the single-threaded correctness of structure modifications. *)
From Coq Require Import ZArith NArith List Bool Lia.
From Coq Require Import Sorting.Sorted ZifyBool ZifyNat ZifyN.
From Verif Require Import Config Page Machine Tree ListFacts SearchFacts ChainSpec ChainFacts ConsFacts Valid
  ConsolidateFacts RunFacts SeqSpec LevelFacts SeqSearch.
Import ListNotations.
Open Scope Z_scope.

Lemma find_some_in {A} k (l : list (key * A)) v : In (k, v) l -> find k l <> None.
Proof. intros H E. eapply find_none_in; eauto. Qed.

(** ** SearchForMerge is sound: a found key is an entry of the node *)
Definition msound (c : chain) (k : key) (kf smo : bool) (r : mres) : Prop :=
  match r with
  | MFound => kf = true \/ find k (ients c) <> None
  | MBase n kf' _ _ => kf' || fst (node_search n k) = true -> kf = true \/ find k (ients c) <> None
  | MSibling q h0 => h0 = c_hi c /\ smo = false /\ q = c_next c /\ exists h, c_hi c = Some h /\ h <= k
  | MAbort => True
  | MRemoved | MGarbage => False
  end.

Lemma node_search_ents g n k : inode g n -> fst (node_search n k) = true ->
  find k (nents n) <> None \/ (n_low n = Some k /\ exists v, In (k, v) (n_recs n)).
Proof.
  intros (Hi & (k0 & R & E0) & S & F & _) H.
  rewrite (node_search_inner n k k0 (nlead n) (nents n) Hi R S) in H.
  - destruct (find k (nents n)); [left; discriminate|]. right.
    apply andb_true_iff in H as [H1 H2]. unfold is_leftmost in H1. destruct (n_low n); [|discriminate].
    subst. apply Z.eqb_eq in H2. subst. split; auto. exists (nlead n). rewrite R. left; auto.
  - intros Hm. unfold is_leftmost in Hm. destruct (n_low n); [|discriminate]. subst.
    eapply Forall_impl; [|exact F]. intros a Ha. cbn in Ha. destruct Ha; auto.
Qed.

Lemma merge_sound g c k sib : iwf g c -> forall kf sf smo,
  msound c k kf smo (dc_search_merge c k sib kf sf smo).
Proof.
  induction c as [n|d nx IH|d n nx IH|a l]; intros Hw kf sf smo; cbn [iwf] in Hw; cbn [dc_search_merge];
    [| | |contradiction].
  - destruct kf; cbn [negb].
    + cbn. auto.
    + destruct (negb (is_leftmost n) && match n_low n with Some l => same_key l k | None => false end) eqn:E;
        [exact I|].
      assert (HB : fst (node_search n k) = true -> false = true \/ find k (nents n) <> None).
      { intros H. right. destruct (node_search_ents _ _ _ Hw H) as [|(L & _)]; auto.
        exfalso. unfold is_leftmost in E. rewrite L in E. cbn in E. unfold same_key in E. lia. }
      destruct smo; cbn [negb]; [exact HB|]. destruct (high_ge (n_high n) k false) eqn:B; [exact HB|].
      cbn. split; [reflexivity|]. split; auto. split; auto.
      unfold c_hi. cbn. unfold high_ge in B. destruct (n_high n) as [h|]; [|discriminate].
      exists h. split; auto. lia.
  - destruct Hw as (Hw & Hi & Hr & Hc & Ht). specialize (IH Hw).
    destruct (iwf_sorted _ _ Hw) as [S _].
    assert (Nx : c_next (CRec d nx) = c_next nx) by reflexivity.
    assert (Hx : c_hi (CRec d nx) = c_hi nx) by reflexivity.
    destruct (d_type d) eqn:Td; try contradiction.
    + set (is_sib := match sib with Some s => same_key (d_key d) s | None => false end).
      assert (Eq : same_key (d_key d) k = (d_key d =? k)) by (unfold same_key; lia).
      rewrite Eq.
      assert (Put : find k (ients nx) <> None \/ d_key d = k -> find k (ients (CRec d nx)) <> None).
      { cbn [ients]. rewrite Td. rewrite find_put by auto. destruct (Z.eqb_spec k (d_key d)); [discriminate|].
        intros [H|H]; auto; lia. }
      destruct (negb kf && (d_key d =? k) && sf) eqn:E1.
      { cbn. right. apply Put. right. lia. }
      destruct (negb sf && is_sib && (kf || negb kf && (d_key d =? k))) eqn:E2.
      { cbn [msound]. destruct kf; [auto|]. right. apply Put. right. lia. }
      specialize (IH (kf || negb kf && (d_key d =? k)) (sf || negb sf && is_sib) smo).
      destruct (dc_search_merge nx k sib _ _ smo); cbn [msound] in *; auto.
      * destruct IH as [IH|IH]; [|right; apply Put; auto].
        destruct kf; auto. right. apply Put. right. lia.
      * intros H. destruct (IH H) as [IH'|IH']; [|right; apply Put; auto].
        destruct kf; auto. right. apply Put. right. lia.
    + assert (Eq : same_key (d_key d) k = (d_key d =? k)) by (unfold same_key; lia).
      rewrite Eq. destruct (negb kf && (d_key d =? k)) eqn:E1; [exact I|].
      match goal with |- msound _ _ _ _ (if ?b then _ else _) => destruct b; [exact I|] end.
      specialize (IH kf sf smo).
      assert (Del : kf = true \/ find k (ients nx) <> None -> kf = true \/ find k (ients (CRec d nx)) <> None).
      { intros [H|H]; auto. destruct kf; auto. right. cbn [ients]. rewrite Td, find_del by auto.
        destruct (Z.eqb_spec k (d_key d)); auto. lia. }
      destruct (dc_search_merge nx k sib _ _ smo); cbn [msound] in *; auto.
  - destruct Hw as (Hw & Hn & Hi & Ht & Hl & Hh & Hd & _). specialize (IH Hw).
    assert (Hx : c_hi (CMerge d n nx) = d_high d) by (cbn; auto).
    assert (App : forall kf, kf = true \/ find k (ients nx) <> None ->
       kf = true \/ find k (ients (CMerge d n nx)) <> None).
    { intros b [H|H]; auto. right. cbn [ients]. rewrite find_app. destruct (find k (ients nx)); congruence. }
    destruct (low_le (d_key d) k true) eqn:Lo.
    + assert (HB : kf || fst (node_search n k) = true -> kf = true \/ find k (ients (CMerge d n nx)) <> None).
      { intros H. destruct kf; auto. right. cbn [orb] in H. cbn [ients].
        rewrite find_app. destruct (find k (ients nx)); [discriminate|]. cbn [find].
        destruct (Z.eqb_spec (d_key d) k); [discriminate|].
        destruct (node_search_ents _ _ _ Hn H) as [|(L & _)]; auto. congruence. }
      destruct (negb smo && negb kf) eqn:E; [|exact HB]. destruct (high_ge (d_high d) k false) eqn:B; [exact HB|].
      cbn. apply andb_true_iff in E as [E _]. destruct smo; [discriminate|]. split; [auto|]. split; auto. split; auto.
      unfold high_ge in B. destruct (d_high d) as [h|] eqn:Eh; [|discriminate]. exists h.
      split; [|lia]. unfold c_hi. cbn. congruence.
    + destruct (negb sf && match sib with Some s => same_key (d_key d) s | None => false end && kf) eqn:E2.
      { cbn. left. lia. }
      specialize (IH kf (sf || negb sf && match sib with Some s => same_key (d_key d) s | None => false end) true).
      destruct (dc_search_merge nx k sib _ _ true); cbn [msound] in *; auto; try tauto.
      destruct IH as (_ & IH & _); discriminate.
Qed.

(** ** Cells, tables *)
Lemma icells_mono cell cell' (pend pend' : addr -> key -> Prop) c :
  (forall a, cell a <> 0%N -> cell' a = cell a) -> (forall a k, pend a k -> pend' a k) ->
  icells cell pend c -> icells cell' pend' c.
Proof.
  intros Hc Hp. induction c as [n|d nx IH|d n nx IH|a l]; cbn [icells]; auto.
  intros [A B]. split; auto. intros T. destruct (B T) as [P|[E1 E2]]; auto.
  right. rewrite Hc; auto.
Qed.

Section S.
Variable g : cfg.
Hypothesis OK : cfg_ok g.

Lemma node_ok_frame (pend pend' : addr -> key -> Prop) s s' i x : node_ok g pend s i x ->
  s_tbl s' (fst x) = s_tbl s (fst x) -> (forall a, s_cell s a <> 0%N -> s_cell s' a = s_cell s a) ->
  (forall a k, pend a k -> pend' a k) ->
  node_ok g pend' s' i x.
Proof.
  intros (A & B & C & D) Ht Hc Hp. split; [congruence|]. split; auto. split; auto.
  intros Hi. destruct (D Hi) as [D1 D2]. split; auto. eapply icells_mono; eauto.
Qed.

Lemma nodes_frame (pend pend' : addr -> key -> Prop) s s' i N : Forall (node_ok g pend s i) N ->
  (forall p, In p (map fst N) -> s_tbl s' p = s_tbl s p) ->
  (forall a, s_cell s a <> 0%N -> s_cell s' a = s_cell s a) ->
  (forall a k, pend a k -> pend' a k) ->
  Forall (node_ok g pend' s' i) N.
Proof.
  rewrite !Forall_forall. intros H Ht Hc Hp x Hx. eapply node_ok_frame; eauto.
  apply Ht. apply in_map; auto.
Qed.

Lemma up_frame (pend pend' : addr -> key -> Prop) s s' : forall lv i flat, up g pend s i flat lv ->
  (forall p, In p (pids lv) -> s_tbl s' p = s_tbl s p) ->
  (forall a, s_cell s a <> 0%N -> s_cell s' a = s_cell s a) ->
  (forall a k, pend a k -> pend' a k) ->
  s_root s' = s_root s -> up g pend' s' i flat lv.
Proof.
  induction lv as [|N lv IH]; cbn [up]; intros i flat H Ht Hc Hp Hr.
  - rewrite Hr; auto.
  - destruct H as (A & B & C & D & E & F & G). repeat (split; auto).
    + eapply nodes_frame; eauto. intros p Hin. apply Ht. unfold pids. cbn. apply in_app_iff. auto.
    + apply IH; auto. intros p Hin. apply Ht. unfold pids. cbn. apply in_app_iff. auto.
Qed.

Lemma up_root_in pend s : forall lv i flat, up g pend s i flat lv -> lv <> [] ->
  In (s_root s) (pids lv).
Proof.
  induction lv as [|N lv IH]; intros i flat H Hne; [easy|]. destruct H as (_ & _ & _ & _ & _ & _ & H).
  unfold pids. cbn. apply in_app_iff. destruct lv as [|N' lv].
  - left. destruct H as [_ H]. destruct N as [|[p c] [|? ?]]; cbn in H; inversion H; subst. left. auto.
  - right. eapply IH; eauto. discriminate.
Qed.

Lemma up_single pend s i flat N : up g pend s i flat [N] -> exists c, N = [(s_root s, c)] /\ c_lo c = None.
Proof.
  intros (_ & _ & _ & _ & _ & _ & _ & H). destruct N as [|[p c] [|? ?]]; cbn in H; inversion H; subst. eauto.
Qed.

(** ** Consolidation results for both kinds of nodes *)
Lemma cons_one i c ds a ra : cwf g i c -> sort_ok c ds ->
  exists n, consolidate g i a ra (pages c) ds false false = COne n /\ cwf g i (CBase n) /\
    n_inner n = i /\
    n_low n = c_lo c /\ n_high n = c_hi c /\ n_next n = c_next c /\ cents i (CBase n) = cents i c /\
    n_size n = h_size c.
Proof.
  intros Hw Hs. destruct i; cbn [cwf] in *.
  - exists (cons_page c true a ((ikey0 c, ilead c) :: ients c) (h_size c)).
    split; [apply cons_inner_one; auto|]. split; [apply cons_inner_node; auto|]. repeat split.
  - exists (cons_page c false a (lrecs c) (h_size c)).
    split; [apply cons_leaf_one; auto|]. split; [apply cons_leaf_node; auto|]. repeat split.
Qed.

Lemma cons_two i c ds a ra : cwf g i c -> sort_ok c ds -> c_page g < h_size c <= c_page g + excess g ->
  exists l r sep, consolidate g i a ra (pages c) ds true false = CTwo l r /\
    cwf g i (CBase l) /\ cwf g i (CBase r) /\ n_low l = c_lo c /\ n_high l = Some sep /\
    n_low r = Some sep /\ n_high r = c_hi c /\ n_next r = c_next c /\
    cents i (CBase l) ++ cents i (CBase r) = cents i c /\
    n_size l <= c_page g /\ n_size r <= c_page g /\ olt (c_lo c) (Some sep) /\ ohi (Some sep) (c_hi c) /\
    (i = true -> (2 <= length (cents i (CBase l)))%nat /\ (1 <= length (cents i (CBase r)))%nat).
Proof.
  intros Hw Hs Hsz. destruct i; cbn [cwf] in *.
  - destruct (cons_inner_two g OK c ds a ra Hw Hs Hsz) as (l1 & sep & v & l2 & sz1 & sz2 & E & Hne & HC & Hl & Hr & S1 & S2).
    do 3 eexists. split; [exact HC|]. split; [exact Hl|]. split; [exact Hr|]. cbn [n_low n_high n_next n_size].
    do 5 (split; [reflexivity|]). split.
    { cbn [cents]. unfold nents, nlead. cbn. unfold c_lo at 1 2. cbn. unfold nents, nlead. cbn.
      rewrite E, ekey_app. reflexivity. }
    split; auto. split; auto.
    destruct (iwf_sorted _ _ Hw) as [_ F]. rewrite E in F. apply Forall_app in F as [_ F].
    apply Forall_inv in F. cbn [fst] in F. split; [ord|]. split; [unfold ohi; ord|].
    intros _. cbn [cents ients]. unfold nents. cbn. unfold ekey. rewrite !map_length. destruct l1; [easy|]. cbn. lia.
  - destruct (cons_leaf_two g OK c ds a ra Hw Hs Hsz) as (l1 & sep & v & l2 & sz1 & sz2 & E & Hne & HC & Hl & Hr & S1 & S2).
    do 3 eexists. split; [exact HC|]. split; [exact Hl|]. split; [exact Hr|]. cbn [n_low n_high n_next n_size].
    do 5 (split; [reflexivity|]). split.
    { cbn [cents lrecs n_recs]. rewrite E, ekey_app. reflexivity. }
    split; auto. split; auto.
    pose proof (cwf_rng g false (CBase _) Hl) as R1. pose proof (cwf_rng g false (CBase _) Hr) as R2.
    unfold c_lo, c_hi in R1, R2. cbn in R1, R2. split; [|split; [|discriminate]].
    + unfold rng_ne, lo_lt in R1. unfold c_lo in *. destruct (n_low (c_base c)); cbn in *; auto.
    + unfold ohi. unfold c_hi in *. destruct (n_high (c_front c)); cbn in *; auto.
Qed.

Lemma sort_ex i c : cwf g i c -> exists ds, sort_ok c ds.
Proof. intros H. apply sort_ok_ex. destruct i; [eapply iwf_mhigh|eapply lwf_mhigh]; eauto. Qed.

Lemma cwf_leaf i c : cwf g i c -> h_leaf c = negb i.
Proof. destruct i; cbn; intros H; [eapply iwf_inner|eapply lwf_leaf]; eauto. Qed.
Lemma cwf_not_remove i c : cwf g i c -> is_remove c = false.
Proof. destruct i; cbn; intros H; [eapply iwf_not_remove|eapply lwf_not_remove]; eauto. Qed.

Lemma page_pos : 0 < c_hdr g + maxrec g /\ c_hdr g + 2 * maxrec g <= c_page g.
Proof.
  pose proof (ok_hdr g OK). pose proof (ok_page g OK). pose proof (maxrec_excess g).
  pose proof (ok_key g OK 0). pose proof (ok_pay g OK).
  unfold maxrec, ptrlen, metalen, kovh in *. destruct (c_varlen g); lia.
Qed.

Lemma quiet_base n : n_size n <= c_page g -> quiet g (CBase n).
Proof. intros H. split; auto. Qed.

Lemma quiet_ndelta i c : cwf g i c -> quiet g c -> Z.of_nat (ndelta c) < c_thr g.
Proof.
  intros Hw [Hq _]. destruct (is_base c) eqn:B.
  - destruct c; try discriminate. cbn. pose proof (ok_thr g OK). lia.
  - assert (Z.of_nat (ndelta c) <= h_cnt c) by (destruct i; [eapply ndelta_cnt_i|eapply ndelta_cnt_l]; eauto).
    unfold need_consolidation in Hq. rewrite B in Hq. cbn in Hq.
    destruct (Z.leb_spec (c_thr g) (h_cnt c)); cbn in *; [discriminate|lia].
Qed.

Lemma noneed_quiet c : is_base c = false -> need_consolidation g c = false -> quiet g c.
Proof.
  intros B H. split; auto. unfold need_consolidation in H. rewrite B in H. cbn in H.
  destruct (Z.ltb_spec (c_page g) (h_size c)); [rewrite orb_true_r in H; discriminate|lia].
Qed.

(** ** Composition of effects *)
Definition alive (s : st) (lv : list level) : Prop :=
  forall N p c, In N lv -> In (p, c) N -> s_tbl s p = Some c /\ is_remove c = false.

Lemma in_pids_iff p lv : In p (pids lv) <-> exists N c, In N lv /\ In (p, c) N.
Proof.
  unfold pids. rewrite in_flat_map. split.
  - intros (N & HN & H). apply in_map_iff in H as ([q c] & E & H). cbn in E. subst. eauto.
  - intros (N & c & HN & H). exists N. split; auto. apply in_map_iff. exists (p, c). auto.
Qed.

Lemma alive_up pend s : forall lv i flat, up g pend s i flat lv -> alive s lv.
Proof.
  induction lv as [|N lv IH]; intros i flat H N' p c HN Hi; [easy|].
  destruct HN as [->|HN].
  - destruct (up_in g pend s i flat N' lv p c H Hi) as (A & B & _). split; auto. eapply cwf_not_remove; eauto.
  - destruct H as (_ & _ & _ & _ & _ & _ & H). eapply IH; eauto.
Qed.

Lemma alive_dead s lv p : alive s lv -> dead s p -> ~ In p (pids lv).
Proof.
  intros Ha (a & l & E) Hi. apply in_pids_iff in Hi as (N & c & HN & Hi).
  destruct (Ha _ _ _ HN Hi) as [E' Hr]. rewrite E in E'. inversion E'; subst. discriminate.
Qed.

Lemma frame_trans s lv s1 lv1 s2 : frame s lv s1 -> evolve s lv s1 lv1 -> frame s1 lv1 s2 -> frame s lv s2.
Proof.
  intros (A1 & A2 & A3 & A4) (_ & E) (B1 & B2 & B3 & B4). split; [|split; [|split]]; try lia.
  - intros p Hp Hlt. rewrite B1; try lia; auto. intros Hi. apply E in Hi as [Hi|Hi]; [auto|lia].
  - intros a Ha. rewrite B2 by lia. auto.
Qed.

Lemma evolve_trans s lv s1 lv1 s2 lv2 : alive s1 lv1 -> (forall p, (s_npid s1 <= p)%N -> s_tbl s1 p = None) ->
  frame s lv s1 -> evolve s lv s1 lv1 -> frame s1 lv1 s2 -> evolve s1 lv1 s2 lv2 -> evolve s lv s2 lv2.
Proof.
  intros Ha Hn (A1 & A2 & A3 & A4) (E1 & E2) (B1 & B2 & B3 & B4) (F1 & F2). split.
  - intros i p lo H. apply E1 in H as [H|H].
    + apply F1 in H. auto.
    + right. pose proof (alive_dead _ _ _ Ha H) as Hni. destruct H as (a & l & E).
      exists a, l. rewrite B1; auto. destruct (N.lt_ge_cases p (s_npid s1)); auto.
      rewrite Hn in E by auto. discriminate.
  - intros p H. apply F2 in H as [H|H]; [apply E2 in H as [H|H]; auto|]. right. lia.
Qed.

Definition Tpost (s : st) (i : bool) (flat : list (option key * val)) (lv : list level) (s' : st) : Prop :=
  exists lv', up g nopend s' i flat lv' /\ glob s' lv' /\ frame s lv s' /\ evolve s lv s' lv'.

Lemma Tpost_trans s lv s1 lv1 i flat s2 : alive s1 lv1 -> glob s1 lv1 ->
  frame s lv s1 -> evolve s lv s1 lv1 -> Tpost s1 i flat lv1 s2 -> Tpost s i flat lv s2.
Proof.
  intros Ha Hg Hf He (lv' & A & B & C & D). exists lv'. split; auto. split; auto. split.
  - eapply frame_trans; eauto.
  - eapply evolve_trans; eauto. apply Hg.
Qed.

(** Stacks survive evolution. *)
Lemma okst_evolve s s' : forall stk lv lv' b, okst s lv b stk ->
  (forall p, dead s p -> dead s' p) ->
  (forall i p lo, live lv i p lo -> live lv' i p lo \/ dead s' p) ->
  okst s' lv' b stk.
Proof.
  induction stk as [|p r IH]; intros lv lv' b H Hd Hl; cbn [okst] in *; auto.
  destruct H as (lo & A & B & C). exists lo. split; auto. split.
  - destruct B as [B|(N & c & E & Hi & Ec)]; [left; auto|].
    destruct (Hl 0%nat p lo) as [(N' & c' & E' & Hi' & Ec')|]; auto.
    + exists N, c. destruct lv; [discriminate|]. cbn in E. cbn. auto.
    + right. exists N', c'. destruct lv'; [discriminate|]. cbn in *. auto.
  - eapply IH; eauto. intros i q lo' (N & c & E & H). specialize (Hl (S i) q lo').
    destruct lv as [|N0 lv]; [destruct i; discriminate|]. cbn [tl] in E.
    destruct Hl as [(N' & c' & E' & H')|]; auto.
    + exists N, c. auto.
    + left. exists N', c'. destruct lv'; [discriminate|]. cbn in *. auto.
Qed.

Lemma frame_dead s lv s' p : alive s lv -> (forall p, (s_npid s <= p)%N -> s_tbl s p = None) ->
  frame s lv s' -> dead s p -> dead s' p.
Proof.
  intros Ha Hn (A & _) Hd. pose proof (alive_dead _ _ _ Ha Hd) as Hni. destruct Hd as (a & l & E).
  exists a, l. rewrite A; auto. destruct (N.lt_ge_cases p (s_npid s)); auto.
  rewrite Hn in E by auto. discriminate.
Qed.

(** Changing one chain of the lowest level. *)
Lemma evolve_upd s s' n1 p c c' n2 lv : c_lo c' = c_lo c ->
  evolve s ((n1 ++ (p, c) :: n2) :: lv) s' ((n1 ++ (p, c') :: n2) :: lv).
Proof.
  intros E. split.
  - intros [|i] q lo (N & d & EN & Hi & El); left; [|exists N, d; auto].
    cbn in EN. inversion EN; subst N. apply in_app_iff in Hi as [Hi|[Hi|Hi]].
    + eexists; exists d. cbn. split; [reflexivity|]. split; auto. apply in_app_iff; auto.
    + inversion Hi; subst. eexists; exists c'. cbn. split; [reflexivity|]. split; auto.
      apply in_app_iff; right; left; auto.
    + eexists; exists d. cbn. split; [reflexivity|]. split; auto. apply in_app_iff; right; right; auto.
  - intros q H. left. unfold pids in *. cbn in *. rewrite map_app in *. cbn in *. auto.
Qed.
Lemma pids_upd n1 p c c' n2 lv : pids ((n1 ++ (p, c') :: n2) :: lv) = pids ((n1 ++ (p, c) :: n2) :: lv).
Proof. unfold pids. cbn. rewrite !map_app. reflexivity. Qed.

(** ** GetHeadForMerge *)
Lemma gm_live pend s flat N lv k rest n1 p c n2 sib :
  up g pend s true flat (N :: lv) -> N = n1 ++ (p, c) :: n2 ->
  evp (fun _ f => get_head_merge g f k sib (p :: rest)) s
    (fun r s' => s' = s /\ ((exists st' sib', r = (None, st', sib')) \/
       exists q d sib', r = (Some d, q :: rest, sib') /\ In (q, d) N /\ ole (c_lo c) (c_lo d) /\ find k (ients d) <> None)).
Proof.
  intros Hup. revert n1 p c sib. induction n2 as [|[q d] n2 IH]; intros n1 p c sib EN;
    (assert (Hin : In (p, c) N) by (rewrite EN; apply in_app_iff; right; left; auto));
    destruct (up_in g _ _ _ _ _ _ _ _ Hup Hin) as (Et & Hw & Hq & _);
    pose proof Hup as (Hne & H0 & Hl & Hs & Hn & Hf & _);
    apply evp_S; cbn [get_head_merge];
    (eapply evp_bind; [eapply (load_valid_ok g OK s p c (fun x s' => x = c /\ s' = s)); eauto|]);
    intros x s1 [-> ->];
    set (sf := match sib with None => true | Some _ => false end);
    pose proof (merge_sound g c k sib Hw false sf false) as R;
    destruct (dc_search_merge c k sib false sf false) as [| | |q0 h0|n kf sf' h0|] eqn:Em; cbn [msound] in R; try contradiction.
  1,5: apply evp_ret; split; auto; right; exists p, c, sib; repeat split; auto; [apply ole_refl|]; destruct R; [discriminate|auto].
  1,4: apply evp_ret; split; eauto.
  1: { destruct R as (_ & _ & _ & h & Hh & _). rewrite EN in Hl. apply linked_app in Hl as [_ Hl]. cbn in Hl.
       destruct Hl as [Hl _]. congruence. }
  1,3: match goal with |- evp (fun _ _ => if ?b then _ else _) _ _ => destruct b eqn:Eb end;
    [|apply evp_ret; split; eauto]; apply evp_ret; split; auto; right; exists p, c, (sib_after g sib h0); repeat split; auto;
    [apply ole_refl|]; destruct R; [|discriminate|auto]; apply andb_true_iff in Eb; tauto.
  destruct R as (_ & _ & -> & h & Hh & Lh).
  assert (Ln : c_hi c = c_lo d /\ c_next c = q).
  { rewrite EN in Hl. apply linked_app in Hl as [_ Hl]. cbn in Hl. tauto. }
  destruct Ln as [L1 L2]. rewrite L2.
  assert (EN' : N = (n1 ++ [(p, c)]) ++ (q, d) :: n2) by (rewrite <- app_assoc; auto).
  eapply evp_weaken.
  { eapply (IH (n1 ++ [(p, c)]) q d (sib_after g sib h0)); auto. }
  cbn beta. intros r s' (-> & [H|(q' & d' & sib' & -> & H1 & H2 & H3)]); split; auto. right.
  exists q', d', sib'. repeat split; auto. eapply ole_trans; [|exact H2].
  rewrite EN in Hs. rewrite lows_app, !lows_cons in Hs. apply osorted_app_inv in Hs as (_ & Hs & _).
  apply osorted_cons_inv in Hs as [_ Hs]. apply Forall_inv in Hs. apply olt_ole; auto.
Qed.
End S.
