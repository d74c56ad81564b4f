(** An iterator that stays open while its own thread changes the tree. *)
From Coq Require Import ZArith NArith List Bool Lia.
From Coq Require Import Sorting.Sorted ZifyBool ZifyNat ZifyN.
From Verif Require Import Config Api Page Machine Tree Scan Spec ScanSpec ListFacts SearchFacts ChainSpec ChainFacts ConsFacts
  Valid ConsolidateFacts ChainProps RunFacts SeqSpec LevelFacts SeqSearch SeqAux SeqSmo SeqOps SeqScan Client ClientSpec ClientFacts
  PageFacts StatFacts Serve.
Import ListNotations.
Open Scope Z_scope.

Section S.
Variable g : cfg.
Hypothesis OK : cfg_ok g.

(** The sibling that a page leads to: still the leaf that begins at [h], or removed. *)
Definition succ (s : st) (W : list level) (h : key) (q : pid) : Prop := dead s q \/ live W 0 q (Some h).
Lemma succ_moves s W s' W' h q : moves s W s' W' -> succ s W h q -> succ s' W' h q.
Proof. intros [A B] [H|H]; [left; auto|]. apply B in H as [H|H]; [right|left]; auto. Qed.

(** A leaf read when the map was the [i]-th of [L]. *)
Record snap (L : list smap) (s : st) (W : list level) (i : nat) (c : chain) : Prop := mk_snap {
  sn_i : (i < length L)%nat;
  sn_wf : lwf g c;
  sn_con : forall k, in_rng (c_lo c) (c_hi c) k -> seen L i k (lget c k);
  sn_link : forall h, c_hi c = Some h -> succ s W h (c_next c)
}.
Definition at_leaf (L : list smap) (s : st) (W : list level) (i : nat) (b e : bound) (pg : node) (it : iter) : Prop :=
  exists c pos, snap L s W i c /\ pg = spage g c /\
    it = mk_iter pos (snd (search_end pg e)) (fst (search_end pg e)) e /\ cut_at c b pos /\
    (forall k, after b k -> lo_ok (c_lo c) k) /\
    (forall h, c_hi c = Some h -> forall k, h <= k -> after b k).

Lemma at_leaf_moves L E s W s' W' i b e pg it : moves s W s' W' -> at_leaf L s W i b e pg it -> at_leaf (L ++ E) s' W' i b e pg it.
Proof.
  intros H (c & pos & [S1 S2 S3 S4] & R). exists c, pos. split; [|exact R]. constructor; auto.
  - rewrite app_length. lia.
  - intros. apply seen_app. auto.
  - intros h Eh. eapply succ_moves; eauto.
Qed.

Lemma seen_none L s W i c b pos k : snap L s W i c -> cut_at c b pos -> after b k -> lo_ok (c_lo c) k -> hi_ok (c_hi c) k ->
  (forall j v, nth_error (lrecs c) j = Some (k, v) -> pos <= Z.of_nat j -> False) -> seen L i k None.
Proof.
  intros Sn [_ Hc] Ha Lo Hi H. pose proof (sn_con _ _ _ _ _ Sn k (conj Lo Hi)) as S. unfold lget in S.
  destruct (find k (lrecs c)) as [v|] eqn:F; auto. exfalso.
  apply find_in in F. apply In_nth_error in F as [j F]. eapply H; eauto. apply (Hc _ _ F). auto.
Qed.

(** The tree now: the last map of the log is its content. *)
Section Now.
Variables (s : st) (M : smap) (N : level) (lv : list level) (L : list smap).
Notation W := (N :: lv).
Hypothesis HW : wtree g s M W.
Hypothesis HL : exists L0, L = L0 ++ [M].
Notation now := (length L - 1)%nat.

Lemma now_seen k : seen L now k (M k).
Proof.
  destruct HL as (L0 & ->). exists M. split; auto. rewrite app_length. cbn.
  rewrite nth_error_app2 by lia. replace (length L0 + 1 - 1 - length L0)%nat with 0%nat by lia. reflexivity.
Qed.
Lemma now_lt : (now < length L)%nat.
Proof. destruct HL as (L0 & ->). rewrite app_length. cbn. lia. Qed.

Lemma leaf_snap k n1 p c n2 path : leaf_at g s M k n1 p c n2 lv path -> N = n1 ++ (p, c) :: n2 -> snap L s W now c.
Proof.
  intros H EN. constructor.
  - apply now_lt.
  - apply H.
  - intros q Hq. assert (H' : leaf_at g s M q n1 p c n2 lv path) by (destruct H; constructor; auto).
    rewrite (leaf_get g s M q n1 p c n2 lv path H'). apply now_seen.
  - intros h Eh. right. destruct H as [(_ & _ & Hl & _) _ _ _ _ _ _ _].
    apply linked_app in Hl as [_ Hl]. cbn [linked] in Hl. destruct Hl as (L1 & L2 & _).
    destruct n2 as [|[q d] n2]; cbn in L1, L2; [congruence|].
    exists N, d. split; [reflexivity|]. rewrite L2. split; [|congruence]. rewrite EN. apply in_app_iff. right. right. left. auto.
Qed.

Lemma head_ok k closed n1 p c n2 path (Q : option chain * list pid -> st -> Prop) :
  leaf_at g s M (eff k closed) n1 p c n2 lv path -> Q (Some c, p :: path) s ->
  evp (fun _ f => get_head g f k closed (p :: path) 0%N) s Q.
Proof.
  intros H HQ. pose proof H as [_ _ _ [Lo Hi] _ Htb Hw Hq]. apply evp_S. cbn [get_head].
  eapply evp_bind; [eapply (load_valid_ok g OK s p c (fun x s' => x = c /\ s' = s)); eauto|].
  intros ? ? [-> ->]. rewrite (validate_spec c k closed (lwf_mhigh _ _ Hw)).
  destruct (c_hi c) as [h|]; [|apply evp_ret; auto]. cbn in Hi.
  destruct (Z.ltb_spec (eff k closed) h); [|lia]. apply evp_ret; auto.
Qed.
(** From the leaf itself, or from a node that has been removed. *)
Lemma head_dead k closed q (Q : option chain * list pid -> st -> Prop) : dead s q ->
  (forall n1 p c n2 path, leaf_at g s M (eff k closed) n1 p c n2 lv path -> N = n1 ++ (p, c) :: n2 -> Q (Some c, p :: path) s) ->
  evp (fun _ f => get_head g f k closed [q] 0%N) s Q.
Proof.
  intros (a & l & E) HQ. destruct (search_leaf_at g s M k closed W HW) as (n1 & p & c & n2 & lv' & path & H & EL & HS).
  injection EL as EN <-. apply evp_S. cbn [get_head].
  eapply evp_bind with (Q := fun x s' => x = CRemove a l /\ s' = s).
  - apply evp_S. cbn [load_valid]. eapply evp_bload; eauto.
    assert (need_wait g (CRemove a l) = false) as ->.
    { unfold need_wait. cbn [is_base negb andb h_cnt h_size]. pose proof (page_pos g OK). pose proof (ok_thr g OK). pose proof (ok_hdr g OK).
      assert (0 <= maxrec g) by (unfold maxrec, metalen, ptrlen; pose proof (ok_key g OK 0); pose proof (ok_pay g OK); destruct (c_varlen g); lia).
      destruct (Z.leb_spec (c_maxd g) 0); [lia|]. destruct (Z.ltb_spec (c_page g) 0); [lia|]. reflexivity. }
    apply evp_ret. auto.
  - intros ? ? [-> ->]. cbn [dc_validate N.eqb negb].
    eapply evp_bind; [apply (HS (fun r s' => r = p :: path /\ s' = s)); auto|].
    intros ? ? [-> ->]. eapply head_ok; eauto.
Qed.

Lemma cons_ok k closed stack (Q : node * Z -> st -> Prop) :
  (forall Q : option chain * list pid -> st -> Prop,
     (forall n1 p c n2 path, leaf_at g s M (eff k closed) n1 p c n2 lv path -> N = n1 ++ (p, c) :: n2 -> Q (Some c, p :: path) s) ->
     evp (fun _ f => get_head g f k closed stack 0%N) s Q) ->
  (forall n1 p c n2 path pos, leaf_at g s M (eff k closed) n1 p c n2 lv path -> N = n1 ++ (p, c) :: n2 ->
     cut_at c (Some (k, closed)) pos -> Q (spage g c, pos) s) ->
  evp (fun _ f => cons_for_scan g f k closed stack) s Q.
Proof.
  intros HH HQ. apply evp_S. cbn [cons_for_scan].
  eapply evp_bind; [apply (HH (fun r s' => s' = s /\ exists n1 p c n2 path, r = (Some c, p :: path) /\
    leaf_at g s M (eff k closed) n1 p c n2 lv path /\ N = n1 ++ (p, c) :: n2)); eauto 12|].
  intros ? ? (-> & n1 & p & c & n2 & path & -> & H & EN). pose proof H as [_ _ _ _ _ _ Hw Hq].
  rewrite (lwf_not_remove _ _ Hw).
  eapply evp_bind; [eapply (scan_page_ok g OK s c (fun x s' => x = spage g c /\ s' = s)); auto|].
  intros ? ? [-> ->]. destruct (lwf_sorted _ _ Hw) as [Hs _].
  pose proof (c05_leaf (spage g c) k eq_refl Hs) as Hp. destruct (node_search (spage g c) k) as [found q].
  destruct Hp as [Hp Hf]. cbn [spage cons_page n_recs] in Hf, Hp. apply evp_ret.
  eapply HQ; eauto.
  split; [destruct found, closed; cbn; lia|]. intros i r Hi2. destruct found; cbn [negb orb].
  - destruct Hf as (v & Hf). destruct (cut_found _ _ _ _ Hs Hf (proj1 Hp) i r Hi2) as (B1 & B2 & B3).
    destruct closed; cbn [after]; split; intros; lia.
  - destruct r as [r w]. destruct (Hf i r w Hi2) as [B1 B2]. cbn [fst]. destruct closed; cbn [after]; split; intros; lia.
Qed.

(** Going on from a page to the leaf that holds its high key. *)
Lemma sib_any h q e (Q : node * iter -> st -> Prop) : succ s W h q ->
  (forall n1 p c n2 path pos, leaf_at g s M h n1 p c n2 lv path -> N = n1 ++ (p, c) :: n2 -> cut_at c (Some (h, true)) pos ->
     Q (spage g c, mk_iter pos (snd (search_end (spage g c) e)) (fst (search_end (spage g c) e)) e) s) ->
  evp (fun _ f => sibling_scan g f q h e) s Q.
Proof.
  intros Hs HQ. unfold sibling_scan.
  eapply evp_bind with (Q := fun r s' => s' = s /\ exists n1 p c n2 path pos, r = (spage g c, pos) /\
    leaf_at g s M h n1 p c n2 lv path /\ N = n1 ++ (p, c) :: n2 /\ cut_at c (Some (h, true)) pos).
  - apply cons_ok; [|intros; split; eauto 12].
    intros Q0 H0. destruct Hs as [Hd|(N' & c & EN & Hin & Elo)]; [apply head_dead; auto|].
    cbn in EN. injection EN as <-. apply in_split in Hin as (n1 & n2 & EN).
    destruct HW as (flat & Hup & Hgl & HM).
    assert (Hin : In (q, c) N) by (rewrite EN; apply in_level).
    destruct (up_in _ _ _ _ _ _ _ _ _ Hup Hin) as (Et & Hw & Hq & _).
    pose proof Hup as (_ & _ & _ & _ & _ & Hf & _).
    assert (H : leaf_at g s M (eff h true) n1 q c n2 lv []).
    { constructor; auto.
      - rewrite <- EN, Hf. auto.
      - rewrite <- EN. auto.
      - intros k. rewrite <- EN, Hf. auto.
      - cbn [eff]. pose proof (cwf_rng g false c Hw) as Hr. unfold rng_ne in Hr. rewrite Elo in *. split; [cbn; lia|].
        destruct (c_hi c); cbn in *; auto.
      - exact I. }
    eapply head_ok; eauto.
  - intros ? ? (-> & n1 & p & c & n2 & path & pos & -> & H & EN & Hc).
    pose proof (HQ n1 p c n2 path pos H EN Hc) as X.
    destruct (search_end (spage g c) e) as [is_end ep]. apply evp_ret. exact X.
Qed.

Definition has_post i b e (r : bool * node * iter) (s' : st) : Prop :=
  s' = s /\ exists j b', (i <= j)%nat /\ (forall k, after b' k -> after b k) /\ gap L i j b b' e /\
    let '(more, pg, it) := r in
    if more : bool then exists k v, get_record pg it = Some (k, v) /\ b' = Some (k, true) /\ before e k /\
      seen L j k (Some v) /\ at_leaf L s W j (Some (k, false)) e pg (advance it)
    else at_leaf L s W j b' e pg it /\ forall k, after b' k -> before e k -> seen L j k None.

Lemma has_step i b e pg it c pos :
  snap L s W i c -> pg = spage g c ->
  it = mk_iter pos (snd (search_end pg e)) (fst (search_end pg e)) e -> cut_at c b pos ->
  (forall k, after b k -> lo_ok (c_lo c) k) -> (forall h, c_hi c = Some h -> forall k, h <= k -> after b k) ->
  (forall h n1 p c' n2 path pos', c_hi c = Some h -> leaf_at g s M h n1 p c' n2 lv path -> N = n1 ++ (p, c') :: n2 ->
     cut_at c' (Some (h, true)) pos' ->
     evp (fun _ f => has_record g f (spage g c') (mk_iter pos' (snd (search_end (spage g c') e)) (fst (search_end (spage g c') e)) e)) s
       (has_post now (Some (h, true)) e)) ->
  evp (fun _ f => has_record g f pg it) s (has_post i b e).
Proof.
  intros Sn Ep Ei Hc Hlo Hhi Next.
  assert (A : at_leaf L s W i b e pg it) by (exists c, pos; auto 8).
  pose proof (sn_wf _ _ _ _ _ Sn) as Wf. pose proof (end_cut g c e Wf) as EC. rewrite <- Ep in EC.
  destruct (search_end pg e) as [is_end ep] eqn:Es. destruct EC as (H1 & H2 & H3). cbn [fst snd] in Ei.
  destruct (lwf_sorted _ _ Wf) as [Hs Hr]. pose proof Hc as [Hp0 Hp].
  apply evp_S. cbn [has_record]. rewrite Ei. cbn [i_pos i_end i_isend i_ekey].
  destruct (Z.ltb_spec pos ep) as [Hlt|Hge].
  - apply evp_ret. split; [reflexivity|].
    destruct (nth_error (lrecs c) (Z.to_nat pos)) as [[k v]|] eqn:Ex; [|apply nth_error_None in Ex; lia].
    assert (Ak : after b k) by (apply (Hp _ _ Ex); lia).
    assert (Rk : in_rng (c_lo c) (c_hi c) k) by (rewrite Forall_forall in Hr; apply (Hr (k, v)); eapply nth_error_In; eauto).
    exists i, (Some (k, true)). split; [lia|]. split; [cbn; intros q Hq; eapply after_up; eauto|]. split.
    + apply gap_const. intros q Q1 Q2 Q3. cbn [after] in Q2. apply Z.nle_gt in Q2.
      eapply (seen_none L s W i c b pos q Sn Hc Q1 (Hlo _ Q1)).
      * destruct Rk as [_ Rk]. destruct (c_hi c); cbn in *; auto. lia.
      * intros j w Hj Hle. destruct (Z.eq_dec pos (Z.of_nat j)) as [E|E].
        -- replace (Z.to_nat pos) with j in Ex by lia. rewrite Hj in Ex. inversion Ex. lia.
        -- pose proof (sorted_nth _ Hs (Z.to_nat pos) j _ _ ltac:(lia) Ex Hj) as X. cbn in X. lia.
    + exists k, v. split; [rewrite Ep; exact Ex|]. split; auto. split; [|split].
      * apply (eb_before e k v). apply (H2 _ _ Ex). lia.
      * replace (Some v) with (lget c k); [apply (sn_con _ _ _ _ _ Sn); auto|]. unfold lget. apply sorted_in_find; auto.
        eapply nth_error_In; eauto.
      * exists c, (pos + 1). split; auto. split; auto. split; [rewrite Es; reflexivity|]. split; [|split].
        -- split; [lia|]. intros j [q w] Hj. cbn [after fst].
           destruct (Nat.lt_trichotomy j (Z.to_nat pos)) as [Q|[Q|Q]].
           ++ pose proof (sorted_nth _ Hs j (Z.to_nat pos) _ _ Q Hj Ex) as X. cbn in X. split; intros; lia.
           ++ subst j. rewrite Hj in Ex. inversion Ex; subst. split; intros; lia.
           ++ pose proof (sorted_nth _ Hs (Z.to_nat pos) j _ _ Q Ex Hj) as X. cbn in X. split; intros; lia.
        -- cbn [after]. intros q Hq. destruct Rk as [Rk _]. destruct (c_lo c); cbn in *; auto. lia.
        -- intros h Eh q Hq. cbn [after]. destruct Rk as [_ Rk]. rewrite Eh in Rk. cbn in Rk. lia.
  - destruct is_end.
    + apply evp_ret. split; [reflexivity|]. exists i, b. split; [lia|]. split; [auto|]. split.
      { apply gap_const. tauto. }
      split; [rewrite <- Ei; exact A|]. intros q Q1 Q2. apply (eb_before e q 0%N) in Q2.
      eapply (seen_none L s W i c b pos q Sn Hc Q1 (Hlo _ Q1)).
      * destruct (c_hi c) as [h|]; cbn; auto. destruct (Z.lt_ge_cases q h); auto. specialize (H3 (q, 0%N) H). congruence.
      * intros j w Hj Hle. destruct (H2 _ _ Hj) as [_ X]. specialize (X ltac:(lia)).
        assert (before e q) as Y by (apply (eb_before e q 0%N); auto). apply (eb_before e q w) in Y. congruence.
    + destruct H3 as (h & Eh). rewrite Ep. cbn [spage cons_page n_high n_next]. rewrite Eh.
      eapply evp_bind; [eapply (sib_any h (c_next c) e (fun r s' => s' = s /\ exists n1 p c' n2 path pos',
        r = (spage g c', mk_iter pos' (snd (search_end (spage g c') e)) (fst (search_end (spage g c') e)) e) /\
        leaf_at g s M h n1 p c' n2 lv path /\ N = n1 ++ (p, c') :: n2 /\ cut_at c' (Some (h, true)) pos'));
        [apply (sn_link _ _ _ _ _ Sn); auto|intros; split; eauto 12]|].
      intros ? ? (-> & n1 & p & c' & n2 & path & pos' & -> & H & EN & Hc').
      eapply evp_weaken; [eapply (Next h n1 p c' n2 path pos'); eauto|].
      intros [[more pg2] it2] s2 (-> & j2 & b2 & B1 & B2 & B3 & B4). split; [reflexivity|].
      assert (Hij : (i <= now)%nat) by (pose proof (sn_i _ _ _ _ _ Sn); lia).
      exists j2, b2. split; [lia|]. split.
      { intros q Hq. apply (Hhi h Eh). apply (B2 q Hq). }
      split; [|exact B4].
      eapply (gap_trans L i now j2 b (Some (h, true)) b2); [|exact B3|lia].
      eapply gap_le; [exact Hij|]. apply gap_const. intros q Q1 Q2 Q3. cbn [after] in Q2. apply Z.nle_gt in Q2.
      eapply (seen_none L s W i c b pos q Sn Hc Q1 (Hlo _ Q1)).
      * rewrite Eh. exact Q2.
      * intros j' w Hj Hle. destruct (H2 _ _ Hj) as [_ X]. specialize (X ltac:(lia)).
        apply (eb_before e q w) in Q3. congruence.
Qed.

(** On a leaf of the tree as it is, by induction on the leaves to its right. *)
Lemma right_of h k n1 p c n2 n1' p' c' n2' path path' : leaf_at g s M k n1 p c n2 lv path -> N = n1 ++ (p, c) :: n2 ->
  leaf_at g s M h n1' p' c' n2' lv path' -> N = n1' ++ (p', c') :: n2' -> c_hi c = Some h ->
  (length n2' < length n2)%nat.
Proof.
  intros H EN H' EN' Eh. destruct H as [(_ & _ & Hl & Hs & _) _ _ _ _ _ Hw _]. destruct H' as [_ _ _ [_ Hi] _ _ _ _].
  assert (E : length (n1 ++ (p, c) :: n2) = length (n1' ++ (p', c') :: n2')) by congruence.
  rewrite !app_length in E. cbn [length] in E.
  destruct (Nat.lt_ge_cases (length n1) (length n1')) as [|Hge]; [lia|]. exfalso.
  assert (X : nth_error (n1 ++ (p, c) :: n2) (length n1') = Some (p', c')).
  { rewrite <- EN, EN', nth_error_app2, Nat.sub_diag by lia. reflexivity. }
  destruct (Nat.eq_dec (length n1) (length n1')) as [El|Hne].
  - rewrite <- El, nth_error_app2, Nat.sub_diag in X by lia. cbn in X. injection X as _ <-. rewrite Eh in Hi. cbn in Hi. lia.
  - rewrite nth_error_app1 in X by lia. apply nth_error_In in X.
    destruct (left_hi n1 p c n2 None 0%N Hs Hl p' c' X) as [A B].
    pose proof (lwf_rng g c Hw) as Hr. unfold rng_ne in Hr. rewrite Eh in Hr.
    destruct (c_hi c') as [h'|]; [|easy]. cbn in Hi. destruct (c_lo c) as [lo|]; cbn in B, Hr; [lia|easy].
Qed.

Lemma now_leaf h e n1 p c n2 path pos : leaf_at g s M h n1 p c n2 lv path -> N = n1 ++ (p, c) :: n2 -> cut_at c (Some (h, true)) pos ->
  snap L s W now c /\ (forall k, after (Some (h, true)) k -> lo_ok (c_lo c) k) /\
  (forall h', c_hi c = Some h' -> forall k, h' <= k -> after (Some (h, true)) k) /\
  at_leaf L s W now (Some (h, true)) e (spage g c) (mk_iter pos (snd (search_end (spage g c) e)) (fst (search_end (spage g c) e)) e).
Proof.
  intros H EN Hc. pose proof (leaf_snap _ _ _ _ _ _ H EN) as Sn. pose proof H as [_ _ _ [Lo Hi] _ _ _ _].
  assert (A : forall k, after (Some (h, true)) k -> lo_ok (c_lo c) k).
  { cbn [after]. intros q Hq. destruct (c_lo c); cbn in *; auto. lia. }
  assert (B : forall h', c_hi c = Some h' -> forall k, h' <= k -> after (Some (h, true)) k).
  { intros h' Eh' q Hq. cbn [after]. rewrite Eh' in Hi. cbn in Hi. lia. }
  split; auto. split; auto. split; auto. exists c, pos. auto 8.
Qed.

Lemma has_now e : forall m h n1 p c n2 path pos, (length n2 < m)%nat ->
  leaf_at g s M h n1 p c n2 lv path -> N = n1 ++ (p, c) :: n2 -> cut_at c (Some (h, true)) pos ->
  evp (fun _ f => has_record g f (spage g c) (mk_iter pos (snd (search_end (spage g c) e)) (fst (search_end (spage g c) e)) e)) s
    (has_post now (Some (h, true)) e).
Proof.
  induction m as [|m IH]; intros h n1 p c n2 path pos Hm H EN Hc; [lia|].
  destruct (now_leaf h e n1 p c n2 path pos H EN Hc) as (Sn & A & B & _).
  apply (has_step _ _ _ _ _ c pos Sn eq_refl eq_refl Hc A B).
  intros h' n1' p' c' n2' path' pos' Eh H' EN' Hc'. eapply IH; eauto.
  pose proof (right_of h' h n1 p c n2 n1' p' c' n2' path path' H EN H' EN' Eh). lia.
Qed.

Lemma has_any i b e pg it : at_leaf L s W i b e pg it -> evp (fun _ f => has_record g f pg it) s (has_post i b e).
Proof.
  intros (c & pos & Sn & Ep & Ei & Hc & A & B). apply (has_step _ _ _ _ _ c pos Sn Ep Ei Hc A B).
  intros. eapply has_now; eauto.
Qed.

Definition curs_ok (b0 e : bound) (l : list (key * val)) (cu : cursor) : Prop :=
  exists pg it b i, cu = Some (pg, it) /\ upto L b0 b i e l /\ at_leaf L s W i b e pg it.
Lemma at_leaf_i i b e pg it : at_leaf L s W i b e pg it -> (i < length L)%nat.
Proof. intros (c & pos & S & _). apply S. Qed.

Definition next_post (b0 e : bound) (l : list (key * val)) (r : ans * cursor) (s' : st) : Prop := s' = s /\
  match fst r with
  | ARec a => scan_ok b0 e L (l ++ [a]) false /\ curs_ok b0 e (l ++ [a]) (snd r)
  | AEnd => scan_ok b0 e L l true /\ curs_ok b0 e l (snd r)
  | _ => False
  end.
Lemma next_any b0 e l pg it : curs_ok b0 e l (Some (pg, it)) -> evp (fun _ f => next_prog g f pg it) s (next_post b0 e l).
Proof.
  intros (pg0 & it0 & b & i & Ec & U & A). inversion Ec; subst pg0 it0. unfold next_prog.
  eapply evp_bind; [apply has_any; exact A|].
  intros [[more pg1] it1] s1 (-> & j & b' & H1 & H2 & H3 & H4).
  assert (U' : upto L b0 b' j e l) by (eapply upto_gap; eauto).
  destruct more.
  - destruct H4 as (k & v & E & -> & B & S & A'). rewrite E. apply evp_ret. split; [reflexivity|]. cbn [fst snd].
    pose proof (upto_push _ _ _ _ _ _ _ U' B S) as U2. split; [eapply upto_scan; eauto; eapply at_leaf_i; eauto|].
    exists pg1, (advance it1), (Some (k, false)), j. auto.
  - destruct H4 as [A' X]. apply evp_ret. split; [reflexivity|]. cbn [fst snd]. split; [eapply upto_end; eauto; eapply at_leaf_i; eauto|].
    exists pg1, it1, b', j. auto.
Qed.

Lemma open_any b e : evp (fun _ f => op_scan g f b e) s (fun r s' => s' = s /\ curs_ok b e [] (Some r)).
Proof.
  unfold op_scan. destruct b as [[bk closed]|].
  - destruct (search_leaf_at g s M bk closed W HW) as (n1 & p & c & n2 & lv' & path & H & EL & HS). injection EL as EN <-.
    eapply evp_bind with (Q := fun r s' => s' = s /\ exists n1 p c n2 path pos, r = (spage g c, pos) /\
      leaf_at g s M (eff bk closed) n1 p c n2 lv path /\ N = n1 ++ (p, c) :: n2 /\ cut_at c (Some (bk, closed)) pos).
    + eapply evp_bind; [apply (HS (fun r s' => r = p :: path /\ s' = s)); auto|]. intros ? ? [-> ->].
      apply cons_ok; [|intros; split; eauto 12]. intros Q0 H0. eapply head_ok; eauto.
    + clear n1 p c n2 path H EN HS. intros ? ? (-> & n1 & p & c & n2 & path & pos & -> & H & EN & Hcut).
      pose proof (leaf_snap _ _ _ _ _ _ H EN) as Sn. pose proof H as [_ _ _ [R1 R2] _ _ Wf _]. destruct (lwf_sorted _ _ Wf) as [_ Hr].
      destruct (search_end (spage g c) e) as [is_end ep] eqn:Es. apply evp_ret. split; [reflexivity|].
      assert (Fin : forall b, (b = Some (bk, closed) \/ closed = false /\ c_hi c = Some bk /\ b = Some (bk, true)) ->
        (forall h, c_hi c = Some h -> forall k, h <= k -> after b k) ->
        curs_ok (Some (bk, closed)) e [] (Some (spage g c, mk_iter pos ep is_end e))).
      { intros b Hb Hh. exists (spage g c), (mk_iter pos ep is_end e), b, now. split; auto. split.
        - apply upto_nil; destruct Hb as [->|(-> & _ & ->)]; auto; cbn; intros k Hk; eauto. lia.
        - exists c, pos. split; auto. split; auto. split; [rewrite Es; auto|]. split; [|split; [|exact Hh]].
          + destruct Hb as [->|(-> & Eh & ->)]; auto. destruct Hcut as [C1 C2]. split; auto. intros i r Hi2.
            rewrite (C2 i r Hi2). rewrite Forall_forall in Hr. apply nth_error_In in Hi2. destruct (Hr _ Hi2) as [_ X].
            rewrite Eh in X. cbn in *. lia.
          + intros k Hk. assert (bk <= k) by (destruct Hb as [->|(-> & _ & ->)]; [destruct closed|]; cbn in Hk; lia).
            destruct (c_lo c); cbn in *; auto. destruct closed; cbn in R1; lia. }
      destruct closed; cbn [eff] in *.
      * apply (Fin (Some (bk, true))); auto. intros h Eh k Hk. rewrite Eh in R2. cbn in *. lia.
      * destruct (c_hi c) as [h|] eqn:Eh.
        -- destruct (Z.eq_dec h bk) as [->|Hne].
           ++ apply (Fin (Some (bk, true))); auto. intros h Eh' k Hk. inversion Eh'; subst. cbn. lia.
           ++ apply (Fin (Some (bk, false))); auto. intros h' Eh' k Hk. inversion Eh'; subst. cbn in *. lia.
        -- apply (Fin (Some (bk, false))); auto. discriminate.
  - destruct HW as (flat & Hup & Hgl & HM).
    pose proof Hup as (_ & _ & _ & _ & _ & Hf & Hup').
    destruct (leftmost_descent g s lv _ Hup') as (lo & x & rest & path & E & HQ).
    assert (exists c N', N = (x, c) :: N') as (c & N' & EN).
    { destruct N as [|[p c] N']; [discriminate|]. rewrite lows_cons in E. injection E as <- -> <-. eauto. }
    assert (Hin : In (x, c) N) by (rewrite EN; left; auto).
    assert (Elo : c_lo c = None).
    { pose proof Hup as (_ & Hh & _). rewrite EN in Hh. exact Hh. }
    destruct (up_in _ _ _ _ _ _ _ _ _ Hup Hin) as (Et & Hw & Hq & _).
    eapply evp_bind with (Q := fun r s' => r = (spage g c, 0) /\ s' = s).
    + eapply evp_bind with (Q := fun r s' => r = x :: path /\ s' = s).
      * unfold search_leftmost. apply evp_root. apply HQ. apply evp_S. cbn [leftmost_loop].
        eapply evp_bload; [exact Et|eauto|]. rewrite (cwf_leaf g false c Hw). cbn [negb]. apply evp_ret. auto.
      * intros ? ? [-> ->]. eapply evp_bind with (Q := fun r s' => r = c /\ s' = s).
        -- apply evp_S. cbn [leftmost_head]. eapply evp_bload; [exact Et|eauto|].
           rewrite (cwf_not_remove g false c Hw). apply evp_ret. auto.
        -- intros ? ? [-> ->].
           eapply evp_bind; [eapply (scan_page_ok g OK s c (fun y s' => y = spage g c /\ s' = s)); auto|].
           intros ? ? [-> ->]. apply evp_ret. auto.
    + intros ? ? [-> ->]. destruct (search_end (spage g c) e) as [is_end ep] eqn:Es. apply evp_ret. split; [reflexivity|].
      assert (H : exists k, leaf_at g s M k [] x c N' lv []).
      { pose proof (cwf_rng g false c Hw) as Hr. exists (match c_hi c with Some h => h - 1 | None => 0 end).
        assert (EN' : [] ++ (x, c) :: N' = N) by (rewrite EN; reflexivity).
        constructor; auto.
        - rewrite EN', Hf. auto.
        - rewrite EN'. auto.
        - intros k. rewrite EN', Hf. auto.
        - rewrite Elo. split; [exact I|]. destruct (c_hi c); cbn; auto. lia.
        - exact I. }
      destruct H as (k & H). pose proof (leaf_snap _ _ _ _ _ _ H EN) as Sn.
      exists (spage g c), (mk_iter 0 ep is_end e), None, now. split; auto. split.
      * apply upto_nil; cbn; auto.
      * exists c, 0. split; auto. split; auto. split; [rewrite Es; auto|]. split; [|split].
        -- split; [lia|]. intros i u _. cbn. split; auto. lia.
        -- intros q _. rewrite Elo. exact I.
        -- intros; exact I.
Qed.
End Now.
End S.
