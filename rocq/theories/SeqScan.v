(** Scans of a quiescent tree. *)
From Coq Require Import ZArith NArith List Bool Lia.
From Coq Require Import Sorting.Sorted ZifyBool ZifyNat ZifyN.
From Verif Require Import Config Api Page Machine Tree Scan Spec ScanSpec ListFacts SearchFacts ChainSpec ChainFacts ConsFacts
  Valid ConsolidateFacts ChainProps RunFacts SeqSpec LevelFacts SeqSearch SeqAux SeqSmo SeqOps.
Import ListNotations.
Open Scope Z_scope.

(** ** Lists *)
Lemma filter_cut {A} (f : A -> bool) : forall (l : list A) p,
  (forall i x, nth_error l i = Some x -> ((i < p)%nat -> f x = true) /\ ((p <= i)%nat -> f x = false)) ->
  filter f l = firstn p l.
Proof.
  induction l as [|x l IH]; intros p H; [destruct p; auto|].
  destruct p as [|p]; cbn.
  - destruct (H 0%nat x eq_refl) as [_ E]. rewrite E by lia. rewrite (IH 0%nat); auto.
    intros i y Hy. destruct (H (S i) y Hy) as [_ E2]. split; [lia|intros; apply E2; lia].
  - destruct (H 0%nat x eq_refl) as [E _]. rewrite E by lia. f_equal. apply IH.
    intros i y Hy. destruct (H (S i) y Hy) as [E1 E2]. split; intros; [apply E1|apply E2]; lia.
Qed.
Lemma filter_cut_r {A} (f : A -> bool) : forall (l : list A) p,
  (forall i x, nth_error l i = Some x -> ((i < p)%nat -> f x = false) /\ ((p <= i)%nat -> f x = true)) ->
  filter f l = skipn p l.
Proof.
  induction l as [|x l IH]; intros p H; [destruct p; auto|].
  destruct p as [|p]; cbn.
  - destruct (H 0%nat x eq_refl) as [_ E]. rewrite E by lia. f_equal. rewrite (IH 0%nat); auto.
    intros i y Hy. destruct (H (S i) y Hy) as [_ E2]. split; [lia|intros; apply E2; lia].
  - destruct (H 0%nat x eq_refl) as [E _]. rewrite E by lia. apply IH.
    intros i y Hy. destruct (H (S i) y Hy) as [E1 E2]. split; intros; [apply E1|apply E2]; lia.
Qed.
Lemma nth_skipn {A} : forall p (l : list A) i, nth_error (skipn p l) i = nth_error l (p + i).
Proof. induction p; intros [|x l] i; cbn; auto. destruct i; auto. Qed.
Lemma skipn_cut {A} : forall (l : list A) i m x, nth_error l i = Some x -> (i < m)%nat ->
  skipn i (firstn m l) = x :: skipn (S i) (firstn m l).
Proof.
  induction l as [|y l IH]; intros i m x Hx Hm; [destruct i; discriminate|].
  destruct m as [|m]; [lia|]. destruct i as [|i]; cbn in *.
  - injection Hx as ->. auto.
  - apply IH; auto. lia.
Qed.
Lemma skipn_cut_nil {A} (l : list A) i m : (m <= i)%nat -> skipn i (firstn m l) = [].
Proof. intros H. apply skipn_all2. rewrite firstn_length. lia. Qed.
Lemma filter_skipn {A} (f : A -> bool) : forall (l : list A) m p,
  (forall i x, nth_error l i = Some x -> ((i < m)%nat -> f x = true) /\ ((m <= i)%nat -> f x = false)) ->
  filter f (skipn p l) = skipn p (firstn m l).
Proof.
  intros l m p H. rewrite (filter_cut f (skipn p l) (m - p)).
  - rewrite skipn_firstn_comm. auto.
  - intros i x Hx. rewrite nth_skipn in Hx. apply H in Hx as [A1 A2]. split; intros; [apply A1|apply A2]; lia.
Qed.
Lemma filter_none {A} (f : A -> bool) l : Forall (fun x => f x = false) l -> filter f l = [].
Proof. induction 1 as [|x l H _ IH]; cbn; auto. rewrite H. auto. Qed.
Lemma filter_all {A} (f : A -> bool) l : Forall (fun x => f x = true) l -> filter f l = l.
Proof. induction 1 as [|x l H _ IH]; cbn; auto. rewrite H. f_equal. auto. Qed.

(** ** Bounds *)
Definition eb (e : bound) (x : key * val) : bool :=
  match e with
  | None => true
  | Some (ek, closed) => (fst x <? ek) || ((closed : bool) && (fst x =? ek))
  end.
Definition bb (b : bound) (x : key * val) : bool :=
  match b with
  | None => true
  | Some (bk, closed) => (bk <? fst x) || ((closed : bool) && (fst x =? bk))
  end.

Lemma sorted_nth (l : list (key * val)) : sorted l -> forall i j x y, (i < j)%nat ->
  nth_error l i = Some x -> nth_error l j = Some y -> fst x < fst y.
Proof.
  induction 1 as [|z l Hs IH F]; intros i j x y Hij Hx Hy; [destruct i; discriminate|].
  destruct j as [|j]; [lia|]. cbn in Hy. destruct i as [|i]; cbn in Hx.
  - injection Hx as ->. rewrite Forall_forall in F. apply F. eapply nth_error_In; eauto.
  - apply (IH i j x y); auto. lia.
Qed.

(** Position of a key, as a cut of the records. *)
Lemma cut_found (l : list (key * val)) k p v : sorted l -> nth_error l (Z.to_nat p) = Some (k, v) -> 0 <= p ->
  forall i x, nth_error l i = Some x ->
  (Z.of_nat i < p -> fst x < k) /\ (Z.of_nat i = p -> fst x = k) /\ (p < Z.of_nat i -> k < fst x).
Proof.
  intros Hs Hp H0 i x Hx. split; [|split].
  - intros. apply (sorted_nth l Hs i (Z.to_nat p) x (k, v)); auto. lia.
  - intros. replace i with (Z.to_nat p) in Hx by lia. rewrite Hp in Hx. injection Hx as <-. auto.
  - intros. apply (sorted_nth l Hs (Z.to_nat p) i (k, v) x); auto. lia.
Qed.

Section S.
Variable g : cfg.
Hypothesis OK : cfg_ok g.

Definition spage (c : chain) : node := cons_page c false 0%N (lrecs c) (2 * c_page g).

Lemma scan_page_ok s c (Q : node -> st -> Prop) : lwf g c -> quiet g c -> Q (spage c) s ->
  evp (fun _ f => scan_page g c) s Q.
Proof.
  intros Hw Hq HQ. unfold scan_page. destruct (sort_ok_ex c (lwf_mhigh _ _ Hw)) as (ds & Hs).
  destruct (cons_leaf_scan g c ds 0%N 0%N Hw Hs) as [E1 E2]. pose proof Hs as (-> & _ & _ & Hn).
  pose proof (quiet_ndelta g OK false c Hw Hq). pose proof (ok_thr g OK).
  destruct (Z.ltb_spec (c_maxd g) (Z.of_nat (length ds))); [lia|].
  rewrite (cwf_leaf g false c Hw). cbn [negb]. rewrite E2.
  destruct Hq as [_ Hq]. pose proof (page_pos g OK). pose proof (ok_hdr g OK).
  assert (0 <= maxrec g) by (unfold maxrec, metalen, ptrlen; pose proof (ok_key g OK 0); pose proof (ok_pay g OK); destruct (c_varlen g); lia).
  destruct (Z.ltb_spec (2 * c_page g) (h_size c)); [lia|].
  rewrite E1. apply evp_ret. exact HQ.
Qed.

(** SearchEndPositionFor cuts the records at the end bound. *)
Lemma end_cut c e : lwf g c ->
  let '(is_end, ep) := search_end (spage c) e in
  0 <= ep <= Z.of_nat (length (lrecs c)) /\
  (forall i x, nth_error (lrecs c) i = Some x ->
     ((i < Z.to_nat ep)%nat -> eb e x = true) /\ ((Z.to_nat ep <= i)%nat -> eb e x = false)) /\
  if is_end then match c_hi c with Some h => forall x, h <= fst x -> eb e x = false | None => True end
  else exists h, c_hi c = Some h.
Proof.
  intros Hw. destruct (lwf_sorted _ _ Hw) as [Hs Hr]. unfold search_end.
  assert (A : forall x, In x (lrecs c) -> hi_ok (c_hi c) (fst x)).
  { rewrite Forall_forall in Hr. intros x Hx. apply Hr in Hx. apply Hx. }
  assert (L : forall i x, nth_error (lrecs c) i = Some x -> (i < length (lrecs c))%nat).
  { intros i x Hx. apply nth_error_Some. congruence. }
  destruct (is_rightmost_of (spage c) e) eqn:Er; unfold is_rightmost_of in Er; cbn [spage cons_page n_high n_recs] in *.
  - destruct e as [[ek closed]|].
    + pose proof (c05_leaf (spage c) ek eq_refl Hs) as H. destruct (node_search (spage c) ek) as [found p].
      destruct H as [Hp H]. cbn [spage cons_page n_recs] in H, Hp. cbn [eb].
      split; [|split].
      * destruct (found && closed) eqn:E; [|lia]. destruct found; [|discriminate].
        destruct H as (v & H). apply L in H. lia.
      * intros i x Hx. destruct found; cbn [andb].
        -- destruct H as (v & H). destruct (cut_found _ _ _ _ Hs H (proj1 Hp) i x Hx) as (B1 & B2 & B3).
           destruct closed; split; intros; lia.
        -- destruct x as [x y]. destruct (H i x y Hx) as [B1 B2]. cbn [fst]. split; intros; lia.
      * destruct (c_hi c) as [h|]; auto. intros x Hx. destruct closed; lia.
    + destruct (c_hi c) eqn:Eh; [discriminate|]. split; [lia|]. split; [|easy].
      intros i x Hx. apply L in Hx. split; auto. lia.
  - destruct (c_hi c) as [h|] eqn:Eh; [|discriminate]. split; [lia|]. split; [|eauto].
    intros i x Hx. pose proof (L _ _ Hx). split; [|lia]. intros _.
    apply nth_error_In in Hx. apply A in Hx. cbn in Hx. destruct e as [[ek closed]|]; cbn; auto.
    destruct closed; lia.
Qed.

(** ** The iteration *)
Definition recs_of (N : level) : list (key * val) := flat_map (fun x => lrecs (snd x)) N.
Definition at_rec (N : level) (e : bound) (pg : node) (it : iter) (R : list (key * val)) : Prop :=
  exists n1 p c n2 pos, N = n1 ++ (p, c) :: n2 /\ pg = spage c /\ 0 <= pos /\
    it = mk_iter pos (snd (search_end pg e)) (fst (search_end pg e)) e /\
    R = filter (eb e) (skipn (Z.to_nat pos) (lrecs c)) ++ filter (eb e) (recs_of n2).

Section T.
Variables (s : st) (flat : list (option key * val)) (N : level) (lv : list level) (e : bound).
Hypothesis Hup : up g nopend s false flat (N :: lv).

Lemma sib_ok p c q d n1 n2 (Q : node * iter -> st -> Prop) h :
  N = n1 ++ (p, c) :: (q, d) :: n2 -> c_hi c = Some h ->
  Q (spage d, mk_iter 0 (snd (search_end (spage d) e)) (fst (search_end (spage d) e)) e) s ->
  evp (fun _ f => sibling_scan g f (c_next c) h e) s Q.
Proof.
  intros EN Eh HQ. pose proof Hup as (_ & _ & Hl & _ & _ & _ & _).
  rewrite EN in Hl. apply linked_app in Hl as [_ Hl]. cbn in Hl. destruct Hl as (L1 & L2 & _).
  assert (Hin : In (q, d) N) by (rewrite EN; apply in_app_iff; right; right; left; auto).
  destruct (up_in _ _ _ _ _ _ _ _ _ Hup Hin) as (Et & Hw & Hq & _). rewrite L2.
  unfold sibling_scan. eapply evp_bind with (Q := fun r s' => r = (spage d, 0) /\ s' = s).
  - apply evp_S. cbn [cons_for_scan]. eapply evp_bind with (Q := fun r s' => r = (Some d, [q]) /\ s' = s).
    + apply evp_S. cbn [get_head].
      eapply evp_bind; [eapply (load_valid_ok g OK s q d (fun x s' => x = d /\ s' = s)); eauto|].
      intros ? ? [-> ->]. rewrite (validate_spec d h true (lwf_mhigh _ _ Hw)).
      pose proof (cwf_rng g false d Hw) as Hr. unfold rng_ne in Hr. cbn [eff].
      rewrite Eh in L1. rewrite <- L1 in Hr. destruct (c_hi d) as [hd|].
      * cbn in Hr. destruct (Z.ltb_spec h hd); [|lia]. apply evp_ret. auto.
      * apply evp_ret. auto.
    + intros ? ? [-> ->]. rewrite (cwf_not_remove g false d Hw).
      eapply evp_bind; [eapply (scan_page_ok s d (fun x s' => x = spage d /\ s' = s)); auto|].
      intros ? ? [-> ->]. destruct (lwf_sorted _ _ Hw) as [Hs Hr].
      pose proof (c05_leaf (spage d) h eq_refl Hs) as H. destruct (node_search (spage d) h) as [found pos].
      apply evp_ret. split; auto. rewrite orb_true_r. f_equal. destruct H as [Hp H].
      cbn [spage cons_page n_recs] in H, Hp.
      assert (F : forall i x, nth_error (lrecs d) i = Some x -> h <= fst x).
      { intros i x Hx. apply nth_error_In in Hx. rewrite Forall_forall in Hr. apply Hr in Hx.
        destruct Hx as [Hx _]. rewrite <- L1, Eh in Hx. exact Hx. }
      destruct (Z.eq_dec pos 0) as [|Hne]; auto. exfalso.
      assert (Hlen : (0 < length (lrecs d))%nat) by lia.
      destruct (nth_error (lrecs d) 0) as [x|] eqn:E0; [|apply nth_error_None in E0; lia].
      pose proof (F _ _ E0). destruct found.
      * destruct H as (v & H). destruct (cut_found _ _ _ _ Hs H ltac:(lia) 0%nat x E0) as (B & _). lia.
      * destruct x as [x y]. destruct (H 0%nat x y E0) as [B _]. cbn in *. lia.
  - intros ? ? [-> ->]. destruct (search_end (spage d) e) as [is_end ep]. apply evp_ret. exact HQ.
Qed.

Lemma recs_right c p n1 n2 h : N = n1 ++ (p, c) :: n2 -> c_hi c = Some h ->
  Forall (fun x => h <= fst x) (recs_of n2).
Proof.
  intros EN Eh. pose proof Hup as (_ & _ & Hl & Hs & Hn & _ & _). rewrite EN in Hl, Hs, Hn.
  apply Forall_app in Hn as [_ Hn]. apply Forall_inv_tail in Hn. apply node_ok_cwf in Hn.
  apply Forall_forall. intros x Hx. unfold recs_of in Hx. apply in_flat_map in Hx as ([q d] & Hd & Hx).
  destruct (right_ge n1 p c n2 Hs Hl q d Hd) as (_ & B & _). rewrite Eh in B.
  rewrite Forall_forall in Hn. specialize (Hn _ Hd). cbn [snd] in *.
  destruct (lwf_sorted _ _ Hn) as [_ F]. rewrite Forall_forall in F. destruct (F x Hx) as [F1 _].
  destruct (c_lo d); cbn in *; lia.
Qed.

Lemma recs_left c p n1 n2 k : N = n1 ++ (p, c) :: n2 -> lo_ok (c_lo c) k ->
  Forall (fun x => fst x < k) (recs_of n1).
Proof.
  intros EN Lo. pose proof Hup as (_ & _ & Hl & Hs & Hn & _ & _). rewrite EN in Hl, Hs, Hn.
  apply Forall_app in Hn as [Hn _]. apply node_ok_cwf in Hn.
  apply Forall_forall. intros x Hx. unfold recs_of in Hx. apply in_flat_map in Hx as ([q d] & Hd & Hx).
  destruct (left_hi n1 p c n2 _ _ Hs Hl q d Hd) as (A & B).
  rewrite Forall_forall in Hn. specialize (Hn _ Hd). cbn [snd] in *.
  destruct (lwf_sorted _ _ Hn) as [_ F]. rewrite Forall_forall in F. destruct (F x Hx) as [_ F1].
  destruct (c_hi d), (c_lo c); cbn in *; try easy; lia.
Qed.

Lemma has_ok : forall R pg it, at_rec N e pg it R ->
  evp (fun _ f => has_record g f pg it) s (fun r s' => s' = s /\
    match R with
    | [] => exists pg' it', r = (false, pg', it')
    | x :: R' => exists pg' it', r = (true, pg', it') /\ get_record pg' it' = Some x /\
        at_rec N e pg' (advance it') R'
    end).
Proof.
  intros R pg it (n1 & p & c & n2 & pos & EN & Ep & Hpos & Ei & ER).
  revert R pg it n1 p c pos EN Ep Hpos Ei ER.
  induction n2 as [|[q d] n2 IH]; intros R pg it n1 p c pos EN Ep Hpos Ei ER;
    (assert (Hin : In (p, c) N) by (rewrite EN; apply in_level));
    destruct (up_in _ _ _ _ _ _ _ _ _ Hup Hin) as (Et & Hw & Hq & _);
    pose proof (end_cut c e Hw) as Hc; rewrite <- Ep in Hc;
    destruct (search_end pg e) as [is_end ep] eqn:Es; destruct Hc as (H1 & H2 & H3);
    cbn [fst snd] in Ei;
    rewrite (filter_skipn (eb e) (lrecs c) (Z.to_nat ep) (Z.to_nat pos) H2) in ER;
    apply evp_S; cbn [has_record]; rewrite Ei; cbn [i_pos i_end i_isend i_ekey].
  all: destruct (Z.ltb_spec pos ep) as [Hlt|Hge];
    [destruct (nth_error (lrecs c) (Z.to_nat pos)) as [x|] eqn:Ex; [|apply nth_error_None in Ex; lia];
     assert (Hlt' : (Z.to_nat pos < Z.to_nat ep)%nat) by lia;
     rewrite (skipn_cut _ _ _ x Ex Hlt') in ER; subst R; cbn [app]; apply evp_ret; split; auto;
     do 2 eexists; (split; [reflexivity|]); (split; [subst pg; exact Ex|]);
     eexists n1, p, c, _, (pos + 1); rewrite Es;
     rewrite (filter_skipn (eb e) (lrecs c) (Z.to_nat ep) (Z.to_nat (pos + 1)) H2);
     replace (Z.to_nat (pos + 1)) with (S (Z.to_nat pos)) by lia; repeat split; eauto; lia|].
  - rewrite skipn_cut_nil in ER by lia. cbn in ER. subst R. destruct is_end.
    + apply evp_ret. split; eauto.
    + exfalso. destruct H3 as (h & Eh). pose proof Hup as (_ & _ & Hl & _). rewrite EN in Hl.
      apply linked_app in Hl as [_ Hl]. cbn in Hl. destruct Hl as (Hl & _). congruence.
  - rewrite skipn_cut_nil in ER by lia. cbn [app] in ER.
    pose proof Hup as (_ & _ & Hl & Hs & _). rewrite EN in Hl, Hs.
    destruct (right_ge n1 p c ((q, d) :: n2) Hs Hl q d (or_introl eq_refl)) as (Hh & _).
    destruct (c_hi c) as [h|] eqn:Eh; [|easy]. destruct is_end.
    + rewrite filter_none in ER.
      * subst R. apply evp_ret. split; eauto.
      * eapply Forall_impl; [|eapply (recs_right c p n1 ((q, d) :: n2) h); eauto]. exact H3.
    + rewrite Ep. cbn [spage cons_page n_high n_next]. rewrite Eh.
      eapply evp_bind.
      * eapply (sib_ok p c q d n1 n2 (fun r s' => r = (spage d, mk_iter 0 (snd (search_end (spage d) e))
          (fst (search_end (spage d) e)) e) /\ s' = s) h); eauto.
      * intros ? ? [-> ->]. apply (IH R (spage d) _ (n1 ++ [(p, c)]) q d 0).
        -- rewrite EN, <- app_assoc. auto.
        -- auto.
        -- lia.
        -- auto.
        -- rewrite ER. unfold recs_of. cbn [flat_map snd]. rewrite filter_app. auto.
Qed.

Lemma collect_ok : forall R pg it, at_rec N e pg it R ->
  evp (fun _ f => collect g f pg it) s (fun l s' => l = R /\ s' = s).
Proof.
  induction R as [|x R IH]; intros pg it H; apply evp_S; cbn [collect];
    (eapply evp_bind; [apply (has_ok _ _ _ H)|]); cbn beta.
  - intros ? ? (-> & pg' & it' & ->). apply evp_ret. auto.
  - intros ? ? (-> & pg' & it' & -> & G & H'). rewrite G.
    eapply evp_bind; [apply (IH _ _ H')|]. intros ? ? [-> ->]. apply evp_ret. auto.
Qed.
End T.

(** ** Descending to the leftmost leaf *)
Lemma leftmost_inner c : iwf g c -> leftmost_child c = Some (ilead c).
Proof.
  induction c as [n|d c IH|d n c IH|]; cbn [iwf leftmost_child ilead]; intros H.
  - destruct H as (_ & (k0 & E & _) & _). unfold nlead in *. rewrite E. auto.
  - apply IH, H.
  - apply IH, H.
  - destruct H.
Qed.
Lemma leftmost_descent s : forall lv flat, up g nopend s true flat lv ->
  exists lo x rest path, flat = (lo, x) :: rest /\
    forall Q, evp (fun _ f => leftmost_loop f (x :: path)) s Q ->
              evp (fun _ f => leftmost_loop f [s_root s]) s Q.
Proof.
  induction lv as [|N lv IH]; intros flat Hup.
  - destruct Hup as [_ ->]. exists None, (s_root s), [], []. auto.
  - pose proof Hup as (_ & _ & _ & _ & _ & Hf & Hup').
    destruct (IH _ Hup') as (lo & x & rest & path & E & HQ).
    destruct N as [|[p c] N]; [discriminate|]. rewrite lows_cons in E. injection E as <- -> <-.
    destruct (up_in _ _ _ _ _ _ _ _ _ Hup (or_introl eq_refl)) as (Et & Hw & _).
    rewrite flat_of_cons in Hf. cbn [cents app] in Hf. subst flat.
    do 2 eexists. eexists _, (x :: path). split; [reflexivity|]. intros Q H. apply HQ.
    apply evp_S. cbn [leftmost_loop]. eapply evp_bload; [exact Et|eauto|].
    rewrite (cwf_leaf g true c Hw). cbn [negb]. rewrite (leftmost_inner c Hw). exact H.
Qed.

(** ** Scan *)
Lemma scan_from s M b e : tree g s M -> exists N lv R,
  up g nopend s false (flat_of false N) (N :: lv) /\ (forall k, ofind k (flat_of false N) = M k) /\
  evp (fun _ f => scan_all g f b e) s (fun l s' => l = filter (eb e) R /\ s' = s) /\
  (R = filter (bb b) (recs_of N) \/
   exists bk, b = Some (bk, false) /\ R = filter (bb (Some (bk, true))) (recs_of N)).
Proof.
  intros Ht. destruct b as [[bk closed]|].
  - destruct (search_leaf_ok g s M bk closed Ht) as (n1 & p & c & n2 & lv & path & L & HQ).
    pose proof L as [Hup Hgl HM [Lo Hi] Hst Htb Hw Hq].
    set (N := n1 ++ (p, c) :: n2) in *.
    destruct (lwf_sorted _ _ Hw) as [Hs Hr].
    pose proof (c05_leaf (spage c) bk eq_refl Hs) as Hp.
    set (pos := let '(found, pos) := node_search (spage c) bk in if negb found || closed then pos else pos + 1).
    assert (P : 0 <= pos /\ skipn (Z.to_nat pos) (lrecs c) = filter (bb (Some (bk, closed))) (lrecs c)).
    { unfold pos. destruct (node_search (spage c) bk) as [found q]. destruct Hp as [Hp H].
      cbn [spage cons_page n_recs] in H, Hp. split; [destruct found, closed; cbn; lia|].
      symmetry. apply filter_cut_r. intros i x Hx. cbn [bb]. destruct found; cbn [negb orb].
      - destruct H as (v & H). destruct (cut_found _ _ _ _ Hs H (proj1 Hp) i x Hx) as (B1 & B2 & B3).
        destruct closed; split; intros; lia.
      - destruct x as [x y]. destruct (H i x y Hx) as [B1 B2]. cbn [fst]. split; intros; lia. }
    destruct P as [P1 P2].
    exists N, lv, (filter (bb (Some (bk, closed))) (lrecs c) ++ recs_of n2).
    split; [exact Hup|]. split; [exact HM|]. split.
    + unfold scan_all, op_scan.
      eapply evp_bind with (Q := fun r s' => r = (spage c, mk_iter pos (snd (search_end (spage c) e))
        (fst (search_end (spage c) e)) e) /\ s' = s).
      * eapply evp_bind with (Q := fun r s' => r = (spage c, pos) /\ s' = s).
        -- eapply evp_bind; [apply (HQ (fun r s' => r = p :: path /\ s' = s)); auto|].
           intros ? ? [-> ->]. apply evp_S. cbn [cons_for_scan].
           eapply evp_bind with (Q := fun r s' => r = (Some c, p :: path) /\ s' = s).
           ++ apply evp_S. cbn [get_head].
              eapply evp_bind; [eapply (load_valid_ok g OK s p c (fun x s' => x = c /\ s' = s)); eauto|].
              intros ? ? [-> ->]. rewrite (validate_spec c bk closed (lwf_mhigh _ _ Hw)).
              destruct (c_hi c) as [h|]; [|apply evp_ret; auto]. cbn in Hi.
              destruct (Z.ltb_spec (eff bk closed) h); [|lia]. apply evp_ret; auto.
           ++ intros ? ? [-> ->]. rewrite (cwf_not_remove g false c Hw).
              eapply evp_bind; [eapply (scan_page_ok s c (fun x s' => x = spage c /\ s' = s)); auto|].
              intros ? ? [-> ->]. unfold pos. destruct (node_search (spage c) bk). apply evp_ret. auto.
        -- intros ? ? [-> ->]. destruct (search_end (spage c) e). apply evp_ret. auto.
      * intros ? ? [-> ->]. eapply (collect_ok s _ N lv e Hup).
        exists n1, p, c, n2, pos. repeat split; auto. rewrite P2, filter_app. auto.
    + assert (Lo' : lo_ok (c_lo c) bk) by (destruct (c_lo c), closed; cbn in *; lia).
      assert (E1 : forall b', filter (bb (Some (bk, b'))) (recs_of n1) = []).
      { intros b'. apply filter_none. eapply Forall_impl; [|apply (recs_left s _ N lv Hup c p n1 n2 bk eq_refl Lo')].
        intros x Hx. cbn [bb]. cbn beta in Hx. destruct b'; lia. }
      assert (E0 : recs_of N = recs_of n1 ++ lrecs c ++ recs_of n2).
      { unfold N, recs_of. rewrite flat_map_app. auto. }
      destruct (c_hi c) as [h|] eqn:Eh.
      2:{ left. assert (n2 = []) as ->.
          { destruct n2 as [|[q d] n2]; auto. destruct Hup as (_ & _ & Hl & Hs' & _).
            destruct (right_ge n1 p c ((q, d) :: n2) Hs' Hl q d (or_introl eq_refl)). congruence. }
          rewrite E0, !filter_app, E1. cbn. rewrite !app_nil_r. auto. }
      pose proof (recs_right s _ N lv Hup c p n1 n2 h eq_refl Eh) as Hge. cbn in Hi.
      destruct closed.
      * left. rewrite E0, !filter_app, E1. cbn [app]. f_equal. symmetry. apply filter_all.
        eapply Forall_impl; [|exact Hge]. intros x Hx. cbn beta in Hx. cbn in *. lia.
      * cbn in Hi. destruct (Z.eq_dec h bk) as [->|Hne].
        -- right. exists bk. split; auto. rewrite E0, !filter_app, E1. cbn [app]. f_equal.
           ++ rewrite !filter_none; auto; (eapply Forall_impl; [|exact Hr]); intros x [_ Hx]; cbn in *; lia.
           ++ symmetry. apply filter_all. eapply Forall_impl; [|exact Hge]. intros x Hx. cbn beta in Hx. cbn in *. lia.
        -- left. rewrite E0, !filter_app, E1. cbn [app]. f_equal. symmetry. apply filter_all.
           eapply Forall_impl; [|exact Hge]. intros x Hx. cbn beta in Hx. cbn in *. lia.
  - destruct Ht as (flat & N & lv & Hup & Hgl & HM).
    pose proof Hup as (_ & _ & _ & _ & _ & Hf & Hup').
    exists N, lv, (recs_of N). rewrite <- Hf in Hup, HM. split; [auto|]. split; [auto|].
    split; [|left; symmetry; apply filter_all; apply Forall_forall; auto].
    destruct (leftmost_descent s lv _ Hup') as (lo & x & rest & path & E & HQ).
    destruct N as [|[p c] N]; [discriminate|]. rewrite lows_cons in E. injection E as <- -> <-.
    destruct (up_in _ _ _ _ _ _ _ _ _ Hup (or_introl eq_refl)) as (Et & Hw & Hq & _).
    unfold scan_all, op_scan. eapply evp_bind with (Q := fun r s' => r = (spage c, mk_iter 0 (snd (search_end (spage c) e))
        (fst (search_end (spage c) e)) e) /\ s' = s).
    + eapply evp_bind with (Q := fun r s' => r = (spage c, 0) /\ s' = s).
      * eapply evp_bind with (Q := fun r s' => r = x :: path /\ s' = s).
        -- unfold search_leftmost. apply evp_root. apply HQ. apply evp_S. cbn [leftmost_loop].
           eapply evp_bload; [exact Et|eauto|]. rewrite (cwf_leaf g false c Hw). cbn [negb]. apply evp_ret. auto.
        -- intros ? ? [-> ->]. eapply evp_bind with (Q := fun r s' => r = c /\ s' = s).
           ++ apply evp_S. cbn [leftmost_head]. eapply evp_bload; [exact Et|eauto|].
              rewrite (cwf_not_remove g false c Hw). apply evp_ret. auto.
           ++ intros ? ? [-> ->].
              eapply evp_bind; [eapply (scan_page_ok s c (fun y s' => y = spage c /\ s' = s)); auto|].
              intros ? ? [-> ->]. apply evp_ret. auto.
      * intros ? ? [-> ->]. destruct (search_end (spage c) e). apply evp_ret. auto.
    + intros ? ? [-> ->]. eapply (collect_ok s _ _ lv e Hup).
      exists [], x, c, N, 0. repeat split; auto; [lia|]. cbn [Z.to_nat skipn]. unfold recs_of. cbn [flat_map snd].
      rewrite filter_app. auto.
Qed.

Lemma flat_recs N : flat_of false N = ekey (recs_of N).
Proof. unfold recs_of, ekey. induction N as [|[p c] N IH]; cbn; auto. rewrite map_app. f_equal. exact IH. Qed.
Lemma ekey_sorted l : osorted (ekey l) -> sorted l.
Proof.
  induction l as [|x l IH]; cbn; intros H; [constructor|]. apply osorted_cons_inv in H as [H F].
  constructor; [apply IH; auto|]. apply Forall_forall. intros y Hy. rewrite Forall_forall in F.
  apply (F (Some (fst y), snd y)). unfold ekey. apply in_map_iff. eauto.
Qed.
Lemma sorted_in_find k v (l : list (key * val)) : sorted l -> In (k, v) l -> find k l = Some v.
Proof.
  induction 1 as [|x l Hs IH F]; cbn [find In]; [easy|]. intros [-> | H].
  - rewrite Z.eqb_refl. auto.
  - rewrite Forall_forall in F. specialize (F _ H). unfold ltk in F. destruct x as [x y]. cbn [fst] in *.
    destruct (Z.eqb_spec x k); [lia|]. auto.
Qed.
End S.

Lemma sorted_filter (f : key * val -> bool) l : sorted l -> sorted (filter f l).
Proof.
  induction 1 as [|x l Hs IH F]; cbn; [constructor|]. destruct (f x); auto. constructor; auto.
  apply Forall_forall. intros y Hy. apply filter_In in Hy as [Hy _]. rewrite Forall_forall in F. auto.
Qed.
Lemma eb_before e k v : eb e (k, v) = true <-> before e k.
Proof. destruct e as [[x []]|]; cbn [eb before fst andb]; try tauto; lia. Qed.
Lemma bb_after b k v : bb b (k, v) = true <-> after b k.
Proof. destruct b as [[x []]|]; cbn [bb after fst andb]; try tauto; lia. Qed.

Lemma scan_calm g s M b e : cfg_ok g -> tree g s M -> exists F l b', (forall f, (F <= f)%nat ->
    run (scan_all g f b e) s = Done l s /\ calm good (scan_all g f b e) s) /\
  Sorted.StronglySorted (fun x y => fst x < fst y) l /\
  (forall k v, In (k, v) l <-> M k = Some v /\ after b' k /\ before e k) /\
  (b' = b \/ exists bk, b = Some (bk, false) /\ b' = Some (bk, true)).
Proof.
  intros OK T.
  destruct (scan_from g OK s _ b e T) as (N & lv & R & Hup & HM & Hev & HR).
  destruct (evp_calm _ _ _ Hev) as (l & s' & (El & Es) & F1 & H1). subst l s'.
  pose proof Hup as (_ & _ & Hl & Hs & Hn & _ & _).
  assert (S : sorted (recs_of N)).
  { apply ekey_sorted. rewrite <- flat_recs. eapply flat_sorted; eauto. apply node_ok_cwf in Hn. exact Hn. }
  assert (Hb : exists b', R = filter (bb b') (recs_of N) /\ (b' = b \/ exists bk, b = Some (bk, false) /\ b' = Some (bk, true))).
  { destruct HR as [-> | (bk & -> & ->)]; [exists b; auto|]. eexists. split; [reflexivity|]. right; eauto. }
  destruct Hb as (b' & -> & Hb).
  exists F1, (filter (eb e) (filter (bb b') (recs_of N))), b'. split; [exact H1|].
  split; [apply sorted_filter, sorted_filter, S|]. split; [|exact Hb].
  intros k v. rewrite !filter_In, eb_before, bb_after, <- HM, flat_recs, ofind_ekey. split.
  - intros [[A B] C]. split; auto. apply sorted_in_find; auto.
  - intros (A & B & C). split; auto. split; auto. apply find_in; auto.
Qed.

Lemma scan_tree g s M b e : cfg_ok g -> tree g s M -> exists F l b', (forall f, (F <= f)%nat ->
    run (scan_all g f b e) s = Done l s) /\
  Sorted.StronglySorted (fun x y => fst x < fst y) l /\
  (forall k v, In (k, v) l <-> M k = Some v /\ after b' k /\ before e k) /\
  (b' = b \/ exists bk, b = Some (bk, false) /\ b' = Some (bk, true)).
Proof.
  intros OK T. destruct (scan_calm g s M b e OK T) as (F & l & b' & H1 & H2). exists F, l, b'. split; [|exact H2].
  intros f Hf. apply H1. exact Hf.
Qed.

Lemma scan_gen g os b e : cfg_ok g -> exists F s l b', forall f, (F <= f)%nat ->
  run_calls g f os (init g) = Done (fst (spec_run sempty os)) s /\
  run (scan_all g f b e) s = Done l s /\
  Sorted.StronglySorted (fun x y => fst x < fst y) l /\
  (forall k v, In (k, v) l <-> snd (spec_run sempty os) k = Some v /\ after b' k /\ before e k) /\
  (b' = b \/ exists bk, b = Some (bk, false) /\ b' = Some (bk, true)).
Proof.
  intros OK. destruct (calls_ok g OK os (init g) sempty (init_tree g OK)) as (F & s & T & H).
  destruct (scan_tree g s _ b e OK T) as (F1 & l & b' & H1 & H2).
  exists (max F F1), s, l, b'. intros f Hf. split; [apply H; lia|]. split; [apply H1; lia|]. exact H2.
Qed.

Lemma c12 g os b e : cfg_ok g -> (forall k, b <> Some (k, false)) -> exists F s l, forall f, (F <= f)%nat ->
  run_calls g f os (init g) = Done (fst (spec_run sempty os)) s /\
  run (scan_all g f b e) s = Done l s /\
  Sorted.StronglySorted (fun x y => fst x < fst y) l /\
  (forall k v, In (k, v) l <-> snd (spec_run sempty os) k = Some v /\ after b k /\ before e k).
Proof.
  intros OK Hb. destruct (scan_gen g os b e OK) as (F & s & l & b' & H). exists F, s, l. intros f Hf.
  destruct (H f Hf) as (A & B & C & D & [-> | (bk & E & _)]); [|destruct (Hb _ E)]. auto.
Qed.

Lemma c13 g os bk e : cfg_ok g -> exists F s l, forall f, (F <= f)%nat ->
  run_calls g f os (init g) = Done (fst (spec_run sempty os)) s /\
  run (scan_all g f (Some (bk, false)) e) s = Done l s /\
  Sorted.StronglySorted (fun x y => fst x < fst y) l /\
  (forall k v, k <> bk ->
     In (k, v) l <-> snd (spec_run sempty os) k = Some v /\ after (Some (bk, false)) k /\ before e k) /\
  (forall v, In (bk, v) l -> snd (spec_run sempty os) bk = Some v).
Proof.
  intros OK. destruct (scan_gen g os (Some (bk, false)) e OK) as (F & s & l & b' & H).
  exists F, s, l. intros f Hf. destruct (H f Hf) as (A & B & C & D & E). do 3 (split; auto). split.
  - intros k v Hk. rewrite D. destruct E as [-> | (x & E & ->)]; [tauto|]. injection E as <-. cbn. split; intros (G1 & G2 & G3); repeat split; auto; lia.
  - intros v Hv. apply D in Hv. tauto.
Qed.
