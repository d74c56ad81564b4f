(** Scans whose end variable changes on the way, on a tree that nobody else uses. *)
From Coq Require Import ZArith NArith List Bool Lia.
From Coq Require Import Sorting.Sorted ZifyBool ZifyNat ZifyN.
From Verif Require Import Config Api Page Machine Tree Scan Spec ScanSpec ListFacts SearchFacts ChainSpec ChainFacts ConsFacts
  Valid ConsolidateFacts ChainProps RunFacts SeqSpec LevelFacts SeqSearch SeqAux SeqSmo SeqOps SeqScan Client ClientSpec ClientFacts
  PageFacts StatFacts Serve ServeFacts SeqCursor EndVar EndVarSpec FuelFacts
  Bulk BulkSpec ByteLifeSpec ByteLifeMain.
Import ListNotations.
Open Scope Z_scope.

Section S.
Variable g : cfg.
Hypothesis OK : cfg_ok g.
Section Now.
Variables (s : st) (M : smap) (N : level) (lv : list level) (cl : bool).
Notation W := (N :: lv).
Hypothesis HW : wtree g s M W.
Notation leaf := (SeqCursor.at_leaf g [M] s W).
Notation upk k := (Some (k, cl)).

Lemma one_log : exists L0, [M] = L0 ++ [M]. Proof. exists []. reflexivity. Qed.
Lemma one_seen i k v : seen [M] i k v -> M k = v.
Proof. apply seen_same. constructor; auto. Qed.
Lemma gap_one i j b b' e k : gap [M] i j b b' e -> after b k -> ~ after b' k -> before e k -> M k = None.
Proof. intros (w & _ & _ & H) H1 H2 H3. eapply one_seen. apply (H k); auto. Qed.

Definition var_post (b : bound) (e' v : key) (r : bool * node * iter) (s' : st) : Prop :=
  s' = s /\ let '(more, pg, it) := r in
  if more : bool then exists k w e1, (e1 = e' \/ e1 = v) /\ get_record pg it = Some (k, w) /\ M k = Some w /\ after b k /\ before (upk e1) k /\
    (forall q, after b q -> q < k -> before (upk e') q -> before (upk v) q -> M q = None) /\
    exists i it2, leaf i (Some (k, false)) (upk e1) pg it2 /\ forall u, end_var (advance it) u = end_var it2 u
  else forall q, after b q -> before (upk e') q -> before (upk v) q -> M q = None.

Lemma has_var i b e' v pg it : leaf i b (upk e') pg it ->
  evp (fun _ f => has_record g f pg (end_var it v)) s (var_post b e' v).
Proof.
  intros A. destruct (evp_done _ _ _ (has_any g OK s M N lv [M] HW one_log i b (upk e') pg it A)) as (r & s1 & P & F & H).
  specialize (H (S F) ltac:(lia)). cbn [has_record] in H.
  pose proof A as (c & pos & Sn & Ep & Ei & Hc & Hlo & Hhi).
  apply evp_S. cbn [has_record end_var i_pos i_end i_isend i_ekey].
  destruct (i_pos it <? i_end it) eqn:E1.
  - cbn [run] in H. injection H as <- <-. apply evp_ret. split; [reflexivity|].
    destruct P as (_ & j & b' & _ & Hb & Hg & k & w & G & -> & B & Se & A').
    exists k, w, e'. split; [auto|]. split; [exact G|]. split; [eapply one_seen; eauto|].
    split; [apply Hb; cbn; lia|]. split; [exact B|]. split.
    + intros q Q1 Q2 Q3 _. eapply gap_one; eauto. cbn. lia.
    + exists j, (advance it). split; [exact A'|]. intros u. rewrite Ei. reflexivity.
  - destruct (i_isend it) eqn:E2.
    + cbn [run] in H. injection H as <- <-. apply evp_ret. split; [reflexivity|].
      destruct P as (_ & j & b' & _ & Hb & Hg & _ & X). intros q Q1 Q2 _.
      destruct (bbz b' q) eqn:Eb.
      * apply bbz_spec in Eb. eapply one_seen. apply X; auto.
      * apply bbz_false in Eb. eapply gap_one; eauto.
    + clear P H. pose proof (sn_wf _ _ _ _ _ _ Sn) as Wf. pose proof (end_cut g c (upk e') Wf) as EC. rewrite <- Ep in EC.
      destruct (search_end pg (upk e')) as [is_end ep] eqn:Es. destruct EC as (H1 & H2 & H3). cbn [fst snd] in Ei.
      rewrite Ei in *. cbn [i_pos i_end i_isend i_ekey] in *. subst is_end. destruct H3 as (h & Eh).
      assert (Hn : forall q, after b q -> q < h -> before (upk e') q -> M q = None).
      { intros q Q1 Q2 Q3. eapply one_seen. eapply (SeqCursor.seen_none g [M] s W i c b pos q Sn Hc Q1 (Hlo _ Q1)).
        - rewrite Eh. exact Q2.
        - intros j w Hj Hle. destruct (H2 _ _ Hj) as [_ X]. specialize (X ltac:(lia)).
          apply (eb_before (upk e') q w) in Q3. congruence. }
      rewrite Ep. cbn [spage cons_page n_high n_next]. rewrite Eh.
      eapply evp_bind; [eapply (sib_any g OK s M N lv HW h (c_next c) (upk v) (fun r s' => s' = s /\ exists n1 p c' n2 path pos',
        r = (spage g c', mk_iter pos' (snd (search_end (spage g c') (upk v))) (fst (search_end (spage g c') (upk v))) (upk v)) /\
        leaf_at g s M h n1 p c' n2 lv path /\ N = n1 ++ (p, c') :: n2 /\ cut_at c' (Some (h, true)) pos'));
        [apply (sn_link _ _ _ _ _ _ Sn); auto|intros; split; eauto 12]|].
      intros ? ? (-> & n1 & p & c' & n2 & path & pos' & -> & H & EN & Hc').
      eapply evp_weaken; [eapply (has_now g OK s M N lv [M] HW one_log (upk v) (S (length n2)) h n1 p c' n2 path pos'); eauto|].
      intros [[more pg2] it2] s2 (-> & j2 & b2 & B1 & B2 & B3 & B4). split; [reflexivity|].
      destruct more.
      * destruct B4 as (k & w & G & -> & B & Se & A').
        assert (Hk : h <= k) by (apply (B2 k); cbn; lia).
        exists k, w, v. split; [auto|]. split; [exact G|]. split; [eapply one_seen; eauto|].
        split; [apply (Hhi h Eh); exact Hk|]. split; [exact B|]. split.
        -- intros q Q1 Q2 Q3 Q4. destruct (Z.lt_ge_cases q h) as [Q5|Q5]; [apply Hn; auto|].
           eapply (gap_one _ _ (Some (h, true)) (Some (k, true)) (upk v)); eauto. cbn. lia.
        -- exists j2, (advance it2). split; [exact A'|]. intros u. reflexivity.
      * destruct B4 as [_ X]. intros q Q1 Q3 Q4. destruct (Z.lt_ge_cases q h) as [Q5|Q5]; [apply Hn; auto|].
        destruct (bbz b2 q) eqn:Eb.
        -- apply bbz_spec in Eb. eapply one_seen. apply X; auto.
        -- apply bbz_false in Eb. eapply (gap_one _ _ (Some (h, true)) b2 (upk v)); eauto.
Qed.

Variables (lo hi : key).
Lemma before_up e e' k : e <= e' -> before (upk e) k -> before (upk e') k.
Proof. destruct cl; cbn; lia. Qed.

Definition it_post (b : bound) (n : nat) (r : list (key * val) * bool) (s' : st) : Prop :=
  s' = s /\ StronglySorted (fun x y => fst x < fst y) (fst r) /\
  (forall k w, In (k, w) (fst r) -> M k = Some w /\ after b k /\ before (upk hi) k) /\
  (forall k w, M k = Some w -> after b k -> before (upk lo) k ->
     In (k, w) (fst r) \/ snd r = false /\ Forall (fun x => fst x < k) (fst r)) /\
  (snd r = false -> length (fst r) = n).

Lemma iterate_any vs : Forall (fun v => lo <= v <= hi) vs -> forall i b e' pg it it', leaf i b (upk e') pg it' ->
  (forall u, end_var it u = end_var it' u) -> lo <= e' <= hi ->
  evp (fun _ f => iterate g f pg it vs) s (it_post b (length vs)).
Proof.
  induction 1 as [|v vs Hv _ IH]; intros i b e' pg it it' A Ee He; cbn [iterate].
  - apply evp_ret. split; [reflexivity|]. cbn [fst snd]. split; [constructor|]. split; [easy|]. split; [|reflexivity].
    intros k w _ _ _. right. auto.
  - rewrite Ee. eapply evp_bind; [apply (has_var i b e' v pg it' A)|].
    intros [[more pg1] it1] s1 (-> & P). destruct more.
    + destruct P as (k & w & e1 & E1 & G & Mk & Ak & Bk & Hq & j & it2 & A2 & Ee2). rewrite G.
      assert (He1 : lo <= e1 <= hi) by (destruct E1; subst; lia).
      eapply evp_bind; [apply (IH j (Some (k, false)) e1 pg1 (advance it1) it2 A2 Ee2 He1)|].
      intros [l fin] s2 (-> & S1 & S2 & S3 & S4). cbn [fst snd] in *. apply evp_ret.
      split; [reflexivity|]. cbn [fst snd]. split; [|split; [|split]].
      * constructor; auto. apply Forall_forall. intros [x y] Hx. destruct (S2 _ _ Hx) as (_ & X & _). cbn in *. lia.
      * intros x y [E|Hx].
        -- injection E as <- <-. split; auto. split; auto. eapply before_up; [|exact Bk]. lia.
        -- destruct (S2 _ _ Hx) as (X1 & X2 & X3). split; auto. split; auto. cbn in X2. eapply after_up; [|exact Ak]. lia.
      * intros q y Mq Aq Bq. destruct (Z.lt_trichotomy q k) as [Q|[Q|Q]].
        -- rewrite (Hq q Aq Q) in Mq; [discriminate| |]; (eapply before_up; [|exact Bq]); lia.
        -- subst q. left. left. congruence.
        -- destruct (S3 q y Mq Q Bq) as [X|[X1 X2]]; [left; right; exact X|]. right. split; auto.
      * intros X. cbn [length]. f_equal. auto.
    + apply evp_ret. split; [reflexivity|]. cbn [fst snd]. split; [constructor|]. split; [easy|]. split; [|discriminate].
      intros k w Mk Ak Bk. rewrite (P k Ak) in Mk; [discriminate| |]; (eapply before_up; [|exact Bk]); lia.
Qed.

Definition end_post (b : bound) (vs : list key) (r : list (key * val) * bool) (s' : st) : Prop :=
  s' = s /\ end_ok M b cl lo hi (length vs) (fst r) (snd r).
Lemma scan_var_any b e0 vs : lo <= e0 <= hi -> Forall (fun v => lo <= v <= hi) vs ->
  evp (fun _ f => scan_var g f b e0 cl vs) s (end_post b vs).
Proof.
  intros He Hvs. unfold scan_var.
  eapply evp_bind; [apply (open_any g OK s M N lv [M] HW one_log b (upk e0))|].
  intros [pg it] s1 (-> & pg' & it' & b1 & i & E & U & A). injection E as <- <-.
  eapply evp_weaken; [apply (iterate_any vs Hvs i b1 e0 pg it it A (fun _ => eq_refl) He)|].
  intros [l fin] s2 (-> & S1 & S2 & S3 & S4). destruct U as (_ & U1 & w & _ & _ & _ & U2).
  split; [reflexivity|]. split; [exact S1|]. split; [|split; [|exact S4]].
  - intros k y Hk. destruct (S2 k y Hk) as (X1 & X2 & X3). split; auto. split; auto.
    destruct (U1 k X2) as [X|[X|(q & -> & X)]]; auto. destruct (Z.eq_dec q k) as [->|]; auto. left. cbn. lia.
  - intros k y Mk Ak Bk. destruct (bbz b1 k) eqn:Eb.
    + apply bbz_spec in Eb. auto.
    + apply bbz_false in Eb. exfalso. assert (M k = None) by (eapply one_seen; apply (U2 k); auto; eapply before_up; [|exact Bk]; lia). congruence.
Qed.
End Now.

Lemma mono_iterate vs : forall f f' pg it, (f <= f')%nat -> mle (iterate g f pg it vs) (iterate g f' pg it vs).
Proof.
  clear OK. induction vs as [|v vs IH]; intros f f' pg it L; cbn [iterate]; [apply mle_refl|].
  apply mle_bind; [apply mono_has; auto|]. intros [[[|] pg1] it1]; [|apply mle_refl].
  destruct (get_record pg1 it1); [|apply mle_refl]. apply mle_bind; [apply IH; auto|]. intros; apply mle_refl.
Qed.
Lemma mono_scan_var f f' b e0 cl vs : (f <= f')%nat -> mle (scan_var g f b e0 cl vs) (scan_var g f' b e0 cl vs).
Proof.
  clear OK. intros L. unfold scan_var. apply mle_bind; [apply mono_scan; auto|]. intros [pg it]. apply mono_iterate. exact L.
Qed.

Lemma scan_var_tree s M cl lo hi b e0 vs : tree g s M -> lo <= e0 <= hi -> Forall (fun v => lo <= v <= hi) vs ->
  exists l fin, end_ok M b cl lo hi (length vs) l fin /\
    (exists F, forall f, (F <= f)%nat -> run (scan_var g f b e0 cl vs) s = Done (l, fin) s) /\
    (forall f, run (scan_var g f b e0 cl vs) s = NoFuel \/ run (scan_var g f b e0 cl vs) s = Done (l, fin) s).
Proof.
  intros T He Hvs. destruct (tree_wtree _ _ _ T) as ([|N lv] & HW); [destruct HW as (? & [] & _); discriminate|].
  destruct (evp_done _ _ _ (scan_var_any s M N lv cl HW lo hi b e0 vs He Hvs)) as ([l fin] & s' & P & F & H).
  pose proof P as (-> & P'). exists l, fin. split; [exact P'|]. split; [exists F; exact H|].
  intros f. destruct (run (scan_var g f b e0 cl vs) s) eqn:E; [right|right|left; reflexivity];
    rewrite <- E, <- (H (f + F)%nat) by lia; symmetry; apply mle_run; try congruence; apply mono_scan_var; lia.
Qed.
End S.

Lemma scan_var_new g os cl lo hi b e0 vs : cfg_ok g -> lo <= e0 <= hi -> Forall (fun v => lo <= v <= hi) vs ->
  exists s l fin, end_ok (snd (spec_run sempty os)) b cl lo hi (length vs) l fin /\
    (exists F, forall f, (F <= f)%nat ->
       run_calls g f os (init g) = Done (fst (spec_run sempty os)) s /\
       run (scan_var g f b e0 cl vs) s = Done (l, fin) s) /\
    (forall f, run (scan_var g f b e0 cl vs) s = NoFuel \/ run (scan_var g f b e0 cl vs) s = Done (l, fin) s).
Proof.
  intros OK He Hvs. destruct (calls_ok g OK os (init g) sempty (init_tree g OK)) as (F & s & T & H).
  destruct (scan_var_tree g OK s _ cl lo hi b e0 vs T He Hvs) as (l & fin & P & (F1 & H1) & H2).
  exists s, l, fin. split; [exact P|]. split; [|exact H2]. exists (max F F1). intros f Hf. split; [apply H|apply H1]; lia.
Qed.
Lemma scan_var_lived g K M s cl lo hi b e0 vs : cfg_ok g -> c_varlen g = false -> bulk_ok g -> lived g K M s ->
  lo <= e0 <= hi -> Forall (fun v => lo <= v <= hi) vs ->
  exists l fin, end_ok M b cl lo hi (length vs) l fin /\
    (exists F, forall f, (F <= f)%nat -> run (scan_var g f b e0 cl vs) s = Done (l, fin) s) /\
    (forall f, run (scan_var g f b e0 cl vs) s = NoFuel \/ run (scan_var g f b e0 cl vs) s = Done (l, fin) s).
Proof.
  intros OK HV BC H. apply scan_var_tree; auto. exact (proj1 (lived_tree g K OK HV BC (fun _ _ => 0%N) M s H)).
Qed.

(** A variable that keeps its value. *)
Lemma end_ok_kept M b cl e n l : (forall k, b <> Some (k, false)) -> end_ok M b cl e e n l true ->
  StronglySorted (fun x y => fst x < fst y) l /\
  forall k w, In (k, w) l <-> M k = Some w /\ after b k /\ before (Some (e, cl)) k.
Proof.
  intros Hb (A & B & C & _). split; [exact A|]. intros k w. split.
  - intros H. destruct (B _ _ H) as (B1 & [B2|B2] & B3); auto. destruct (Hb _ B2).
  - intros (H1 & H2 & H3). destruct (C k w H1 H2 H3) as [X|[X _]]; [exact X|discriminate].
Qed.
