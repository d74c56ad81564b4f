(** An iterator over [e2] that goes on with the end bound [e1], on a tree that nobody else
    uses. *)
From Coq Require Import ZArith NArith List Bool Lia.
From Coq Require Import Sorting.Sorted ZifyBool ZifyNat ZifyN.
From Verif Require Import Config Api Page Machine Tree Scan Spec ScanSpec ListFacts SearchFacts ChainSpec ChainFacts ConsFacts
  Valid ConsolidateFacts ChainProps RunFacts SeqSpec LevelFacts SeqSearch SeqAux SeqSmo SeqOps SeqScan Client ClientSpec ClientFacts
  PageFacts StatFacts Serve ServeFacts SeqCursor EndVar EndVarFacts Reassign ReassignSpec FuelFacts Bulk BulkSpec ByteLifeSpec ByteLifeMain.
Import ListNotations.
Open Scope Z_scope.

Lemma ofind_in k v : forall flat, ofind k flat = Some v -> In (Some k, v) flat.
Proof.
  induction flat as [|[[q|] w] t IH]; cbn [ofind isk fst snd]; intros H; [discriminate| |right; auto].
  destruct (Z.eqb_spec q k) as [->|].
  - injection H as ->. left. reflexivity.
  - right. auto.
Qed.

Section S.
Variable g : cfg.
Hypothesis OK : cfg_ok g.
Section Now.
Variables (s : st) (M : smap) (N : level) (lv : list level).
Notation W := (N :: lv).
Hypothesis HW : wtree g s M W.
Notation leaf := (SeqCursor.at_leaf g [M] s W).
Variables (e1 e2 : bound).
Definition either (e : bound) : Prop := e = e1 \/ e = e2.

(** The iterator's page was cut at [e]; its end bound is [e1]. *)
Definition going (b : bound) (pg : node) (it : iter) : Prop :=
  exists i e it0, either e /\ leaf i b e pg it0 /\ it = mk_iter (i_pos it0) (i_end it0) (i_isend it0) e1.
Definition go_post (b : bound) (r : bool * node * iter) (s' : st) : Prop :=
  s' = s /\ let '(more, pg, it) := r in
  if more : bool then exists k w, get_record pg it = Some (k, w) /\ M k = Some w /\ after b k /\ (before e1 k \/ before e2 k) /\
    (forall q, after b q -> q < k -> before e1 q -> before e2 q -> M q = None) /\ going (Some (k, false)) pg (advance it)
  else forall q, after b q -> before e1 q -> before e2 q -> M q = None.

Lemma has_going b pg it : going b pg it -> evp (fun _ f => has_record g f pg it) s (go_post b).
Proof.
  intros (i & e & it0 & He & A & ->).
  destruct (evp_done _ _ _ (has_any g OK s M N lv [M] HW (one_log M) i b e pg it0 A)) as (r & s1 & P & F & H).
  specialize (H (S F) ltac:(lia)). cbn [has_record] in H.
  pose proof A as (c & pos & Sn & Ep & Ei & Hc & Hlo & Hhi).
  assert (Hb : forall q, before e1 q -> before e2 q -> before e q) by (intros; destruct He; subst; auto).
  assert (Hb' : forall q, before e q -> before e1 q \/ before e2 q) by (intros; destruct He; subst; auto).
  apply evp_S. cbn [has_record i_pos i_end i_isend i_ekey].
  destruct (i_pos it0 <? i_end it0) eqn:E1.
  - cbn [run] in H. injection H as <- <-. apply evp_ret. split; [reflexivity|].
    destruct P as (_ & j & b' & _ & Hbb & Hg & k & w & G & -> & B & Se & A').
    exists k, w. split; [exact G|]. split; [eapply one_seen; eauto|].
    split; [apply Hbb; cbn; lia|]. split; [auto|]. split.
    + intros q Q1 Q2 Q3 Q4. eapply gap_one; eauto. cbn. lia.
    + exists j, e, (advance it0). split; [exact He|]. split; [exact A'|]. reflexivity.
  - destruct (i_isend it0) eqn:E2.
    + cbn [run] in H. injection H as <- <-. apply evp_ret. split; [reflexivity|].
      destruct P as (_ & j & b' & _ & Hbb & Hg & _ & X). intros q Q1 Q2 Q3.
      destruct (bbz b' q) eqn:Eb.
      * apply bbz_spec in Eb. eapply one_seen. apply X; auto.
      * apply bbz_false in Eb. eapply gap_one; eauto.
    + clear P H. pose proof (sn_wf _ _ _ _ _ _ Sn) as Wf. pose proof (end_cut g c e Wf) as EC. rewrite <- Ep in EC.
      destruct (search_end pg e) as [is_end ep] eqn:Es. destruct EC as (H1 & H2 & H3). cbn [fst snd] in Ei.
      rewrite Ei in *. cbn [i_pos i_end i_isend i_ekey] in *. subst is_end. destruct H3 as (h & Eh).
      assert (Hn : forall q, after b q -> q < h -> before e q -> M q = None).
      { intros q Q1 Q2 Q3. eapply one_seen. eapply (SeqCursor.seen_none g [M] s W i c b pos q Sn Hc Q1 (Hlo _ Q1)).
        - rewrite Eh. exact Q2.
        - intros j w Hj Hle. destruct (H2 _ _ Hj) as [_ X]. specialize (X ltac:(lia)).
          apply (eb_before e q w) in Q3. congruence. }
      rewrite Ep. cbn [spage cons_page n_high n_next]. rewrite Eh.
      eapply evp_bind; [eapply (sib_any g OK s M N lv HW h (c_next c) e1 (fun r s' => s' = s /\ exists n1 p c' n2 path pos',
        r = (spage g c', mk_iter pos' (snd (search_end (spage g c') e1)) (fst (search_end (spage g c') e1)) e1) /\
        leaf_at g s M h n1 p c' n2 lv path /\ N = n1 ++ (p, c') :: n2 /\ cut_at c' (Some (h, true)) pos'));
        [apply (sn_link _ _ _ _ _ _ Sn); auto|intros; split; eauto 12]|].
      intros ? ? (-> & n1 & p & c' & n2 & path & pos' & -> & H & EN & Hc').
      pose proof (has_now g OK s M N lv [M] HW (one_log M) e1 (S (length n2)) h n1 p c' n2 path pos' ltac:(lia) H EN Hc') as X.
      eapply evp_weaken; [exact X|]. clear X.
      intros [[more pg2] it2] s2 (-> & j2 & b2 & B1 & B2 & B3 & B4). split; [reflexivity|].
      destruct more.
      * destruct B4 as (k & w & G & -> & B & Se & A').
        assert (Hk : h <= k) by (apply (B2 k); cbn; lia).
        exists k, w. split; [exact G|]. split; [eapply one_seen; eauto|].
        split; [apply (Hhi h Eh); exact Hk|]. split; [auto|]. split.
        -- intros q Q1 Q2 Q3 Q4. destruct (Z.lt_ge_cases q h) as [Q5|Q5]; [apply Hn; auto|].
           eapply (gap_one M _ _ (Some (h, true)) (Some (k, true)) e1); eauto. cbn. lia.
        -- exists j2, e1, (advance it2). split; [left; reflexivity|]. split; [exact A'|].
           destruct A' as (c2 & pos2 & _ & _ & E & _). rewrite E. cbn [i_pos i_end i_isend]. reflexivity.
      * destruct B4 as [_ X]. intros q Q1 Q3 Q4. destruct (Z.lt_ge_cases q h) as [Q5|Q5]; [apply Hn; auto|].
        destruct (bbz b2 q) eqn:Eb.
        -- apply bbz_spec in Eb. eapply one_seen. apply X; auto.
        -- apply bbz_false in Eb. eapply (gap_one M _ _ (Some (h, true)) b2 e1); eauto.
Qed.

(** Keys of the tree that are still ahead. *)
Definition ahead (flat : list (option key * val)) (b : bound) : nat :=
  length (filter (fun x : option key * val => match fst x with Some k => bbz b k | None => false end) flat).
Lemma ahead_less b k w flat : In (Some k, w) flat -> after b k -> (ahead flat (Some (k, false)) < ahead flat b)%nat.
Proof.
  intros Hin Ha. unfold ahead.
  assert (Hs : forall q, bbz (Some (k, false)) q = true -> bbz b q = true).
  { intros q Hq. apply bbz_spec in Hq. apply bbz_spec. cbn in Hq. eapply after_up; [|exact Ha]. lia. }
  assert (Hle : forall l : list (option key * val),
    (length (filter (fun x : option key * val => match fst x with Some k0 => bbz (Some (k, false)) k0 | None => false end) l) <=
     length (filter (fun x : option key * val => match fst x with Some k0 => bbz b k0 | None => false end) l))%nat).
  { induction l as [|[[q|] y] l IH]; cbn [filter fst length]; try lia.
    destruct (bbz (Some (k, false)) q) eqn:E; [rewrite (Hs q E); cbn [length]; lia|]. destruct (bbz b q); cbn [length]; lia. }
  induction flat as [|[x y] l IH]; [destruct Hin|]. destruct Hin as [E|Hin].
  - injection E as -> ->. cbn [filter fst].
    assert (bbz b k = true) as -> by (apply bbz_spec; auto).
    assert (bbz (Some (k, false)) k = false) as -> by (apply bbz_false; cbn; lia).
    cbn [length]. specialize (Hle l). lia.
  - specialize (IH Hin). cbn [filter fst]. destruct x as [q|]; [|exact IH].
    destruct (bbz (Some (k, false)) q) eqn:E; [rewrite (Hs q E); cbn [length]; lia|]. destruct (bbz b q); cbn [length]; lia.
Qed.

Definition col_post (b : bound) (l : list (key * val)) (s' : st) : Prop :=
  s' = s /\ StronglySorted (fun x y => fst x < fst y) l /\
  (forall k w, In (k, w) l -> M k = Some w /\ after b k /\ (before e1 k \/ before e2 k)) /\
  (forall k w, M k = Some w -> after b k -> before e1 k -> before e2 k -> In (k, w) l).
Lemma collect_going flat : (forall k, ofind k flat = M k) -> forall m b pg it, (ahead flat b < m)%nat -> going b pg it ->
  evp (fun _ f => collect g f pg it) s (col_post b).
Proof.
  intros HF. induction m as [|m IH]; intros b pg it Hm HG; [lia|]. apply evp_S. cbn [collect].
  eapply evp_bind; [apply (has_going _ _ _ HG)|]. intros [[more pg1] it1] s1 (-> & P). destruct more.
  - destruct P as (k & w & G & Mk & Ak & Bk & Hq & HG'). rewrite G.
    assert (Hin : In (Some k, w) flat) by (apply ofind_in; rewrite HF; exact Mk).
    pose proof (ahead_less b k w flat Hin Ak) as Hl.
    eapply evp_bind; [apply (IH (Some (k, false)) pg1 (advance it1)); [lia|exact HG']|].
    intros l s2 (-> & S1 & S2 & S3). apply evp_ret. split; [reflexivity|]. split; [|split].
    + constructor; auto. apply Forall_forall. intros [x y] Hx. destruct (S2 _ _ Hx) as (_ & X & _). cbn in *. lia.
    + intros x y [E|Hx].
      * injection E as <- <-. auto.
      * destruct (S2 _ _ Hx) as (X1 & X2 & X3). split; auto. split; auto. cbn in X2. eapply after_up; [|exact Ak]. lia.
    + intros q y Mq Aq B1 B2. destruct (Z.lt_trichotomy q k) as [Q|[Q|Q]].
      * rewrite (Hq q Aq Q B1 B2) in Mq. discriminate.
      * subst q. left. congruence.
      * right. apply S3; auto.
  - apply evp_ret. split; [reflexivity|]. split; [constructor|]. split; [easy|].
    intros k w Mk Ak B1 B2. rewrite (P k Ak B1 B2) in Mk. discriminate.
Qed.

Lemma again_any old b : i_ekey old = e1 -> evp (fun _ f => scan_again g f old b e2) s (fun l s' => s' = s /\ two_ends M b e1 e2 l).
Proof.
  intros Eo. unfold scan_again.
  eapply evp_bind; [apply (open_any g OK s M N lv [M] HW (one_log M) b e2)|].
  intros [pg it] s1 (-> & pg' & it' & b1 & i & E & U & A). injection E as <- <-.
  destruct HW as (flat & _ & _ & HF).
  eapply evp_weaken; [apply (collect_going flat HF (S (ahead flat b1)) b1); [lia|]|].
  { exists i, e2, it. split; [right; reflexivity|]. split; [exact A|]. unfold assign. rewrite Eo. reflexivity. }
  intros l s2 (-> & S1 & S2 & S3). destruct U as (_ & U1 & w & _ & _ & _ & U2).
  split; [reflexivity|]. split; [exact S1|]. split.
  - intros k y Hk. destruct (S2 k y Hk) as (X1 & X2 & X3). split; auto. split; auto.
    destruct (U1 k X2) as [X|[X|(q & -> & X)]]; auto. destruct (Z.eq_dec q k) as [->|]; auto. left. cbn. lia.
  - intros k y Mk Ak B1 B2. destruct (bbz b1 k) eqn:Eb.
    + apply bbz_spec in Eb. auto.
    + apply bbz_false in Eb. exfalso. assert (M k = None) by (eapply one_seen; apply (U2 k); auto). congruence.
Qed.
End Now.

Lemma mono_again f f' old b e : (f <= f')%nat -> mle (scan_again g f old b e) (scan_again g f' old b e).
Proof.
  clear OK. intros L. unfold scan_again. apply mle_bind; [apply mono_scan; auto|]. intros [pg it]. apply mono_collect. exact L.
Qed.
Lemma again_tree s M old b e : tree g s M ->
  exists l, two_ends M b (i_ekey old) e l /\
    (exists F, forall f, (F <= f)%nat -> run (scan_again g f old b e) s = Done l s) /\
    (forall f, run (scan_again g f old b e) s = NoFuel \/ run (scan_again g f old b e) s = Done l s).
Proof.
  intros T. destruct (tree_wtree _ _ _ T) as ([|N lv] & HW); [destruct HW as (? & [] & _); discriminate|].
  destruct (evp_done _ _ _ (again_any s M N lv HW (i_ekey old) e old b eq_refl)) as (l & s' & (-> & P) & F & H).
  exists l. split; [exact P|]. split; [exists F; exact H|].
  intros f. destruct (run (scan_again g f old b e) s) eqn:E; [right|right|left; reflexivity];
    rewrite <- E, <- (H (f + F)%nat) by lia; symmetry; apply mle_run; try congruence; apply mono_again; lia.
Qed.
End S.

Lemma again_new g os old b e : cfg_ok g ->
  exists s l, two_ends (snd (spec_run sempty os)) b (i_ekey old) e l /\
    (exists F, forall f, (F <= f)%nat ->
       run_calls g f os (init g) = Done (fst (spec_run sempty os)) s /\ run (scan_again g f old b e) s = Done l s) /\
    (forall f, run (scan_again g f old b e) s = NoFuel \/ run (scan_again g f old b e) s = Done l s).
Proof.
  intros OK. destruct (calls_ok g OK os (init g) sempty (init_tree g OK)) as (F & s & T & H).
  destruct (again_tree g OK s _ old b e T) as (l & P & (F1 & H1) & H2).
  exists s, l. split; [exact P|]. split; [|exact H2]. exists (max F F1). intros f Hf. split; [apply H|apply H1]; lia.
Qed.
Lemma again_lived g K M s old b e : cfg_ok g -> c_varlen g = false -> bulk_ok g -> lived g K M s ->
  exists l, two_ends M b (i_ekey old) e l /\
    (exists F, forall f, (F <= f)%nat -> run (scan_again g f old b e) s = Done l s) /\
    (forall f, run (scan_again g f old b e) s = NoFuel \/ run (scan_again g f old b e) s = Done l s).
Proof.
  intros OK HV BC H. apply again_tree; auto. exact (proj1 (lived_tree g K OK HV BC (fun _ _ => 0%N) M s H)).
Qed.
Lemma two_ends_same M b e l : (forall k, b <> Some (k, false)) -> two_ends M b e e l ->
  StronglySorted (fun x y => fst x < fst y) l /\ forall k w, In (k, w) l <-> M k = Some w /\ after b k /\ before e k.
Proof.
  intros Hb (A & B & C). split; [exact A|]. intros k w. split.
  - intros H. destruct (B _ _ H) as (B1 & [B2|B2] & B3); [tauto|]. destruct (Hb _ B2).
  - intros (H1 & H2 & H3). auto.
Qed.
