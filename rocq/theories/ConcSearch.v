(** Searches under interference. *)
From Coq Require Import ZArith NArith List Bool Lia.
From Coq Require Import ZifyBool ZifyNat ZifyN.
From Verif Require Import Config Api Page Machine Tree Spec Conc ListFacts SearchFacts ChainFacts
  ConsFacts Valid ConsolidateFacts SeqSmo SeqOps ConcChain ConcInv ConcSteps.
Import ListNotations.
Open Scope Z_scope.

(** Page IDs below the top of a traversal stack: inner nodes, low keys bounded. *)
Fixpoint stk (x : world) (b : option key) (l : list pid) : Prop :=
  match l with
  | [] => True
  | p :: r => exists lo, $nd x p = Some (false, lo) /\ ole lo b /\ stk x lo r
  end.
(** A stack whose top is a leaf or not ([lf]) and is not right of [k]. *)
Definition tstk (x : world) (k : key) (lf : bool) (l : list pid) : Prop :=
  exists p r lo, l = p :: r /\ $nd x p = Some (lf, lo) /\ ole lo (Some k) /\ stk x lo r.

Lemma stk_le x : forall l b b', ole b b' -> stk x b l -> stk x b' l.
Proof. intros [|p r] b b' H; cbn [stk]; auto. intros (lo & A & B & C). exists lo. split; auto. split; auto. eapply ole_trans; eauto. Qed.
Lemma stk_mono x y : (forall p v, $nd x p = Some v -> $nd y p = Some v) -> forall l b, stk x b l -> stk y b l.
Proof. intros H. induction l as [|p r IH]; intros b; cbn [stk]; auto. intros (lo & A & B & C). exists lo. auto. Qed.
Lemma tstk_mono x y k lf l : (forall p v, $nd x p = Some v -> $nd y p = Some v) -> tstk x k lf l -> tstk y k lf l.
Proof.
  intros H (p & r & lo & A & B & C & D). exists p, r, lo. split; auto. split; auto. split; auto.
  eapply stk_mono; eauto.
Qed.
Lemma stk_tstk x k l : l <> [] -> stk x (Some k) l -> tstk x k false l.
Proof. destruct l as [|p r]; [congruence|]. intros _ (lo & A & B & C). exists p, r, lo. auto. Qed.
Lemma ole_ok lo k : ole lo (Some k) <-> lo_ok lo k.
Proof. destruct lo; cbn; tauto. Qed.

Section Search.
Variable g : cfg.
Notation inv := (inv g). Notation nok := (nok g). Notation rely := (rely g).
Notation step_ok := (step_ok g). Notation wp := (wp g).

Lemma wp_assoc t {A B C} (m : prog A) (f : A -> prog B) (h : B -> prog C) Q : forall x,
  wp t (bind m (fun a => bind (f a) h)) Q x -> wp t (bind (bind m f) h) Q x.
Proof.
  induction m as [a|p k IH|p c m IH|p m IH|w p e c k IH|k IH|p m IH|o n k IH|k IH|k IH|a k IH|a p m IH|l m IH|u|];
    intros x; cbn [bind wp]; auto; intros H y Hr Hi; specialize (H y Hr Hi).
  - destruct H as (c & E & H). exists c. split; auto. eapply step_mono; [|apply H]. intros z _. apply IH; auto.
  - eapply step_mono; [|apply H]. intros z _. apply IH; auto.
  - destruct H as [H1 H2]. split.
    + intros c0 E1 E2. eapply step_mono; [|eapply H1; eauto]. intros z _. apply IH; auto.
    + eapply step_mono; [|apply H2]. intros z _. apply IH; auto.
  - eapply step_mono; [|apply H]. intros z _. apply IH; auto.
  - eapply step_mono; [|apply H]. intros z _. apply IH; auto.
  - eapply step_mono; [|apply H]. intros z _. apply IH; auto.
  - eapply step_mono; [|apply H]. intros z _. apply IH; auto.
  - eapply step_mono; [|apply H]. intros z _. apply IH; auto.
Qed.

(** Loading the slot of a linked node. *)
Lemma wp_load t p lf lo {B} (K : chain -> prog B) Q x : $nd x p = Some (lf, lo) ->
  (forall y c, rely t x y -> inv y -> nok y p lf lo c -> step_ok t y (w_s y) (wp t (K c) Q)) ->
  wp t (Load p K) Q x.
Proof.
  intros E H. cbn [wp]. intros y Hr Hi. pose proof (r_nd _ _ _ _ Hr _ _ E) as Ey.
  destruct (inv_at _ _ _ _ _ Hi Ey) as (c & Hc & T). exists c. split; auto.
Qed.

Lemma load_valid_wp t p lf lo {B} (K : chain -> prog B) Q : forall fuel x, $nd x p = Some (lf, lo) ->
  (forall y c, rely t x y -> inv y -> nok y p lf lo c -> need_wait g c = false ->
     step_ok t y (w_s y) (wp t (K c) Q)) ->
  wp t (bind (load_valid g fuel p) K) Q x.
Proof.
  induction fuel as [|f IH]; intros x E H; [exact I|]. cbn [load_valid bind load].
  eapply wp_load; eauto. intros y c Hr Hi Hc. pose proof (r_nd _ _ _ _ Hr _ _ E) as Ey.
  destruct (need_wait g c) eqn:W; [|cbn [bind]; apply H; auto].
  apply step_nop; auto. apply IH; auto. intros z c' Hz. apply H. eapply rely_trans; eauto.
Qed.

(** ** SearchChildNode *)
Lemma child_wp t k target : forall fuel x stack, tstk x k false stack ->
  wp t (search_child_node fuel k true stack target) (fun r y => rely t x y /\
    (tstk y k false (snd r) \/ (fst r = false /\ tstk y k true (snd r)))) x.
Proof.
  induction fuel as [|f IH]; intros x stack (p & r & lo & -> & E & L & S); [exact I|].
  cbn [search_child_node bind load]. eapply wp_load; eauto. intros y c Hr Hi Hc.
  assert (Sy : stk y lo r) by (eapply stk_mono; [apply (r_nd _ _ _ _ Hr)|auto]).
  pose proof (r_nd _ _ _ _ Hr _ _ E) as Ey. apply step_nop; auto.
  pose proof (n_wf _ _ _ _ _ _ Hc) as W. pose proof (n_kids _ _ _ _ _ _ Hc eq_refl) as HK.
  pose proof (n_lo _ _ _ _ _ _ Hc) as Elo.
  assert (Found : forall l v, kid y l v -> ole (c_lo c) l -> lo_ok l (eff k true) ->
    exists lf, tstk y k lf (v :: p :: r)).
  { intros l v [b Hb] O1 O2. exists b, v, (p :: r), l. split; auto. split; auto. split; [apply ole_ok; auto|].
    cbn [stk]. exists lo. rewrite Elo in O1. auto. }
  destruct (j_search_child g _ c k true W HK) as [l v P1 P2 P3|n l v N1 P1 P2 P3|h P1 P2].
  { rewrite Elo. apply ole_ok. auto. }
  - rewrite (nok_leaf _ _ _ _ _ _ Hc). destruct (Found _ _ P1 P2 P3) as [[|] Ht]; cbn [wp fst snd]; auto.
  - rewrite N1, (nok_leaf _ _ _ _ _ _ Hc). destruct (Found _ _ P1 P2 P3) as [[|] Ht]; cbn [wp fst snd]; auto.
  - assert (Hs : tstk y k false (c_next c :: r)).
    { exists (c_next c), r, (Some h). split; auto. split; [apply (n_link _ _ _ _ _ _ Hc); auto|].
      split; [cbn in *; lia|]. eapply stk_le; [|exact Sy]. eapply nok_rng; eauto. }
    destruct (N.eqb_spec (c_next c) target).
    + cbn [wp fst snd]. split; auto. left. exists p, r, lo. auto.
    + eapply wp_mono; [|apply IH; exact Hs]. cbn beta. intros a z [Hz Hs2]. split; auto. eapply rely_trans; eauto.
Qed.

(** ** SearchLeafNode *)
Lemma leaf_loop_wp t k : forall fuel x stack lf, tstk x k lf stack ->
  wp t (leaf_loop fuel k true stack) (fun st y => rely t x y /\ tstk y k true st) x.
Proof.
  induction fuel as [|f IH]; intros x stack lf (p & r & lo & -> & E & L & S); [exact I|].
  cbn [leaf_loop bind load]. eapply wp_load; eauto. intros y c Hr Hi Hc.
  pose proof (r_nd _ _ _ _ Hr _ _ E) as Ey.
  assert (Sy : stk y lo r) by (eapply stk_mono; [apply (r_nd _ _ _ _ Hr)|auto]).
  apply step_nop; auto. rewrite (nok_leaf _ _ _ _ _ _ Hc). destruct lf.
  - cbn [wp]. split; auto. exists p, r, lo. auto.
  - apply wp_bind. eapply wp_mono; [|apply child_wp; exists p, r, lo; auto].
    intros [b st] z [Hz Hst]. cbn [fst snd] in Hst.
    assert (exists lf, tstk z k lf st) as [lf Hst'] by (destruct Hst as [?|[_ ?]]; eauto).
    eapply wp_mono; [|eapply IH; eauto]. intros a w [Hw Hs]. split; auto.
    eapply rely_trans; [eauto|]. eapply rely_trans; eauto.
Qed.

Lemma root_tstk x k : inv x -> exists lf, tstk x k lf [s_root (w_s x)].
Proof.
  intros H. destruct (i_root _ _ H) as [b Hb]. exists b, (s_root (w_s x)), [], None. cbn. auto.
Qed.

Lemma search_leaf_wp t k fuel x :
  wp t (search_leaf fuel k true) (fun st y => rely t x y /\ tstk y k true st) x.
Proof.
  unfold search_leaf. cbn [wp]. intros y Hr Hi. apply step_nop; auto.
  destruct (root_tstk y k Hi) as [lf Ht]. eapply wp_mono; [|eapply leaf_loop_wp; eauto].
  intros a z [Hz Hs]. split; auto. eapply rely_trans; eauto.
Qed.

(** ** SearchTargetNode *)
Lemma target_loop_wp t k target : forall fuel x stack lf, tstk x k lf stack ->
  wp t (target_loop fuel k target stack lf) (fun st y => rely t x y /\ exists lf, tstk y k lf st) x.
Proof.
  induction fuel as [|f IH]; intros x stack lf Ht; [exact I|].
  cbn [target_loop]. destruct lf.
  { cbn [wp]. split; [apply rely_refl|eauto]. }
  apply wp_bind. eapply wp_mono; [|apply child_wp; auto].
  intros [b st] y [Hr Hst]. cbn [fst snd] in Hst. destruct b.
  { cbn [wp]. split; auto. exists false. destruct Hst as [?|[? _]]; [auto|discriminate]. }
  assert (exists lf, tstk y k lf st) as [lf (p & r & lo & -> & E & L & S)] by (destruct Hst as [?|[_ ?]]; eauto).
  cbn [bind load]. eapply wp_load; eauto. intros z c Hz Hi Hc. apply step_nop; auto.
  rewrite (nok_leaf _ _ _ _ _ _ Hc). eapply wp_mono; [|apply IH].
  - intros a w [Hw Hs]. split; auto. eapply rely_trans; [eauto|]. eapply rely_trans; eauto.
  - eapply tstk_mono; [apply (r_nd _ _ _ _ Hz)|]. exists p, r, lo. auto.
Qed.

Lemma search_target_wp t k target : forall fuel x,
  wp t (search_target fuel k target) (fun st y => rely t x y /\ exists lf, tstk y k lf st) x.
Proof.
  induction fuel as [|f IH]; intros x; [exact I|]. cbn [search_target wp]. intros y Hr Hi. apply step_nop; auto.
  destruct (i_root _ _ Hi) as [b Hb]. cbn [bind load]. eapply wp_load; eauto.
  intros z c Hz Hiz Hc. apply step_nop; auto. rewrite (nok_leaf _ _ _ _ _ _ Hc).
  apply wp_bind. eapply wp_mono; [|apply target_loop_wp].
  - intros st w [Hw [lf Hs]]. destruct Hs as (p & r & lo & -> & Hs). cbn [wp]. split.
    + eapply rely_trans; [eauto|]. eapply rely_trans; eauto.
    + exists lf, p, r, lo. auto.
  - exists (s_root (w_s y)), [], None. split; auto. split; [apply (r_nd _ _ _ _ Hz); auto|]. cbn. auto.
Qed.

(** ** GetHead, as used to post an index entry *)
Lemma get_head_wp t k target b : forall fuel x stack, tstk x k false stack -> $nd x target = Some (b, Some k) ->
  wp t (get_head g fuel k true stack target) (fun r y => rely t x y /\
    exists head p rest lo, r = (Some head, p :: rest) /\ $nd y p = Some (false, lo) /\ ole lo (Some k) /\
      stk y lo rest /\ $hist y (h_addr head) = Some (p, head) /\ need_wait g head = false /\
      hi_le (c_hi head) k) x.
Proof.
  induction fuel as [|f IH]; intros x stack (p & r & lo & -> & E & L & S) Et; [exact I|].
  cbn [get_head]. eapply load_valid_wp; eauto. intros y c Hr Hi Hc Hnw.
  assert (Sy : stk y lo r) by (eapply stk_mono; [apply (r_nd _ _ _ _ Hr)|auto]).
  pose proof (r_nd _ _ _ _ Hr _ _ E) as Ey. apply step_nop; auto.
  pose proof (n_wf _ _ _ _ _ _ Hc) as W. rewrite (jwf_validate g c k true W). cbn [eff].
  assert (Fin : hi_le (c_hi c) k -> rely t x y /\ exists head p0 rest lo0,
     (Some c, p :: r) = (Some head, p0 :: rest) /\ $nd y p0 = Some (false, lo0) /\ ole lo0 (Some k) /\
      stk y lo0 rest /\ $hist y (h_addr head) = Some (p0, head) /\ need_wait g head = false /\
      hi_le (c_hi head) k).
  { intros Hh. split; auto. exists c, p, r, lo. split; [auto|]. split; [auto|]. split; [auto|]. split; [auto|].
    split; [apply (n_his _ _ _ _ _ _ Hc)|]. auto. }
  destruct (c_hi c) as [h|] eqn:Eh; [|cbn [wp]; apply Fin; exact I].
  destruct (Z.ltb_spec k h); [cbn [wp]; apply Fin; cbn; lia|].
  pose proof (n_link _ _ _ _ _ _ Hc _ Eh) as Hn.
  destruct (N.eqb_spec (c_next c) target) as [Htg|Hne].
  - cbn [wp]. apply Fin. rewrite Htg, (r_nd _ _ _ _ Hr _ _ Et) in Hn. inversion Hn; subst. cbn. lia.
  - eapply wp_mono; [|apply IH].
    + cbn beta. intros a z [Hz Hs]. split; auto. eapply rely_trans; eauto.
    + exists (c_next c), r, (Some h). split; auto. split; auto. split; [cbn; lia|].
      eapply stk_le; [|exact Sy]. eapply nok_rng; eauto.
    + apply (r_nd _ _ _ _ Hr); auto.
Qed.

(** ** GetHeadWithKeyCheck and the search of Read; the continuation runs at the
    instant of the last load. *)
Lemma get_kc_wp t k {B} (K : chain * bool * list pid -> prog B) Q : forall fuel x stack, tstk x k true stack ->
  (forall y head p rest lo, rely t x y -> inv y -> nok y p true lo head -> $nd y p = Some (true, lo) ->
     stk y lo rest -> need_wait g head = false -> in_rng lo (c_hi head) k ->
     step_ok t y (w_s y) (wp t (K (head, has (lget head k), p :: rest)) Q)) ->
  wp t (bind (get_head_kc g fuel k stack) K) Q x.
Proof.
  induction fuel as [|f IH]; intros x stack (p & r & lo & -> & E & L & S) H; [exact I|].
  cbn [get_head_kc]. apply wp_assoc. eapply load_valid_wp; eauto. intros y c Hr Hi Hc Hnw.
  assert (Sy : stk y lo r) by (eapply stk_mono; [apply (r_nd _ _ _ _ Hr)|auto]).
  pose proof (r_nd _ _ _ _ Hr _ _ E) as Ey.
  pose proof (n_wf _ _ _ _ _ _ Hc) as W.
  assert (Fin : hi_ok (c_hi c) k -> step_ok t y (w_s y) (wp t (bind (Ret (c, has (lget c k), p :: r)) K) Q)).
  { intros Hh. cbn [bind]. apply (H y c p r lo); auto. split; auto. }
  destruct (dc_search_record_spec g c k W false) as [v V1 V2|V1 V2|n V1 V2 V3|h V1 V2]; [discriminate| | | |].
  - rewrite V2 in Fin. apply Fin; auto.
  - rewrite V2 in Fin. apply Fin; auto.
  - destruct V2 as (I1 & I2 & _). pose proof (node_search_leaf n k I1 I2) as NS.
    replace (fst (node_search n k)) with (has (lget c k)); [apply Fin; auto|].
    rewrite V3. destruct (node_search n k) as [fd pos]. cbn [fst].
    destruct (find k (n_recs n)); [destruct NS as [-> _]|rewrite NS]; auto.
  - apply step_nop; auto. apply IH.
    + exists (c_next c), r, (Some h). split; auto. split; [apply (n_link _ _ _ _ _ _ Hc); auto|].
      split; [cbn; lia|]. eapply stk_le; [|exact Sy]. eapply nok_rng; eauto.
    + intros z head q rest lq Hz. apply H. eapply rely_trans; eauto.
Qed.

Lemma read_loop_wp t k {B} (K : option val -> prog B) Q : forall fuel x stack, tstk x k true stack ->
  (forall y, rely t x y -> inv y -> step_ok t y (w_s y) (wp t (K ($cont y k)) Q)) ->
  wp t (bind (read_loop g fuel k stack) K) Q x.
Proof.
  induction fuel as [|f IH]; intros x stack (p & r & lo & -> & E & L & S) H; [exact I|].
  cbn [read_loop bind load]. eapply wp_load; eauto. intros y c Hr Hi Hc.
  assert (Sy : stk y lo r) by (eapply stk_mono; [apply (r_nd _ _ _ _ Hr)|auto]).
  pose proof (r_nd _ _ _ _ Hr _ _ E) as Ey.
  pose proof (n_wf _ _ _ _ _ _ Hc) as W.
  assert (Fin : hi_ok (c_hi c) k -> step_ok t y (w_s y) (wp t (bind (Ret (lget c k)) K) Q)).
  { intros Hh. cbn [bind]. rewrite (i_con _ _ Hi p lo c k); auto; [apply Hc|]. split; auto. }
  rewrite (nok_leaf _ _ _ _ _ _ Hc).
  destruct (dc_search_record_spec g c k W false) as [v V1 V2|V1 V2|n V1 V2 V3|h V1 V2]; [discriminate| | | |].
  - rewrite V2 in Fin. apply Fin; auto.
  - rewrite V2 in Fin. apply Fin; auto.
  - destruct V2 as (I1 & I2 & _). pose proof (node_search_leaf n k I1 I2) as NS. rewrite V3 in Fin.
    destruct (node_search n k) as [fd pos]. destruct (find k (n_recs n)) as [v|].
    + destruct NS as [-> ->]. apply Fin; auto.
    + rewrite NS. apply Fin; auto.
  - apply step_nop; auto. apply IH.
    + exists (c_next c), r, (Some h). split; auto. split; [apply (n_link _ _ _ _ _ _ Hc); auto|].
      split; [cbn; lia|]. eapply stk_le; [|exact Sy]. eapply nok_rng; eauto.
    + intros z Hz. apply H. eapply rely_trans; eauto.
Qed.
End Search.
