(** Searches under interference, with node merging and the root in place. *)
From Coq Require Import ZArith NArith List Bool Lia.
From Coq Require Import ZifyBool ZifyNat ZifyN.
From Verif Require Import Config Api Page Machine Tree Spec Conc ListFacts SearchFacts ChainFacts
  ConsFacts Valid ConsolidateFacts SeqSpec LevelFacts SeqSmo SeqAux SeqOps MrgInv MrgSteps.
Import ListNotations.
Open Scope Z_scope.

Section Search.
Variable g : cfg.
Variable A0 : addr.
Variable R0 : pid.
Variable L0 : nat.
Notation inv := (inv g A0 R0 L0). Notation cok := (cok g A0). Notation rely := (rely g A0).
Notation step_ok := (step_ok g A0 R0 L0). Notation wp := (wp g A0 R0 L0). Notation fr := (fr A0).
Notation ext := (ext A0). Notation stable := (stable R0). Notation envst := (envst g A0 R0 L0).
Notation step_nop := (step_nop g A0 R0 L0). Notation rely_trans := (rely_trans g A0).
Notation rely_ext := (rely_ext g A0).

(** A traversal stack whose top is at level [l]: one node per level up to the root,
    each not right of [b] or already absorbed. *)
Fixpoint bstk (x : world) (l : nat) (b : option key) (st : list pid) : Prop :=
  match st with
  | [] => l = S L0
  | p :: r => (exists lo, $nd x p = Some (l, lo) /\ (ole lo b \/ $lim x p = LDead)) /\ bstk x (S l) b r
  end.

Lemma bstk_le x : forall st l b b', ole b b' -> bstk x l b st -> bstk x l b' st.
Proof.
  induction st as [|p r IH]; intros l b b' H; cbn [bstk]; auto. intros ((lo & A & B) & C). split; [|eauto].
  exists lo. split; auto. destruct B as [B|B]; auto. left. clear -B H. ord.
Qed.
Lemma bstk_ext x y : ext x y -> forall st l b, bstk x l b st -> bstk y l b st.
Proof.
  intros X. induction st as [|p r IH]; intros l b; cbn [bstk]; auto. intros ((lo & A & B) & C). split; [|eauto].
  exists lo. split; [apply X; auto|]. destruct B as [B|B]; auto. right. apply X; auto.
Qed.
Lemma bstk_rely t x y st l b : rely t x y -> bstk x l b st -> bstk y l b st.
Proof. intros R. apply bstk_ext. eapply rely_ext; eauto. Qed.

Lemma bstk_nest x p l lo c k : inv x -> $nd x p = Some (l, lo) -> cur x p = Some c -> in_rng lo (c_hi c) k ->
  forall st m, (l < m)%nat -> bstk x m (Some k) st -> bstk x m lo st.
Proof.
  intros H E C R. induction st as [|q r IH]; intros m Lm; cbn [bstk]; auto. intros ((lq & A & B) & D).
  split; [|apply IH; auto]. exists lq. split; auto. destruct B as [B|B]; auto.
  eapply (nest g A0 R0 L0 x p l lo c k q m lq); eauto.
Qed.

(** Target of a search: no node, one on a lower level, or one right of the key. *)
Definition tg (x : world) (l : nat) (e : key) (target : pid) : Prop :=
  target = 0%N \/ exists lt lot, $nd x target = Some (lt, lot) /\ ((lt < l)%nat \/ (lt = l /\ ~ lo_ok lot e)).
Lemma tg_ext x y l e target : ext x y -> tg x l e target -> tg y l e target.
Proof. intros X [->|(lt & lot & A & B)]; [left; auto|right]. exists lt, lot. split; auto. apply X; auto. Qed.
Lemma tg_up x l e target : tg x l e target -> tg x (S l) e target.
Proof. intros [->|(lt & lot & A & B)]; [left; auto|right]. exists lt, lot. split; auto. left. lia. Qed.
Lemma tg_not x l e target q lo : inv x -> tg x l e target -> $nd x q = Some (l, lo) -> lo_ok lo e -> q <> target.
Proof.
  intros H [->|(lt & lot & A & B)] E L ->.
  - pose proof (i_pid _ _ _ _ _ H _ _ E). lia.
  - rewrite A in E. injection E as -> ->. destruct B as [B|[_ B]]; [lia|auto].
Qed.

(** Loading the slot of a node. *)
Lemma wp_load t p l lo {B} (K : chain -> prog B) Q x : $nd x p = Some (l, lo) ->
  (forall y c, rely t x y -> inv y -> stable (w_s y) -> $nd y p = Some (l, lo) -> $tbl y p = Some c ->
     (is_remove c = false /\ $lim y p = LLive /\ cur y p = Some c /\ cok y p l lo c /\ $hist y p (h_addr c) = Some c) \/
     (c = CRemove (h_addr c) (negb (inn l)) /\ p <> R0) -> step_ok t y (w_s y) (wp t (K c) Q)) ->
  wp t (Load p K) Q x.
Proof.
  intros E H. cbn [wp]. intros y (Hr & Hi & Hs). pose proof (r_nd _ _ _ _ _ Hr _ _ E) as Ey.
  destruct (i_tbl _ _ _ _ _ Hi _ _ _ Ey) as (c & T & Hh & _). split; [congruence|]. exists c. split; auto.
  apply H; auto. destruct (is_remove c) eqn:Rc.
  - right. destruct (rem_at _ _ _ _ _ _ _ _ _ Hi Ey T Rc) as [_ [a ->]]. split; auto. intros ->.
    destruct Hs as (_ & c' & T' & R' & _). rewrite T in T'. injection T' as <-. discriminate.
  - left. split; auto. destruct (live_at _ _ _ _ _ _ _ _ _ Hi Ey T Rc) as (A & B1 & C). auto.
Qed.

(** At the top level only the root. *)
Lemma top_root x p l lo st b : inv x -> $nd x p = Some (l, lo) -> bstk x (S l) b st -> p <> R0 -> st <> [].
Proof.
  intros H E S N ->. cbn [bstk] in S. destruct (i_rlev _ _ _ _ _ H _ _ _ E) as [_ Q]. apply N, Q. lia.
Qed.

(** A loaded live node is not right of the bound of the stack. *)
Lemma live_ole x p lo b : (ole lo b \/ $lim x p = LDead) -> $lim x p = LLive -> ole lo b.
Proof. intros [|]; auto. congruence. Qed.

Lemma wait_wp t {B} (K : pid -> prog B) Q x0 m dk a : (forall y, rely t x0 y -> wok A0 y m dk a) ->
  (forall y v, rely t x0 y -> inv y -> wgood y m dk v -> wp t (K v) Q y) ->
  forall fuel x, rely t x0 x -> wp t (bind (wait_cell fuel a) K) Q x.
Proof.
  intros HW HK. induction fuel as [|f IH]; intros x Rx; [exact I|].
  cbn [wait_cell bind wp]. intros y (Hr & Hi & Hs). pose proof (rely_trans _ _ _ _ Rx Hr) as Ry.
  apply step_nop; auto. destruct (N.eqb_spec ($cell y a) 0) as [Z|Z]; [apply IH; auto|].
  cbn [bind]. apply HK; auto. destruct (HW y Ry) as [(_ & _ & W)|D]; auto.
  destruct (i_cell _ _ _ _ _ Hi _ _ _ D) as [?|W]; [congruence|auto].
Qed.

(** ** SearchChildNode *)
Lemma child_wp t k closed target : forall fuel m x stack,
  stack <> [] -> bstk x (S m) (Some (eff k closed)) stack -> tg x (S m) (eff k closed) target ->
  wp t (search_child_node fuel k closed stack target) (fun r y => rely t x y /\ fst r = false /\
    snd r <> [] /\ bstk y m (Some (eff k closed)) (snd r)) x.
Proof.
  set (e := eff k closed).
  induction fuel as [|f IH]; intros m x [|p r] Hne St Ht; [exact I|exact I|congruence|]. clear Hne.
  destruct St as ((lo & E & L) & St). cbn [search_child_node bind load].
  eapply wp_load; eauto. intros y c Hr Hi Hst Ey T Hc.
  assert (Sy : bstk y (S m) (Some e) (p :: r)).
  { eapply bstk_rely; eauto. cbn [bstk]. split; eauto. }
  pose proof (tg_ext _ _ _ _ _ (rely_ext _ _ _ Hr) Ht) as Hty.
  apply step_nop; auto. destruct Hc as [(Rc & Elim & Cc & Kc & Hh)|(Ec & Np)].
  - pose proof Sy as ((lo' & E' & L') & Sr). rewrite Ey in E'. injection E' as <-.
    apply live_ole in L'; auto. destruct (n_kids _ _ _ _ _ _ _ Kc m eq_refl) as [HK HR].
    pose proof (n_lo _ _ _ _ _ _ _ Kc) as Elo.
    assert (Found : forall v, kido y m c e v -> rely t x y /\ false = false /\ v :: p :: r <> [] /\ bstk y m (Some e) (v :: p :: r)).
    { intros v (l & V1 & V2 & V3). split; auto. split; auto. split; [discriminate|]. cbn [bstk]. split.
      - exists l. split; auto.
      - exact Sy. }
    specialize (HR k closed false). rewrite Elo in HR. specialize (HR (proj1 (ole_lo_ok _ _) L') ltac:(discriminate)).
    rewrite (tbl_leaf _ _ _ _ _ _ _ _ _ Hi Ey T). cbn [inn negb].
    destruct (dc_search_child c k closed false) as [v|a| | |q|n|] eqn:Ed; try contradiction.
    + cbn [wp fst snd]. apply Found; auto.
    + destruct HR as (dk & Ldk & W). eapply (wait_wp t _ _ y m dk a).
      * intros z Hz. eapply wok_ext; [eapply rely_ext; eauto|]. exact W.
      * intros z v Hz Hiz (l & V1 & V2). cbn [wp fst snd]. split; [eapply rely_trans; eauto|]. split; auto.
        split; [discriminate|]. cbn [bstk]. split.
        -- exists l. split; auto. left. fold e in Ldk. clear -V2 Ldk. ord.
        -- eapply (bstk_rely t y z (p :: r)); eauto.
      * apply rely_refl.
    + destruct HR as (_ & -> & h & Hh2 & Lh). fold e in Lh.
      destruct (n_link _ _ _ _ _ _ _ Kc h Hh2) as [V1 V2].
      destruct (N.eqb_spec (c_next c) target) as [Q|Q].
      { exfalso. eapply (tg_not y (S m) e target (c_next c)); eauto. }
      eapply wp_mono; [|apply (IH m y (c_next c :: r))]; auto; [|discriminate|].
      * cbn beta. intros a z (Hz & Hs2). split; auto. eapply rely_trans; eauto.
      * cbn [bstk]. split; auto. exists (Some h). split; auto.
    + destruct HR as (v & -> & V). cbn [wp fst snd]. apply Found; auto.
  - rewrite Ec. cbn [dc_search_child].
    assert (Hr0 : r <> []).
    { eapply (top_root y p (S m) lo r); eauto. apply Sy. }
    destruct r as [|q r]; [congruence|].
    apply wp_bind. eapply wp_mono; [|apply (IH (S m) y (q :: r))]; auto; [|apply Sy|apply tg_up; auto].
    intros [b st'] z (Rz & Eb & Hne & Sz). cbn [fst snd] in *. subst b.
    destruct st' as [|q' r']; [congruence|].
    eapply wp_mono; [|apply (IH m z (q' :: r'))]; auto.
    + cbn beta. intros a w (Hw & Hs2). split; auto. eapply rely_trans; [eauto|]. eapply rely_trans; eauto.
    + eapply tg_ext; [eapply rely_ext; eauto|auto].
Qed.

(** ** SearchLeafNode *)
Lemma leaf_loop_wp t k closed : forall fuel x l stack, stack <> [] -> bstk x l (Some (eff k closed)) stack ->
  wp t (leaf_loop fuel k closed stack) (fun st y => rely t x y /\ st <> [] /\ bstk y O (Some (eff k closed)) st) x.
Proof.
  induction fuel as [|f IH]; intros x l [|p r] Hne St; [exact I|exact I|congruence|].
  pose proof St as ((lo & E & L) & Sr). cbn [leaf_loop bind load].
  eapply wp_load; eauto. intros y c Hr Hi Hst Ey T _.
  assert (Sy : bstk y l (Some (eff k closed)) (p :: r)) by (eapply bstk_rely; eauto).
  apply step_nop; auto. rewrite (tbl_leaf _ _ _ _ _ _ _ _ _ Hi Ey T). destruct l as [|m]; cbn [inn negb].
  - cbn [wp]. auto.
  - apply wp_bind. eapply wp_mono; [|apply (child_wp t k closed 0%N f m y)]; auto; [|left; auto].
    intros [b st] z (Hz & _ & Hn & Hs). cbn [snd] in *.
    eapply wp_mono; [|eapply IH; eauto]. intros a w (Hw & Hs2). split; auto.
    eapply rely_trans; [eauto|]. eapply rely_trans; eauto.
Qed.

Lemma root_bstk x b : inv x -> bstk x L0 b [R0].
Proof.
  intros H. cbn [bstk]. split; auto. exists None. split; [apply (i_root _ _ _ _ _ H)|]. left. exact I.
Qed.

Lemma search_leaf_wp t k closed fuel x :
  wp t (search_leaf fuel k closed) (fun st y => rely t x y /\ st <> [] /\ bstk y O (Some (eff k closed)) st) x.
Proof.
  unfold search_leaf. cbn [wp]. intros y (Hr & Hi & Hst). apply step_nop; auto. destruct Hst as (-> & _).
  eapply wp_mono; [|eapply (leaf_loop_wp t k closed fuel y L0)]; [|discriminate|apply root_bstk; auto].
  cbn beta. intros a z (Hz & Hs). split; auto. eapply rely_trans; eauto.
Qed.

Lemma load_valid_wp t p l lo {B} (K : chain -> prog B) Q : forall fuel x, $nd x p = Some (l, lo) ->
  (forall y c, rely t x y -> inv y -> stable (w_s y) -> $nd y p = Some (l, lo) -> $tbl y p = Some c ->
     need_wait g c = false ->
     (is_remove c = false /\ $lim y p = LLive /\ cur y p = Some c /\ cok y p l lo c /\ $hist y p (h_addr c) = Some c) \/
     (c = CRemove (h_addr c) (negb (inn l)) /\ p <> R0) ->
     step_ok t y (w_s y) (wp t (K c) Q)) ->
  wp t (bind (load_valid g fuel p) K) Q x.
Proof.
  induction fuel as [|f IH]; intros x E H; [exact I|]. cbn [load_valid bind load].
  eapply wp_load; eauto. intros y c Hr Hi Hst Ey T Hc.
  destruct (need_wait g c) eqn:W; [|cbn [bind]; apply H; auto].
  apply step_nop; auto. apply IH; auto. intros z c' Hz. apply H. eapply rely_trans; eauto.
Qed.

(** A head found for the effective key [e] on level [l]. *)
Definition hgot (x : world) (l : nat) (e : key) (head : chain) (st : list pid) : Prop :=
  exists p rest lo, st = p :: rest /\ $nd x p = Some (l, lo) /\ $hist x p (h_addr head) = Some head /\
    is_remove head = false /\ need_wait g head = false /\ in_rng lo (c_hi head) e /\ bstk x (S l) lo rest.
Lemma hgot_ext x y l e head st : ext x y -> (forall p a v, $hist x p a = Some v -> $hist y p a = Some v) ->
  hgot x l e head st -> hgot y l e head st.
Proof.
  intros X H (p & rest & lo & A & B & C & D & E & F & G). exists p, rest, lo.
  split; auto. split; [apply X; auto|]. split; auto. split; auto. split; auto. split; auto. eapply bstk_ext; eauto.
Qed.
Lemma hgot_rely t x y l e head st : rely t x y -> hgot x l e head st -> hgot y l e head st.
Proof. intros R. apply hgot_ext; [eapply rely_ext; eauto|apply R]. Qed.
Lemma hgot_bstk x l e head st : hgot x l e head st -> st <> [] /\ bstk x l (Some e) st.
Proof.
  intros (p & rest & lo & -> & B & C & D & E & F & G). split; [discriminate|]. cbn [bstk]. destruct F as [F _]. split.
  - exists lo. split; auto.
  - eapply bstk_le; [|eauto]. apply ole_lo_ok; auto.
Qed.

(** The head of a live node that covers [e]. *)
Lemma hgot_live x p l lo c e rest : inv x -> $nd x p = Some (l, lo) -> cur x p = Some c -> is_remove c = false ->
  $hist x p (h_addr c) = Some c -> need_wait g c = false -> ole lo (Some e) -> hi_ok (c_hi c) e ->
  bstk x (S l) (Some e) rest -> hgot x l e c (p :: rest).
Proof.
  intros H E C Rc Hh W L Hi S. assert (R : in_rng lo (c_hi c) e) by (split; auto; apply ole_lo_ok; auto).
  exists p, rest, lo. split; auto. split; auto. split; auto. split; auto. split; auto. split; auto.
  eapply (bstk_nest x p l lo c e); eauto.
Qed.

(** ** GetHead *)
Lemma get_head_wp t k closed target : forall fuel x l stack,
  stack <> [] -> bstk x l (Some (eff k closed)) stack -> tg x l (eff k closed) target ->
  wp t (get_head g fuel k closed stack target) (fun r y => rely t x y /\
    exists head, fst r = Some head /\ hgot y l (eff k closed) head (snd r)) x.
Proof.
  set (e := eff k closed).
  induction fuel as [|f IH]; intros x l [|p r] Hne St Ht; [exact I|exact I|congruence|]. clear Hne.
  pose proof St as ((lo & E & L) & Sr). cbn [get_head]. eapply load_valid_wp; eauto.
  intros y c Hr Hi Hst Ey T Hnw Hc.
  assert (Sy : bstk y l (Some e) (p :: r)) by (eapply bstk_rely; eauto).
  pose proof (tg_ext _ _ _ _ _ (rely_ext _ _ _ Hr) Ht) as Hty.
  apply step_nop; auto. pose proof Sy as ((lo' & E' & L') & Sry). rewrite Ey in E'. injection E' as <-.
  destruct Hc as [(Rc & Elim & Cc & Kc & Hh)|(Ec & Np)].
  - apply live_ole in L'; auto. rewrite (validate_spec c k closed (cok_mhigh _ _ _ _ _ _ _ Kc)). fold e.
    assert (Fin : hi_ok (c_hi c) e -> rely t x y /\ exists head, fst (Some c, p :: r) = Some head /\ hgot y l e head (p :: r)).
    { intros Q. split; auto. exists c. split; auto. eapply hgot_live; eauto. }
    destruct (c_hi c) as [h|] eqn:Eh; [|cbn [wp snd]; apply Fin; exact I].
    destruct (Z.ltb_spec e h); [cbn [wp snd]; apply Fin; auto|].
    destruct (n_link _ _ _ _ _ _ _ Kc h Eh) as [V1 V2].
    destruct (N.eqb_spec (c_next c) target) as [Q|Q].
    { exfalso. eapply (tg_not y l e target (c_next c)); eauto. }
    eapply wp_mono; [|apply (IH y l (c_next c :: r))]; auto; [|discriminate|].
    + cbn beta. intros a z (Hz & Hs2). split; auto. eapply rely_trans; eauto.
    + cbn [bstk]. split; auto. exists (Some h). split; auto.
  - rewrite Ec. cbn [dc_validate].
    assert (Hr0 : r <> []) by (eapply (top_root y p l lo r); eauto).
    destruct r as [|q r]; [congruence|].
    apply wp_bind. eapply wp_mono; [|apply (child_wp t k closed target f l y (q :: r))]; auto; [|apply tg_up; auto].
    intros [b st'] z (Rz & Eb & Hne & Sz). cbn [fst snd] in *. subst b.
    destruct st' as [|q' r']; [congruence|].
    eapply wp_mono; [|apply (IH z l (q' :: r'))]; auto.
    + cbn beta. intros a w (Hw & Hs2). split; auto. eapply rely_trans; [eauto|]. eapply rely_trans; eauto.
    + eapply tg_ext; [eapply rely_ext; eauto|auto].
Qed.

(** ** GetHeadWithKeyCheck and the search of Read; the continuation runs at the
    instant of the last load. *)
Lemma get_kc_wp t k {B} (K : chain * bool * list pid -> prog B) Q : forall fuel x stack,
  stack <> [] -> bstk x O (Some k) stack ->
  (forall y head st p rest lo, rely t x y -> inv y -> stable (w_s y) -> st = p :: rest -> hgot y O k head st ->
     $nd y p = Some (O, lo) -> cur y p = Some head -> in_rng lo (c_hi head) k ->
     step_ok t y (w_s y) (wp t (K (head, has (lget head k), st)) Q)) ->
  wp t (bind (get_head_kc g fuel k stack) K) Q x.
Proof.
  induction fuel as [|f IH]; intros x [|p r] Hne St H; [exact I|exact I|congruence|]. clear Hne.
  pose proof St as ((lo & E & L) & Sr). cbn [get_head_kc]. apply wp_assoc. eapply load_valid_wp; eauto.
  intros y c Hr Hi Hst Ey T Hnw Hc.
  assert (Sy : bstk y O (Some k) (p :: r)) by (eapply bstk_rely; eauto).
  pose proof Sy as ((lo' & E' & L') & Sry). rewrite Ey in E'. injection E' as <-.
  destruct Hc as [(Rc & Elim & Cc & Kc & Hh)|(Ec & Np)].
  - apply live_ole in L'; auto. pose proof (s_wf _ _ _ (n_sok _ _ _ _ _ _ _ Kc)) as W. cbn [inn cwf] in W.
    assert (Fin : hi_ok (c_hi c) k -> step_ok t y (w_s y) (wp t (bind (Ret (c, has (lget c k), p :: r)) K) Q)).
    { intros Q1. cbn [bind]. apply (H y c (p :: r) p r lo); auto; [eapply hgot_live; eauto|].
      split; auto. }
    destruct (dc_search_record_spec g c k W false) as [v V1 V2|V1 V2|n V1 V2 V3|h V1 V2]; [discriminate| | | |].
    + rewrite V2 in Fin. apply Fin; auto.
    + rewrite V2 in Fin. apply Fin; auto.
    + destruct V2 as (I1 & I2 & _). pose proof (node_search_leaf n k I1 I2) as NS.
      replace (fst (node_search n k)) with (has (lget c k)); [apply Fin; auto|].
      rewrite V3. destruct (node_search n k) as [fd pos]. cbn [fst].
      destruct (find k (n_recs n)); [destruct NS as [-> _]|rewrite NS]; auto.
    + destruct (n_link _ _ _ _ _ _ _ Kc h V1) as [U1 U2]. apply step_nop; auto. apply IH; [discriminate| |].
      * cbn [bstk]. split; auto. exists (Some h). split; auto.
      * intros z head st q rest lq Hz. apply H. eapply rely_trans; eauto.
  - rewrite Ec. cbn [dc_search_record].
    assert (Hr0 : r <> []) by (eapply (top_root y p O lo r); eauto).
    destruct r as [|q r]; [congruence|]. apply step_nop; auto.
    apply wp_assoc. apply wp_bind. eapply wp_mono; [|apply (child_wp t k true 0%N f O y (q :: r))]; auto; [|left; auto].
    intros [b st'] z (Rz & Eb & Hne & Sz). cbn [fst snd] in *. apply IH; auto.
    intros w head st q0 rest lq Hz. apply H. eapply rely_trans; [eauto|]. eapply rely_trans; eauto.
Qed.

Lemma read_loop_wp t k {B} (K : option val -> prog B) Q : forall fuel x stack,
  stack <> [] -> bstk x O (Some k) stack ->
  (forall y, rely t x y -> inv y -> step_ok t y (w_s y) (wp t (K ($cont y k)) Q)) ->
  wp t (bind (read_loop g fuel k stack) K) Q x.
Proof.
  induction fuel as [|f IH]; intros x [|p r] Hne St H; [exact I|exact I|congruence|]. clear Hne.
  pose proof St as ((lo & E & L) & Sr). cbn [read_loop bind load]. eapply wp_load; eauto.
  intros y c Hr Hi Hst Ey T Hc.
  assert (Sy : bstk y O (Some k) (p :: r)) by (eapply bstk_rely; eauto).
  pose proof Sy as ((lo' & E' & L') & Sry). rewrite Ey in E'. injection E' as <-.
  destruct Hc as [(Rc & Elim & Cc & Kc & Hh)|(Ec & Np)].
  - apply live_ole in L'; auto. pose proof (s_wf _ _ _ (n_sok _ _ _ _ _ _ _ Kc)) as W. cbn [inn cwf] in W.
    assert (Fin : hi_ok (c_hi c) k -> step_ok t y (w_s y) (wp t (bind (Ret (lget c k)) K) Q)).
    { intros Q1. cbn [bind]. rewrite (i_con _ _ _ _ _ Hi p lo c k); auto. split; auto. }
    rewrite (tbl_leaf _ _ _ _ _ _ _ _ _ Hi Ey T). cbn [inn negb].
    destruct (dc_search_record_spec g c k W false) as [v V1 V2|V1 V2|n V1 V2 V3|h V1 V2]; [discriminate| | | |].
    + rewrite V2 in Fin. apply Fin; auto.
    + rewrite V2 in Fin. apply Fin; auto.
    + destruct V2 as (I1 & I2 & _). pose proof (node_search_leaf n k I1 I2) as NS. rewrite V3 in Fin.
      destruct (node_search n k) as [fd pos]. destruct (find k (n_recs n)) as [v|].
      * destruct NS as [-> ->]. apply Fin; auto.
      * rewrite NS. apply Fin; auto.
    + destruct (n_link _ _ _ _ _ _ _ Kc h V1) as [U1 U2]. apply step_nop; auto. apply IH; [discriminate| |].
      * cbn [bstk]. split; auto. exists (Some h). split; auto.
      * intros z Hz. apply H. eapply rely_trans; eauto.
  - rewrite Ec. cbn [dc_search_record].
    assert (Hr0 : r <> []) by (eapply (top_root y p O lo r); eauto).
    apply step_nop; auto.
    apply wp_assoc. apply wp_bind. eapply wp_mono; [|apply (child_wp t k true 0%N f O y r)]; auto; [|left; auto].
    intros [b st'] z (Rz & Eb & Hne & Sz). cbn [fst snd] in *. apply IH; auto.
    intros w Hz. apply H. eapply rely_trans; [eauto|]. eapply rely_trans; eauto.
Qed.

(** ** GetHeadForMerge *)
Lemma head_merge_wp t k : forall fuel x l sib stack, stack <> [] -> bstk x (S l) (Some k) stack ->
  wp t (get_head_merge g fuel k sib stack) (fun r y => rely t x y /\
    match fst (fst r) with
    | None => True
    | Some head => hgot y (S l) k head (snd (fst r)) /\ find k (ients head) <> None
    end) x.
Proof.
  induction fuel as [|f IH]; intros x l sib [|p r] Hne St; [exact I|exact I|congruence|]. clear Hne.
  pose proof St as ((lo & E & L) & Sr). cbn [get_head_merge]. eapply load_valid_wp; eauto.
  intros y c Hr Hi Hst Ey T Hnw Hc.
  assert (Sy : bstk y (S l) (Some k) (p :: r)) by (eapply bstk_rely; eauto).
  pose proof Sy as ((lo' & E' & L') & Sry). rewrite Ey in E'. injection E' as <-.
  apply step_nop; auto. destruct Hc as [(Rc & Elim & Cc & Kc & Hh)|(Ec & Np)].
  2:{ rewrite Ec. cbn [dc_search_merge wp fst]. auto. }
  apply live_ole in L'; auto. pose proof (s_wf _ _ _ (n_sok _ _ _ _ _ _ _ Kc)) as W. cbn [inn cwf] in W.
  assert (Fin : find k (ients c) <> None -> hgot y (S l) k c (p :: r) /\ find k (ients c) <> None).
  { intros Q. split; auto. eapply hgot_live; eauto.
    destruct (ients_rng g c k W Q) as [_ Q2]. auto. }
  set (sf := match sib with None => true | Some _ => false end).
  pose proof (merge_sound g c k sib W false sf false) as R.
  destruct (dc_search_merge c k sib false sf false) as [| | |q0 h0|n kf sf' h0|] eqn:Em; cbn [msound] in R; try contradiction.
  - cbn [wp fst snd]. split; auto. apply Fin. destruct R; [discriminate|auto].
  - cbn [wp fst snd]. auto.
  - destruct R as (_ & _ & -> & h & Eh & Lh). destruct (n_link _ _ _ _ _ _ _ Kc h Eh) as [V1 V2].
    eapply wp_mono; [|apply (IH y l _ (c_next c :: r))]; [|discriminate|].
    + cbn beta. intros a z (Hz & Hs2). split; auto. eapply rely_trans; eauto.
    + cbn [bstk]. split; auto. exists (Some h). split; auto.
  - cbv zeta. match goal with |- wp _ (if ?b then _ else _) _ _ => destruct b eqn:Eb end; cbn [wp fst snd]; auto.
    split; auto. apply Fin. apply andb_true_iff in Eb as [_ Eb]. destruct (R Eb); [discriminate|auto].
Qed.
End Search.
