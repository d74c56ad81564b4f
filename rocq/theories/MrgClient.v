(** Iterations next to other calls, with node merging and the root in place. *)
From Coq Require Import ZArith NArith List Bool Lia.
From Coq Require Import Sorting.Sorted ZifyBool ZifyNat ZifyN.
From Verif Require Import Config Api Page Machine Tree Scan Spec ScanSpec Conc ListFacts SearchFacts ChainSpec ChainFacts
  ConsFacts Valid ConsolidateFacts ChainProps RunFacts SeqSpec LevelFacts SeqSmo SeqAux SeqOps SeqScan ConcSpec Client ClientSpec
  MrgSpec MrgInv MrgSteps MrgSearch MrgSmo MrgOps MrgStart MrgMain.
From Verif Require ConcMain ClientFacts StatFacts.
Import ListNotations.
Open Scope Z_scope.
Notation seen_app := ClientFacts.seen_app.
Notation mono := ClientFacts.mono. Notation gap := ClientFacts.gap. Notation upto := ClientFacts.upto.
Notation cut_at := ClientFacts.cut_at. Notation after_up := ClientFacts.after_up.
Notation gap_const := ClientFacts.gap_const. Notation gap_le := ClientFacts.gap_le. Notation gap_trans := ClientFacts.gap_trans.
Notation upto_app := ClientFacts.upto_app. Notation upto_gap := ClientFacts.upto_gap. Notation upto_push := ClientFacts.upto_push.
Notation upto_scan := ClientFacts.upto_scan. Notation upto_end := ClientFacts.upto_end. Notation upto_nil := ClientFacts.upto_nil.
Notation scan_app := ClientFacts.scan_app. Notation many := ClientFacts.many. Notation grown := ClientFacts.grown.
Notation add_stat_many := ClientFacts.add_stat_many. Notation grown_stat_ok := ClientFacts.grown_stat_ok. Notation at0 := ClientFacts.at0.

(** ** Logs *)
Definition logged (L : list smap) (x : world) : Prop := exists L0, L = L0 ++ [$cont x].
Lemma logged_seen L x k : logged L x -> seen L (length L - 1) k ($cont x k).
Proof.
  intros [L0 ->]. exists ($cont x). split; auto. rewrite app_length, nth_error_app2 by (cbn; lia).
  cbn. replace (_ - _)%nat with 0%nat by lia. auto.
Qed.
Lemma logged_pos L x : logged L x -> (0 < length L)%nat.
Proof. intros [L0 ->]. rewrite app_length. cbn. lia. Qed.

Section R.
Variable g : cfg.
Hypothesis OK : cfg_ok g.
Variable A0 : addr.
Variable R0 : pid.
Variable L0 : nat.
Notation inv := (inv g A0 R0 L0). Notation cok := (cok g A0). Notation rely := (rely g A0).
Notation wp := (wp g A0 R0 L0). Notation bstk := (bstk L0).
Notation ext := (ext A0). Notation stable := (stable R0).
Notation rely_trans := (rely_trans g A0). Notation rely_ext := (rely_ext g A0).

Definition later (t : tid) (L : list smap) (x : world) (L' : list smap) (y : world) : Prop :=
  rely t x y /\ exists E, L' = L ++ E.
Lemma later_refl t L x : later t L x L x.
Proof. split; [apply rely_refl|]. exists []. rewrite app_nil_r. auto. Qed.
Lemma later_trans t L x L' y L'' z : later t L x L' y -> later t L' y L'' z -> later t L x L'' z.
Proof.
  intros [A [E ->]] [B [F ->]]. split; [eapply rely_trans; eauto|]. exists (E ++ F). rewrite app_assoc. auto.
Qed.
Lemma later_len t L x L' y : later t L x L' y -> (length L <= length L')%nat.
Proof. intros [_ [E ->]]. rewrite app_length. lia. Qed.
Lemma later_seen t L x L' y i k v : later t L x L' y -> seen L i k v -> seen L' i k v.
Proof. intros [_ [E ->]]. apply seen_app. Qed.

Lemma later_nd t L x L' y p v : later t L x L' y -> $nd x p = Some v -> $nd y p = Some v.
Proof. intros [R _]. apply (r_nd _ _ _ _ _ R). Qed.

(** ** Programs that only read *)
Definition now (t : tid) (L : list smap) (x : world) (L' : list smap) (y : world) : Prop :=
  later t L x L' y /\ inv y /\ stable (w_s y) /\ logged L' y.
Fixpoint rp (t : tid) {A} (m : prog A) (Q : A -> list smap -> world -> Prop) (L : list smap) (x : world) {struct m} : Prop :=
  match m with
  | Ret a => Q a L x
  | Fuel => True
  | Load p k => forall L' y, now t L x L' y -> $nd y p <> None /\ exists c, $tbl y p = Some c /\ rp t (k c) Q L' y
  | LoadRoot k => forall L' y, now t L x L' y -> rp t (k (s_root (w_s y))) Q L' y
  | LoadCell a k => forall L' y, now t L x L' y -> rp t (k ($cell y a)) Q L' y
  | _ => False
  end.
Lemma now_later t L x L' y M z : later t L x L' y -> now t L' y M z -> now t L x M z.
Proof. intros A (B & C). split; auto. eapply later_trans; eauto. Qed.

Lemma rp_mono t {A} (m : prog A) : forall (Q Q' : A -> list smap -> world -> Prop) L x,
  (forall a M z, Q a M z -> Q' a M z) -> rp t m Q L x -> rp t m Q' L x.
Proof.
  induction m; intros Q Q' L x HQ; cbn [rp]; auto; intros Hm L' y H1; specialize (Hm L' y H1); eauto.
  destruct Hm as (Hn & c & E & Hm). split; auto. exists c. split; eauto.
Qed.
Lemma rp_bind t {A B} (m : prog A) (f : A -> prog B) Q : forall L x,
  rp t m (fun a M z => rp t (f a) Q M z) L x -> rp t (bind m f) Q L x.
Proof.
  induction m; intros L x; cbn [bind rp]; auto; intros Hm L' y H1; specialize (Hm L' y H1); eauto.
  destruct Hm as (Hn & c & E & Hm). split; auto. exists c. split; eauto.
Qed.
Lemma rp_assoc t {A B C} (m : prog A) (f : A -> prog B) (h : B -> prog C) Q : forall L x,
  rp t (bind m (fun a => bind (f a) h)) Q L x -> rp t (bind (bind m f) h) Q L x.
Proof.
  induction m; intros L x; cbn [bind rp]; auto; intros Hm L' y H1; specialize (Hm L' y H1); eauto.
  destruct Hm as (Hn & c & E & Hm). split; auto. exists c. split; eauto.
Qed.
Lemma rp_later t {A} (m : prog A) (Q : A -> list smap -> world -> Prop) L x L' y :
  (forall a M1 z1 M2 z2, Q a M1 z1 -> later t M1 z1 M2 z2 -> Q a M2 z2) -> later t L x L' y -> rp t m Q L x -> rp t m Q L' y.
Proof.
  intros HQ Hl. destruct m; cbn [rp]; auto; try (intros Hm M z H1; apply (Hm M z); eapply now_later; eauto; fail).
  eauto.
Qed.

Lemma rp_load t p l lo {B} (K : chain -> prog B) Q L x : $nd x p = Some (l, lo) ->
  (forall L' y c, now t L x L' y -> $nd y p = Some (l, lo) -> $tbl y p = Some c ->
     (is_remove c = false /\ $lim y p = LLive /\ cur y p = Some c /\ cok y p l lo c) \/
     (c = CRemove (h_addr c) (negb (inn l)) /\ p <> R0) -> rp t (K c) Q L' y) ->
  rp t (Load p K) Q L x.
Proof.
  intros E H. cbn [rp]. intros L' y Hn. pose proof Hn as (Hl & Hi & Hs & _). pose proof (later_nd _ _ _ _ _ _ _ Hl E) as Ey.
  destruct (i_tbl _ _ _ _ _ Hi _ _ _ Ey) as (c & T & Hh & _). split; [congruence|]. exists c. split; auto.
  apply H; auto. destruct (is_remove c) eqn:Rc.
  - right. destruct (rem_at _ _ _ _ _ _ _ _ _ Hi Ey T Rc) as [_ [a ->]]. split; auto. intros ->.
    destruct Hs as (_ & c' & T' & R' & _). rewrite T in T'. injection T' as <-. discriminate.
  - left. split; auto. destruct (live_at _ _ _ _ _ _ _ _ _ Hi Ey T Rc) as (A & B1 & C). auto.
Qed.
Lemma rp_load_valid t p l lo {B} (K : chain -> prog B) Q : forall fuel L x, $nd x p = Some (l, lo) ->
  (forall L' y c, now t L x L' y -> $nd y p = Some (l, lo) -> $tbl y p = Some c ->
     (is_remove c = false /\ $lim y p = LLive /\ cur y p = Some c /\ cok y p l lo c) \/
     (c = CRemove (h_addr c) (negb (inn l)) /\ p <> R0) -> rp t (K c) Q L' y) ->
  rp t (bind (load_valid g fuel p) K) Q L x.
Proof.
  induction fuel as [|f IH]; intros L x E H; [exact I|]. cbn [load_valid bind load].
  eapply rp_load; eauto. intros L' y c Hn Ey T Hc.
  destruct (need_wait g c) eqn:W; [|cbn [bind]; apply H; auto].
  apply IH; auto. intros L2 z c' Hz. apply H. eapply now_later; [apply Hn|exact Hz].
Qed.

(** ** Searches *)
Lemma wait_rp t {B} (K : pid -> prog B) Q L1 x1 m dk a : (forall L y, later t L1 x1 L y -> wok A0 y m dk a) ->
  (forall L y v, later t L1 x1 L y -> wgood y m dk v -> rp t (K v) Q L y) ->
  forall fuel L x, later t L1 x1 L x -> rp t (bind (wait_cell fuel a) K) Q L x.
Proof.
  intros HW HK. induction fuel as [|f IH]; intros L x Rx; [exact I|].
  cbn [wait_cell bind rp]. intros L' y (Hl & Hi & _). pose proof (later_trans _ _ _ _ _ _ _ Rx Hl) as Ry.
  destruct (N.eqb_spec ($cell y a) 0) as [Z|Z]; [apply IH; auto|].
  cbn [bind]. apply HK; auto. destruct (HW _ y Ry) as [(_ & _ & W)|D]; auto.
  destruct (i_cell _ _ _ _ _ Hi _ _ _ D) as [?|W]; [congruence|auto].
Qed.

Lemma child_rp t k closed : forall fuel m L x stack,
  stack <> [] -> bstk x (S m) (Some (eff k closed)) stack ->
  rp t (search_child_node fuel k closed stack 0%N) (fun r L' y => later t L x L' y /\
    fst r = false /\ snd r <> [] /\ bstk y m (Some (eff k closed)) (snd r)) L x.
Proof.
  set (e := eff k closed).
  induction fuel as [|f IH]; intros m L x [|p r] Hne St; [exact I|exact I|congruence|]. clear Hne.
  destruct St as ((lo & E & Lo) & St). cbn [search_child_node bind load].
  eapply rp_load; eauto. intros L' y c Hn Ey T Hc. pose proof Hn as (Hl & Hi & Hst & _).
  assert (Sy : bstk y (S m) (Some e) (p :: r)).
  { eapply bstk_rely; [apply (proj1 Hl)|]. cbn [MrgSearch.bstk]. split; eauto. }
  destruct Hc as [(Rc & Elim & Cc & Kc)|(Ec & Np)].
  - pose proof Sy as ((lo' & E' & L'') & Sr). rewrite Ey in E'. injection E' as <-.
    apply live_ole in L''; auto. destruct (n_kids _ _ _ _ _ _ _ Kc m eq_refl) as [HK HR].
    pose proof (n_lo _ _ _ _ _ _ _ Kc) as Elo.
    assert (Found : forall b v, kido y m c e v -> later t L x L' y /\ false = false /\ snd (b : bool, v :: p :: r) <> [] /\
      bstk y m (Some e) (snd (b, v :: p :: r))).
    { intros b v (l & V1 & V2 & V3). split; auto. split; auto. split; [discriminate|]. cbn [snd MrgSearch.bstk]. split.
      - exists l. split; auto.
      - exact Sy. }
    specialize (HR k closed false). rewrite Elo in HR. specialize (HR (proj1 (ole_lo_ok _ _) L'') ltac:(discriminate)).
    rewrite (tbl_leaf _ _ _ _ _ _ _ _ _ Hi Ey T). cbn [inn negb].
    destruct (dc_search_child c k closed false) as [v|a| | |q|n|] eqn:Ed; try contradiction.
    + cbn [rp fst]. apply (Found false); auto.
    + destruct HR as (dk & Ldk & W). eapply (wait_rp t _ _ L' y m dk a).
      * intros L2 z Hz. eapply wok_ext; [eapply rely_ext; apply (proj1 Hz)|]. exact W.
      * intros L2 z v Hz (l & V1 & V2). cbn [rp fst snd]. split; [eapply later_trans; eauto|]. split; auto.
        split; [discriminate|]. cbn [MrgSearch.bstk]. split.
        -- exists l. split; auto. left. fold e in Ldk. clear -V2 Ldk. ord.
        -- eapply (bstk_rely _ _ _ t y z (p :: r)); [apply (proj1 Hz)|exact Sy].
      * apply later_refl.
    + destruct HR as (_ & -> & h & Hh2 & Lh). fold e in Lh.
      destruct (n_link _ _ _ _ _ _ _ Kc h Hh2) as [V1 V2].
      destruct (N.eqb_spec (c_next c) 0) as [Q|Q].
      { exfalso. pose proof (i_pid _ _ _ _ _ Hi _ _ V1). lia. }
      eapply rp_mono; [|apply (IH m L' y (c_next c :: r))]; [|discriminate|].
      * cbn beta. intros a M z (Hz & Hs2). split; auto. eapply later_trans; eauto.
      * cbn [MrgSearch.bstk]. split; auto. exists (Some h). split; auto.
    + destruct HR as (v & -> & V). cbn [rp fst]. apply (Found false); auto.
  - rewrite Ec. cbn [dc_search_child].
    assert (Hr0 : r <> []).
    { eapply (top_root _ _ _ _ y p (S m) lo r); eauto. apply Sy. }
    destruct r as [|q r]; [congruence|].
    apply rp_bind. eapply rp_mono; [|apply (IH (S m) L' y (q :: r))]; auto; [|apply Sy].
    intros [b st'] M z (Rz & Eb & Hne & Sz). cbn [fst snd] in *. subst b.
    destruct st' as [|q' r']; [congruence|].
    eapply rp_mono; [|apply (IH m M z (q' :: r'))]; auto.
    cbn beta. intros a N w (Hw & Hs2). split; auto. eapply later_trans; [eauto|]. eapply later_trans; eauto.
Qed.

Lemma leaf_loop_rp t k closed : forall fuel L x l stack, stack <> [] -> bstk x l (Some (eff k closed)) stack ->
  rp t (leaf_loop fuel k closed stack) (fun st L' y => later t L x L' y /\ st <> [] /\ bstk y O (Some (eff k closed)) st) L x.
Proof.
  induction fuel as [|f IH]; intros L x l [|p r] Hne St; [exact I|exact I|congruence|].
  pose proof St as ((lo & E & Lo) & Sr). cbn [leaf_loop bind load].
  eapply rp_load; eauto. intros L' y c Hn Ey T _. pose proof Hn as (Hl & Hi & _).
  assert (Sy : bstk y l (Some (eff k closed)) (p :: r)) by (eapply bstk_rely; [apply (proj1 Hl)|exact St]).
  rewrite (tbl_leaf _ _ _ _ _ _ _ _ _ Hi Ey T). destruct l as [|m]; cbn [inn negb].
  - cbn [rp]. auto.
  - apply rp_bind. eapply rp_mono; [|apply (child_rp t k closed f m L' y)]; auto.
    intros [b st] M z (Hz & _ & Hs0 & Hs). cbn [snd] in *.
    eapply rp_mono; [|eapply IH; eauto]. intros a N w (Hw & Hs2). split; auto.
    eapply later_trans; [eauto|]. eapply later_trans; eauto.
Qed.
Lemma search_leaf_rp t k closed fuel L x :
  rp t (search_leaf fuel k closed) (fun st L' y => later t L x L' y /\ st <> [] /\ bstk y O (Some (eff k closed)) st) L x.
Proof.
  unfold search_leaf. cbn [rp]. intros L' y (Hl & Hi & Hst & _). destruct Hst as (-> & _).
  eapply rp_mono; [|eapply (leaf_loop_rp t k closed fuel L' y L0)]; [|discriminate|eapply root_bstk; eauto].
  cbn beta. intros a M z (Hz & Hs). split; auto. eapply later_trans; eauto.
Qed.

(** The stack of a scan: a leaf not right of the key (or removed), and nothing or a path above it. *)
Definition stk (x : world) (e : key) (st : list pid) : Prop :=
  exists p r, st = p :: r /\ (exists lo, $nd x p = Some (O, lo) /\ (ole lo (Some e) \/ $lim x p = LDead)) /\
    (r = [] \/ bstk x 1 (Some e) r).
Lemma bstk_stk x e st : st <> [] -> bstk x O (Some e) st -> stk x e st.
Proof. destruct st as [|p r]; [congruence|]. intros _ (A & B). exists p, r. auto. Qed.
Lemma stk_rely t x y e st : rely t x y -> stk x e st -> stk y e st.
Proof.
  intros R (p & r & -> & (lo & E & H) & B). exists p, r. split; auto. split.
  - exists lo. split; [apply (r_nd _ _ _ _ _ R); auto|]. destruct H; auto. right. apply (r_dead _ _ _ _ _ R); auto.
  - destruct B as [B|B]; auto. right. eapply bstk_rely; eauto.
Qed.

Lemma get_head_rp t k closed {B} (K : option chain * list pid -> prog B) Q : forall fuel L x stack,
  stk x (eff k closed) stack ->
  (forall L' y c p lo st, now t L x L' y -> $nd y p = Some (O, lo) -> cur y p = Some c -> cok y p O lo c ->
     in_rng lo (c_hi c) (eff k closed) -> rp t (K (Some c, st)) Q L' y) ->
  rp t (bind (get_head g fuel k closed stack 0%N) K) Q L x.
Proof.
  set (e := eff k closed).
  induction fuel as [|f IH]; intros L x stack Hs H; [exact I|].
  pose proof Hs as (p & r & -> & (lo & E & Lo) & Hr). cbn [get_head]. apply rp_assoc. eapply rp_load_valid; eauto.
  intros L' y c Hn Ey T Hc. pose proof Hn as (Hl & Hi & Hst & _).
  pose proof (stk_rely _ _ _ _ _ (proj1 Hl) Hs) as (p' & r' & Ep & (lo' & E' & L'') & Hr').
  injection Ep as <- <-. rewrite Ey in E'. injection E' as <-.
  destruct Hc as [(Rc & Elim & Cc & Kc)|(Ec & Np)].
  - apply live_ole in L''; auto. rewrite (validate_spec c k closed (cok_mhigh _ _ _ _ _ _ _ Kc)). fold e.
    assert (Fin : hi_ok (c_hi c) e -> rp t (bind (Ret (Some c, p :: r)) K) Q L' y).
    { intros Q1. cbn [bind]. eapply H; eauto. split; auto. }
    destruct (c_hi c) as [h|] eqn:Eh; [|apply Fin; exact I].
    destruct (Z.ltb_spec e h); [apply Fin; auto|].
    destruct (n_link _ _ _ _ _ _ _ Kc h Eh) as [V1 V2].
    destruct (N.eqb_spec (c_next c) 0) as [Q1|Q1].
    { exfalso. pose proof (i_pid _ _ _ _ _ Hi _ _ V1). lia. }
    apply IH.
    + exists (c_next c), r. split; auto. split; auto. exists (Some h). split; auto.
    + intros M z c' q lq st Hz. apply H. eapply now_later; eauto.
  - rewrite Ec. cbn [dc_validate].
    assert (Next : forall M z st', later t L' y M z -> st' <> [] -> bstk z O (Some e) st' ->
      rp t (bind (get_head g f k closed st' 0) K) Q M z).
    { intros M z st' Hz H1 H2. apply IH; [apply bstk_stk; auto|]. intros M' z' c' q lq st Hz'. apply H.
      eapply now_later; [|exact Hz']. eapply later_trans; eauto. }
    destruct r as [|q r].
    + cbn [N.eqb negb]. apply rp_assoc, rp_bind. eapply rp_mono; [|apply search_leaf_rp].
      intros st' M z (Hz & H1 & H2). apply Next; auto.
    + destruct Hr' as [Hr'|Hr']; [discriminate|].
      apply rp_assoc, rp_bind. eapply rp_mono; [|apply (child_rp t k closed f O L' y (q :: r))]; auto; [|discriminate].
      intros [b st'] M z (Hz & Eb & H1 & H2). cbn [snd] in *. destruct st' as [|q' r']; [congruence|]. apply Next; auto.
Qed.

(** ** Leaves read at the instant [i] *)
Record snap (L : list smap) (x : world) (i : nat) (c : chain) : Prop := mk_snap {
  sn_i : (i < length L)%nat;
  sn_wf : lwf g c;
  sn_con : forall k, in_rng (c_lo c) (c_hi c) k -> seen L i k (lget c k);
  sn_link : forall h, c_hi c = Some h -> $nd x (c_next c) = Some (O, Some h)
}.
Lemma cok_snap L y p lo c : inv y -> logged L y -> $nd y p = Some (O, lo) -> cur y p = Some c -> cok y p O lo c ->
  snap L y (length L - 1) c.
Proof.
  intros Hi Hc E Cc Kc. constructor.
  - pose proof (logged_pos _ _ Hc). lia.
  - apply (s_wf _ _ _ (n_sok _ _ _ _ _ _ _ Kc)).
  - intros k Hk. rewrite (n_lo _ _ _ _ _ _ _ Kc) in Hk. rewrite (i_con _ _ _ _ _ Hi p lo c k); auto. apply logged_seen; auto.
  - intros h Eh. apply (n_link _ _ _ _ _ _ _ Kc); auto.
Qed.

Lemma scan_page_rp t L y p lo c (Q : node -> list smap -> world -> Prop) : cok y p O lo c -> Q (spage g c) L y ->
  rp t (scan_page g c) Q L y.
Proof.
  intros Kc HQ. pose proof (n_sok _ _ _ _ _ _ _ Kc) as [Hw _ Hsz Hcnt]. cbn [inn cwf] in Hw. unfold scan_page.
  destruct (sort_ok_ex c (lwf_mhigh _ _ Hw)) as (ds & Hs).
  destruct (cons_leaf_scan g c ds 0%N 0%N Hw Hs) as [E1 E2]. pose proof Hs as (-> & _ & _ & Hd).
  pose proof (ok_thr g OK).
  assert (Z.of_nat (ndelta c) <= c_maxd g).
  { destruct (is_base c) eqn:B; [destruct c; try discriminate; cbn; lia|].
    pose proof (ndelta_cnt_l g c Hw B). pose proof (Hcnt eq_refl). lia. }
  destruct (Z.ltb_spec (c_maxd g) (Z.of_nat (length ds))); [lia|].
  rewrite (lwf_leaf g c Hw). cbn [negb]. rewrite E2.
  pose proof (ok_page g OK). pose proof (ok_hdr g OK).
  assert (0 <= kovh g) by (unfold kovh; pose proof (ok_key g OK 0); destruct (c_varlen g); lia).
  assert (0 <= excess g) by (unfold excess, maxrec, metalen, ptrlen; pose proof (ok_key g OK 0); pose proof (ok_pay g OK); destruct (c_varlen g); lia).
  destruct (Z.ltb_spec (2 * c_page g) (h_size c)); [lia|].
  rewrite E1. exact HQ.
Qed.

Lemma cons_for_scan_rp t k closed {B} (K : node * Z -> prog B) Q : forall fuel L x stack,
  stk x (eff k closed) stack ->
  (forall L' y c pos, now t L x L' y -> snap L' y (length L' - 1) c ->
     in_rng (c_lo c) (c_hi c) (eff k closed) -> cut_at c (Some (k, closed)) pos ->
     rp t (K (spage g c, pos)) Q L' y) ->
  rp t (bind (cons_for_scan g fuel k closed stack) K) Q L x.
Proof.
  destruct fuel as [|f]; intros L x stack Ht H; [exact I|]. cbn [cons_for_scan]. apply rp_assoc.
  apply get_head_rp; auto. intros L' y c p lo st Hnow E Cc Kc Rk. pose proof Hnow as (Hl & Hi & _ & Hc).
  pose proof (s_wf _ _ _ (n_sok _ _ _ _ _ _ _ Kc)) as W. cbn [inn cwf] in W. rewrite (lwf_not_remove _ _ W). apply rp_assoc, rp_bind.
  eapply scan_page_rp; eauto.
  destruct (lwf_sorted _ _ W) as [Hs _].
  pose proof (c05_leaf (spage g c) k eq_refl Hs) as Hp. destruct (node_search (spage g c) k) as [found q].
  destruct Hp as [Hp Hf]. cbn [spage cons_page n_recs] in Hf, Hp. cbn [bind].
  eapply H; eauto.
  - eapply cok_snap; eauto.
  - rewrite (n_lo _ _ _ _ _ _ _ Kc). auto.
  - split; [destruct found, closed; cbn; lia|]. intros i r Hi2. destruct found; cbn [negb orb].
    + destruct Hf as (v & Hf). destruct (cut_found _ _ _ _ Hs Hf (proj1 Hp) i r Hi2) as (B1 & B2 & B3).
      destruct closed; cbn [after]; split; intros; lia.
    + destruct r as [r w]. destruct (Hf i r w Hi2) as [B1 B2]. cbn [fst]. destruct closed; cbn [after]; split; intros; lia.
Qed.

(** ** Iterators *)
Definition at_leaf (L : list smap) (x : world) (i : nat) (b e : bound) (pg : node) (it : iter) : Prop :=
  exists c pos, snap L x i c /\ pg = spage g c /\
    it = mk_iter pos (snd (search_end pg e)) (fst (search_end pg e)) e /\ cut_at c b pos /\
    (forall k, after b k -> lo_ok (c_lo c) k) /\
    (forall h, c_hi c = Some h -> forall k, h <= k -> after b k).

Lemma seen_none L x i c b pos k : snap L x i c -> cut_at c b pos -> after b k -> lo_ok (c_lo c) k -> hi_ok (c_hi c) k ->
  (forall j v, nth_error (lrecs c) j = Some (k, v) -> pos <= Z.of_nat j -> False) -> seen L i k None.
Proof.
  intros Sn [_ Hc] Ha Lo Hi H. pose proof (sn_con _ _ _ _ Sn k (conj Lo Hi)) as S. unfold lget in S.
  destruct (find k (lrecs c)) as [v|] eqn:F; auto. exfalso.
  apply find_in in F. apply In_nth_error in F as [j F]. eapply H; eauto. apply (Hc _ _ F). auto.
Qed.

Definition has_post (t : tid) L x i b e (r : bool * node * iter) L' y : Prop :=
  later t L x L' y /\ exists j b', (i <= j)%nat /\ (forall k, after b' k -> after b k) /\ gap L' i j b b' e /\
    let '(more, pg, it) := r in
    if more : bool then exists k v, get_record pg it = Some (k, v) /\ b' = Some (k, true) /\ before e k /\
      seen L' j k (Some v) /\ at_leaf L' y j (Some (k, false)) e pg (advance it)
    else at_leaf L' y j b' e pg it /\ forall k, after b' k -> before e k -> seen L' j k None.

Lemma has_rp t : forall fuel L x i b e pg it, at_leaf L x i b e pg it ->
  rp t (has_record g fuel pg it) (has_post t L x i b e) L x.
Proof.
  induction fuel as [|f IH]; intros L x i b e pg it A; [exact I|]. pose proof A as (c & pos & Sn & Ep & Ei & Hc & Hlo & Hhi).
  pose proof (sn_wf _ _ _ _ Sn) as W. pose proof (end_cut g c e W) as EC. rewrite <- Ep in EC.
  destruct (search_end pg e) as [is_end ep] eqn:Es. destruct EC as (H1 & H2 & H3). cbn [fst snd] in Ei.
  destruct (lwf_sorted _ _ W) as [Hs Hr]. pose proof Hc as [Hp0 Hp].
  cbn [has_record]. rewrite Ei. cbn [i_pos i_end i_isend i_ekey].
  destruct (Z.ltb_spec pos ep) as [Hlt|Hge].
  - cbn [rp]. split; [apply later_refl|].
    destruct (nth_error (lrecs c) (Z.to_nat pos)) as [[k v]|] eqn:Ex; [|apply nth_error_None in Ex; lia].
    assert (Ak : after b k) by (apply (Hp _ _ Ex); lia).
    assert (Rk : in_rng (c_lo c) (c_hi c) k) by (rewrite Forall_forall in Hr; apply (Hr (k, v)); eapply nth_error_In; eauto).
    exists i, (Some (k, true)). split; [lia|]. split; [cbn; intros q Hq; eapply after_up; eauto|]. split.
    + apply gap_const. intros q Q1 Q2 Q3. cbn [after] in Q2. apply Z.nle_gt in Q2.
      eapply (seen_none L x i c b pos q Sn Hc Q1 (Hlo _ Q1)).
      * destruct Rk as [_ Rk]. destruct (c_hi c); cbn in *; auto. lia.
      * intros j w Hj Hle. destruct (Z.eq_dec pos (Z.of_nat j)) as [E|E].
        -- replace (Z.to_nat pos) with j in Ex by lia. rewrite Hj in Ex. inversion Ex. lia.
        -- pose proof (sorted_nth _ Hs (Z.to_nat pos) j _ _ ltac:(lia) Ex Hj) as X. cbn in X. lia.
    + exists k, v. split; [rewrite Ep; exact Ex|]. split; auto. split; [|split].
      * apply (eb_before e k v). apply (H2 _ _ Ex). lia.
      * replace (Some v) with (lget c k); [apply (sn_con _ _ _ _ Sn); auto|]. unfold lget. apply sorted_in_find; auto.
        eapply nth_error_In; eauto.
      * exists c, (pos + 1). split; auto. split; auto. split; [rewrite Es; reflexivity|]. split; [|split].
        -- split; [lia|]. intros j [q w] Hj. cbn [after fst].
           destruct (Nat.lt_trichotomy j (Z.to_nat pos)) as [Q|[Q|Q]].
           ++ pose proof (sorted_nth _ Hs j (Z.to_nat pos) _ _ Q Hj Ex) as X. cbn in X. split; intros; lia.
           ++ subst j. rewrite Hj in Ex. inversion Ex; subst. split; intros; lia.
           ++ pose proof (sorted_nth _ Hs (Z.to_nat pos) j _ _ Q Ex Hj) as X. cbn in X. split; intros; lia.
        -- cbn [after]. intros q Hq. destruct Rk as [Rk _]. destruct (c_lo c); cbn in *; auto. lia.
        -- intros h Eh q Hq. cbn [after]. destruct Rk as [_ Rk]. rewrite Eh in Rk. cbn in Rk. lia.
  - destruct is_end.
    + cbn [rp]. split; [apply later_refl|]. exists i, b. split; [lia|]. split; [auto|]. split.
      { apply gap_const. tauto. }
      split; [rewrite <- Ei; exact A|]. intros q Q1 Q2. apply (eb_before e q 0%N) in Q2.
      eapply (seen_none L x i c b pos q Sn Hc Q1 (Hlo _ Q1)).
      * destruct (c_hi c) as [h|]; cbn; auto. destruct (Z.lt_ge_cases q h); auto. specialize (H3 (q, 0%N) H). congruence.
      * intros j w Hj Hle. destruct (H2 _ _ Hj) as [_ X]. specialize (X ltac:(lia)).
        assert (before e q) as Y by (apply (eb_before e q 0%N); auto). apply (eb_before e q w) in Y. congruence.
    + destruct H3 as (h & Eh). rewrite Ep. cbn [spage cons_page n_high n_next]. rewrite Eh.
      unfold sibling_scan. apply rp_assoc. apply cons_for_scan_rp.
      { exists (c_next c), []. split; auto. split; auto. exists (Some h). split; [apply (sn_link _ _ _ _ Sn); auto|left; cbn; lia]. }
      intros L' y c' pos' (Hl & Hi & _ & Hcur) Sn' Rk Hc'. destruct (search_end (spage g c') e) as [is_end' ep'] eqn:Es'. cbn [bind].
      set (j := (length L' - 1)%nat) in *.
      assert (Hij : (i <= j)%nat) by (pose proof (later_len _ _ _ _ _ Hl); pose proof (sn_i _ _ _ _ Sn); lia).
      assert (A' : at_leaf L' y j (Some (h, true)) e (spage g c') (mk_iter pos' ep' is_end' e)).
      { exists c', pos'. split; auto. split; auto. split; [rewrite Es'; reflexivity|]. split; auto. destruct Rk as [R1 R2]. cbn [eff] in *. split.
        - cbn [after]. intros q Hq. destruct (c_lo c'); cbn in *; auto. lia.
        - intros h' Eh' q Hq. cbn [after]. rewrite Eh' in R2. cbn in R2. lia. }
      eapply rp_mono; [|apply IH; exact A'].
      intros [[more pg2] it2] L2 z (Hl2 & j2 & b2 & B1 & B2 & B3 & B4).
      split; [eapply later_trans; eauto|]. exists j2, b2. split; [lia|]. split.
      { intros q Hq. apply (Hhi h Eh). apply (B2 q Hq). }
      split; [|exact B4].
      eapply (gap_trans L2 i j j2 b (Some (h, true)) b2); [|exact B3|lia].
      eapply gap_le; [exact Hij|]. apply gap_const. intros q Q1 Q2 Q3. cbn [after] in Q2. apply Z.nle_gt in Q2.
      eapply later_seen; [exact Hl2|]. eapply later_seen; [exact Hl|].
      eapply (seen_none L x i c b pos q Sn Hc Q1 (Hlo _ Q1)).
      * rewrite Eh. exact Q2.
      * intros j' w Hj Hle. destruct (H2 _ _ Hj) as [_ X]. specialize (X ltac:(lia)).
        apply (eb_before e q w) in Q3. congruence.
Qed.

Lemma at_leaf_mono L E x y i b e pg it : (forall p v, $nd x p = Some v -> $nd y p = Some v) ->
  at_leaf L x i b e pg it -> at_leaf (L ++ E) y i b e pg it.
Proof.
  intros H (c & pos & [S1 S2 S3 S4] & R). exists c, pos. split; [|exact R]. constructor; auto.
  - rewrite app_length. clear A0 R0 L0. lia.
  - intros. apply seen_app. auto.
Qed.

Definition curs_ok (L : list smap) (x : world) (b0 e : bound) (l : list (key * val)) (cu : cursor) : Prop :=
  exists pg it b i, cu = Some (pg, it) /\ upto L b0 b i e l /\ at_leaf L x i b e pg it.
Lemma curs_mono L E x y b0 e l cu : (forall p v, $nd x p = Some v -> $nd y p = Some v) ->
  curs_ok L x b0 e l cu -> curs_ok (L ++ E) y b0 e l cu.
Proof.
  intros H (pg & it & b & i & A & B & C). exists pg, it, b, i. split; auto. split; [apply upto_app; auto|].
  eapply at_leaf_mono; eauto.
Qed.
Lemma at_leaf_i L x i b e pg it : at_leaf L x i b e pg it -> (i < length L)%nat.
Proof. intros (c & pos & S & _). apply S. Qed.

Definition next_post (b0 e : bound) (l : list (key * val)) (r : ans * cursor) (L : list smap) (x : world) : Prop :=
  match fst r with
  | ARec a => scan_ok b0 e L (l ++ [a]) false /\ curs_ok L x b0 e (l ++ [a]) (snd r)
  | AEnd => scan_ok b0 e L l true /\ curs_ok L x b0 e l (snd r)
  | _ => False
  end.
Lemma next_rp t fuel L x b0 e l pg it : curs_ok L x b0 e l (Some (pg, it)) ->
  rp t (next_prog g fuel pg it) (next_post b0 e l) L x.
Proof.
  intros (pg0 & it0 & b & i & Ec & U & A). inversion Ec; subst pg0 it0. unfold next_prog. apply rp_bind.
  eapply rp_mono; [|apply has_rp; exact A].
  intros [[more pg1] it1] L' y (Hl & j & b' & H1 & H2 & H3 & H4).
  assert (U' : upto L' b0 b' j e l).
  { destruct Hl as [_ [E ->]]. eapply upto_gap; [apply upto_app; exact U| | |]; eauto. }
  destruct more.
  - destruct H4 as (k & v & E & -> & B & S & A'). rewrite E. cbn [rp]. unfold next_post. cbn [fst snd].
    pose proof (upto_push _ _ _ _ _ _ _ U' B S) as U2. split; [eapply upto_scan; eauto; eapply at_leaf_i; eauto|].
    exists pg1, (advance it1), (Some (k, false)), j. auto.
  - destruct H4 as [A' N]. cbn [rp]. unfold next_post. cbn [fst snd]. split; [eapply upto_end; eauto; eapply at_leaf_i; eauto|].
    exists pg1, it1, b', j. auto.
Qed.


Definition open_post (b e : bound) (r : ans * cursor) (L : list smap) (x : world) : Prop :=
  fst r = AOpen /\ curs_ok L x b e [] (snd r).
Lemma open_some_rp t fuel L x bk closed e : rp t (req_prog g fuel None (QOpen (Some (bk, closed)) e)) (open_post (Some (bk, closed)) e) L x.
Proof.
  cbn [req_prog]. unfold op_scan.
  - apply rp_assoc, rp_assoc, rp_bind. eapply rp_mono; [|apply search_leaf_rp].
    intros st L1 x1 (Hl1 & Hs1 & Ht). apply cons_for_scan_rp; [apply bstk_stk; auto|]. intros L' y c pos (Hl & Hi & _ & Hc) Sn Rk Hcut.
    destruct (search_end (spage g c) e) as [is_end ep] eqn:Es. cbn [bind rp]. split; [reflexivity|]. cbn [snd].
    destruct Rk as [R1 R2]. pose proof (sn_wf _ _ _ _ Sn) as W. destruct (lwf_sorted _ _ W) as [_ Hr].
    assert (Fin : forall b, (b = Some (bk, closed) \/ closed = false /\ c_hi c = Some bk /\ b = Some (bk, true)) ->
      (forall h, c_hi c = Some h -> forall k, h <= k -> after b k) ->
      curs_ok L' y (Some (bk, closed)) e [] (Some (spage g c, mk_iter pos ep is_end e))).
    { intros b Hb Hh. exists (spage g c), (mk_iter pos ep is_end e), b, (length L' - 1)%nat. split; auto. split.
      - apply upto_nil; destruct Hb as [->|(-> & _ & ->)]; auto; cbn; intros k Hk; eauto. lia.
      - exists c, pos. split; auto. split; auto. split; [rewrite Es; auto|]. split; [|split; [|exact Hh]].
        + destruct Hb as [->|(-> & Eh & ->)]; auto. destruct Hcut as [C1 C2]. split; auto. intros i r Hi2.
          rewrite (C2 i r Hi2). rewrite Forall_forall in Hr. apply nth_error_In in Hi2. destruct (Hr _ Hi2) as [_ X].
          rewrite Eh in X. cbn in *. lia.
        + intros k Hk. assert (bk <= k) by (destruct Hb as [->|(-> & _ & ->)]; [destruct closed|]; cbn in Hk; lia).
          destruct (c_lo c); cbn in *; auto. destruct closed; cbn in R1; lia. }
    destruct closed; cbn [eff] in *.
    + apply (Fin (Some (bk, true))); auto. intros h Eh k Hk. rewrite Eh in R2. cbn in *. lia.
    + destruct (c_hi c) as [h|] eqn:Eh.
      * destruct (Z.eq_dec h bk) as [->|Hne].
        -- apply (Fin (Some (bk, true))); auto. intros h Eh' k Hk. inversion Eh'; subst. cbn. lia.
        -- apply (Fin (Some (bk, false))); auto. intros h' Eh' k Hk. inversion Eh'; subst. cbn in *. lia.
      * apply (Fin (Some (bk, false))); auto. discriminate.
Qed.

(** ** Statistics *)
Lemma scan_inner_rp t L y p m lo c (Q : node -> list smap -> world -> Prop) : cok y p (S m) lo c ->
  (forall n, (forall e, In e (n_recs n) -> exists l, $nd y (snd e) = Some (m, l)) -> Q n L y) ->
  rp t (scan_page g c) Q L y.
Proof.
  intros Kc HQ. pose proof (n_sok _ _ _ _ _ _ _ Kc) as [Hw _ Hsz Hcnt]. cbn [inn cwf] in Hw. unfold scan_page.
  destruct (sort_ok_ex c (iwf_mhigh _ _ Hw)) as (ds & Hs).
  destruct (StatFacts.cons_inner_scan g c ds 0%N 0%N Hw Hs) as [E1 E2]. pose proof Hs as (-> & _ & _ & Hd).
  pose proof (ok_thr g OK).
  assert (Z.of_nat (ndelta c) <= c_maxd g).
  { destruct (is_base c) eqn:B; [destruct c; try discriminate; cbn; lia|].
    pose proof (ndelta_cnt_i g c Hw B). pose proof (Hcnt eq_refl). lia. }
  destruct (Z.ltb_spec (c_maxd g) (Z.of_nat (length ds))); [lia|].
  rewrite (cwf_leaf g true c Hw). cbn [negb]. rewrite E2.
  pose proof (ok_page g OK). pose proof (ok_hdr g OK).
  assert (0 <= kovh g) by (unfold kovh; pose proof (ok_key g OK 0); destruct (c_varlen g); lia).
  assert (0 <= excess g) by (unfold excess, maxrec, metalen, ptrlen; pose proof (ok_key g OK 0); pose proof (ok_pay g OK); destruct (c_varlen g); lia).
  destruct (Z.ltb_spec (2 * c_page g) (h_size c)); [lia|].
  rewrite E1. cbn [rp]. apply HQ. cbn [cons_page n_recs].
  destruct (n_kids _ _ _ _ _ _ _ Kc m eq_refl) as [HK _]. unfold ikids in HK. rewrite Forall_forall in HK. unfold cents in HK.
  intros e [<-|He]; [eexists; apply (HK (c_lo c, ilead c)); left; auto|].
  eexists. apply (HK (Some (fst e), snd e)). right. apply in_map_iff. exists e. destruct e; auto.
Qed.

Lemma vhead_rp t p l lo {B} (K : chain -> prog B) Q : forall fuel L x, $nd x p = Some (l, lo) ->
  (forall L' y c, now t L x L' y -> cok y p l lo c -> rp t (K c) Q L' y) ->
  rp t (bind (valid_head_not_removed g fuel p) K) Q L x.
Proof.
  induction fuel as [|f IH]; intros L x E H; [exact I|]. cbn [valid_head_not_removed]. apply rp_assoc.
  eapply rp_load_valid; eauto. intros L' y c Hn Ey T Hc.
  destruct Hc as [(Rc & _ & _ & Kc)|(Ec & _)].
  - rewrite Rc. cbn [bind]. apply H; auto.
  - rewrite Ec. cbn [is_remove]. apply IH; auto. intros L2 z c' Hz. apply H. eapply now_later; [apply Hn|exact Hz].
Qed.
Lemma stats_rp t drec : forall fuel p lvl acc L x l lo, $nd x p = Some (l, lo) ->
  (lvl <= length acc)%nat -> Forall many acc ->
  rp t (collect_stats g drec fuel p lvl acc) (fun acc' L' y => later t L x L' y /\ grown acc lvl acc') L x.
Proof.
  induction fuel as [|f IH]; intros p lvl acc L x l lo E Hl Hf; [exact I|]. cbn [collect_stats].
  eapply vhead_rp; eauto. intros L' y c (Hr & _) Kc. pose proof (s_wf _ _ _ (n_sok _ _ _ _ _ _ _ Kc)) as W.
  assert (U : exists sz dn, node_usage c = Some (sz, dn)).
  { clear -W. destruct (inn l); cbn [cwf] in W; induction c as [n|d nx IHc|d n nx IHc|]; cbn [node_usage lwf iwf] in *; try tauto; eauto;
      destruct W as [W _]; destruct (IHc W) as (s0 & d0 & ->); eauto. }
  destruct U as (sz & dn & ->).
  destruct (add_stat_many (sz + dn * drec) (c_page g + dn * drec) lvl acc Hl Hf) as (A1 & A2 & A3 & A4).
  set (acc1 := add_stat lvl (sz + dn * drec) (c_page g + dn * drec) acc) in *. clearbody acc1.
  rewrite (cwf_leaf g _ c W). destruct l as [|m]; cbn [inn negb]; [cbn [rp]; split; auto; split; auto|].
  apply rp_bind. eapply scan_inner_rp; eauto. intros n Hk. clear c Kc W.
  revert Hk. generalize (n_recs n). intros l. revert acc1 A1 A2 A3 A4 L' y Hr.
  induction l as [|[k v] l IHl]; intros acc1 A1 A2 A3 A4 L' y Hr Hk; [cbn [rp]; split; auto; split; auto|].
  apply rp_bind. destruct (Hk (k, v) (or_introl eq_refl)) as (lo' & E').
  eapply rp_mono; [|eapply (IH v (S lvl) acc1 L' y); eauto]. cbn beta. intros acc2 M z (Hz & B1 & B2 & B3 & B4).
  cbn [at0] in B4. apply IHl; auto; try lia.
  - eapply later_trans; eauto.
  - intros e He. destruct (Hk e (or_intror He)) as (l2 & E2). exists l2. eapply later_nd; eauto.
Qed.
Lemma op_stats_rp t drec fuel L x : rp t (op_stats g drec fuel) (fun l _ _ => stat_ok l) L x.
Proof.
  unfold op_stats. cbn [rp]. intros L' y (Hl & Hi & Hst & _). pose proof (i_root _ _ _ _ _ Hi) as E. destruct Hst as (-> & _).
  eapply rp_mono; [|eapply stats_rp; eauto; cbn; lia]. cbn beta. intros l M z (_ & A & _ & _ & B). apply grown_stat_ok; auto.
Qed.
Definition stat_post (cu : cursor) (a : ans * cursor) (_ : list smap) (_ : world) : Prop :=
  exists l, a = (AStat l, cu) /\ stat_ok l.
Lemma stat_req_rp t drec fuel cu L x : rp t (req_prog g fuel cu (QStat drec)) (stat_post cu) L x.
Proof.
  cbn [req_prog]. apply rp_bind. eapply rp_mono; [|apply op_stats_rp]. cbn beta. intros l M z H. exists l. auto.
Qed.

(** ** The leftmost leaf of a tree of at most two levels *)
Hypothesis FL : (L0 <= 1)%nat.
Lemma leftmost_rp t : forall fuel L x stack p r l, stack = p :: r -> $nd x p = Some (l, None) -> (l = O \/ p = R0) ->
  rp t (leftmost_loop fuel stack) (fun st L' y => later t L x L' y /\
    exists q r', st = q :: r' /\ $nd y q = Some (O, None)) L x.
Proof.
  induction fuel as [|f IH]; intros L x stack p r l -> E Hp; [exact I|].
  cbn [leftmost_loop bind load]. eapply rp_load; eauto. intros L' y c Hn Ey T Hc. pose proof Hn as (Hl & Hi & _).
  rewrite (tbl_leaf _ _ _ _ _ _ _ _ _ Hi Ey T). destruct l as [|m]; cbn [inn negb].
  - cbn [rp]. split; eauto.
  - destruct Hp as [Hp|Hp]; [discriminate|subst p]. destruct Hc as [(Rc & Elim & Cc & Kc)|(_ & Hne)]; [|congruence].
    pose proof (i_root _ _ _ _ _ Hi) as ER. rewrite Ey in ER. injection ER as ER.
    assert (m = O) as -> by lia.
    pose proof (s_wf _ _ _ (n_sok _ _ _ _ _ _ _ Kc)) as W. cbn [inn cwf] in W.
    rewrite (leftmost_inner g c W). destruct (n_kids _ _ _ _ _ _ _ Kc O eq_refl) as [HK _].
    assert (Ek : $nd y (ilead c) = Some (O, None)).
    { unfold ikids in HK. rewrite Forall_forall in HK. specialize (HK (c_lo c, ilead c) (or_introl eq_refl)). cbn [fst snd] in HK.
      rewrite (n_lo _ _ _ _ _ _ _ Kc) in HK. exact HK. }
    eapply rp_mono; [|eapply IH; eauto]. intros a M z [Hz Hs]. split; auto. eapply later_trans; eauto.
Qed.
Lemma search_leftmost_rp t fuel L x :
  rp t (search_leftmost fuel) (fun st L' y => later t L x L' y /\
    exists q r', st = q :: r' /\ $nd y q = Some (O, None)) L x.
Proof.
  unfold search_leftmost. cbn [rp]. intros L' y (Hl & Hi & Hst & _). destruct Hst as (-> & _).
  eapply rp_mono; [|eapply (leftmost_rp t fuel L' y _ R0 [] L0 eq_refl (i_root _ _ _ _ _ Hi) (or_intror eq_refl))].
  intros a M z [Hz Hs]. split; auto. eapply later_trans; eauto.
Qed.
Lemma leftmost_head_rp t q : forall f L x, $nd x q = Some (O, None) ->
  rp t (leftmost_head f q) (fun c L' y => now t L x L' y /\ $nd y q = Some (O, None) /\ cur y q = Some c /\ cok y q O None c) L x.
Proof.
  induction f as [|f IH]; intros L x E; [exact I|]. cbn [leftmost_head bind load]. eapply rp_load; eauto. intros L' y c Hn Ey T Hc.
  destruct Hc as [(Rc & Elim & Cc & Kc)|(Ec & Np)].
  - rewrite Rc. cbn [rp]. auto.
  - rewrite Ec. cbn [is_remove]. eapply rp_mono; [|apply IH; auto]. intros a M z (Hz & H). split; auto.
    eapply now_later; [apply Hn|exact Hz].
Qed.

Lemma open_none_rp t fuel L x e : rp t (req_prog g fuel None (QOpen None e)) (open_post None e) L x.
Proof.
  cbn [req_prog]. unfold op_scan.
  - apply rp_assoc, rp_assoc, rp_bind. eapply rp_mono; [|apply search_leftmost_rp].
    intros st L1 x1 (Hl1 & q & r & -> & E). apply rp_bind.
    apply rp_bind. eapply rp_mono; [|apply (leftmost_head_rp t q fuel L1 x1 E)].
    intros c L' y ((Hl & Hi & _ & Hc) & E' & Cc & Kc). apply rp_bind. eapply scan_page_rp; eauto. cbn [rp].
    destruct (search_end (spage g c) e) as [is_end ep] eqn:Es. cbn [bind rp]. split; [reflexivity|]. cbn [snd].
    exists (spage g c), (mk_iter 0 ep is_end e), None, (length L' - 1)%nat. split; auto. split.
    + apply upto_nil; cbn; auto.
    + exists c, 0. split; [eapply cok_snap; eauto|]. split; auto. split; [rewrite Es; auto|]. split; [|split].
      * split; [lia|]. intros i u _. cbn. split; auto. lia.
      * intros k _. rewrite (n_lo _ _ _ _ _ _ _ Kc). exact I.
      * intros; exact I.
Qed.
End R.

(** ** Executions *)
Section M.
Variable g : cfg.
Hypothesis OK : cfg_ok g.
Variable A0 : addr.
Variable R0 : pid.
Variable L0 : nat.
Variable fuel : nat.
Notation inv := (inv g A0 R0 L0). Notation rely := (rely g A0). Notation wp := (wp g A0 R0 L0). Notation rp := (rp g A0 R0 L0).
Notation stable := (stable R0).

(** Scans without a begin key only in trees of at most two levels. *)
Definition okreq (q : req) : Prop := match q with QOpen None _ => (L0 <= 1)%nat | _ => True end.

Definition cuok (x : world) (v : view) (cu : cursor) : Prop :=
  match v_cur v with
  | None => cu = None
  | Some (b, e, L, l) => logged L x /\ curs_ok g L x b e l cu
  end.
Definition call_post (t : tid) (cu : cursor) (a : ans * cursor) (y : world) : Prop :=
  exists r, a = (ACall r, cu) /\ $stat y t = SDone r.
Definition kthr (x : world) (v : view) (t : tid) (th : client) : Prop :=
  match th with
  | KIdle cu _ => $stat x t = SIdle /\ v_call v = SIdle /\ cuok x v cu
  | KRun m _ =>
      (exists cu, v_call v = $stat x t /\ cuok x v cu /\ wp t m (call_post t cu) x) \/
      ($stat x t = SIdle /\ v_call v = SIdle /\
       match v_cur v with
       | None => m = Ret (AEnd, None)
       | Some (b, e, L, l) => logged L x /\
           (rp t m (next_post g b e l) L x \/ l = [] /\ rp t m (open_post g b e) L x)
       end) \/
      (exists cu L, $stat x t = SIdle /\ v_call v = SIdle /\ cuok x v cu /\ logged L x /\ rp t m (stat_post cu) L x)
  end.
Definition kinv (c : kst) (gh : ghost) (f : tid -> view) : Prop :=
  inv (mk_w (k_mem c) gh) /\ forall t th, nth_error (k_thr c) t = Some th -> kthr (mk_w (k_mem c) gh) (f t) t th.

Lemma next_stable b e l t a L x L' y : next_post g b e l a L x -> later g A0 t L x L' y -> next_post g b e l a L' y.
Proof.
  intros H [R [E ->]]. pose proof (r_nd _ _ _ _ _ R) as Hn. unfold next_post in *. destruct (fst a); try contradiction;
    destruct H as [H1 H2]; (split; [apply (scan_app _ _ _ _ _ _); auto|eapply curs_mono; eauto]).
Qed.
Lemma open_stable b e t a L x L' y : open_post g b e a L x -> later g A0 t L x L' y -> open_post g b e a L' y.
Proof.
  intros [A B] [R [E ->]]. split; auto. eapply curs_mono; [exact (r_nd _ _ _ _ _ R)|auto].
Qed.

Definition obs (M : smap) (v : view) : view :=
  mk_view (v_call v) match v_cur v with Some (b, e, log, l) => Some (b, e, log ++ [M], l) | None => None end.
Lemma cuok_obs x y v cu : (forall p w, $nd x p = Some w -> $nd y p = Some w) -> cuok x v cu -> cuok y (obs ($cont y) v) cu.
Proof.
  intros H. unfold cuok, obs. cbn [v_cur]. destruct (v_cur v) as [[[[b e] L] l]|]; auto. intros [_ A].
  split; [exists L; auto|]. eapply curs_mono; eauto.
Qed.
Lemma kthr_later x y v t th : rely t x y -> kthr x v t th -> kthr y (obs ($cont y) v) t th.
Proof.
  intros R. pose proof (r_nd _ _ _ _ _ R) as Hn. pose proof (r_stat _ _ _ _ _ R) as Hs. destruct th as [cu td|m td]; cbn [kthr].
  - rewrite Hs. intros (A & B & C). split; auto. split; auto. eapply cuok_obs; eauto.
  - intros [(cu & A & B & C)|[(A & B & C)|(cu & L & A & B & C & D & F)]]; [left|right; left|right; right].
    + exists cu. rewrite Hs. split; auto. split; [eapply cuok_obs; eauto|]. eapply wp_rely; eauto.
      intros a z1 z2 (r & E1 & E2) R2. exists r. split; auto. rewrite (r_stat _ _ _ _ _ R2). auto.
    + rewrite Hs. split; auto. split; auto. unfold obs. cbn [v_cur]. destruct (v_cur v) as [[[[b e] L] l]|]; auto.
      destruct C as [_ C]. split; [exists L; auto|].
      assert (Hl : later g A0 t L x (L ++ [$cont y]) y) by (split; eauto).
      destruct C as [C|[El C]]; [left|right; split; auto]; (eapply rp_later; [|exact Hl|exact C]);
        intros a M1 z1 M2 z2; [apply next_stable|apply open_stable].
    + exists cu, (L ++ [$cont y]). rewrite Hs. split; auto. split; auto. split; [eapply cuok_obs; eauto|].
      split; [exists L; auto|]. eapply rp_later; [|split; eauto|exact F]. auto.
Qed.

Lemma kput c gh f s' gh' f' t th th' : kinv c gh f -> nth_error (k_thr c) t = Some th ->
  inv (mk_w s' gh') -> (forall u, u <> t -> rely u (mk_w (k_mem c) gh) (mk_w s' gh')) ->
  (forall u, u <> t -> f' u = f u) -> kthr (mk_w s' gh') (obs (cont gh') (f' t)) t th' ->
  kinv (mk_kst s' (firstn t (k_thr c) ++ th' :: skipn (S t) (k_thr c))) gh' (observe (cont gh') f').
Proof.
  intros [Hi Ht] E Hi' Hr Hf Ht'. split; auto. cbn [k_mem k_thr]. intros u thu. rewrite (ConcMain.nth_put _ _ _ _ _ E).
  change (observe (cont gh') f' u) with (obs (cont gh') (f' u)).
  destruct (Nat.eqb_spec u t) as [->|Hu]; [intros X; inversion X; subst; auto|].
  intros X. rewrite (Hf u Hu). apply (kthr_later (mk_w (k_mem c) gh) (mk_w s' gh')); [apply Hr; auto|]. apply Ht; auto.
Qed.
Lemma kidle c gh f : kinv c gh f -> kinv c gh (observe (cont gh) f).
Proof.
  intros [Hi Ht]. split; auto. intros u th E.
  apply (kthr_later (mk_w (k_mem c) gh) (mk_w (k_mem c) gh)); [apply rely_refl|]. apply Ht; auto.
Qed.

Lemma rp_pstep t {A} (m : prog A) Q spur L x m' s' : rp t m Q L x -> inv x -> stable (w_s x) -> logged L x -> pstep m spur (w_s x) = Some (m', s') ->
  s' = w_s x /\ rp t m' Q L x.
Proof.
  intros H Hi St Hc. assert (Hl : now g A0 R0 L0 t L x L x) by (split; [apply later_refl|auto]).
  destruct m; cbn [pstep MrgClient.rp] in *; try discriminate; try contradiction.
  - destruct (H L x Hl) as (_ & c & -> & H2). intros E; inversion E; subst; auto.
  - specialize (H L x Hl). intros E; inversion E; subst; auto.
  - specialize (H L x Hl). intros E; inversion E; subst; auto.
Qed.

Definition todo_of (th : client) : list req := match th with KIdle _ td | KRun _ td => td end.
Definition kreqs (c : kst) : Prop := forall t th, nth_error (k_thr c) t = Some th -> Forall okreq (todo_of th).
Lemma kreqs_put c s t th th' : kreqs c -> nth_error (k_thr c) t = Some th ->
  Forall okreq (todo_of th') -> kreqs (mk_kst s (firstn t (k_thr c) ++ th' :: skipn (S t) (k_thr c))).
Proof.
  intros H E Ht' u thu. cbn [k_thr]. rewrite (ConcMain.nth_put _ _ _ _ _ E).
  destruct (Nat.eqb_spec u t) as [->|Hu]; [intros X; inversion X; subst; auto|apply H].
Qed.
Lemma kreqs_step c t b : kreqs c -> kreqs (fst (kstep g fuel c t b)).
Proof.
  intros H. unfold kstep. destruct (nth_error (k_thr c) t) as [th|] eqn:E; [|auto]. pose proof (H _ _ E) as Ht.
  destruct th as [cu [|q td]|m td]; cbn [todo_of] in Ht; [auto| |].
  - eapply kreqs_put; eauto. inversion Ht; auto.
  - assert (Hgo : kreqs (fst (match pstep m b (k_mem c) with
        | Some (m', s') => (mk_kst s' (firstn t (k_thr c) ++ KRun m' td :: skipn (S t) (k_thr c)), [])
        | None => (c, @nil kevent) end))).
    { destruct (pstep m b (k_mem c)) as [[m' s']|]; [eapply kreqs_put; eauto|auto]. }
    destruct m as [[a cu]| | | | | | | | | | | | |u|]; try exact Hgo. eapply kreqs_put; eauto.
Qed.

Lemma kstep_ok c gh f t b : kinv c gh f -> kreqs c -> stable (k_mem c) -> stable (k_mem (fst (kstep g fuel c t b))) ->
  exists gh' f', kinv (fst (kstep g fuel c t b)) gh' (observe (cont gh') f') /\
    keffect t (cont gh) f (snd (kstep g fuel c t b)) (cont gh') f'.
Proof.
  intros H Hrq St. pose proof H as [Hi Ht]. unfold kstep. destruct (nth_error (k_thr c) t) as [th|] eqn:E.
  2:{ intros _. exists gh, f. split; [apply kidle; auto|constructor]. }
  pose proof (Ht _ _ E) as Hth. set (x := mk_w (k_mem c) gh) in *.
  assert (Hsame : forall u, u <> t -> rely u x x) by (intros; apply rely_refl).
  pose proof (Hrq _ _ E) as Hq.
  destruct th as [cu [|q td]|m td]; cbn [kthr] in Hth.
  - intros _. exists gh, f. split; [apply kidle; auto|constructor].
  - intros _. destruct Hth as (A & B & C). destruct q as [o|b0 e| |drec].
    + exists (with_stat gh (tset (stat gh) t (SPend o))), (vset f t (mk_view (SPend o) (v_cur (f t)))).
      split; [|cbn [fst snd]; constructor; auto]. cbn [fst]. eapply kput; eauto.
      * apply inv_stat; auto.
      * intros u Hu. apply rely_stat. unfold tset. destruct (Nat.eqb_spec u t); congruence.
      * intros u Hu. unfold vset. destruct (Nat.eqb_spec u t); congruence.
      * unfold vset. rewrite Nat.eqb_refl. left. exists cu. cbn [obs v_call]. split; [cbn; unfold tset; rewrite Nat.eqb_refl; auto|].
        split.
        -- apply (cuok_obs x (mk_w (k_mem c) (with_stat gh (tset (stat gh) t (SPend o))))); auto.
        -- cbn [req_prog]. apply wp_bind. eapply wp_mono; [|apply call_wp; auto; cbn; unfold tset; rewrite Nat.eqb_refl; eauto].
           intros r y Hy. exists r. auto.
    + exists gh, (vset f t (mk_view (v_call (f t)) (Some (b0, e, [cont gh], [])))).
      split; [|cbn [fst snd]; constructor]. cbn [fst]. eapply kput; eauto.
      * intros u Hu. unfold vset. destruct (Nat.eqb_spec u t); congruence.
      * unfold vset. rewrite Nat.eqb_refl. right. left. split; auto. cbn [obs v_call v_cur]. split; auto.
        split; [exists [cont gh]; auto|]. right. split; auto. destruct b0 as [[bk closed]|]; [apply open_some_rp; auto|]. apply open_none_rp; auto. cbn [todo_of] in Hq. inversion Hq; auto.
    + exists gh, f. split; [|cbn [fst snd]; constructor]. cbn [fst]. eapply kput; eauto.
      apply (kthr_later x x); [apply rely_refl|]. right. left. split; auto. split; auto. unfold cuok in C.
      destruct (v_cur (f t)) as [[[[b0 e] L] l]|]; [|subst cu; auto].
      destruct C as [C1 C2]. split; auto. left. destruct cu as [[pg it]|]; [|destruct C2 as (? & ? & ? & ? & X & _); discriminate].
      apply next_rp; auto.
    + exists gh, f. split; [|cbn [fst snd]; constructor]. cbn [fst]. eapply kput; eauto.
      apply (kthr_later x x); [apply rely_refl|]. right. right. exists cu, [cont gh]. split; auto. split; auto. split; auto.
      split; [exists []; auto|]. apply stat_req_rp; auto.
  - assert (Hmove : forall m' s', pstep m b (k_mem c) = Some (m', s') -> stable s' ->
      exists gh' f', kinv (mk_kst s' (firstn t (k_thr c) ++ KRun m' td :: skipn (S t) (k_thr c))) gh' (observe (cont gh') f') /\
        keffect t (cont gh) f [] (cont gh') f').
    { intros m' s' Ep St'. destruct Hth as [(cu & A & B & C)|[(A & B & C)|(cu & L & A & B & C & D & F)]].
      - destruct (wp_pstep g A0 R0 L0 t m _ b x m' s' C Hi St Ep St') as (gh' & A1 & [A2 A3] & A4).
        assert (Hn : forall p w, $nd x p = Some w -> nd gh' p = Some w).
        { apply (r_nd _ _ _ _ _ (A2 (S t) ltac:(lia))). }
        assert (Hcu : cuok (mk_w s' gh') (obs (cont gh') (f t)) cu) by (apply (cuok_obs x (mk_w s' gh')); auto).
        destruct A3 as [[L1 L2]|(o & L1 & L2 & L3)]; cbn in L1, L2.
        + exists gh', f. rewrite L1. split; [|constructor]. rewrite <- L1. eapply kput; eauto.
          left. exists cu. cbn [obs v_call]. split; [rewrite A; cbn; rewrite L2; auto|]. auto.
        + exists gh', (vset f t (mk_view (SDone (fst (spec (cont gh) o))) (v_cur (f t)))).
          split; [|rewrite L2; constructor; rewrite A; auto]. eapply kput; eauto.
          * intros u Hu. unfold vset. destruct (Nat.eqb_spec u t); congruence.
          * unfold vset. rewrite Nat.eqb_refl. left. exists cu. cbn [obs v_call]. split; [|split; auto].
            cbn in L3 |- *. rewrite L3. unfold tset. rewrite Nat.eqb_refl. auto.
      - exists gh, f. destruct (v_cur (f t)) as [[[[b0 e] L] l]|] eqn:Ev; [|subst m; discriminate].
        destruct C as [C0 C].
        assert (s' = k_mem c /\ (rp t m' (next_post g b0 e l) L x \/ l = [] /\ rp t m' (open_post g b0 e) L x)) as [-> C'].
        { destruct C as [C|[El C]]; destruct (rp_pstep t m _ b L x m' s' C Hi St C0 Ep) as [C1 C2]; auto. }
        split; [|constructor]. eapply kput; eauto. apply (kthr_later x x); [apply rely_refl|].
        right. left. rewrite Ev. auto.
      - destruct (rp_pstep t m _ b L x m' s' F Hi St D Ep) as [-> F']. exists gh, f. split; [|constructor]. eapply kput; eauto.
        apply (kthr_later x x); [apply rely_refl|]. right. right. exists cu, L. auto. }
    assert (Hgo : stable (k_mem (fst (match pstep m b (k_mem c) with
        | Some (m', s') => (mk_kst s' (firstn t (k_thr c) ++ KRun m' td :: skipn (S t) (k_thr c)), [])
        | None => (c, @nil kevent) end))) -> exists gh' f', kinv (fst (match pstep m b (k_mem c) with
        | Some (m', s') => (mk_kst s' (firstn t (k_thr c) ++ KRun m' td :: skipn (S t) (k_thr c)), [])
        | None => (c, @nil kevent) end)) gh' (observe (cont gh') f') /\
        keffect t (cont gh) f (snd (match pstep m b (k_mem c) with
        | Some (m', s') => (mk_kst s' (firstn t (k_thr c) ++ KRun m' td :: skipn (S t) (k_thr c)), [])
        | None => (c, @nil kevent) end)) (cont gh') f').
    { destruct (pstep m b (k_mem c)) as [[m' s']|] eqn:Ep; [intros St'; apply (Hmove m' s'); auto|].
      intros _. exists gh, f. split; [apply kidle; auto|constructor]. }
    destruct m as [[a cu]| | | | | | | | | | | | |u|]; try exact Hgo. clear Hmove Hgo. intros _.
    destruct Hth as [(cu' & A & B & (r & C1 & C2))|[(A & B & C)|(cu' & L & A & B & C & D & (l & F1 & F2))]].
    + inversion C1; subst a cu'.
      exists (with_stat gh (tset (stat gh) t SIdle)), (vset f t (mk_view SIdle (v_cur (f t)))).
      split; [|cbn [fst snd]; constructor; rewrite A; auto]. cbn [fst]. eapply kput; eauto.
      * apply inv_stat; auto.
      * intros u Hu. apply rely_stat. unfold tset. destruct (Nat.eqb_spec u t); congruence.
      * intros u Hu. unfold vset. destruct (Nat.eqb_spec u t); congruence.
      * unfold vset. rewrite Nat.eqb_refl. split; [cbn; unfold tset; rewrite Nat.eqb_refl; auto|]. split; auto.
        apply (cuok_obs x (mk_w (k_mem c) (with_stat gh (tset (stat gh) t SIdle)))); auto.
    + destruct (v_cur (f t)) as [[[[b0 e] L] l]|] eqn:Ev.
      * destruct C as [C0 [C|[-> [C1 C2]]]].
        -- cbn [MrgClient.rp] in C. unfold next_post in C. cbn [fst snd] in C. destruct a as [| |a| |]; try contradiction.
           ++ destruct C as [C1 C2]. exists gh, (vset f t (mk_view (v_call (f t)) (Some (b0, e, L, l ++ [a])))).
              split; [|cbn [fst snd]; econstructor; eauto]. cbn [fst]. eapply kput; eauto.
              ** intros u Hu. unfold vset. destruct (Nat.eqb_spec u t); congruence.
              ** apply (kthr_later x x); [apply rely_refl|]. unfold vset. rewrite Nat.eqb_refl. split; auto. split; auto. split; auto.
           ++ destruct C as [C1 C2]. exists gh, f.
              split; [|cbn [fst snd]; eapply ke_end; eauto]. cbn [fst]. eapply kput; eauto.
              apply (kthr_later x x); [apply rely_refl|]. split; auto. split; auto. unfold cuok. rewrite Ev. auto.
        -- cbn [fst snd] in C1, C2. subst a. exists gh, f. split; [|cbn [fst snd]; constructor]. cbn [fst]. eapply kput; eauto.
           apply (kthr_later x x); [apply rely_refl|]. split; auto. split; auto. unfold cuok. rewrite Ev. auto.
      * inversion C; subst a cu. exists gh, f. split; [|cbn [fst snd]; eapply ke_noiter; auto]. cbn [fst]. eapply kput; eauto.
        apply (kthr_later x x); [apply rely_refl|]. split; auto. split; auto. unfold cuok. rewrite Ev. auto.
    + injection F1 as -> ->. exists gh, f. split; [|cbn [fst snd]; constructor; auto]. cbn [fst]. eapply kput; eauto.
      apply (kthr_later x x); [apply rely_refl|]. split; auto.
Qed.

Lemma kstays_here c sch : kroot_stays g fuel R0 c sch -> stable (k_mem c).
Proof. intros H. apply (H [] sch eq_refl). Qed.
Lemma kstays_next c t b sch : kroot_stays g fuel R0 c ((t, b) :: sch) -> kroot_stays g fuel R0 (fst (kstep g fuel c t b)) sch.
Proof.
  intros H pre post ->. pose proof (H ((t, b) :: pre) post eq_refl) as X. cbn [kexec] in X.
  destruct (kstep g fuel c t b) as [c' h]. cbn [fst]. destruct (kexec g fuel c' pre) as [c2 h2]. exact X.
Qed.

Lemma kexplained_ok sch : forall c gh f, kinv c gh f -> kreqs c -> kroot_stays g fuel R0 c sch ->
  kexplained g fuel c (cont gh) f sch /\ exists gh' f', kinv (fst (kexec g fuel c sch)) gh' f'.
Proof.
  induction sch as [|[t b] sch IH]; intros c gh f H Hrq Rs; pose proof (kstays_here _ _ Rs) as St.
  - split; [constructor; eapply reads_ok; [eauto|apply H|auto]|exists gh, f; auto].
  - apply kstays_next in Rs. pose proof (kstays_here _ _ Rs) as St'.
    destruct (kstep_ok c gh f t b H Hrq St St') as (gh' & f' & H' & Ef). pose proof (kreqs_step c t b Hrq) as Hrq'. cbn [kexec].
    destruct (kstep g fuel c t b) as [c' h] eqn:E. cbn [fst snd] in *. destruct (IH c' gh' _ H' Hrq' Rs) as [X Y].
    destruct (kexec g fuel c' sch) as [c2 h2]. cbn [fst] in *. split; auto.
    econstructor; eauto. eapply reads_ok; [eauto|apply H|auto].
Qed.

Lemma kinv_nocrash c gh f : kinv c gh f -> ~ kcrashed c.
Proof.
  intros [_ H] (u & r & Hin). apply In_nth_error in Hin as [t E]. specialize (H _ _ E). cbn [kthr] in H.
  destruct H as [(cu & _ & _ & [])|[(_ & _ & H)|(cu & L & _ & _ & _ & _ & [])]].
  destruct (v_cur (f t)) as [[[[b0 e] L] l]|]; [|discriminate]. destruct H as [_ [[]|[_ []]]].
Qed.
End M.

(** ** Closed forms *)
Section Closed.
Variable g : cfg.
Hypothesis OK : cfg_ok g.

Lemma two_levels_lev s M gh A0 L0 : inv g A0 (s_root s) L0 (mk_w s gh) -> tree g s M -> two_levels s -> (L0 <= 1)%nat.
Proof.
  intros Hi T H. destruct (tree_stable g s M T) as (_ & c & Tc & Rc & _).
  pose proof (i_root _ _ _ _ _ Hi) as E.
  destruct (live_at _ _ _ _ _ _ _ _ _ Hi E Tc Rc) as (_ & _ & Kc).
  destruct L0 as [|m]; [lia|]. destruct (H c Tc) as [Lf|(p & d & Lm & Td & Lf)].
  - rewrite (tbl_leaf _ _ _ _ _ _ _ _ _ Hi E Tc) in Lf. discriminate.
  - pose proof (s_wf _ _ _ (n_sok _ _ _ _ _ _ _ Kc)) as W. cbn [inn cwf] in W. rewrite (leftmost_inner g c W) in Lm. injection Lm as <-.
    destruct (n_kids _ _ _ _ _ _ _ Kc m eq_refl) as [HK _]. unfold ikids in HK. rewrite Forall_forall in HK.
    specialize (HK (c_lo c, ilead c) (or_introl eq_refl)). cbn [fst snd] in HK.
    rewrite (tbl_leaf _ _ _ _ _ _ _ _ _ Hi HK Td) in Lf. destruct m; [lia|discriminate].
Qed.

Lemma tree_kexplained s M fuel todos sch : tree g s M -> addr_lt s -> begins_given todos \/ two_levels s ->
  kroot_stays g fuel (s_root s) (kstart s todos) sch ->
  kexplained g fuel (kstart s todos) M no_view sch /\ ~ kcrashed (fst (kexec g fuel (kstart s todos) sch)).
Proof.
  intros T AD BG Rs. pose proof T as (flat & N & lv & UP & GL & FM).
  pose proof (start_inv g OK s M N lv flat UP GL FM AD) as Hi.
  assert (C : kinv g (s_naddr s) (s_root s) (length lv) (kstart s todos) (sgh M N lv) no_view).
  { split; [exact Hi|]. cbn [k_mem k_thr kstart]. intros t th E. apply nth_error_In in E.
    apply in_map_iff in E as (td & <- & _). repeat split; reflexivity. }
  assert (Q : kreqs (length lv) (kstart s todos)).
  { cbn [k_thr kstart]. intros t th E. apply nth_error_In in E. apply in_map_iff in E as (td & <- & Htd). cbn [todo_of].
    apply Forall_forall. intros [o|[b|] e| |drec] Hq; cbn [okreq]; auto.
    destruct BG as [BG|BG]; [exfalso; apply (BG _ _ _ Htd Hq); auto|]. eapply two_levels_lev; eauto. }
  destruct (kexplained_ok g OK _ _ _ fuel sch _ _ _ C Q Rs) as [A (gh & f & B)]. split; [exact A|]. eapply kinv_nocrash; eauto.
Qed.

Section Calls.
Variables (f0 : nat) (os : list call) (rs : list ret) (s0 : st).
Hypothesis R0 : run_calls g f0 os (init g) = Done rs s0.
Variables (fuel : nat) (todos : list (list req)) (sch : list (tid * bool)).
Hypothesis BG : begins_given todos \/ two_levels s0.
Hypothesis RS : kroot_stays g fuel (s_root s0) (kstart s0 todos) sch.
Lemma mrg_kexplained : kexplained g fuel (kstart s0 todos) (snd (spec_run sempty os)) no_view sch.
Proof. destruct (calls_tree g OK f0 os rs s0 R0) as (A & B & _). apply (tree_kexplained s0 _ fuel todos sch A B BG RS). Qed.
Lemma mrg_knocrash : ~ kcrashed (fst (kexec g fuel (kstart s0 todos) sch)).
Proof. destruct (calls_tree g OK f0 os rs s0 R0) as (A & B & _). apply (tree_kexplained s0 _ fuel todos sch A B BG RS). Qed.
End Calls.
End Closed.

Lemma kroot_stays_ok g fuel r sch : forall c, kroot_stays_b g fuel r c sch = true -> kroot_stays g fuel r c sch.
Proof.
  induction sch as [|[t b] sch IH]; intros c H; cbn [kroot_stays_b] in H; apply andb_true_iff in H as [H1 H2];
    intros [|[t' b'] pre] post E; cbn [app] in E; try discriminate; try (apply root_in_place_ok; exact H1).
  inversion E; subst. specialize (IH _ H2 pre post eq_refl). cbn [kexec].
  destruct (kstep g fuel c t' b') as [c' h]. cbn [fst] in *. destruct (kexec g fuel c' pre). exact IH.
Qed.

(** The two-level test, computed. *)
Definition two_levels_b (s : st) : bool :=
  match s_tbl s (s_root s) with
  | None => true
  | Some c => h_leaf c ||
      match leftmost_child c with
      | Some p => match s_tbl s p with Some d => h_leaf d | None => false end
      | None => false
      end
  end.
Lemma two_levels_ok s : two_levels_b s = true -> two_levels s.
Proof.
  intros B c Hc. unfold two_levels_b in B. rewrite Hc in B. apply Bool.orb_true_iff in B.
  destruct B as [B | B]; [left; exact B | right].
  destruct (leftmost_child c) as [p|] eqn:L; [|discriminate]. destruct (s_tbl s p) as [d|] eqn:D; [|discriminate].
  exists p, d. auto.
Qed.

(** A thread that has run into undefined behaviour, computed. *)
Definition kcrashed_b (c : kst) : bool :=
  existsb (fun t => match t with KRun (UB _) _ => true | _ => false end) (k_thr c).
Lemma kcrashed_ok c : kcrashed_b c = true -> kcrashed c.
Proof.
  intro B. apply existsb_exists in B. destruct B as (t & I & B).
  destruct t as [|m r]; [discriminate|]. destruct m as [| | | | | | | | | | | | |u| ]; try discriminate.
  exists u, r. exact I.
Qed.
