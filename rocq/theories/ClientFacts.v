(** Iterations next to other calls, merging disabled. *)
From Coq Require Import ZArith NArith List Bool Lia.
From Coq Require Import Sorting.Sorted ZifyBool ZifyNat ZifyN.
From Verif Require Import Config Api Page Machine Tree Scan Spec ScanSpec Conc ListFacts SearchFacts ChainSpec ChainFacts
  ConsFacts Valid ConsolidateFacts ChainProps SeqAux SeqSmo SeqOps SeqScan ConcChain ConcInv ConcSteps ConcSearch ConcSmo ConcOps
  ConcSpec ConcMain Client ClientSpec.
Import ListNotations.
Open Scope Z_scope.

(** ** Logs *)
Definition cur (L : list smap) (x : world) : Prop := exists L0, L = L0 ++ [$cont x].
Lemma seen_app L E i k v : seen L i k v -> seen (L ++ E) i k v.
Proof.
  intros (M & A & B). exists M. split; auto. rewrite nth_error_app1; auto. apply nth_error_Some. congruence.
Qed.
Lemma cur_seen L x k : cur L x -> seen L (length L - 1) k ($cont x k).
Proof.
  intros [L0 ->]. exists ($cont x). split; auto. rewrite app_length, nth_error_app2 by (cbn; lia).
  cbn. replace (_ - _)%nat with 0%nat by lia. auto.
Qed.
Lemma cur_pos L x : cur L x -> (0 < length L)%nat.
Proof. intros [L0 ->]. rewrite app_length. cbn. lia. Qed.

Section R.
Variable g : cfg.
Hypothesis OK : cfg_ok g.
Notation inv := (inv g). Notation nok := (nok g). Notation rely := (rely g).

Definition later (t : tid) (L : list smap) (x : world) (L' : list smap) (y : world) : Prop :=
  rely t x y /\ exists E, L' = L ++ E.
Lemma later_refl t L x : later t L x L x.
Proof. split; [apply rely_refl|]. exists []. rewrite app_nil_r. auto. Qed.
Lemma later_trans t L x L' y L'' z : later t L x L' y -> later t L' y L'' z -> later t L x L'' z.
Proof.
  intros [A [E ->]] [B [F ->]]. split; [eapply rely_trans; eauto|]. exists (E ++ F). rewrite app_assoc. auto.
Qed.
Lemma later_len t L x L' y : later t L x L' y -> (length L <= length L')%nat.
Proof. intros [_ [E ->]]. rewrite app_length. lia. Qed.
Lemma later_seen t L x L' y i k v : later t L x L' y -> seen L i k v -> seen L' i k v.
Proof. intros [_ [E ->]]. apply seen_app. Qed.

(** ** Programs that only read *)
Fixpoint rp (t : tid) {A} (m : prog A) (Q : A -> list smap -> world -> Prop) (L : list smap) (x : world) {struct m} : Prop :=
  match m with
  | Ret a => Q a L x
  | Fuel => True
  | Load p k => forall L' y, later t L x L' y -> inv y -> cur L' y ->
      exists c, $tbl y p = Some c /\ rp t (k c) Q L' y
  | LoadRoot k => forall L' y, later t L x L' y -> inv y -> cur L' y -> rp t (k (s_root (w_s y))) Q L' y
  | _ => False
  end.

Lemma rp_mono t {A} (m : prog A) : forall (Q Q' : A -> list smap -> world -> Prop) L x,
  (forall a M z, Q a M z -> Q' a M z) -> rp t m Q L x -> rp t m Q' L x.
Proof.
  induction m; intros Q Q' L x HQ; cbn [rp]; auto; intros Hm L' y H1 H2 H3; specialize (Hm L' y H1 H2 H3); eauto.
  destruct Hm as (c & E & Hm). exists c. split; eauto.
Qed.
Lemma rp_bind t {A B} (m : prog A) (f : A -> prog B) Q : forall L x,
  rp t m (fun a M z => rp t (f a) Q M z) L x -> rp t (bind m f) Q L x.
Proof.
  induction m; intros L x; cbn [bind rp]; auto; intros Hm L' y H1 H2 H3; specialize (Hm L' y H1 H2 H3); eauto.
  destruct Hm as (c & E & Hm). exists c. split; eauto.
Qed.
Lemma rp_later t {A} (m : prog A) (Q : A -> list smap -> world -> Prop) L x L' y :
  (forall a M1 z1 M2 z2, Q a M1 z1 -> later t M1 z1 M2 z2 -> Q a M2 z2) -> later t L x L' y -> rp t m Q L x -> rp t m Q L' y.
Proof.
  intros HQ Hl. destruct m; cbn [rp]; auto; try (intros Hm M z H1 H2 H3; apply (Hm M z); auto; eapply later_trans; eauto; fail).
  eauto.
Qed.

Lemma rp_load t p lf lo {B} (K : chain -> prog B) Q L x : $nd x p = Some (lf, lo) ->
  (forall L' y c, later t L x L' y -> inv y -> cur L' y -> nok y p lf lo c -> rp t (K c) Q L' y) ->
  rp t (Load p K) Q L x.
Proof.
  intros E H. cbn [rp]. intros L' y Hr Hi Hc. pose proof (r_nd _ _ _ _ (proj1 Hr) _ _ E) as Ey.
  destruct (inv_at _ _ _ _ _ Hi Ey) as (c & Hn & T). exists c. split; auto.
Qed.
Lemma rp_load_valid t p lf lo {B} (K : chain -> prog B) Q : forall fuel L x, $nd x p = Some (lf, lo) ->
  (forall L' y c, later t L x L' y -> inv y -> cur L' y -> nok y p lf lo c -> rp t (K c) Q L' y) ->
  rp t (bind (load_valid g fuel p) K) Q L x.
Proof.
  induction fuel as [|f IH]; intros L x E H; [exact I|]. cbn [load_valid bind load].
  eapply rp_load; eauto. intros L' y c Hr Hi Hc Hn. pose proof (r_nd _ _ _ _ (proj1 Hr) _ _ E) as Ey.
  destruct (need_wait g c) eqn:W; [|cbn [bind]; apply H; auto].
  apply IH; auto. intros L2 z c' Hz. apply H. eapply later_trans; eauto.
Qed.

(** A stack whose top is a leaf or not ([lf]) and is not right of [k]. *)
Definition top (x : world) (k : key) (lf : bool) (l : list pid) : Prop :=
  exists p r lo, l = p :: r /\ $nd x p = Some (lf, lo) /\ lo_ok lo k.
Lemma top_mono t L x L' y k lf l : later t L x L' y -> top x k lf l -> top y k lf l.
Proof. intros [R _] (p & r & lo & A & B & C). exists p, r, lo. split; auto. split; auto. apply (r_nd _ _ _ _ R); auto. Qed.

Lemma link_ne0 y p lf lo c h : inv y -> nok y p lf lo c -> c_hi c = Some h -> (c_next c =? 0)%N = false.
Proof.
  intros Hi Hn E. pose proof (n_link _ _ _ _ _ _ Hn h E) as X. apply (i_pid _ _ Hi) in X. lia.
Qed.

Lemma child_rp t k closed : forall fuel L x stack, top x (eff k closed) false stack ->
  rp t (search_child_node fuel k closed stack 0%N) (fun r L' y => later t L x L' y /\
    exists lf, top y (eff k closed) lf (snd r)) L x.
Proof.
  induction fuel as [|f IH]; intros L x stack (p & r & lo & -> & E & Lo); [exact I|].
  cbn [search_child_node bind load]. eapply rp_load; eauto. intros L' y c Hr Hi Hc Hn.
  pose proof (n_wf _ _ _ _ _ _ Hn) as W. pose proof (n_kids _ _ _ _ _ _ Hn eq_refl) as HK.
  pose proof (n_lo _ _ _ _ _ _ Hn) as Elo. cbn [fst snd] in *.
  assert (Found : forall l v, kid y l v -> lo_ok l (eff k closed) -> exists lf, top y (eff k closed) lf (v :: p :: r)).
  { intros l v [b Hb] O. exists b, v, (p :: r), l. auto. }
  destruct (j_search_child g _ c k closed W HK) as [l v P1 P2 P3|n l v N1 P1 P2 P3|h P1 P2].
  { rewrite Elo. auto. }
  - rewrite (nok_leaf _ _ _ _ _ _ Hn). cbn [rp snd]. split; auto. eapply Found; eauto.
  - rewrite N1, (nok_leaf _ _ _ _ _ _ Hn). cbn [rp snd]. split; auto. eapply Found; eauto.
  - rewrite (link_ne0 _ _ _ _ _ _ Hi Hn P1).
    eapply rp_mono; [|apply IH; exists (c_next c), r, (Some h); split; [auto|split; [apply (n_link _ _ _ _ _ _ Hn); auto|exact P2]]].
    cbn beta. intros a M z [Hz Hs]. split; auto. eapply later_trans; eauto.
Qed.

Lemma leaf_loop_rp t k closed : forall fuel L x stack lf, top x (eff k closed) lf stack ->
  rp t (leaf_loop fuel k closed stack) (fun st L' y => later t L x L' y /\ top y (eff k closed) true st) L x.
Proof.
  induction fuel as [|f IH]; intros L x stack lf (p & r & lo & -> & E & Lo); [exact I|].
  cbn [leaf_loop bind load]. eapply rp_load; eauto. intros L' y c Hr Hi Hc Hn.
  pose proof (r_nd _ _ _ _ (proj1 Hr) _ _ E) as Ey.
  rewrite (nok_leaf _ _ _ _ _ _ Hn). destruct lf.
  - cbn [rp]. split; auto. exists p, r, lo. auto.
  - apply rp_bind. eapply rp_mono; [|apply child_rp; exists p, r, lo; auto].
    intros [b st] M z [Hz [lf Hst]]. cbn [snd] in Hst.
    eapply rp_mono; [|eapply IH; eauto]. intros a N w [Hw Hs]. split; auto.
    eapply later_trans; [eauto|]. eapply later_trans; eauto.
Qed.
Lemma search_leaf_rp t k closed fuel L x :
  rp t (search_leaf fuel k closed) (fun st L' y => later t L x L' y /\ top y (eff k closed) true st) L x.
Proof.
  unfold search_leaf. cbn [rp]. intros L' y Hr Hi Hc.
  destruct (i_root _ _ Hi) as [b Hb]. eapply rp_mono; [|eapply (leaf_loop_rp t k closed fuel L' y _ b)].
  - intros a M z [Hz Hs]. split; auto. eapply later_trans; eauto.
  - exists (s_root (w_s y)), [], None. cbn. auto.
Qed.

Lemma jwf_leftmost c : jwf g c -> leftmost_child c = Some (nlead (c_base c)).
Proof.
  induction c as [n|d nx IH|d n nx IH|]; cbn [jwf leftmost_child c_base]; try tauto.
  intros (_ & (k0 & E & _) & _). rewrite E. auto.
Qed.
Lemma jkids_lead P c : jwf g c -> jkids P c -> P (c_lo c) (nlead (c_base c)).
Proof.
  unfold c_lo. induction c as [n|d nx IH|d n nx IH|]; cbn [jwf jkids c_base]; try tauto.
Qed.
Lemma leftmost_rp t : forall fuel L x stack p r b, stack = p :: r -> $nd x p = Some (b, None) ->
  rp t (leftmost_loop fuel stack) (fun st L' y => later t L x L' y /\
    exists q r', st = q :: r' /\ $nd y q = Some (true, None)) L x.
Proof.
  induction fuel as [|f IH]; intros L x stack p r b -> E; [exact I|].
  cbn [leftmost_loop bind load]. eapply rp_load; eauto. intros L' y c Hr Hi Hc Hn.
  pose proof (r_nd _ _ _ _ (proj1 Hr) _ _ E) as Ey.
  rewrite (nok_leaf _ _ _ _ _ _ Hn). destruct b.
  - cbn [rp]. split; eauto.
  - pose proof (n_wf _ _ _ _ _ _ Hn) as W. cbn [rp]. rewrite (jwf_leftmost c W).
    pose proof (jkids_lead _ c W (n_kids _ _ _ _ _ _ Hn eq_refl)) as [b Hb]. rewrite (n_lo _ _ _ _ _ _ Hn) in Hb.
    eapply rp_mono; [|eapply IH; eauto]. intros a M z [Hz Hs]. split; auto. eapply later_trans; eauto.
Qed.
Lemma search_leftmost_rp t fuel L x :
  rp t (search_leftmost fuel) (fun st L' y => later t L x L' y /\
    exists q r', st = q :: r' /\ $nd y q = Some (true, None)) L x.
Proof.
  unfold search_leftmost. cbn [rp]. intros L' y Hr Hi Hc.
  destruct (i_root _ _ Hi) as [b Hb]. eapply rp_mono; [|eapply (leftmost_rp t fuel L' y _ _ [] b eq_refl Hb)].
  intros a M z [Hz Hs]. split; auto. eapply later_trans; eauto.
Qed.

(** A leaf read at the instant [i]. *)
Record snap (L : list smap) (x : world) (i : nat) (c : chain) : Prop := mk_snap {
  sn_i : (i < length L)%nat;
  sn_wf : lwf g c;
  sn_con : forall k, in_rng (c_lo c) (c_hi c) k -> seen L i k (lget c k);
  sn_link : forall h, c_hi c = Some h -> $nd x (c_next c) = Some (true, Some h)
}.
Lemma snap_later t L x L' y i c : later t L x L' y -> snap L x i c -> snap L' y i c.
Proof.
  intros Hl [A B C D]. constructor; auto.
  - pose proof (later_len _ _ _ _ _ Hl). lia.
  - intros k Hk. eapply later_seen; eauto.
  - intros h Eh. apply (r_nd _ _ _ _ (proj1 Hl)); auto.
Qed.
Lemma nok_snap L y p lo c : inv y -> cur L y -> $nd y p = Some (true, lo) -> nok y p true lo c -> snap L y (length L - 1) c.
Proof.
  intros Hi Hc E Hn. constructor.
  - pose proof (cur_pos _ _ Hc). lia.
  - apply (n_wf _ _ _ _ _ _ Hn).
  - intros k Hk. rewrite (n_lo _ _ _ _ _ _ Hn) in Hk. rewrite (i_con _ _ Hi p lo c k); auto; [|apply Hn]. apply cur_seen; auto.
  - apply (n_link _ _ _ _ _ _ Hn).
Qed.

Lemma scan_page_rp t L y p lo c (Q : node -> list smap -> world -> Prop) : nok y p true lo c -> Q (spage g c) L y ->
  rp t (scan_page g c) Q L y.
Proof.
  intros Hn HQ. pose proof (n_wf _ _ _ _ _ _ Hn) as Hw. cbn in Hw. unfold scan_page.
  destruct (sort_ok_ex c (lwf_mhigh _ _ Hw)) as (ds & Hs).
  destruct (cons_leaf_scan g c ds 0%N 0%N Hw Hs) as [E1 E2]. pose proof Hs as (-> & _ & _ & Hd).
  pose proof (ok_thr g OK).
  assert (Z.of_nat (ndelta c) <= c_maxd g).
  { destruct (is_base c) eqn:B; [destruct c; try discriminate; cbn; lia|].
    pose proof (ndelta_cnt_l g c Hw B). pose proof (n_cnt _ _ _ _ _ _ Hn B). lia. }
  destruct (Z.ltb_spec (c_maxd g) (Z.of_nat (length ds))); [lia|].
  rewrite (lwf_leaf g c Hw). cbn [negb]. rewrite E2.
  pose proof (n_sz _ _ _ _ _ _ Hn). pose proof (page_pos g OK). pose proof (ok_hdr g OK).
  assert (0 <= maxrec g) by (unfold maxrec, metalen, ptrlen; pose proof (ok_key g OK 0); pose proof (ok_pay g OK); destruct (c_varlen g); lia).
  destruct (Z.ltb_spec (2 * c_page g) (h_size c)); [lia|].
  rewrite E1. exact HQ.
Qed.

Lemma rp_assoc t {A B C} (m : prog A) (f : A -> prog B) (h : B -> prog C) Q : forall L x,
  rp t (bind m (fun a => bind (f a) h)) Q L x -> rp t (bind (bind m f) h) Q L x.
Proof.
  induction m; intros L x; cbn [bind rp]; auto; intros Hm L' y H1 H2 H3; specialize (Hm L' y H1 H2 H3); eauto.
  destruct Hm as (c & E & Hm). exists c. split; eauto.
Qed.

Lemma get_head_rp t k closed {B} (K : option chain * list pid -> prog B) Q : forall fuel L x stack,
  top x (eff k closed) true stack ->
  (forall L' y c p lo st, later t L x L' y -> inv y -> cur L' y -> $nd y p = Some (true, lo) -> nok y p true lo c ->
     in_rng lo (c_hi c) (eff k closed) -> rp t (K (Some c, st)) Q L' y) ->
  rp t (bind (get_head g fuel k closed stack 0%N) K) Q L x.
Proof.
  induction fuel as [|f IH]; intros L x stack (p & r & lo & -> & E & Lo) H; [exact I|].
  cbn [get_head]. apply rp_assoc. eapply rp_load_valid; eauto. intros L' y c Hr Hi Hc Hn.
  pose proof (r_nd _ _ _ _ (proj1 Hr) _ _ E) as Ey. pose proof (n_wf _ _ _ _ _ _ Hn) as W. cbn in W.
  rewrite (validate_spec c k closed (lwf_mhigh _ _ W)).
  destruct (c_hi c) as [h|] eqn:Eh.
  2:{ cbn [bind]. eapply H; eauto. rewrite Eh. split; [auto|exact I]. }
  destruct (Z.ltb_spec (eff k closed) h).
  { cbn [bind]. eapply H; eauto. rewrite Eh. split; auto. }
  rewrite (link_ne0 _ _ _ _ _ _ Hi Hn Eh). apply IH.
  - exists (c_next c), r, (Some h). split; auto. split; [apply (n_link _ _ _ _ _ _ Hn); auto|auto].
  - intros M z c' q lq st Hz. apply H. eapply later_trans; eauto.
Qed.

(** The position of the first record of [c] after [b]. *)
Definition cut_at (c : chain) (b : bound) (pos : Z) : Prop :=
  0 <= pos /\ forall i r, nth_error (lrecs c) i = Some r -> (pos <= Z.of_nat i <-> after b (fst r)).

Lemma cons_for_scan_rp t k closed {B} (K : node * Z -> prog B) Q : forall fuel L x stack,
  top x (eff k closed) true stack ->
  (forall L' y c pos, later t L x L' y -> inv y -> cur L' y -> snap L' y (length L' - 1) c ->
     in_rng (c_lo c) (c_hi c) (eff k closed) -> cut_at c (Some (k, closed)) pos ->
     rp t (K (spage g c, pos)) Q L' y) ->
  rp t (bind (cons_for_scan g fuel k closed stack) K) Q L x.
Proof.
  destruct fuel as [|f]; intros L x stack Ht H; [exact I|]. cbn [cons_for_scan]. apply rp_assoc.
  apply get_head_rp; auto. intros L' y c p lo st Hr Hi Hc E Hn Rk.
  pose proof (n_wf _ _ _ _ _ _ Hn) as W. cbn in W. rewrite (lwf_not_remove _ _ W). apply rp_assoc, rp_bind.
  eapply scan_page_rp; eauto.
  destruct (lwf_sorted _ _ W) as [Hs _].
  pose proof (c05_leaf (spage g c) k eq_refl Hs) as Hp. destruct (node_search (spage g c) k) as [found q].
  destruct Hp as [Hp Hf]. cbn [spage cons_page n_recs] in Hf, Hp. cbn [bind].
  eapply H; eauto.
  - eapply nok_snap; eauto.
  - rewrite (n_lo _ _ _ _ _ _ Hn). auto.
  - split; [destruct found, closed; cbn; lia|]. intros i r Hi2. destruct found; cbn [negb orb].
    + destruct Hf as (v & Hf). destruct (cut_found _ _ _ _ Hs Hf (proj1 Hp) i r Hi2) as (B1 & B2 & B3).
      destruct closed; cbn [after]; split; intros; lia.
    + destruct r as [r w]. destruct (Hf i r w Hi2) as [B1 B2]. cbn [fst]. destruct closed; cbn [after]; split; intros; lia.
Qed.

(** ** Iterators *)
Definition at_leaf (L : list smap) (x : world) (i : nat) (b e : bound) (pg : node) (it : iter) : Prop :=
  exists c pos, snap L x i c /\ pg = spage g c /\
    it = mk_iter pos (snd (search_end pg e)) (fst (search_end pg e)) e /\ cut_at c b pos /\
    (forall k, after b k -> lo_ok (c_lo c) k) /\
    (forall h, c_hi c = Some h -> forall k, h <= k -> after b k).

Definition mono (w : key -> nat) : Prop := forall k k', k <= k' -> (w k <= w k')%nat.
Definition gap (L : list smap) (i j : nat) (b b' e : bound) : Prop :=
  exists w, mono w /\ (forall k, (i <= w k <= j)%nat) /\
    forall k, after b k -> ~ after b' k -> before e k -> seen L (w k) k None.
Definition bbz (b : bound) (k : key) : bool := bb b (k, 0%N).
Lemma bbz_spec b k : bbz b k = true <-> after b k. Proof. apply bb_after. Qed.
Lemma bbz_false b k : bbz b k = false <-> ~ after b k.
Proof. rewrite <- bbz_spec. destruct (bbz b k); intuition congruence. Qed.
Lemma after_up b k k' : k <= k' -> after b k -> after b k'.
Proof. destruct b as [[x []]|]; cbn; auto; lia. Qed.
Lemma mono_if b (w1 w2 : key -> nat) i : mono w1 -> mono w2 -> (forall k, (w1 k <= i)%nat) -> (forall k, (i <= w2 k)%nat) ->
  mono (fun k => if bbz b k then w2 k else w1 k).
Proof.
  intros M1 M2 H1 H2 k k' Hk. destruct (bbz b k) eqn:E1, (bbz b k') eqn:E2; auto.
  - apply bbz_spec in E1. apply bbz_false in E2. exfalso. apply E2. eapply after_up; eauto.
  - specialize (H1 k). specialize (H2 k'). lia.
Qed.
Lemma gap_app L E i j b b' e : gap L i j b b' e -> gap (L ++ E) i j b b' e.
Proof. intros (w & A & B & C). exists w. split; auto. split; auto. intros. apply seen_app; auto. Qed.
Lemma gap_const L i b b' e : (forall k, after b k -> ~ after b' k -> before e k -> seen L i k None) -> gap L i i b b' e.
Proof. intros H. exists (fun _ => i). split; [intros ? ? ?; lia|]. split; [intros; lia|auto]. Qed.
Lemma gap_le L i j j' b b' e : (j <= j')%nat -> gap L i j b b' e -> gap L i j' b b' e.
Proof. intros H (w & A & B & C). exists w. split; auto. split; auto. intros k. specialize (B k). lia. Qed.
Lemma gap_trans L i j l b b' b'' e : gap L i j b b' e -> gap L j l b' b'' e -> (i <= j <= l)%nat -> gap L i l b b'' e.
Proof.
  intros (w & A1 & B1 & C1) (w' & A2 & B2 & C2) H.
  exists (fun k => if bbz b' k then w' k else w k). split; [|split].
  - apply (mono_if b' w w' j); auto; intros k; [apply B1|apply B2].
  - intros k. specialize (B1 k). specialize (B2 k). destruct (bbz b' k); lia.
  - intros k H1 H2 H3. destruct (bbz b' k) eqn:E.
    + apply bbz_spec in E. auto.
    + apply bbz_false in E. auto.
Qed.

Lemma seen_none L x i c b pos k : snap L x i c -> cut_at c b pos -> after b k -> lo_ok (c_lo c) k -> hi_ok (c_hi c) k ->
  (forall j v, nth_error (lrecs c) j = Some (k, v) -> pos <= Z.of_nat j -> False) -> seen L i k None.
Proof.
  intros Sn [_ Hc] Ha Lo Hi H. pose proof (sn_con _ _ _ _ Sn k (conj Lo Hi)) as S. unfold lget in S.
  destruct (find k (lrecs c)) as [v|] eqn:F; auto. exfalso.
  apply find_in in F. apply In_nth_error in F as [j F]. eapply H; eauto. apply (Hc _ _ F). auto.
Qed.

Definition has_post (t : tid) L x i b e (r : bool * node * iter) L' y : Prop :=
  later t L x L' y /\ exists j b', (i <= j)%nat /\ (forall k, after b' k -> after b k) /\ gap L' i j b b' e /\
    let '(more, pg, it) := r in
    if more : bool then exists k v, get_record pg it = Some (k, v) /\ b' = Some (k, true) /\ before e k /\
      seen L' j k (Some v) /\ at_leaf L' y j (Some (k, false)) e pg (advance it)
    else at_leaf L' y j b' e pg it /\ forall k, after b' k -> before e k -> seen L' j k None.

Lemma has_rp t : forall fuel L x i b e pg it, at_leaf L x i b e pg it ->
  rp t (has_record g fuel pg it) (has_post t L x i b e) L x.
Proof.
  induction fuel as [|f IH]; intros L x i b e pg it A; [exact I|]. pose proof A as (c & pos & Sn & Ep & Ei & Hc & Hlo & Hhi).
  pose proof (sn_wf _ _ _ _ Sn) as W. pose proof (end_cut g c e W) as EC. rewrite <- Ep in EC.
  destruct (search_end pg e) as [is_end ep] eqn:Es. destruct EC as (H1 & H2 & H3). cbn [fst snd] in Ei.
  destruct (lwf_sorted _ _ W) as [Hs Hr]. pose proof Hc as [Hp0 Hp].
  cbn [has_record]. rewrite Ei. cbn [i_pos i_end i_isend i_ekey].
  destruct (Z.ltb_spec pos ep) as [Hlt|Hge].
  - cbn [rp]. split; [apply later_refl|].
    destruct (nth_error (lrecs c) (Z.to_nat pos)) as [[k v]|] eqn:Ex; [|apply nth_error_None in Ex; lia].
    assert (Ak : after b k) by (apply (Hp _ _ Ex); lia).
    assert (Rk : in_rng (c_lo c) (c_hi c) k) by (rewrite Forall_forall in Hr; apply (Hr (k, v)); eapply nth_error_In; eauto).
    exists i, (Some (k, true)). split; [lia|]. split; [cbn; intros q Hq; eapply after_up; eauto|]. split.
    + apply gap_const. intros q Q1 Q2 Q3. cbn [after] in Q2. apply Z.nle_gt in Q2.
      eapply (seen_none L x i c b pos q Sn Hc Q1 (Hlo _ Q1)).
      * destruct Rk as [_ Rk]. destruct (c_hi c); cbn in *; auto. lia.
      * intros j w Hj Hle. destruct (Z.eq_dec pos (Z.of_nat j)) as [E|E].
        -- replace (Z.to_nat pos) with j in Ex by lia. rewrite Hj in Ex. inversion Ex. lia.
        -- pose proof (sorted_nth _ Hs (Z.to_nat pos) j _ _ ltac:(lia) Ex Hj) as X. cbn in X. lia.
    + exists k, v. split; [rewrite Ep; exact Ex|]. split; auto. split; [|split].
      * apply (eb_before e k v). apply (H2 _ _ Ex). lia.
      * replace (Some v) with (lget c k); [apply (sn_con _ _ _ _ Sn); auto|]. unfold lget. apply sorted_in_find; auto.
        eapply nth_error_In; eauto.
      * exists c, (pos + 1). split; auto. split; auto. split; [rewrite Es; reflexivity|]. split; [|split].
        -- split; [lia|]. intros j [q w] Hj. cbn [after fst].
           destruct (Nat.lt_trichotomy j (Z.to_nat pos)) as [Q|[Q|Q]].
           ++ pose proof (sorted_nth _ Hs j (Z.to_nat pos) _ _ Q Hj Ex) as X. cbn in X. split; intros; lia.
           ++ subst j. rewrite Hj in Ex. inversion Ex; subst. split; intros; lia.
           ++ pose proof (sorted_nth _ Hs (Z.to_nat pos) j _ _ Q Ex Hj) as X. cbn in X. split; intros; lia.
        -- cbn [after]. intros q Hq. destruct Rk as [Rk _]. destruct (c_lo c); cbn in *; auto. lia.
        -- intros h Eh q Hq. cbn [after]. destruct Rk as [_ Rk]. rewrite Eh in Rk. cbn in Rk. lia.
  - destruct is_end.
    + cbn [rp]. split; [apply later_refl|]. exists i, b. split; [lia|]. split; [auto|]. split.
      { apply gap_const. tauto. }
      split; [rewrite <- Ei; exact A|]. intros q Q1 Q2. apply (eb_before e q 0%N) in Q2.
      eapply (seen_none L x i c b pos q Sn Hc Q1 (Hlo _ Q1)).
      * destruct (c_hi c) as [h|]; cbn; auto. destruct (Z.lt_ge_cases q h); auto. specialize (H3 (q, 0%N) H). congruence.
      * intros j w Hj Hle. destruct (H2 _ _ Hj) as [_ X]. specialize (X ltac:(lia)).
        assert (before e q) as Y by (apply (eb_before e q 0%N); auto). apply (eb_before e q w) in Y. congruence.
    + destruct H3 as (h & Eh). rewrite Ep. cbn [spage cons_page n_high n_next]. rewrite Eh.
      unfold sibling_scan. apply rp_assoc. apply cons_for_scan_rp.
      { exists (c_next c), [], (Some h). split; auto. split; [apply (sn_link _ _ _ _ Sn); auto|cbn; lia]. }
      intros L' y c' pos' Hl Hi Hcur Sn' Rk Hc'. destruct (search_end (spage g c') e) as [is_end' ep'] eqn:Es'. cbn [bind].
      set (j := (length L' - 1)%nat) in *.
      assert (Hij : (i <= j)%nat) by (pose proof (later_len _ _ _ _ _ Hl); pose proof (sn_i _ _ _ _ Sn); lia).
      assert (A' : at_leaf L' y j (Some (h, true)) e (spage g c') (mk_iter pos' ep' is_end' e)).
      { exists c', pos'. split; auto. split; auto. split; [rewrite Es'; reflexivity|]. split; auto. destruct Rk as [R1 R2]. cbn [eff] in *. split.
        - cbn [after]. intros q Hq. destruct (c_lo c'); cbn in *; auto. lia.
        - intros h' Eh' q Hq. cbn [after]. rewrite Eh' in R2. cbn in R2. lia. }
      eapply rp_mono; [|apply IH; exact A'].
      intros [[more pg2] it2] L2 z (Hl2 & j2 & b2 & B1 & B2 & B3 & B4).
      split; [eapply later_trans; eauto|]. exists j2, b2. split; [lia|]. split.
      { intros q Hq. apply (Hhi h Eh). apply (B2 q Hq). }
      split; [|exact B4].
      eapply (gap_trans L2 i j j2 b (Some (h, true)) b2); [|exact B3|lia].
      eapply gap_le; [exact Hij|]. apply gap_const. intros q Q1 Q2 Q3. cbn [after] in Q2. apply Z.nle_gt in Q2.
      eapply later_seen; [exact Hl2|]. eapply later_seen; [exact Hl|].
      eapply (seen_none L x i c b pos q Sn Hc Q1 (Hlo _ Q1)).
      * rewrite Eh. exact Q2.
      * intros j' w Hj Hle. destruct (H2 _ _ Hj) as [_ X]. specialize (X ltac:(lia)).
        apply (eb_before e q w) in Q3. congruence.
Qed.

Lemma at_leaf_mono L E x y i b e pg it : (forall p v, $nd x p = Some v -> $nd y p = Some v) ->
  at_leaf L x i b e pg it -> at_leaf (L ++ E) y i b e pg it.
Proof.
  intros H (c & pos & [S1 S2 S3 S4] & R). exists c, pos. split; [|exact R]. constructor; auto.
  - rewrite app_length. lia.
  - intros. apply seen_app. auto.
Qed.

(** ** The whole iteration *)
Definition upto (L : list smap) (b0 b : bound) (i : nat) (e : bound) (l : list (key * val)) : Prop :=
  sorted l /\ (forall k, after b k -> after b0 k \/ b0 = Some (k, false) \/ exists q, b0 = Some (q, false) /\ q <= k) /\
  exists w, mono w /\ (forall k, (w k <= i)%nat) /\
    (forall k v, In (k, v) l -> (after b0 k \/ b0 = Some (k, false)) /\ before e k /\ ~ after b k /\ seen L (w k) k (Some v)) /\
    (forall k, after b0 k -> before e k -> ~ after b k -> ~ In k (map fst l) -> seen L (w k) k None).
Lemma upto_app L E b0 b i e l : upto L b0 b i e l -> upto (L ++ E) b0 b i e l.
Proof.
  intros (A & B & w & C & D & F & G). split; auto. split; auto. exists w. split; auto. split; auto. split.
  - intros k v H. destruct (F k v H) as (F1 & F2 & F3 & F4). repeat split; auto. apply seen_app; auto.
  - intros. apply seen_app; auto.
Qed.
Lemma upto_gap L b0 b b' i j e l : upto L b0 b i e l -> gap L i j b b' e -> (i <= j)%nat ->
  (forall k, after b' k -> after b k) -> upto L b0 b' j e l.
Proof.
  intros (A & B & w & C & D & F & G) (w' & M' & N' & O') Hij Hb. split; auto. split; [auto|].
  exists (fun k => if bbz b k then w' k else w k). split; [|split; [|split]].
  - apply (mono_if b w w' i); auto. apply N'.
  - intros k. specialize (D k). specialize (N' k). destruct (bbz b k); lia.
  - intros k v H. destruct (F k v H) as (F1 & F2 & F3 & F4). pose proof F3 as F5. apply bbz_false in F5. rewrite F5.
    repeat split; auto.
  - intros k H1 H2 H3 H4. destruct (bbz b k) eqn:E.
    + apply bbz_spec in E. auto.
    + apply bbz_false in E. auto.
Qed.
Lemma upto_push L b0 j e l k v : upto L b0 (Some (k, true)) j e l -> before e k -> seen L j k (Some v) ->
  upto L b0 (Some (k, false)) j e (l ++ [(k, v)]).
Proof.
  intros (A & B & w & C & D & F & G) He S. split; [|split].
  - apply sorted_app; auto; [constructor; constructor|]. intros [x a] y Hx [<-|[]]. destruct (F _ _ Hx) as (_ & _ & X & _).
    cbn in *. lia.
  - intros q Hq. apply B. cbn in *. lia.
  - exists (fun q => if bbz (Some (k, true)) q then j else w q). split; [|split; [|split]].
    + apply (mono_if _ w (fun _ => j) j); auto. intros ? ? ?; lia.
    + intros q. specialize (D q). destruct (bbz _ q); lia.
    + intros q u H. apply in_app_iff in H as [H|[H|[]]].
      * destruct (F _ _ H) as (F1 & F2 & F3 & F4). pose proof F3 as F5. apply bbz_false in F5. rewrite F5.
        repeat split; auto. cbn [after] in *. lia.
      * inversion H; subst q u. replace (bbz (Some (k, true)) k) with true by (symmetry; apply bbz_spec; cbn; lia).
        split; [|split; [auto|split; [cbn; lia|auto]]].
        destruct (B k ltac:(cbn; lia)) as [X|[X|(q & X & Y)]]; auto.
        destruct (Z.eq_dec q k); [subst; auto|]. left. rewrite X. cbn. lia.
    + intros q H1 H2 H3 H4. rewrite map_app, in_app_iff in H4. cbn [map fst In] in H4. cbn [after] in H3.
      assert (q < k) by (assert (k <> q) by tauto; lia).
      replace (bbz (Some (k, true)) q) with false by (symmetry; apply bbz_false; cbn; lia).
      apply G; auto; cbn; lia.
Qed.
Lemma upto_scan L b0 b i e l : upto L b0 b i e l -> (i < length L)%nat -> scan_ok b0 e L l false.
Proof.
  intros (A & B & w & C & D & F & G) Hi. split; auto. exists w. split; [intros k; specialize (D k); lia|]. split; auto. split.
  - intros k v H. destruct (F k v H) as (F1 & F2 & F3 & F4). auto.
  - intros k H1 H2 [H3|([x u] & H3 & H4)] H5; [discriminate|]. apply G; auto. destruct (F _ _ H3) as (_ & _ & X & _).
    intros Y. apply X. eapply after_up; eauto.
Qed.
Lemma upto_end L b0 b i e l : upto L b0 b i e l -> (i < length L)%nat ->
  (forall k, after b k -> before e k -> seen L i k None) -> scan_ok b0 e L l true.
Proof.
  intros (A & B & w & C & D & F & G) Hi H. split; auto.
  exists (fun k => if bbz b k then i else w k). split; [|split; [|split]].
  - intros k. specialize (D k). destruct (bbz b k); lia.
  - apply (mono_if b w (fun _ => i) i); auto. intros ? ? ?; lia.
  - intros k v Hk. destruct (F k v Hk) as (F1 & F2 & F3 & F4). pose proof F3 as F5. apply bbz_false in F5. rewrite F5. auto.
  - intros k H1 H2 _ H5. destruct (bbz b k) eqn:E.
    + apply bbz_spec in E. auto.
    + apply bbz_false in E. auto.
Qed.

Definition curs_ok (L : list smap) (x : world) (b0 e : bound) (l : list (key * val)) (cu : cursor) : Prop :=
  exists pg it b i, cu = Some (pg, it) /\ upto L b0 b i e l /\ at_leaf L x i b e pg it.
Lemma curs_mono L E x y b0 e l cu : (forall p v, $nd x p = Some v -> $nd y p = Some v) ->
  curs_ok L x b0 e l cu -> curs_ok (L ++ E) y b0 e l cu.
Proof.
  intros H (pg & it & b & i & A & B & C). exists pg, it, b, i. split; auto. split; [apply upto_app; auto|].
  eapply at_leaf_mono; eauto.
Qed.
Lemma at_leaf_i L x i b e pg it : at_leaf L x i b e pg it -> (i < length L)%nat.
Proof. intros (c & pos & S & _). apply S. Qed.

Definition next_post (b0 e : bound) (l : list (key * val)) (r : ans * cursor) (L : list smap) (x : world) : Prop :=
  match fst r with
  | ARec a => scan_ok b0 e L (l ++ [a]) false /\ curs_ok L x b0 e (l ++ [a]) (snd r)
  | AEnd => scan_ok b0 e L l true /\ curs_ok L x b0 e l (snd r)
  | _ => False
  end.
Lemma next_rp t fuel L x b0 e l pg it : curs_ok L x b0 e l (Some (pg, it)) ->
  rp t (next_prog g fuel pg it) (next_post b0 e l) L x.
Proof.
  intros (pg0 & it0 & b & i & Ec & U & A). inversion Ec; subst pg0 it0. unfold next_prog. apply rp_bind.
  eapply rp_mono; [|apply has_rp; exact A].
  intros [[more pg1] it1] L' y (Hl & j & b' & H1 & H2 & H3 & H4).
  assert (U' : upto L' b0 b' j e l).
  { destruct Hl as [_ [E ->]]. eapply upto_gap; [apply upto_app; exact U| | |]; eauto. }
  destruct more.
  - destruct H4 as (k & v & E & -> & B & S & A'). rewrite E. cbn [rp]. unfold next_post. cbn [fst snd].
    pose proof (upto_push _ _ _ _ _ _ _ U' B S) as U2. split; [eapply upto_scan; eauto; eapply at_leaf_i; eauto|].
    exists pg1, (advance it1), (Some (k, false)), j. auto.
  - destruct H4 as [A' N]. cbn [rp]. unfold next_post. cbn [fst snd]. split; [eapply upto_end; eauto; eapply at_leaf_i; eauto|].
    exists pg1, it1, b', j. auto.
Qed.

Lemma leftmost_head_rp t q : forall f L x, $nd x q = Some (true, None) ->
  rp t (leftmost_head f q) (fun c L' y => inv y /\ cur L' y /\ $nd y q = Some (true, None) /\ nok y q true None c) L x.
Proof.
  intros [|f] L x E; [exact I|]. cbn [leftmost_head bind load]. eapply rp_load; eauto. intros L' y c Hr Hi Hc Hn.
  pose proof (n_wf _ _ _ _ _ _ Hn) as W. cbn in W. rewrite (lwf_not_remove _ _ W). cbn [rp].
  split; auto. split; auto. split; auto. apply (r_nd _ _ _ _ (proj1 Hr)); auto.
Qed.

Definition open_post (b e : bound) (r : ans * cursor) (L : list smap) (x : world) : Prop :=
  fst r = AOpen /\ curs_ok L x b e [] (snd r).
Lemma upto_nil L b0 b i e : (forall k, after b k -> after b0 k \/ b0 = Some (k, false) \/ exists q, b0 = Some (q, false) /\ q <= k) ->
  (forall k, after b0 k -> after b k) -> upto L b0 b i e [].
Proof.
  intros H1 H2. split; [constructor|]. split; auto. exists (fun _ => 0%nat). split; [intros ? ? ?; lia|]. split; [intros; lia|].
  split; [intros ? ? []|]. intros k A B C. exfalso. auto.
Qed.
Lemma open_rp t fuel L x b e : rp t (req_prog g fuel None (QOpen b e)) (open_post b e) L x.
Proof.
  cbn [req_prog]. unfold op_scan. destruct b as [[bk closed]|].
  - apply rp_assoc, rp_assoc, rp_bind. eapply rp_mono; [|apply search_leaf_rp].
    intros st L1 x1 [Hl1 Ht]. apply cons_for_scan_rp; auto. intros L' y c pos Hl Hi Hc Sn Rk Hcut.
    destruct (search_end (spage g c) e) as [is_end ep] eqn:Es. cbn [bind rp]. split; [reflexivity|]. cbn [snd].
    destruct Rk as [R1 R2]. pose proof (sn_wf _ _ _ _ Sn) as W. destruct (lwf_sorted _ _ W) as [_ Hr].
    assert (Fin : forall b, (b = Some (bk, closed) \/ closed = false /\ c_hi c = Some bk /\ b = Some (bk, true)) ->
      (forall h, c_hi c = Some h -> forall k, h <= k -> after b k) ->
      curs_ok L' y (Some (bk, closed)) e [] (Some (spage g c, mk_iter pos ep is_end e))).
    { intros b Hb Hh. exists (spage g c), (mk_iter pos ep is_end e), b, (length L' - 1)%nat. split; auto. split.
      - apply upto_nil; destruct Hb as [->|(-> & _ & ->)]; auto; cbn; intros k Hk; eauto. lia.
      - exists c, pos. split; auto. split; auto. split; [rewrite Es; auto|]. split; [|split; [|exact Hh]].
        + destruct Hb as [->|(-> & Eh & ->)]; auto. destruct Hcut as [C1 C2]. split; auto. intros i r Hi2.
          rewrite (C2 i r Hi2). rewrite Forall_forall in Hr. apply nth_error_In in Hi2. destruct (Hr _ Hi2) as [_ X].
          rewrite Eh in X. cbn in *. lia.
        + intros k Hk. assert (bk <= k) by (destruct Hb as [->|(-> & _ & ->)]; [destruct closed|]; cbn in Hk; lia).
          destruct (c_lo c); cbn in *; auto. destruct closed; cbn in R1; lia. }
    destruct closed; cbn [eff] in *.
    + apply (Fin (Some (bk, true))); auto. intros h Eh k Hk. rewrite Eh in R2. cbn in *. lia.
    + destruct (c_hi c) as [h|] eqn:Eh.
      * destruct (Z.eq_dec h bk) as [->|Hne].
        -- apply (Fin (Some (bk, true))); auto. intros h Eh' k Hk. inversion Eh'; subst. cbn. lia.
        -- apply (Fin (Some (bk, false))); auto. intros h' Eh' k Hk. inversion Eh'; subst. cbn in *. lia.
      * apply (Fin (Some (bk, false))); auto. discriminate.
  - apply rp_assoc, rp_assoc, rp_bind. eapply rp_mono; [|apply search_leftmost_rp].
    intros st L1 x1 (Hl1 & q & r & -> & E). apply rp_bind.
    apply rp_bind. eapply rp_mono; [|apply (leftmost_head_rp t q fuel L1 x1 E)].
    intros c L' y (Hi & Hc & E' & Hn). apply rp_bind. eapply scan_page_rp; eauto. cbn [rp].
    destruct (search_end (spage g c) e) as [is_end ep] eqn:Es. cbn [bind rp]. split; [reflexivity|]. cbn [snd].
    exists (spage g c), (mk_iter 0 ep is_end e), None, (length L' - 1)%nat. split; auto. split.
    + apply upto_nil; cbn; auto.
    + exists c, 0. split; [eapply nok_snap; eauto|]. split; auto. split; [rewrite Es; auto|]. split; [|split].
      * split; [lia|]. intros i u _. cbn. split; auto. lia.
      * intros k _. rewrite (n_lo _ _ _ _ _ _ Hn). exact I.
      * intros; exact I.
Qed.
(** ** Statistics *)
Hypothesis HO : hdr_ok g.
Definition many (e : Z * Z * Z) : Prop := 1 <= fst (fst e).
Definition cnt0 (l : list (Z * Z * Z)) : Z := match l with [] => 0 | e :: _ => fst (fst e) end.
Definition at0 (l : nat) : Z := match l with O => 1 | S _ => 0 end.
Lemma add_stat_many a v : forall l acc, (l <= length acc)%nat -> Forall many acc ->
  Forall many (add_stat l a v acc) /\ (length acc <= length (add_stat l a v acc))%nat /\ (S l <= length (add_stat l a v acc))%nat /\
  cnt0 (add_stat l a v acc) = cnt0 acc + at0 l.
Proof.
  induction l as [|l IH]; intros [|[[n z] w] t] Hl Hf; cbn [add_stat length cnt0 at0 fst] in *; try lia.
  - repeat split; auto. repeat constructor. unfold many. cbn. lia.
  - inversion Hf; subst. repeat split; try lia. constructor; auto. unfold many in *; cbn in *; lia.
  - inversion Hf; subst. destruct (IH t ltac:(lia) H2) as (A & B & C & _). repeat split; try lia. constructor; auto.
Qed.
Lemma grown_stat_ok l : Forall many l -> cnt0 l = 1 -> stat_ok l.
Proof. intros H E. destruct l as [|e l]; cbn in *; [lia|]. inversion H; subst. split; auto. Qed.
Lemma cons_j_scan c ds a ra : jwf g c -> sort_ok c ds ->
  consolidate g true a ra (pages c) ds false true =
    COne (cons_page c true a (jfst c :: jrest c) (2 * c_page g)) /\
  scan_bytes g true (pages c) ds = jbytes g c.
Proof.
  intros Hw (_ & Hs & Hn & _). pose proof (jwf_mhigh _ _ Hw) as Hm. unfold consolidate, scan_bytes.
  rewrite (pages_base c Hm), (pages_front c Hm).
  change (paysz g true) with ptrlen. rewrite (merge_nodes_j g c ds _ Hw Hs Hn).
  rewrite cpr_nosplit by reflexivity. unfold copy_rec. cbn [cs_cur cs_size app cs_pend andb snd].
  unfold jfst. rewrite !low_of_j by auto. split; [reflexivity|].
  unfold jbytes, ibytes. unfold c_lo, c_hi. cbn [snd]. lia.
Qed.
Lemma scan_inner_rp t L y p lo c (Q : node -> list smap -> world -> Prop) : nok y p false lo c ->
  (forall n, (forall e, In e (n_recs n) -> exists l, kid y l (snd e)) -> Q n L y) ->
  rp t (scan_page g c) Q L y.
Proof.
  intros Hn HQ. pose proof (n_wf _ _ _ _ _ _ Hn) as Hw. cbn in Hw. unfold scan_page.
  destruct (sort_ok_ex c (jwf_mhigh _ _ Hw)) as (ds & Hs).
  destruct (cons_j_scan c ds 0%N 0%N Hw Hs) as [E1 E2]. pose proof Hs as (-> & _ & _ & Hd).
  pose proof (ok_thr g OK).
  assert (Z.of_nat (ndelta c) <= c_maxd g).
  { destruct (is_base c) eqn:B; [destruct c; try discriminate; cbn; lia|].
    pose proof (jwf_ndelta g c Hw B). pose proof (n_cnt _ _ _ _ _ _ Hn B). lia. }
  destruct (Z.ltb_spec (c_maxd g) (Z.of_nat (length ds))); [lia|].
  rewrite (jwf_inner g c Hw). cbn [negb]. rewrite E2. pose proof (jbytes_size g OK HO c Hw).
  pose proof (n_sz _ _ _ _ _ _ Hn). pose proof (page_pos g OK). pose proof (ok_hdr g OK).
  assert (0 <= maxrec g) by (unfold maxrec, metalen, ptrlen; pose proof (ok_key g OK 0); pose proof (ok_pay g OK); destruct (c_varlen g); lia).
  destruct (Z.ltb_spec (2 * c_page g) (jbytes g c)); [lia|].
  rewrite E1. cbn [rp]. apply HQ. cbn [cons_page n_recs].
  destruct (jkids_cons g _ c Hw (n_kids _ _ _ _ _ _ Hn eq_refl)) as [K1 K2]. rewrite Forall_forall in K2.
  intros e [<-|He]; [eexists; exact K1|]. eexists. apply (K2 e He).
Qed.

Definition grown (acc : list (Z * Z * Z)) (lvl : nat) (acc' : list (Z * Z * Z)) : Prop :=
  Forall many acc' /\ (length acc <= length acc')%nat /\ (S lvl <= length acc')%nat /\
  cnt0 acc' = cnt0 acc + at0 lvl.
Lemma vhead_rp t p lf lo {B} (K : chain -> prog B) Q : forall fuel L x, $nd x p = Some (lf, lo) ->
  (forall L' y c, later t L x L' y -> inv y -> cur L' y -> nok y p lf lo c -> rp t (K c) Q L' y) ->
  rp t (bind (valid_head_not_removed g fuel p) K) Q L x.
Proof.
  induction fuel as [|f IH]; intros L x E H; [exact I|]. cbn [valid_head_not_removed]. apply rp_assoc.
  eapply rp_load_valid; eauto. intros L' y c Hr Hi Hc Hn.
  destruct (is_remove c) eqn:W; [|cbn [bind]; apply H; auto].
  apply IH; [apply (r_nd _ _ _ _ (proj1 Hr)); auto|]. intros L2 z c' Hz. apply H. eapply later_trans; eauto.
Qed.
Lemma stats_rp t drec : forall fuel p lvl acc L x lf lo, $nd x p = Some (lf, lo) ->
  (lvl <= length acc)%nat -> Forall many acc ->
  rp t (collect_stats g drec fuel p lvl acc) (fun acc' L' y => later t L x L' y /\ grown acc lvl acc') L x.
Proof.
  induction fuel as [|f IH]; intros p lvl acc L x lf lo E Hl Hf; [exact I|]. cbn [collect_stats].
  eapply vhead_rp; eauto. intros L' y c Hr Hi Hc Hn. pose proof (n_wf _ _ _ _ _ _ Hn) as W.
  assert (U : exists sz dn, node_usage c = Some (sz, dn)).
  { clear -W. destruct lf; induction c as [n|d nx IHc|d n nx IHc|]; cbn [node_usage lwf jwf] in *; try tauto; eauto;
      destruct W as [W _]; destruct (IHc W) as (s0 & d0 & ->); eauto. }
  destruct U as (sz & dn & ->).
  destruct (add_stat_many (sz + dn * drec) (c_page g + dn * drec) lvl acc Hl Hf) as (A1 & A2 & A3 & A4).
  set (acc1 := add_stat lvl (sz + dn * drec) (c_page g + dn * drec) acc) in *. clearbody acc1.
  rewrite (nok_leaf _ _ _ _ _ _ Hn). destruct lf; [cbn [rp]; split; auto; split; auto|].
  apply rp_bind. eapply scan_inner_rp; eauto. intros n Hk. clear c Hn W Hc Hi.
  revert Hk. generalize (n_recs n). intros l. revert acc1 A1 A2 A3 A4 L' y Hr.
  induction l as [|[k v] l IHl]; intros acc1 A1 A2 A3 A4 L' y Hr Hk; [cbn [rp]; split; auto; split; auto|].
  apply rp_bind. destruct (Hk (k, v) (or_introl eq_refl)) as (lo' & lf' & E').
  eapply rp_mono; [|eapply (IH v (S lvl) acc1 L' y); eauto]. cbn beta. intros acc2 M z (Hz & B1 & B2 & B3 & B4).
  cbn [at0] in B4. apply IHl; auto; try lia.
  - eapply later_trans; eauto.
  - intros e He. destruct (Hk e (or_intror He)) as (l2 & b2 & E2). exists l2, b2. apply (r_nd _ _ _ _ (proj1 Hz)); auto.
Qed.
Lemma op_stats_rp t drec fuel L x : rp t (op_stats g drec fuel) (fun l _ _ => stat_ok l) L x.
Proof.
  unfold op_stats. cbn [rp]. intros L' y Hr Hi Hc. destruct (i_root _ _ Hi) as [b Hb].
  eapply rp_mono; [|eapply stats_rp; eauto; cbn; lia]. cbn beta. intros l M z (_ & A & _ & _ & B). apply grown_stat_ok; auto.
Qed.
Definition stat_post (cu : cursor) (a : ans * cursor) (_ : list smap) (_ : world) : Prop :=
  exists l, a = (AStat l, cu) /\ stat_ok l.
Lemma stat_req_rp t drec fuel cu L x : rp t (req_prog g fuel cu (QStat drec)) (stat_post cu) L x.
Proof.
  cbn [req_prog]. apply rp_bind. eapply rp_mono; [|apply op_stats_rp]. cbn beta. intros l M z H. exists l. auto.
Qed.
End R.

(** ** Executions *)
Section M.
Variable g : cfg.
Hypothesis OK : cfg_ok g.
Hypothesis HO : hdr_ok g.
Hypothesis NM : no_merge g.
Variable fuel : nat.
Notation inv := (inv g). Notation rely := (rely g). Notation wp := (wp g). Notation rp := (rp g).

Definition cuok (x : world) (v : view) (cu : cursor) : Prop :=
  match v_cur v with
  | None => cu = None
  | Some (b, e, L, l) => cur L x /\ curs_ok g L x b e l cu
  end.
Definition call_post (t : tid) (cu : cursor) (a : ans * cursor) (y : world) : Prop :=
  exists r, a = (ACall r, cu) /\ $stat y t = SDone r.
Definition kthr (x : world) (v : view) (t : tid) (th : client) : Prop :=
  match th with
  | KIdle cu _ => $stat x t = SIdle /\ v_call v = SIdle /\ cuok x v cu
  | KRun m _ =>
      (exists cu, v_call v = $stat x t /\ cuok x v cu /\ wp t m (call_post t cu) x) \/
      ($stat x t = SIdle /\ v_call v = SIdle /\
       match v_cur v with
       | None => m = Ret (AEnd, None)
       | Some (b, e, L, l) => cur L x /\
           (rp t m (next_post g b e l) L x \/ l = [] /\ rp t m (open_post g b e) L x)
       end) \/
      (exists cu L, $stat x t = SIdle /\ v_call v = SIdle /\ cuok x v cu /\ cur L x /\ rp t m (stat_post cu) L x)
  end.
Definition kinv (c : kst) (gh : ghost) (f : tid -> view) : Prop :=
  inv (mk_w (k_mem c) gh) /\ forall t th, nth_error (k_thr c) t = Some th -> kthr (mk_w (k_mem c) gh) (f t) t th.

Lemma scan_app b e L E l fin : scan_ok b e L l fin -> scan_ok b e (L ++ E) l fin.
Proof.
  intros (A & w & B & C & D & F). split; auto. exists w. split; [intros k; rewrite app_length; specialize (B k); lia|].
  split; auto. split.
  - intros k v H. destruct (D k v H) as (D1 & D2 & D3). repeat split; auto. apply seen_app; auto.
  - intros. apply seen_app; auto.
Qed.
Lemma next_stable b e l t a L x L' y : next_post g b e l a L x -> later g t L x L' y -> next_post g b e l a L' y.
Proof.
  intros H [R [E ->]]. pose proof (r_nd _ _ _ _ R) as Hn. unfold next_post in *. destruct (fst a); try contradiction;
    destruct H as [H1 H2]; (split; [apply scan_app; auto|eapply curs_mono; eauto]).
Qed.
Lemma open_stable b e t a L x L' y : open_post g b e a L x -> later g t L x L' y -> open_post g b e a L' y.
Proof.
  intros [A B] [R [E ->]]. split; auto. eapply curs_mono; [apply (r_nd _ _ _ _ R)|auto].
Qed.

Definition obs (M : smap) (v : view) : view :=
  mk_view (v_call v) match v_cur v with Some (b, e, log, l) => Some (b, e, log ++ [M], l) | None => None end.
Lemma cuok_obs x y v cu : (forall p w, $nd x p = Some w -> $nd y p = Some w) -> cuok x v cu -> cuok y (obs ($cont y) v) cu.
Proof.
  intros H. unfold cuok, obs. cbn [v_cur]. destruct (v_cur v) as [[[[b e] L] l]|]; auto. intros [_ A].
  split; [exists L; auto|]. eapply curs_mono; eauto.
Qed.
Lemma kthr_later x y v t th : rely t x y -> kthr x v t th -> kthr y (obs ($cont y) v) t th.
Proof.
  intros R. pose proof (r_nd _ _ _ _ R) as Hn. pose proof (r_stat _ _ _ _ R) as Hs. destruct th as [cu td|m td]; cbn [kthr].
  - rewrite Hs. intros (A & B & C). split; auto. split; auto. eapply cuok_obs; eauto.
  - intros [(cu & A & B & C)|[(A & B & C)|(cu & L & A & B & C & D & F)]]; [left|right; left|right; right].
    + exists cu. rewrite Hs. split; auto. split; [eapply cuok_obs; eauto|]. eapply wp_rely; eauto.
      intros a z1 z2 (r & E1 & E2) R2. exists r. split; auto. rewrite (r_stat _ _ _ _ R2). auto.
    + rewrite Hs. split; auto. split; auto. unfold obs. cbn [v_cur]. destruct (v_cur v) as [[[[b e] L] l]|]; auto.
      destruct C as [_ C]. split; [exists L; auto|].
      assert (Hl : later g t L x (L ++ [$cont y]) y) by (split; eauto).
      destruct C as [C|[El C]]; [left|right; split; auto]; (eapply rp_later; [|exact Hl|exact C]);
        intros a M1 z1 M2 z2; [apply next_stable|apply open_stable].
    + exists cu, (L ++ [$cont y]). rewrite Hs. split; auto. split; auto. split; [eapply cuok_obs; eauto|].
      split; [exists L; auto|]. eapply rp_later; [|split; eauto|exact F]. auto.
Qed.

Lemma kput c gh f s' gh' f' t th th' : kinv c gh f -> nth_error (k_thr c) t = Some th ->
  inv (mk_w s' gh') -> (forall u, u <> t -> rely u (mk_w (k_mem c) gh) (mk_w s' gh')) ->
  (forall u, u <> t -> f' u = f u) -> kthr (mk_w s' gh') (obs (cont gh') (f' t)) t th' ->
  kinv (mk_kst s' (firstn t (k_thr c) ++ th' :: skipn (S t) (k_thr c))) gh' (observe (cont gh') f').
Proof.
  intros [Hi Ht] E Hi' Hr Hf Ht'. split; auto. cbn [k_mem k_thr]. intros u thu. rewrite (nth_put _ _ _ _ _ E).
  change (observe (cont gh') f' u) with (obs (cont gh') (f' u)).
  destruct (Nat.eqb_spec u t) as [->|Hu]; [intros X; inversion X; subst; auto|].
  intros X. rewrite (Hf u Hu). apply (kthr_later (mk_w (k_mem c) gh) (mk_w s' gh')); [apply Hr; auto|]. apply Ht; auto.
Qed.
Lemma kidle c gh f : kinv c gh f -> kinv c gh (observe (cont gh) f).
Proof.
  intros [Hi Ht]. split; auto. intros u th E.
  apply (kthr_later (mk_w (k_mem c) gh) (mk_w (k_mem c) gh)); [apply rely_refl|]. apply Ht; auto.
Qed.

Lemma rp_pstep t {A} (m : prog A) Q spur L x m' s' : rp t m Q L x -> inv x -> cur L x -> pstep m spur (w_s x) = Some (m', s') ->
  s' = w_s x /\ rp t m' Q L x.
Proof.
  intros H Hi Hc. pose proof (later_refl g t L x) as Hl. destruct m; cbn [pstep ClientFacts.rp] in *; try discriminate; try contradiction.
  - destruct (H L x Hl Hi Hc) as (c & -> & H2). intros E; inversion E; subst; auto.
  - specialize (H L x Hl Hi Hc). intros E; inversion E; subst; auto.
Qed.

Lemma kstep_ok c gh f t b : kinv c gh f ->
  exists gh' f', kinv (fst (kstep g fuel c t b)) gh' (observe (cont gh') f') /\
    keffect t (cont gh) f (snd (kstep g fuel c t b)) (cont gh') f'.
Proof.
  intros H. pose proof H as [Hi Ht]. unfold kstep. destruct (nth_error (k_thr c) t) as [th|] eqn:E.
  2:{ exists gh, f. split; [apply kidle; auto|constructor]. }
  pose proof (Ht _ _ E) as Hth. set (x := mk_w (k_mem c) gh) in *.
  assert (Hsame : forall u, u <> t -> rely u x x) by (intros; apply rely_refl).
  destruct th as [cu [|q td]|m td]; cbn [kthr] in Hth.
  - exists gh, f. split; [apply kidle; auto|constructor].
  - destruct Hth as (A & B & C). destruct q as [o|b0 e| |drec].
    + exists (with_stat gh (tset (stat gh) t (SPend o))), (vset f t (mk_view (SPend o) (v_cur (f t)))).
      split; [|cbn [fst snd]; constructor; auto]. cbn [fst]. eapply kput; eauto.
      * apply inv_stat; auto.
      * intros u Hu. apply rely_stat. unfold tset. destruct (Nat.eqb_spec u t); congruence.
      * intros u Hu. unfold vset. destruct (Nat.eqb_spec u t); congruence.
      * unfold vset. rewrite Nat.eqb_refl. left. exists cu. cbn [obs v_call]. split; [cbn; unfold tset; rewrite Nat.eqb_refl; auto|].
        split.
        -- apply (cuok_obs x (mk_w (k_mem c) (with_stat gh (tset (stat gh) t (SPend o))))); auto.
        -- cbn [req_prog]. apply wp_bind. eapply wp_mono; [|apply call_wp; auto; cbn; unfold tset; rewrite Nat.eqb_refl; eauto].
           intros r y Hy. exists r. auto.
    + exists gh, (vset f t (mk_view (v_call (f t)) (Some (b0, e, [cont gh], [])))).
      split; [|cbn [fst snd]; constructor]. cbn [fst]. eapply kput; eauto.
      * intros u Hu. unfold vset. destruct (Nat.eqb_spec u t); congruence.
      * unfold vset. rewrite Nat.eqb_refl. right. left. split; auto. cbn [obs v_call v_cur]. split; auto.
        split; [exists [cont gh]; auto|]. right. split; auto. apply (open_rp g OK t fuel).
    + exists gh, f. split; [|cbn [fst snd]; constructor]. cbn [fst]. eapply kput; eauto.
      apply (kthr_later x x); [apply rely_refl|]. right. left. split; auto. split; auto. unfold cuok in C.
      destruct (v_cur (f t)) as [[[[b0 e] L] l]|]; [|subst cu; auto].
      destruct C as [C1 C2]. split; auto. left. destruct cu as [[pg it]|]; [|destruct C2 as (? & ? & ? & ? & X & _); discriminate].
      apply next_rp; auto.
    + exists gh, f. split; [|cbn [fst snd]; constructor]. cbn [fst]. eapply kput; eauto.
      apply (kthr_later x x); [apply rely_refl|]. right. right. exists cu, [cont gh]. split; auto. split; auto. split; auto.
      split; [exists []; auto|]. apply stat_req_rp; auto.
  - assert (Hmove : forall m' s', pstep m b (k_mem c) = Some (m', s') ->
      exists gh' f', kinv (mk_kst s' (firstn t (k_thr c) ++ KRun m' td :: skipn (S t) (k_thr c))) gh' (observe (cont gh') f') /\
        keffect t (cont gh) f [] (cont gh') f').
    { intros m' s' Ep. destruct Hth as [(cu & A & B & C)|[(A & B & C)|(cu & L & A & B & C & D & F)]].
      - destruct (wp_pstep g t m _ b x m' s' C Hi Ep) as (gh' & A1 & [A2 A3] & A4).
        assert (Hn : forall p w, $nd x p = Some w -> nd gh' p = Some w).
        { apply (r_nd _ _ _ _ (A2 (S t) ltac:(lia))). }
        assert (Hcu : cuok (mk_w s' gh') (obs (cont gh') (f t)) cu) by (apply (cuok_obs x (mk_w s' gh')); auto).
        destruct A3 as [[L1 L2]|(o & L1 & L2 & L3)]; cbn in L1, L2.
        + exists gh', f. rewrite L1. split; [|constructor]. rewrite <- L1. eapply kput; eauto.
          left. exists cu. cbn [obs v_call]. split; [rewrite A; cbn; rewrite L2; auto|]. auto.
        + exists gh', (vset f t (mk_view (SDone (fst (spec (cont gh) o))) (v_cur (f t)))).
          split; [|rewrite L2; constructor; rewrite A; auto]. eapply kput; eauto.
          * intros u Hu. unfold vset. destruct (Nat.eqb_spec u t); congruence.
          * unfold vset. rewrite Nat.eqb_refl. left. exists cu. cbn [obs v_call]. split; [|split; auto].
            cbn in L3 |- *. rewrite L3. unfold tset. rewrite Nat.eqb_refl. auto.
      - exists gh, f. destruct (v_cur (f t)) as [[[[b0 e] L] l]|] eqn:Ev; [|subst m; discriminate].
        destruct C as [C0 C].
        assert (s' = k_mem c /\ (rp t m' (next_post g b0 e l) L x \/ l = [] /\ rp t m' (open_post g b0 e) L x)) as [-> C'].
        { destruct C as [C|[El C]]; destruct (rp_pstep t m _ b L x m' s' C Hi C0 Ep) as [C1 C2]; auto. }
        split; [|constructor]. eapply kput; eauto. apply (kthr_later x x); [apply rely_refl|].
        right. left. rewrite Ev. auto.
      - destruct (rp_pstep t m _ b L x m' s' F Hi D Ep) as [-> F']. exists gh, f. split; [|constructor]. eapply kput; eauto.
        apply (kthr_later x x); [apply rely_refl|]. right. right. exists cu, L. auto. }
    assert (Hgo : exists gh' f', kinv (fst (match pstep m b (k_mem c) with
        | Some (m', s') => (mk_kst s' (firstn t (k_thr c) ++ KRun m' td :: skipn (S t) (k_thr c)), [])
        | None => (c, @nil kevent) end)) gh' (observe (cont gh') f') /\
        keffect t (cont gh) f (snd (match pstep m b (k_mem c) with
        | Some (m', s') => (mk_kst s' (firstn t (k_thr c) ++ KRun m' td :: skipn (S t) (k_thr c)), [])
        | None => (c, @nil kevent) end)) (cont gh') f').
    { destruct (pstep m b (k_mem c)) as [[m' s']|] eqn:Ep; [apply (Hmove m' s'); auto|].
      exists gh, f. split; [apply kidle; auto|constructor]. }
    destruct m as [[a cu]| | | | | | | | | | | | |u|]; try exact Hgo. clear Hmove Hgo.
    destruct Hth as [(cu' & A & B & (r & C1 & C2))|[(A & B & C)|(cu' & L & A & B & C & D & (l & F1 & F2))]].
    + inversion C1; subst a cu'.
      exists (with_stat gh (tset (stat gh) t SIdle)), (vset f t (mk_view SIdle (v_cur (f t)))).
      split; [|cbn [fst snd]; constructor; rewrite A; auto]. cbn [fst]. eapply kput; eauto.
      * apply inv_stat; auto.
      * intros u Hu. apply rely_stat. unfold tset. destruct (Nat.eqb_spec u t); congruence.
      * intros u Hu. unfold vset. destruct (Nat.eqb_spec u t); congruence.
      * unfold vset. rewrite Nat.eqb_refl. split; [cbn; unfold tset; rewrite Nat.eqb_refl; auto|]. split; auto.
        apply (cuok_obs x (mk_w (k_mem c) (with_stat gh (tset (stat gh) t SIdle)))); auto.
    + destruct (v_cur (f t)) as [[[[b0 e] L] l]|] eqn:Ev.
      * destruct C as [C0 [C|[-> [C1 C2]]]].
        -- cbn [ClientFacts.rp] in C. unfold next_post in C. cbn [fst snd] in C. destruct a as [| |a| |]; try contradiction.
           ++ destruct C as [C1 C2]. exists gh, (vset f t (mk_view (v_call (f t)) (Some (b0, e, L, l ++ [a])))).
              split; [|cbn [fst snd]; econstructor; eauto]. cbn [fst]. eapply kput; eauto.
              ** intros u Hu. unfold vset. destruct (Nat.eqb_spec u t); congruence.
              ** apply (kthr_later x x); [apply rely_refl|]. unfold vset. rewrite Nat.eqb_refl. split; auto. split; auto. split; auto.
           ++ destruct C as [C1 C2]. exists gh, f.
              split; [|cbn [fst snd]; eapply ke_end; eauto]. cbn [fst]. eapply kput; eauto.
              apply (kthr_later x x); [apply rely_refl|]. split; auto. split; auto. unfold cuok. rewrite Ev. auto.
        -- cbn [fst snd] in C1, C2. subst a. exists gh, f. split; [|cbn [fst snd]; constructor]. cbn [fst]. eapply kput; eauto.
           apply (kthr_later x x); [apply rely_refl|]. split; auto. split; auto. unfold cuok. rewrite Ev. auto.
      * inversion C; subst a cu. exists gh, f. split; [|cbn [fst snd]; eapply ke_noiter; auto]. cbn [fst]. eapply kput; eauto.
        apply (kthr_later x x); [apply rely_refl|]. split; auto. split; auto. unfold cuok. rewrite Ev. auto.
    + injection F1 as -> ->. exists gh, f. split; [|cbn [fst snd]; constructor; auto]. cbn [fst]. eapply kput; eauto.
      apply (kthr_later x x); [apply rely_refl|]. split; auto.
Qed.

Lemma kexplained_ok sch : forall c gh f, kinv c gh f ->
  kexplained g fuel c (cont gh) f sch /\ exists gh' f', kinv (fst (kexec g fuel c sch)) gh' f'.
Proof.
  induction sch as [|[t b] sch IH]; intros c gh f H.
  - split; [constructor; apply (reads_ok g OK HO NM), H|exists gh, f; auto].
  - destruct (kstep_ok c gh f t b H) as (gh' & f' & H' & Ef). cbn [kexec].
    destruct (kstep g fuel c t b) as [c' h] eqn:E. cbn [fst snd] in *. destruct (IH c' gh' _ H') as [X Y].
    destruct (kexec g fuel c' sch) as [c2 h2]. cbn [fst] in *. split; auto.
    econstructor; eauto. apply (reads_ok g OK HO NM), H.
Qed.

Lemma kstart_inv todos : kinv (kstart (init g) todos) (gh0 g) no_view.
Proof.
  split; [apply init_inv; auto|]. cbn [k_mem k_thr kstart]. intros t th E. apply nth_error_In in E.
  apply in_map_iff in E as (td & <- & _). repeat split; reflexivity.
Qed.

Lemma client_explained todos sch : kexplained g fuel (kstart (init g) todos) sempty no_view sch.
Proof. apply (kexplained_ok sch _ (gh0 g) no_view). apply kstart_inv. Qed.
Lemma kinv_nocrash c gh f : kinv c gh f -> ~ kcrashed c.
Proof.
  intros [_ H] (u & r & Hin). apply In_nth_error in Hin as [t E]. specialize (H _ _ E). cbn [kthr] in H.
  destruct H as [(cu & _ & _ & [])|[(_ & _ & H)|(cu & L & _ & _ & _ & _ & [])]].
  destruct (v_cur (f t)) as [[[[b0 e] L] l]|]; [|discriminate]. destruct H as [_ [[]|[_ []]]].
Qed.
Lemma client_nocrash todos sch : ~ kcrashed (fst (kexec g fuel (kstart (init g) todos) sch)).
Proof.
  destruct (kexplained_ok sch _ (gh0 g) no_view (kstart_inv todos)) as [_ (gh & f & H)]. eapply kinv_nocrash; eauto.
Qed.
End M.
