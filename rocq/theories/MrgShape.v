(** Depths and sizes of the pages of a tree, with node merging, while the root stays. *)
From Coq Require Import ZArith NArith List Bool Lia.
From Coq Require Import ZifyBool ZifyNat ZifyN.
From Verif Require Import Config Api Page Machine Tree Spec Conc ListFacts SearchFacts ChainFacts ChainSpec
  ConsFacts Valid ConsolidateFacts SeqSpec LevelFacts SeqAux SeqOps ConcSpec MrgSpec MrgInv MrgStart MrgMain ShapeSpec.
From Verif Require WidthFacts.
Import ListNotations.
Open Scope Z_scope.

Section S.
Variable g : cfg.
Hypothesis OK : cfg_ok g.
Variables (A0 : addr) (R0 : pid) (L0 : nat).

Lemma linked_lev x : inv g A0 R0 L0 x -> stable R0 (w_s x) -> forall d p, linked (w_s x) d p ->
  exists l lo, $nd x p = Some (l, lo) /\ (l + d = L0)%nat.
Proof.
  intros Hi (Er & _) d p H. induction H as [|d p c v H (l & lo & E & El) T Nr Lf Hv|d p c H (l & lo & E & El) T Nr Hh].
  - rewrite Er. exists L0, None. split; [apply (i_root _ _ _ _ _ Hi)|lia].
  - destruct (i_tbl _ _ _ _ _ Hi _ _ _ E) as (c' & T' & _ & Hl). assert (c' = c) by congruence. subst c'.
    assert (V : $lim x p = LLive).
    { destruct ($lim x p) eqn:X; auto; destruct (Hl ltac:(discriminate)) as (a & ->); discriminate. }
    destruct (i_cur _ _ _ _ _ Hi _ _ _ E ltac:(rewrite V; discriminate)) as (c' & C & K).
    unfold cur in C. rewrite V in C. assert (c' = c) by congruence. subst c'.
    pose proof (s_wf _ _ _ (n_sok _ _ _ _ _ _ _ K)) as W. rewrite (cwf_leaf g _ _ W) in Lf.
    destruct l as [|m]; [discriminate|]. destruct (n_kids _ _ _ _ _ _ _ K m eq_refl) as [KI _].
    unfold ikids, cents in KI. rewrite Forall_forall in KI.
    assert (X : exists o, In (o, v) ((c_lo c, ilead c) :: ekey (ients c))).
    { destruct Hv as [<-|Hv]; [eexists; left; reflexivity|]. apply in_map_iff in Hv as ([k u] & <- & Hv).
      exists (Some k). right. unfold ekey. apply in_map_iff. exists (k, u). split; auto. }
    destruct X as (o & X). specialize (KI _ X). cbn [fst snd] in KI. exists m, o. split; [exact KI|lia].
  - destruct (i_tbl _ _ _ _ _ Hi _ _ _ E) as (c' & T' & _ & Hl). assert (c' = c) by congruence. subst c'.
    assert (V : $lim x p = LLive).
    { destruct ($lim x p) eqn:X; auto; destruct (Hl ltac:(discriminate)) as (a & ->); discriminate. }
    destruct (i_cur _ _ _ _ _ Hi _ _ _ E ltac:(rewrite V; discriminate)) as (c' & C & K).
    unfold cur in C. rewrite V in C. assert (c' = c) by congruence. subst c'.
    destruct (c_hi c) as [h|] eqn:Eh; [|congruence]. destruct (n_link _ _ _ _ _ _ _ K h Eh) as [KN _].
    exists l, (Some h). split; auto.
Qed.
(** What the slot of such a page holds. *)
Lemma linked_slot x : inv g A0 R0 L0 x -> stable R0 (w_s x) -> forall d p, linked (w_s x) d p ->
  exists l c, (l + d = L0)%nat /\ s_tbl (w_s x) p = Some c /\ h_leaf c = negb (inn l) /\
    (is_remove c = false -> sok g l c).
Proof.
  intros Hi St d p H. destruct (linked_lev x Hi St d p H) as (l & lo & E & El).
  destruct (i_tbl _ _ _ _ _ Hi _ _ _ E) as (c & T & _ & Hl). exists l, c. split; auto. split; auto.
  destruct ($lim x p) eqn:V.
  - destruct (i_cur _ _ _ _ _ Hi _ _ _ E ltac:(rewrite V; discriminate)) as (c' & C & K).
    unfold cur in C. rewrite V in C. assert (c' = c) by congruence. subst c'.
    pose proof (n_sok _ _ _ _ _ _ _ K) as SK. split; auto. apply (cwf_leaf g). apply SK.
  - destruct (Hl ltac:(discriminate)) as (a & ->). split; [reflexivity|discriminate].
  - destruct (Hl ltac:(discriminate)) as (a & ->). split; [reflexivity|discriminate].
Qed.
Lemma inv_balanced x : inv g A0 R0 L0 x -> stable R0 (w_s x) -> balanced (w_s x).
Proof.
  intros Hi St. exists L0. intros d p H. destruct (linked_slot x Hi St d p H) as (l & c & El & T & Lf & _).
  exists c. split; auto. split; [lia|]. rewrite Lf. destruct l; cbn; split; intros; auto; try lia; try discriminate.
Qed.

Lemma csum_nn ps l : 0 <= ps -> 0 <= csum g ps l.
Proof.
  intros Hp. induction l as [|r l IH]; cbn; [lia|]. pose proof (WidthFacts.rec_pos g OK (fst r) ps Hp). unfold csum in IH. lia.
Qed.
Lemma sok_size l c : sok g l c ->
  c_hdr g <= h_size c <= c_page g + excess g /\
  h_size c = if h_leaf c then lbytes g (c_lo c) (c_hi c) (lrecs c) else ibytes g (c_lo c) (c_hi c) (ients c).
Proof.
  intros K. pose proof (s_wf _ _ _ K) as W. pose proof (s_sz _ _ _ K) as SZ.
  assert (X : h_size c = if h_leaf c then lbytes g (c_lo c) (c_hi c) (lrecs c) else ibytes g (c_lo c) (c_hi c) (ients c)).
  { rewrite (cwf_leaf g _ _ W). destruct (inn l); cbn [negb]; [apply iwf_size|apply lwf_size]; auto. }
  split; [|exact X]. split; [|exact SZ]. rewrite X.
  pose proof (WidthFacts.okl_pos g OK (c_lo c)). pose proof (WidthFacts.okl_pos g OK (c_hi c)). destruct (h_leaf c).
  - unfold lbytes. assert (0 <= c_paylen g) by (destruct OK; auto). pose proof (csum_nn (c_paylen g) (lrecs c)). lia.
  - unfold ibytes. assert (0 <= ptrlen) by (unfold ptrlen; lia). pose proof (csum_nn ptrlen (ients c)). assert (0 <= ifirst g (c_lo c)).
    { unfold ifirst. destruct (c_lo c) as [l0|]; [pose proof (WidthFacts.rec_pos g OK l0 ptrlen)|pose proof (WidthFacts.null_pos g OK)]; lia. }
    lia.
Qed.
End S.

Section Closed.
Variable g : cfg.
Hypothesis OK : cfg_ok g.
Variables (f0 : nat) (os : list call) (rs : list ret) (s0 : st).
Hypothesis R0 : run_calls g f0 os (init g) = Done rs s0.
Variables (fuel : nat) (todos : list (list call)) (sch : list (tid * bool)).
Hypothesis RS : root_stays g fuel (s_root s0) (start s0 todos) sch.
Let e := fst (exec g fuel (start s0 todos) sch).

Lemma mrg_inv : exists L gh, inv g (s_naddr s0) (s_root s0) L (mk_w (c_mem e) gh) /\ stable (s_root s0) (c_mem e).
Proof.
  destruct (calls_tree g OK f0 os rs s0 R0) as ((flat & N & lv & UP & GL & FM) & AD & _).
  pose proof (start_inv g OK s0 _ N lv flat UP GL FM AD) as Hi.
  assert (C : cinv g (s_naddr s0) (s_root s0) (length lv) (start s0 todos) (sgh (snd (spec_run sempty os)) N lv)).
  { split; [exact Hi|]. cbn [c_mem c_thr start]. intros t th E. apply nth_error_In in E.
    apply in_map_iff in E as (td & <- & _). reflexivity. }
  destruct (explained_ok g OK _ _ _ fuel sch _ _ C RS) as [_ [gh B]]. exists (length lv), gh. split; [apply B|].
  apply (RS sch [] (eq_sym (app_nil_r sch))).
Qed.
Lemma mrg_balanced : balanced (c_mem e).
Proof. destruct mrg_inv as (L & gh & Hi & St). apply (inv_balanced g _ _ _ (mk_w (c_mem e) gh) Hi St). Qed.
Lemma mrg_sizes d p c : linked (c_mem e) d p -> s_tbl (c_mem e) p = Some c -> is_remove c = false ->
  c_hdr g <= h_size c <= c_page g + excess g /\
  h_size c = if h_leaf c then lbytes g (c_lo c) (c_hi c) (lrecs c) else ibytes g (c_lo c) (c_hi c) (ients c).
Proof.
  intros H T Nr. destruct mrg_inv as (L & gh & Hi & St).
  destruct (linked_slot g _ _ _ (mk_w (c_mem e) gh) Hi St d p H) as (l & c' & _ & T' & _ & K). cbn [w_s] in T'.
  assert (c' = c) by congruence. subst c'. destruct (sok_size g OK l c (K Nr)) as [A B]. split; [exact A|exact B].
Qed.
End Closed.

(** ** Paths *)
Lemma follow_linked s : forall h d p d' p' b, follow s h d p = Some (d', p', b) -> linked s d p ->
  linked s d' p' /\ exists c, s_tbl s p' = Some c /\ h_leaf c = b.
Proof.
  induction h as [|x h IH]; intros d p d' p' b E L; cbn [follow] in E; destruct (s_tbl s p) as [c|] eqn:T; try discriminate.
  - inversion E; subst. eauto.
  - destruct (is_remove c) eqn:R; [discriminate|]. destruct x as [i|].
    + destruct (h_leaf c) eqn:Lf; [discriminate|]. destruct (nth_error _ i) as [v|] eqn:N; [|discriminate].
      apply (IH _ _ _ _ _ E). apply nth_error_In in N. eapply ln_kid; eauto.
    + destruct (c_hi c) eqn:H; [|discriminate]. apply (IH _ _ _ _ _ E). eapply ln_next; eauto. congruence.
Qed.
(** A leaf and an inner page at the same depth. *)
Definition uneven_b (s : st) (h1 h2 : list hop) : bool :=
  match follow s h1 0%nat (s_root s), follow s h2 0%nat (s_root s) with
  | Some (d1, _, true), Some (d2, _, false) => Nat.eqb d1 d2
  | _, _ => false
  end.
Lemma uneven s h1 h2 : uneven_b s h1 h2 = true -> ~ balanced s.
Proof.
  unfold uneven_b. intros E (L & B).
  destruct (follow s h1 _ _) as [[[d1 p1] [|]]|] eqn:E1; try discriminate. destruct (follow s h2 _ _) as [[[d2 p2] [|]]|] eqn:E2; try discriminate.
  apply Nat.eqb_eq in E. subst d2. pose proof (ln_root s) as L0.
  destruct (follow_linked _ _ _ _ _ _ _ E1 L0) as [L1 (c1 & T1 & H1)]. destruct (follow_linked _ _ _ _ _ _ _ E2 L0) as [L2 (c2 & T2 & H2)].
  destruct (B _ _ L1) as (x1 & X1 & _ & Y1). destruct (B _ _ L2) as (x2 & X2 & _ & Y2).
  replace x1 with c1 in * by congruence. replace x2 with c2 in * by congruence. apply Y1 in H1. apply Y2 in H1. congruence.
Qed.
Definition all_idle_b (c : cst) : bool := forallb (fun th => match th with TIdle [] => true | _ => false end) (c_thr c).
Lemma all_idle c : all_idle_b c = true -> forall th, In th (c_thr c) -> th = TIdle [].
Proof.
  unfold all_idle_b. intros E th H. rewrite forallb_forall in E. specialize (E th H).
  destruct th as [[|? ?]|]; try discriminate. reflexivity.
Qed.
