(** One thread with an open iterator: every request is answered as [replies] says. *)
From Coq Require Import ZArith NArith List Bool Lia.
From Coq Require Import Sorting.Sorted ZifyBool ZifyNat ZifyN.
From Verif Require Import Config Api Page Machine Tree Scan Spec ScanSpec ChainSpec Valid RunFacts SeqSpec LevelFacts SeqSearch SeqAux SeqOps
  Bulk BulkSpec Client ClientSpec ClientFacts PageFacts StatFacts FuelFacts Serve ServeFacts SeqCursor ByteLifeSpec ByteLifeMain BulkFit.
Import ListNotations.
Open Scope Z_scope.

(** ** Fuel *)
Section Fuel.
Variable g : cfg.
Lemma mono_req cu q f f' : (f <= f')%nat -> mle (req_prog g f cu q) (req_prog g f' cu q).
Proof.
  intros L. destruct q as [o|b e| |d]; cbn [req_prog].
  - apply mle_bind; [apply mono_call; auto|]. intros; apply mle_refl.
  - apply mle_bind; [apply mono_scan; auto|]. intros; apply mle_refl.
  - destruct cu as [[pg it]|]; [|apply mle_refl]. unfold next_prog. apply mle_bind; [apply mono_has; auto|]. intros; apply mle_refl.
  - apply mle_bind; [apply mono_op_stats; auto|]. intros; apply mle_refl.
Qed.
Lemma serve_more qs : forall cu s f f', (f <= f')%nat -> serve g f cu qs s <> NoFuel -> serve g f' cu qs s = serve g f cu qs s.
Proof.
  induction qs as [|q qs IH]; intros cu s f f' L H; cbn [serve] in *; auto.
  destruct (run (req_prog g f cu q) s) as [[a cu'] s1| |] eqn:E; try congruence.
  - rewrite (mle_run _ _ (mono_req cu q f f' L) s) by (rewrite E; discriminate). rewrite E.
    destruct (serve g f cu' qs s1) as [l s2| |] eqn:E2; try congruence;
      (rewrite (IH cu' s1 f f' L) by (rewrite E2; discriminate)); rewrite E2; reflexivity.
  - rewrite (mle_run _ _ (mono_req cu q f f' L) s) by (rewrite E; discriminate). rewrite E. reflexivity.
Qed.
Lemma any_serve cu qs s F r : (forall f, (F <= f)%nat -> serve g f cu qs s = r) ->
  forall f, serve g f cu qs s = NoFuel \/ serve g f cu qs s = r.
Proof.
  intros H f. destruct (serve g f cu qs s) eqn:E; [right|right|left; reflexivity];
    rewrite <- E, <- (H (f + F)%nat) by lia; symmetry; apply serve_more; try lia; congruence.
Qed.
End Fuel.

Section S.
Variable g : cfg.
Hypothesis OK : cfg_ok g.

(** ** Statistics *)
Lemma up_levels s : forall lv i flat, up g nopend s i flat lv -> Forall (fun N : level => N <> []) lv.
Proof. induction lv as [|N lv IH]; intros i flat H; constructor; [apply H|]. destruct H as (_ & _ & _ & _ & _ & _ & H). eauto. Qed.

Lemma stats_any s M W drec : wtree g s M W -> mem_ok g s -> evp (fun _ f => op_stats g drec f) s (fun st s' => s' = s /\ stat_ok st).
Proof.
  intros (flat & Hup & _ & _) Hfit. destruct W as [|N lv]; [destruct Hup; discriminate|].
  destruct (up_ch g s lv N false flat [] Hup eq_refl) as (p & c & ls & Ep & Hc & El).
  pose proof (up_levels s _ _ _ Hup) as Hne.
  unfold op_stats. apply evp_root. rewrite <- Ep.
  eapply evp_weaken; [eapply (walk g OK s drec Hfit); eauto|].
  intros st s' (-> & F1 & L1 & C1). split; [reflexivity|]. change (length st = S (length ls)) in L1.
  assert (Hsz : forall i, (i < S (length ls))%nat -> 1 <= cnt st i).
  { intros i Hi. rewrite C1. unfold shift. cbn [Nat.ltb Nat.leb]. rewrite Nat.sub_0_r.
    replace (cnt [] i) with 0 by (unfold cnt; destruct i; reflexivity).
    assert (Hin : In (nth i ([(p, c)] :: ls : list level) []) (N :: lv)).
    { apply in_rev. replace (rev (N :: lv)) with ([(p, c)] :: ls : list level) by (symmetry; exact El). apply nth_In. exact Hi. }
    rewrite Forall_forall in Hne. apply Hne in Hin. unfold sz. destruct (nth i ([(p, c)] :: ls : list level) []); [easy|]. cbn [length]. lia. }
  destruct st as [|r below]; [discriminate|]. split.
  - pose proof (C1 0%nat) as X. unfold cnt, shift, sz in X. cbn in X. exact X.
  - apply Forall_forall. intros e He. apply In_nth_error in He as [i He].
    assert (Hi : (i < length below)%nat) by (apply nth_error_Some; congruence).
    cbn [length] in L1. specialize (Hsz (S i) ltac:(lia)). unfold cnt in Hsz. cbn [nth] in Hsz.
    rewrite (nth_error_nth _ _ (0, 0, 0) He) in Hsz. exact Hsz.
Qed.

(** ** The thread between two requests *)
Definition at_rest (s : st) (M : smap) (w : window) (cu : cursor) : Prop := exists N lv, wtree g s M (N :: lv) /\
  match w with
  | None => cu = None
  | Some (b, e, log, l) => (exists L0, log = L0 ++ [M]) /\ SeqCursor.curs_ok g s N lv log b e l cu
  end.

Lemma curs_none s N lv L b e l : ~ SeqCursor.curs_ok g s N lv L b e l None.
Proof. intros (pg & it & b1 & i & E & _). discriminate. Qed.

Lemma curs_moves s N lv s' N' lv' L E b e l cu : moves s (N :: lv) s' (N' :: lv') ->
  SeqCursor.curs_ok g s N lv L b e l cu -> SeqCursor.curs_ok g s' N' lv' (L ++ E) b e l cu.
Proof.
  intros Hm (pg & it & b1 & i & A & B & C). exists pg, it, b1, i. split; auto. split; [apply upto_app; auto|].
  eapply SeqCursor.at_leaf_moves; eauto.
Qed.

(** Every step of the requests is one that bytes can follow. *)
Fixpoint calm_serve (f : nat) (cu : cursor) (qs : list req) (s : st) : Prop :=
  match qs with
  | [] => True
  | q :: t => calm good (req_prog g f cu q) s /\
      forall a cu' s1, run (req_prog g f cu q) s = Done (a, cu') s1 -> calm_serve f cu' t s1
  end.
Lemma serve_ok qs : forall s M w cu, at_rest s M w cu -> mem_ok g s ->
  exists F l s', replies M w qs l /\ tree g s' (after_reqs M qs) /\ forall f, (F <= f)%nat -> serve g f cu qs s = Done l s' /\ calm_serve f cu qs s.
Proof.
  induction qs as [|q qs IH]; intros s M w cu (N & lv & HW & Hc) Hm.
  - exists 0%nat, [], s. split; [exact I|]. split; [eapply wtree_tree; eauto|]. cbn. auto.
  - assert (Go : forall a s1 cu1 F1 M1 w1, (forall f, (F1 <= f)%nat -> run (req_prog g f cu q) s = Done (a, cu1) s1 /\ calm good (req_prog g f cu q) s) ->
      at_rest s1 M1 w1 cu1 -> mem_ok g s1 ->
      (forall l, replies M1 w1 qs l -> replies M w (q :: qs) (a :: l)) -> after_reqs M1 qs = after_reqs M (q :: qs) ->
      exists F l s', replies M w (q :: qs) l /\ tree g s' (after_reqs M (q :: qs)) /\
        forall f, (F <= f)%nat -> serve g f cu (q :: qs) s = Done l s' /\ calm_serve f cu (q :: qs) s).
    { intros a s1 cu1 F1 M1 w1 R1 A1 Hm1 H1 E1. destruct (IH s1 M1 w1 cu1 A1 Hm1) as (F & l & s' & R & T & H).
      exists (max F1 F), (a :: l), s'. split; [auto|]. split; [rewrite <- E1; exact T|].
      intros f Hf. cbn [serve calm_serve]. destruct (R1 f) as [X1 X2]; [lia|]. destruct (H f) as [X3 X4]; [lia|]. rewrite X1, X3.
      split; [reflexivity|]. split; [exact X2|]. intros a0 c0 s0 X. injection X as <- <- <-. exact X4. }
    destruct q as [o|b e| |d].
    + destruct (evp_calm _ _ _ (call_moves g OK s M o _ HW)) as (r & s1 & (-> & (L' & W1 & Mv) & _) & F1 & H1).
      destruct L' as [|N1 lv1]; [destruct W1 as (? & [] & _); discriminate|].
      apply (Go (ACall (fst (spec M o))) s1 cu F1 (snd (spec M o)) (watch (snd (spec M o)) w)); auto.
      * intros f Hf. cbn [req_prog]. destruct (H1 f Hf) as [X1 X2]. rewrite run_bind, X1. split; [reflexivity|]. apply calm_bind; auto. intros; exact I.
      * exists N1, lv1. split; auto. destruct w as [[[[b e] log] l]|]; cbn [watch]; auto.
        destruct Hc as [_ Hc]. split; [eauto|]. eapply curs_moves; eauto.
      * destruct (fit_cond g OK) as [C1 C2].
        exact (proj2 (run_sp g _ _ _ _ _ (sp_call g C1 F1 o) Hm (proj1 (H1 F1 (le_n _))))).
      * intros l Hl. cbn [replies]. auto.
    + destruct (evp_calm _ _ _ (open_any g OK s M N lv [M] HW (ex_intro _ [] eq_refl) b e)) as (r & s1 & (-> & Hr) & F1 & H1).
      apply (Go AOpen s (Some r) F1 M (Some (b, e, [M], []))); auto.
      * intros f Hf. cbn [req_prog]. destruct (H1 f Hf) as [X1 X2]. rewrite run_bind, X1. destruct r. split; [reflexivity|]. apply calm_bind; auto. intros [? ?] ? _; exact I.
      * exists N, lv. split; auto. split; auto. exists []. reflexivity.
    + destruct w as [[[[b e] log] l]|].
      * destruct Hc as [Hlog Hc]. destruct cu as [[pg it]|]; [|destruct (curs_none _ _ _ _ _ _ _ Hc)].
        destruct (evp_calm _ _ _ (next_any g OK s M N lv log HW Hlog b e l pg it Hc)) as ([a cu1] & s1 & (-> & Hr) & F1 & H1).
        cbn [fst snd] in Hr. destruct a as [r| |x| |st]; try contradiction; destruct Hr as [Hs Hr].
        -- apply (Go (ARec x) s cu1 F1 M (Some (b, e, log, l ++ [x]))); auto.
           ++ exists N, lv. auto.
           ++ intros l' Hl. cbn [replies]. auto.
        -- apply (Go AEnd s cu1 F1 M (Some (b, e, log, l))); auto.
           ++ exists N, lv. auto.
           ++ intros l' Hl. cbn [replies]. auto.
      * subst cu. apply (Go AEnd s None 0%nat M None); auto.
        -- intros f _. cbn. auto.
        -- exists N, lv. auto.
        -- intros l' Hl. cbn [replies]. auto.
    + destruct (evp_calm _ _ _ (stats_any s M _ d HW Hm)) as (st & s1 & (-> & Hr) & F1 & H1).
      apply (Go (AStat st) s cu F1 M w); auto.
      * intros f Hf. cbn [req_prog]. destruct (H1 f Hf) as [X1 X2]. rewrite run_bind, X1. split; [reflexivity|]. apply calm_bind; auto. intros; exact I.
      * exists N, lv. auto.
      * intros l' Hl. cbn [replies]. auto.
Qed.

Lemma serve_from s M qs : tree g s M -> mem_ok g s ->
  exists l s', replies M None qs l /\
    (exists F, forall f, (F <= f)%nat -> serve g f None qs s = Done l s') /\
    (forall f, serve g f None qs s = NoFuel \/ serve g f None qs s = Done l s').
Proof.
  intros T Hm. destruct (tree_wtree _ _ _ T) as ([|N lv] & HW); [destruct HW as (? & [] & _); discriminate|].
  assert (A : at_rest s M None None) by (exists N, lv; auto).
  destruct (serve_ok qs s M None None A Hm) as (F & l & s' & R & T' & H). exists l, s'.
  split; auto. split; [exists F; intros; apply H; auto|]. apply any_serve with (F := F). intros; apply H; auto.
Qed.
End S.

Lemma serve_new g qs : cfg_ok g ->
  exists l s, replies sempty None qs l /\
    (exists F, forall f, (F <= f)%nat -> serve g f None qs (init g) = Done l s) /\
    (forall f, serve g f None qs (init g) = NoFuel \/ serve g f None qs (init g) = Done l s).
Proof.
  intros OK. apply (serve_from g OK (init g) sempty qs (init_tree g OK)). apply init_fits.
  exact (proj2 (fit_cond g OK)).
Qed.
Lemma serve_lived g K M s0 qs : cfg_ok g -> c_varlen g = false -> bulk_ok g ->
  lived g K M s0 ->
  exists l s, replies M None qs l /\
    (exists F, forall f, (F <= f)%nat -> serve g f None qs s0 = Done l s) /\
    (forall f, serve g f None qs s0 = NoFuel \/ serve g f None qs s0 = Done l s).
Proof.
  intros OK HV BC H. apply (serve_from g OK s0 M qs); [|exact (lived_fits g OK HV BC K M s0 H)].
  exact (proj1 (lived_tree g K OK HV BC (fun _ _ => 0%N) M s0 H)).
Qed.
Lemma serve_told g f qs l s : cfg_ok g -> serve g f None qs (init g) = Done l s -> replies sempty None qs l.
Proof. intros OK E. destruct (serve_new g qs OK) as (l' & s' & R & _ & H). destruct (H f) as [X|X]; rewrite X in E; [discriminate|]. injection E as <- <-. exact R. Qed.

Lemma serve_late g f pre b e qs l0 l s k v : cfg_ok g ->
  serve g f None (pre ++ QOpen b e :: qs) (init g) = Done (l0 ++ AOpen :: l) s -> length l0 = length pre ->
  unspoilt k qs l -> In AEnd l -> after b k -> before e k ->
  (In (k, v) (recs l) <-> after_reqs sempty pre k = Some v).
Proof.
  intros OK E El Hl Hi Ha Hb. apply serve_told in E; auto. apply replies_app in E as (w & E); auto. cbn [replies] in E.
  destruct (replies_late k _ _ _ _ _ _ _ E Hl) as [A B]; auto; try (constructor; auto); cbn; auto.
Qed.
Lemma serve_ascending g f pre b e qs l0 l s : cfg_ok g ->
  serve g f None (pre ++ QOpen b e :: qs) (init g) = Done (l0 ++ AOpen :: l) s -> length l0 = length pre ->
  Forall no_open qs -> StronglySorted (fun x y => fst x < fst y) (recs l).
Proof.
  intros OK E El Hn. apply serve_told in E; auto. apply replies_app in E as (w & E); auto. cbn [replies] in E.
  exact (replies_sorted _ _ _ _ _ _ _ E Hn (SSorted_nil _)).
Qed.
