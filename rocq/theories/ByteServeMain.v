(** One thread with an open iterator on bytes follows the same thread on Tree.v. *)
From Coq Require Import ZArith NArith List Bool Lia Sorting.Sorted.
From Verif Require Import Config Api Spec Page Machine Tree Scan Valid RunFacts SeqSpec SeqAux SeqOps FuelFacts Client ClientSpec PageFacts StatFacts
  Bytes FixLayout DeltaBytes ByteCons ByteConsSpec ByteTree ByteTreeSpec ByteTreeRel ByteTreeSim ByteTreeInst ByteTreeMain ByteScan ByteScanSpec ByteScanSim ByteBulk
  ByteMrgMain ByteSeq ByteSeqSpec ByteSeqMain ByteLifeSpec ByteLifeMain BulkFit Serve ServeFacts ServeMain ByteServe.
From Verif Require AddrFacts MrgStart ByteBulkSim ByteRoom BulkSpec Valid ScanSpec.
Import ListNotations.
Open Scope Z_scope.

Section Main.
Context {P D : Type}.
Variable C : klass P D.
Variable lt : list N -> list N -> bool.
Variable g : cfg.
Hypothesis OK : cfg_ok g.
Variables (K : Z -> Prop) (ek : Z -> list N) (evl : N -> list N).
Variables (NP : node -> P -> Prop) (DP : delta -> D -> Prop).
Hypothesis HK : klass_ok C lt g K ek evl NP DP.
Variables (pmem : P -> mem) (stat_mem : pid -> mem) (junk : addr -> mem).

Notation ch := (tchain P D).
Notation srl := (srl C K ek NP DP).
Notation xr := (xrun x_addr junk).
Notation xsv := (xserve C lt g pmem stat_mem junk).
Notation enc := (map (enc_req ek evl)).
Notation curl := (curl K ek NP).
Notation sim := (req_sim C lt g K ek evl NP DP HK pmem stat_mem).
Notation follows := (follows C K ek NP DP).

Fixpoint small_serve (f : nat) (cu : cursor) (qs : list req) (s : st) : Prop :=
  match qs with
  | [] => True
  | q :: t => small (req_prog g f cu q) s /\ forall a cu' s1, run (req_prog g f cu q) s = Done (a, cu') s1 -> small_serve f cu' t s1
  end.
Lemma serve_less f f' qs : (f <= f')%nat -> forall cu s, (calm_serve g f' cu qs s -> calm_serve g f cu qs s) /\ (small_serve f' cu qs s -> small_serve f cu qs s).
Proof.
  intros L. induction qs as [|q qs IH]; intros cu s; cbn [calm_serve small_serve]; [auto|]. pose proof (mono_req g cu q f f' L) as M.
  split; intros [H1 H2]; (split; [eapply calm_less + eapply small_less; eauto|]); intros a cu' s1 E;
    apply (IH cu' s1), (H2 a); rewrite (mle_run _ _ M) by (rewrite E; discriminate); exact E.
Qed.
Lemma serve_npid f qs : forall cu s l s', serve g f cu qs s = Done l s' -> (s_npid s <= s_npid s')%N.
Proof.
  induction qs as [|q qs IH]; intros cu s l s' E; cbn [serve] in E; [injection E as <- <-; lia|].
  destruct (run (req_prog g f cu q) s) as [[a cu'] s1| |] eqn:E1; try discriminate.
  destruct (serve g f cu' qs s1) as [l1 s2| |] eqn:E2; try discriminate. injection E as <- <-.
  pose proof (ByteBulkSim.run_npid g 0%N junk _ _ _ _ E1). pose proof (IH _ _ _ _ E2). lia.
Qed.
Lemma small_serve_ok f qs : forall cu s l s', serve g f cu qs s = Done l s' -> (s_npid s' <= max64)%N -> small_serve f cu qs s.
Proof.
  induction qs as [|q qs IH]; intros cu s l s' E Hn; cbn [serve small_serve] in *; auto.
  destruct (run (req_prog g f cu q) s) as [[a cu'] s1| |] eqn:E1; try discriminate.
  destruct (serve g f cu' qs s1) as [l1 s2| |] eqn:E2; try discriminate. injection E as <- <-.
  pose proof (serve_npid _ _ _ _ _ _ E2) as Q. split; [eapply small_ok; [exact E1|lia]|]. intros a0 c0 s0 X. injection X as <- <- <-. eapply IH; eauto.
Qed.
Definition lrel (b : list bans) (a : list ans) : Prop := b = map (enc_ans ek evl) a.
Lemma serve_follow f qs : Forall (req_keys K) qs -> forall bc cu xs s, curl bc cu -> srl xs s -> calm_serve g f cu qs s -> small_serve f cu qs s ->
  follows lrel (xsv f bc (enc qs) xs) (serve g f cu qs s).
Proof.
  induction 1 as [|q qs Hq Hk IH]; intros bc cu xs s Hc Hs Hg Hm; cbn [map xserve serve calm_serve small_serve] in *.
  - cbn. exists [], xs. split; [reflexivity|]. split; [reflexivity|exact Hs].
  - destruct Hg as [G1 G2], Hm as [M1 M2].
    pose proof (run_follows C g K ek NP DP junk _ _ _ (sim f bc cu q Hc Hq) xs s Hs G1 M1) as F.
    destruct (run (req_prog g f cu q) s) as [[a cu'] s1| |]; [|exact I|cbn in F; rewrite F; reflexivity].
    destruct F as ([b bc'] & xs1 & -> & [Ea Ec] & S1). cbn [fst snd] in Ea, Ec. subst b.
    specialize (IH bc' cu' xs1 s1 Ec S1 (G2 _ _ _ eq_refl) (M2 _ _ _ eq_refl)).
    destruct (serve g f cu' qs s1) as [l s2| |]; [|exact I|cbn in IH; rewrite IH; reflexivity].
    destruct IH as (bl & xs2 & -> & -> & S2). cbn. eexists _, xs2. split; [reflexivity|]. split; [reflexivity|exact S2].
Qed.
Lemma xserve_npid f qs : forall cu s l s', xsv f cu qs s = XDone l s' -> (x_npid s <= x_npid s')%N.
Proof.
  induction qs as [|q qs IH]; intros cu s l s' E; cbn [xserve] in E; [injection E as <- <-; lia|].
  destruct (xr (breq_prog C lt g pmem stat_mem f cu q) s) as [[a cu'] s1| |] eqn:E1; try discriminate.
  destruct (xsv f cu' qs s1) as [l1 s2| |] eqn:E2; try discriminate. injection E as <- <-.
  pose proof (xr_npid junk _ _ _ _ E1). pose proof (IH _ _ _ _ E2). lia.
Qed.
Lemma serve_back f qs : Forall (req_keys K) qs -> forall bc cu xs s b xs', curl bc cu -> srl xs s -> calm_serve g f cu qs s ->
  xsv f bc (enc qs) xs = XDone b xs' -> (x_npid xs' <= max64)%N -> (forall u, serve g f cu qs s <> Crash u) -> small_serve f cu qs s.
Proof.
  induction 1 as [|q qs Hq Hk IH]; intros bc cu xs s b xs' Hc Hs Hg E Hn Hu; cbn [map xserve serve calm_serve small_serve] in *; auto.
  destruct Hg as [G1 G2].
  destruct (xr (breq_prog C lt g pmem stat_mem f bc (enc_req ek evl q)) xs) as [[rb bc1] x1| |] eqn:E1; try discriminate.
  destruct (xsv f bc1 (enc qs) x1) as [rs1 x2| |] eqn:E2; try discriminate. injection E as <- <-.
  pose proof (xserve_npid _ _ _ _ _ _ E2) as Q.
  assert (M1 : small (req_prog g f cu q) s).
  { eapply (run_back C g K ek NP DP junk); [apply (sim f bc cu q Hc Hq)|exact Hs|exact G1|exact E1|lia|]. intros u X. rewrite X in Hu. exact (Hu u eq_refl). }
  split; [exact M1|]. intros a cu1 s1 Er. rewrite Er in Hu.
  pose proof (run_follows C g K ek NP DP junk _ _ _ (sim f bc cu q Hc Hq) xs s Hs G1 M1) as F. rewrite Er, E1 in F. cbn in F.
  destruct F as ([b0 c0] & xs1 & X & [Ea Ec] & S1). injection X as <- <- <-. eapply IH; [exact Ec|exact S1|eauto|exact E2|exact Hn|].
  intros u X. rewrite X in Hu. exact (Hu u eq_refl).
Qed.

(** ** From any tree *)
Section From.
Variables (x0 : xst ch) (s0 : st) (M0 : smap) (m0 : mem).
Hypothesis T0 : SeqOps.tree g s0 M0.
Hypothesis R0 : srl x0 s0.
Variable qs : list req.
Hypothesis Hk : Forall (req_keys K) qs.
Hypothesis Hm : mem_ok g s0.
Lemma serve_any : exists F l s, replies M0 None qs l /\ (forall f, (F <= f)%nat -> serve g f None qs s0 = Done l s) /\ (forall f, calm_serve g f None qs s0) /\
  (forall f, serve g f None qs s0 = Done l s \/ (f < F)%nat /\ serve g f None qs s0 = NoFuel).
Proof.
  destruct (tree_wtree _ _ _ T0) as ([|N lv] & HW); [destruct HW as (? & [] & _); discriminate|].
  assert (A : at_rest g s0 M0 None None) by (exists N, lv; auto).
  destruct (serve_ok g OK qs s0 M0 None None A Hm) as (F & l & s & J & _ & H). exists F, l, s. split; [exact J|].
  split; [intros f Hf; apply H; auto|].
  split; [intros f; destruct (H (max f F)) as [_ B]; [lia|]; eapply serve_less; [|exact B]; lia|].
  intros f. destruct (Compare_dec.le_lt_dec F f) as [L|L]; [left; apply H; auto|].
  destruct (any_serve g None qs s0 F (Done l s)) with (f := f) as [X|X]; [intros; apply H; auto|auto|auto].
Qed.
Lemma serve_bytes : exists F l s, replies M0 None qs l /\ (forall f, (F <= f)%nat -> serve g f None qs s0 = Done l s) /\ ((s_npid s <= max64)%N -> forall f,
     (exists xs, xsv f (BNew m0) (enc qs) x0 = XDone (map (enc_ans ek evl) l) xs) \/
     (f < F)%nat /\ xsv f (BNew m0) (enc qs) x0 = XNoFuel).
Proof.
  destruct serve_any as (F & l & s & J & H & G & A). exists F, l, s. split; [exact J|]. split; [exact H|]. intros Hn f.
  assert (Sm : small_serve f None qs s0).
  { eapply (serve_less f (max f F)); [lia|]. eapply small_serve_ok; [apply H; lia|exact Hn]. }
  pose proof (serve_follow f qs Hk (BNew m0) None _ _ I R0 (G f) Sm) as Q.
  destruct (A f) as [E|[L E]]; rewrite E in Q; cbn in Q; [left|right; auto]. destruct Q as (b & xs & E1 & E2 & _). exists xs. rewrite E1, E2. reflexivity.
Qed.
Lemma serve_left f b xs : xsv f (BNew m0) (enc qs) x0 = XDone b xs -> (x_npid xs <= max64)%N ->
  exists l s, b = map (enc_ans ek evl) l /\ replies M0 None qs l /\ serve g f None qs s0 = Done l s /\ srl xs s.
Proof.
  intros E Hn. destruct serve_any as (F & l & s & J & H & G & A).
  assert (Sm : small_serve f None qs s0).
  { eapply (serve_back f qs Hk (BNew m0) None); [exact I|exact R0|apply G|exact E|exact Hn|]. intros u X. destruct (A f) as [Y|[_ Y]]; congruence. }
  pose proof (serve_follow f qs Hk (BNew m0) None _ _ I R0 (G f) Sm) as Q. rewrite E in Q.
  destruct (A f) as [Er|[L Er]]; rewrite Er in Q; cbn in Q; [|discriminate]. destruct Q as (b' & xs' & X & Eb & S). injection X as <- <-.
  exists l, s. auto.
Qed.
End From.

Lemma new_bytes m0 qs : Forall (req_keys K) qs ->
  exists F l s, replies sempty None qs l /\ (forall f, (F <= f)%nat -> serve g f None qs (init g) = Done l s) /\ ((s_npid s <= max64)%N -> forall f,
     (exists xs, xsv f (BNew m0) (enc qs) (xinit C junk) = XDone (map (enc_ans ek evl) l) xs) \/
     (f < F)%nat /\ xsv f (BNew m0) (enc qs) (xinit C junk) = XNoFuel).
Proof.
  intros Hk. apply (serve_bytes _ _ _ m0 (init_tree g OK) (init_srl C lt g K ek evl NP DP HK junk) qs Hk).
  apply init_fits. exact (proj2 (fit_cond g OK)).
Qed.
Lemma new_left m0 qs f b xs : Forall (req_keys K) qs ->
  xsv f (BNew m0) (enc qs) (xinit C junk) = XDone b xs -> (x_npid xs <= max64)%N ->
  exists l, b = map (enc_ans ek evl) l /\ replies sempty None qs l.
Proof.
  intros Hk E Hn. destruct (serve_left _ _ _ m0 (init_tree g OK) (init_srl C lt g K ek evl NP DP HK junk) qs Hk) with (f := f) (b := b) (xs := xs) as (l & s & A & B & _); eauto.
  apply init_fits. exact (proj2 (fit_cond g OK)).
Qed.
Lemma new_user m0 pre b e qs f bl xs : Forall (req_keys K) (pre ++ QOpen b e :: qs) ->
  xsv f (BNew m0) (enc (pre ++ QOpen b e :: qs)) (xinit C junk) = XDone bl xs -> (x_npid xs <= max64)%N ->
  exists l0 l, bl = map (enc_ans ek evl) (l0 ++ AOpen :: l) /\ length l0 = length pre /\
    (Forall no_open qs -> StronglySorted (fun x y => fst x < fst y) (recs l)) /\
    (forall k v, unspoilt k qs l -> In AEnd l -> ScanSpec.after b k -> ScanSpec.before e k -> (In (k, v) (recs l) <-> after_reqs sempty pre k = Some v)).
Proof.
  intros Hk E Hn. destruct (new_left m0 _ f bl xs Hk E Hn) as (l & -> & R).
  destruct (replies_user _ _ _ _ _ _ R) as (l0 & l1 & -> & H). exists l0, l1. split; [reflexivity|exact H].
Qed.
End Main.

(** At any time of the life of a tree of fixed-length nodes. *)
Section Life.
Variables (g : cfg) (K : Z -> Prop) (lt : list N -> list N -> bool) (ek : Z -> list N) (evl : N -> list N) (L : flay) (e : N).
Hypothesis OK : cfg_ok g.
Hypothesis HV : c_varlen g = false.
Hypothesis HL : flay_ok g L e.
Hypothesis HC : coding g false K lt ek evl.
Hypothesis BC : Valid.bulk_ok g.
Variables (stat_mem : pid -> mem) (junk : addr -> mem).
Notation C := (fix_klass L (Z.to_N (c_paylen g)) lt).
Notation HK := (ByteRoom.fixr_ok g HV K lt ek evl L e OK HL HC).
Notation xsv := (xserve C lt g fix_pmem stat_mem junk).
Notation enc := (map (enc_req ek evl)).
Lemma life_serve_left M xs m0 qs f b xs' : xlived g K lt ek evl L junk M xs -> Forall (req_keys K) qs ->
  xsv f (BNew m0) (enc qs) xs = XDone b xs' -> (x_npid xs' <= max64)%N ->
  exists l, b = map (enc_ans ek evl) l /\ replies M None qs l.
Proof.
  intros H Hk E Hn. pose proof (xserve_npid _ _ _ _ _ _ _ _ _ _ _ _ E) as Np.
  destruct (lived_bytes g K lt ek evl L e OK HV HL HC BC junk M xs H) as (s & Hl & R); [lia|].
  destruct (lived_tree g K OK HV BC junk M s Hl) as [T _].
  destruct (serve_left C lt g OK K ek evl _ _ HK fix_pmem stat_mem junk xs s M m0 T R qs Hk (lived_fits g OK HV BC K M s Hl) f b xs' E Hn) as (l & s' & A & B & _). eauto.
Qed.
Lemma life_serve M xs : xlived g K lt ek evl L junk M xs -> (x_npid xs <= max64)%N ->
  exists s, lived g K M s /\ x_npid xs = s_npid s /\
  forall m0 qs, Forall (req_keys K) qs ->
  exists F l s', replies M None qs l /\ (forall f, (F <= f)%nat -> serve g f None qs s = Done l s') /\ ((s_npid s' <= max64)%N -> forall f,
     (exists xs', xsv f (BNew m0) (enc qs) xs = XDone (map (enc_ans ek evl) l) xs') \/ (f < F)%nat /\ xsv f (BNew m0) (enc qs) xs = XNoFuel).
Proof.
  intros H Hn. destruct (lived_bytes g K lt ek evl L e OK HV HL HC BC junk M xs H Hn) as (s & Hl & R).
  destruct (lived_tree g K OK HV BC junk M s Hl) as [T _]. exists s. split; [exact Hl|]. split; [apply R|]. intros m0 qs Hk.
  exact (serve_bytes C lt g OK K ek evl _ _ HK fix_pmem stat_mem junk xs s M m0 T R qs Hk (lived_fits g OK HV BC K M s Hl)).
Qed.
End Life.
