(** One thread on bytes: everything it loads and publishes is well-formed, so it follows
    Tree.v, with node merging and whatever happens to the root. *)
From Coq Require Import ZArith NArith List Bool Lia Sorting.Sorted.
From Verif Require Import Config Api Spec Page Machine Tree Scan Valid ChainSpec ChainFacts ConsolidateFacts RunFacts SeqSpec SeqAux SeqOps SeqScan ScanSpec
  FuelFacts MrgSpec ClientSpec Bytes ByteCons ByteConsSpec ByteFind ByteTree ByteTreeSpec ByteTreeRel ByteTreeSim ByteTreeMain
  ByteScan ByteScanSpec ByteScanSim ByteBulk ByteMrg ByteMrgSpec ByteMrgMain ByteSeq ByteSeqSpec.
From Verif Require AddrFacts MrgStart MrgMain ByteTreeConc ByteBulkSim.
Import ListNotations.
Open Scope Z_scope.

(** ** Well-formed chains are sane *)
Section Recs.
Variables (g g' : cfg) (ps ps' : Z).
Definition like (s s' : cstate) : Prop := cs_cur s = cs_cur s' /\ cs_pend s = false /\ cs_pend s' = false.
Lemma like_rec sz sz' r s s' : like s s' -> like (copy_rec g sz r s) (copy_rec g' sz' r s').
Proof. intros (A & B & E). unfold copy_rec, like. rewrite B, E, A. cbn. auto. Qed.
Lemma like_delta d s s' : like s s' -> like (copy_delta g ps d s) (copy_delta g' ps' d s').
Proof. intros H. unfold copy_delta. destruct (d_type d); auto; apply like_rec; auto. Qed.
Lemma like_flush k : forall ds s s', like s s' ->
  fst (flush_below g ps k ds s) = fst (flush_below g' ps' k ds s') /\ like (snd (flush_below g ps k ds s)) (snd (flush_below g' ps' k ds s')).
Proof. induction ds as [|d ds IH]; intros s s' H; cbn [flush_below]; auto. destruct (d_key d <? k); auto. apply IH, like_delta, H. Qed.
Lemma like_recs : forall rs ds s s', like s s' ->
  fst (merge_recs g ps rs ds s) = fst (merge_recs g' ps' rs ds s') /\ like (snd (merge_recs g ps rs ds s)) (snd (merge_recs g' ps' rs ds s')).
Proof.
  induction rs as [|[k v] rs IH]; intros ds s s' H; cbn [merge_recs]; auto.
  destruct (like_flush k ds s s' H) as [E L]. destruct (flush_below g ps k ds s) as [d1 s1], (flush_below g' ps' k ds s') as [d2 s2]. cbn [fst snd] in *. subst d2.
  destruct d1 as [|d dt]; [apply IH, like_rec, L|]. destruct (negb (k <? d_key d)); [apply IH, like_delta, L|apply IH, like_rec, L].
Qed.
Lemma like_node n ds s s' : like s s' ->
  fst (merge_node g ps n ds s) = fst (merge_node g' ps' n ds s') /\ like (snd (merge_node g ps n ds s)) (snd (merge_node g' ps' n ds s')).
Proof.
  intros H. unfold merge_node. destruct (n_inner n && is_leftmost n); [|apply like_recs, H]. destruct (n_recs n); auto. apply like_recs, like_rec, H.
Qed.
Lemma like_nodes : forall ns ds s s', like s s' -> like (merge_nodes g ps ns ds s) (merge_nodes g' ps' ns ds s').
Proof.
  induction ns as [|n ns IH]; intros ds s s' H; cbn [merge_nodes].
  - revert s s' H. induction ds as [|d ds IHd]; intros s s' H; cbn [fold_left]; auto. apply IHd, like_delta, H.
  - destruct (like_node n ds s s' H) as [E L]. destruct (merge_node g ps n ds s) as [d1 s1], (merge_node g' ps' n ds s') as [d2 s2].
    cbn [fst snd] in *. subst d2. apply IH, L.
Qed.
End Recs.
Lemma one_recs g g' i a ra ns ds n : consolidate g i a ra ns ds false false = COne n ->
  exists n', consolidate g' i a ra ns ds false false = COne n' /\ n_recs n' = n_recs n.
Proof.
  unfold consolidate. intros E. destruct (low_of g i _ _) as [lo ad]. injection E as <-. destruct (low_of g' i _ _) as [lo' ad'].
  eexists. split; [reflexivity|]. cbn [n_recs]. symmetry. apply (like_nodes g g'). repeat split.
Qed.
Lemma sane_any g g' c : sane g c -> sane g' c.
Proof.
  unfold sane. destruct c as [n|d nx|d n nx|a l]; auto; cbv zeta; intros [H1 H2]; (split; [exact H1|]); intros ds ns Es;
    destruct (H2 ds ns Es) as [H3 H4]; (split; [exact H3|]); intros Hi a ra m E;
    destruct (one_recs g' g _ _ _ _ _ _ E) as (m' & E' & <-); exact (H4 Hi _ _ _ E').
Qed.
Lemma good_sane g c : good c -> sane g c.
Proof. intros [H|(g0 & i & H)]; [destruct c; try discriminate; exact I|]. apply (sane_any g0). eapply cwf_sane; eauto. Qed.

(** ** Less fuel *)
Lemma calm_less {A} (S : chain -> Prop) (m m' : prog A) : mle m m' -> forall s, calm S m' s -> calm S m s.
Proof.
  revert m'. induction m; intros m' L s0; cbn [mle] in L; cbn [calm]; auto.
  all: destruct L as (k' & -> & L); cbn [calm]; eauto.
  - destruct (s_tbl s0 p); auto. intros [? ?]. eauto.
  - destruct (cas_ok s0 weak false p e); eauto. intros [? ?]. eauto.
  - destruct (N.eqb (s_root s0) old); eauto.
Qed.
(** Page IDs stay below 2^64. *)
Fixpoint small {A} (m : prog A) (s : st) : Prop :=
  match m with
  | Ret _ | UB _ | Fuel => True
  | Load p k => match s_tbl s p with Some c => small (k c) s | None => True end
  | Store p c k => small k (set_tbl s p (Some c))
  | Clear p k => small k (set_tbl s p None)
  | Cas w p e c k => if cas_ok s w false p e then small (k true) (set_tbl s p (Some c)) else small (k false) s
  | LoadRoot k => small (k (s_root s)) s
  | StoreRoot p k => small k (set_root s p)
  | CasRoot o n k => if N.eqb (s_root s) o then small (k true) (set_root s n) else small (k false) s
  | NewPid k => (s_npid s < max64)%N /\ small (k (s_npid s)) (bump_pid s)
  | Alloc k => small (k (s_naddr s)) (bump_addr s)
  | LoadCell a k => small (k (s_cell s a)) s
  | StoreCell a p k => small k (set_cell s a p)
  | Retire l k => small k (add_gc s l)
  end.
Lemma small_less {A} (m m' : prog A) : mle m m' -> forall s, small m' s -> small m s.
Proof.
  revert m'. induction m; intros m' L s0; cbn [mle] in L; cbn [small]; auto.
  all: destruct L as (k' & -> & L); cbn [small]; eauto.
  - destruct (s_tbl s0 p); eauto.
  - destruct (cas_ok s0 weak false p e); eauto.
  - destruct (N.eqb (s_root s0) old); eauto.
  - intros [? ?]. eauto.
Qed.
Lemma small_ok {A} (m : prog A) : forall s a s', run m s = Done a s' -> (s_npid s' <= max64)%N -> small m s.
Proof.
  induction m; intros s0 a0 s' E Hn; cbn [run] in E; cbn [small]; auto; try (eapply H; eauto; fail); try (eapply IHm; eauto; fail).
  - destruct (s_tbl s0 p); auto. eapply H; eauto.
  - destruct (cas_ok s0 weak false p e); eapply H; eauto.
  - destruct (N.eqb (s_root s0) old); eapply H; eauto.
  - split; [|eapply H; eauto]. pose proof (ByteBulkSim.run_npid (mk_cfg false (fun _ => 0) 0 0 0 0 0 0 0 0 0 0 false) 0%N (fun _ _ => 0%N) _ _ _ _ E) as Q. cbn in Q. lia.
Qed.

(** ** Runs *)
Section Main.
Context {P D : Type}.
Variable C : klass P D.
Variable lt : list N -> list N -> bool.
Variable g : cfg.
Hypothesis OK : cfg_ok g.
Variables (K : Z -> Prop) (ek : Z -> list N) (evl : N -> list N).
Variables (NP : node -> P -> Prop) (DP : delta -> D -> Prop).
Hypothesis HK : klass_ok C lt g K ek evl NP DP.
Variables (pmem : P -> mem) (junk : addr -> mem).

Notation ch := (tchain P D).
Notation crl := (crl C K ek NP DP).
Notation prel := (prel C g K ek NP DP).
Notation srl := (srl C K ek NP DP).
Notation xr := (xrun x_addr junk).

Lemma xr_npid {A} (m : xprog ch A) : forall s a s', xr m s = XDone a s' -> (x_npid s <= x_npid s')%N.
Proof.
  induction m; intros s b s' E; cbn [xrun] in E; try discriminate.
  - injection E as <- <-. lia.
  - destruct (x_tbl s p); [|discriminate]. eapply H; eauto.
  - apply IHm in E. exact E.
  - apply IHm in E. exact E.
  - match type of E with (if ?x then _ else _) = _ => destruct x end; apply H in E; exact E.
  - eapply H; eauto.
  - apply IHm in E. exact E.
  - destruct (N.eqb _ _); apply H in E; exact E.
  - apply H in E. cbn in E. lia.
  - apply H in E. exact E.
  - eapply H; eauto.
  - apply IHm in E. exact E.
  - apply IHm in E. exact E.
Qed.

Lemma cas_same xs s w p e : srl xs s ->
  match x_tbl xs p with Some c0 => (x_addr c0 =? e)%N | None => false end = cas_ok s w false p e.
Proof.
  intros [T1 _ _ _ _ _ _]. unfold cas_ok. pose proof (T1 p) as Q. destruct (s_tbl s p) as [c0|], (x_tbl xs p) as [b0|]; try contradiction; auto.
  cbn in Q. rewrite (x_addr_ok C K ek NP DP c0 b0 Q), andb_false_r, andb_true_r. reflexivity.
Qed.

Definition follows {B A} (R : B -> A -> Prop) (x : xres ch B) (r : res A) : Prop :=
  match r with
  | Done a s' => exists b xs', x = XDone b xs' /\ R b a /\ srl xs' s'
  | NoFuel => x = XNoFuel
  | Crash _ => True
  end.
Lemma run_follows {B A} (R : B -> A -> Prop) x m : prel R x m -> forall xs s, srl xs s -> calm good m s -> small m s ->
  follows R (xr x xs) (run m s).
Proof.
  induction 1 as [x u| |b0 a0 H|p kb k H IH|p b0 c kb k Hc H IH|w p e b0 c kb k Hc H1 IH1 H2 IH2|kb k H IH|p kb k Hp H IH|o n kb k Hn H IH
    |kb k H IH|kb k H IH|a kb k H IH|a p kb k H IH|l kb k H IH];
    intros xs s Hs Hg Hm; cbn [xrun run calm small] in *; pose proof Hs as [T1 T2 T3 T4 T5 T6 T7].
  - exact I.
  - reflexivity.
  - cbn. eauto 10.
  - pose proof (T1 p) as Q. destruct (s_tbl s p) as [c|]; [|exact I]. destruct (x_tbl xs p) as [b0|]; [|contradiction].
    destruct Hg as [G1 G2]. apply IH; auto. apply good_sane; auto.
  - apply IH; auto. apply put_srl; auto.
  - rewrite (cas_same xs s w p e Hs).
    destruct (cas_ok s w false p e); [|apply IH2; auto]. destruct Hg as [G1 G2]. apply IH1; auto; [apply good_sane; auto|apply put_srl; auto].
  - rewrite T2. apply IH; auto.
  - apply IH; auto. constructor; auto.
  - rewrite T2. destruct (N.eqb (s_root s) o); apply IH; auto. constructor; auto.
  - rewrite T4. destruct Hm as [M1 M2]. apply IH; auto. constructor; auto.
  - rewrite T5. apply IH; auto. constructor; auto.
  - rewrite T6. apply IH; auto.
  - apply IH; auto. constructor; auto. cbn. intros q. unfold upd. destruct (N.eqb q a); auto.
  - apply IH; auto. constructor; auto. cbn. rewrite T7. reflexivity.
Qed.
(** From the end of a run on bytes. *)
Lemma run_back {B A} (R : B -> A -> Prop) x m : prel R x m -> forall xs s b xs', srl xs s -> calm good m s ->
  xr x xs = XDone b xs' -> (x_npid xs' <= max64)%N -> (forall u, run m s <> Crash u) -> small m s.
Proof.
  induction 1 as [x u| |b0 a0 H|p kb k H IH|p b0 c kb k Hc H IH|w p e b0 c kb k Hc H1 IH1 H2 IH2|kb k H IH|p kb k Hp H IH|o n kb k Hn H IH
    |kb k H IH|kb k H IH|a kb k H IH|a p kb k H IH|l kb k H IH];
    intros xs s b xs' Hs Hg E Hb Hu; cbn [xrun run calm small] in *; pose proof Hs as [T1 T2 T3 T4 T5 T6 T7]; auto.
  - pose proof (T1 p) as Q. destruct (s_tbl s p) as [c|]; [|exact I]. destruct (x_tbl xs p) as [b0|]; [|contradiction].
    destruct Hg as [G1 G2]. eapply IH; eauto. apply good_sane; auto.
  - eapply IH; [|exact Hg|exact E|exact Hb|exact Hu]. apply put_srl; auto.
  - rewrite (cas_same xs s w p e Hs) in E.
    destruct (cas_ok s w false p e); [|eapply IH2; eauto]. destruct Hg as [G1 G2].
    eapply IH1; [apply good_sane; auto| |exact G2|exact E|exact Hb|exact Hu]. apply put_srl; auto.
  - rewrite T2 in E. eapply IH; eauto.
  - eapply IH; [|exact Hg|exact E|exact Hb|exact Hu]. constructor; auto.
  - rewrite T2 in E. destruct (N.eqb (s_root s) o); [|eapply IH; eauto]. eapply IH; [|exact Hg|exact E|exact Hb|exact Hu]. constructor; auto.
  - pose proof (xr_npid _ _ _ _ E) as Q. cbn in Q. rewrite T4 in *. assert (M1 : (s_npid s < max64)%N) by lia. split; [exact M1|].
    eapply IH; [exact M1| |exact Hg|exact E|exact Hb|exact Hu]. constructor; auto.
  - rewrite T5 in E. eapply IH; [|exact Hg|exact E|exact Hb|exact Hu]. constructor; auto.
  - rewrite T6 in E. eapply IH; eauto.
  - eapply IH; [|exact Hg|exact E|exact Hb|exact Hu]. constructor; auto. cbn. intros q. unfold upd. destruct (N.eqb q a); auto.
  - eapply IH; [|exact Hg|exact E|exact Hb|exact Hu]. constructor; auto. cbn. rewrite T7. reflexivity.
Qed.

(** ** Scans *)
Lemma collect_sim : forall fuel p n bi it, ByteTreeRel.prl K NP n p -> itrl K ek bi it ->
  prel (fun x y => x = map (fun r => (ek (fst r), evl (snd r))) y) (xcollect C lt g pmem fuel p bi) (collect g fuel n it).
Proof.
  induction fuel as [|f IH]; intros p n bi it Hp Hi; cbn [xcollect collect]; [apply pr_fuel|].
  eapply prel_bind; [eapply has_record_sim; eauto|]. intros [[mb p1] bi1] [[ma n1] it1] (E1 & Hp1 & Hi1). cbn [fst snd] in *. subst ma.
  destruct mb; [|apply pr_ret; reflexivity]. destruct (get_record n1 it1) as [[k v]|] eqn:Eg; [|apply pr_ub].
  rewrite (get_record_ok C lt g K ek evl NP DP HK junk p1 n1 bi1 it1 k v Hp1 Hi1 Eg).
  eapply prel_bind; [apply IH; [exact Hp1|]|].
  - destruct Hi1 as (J1 & J2 & J3 & J4 & J5). unfold itrl, xadvance, advance. cbn. rewrite J1. auto.
  - intros x y ->. apply pr_ret. reflexivity.
Qed.
Lemma scan_all_sim m fuel b e : bound_key K b -> bound_key K e ->
  prel (fun x y => x = map (fun r => (ek (fst r), evl (snd r))) y)
    (xscan_all C lt g pmem m fuel (enc_bound ek b) (enc_bound ek e)) (scan_all g fuel b e).
Proof.
  intros Hb He. unfold xscan_all, scan_all. eapply prel_bind; [apply (scan_sim C lt g K ek evl NP DP HK m fuel b e Hb He)|].
  intros [p bi] [n it] Ho. destruct Ho as [Hp Hi]. apply collect_sim; auto.
Qed.

(** ** Items *)
Notation xitems := (xrun_items C lt g pmem junk).
Notation bis xis := (map (enc_item ek evl) xis).
Definition jrel (b : banswer) (j : answer) : Prop := b = enc_answer ek evl j.
Lemma item_sim fuel m i : item_keys K i -> prel jrel (xitem_prog C lt g pmem fuel (enc_item ek evl (m, i))) (item_prog g fuel i).
Proof.
  destruct i as [o|b e]; cbn [item_keys enc_item fst snd xitem_prog item_prog].
  - intros Hk. eapply prel_bind; [apply (call_sim C lt g K ek evl NP DP HK fuel o Hk)|]. intros x y ->. apply pr_ret. reflexivity.
  - intros (Hb & He & _). eapply prel_bind; [apply scan_all_sim; auto|]. intros x y ->. apply pr_ret. reflexivity.
Qed.
Lemma mono_item f f' i : (f <= f')%nat -> mle (item_prog g f i) (item_prog g f' i).
Proof. intros L. destruct i; cbn [item_prog]; (apply mle_bind; [apply mono_call + apply mono_scan_all; exact L|]); intros a; apply mle_refl. Qed.

(** What one item does to a tree. *)
Definition says (M : smap) (i : item) (j : answer) : Prop :=
  match i, j with
  | ICall o, JRet r => r = fst (spec M o)
  | IScan b e, JRecs l => StronglySorted (fun x y => fst x < fst y) l /\ forall k v, In (k, v) l <-> M k = Some v /\ after b k /\ before e k
  | _, _ => False
  end.
Lemma answers_cons M i is j js : says M i j -> answers (after_items M [i]) is js -> answers M (i :: is) (j :: js).
Proof. destruct i, j; cbn; tauto. Qed.
Lemma after_cons M i is : after_items M (i :: is) = after_items (after_items M [i]) is.
Proof. destruct i; reflexivity. Qed.
Lemma item_ok s M i : tree g s M -> item_keys K i -> exists F j s', says M i j /\ tree g s' (after_items M [i]) /\
  (match i with IScan _ _ => s' = s | _ => True end) /\
  forall f, (F <= f)%nat -> run (item_prog g f i) s = Done j s' /\ calm good (item_prog g f i) s.
Proof.
  intros T Hk. destruct i as [o|b e]; cbn [item_prog].
  - destruct (evp_calm _ _ _ (call_ok g OK s M o T)) as (r & s1 & (-> & T1 & _) & F1 & H1).
    exists F1, (JRet (fst (spec M o))), s1. split; [reflexivity|]. split; [exact T1|]. split; [exact I|].
    intros f Hf. destruct (H1 f Hf) as [A B]. rewrite run_bind, A. split; [reflexivity|]. apply calm_bind; auto. intros; exact I.
  - destruct Hk as (_ & _ & Hb). destruct (scan_calm g s M b e OK T) as (F1 & l & b' & H1 & Hs & Hin & Hb').
    assert (E : b' = b) by (destruct Hb' as [X|(bk & X & _)]; [exact X|destruct (Hb bk X)]). subst b'.
    exists F1, (JRecs l), s. split; [split; auto|]. split; [exact T|]. split; [reflexivity|].
    intros f Hf. destruct (H1 f Hf) as [A B]. rewrite run_bind, A. split; [reflexivity|]. apply calm_bind; auto. intros; exact I.
Qed.

Fixpoint calm_items (f : nat) (is : list item) (s : st) : Prop :=
  match is with
  | [] => True
  | i :: t => calm good (item_prog g f i) s /\ forall r s1, run (item_prog g f i) s = Done r s1 -> calm_items f t s1
  end.
Fixpoint small_items (f : nat) (is : list item) (s : st) : Prop :=
  match is with
  | [] => True
  | i :: t => small (item_prog g f i) s /\ forall r s1, run (item_prog g f i) s = Done r s1 -> small_items f t s1
  end.
Lemma items_less f f' is : (f <= f')%nat -> forall s, (calm_items f' is s -> calm_items f is s) /\ (small_items f' is s -> small_items f is s).
Proof.
  intros L. induction is as [|i is IH]; intros s; cbn [calm_items small_items]; [auto|]. pose proof (mono_item f f' i L) as M.
  split; intros [H1 H2]; (split; [eapply calm_less + eapply small_less; eauto|]); intros r s1 E;
    apply (IH s1), (H2 r); rewrite (mle_run _ _ M) by (rewrite E; discriminate); exact E.
Qed.
Lemma items_more f f' is : (f <= f')%nat -> forall s, run_items g f is s <> NoFuel -> run_items g f' is s = run_items g f is s.
Proof.
  intros L. induction is as [|o os IH]; intros s H; cbn [run_items] in *; auto.
  pose proof (mle_run _ _ (mono_item f f' o L) s) as E.
  destruct (run (item_prog g f o) s) as [r s1|u|] eqn:R; [| |congruence]; rewrite E by congruence; auto.
  rewrite IH; auto. intros X. rewrite X in H. congruence.
Qed.
Lemma items_calm is : Forall (item_keys K) is -> forall s M, tree g s M -> exists F js s', answers M is js /\ tree g s' (after_items M is) /\
  forall f, (F <= f)%nat -> run_items g f is s = Done js s' /\ calm_items f is s.
Proof.
  induction 1 as [|i is Hk _ IH]; intros s M Ht.
  - exists 0%nat, [], s. cbn. auto.
  - destruct (item_ok s M i Ht Hk) as (F1 & j & s1 & J1 & T1 & _ & H1). destruct (IH s1 _ T1) as (F2 & js & s2 & J2 & T2 & H2).
    exists (max F1 F2), (j :: js), s2. split; [apply answers_cons; auto|]. rewrite after_cons. split; [exact T2|]. intros f Hf.
    destruct (H1 f) as [A1 B1]; [lia|]. destruct (H2 f) as [A2 B2]; [lia|]. cbn [run_items calm_items].
    rewrite A1, A2. split; auto. split; auto. intros r0 s0 X. injection X as <- <-. exact B2.
Qed.
Lemma items_npid f is : forall s rs s', run_items g f is s = Done rs s' -> (s_npid s <= s_npid s')%N.
Proof.
  induction is as [|o os IH]; intros s rs s' E; cbn [run_items] in E; [injection E as <- <-; lia|].
  destruct (run (item_prog g f o) s) as [r s1| |] eqn:E1; try discriminate.
  destruct (run_items g f os s1) as [rs1 s2| |] eqn:E2; try discriminate. injection E as <- <-.
  pose proof (ByteBulkSim.run_npid g 0%N junk _ _ _ _ E1). pose proof (IH _ _ _ E2). lia.
Qed.
Lemma small_items_ok f is : forall s rs s', run_items g f is s = Done rs s' -> (s_npid s' <= max64)%N -> small_items f is s.
Proof.
  induction is as [|o os IH]; intros s rs s' E Hn; cbn [run_items small_items] in *; auto.
  destruct (run (item_prog g f o) s) as [r s1| |] eqn:E1; try discriminate.
  destruct (run_items g f os s1) as [rs1 s2| |] eqn:E2; try discriminate. injection E as <- <-.
  pose proof (items_npid _ _ _ _ _ E2) as Q. split; [eapply small_ok; [exact E1|lia]|]. intros r0 s0 X. injection X as <- <-. eapply IH; eauto.
Qed.
Definition jsrel (b : list banswer) (a : list answer) : Prop := b = map (enc_answer ek evl) a.
Lemma items_follow f xis : Forall (item_keys K) (map snd xis) -> forall xs s, srl xs s -> calm_items f (map snd xis) s -> small_items f (map snd xis) s ->
  follows jsrel (xitems f (bis xis) xs) (run_items g f (map snd xis) s).
Proof.
  induction xis as [|[m i] xis IH]; cbn [map snd]; intros Hk xs s Hs Hg Hm; cbn [map xrun_items run_items calm_items small_items] in *.
  - cbn. exists [], xs. split; [reflexivity|]. split; [reflexivity|exact Hs].
  - destruct Hg as [G1 G2], Hm as [M1 M2].
    pose proof (run_follows _ _ _ (item_sim f m i (Forall_inv Hk)) xs s Hs G1 M1) as F.
    destruct (run (item_prog g f i) s) as [r s1| |]; [|exact I|cbn in F; rewrite F; reflexivity].
    destruct F as (b & xs1 & -> & -> & S1). specialize (IH (Forall_inv_tail Hk) xs1 s1 S1 (G2 _ _ eq_refl) (M2 _ _ eq_refl)).
    destruct (run_items g f (map snd xis) s1) as [rs s2| |]; [|exact I|cbn in IH; rewrite IH; reflexivity].
    destruct IH as (bs & xs2 & -> & E & S2). cbn. eexists (_ :: bs), xs2. split; [reflexivity|]. split; [|exact S2]. unfold jsrel in *. cbn. congruence.
Qed.
Lemma xitems_npid f os : forall s rs s', xitems f os s = XDone rs s' -> (x_npid s <= x_npid s')%N.
Proof.
  induction os as [|o os IH]; intros s rs s' E; cbn [xrun_items] in E; [injection E as <- <-; lia|].
  destruct (xr (xitem_prog C lt g pmem f o) s) as [r s1| |] eqn:E1; try discriminate.
  destruct (xitems f os s1) as [rs1 s2| |] eqn:E2; try discriminate. injection E as <- <-.
  pose proof (xr_npid _ _ _ _ E1). pose proof (IH _ _ _ E2). lia.
Qed.
Lemma items_back f xis : Forall (item_keys K) (map snd xis) -> forall xs s b xs', srl xs s -> calm_items f (map snd xis) s ->
  xitems f (bis xis) xs = XDone b xs' -> (x_npid xs' <= max64)%N -> (forall u, run_items g f (map snd xis) s <> Crash u) -> small_items f (map snd xis) s.
Proof.
  induction xis as [|[m i] xis IH]; cbn [map snd]; intros Hk xs s b xs' Hs Hg E Hn Hu; cbn [map xrun_items run_items calm_items small_items] in *; auto.
  destruct Hg as [G1 G2].
  destruct (xr (xitem_prog C lt g pmem f (enc_item ek evl (m, i))) xs) as [rb x1| |] eqn:E1; try discriminate.
  destruct (xitems f (bis xis) x1) as [rs1 x2| |] eqn:E2; try discriminate. injection E as <- <-.
  pose proof (xitems_npid _ _ _ _ _ E2) as Q.
  assert (M1 : small (item_prog g f i) s).
  { eapply run_back; [apply (item_sim f m i (Forall_inv Hk))|exact Hs|exact G1|exact E1|lia|]. intros u X. rewrite X in Hu. exact (Hu u eq_refl). }
  split; [exact M1|]. intros r s1 Er. rewrite Er in Hu.
  pose proof (run_follows _ _ _ (item_sim f m i (Forall_inv Hk)) xs s Hs G1 M1) as F. rewrite Er, E1 in F. cbn in F.
  destruct F as (b0 & xs1 & X & _ & S1). injection X as <- <-. eapply IH; [exact (Forall_inv_tail Hk)|exact S1|eauto|exact E2|exact Hn|].
  intros u X. rewrite X in Hu. exact (Hu u eq_refl).
Qed.

Lemma items_addr f : forall is0 s js s', MrgStart.addr_lt s -> Forall (item_keys K) is0 ->
  (exists M, tree g s M) -> run_items g f is0 s = Done js s' -> MrgStart.addr_lt s'.
Proof.
  induction is0 as [|i is0 IH]; intros s js s' Hi Hks [M T] E; cbn [run_items] in E; [inversion E; subst; auto|].
  destruct (run (item_prog g f i) s) as [j s1| |] eqn:E1; try discriminate.
  destruct (run_items g f is0 s1) as [js1 s2| |] eqn:E2; try discriminate. injection E as <- <-.
  destruct (item_ok s M i T (Forall_inv Hks)) as (F1 & j' & s1' & _ & T1 & Sc & H1).
  assert (X : run (item_prog g (max f F1) i) s = run (item_prog g f i) s) by (apply mle_run; [apply mono_item; lia|rewrite E1; discriminate]).
  destruct (H1 (max f F1)) as [Y _]; [lia|]. rewrite X, E1 in Y. injection Y as <- <-.
  destruct i as [o|b e].
  - cbn [item_prog] in E1. rewrite run_bind in E1. destruct (run (call_prog g f o) s) as [r s3| |] eqn:E3; try discriminate. cbn in E1. injection E1 as <- <-.
    eapply (IH s3); eauto; [|exact (Forall_inv_tail Hks)]. eapply AddrFacts.call_addr; eauto.
  - subst s1. eapply (IH s); eauto. exact (Forall_inv_tail Hks).
Qed.

(** ** Programs on any tree *)
Section From.
Variables (x0 : xst ch) (s0 : st) (M0 : smap).
Hypothesis T0 : tree g s0 M0.
Hypothesis R0 : srl x0 s0.
Variable xis : list (mem * item).
Notation is := (map snd xis).
Hypothesis Hk : Forall (item_keys K) is.
Lemma from_any : exists F js s, answers M0 is js /\ tree g s (after_items M0 is) /\ (forall f, (F <= f)%nat -> run_items g f is s0 = Done js s) /\ (forall f, calm_items f is s0) /\ (forall f, run_items g f is s0 = Done js s \/ (f < F)%nat /\ run_items g f is s0 = NoFuel).
Proof.
  destruct (items_calm is Hk s0 M0 T0) as (F & js & s & J & T & H). exists F, js, s. split; [exact J|]. split; [exact T|].
  split; [intros f Hf; apply H; auto|].
  split; [intros f; destruct (H (max f F)) as [_ A]; [lia|]; eapply items_less; [|exact A]; lia|].
  intros f. destruct (le_lt_dec F f) as [L|L]; [left; apply H; auto|].
  destruct (run_items g f is s0) as [rs s1| |] eqn:E; auto; left; rewrite <- E;
    rewrite <- (items_more f F is (Nat.lt_le_incl _ _ L)) by (rewrite E; discriminate); apply H; auto.
Qed.
Lemma from_bytes : exists F js s, answers M0 is js /\ (forall f, (F <= f)%nat -> run_items g f is s0 = Done js s) /\ ((s_npid s <= max64)%N -> forall f,
     (exists xs, xitems f (bis xis) x0 = XDone (map (enc_answer ek evl) js) xs) \/
     (f < F)%nat /\ xitems f (bis xis) x0 = XNoFuel).
Proof.
  destruct from_any as (F & js & s & J & _ & H & G & A). exists F, js, s. split; [exact J|]. split; [exact H|]. intros Hn f.
  assert (Sm : small_items f is s0).
  { eapply (items_less f (max f F)); [lia|]. eapply small_items_ok; [apply H; lia|exact Hn]. }
  pose proof (items_follow f xis Hk _ _ R0 (G f) Sm) as Q.
  destruct (A f) as [E|[L E]]; rewrite E in Q; cbn in Q; [left|right; auto]. destruct Q as (b & xs & E1 & E2 & _). exists xs. rewrite E1, E2. reflexivity.
Qed.
(** The tree a run on bytes leaves behind. *)
Lemma from_left f b xs : MrgStart.addr_lt s0 -> xitems f (bis xis) x0 = XDone b xs -> (x_npid xs <= max64)%N ->
  exists js s, b = map (enc_answer ek evl) js /\ answers M0 is js /\ run_items g f is s0 = Done js s /\ srl xs s /\ tree g s (after_items M0 is) /\ MrgStart.addr_lt s.
Proof.
  intros A0 E Hn. destruct from_any as (F & js & s & J & T & H & G & A).
  assert (Sm : small_items f is s0).
  { eapply (items_back f xis Hk); [exact R0|apply G|exact E|exact Hn|]. intros u X. destruct (A f) as [Y|[_ Y]]; congruence. }
  pose proof (items_follow f xis Hk _ _ R0 (G f) Sm) as Q. rewrite E in Q.
  destruct (A f) as [Er|[L Er]]; rewrite Er in Q; cbn in Q; [|discriminate]. destruct Q as (b' & xs' & X & Eb & S). injection X as <- <-.
  exists js, s. split; [exact Eb|]. split; [exact J|]. split; [exact Er|]. split; [exact S|]. split; [exact T|].
  exact (items_addr f is s0 _ _ A0 Hk (ex_intro _ _ T0) Er).
Qed.
End From.

Section Items.
Variable xis : list (mem * item).
Notation is := (map snd xis).
Hypothesis Hk : Forall (item_keys K) is.
Lemma seq_bytes : exists F js s, answers sempty is js /\ (forall f, (F <= f)%nat -> run_items g f is (init g) = Done js s) /\ ((s_npid s <= max64)%N -> forall f,
     (exists xs, xitems f (bis xis) (xinit C junk) = XDone (map (enc_answer ek evl) js) xs) \/
     (f < F)%nat /\ xitems f (bis xis) (xinit C junk) = XNoFuel).
Proof. exact (from_bytes _ _ _ (init_tree g OK) (init_srl C lt g K ek evl NP DP HK junk) xis Hk). Qed.
Lemma seq_left f b xs : xitems f (bis xis) (xinit C junk) = XDone b xs -> (x_npid xs <= max64)%N ->
  exists js s, b = map (enc_answer ek evl) js /\ answers sempty is js /\ srl xs s /\ tree g s (after_items sempty is) /\ MrgStart.addr_lt s.
Proof.
  intros E Hn. destruct (from_left _ _ _ (init_tree g OK) (init_srl C lt g K ek evl NP DP HK junk) xis Hk f b xs) as (js & s & A & B & _ & R); eauto.
  intros p c. cbn. unfold upd. destruct (N.eqb_spec p 1); [|discriminate]. intros X; inversion X. cbn. lia.
Qed.

(** Clients after that. *)
Variable stat_mem : pid -> mem.
Lemma seq_clients f b xs mems fuel todos sch : xitems f (bis xis) (xinit C junk) = XDone b xs ->
  Forall (Forall (req_keys K)) todos -> length mems = length todos -> begins_given todos \/ x_two_levels C xs ->
  let c0 := bkstart xs (combine mems (map (map (enc_req ek evl)) todos)) in
  xroot_stays C lt g pmem stat_mem junk fuel (x_root xs) c0 sch -> (x_npid xs + N.of_nat (length sch) <= max64)%N ->
  let e := bkexec C lt g pmem stat_mem junk fuel c0 sch in
  ~ bkcrashed (fst e) /\
  exists steps, snd e = map (enc_kevent ek evl) (concat (map snd steps)) /\ map fst steps = map fst sch /\ told (after_items sempty is) no_view steps.
Proof.
  intros E HT Hl BG c0 Rs Hn. destruct (seq_left f b xs E ltac:(lia)) as (js & s & _ & _ & S & T & AD).
  exact (mrg_clients C lt g OK K ek evl NP DP HK pmem stat_mem junk fuel xs s _ todos mems sch S T AD HT Hl BG Rs Hn).
Qed.
End Items.
End Main.
