(** The point operations on a quiescent tree. *)
From Coq Require Import ZArith NArith List Bool Lia.
From Coq Require Import Sorting.Sorted ZifyBool ZifyNat ZifyN.
From Verif Require Import Config Api Page Machine Tree Spec ListFacts SearchFacts ChainSpec ChainFacts ConsFacts
  Valid ConsolidateFacts ChainProps RunFacts SeqSpec LevelFacts SeqSearch SeqAux SeqSmo.
Import ListNotations.
Open Scope Z_scope.

(** A quiescent tree holding the records of [M]. *)
Definition tree (g : cfg) (s : st) (M : smap) : Prop := exists flat N lv,
  up g nopend s false flat (N :: lv) /\ glob s (N :: lv) /\ forall k, ofind k flat = M k.
(** The same, with its levels. *)
Definition wtree (g : cfg) (s : st) (M : smap) (L : list level) : Prop := exists flat,
  up g nopend s false flat L /\ glob s L /\ forall k, ofind k flat = M k.
Lemma wtree_tree g s M L : wtree g s M L -> tree g s M.
Proof. intros (flat & U & G & C). destruct L as [|N lv]; [destruct U; discriminate|]. exists flat, N, lv. auto. Qed.
Lemma tree_wtree g s M : tree g s M -> exists L, wtree g s M L.
Proof. intros (flat & N & lv & H). exists (N :: lv), flat. auto. Qed.
(** Removed nodes stay removed; the others keep level and lower bound until they are removed. *)
Definition moves (s : st) (L : list level) (s' : st) (L' : list level) : Prop :=
  (forall p, dead s p -> dead s' p) /\ (forall i p lo, live L i p lo -> live L' i p lo \/ dead s' p).
Lemma moves_refl s L : moves s L s L. Proof. split; auto. Qed.
Lemma moves_trans s L s1 L1 s2 L2 : moves s L s1 L1 -> moves s1 L1 s2 L2 -> moves s L s2 L2.
Proof.
  intros [A B] [C D]. split; auto. intros i p lo H. apply B in H as [H|H]; auto.
Qed.

Section S.
Variable g : cfg.
Hypothesis OK : cfg_ok g.

(** The leaf responsible for [k]. *)
Record leaf_at (s : st) (M : smap) (k : key) (n1 : level) (p : pid) (c : chain) (n2 : level)
    (lv : list level) (path : list pid) : Prop := {
  l_up : up g nopend s false (flat_of false (n1 ++ (p, c) :: n2)) ((n1 ++ (p, c) :: n2) :: lv);
  l_gl : glob s ((n1 ++ (p, c) :: n2) :: lv);
  l_M  : forall k, ofind k (flat_of false (n1 ++ (p, c) :: n2)) = M k;
  l_in : in_rng (c_lo c) (c_hi c) k;
  l_st : okst s lv (c_lo c) path;
  l_tb : s_tbl s p = Some c;
  l_wf : lwf g c;
  l_q  : quiet g c
}.

Lemma search_leaf_at s M k (closed : bool) L : wtree g s M L ->
  exists n1 p c n2 lv path, leaf_at s M (eff k closed) n1 p c n2 lv path /\ L = (n1 ++ (p, c) :: n2) :: lv /\
    forall Q : list pid -> st -> Prop, Q (p :: path) s -> evp (fun _ f => search_leaf f k closed) s Q.
Proof.
  intros (flat & Hup & Hgl & HM). destruct L as [|N lv]; [destruct Hup; discriminate|].
  pose proof Hup as (_ & _ & Hl & _ & Hn & Hf & Hu).
  assert (Hz : ~ In 0%N (pids lv)).
  { intros Hi. destruct Hgl as (_ & _ & H & _). destruct (H 0%N); [|lia].
    unfold pids. cbn. apply in_app_iff. auto. }
  destruct (leaf_descent g s k closed lv _ Hu Hz) as (lo & x & path & Hat & Hst & _ & HQ).
  apply at_lows_inv in Hat as (n1 & c & n2 & -> & <- & Lo & Hi); auto.
  destruct (up_in g nopend s false flat _ lv x c Hup (in_level _ _ _)) as (Et & Hw & Hq & _).
  exists n1, x, c, n2, lv, path. split.
  - constructor; auto; [|intros; rewrite Hf; auto|split; auto]. rewrite Hf. auto.
  - split; [reflexivity|]. intros Q Hp. unfold search_leaf. apply evp_root. apply HQ. apply evp_S. cbn [leaf_loop].
    eapply evp_bload; [exact Et|eauto|]. rewrite (cwf_leaf g false c) by exact Hw. cbn [negb].
    apply evp_ret. exact Hp.
Qed.
Lemma search_leaf_ok s M k (closed : bool) : tree g s M ->
  exists n1 p c n2 lv path, leaf_at s M (eff k closed) n1 p c n2 lv path /\
    forall Q : list pid -> st -> Prop, Q (p :: path) s -> evp (fun _ f => search_leaf f k closed) s Q.
Proof.
  intros T. destruct (tree_wtree _ _ _ T) as (L & W).
  destruct (search_leaf_at s M k closed L W) as (n1 & p & c & n2 & lv & path & A & _ & B). exists n1, p, c, n2, lv, path. auto.
Qed.

Section Leaf.
Variables (s : st) (M : smap) (k : key) (n1 : level) (p : pid) (c : chain) (n2 : level)
  (lv : list level) (path : list pid).
Hypothesis H : leaf_at s M k n1 p c n2 lv path.

Lemma flat_get c2 k2 : c_lo c2 = c_lo c -> c_hi c2 = c_hi c -> c_next c2 = c_next c ->
  lwf g c2 ->
  (in_rng (c_lo c) (c_hi c) k2 -> ofind k2 (flat_of false (n1 ++ (p, c2) :: n2)) = lget c2 k2) /\
  (~ in_rng (c_lo c) (c_hi c) k2 ->
     ofind k2 (flat_of false (n1 ++ (p, c2) :: n2)) = ofind k2 (flat_of false (n1 ++ n2))).
Proof.
  intros E1 E2 E3 W. destruct H as [(_ & _ & Hl & Hs & Hn & _ & _) _ _ _ _ _ _ _].
  apply forall_rem in Hn as [Hn _]. apply Forall_app in Hn as [Hn1 Hn2].
  apply node_ok_cwf in Hn1, Hn2.
  assert (Hs' : osorted (lows (n1 ++ (p, c2) :: n2))) by (rewrite (lows_upd n1 p c c2); auto).
  apply (linked_upd n1 p c c2) in Hl; auto.
  rewrite !flat_of_app, !flat_of_cons, !ofind_app. cbn [cents]. rewrite ofind_ekey. fold (lget c2 k2).
  split.
  - intros [Lo Hi]. rewrite <- E1 in Lo. rewrite <- E2 in Hi.
    rewrite (ofind_none k2 (flat_of false n1)).
    + rewrite (ofind_none k2 (flat_of false n2)); [destruct (lget c2 k2); auto|].
      eapply Forall_impl; [|eapply (flat_right g false n1 p c2 n2 k2); eauto].
      intros y Hy E. apply Hy. rewrite E. cbn. lia.
    + eapply Forall_impl; [|eapply (flat_left g false n1 p c2 n2 None 0%N k2); eauto].
      intros y Hy E. cbn beta in Hy. rewrite E in Hy. cbn in Hy. lia.
  - intros Hr. replace (lget c2 k2) with (@None val); auto.
    unfold lget. destruct (find k2 (lrecs c2)) eqn:E; auto. exfalso. apply Hr.
    destruct (lwf_sorted _ _ W) as [_ F]. apply find_in in E. rewrite Forall_forall in F.
    apply F in E. cbn in E. rewrite <- E1, <- E2. exact E.
Qed.

Lemma leaf_get : lget c k = M k.
Proof.
  destruct (flat_get c k) as [A _]; auto; [apply H|]. rewrite <- A by apply H. apply H.
Qed.

(** ** Reading *)
Lemma read_ok (Q : option val -> st -> Prop) : Q (M k) s ->
  evp (fun _ f => read_loop g f k (p :: path)) s Q.
Proof.
  intros HQ. rewrite <- leaf_get in HQ. apply evp_S. cbn [read_loop]. eapply evp_bload; [apply H|exact (good_lwf _ _ (l_wf _ _ _ _ _ _ _ _ _ H))|].
  pose proof (dc_search_record_spec g c k (l_wf _ _ _ _ _ _ _ _ _ H) false) as R.
  destruct (l_in _ _ _ _ _ _ _ _ _ H) as [_ Hi].
  destruct R as [v A B|A B|n A B C|h A B]; [easy| | | |]; try rewrite (lwf_leaf _ _ (l_wf _ _ _ _ _ _ _ _ _ H)).
  - apply evp_ret. rewrite <- B. auto.
  - apply evp_ret. rewrite <- B. auto.
  - pose proof (node_search_leaf n k (proj1 B) (proj1 (proj2 B))) as Hn.
    destruct (node_search n k) as [f pos]. rewrite C in HQ. destruct (find k (n_recs n)) eqn:E.
    + destruct Hn as [-> Hp]. cbn. rewrite Hp. apply evp_ret. auto.
    + subst f. apply evp_ret. auto.
  - rewrite A in Hi. cbn in Hi. lia.
Qed.

Definition has (o : option val) : bool := match o with Some _ => true | None => false end.
Lemma get_kc_ok (Q : chain * bool * list pid -> st -> Prop) : Q (c, has (M k), p :: path) s ->
  evp (fun _ f => get_head_kc g f k (p :: path)) s Q.
Proof.
  intros HQ. rewrite <- leaf_get in HQ. apply evp_S. cbn [get_head_kc].
  eapply evp_bind; [apply (load_valid_ok g OK s p c (fun x y => x = c /\ y = s) (l_tb _ _ _ _ _ _ _ _ _ H) (good_lwf _ _ (l_wf _ _ _ _ _ _ _ _ _ H))); auto; apply H|].
  intros ? ? [-> ->].
  pose proof (dc_search_record_spec g c k (l_wf _ _ _ _ _ _ _ _ _ H) false) as R.
  destruct (l_in _ _ _ _ _ _ _ _ _ H) as [_ Hi].
  destruct R as [v A B|A B|n A B C|h A B]; [easy| | | |].
  - apply evp_ret. rewrite B in HQ. auto.
  - apply evp_ret. rewrite B in HQ. auto.
  - pose proof (node_search_leaf n k (proj1 B) (proj1 (proj2 B))) as Hn.
    destruct (node_search n k) as [f pos]. rewrite C in HQ. apply evp_ret. destruct (find k (n_recs n)) eqn:E.
    + destruct Hn as [-> _]. auto.
    + subst f. auto.
  - rewrite A in Hi. cbn in Hi. lia.
Qed.

(** ** Publishing a delta record *)
Lemma commit_ok s1 d o :
  s_tbl s1 = s_tbl s -> s_root s1 = s_root s -> s_npid s1 = s_npid s -> s_cell s1 = s_cell s ->
  (s_naddr s <= s_naddr s1)%N ->
  lwf g (CRec d c) -> d_key d = k -> d_size d <= h_size c + maxrec g ->
  lget (CRec d c) k = o ->
  evp (fun _ f => finish g f (CRec d c) (p :: path)) (set_tbl s1 p (Some (CRec d c)))
    (fun r s' => r = Success /\ exists L', wtree g s' (sset M k o) L' /\ moves s ((n1 ++ (p, c) :: n2) :: lv) s' L').
Proof.
  intros T1 R1 P1 C1 A1 W Ek Sz Eo. set (c2 := CRec d c) in *. set (s2 := set_tbl s1 p (Some c2)).
  assert (E1 : c_lo c2 = c_lo c) by reflexivity. assert (E2 : c_hi c2 = c_hi c) by reflexivity.
  assert (E3 : c_next c2 = c_next c) by reflexivity.
  pose proof H as [Hup Hgl HM Hin Hst Htb Hwf Hq].
  assert (T2 : s_tbl s2 p = Some c2) by (unfold s2, set_tbl; cbn; apply upd_same).
  assert (T3 : forall x, x <> p -> s_tbl s2 x = s_tbl s x).
  { intros x Hx. unfold s2, set_tbl. cbn. rewrite upd_other, T1 by auto. auto. }
  assert (HM2 : forall k2, ofind k2 (flat_of false (n1 ++ (p, c2) :: n2)) = sset M k o k2).
  { intros k2. destruct (flat_get c2 k2 E1 E2 E3 W) as [B1 B2].
    destruct (flat_get c k2 eq_refl eq_refl eq_refl Hwf) as [B3 B4].
    assert (D : in_rng (c_lo c) (c_hi c) k2 \/ ~ in_rng (c_lo c) (c_hi c) k2).
    { unfold in_rng, lo_ok, hi_ok. destruct (c_lo c), (c_hi c); lia. }
    unfold sset. destruct (Z.eqb_spec k2 k) as [->|Hne].
    - rewrite B1 by auto. auto.
    - rewrite <- HM. destruct D as [D|D].
      + rewrite B1, B3 by auto. unfold lget, c2. cbn [lrecs]. destruct (lwf_sorted _ _ Hwf) as [Hs _].
        destruct (d_type d); rewrite ?find_put, ?find_del by auto; rewrite Ek;
          destruct (Z.eqb_spec k2 k); auto; contradiction.
      + rewrite B2, B4 by auto. auto. }
  assert (Hal : alive s ((n1 ++ (p, c) :: n2) :: lv)) by (eapply alive_up; eauto).
  assert (Hd2 : forall x, dead s x -> dead s2 x).
  { intros x Hx. assert (x <> p).
    { intros ->. destruct Hx as (a & l & E). rewrite Htb in E. inversion E; subst c. destruct Hwf. }
    destruct Hx as (a & l & E). exists a, l. rewrite T3; auto. }
  assert (Hlv : forall i x lo, live ((n1 ++ (p, c) :: n2) :: lv) i x lo -> live ((n1 ++ (p, c2) :: n2) :: lv) i x lo).
  { intros i x lo (N & cx & EN & Hi & El). destruct i as [|i]; [|exists N, cx; auto]. cbn in EN. injection EN as <-.
    eexists. apply in_app_iff in Hi as [Hi|[Hi|Hi]].
    - exists cx. split; [reflexivity|]. split; auto. apply in_app_iff; auto.
    - inversion Hi; subst. exists c2. split; [reflexivity|]. split; auto. apply in_app_iff; right; left; auto.
    - exists cx. split; [reflexivity|]. split; auto. apply in_app_iff; right; right; auto. }
  assert (Hmv : moves s ((n1 ++ (p, c) :: n2) :: lv) s2 ((n1 ++ (p, c2) :: n2) :: lv)).
  { split; auto. }
  unfold finish. destruct (need_consolidation g c2) eqn:En.
  - assert (TP : Tpre g s2 false (flat_of false (n1 ++ (p, c2) :: n2)) n1 p c2 n2 lv path).
    { eapply (Tpre_upd g s s2); eauto.
      - unfold c2. cbn [h_size]. pose proof (maxrec_excess g). destruct Hq as [_ Hq]. lia.
      - unfold c2. cbn [ndelta]. pose proof (quiet_ndelta g OK false c Hwf Hq). pose proof (ok_thr g OK). lia.
      - intros a _. unfold s2, set_tbl. cbn. rewrite C1. auto.
      - intros a Ha. unfold s2, set_tbl in *. cbn in *. rewrite C1. apply Hgl. lia.
      - easy. }
    eapply evp_bind; [apply (try_smos_ok g OK _ _ _ _ _ _ _ _ _ TP)|].
    intros ? s3 (lv3 & U3 & G3 & F3 & V3). apply evp_ret. split; auto.
    exists lv3. split; [exists (flat_of false (n1 ++ (p, c2) :: n2)); auto|].
    split.
    + intros x Hx. pose proof (alive_dead _ _ _ Hal Hx) as Hni. destruct (Hd2 x Hx) as (a1 & l1 & Ea).
      exists a1, l1. destruct F3 as (F3 & _). rewrite F3; auto; [rewrite (pids_upd n1 p c c2); auto|].
      unfold s2, set_tbl. cbn. rewrite P1. destruct (N.lt_ge_cases x (s_npid s)) as [|Hge]; auto.
      destruct Hx as (a' & l' & E'). destruct Hgl as (_ & _ & _ & Hgl & _). rewrite (Hgl x Hge) in E'. discriminate.
    + intros i x lo Hx. apply V3. exact (Hlv i x lo Hx).
  - eapply evp_bind; [apply evp_ret with (Q := fun _ y => y = s2); auto|]. intros ? ? ->. apply evp_ret. split; auto.
    exists ((n1 ++ (p, c2) :: n2) :: lv). split; [|exact Hmv]. exists (flat_of false (n1 ++ (p, c2) :: n2)).
    destruct Hgl as (G1 & G2 & G3 & G4 & G5).
    split; [|split; auto].
    + eapply (up_upd g nopend s s2); eauto.
      * apply noneed_quiet; auto.
      * discriminate.
      * unfold s2, set_tbl. cbn. rewrite C1. auto.
    + unfold glob. rewrite (pids_upd n1 p c c2). unfold s2, set_tbl. cbn. rewrite P1.
      split; auto. split; auto. split; auto. split.
      * intros x Hx. destruct (N.eqb_spec x p) as [->|Hne]; [|rewrite upd_other, T1 by auto; auto].
        destruct (G3 p); [|lia]. unfold pids. cbn. rewrite map_app. cbn. rewrite !in_app_iff. cbn. auto.
      * intros b Hb. rewrite C1. apply G5. lia.
Qed.
End Leaf.

Lemma tree_bump s M : tree g s M -> tree g (bump_addr s) M.
Proof.
  intros (flat & N & lv & A & (G1 & G2 & G3 & G4 & G5) & C). exists flat, N, lv. split; [|split; auto].
  - eapply up_frame; eauto.
  - split; auto. split; auto. split; auto. split; auto. intros a Ha. apply G5. cbn in Ha. lia.
Qed.

(** ** The operations *)
Definition failed (r : ret) : bool := match r with RCode KeyExist | RCode KeyNotExist => true | _ => false end.

Lemma leaf_bump s M k n1 p c n2 lv path : leaf_at s M k n1 p c n2 lv path ->
  leaf_at (bump_addr s) M k n1 p c n2 lv path.
Proof.
  intros [A (G1 & G2 & G3 & G4 & G5) C D E F G I]. constructor; auto.
  - eapply up_frame; eauto.
  - split; auto. split; auto. split; auto. split; auto. intros a Ha. apply G5. cbn in Ha. lia.
  - eapply okst_evolve; eauto.
Qed.

Section Write.
Variables (s : st) (M : smap) (k : key) (n1 : level) (p : pid) (c : chain) (n2 : level)
  (lv : list level) (path : list pid).
Hypothesis H : leaf_at s M k n1 p c n2 lv path.
Notation s1 := (bump_addr s).

Lemma sz k2 : 0 < recsz g (c_paylen g) k2 <= maxrec g. Proof. apply recsz_leaf; auto. Qed.

Lemma put_ok t v diff (K : nat -> nat -> bool -> prog rc) :
  match t with
  | DInsert => M k = None /\ diff = recsz g (c_paylen g) k
  | DModify => M k <> None /\ diff = 0
  | DDelete => M k <> None /\ diff = - recsz g (c_paylen g) k
  | DMerge => False
  end ->
  (forall f1 f2, K f1 f2 true = finish g f2 (CRec (set_next (leaf_delta (s_naddr s) t k v) c diff) c) (p :: path)) ->
  evp (fun f1 f2 => bind (cas true p (h_addr c) (CRec (set_next (leaf_delta (s_naddr s) t k v) c diff) c))
         (K f1 f2)) s1
    (fun r s' => r = Success /\ exists L', wtree g s' (sset M k (match t with DDelete => None | _ => Some v end)) L' /\
       moves s ((n1 ++ (p, c) :: n2) :: lv) s' L').
Proof.
  intros Hd HK.
  pose proof (leaf_get _ _ _ _ _ _ _ _ _ H) as HG. pose proof (l_wf _ _ _ _ _ _ _ _ _ H) as W.
  pose proof (lwf_sorted _ _ W) as [Hs _]. pose proof (sz k) as Z1.
  assert (Wn : lwf g (CRec (set_next (leaf_delta (s_naddr s) t k v) c diff) c)).
  { cbn [lwf]. split; auto. split; auto. split; [apply H|]. split; [reflexivity|].
    unfold lget in HG. cbn. destruct t; try contradiction; destruct Hd as [Hd ->]; auto.
    + split; auto. congruence.
    + split; [|lia]. rewrite HG. destruct (M k); [eauto|congruence].
    + split; [|lia]. rewrite HG. destruct (M k); [eauto|congruence]. }
  eapply evp_bcas; [apply H|auto|exact (good_lwf _ _ Wn)|].
  assert (Hc : forall Q, evp (fun _ f => finish g f (CRec (set_next (leaf_delta (s_naddr s) t k v) c diff) c) (p :: path))
     (set_tbl s1 p (Some (CRec (set_next (leaf_delta (s_naddr s) t k v) c diff) c))) Q ->
     evp (fun f1 f2 => K f1 f2 true)
     (set_tbl s1 p (Some (CRec (set_next (leaf_delta (s_naddr s) t k v) c diff) c))) Q).
  { intros Q (a & s' & [F HF] & HQ). exists a, s'. split; auto. exists F. intros f1 f2 L1 L2. rewrite HK. apply (HF f1 f2 L1 L2). }
  apply Hc. clear Hc.
  eapply commit_ok with (s := s) (n1 := n1) (n2 := n2) (lv := lv); eauto; try reflexivity.
  - cbn. lia.
  - cbn. destruct t; try contradiction; destruct Hd as [_ ->]; lia.
  - unfold lget. cbn [lrecs set_next leaf_delta d_type d_key d_pay].
    destruct t; try contradiction; rewrite ?find_put, ?find_del, Z.eqb_refl by auto; auto.
Qed.
End Write.

Definition moved_post (s : st) (M : smap) (L : list level) (o : call) (r : ret) (s' : st) : Prop :=
  r = fst (spec M o) /\ (exists L', wtree g s' (snd (spec M o)) L' /\ moves s L s' L') /\
  (failed r = true -> s' = bump_addr s) /\ (forall k, o = KRead k -> s' = s).
Lemma spec_post {s M L o} {P : nat -> nat -> prog rc} :
  evp P s (fun r s' => moved_post s M L o (RCode r) s') ->
  evp (fun f1 f2 => bind (P f1 f2) (fun x => Ret (RCode x))) s (moved_post s M L o).
Proof. intros H. eapply evp_bind; [exact H|]. intros r s' Hr. apply evp_ret. exact Hr. Qed.

Lemma call_moves s M o L : wtree g s M L -> evp (fun _ f => call_prog g f o) s (moved_post s M L o).
Proof.
  intros Hw.
  destruct (search_leaf_at s M (match o with KRead k | KWrite k _ | KInsert k _ | KUpdate k _ | KDelete k => k end) true L Hw)
    as (n1 & p & c & n2 & lv & path & HL & EL & HS). unfold eff in HL.
  pose proof (leaf_bump _ _ _ _ _ _ _ _ _ HL) as HB.
  assert (Htb : exists L', wtree g (bump_addr s) M L' /\ moves s L (bump_addr s) L').
  { exists L. split; [|split; [intros x Hx; exact Hx|auto]]. exists (flat_of false (n1 ++ (p, c) :: n2)). subst L. split; [apply HB|]. split; apply HB. }
  destruct o as [k|k v|k v|k v|k]; cbn [call_prog].
  { eapply evp_bind with (Q := fun x y => x = M k /\ y = s).
    + unfold op_read. eapply evp_bind; [apply (HS (fun x y => x = p :: path /\ y = s)); auto|].
      intros ? ? [-> ->]. eapply read_ok; eauto.
    + intros ? ? [-> ->]. apply evp_ret. split; [reflexivity|]. cbn [spec snd]. split; [exists L; split; [auto|apply moves_refl]|].
      split; [discriminate|auto]. }
  all: apply spec_post;
    unfold op_write, op_insert, op_update, op_delete;
     (eapply evp_bind; [apply (HS (fun x y => x = p :: path /\ y = s)); auto|]); intros ? ? [-> ->];
     apply evp_balloc; apply evp_S; cbn [write_loop insert_loop update_loop remove_loop];
     (eapply evp_bind; [eapply get_kc_ok with (s := bump_addr s) (M := M) (Q := fun x y => x = (c, has (M k), p :: path) /\ y = bump_addr s);
       [exact HB|auto]|]); intros ? ? [-> ->]; cbn beta iota; unfold moved_post; cbn [spec];
     destruct (M k) eqn:E; cbn [has negb fst snd].
  all: try (apply evp_ret; split; [reflexivity|]; split; [exact Htb|]; split; [auto|discriminate]).
  all: (eapply evp_weaken; [eapply put_ok; eauto; cbn; split; auto; congruence|]);
    intros r s' [-> HT]; (split; [reflexivity|]); (split; [rewrite EL; exact HT|]); split; discriminate.
Qed.
Lemma call_ok s M o : tree g s M ->
  evp (fun _ f => call_prog g f o) s (fun r s' => r = fst (spec M o) /\ tree g s' (snd (spec M o)) /\
    (failed r = true -> s' = bump_addr s) /\ (forall k, o = KRead k -> s' = s)).
Proof.
  intros T. destruct (tree_wtree _ _ _ T) as (L & W). eapply evp_weaken; [exact (call_moves s M o L W)|].
  intros r s' (A & (L' & B & _) & C). split; auto. split; auto. eapply wtree_tree; eauto.
Qed.

Lemma calls_ok os : forall s M, tree g s M ->
  exists F s', tree g s' (snd (spec_run M os)) /\
    forall f, (F <= f)%nat -> run_calls g f os s = Done (fst (spec_run M os)) s'.
Proof.
  induction os as [|o os IH]; intros s M Ht.
  - exists 0%nat, s. cbn. auto.
  - destruct (evp_done _ _ _ (call_ok s M o Ht)) as (r & s1 & (-> & T1 & _) & F1 & H1).
    destruct (IH s1 _ T1) as (F2 & s2 & T2 & H2). cbn [spec_run run_calls].
    destruct (spec M o) as [r M1] eqn:E. cbn [fst snd] in *.
    destruct (spec_run M1 os) as [rs M2]. cbn [fst snd] in *.
    exists (max F1 F2), s2. split; auto. intros f Hf. rewrite H1, H2 by lia. auto.
Qed.

Lemma init_tree : tree g (init g) sempty.
Proof.
  exists [], [(1%N, CBase (empty_leaf g 1%N))], []. split; [|split; [|reflexivity]].
  - cbn [up]. split; [discriminate|]. split; [reflexivity|]. split; [cbn; auto|].
    split; [repeat constructor|]. split; [|split; [reflexivity|cbn; auto]].
    constructor; [|constructor]. split; [reflexivity|]. split.
    + cbn. unfold lnode. cbn. repeat split; auto; [constructor|]. unfold lbytes, okl. cbn. destruct (c_varlen g); lia.
    + split; [|discriminate]. split; [reflexivity|]. cbn. pose proof (page_pos g OK). pose proof (ok_key g OK 0).
      pose proof (ok_pay g OK). unfold maxrec, ptrlen, metalen in *. destruct (c_varlen g); lia.
  - split; [cbn; constructor; [easy|constructor]|]. cbn. split; [lia|]. split.
    + intros p [<-|[]]. lia.
    + split; auto. intros p Hp. unfold upd. destruct (N.eqb_spec p 1); [lia|auto].
Qed.
End S.
