(** Statistics of a quiescent tree: one entry per level, counting its nodes. *)
From Coq Require Import ZArith NArith List Bool Lia.
From Coq Require Import Sorting.Sorted ZifyBool ZifyNat ZifyN.
From Verif Require Import Config Api Page Machine Tree Scan Spec Conc ListFacts SearchFacts ChainSpec
  ChainFacts ConsFacts Valid ConsolidateFacts RunFacts SeqSpec LevelFacts SeqSearch SeqAux SeqOps SeqProps StatSpec PageFacts.
Import ListNotations.
Open Scope Z_scope.

Definition cnt_of (e : Z * Z * Z) : Z := fst (fst e).
Definition fine (e : Z * Z * Z) : Prop := snd (fst e) <= snd e.
Definition cnt (acc : list (Z * Z * Z)) (i : nat) : Z := cnt_of (nth i acc (0, 0, 0)).

Lemma add_stat_spec a v : a <= v -> forall l acc, (l <= length acc)%nat -> Forall fine acc ->
  Forall fine (add_stat l a v acc) /\ length (add_stat l a v acc) = Nat.max (length acc) (S l) /\
  forall i, cnt (add_stat l a v acc) i = cnt acc i + if Nat.eqb i l then 1 else 0.
Proof.
  intros Hav. induction l as [|l IH]; intros [|[[n x] y] t] Hl Hf; cbn [add_stat length] in *.
  - split; [repeat constructor; exact Hav|]. split; [lia|]. intros [|[|i]]; reflexivity.
  - inversion Hf; subst. split.
    { constructor; auto. unfold fine in *; cbn in *; lia. }
    split; [lia|]. intros [|i]; unfold cnt, cnt_of; cbn [nth fst snd Nat.eqb]; lia.
  - lia.
  - inversion Hf; subst. destruct (IH t ltac:(lia) H2) as (A & B & C). split; [constructor; auto|].
    split; [lia|]. intros [|i]; cbn [cnt nth Nat.eqb]; [cbn; lia|]. apply (C i).
Qed.

Section S.
Variable g : cfg.
Hypothesis OK : cfg_ok g.

Lemma cons_inner_scan c ds a ra : iwf g c -> sort_ok c ds ->
  consolidate g true a ra (pages c) ds false true =
    COne (cons_page c true a ((ikey0 c, ilead c) :: ients c) (2 * c_page g)) /\
  scan_bytes g true (pages c) ds = h_size c.
Proof.
  intros Hw (_ & Hs & Hn & _). pose proof (iwf_mhigh _ _ Hw) as Hm. unfold consolidate, scan_bytes.
  rewrite (pages_base c Hm), (pages_front c Hm).
  change (paysz g true) with ptrlen. rewrite (merge_nodes_inner g c ds _ Hw Hs Hn).
  rewrite cpr_nosplit by reflexivity. unfold copy_rec. cbn [cs_cur cs_size app cs_pend andb snd].
  rewrite (low_of_inner g) by auto. split; [reflexivity|].
  rewrite (iwf_size g _ Hw). unfold ibytes. unfold c_lo, c_hi. cbn [snd]. lia.
Qed.

Lemma scan_inner_ok s c (Q : node -> st -> Prop) : iwf g c -> quiet g c ->
  (forall n, n_recs n = (ikey0 c, ilead c) :: ients c -> Q n s) ->
  evp (fun _ f => scan_page g c) s Q.
Proof.
  intros Hw Hq HQ. unfold scan_page. destruct (sort_ok_ex c (iwf_mhigh _ _ Hw)) as (ds & Hs).
  destruct (cons_inner_scan c ds 0%N 0%N Hw Hs) as [E1 E2]. pose proof Hs as (-> & _ & _ & Hn).
  pose proof (quiet_ndelta g OK true c Hw Hq). pose proof (ok_thr g OK).
  destruct (Z.ltb_spec (c_maxd g) (Z.of_nat (length ds))); [lia|].
  rewrite (cwf_leaf g true c Hw). cbn [negb]. rewrite E2.
  destruct Hq as [_ Hq]. pose proof (page_pos g OK). pose proof (ok_hdr g OK).
  assert (0 <= maxrec g) by (unfold maxrec, metalen, ptrlen; pose proof (ok_key g OK 0); pose proof (ok_pay g OK); destruct (c_varlen g); lia).
  destruct (Z.ltb_spec (2 * c_page g) (h_size c)); [lia|].
  rewrite E1. apply evp_ret. apply HQ. reflexivity.
Qed.

Lemma usage_ok i c : cwf g i c -> pfit g c -> exists sz dn, node_usage c = Some (sz, dn) /\ sz <= c_page g.
Proof.
  intros Hw. assert (G : match node_usage c with Some (sz, _) => pfit g c -> sz <= c_page g | None => False end).
  { destruct i; cbn [cwf] in Hw; induction c as [n|d nx IH|d n nx IH|]; cbn [node_usage pfit iwf lwf] in *; auto; try tauto;
      destruct Hw as [Hw _]; specialize (IH Hw); destruct (node_usage nx) as [[sz dn]|]; tauto. }
  intros Hp. destruct (node_usage c) as [[sz dn]|]; [|tauto]. exists sz, dn. auto.
Qed.

Lemma vhead_ok s p i c (Q : chain -> st -> Prop) : s_tbl s p = Some c -> quiet g c -> cwf g i c -> Q c s ->
  evp (fun _ f => valid_head_not_removed g f p) s Q.
Proof.
  intros E Hq Hw HQ. apply evp_S. cbn [valid_head_not_removed]. eapply evp_bind.
  - apply (load_valid_ok g OK s p c (fun x y => x = c /\ y = s)); eauto.
  - cbn beta. intros a s1 [-> ->]. rewrite (cwf_not_remove g i c Hw). apply evp_ret; auto.
Qed.

(** ** Segments of consecutive levels, topmost first *)
Section Walk.
Variable s : st.
Variable drec : Z.
Hypothesis Hfit : mem_ok g s.

Fixpoint ch (seg : level) (ls : list level) : Prop :=
  match ls with
  | [] => Forall (node_ok g nopend s false) seg
  | T :: ls' => Forall (node_ok g nopend s true) seg /\
      map snd (flat_of true seg) = map fst T /\ ch T ls'
  end.
Definition sz (ls : list level) (i : nat) : Z := Z.of_nat (length (nth i ls [])).

Lemma ch_app : forall ls A B, ch (A ++ B) ls -> exists la lb, ch A la /\ ch B lb /\
  length la = length ls /\ length lb = length ls /\ forall i, sz ls i = sz la i + sz lb i.
Proof.
  induction ls as [|T ls IH]; intros A B H; cbn [ch] in H.
  - apply Forall_app in H as [H1 H2]. exists [], []. repeat split; auto. intros [|i]; reflexivity.
  - destruct H as (H1 & H2 & H3). apply Forall_app in H1 as [H1 H1'].
    rewrite flat_of_app, map_app in H2. symmetry in H2. apply map_eq_app in H2 as (TA & TB & -> & E1 & E2).
    destruct (IH TA TB H3) as (la & lb & P1 & P2 & P3 & P4 & P5).
    exists (TA :: la), (TB :: lb). cbn [ch length]. repeat split; auto; try lia.
    intros [|i]; unfold sz; cbn [nth]; [rewrite app_length; lia|apply P5].
Qed.

Definition shift (lvl : nat) (ls : list level) (i : nat) : Z := if Nat.ltb i lvl then 0 else sz ls (i - lvl).
Definition res (lvl : nat) (acc : list (Z * Z * Z)) (ls : list level) (acc' : list (Z * Z * Z)) : Prop :=
  Forall fine acc' /\ length acc' = Nat.max (length acc) (lvl + length ls) /\
  forall i, cnt acc' i = cnt acc i + shift lvl ls i.

Lemma walk : forall n ls p c lvl acc, length ls = n -> ch [(p, c)] ls -> (lvl <= length acc)%nat -> Forall fine acc ->
  evp (fun _ f => collect_stats g drec f p lvl acc) s
    (fun acc' s' => s' = s /\ res lvl acc ([(p, c)] :: ls) acc').
Proof.
  induction n as [|n IH]; intros ls p c lvl acc Hn Hc Hl Hf.
  - destruct ls; [|discriminate]. cbn [ch] in Hc. inversion Hc; subst. destruct H1 as (Et & Hw & Hq & _). cbn [fst snd] in *.
    apply evp_S. cbn [collect_stats]. eapply evp_bind.
    { apply (vhead_ok s p false c (fun x y => x = c /\ y = s)); auto. }
    cbn beta. intros a s1 [-> ->]. destruct (usage_ok false c Hw (Hfit _ _ Et)) as (z & dn & -> & Hz).
    rewrite (cwf_leaf g false c Hw). cbn [negb]. apply evp_ret. split; auto.
    destruct (add_stat_spec (z + dn * drec) (c_page g + dn * drec) ltac:(lia) lvl acc Hl Hf) as (A & B & C).
    split; auto. split; [cbn [length]; lia|]. intros i. rewrite C. unfold shift. f_equal.
    destruct (Nat.eqb_spec i lvl), (Nat.ltb_spec i lvl); subst; try lia.
    + rewrite Nat.sub_diag. reflexivity.
    + destruct (i - lvl)%nat as [|[|m]] eqn:E; try lia; reflexivity.
  - destruct ls as [|T ls]; [discriminate|]. injection Hn as Hn. cbn [ch] in Hc. destruct Hc as (H1 & H2 & H3).
    inversion H1; subst x l. destruct H4 as (Et & Hw & Hq & _). cbn [fst snd] in *.
    apply evp_S. cbn [collect_stats]. eapply evp_bind.
    { apply (vhead_ok s p true c (fun x y => x = c /\ y = s)); auto. }
    cbn beta. intros a s1 [-> ->]. destruct (usage_ok true c Hw (Hfit _ _ Et)) as (z & dn & -> & Hz).
    rewrite (cwf_leaf g true c Hw). cbn [negb].
    destruct (add_stat_spec (z + dn * drec) (c_page g + dn * drec) ltac:(lia) lvl acc Hl Hf) as (A & B & C).
    set (acc1 := add_stat lvl (z + dn * drec) (c_page g + dn * drec) acc) in *.
    eapply evp_bind.
    { apply (scan_inner_ok s c (fun x y => n_recs x = (ikey0 c, ilead c) :: ients c /\ y = s)); auto. }
    cbn beta. intros nd s1 [En ->].
    assert (Em : map snd (n_recs nd) = map fst T).
    { rewrite <- H2, En. unfold flat_of. cbn [flat_map snd app]. rewrite app_nil_r. cbn [cents map snd]. f_equal.
      unfold ekey. rewrite map_map. reflexivity. }
    assert (G : forall ls acc (l : list (key * val)) T, length ls = n -> ch T ls -> map snd l = map fst T ->
      (S lvl <= length acc)%nat -> Forall fine acc ->
      evp (fun _ f => (fix go (l : list (key * val)) (acc : list (Z * Z * Z)) :=
               match l with
               | [] => Ret acc
               | (_, c) :: t => bind (collect_stats g drec f c (S lvl) acc) (fun acc' => go t acc')
               end) l acc) s
        (fun acc' s' => s' = s /\ Forall fine acc' /\
           length acc' = Nat.max (length acc) (S lvl + (if T then 0%nat else S n)) /\
           forall i, cnt acc' i = cnt acc i + shift (S lvl) (T :: ls) i)).
    { clear - IH Hfit OK. intros ls acc l. revert ls acc. induction l as [|[x v] l IHl]; intros ls acc [|[q d] T] Hn Hc E Hl Hf;
        try discriminate E.
      - apply evp_ret. split; auto. split; auto. split; [lia|]. intros i. unfold shift.
        assert (Z0 : forall j, sz ([] :: ls) j = 0).
        { clear - Hc. revert ls Hc. assert (X : forall ls, ch [] ls -> forall j, sz ls j = 0).
          { induction ls as [|U ls IH]; cbn [ch]; intros H j; [destruct j; reflexivity|].
            destruct H as (_ & H2 & H3). destruct U; [|discriminate]. destruct j; [reflexivity|]. apply (IH H3 j). }
          intros ls Hc [|j]; [reflexivity|apply (X ls Hc j)]. }
        destruct (Nat.ltb i (S lvl)); [lia|]. rewrite Z0. lia.
      - cbn [map fst snd] in E. injection E as -> E.
        destruct (ch_app ls [(q, d)] T Hc) as (la & lb & P1 & P2 & P3 & P4 & P5).
        eapply evp_bind; [eapply (IH la q d (S lvl) acc); auto; lia|].
        cbn beta. intros acc2 s1 (-> & F2 & L2 & C2).
        eapply evp_weaken; [eapply (IHl lb acc2 T); eauto; lia|].
        cbn beta. intros acc3 s1 (-> & F3 & L3 & C3). split; auto. split; auto. split.
        + cbn [length] in L2. destruct T; lia.
        + intros i. rewrite C3, C2. rewrite <- Z.add_assoc. f_equal. unfold shift.
          destruct (Nat.ltb i (S lvl)); [lia|]. destruct (i - S lvl)%nat as [|j]; unfold sz; cbn [nth length].
          * lia.
          * symmetry. apply (P5 j). }
    eapply evp_weaken; [eapply (G ls acc1 (n_recs nd) T); eauto; lia|].
    cbn beta. intros acc2 s1 (-> & F2 & L2 & C2). split; auto. split; auto. split.
    + cbn [length]. destruct T; [|lia]. rewrite En in Em. discriminate Em.
    + intros i. rewrite C2, C. rewrite <- Z.add_assoc. f_equal. unfold shift.
      destruct (Nat.eqb_spec i lvl), (Nat.ltb_spec i lvl), (Nat.ltb_spec i (S lvl)); try lia.
      * subst. rewrite Nat.sub_diag. reflexivity.
      * replace (i - lvl)%nat with (S (i - S lvl)) by lia. unfold sz. cbn [nth]. lia.
Qed.

(** The levels of the tree as a chain of segments. *)
Lemma up_ch : forall lv N inner flat below, up g nopend s inner flat (N :: lv) ->
  (match below with [] => inner = false | T :: ls => inner = true /\ map snd flat = map fst T /\ ch T ls end) ->
  exists p c ls, p = s_root s /\ ch [(p, c)] ls /\ rev lv ++ N :: below = [(p, c)] :: ls.
Proof.
  induction lv as [|N' lv IH]; intros N inner flat below Hup Hb.
  - destruct Hup as (_ & _ & _ & _ & Hn & Hf & _ & Hr).
    destruct N as [|[p c] [|? ?]]; cbn in Hr; try discriminate. injection Hr as _ ->.
    exists (s_root s), c, below. split; auto. split; [|reflexivity].
    destruct below as [|T ls]; [subst; exact Hn|]. destruct Hb as (-> & Hb & Hc). rewrite <- Hf in Hb. cbn [ch]. auto.
  - destruct Hup as (_ & _ & _ & _ & Hn & Hf & Hup).
    destruct (IH N' true (lows N) (N :: below) Hup) as (p & c & ls & E1 & E2 & E3).
    { split; auto. split; [unfold lows; rewrite map_map; reflexivity|].
      destruct below as [|T ls]; [subst; exact Hn|]. destruct Hb as (-> & Hb & Hc). rewrite <- Hf in Hb. cbn [ch]. auto. }
    exists p, c, ls. split; auto. split; auto. cbn [rev]. rewrite <- app_assoc. exact E3.
Qed.

(** ** The way to a key passes exactly the responsible node of each level *)
Lemma responsible n1 x c n2 kk q d lo : let N := n1 ++ (x, c) :: n2 in
  osorted (lows N) -> Forall (fun y => ~ lo_ok (fst y) kk) (lows n2) ->
  In (q, d) N -> ole (c_lo c) (c_lo d) -> ole (c_lo d) lo -> lo_ok lo kk -> q = x.
Proof.
  intros N Hs Hr Hi O1 O2 Lo. subst N. apply in_app_iff in Hi as [Hi|[Hi|Hi]].
  - exfalso. rewrite lows_app, lows_cons in Hs. apply osorted_app_inv in Hs as (_ & _ & Hs).
    assert (X : olt (c_lo d) (c_lo c)).
    { apply (Hs (c_lo d, q) (c_lo c, x)).
      - unfold lows. apply in_map_iff. exists (q, d). auto.
      - left; auto. }
    revert X O1. clear. destruct (c_lo d), (c_lo c); cbn; try tauto; lia.
  - inversion Hi; auto.
  - exfalso. rewrite Forall_forall in Hr. apply (Hr (c_lo d, q)).
    + unfold lows. apply in_map_iff. exists (q, d). auto.
    + cbn [fst]. eapply lo_ok_ole; eauto.
Qed.

Definition on (k : key) (N : level) (q : pid) : Prop := exists lo, at_ (lows N) k (lo, q).

Lemma descent k : forall lv flat, up g nopend s true flat lv -> ~ In 0%N (pids lv) ->
  exists lo x path, at_ flat k (lo, x) /\ Forall2 (on k) lv path /\
    forall Q, evp (fun _ f => leaf_loop f k true (x :: path)) s Q ->
              evp (fun _ f => leaf_loop f k true [s_root s]) s Q.
Proof.
  induction lv as [|N lv IH]; intros flat Hup Hz.
  - destruct Hup as [_ ->]. exists None, (s_root s), []. split; [|split; [constructor|auto]].
    exists [], []. repeat split; auto.
  - pose proof Hup as (_ & _ & Hl & Hs & _ & _ & Hup'). apply notin_pids in Hz as [Hz Hz'].
    destruct (IH _ Hup' Hz') as (lo & x & path & Hat & Hok & HQ).
    destruct (at_lows_inv _ _ _ _ Hl Hat) as (n1 & c & n2 & EN & El & Lo & Hh).
    assert (Hin : In (x, c) N) by (rewrite EN; apply in_app_iff; right; left; auto).
    destruct (up_in _ _ _ _ _ _ _ _ _ Hup Hin) as (Et & Hw & _).
    destruct (sc_live g nopend s flat N lv k true 0%N path n1 x c n2 Hup EN) as
      (r & s' & Hev & -> & q & d & lo' & x' & -> & H1 & H2 & H3 & H4); auto.
    { rewrite El; auto. } { intros ? ? []. }
    cbn [eff] in H3.
    assert (q = x).
    { subst N. eapply (responsible n1 x c n2 k q d lo'); eauto.
      - apply Forall_forall. intros y Hy. apply in_lows in Hy as (q' & d' & -> & Hd). cbn [fst].
        destruct (right_ge _ _ _ _ Hs Hl _ _ Hd) as (A & B & _). ord.
      - destruct H3 as (? & ? & _ & H3 & _). exact H3. }
    subst q. exists lo', x', (x :: path). split; auto. split; [constructor; auto; exists lo; auto|].
    intros Q HQ'. apply HQ. apply evp_S. cbn [leaf_loop]. eapply evp_bload; eauto.
    rewrite (iwf_inner g c Hw). eapply evp_bind; [apply evp_of_ev; exact Hev|].
    cbn beta. intros a s1 [-> ->]. exact HQ'.
Qed.

Lemma way k N lv flat : up g nopend s false flat (N :: lv) -> ~ In 0%N (pids (N :: lv)) ->
  exists F stk, (forall f, (F <= f)%nat -> run (search_leaf f k true) s = Done stk s) /\
    Forall2 (on k) (N :: lv) stk.
Proof.
  intros Hup Hz. pose proof Hup as (_ & _ & Hl & Hs & _ & _ & Hup'). apply notin_pids in Hz as [Hz Hz'].
  destruct (descent k lv (lows N) Hup' Hz') as (lo & x & path & Hat & Hok & HQ).
  destruct (at_lows_inv _ _ _ _ Hl Hat) as (n1 & c & n2 & EN & El & Lo & Hh).
  assert (Hin : In (x, c) N) by (rewrite EN; apply in_app_iff; right; left; auto).
  destruct (up_in _ _ _ _ _ _ _ _ _ Hup Hin) as (Et & Hw & _).
  assert (E : evp (fun _ f => search_leaf f k true) s (fun r s' => r = x :: path /\ s' = s)).
  { unfold search_leaf. apply evp_root. apply HQ. apply evp_S. cbn [leaf_loop]. eapply evp_bload; eauto.
    rewrite (cwf_leaf g false c Hw). apply evp_ret. auto. }
  destruct (evp_done _ _ _ E) as (r & s' & [-> ->] & F & H).
  exists F, (x :: path). split; auto. constructor; auto. exists lo. auto.
Qed.

Lemma fwd {A B} (R : A -> B -> Prop) l1 l2 : Forall2 R l1 l2 ->
  forall i y, nth_error l2 i = Some y -> exists x, nth_error l1 i = Some x /\ R x y.
Proof. induction 1; intros [|i] z E; cbn in *; try discriminate; [injection E as <-; eauto|eauto]. Qed.
Lemma bwd {A B} (R : A -> B -> Prop) l1 l2 : Forall2 R l1 l2 ->
  forall i x, nth_error l1 i = Some x -> exists y, nth_error l2 i = Some y /\ R x y.
Proof. induction 1; intros [|i] z E; cbn in *; try discriminate; [injection E as <-; eauto|eauto]. Qed.
Lemma rev2 {A B} (R : A -> B -> Prop) l1 l2 : Forall2 R l1 l2 -> Forall2 R (rev l1) (rev l2).
Proof. induction 1; cbn; auto. apply Forall2_app; auto. Qed.

Lemma up_level : forall lv N inner flat M, up g nopend s inner flat (N :: lv) -> In M (N :: lv) ->
  exists i, osorted (lows M) /\ linked M None 0%N /\ Forall (node_ok g nopend s i) M.
Proof.
  induction lv as [|N' lv IH]; intros N inner flat M Hup Hi;
    pose proof Hup as (_ & _ & Hl & Hs & Hn & _ & Hup').
  - destruct Hi as [<-|[]]. eauto.
  - destruct Hi as [<-|Hi]; [eauto|]. eapply (IH N' true (lows N)); eauto.
Qed.

Lemma visits_level N lv flat : up g nopend s false flat (N :: lv) -> ~ In 0%N (pids (N :: lv)) ->
  forall i q, visits s i q <-> exists L, nth_error (rev (N :: lv)) i = Some L /\ In q (map fst L).
Proof.
  intros Hup Hz i q. split.
  - intros (k & F & stk & H & Hq). destruct (way k N lv flat Hup Hz) as (F' & stk' & H' & H2).
    assert (stk' = stk).
    { specialize (H (Nat.max F F') ltac:(lia)). specialize (H' (Nat.max F F') ltac:(lia)). congruence. }
    subst stk'. destruct (fwd _ _ _ (rev2 _ _ _ H2) i q Hq) as (L & E & lo & A). exists L. split; auto.
    apply at_in in A. unfold lows in A. apply in_map_iff in A as ([p c] & X & Hi). inversion X; subst.
    apply in_map_iff. exists (q, c). auto.
  - intros (L & E & Hq). apply in_map_iff in Hq as ([p c] & Ep & Hi). cbn in Ep. subst p.
    assert (HL : In L (N :: lv)) by (apply in_rev; eapply nth_error_In; eauto).
    destruct (up_level _ _ _ _ _ Hup HL) as (b & Hs & Hl & Hn).
    rewrite Forall_forall in Hn. destruct (Hn _ Hi) as (_ & Hw & _). cbn [snd] in Hw.
    assert (R : rng_ne (c_lo c) (c_hi c)) by (destruct b; cbn in Hw; [eapply iwf_rng|eapply lwf_rng]; eauto).
    assert (K : exists k, lo_ok (c_lo c) k /\ hi_ok (c_hi c) k).
    { destruct (c_lo c) as [l|], (c_hi c) as [h|]; cbn in R |- *.
      - exists l. lia.
      - exists l. lia.
      - exists (h - 1). lia.
      - exists 0. auto. }
    destruct K as (k & K1 & K2).
    destruct (way k N lv flat Hup Hz) as (F & stk & H & H2).
    destruct (bwd _ _ _ (rev2 _ _ _ H2) i L E) as (q' & E' & lo & A).
    exists k, F, stk. split; auto. rewrite E'. f_equal.
    apply in_split in Hi as (n1 & n2 & ->).
    pose proof (at_lows n1 q c n2 k Hs Hl K1 K2) as A'. pose proof (at_unique _ _ _ _ A A') as X. congruence.
Qed.
End Walk.

Lemma nodup_in_levels lv L : NoDup (pids lv) -> In L lv -> NoDup (map fst L).
Proof.
  induction lv as [|M lv IH]; intros H Hi; [destruct Hi|]. unfold pids in H. cbn [flat_map] in H.
  assert (A : forall (a b : list pid), NoDup (a ++ b) -> NoDup a /\ NoDup b).
  { clear. induction a as [|x a IH]; cbn; intros b H; [split; auto; constructor|]. inversion H; subst.
    destruct (IH b H3). split; auto. constructor; auto. intros X. apply H2. apply in_app_iff; auto. }
  destruct (A _ _ H) as [A1 A2]. destruct Hi as [<-|Hi]; auto.
Qed.

Lemma stats_tree s M drec : tree g s M -> mem_ok g s ->
  exists F st, (forall f, (F <= f)%nat -> run (op_stats g drec f) s = Done st s) /\
    forall i, match nth_error st i with
      | Some (n, u, v) => u <= v /\ exists l, NoDup l /\ n = Z.of_nat (length l) /\ forall q, In q l <-> visits s i q
      | None => forall q, ~ visits s i q
      end.
Proof.
  intros (flat & N & lv & Hup & Hgl & _) Hfit.
  assert (Hz : ~ In 0%N (pids (N :: lv))).
  { intros X. destruct Hgl as (_ & _ & Hgl & _). apply Hgl in X. lia. }
  destruct (up_ch s lv N false flat [] Hup eq_refl) as (p & c & ls & Ep & Hc & El).
  assert (W : evp (fun _ f => op_stats g drec f) s (fun acc' s' => s' = s /\ res 0 [] ([(p, c)] :: ls) acc')).
  { unfold op_stats. apply evp_root. rewrite <- Ep. eapply (walk s drec Hfit); eauto. }
  destruct (evp_done _ _ _ W) as (st & s' & (-> & F1 & L1 & C1) & F & H).
  exists F, st. split; auto. intros i.
  pose proof (visits_level s N lv flat Hup Hz i) as V. change (rev (N :: lv) = [(p, c)] :: ls) in El.
  rewrite El in V. change (length st = S (length ls)) in L1.
  destruct (nth_error st i) as [[[n u] v]|] eqn:E.
  - rewrite Forall_forall in F1. pose proof (F1 _ (nth_error_In _ _ E)) as Hf. split; [exact Hf|].
    assert (Hi : (i < length ([(p, c)] :: ls))%nat).
    { assert (i < length st)%nat by (apply nth_error_Some; congruence). rewrite L1 in *. assumption. }
    destruct (nth_error ([(p, c)] :: ls : list level) i) as [L|] eqn:EL; [|exfalso; exact (proj2 (nth_error_Some _ _) Hi EL)].
    exists (map fst L). split; [|split].
    + apply (nodup_in_levels (N :: lv)); [apply Hgl|]. apply in_rev. rewrite El. eapply nth_error_In; eauto.
    + specialize (C1 i). unfold cnt in C1. rewrite (nth_error_nth _ _ (0, 0, 0) E) in C1. cbn [cnt_of fst] in C1.
      unfold shift in C1. cbn [Nat.ltb Nat.leb] in C1. rewrite Nat.sub_0_r in C1. unfold sz in C1.
      pose proof (nth_error_nth ([(p, c)] :: ls : list level) i [] EL) as X. rewrite X in C1. rewrite map_length. destruct i; cbn in C1; lia.
    + intros q. rewrite V. split; [intros Hq; exists L; auto|]. intros (L' & E' & Hq).
      injection E' as ->. exact Hq.
  - intros q Hq. apply V in Hq as (L & EL & _). apply nth_error_None in E. rewrite L1 in E.
    change (length ([(p, c)] :: ls : list level) <= i)%nat in E. apply nth_error_None in E.
    rewrite E in EL. discriminate EL.
Qed.
End S.

Lemma fit_cond g : cfg_ok g -> (forall k, c_hdr g + nullsz g + recsz g ptrlen k <= c_page g) /\ c_hdr g <= c_page g.
Proof.
  intros OK. pose proof (page_pos g OK). pose proof (nullsz_bound g OK). split; [|lia].
  intros k. pose proof (recsz_inner g OK k). lia.
Qed.

Lemma c32_levels g os drec : cfg_ok g ->
  exists F s st, (forall f, (F <= f)%nat ->
      run_calls g f os (init g) = Done (fst (spec_run sempty os)) s /\
      run (op_stats g drec f) s = Done st s) /\
    forall i, match nth_error st i with
      | Some (n, u, v) => u <= v /\ exists l, NoDup l /\ n = Z.of_nat (length l) /\ forall q, In q l <-> visits s i q
      | None => forall q, ~ visits s i q
      end.
Proof.
  intros OK. destruct (calls_ok g OK os (init g) sempty (init_tree g OK)) as (F & s & T & H).
  destruct (fit_cond g OK) as [C1 C2].
  assert (Hm : mem_ok g s) by (eapply run_calls_sp; eauto; apply init_fits; auto).
  destruct (stats_tree g OK s _ drec T Hm) as (F1 & st & H1 & H2).
  exists (max F F1), s, st. split; auto. intros f Hf. split; [apply H|apply H1]; lia.
Qed.

Lemma c07_seq g os : cfg_ok g -> exists F s, (forall f, (F <= f)%nat ->
      run_calls g f os (init g) = Done (fst (spec_run sempty os)) s) /\
  forall p c, s_tbl s p = Some c -> pfit g c.
Proof.
  intros OK. destruct (calls_ok g OK os (init g) sempty (init_tree g OK)) as (F & s & T & H).
  destruct (fit_cond g OK) as [C1 C2]. exists F, s. split; auto.
  intros p c Hp. assert (Hm : mem_ok g s) by (eapply run_calls_sp; eauto; apply init_fits; auto).
  exact (Hm p c Hp).
Qed.

Lemma c07_conc g fuel todos sch : cfg_ok g ->
  let e := fst (exec g fuel (start (init g) todos) sch) in
  forall p c, s_tbl (c_mem e) p = Some c -> pfit g c.
Proof.
  intros OK. destruct (fit_cond g OK) as [C1 C2]. intros e p c Hp.
  exact (proj1 (exec_sp g C1 fuel sch _ (start_sp g todos C2)) p c Hp).
Qed.
