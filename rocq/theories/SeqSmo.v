(** Structure modifications of a quiescent tree: TrySMOs with Split, TryMerge and
    the root changes keep the content of every level. *)
From Coq Require Import ZArith NArith List Bool Lia.
From Coq Require Import Sorting.Sorted ZifyBool ZifyNat ZifyN.
From Verif Require Import Config Page Machine Tree ListFacts SearchFacts ChainSpec ChainFacts ConsFacts Valid
  ConsolidateFacts RunFacts SeqSpec LevelFacts SeqSearch SeqAux.
Import ListNotations.
Open Scope Z_scope.

Lemma upd_same {A} (m : N -> A) i x : upd m i x i = x.
Proof. unfold upd. rewrite N.eqb_refl. auto. Qed.
Lemma upd_other {A} (m : N -> A) i x j : j <> i -> upd m i x j = m j.
Proof. intros H. unfold upd. destruct (N.eqb_spec j i); congruence. Qed.

Lemma nodup_app_r {A} (a b : list A) : NoDup (a ++ b) -> NoDup b.
Proof. induction a as [|x a IH]; cbn; auto. intros H. inversion H; auto. Qed.

Section S.
Variable g : cfg.
Hypothesis OK : cfg_ok g.
Notation Tpost := (Tpost g).

Record Tpre (s : st) (i : bool) (flat : list (option key * val)) (n1 : level) (p : pid) (c : chain)
    (n2 : level) (lv : list level) (stk : list pid) : Prop := {
  t_h0 : hlo (n1 ++ (p, c) :: n2) None = None;
  t_lk : linked (n1 ++ (p, c) :: n2) None 0%N;
  t_so : osorted (lows (n1 ++ (p, c) :: n2));
  t_ok : Forall (node_ok g nopend s i) (n1 ++ n2);
  t_tb : s_tbl s p = Some c;
  t_wf : cwf g i c;
  t_sz : h_size c <= c_page g + excess g;
  t_nd : Z.of_nat (ndelta c) <= c_maxd g;
  t_fl : flat_of i (n1 ++ (p, c) :: n2) = flat;
  t_up : up g nopend s true (lows (n1 ++ (p, c) :: n2)) lv;
  t_gl : glob s ((n1 ++ (p, c) :: n2) :: lv);
  t_st : okst s lv (c_lo c) stk;
  t_ch : i = true -> forall x, In x flat ->
           ~ In (snd x) (pids ((n1 ++ (p, c) :: n2) :: lv)) /\ exists cx, s_tbl s (snd x) = Some cx /\ good cx
}.

Definition Tgoal (i : bool) (fl nl : nat) : Prop := forall s flat n1 p c n2 lv stk,
  Tpre s i flat n1 p c n2 lv stk -> length flat = fl -> length (n1 ++ (p, c) :: n2) = nl ->
  evp (fun _ f => try_smos g f c (p :: stk)) s
    (fun _ s' => Tpost s i flat ((n1 ++ (p, c) :: n2) :: lv) s').

(** ** Bookkeeping *)
Lemma nodup_level n1 p (c : chain) n2 lv : NoDup (pids ((n1 ++ (p, c) :: n2) :: lv)) ->
  (forall q, In q (map fst (n1 ++ n2)) -> q <> p) /\ ~ In p (pids lv) /\
  (forall q, In q (map fst (n1 ++ (p, c) :: n2)) -> ~ In q (pids lv)) /\ NoDup (pids lv).
Proof.
  unfold pids. cbn. intros H.
  assert (A : forall q, In q (map fst (n1 ++ (p, c) :: n2)) -> ~ In q (flat_map (map fst) lv)).
  { intros q Hq Hq'. apply in_split in Hq as (a & b & E). rewrite E in H. rewrite <- app_assoc in H. cbn in H.
    apply NoDup_remove_2 in H. apply H. rewrite !in_app_iff. auto. }
  split; [|split; [|split; auto]].
  - rewrite map_app in H. cbn in H. rewrite <- app_assoc in H. cbn in H. apply NoDup_remove_2 in H.
    intros q Hq ->. apply H. rewrite map_app, in_app_iff in Hq. rewrite !in_app_iff. tauto.
  - apply A. rewrite map_app, in_app_iff. right; left; auto.
  - eapply nodup_app_r; eauto.
Qed.

Lemma forall_upd {A} (P : A -> Prop) n1 x n2 : Forall P (n1 ++ n2) -> P x -> Forall P (n1 ++ x :: n2).
Proof. rewrite !Forall_app. intros [H1 H2] H. split; auto. Qed.
Lemma forall_rem {A} (P : A -> Prop) n1 x n2 : Forall P (n1 ++ x :: n2) -> Forall P (n1 ++ n2) /\ P x.
Proof. rewrite !Forall_app. intros [H1 H2]. inversion H2; subst. auto. Qed.

Lemma up_upd (pend : addr -> key -> Prop) s s' i flat0 flat1 m1 q h m2 lv c2 :
  up g nopend s i flat0 ((m1 ++ (q, h) :: m2) :: lv) -> NoDup (pids ((m1 ++ (q, h) :: m2) :: lv)) ->
  c_lo c2 = c_lo h -> c_hi c2 = c_hi h -> c_next c2 = c_next h ->
  cwf g i c2 -> quiet g c2 -> (i = true -> iexact c2 /\ icells (s_cell s') pend c2) ->
  s_tbl s' q = Some c2 ->
  (forall x, In x (pids ((m1 ++ (q, h) :: m2) :: lv)) -> x <> q -> s_tbl s' x = s_tbl s x) ->
  (forall a, s_cell s a <> 0%N -> s_cell s' a = s_cell s a) -> s_root s' = s_root s ->
  flat_of i (m1 ++ (q, c2) :: m2) = flat1 ->
  up g pend s' i flat1 ((m1 ++ (q, c2) :: m2) :: lv).
Proof.
  intros (A & B & C & D & E & F & G) ND E1 E2 E3 W Q X T1 T2 Ce R Fl.
  destruct (nodup_level _ _ _ _ _ ND) as (P1 & P2 & P3 & P4). apply forall_rem in E as [E _].
  cbn [up]. split; [destruct m1; discriminate|]. split; [rewrite (hlo_upd m1 q h c2); auto|].
  split; [eapply linked_upd; eauto|]. split; [rewrite (lows_upd m1 q h c2); auto|].
  split; [|split; auto].
  - apply forall_upd.
    + eapply nodes_frame; eauto; [|intros ? ? []]. intros x Hx. apply T2; auto.
      unfold pids. cbn. apply in_app_iff. left. rewrite map_app in *. rewrite in_app_iff in *. cbn. tauto.
    + split; auto.
  - rewrite (lows_upd m1 q h c2) by auto. eapply up_frame; eauto; [|intros ? ? []].
    intros x Hx. apply T2; [|intros ->; auto]. unfold pids. cbn. apply in_app_iff. auto.
Qed.

Lemma Tpre_upd s s' i flat0 flat1 m1 q h m2 lv c2 rest :
  up g nopend s i flat0 ((m1 ++ (q, h) :: m2) :: lv) -> glob s ((m1 ++ (q, h) :: m2) :: lv) ->
  c_lo c2 = c_lo h -> c_hi c2 = c_hi h -> c_next c2 = c_next h ->
  cwf g i c2 -> h_size c2 <= c_page g + excess g -> Z.of_nat (ndelta c2) <= c_maxd g ->
  s_tbl s' q = Some c2 ->
  (forall x, x <> q -> s_tbl s' x = s_tbl s x) ->
  (forall a, s_cell s a <> 0%N -> s_cell s' a = s_cell s a) -> s_root s' = s_root s ->
  s_npid s' = s_npid s -> (forall a, (s_naddr s' <= a)%N -> s_cell s' a = 0%N) ->
  flat_of i (m1 ++ (q, c2) :: m2) = flat1 -> okst s lv (c_lo h) rest ->
  (i = true -> forall x, In x flat1 ->
     ~ In (snd x) (pids ((m1 ++ (q, h) :: m2) :: lv)) /\ exists cx, s_tbl s (snd x) = Some cx /\ good cx) ->
  Tpre s' i flat1 m1 q c2 m2 lv rest.
Proof.
  intros (A & B & C & D & E & F & G) GL E1 E2 E3 W Q X T1 T2 Ce R Np Na Fl St Ch.
  pose proof GL as (ND & GL1 & GL2 & GL3 & _).
  destruct (nodup_level _ _ _ _ _ ND) as (P1 & P2 & P3 & P4). apply forall_rem in E as [E Eh].
  assert (Hql : forall x, dead s x -> x <> q).
  { intros x (a & l & Ex) ->. destruct Eh as [Et Ew]. cbn in *. rewrite Et in Ex. inversion Ex. subst.
    destruct i; destruct Ew as [[] _]. }
  constructor; auto.
  - rewrite (hlo_upd m1 q h c2); auto.
  - eapply linked_upd; eauto.
  - rewrite (lows_upd m1 q h c2); auto.
  - eapply nodes_frame; eauto.
  - rewrite (lows_upd m1 q h c2) by auto. eapply up_frame; eauto. intros x Hx. apply T2. intros ->; auto.
  - unfold glob. rewrite (pids_upd m1 q h c2), Np. split; auto. split; auto. split; auto. split; auto.
    intros x Hx. rewrite T2; auto. intros ->. assert (q < s_npid s)%N; [|lia].
    apply GL2. unfold pids. cbn. rewrite map_app. cbn. rewrite !in_app_iff. cbn. auto.
  - rewrite E1. eapply okst_evolve; eauto.
    intros x Hd. pose proof (Hql x Hd). destruct Hd as (a & l & Hd). exists a, l. rewrite T2; auto.
  - intros Hi x Hx. rewrite (pids_upd m1 q h c2) by auto. destruct (Ch Hi x Hx) as (N1 & cx & N2).
    split; auto. exists cx. rewrite T2; auto. intros Ex. apply N1. rewrite Ex.
    unfold pids. cbn. rewrite map_app. cbn. rewrite !in_app_iff. cbn. auto.
Qed.

Lemma in_level {A} (x : A) n1 n2 : In x (n1 ++ x :: n2).
Proof. apply in_app_iff. right. left. auto. Qed.

Lemma osorted_uniq l x y : osorted l -> In x l -> In y l -> fst x = fst y -> x = y.
Proof.
  intros Hs Hx Hy E. induction Hs as [|z l Hs IH F]; [easy|]. rewrite Forall_forall in F.
  destruct Hx as [->|Hx], Hy as [->|Hy]; auto; exfalso.
  - specialize (F _ Hy). rewrite E in F. eapply olt_irrefl; eauto.
  - specialize (F _ Hx). rewrite E in F. eapply olt_irrefl; eauto.
Qed.

Lemma olt_not_lo k x : olt (Some k) x -> ~ lo_ok x k. Proof. intros; ord. Qed.
Lemma olt_lo k x : olt x (Some k) -> lo_ok x k. Proof. intros; ord. Qed.
Lemma lo_ne_lt x k : lo_ok x k -> x <> Some k -> lo_lt x k.
Proof. destruct x; cbn; auto. intros. assert (z <> k) by congruence. lia. Qed.

(** Inserting a separator below a live node. *)
Section Split.
Variables (s : st) (f1 f2 : list (option key * val)) (lo : option key) (p r : pid) (sep : key)
  (lv : list level) (a : addr) (hi : option key).
Notation flat0 := (f1 ++ (lo, p) :: f2).
Notation flat1 := (f1 ++ (lo, p) :: (Some sep, r) :: f2).
Notation d := (mk_delta a true DInsert sep hi r 0 0).
Hypothesis IHT : forall nl, Tgoal true (length flat1) nl.
Hypothesis Hup : up g nopend s true flat0 lv.
Hypothesis Hgl : glob s lv.
Hypothesis Hs1 : osorted flat1.
Hypothesis Hhi : hi = osucc sep flat0.
Hypothesis Hch : forall x, In x flat1 -> ~ In (snd x) (pids lv) /\ exists cx, s_tbl s (snd x) = Some cx /\ good cx.
Hypothesis Hr0 : r <> 0%N.
Variable L : chain.
Hypothesis HL : s_tbl s p = Some L.
Hypothesis HLg : good L.
Hypothesis HLk : h_leaf L = true \/ (iwf g L /\ iexact L /\ icells (s_cell s) nopend L /\ c_next L = r /\
    exists h, c_hi L = Some h /\ h <= sep).

Lemma sp_lo : olt lo (Some sep).
Proof.
  pose proof Hs1 as H. apply osorted_app_inv in H as (_ & H & _). apply osorted_cons_inv in H as [_ H].
  apply Forall_inv in H. auto.
Qed.
Lemma sp_f2 : Forall (fun y => ~ lo_ok (fst y) sep) f2.
Proof.
  pose proof Hs1 as H. apply osorted_app_inv in H as (_ & H & _). apply osorted_cons_inv in H as [H _].
  apply osorted_cons_inv in H as [_ H]. eapply Forall_impl; [|exact H]. intros x Hx. apply olt_not_lo. exact Hx.
Qed.
Lemma sp_f1 : Forall (fun y => lo_ok (fst y) sep) (f1 ++ [(lo, p)]).
Proof.
  pose proof Hs1 as H. apply osorted_app_inv in H as (_ & _ & H). pose proof sp_lo as Hl.
  apply Forall_app. split.
  - apply Forall_forall. intros x Hx. specialize (H x (lo, p) Hx (or_introl eq_refl)).
    eapply lo_ok_ole; [apply olt_ole; exact H|apply olt_lo; auto].
  - constructor; auto. apply olt_lo. auto.
Qed.
Lemma sp_at : at_ flat0 sep (lo, p).
Proof.
  exists f1, f2. split; auto. pose proof sp_lo as Hl. split; [apply olt_lo; auto|apply sp_f2].
Qed.
Lemma sp_oins : oins sep r flat0 = flat1.
Proof. apply oins_at; auto. apply sp_f1. apply sp_f2. Qed.
Lemma sp_notin x : In x flat0 -> fst x <> Some sep.
Proof.
  intros Hx E. assert (x = (Some sep, r)).
  { eapply osorted_uniq; [exact Hs1| | |rewrite E; auto].
    - apply in_app_iff in Hx as [Hx|[Hx|Hx]]; apply in_app_iff; cbn; auto.
    - apply in_app_iff; cbn; auto. }
  subst x. pose proof sp_f1 as F1. pose proof sp_f2 as F2.
  pose proof Hs1 as H. apply osorted_app_inv in H as (_ & H & H'). apply osorted_cons_inv in H as [H H''].
  apply osorted_cons_inv in H as [_ H]. rewrite !Forall_forall in H, H''.
  apply in_app_iff in Hx as [Hx|[Hx|Hx]].
  - specialize (H' _ (Some sep, r) Hx (or_intror (or_introl eq_refl))). eapply olt_irrefl; eauto.
  - assert (El : lo = Some sep) by congruence. specialize (H'' (Some sep, r) (or_introl eq_refl)).
    cbn [fst] in H''. rewrite El in H''. eapply olt_irrefl; exact H''.
  - specialize (H _ Hx). eapply olt_irrefl; eauto.
Qed.

Lemma ins_step smos_fail head q rest : got s lv sep (Some head, q :: rest) ->
  evp (fun fa fb => bind (cas true q (h_addr head) (CRec (set_next d head (recsz g ptrlen sep)) head))
    (fun ok : bool => if ok then
       if need_consolidation g (CRec (set_next d head (recsz g ptrlen sep)) head)
       then try_smos g fa (CRec (set_next d head (recsz g ptrlen sep)) head) (q :: rest) else Ret tt
     else smos_fail fa fb)) s (fun _ s' => Tpost s true flat1 lv s').
Proof.
  intros (N & q' & c' & rest' & E & HN & Hi & Lo & Hh & Hst). inversion E; subst q' c' rest'. clear E.
  destruct lv as [|N' lv'] eqn:Elv; [discriminate|]. cbn [hd_error] in HN. inversion HN; subst N'. clear HN. cbn [tl] in Hst.
  destruct (up_in _ _ _ _ _ _ _ _ _ Hup Hi) as (Et & Hw & Hq & Hx). destruct (Hx eq_refl) as [Hex Hce].
  apply in_split in Hi as (m1 & m2 & EN). subst N. cbn [cwf] in Hw.
  pose proof Hup as (_ & U0 & Ul & Us & Un & Uf & _). pose proof (node_ok_cwf g _ _ _ _ Un) as Uw.
  destruct (iwf_sorted _ _ Hw) as [S F].
  set (c2 := CRec (set_next d head (recsz g ptrlen sep)) head).
  assert (Lot : lo_lt (c_lo head) sep).
  { apply lo_ne_lt; auto. apply (sp_notin (c_lo head, ilead head)). rewrite <- Uf, flat_of_app, flat_of_cons. apply in_app_iff.
    right. left. auto. }
  assert (Hf : find sep (ients head) = None).
  { destruct (find sep (ients head)) as [v|] eqn:Ef; auto. exfalso. apply find_in in Ef.
    apply (sp_notin (Some sep, v)); auto. rewrite <- Uf, flat_of_app, flat_of_cons. apply in_app_iff.
    right. apply in_app_iff. left. right. apply in_ekey. eauto. }
  assert (W2 : iwf g c2).
  { subst c2. cbn [iwf set_next d_inner d_type d_key d_cnt d_size]. repeat split; auto. }
  assert (X2 : iexact c2).
  { subst c2. cbn [iexact set_next d_high d_key]. split; auto. rewrite Hhi, <- Uf. apply (osucc_flat g); auto. }
  assert (C2 : icells (s_cell s) nopend c2).
  { subst c2. cbn [icells set_next d_type]. split; auto. discriminate. }
  assert (Fl : flat_of true (m1 ++ (q, c2) :: m2) = flat1).
  { rewrite <- sp_oins, <- Uf, !flat_of_app, !flat_of_cons. rewrite oins_app_le.
    - f_equal. rewrite oins_app_gt.
      + f_equal. cbn [cents oins fst lob]. change (c_lo c2) with (c_lo head). change (ilead c2) with (ilead head).
        rewrite (proj2 (lob_ok _ _) Lo). f_equal. rewrite oins_ekey by auto. reflexivity.
      + eapply (flat_right g); eauto. apply Forall_app in Uw as [_ Uw]. inversion Uw; auto.
    - eapply Forall_impl; [|eapply (flat_left g); eauto; apply Forall_app in Uw; apply Uw].
      intros y Hy. cbn in Hy. apply olt_ole in Hy. apply ole_lo_ok. auto. }
  eapply evp_bcas; [exact Et|reflexivity|exact (good_iwf g c2 W2)|]. fold c2.
  assert (Gl : glob (set_tbl s q (Some c2)) ((m1 ++ (q, c2) :: m2) :: lv')).
  { unfold glob. rewrite (pids_upd m1 q head c2). cbn. destruct Hgl as (G1 & G2 & G3 & G4 & G5).
    split; auto. split; auto. split; auto. split; auto. intros x Hxx. rewrite upd_other; auto. intros ->.
    assert (q < s_npid s)%N; [|lia]. apply G3. rewrite in_pids_iff. exists (m1 ++ (q, head) :: m2), head.
    split; [left; auto|apply in_level]. }
  assert (Fr : frame s ((m1 ++ (q, head) :: m2) :: lv') (set_tbl s q (Some c2))).
  { split; [|split; [|split]]; cbn; auto; try lia. intros x Hnx _. apply upd_other. intros ->. apply Hnx.
    apply (in_pids q head (m1 ++ (q, head) :: m2) lv'). apply in_level. }
  assert (Ev : evolve s ((m1 ++ (q, head) :: m2) :: lv') (set_tbl s q (Some c2)) ((m1 ++ (q, c2) :: m2) :: lv'))
    by (apply evolve_upd; reflexivity).
  destruct (need_consolidation g c2) eqn:Nc.
  - apply evp_fst. eapply evp_weaken.
    + eapply (IHT (length (m1 ++ (q, c2) :: m2)) (set_tbl s q (Some c2)) flat1 m1 q c2 m2 lv' rest); auto.
      eapply (Tpre_upd s _ true _ flat1 m1 q head m2 lv' c2 rest Hup Hgl); eauto.
      * cbn. pose proof (recsz_inner g OK sep). pose proof (maxrec_excess g). destruct Hq as [_ Hq]. lia.
      * cbn. pose proof (quiet_ndelta g OK true head Hw Hq). pose proof (ok_thr g OK). lia.
      * cbn. apply upd_same.
      * cbn. intros. apply upd_other; auto.
      * cbn. apply Hgl.
    + cbn beta. intros _ s' HT. eapply Tpost_trans; [| |exact Fr|exact Ev|exact HT]; auto.
      intros N0 x cx [<-|HN0] Hx0.
      * apply in_app_iff in Hx0. cbn. destruct Hx0 as [Hx0|[Hx0|Hx0]].
        2: { inversion Hx0; subst. rewrite upd_same. auto. }
        all: destruct (nodup_level _ _ _ _ _ (proj1 Hgl)) as (P1 & _); rewrite upd_other;
          [apply (alive_up g _ _ _ _ _ Hup (m1 ++ (q, head) :: m2) x cx);
             [left; auto|apply in_app_iff; cbn; auto]
          |apply P1; rewrite map_app, in_app_iff].
        -- left. apply in_map_iff. exists (x, cx). auto.
        -- right. apply in_map_iff. exists (x, cx). auto.
      * destruct (nodup_level _ _ _ _ _ (proj1 Hgl)) as (_ & P2 & _). cbn. rewrite upd_other.
        -- apply (alive_up g _ _ _ _ _ Hup N0); auto. right; auto.
        -- intros ->. apply P2. apply in_pids_iff. eauto.
  - apply evp_ret. exists ((m1 ++ (q, c2) :: m2) :: lv'). split; [|split; [|split]]; auto.
    eapply (up_upd nopend s _ true _ flat1 m1 q head m2 lv' c2 Hup (proj1 Hgl)); auto.
    + apply noneed_quiet; auto.
    + cbn. apply upd_same.
    + cbn. intros. apply upd_other; auto.
Qed.

Lemma sl_live stk b : okst s lv b stk -> ole b (Some sep) ->
  (exists N q c rest, hd_error lv = Some N /\ In (q, c) N /\ stk = q :: rest) ->
  evp (fun fa fb => split_loop g (try_smos g fa) fb d p stk) s (fun _ s' => Tpost s true flat1 lv s').
Proof.
  intros Hst Hb Hl. apply evp_S. cbn [split_loop].
  assert (Hg : evp (fun _ f => get_head g f sep true stk r) s (fun r s' => s' = s /\ got s lv sep r)).
  { eapply (gh_livehead g OK s flat0 lv sep true r b stk Hup Hst);
      [apply ole_lo_ok; exact Hb|refine (proj1 (Hch (Some sep, r) _)); apply in_app_iff; cbn; auto|exact Hl]. }
  destruct Hl as (N & q & c & rest & _ & _ & ->).
  cbn [d_key d_pay]. eapply (evp_bind (fun _ f => get_head g f sep true (q :: rest) r)); [exact Hg|].
  intros [oh st'] s1 [-> G]. pose proof G as (N' & q' & c' & rest' & E & _). 
  assert (E1 : oh = Some c') by congruence. assert (E2 : st' = q' :: rest') by congruence.
  rewrite E1, E2 in G |- *. apply ins_step. exact G.
Qed.

Lemma sl_nil :
  evp (fun fa fb => split_loop g (try_smos g fa) fb d p []) s (fun _ s' => Tpost s true flat1 lv s').
Proof.
  apply evp_S. cbn [split_loop d_key d_pay]. unfold try_root_split. cbn [bind]. apply evp_root.
  destruct (N.eqb_spec (s_root s) p) as [Er|Er]; cbn [negb].
  - destruct lv as [|N lv'] eqn:Elv.
    2: { exfalso. destruct (Hch (lo, p)) as [Hn _]; [apply in_app_iff; cbn; auto|]. cbn [snd] in Hn.
         apply Hn. rewrite <- Er. eapply up_root_in; eauto. discriminate. }
    destruct Hup as [_ Ef].
    assert (f1 = [] /\ lo = None /\ f2 = []) as (-> & -> & ->).
    { destruct f1 as [|y [|? ?]]; cbn in Ef; inversion Ef; auto. }
    cbn [app] in *. unfold alloc. cbn [bind]. apply evp_alloc, evp_newpid, evp_store, evp_sroot. cbn [bind].
    apply evp_ret. set (n := new_root g (s_naddr s) p sep r). cbn [s_npid bump_addr].
    set (s' := set_root _ _). exists [[(s_npid s, CBase n)]].
    destruct Hgl as (G1 & G2 & G3 & G4 & G5).
    assert (Wn : inode g n).
    { subst n. unfold inode, new_root, nents, nlead. cbn. repeat split; auto.
      - exists (c_garbage g). auto.
      - repeat constructor.
      - constructor; auto. cbn. split; cbn; auto.
      - unfold ibytes, ifirst, csum, okl. cbn [fold_right fst]. destruct (c_varlen g); lia. }
    split; [|split; [|split]].
    + cbn [up]. split; [discriminate|]. split; [reflexivity|]. split; [cbn; auto|]. split; [repeat constructor|].
      split; [|split; [reflexivity|split; reflexivity]].
      constructor; auto. split; [|split; [|split]].
      * subst s'. cbn. apply upd_same.
      * exact Wn.
      * apply quiet_base. subst n. cbn. pose proof (page_pos g OK). pose proof (recsz_inner g OK sep).
        pose proof (nullsz_bound g OK). lia.
      * intros _. cbn. auto.
    + split; [repeat constructor; easy|]. subst s'. cbn. split; [lia|]. split.
      * intros x [<-|[]]. lia.
      * split; [|intros; apply G5; lia]. intros x Hx. rewrite upd_other by lia. apply G4. lia.
    + subst s'. split; [|split; [|split]]; cbn; auto; try lia. intros x _ Hx. apply upd_other. lia.
    + split.
      * intros [|i] x l (N & c & E & _); discriminate.
      * intros x [<-|[]]. right. apply N.le_refl.
  - cbn [bind]. assert (Hlv : lv <> []).
    { intros ->. destruct Hup as [_ Ef]. apply Er.
      assert (In (lo, p) [(None, s_root s)]) as [Hi|[]] by (rewrite <- Ef; apply in_level). inversion Hi; auto. }
    eapply (evp_bind (fun _ f => search_target f sep r)).
    + apply (search_target_ok g s sep r lv flat0 lo p L Hup); [|apply sp_at|exact HL|exact HLg|exact HLk].
      refine (proj1 (Hch (Some sep, r) _)); apply in_app_iff; cbn; auto.
    + intros st' s1 (-> & path & -> & Hok & Hlh). specialize (Hlh Hlv). eapply sl_live; eauto.
      apply olt_ole, sp_lo.
Qed.

Lemma split_loop_ok stk : okst s lv lo stk ->
  evp (fun fa fb => split_loop g (try_smos g fa) fb d p stk) s (fun _ s' => Tpost s true flat1 lv s').
Proof.
  intros Hst. destruct stk as [|q rest]; [apply sl_nil|].
  apply evp_S. cbn [split_loop d_key d_pay].
  eapply (evp_bind (fun _ f => get_head g f sep true (q :: rest) r)).
  - apply (gh_ok g OK s flat0 lv sep true r lo (q :: rest) Hr0 Hup Hst); [|  |discriminate].
    + apply olt_lo, sp_lo.
    + refine (proj1 (Hch (Some sep, r) _)). apply in_app_iff; cbn; auto.
  - intros [oh st'] s1 [-> [E|G]].
    + assert (E1 : oh = None) by congruence. assert (E2 : st' = []) by congruence. rewrite E1, E2. apply sl_nil.
    + pose proof G as (N' & q' & c' & rest' & E & _).
      assert (E1 : oh = Some c') by congruence. assert (E2 : st' = q' :: rest') by congruence.
      rewrite E1, E2 in G |- *. apply ins_step. exact G.
Qed.
End Split.

(** ** Replacing the bottom level *)
Definition moved (s' : st) (N N1 : level) : Prop :=
  forall q d, In (q, d) N -> (exists d', In (q, d') N1 /\ c_lo d' = c_lo d) \/ dead s' q.

Lemma bottom_evolve s s' N N1 lv lv' : evolve s lv s' lv' -> moved s' N N1 ->
  (forall q, In q (map fst N1) -> In q (map fst N) \/ (s_npid s <= q)%N) ->
  evolve s (N :: lv) s' (N1 :: lv').
Proof.
  intros [E1 E2] M H. split.
  - intros [|i] q lo (M' & d & E & Hi & Hl).
    + cbn in E. inversion E; subst M'. destruct (M _ _ Hi) as [(d' & Hd & Ed)|]; auto.
      left. exists N1, d'. repeat split; auto. congruence.
    + destruct (E1 i q lo) as [(M2 & d2 & X)|]; auto; [exists M', d; auto|]. left. exists M2, d2. auto.
  - unfold pids in *. cbn. intros q Hq. apply in_app_iff in Hq as [Hq|Hq].
    + apply H in Hq as [Hq|Hq]; auto. left. apply in_app_iff. auto.
    + apply E2 in Hq as [Hq|Hq]; auto. left. apply in_app_iff. auto.
Qed.

Lemma nodup_app {A} (a b : list A) : NoDup a -> NoDup b -> (forall x, In x a -> ~ In x b) -> NoDup (a ++ b).
Proof.
  induction a as [|x a IH]; cbn; auto. intros Ha Hb H. inversion Ha; subst. constructor.
  - rewrite in_app_iff. intros [Hx|Hx]; auto. apply (H x); auto.
  - apply IH; auto.
Qed.

Lemma bottom_glob s s' N N1 lv lv' : glob s (N :: lv) -> glob s' lv' -> frame s (N :: lv) s' -> evolve s lv s' lv' ->
  NoDup (map fst N1) ->
  (forall q, In q (map fst N1) -> In q (map fst N) \/ ((s_npid s <= q < s_npid s')%N /\ ~ In q (pids lv'))) ->
  glob s' (N1 :: lv').
Proof.
  intros (A1 & A2 & A3 & A4 & A5) (B1 & B2 & B3 & B4 & B5) (F1 & F2 & F3 & F4) (_ & E) ND H.
  unfold pids in A1, A3. cbn in A1, A3. fold (pids lv) in A1, A3.
  assert (NI : forall q, In q (map fst N) -> ~ In q (pids lv')).
  { intros q Hq Hq'. apply E in Hq' as [Hq'|Hq'].
    - apply in_split in Hq as (x & y & Ex). rewrite Ex, <- app_assoc in A1. cbn in A1. apply NoDup_remove_2 in A1.
      apply A1. rewrite !in_app_iff. auto.
    - assert (q < s_npid s)%N; [|lia]. apply A3. apply in_app_iff; auto. }
  split; [|split; [|split; [|split]]]; auto.
  - unfold pids. cbn. apply nodup_app; auto. intros q Hq. apply H in Hq as [Hq|Hq]; [apply NI; auto|apply Hq].
  - unfold pids. cbn. intros q Hq. apply in_app_iff in Hq as [Hq|Hq]; [|apply B3; auto].
    apply H in Hq as [Hq|[Hq _]]; [|lia]. destruct (A3 q); [apply in_app_iff; auto|lia].
Qed.

Lemma bottom s i flat N N1 lv lv' s' :
  glob s (N :: lv) -> glob s' lv' -> frame s (N :: lv) s' -> evolve s lv s' lv' ->
  up g nopend s' true (lows N1) lv' -> N1 <> [] -> hlo N1 None = None -> linked N1 None 0%N ->
  osorted (lows N1) -> flat_of i N1 = flat -> Forall (node_ok g nopend s' i) N1 ->
  NoDup (map fst N1) ->
  (forall q, In q (map fst N1) -> In q (map fst N) \/ ((s_npid s <= q < s_npid s')%N /\ ~ In q (pids lv'))) ->
  moved s' N N1 -> Tpost s i flat (N :: lv) s'.
Proof.
  intros Hg Hg' Hf He Hu H1 H2 H3 H4 H5 H6 H7 H8 H9. exists (N1 :: lv'). split; [|split; [|split]]; auto.
  - cbn [up]. repeat (split; auto).
  - eapply bottom_glob; eauto.
  - eapply bottom_evolve; eauto. intros q Hq. apply H8 in Hq as [Hq|[Hq _]]; auto. right. lia.
Qed.

Lemma evolve_refl s s' lv : evolve s lv s' lv.
Proof. split; auto. Qed.

Lemma forall_in_node pend s i N q d : Forall (node_ok g pend s i) N -> In (q, d) N -> node_ok g pend s i (q, d).
Proof. rewrite Forall_forall. auto. Qed.

Lemma flat_len i M : i = true -> (length M <= length (flat_of i M))%nat.
Proof.
  intros ->. induction M as [|[q d] M IH]; cbn; auto. rewrite app_length. unfold flat_of in IH. cbn in IH. lia.
Qed.

Section Focus.
Variables (s : st) (i : bool) (flat : list (option key * val)) (n1 : level) (p : pid) (c : chain)
  (n2 : level) (lv : list level) (stk : list pid).
Hypothesis H : Tpre s i flat n1 p c n2 lv stk.
Notation N := (n1 ++ (p, c) :: n2).

Lemma fo_nodup : (forall q, In q (map fst (n1 ++ n2)) -> q <> p) /\ ~ In p (pids lv) /\
  (forall q, In q (map fst N) -> ~ In q (pids lv)) /\ NoDup (map fst N).
Proof.
  pose proof (t_gl _ _ _ _ _ _ _ _ _ H) as (A & _). destruct (nodup_level _ _ _ _ _ A) as (B & C & D & _).
  repeat (split; auto). unfold pids in A. cbn in A. clear -A. induction (map fst (n1 ++ (p, c) :: n2)); [constructor|].
  cbn in A. inversion A; subst. rewrite in_app_iff in H1. constructor; auto.
Qed.
Lemma fo_lt q : In q (pids (N :: lv)) -> (0 < q < s_npid s)%N.
Proof. intros Hq. pose proof (t_gl _ _ _ _ _ _ _ _ _ H) as (_ & _ & A & _). specialize (A q Hq). lia. Qed.
Lemma fo_p : (0 < p < s_npid s)%N.
Proof. apply fo_lt. apply (in_pids p c). apply in_level. Qed.

(** States that differ from [s] at [p] and in unused addresses only. *)
Definition near (s' : st) : Prop :=
  (forall q, q <> p -> s_tbl s' q = s_tbl s q) /\
  (forall a, s_cell s' a = s_cell s a) /\
  s_root s' = s_root s /\ s_npid s' = s_npid s /\ (s_naddr s <= s_naddr s')%N.

Lemma near_frame s' : near s' -> frame s (N :: lv) s'.
Proof.
  intros (A & B & C & D & E). split; [|split; [|split]]; auto; try lia.
  intros q Hq _. apply A. intros ->. apply Hq. apply (in_pids p c). apply in_level.
Qed.
Lemma near_up s' : near s' -> up g nopend s' true (lows N) lv.
Proof.
  intros (A & B & C & D & E). eapply up_frame; [apply (t_up _ _ _ _ _ _ _ _ _ H)| | | |]; auto.
  intros q Hq. apply A. intros ->. destruct fo_nodup as (_ & X & _). auto.
Qed.
Lemma near_glob_gen s' lv0 : near s' -> glob s lv0 -> (p < s_npid s)%N -> glob s' lv0.
Proof.
  intros (A & B & C & D & E) (G1 & G2 & G3 & G4 & G5) Hp. unfold glob. rewrite D.
  split; auto. split; auto. split; auto. split.
  - intros q Hq. rewrite A; auto. lia.
  - intros a Ha. rewrite B. apply G5. lia.
Qed.
Lemma glob_tl s' M l : glob s' (M :: l) -> glob s' l.
Proof.
  intros (A & B & C & D & E). unfold pids in *. cbn in *. split; [eapply nodup_app_r; eauto|].
  split; auto. split; auto. intros q Hq. apply C. apply in_app_iff; auto.
Qed.
Lemma near_glob s' : near s' -> glob s' lv.
Proof.
  intros Hn. apply near_glob_gen; auto; [|apply fo_p]. eapply glob_tl, (t_gl _ _ _ _ _ _ _ _ _ H).
Qed.
Lemma near_nodes s' : near s' -> Forall (node_ok g nopend s' i) (n1 ++ n2).
Proof.
  intros (A & B & C & D & E). eapply nodes_frame; [apply (t_ok _ _ _ _ _ _ _ _ _ H)| | |]; auto.
  intros q Hq. apply A. apply fo_nodup. auto.
Qed.
Lemma near_dead s' x : near s' -> dead s x -> dead s' x.
Proof.
  intros (A & _) (a & l & E). exists a, l. rewrite A; auto. intros ->.
  rewrite (t_tb _ _ _ _ _ _ _ _ _ H) in E. inversion E as [E']. pose proof (t_wf _ _ _ _ _ _ _ _ _ H) as W.
  rewrite E' in W. destruct i; destruct W.
Qed.
Lemma near_stk s' : near s' -> okst s' lv (c_lo c) stk.
Proof.
  intros Hn. eapply okst_evolve; [apply (t_st _ _ _ _ _ _ _ _ _ H)| |auto].
  intros x. apply near_dead; auto.
Qed.

(** Installing an equivalent page. *)
Lemma restore s' c' : near s' -> s_tbl s' p = Some c' -> cwf g i c' -> quiet g c' ->
  (i = true -> iexact c' /\ icells (s_cell s') nopend c') ->
  c_lo c' = c_lo c -> c_hi c' = c_hi c -> c_next c' = c_next c -> cents i c' = cents i c ->
  Tpost s i flat (N :: lv) s'.
Proof.
  intros Hn Et W Q X E1 E2 E3 E4.
  apply (bottom s i flat N (n1 ++ (p, c') :: n2) lv lv s').
  - apply (t_gl _ _ _ _ _ _ _ _ _ H).
  - apply near_glob; auto.
  - apply near_frame; auto.
  - apply evolve_refl.
  - rewrite (lows_upd n1 p c c') by auto. apply near_up; auto.
  - destruct n1; discriminate.
  - rewrite (hlo_upd n1 p c c') by auto. apply (t_h0 _ _ _ _ _ _ _ _ _ H).
  - eapply linked_upd; [| | |apply (t_lk _ _ _ _ _ _ _ _ _ H)]; auto.
  - rewrite (lows_upd n1 p c c') by auto. apply (t_so _ _ _ _ _ _ _ _ _ H).
  - rewrite <- (t_fl _ _ _ _ _ _ _ _ _ H), !flat_of_app, !flat_of_cons, E4. auto.
  - apply forall_upd; [apply near_nodes; auto|]. split; auto.
  - destruct fo_nodup as (_ & _ & _ & X2). rewrite map_app in *. auto.
  - intros q Hq. left. rewrite map_app in *. auto.
  - intros q d Hd. left. apply in_app_iff in Hd as [Hd|[Hd|Hd]].
    + exists d. split; auto. apply in_app_iff; auto.
    + inversion Hd; subst. exists c'. split; auto. apply in_level.
    + exists d. split; auto. apply in_app_iff; cbn; auto.
Qed.

(** ** Split *)
Lemma cwf_with_next n q : cwf g i (CBase n) -> cwf g i (CBase (with_next n q)).
Proof. destruct i; exact (fun x => x). Qed.
Lemma cents_with_next n q : cents i (CBase (with_next n q)) = cents i (CBase n).
Proof. destruct i; reflexivity. Qed.

Hypothesis HI : forall fl nl, (i = true -> (fl < length flat)%nat) -> Tgoal true fl nl.

Lemma split_ok s0 l r sep : near s0 -> s_tbl s0 p = Some c ->
  cwf g i (CBase l) -> cwf g i (CBase r) -> n_low l = c_lo c -> n_high l = Some sep ->
  n_low r = Some sep -> n_high r = c_hi c -> n_next r = c_next c ->
  cents i (CBase l) ++ cents i (CBase r) = cents i c ->
  n_size l <= c_page g -> n_size r <= c_page g -> olt (c_lo c) (Some sep) -> ohi (Some sep) (c_hi c) ->
  (i = true -> (2 <= length (cents i (CBase l)))%nat /\ (1 <= length (cents i (CBase r)))%nat) ->
  evp (fun fa fb => split g (try_smos g fa) fb l r (p :: stk)) s0
    (fun _ s' => Tpost s i flat (N :: lv) s').
Proof.
  intros Hn Hp Wl Wr L1 L2 R1 R2 R3 Ce S1 S2 Os Oh Hlen.
  pose proof Hn as (A & B & C & D & E).
  unfold split. rewrite R1. apply evp_newpid, evp_store, evp_store. unfold alloc. cbn [bind]. apply evp_alloc.
  rewrite D. cbn [s_naddr bump_pid set_tbl]. set (rp := s_npid s).
  set (l' := with_next l rp). set (s3 := bump_addr _).
  pose proof fo_p as Hp0. pose proof fo_nodup as (ND1 & ND2 & ND3 & ND4).
  pose proof (t_gl _ _ _ _ _ _ _ _ _ H) as (G1 & G2 & G3 & G4 & G5).
  assert (Hrp : (p < rp)%N) by (subst rp; lia).
  assert (T3 : forall q, q <> p -> q <> rp -> s_tbl s3 q = s_tbl s q).
  { intros q Q1 Q2. subst s3. cbn. rewrite upd_other by auto. rewrite upd_other by auto. auto. }
  assert (T3p : s_tbl s3 p = Some (CBase l')) by (subst s3; cbn; apply upd_same).
  assert (T3r : s_tbl s3 rp = Some (CBase r)).
  { subst s3. cbn. rewrite upd_other by lia. apply upd_same. }
  assert (C3 : forall a, s_cell s3 a = s_cell s a) by (subst s3; cbn; auto).
  assert (R3' : s_root s3 = s_root s) by (subst s3; cbn; auto).
  assert (N3 : s_npid s3 = (rp + 1)%N) by (subst s3; cbn; rewrite D; unfold rp; lia).
  assert (Na3 : (s_naddr s <= s_naddr s3)%N) by (subst s3; cbn; lia).
  assert (Hrl : forall q, In q (pids (N :: lv)) -> q <> rp).
  { intros q Hq. apply fo_lt in Hq. subst rp. lia. }
  assert (Hlv : forall q, In q (pids lv) -> q <> p /\ q <> rp).
  { intros q Hq. split; [intros ->; auto|]. apply Hrl. unfold pids. cbn. apply in_app_iff; auto. }
  assert (Hnn : forall q, In q (map fst (n1 ++ n2)) -> q <> p /\ q <> rp).
  { intros q Hq. split; [apply ND1; auto|]. apply Hrl. unfold pids. cbn. apply in_app_iff. left.
    rewrite map_app in *. rewrite in_app_iff in *. cbn. tauto. }
  set (N1 := n1 ++ (p, CBase l') :: (rp, CBase r) :: n2).
  assert (EL : lows N1 = lows n1 ++ (c_lo c, p) :: (Some sep, rp) :: lows n2).
  { subst N1. rewrite lows_app, !lows_cons. unfold c_lo at 1 2. cbn. rewrite L1, R1. reflexivity. }
  assert (Hr2 : forall q d, In (q, d) n2 -> olt (Some sep) (c_lo d)).
  { intros q d Hd. destruct (right_ge n1 p c n2 (t_so _ _ _ _ _ _ _ _ _ H) (t_lk _ _ _ _ _ _ _ _ _ H) q d Hd) as (X1 & X2 & _).
    destruct (c_hi c) as [h|]; [|congruence]. unfold ohi in Oh. eapply olt_le_trans; eauto. }
  assert (Hso : osorted (lows N1)).
  { rewrite EL. pose proof (t_so _ _ _ _ _ _ _ _ _ H) as X. rewrite lows_app, lows_cons in X.
    apply osorted_app_inv in X as (X1 & X2 & X3). apply osorted_cons_inv in X2 as [X2 X4].
    apply osorted_app; auto.
    - constructor; [constructor; auto|].
      + apply Forall_forall. intros y Hy. apply in_lows in Hy as (q & d & -> & Hd). exact (Hr2 q d Hd).
      + constructor; auto.
    - intros x y Hx [<-|[<-|Hy]].
      + apply (X3 x (c_lo c, p)); cbn; auto.
      + cbn. eapply olt_trans; [apply (X3 x (c_lo c, p)); cbn; auto|auto].
      + apply X3; cbn; auto. }
  assert (Hlk : linked N1 None 0%N).
  { eapply (linked_split n1 p c n2 None 0%N (CBase l') (CBase r) rp sep); auto.
    apply (t_lk _ _ _ _ _ _ _ _ _ H). }
  assert (Hfl : flat_of i N1 = flat).
  { rewrite <- (t_fl _ _ _ _ _ _ _ _ _ H). subst N1. rewrite !flat_of_app, !flat_of_cons.
    f_equal. rewrite app_assoc. f_equal. subst l'. rewrite cents_with_next. auto. }
  assert (Hup3 : up g nopend s3 true (lows n1 ++ (c_lo c, p) :: lows n2) lv).
  { pose proof (t_up _ _ _ _ _ _ _ _ _ H) as X. rewrite lows_app, lows_cons in X.
    eapply up_frame; [exact X| | | |]; auto. intros q Hq. apply T3; apply Hlv; auto. }
  assert (Hgl3 : glob s3 lv).
  { pose proof (glob_tl _ _ _ (t_gl _ _ _ _ _ _ _ _ _ H)) as (K1 & K2 & K3 & K4 & K5).
    unfold glob. rewrite N3. split; auto. split; [lia|]. split; [|split].
    - intros q Hq. specialize (K3 q Hq). subst rp. lia.
    - intros q Hq. rewrite T3 by lia. apply K4. subst rp; lia.
    - intros x Hx. rewrite C3. apply K5. lia. }
  eapply evp_weaken.
  - eapply (split_loop_ok s3 (lows n1) (lows n2) (c_lo c) p rp sep lv _ (n_high r)) with (L := CBase l').
    + intros nl. apply HI. intros Hi. rewrite app_length. cbn [length]. unfold lows. rewrite !map_length.
      rewrite <- (t_fl _ _ _ _ _ _ _ _ _ H), flat_of_app, flat_of_cons, !app_length.
      pose proof (flat_len i n1 Hi). pose proof (flat_len i n2 Hi). destruct (Hlen Hi).
      rewrite <- Ce, app_length. lia.
    + exact Hup3.
    + exact Hgl3.
    + rewrite <- EL. exact Hso.
    + rewrite R2. symmetry. pose proof (osucc_lows n1 p c n2 sep (t_so _ _ _ _ _ _ _ _ _ H) (t_lk _ _ _ _ _ _ _ _ _ H)) as X.
      rewrite lows_app, lows_cons in X. apply X; [apply olt_lo; auto|]. unfold ohi, hi_ok, olt in *. destruct (c_hi c); auto.
    + intros x Hx. assert (Hc : In (snd x) (map fst (n1 ++ n2)) \/ snd x = p \/ snd x = rp).
      { apply in_app_iff in Hx as [Hx|[<-|[<-|Hx]]]; cbn; auto; left; rewrite map_app, in_app_iff;
          apply in_lows in Hx as (q & d & -> & Hd); [left|right]; apply in_map_iff; exists (q, d); auto. }
      destruct Hc as [Hc|[-> | ->]].
      * split.
        -- apply ND3. rewrite map_app, in_app_iff in *. cbn. tauto.
        -- rewrite T3 by (apply Hnn; auto). apply in_map_iff in Hc as ([q d] & Eq & Hd). cbn in Eq. rewrite <- Eq.
           pose proof (forall_in_node _ _ _ _ _ _ (t_ok _ _ _ _ _ _ _ _ _ H) Hd) as (X & X' & _). cbn in X, X'. eauto.
      * split; eauto.
      * split; eauto. intros X. apply Hlv in X. tauto.
    + lia.
    + exact T3p.
    + eapply good_cwf. apply cwf_with_next. exact Wl.
    + pose proof (cwf_leaf g i _ Wl) as Hlf. destruct i; [right|left; exact Hlf].
      split; [exact Wl|]. split; [exact I|]. split; [exact I|]. split; [reflexivity|]. exists sep. split; [exact L2|lia].
    + eapply okst_evolve; [apply (t_st _ _ _ _ _ _ _ _ _ H)| |auto]. intros x (a0 & l0 & Ex).
      exists a0, l0. rewrite T3; auto.
      * intros ->. pose proof (t_wf _ _ _ _ _ _ _ _ _ H) as W. rewrite (t_tb _ _ _ _ _ _ _ _ _ H) in Ex. inversion Ex as [Ey].
        rewrite Ey in W. destruct i; destruct W.
      * intros ->. rewrite G4 in Ex by (subst rp; lia). discriminate.
  - cbn beta. intros _ s4 (lv' & U & Gl & Fr & Ev).
    pose proof Fr as (F1 & F2 & F3 & F4). pose proof Ev as (E1 & E2).
    assert (T4 : forall q, In q (map fst (n1 ++ n2)) -> s_tbl s4 q = s_tbl s q).
    { intros q Hq. destruct (Hnn q Hq). assert (Hq' : In q (map fst N)).
      { rewrite map_app, in_app_iff in *. cbn. tauto. }
      rewrite F1, T3; auto. rewrite N3. assert (0 < q < s_npid s)%N; [|subst rp; lia].
      apply fo_lt. unfold pids. cbn. apply in_app_iff; auto. }
    assert (T4p : s_tbl s4 p = Some (CBase l')) by (rewrite F1; auto; lia).
    assert (T4r : s_tbl s4 rp = Some (CBase r)).
    { rewrite F1; auto; [|lia]. intros X. apply Hlv in X. tauto. }
    assert (C4 : forall a, s_cell s a <> 0%N -> s_cell s4 a = s_cell s a).
    { intros a0 Ha. rewrite F2, C3; auto. destruct (N.lt_ge_cases a0 (s_naddr s)); [lia|].
      rewrite G5 in Ha by auto. congruence. }
    apply (bottom s i flat N N1 lv lv' s4); auto.
    + apply (t_gl _ _ _ _ _ _ _ _ _ H).
    + split; [|split; [|split]]; try lia.
      * intros q Hq Hlt. unfold pids in Hq. cbn in Hq. rewrite in_app_iff in Hq.
        assert (q <> p).
        { intros ->. apply Hq. left. rewrite map_app, in_app_iff. cbn. auto. }
        assert (q <> rp) by (subst rp; lia).
        rewrite F1; [apply T3; auto| |subst rp; lia]. intros X. apply Hq. auto.
      * intros x Hx. rewrite F2, C3; auto. lia.
    + split.
      * intros j q lo X. apply E1. auto.
      * intros q Hq. apply E2 in Hq as [Hq|Hq]; auto. right. subst rp. lia.
    + rewrite EL. exact U.
    + subst N1. destruct n1; discriminate.
    + subst N1. pose proof (t_h0 _ _ _ _ _ _ _ _ _ H) as X. rewrite hlo_app in *. cbn [hlo] in *.
      unfold c_lo at 1. cbn. rewrite L1. exact X.
    + subst N1. change (n1 ++ (p, CBase l') :: (rp, CBase r) :: n2) with (n1 ++ (p, CBase l') :: ((rp, CBase r) :: n2)).
      apply forall_upd; [apply forall_upd|].
      * eapply nodes_frame; [apply (t_ok _ _ _ _ _ _ _ _ _ H)| | |]; auto.
      * split; [exact T4r|]. split; [exact Wr|]. split; [apply quiet_base; auto|]. intros _. cbn. auto.
      * split; [exact T4p|]. split; [apply cwf_with_next; auto|]. split; [apply quiet_base; auto|]. intros _. cbn. auto.
    + subst N1. rewrite map_app in *. cbn in *. apply NoDup_remove in ND4 as [X1 X2].
      apply (NoDup_Add (a := p) (l := map fst n1 ++ rp :: map fst n2)); [apply Add_app|].
      split.
      * apply (NoDup_Add (a := rp) (l := map fst n1 ++ map fst n2)); [apply Add_app|]. split; auto.
        intros X. apply (Hnn rp); auto.
      * rewrite in_app_iff in *. cbn. intros [X|[X|X]]; auto. lia.
    + intros q Hq. subst N1. rewrite map_app in *. rewrite in_app_iff in *. cbn in *.
      destruct Hq as [Hq|[<-|[<-|Hq]]]; auto. right. split; [subst rp; lia|].
      intros X. apply E2 in X as [X|X]; [apply Hlv in X; tauto|lia].
    + intros q d Hd. left. subst N1. apply in_app_iff in Hd as [Hd|[Hd|Hd]].
      * exists d. split; auto. apply in_app_iff; auto.
      * inversion Hd; subst q d. exists (CBase l'). split; [apply in_level|]. exact L1.
      * exists d. split; auto. apply in_app_iff; cbn; auto.
Qed.
End Focus.

(** ** GetHeadForMerge from a stack *)
Lemma gm_ok s flat lv k sib b q0 r0 : up g nopend s true flat lv -> okst s lv b (q0 :: r0) ->
  evp (fun _ f => get_head_merge g f k sib (q0 :: r0)) s
    (fun r s' => s' = s /\ ((exists st' sib', r = (None, st', sib')) \/
       exists N c0 q d sib', r = (Some d, q :: r0, sib') /\ hd_error lv = Some N /\ In (q0, c0) N /\ In (q, d) N /\
         ole (c_lo c0) (c_lo d) /\ find k (ients d) <> None /\ okst s (tl lv) (c_lo c0) r0)).
Proof.
  intros Hup Hok. cbn [okst] in Hok. destruct Hok as (lo & Hlo & [Hd|(N & c & HN & Hi & Ec)] & Hr).
  - destruct Hd as (a & l & E). apply evp_S. cbn [get_head_merge].
    eapply evp_bind; [apply evp_S; cbn [load_valid]; eapply evp_bload; [exact E|apply good_remove|]|].
    + replace (need_wait g (CRemove a l)) with false; [apply (evp_ret _ _ (fun x s' => x = CRemove a l /\ s' = s)); auto|].
      unfold need_wait. cbn [is_base negb andb h_cnt h_size]. pose proof (ok_thr g OK). pose proof (page_pos g OK).
      pose proof (recsz_inner g OK 0). destruct (Z.leb_spec (c_maxd g) 0), (Z.ltb_spec (c_page g) 0); auto; lia.
    + intros x s1 [-> ->]. cbn. apply evp_ret. eauto.
  - destruct lv as [|N' lv]; [discriminate|]. cbn in HN. inversion HN; subst N'. cbn [tl] in *. subst lo.
    pose proof Hi as Hi'. apply in_split in Hi' as (m1 & m2 & EN).
    eapply evp_weaken; [apply (gm_live g OK nopend s flat N lv k r0 m1 q0 c m2 sib Hup EN)|].
    cbn beta. intros r s' (-> & [Hx|(q & d & sib' & -> & X1 & X2 & X3)]); split; auto. right.
    exists N, c, q, d, sib'. repeat split; auto.
Qed.

Lemma nr_at i m1 l cl p c n2 dk kk : cwf g i cl -> linked (m1 ++ (l, cl) :: (p, c) :: n2) None 0%N ->
  osorted (lows (m1 ++ (l, cl) :: (p, c) :: n2)) -> c_lo c = Some dk -> dk - 1 <= kk <= dk ->
  at_ (lows (m1 ++ (l, cl) :: n2)) kk (c_lo cl, l).
Proof.
  intros W Hlk Hso Lc Hk. exists (lows m1), (lows n2). rewrite lows_app, lows_cons. split; auto.
  apply linked_app in Hlk as [_ X]. cbn in X. rewrite Lc in X. destruct X as [E _].
  apply (cwf_rng g i) in W. rewrite E in W.
  split.
  - unfold rng_ne, lo_lt, lo_ok in *. cbn. destruct (c_lo cl); auto. lia.
  - rewrite lows_app, !lows_cons in Hso. apply osorted_app_inv in Hso as (_ & X & _).
    apply osorted_cons_inv in X as [X _]. apply osorted_cons_inv in X as [_ X]. eapply Forall_impl; [|exact X].
    intros y Hy. cbn [fst] in Hy. rewrite Lc in Hy. intros Z. eapply olt_not_lo; [exact Hy|].
    unfold lo_ok in *. destruct (fst y); auto. lia.
Qed.

(** ** Installing the merge delta *)
Section Merge.
Variables (s : st) (i : bool) (flat : list (option key * val)) (m1 : level) (l : pid) (cl : chain)
  (p : pid) (c : chain) (n2 : level) (lv : list level) (stk : list pid) (n : node) (dk : key) (a : addr) (ma : addr).
Notation N0 := (m1 ++ (l, cl) :: (p, c) :: n2).
Notation NR := (m1 ++ (l, cl) :: n2).
Hypothesis IH3 : forall nl, (nl < length N0)%nat -> Tgoal i (length flat) nl.
Hypothesis Hh0 : hlo N0 None = None.
Hypothesis Hlk : linked N0 None 0%N.
Hypothesis Hso : osorted (lows N0).
Hypothesis Hok : Forall (node_ok g nopend s i) NR.
Hypothesis Hfl : flat_of i N0 = flat.
Hypothesis Wn : cwf g i (CBase n).
Hypothesis Ni : n_inner n = i.
Hypothesis Nl : n_low n = Some dk.
Hypothesis Nh : n_high n = c_hi c.
Hypothesis Nn : n_next n = c_next c.
Hypothesis Nc : cents i (CBase n) = cents i c.
Hypothesis Ns : n_size n <= c_min g.
Hypothesis Lc : c_lo c = Some dk.
Hypothesis Wc : rng_ne (c_lo c) (c_hi c).
Definition pendk : addr -> key -> Prop := fun _ k => k = dk.
Hypothesis Hup : up g pendk s true (lows NR) lv.
Hypothesis Hst : okst s lv (Some (dk - 1)) stk.
Hypothesis Hal : up g nopend s true (lows NR) lv \/
  exists N q c0 rest, hd_error lv = Some N /\ In (q, c0) N /\ stk = q :: rest.
Hypothesis Hupf : up g nopend (set_cell s a l) true (lows NR) lv.
Hypothesis Hgl : glob s (NR :: lv).
Hypothesis Hpn : ~ In p (pids (NR :: lv)).
Hypothesis Hp0 : p <> 0%N.
Hypothesis Ha : (a < s_naddr s)%N.
Hypothesis Hca : s_cell s a = 0%N.
Hypothesis Hch : i = true -> forall x, In x flat ->
  ~ In (snd x) (pids (NR :: lv)) /\ exists cx, s_tbl s (snd x) = Some cx /\ good cx.

Notation dm := (mk_delta ma i DMerge dk (n_high n) 0%N 0 0).
Let cm := CMerge (set_next dm cl (node_diff g n)) n cl.

Lemma mg_cl : s_tbl s l = Some cl /\ cwf g i cl /\ quiet g cl /\ (i = true -> iexact cl /\ icells (s_cell s) nopend cl).
Proof. apply (forall_in_node _ _ _ _ _ _ Hok). apply in_level. Qed.
Lemma mg_link : c_hi cl = Some dk /\ c_next cl = p.
Proof. pose proof Hlk as X. apply linked_app in X as [_ X]. cbn in X. rewrite Lc in X. tauto. Qed.
Lemma mg_at kk : dk - 1 <= kk <= dk -> at_ (lows NR) kk (c_lo cl, l).
Proof. destruct mg_cl as (_ & W & _). apply (nr_at i m1 l cl p c n2 dk kk W Hlk Hso Lc). Qed.

Lemma mg_cwf : cwf g i cm.
Proof.
  destruct mg_cl as (_ & W & _). destruct mg_link as [E1 E2]. subst cm. clear -W Wn Ni Nl E1.
  destruct i; cbn in *; repeat split; auto; apply Wn.
Qed.
Lemma mg_cents : cents i cm = cents i cl ++ cents i c.
Proof.
  rewrite <- Nc. subst cm. destruct i; cbn [cents].
  - cbn [ients ilead set_next d_key]. replace (c_lo (CBase n)) with (Some dk) by (symmetry; exact Nl).
    rewrite ekey_app. reflexivity.
  - cbn [lrecs]. rewrite ekey_app. reflexivity.
Qed.
Lemma mg_size : h_size cm <= c_page g + excess g.
Proof.
  destruct mg_cl as (_ & _ & [_ Q] & _). subst cm. cbn [h_size set_next d_size]. unfold node_diff.
  pose proof (ok_hdr g OK). pose proof (okl_bound g OK (n_low n)).
  assert (c_min g <= excess g) by (unfold excess; lia). destruct (n_inner n); lia.
Qed.

Let s6 := set_cell (set_tbl s l (Some cm)) a l.

Lemma mg_nodup : (forall q, In q (map fst (m1 ++ n2)) -> q <> l) /\ ~ In l (pids lv) /\ NoDup (map fst NR).
Proof.
  pose proof Hgl as (X & _). destruct (nodup_level _ _ _ _ _ X) as (B & C & D & _). repeat (split; auto).
  unfold pids in X. cbn in X. clear -X. induction (map fst NR); [constructor|].
  cbn in X. inversion X; subst. rewrite in_app_iff in H1. constructor; auto.
Qed.

Lemma mg_frame : frame (set_cell s a l) (NR :: lv) s6.
Proof.
  split; [|split; [|split]]; cbn; auto; try lia. intros q Hq _. apply upd_other. intros ->.
  apply Hq. apply (in_pids l cl NR lv). apply in_level.
Qed.
Lemma mg_evolve : evolve (set_cell s a l) (NR :: lv) s6 ((m1 ++ (l, cm) :: n2) :: lv).
Proof. apply evolve_upd. reflexivity. Qed.
Lemma mg_glob : glob s6 ((m1 ++ (l, cm) :: n2) :: lv).
Proof.
  destruct Hgl as (A & B & C & D & E). unfold glob. rewrite (pids_upd m1 l cl cm). cbn [s6 s_npid s_tbl s_cell s_naddr set_cell set_tbl].
  split; auto. split; auto. split; auto. split.
  - intros q Hq. rewrite upd_other; auto. intros ->. assert (l < s_npid s)%N; [|lia].
    apply C. apply (in_pids l cl NR lv). apply in_level.
  - intros x Hx. rewrite upd_other; auto. lia.
Qed.
Lemma mg_cells x : s_cell s x <> 0%N -> s_cell s6 x = s_cell s x.
Proof. intros Hx. cbn. apply upd_other. congruence. Qed.
Lemma mg_up : up g nopend s6 true (lows (m1 ++ (l, cm) :: n2)) lv.
Proof.
  rewrite (lows_upd m1 l cl cm) by reflexivity. eapply up_frame; [exact Hupf| | | |]; auto.
  intros q Hq. cbn. apply upd_other. intros ->. apply mg_nodup. auto.
Qed.
Lemma mg_nodes : Forall (node_ok g nopend s6 i) (m1 ++ n2).
Proof.
  pose proof Hok as X. apply forall_rem in X as [X _]. eapply nodes_frame; [exact X| |apply mg_cells|auto].
  intros q Hq. cbn. apply upd_other. apply mg_nodup. auto.
Qed.
Lemma mg_flat : flat_of i (m1 ++ (l, cm) :: n2) = flat.
Proof. rewrite <- Hfl, !flat_of_app, !flat_of_cons, mg_cents, <- app_assoc. auto. Qed.
Lemma mg_linked : linked (m1 ++ (l, cm) :: n2) None 0%N.
Proof. eapply linked_merge; [exact Hlk| | |]; auto. Qed.
Lemma mg_so : osorted (lows (m1 ++ (l, cm) :: n2)).
Proof.
  pose proof Hso as X. rewrite lows_app, !lows_cons in *. change (c_lo cm) with (c_lo cl).
  apply osorted_app_inv in X as (X1 & X2 & X3). apply osorted_cons_inv in X2 as [X2 X4].
  apply osorted_cons_inv in X2 as [X2 X5]. apply osorted_app; auto.
  - constructor; auto. inversion X4; auto.
  - intros x y Hx [<-|Hy]; apply X3; cbn; auto.
Qed.
Lemma mg_h0 : hlo (m1 ++ (l, cm) :: n2) None = None.
Proof. pose proof Hh0 as X. rewrite hlo_app in *. exact X. Qed.
Lemma mg_dead x : dead s x -> dead s6 x.
Proof.
  intros (b & lf & E). exists b, lf. cbn. rewrite upd_other; auto. intros ->. destruct mg_cl as (T & W & _).
  rewrite T in E. inversion E as [E']. rewrite E' in W. destruct i; destruct W.
Qed.

Lemma mg_finish path : okst s lv (c_lo cl) path ->
  evp (fun fa fb => if need_consolidation g cm then try_smos g fa cm (l :: path) else Ret tt) s6
    (fun _ s' => Tpost (set_cell s a l) i flat (NR :: lv) s').
Proof.
  intros Hp. destruct mg_cl as (T & W & Q & X).
  destruct (need_consolidation g cm) eqn:Nd.
  - apply evp_fst. eapply evp_weaken.
    + eapply (IH3 (length (m1 ++ (l, cm) :: n2))).
      * rewrite !app_length. cbn. lia.
      * constructor.
        -- apply mg_h0.
        -- apply mg_linked.
        -- apply mg_so.
        -- apply mg_nodes.
        -- cbn. apply upd_same.
        -- apply mg_cwf.
        -- apply mg_size.
        -- subst cm. cbn. pose proof (quiet_ndelta g OK i cl W Q). pose proof (ok_thr g OK). lia.
        -- apply mg_flat.
        -- apply mg_up.
        -- apply mg_glob.
        -- eapply okst_evolve; [exact Hp|apply mg_dead|auto].
        -- intros Hi x Hx. rewrite (pids_upd m1 l cl cm). destruct (Hch Hi x Hx) as [X1 [cx X2]]. split; auto.
           exists cx. cbn. rewrite upd_other; auto. intros Ex. apply X1. rewrite Ex.
           apply (in_pids l cl NR lv). apply in_level.
      * reflexivity.
      * reflexivity.
    + cbn beta. intros _ s' HT. eapply Tpost_trans; [|apply mg_glob|apply mg_frame|apply mg_evolve|exact HT].
      intros M x cx [<-|HM] Hx.
      * apply in_app_iff in Hx. assert (Hc : (x, cx) = (l, cm) \/ In (x, cx) (m1 ++ n2)) by (rewrite in_app_iff; cbn in Hx; intuition).
        destruct Hc as [Hc|Hc].
        -- inversion Hc; subst x cx. cbn. rewrite upd_same. auto.
        -- destruct (forall_in_node _ _ _ _ _ _ mg_nodes Hc) as (Y1 & Y2 & _). split; auto. eapply cwf_not_remove; eauto.
      * apply (alive_up g _ _ _ _ _ mg_up M); auto.
  - apply evp_ret. exists ((m1 ++ (l, cm) :: n2) :: lv). split; [|split; [apply mg_glob|split; [apply mg_frame|apply mg_evolve]]].
    cbn [up]. split; [destruct m1; discriminate|]. split; [apply mg_h0|]. split; [apply mg_linked|].
    split; [apply mg_so|]. split; [|split; [apply mg_flat|apply mg_up]].
    apply forall_upd; [apply mg_nodes|]. split; [cbn; apply upd_same|]. split; [apply mg_cwf|].
    split; [apply noneed_quiet; auto|]. intros Hi. destruct (X Hi) as [X1 X2]. split; [exact X1|].
    cbn [icells snd cm]. eapply (icells_mono (s_cell s) _ nopend nopend); [apply mg_cells|auto|exact X2].
Qed.

Lemma mg_at_sib path : okst s lv (c_lo cl) path ->
  evp (fun fa fb => merge_loop g (try_smos g fa) fb dm n p a true (l :: path)) s
    (fun _ s' => Tpost (set_cell s a l) i flat (NR :: lv) s').
Proof.
  intros Hp. destruct mg_cl as (T & W & Q & X). destruct mg_link as [E1 E2].
  apply evp_S. cbn [merge_loop d_key].
  eapply (evp_bind (fun _ f => get_head g f dk false (l :: path) p) _ s (fun r s' => s' = s /\ r = (Some cl, l :: path))).
  - apply evp_S. cbn [get_head]. eapply evp_bind; [apply (load_valid_ok g OK s l cl (fun x s' => x = cl /\ s' = s)); eauto|].
    intros x s1 [-> ->]. rewrite validate_spec by (destruct i; [eapply iwf_mhigh|eapply lwf_mhigh]; eauto).
    rewrite E1. cbn [eff]. destruct (Z.ltb_spec (dk - 1) dk); [|lia]. apply evp_ret. auto.
  - intros r s1 [-> ->]. eapply evp_bcas; [exact T|reflexivity|eapply good_cwf; exact mg_cwf|]. cbv beta iota. apply evp_scell.
    apply (mg_finish path Hp).
Qed.

Lemma mg_not_in_p : ~ In p (pids lv).
Proof. intros X. apply Hpn. unfold pids. cbn. apply in_app_iff. auto. Qed.

Lemma mg_search : stk <> [] -> evp (fun _ f => search_child_node f dk false stk p) s
  (fun r s' => s' = s /\ ((r = (false, []) /\ up g nopend s true (lows NR) lv) \/
     exists rest, r = (false, l :: rest) /\ okst s lv (c_lo cl) rest)).
Proof.
  pose proof mg_not_in_p as NP. pose proof (mg_at (dk - 1) ltac:(lia)) as MA.
  intros Hne. destruct Hal as [Hu|(N & q & c0 & rest & HN & Hi & ->)].
  - eapply evp_weaken; [apply (sc_ok g s dk false p Hp0 stk lv (lows NR) (Some (dk - 1)) Hu Hst)|].
    + cbn. lia.
    + apply mg_not_in_p.
    + auto.
    + cbn beta. intros r s' (-> & [->|(lo & x & q & rest & N & c0 & -> & H1 & H2 & H3 & H4)]); split; auto.
      right. cbn [eff] in H3. assert (Ex := at_unique _ _ _ _ H3 MA). inversion Ex; subst lo x. eauto.
  - destruct lv as [|N' lv']; [discriminate|]. cbn in HN. inversion HN; subst N'.
    pose proof Hi as Hi'. apply in_split in Hi' as (k1 & k2 & EN).
    destruct Hst as (lo & Hlo & Hq & Hr). cbn [tl] in Hr.
    assert (El : c_lo c0 = lo).
    { destruct (up_in g _ _ _ _ _ _ _ _ Hup Hi) as (T & W & _).
      destruct Hq as [(b & lf & E)|(N' & c' & E & Hi' & Ec)].
      - rewrite T in E. inversion E; subst. destruct W.
      - cbn in E. inversion E; subst N'. destruct (up_in g _ _ _ _ _ _ _ _ Hup Hi') as (T' & _). congruence. }
    eapply evp_weaken; [eapply (sc_live g pendk s (lows NR) N lv' dk false p rest k1 q c0 k2 Hup EN)|].
    + rewrite El. cbn [eff]. apply ole_lo_ok. auto.
    + intros b k' Hk. unfold pendk in Hk. cbn. lia.
    + intros Z. apply NP. unfold pids. cbn. apply in_app_iff. auto.
    + cbn beta. intros r s' (-> & q' & d' & lo' & x & -> & H1 & H2 & H3 & H4). split; auto. right.
      cbn [eff] in H3. assert (Ex := at_unique _ _ _ _ H3 MA). inversion Ex; subst lo' x.
      exists (q' :: rest). split; auto. cbn [okst]. exists (c_lo d'). split; auto. split.
      * right. exists N, d'. auto.
      * cbn [tl]. eapply okst_mono; [|exact Hr]. rewrite <- El. auto.
Qed.

Lemma mg_nil : up g nopend s true (lows NR) lv ->
  evp (fun fa fb => merge_loop g (try_smos g fa) fb dm n p a false []) s
    (fun _ s' => Tpost (set_cell s a l) i flat (NR :: lv) s').
Proof.
  intros Hu. destruct mg_cl as (T & W & Q & X). destruct mg_link as [E1 E2].
  apply evp_S. cbn [merge_loop d_key].
  eapply (evp_bind (fun _ f => search_target f dk p)).
  - apply (search_target_ok g s dk p lv (lows NR) (c_lo cl) l cl Hu mg_not_in_p (mg_at dk ltac:(lia)) T (good_cwf _ _ _ W)).
    pose proof (cwf_leaf g i cl W) as Hl. destruct i; [right|left; exact Hl].
    destruct (X eq_refl). split; [exact W|]. split; auto. split; auto. split; auto. exists dk. split; auto. lia.
  - intros r s1 (-> & path & -> & Hp & _). apply mg_at_sib. auto.
Qed.

Lemma merge_loop_ok : stk <> [] ->
  evp (fun fa fb => merge_loop g (try_smos g fa) fb dm n p a false stk) s
    (fun _ s' => Tpost (set_cell s a l) i flat (NR :: lv) s').
Proof.
  intros Hne. pose proof (mg_search Hne) as Hs. apply evp_S. cbn [merge_loop d_key].
  assert (Es : exists q rest, stk = q :: rest) by (destruct stk; [congruence|eauto]). destruct Es as (q & rest & Es). rewrite Es in Hs |- *.
  eapply (evp_bind (fun _ f => search_child_node f dk false (q :: rest) p)); [exact Hs|].
  intros r s1 (-> & [[-> Hu]|(rest' & -> & Hp)]).
  - apply mg_nil. auto.
  - apply mg_at_sib. auto.
Qed.
End Merge.

(** ** One step of the induction *)
Section Step.
Variables (s : st) (i : bool) (flat : list (option key * val)) (n1 : level) (p : pid) (c : chain)
  (n2 : level) (lv : list level) (stk : list pid).
Hypothesis H : Tpre s i flat n1 p c n2 lv stk.
Notation N := (n1 ++ (p, c) :: n2).
Hypothesis HI : forall fl nl, (i = true -> (fl < length flat)%nat) -> Tgoal true fl nl.
Hypothesis IH3 : forall nl, (nl < length N)%nat -> Tgoal i (length flat) nl.
Notation near := (near s p).

Definition deleted (dk : key) (l : pid) (s1 : st) (a : addr) (lv4 : list level) (s4 : st) : Prop :=
  up g (pendk dk) s4 true (lows (n1 ++ n2)) lv4 /\ okst s4 lv4 (Some (dk - 1)) stk /\
  (up g nopend s4 true (lows (n1 ++ n2)) lv4 \/
     exists N q c0 rest, hd_error lv4 = Some N /\ In (q, c0) N /\ stk = q :: rest) /\
  up g nopend (set_cell s4 a l) true (lows (n1 ++ n2)) lv4 /\
  glob s4 lv4 /\ frame s1 lv s4 /\ evolve s lv s4 lv4 /\
  (s_naddr s <= a < s_naddr s4)%N /\ s_cell s4 a = 0%N.

Lemma lows_odel dk : c_lo c = Some dk -> odel dk (lows N) = lows (n1 ++ n2).
Proof.
  intros Lc. pose proof (t_so _ _ _ _ _ _ _ _ _ H) as X. rewrite lows_app, lows_cons in X. rewrite !lows_app, lows_cons, odel_app.
  apply osorted_app_inv in X as (_ & X & X'). apply osorted_cons_inv in X as [_ X]. rewrite Lc in *.
  rewrite (odel_none dk (lows n1)).
  - f_equal. cbn. unfold isk at 1. cbn. rewrite Z.eqb_refl. cbn. apply odel_none.
    eapply Forall_impl; [|exact X]. intros y Hy E. cbn in Hy. rewrite E in Hy. lia.
  - apply Forall_forall. intros y Hy E. specialize (X' y (Some dk, p) Hy (or_introl eq_refl)). rewrite E in X'.
    eapply olt_irrefl; eauto.
Qed.

Lemma delete_ok s1 n dk m1 l cl q0 r0 : near s1 -> n1 = m1 ++ [(l, cl)] -> stk = q0 :: r0 ->
  n_low n = Some dk -> c_lo c = Some dk -> n_high n = c_hi c ->
  evp (fun fa fb => try_delete_entry g (try_smos g fa) fb n stk) s1
    (fun od s4 => (od = None /\ near s4 /\ s_tbl s4 p = s_tbl s1 p) \/
       exists a lv4, od = Some a /\ deleted dk l s1 a lv4 s4).
Proof.
  intros Hn E1 Es Nl Lc Nh. unfold try_delete_entry. rewrite Es, Nl.
  unfold alloc. cbn [bind]. apply evp_alloc, evp_scell.
  set (a := s_naddr s1). set (s2 := set_cell (bump_addr s1) a 0%N).
  pose proof Hn as (A & B & C & D & E).
  pose proof (t_gl _ _ _ _ _ _ _ _ _ H) as (G1 & G2 & G3 & G4 & G5).
  assert (Hn2 : near s2).
  { subst s2. repeat split; cbn; auto; [|lia]. intros x. unfold upd. destruct (N.eqb_spec x a); auto.
    subst x. symmetry. apply G5. subst a; lia. }
  assert (T12 : forall q, s_tbl s2 q = s_tbl s1 q) by reflexivity.
  assert (C2a : s_cell s2 a = 0%N) by (subst s2; cbn; apply upd_same).
  assert (Na2 : (s_naddr s <= a < s_naddr s2)%N) by (subst s2 a; cbn; lia).
  assert (Na12 : (s_naddr s1 <= s_naddr s2)%N) by (subst s2; cbn; lia).
  clearbody s2 a.
  pose proof (near_up _ _ _ _ _ _ _ _ _ H s2 Hn2) as Hup. pose proof (near_glob _ _ _ _ _ _ _ _ _ H s2 Hn2) as Hgl.
  pose proof (near_stk _ _ _ _ _ _ _ _ _ H s2 Hn2) as Hst. rewrite Es in Hst.
  eapply (evp_bind _ _ s2 (fun (r : option chain * list pid) s3 => (s3 = s2 /\ exists st', r = (None, st')) \/
     exists N' c0 q d, let c2 := CRec (set_next (mk_delta a true DDelete dk (n_high n) 0%N 0 0) d (- recsz g ptrlen dk)) d in
       r = (Some c2, q :: r0) /\ s3 = set_tbl s2 q (Some c2) /\
       hd_error lv = Some N' /\ In (q0, c0) N' /\ In (q, d) N' /\
         ole (c_lo c0) (c_lo d) /\ find dk (ients d) <> None /\ okst s2 (tl lv) (c_lo c0) r0)).
  { apply evp_S. cbn [delete_loop d_key].
    eapply (evp_bind (fun _ f => get_head_merge g f dk (n_high n) (q0 :: r0))); [apply (gm_ok s2 (lows N) lv dk (n_high n) (c_lo c) q0 r0 Hup Hst)|].
    intros r s3 (-> & [(st' & sib' & ->)|(N' & c0 & q & d & sib' & -> & X1 & X2 & X3 & X4 & X5 & X6)]).
    - apply evp_ret. left. eauto.
    - assert (Et : s_tbl s2 q = Some d).
      { destruct lv as [|N'' lv']; [discriminate|]. cbn in X1. inversion X1; subst N''.
        apply (up_in g _ _ _ _ _ _ _ _ Hup X3). }
      eapply evp_bcas; [exact Et|reflexivity| |].
      { destruct lv as [|N'' lv']; [discriminate|]. cbn in X1. inversion X1; subst N''.
        destruct (up_in g _ _ _ _ _ _ _ _ Hup X3) as (_ & Hw & _). cbn [cwf] in Hw. destruct (iwf_sorted _ _ Hw) as [_ Fd].
        destruct (find dk (ients d)) as [v|] eqn:Ef; [|congruence].
        assert (Hsr : in_srng (c_lo d) (c_hi d) dk) by (rewrite Forall_forall in Fd; apply (Fd (dk, v)); apply find_in; auto).
        eapply good_iwf. cbn [iwf set_next d_inner d_type d_key d_cnt d_size]. repeat split; auto; try (apply Hsr). eauto. }
      apply evp_ret. right. exists N', c0, q, d. cbn zeta. repeat split; auto. }
  intros r s3 [(-> & st' & ->)|(N' & c0 & q & d & X)]; [apply evp_ret; left; auto|]. cbn zeta in X.
  destruct X as (-> & -> & X1 & X2 & X3 & X4 & X5 & X6).
  set (c2 := CRec (set_next (mk_delta a true DDelete dk (n_high n) 0%N 0 0) d (- recsz g ptrlen dk)) d).
  assert (Elv : exists lv', lv = N' :: lv') by (destruct lv; inversion X1; eauto). destruct Elv as [lv' Elv].
  rewrite Elv in Hup, Hgl, X6. clear X1. cbn [tl] in X6.
  destruct (up_in g _ _ _ _ _ _ _ _ Hup X3) as (Et & Hw & Hq & Hxc). destruct (Hxc eq_refl) as [Hex Hce]. cbn [cwf] in Hw.
  destruct (find dk (ients d)) as [v|] eqn:Ef; [|congruence]. clear X5.
  destruct (iwf_sorted _ _ Hw) as [Sd Fd].
  assert (Hin : In (dk, v) (ients d)) by (apply find_in; auto).
  assert (Hsr : in_srng (c_lo d) (c_hi d) dk) by (rewrite Forall_forall in Fd; apply (Fd _ Hin)).
  assert (Lod : lo_ok (c_lo d) (dk - 1)).
  { destruct Hsr as [Y _]. unfold lo_lt, lo_ok in *. destruct (c_lo d); auto. lia. }
  assert (Wc2 : iwf g c2).
  { subst c2. cbn [iwf set_next d_inner d_type d_key d_cnt d_size]. repeat split; auto; try (apply Hsr). eauto. }
  pose proof X3 as X3'. apply in_split in X3' as (k1 & k2 & EN').
  pose proof Hup as (_ & U0 & Ul & Us & Un & Uf & _). pose proof (node_ok_cwf g _ _ _ _ Un) as Uw.
  rewrite EN' in U0, Ul, Us, Un, Uf, Uw.
  assert (Hd1 : lo_ok (c_lo d) dk) by (unfold lo_ok in *; destruct (c_lo d); auto; lia).
  assert (Hd2 : hi_ok (c_hi d) dk) by apply Hsr.
  pose proof (cwf_rng g i c (t_wf _ _ _ _ _ _ _ _ _ H)) as Rc. rewrite Lc in Rc.
  assert (Xc2 : iexact c2).
  { subst c2. cbn [iexact set_next d_high d_key]. split; auto. rewrite Nh.
    rewrite <- (osucc_flat g k1 q d k2 dk Uw Us Ul Hd1 Hd2), Uf.
    rewrite <- (osucc_lows n1 p c n2 dk (t_so _ _ _ _ _ _ _ _ _ H) (t_lk _ _ _ _ _ _ _ _ _ H)); auto.
    rewrite Lc. cbn. lia. }
  assert (Fl : flat_of true (k1 ++ (q, c2) :: k2) = lows (n1 ++ n2)).
  { rewrite <- (lows_odel dk Lc), <- Uf. pose proof (flat_sorted g true _ Uw Us Ul) as Fs.
    rewrite !flat_of_app, !flat_of_cons in *. rewrite !odel_app.
    assert (Hcd : In (Some dk, v) (cents true d)) by (right; apply in_ekey; eauto).
    apply osorted_app_inv in Fs as (_ & Fs & Fs1). apply osorted_app_inv in Fs as (_ & _ & Fs2).
    rewrite (odel_none dk (flat_of true k1)), (odel_none dk (flat_of true k2)).
    - f_equal. f_equal. cbn [cents]. change (c_lo c2) with (c_lo d). change (ilead c2) with (ilead d).
      change (ients c2) with (del dk (ients d)). rewrite <- odel_ekey by auto.
      unfold odel. cbn [filter]. replace (isk dk (c_lo d, ilead d)) with false; [reflexivity|].
      unfold isk. cbn [fst]. destruct Hsr as [Y _]. unfold lo_lt in Y. destruct (c_lo d) as [z|]; auto.
      destruct (Z.eqb_spec z dk); auto. lia.
    - apply Forall_forall. intros y Hy Ey. specialize (Fs2 _ y Hcd Hy). cbn [fst] in Fs2. rewrite Ey in Fs2. eapply olt_irrefl; eauto.
    - apply Forall_forall. intros y Hy Ey. specialize (Fs1 y (Some dk, v) Hy). rewrite Ey in Fs1.
      eapply olt_irrefl; apply Fs1. apply in_app_iff. left. auto. }
  set (s3 := set_tbl s2 q (Some c2)).
  assert (T3q : s_tbl s3 q = Some c2) by (subst s3; cbn; apply upd_same).
  assert (T3 : forall x, x <> q -> s_tbl s3 x = s_tbl s2 x) by (intros; subst s3; cbn; apply upd_other; auto).
  set (N2 := k1 ++ (q, c2) :: k2).
  assert (Hqp : q <> p).
  { intros ->. pose proof (fo_nodup _ _ _ _ _ _ _ _ _ H) as (_ & Y & _). apply Y. rewrite Elv. apply (in_pids p d N' lv' X3). }
  pose proof Hgl as (K1 & K2 & K3 & K4 & K5).
  assert (Gl3 : glob s3 (N2 :: lv')).
  { unfold glob. subst N2. rewrite (pids_upd k1 q d c2). rewrite <- EN'. subst s3. cbn [s_tbl s_npid s_cell s_naddr set_tbl].
    split; auto. split; auto. split; auto. split; auto. intros x Hx. rewrite upd_other; auto. intros ->.
    assert (q < s_npid s2)%N; [|lia]. apply K3. apply (in_pids q d N' lv' X3). }
  assert (Fr3 : frame s2 (N' :: lv') s3).
  { split; [|split; [|split]]; subst s3; cbn [s_tbl s_npid s_cell s_naddr set_tbl]; auto; try lia.
    intros x Hx _. apply upd_other. intros ->. apply Hx. apply (in_pids q d N' lv' X3). }
  assert (Ev3 : evolve s2 (N' :: lv') s3 (N2 :: lv')) by (rewrite EN'; apply evolve_upd; reflexivity).
  assert (Alv2 : alive s2 (N' :: lv')) by (eapply alive_up; eauto).
  assert (Lq0 : ole (c_lo c0) (Some (dk - 1))) by (eapply ole_trans; [exact X4|apply ole_lo_ok; auto]).
  assert (Hst2 : okst s2 (N' :: lv') (Some (dk - 1)) (q0 :: r0)).
  { cbn [okst]. exists (c_lo c0). split; auto. split; auto. right. exists N', c0. auto. }
  assert (Hcn : forall x, s_cell s2 x <> 0%N -> s_cell (set_cell s3 a l) x = s_cell s2 x).
  { intros x Hx. cbn. rewrite upd_other; auto. congruence. }
  assert (Hl : cwf g i cl /\ l <> 0%N).
  { pose proof (t_ok _ _ _ _ _ _ _ _ _ H) as Y. rewrite E1 in Y. rewrite <- app_assoc in Y. cbn in Y.
    apply forall_in_node with (q := l) (d := cl) in Y; [|apply in_level]. split; [apply Y|].
    assert (0 < l < s_npid s)%N; [|lia]. apply (fo_lt _ _ _ _ _ _ _ _ _ H). apply (in_pids l cl). rewrite E1.
    rewrite !in_app_iff. cbn. auto. }
  destruct Hl as [Wcl Hl0].
  assert (Hroute : route dk (ilead d) (del dk (ients d)) = l).
  { pose proof (t_lk _ _ _ _ _ _ _ _ _ H) as Y1. pose proof (t_so _ _ _ _ _ _ _ _ _ H) as Y2. rewrite E1, <- app_assoc in Y1, Y2. cbn in Y1, Y2.
    pose proof (nr_at i m1 l cl p c n2 dk dk Wcl Y1 Y2 Lc ltac:(lia)) as Hat.
    destruct (at_flat g k1 q c2 k2 dk) as (lo & Hat2 & _); auto.
    - apply forall_rem in Uw as [Uw _]. apply forall_upd; auto.
    - rewrite (lows_upd k1 q d c2); auto.
    - eapply linked_upd; [| | |exact Ul]; auto.
    - rewrite Fl in Hat2. rewrite E1, <- app_assoc in Hat2. cbn in Hat2.
      pose proof (at_unique _ _ _ _ Hat Hat2) as Ex. inversion Ex. auto. }
  rewrite EN' in Hup, K1.
  assert (Hfin : forall s4 lv4, up g (pendk dk) s4 true (lows (n1 ++ n2)) lv4 ->
    (up g nopend s4 true (lows (n1 ++ n2)) lv4 \/
      exists N q c0 rest, hd_error lv4 = Some N /\ In (q, c0) N /\ stk = q :: rest) ->
    up g nopend (set_cell s4 a l) true (lows (n1 ++ n2)) lv4 -> glob s4 lv4 -> frame s2 (N' :: lv') s4 ->
    evolve s2 (N' :: lv') s4 lv4 ->
    exists a0 lv4, Some a = Some a0 /\ deleted dk l s1 a0 lv4 s4).
  { intros s4 lv4 V1 V2 V3 V4 V5 V6. exists a, lv4. split; auto. unfold deleted. rewrite Elv.
    pose proof V5 as (V5a & V5b & V5c & V5d). rewrite Es in *.
    repeat (split; auto).
    - eapply okst_evolve; [exact Hst2| |apply V6]. intros x. apply (frame_dead s2 (N' :: lv') s4 x Alv2 K4 V5).
    - intros x Hx Hlt. rewrite V5a; auto. destruct Hn2 as (_ & _ & _ & Y & _). lia.
    - intros x Hx. rewrite V5b by lia. destruct Hn2 as (_ & Y & _). rewrite Y, B. auto.
    - destruct Hn2 as (_ & _ & _ & Y & _). lia.
    - lia.
    - intros j x lo Hlive. apply V6. auto.
    - intros x Hx. apply V6 in Hx as [Hx|Hx]; auto. right. destruct Hn2 as (_ & _ & _ & Y & _). lia.
    - lia.
    - lia.
    - rewrite V5b by lia. auto. }
  destruct (need_consolidation g c2) eqn:Nd.
  - eapply (evp_bind (fun fa _ => try_smos g fa c2 (q :: r0))).
    + apply evp_fst. assert (HIx : Tgoal true (length (lows (n1 ++ n2))) (length N2)).
      { apply HI. intros Hi. unfold lows. rewrite map_length. rewrite <- (t_fl _ _ _ _ _ _ _ _ _ H).
        pose proof (flat_len i N Hi) as Y. rewrite !app_length in Y |- *. cbn [length] in Y. lia. }
      apply (HIx s3 (lows (n1 ++ n2)) k1 q c2 k2 lv' r0); auto.
      * eapply (Tpre_upd s2 s3 true (lows N) (lows (n1 ++ n2)) k1 q d k2 lv' c2 r0 Hup); auto.
        -- rewrite <- EN'. exact Hgl.
        -- cbn. pose proof (recsz_inner g OK dk). pose proof (maxrec_excess g). destruct Hq as [_ Hq]. lia.
        -- cbn. pose proof (quiet_ndelta g OK true d Hw Hq). pose proof (ok_thr g OK). lia.
        -- eapply okst_mono; [|exact X6]. auto.
        -- intros _ x Hx. rewrite <- EN'. apply in_lows in Hx as (z & cz & -> & Hz). cbn [snd].
           pose proof (fo_nodup _ _ _ _ _ _ _ _ _ H) as (Y1 & _ & Y3 & _).
           assert (Hz' : In z (map fst (n1 ++ n2))) by (apply in_map_iff; exists (z, cz); auto).
           assert (Hni : ~ In z (pids lv)) by (apply Y3; rewrite map_app, in_app_iff in *; cbn; tauto).
           rewrite Elv in Hni. split; [exact Hni|]. exists cz.
           destruct Hn2 as (Y & _). rewrite Y by (apply Y1; auto).
           destruct (forall_in_node _ _ _ _ _ _ (t_ok _ _ _ _ _ _ _ _ _ H) Hz) as (Ya & Yb & _). split; [exact Ya|eapply good_cwf; exact Yb].
    + intros [] s4 HT. apply evp_ret. right.
      assert (HT2 : Tpost s2 true (lows (n1 ++ n2)) (N' :: lv') s4).
      { eapply Tpost_trans; [|exact Gl3|exact Fr3|exact Ev3|exact HT].
        intros M x cx [<-|HM] Hx.
        - apply in_app_iff in Hx. assert (Hc : (x, cx) = (q, c2) \/ In (x, cx) (k1 ++ k2)) by (rewrite in_app_iff; cbn in Hx; intuition).
          destruct (nodup_level _ _ _ _ _ K1) as (Y1 & _). destruct Hc as [Hc|Hc].
          + inversion Hc; subst x cx. split; auto.
          + rewrite T3 by (apply Y1; apply in_map_iff; exists (x, cx); auto). apply (Alv2 N'); [left; auto|].
            rewrite EN'. rewrite in_app_iff in *. cbn. tauto.
        - destruct (nodup_level _ _ _ _ _ K1) as (_ & Y2 & _). rewrite T3.
          + apply (Alv2 M); auto. right; auto.
          + intros ->. apply Y2. apply in_pids_iff. eauto. }
      destruct HT2 as (lv4 & V1 & V2 & V3 & V4). apply (Hfin s4 lv4); auto.
      * eapply up_frame; [exact V1| | | |]; auto. intros ? ? [].
      * eapply up_frame; [exact V1| | | |]; auto. intros x Hx. cbn. apply upd_other. intros ->.
        destruct V3 as (_ & Y & _). rewrite Y in Hx by lia. congruence.
  - cbn [bind]. apply evp_ret. right.
    assert (Qc2 : quiet g c2) by (apply noneed_quiet; auto).
    apply (Hfin s3 (N2 :: lv')); auto.
    + eapply (up_upd (pendk dk) s2 s3 true _ _ k1 q d k2 lv' c2 Hup K1); auto.
      intros _. split; auto. subst c2. cbn [icells set_next d_type d_addr d_key]. split.
      * eapply (icells_mono (s_cell s2) _ nopend); [auto|intros ? ? []|exact Hce].
      * intros _. left. reflexivity.
    + right. pose proof X2 as X2'. rewrite EN' in X2'. apply in_app_iff in X2' as [Y|[Y|Y]].
      * exists N2, q0, c0, r0. cbn. repeat split; auto. apply in_app_iff; auto.
      * inversion Y; subst q0 c0. exists N2, q, c2, r0. cbn. repeat split; auto. apply in_level.
      * exists N2, q0, c0, r0. cbn. repeat split; auto. apply in_app_iff; cbn; auto.
    + eapply (up_upd nopend s2 (set_cell s3 a l) true _ _ k1 q d k2 lv' c2 Hup K1); auto;
        [|intros x _ Hx; apply (T3 x Hx)].
      intros _. split; auto. subst c2. cbn [icells set_next d_type d_addr d_key]. split.
      * eapply (icells_mono (s_cell s2) _ nopend nopend); [exact Hcn|auto|exact Hce].
      * intros _. right. cbn. rewrite upd_same. auto.
Qed.

Lemma near_bump s1 : near s1 -> near (bump_addr s1).
Proof. intros (A & B & C & D & E). repeat split; cbn; auto. lia. Qed.
Lemma near_gc s1 x : near s1 -> near (add_gc s1 x).
Proof. intros (A & B & C & D & E). repeat split; cbn; auto. Qed.
Lemma near_set s1 x : near s1 -> near (set_tbl s1 p x).
Proof. intros (A & B & C & D & E). repeat split; cbn; auto. intros q Hq. rewrite upd_other; auto. Qed.

Lemma tpost_gc i0 flat0 lv0 s0 s1 x : Tpost s0 i0 flat0 lv0 s1 -> Tpost s0 i0 flat0 lv0 (add_gc s1 x).
Proof.
  intros (lv' & A & B & C & D). exists lv'. split; [|split; [exact B|split; [exact C|exact D]]].
  eapply up_frame; [exact A| | | |]; auto.
Qed.

Section Page.
Variable n : node.
Hypothesis Wn : cwf g i (CBase n).
Hypothesis Ni : n_inner n = i.
Hypothesis Nl : n_low n = c_lo c.
Hypothesis Nh : n_high n = c_hi c.
Hypothesis Nn : n_next n = c_next c.
Hypothesis Nc : cents i (CBase n) = cents i c.
Hypothesis Ns : n_size n <= c_page g.

Lemma restore_page s' : near s' -> s_tbl s' p = Some (CBase n) -> Tpost s i flat (N :: lv) s'.
Proof.
  intros Hn Hp. eapply (restore s i flat n1 p c n2 lv stk H s' (CBase n)); auto.
  - apply quiet_base; auto.
  - intros _. cbn. auto.
Qed.

(** TryRemoveRoot, or the page put back. *)
Lemma root_or_restore s1 a : near s1 ->
  s_tbl s1 p = Some (CRemove a (negb i)) ->
  evp (fun _ _ => bind (try_remove_root n p stk) (fun rr : bool =>
     if rr then Ret true else Store p (CBase n) (Retire [a] (Ret true)))) s1
    (fun ok s' => ok = true /\ Tpost s i flat (N :: lv) s').
Proof.
  intros Hn Hp.
  assert (Back : evp (fun _ _ => Store p (CBase n) (Retire [a] (Ret true))) s1
    (fun ok s' => ok = true /\ Tpost s i flat (N :: lv) s')).
  { apply evp_store, evp_retire, evp_ret. split; auto. apply tpost_gc. apply restore_page.
    - apply near_set; auto.
    - cbn. apply upd_same. }
  unfold try_remove_root. destruct stk as [|q rest] eqn:Estk; [|cbn [bind]; exact Back].
  destruct ((1 <? Z.of_nat (length (n_recs n))) || negb (n_inner n)) eqn:Ec; [cbn [bind]; exact Back|].
  apply orb_false_iff in Ec as [Ec1 Ec2]. rewrite Ni in Ec2.
  assert (Hi : i = true) by (destruct i; auto). clear Ec2.
  pose proof Wn as Wn'. rewrite Hi in Wn'. cbn [cwf iwf] in Wn'.
  destruct Wn' as (_ & (k0 & Rn & _) & _).
  assert (Rn1 : n_recs n = [(k0, nlead n)]).
  { rewrite Rn in Ec1 |- *. destruct (nents n); auto. cbn in Ec1. lia. }
  unfold leftmost_child. rewrite Rn1. cbn [map hd_error option_map snd].
  assert (Ex : exists cx, s_tbl s1 (nlead n) = Some cx /\ good cx /\ nlead n <> p).
  { assert (Hin : In (c_lo c, nlead n) flat).
    { rewrite <- (t_fl _ _ _ _ _ _ _ _ _ H), flat_of_app, flat_of_cons, <- Nc. apply in_app_iff. right.
      apply in_app_iff. left. rewrite Hi. cbn. left. rewrite <- Nl. reflexivity. }
    destruct (t_ch _ _ _ _ _ _ _ _ _ H Hi _ Hin) as [X [cx [Y Yg]]]. cbn [snd] in *. 
    assert (Hne : nlead n <> p).
    { intros E. apply X. rewrite E. apply (in_pids p c). apply in_level. }
    exists cx. split; auto. destruct Hn as (A & _). rewrite A; auto. }
  destruct Ex as (cx & Ex & Exg & Hne).
  unfold load. cbn [bind]. eapply evp_load; [exact Ex|exact Exg|].
  destruct (h_leaf cx) eqn:Hl; cbn [bind]; [exact Back|]. apply evp_casroot.
  pose proof Hn as (A & B & C & D & E). rewrite C.
  destruct (N.eqb_spec (s_root s) p) as [Er|Er]; [|cbn [bind]; exact Back].
  cbn [bind]. apply evp_retire, evp_ret. split; auto. apply tpost_gc.
  assert (Elv : lv = []).
  { destruct lv as [|M lv'] eqn:El; auto. exfalso. pose proof (fo_nodup _ _ _ _ _ _ _ _ _ H) as (_ & X & _).
    apply X. rewrite <- Er. eapply up_root_in; [apply (t_up _ _ _ _ _ _ _ _ _ H)|discriminate]. }
  pose proof (t_up _ _ _ _ _ _ _ _ _ H) as U. rewrite Elv in U. cbn [up] in U. destruct U as [_ U].
  assert (E1 : n1 = [] /\ n2 = [] /\ c_lo c = None).
  { rewrite lows_app, lows_cons in U. destruct n1 as [|x [|? ?]]; cbn in U; inversion U as [[U1 U2 U3]]; auto.
    destruct n2; [auto|discriminate]. }
  destruct E1 as (E1 & E2 & E3).
  pose proof (near_frame s n1 p c n2 lv s1 Hn) as Fr.
  pose proof (near_glob s i flat n1 p c n2 lv [] H s1 Hn) as Gl.
  exists []. split; [|split; [|split]].
  - cbn [up]. split; auto. cbn. rewrite <- (t_fl _ _ _ _ _ _ _ _ _ H), E1, E2. cbn. rewrite app_nil_r, <- Nc, Hi. cbn.
    unfold nents. rewrite Rn1. cbn. unfold c_lo. cbn. rewrite Nl, E3. reflexivity.
  - rewrite Elv in Gl. exact Gl.
  - exact Fr.
  - split; [|easy]. intros j q lo (M & d & EM & Hd & _). right. destruct j.
    + cbn in EM. inversion EM; subst M. rewrite E1, E2 in Hd. cbn in Hd. destruct Hd as [Hd|[]]. inversion Hd; subst q d.
      exists a, (negb i). exact Hp.
    + cbn in EM. rewrite Elv in EM. destruct j; discriminate.
Qed.

Lemma merge_ok s1 : near s1 -> s_tbl s1 p = Some c -> n_size n <= c_min g ->
  evp (fun fa fb => try_merge g (try_smos g fa) fb c n (p :: stk)) s1
    (fun ok s' => ok = true /\ Tpost s i flat (N :: lv) s').
Proof.
  intros Hn Hp Hmin. unfold try_merge, alloc. cbn [bind]. apply evp_alloc.
  eapply evp_bcas; [cbn; exact Hp|reflexivity|apply good_remove|]. cbn [negb].
  set (a := s_naddr s1). rewrite Ni.
  set (s2 := set_tbl (bump_addr s1) p (Some (CRemove a (negb i)))).
  assert (Hn2 : near s2) by (apply near_set, near_bump; auto).
  assert (Hp2 : s_tbl s2 p = Some (CRemove a (negb i))) by (subst s2; cbn; apply upd_same).
  clearbody s2 a.
  assert (Triv : (stk = [] \/ n_low n = None) \/ exists q0 r0 dk, stk = q0 :: r0 /\ n_low n = Some dk).
  { destruct stk; auto. destruct (n_low n); eauto 10. }
  destruct Triv as [Triv|(q0 & r0 & dk & Es & El)].
  { eapply (evp_bind _ _ s2 (fun od s3 => od = None /\ s3 = s2)).
    - unfold try_delete_entry. destruct Triv as [-> | ->]; [apply evp_ret; auto|].
      destruct stk; apply evp_ret; auto.
    - intros od s3 [-> ->]. cbn iota. apply (root_or_restore s2 a Hn2 Hp2). }
  assert (Lc : c_lo c = Some dk) by congruence.
  assert (Hm : exists m1 l cl, n1 = m1 ++ [(l, cl)]).
  { pose proof (t_h0 _ _ _ _ _ _ _ _ _ H) as X. destruct n1 as [|x t] eqn:E1.
    - cbn in X. congruence.
    - destruct (exists_last (l := x :: t)) as (m & [l cl] & E); [discriminate|]. rewrite E. eauto. }
  destruct Hm as (m1 & l & cl & E1).
  eapply evp_bind; [apply (delete_ok s2 n dk m1 l cl q0 r0 Hn2 E1 Es El Lc Nh)|].
  intros od s4 [(-> & Hn4 & Hp4)|(da & lv4 & -> & D1 & D2 & D3 & D4 & D5 & D6 & D7 & D8 & D9)].
  { cbn iota. apply (root_or_restore s4 a Hn4). congruence. }
  rewrite El. cbn iota. unfold alloc. cbn [bind]. apply evp_alloc.
  pose proof D6 as (D6a & D6b & D6c & D6d).
  pose proof Hn2 as (A & B & C & D & E).
  pose proof (fo_nodup _ _ _ _ _ _ _ _ _ H) as (ND1 & ND2 & ND3 & ND4).
  pose proof (t_gl _ _ _ _ _ _ _ _ _ H) as (G1 & G2 & G3 & G4 & G5).
  assert (NR : n1 ++ n2 = m1 ++ (l, cl) :: n2) by (rewrite E1, <- app_assoc; reflexivity).
  assert (N0 : N = m1 ++ (l, cl) :: (p, c) :: n2) by (rewrite E1, <- app_assoc; reflexivity).
  assert (Fr : frame s (N :: lv) s4).
  { split; [|split; [|split]]; try lia.
    - intros q Hq Hlt. unfold pids in Hq. cbn in Hq. rewrite in_app_iff in Hq. rewrite D6a; [|tauto|lia].
      apply A. intros ->. apply Hq. left. rewrite map_app, in_app_iff. cbn. auto.
    - intros x Hx. rewrite D6b by lia. auto. }
  assert (T4 : forall q, In q (map fst (n1 ++ n2)) -> s_tbl s4 q = s_tbl s q).
  { intros q Hq. assert (Hq' : In q (map fst N)) by (rewrite map_app, in_app_iff in *; cbn; tauto).
    assert (0 < q < s_npid s)%N by (apply (fo_lt _ _ _ _ _ _ _ _ _ H); unfold pids; cbn; apply in_app_iff; auto).
    rewrite D6a; [|auto|lia]. apply A. apply ND1; auto. }
  assert (C4 : forall x, s_cell s x <> 0%N -> s_cell s4 x = s_cell s x).
  { intros x Hx. destruct (N.lt_ge_cases x (s_naddr s)) as [Y|Y]; [apply Fr; auto|]. rewrite G5 in Hx by auto. congruence. }
  assert (Tp4 : dead s4 p).
  { exists a, (negb i). rewrite D6a; auto. pose proof (fo_p _ _ _ _ _ _ _ _ _ H). lia. }
  assert (Mv : moved s4 N (n1 ++ n2)).
  { intros q d Hd. apply in_app_iff in Hd as [Hd|[Hd|Hd]].
    - left. exists d. split; auto. apply in_app_iff; auto.
    - inversion Hd; subst. auto.
    - left. exists d. split; auto. apply in_app_iff; auto. }
  assert (NDr : NoDup (map fst (n1 ++ n2))).
  { rewrite map_app in *. cbn in ND4. apply NoDup_remove_1 in ND4. auto. }
  assert (Gl4 : glob s4 ((n1 ++ n2) :: lv4)).
  { apply (bottom_glob s s4 N (n1 ++ n2) lv lv4); auto; [apply (t_gl _ _ _ _ _ _ _ _ _ H)|].
    intros q Hq. left. rewrite map_app, in_app_iff in *. cbn. tauto. }
  assert (Ev4 : evolve s (N :: lv) s4 ((n1 ++ n2) :: lv4)).
  { apply bottom_evolve; auto. intros q Hq. left. rewrite map_app, in_app_iff in *. cbn. tauto. }
  assert (Nd4 : Forall (node_ok g nopend s4 i) (n1 ++ n2)).
  { eapply nodes_frame; [apply (t_ok _ _ _ _ _ _ _ _ _ H)| | |]; auto. }
  assert (Cl0 : forall x, s_cell s4 x <> 0%N -> s_cell (set_cell s4 da l) x = s_cell s4 x).
  { intros x Hx. cbn. apply upd_other. congruence. }
  assert (Al4 : alive s4 ((n1 ++ n2) :: lv4)).
  { intros M x cx [<-|HM] Hx.
    - destruct (forall_in_node _ _ _ _ _ _ Nd4 Hx) as (Y1 & Y2 & _). split; auto. eapply cwf_not_remove; eauto.
    - apply (alive_up g _ _ _ _ _ D1 M); auto. }
  eapply (evp_bind (fun fa fb => merge_loop g (try_smos g fa) fb _ n p da false stk)).
  - apply (merge_loop_ok (bump_addr s4) i flat m1 l cl p c n2 lv4 stk n dk da (s_naddr s4)); rewrite <- ?NR, <- ?N0; auto.
    + apply (t_h0 _ _ _ _ _ _ _ _ _ H).
    + apply (t_lk _ _ _ _ _ _ _ _ _ H).
    + apply (t_so _ _ _ _ _ _ _ _ _ H).
    + apply (t_fl _ _ _ _ _ _ _ _ _ H).
    + eapply up_frame; [exact D1| | | |]; auto.
    + eapply okst_evolve; [exact D2| |auto]. auto.
    + destruct D3 as [D3|D3]; auto. left. eapply up_frame; [exact D3| | | |]; auto.
    + eapply up_frame; [exact D4| | | |]; auto.
    + destruct Gl4 as (Y1 & Y2 & Y3 & Y4 & Y5). split; auto. split; auto. split; auto. split; auto.
      cbn. intros x Hx. apply Y5. lia.
    + eapply alive_dead; eauto.
    + pose proof (fo_p _ _ _ _ _ _ _ _ _ H). lia.
    + cbn. lia.
    + intros Hi x Hx. destruct (t_ch _ _ _ _ _ _ _ _ _ H Hi x Hx) as [X [cx [Y Yg]]].
      assert (Hlt : (snd x < s_npid s)%N).
      { destruct (N.lt_ge_cases (snd x) (s_npid s)); auto. rewrite G4 in Y by auto. discriminate. }
      split.
      * intros Z. apply Ev4 in Z as [Z|Z]; [auto|lia].
      * exists cx. split; [|exact Yg]. cbn. destruct Fr as (Fr1 & _). rewrite Fr1; auto.
    + rewrite Es. discriminate.
  - intros [] s5 HT. apply evp_ret. split; auto. rewrite <- NR in HT.
    eapply Tpost_trans; [| | | |exact HT].
    + exact Al4.
    + destruct Gl4 as (Y1 & Y2 & Y3 & Y4 & Y5). split; auto. split; auto. split; auto. split; auto.
      cbn. intros x Hx. rewrite upd_other by lia. apply Y5. lia.
    + destruct Fr as (Y1 & Y2 & Y3 & Y4). split; [|split; [|split]]; cbn; auto; try lia.
      intros x Hx. rewrite upd_other by lia. auto.
    + exact Ev4.
Qed.
End Page.

Lemma step_ok : evp (fun _ f => try_smos g f c (p :: stk)) s (fun _ s' => Tpost s i flat (N :: lv) s').
Proof.
  pose proof (t_wf _ _ _ _ _ _ _ _ _ H) as Wc. pose proof (t_tb _ _ _ _ _ _ _ _ _ H) as Et.
  pose proof (t_sz _ _ _ _ _ _ _ _ _ H) as Sz.
  assert (Hns : near s) by (repeat split; auto; lia).
  apply evp_S. cbn [try_smos]. eapply evp_bload; [exact Et|eauto|]. rewrite N.eqb_refl. cbn [negb].
  apply evp_balloc. destruct (sort_ex g i c Wc) as [ds Hs]. pose proof Hs as (Hsort & _ & _ & Hlen).
  rewrite Hsort. pose proof (t_nd _ _ _ _ _ _ _ _ _ H) as Nd.
  destruct (Z.ltb_spec (c_maxd g) (Z.of_nat (length ds))); [exfalso; lia|].
  rewrite (cwf_leaf g i c Wc), negb_involutive.
  destruct (Z.ltb_spec (c_page g) (h_size c)) as [Hbig|Hsmall].
  - apply evp_balloc. cbn [s_naddr bump_addr].
    destruct (cons_two g OK i c ds (s_naddr s) (s_naddr s + 1) Wc Hs ltac:(lia)) as (l & r & sep & Ec & Wl & Wr & L1 & L2 & R1 & R2 & R3 & Ce & S1 & S2 & Os & Oh & Hlen2).
    rewrite Ec. unfold fits. destruct (Z.leb_spec (n_size l) (c_page g)); [|lia]. destruct (Z.leb_spec (n_size r) (c_page g)); [|lia].
    cbn [andb]. eapply evp_bind.
    + apply (evp_diag (fun fa fb => split g (try_smos g fa) fb l r (p :: stk))).
      apply (split_ok s i flat n1 p c n2 lv stk H HI (bump_addr (bump_addr s)) l r sep); auto.
      apply near_bump, near_bump; auto.
    + intros [] s' HT. unfold retire. apply evp_retire, evp_ret. apply tpost_gc. exact HT.
  - destruct (cons_one g i c ds (s_naddr s) 0%N Wc Hs) as (n & Ec & Wn & Ni & Nl & Nh & Nn & Ncc & Ns).
    rewrite Ec. unfold fits. destruct (Z.leb_spec (n_size n) (c_page g)); [|lia].
    destruct (Z.leb_spec (h_size c) (c_min g)).
    + eapply evp_bind.
      * apply (evp_diag (fun fa fb => try_merge g (try_smos g fa) fb c n (p :: stk))).
        apply (merge_ok n Wn Ni Nl Nh Nn Ncc ltac:(lia) (bump_addr s)); auto; [apply near_bump; auto|lia].
      * intros ok s' [-> HT]. unfold retire. apply evp_retire, evp_ret. apply tpost_gc. exact HT.
    + eapply evp_bcas; [cbn; exact Et|reflexivity|eauto|]. unfold retire. apply evp_retire, evp_ret. apply tpost_gc.
      apply (restore_page n Wn Nl Nh Nn Ncc ltac:(lia)).
      * apply near_set, near_bump; auto.
      * cbn. apply upd_same.
Qed.
End Step.

(** ** TrySMOs *)
Theorem smos_inner fl nl : Tgoal true fl nl.
Proof.
  revert nl. induction fl as [fl IHf] using (well_founded_induction lt_wf).
  induction nl as [nl IHn] using (well_founded_induction lt_wf).
  intros s flat n1 p c n2 lv stk H E1 E2. eapply step_ok; eauto.
  - intros fl' nl' Hlt. apply IHf. rewrite <- E1. auto.
  - intros nl' Hlt. rewrite E1. apply IHn. rewrite <- E2. auto.
Qed.
Theorem smos_any i fl nl : Tgoal i fl nl.
Proof.
  destruct i; [apply smos_inner|]. revert fl. induction nl as [nl IHn] using (well_founded_induction lt_wf).
  intros fl s flat n1 p c n2 lv stk H E1 E2. eapply step_ok; eauto.
  - intros fl' nl' _. apply smos_inner.
  - intros nl' Hlt. rewrite E1. apply IHn. rewrite <- E2. auto.
Qed.

Theorem try_smos_ok s i flat n1 p c n2 lv stk : Tpre s i flat n1 p c n2 lv stk ->
  evp (fun _ f => try_smos g f c (p :: stk)) s
    (fun _ s' => Tpost s i flat ((n1 ++ (p, c) :: n2) :: lv) s').
Proof. intros H. eapply smos_any; eauto. Qed.
End S.
