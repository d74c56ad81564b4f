(** Consolidation on bytes does what consolidation of Page.v does. *)
From Coq Require Import ZArith NArith List Bool Lia.
From Coq Require Import ZifyBool ZifyNat ZifyN.
From Verif Require Import Config Page Bytes FixLayout VarLayout DeltaBytes ByteCons ByteConsSpec LayoutSpec LayoutFacts DeltaBytesFacts.
Import ListNotations.
Open Scope Z_scope.

(** ** The template *)
Section Gen.
Context {P D : Type}.
Variable W : ops P D.
Variable g : cfg.
Variable inner : bool.
Variable lt : list N -> list N -> bool.
Variables (ek : Z -> list N) (ev : N -> list N).
(** The pure effect of CopyRecordFrom and the bytes it accounts for. *)
Variable copy : P * N -> list N * list N -> P * N.
Variable rsz : list N * list N -> N.
Variable kb0 : list N.
Variables (page hdr : N).

Variable K : Z -> Prop.
Hypothesis Hlt : forall a b, K a -> K b -> lt (ek a) (ek b) = (a <? b).
Hypothesis Hsz : forall st r, o_size W (fst (copy st r)) = (o_size W (fst st) + rsz r)%N.
Hypothesis Hrec : forall k v, Z.of_N (rsz (ek k, ev v)) = recsz g (paysz g inner) k.
Hypothesis Hnull : inner = true -> forall v, Z.of_N (rsz (kb0, ev v)) = nullsz g.
Hypothesis Hpage : Z.of_N page = c_page g.
Hypothesis Hhdr : Z.of_N hdr = c_hdr g.
Hypothesis Hle : (hdr <= page)%N.

Definition srep (n : node) (p : P) : Prop :=
  o_cnt W p = N.of_nat (length (n_recs n)) /\
  (inner = true -> o_lm W p = is_leftmost n) /\
  (forall i k v, nth_error (n_recs n) i = Some (k, v) ->
     if nokey inner n i then forall st, o_cpage W st p (N.of_nat i) = copy st (kb0, ev v)
     else K k /\ o_key W p (N.of_nat i) = ek k /\ forall st, o_cpage W st p (N.of_nat i) = copy st (ek k, ev v)).
Definition drep (d : delta) (b : D) : Prop :=
  K (d_key d) /\ o_dkey W b = ek (d_key d) /\ o_dtype W b = d_type d /\
  (d_type d <> DDelete -> forall st, o_cdelta W st b = copy st (ek (d_key d), ev (d_pay d))).

Definition er (r : key * val) : list N * list N := (ek (fst r), ev (snd r)).
Definition encl (lm : bool) (rs : list (key * val)) : list (list N * list N) :=
  match rs with
  | (k, v) :: t => (if lm then kb0 else ek k, ev v) :: map er t
  | [] => []
  end.
Definition fill (st : P * N) (bs : list (list N * list N)) : P * N := fold_left copy bs st.

Lemma fill_snoc st bs r : fill st (bs ++ [r]) = copy (fill st bs) r.
Proof. unfold fill. rewrite fold_left_app. reflexivity. Qed.
Lemma encl_snoc lm rs r : (lm = true -> rs <> []) -> encl lm (rs ++ [r]) = encl lm rs ++ [er r].
Proof.
  destruct rs as [|[k v] t]; intros H; cbn.
  - destruct lm; [exfalso; apply H; auto|]. destruct r; reflexivity.
  - rewrite map_app. reflexivity.
Qed.
Lemma encl_false rs : encl false rs = map er rs.
Proof. destruct rs as [|[k v] t]; reflexivity. Qed.

Variables (p0 p1 : P) (off0 : N).
Hypothesis S0 : Z.of_N (o_size W p0) = c_hdr g.
Hypothesis S1 : Z.of_N (o_size W p1) = c_hdr g.

(** [lm]: the first record carries [kb0] instead of a key. *)
Definition sim (lm : bool) (s : cstate) (b : bst P) : Prop :=
  b_pend b = (if cs_pend s then Some p1 else None) /\
  Z.of_N (o_size W (b_cur b)) = cs_size s /\
  match cs_left s, b_left b with
  | None, None => (b_cur b, b_off b) = fill (p0, off0) (encl lm (cs_cur s))
  | Some (lrs, lsz), Some l =>
      cs_pend s = false /\ lrs <> [] /\ l = fst (fill (p0, off0) (encl lm lrs)) /\ Z.of_N (o_size W l) = lsz /\
      (b_cur b, b_off b) = fill (p1, page) (map er (cs_cur s))
  | _, _ => False
  end.
(** Something has been copied. *)
Definition started (s : cstate) : Prop := cs_left s <> None \/ cs_cur s <> [].

Lemma copy_started sz r s : started (copy_rec g sz r s).
Proof.
  unfold copy_rec, started. destruct (cs_pend s && _); cbn; [left; discriminate|right].
  destruct (cs_cur s); discriminate.
Qed.

Lemma put_sim lm s b r br sz : sim lm s b -> (lm = true -> started s) ->
  br = er r -> Z.of_N (rsz br) = sz ->
  sim lm (copy_rec g sz r s) (b_put W page hdr (b_left b) (b_pend b) (copy (b_cur b, b_off b) br)).
Proof.
  intros (Hp & Hs & Hm) Hst -> Er. unfold b_put, copy_rec.
  pose proof (Hsz (b_cur b, b_off b) (er r)) as HS. cbn [fst] in HS.
  destruct (copy (b_cur b, b_off b) (er r)) as [q o] eqn:Ec. cbn [fst] in HS.
  assert (HQ : Z.of_N (o_size W q) = cs_size s + sz) by lia.
  assert (HT : ((page - hdr) / 2 <? o_size W q)%N = ((c_page g - c_hdr g) / 2 <? cs_size s + sz)).
  { rewrite <- HQ, <- Hpage, <- Hhdr. rewrite <- N2Z.inj_sub by lia. change 2 with (Z.of_N 2).
    rewrite <- N2Z.inj_div. lia. }
  destruct (cs_left s) as [[lrs lsz]|] eqn:El, (b_left b) as [l|] eqn:Ebl; try contradiction.
  - destruct Hm as (M1 & M2 & M3 & M4 & M5). rewrite M1 in *. rewrite Hp. cbn [andb].
    split; [reflexivity|]. split; [exact HQ|]. cbn [cs_left b_left cs_pend cs_cur b_cur b_off].
    split; [reflexivity|]. split; [auto|]. split; [auto|]. split; [auto|].
    rewrite map_app. cbn [map]. rewrite fill_snoc, <- M5. auto.
  - assert (Hq : (q, o) = fill (p0, off0) (encl lm (cs_cur s ++ [r]))).
    { rewrite encl_snoc, fill_snoc, <- Hm; auto. intros Hl. destruct (Hst Hl); congruence. }
    rewrite Hp. destruct (cs_pend s) eqn:Ep; cbn [andb].
    + rewrite HT. destruct ((c_page g - c_hdr g) / 2 <? cs_size s + sz).
      * split; [reflexivity|]. split; [cbn; exact S1|]. cbn [cs_left b_left cs_pend cs_cur b_cur b_off].
        split; [reflexivity|]. split; [destruct (cs_cur s); discriminate|]. rewrite <- Hq. cbn [fst map].
        split; [auto|]. split; [auto|]. reflexivity.
      * split; [reflexivity|]. split; [exact HQ|]. cbn [cs_left b_left cs_pend cs_cur b_cur b_off]. auto.
    + split; [reflexivity|]. split; [exact HQ|]. cbn [cs_left b_left cs_pend cs_cur b_cur b_off]. auto.
Qed.

(** The key-less record comes first. *)
Lemma put_first s b v k : sim true s b -> cs_left s = None -> cs_cur s = [] -> inner = true ->
  sim true (copy_rec g (nullsz g) (k, v) s)
    (b_put W page hdr (b_left b) (b_pend b) (copy (b_cur b, b_off b) (kb0, ev v))).
Proof.
  intros (Hp & Hs & Hm) El Ec Hi. unfold b_put, copy_rec. rewrite El, Ec in *. cbn [app].
  pose proof (Hsz (b_cur b, b_off b) (kb0, ev v)) as HS. cbn [fst] in HS.
  destruct (copy (b_cur b, b_off b) (kb0, ev v)) as [q o] eqn:Eq. cbn [fst] in HS.
  pose proof (Hnull Hi v) as HN.
  assert (HQ : Z.of_N (o_size W q) = cs_size s + nullsz g) by lia.
  assert (HT : ((page - hdr) / 2 <? o_size W q)%N = ((c_page g - c_hdr g) / 2 <? cs_size s + nullsz g)).
  { rewrite <- HQ, <- Hpage, <- Hhdr. rewrite <- N2Z.inj_sub by lia. change 2 with (Z.of_N 2).
    rewrite <- N2Z.inj_div. lia. }
  destruct (b_left b) eqn:Ebl; [contradiction|]. cbn [encl] in Hm.
  assert (Hq : (q, o) = fill (p0, off0) (encl true [(k, v)])).
  { cbn [encl map]. change [(kb0, ev v)] with ([] ++ [(kb0, ev v)]). rewrite fill_snoc.
    change (fill (p0, off0) []) with (p0, off0) in *. rewrite <- Hm. auto. }
  rewrite Hp. destruct (cs_pend s) eqn:Ep; cbn [andb].
  - rewrite HT. destruct ((c_page g - c_hdr g) / 2 <? cs_size s + nullsz g).
    + split; [reflexivity|]. split; [cbn; exact S1|]. cbn [cs_left b_left cs_pend cs_cur b_cur b_off].
      split; [reflexivity|]. split; [discriminate|]. rewrite <- Hq. cbn [fst map].
      split; [auto|]. split; [auto|]. reflexivity.
    + split; [reflexivity|]. split; [exact HQ|]. cbn [cs_left b_left cs_pend cs_cur b_cur b_off]. auto.
  - split; [reflexivity|]. split; [exact HQ|]. cbn [cs_left b_left cs_pend cs_cur b_cur b_off]. auto.
Qed.

Let ps := paysz g inner.

Lemma delta_started d s : started s -> started (copy_delta g ps d s).
Proof. intros H. unfold copy_delta. destruct (d_type d); auto; apply copy_started. Qed.

Lemma delta_sim lm d bd s b : drep d bd -> sim lm s b -> (lm = true -> started s) ->
  sim lm (copy_delta g ps d s) (b_delta W page hdr bd b).
Proof.
  intros (D0 & D1 & D2 & D3) Hs Hst. unfold copy_delta, b_delta. rewrite D2.
  destruct (d_type d); auto; rewrite D3 by congruence; apply put_sim; auto; apply Hrec.
Qed.

Lemma flush_sim lm k : K k -> forall ds bds s b, Forall2 drep ds bds -> sim lm s b -> (lm = true -> started s) ->
  let '(ds1, s1) := flush_below g ps k ds s in
  let '(bds1, b1) := b_flush W lt page hdr (ek k) bds b in
  Forall2 drep ds1 bds1 /\ sim lm s1 b1 /\ (lm = true -> started s1).
Proof.
  intros HKk. induction ds as [|d t IH]; intros bds s b F Hs Hst; inversion F as [|? bd ? bt Fd Ft]; subst; cbn [flush_below b_flush].
  - auto.
  - destruct Fd as (D0 & D1 & D2 & D3). rewrite D1, Hlt by auto. destruct (d_key d <? k).
    + apply IH; auto; [apply delta_sim; auto; repeat split; auto|]. intros Hl. apply delta_started. auto.
    + split; [constructor; auto; repeat split; auto|]. auto.
Qed.

Lemma recs_sim lm n p : srep n p -> forall rs i ds bds s b,
  (forall j k v, nth_error rs j = Some (k, v) -> nth_error (n_recs n) (i + j) = Some (k, v) /\ nokey inner n (i + j) = false) ->
  Forall2 drep ds bds -> sim lm s b -> (lm = true -> started s) ->
  let '(ds1, s1) := merge_recs g ps rs ds s in
  let '(bds1, b1) := b_recs W lt page hdr (length rs) p (N.of_nat i) bds b in
  Forall2 drep ds1 bds1 /\ sim lm s1 b1 /\ (lm = true -> started s1).
Proof.
  intros (_ & _ & Hn). induction rs as [|[k v] rt IH]; intros i ds bds s b Hr F Hs Hst; cbn [merge_recs b_recs length].
  - auto.
  - destruct (Hr 0%nat k v eq_refl) as [H0 H1]. rewrite Nat.add_0_r in *.
    specialize (Hn i k v H0). rewrite H1 in Hn. destruct Hn as (HKk & Hk & Hc). rewrite Hk.
    assert (Hr' : forall j k v, nth_error rt j = Some (k, v) ->
      nth_error (n_recs n) (S i + j) = Some (k, v) /\ nokey inner n (S i + j) = false).
    { intros j k' v' Hj. specialize (Hr (S j) k' v' Hj). replace (S i + j)%nat with (i + S j)%nat by lia. auto. }
    replace (N.of_nat i + 1)%N with (N.of_nat (S i)) by lia.
    pose proof (flush_sim lm k HKk ds bds s b F Hs Hst) as FS.
    destruct (flush_below g ps k ds s) as [ds1 s1]. destruct (b_flush W lt page hdr (ek k) bds b) as [bds1 b1].
    destruct FS as (F1 & Hs1 & Hst1).
    assert (HP : sim lm (copy_rec g (recsz g ps k) (k, v) s1) (b_page W page hdr p (N.of_nat i) b1)).
    { unfold b_page. rewrite Hc. apply put_sim; auto. }
    pose proof F1 as F1'. inversion F1 as [|d bd dt bdt Fd Ft]; subst.
    + apply IH; auto. intros _. apply copy_started.
    + pose proof Fd as (D0 & D1 & _ & _). rewrite D1, Hlt by auto. destruct (negb (k <? d_key d)).
      * apply IH; auto; [apply delta_sim; auto|]. intros Hl. apply delta_started; auto.
      * apply IH; auto. intros _. apply copy_started.
Qed.

Lemma node_sim lm n p ds bds s b : srep n p -> n_inner n = inner -> Forall2 drep ds bds -> sim lm s b ->
  (inner && is_leftmost n = true -> n_recs n <> [] /\ cs_left s = None /\ cs_cur s = [] /\ lm = true) ->
  (inner && is_leftmost n = false -> lm = true -> started s) ->
  let '(ds1, s1) := merge_node g ps n ds s in
  let '(bds1, b1) := b_node W lt page hdr inner p bds b in
  Forall2 drep ds1 bds1 /\ sim lm s1 b1 /\ (lm = true -> started s1).
Proof.
  intros Hn Hi F Hs Hl Hst. unfold merge_node, b_node. pose proof Hn as (C1 & C2 & C3). rewrite C1, Nat2N.id, Hi.
  destruct (inner && is_leftmost n) eqn:E.
  - destruct (Hl eq_refl) as (L1 & L2 & L3 & ->). apply andb_true_iff in E as [E1 E2].
    rewrite C2, E2, E1 by auto. cbn [andb]. destruct (n_recs n) as [|[k v] rt] eqn:Er; [congruence|].
    cbn [length]. replace (S (length rt) - 1)%nat with (length rt) by lia.
    change 1%N with (N.of_nat 1). apply (recs_sim true n p Hn); auto.
    + intros j k' v' Hj. rewrite Er. split; [exact Hj|]. unfold nokey. cbn. rewrite andb_false_r. auto.
    + unfold b_page. specialize (C3 0%nat k v eq_refl). unfold nokey in C3. rewrite E1, E2 in C3. cbn [andb Nat.eqb] in C3.
      change 0%N with (N.of_nat 0). rewrite C3. apply put_first; auto.
    + intros _. apply copy_started.
  - assert (EO : inner && o_lm W p = false).
    { destruct inner; auto. cbn in *. rewrite C2; auto. }
    rewrite EO. change 0%N with (N.of_nat 0). apply (recs_sim lm n p Hn); auto.
    intros j k v Hj. split; auto. unfold nokey. rewrite E. reflexivity.
Qed.

Lemma rest_sim lm : forall ds bds s b, Forall2 drep ds bds -> sim lm s b -> (lm = true -> started s) ->
  sim lm (fold_left (fun s d => copy_delta g ps d s) ds s) (fold_left (fun b d => b_delta W page hdr d b) bds b).
Proof.
  induction ds as [|d t IH]; intros bds s b F Hs Hst; inversion F as [|? bd ? bt Fd Ft]; subst; cbn [fold_left]; auto.
  apply IH; auto; [apply delta_sim; auto|]. intros Hl. apply delta_started; auto.
Qed.

Lemma nodes_sim lm : forall ns bps ds bds s b, Forall2 srep ns bps -> Forall (fun n => n_inner n = inner) ns ->
  Forall (fun n => inner && is_leftmost n = false) ns ->
  Forall2 drep ds bds -> sim lm s b -> (lm = true -> started s) ->
  sim lm (merge_nodes g ps ns ds s) (b_nodes W lt page hdr inner bps bds b).
Proof.
  induction ns as [|n t IH]; intros bps ds bds s b F Fi Fl Fd Hs Hst; inversion F as [|? p ? pt Fp Fpt]; subst;
    cbn [merge_nodes b_nodes].
  - apply rest_sim; auto.
  - inversion Fi; inversion Fl; subst. pose proof (node_sim lm n p ds bds s b Fp ltac:(auto) Fd Hs) as NS.
    destruct (merge_node g ps n ds s) as [ds1 s1]. destruct (b_node W lt page hdr inner p bds b) as [bds1 b1].
    destruct NS as (N1 & N2 & N3); [congruence|auto|]. apply IH; auto.
Qed.

(** The first page may be leftmost. *)
Lemma all_sim n ns p bps ds bds (split : bool) : Forall2 srep (n :: ns) (p :: bps) ->
  Forall (fun n => n_inner n = inner) (n :: ns) -> Forall (fun n => inner && is_leftmost n = false) ns ->
  (inner && is_leftmost n = true -> n_recs n <> []) -> Forall2 drep ds bds ->
  sim (inner && is_leftmost n) (merge_nodes g ps (n :: ns) ds (mk_cs None [] (c_hdr g) split))
    (b_nodes W lt page hdr inner (p :: bps) bds (mk_bst None p0 off0 (if split then Some p1 else None))).
Proof.
  intros F Fi Fl Hne Fd. inversion F as [|? ? ? ? Fp Fpt]; subst. inversion Fi; subst. cbn [merge_nodes b_nodes].
  set (s := mk_cs None [] (c_hdr g) split). set (b := mk_bst None p0 off0 (if split then Some p1 else None)).
  assert (HS : sim (inner && is_leftmost n) s b).
  { split; [reflexivity|]. split; [cbn; exact S0|]. reflexivity. }
  pose proof (node_sim (inner && is_leftmost n) n p ds bds s b Fp ltac:(auto) Fd HS) as NS.
  destruct (merge_node g ps n ds s) as [ds1 s1]. destruct (b_node W lt page hdr inner p bds b) as [bds1 b1].
  destruct NS as (N1 & N2 & N3); [auto|congruence|]. apply nodes_sim; auto.
Qed.

(** Sort *)
Variables (np : node -> P -> Prop) (dp : delta -> D -> Prop).
Hypothesis Hdp : forall d b, dp d b -> K (d_key d) /\ o_dkey W b = ek (d_key d).

Lemma add_sim d bd : dp d bd -> forall arr barr, Forall2 dp arr barr ->
  Forall2 dp (add_sorted d arr) (b_add W lt bd barr).
Proof.
  intros Hd. destruct (Hdp _ _ Hd) as [D0 D1]. induction arr as [|x t IH]; intros barr F; inversion F as [|? y ? bt Fx Ft]; subst;
    cbn [add_sorted b_add]; auto.
  destruct (Hdp _ _ Fx) as [X0 X1]. rewrite D1, X1, !Hlt by auto. destruct (d_key x <? d_key d); auto. destruct (d_key d <? d_key x); auto.
Qed.

Lemma sort_sim : forall c b arr barr ns bps ds ns', chain_rep np dp c b ->
  Forall2 dp arr barr -> Forall2 np ns bps -> dc_sort c arr ns = Some (ds, ns') ->
  let '(bds, bps') := b_sort W lt b barr bps in Forall2 dp ds bds /\ Forall2 np ns' bps'.
Proof.
  induction c as [n|d nx IH|d n nx IH|a l]; intros b arr barr ns bps ds ns' Hc Fa Fn Hs; destruct b as [p|bd bx|bd p bx];
    cbn [chain_rep] in Hc; try contradiction; cbn [dc_sort b_sort] in *.
  - injection Hs as <- <-. split; auto. apply Forall2_app; auto.
  - destruct Hc as [Hd Hx]. apply (IH bx (add_sorted d arr) _ ns _ ds ns'); auto. apply add_sim; auto.
  - destruct Hc as [Hd Hx]. apply (IH bx arr _ (ns ++ [n]) _ ds ns'); auto. apply Forall2_app; auto.
Qed.
End Gen.

Lemma Forall2_last {A B} (R : A -> B -> Prop) l l' d d' : Forall2 R l l' -> l <> [] -> R (last l d) (last l' d').
Proof.
  induction 1 as [|a b l l' H F IH]; intros Hne; [congruence|]. inversion F; subst; [exact H|].
  change (last (a :: x :: l0) d) with (last (x :: l0) d). change (last (b :: y :: l'0) d') with (last (y :: l'0) d').
  apply IH. discriminate.
Qed.
Lemma Forall2_rev {A B} (R : A -> B -> Prop) l l' : Forall2 R l l' -> Forall2 R (rev l) (rev l').
Proof. induction 1; cbn; auto. apply Forall2_app; auto. Qed.
Lemma rev_cons_last {A} (l : list A) d : l <> [] -> rev l = last l d :: rev (removelast l).
Proof. intros H. rewrite (app_removelast_last d H) at 1. rewrite rev_app_distr. reflexivity. Qed.

(** ** Variable-length pages *)
(** Without a page to split into, nothing is moved to a left page. *)
Lemma no_left g ps l ds sz : cs_left (merge_nodes g ps l ds (mk_cs None [] sz false)) = None.
Proof.
  set (Q := fun s => cs_pend s = false /\ cs_left s = None).
  assert (HCR : forall z r s, Q s -> Q (copy_rec g z r s)).
  { intros z r s [A1 A2]. unfold copy_rec. rewrite A1. cbn. split; auto. }
  assert (HCD : forall d s, Q s -> Q (copy_delta g ps d s)).
  { intros d s H. unfold copy_delta. destruct (d_type d); auto. }
  assert (HFB : forall k l s, Q s -> Q (snd (flush_below g ps k l s))).
  { intros k. induction l0 as [|d t IH]; intros s H; cbn; auto. destruct (d_key d <? k); auto. }
  assert (HMR : forall rs l s, Q s -> Q (snd (merge_recs g ps rs l s))).
  { induction rs as [|[k v] rt IH]; intros l0 s H; cbn [merge_recs]; auto.
    pose proof (HFB k l0 s H) as HF. destruct (flush_below g ps k l0 s) as [l1 s1]. cbn [snd] in HF.
    destruct l1 as [|d dt]; [apply IH; auto|]. destruct (negb (k <? d_key d)); apply IH; auto. }
  assert (HM : forall l ds s, Q s -> Q (merge_nodes g ps l ds s)).
  { induction l0 as [|x l0 IH]; intros ds0 s H; cbn [merge_nodes].
    - revert s H. induction ds0 as [|d t IHd]; intros s H; cbn [fold_left]; auto.
    - assert (HMN : Q (snd (merge_node g ps x ds0 s))).
      { unfold merge_node. destruct (n_inner x && is_leftmost x); [|apply HMR; auto].
        destruct (n_recs x); [cbn; auto|]. apply HMR. auto. }
      destruct (merge_node g ps x ds0 s) as [d1 s1]. apply IH. exact HMN. }
  apply HM. split; reflexivity.
Qed.

(** Keys and representations together. *)
Lemma rep_keys {P D} K inner (np : node -> P -> Prop) (dp : delta -> D -> Prop) : forall c b,
  chain_rep np dp c b -> chain_keys K inner c ->
  chain_rep (fun n p => page_keys K inner n /\ np n p) (fun d b => K (d_key d) /\ dp d b) c b.
Proof.
  induction c as [n|d nx IH|d n nx IH|a l]; intros b Hc Hk; destruct b as [p|bd bx|bd p bx];
    cbn [chain_rep chain_keys] in *; try contradiction; tauto || (split; [tauto|]; apply IH; tauto).
Qed.

Section Var.
Variable g : cfg.
Variable inner : bool.
Variable K : Z -> Prop.
Variable lt : list N -> list N -> bool.
Variables (ek : Z -> list N) (ev : N -> list N).
Variable page : N.
Hypothesis HC : coding g inner K lt ek ev.
Hypothesis HV : c_varlen g = true.
Hypothesis Hpage : Z.of_N page = c_page g.
Hypothesis Hhdr : c_hdr g = 32.
Hypothesis Hpos : forall k, 0 < klen g k.

Definition vrsz (r : list N * list N) : N := (8 + (blen (fst r) + blen (snd r)))%N.

Lemma raw_copy st m x n : mt_rlen x = (mt_klen x + n)%N ->
  var_copy_raw st m x = var_copy st (key_of m x, pay_of m x n).
Proof.
  intros H. destruct st as [p o]. unfold var_copy_raw, var_copy.
  assert (E1 : blen (key_of m x) = mt_klen x) by apply rd_len.
  assert (E2 : blen (pay_of m x n) = n) by apply rd_len.
  rewrite E1, E2, H, rd_app. reflexivity.
Qed.

Lemma var_sz st r : vp_size (fst (var_copy st r)) = (vp_size (fst st) + vrsz r)%N.
Proof. clear. destruct st as [p o], r as [k v]. cbn. unfold vrsz. cbn. lia. Qed.

Lemma fill_sz page' m o : forall bs, vp_size (fst (var_fill (var_new page' m) o bs)) =
  (32 + 8 * N.of_nat (length bs) + rsum bs)%N.
Proof.
  clear. induction bs as [|r bs IH] using rev_ind; [reflexivity|].
  rewrite var_fill_snoc, var_sz, IH, app_length, rsum_app. unfold vrsz. cbn [rsum length]. unfold rec_bytes. lia.
Qed.

Lemma fence_len k : Z.of_N (blen (fence ek k)) = okl g k.
Proof. destruct HC as (_ & H & _). unfold okl. rewrite HV. destruct k; cbn [fence]; auto. Qed.
Lemma fence_nil k : fence ek (Some k) <> [].
Proof.
  destruct HC as (_ & H & _). cbn. intros E. specialize (H k). specialize (Hpos k). rewrite E in H. cbn in H. lia.
Qed.

Lemma var_nrep n p : n_inner n = inner -> page_keys K inner n -> vnode_rep ek ev inner n p -> srep (var_ops page inner) inner ek ev var_copy [] K n p.
Proof.
  intros _ HK (A & B & C & E & F). split; [exact A|]. split.
  - intros _. cbn. assert (El : mt_klen (vp_low p) = blen (fence ek (n_low n))) by (rewrite <- E; symmetry; apply rd_len).
    rewrite El. unfold is_leftmost. destruct (n_low n) as [k|] eqn:Ek; [|reflexivity].
    pose proof (fence_nil k). destruct (fence ek (Some k)); [congruence|]. unfold blen. cbn. reflexivity.
  - intros i k v Hi. destruct (C i k v Hi) as (C1 & C2 & C3).
    assert (HH : forall st, o_cpage (var_ops page inner) st p (N.of_nat i) =
      var_copy st (if nokey inner n i then [] else ek k, ev v)).
    { intros st. cbn. rewrite (raw_copy st _ _ _ C3). unfold var_key in C1. unfold var_pay in C2. rewrite C1, C2. reflexivity. }
    pose proof (HK i k v Hi) as HKi. destruct (nokey inner n i); [exact HH|]. split; [auto|]. split; [exact C1|exact HH].
Qed.

Lemma var_drep d b : K (d_key d) -> vdelta_rep ek ev d b -> drep (var_ops page inner) ek ev var_copy K d b.
Proof.
  intros HK (A & B & C). split; [exact HK|]. split; [exact A|]. split; [exact B|]. intros H st. destruct (C H) as [C1 C2]. cbn.
  rewrite (raw_copy st _ _ _ C2). unfold vard_key in A. unfold vard_pay in C1. rewrite A, C1. reflexivity.
Qed.

(** A page filled with encoded records. *)
Lemma encl_nth lm rs i k v : nth_error rs i = Some (k, v) ->
  nth_error (encl ek ev [] lm rs) i = Some (if lm && Nat.eqb i 0 then [] else ek k, ev v).
Proof.
  destruct rs as [|[k0 v0] t]; [destruct i; discriminate|]. destruct i as [|i]; cbn.
  - intros H. injection H as -> ->. rewrite andb_true_r. reflexivity.
  - intros H. rewrite andb_false_r. rewrite (map_nth_error _ _ _ H). reflexivity.
Qed.
Lemma encl_len lm rs : length (encl ek ev [] lm rs) = length rs.
Proof. destruct rs as [|[k v] t]; cbn; auto. rewrite map_length. auto. Qed.

Lemma recs_rep p o lm rs : recs_at (vp_mem p) o (encl ek ev [] lm rs) -> forall i k v, nth_error rs i = Some (k, v) ->
  var_key p (N.of_nat i) = (if lm && Nat.eqb i 0 then [] else ek k) /\
  var_pay p (blen (ev v)) (N.of_nat i) = ev v /\
  mt_rlen (meta_at p (N.of_nat i)) = (mt_klen (meta_at p (N.of_nat i)) + blen (ev v))%N.
Proof.
  intros R i k v Hi. apply (encl_nth lm) in Hi. destruct (recs_read p o _ R i _ _ Hi) as [A B].
  destruct (R i _ _ Hi) as (E & _ & _). split; [auto|]. split; [auto|].
  change (meta_at p (N.of_nat i)) with (meta_read (vp_mem p) (var_hdr + 8 * N.of_nat i)). rewrite E. reflexivity.
Qed.

Lemma fin_leaf m o rs low high a nx sz : inner = false -> (o < 65536)%N -> (page <= o)%N ->
  let bs := encl ek ev [] false rs in
  Z.of_N (vp_size (fst (var_fill (var_new page m) o bs))) + okl g low + okl g high <= Z.of_N o ->
  32 + okl g low + okl g high <= Z.of_N page ->
  sz = Z.of_N (vp_size (fst (var_fill (var_new page m) o bs))) + okl g low + okl g high ->
  vnode_rep ek ev inner (mk_node a inner low high nx rs sz)
    (var_high (var_low_leaf (fst (var_fill (var_new page m) o bs)) (fence ek low)) (fence ek high)) /\
  (forall b, (b < 32 \/ o <= b)%N -> vp_mem (var_high (var_low_leaf (fst (var_fill (var_new page m) o bs)) (fence ek low)) (fence ek high)) b = m b).
Proof.
  intros Hi Ho Hpo bs H1 H2 ->. pose proof (fence_len low) as Fl. pose proof (fence_len high) as Fh.
  rewrite !(fill_sz page m o bs) in *.
  destruct (var_leaf_ok page m o bs (fence ek low) (fence ek high) Ho Hpo) as (A & B & R & K1 & K2 & _ & _ & U);
    [unfold var_hdr; lia|unfold var_hdr; lia|]. split; [|exact U].
  unfold vnode_rep. cbn [n_recs n_size n_low n_high]. rewrite A, B. unfold bs. rewrite encl_len. unfold var_hdr.
  split; [reflexivity|]. split; [lia|]. split; [|auto].
  intros i k v Hn. unfold nokey. rewrite Hi. cbn [andb]. apply (recs_rep _ o false rs R i k v Hn).
Qed.

Lemma fin_inner (lm : bool) m o (rs : list (key * val)) low high a nx sz : inner = true -> (o < 65536)%N -> rs <> [] ->
  low = (if lm then None else match rs with (k, _) :: _ => Some k | [] => None end) ->
  let bs := encl ek ev [] lm rs in
  Z.of_N (vp_size (fst (var_fill (var_new page m) o bs))) + okl g high <= Z.of_N o ->
  sz = Z.of_N (vp_size (fst (var_fill (var_new page m) o bs))) + okl g high ->
  vnode_rep ek ev inner (mk_node a inner low high nx rs sz)
    (var_high (var_low_inner (fst (var_fill (var_new page m) o bs))) (fence ek high)) /\
  (forall b, (b < 32 \/ o <= b)%N -> vp_mem (var_high (var_low_inner (fst (var_fill (var_new page m) o bs))) (fence ek high)) b = m b).
Proof.
  intros Hi Ho Hne Hlow bs H1 ->. pose proof (fence_len high) as Fh.
  rewrite !(fill_sz page m o bs) in *. destruct rs as [|[k0 v0] t]; [congruence|].
  unfold bs in *. cbn [encl] in *. set (kb := if lm then [] else ek k0) in *.
  destruct (var_inner_ok page m o kb (ev v0) (map (er ek ev) t) (fence ek high) Ho) as (A & B & R & K1 & K2 & _ & _ & U).
  { unfold var_hdr. cbn [length] in *. lia. }
  split; [|exact U].
  change ((kb, ev v0) :: map (er ek ev) t) with (encl ek ev [] lm ((k0, v0) :: t)) in *.
  unfold vnode_rep. cbn [n_recs n_size n_low n_high]. rewrite A, B. rewrite map_length. unfold var_hdr.
  split; [reflexivity|]. split; [rewrite encl_len in *; cbn [length] in *; lia|]. split.
  - intros i k v Hn. unfold nokey, is_leftmost. cbn [n_low]. rewrite Hi. cbn [andb].
    replace (match low with Some _ => false | None => true end) with lm by (subst low; destruct lm; reflexivity).
    apply (recs_rep _ o lm _ R i k v Hn).
  - split; [|auto]. rewrite K1. subst low kb. destruct lm; reflexivity.
Qed.

Lemma fin_page m o base (rs : list (key * val)) low add high a nx :
  low_of g inner base rs = (low, add) -> (inner = true -> rs <> []) -> (o < 65536)%N -> (page <= o)%N ->
  let F := fst (var_fill (var_new page m) o (encl ek ev [] (inner && is_leftmost base) rs)) in
  Z.of_N (vp_size F) + add + okl g high <= Z.of_N o ->
  32 + okl g low + okl g high <= Z.of_N page ->
  vnode_rep ek ev inner (mk_node a inner low high nx rs (Z.of_N (vp_size F) + add + okl g high))
    (var_high (if inner then var_low_inner F else var_low_leaf F (fence ek (n_low base))) (fence ek high)) /\
  (forall b, (b < 32 \/ o <= b)%N -> vp_mem (var_high (if inner then var_low_inner F else var_low_leaf F (fence ek (n_low base))) (fence ek high)) b = m b).
Proof.
  intros EL Hne Ho Hpo F H1 H2. assert (Hi : inner = true \/ inner = false) by (destruct inner; auto).
  unfold low_of in EL. rewrite HV in EL. cbn [andb] in EL. subst F.
  assert (L1 : inner = true -> inner && is_leftmost base = is_leftmost base) by (intros ->; reflexivity).
  assert (L2 : inner = false -> inner && is_leftmost base = false) by (intros ->; reflexivity).
  set (lmb := inner && is_leftmost base) in *. clearbody lmb.
  set (F := fst (var_fill (var_new page m) o (encl ek ev [] lmb rs))) in *.
  set (A := var_low_inner F). set (B := var_low_leaf F (fence ek (n_low base))).
  destruct Hi as [Hi|Hi].
  - assert (E : (if inner then A else B) = A) by (rewrite Hi; reflexivity). rewrite E.
    rewrite Hi in EL. injection EL as E1 E2. subst add A F.
    apply fin_inner; auto; try lia. rewrite (L1 Hi). auto.
  - assert (E : (if inner then A else B) = B) by (rewrite Hi; reflexivity). rewrite E.
    rewrite Hi in EL. injection EL as E1 E2. subst add B F low. rewrite (L2 Hi) in *.
    apply fin_leaf; auto; lia.
Qed.

Definition pages_ok (ns : list node) : Prop :=
  ns <> [] /\ Forall (fun n => n_inner n = inner) ns /\
  Forall (fun n => inner && is_leftmost n = false) (removelast ns) /\
  (inner && is_leftmost (last ns (dummy_node inner)) = true -> n_recs (last ns (dummy_node inner)) <> []).

Lemma var_core c b ds ns (split : bool) o m1 m2 : chain_rep (vnode_rep ek ev inner) (vdelta_rep ek ev) c b -> chain_keys K inner c ->
  dc_sort c [] [] = Some (ds, ns) -> pages_ok ns -> 32 <= c_page g ->
  let W := var_ops page inner in
  let base := last ns (dummy_node inner) in
  let '(bds, bps) := b_sort W lt b [] [] in
  sim W ek ev var_copy [] page (var_new page m1) (var_new page m2) o (inner && is_leftmost base)
    (merge_nodes g (paysz g inner) (rev ns) ds (mk_cs None [] (c_hdr g) split))
    (b_nodes W lt page var_hdr inner (rev bps) bds (mk_bst None (var_new page m1) o (if split then Some (var_new page m2) else None))) /\
  vnode_rep ek ev inner base (last bps (var_new page m1)) /\
  vnode_rep ek ev inner (hd (dummy_node inner) ns) (hd (var_new page m1) bps).
Proof.
  intros Hc Hkc Hs (P1 & P2 & P3 & P4) Hpg. pose proof HC as (C1 & C2 & C3). cbn zeta.
  pose proof (sort_sim (var_ops page inner) lt ek K C1 (fun n p => page_keys K inner n /\ vnode_rep ek ev inner n p)
    (fun d b => K (d_key d) /\ vdelta_rep ek ev d b)
    (fun d b H => conj (proj1 H) (proj1 (proj2 H))) c b [] [] [] [] ds ns (rep_keys K inner _ _ c b Hc Hkc) (Forall2_nil _) (Forall2_nil _) Hs) as HS.
  destruct (b_sort (var_ops page inner) lt b [] []) as [bds bps]. destruct HS as [Fd Fnk].
  assert (Fn : Forall2 (vnode_rep ek ev inner) ns bps).
  { clear - Fnk. induction Fnk; constructor; tauto. }
  assert (Hl : vnode_rep ek ev inner (last ns (dummy_node inner)) (last bps (var_new page m1))) by (apply Forall2_last; auto).
  split; [|split; [exact Hl|]].
  2:{ inversion Fn; subst; [congruence|assumption]. }
  set (base := last ns (dummy_node inner)) in *.
  assert (Er : rev ns = base :: rev (removelast ns)) by (apply rev_cons_last; auto).
  assert (Hb : bps <> []) by (intros ->; inversion Fn; congruence).
  assert (Eb : rev bps = last bps (var_new page m1) :: rev (removelast bps)) by (apply rev_cons_last; auto).
  rewrite Er, Eb.
  apply (all_sim (var_ops page inner) g inner lt ek ev var_copy vrsz [] page var_hdr K); auto.
  - intros st r. apply var_sz.
  - intros k v. unfold vrsz, recsz, metalen. rewrite HV. cbn [fst snd]. specialize (C2 k). specialize (C3 v). lia.
  - intros Hi v. unfold vrsz, nullsz, metalen. rewrite HV. cbn [fst snd]. specialize (C3 v). rewrite Hi in C3.
    cbn [paysz] in C3. unfold ptrlen in *. change (blen []) with 0%N. lia.
  - unfold var_hdr. lia.
  - rewrite <- Er, <- Eb. apply Forall2_rev. clear - Fnk P2 HC Hpos. induction Fnk as [|x y l l' [F1 F2] F IH]; constructor.
    + apply var_nrep; auto. exact (Forall_inv P2).
    + apply IH. exact (Forall_inv_tail P2).
  - rewrite <- Er. apply Forall_rev. exact P2.
  - apply Forall_rev. exact P3.
  - clear - Fd HC. induction Fd as [|x y l l' [F1 F2] F IH]; constructor; auto. eapply var_drep; eauto.
Qed.

Lemma var_one c b ds ns n a ra m1 m2 size (scan : bool) :
  chain_rep (vnode_rep ek ev inner) (vdelta_rep ek ev) c b -> chain_keys K inner c ->
  dc_sort c [] [] = Some (ds, ns) -> pages_ok ns ->
  consolidate g inner a ra ns ds false scan = COne n -> (inner = true -> n_recs n <> []) ->
  scan_bytes g inner ns ds <= (if scan then 2 * c_page g else c_page g) ->
  32 + okl g (n_low n) + okl g (n_high n) <= c_page g -> (page * 2 < 65536)%N ->
  (scan = true \/ (size <= page)%N) ->
  exists p, var_try page inner lt m1 m2 b size scan = BOne p /\ vnode_rep ek ev inner n p /\
    (forall x, (x < 32 \/ (if scan then page * 2 else page) <= x)%N -> vp_mem p x = m1 x).
Proof.
  intros Hc Hkc Hs HP Hcons Hne Hfit Hf2 H16 Hsp.
  assert (Hpg : 32 <= c_page g).
  { assert (forall k, 0 <= okl g k).
    { intros [k|]; unfold okl; rewrite HV; [specialize (Hpos k)|]; lia. }
    pose proof (H (n_low n)). pose proof (H (n_high n)). lia. }
  unfold var_try, b_try. set (o := (if scan then page * 2 else page)%N).
  pose proof (var_core c b ds ns false o m1 m2 Hc Hkc Hs HP Hpg) as CO. cbn zeta in CO.
  destruct (b_sort (var_ops page inner) lt b [] []) as [bds bps]. destruct CO as ((_ & S2 & S3) & Rb & Rf).
  replace (negb scan && (page <? size)%N) with false by (destruct scan; cbn; lia).
  unfold b_consolidate. fold o. set (B := b_nodes _ _ _ _ _ _ _ _) in *.
  unfold consolidate in Hcons. unfold scan_bytes in Hfit.
  set (s := merge_nodes g (paysz g inner) (rev ns) ds (mk_cs None [] (c_hdr g) false)) in *.
  set (base := last ns (dummy_node inner)) in *. set (front := hd (dummy_node inner) ns) in *.
  assert (NL : cs_left s = None /\ b_left B = None).
  { assert (E : cs_left s = None) by (apply no_left). rewrite E in S3 |- *. destruct (b_left B); [contradiction|auto]. }
  destruct NL as [NL1 NL2]. rewrite NL1, NL2 in S3. clear NL1 NL2.
  destruct (low_of g inner base (cs_cur s)) as [low add] eqn:EL.
  injection Hcons as <-. cbn [n_recs n_low n_high snd] in *.
  destruct Rb as (_ & _ & _ & Rb & _). destruct Rf as (_ & _ & _ & _ & Rf).
  assert (Ecur : b_cur B = fst (var_fill (var_new page m1) o (encl ek ev [] (inner && is_leftmost base) (cs_cur s)))).
  { unfold fill in S3. unfold var_fill. rewrite <- S3. reflexivity. }
  assert (Hsz : Z.of_N (vp_size (fst (var_fill (var_new page m1) o (encl ek ev [] (inner && is_leftmost base) (cs_cur s))))) = cs_size s).
  { rewrite <- Ecur. exact S2. }
  assert (Ho : (o < 65536)%N) by (unfold o; destruct scan; lia).
  assert (Hpo : (page <= o)%N) by (unfold o; destruct scan; lia).
  eexists. split; [reflexivity|].
  cbn [o_high o_low o_scan var_ops]. rewrite Rf, Rb, Ecur.
  set (PG := var_high (if inner then var_low_inner (fst (var_fill (var_new page m1) o (encl ek ev [] (inner && is_leftmost base) (cs_cur s))))
        else var_low_leaf (fst (var_fill (var_new page m1) o (encl ek ev [] (inner && is_leftmost base) (cs_cur s)))) (fence ek (n_low base)))
       (fence ek (n_high front))).
  assert (Main : vnode_rep ek ev inner (mk_node a inner low (n_high front) (n_next front) (cs_cur s) (cs_size s + add + okl g (n_high front))) PG /\
    (forall x, (x < 32 \/ o <= x)%N -> vp_mem PG x = m1 x)).
  { rewrite <- Hsz. apply fin_page; auto; try lia. rewrite Hsz. unfold o. destruct scan; lia. }
  destruct scan; [|exact Main].
  destruct Main as ((M1 & M2 & M3 & M4 & M5) & M6). split; [|exact M6]. unfold vnode_rep in *. cbn [n_recs n_size n_low n_high vp_cnt vp_size vp_mem vp_low vp_high] in *.
  split; [exact M1|]. split; [change (Z.of_N (2 * page) = 2 * c_page g); lia|]. auto.
Qed.

Lemma var_two c b ds ns l r a ra m1 m2 size :
  chain_rep (vnode_rep ek ev inner) (vdelta_rep ek ev) c b -> chain_keys K inner c ->
  dc_sort c [] [] = Some (ds, ns) -> pages_ok ns ->
  consolidate g inner a ra ns ds true false = CTwo l r ->
  n_size l <= c_page g -> n_size r <= c_page g ->
  32 + okl g (n_low l) + okl g (n_high l) <= c_page g -> 32 + okl g (n_low r) + okl g (n_high r) <= c_page g ->
  (page < 65536)%N -> (page < size)%N ->
  exists pl pr, var_try page inner lt m1 m2 b size false = BTwo pl pr /\
    vnode_rep ek ev inner l pl /\ vnode_rep ek ev inner r pr /\
    (forall x, (x < 32 \/ page <= x)%N -> vp_mem pl x = m1 x /\ vp_mem pr x = m2 x).
Proof.
  intros Hc Hkc Hs HP Hcons Fl1 Fr1 Fl2 Fr2 H16 Hsp.
  assert (Hpg : 32 <= c_page g).
  { assert (H : forall k, 0 <= okl g k).
    { intros [k|]; unfold okl; rewrite HV; [specialize (Hpos k)|]; lia. }
    pose proof (H (n_low l)). pose proof (H (n_high l)). lia. }
  unfold var_try, b_try.
  pose proof (var_core c b ds ns true page m1 m2 Hc Hkc Hs HP Hpg) as CO. cbn zeta in CO.
  destruct (b_sort (var_ops page inner) lt b [] []) as [bds bps]. destruct CO as ((_ & S2 & S3) & Rb & Rf).
  replace (negb false && (page <? size)%N) with true by (cbn; lia).
  unfold b_consolidate. set (B := b_nodes _ _ _ _ _ _ _ _) in *.
  unfold consolidate in Hcons.
  set (s := merge_nodes g (paysz g inner) (rev ns) ds (mk_cs None [] (c_hdr g) true)) in *.
  set (base := last ns (dummy_node inner)) in *. set (front := hd (dummy_node inner) ns) in *.
  destruct (cs_left s) as [[lrs lsz]|]; [|discriminate]. destruct (b_left B) as [bl|]; [|contradiction].
  destruct S3 as (_ & L1 & L2 & L3 & S3).
  destruct (cs_cur s) as [|[rk rv] rt] eqn:EC; [discriminate|].
  destruct (low_of g inner base lrs) as [low add] eqn:EL.
  injection Hcons as <- <-. cbn [n_recs n_low n_high n_size] in *.
  destruct Rb as (_ & _ & _ & Rb & _). destruct Rf as (_ & _ & _ & _ & Rf).
  set (F1 := fst (var_fill (var_new page m1) page (encl ek ev [] (inner && is_leftmost base) lrs))).
  set (F2 := fst (var_fill (var_new page m2) page (encl ek ev [] false ((rk, rv) :: rt)))).
  assert (E1 : bl = F1) by exact L2.
  assert (E2 : b_cur B = F2).
  { unfold F2, encl. cbn [map]. unfold fill in S3. cbn [map] in S3. unfold er in S3 at 1. cbn [fst snd] in S3. unfold var_fill. rewrite <- S3. reflexivity. }
  assert (Z1 : lsz = Z.of_N (vp_size F1)) by (rewrite <- E1, <- L3; reflexivity).
  assert (Z2 : cs_size s = Z.of_N (vp_size F2)) by (rewrite <- E2, <- S2; reflexivity).
  assert (K0 : var_key F2 0 = ek rk).
  { pose proof (var_fill_ok page m2 page (encl ek ev [] false ((rk, rv) :: rt)) H16) as HF.
    assert (Hr : 0 <= okl g (n_high front)) by (destruct (n_high front) as [k|]; unfold okl; rewrite HV; [specialize (Hpos k)|]; lia).
    assert (Hk : 0 <= okl g (Some rk)) by (unfold okl; rewrite HV; specialize (Hpos rk); lia).
    unfold F2 in Z2. rewrite fill_sz in Z2. unfold F2.
    destruct (var_fill (var_new page m2) page (encl ek ev [] false ((rk, rv) :: rt))) as [p o'].
    destruct HF as (_ & _ & _ & R & _); [clear - Fr1 Hr Hk Z2 Hpage; unfold var_hdr; destruct inner; lia|]. cbn [fst].
    destruct (recs_rep p page false _ R 0%nat rk rv eq_refl) as [KK _]. exact KK. }
  eexists _, _. split; [reflexivity|].
  cbn [o_high o_low o_lowself o_highleft var_ops]. rewrite Rf, Rb, E1, E2, K0.
  assert (LF : vnode_rep ek ev inner (mk_node a inner low (Some rk) 0%N lrs (lsz + add + okl g (Some rk)))
      (var_high (if inner then var_low_inner F1 else var_low_leaf F1 (fence ek (n_low base))) (fence ek (Some rk))) /\
      (forall x, (x < 32 \/ page <= x)%N -> vp_mem (var_high (if inner then var_low_inner F1 else var_low_leaf F1 (fence ek (n_low base))) (fence ek (Some rk))) x = m1 x)).
  { rewrite Z1. apply fin_page; auto; try lia. change (Z.of_N (vp_size F1) + add + okl g (Some rk) <= Z.of_N page). lia. }
  assert (RF : vnode_rep ek ev inner (mk_node ra inner (Some rk) (n_high front) (n_next front) ((rk, rv) :: rt) (cs_size s + (if inner then 0 else okl g (Some rk)) + okl g (n_high front)))
      (var_high (if inner then var_low_inner F2 else var_low_leaf F2 (ek rk)) (fence ek (n_high front))) /\
      (forall x, (x < 32 \/ page <= x)%N -> vp_mem (var_high (if inner then var_low_inner F2 else var_low_leaf F2 (ek rk)) (fence ek (n_high front))) x = m2 x)).
  { rewrite Z2. pose (base' := mk_node 0%N inner (Some rk) (n_high front) 0%N [] 0).
    assert (LM : inner && is_leftmost base' = false) by (destruct inner; reflexivity).
    assert (EL' : low_of g inner base' ((rk, rv) :: rt) = (Some rk, if inner then 0 else okl g (Some rk))).
    { unfold low_of. rewrite HV. destruct inner; reflexivity. }
    pose proof (fin_page m2 page base' ((rk, rv) :: rt) _ _ (n_high front) ra (n_next front) EL') as FP.
    rewrite LM in FP. apply FP; auto; try discriminate; try lia. fold F2. rewrite <- Z2. lia. }
  destruct LF as [LF1 LF2]. destruct RF as [RF1 RF2]. split; [exact LF1|]. split; [exact RF1|].
  intros x Hx. split; [exact (LF2 x Hx)|exact (RF2 x Hx)].
Qed.
End Var.
