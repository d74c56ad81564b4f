(** Facts about well-formed delta chains and the chain searches of DeltaChain. *)
From Coq Require Import ZArith NArith List Bool Lia.
From Coq Require Import Sorting.Sorted ZifyBool ZifyNat ZifyN.
From Verif Require Import Config Page ListFacts SearchFacts.
From Verif Require Export ChainSpec.
Import ListNotations.
Open Scope Z_scope.

Ltac rng :=
  unfold in_rng, in_srng, rng_ne, lo_ok, lo_lt, hi_ok in *;
  repeat match goal with
  | H : _ /\ _ |- _ => destruct H
  | H : Some _ = Some _ |- _ => inversion H; clear H; subst
  | H : context [match ?x with Some _ => _ | None => _ end] |- _ => destruct x eqn:?
  | |- context [match ?x with Some _ => _ | None => _ end] => destruct x eqn:?
  | H : ?x = Some _, H' : ?x = Some _ |- _ => rewrite H in H'
  | H : ?x = Some _, H' : ?x = None |- _ => rewrite H in H'; discriminate
  end; try discriminate; try (repeat split; auto; lia).

(** ** Basic facts *)
Lemma low_le_eff l k closed : low_le l k closed = (l <=? eff k closed).
Proof. unfold low_le, eff. destruct closed; lia. Qed.

Lemma high_ge_eff hi k closed :
  high_ge hi k (negb closed) = match hi with Some h => eff k closed <? h | None => true end.
Proof. unfold high_ge, eff. destruct hi, closed; lia. Qed.

Lemma high_ge_hi hi k closed : high_ge hi k (negb closed) = true <-> hi_ok hi (eff k closed).
Proof. rewrite high_ge_eff. unfold hi_ok. destruct hi; [lia|tauto]. Qed.

Lemma high_ge_hi_f hi k closed :
  high_ge hi k (negb closed) = false <-> exists h, hi = Some h /\ h <= eff k closed.
Proof.
  rewrite high_ge_eff. destruct hi as [h|].
  - split; [intros; exists h; split; auto; lia|]. intros (h' & E & L). inversion E; subst. lia.
  - split; [discriminate|]. intros (h' & E & L). discriminate.
Qed.

Lemma same_key_eq a b : same_key a b = (a =? b).
Proof. unfold same_key. lia. Qed.

Lemma lwf_leaf g c : lwf g c -> h_leaf c = true.
Proof.
  destruct c; simpl; try tauto.
  - intros (H & _). rewrite H; auto.
  - intros (_ & H & _). rewrite H; auto.
  - intros (_ & _ & H & _). rewrite H; auto.
Qed.
Lemma iwf_inner g c : iwf g c -> h_leaf c = false.
Proof.
  destruct c; simpl; try tauto.
  - intros (H & _). rewrite H; auto.
  - intros (_ & H & _). rewrite H; auto.
  - intros (_ & _ & H & _). rewrite H; auto.
Qed.

Lemma lwf_not_remove g c : lwf g c -> is_remove c = false.
Proof. destruct c; simpl; tauto. Qed.
Lemma iwf_not_remove g c : iwf g c -> is_remove c = false.
Proof. destruct c; simpl; tauto. Qed.

Lemma c_lo_rec d nx : c_lo (CRec d nx) = c_lo nx. Proof. reflexivity. Qed.
Lemma c_hi_rec d nx : c_hi (CRec d nx) = c_hi nx. Proof. reflexivity. Qed.
Lemma c_next_rec d nx : c_next (CRec d nx) = c_next nx. Proof. reflexivity. Qed.
Lemma c_lo_merge d n nx : c_lo (CMerge d n nx) = c_lo nx. Proof. reflexivity. Qed.
Lemma c_hi_merge d n nx : c_hi (CMerge d n nx) = n_high n. Proof. reflexivity. Qed.
Lemma c_next_merge d n nx : c_next (CMerge d n nx) = n_next n. Proof. reflexivity. Qed.

Lemma rng_ne_lt lo hi k : rng_ne lo (Some k) -> rng_ne (Some k) hi -> rng_ne lo hi.
Proof. unfold rng_ne, lo_lt. destruct lo, hi; auto; lia. Qed.

Lemma lwf_rng g c : lwf g c -> rng_ne (c_lo c) (c_hi c).
Proof.
  induction c as [n|d nx IH|d n nx IH|]; cbn [lwf]; try (intros []; fail).
  - intros (_ & _ & _ & H & _). auto.
  - intros (H & _). rewrite c_lo_rec, c_hi_rec. auto.
  - intros (H1 & H2 & _ & _ & E1 & E2 & _). rewrite c_lo_merge, c_hi_merge.
    destruct H2 as (_ & _ & _ & R & _). rewrite E1 in R. specialize (IH H1). rewrite E2 in IH.
    eapply rng_ne_lt; eauto.
Qed.

Lemma iwf_rng g c : iwf g c -> rng_ne (c_lo c) (c_hi c).
Proof.
  induction c as [n|d nx IH|d n nx IH|]; cbn [iwf]; try (intros []; fail).
  - intros (_ & _ & _ & _ & H & _). auto.
  - intros (H & _). rewrite c_lo_rec, c_hi_rec. auto.
  - intros (H1 & H2 & _ & _ & E1 & E2 & _). rewrite c_lo_merge, c_hi_merge.
    destruct H2 as (_ & _ & _ & _ & R & _). rewrite E1 in R. specialize (IH H1). rewrite E2 in IH.
    eapply rng_ne_lt; eauto.
Qed.

(** Leaf records are sorted and inside the range of the node. *)
Lemma lwf_sorted g c : lwf g c ->
  sorted (lrecs c) /\ Forall (fun r => in_rng (c_lo c) (c_hi c) (fst r)) (lrecs c).
Proof.
  induction c as [n|d nx IH|d n nx IH|]; cbn [lwf]; try tauto.
  - intros (_ & H1 & H2 & _). auto.
  - intros (H & _ & Hr & _ & Ht). specialize (IH H) as [IH1 IH2].
    rewrite c_lo_rec, c_hi_rec. cbn [lrecs]. destruct (d_type d); try tauto.
    + split; [apply put_sorted|apply put_forall]; auto.
    + split; [apply put_sorted|apply put_forall]; auto.
    + split; [apply del_sorted|apply del_forall]; auto.
  - intros (H1 & H2 & _ & _ & E1 & E2 & _). specialize (IH H1) as [IH1 IH2].
    pose proof (lwf_rng _ _ H1) as R1. rewrite E2 in R1.
    destruct H2 as (_ & S2 & F2 & R2 & _). rewrite c_lo_merge, c_hi_merge. cbn [lrecs].
    rewrite E2 in IH2. rewrite E1 in F2, R2. split.
    + apply sorted_app; auto. intros x y Hx Hy. rewrite Forall_forall in IH2, F2.
      specialize (IH2 _ Hx). specialize (F2 _ Hy). unfold in_rng, lo_ok, hi_ok in *. lia.
    + apply Forall_app. split.
      * eapply Forall_impl; [|apply IH2]. simpl. intros x [A B]. split; auto.
        rng.
      * eapply Forall_impl; [|apply F2]. simpl. intros x [A B]. split; auto.
        rng.
Qed.

Lemma find_out_hi (hi : option key) (l : list (key * val)) h k :
  Forall (fun r => hi_ok hi (fst r)) l -> hi = Some h -> h <= k -> find k l = None.
Proof.
  intros F E L. apply find_none_gt. eapply Forall_impl; [|apply F].
  simpl. intros x H. rewrite E in H. simpl in H. lia.
Qed.

(** SearchRecord on a leaf chain. *)
Definition lget (c : chain) (k : key) : option val := find k (lrecs c).

Inductive rec_res (g : cfg) (c : chain) (k : key) : dres -> Prop :=
| rr_found v : hi_ok (c_hi c) k -> lget c k = Some v -> rec_res g c k (RFound v)
| rr_none : hi_ok (c_hi c) k -> lget c k = None -> rec_res g c k RNotFound
| rr_base n : hi_ok (c_hi c) k -> lnode g n -> lget c k = find k (n_recs n) -> rec_res g c k (RBase n)
| rr_sib h : c_hi c = Some h -> h <= k -> rec_res g c k (RSibling (c_next c)).

Lemma dc_search_record_spec g c k : lwf g c ->
  (forall smo, (smo = true -> hi_ok (c_hi c) k) ->
  rec_res g c k (dc_search_record c k smo)).
Proof.
  induction c as [n|d nx IH|d n nx IH|]; intros Hw smo Hsmo; cbn [lwf] in Hw; try tauto.
  - cbn [dc_search_record]. destruct smo; simpl.
    + apply rr_base; auto.
    + destruct (high_ge (n_high n) k false) eqn:E; simpl.
      * apply (high_ge_hi _ _ true) in E. apply rr_base; auto.
      * apply (high_ge_hi_f _ _ true) in E as (h & E & L). eapply rr_sib with (h := h); auto.
  - destruct Hw as (Hw & Hi & Hr & Hc & Ht). specialize (IH Hw smo Hsmo).
    pose proof (lwf_sorted _ _ Hw) as [Hs Hf].
    assert (Hpass : d_key d <> k -> rec_res g (CRec d nx) k (dc_search_record nx k smo)).
    { intros Hne.
      assert (HG : lget (CRec d nx) k = lget nx k).
      { unfold lget. cbn [lrecs]. destruct (d_type d); try tauto;
        rewrite ?find_put, ?find_del by auto; destruct (Z.eqb_spec k (d_key d)); auto; lia. }
      inversion IH as [v A B E|A B E|n A B C E|h A B E];
        [apply rr_found|apply rr_none|apply rr_base|
         rewrite <- (c_next_rec d nx); apply rr_sib with h]; auto; congruence. }
    assert (HK : hi_ok (c_hi nx) (d_key d)) by apply Hr.
    cbn [dc_search_record]. rewrite !same_key_eq.
    destruct (d_type d) eqn:Et; try tauto; destruct (Z.eqb_spec (d_key d) k) as [E|E]; auto; subst k.
    + apply rr_found; auto. unfold lget. cbn [lrecs]. rewrite Et, find_put, Z.eqb_refl; auto.
    + apply rr_found; auto. unfold lget. cbn [lrecs]. rewrite Et, find_put, Z.eqb_refl; auto.
    + apply rr_none; auto. unfold lget. cbn [lrecs]. rewrite Et, find_del, Z.eqb_refl; auto.
  - destruct Hw as (Hw & Hn & Hi & Hty & E1 & E2 & E3 & Hc & Hsz).
    pose proof (lwf_sorted _ _ Hw) as [Hs Hf].
    cbn [dc_search_record]. rewrite (low_le_eff _ _ true). unfold eff.
    destruct (Z.leb_spec (d_key d) k) as [L|L].
    + assert (HG : lget (CMerge d n nx) k = find k (n_recs n)).
      { unfold lget. cbn [lrecs]. rewrite find_app.
        rewrite (find_out_hi (c_hi nx) (lrecs nx) (d_key d) k); auto.
        eapply Forall_impl; [|apply Hf]. intros x [_ B]; exact B. }
      rewrite E3. destruct smo; simpl.
      * apply rr_base; auto.
      * destruct (high_ge (n_high n) k false) eqn:E; simpl.
        -- apply (high_ge_hi _ _ true) in E. apply rr_base; auto.
        -- apply (high_ge_hi_f _ _ true) in E as (h & E & L'). eapply rr_sib with (h := h); auto.
    + assert (HK : hi_ok (c_hi nx) k) by (rewrite E2; simpl; lia).
      specialize (IH Hw true (fun _ => HK)).
      destruct Hn as (_ & Sn & Fn & Rn & _).
      assert (HG : lget (CMerge d n nx) k = lget nx k).
      { unfold lget. cbn [lrecs]. rewrite find_app.
        rewrite (find_none_lt k (n_recs n)); [destruct (find k (lrecs nx)); auto|].
        eapply Forall_impl; [|apply Fn]. intros x [B _]. rewrite E1 in B. simpl in B. lia. }
      assert (HK2 : hi_ok (c_hi (CMerge d n nx)) k).
      { rewrite c_hi_merge. rewrite E1 in Rn. unfold rng_ne, lo_lt, hi_ok in *.
        destruct (n_high n); auto. lia. }
      inversion IH as [v A B E|A B E|n' A B C E|h A B E];
        [apply rr_found|apply rr_none|apply rr_base|]; auto; try congruence.
      rewrite A in HK. simpl in HK. lia.
Qed.

(** Validate only looks at the high key. *)
Fixpoint mhigh_ok (c : chain) : Prop :=
  match c with
  | CBase _ => True
  | CRec _ nx => mhigh_ok nx
  | CMerge d n nx => d_high d = n_high n /\ mhigh_ok nx
  | CRemove _ _ => False
  end.
Lemma lwf_mhigh g c : lwf g c -> mhigh_ok c.
Proof. induction c; cbn [lwf mhigh_ok]; tauto. Qed.
Lemma iwf_mhigh g c : iwf g c -> mhigh_ok c.
Proof. induction c; cbn [iwf mhigh_ok]; tauto. Qed.

Lemma validate_spec c k closed : mhigh_ok c ->
  dc_validate c k closed =
  match c_hi c with
  | Some h => if eff k closed <? h then VOk else VSibling (c_next c)
  | None => VOk
  end.
Proof.
  induction c as [n|d nx IH|d n nx IH|]; cbn [mhigh_ok dc_validate]; intros H; try contradiction.
  - rewrite high_ge_eff. unfold c_hi, c_next. simpl. destruct (n_high n); auto.
  - rewrite c_hi_rec, c_next_rec. auto.
  - destruct H as [-> H]. rewrite high_ge_eff. unfold c_hi, c_next. simpl. destruct (n_high n); auto.
Qed.

(** ** Inner chains *)
Lemma inode_parts g n : inode g n -> sorted (nents n) /\
  Forall (fun r => in_srng (n_low n) (n_high n) (fst r)) (nents n).
Proof. intros (_ & _ & A & B & _); auto. Qed.

Lemma iwf_sorted g c : iwf g c ->
  sorted (ients c) /\ Forall (fun r => in_srng (c_lo c) (c_hi c) (fst r)) (ients c).
Proof.
  induction c as [n|d nx IH|d n nx IH|]; cbn [iwf]; try tauto.
  - intros H. apply inode_parts in H as [H1 H2]. auto.
  - intros (H & _ & Hr & _ & Ht). specialize (IH H) as [IH1 IH2].
    rewrite c_lo_rec, c_hi_rec. cbn [ients]. destruct (d_type d); try tauto.
    + split; [apply put_sorted|apply put_forall]; auto.
    + split; [apply del_sorted|apply del_forall]; auto.
  - intros (H1 & H2 & _ & _ & E1 & E2 & _). specialize (IH H1) as [IH1 IH2].
    pose proof (iwf_rng _ _ H1) as R1. rewrite E2 in R1.
    pose proof (inode_parts _ _ H2) as [S2 F2].
    destruct H2 as (_ & _ & _ & _ & R2 & _). rewrite c_lo_merge, c_hi_merge. cbn [ients].
    rewrite E2 in IH2. rewrite E1 in F2, R2.
    assert (Hs2 : sorted ((d_key d, nlead n) :: nents n)).
    { apply sorted_cons; auto. eapply Forall_impl; [|apply F2]. intros x [A _]. exact A. }
    split.
    + apply sorted_app; auto. intros x y Hx Hy. rewrite Forall_forall in IH2, F2.
      specialize (IH2 _ Hx). destruct Hy as [<-|Hy]; simpl.
      * apply IH2.
      * specialize (F2 _ Hy). unfold in_srng, lo_lt, hi_ok in *. lia.
    + apply Forall_app. split.
      * eapply Forall_impl; [|apply IH2]. simpl. intros x [A B]. split; auto.
        rng.
      * constructor.
        -- split; simpl; auto.
        -- eapply Forall_impl; [|apply F2]. simpl. intros x [A B]. split; auto.
           rng.
Qed.

Lemma route_put_in k v x lead (l : list (key * val)) : sorted l -> find k l = None -> k <= x ->
  hi_ok (succ_key k None l) x -> route x lead (put k v l) = v.
Proof.
  intros Hs. revert lead. induction l as [|[y w] l IH]; intros lead Hf Hk Hh; cbn [put find succ_key] in *.
  - simpl. destruct (Z.leb_spec k x); [auto|lia].
  - apply sorted_cons_inv in Hs as [Hs Hfa].
    destruct (Z.eqb_spec y k); [discriminate|].
    destruct (Z.ltb_spec y k).
    + destruct (Z.ltb_spec k y); [lia|]. cbn [route]. destruct (Z.leb_spec y x); [|lia]. auto.
    + destruct (Z.ltb_spec k y); [|lia]. simpl in Hh. cbn [route].
      destruct (Z.leb_spec k x); [|lia]. destruct (Z.leb_spec y x); [lia|auto].
Qed.

Lemma route_put_out k v x lead hi (l : list (key * val)) : sorted l -> find k l = None ->
  x < k \/ (exists h, succ_key k hi l = Some h /\ h <= x) -> hi_ok hi x ->
  route x lead (put k v l) = route x lead l.
Proof.
  intros Hs. revert lead. induction l as [|[y w] l IH]; intros lead Hf Hk Hh; cbn [put find succ_key] in *.
  - cbn [route]. destruct (Z.leb_spec k x); auto. destruct Hk as [|(h & E & L)]; [lia|].
    rewrite E in Hh. simpl in Hh. lia.
  - apply sorted_cons_inv in Hs as [Hs Hfa].
    destruct (Z.eqb_spec y k); [discriminate|].
    destruct (Z.ltb_spec y k).
    + destruct (Z.ltb_spec k y); [lia|]. cbn [route]. destruct (Z.leb_spec y x); auto.
    + destruct (Z.ltb_spec k y); [|lia]. cbn [route]. destruct (Z.leb_spec k x).
      * destruct Hk as [|(h & E & L)]; [lia|]. inversion E; subst.
        destruct (Z.leb_spec h x); [auto|lia].
      * destruct (Z.leb_spec y x); [lia|auto].
Qed.

Lemma route_same k x lead (l : list (key * val)) : sorted l -> k <= x ->
  hi_ok (succ_key k None l) x -> route x lead l = route k lead l.
Proof.
  intros Hs. revert lead. induction l as [|[y w] l IH]; intros lead Hk Hh; cbn [succ_key route] in *; auto.
  apply sorted_cons_inv in Hs as [Hs Hfa].
  destruct (Z.ltb_spec k y).
  - simpl in Hh. destruct (Z.leb_spec y x); [lia|]. destruct (Z.leb_spec y k); [lia|auto].
  - destruct (Z.leb_spec y x); [|lia]. destruct (Z.leb_spec y k); [|lia]. auto.
Qed.

Lemma succ_key_del k hi (l : list (key * val)) : sorted l -> succ_key k hi (del k l) = succ_key k hi l.
Proof.
  induction l as [|[y w] l IH]; intros Hs; cbn [del succ_key]; auto.
  apply sorted_cons_inv in Hs as [Hs Hfa].
  destruct (Z.eqb_spec y k).
  - subst. rewrite Z.ltb_irrefl. auto.
  - cbn [succ_key]. destruct (k <? y); auto.
Qed.

Lemma route_del_out k x lead hi v (l : list (key * val)) : sorted l -> find k l = Some v ->
  x < k \/ (exists h, succ_key k hi l = Some h /\ h <= x) -> hi_ok hi x ->
  route x lead (del k l) = route x lead l.
Proof.
  intros Hs. revert lead. induction l as [|[y w] l IH]; intros lead Hf Hk Hh; cbn [del find succ_key] in *.
  - discriminate.
  - apply sorted_cons_inv in Hs as [Hs Hfa].
    destruct (Z.eqb_spec y k).
    + subst y. rewrite Z.ltb_irrefl in Hk. cbn [route].
      destruct (Z.leb_spec k x).
      * destruct Hk as [|(h & E & L)]; [lia|].
        destruct l as [|[z u] l]; cbn [succ_key] in E.
        -- rewrite E in Hh. simpl in Hh; lia.
        -- inversion Hfa; subst. simpl in *. destruct (Z.ltb_spec k z); [|lia]. inversion E; subst.
           cbn [route]. destruct (Z.leb_spec h x); [auto|lia].
      * destruct l as [|[z u] l]; auto. inversion Hfa; subst. simpl in *.
        destruct (Z.leb_spec z x); [lia|auto].
    + cbn [route]. destruct (Z.leb_spec y x); auto.
      apply IH; auto. destruct Hk as [|(h & E & L)]; auto. right. exists h. split; auto.
      destruct (Z.ltb_spec k y); auto. 
      apply find_in in Hf. rewrite Forall_forall in Hfa. specialize (Hfa _ Hf). simpl in Hfa. lia.
Qed.

Lemma succ_key_none_hi k hi (l : list (key*val)) x : hi_ok (succ_key k hi l) x -> hi_ok hi x ->
  hi_ok (succ_key k None l) x.
Proof.
  intros H Hh. induction l as [|[y w] l IH]; cbn [succ_key] in *; simpl; auto.
  destruct (k <? y); auto.
Qed.

Lemma succ_key_le_hi k hi (l : list (key * val)) x : hi_ok (succ_key k hi l) x ->
  Forall (fun r => hi_ok hi (fst r)) l -> hi_ok hi x.
Proof.
  intros H F. induction F as [|[y w] l Hy F IH]; cbn [succ_key] in *; auto.
  destruct (k <? y); auto. simpl in *. unfold hi_ok in *. destruct hi; auto. lia.
Qed.

(** Result of SearchChildNode on an inner chain: the routed child. *)
Inductive child_res (g : cfg) (cell : addr -> pid) (pend : addr -> key -> Prop)
    (c : chain) (x : key) : dres -> Prop :=
| ch_found v : hi_ok (c_hi c) x -> v = route x (ilead c) (ients c) ->
    child_res g cell pend c x (RFound v)
| ch_wait a : hi_ok (c_hi c) x ->
    (exists k, pend a k /\ k <= x) \/
    (cell a = route x (ilead c) (ients c) /\ cell a <> 0%N) ->
    child_res g cell pend c x (RWait a)
| ch_base n : hi_ok (c_hi c) x -> inode g n ->
    route x (ilead c) (ients c) = route x (nlead n) (nents n) ->
    child_res g cell pend c x (RBase n)
| ch_sib h : c_hi c = Some h -> h <= x -> child_res g cell pend c x (RSibling (c_next c)).

Lemma hi_ok_dec hi x : hi_ok hi x \/ exists h, hi = Some h /\ h <= x.
Proof. destruct hi as [h|]; simpl; auto. destruct (Z_lt_ge_dec x h); auto. right. exists h. split; auto; lia. Qed.

Lemma dc_search_child_spec g cell pend c k closed :
  iwf g c -> iexact c -> icells cell pend c -> forall smo,
  (smo = true -> hi_ok (c_hi c) (eff k closed)) ->
  child_res g cell pend c (eff k closed) (dc_search_child c k closed smo).
Proof.
  set (x := eff k closed).
  induction c as [n|d nx IH|d n nx IH|]; intros Hw He Hc smo Hsmo;
    cbn [iwf iexact icells] in *; try tauto.
  - cbn [dc_search_child]. destruct smo; simpl.
    + apply ch_base; auto.
    + destruct (high_ge (n_high n) k (negb closed)) eqn:E; simpl.
      * apply high_ge_hi in E. apply ch_base; auto.
      * apply high_ge_hi_f in E as (h & E & L). eapply ch_sib with (h := h); auto.
  - destruct Hw as (Hw & Hi & Hr & Hcn & Ht). destruct He as [He Hd]. destruct Hc as [Hc Hcell].
    specialize (IH Hw He Hc smo Hsmo).
    pose proof (iwf_sorted _ _ Hw) as [Hs Hf].
    assert (Hf2 : Forall (fun r => hi_ok (c_hi nx) (fst r)) (ients nx)).
    { eapply Forall_impl; [|apply Hf]. intros y [_ B]; exact B. }
    cbn [dc_search_child]. rewrite low_le_eff. fold x.
    assert (Hcond : high_ge (d_high d) k (negb closed) = true <-> hi_ok (succ_key (d_key d) (c_hi nx) (ients nx)) x).
    { rewrite Hd. apply high_ge_hi. }
    destruct (d_type d) eqn:Et; try tauto.
    + destruct Ht as [Hnone _].
      destruct ((d_key d <=? x) && high_ge (d_high d) k (negb closed)) eqn:E.
      * apply andb_prop in E as [E1 E2]. apply Z.leb_le in E1. apply Hcond in E2.
        apply ch_found.
        -- rewrite c_hi_rec. eapply succ_key_le_hi; eauto.
        -- cbn [ilead ients]. rewrite Et. symmetry. apply route_put_in; auto.
           eapply succ_key_none_hi; eauto. eapply succ_key_le_hi; eauto.
      * assert (Hout : hi_ok (c_hi nx) x -> route x (ilead (CRec d nx)) (ients (CRec d nx))
                 = route x (ilead nx) (ients nx)).
        { intros Hh. cbn [ilead ients]. rewrite Et. eapply route_put_out; eauto.
          apply andb_false_iff in E as [E|E]; [left; lia|right].
          destruct (hi_ok_dec (succ_key (d_key d) (c_hi nx) (ients nx)) x) as [H|H]; auto.
          apply Hcond in H. congruence. }
        inversion IH as [v A B E'|a A B E'|n A B C E'|h A B E'];
          [apply ch_found|apply ch_wait|apply ch_base|
           rewrite <- (c_next_rec d nx); apply ch_sib with h]; auto; rewrite Hout; auto.
    + destruct Ht as [[v0 Hsome] _].
      destruct ((d_key d <=? x) && high_ge (d_high d) k (negb closed)) eqn:E.
      * apply andb_prop in E as [E1 E2]. apply Z.leb_le in E1. apply Hcond in E2.
        assert (Hh : hi_ok (c_hi nx) x) by (eapply succ_key_le_hi; eauto).
        apply ch_wait; auto. destruct (Hcell eq_refl) as [P|[P1 P2]]; [left; eauto|right].
        split; auto. rewrite P1. cbn [ilead ients]. rewrite Et. symmetry. apply route_same; auto.
        -- apply del_sorted; auto.
        -- rewrite succ_key_del by auto. eapply succ_key_none_hi; eauto.
      * assert (Hout : hi_ok (c_hi nx) x -> route x (ilead (CRec d nx)) (ients (CRec d nx))
                 = route x (ilead nx) (ients nx)).
        { intros Hh. cbn [ilead ients]. rewrite Et. eapply route_del_out; eauto.
          apply andb_false_iff in E as [E|E]; [left; lia|right].
          destruct (hi_ok_dec (succ_key (d_key d) (c_hi nx) (ients nx)) x) as [H|H]; auto.
          apply Hcond in H. congruence. }
        inversion IH as [v A B E'|a A B E'|n A B C E'|h A B E'];
          [apply ch_found|apply ch_wait|apply ch_base|
           rewrite <- (c_next_rec d nx); apply ch_sib with h]; auto; rewrite Hout; auto.
  - destruct Hw as (Hw & Hn & Hi & Hty & E1 & E2 & E3 & Hcn & Hsz).
    pose proof (iwf_sorted _ _ Hw) as [Hs Hf].
    pose proof (inode_parts _ _ Hn) as [Sn Fn].
    assert (Rn : rng_ne (n_low n) (n_high n)) by apply Hn. rewrite E1 in Rn.
    cbn [dc_search_child]. rewrite low_le_eff. fold x.
    destruct (Z.leb_spec (d_key d) x) as [L|L].
    + assert (HG : route x (ilead (CMerge d n nx)) (ients (CMerge d n nx)) = route x (nlead n) (nents n)).
      { cbn [ilead ients]. rewrite route_all_le.
        - cbn [route]. destruct (Z.leb_spec (d_key d) x); [auto|lia].
        - eapply Forall_impl; [|apply Hf]. intros y [_ B]. rewrite E2 in B. simpl in B. lia. }
      rewrite E3. destruct smo; simpl.
      * apply ch_base; auto.
      * destruct (high_ge (n_high n) k (negb closed)) eqn:E; simpl.
        -- apply high_ge_hi in E. apply ch_base; auto.
        -- apply high_ge_hi_f in E as (h & E & L'). eapply ch_sib with (h := h); auto.
    + assert (HK : hi_ok (c_hi nx) x) by (rewrite E2; simpl; lia).
      specialize (IH Hw He Hc true (fun _ => HK)).
      assert (HG : route x (ilead (CMerge d n nx)) (ients (CMerge d n nx)) = route x (ilead nx) (ients nx)).
      { cbn [ilead ients]. apply route_app_lt. constructor; simpl; auto.
        eapply Forall_impl; [|apply Fn]. intros y [B _]. rewrite E1 in B. simpl in B. lia. }
      assert (HK2 : hi_ok (c_hi (CMerge d n nx)) x).
      { rewrite c_hi_merge. rng. }
      inversion IH as [v A B E|a A B E|n' A B C E|h A B E];
        [apply ch_found|apply ch_wait|apply ch_base|]; auto; try (rewrite HG; auto; fail).
      rewrite A in HK. simpl in HK. lia.
Qed.

Lemma lget_visible g c k : lwf g c -> find k (lrecs c) = visible c k.
Proof.
  induction c as [n|d nx IH|d n nx IH|]; intros Hw; cbn [lwf lrecs visible] in *; try contradiction; auto.
  - destruct Hw as (Hw & _ & _ & _ & Ht). specialize (IH Hw).
    pose proof (lwf_sorted _ _ Hw) as [Hs _]. rewrite Z.eqb_sym.
    destruct (d_type d); try contradiction; rewrite ?find_put, ?find_del by auto;
      destruct (k =? d_key d); auto.
  - destruct Hw as (Hw & Hn & _ & _ & E1 & E2 & _). specialize (IH Hw).
    pose proof (lwf_sorted _ _ Hw) as [_ Hf]. destruct Hn as (_ & _ & Fn & _).
    rewrite find_app. destruct (Z.leb_spec (d_key d) k).
    + rewrite (find_out_hi (c_hi nx) (lrecs nx) (d_key d) k); auto.
      eapply Forall_impl; [|apply Hf]. intros x [_ B]; exact B.
    + rewrite (find_none_lt k (n_recs n)); [rewrite IH; destruct (visible nx k); auto|].
      eapply Forall_impl; [|apply Fn]. simpl. intros; rng.
Qed.
