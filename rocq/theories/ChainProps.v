(** Proofs of the page and chain level properties. *)
From Coq Require Import ZArith NArith List Bool Lia.
From Coq Require Import Sorting.Sorted ZifyBool ZifyNat ZifyN.
From Verif Require Import Config Page ListFacts SearchFacts ChainSpec ChainFacts ConsFacts Valid
  ConsolidateFacts.
Import ListNotations.
Open Scope Z_scope.

Lemma page_lookup_find g n k : lnode g n -> page_lookup n k = find k (n_recs n).
Proof.
  intros (Hi & Hs & _). unfold page_lookup. pose proof (node_search_leaf n k Hi Hs) as H.
  destruct (node_search n k) as [f p]. destruct (find k (n_recs n)).
  - destruct H as [-> H]. auto.
  - subst. auto.
Qed.

Lemma chain_lookup_find g c k : lwf g c -> hi_ok (c_hi c) k ->
  chain_lookup c k = Some (find k (lrecs c)).
Proof.
  intros Hw Hh. unfold chain_lookup.
  pose proof (dc_search_record_spec g c k Hw false ltac:(discriminate)) as H.
  inversion H as [v A B E|A B E|n A B C E|h A B E]; auto; unfold lget in *; try congruence.
  - erewrite page_lookup_find by eauto. congruence.
  - rewrite A in Hh. simpl in Hh. lia.
Qed.

Lemma chain_child_route g cell c k closed : iwf g c -> iexact c -> icells cell (fun _ _ => False) c ->
  hi_ok (c_hi c) (eff k closed) ->
  chain_child cell c k closed = Some (route (eff k closed) (ilead c) (ients c)).
Proof.
  intros Hw He Hc Hh. unfold chain_child.
  pose proof (dc_search_child_spec g cell _ c k closed Hw He Hc false ltac:(discriminate)) as H.
  inversion H as [v A B E|a A B E|n A B C E|h A B E]; subst; auto.
  - destruct B as [(? & [] & _)|[-> _]]; auto.
  - destruct B as (_ & (k0 & R & _) & S & _).
    rewrite (node_search_child_spec n k closed _ _ _ R S). congruence.
  - rewrite A in Hh. simpl in Hh. lia.
Qed.

Lemma c03_leaf g c a ra : lwf g c ->
  exists ds n,
    dc_sort c [] [] = Some (ds, pages c) /\
    consolidate g false a ra (pages c) ds false false = COne n /\
    StronglySorted (fun x y => fst x < fst y) (n_recs n) /\
    (forall k v, In (k, v) (n_recs n) <-> visible c k = Some v) /\
    n_low n = c_lo c /\ n_high n = c_hi c /\ n_next n = c_next c.
Proof.
  intros Hw. destruct (sort_ok_ex c (lwf_mhigh _ _ Hw)) as (ds & Hs).
  exists ds, (cons_page c false a (lrecs c) (h_size c)).
  split; [apply Hs|]. split; [apply cons_leaf_one; auto|].
  destruct (lwf_sorted _ _ Hw) as [S F]. cbn [n_recs cons_page n_low n_high n_next].
  split; [exact S|]. split; [|auto].
  intros k v. rewrite <- (lget_visible g) by auto. split; [apply in_find|apply find_in]; auto.
Qed.

Lemma c03_inner g c cell a ra k (closed : bool) :
  iwf g c -> iexact c -> icells cell (fun _ _ => False) c ->
  exists ds n,
    dc_sort c [] [] = Some (ds, pages c) /\
    consolidate g true a ra (pages c) ds false false = COne n /\
    n_low n = c_lo c /\ n_high n = c_hi c /\ n_next n = c_next c /\
    (hi_ok (c_hi c) (if closed then k else k - 1) ->
     exists p, chain_child cell c k closed = Some p /\ node_search_child n k closed = Some p).
Proof.
  intros Hw He Hc. destruct (sort_ok_ex c (iwf_mhigh _ _ Hw)) as (ds & Hs).
  exists ds, (cons_page c true a ((ikey0 c, ilead c) :: ients c) (h_size c)).
  split; [apply Hs|]. split; [apply cons_inner_one; auto|].
  do 3 (split; [reflexivity|]). intros Hh.
  exists (route (eff k closed) (ilead c) (ients c)). split.
  - eapply chain_child_route; eauto.
  - eapply node_search_child_spec; [reflexivity|]. apply (iwf_sorted g c Hw).
Qed.

Lemma c04_leaf g c a ra k : lwf g c -> hi_ok (c_hi c) k ->
  exists ds n,
    dc_sort c [] [] = Some (ds, pages c) /\
    consolidate g false a ra (pages c) ds false false = COne n /\
    chain_lookup c k = Some (page_lookup n k) /\ page_lookup n k = visible c k.
Proof.
  intros Hw Hh. destruct (sort_ok_ex c (lwf_mhigh _ _ Hw)) as (ds & Hs).
  exists ds, (cons_page c false a (lrecs c) (h_size c)).
  split; [apply Hs|]. split; [apply cons_leaf_one; auto|].
  rewrite (page_lookup_find g) by (apply cons_leaf_node; auto).
  cbn [n_recs cons_page]. split.
  - eapply chain_lookup_find; eauto.
  - apply (lget_visible g); auto.
Qed.

Lemma c05_leaf n k : n_inner n = false -> StronglySorted (fun x y => fst x < fst y) (n_recs n) ->
  let '(found, p) := node_search n k in
  0 <= p <= Z.of_nat (length (n_recs n)) /\
  if found then exists v, nth_error (n_recs n) (Z.to_nat p) = Some (k, v)
  else forall i x v, nth_error (n_recs n) i = Some (x, v) ->
         (Z.of_nat i < p -> x < k) /\ (p <= Z.of_nat i -> k < x).
Proof.
  intros Hi Hs. unfold node_search. rewrite Hi. cbn [andb].
  set (rs := n_recs n) in *.
  pose proof (bsearch_spec (S (length rs)) rs k 0 0 (Z.of_nat (length rs) - 1)
    ltac:(lia) (sorted_inc _ Hs) ltac:(lia) ltac:(lia) ltac:(lia) ltac:(lia)
    ltac:(intros; lia) ltac:(intros; lia)) as H.
  destruct (bsearch _ _ _ _ _) as [[|] p]; destruct H as [Hp H]; split; auto.
  - destruct H as [H1 H2]. destruct (key_at_in rs p) as (v & _ & Hn); [lia|].
    rewrite H2 in Hn. eauto.
  - destruct H as [H1 H2]. intros i x v E.
    assert (Hk : key_at rs (Z.of_nat i) = x).
    { unfold key_at. rewrite Nat2Z.id. erewrite nth_error_nth; eauto. reflexivity. }
    assert (Hl : (i < length rs)%nat) by (apply nth_error_Some; congruence).
    split; intros L.
    + specialize (H1 (Z.of_nat i) ltac:(lia)). lia.
    + specialize (H2 (Z.of_nat i) ltac:(lia)). lia.
Qed.

Lemma route_nth_ex k : forall (l : list (key * val)) d k0, sorted l ->
  exists i x, nth_error ((k0, d) :: l) i = Some (x, route k d l) /\
    forall j y v, nth_error ((k0, d) :: l) j = Some (y, v) -> (j <> 0)%nat ->
      ((j <= i)%nat -> y <= k) /\ ((i < j)%nat -> k < y).
Proof.
  induction l as [|[x v] l IH]; intros d k0 Hs.
  - exists 0%nat, k0. split; [reflexivity|]. intros j y v E Hj.
    destruct j as [|[|j]]; simpl in E; try discriminate; lia.
  - apply sorted_cons_inv in Hs as [Hs Hf]. cbn [route]. destruct (Z.leb_spec x k).
    + destruct (IH v x Hs) as (i & z & E & H'). exists (S i), z. split; [exact E|].
      intros j y w Ej Hj. destruct j as [|j]; [lia|]. cbn [nth_error] in Ej.
      destruct j as [|j].
      * simpl in Ej. inversion Ej; subst. split; [auto|lia].
      * destruct (H' (S j) y w Ej ltac:(lia)) as [A B]. split; intros; [apply A|apply B]; lia.
    + exists 0%nat, k0. split; [reflexivity|]. intros j y w Ej Hj. split; [lia|]. intros _.
      destruct j as [|[|j]]; [lia| |].
      * simpl in Ej. inversion Ej; subst; auto.
      * simpl in Ej. apply nth_error_In in Ej. rewrite Forall_forall in Hf. specialize (Hf _ Ej).
        simpl in Hf. lia.
Qed.

Lemma c05_child n k (closed : bool) k0 lead ents :
  n_recs n = (k0, lead) :: ents -> StronglySorted (fun x y => fst x < fst y) ents ->
  exists i x p, node_search_child n k closed = Some p /\ nth_error (n_recs n) i = Some (x, p) /\
    forall j y q, nth_error (n_recs n) j = Some (y, q) -> (j <> 0)%nat ->
      if closed then ((j <= i)%nat -> y <= k) /\ ((i < j)%nat -> k < y)
      else ((j <= i)%nat -> y < k) /\ ((i < j)%nat -> k <= y).
Proof.
  intros E Hs. rewrite (node_search_child_spec n k closed _ _ _ E Hs). rewrite E.
  destruct (route_nth_ex (eff k closed) ents lead k0 Hs) as (i & x & H1 & H2).
  exists i, x, (route (eff k closed) lead ents). split; auto. split; auto.
  intros j y q Ej Hj. destruct (H2 j y q Ej Hj) as [A B]. unfold eff in *.
  destruct closed; split; intros L; try specialize (A L); try specialize (B L); lia.
Qed.

Lemma c06_leaf g c a ra : cfg_ok g -> lwf g c -> c_page g < h_size c <= c_page g + excess g ->
  exists ds l r sep,
    dc_sort c [] [] = Some (ds, pages c) /\
    consolidate g false a ra (pages c) ds true false = CTwo l r /\
    n_recs l <> [] /\ n_recs r <> [] /\
    (forall k v, visible c k = Some v <-> In (k, v) (n_recs l ++ n_recs r)) /\
    (forall k v, In (k, v) (n_recs l) -> k < sep) /\
    (forall k v, In (k, v) (n_recs r) -> sep <= k) /\
    (exists v, hd_error (n_recs r) = Some (sep, v)) /\
    n_low l = c_lo c /\ n_high l = Some sep /\ n_low r = Some sep /\ n_high r = c_hi c /\
    n_next r = c_next c /\ n_size l <= c_page g /\ n_size r <= c_page g.
Proof.
  intros OK Hw Hsz. destruct (sort_ok_ex c (lwf_mhigh _ _ Hw)) as (ds & Hs).
  destruct (cons_leaf_two g OK c ds a ra Hw Hs Hsz) as (l1 & sep & v & l2 & sz1 & sz2 & E & Hne & HC & Hl & Hr & S1 & S2).
  do 4 eexists. split; [apply Hs|]. split; [apply HC|]. cbn [n_recs n_low n_high n_next n_size].
  split; [auto|]. split; [discriminate|].
  destruct (lwf_sorted _ _ Hw) as [S F].
  split.
  { intros k w. rewrite <- E, <- (lget_visible g) by auto. split; [apply find_in|apply in_find]; auto. }
  destruct Hl as (_ & _ & Fl & _). destruct Hr as (_ & _ & Fr & _). cbn [n_recs n_low n_high] in *.
  rewrite Forall_forall in Fl, Fr.
  split. { intros k w Hk. apply Fl in Hk as [_ Hk]. exact Hk. }
  split. { intros k w Hk. apply Fr in Hk as [Hk _]. exact Hk. }
  split; [eexists; reflexivity|]. repeat split; auto.
Qed.

Lemma c06_inner g c a ra : cfg_ok g -> iwf g c -> c_page g < h_size c <= c_page g + excess g ->
  exists ds l r sep,
    dc_sort c [] [] = Some (ds, pages c) /\
    consolidate g true a ra (pages c) ds true false = CTwo l r /\
    n_recs l <> [] /\ n_recs r <> [] /\
    tl (n_recs l ++ n_recs r) = ients c /\
    (exists k0, hd_error (n_recs l) = Some (k0, ilead c)) /\
    (forall k v, In (k, v) (tl (n_recs l)) -> k < sep) /\
    (forall k v, In (k, v) (n_recs r) -> sep <= k) /\
    (exists v, hd_error (n_recs r) = Some (sep, v)) /\
    n_low l = c_lo c /\ n_high l = Some sep /\ n_low r = Some sep /\ n_high r = c_hi c /\
    n_next r = c_next c /\ n_size l <= c_page g /\ n_size r <= c_page g.
Proof.
  intros OK Hw Hsz. destruct (sort_ok_ex c (iwf_mhigh _ _ Hw)) as (ds & Hs).
  destruct (cons_inner_two g OK c ds a ra Hw Hs Hsz) as (l1 & sep & v & l2 & sz1 & sz2 & E & Hne & HC & Hl & Hr & S1 & S2).
  do 4 eexists. split; [apply Hs|]. split; [apply HC|]. cbn [n_recs n_low n_high n_next n_size].
  split; [discriminate|]. split; [discriminate|]. split; [simpl; auto|].
  split; [eexists; reflexivity|].
  destruct (inode_parts _ _ Hl) as [_ Fl]. destruct (inode_parts _ _ Hr) as [_ Fr].
  unfold nents in *. cbn [n_recs n_low n_high tl] in *.
  rewrite Forall_forall in Fl, Fr.
  split. { intros k w Hk. apply Fl in Hk as [_ Hk]. exact Hk. }
  split. { intros k w [Hk|Hk]; [inversion Hk; subst; lia|]. apply Fr in Hk as [Hk _]. simpl in Hk. lia. }
  split; [eexists; reflexivity|]. repeat split; auto.
Qed.
