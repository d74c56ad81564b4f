(** Binary search inside a page. *)
From Coq Require Import ZArith NArith List Bool Lia.
From Coq Require Import Sorting.Sorted ZifyBool ZifyNat ZifyN.
From Verif Require Import Config Page ListFacts.
Import ListNotations.
Open Scope Z_scope.

(** The keys from position [lo] on are strictly increasing. *)
Definition inc_from (lo : Z) (rs : list (key * val)) : Prop :=
  forall i j, lo <= i < j -> j < Z.of_nat (length rs) -> key_at rs i < key_at rs j.

Lemma bsearch_spec fuel : forall rs k lo b e,
  0 <= lo -> inc_from lo rs -> lo <= b -> e < Z.of_nat (length rs) -> b <= e + 1 ->
  e - b + 1 < Z.of_nat fuel ->
  (forall i, lo <= i < b -> key_at rs i < k) ->
  (forall i, e < i < Z.of_nat (length rs) -> k < key_at rs i) ->
  let '(found, p) := bsearch fuel rs k b e in
  lo <= p <= Z.of_nat (length rs) /\
  if found then p < Z.of_nat (length rs) /\ key_at rs p = k
  else (forall i, lo <= i < p -> key_at rs i < k) /\
       (forall i, p <= i < Z.of_nat (length rs) -> k < key_at rs i).
Proof.
  induction fuel as [|f IH]; intros rs k lo b e H0 Hinc Hb He Hbe Hf Hl Hr.
  - lia.
  - cbn [bsearch]. destruct (Z.leb_spec b e).
    + set (pos := (b + e) / 2).
      assert (b <= pos <= e).
      { unfold pos. pose proof (Z.div_mod (b + e) 2 ltac:(lia)).
        pose proof (Z.mod_pos_bound (b + e) 2 ltac:(lia)). lia. }
      destruct (Z.ltb_spec k (key_at rs pos)).
      * apply (IH rs k lo b (pos - 1)); auto; try lia.
        intros i Hi. destruct (Z.eq_dec i pos); [subst; auto|].
        destruct (Z_le_gt_dec i e).
        -- specialize (Hinc pos i ltac:(lia) ltac:(lia)). lia.
        -- apply Hr; lia.
      * destruct (Z.ltb_spec (key_at rs pos) k).
        -- apply (IH rs k lo (pos + 1) e); auto; try lia.
           intros i Hi. destruct (Z.eq_dec i pos); [subst; auto|].
           destruct (Z_lt_ge_dec i b).
           ++ apply Hl; lia.
           ++ specialize (Hinc i pos ltac:(lia) ltac:(lia)). lia.
        -- split; [lia|]. split; lia.
    + split; [lia|]. split; auto. intros i Hi. apply Hr. lia.
Qed.

Lemma key_at_S x (rs : list (key * val)) i : 0 <= i -> key_at (x :: rs) (i + 1) = key_at rs i.
Proof. intros. unfold key_at. rewrite Z2Nat.inj_add by lia. rewrite Nat.add_comm. reflexivity. Qed.

Lemma key_at_in rs i : 0 <= i < Z.of_nat (length rs) ->
  exists v, In (key_at rs i, v) rs /\ nth_error rs (Z.to_nat i) = Some (key_at rs i, v).
Proof.
  intros H. unfold key_at.
  destruct (nth (Z.to_nat i) rs (0, 0%N)) as [x v] eqn:E. exists v. simpl.
  assert (HH : (Z.to_nat i < length rs)%nat) by lia.
  split.
  - rewrite <- E. apply nth_In; auto.
  - rewrite <- E. apply nth_error_nth'; auto.
Qed.

Lemma sorted_inc rs : sorted rs -> inc_from 0 rs.
Proof.
  intros Hs i j Hi Hj. unfold key_at.
  revert i j Hi Hj. induction rs as [|[x v] rs IH]; intros i j Hi Hj; simpl in Hj; [lia|].
  apply sorted_cons_inv in Hs as [Hs Hf].
  replace (Z.to_nat j) with (S (Z.to_nat (j - 1))) by lia.
  destruct (Z.eq_dec i 0).
  - subst. simpl. rewrite Forall_forall in Hf.
    apply (Hf (nth (Z.to_nat (j - 1)) rs (0, 0%N))). apply nth_In. lia.
  - replace (Z.to_nat i) with (S (Z.to_nat (i - 1))) by lia. simpl.
    apply IH; auto; lia.
Qed.

Lemma sorted_inc1 x rs : sorted rs -> inc_from 1 (x :: rs).
Proof.
  intros Hs i j Hi Hj. replace i with ((i - 1) + 1) by lia. replace j with ((j - 1) + 1) by lia.
  rewrite !key_at_S by lia. apply sorted_inc; auto; simpl in Hj; lia.
Qed.

(** Result of a search in a sorted record array. *)
Lemma bsearch_find rs k : sorted rs ->
  let '(found, p) := bsearch (S (length rs)) rs k 0 (Z.of_nat (length rs) - 1) in
  match find k rs with
  | Some v => found = true /\ 0 <= p < Z.of_nat (length rs) /\ nth_error rs (Z.to_nat p) = Some (k, v)
  | None => found = false
  end.
Proof.
  intros Hs.
  pose proof (bsearch_spec (S (length rs)) rs k 0 0 (Z.of_nat (length rs) - 1)
    ltac:(lia) (sorted_inc _ Hs) ltac:(lia) ltac:(lia) ltac:(lia) ltac:(lia)
    ltac:(intros; lia) ltac:(intros; lia)) as H.
  destruct (bsearch _ _ _ _ _) as [[|] p]; destruct H as [Hp H].
  - destruct H as [H1 H2]. destruct (key_at_in rs p) as (v & Hin & Hn); [lia|].
    rewrite H2 in *. rewrite (in_find _ _ _ Hs Hin). repeat split; auto; lia.
  - destruct H as [H1 H2]. destruct (find k rs) as [v|] eqn:E; auto.
    apply find_in in E. apply In_nth with (d := (0, 0%N)) in E as (i & Hi & E).
    destruct (Z_lt_ge_dec (Z.of_nat i) p).
    + specialize (H1 (Z.of_nat i) ltac:(lia)). unfold key_at in H1.
      rewrite Nat2Z.id, E in H1. simpl in H1. lia.
    + specialize (H2 (Z.of_nat i) ltac:(lia)). unfold key_at in H2.
      rewrite Nat2Z.id, E in H2. simpl in H2. lia.
Qed.

Lemma route_nth k : forall (l : list (key * val)) d k0 p,
  0 <= p <= Z.of_nat (length l) ->
  (forall i, 0 <= i < p -> key_at l i <= k) ->
  (forall i, p <= i < Z.of_nat (length l) -> k < key_at l i) ->
  nth_error ((k0, d) :: l) (Z.to_nat p) = Some (fst (nth (Z.to_nat p) ((k0, d) :: l) (0, 0%N)), route k d l).
Proof.
  induction l as [|[x v] l IH]; intros d k0 p Hp H1 H2.
  - simpl in Hp. replace p with 0 by lia. reflexivity.
  - simpl in Hp. cbn [route]. destruct (Z.eq_dec p 0).
    + subst. specialize (H2 0 ltac:(simpl; lia)). unfold key_at in H2. simpl in H2.
      destruct (Z.leb_spec x k); [lia|]. reflexivity.
    + specialize (H1 0 ltac:(lia)) as Hx. unfold key_at in Hx. simpl in Hx.
      destruct (Z.leb_spec x k); [|lia].
      replace (Z.to_nat p) with (S (Z.to_nat (p - 1))) by lia.
      apply (IH v x (p - 1)).
      * simpl length in Hp. lia.
      * intros i Hi. specialize (H1 (i + 1) ltac:(lia)). rewrite key_at_S in H1; lia.
      * intros i Hi. specialize (H2 (i + 1) ltac:(simpl length; lia)).
        rewrite key_at_S in H2; lia.
Qed.

Lemma nth_error_pay n p x v : 0 <= p -> nth_error (n_recs n) (Z.to_nat p) = Some (x, v) ->
  pay_at n p = Some v.
Proof. intros H E. unfold pay_at. destruct (Z.ltb_spec p 0); [lia|]. rewrite E. reflexivity. Qed.

(** The key a search bound stands for: an open bound at [k] asks for the keys
    below [k], that is up to [k - 1]. *)
Definition eff (k : key) (closed : bool) : key := if closed then k else k - 1.

Lemma node_search_child_spec n k closed k0 lead ents :
  n_recs n = (k0, lead) :: ents -> sorted ents ->
  node_search_child n k closed = Some (route (eff k closed) lead ents).
Proof.
  intros E Hs. unfold node_search_child. rewrite E.
  set (rs := (k0, lead) :: ents).
  assert (Hlen : Z.of_nat (length rs) = Z.of_nat (length ents) + 1) by (unfold rs; simpl; lia).
  pose proof (bsearch_spec (S (length rs)) rs k 1 1 (Z.of_nat (length rs) - 1)
    ltac:(lia) (sorted_inc1 _ _ Hs) ltac:(lia) ltac:(lia) ltac:(lia) ltac:(lia)
    ltac:(intros; lia) ltac:(intros; lia)) as H.
  assert (HR : forall q, 0 <= q <= Z.of_nat (length ents) ->
     (forall i, 0 <= i < q -> key_at ents i <= eff k closed) ->
     (forall i, q <= i < Z.of_nat (length ents) -> eff k closed < key_at ents i) ->
     pay_at n q = Some (route (eff k closed) lead ents)).
  { intros q Hq Ha Hb. eapply nth_error_pay; [lia|]. rewrite E. apply route_nth; auto. }
  pose proof (sorted_inc _ Hs) as Hinc.
  destruct (bsearch _ _ _ _ _) as [[|] p]; destruct H as [Hp H].
  - destruct H as [H1 H2]. unfold rs in H2. replace p with ((p - 1) + 1) in H2 by lia.
    rewrite key_at_S in H2 by lia. destruct closed; unfold eff in *.
    + apply HR; [lia| |].
      * intros i Hi. destruct (Z.eq_dec i (p - 1)); [subst; lia|].
        specialize (Hinc i (p - 1) ltac:(lia) ltac:(lia)). lia.
      * intros i Hi. specialize (Hinc (p - 1) i ltac:(lia) ltac:(lia)). lia.
    + apply HR; [lia| |].
      * intros i Hi. specialize (Hinc i (p - 1) ltac:(lia) ltac:(lia)). lia.
      * intros i Hi. destruct (Z.eq_dec i (p - 1)); [subst; lia|].
        specialize (Hinc (p - 1) i ltac:(lia) ltac:(lia)). lia.
  - destruct H as [H1 H2]. apply HR; [lia| |].
    + intros i Hi. specialize (H1 (i + 1) ltac:(lia)). unfold rs in H1.
      rewrite key_at_S in H1 by lia. unfold eff; destruct closed; lia.
    + intros i Hi. specialize (H2 (i + 1) ltac:(lia)). unfold rs in H2.
      rewrite key_at_S in H2 by lia. unfold eff; destruct closed; lia.
Qed.

(** Leaf search. *)
Lemma node_search_leaf n k : n_inner n = false -> sorted (n_recs n) ->
  let '(found, p) := node_search n k in
  match find k (n_recs n) with
  | Some v => found = true /\ pay_at n p = Some v
  | None => found = false
  end.
Proof.
  intros Hi Hs. unfold node_search. rewrite Hi. cbn [andb].
  pose proof (bsearch_find (n_recs n) k Hs) as H.
  destruct (bsearch _ _ _ _ _) as [found p]. destruct (find k (n_recs n)); auto.
  destruct H as (H1 & H2 & H3). split; auto. eapply nth_error_pay; eauto. lia.
Qed.

(** Existence search in an inner page (SearchRecord as used by GetHeadForMerge):
    the key-less record of a leftmost page is skipped. *)
Lemma node_search_inner n k k0 lead ents :
  n_inner n = true -> n_recs n = (k0, lead) :: ents -> sorted ents ->
  (is_leftmost n = false -> Forall (fun y => k0 < fst y) ents) ->
  fst (node_search n k) =
  match find k ents with
  | Some _ => true
  | None => negb (is_leftmost n) && (k0 =? k)
  end.
Proof.
  intros Hi E Hs Hf. unfold node_search. rewrite Hi, E. cbn [andb].
  destruct (is_leftmost n).
  - set (rs := (k0, lead) :: ents).
    assert (Hlen : Z.of_nat (length rs) = Z.of_nat (length ents) + 1) by (unfold rs; simpl; lia).
    pose proof (bsearch_spec (S (length rs)) rs k 1 1 (Z.of_nat (length rs) - 1)
      ltac:(lia) (sorted_inc1 _ _ Hs) ltac:(lia) ltac:(lia) ltac:(lia) ltac:(lia)
      ltac:(intros; lia) ltac:(intros; lia)) as H.
    destruct (bsearch _ _ _ _ _) as [[|] p]; destruct H as [Hp H]; simpl.
    + destruct H as [H1 H2]. unfold rs in H2. replace p with ((p - 1) + 1) in H2 by lia.
      rewrite key_at_S in H2 by lia.
      destruct (key_at_in ents (p - 1)) as (v & Hin & _); [lia|].
      rewrite H2 in Hin. rewrite (in_find _ _ _ Hs Hin). auto.
    + destruct H as [H1 H2]. destruct (find k ents) as [v|] eqn:F; auto.
      apply find_in in F. apply In_nth with (d := (0, 0%N)) in F as (i & Hi' & F).
      assert (HK : key_at rs (Z.of_nat i + 1) = k).
      { unfold rs. rewrite key_at_S by lia. unfold key_at. rewrite Nat2Z.id, F. reflexivity. }
      destruct (Z_lt_ge_dec (Z.of_nat i + 1) p).
      * specialize (H1 (Z.of_nat i + 1) ltac:(lia)). lia.
      * specialize (H2 (Z.of_nat i + 1) ltac:(lia)). lia.
  - assert (Hs2 : sorted ((k0, lead) :: ents)) by (apply sorted_cons; auto).
    pose proof (bsearch_find ((k0, lead) :: ents) k Hs2) as H.
    destruct (bsearch _ _ _ _ _) as [found p]. simpl. cbn [find] in H.
    destruct (Z.eqb_spec k0 k).
    + destruct H as (-> & _). destruct (find k ents); auto.
    + destruct (find k ents) as [v|].
      * destruct H as (-> & _). auto.
      * rewrite H. auto.
Qed.
