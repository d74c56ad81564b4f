(** Sorted association lists with integer keys. *)
From Coq Require Import ZArith NArith List Bool Lia.
From Coq Require Import Sorting.Sorted ZifyBool ZifyNat ZifyN.
From Verif Require Import Config.
Import ListNotations.
Open Scope Z_scope.

Section Assoc.
Context {A : Type}.
Implicit Types l : list (key * A).

Definition ltk (x y : key * A) : Prop := fst x < fst y.
Definition sorted l : Prop := StronglySorted ltk l.

Fixpoint find (k : key) l : option A :=
  match l with
  | [] => None
  | (x, v) :: t => if x =? k then Some v else find k t
  end.

(** Insert or replace. *)
Fixpoint put (k : key) (v : A) l : list (key * A) :=
  match l with
  | [] => [(k, v)]
  | (x, w) :: t =>
      if x <? k then (x, w) :: put k v t
      else if k <? x then (k, v) :: (x, w) :: t
      else (k, v) :: t
  end.

Fixpoint del (k : key) l : list (key * A) :=
  match l with
  | [] => []
  | (x, w) :: t => if x =? k then t else (x, w) :: del k t
  end.

Lemma sorted_nil : sorted [].
Proof. constructor. Qed.

Lemma sorted_cons_inv x v l : sorted ((x, v) :: l) -> sorted l /\ Forall (fun y => x < fst y) l.
Proof. intros H. inversion H; subst. split; auto. Qed.

Lemma sorted_cons x v l : sorted l -> Forall (fun y => x < fst y) l -> sorted ((x, v) :: l).
Proof. intros. constructor; auto. Qed.

Lemma find_none_lt k l : Forall (fun y => k < fst y) l -> find k l = None.
Proof.
  induction 1 as [|[x v] l Hx _ IH]; simpl in *; auto.
  destruct (Z.eqb_spec x k); [lia|auto].
Qed.

Lemma find_none_gt k l : Forall (fun y => fst y < k) l -> find k l = None.
Proof.
  induction 1 as [|[x v] l Hx _ IH]; simpl in *; auto.
  destruct (Z.eqb_spec x k); [lia|auto].
Qed.

Lemma find_in k v l : find k l = Some v -> In (k, v) l.
Proof.
  induction l as [|[x w] l IH]; simpl; [discriminate|].
  destruct (Z.eqb_spec x k); intros H; [inversion H; subst; auto|auto].
Qed.

Lemma find_none_in k l : find k l = None -> forall v, ~ In (k, v) l.
Proof.
  induction l as [|[x w] l IH]; simpl; intros H v []; destruct (Z.eqb_spec x k); try discriminate.
  - inversion H0; subst; lia.
  - eapply IH; eauto.
Qed.

Lemma in_find k v l : sorted l -> In (k, v) l -> find k l = Some v.
Proof.
  induction l as [|[x w] l IH]; simpl; intros Hs Hin; [easy|].
  apply sorted_cons_inv in Hs as [Hs Hf].
  destruct Hin as [E|Hin].
  - inversion E; subst. rewrite Z.eqb_refl. auto.
  - destruct (Z.eqb_spec x k); auto. subst.
    rewrite Forall_forall in Hf. specialize (Hf _ Hin). simpl in Hf. lia.
Qed.

Lemma sorted_ext l1 : forall l2, sorted l1 -> sorted l2 ->
  (forall k, find k l1 = find k l2) -> l1 = l2.
Proof.
  induction l1 as [|[x v] l1 IH]; intros [|[y w] l2] H1 H2 E; auto.
  - specialize (E y). simpl in E. rewrite Z.eqb_refl in E. discriminate.
  - specialize (E x). simpl in E. rewrite Z.eqb_refl in E. discriminate.
  - apply sorted_cons_inv in H1 as [H1 F1]. apply sorted_cons_inv in H2 as [H2 F2].
    assert (x = y).
    { pose proof (E x) as Ex. pose proof (E y) as Ey. simpl in Ex, Ey.
      rewrite Z.eqb_refl in Ex, Ey.
      destruct (Z.lt_trichotomy x y) as [L|[L|L]]; auto.
      - destruct (Z.eqb_spec y x); [lia|].
        rewrite find_none_lt in Ex; [discriminate|].
        eapply Forall_impl; [|apply F2]. simpl; intros; lia.
      - destruct (Z.eqb_spec x y); [lia|].
        rewrite find_none_lt in Ey; [discriminate|].
        eapply Forall_impl; [|apply F1]. simpl; intros; lia. }
    subst y. pose proof (E x) as Ex. simpl in Ex. rewrite Z.eqb_refl in Ex. inversion Ex; subst.
    f_equal. apply IH; auto. intros k.
    destruct (Z.eqb_spec x k).
    + subst k. rewrite !find_none_lt; auto.
    + specialize (E k). simpl in E. destruct (Z.eqb_spec x k); [lia|auto].
Qed.

Lemma put_in k v l y : In y (put k v l) -> y = (k, v) \/ In y l.
Proof.
  induction l as [|[x w] l IH]; simpl.
  - intuition.
  - destruct (x <? k); [|destruct (k <? x)]; simpl; intuition.
Qed.

Lemma put_forall (P : key * A -> Prop) k v l : P (k, v) -> Forall P l -> Forall P (put k v l).
Proof.
  intros H1 H2. apply Forall_forall. intros y Hy. apply put_in in Hy as [->|Hy]; auto.
  rewrite Forall_forall in H2. auto.
Qed.

Lemma put_sorted k v l : sorted l -> sorted (put k v l).
Proof.
  induction l as [|[x w] l IH]; simpl; intros Hs.
  - apply sorted_cons; auto.
  - pose proof (sorted_cons_inv _ _ _ Hs) as [Hs' Hf].
    destruct (Z.ltb_spec x k).
    + apply sorted_cons; auto. apply put_forall; auto.
    + destruct (Z.ltb_spec k x).
      * apply sorted_cons; auto. constructor; simpl; auto.
        eapply Forall_impl; [|apply Hf]. simpl; intros; lia.
      * assert (x = k) by lia. subst. apply sorted_cons; auto.
Qed.

Lemma find_put k v l k' : sorted l ->
  find k' (put k v l) = if k' =? k then Some v else find k' l.
Proof.
  induction l as [|[x w] l IH]; simpl; intros Hs.
  - destruct (Z.eqb_spec k k'), (Z.eqb_spec k' k); auto; lia.
  - pose proof (sorted_cons_inv _ _ _ Hs) as [Hs' Hf].
    destruct (Z.ltb_spec x k); simpl.
    + rewrite IH; auto. destruct (Z.eqb_spec x k'), (Z.eqb_spec k' k); auto; lia.
    + destruct (Z.ltb_spec k x); simpl.
      * destruct (Z.eqb_spec k k'), (Z.eqb_spec k' k); auto; lia.
      * destruct (Z.eqb_spec k k'), (Z.eqb_spec k' k), (Z.eqb_spec x k'); auto; lia.
Qed.

Lemma del_in k l y : In y (del k l) -> In y l.
Proof.
  induction l as [|[x w] l IH]; simpl; auto.
  destruct (x =? k); simpl; intuition.
Qed.

Lemma del_forall (P : key * A -> Prop) k l : Forall P l -> Forall P (del k l).
Proof.
  rewrite !Forall_forall. intros H y Hy. apply H. eapply del_in; eauto.
Qed.

Lemma del_sorted k l : sorted l -> sorted (del k l).
Proof.
  induction l as [|[x w] l IH]; simpl; intros Hs; auto.
  pose proof (sorted_cons_inv _ _ _ Hs) as [Hs' Hf].
  destruct (x =? k); auto. apply sorted_cons; auto. apply del_forall; auto.
Qed.

Lemma find_del k l k' : sorted l ->
  find k' (del k l) = if k' =? k then None else find k' l.
Proof.
  induction l as [|[x w] l IH]; simpl; intros Hs.
  - destruct (k' =? k); auto.
  - pose proof (sorted_cons_inv _ _ _ Hs) as [Hs' Hf].
    destruct (Z.eqb_spec x k); simpl.
    + subst. destruct (Z.eqb_spec k' k).
      * subst. apply find_none_lt; auto.
      * destruct (Z.eqb_spec k k'); auto; lia.
    + rewrite IH; auto. destruct (Z.eqb_spec x k'), (Z.eqb_spec k' k); auto; lia.
Qed.

Lemma sorted_app l1 l2 : sorted l1 -> sorted l2 ->
  (forall x y, In x l1 -> In y l2 -> fst x < fst y) -> sorted (l1 ++ l2).
Proof.
  induction l1 as [|[x v] l1 IH]; simpl; intros H1 H2 H; auto.
  apply sorted_cons_inv in H1 as [H1 F1]. apply sorted_cons.
  - apply IH; auto.
  - apply Forall_app; split; auto. apply Forall_forall. intros y Hy.
    apply (H (x, v) y); auto.
Qed.

Lemma sorted_app_inv l1 l2 : sorted (l1 ++ l2) ->
  sorted l1 /\ sorted l2 /\ (forall x y, In x l1 -> In y l2 -> fst x < fst y).
Proof.
  induction l1 as [|[x v] l1 IH]; simpl; intros H.
  - split; [constructor|split; auto; easy].
  - apply sorted_cons_inv in H as [H F]. apply IH in H as (H1 & H2 & H3).
    apply Forall_app in F as [F1 F2]. split; [apply sorted_cons; auto|split; auto].
    intros a b [<-|Ha] Hb; auto. rewrite Forall_forall in F2. apply F2; auto.
Qed.

Lemma find_app k l1 l2 :
  find k (l1 ++ l2) = match find k l1 with Some v => Some v | None => find k l2 end.
Proof.
  induction l1 as [|[x v] l1 IH]; simpl; auto. destruct (x =? k); auto.
Qed.

(** Greatest entry not above [k], or [d]. *)
Fixpoint route (k : key) (d : A) l : A :=
  match l with
  | [] => d
  | (x, v) :: t => if x <=? k then route k v t else d
  end.

Lemma route_app_lt k d l1 l2 : Forall (fun y => k < fst y) l2 ->
  route k d (l1 ++ l2) = route k d l1.
Proof.
  intros H. revert d. induction l1 as [|[x v] l1 IH]; simpl; intros d.
  - destruct l2 as [|[y w] l2]; simpl; auto. inversion H; subst. simpl in *.
    destruct (Z.leb_spec y k); [lia|auto].
  - destruct (x <=? k); auto.
Qed.

Lemma route_all_le k d l1 l2 : Forall (fun y => fst y <= k) l1 ->
  route k d (l1 ++ l2) = route k (last (map snd l1) d) l2.
Proof.
  intros H. revert d. induction H as [|[x v] l1 Hx H IH]; simpl in *; intros d; auto.
  destruct (Z.leb_spec x k); [|lia]. rewrite IH. destruct l1 as [|[y w] l1]; simpl; auto.
  f_equal. clear. revert w. induction l1 as [|[z u] l1 IH]; simpl; auto.
Qed.

Lemma route_in k d l : route k d l = d \/ exists x, In (x, route k d l) l /\ x <= k.
Proof.
  revert d. induction l as [|[x v] l IH]; simpl; intros d; auto.
  destruct (Z.leb_spec x k); auto.
  destruct (IH v) as [E|(y & Hy & L)].
  - right. exists x. split; auto. rewrite E; auto.
  - right. exists y. split; auto.
Qed.
End Assoc.

Arguments sorted {A} l.
Arguments find {A} k l.
Arguments put {A} k v l.
Arguments del {A} k l.
Arguments route {A} k d l.
