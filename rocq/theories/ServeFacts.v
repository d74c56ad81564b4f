(** What [replies] means for single keys. *)
From Coq Require Import ZArith NArith List Bool Lia Sorting.Sorted.
From Verif Require Import Config Api Spec ScanSpec Page Machine Tree Scan Client ClientSpec Valid Serve.
Import ListNotations.
Open Scope Z_scope.

Lemma replies_app pre : forall M w qs l0 l, length l0 = length pre -> replies M w (pre ++ qs) (l0 ++ l) ->
  exists w', replies (after_reqs M pre) w' qs l.
Proof.
  induction pre as [|q pre IH]; intros M w qs [|a l0] l Hl H; try discriminate; [exists w; exact H|].
  injection Hl as Hl. destruct q as [o|b e| |d]; destruct a as [r| |x| |st]; cbn [app replies after_reqs] in *; try contradiction.
  - destruct H as [_ H]. eauto.
  - eauto.
  - destruct w as [[[[b e] log] rs]|]; [|contradiction]. destruct H as [_ H]. eauto.
  - destruct H as [_ H]. eauto.
  - destruct H as [_ H]. eauto.
Qed.

Lemma spec_other k o M : spares k (QCall o) -> snd (spec M o) k = M k.
Proof.
  destruct o as [k'|k' v|k' v|k' v|k']; cbn [spares spec]; intros H; auto;
    try (destruct (M k'); auto); cbn [snd]; unfold sset; destruct (Z.eqb_spec k k'); congruence.
Qed.

Lemma sorted_last (l : list (key * val)) : forall x, StronglySorted (fun x y => fst x < fst y) (l ++ [x]) ->
  StronglySorted (fun x y => fst x < fst y) l.
Proof.
  induction l as [|y l IH]; intros x H; [constructor|]. cbn [app] in H. inversion H as [|? ? H1 H2]; subst.
  constructor; [eauto|]. apply Forall_app in H2. tauto.
Qed.

Lemma replies_sorted qs : forall M b e log rs l, replies M (Some (b, e, log, rs)) qs l -> Forall no_open qs ->
  StronglySorted (fun x y => fst x < fst y) rs -> StronglySorted (fun x y => fst x < fst y) (rs ++ recs l).
Proof.
  induction qs as [|q qs IH]; intros M b e log rs l H Hn Hs.
  - destruct l; [|contradiction]. cbn. rewrite app_nil_r. exact Hs.
  - inversion Hn as [|? ? N1 N2]; subst.
    destruct q as [o|b' e'| |d]; destruct l as [|[r| |x| |st] l]; cbn [replies no_open recs flat_map app watch] in *; try contradiction.
    + destruct H as [_ H]. eapply IH; eauto.
    + destruct H as [S H]. specialize (IH _ _ _ _ _ _ H N2 (proj1 S)). rewrite <- app_assoc in IH. exact IH.
    + destruct H as [_ H]. eapply IH; eauto.
    + destruct H as [_ H]. eapply IH; eauto.
Qed.

Lemma seen_same log (M : smap) i k v : Forall (fun M' : smap => M' k = M k) log -> seen log i k v -> M k = v.
Proof. intros F (M' & E & <-). rewrite Forall_forall in F. apply nth_error_In in E. symmetry. auto. Qed.

Lemma in_sorted_eq (rs t : list (key * val)) k v v' : StronglySorted (fun x y => fst x < fst y) (rs ++ (k, v) :: t) -> In (k, v') t -> False.
Proof.
  induction rs as [|x rs IH]; cbn [app]; intros H Hi; inversion H as [|? ? H1 H2]; subst; [|auto].
  rewrite Forall_forall in H2. specialize (H2 _ Hi). cbn in H2. lia.
Qed.

Lemma replies_late k qs : forall M b e log rs l, replies M (Some (b, e, log, rs)) qs l -> unspoilt k qs l ->
  Forall (fun M' : smap => M' k = M k) log -> ~ In k (map fst rs) ->
  StronglySorted (fun x y => fst x < fst y) rs ->
  (forall v, In (k, v) (recs l) -> M k = Some v) /\
  (In AEnd l -> after b k -> before e k -> forall v, M k = Some v -> In (k, v) (recs l)).
Proof.
  induction qs as [|q qs IH]; intros M b e log rs l H Hl Hf Hn Hs.
  - destruct l; [|contradiction]. split; [intros ? []|intros []].
  - destruct q as [o|b' e'| |d]; destruct l as [|[r| |x| |st] l]; cbn [replies unspoilt recs flat_map app watch] in *; try contradiction;
      destruct Hl as [Sp Hl].
    + destruct H as [_ H]. pose proof (spec_other k o M Sp) as E.
      destruct (IH _ _ _ _ _ _ H Hl) as [A B]; auto.
      * apply Forall_app. rewrite E. split; auto.
      * rewrite E in A, B. split; auto. intros [X|X]; [discriminate|auto].
    + destruct Sp.
    + destruct H as [S H]. destruct x as [k' v']. destruct (Z.eqb_spec k' k) as [->|Hne].
      * pose proof S as (S1 & at_ & _ & _ & S2 & _).
        destruct (S2 k v' ltac:(apply in_app_iff; right; left; auto)) as (_ & _ & X).
        pose proof (seen_same _ _ _ _ _ Hf X) as Ev.
        pose proof (replies_sorted qs _ _ _ _ _ _ H Hl S1) as S3. rewrite <- app_assoc in S3. cbn [app] in S3. split.
        -- intros v [E|Hi]; [injection E as ->; exact Ev|]. destruct (in_sorted_eq _ _ _ _ _ S3 Hi).
        -- intros _ _ _ v E. left. congruence.
      * destruct (IH _ _ _ _ _ _ H Hl) as [A B]; auto.
        -- rewrite map_app, in_app_iff. cbn. tauto.
        -- apply S.
        -- split.
           ++ intros v [E|Hi]; [congruence|auto].
           ++ intros [X|X] Ha Hb v Ev; [discriminate|]. right. auto.
    + destruct H as [S H]. destruct (IH _ _ _ _ _ _ H Hl) as [A B]; auto. split; auto.
      intros _ Ha Hb v Ev. exfalso. destruct S as (_ & at_ & _ & _ & _ & S3).
      specialize (S3 k Ha Hb (or_introl eq_refl) Hn). pose proof (seen_same _ _ _ _ _ Hf S3). congruence.
    + destruct H as [_ H]. destruct (IH _ _ _ _ _ _ H Hl) as [A B]; auto. split; auto. intros [X|X]; [discriminate|auto].
Qed.

(** The answers of a user's iterator. *)
Lemma replies_split pre : forall M w b e qs l, replies M w (pre ++ QOpen b e :: qs) l ->
  exists l0 l1, l = l0 ++ AOpen :: l1 /\ length l0 = length pre.
Proof.
  induction pre as [|q pre IH]; intros M w b e qs l H.
  - destruct l as [|[r| |x| |st] l]; cbn [app replies] in H; try contradiction. exists [], l. auto.
  - assert (exists a l', l = a :: l' /\ exists M' w', replies M' w' (pre ++ QOpen b e :: qs) l') as (a & l' & -> & M' & w' & H').
    { destruct q as [o|b' e'| |d]; destruct l as [|[r| |x| |st] l]; cbn [app replies] in H; try contradiction; eexists _, l; (split; [reflexivity|]);
        try (destruct w as [[[[b0 e0] log] rs]|]; try contradiction); try destruct H as [_ H]; eauto. }
    destruct (IH _ _ _ _ _ _ H') as (l0 & l1 & -> & E). exists (a :: l0), l1. cbn. rewrite E. auto.
Qed.
Lemma replies_user M0 pre b e qs l : replies M0 None (pre ++ QOpen b e :: qs) l ->
  exists l0 l1, l = l0 ++ AOpen :: l1 /\ length l0 = length pre /\
    (Forall no_open qs -> StronglySorted (fun x y => fst x < fst y) (recs l1)) /\
    (forall k v, unspoilt k qs l1 -> In AEnd l1 -> after b k -> before e k -> (In (k, v) (recs l1) <-> after_reqs M0 pre k = Some v)).
Proof.
  intros H. destruct (replies_split _ _ _ _ _ _ _ H) as (l0 & l1 & -> & E). exists l0, l1. split; [reflexivity|]. split; [exact E|].
  apply replies_app in H as (w & H); auto. cbn [replies] in H. split.
  - intros Hn. exact (replies_sorted _ _ _ _ _ _ _ H Hn (SSorted_nil _)).
  - intros k v Hl Hi Ha Hb. destruct (replies_late k _ _ _ _ _ _ _ H Hl) as [A B]; auto; try (constructor; auto); cbn; auto.
Qed.
