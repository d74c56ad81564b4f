(** Lemmas behind PropTree.v: the bulk-load partition, the non-terminating bulk
    load, and a criterion for histories that are not linearizable. *)
From Coq Require Import ZArith NArith List Bool Lia.
From Verif Require Import Config Api Page Machine Tree Bulk Spec.
Import ListNotations.
Open Scope Z_scope.

(** ** Partition *)

Lemma part_size_cases n T i : 0 <= n -> 0 < T -> 0 <= i < T ->
  part_size n T i = n / T + (if T <=? n mod T + i then 1 else 0).
Proof.
  intros Hn HT Hi. unfold part_size.
  pose proof (Z.div_mod n T ltac:(lia)) as E. pose proof (Z.mod_pos_bound n T HT) as B.
  destruct (T <=? n mod T + i) eqn:C.
  - apply Z.leb_le in C. symmetry. apply (Z.div_unique _ _ _ (n mod T + i - T)); lia.
  - apply Z.leb_gt in C. symmetry. apply (Z.div_unique _ _ _ (n mod T + i)); lia.
Qed.

Lemma partition_ok {A} T n : 0 <= n -> 0 < T -> forall cnt i (es : list A), 0 <= i ->
  i + Z.of_nat cnt = T ->
  Z.of_nat (length es) = n - (i * (n / T) + Z.max 0 (i - (T - n mod T))) ->
  let ps := partition T i cnt n es in
  concat ps = es /\ length ps = cnt /\
  Forall (fun p => n / T <= Z.of_nat (length p) <= n / T + 1) ps.
Proof.
  intros Hn HT. induction cnt; intros i es Hi Hc Hl.
  - cbn. pose proof (Z.div_mod n T ltac:(lia)). pose proof (Z.mod_pos_bound n T HT).
    replace i with T in Hl by lia. destruct es; [repeat split; constructor|].
    cbn [length] in Hl. nia.
  - cbn [partition]. pose proof (part_size_cases n T i Hn HT ltac:(lia)) as P.
    pose proof (Z.div_mod n T ltac:(lia)) as E. pose proof (Z.mod_pos_bound n T HT) as B.
    assert (Q : 0 <= n / T) by (apply Z.div_pos; lia).
    set (q := n / T) in *. set (r := n mod T) in *.
    assert (LE : part_size n T i <= Z.of_nat (length es)).
    { rewrite P, Hl. rewrite E.
      destruct (Z.leb_spec T (r + i)); nia. }
    assert (L0 : 0 <= part_size n T i) by (rewrite P; destruct (T <=? r + i); lia).
    set (m := Z.to_nat (part_size n T i)) in *.
    assert (Hm : Z.of_nat m = part_size n T i) by (unfold m; lia).
    destruct (IHcnt (i + 1) (skipn m es)) as (I1 & I2 & I3); [lia|lia| |].
    { rewrite skipn_length. rewrite Nat2Z.inj_sub by lia. rewrite Hm, Hl, P.
      destruct (Z.leb_spec T (r + i)); lia. }
    cbn [concat length]. rewrite I1, I2, firstn_skipn. split; [auto|split; [auto|]].
    constructor; auto. rewrite firstn_length, Nat.min_l by lia. rewrite Hm, P.
    destruct (T <=? r + i); lia.
Qed.

Lemma c16 {A} (es : list A) T : 1 <= T <= Z.of_nat (length es) ->
  let ps := partition T 0 (Z.to_nat T) (Z.of_nat (length es)) es in
  concat ps = es /\ Z.of_nat (length ps) = T /\
  (forall p, In p ps -> p <> []) /\
  (forall p q, In p ps -> In q ps ->
     Z.abs (Z.of_nat (length p) - Z.of_nat (length q)) <= 1).
Proof.
  intros H. set (n := Z.of_nat (length es)) in *.
  destruct (partition_ok T n ltac:(lia) ltac:(lia) (Z.to_nat T) 0 es) as (I1 & I2 & I3);
    try lia.
  { pose proof (Z.mod_pos_bound n T ltac:(lia)). lia. }
  assert (Q : 1 <= n / T) by (apply Z.div_le_lower_bound; lia).
  rewrite Forall_forall in I3. split; auto. split; [lia|]. split.
  - intros p Hp Hn. apply I3 in Hp. rewrite Hn in Hp. cbn in Hp. lia.
  - intros p q Hp Hq. apply I3 in Hp. apply I3 in Hq. lia.
Qed.

(** ** A bulk load that does not terminate *)

(** BwTreeFixLen with 240-byte keys and 8-byte payloads in the default build
    (header 16 + 2 * 240): accepted by the static assertion of bw_tree.hpp:1683. *)
Definition cfg_fix240 : cfg :=
  mk_cfg false (fun _ => 240) 240 240 8 496 1024 64 4 64 921 0 false.

Lemma run_bind {A B} (m : prog A) (f : A -> prog B) : forall s,
  run (bind m f) s = match run m s with
                     | Done a s' => run (f a) s' | Crash u => Crash u | NoFuel => NoFuel end.
Proof.
  induction m; intros s; cbn; auto.
  - destruct (s_tbl s p); auto.
  - destruct (cas_ok s weak false p e); auto.
  - destruct (s_root s =? old)%N; auto.
Qed.

Lemma layer240 inner p q s : forall f,
  run (construct_layer cfg_fix240 f inner [(1, p); (2, q)] None) s = NoFuel \/
  exists p' q' s',
    run (construct_layer cfg_fix240 f inner [(1, p); (2, q)] None) s
      = Done [(1, p'); (2, q')] s'.
Proof.
  intros [|[|[|f]]]; [left; destruct inner; reflexivity..|].
  right. destruct inner; repeat eexists.
Qed.

Lemma partial240 : forall f p q h s,
  run (partial_layers cfg_fix240 f [(1, p); (2, q)] h) s = NoFuel.
Proof.
  induction f; intros p q h s; [reflexivity|].
  cbn [partial_layers]. change (inner_cap cfg_fix240 <? Z.of_nat (length [(1, p); (2, q)])) with true.
  cbn iota. rewrite run_bind. destruct (layer240 true p q s f) as [E | (p' & q' & s' & E)];
    rewrite E; auto.
Qed.

Lemma c17 : forall f s, run (op_bulkload cfg_fix240 f [(1, 10%N); (2, 20%N)] 1) s = NoFuel.
Proof.
  intros f s. unfold op_bulkload.
  change ((1 <=? 1) || (Z.of_nat (length [(1, 10%N); (2, 20%N)]) <? 1)) with true. cbn iota.
  unfold bulk_single. rewrite run_bind, run_bind, run_bind.
  destruct (layer240 false 10%N 20%N s f) as [E | (p' & q' & s' & E)]; rewrite E; auto.
  rewrite partial240. reflexivity.
Qed.

(** ** Histories that are not linearizable *)

(** [clash k h]: no call in [h] deletes [k], and some Read of [k] invoked after a
    completed Write of [k] returns nothing.  [w t]: thread [t] has a Write of [k]
    in progress; [r t]: a Read of [k] invoked while [k] was present. *)
Definition fset (f : tid -> bool) (t : tid) (b : bool) : tid -> bool :=
  fun u => if Nat.eqb u t then b else f u.
Fixpoint clash (k : key) (pres : bool) (w r : tid -> bool) (h : list event) : bool :=
  match h with
  | [] => false
  | EInv t (KWrite k' _) :: h' => clash k pres (fset w t (k' =? k)) (fset r t false) h'
  | EInv t (KRead k') :: h' => clash k pres (fset w t false) (fset r t (pres && (k' =? k))) h'
  | EInv t (KDelete k') :: h' =>
      negb (k' =? k) && clash k pres (fset w t false) (fset r t false) h'
  | EInv t _ :: h' => clash k pres (fset w t false) (fset r t false) h'
  | ERes t (RVal None) :: h' => r t || clash k pres (fset w t false) (fset r t false) h'
  | ERes t _ :: h' => clash k (pres || w t) (fset w t false) (fset r t false) h'
  end.

Definition never (k : key) (f : tid -> status) : Prop := forall t, f t <> SPend (KDelete k).
Definition wrel (k : key) (m : smap) (w : tid -> bool) (f : tid -> status) : Prop :=
  forall t, w t = true ->
    (exists v, f t = SPend (KWrite k v)) \/ (exists x, f t = SDone x) /\ m k <> None.
Definition rrel (k : key) (r : tid -> bool) (f : tid -> status) : Prop :=
  forall t, r t = true -> f t = SPend (KRead k) \/ exists v, f t = SDone (RVal (Some v)).

Lemma spec_keeps k m o : o <> KDelete k -> m k <> None -> snd (spec m o) k <> None.
Proof.
  intros H H0. destruct o as [k0|k0 v|k0 v|k0 v|k0]; cbn;
    try destruct (m k0) eqn:?; cbn; unfold sset; try (destruct (k =? k0) eqn:E);
    try congruence; auto.
  all: apply Z.eqb_eq in E; subst; congruence.
Qed.

Lemma clash_not_lin k m f h : lin m f h -> forall pres w r,
  (pres = true -> m k <> None) -> (forall t, r t = true -> m k <> None) ->
  never k f -> wrel k m w f -> rrel k r f -> clash k pres w r h = false.
Proof.
  induction 1 as [m f | m f t o h Ht H IH | m f t x h Ht H IH | m f t o h Ht H IH];
    intros pres w r Hp Hr Hn Hw Hrr.
  - reflexivity.
  - assert (G : o <> KDelete k -> forall bw br,
      (bw = true -> exists v, o = KWrite k v) -> (br = true -> pres = true /\ o = KRead k) ->
      clash k pres (fset w t bw) (fset r t br) h = false).
    { intros No bw br Hbw Hbr. apply IH; auto.
      - intros u Hu. unfold fset in Hu. destruct (Nat.eqb u t); eauto.
        apply Hp, Hbr, Hu.
      - intros u. unfold tset. destruct (Nat.eqb u t); auto. congruence.
      - intros u Hu. unfold fset in Hu. unfold tset. destruct (Nat.eqb u t); auto.
        destruct (Hbw Hu) as (v & ->). eauto.
      - intros u Hu. unfold fset in Hu. unfold tset. destruct (Nat.eqb u t); auto.
        destruct (Hbr Hu) as (_ & ->). auto. }
    destruct o as [k'|k' v|k' v|k' v|k']; cbn [clash].
    + apply G; try congruence. intros E. apply andb_true_iff in E as (E1 & E2).
      apply Z.eqb_eq in E2. subst. auto.
    + apply G; try congruence. intros E. apply Z.eqb_eq in E. subst. eauto.
    + apply G; try congruence.
    + apply G; try congruence.
    + destruct (k' =? k) eqn:E; [reflexivity|]. cbn [negb andb]. apply G; try congruence.
      intros E1. injection E1 as ->. rewrite Z.eqb_refl in E. congruence.
  - assert (G : forall pr, (pr = true -> m k <> None) ->
      clash k pr (fset w t false) (fset r t false) h = false).
    { intros pr Hpr. apply IH; auto.
      - intros u Hu. unfold fset in Hu. destruct (Nat.eqb u t); eauto. discriminate.
      - intros u. unfold tset. destruct (Nat.eqb u t); auto. congruence.
      - intros u Hu. unfold fset in Hu. unfold tset. destruct (Nat.eqb u t); auto. discriminate.
      - intros u Hu. unfold fset in Hu. unfold tset. destruct (Nat.eqb u t); auto. discriminate. }
    assert (W : pres || w t = true -> m k <> None).
    { intros E. apply orb_true_iff in E as [E | E]; auto.
      destruct (Hw t E) as [(v & E1) | (_ & E1)]; auto. congruence. }
    cbn [clash]. destruct x as [[v|]|c]; auto.
    rewrite (G pres Hp), orb_false_r. destruct (r t) eqn:Er; auto.
    destruct (Hrr t Er) as [E | (v & E)]; congruence.
  - assert (No : o <> KDelete k) by (intros ->; apply (Hn t Ht)).
    apply IH.
    + intros E. apply spec_keeps; auto.
    + intros u E. apply spec_keeps; eauto.
    + intros u. unfold tset. destruct (Nat.eqb u t); auto. congruence.
    + intros u Hu. unfold tset. destruct (Nat.eqb u t) eqn:E.
      * apply Nat.eqb_eq in E. subst u. right. split; eauto.
        destruct (Hw t Hu) as [(v & E1) | ((x & E1) & _)]; [|congruence].
        rewrite Ht in E1. injection E1 as ->. cbn. unfold sset. rewrite Z.eqb_refl. congruence.
      * destruct (Hw u Hu) as [? | (? & ?)]; auto. right. split; auto. apply spec_keeps; auto.
    + intros u Hu. unfold tset. destruct (Nat.eqb u t) eqn:E; auto.
      apply Nat.eqb_eq in E. subst u. right.
      destruct (Hrr t Hu) as [E1 | (x & E1)]; [|congruence].
      rewrite Ht in E1. injection E1 as ->. cbn. specialize (Hr t Hu).
      destruct (m k) as [v|]; [eauto | congruence].
Qed.

Lemma not_lin k h : clash k false (fun _ => false) (fun _ => false) h = true ->
  ~ linearizable sempty h.
Proof.
  intros H L. rewrite (clash_not_lin k _ _ _ L) in H; try discriminate.
  all: intros t; discriminate.
Qed.
