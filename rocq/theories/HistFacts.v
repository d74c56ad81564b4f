(** Histories whose states are explained by a map (C43, C44). *)
From Coq Require Import ZArith NArith List Bool Lia.
From Verif Require Import Config Api Page Machine Tree Spec Conc ConcSpec Valid ConcChain ConcMain WinFacts HistSpec.
Import ListNotations.

(** The history [h] leads from the map [M0] to the map [m] with the calls [f] in progress. *)
Inductive reach (M0 : smap) : smap -> (tid -> status) -> list event -> Prop :=
| re_nil : reach M0 M0 (fun _ => SIdle) []
| re_inv m f h t o : reach M0 m f h -> f t = SIdle -> reach M0 m (tset f t (SPend o)) (h ++ [EInv t o])
| re_res m f h t r : reach M0 m f h -> f t = SDone r -> reach M0 m (tset f t SIdle) (h ++ [ERes t r])
| re_eff m f h t o : reach M0 m f h -> f t = SPend o ->
    reach M0 (snd (spec m o)) (tset f t (SDone (fst (spec m o)))) h.

Lemma explained_reach M0 g fuel c M f sch : explained g fuel c M f sch -> forall h, reach M0 M f h ->
  exists M' f', reach M0 M' f' (h ++ snd (exec g fuel c sch)) /\ reads_as g (c_mem (fst (exec g fuel c sch))) M'.
Proof.
  intros X. induction X as [c M f HR|c M f t b sch c' h' M' f' HR ST EF X IH]; intros h R.
  - exists M, f. cbn. rewrite app_nil_r. auto.
  - cbn [exec]. rewrite ST. destruct (exec g fuel c' sch) as [c2 h2] eqn:E. cbn [fst snd] in *.
    destruct (IH (h ++ h')) as (M2 & f2 & R2 & H2).
    + inversion EF; subst; rewrite ?app_nil_r; auto; [constructor|constructor|apply re_eff]; auto.
    + exists M2, f2. rewrite app_assoc. auto.
Qed.

Lemma pend_app h p e : pending p (h ++ [e]) =
  match e with EInv t o => cset (pending p h) t (Some o) | ERes t _ => cset (pending p h) t None end.
Proof. revert p. induction h as [|[u o|u r] h IH]; intros p; cbn; [destruct e; auto|apply IH|apply IH]. Qed.

(** Statuses and the calls in progress agree. *)
Lemma reach_pend M0 m f h : reach M0 m f h -> forall t,
  match f t with
  | SIdle => pending no_call h t = None
  | SPend o => pending no_call h t = Some o
  | SDone _ => exists o, pending no_call h t = Some o
  end.
Proof.
  induction 1 as [|m f h t o R IH E|m f h t r R IH E|m f h t o R IH E]; intros u.
  - reflexivity.
  - rewrite pend_app. unfold tset, cset. destruct (Nat.eqb u t); auto. apply IH.
  - rewrite pend_app. unfold tset, cset. destruct (Nat.eqb u t); auto. apply IH.
  - specialize (IH u). unfold tset. destruct (Nat.eqb_spec u t) as [->|]; auto. rewrite E in IH. eauto.
Qed.

Lemma pend_in h t o : pending no_call h t = Some o -> In (EInv t o) h.
Proof.
  assert (G : forall h p, pending p h t = Some o -> p t = Some o \/ In (EInv t o) h).
  { clear h. induction h as [|[u x|u x] h IH]; intros p H; cbn in *; auto.
    - apply IH in H as [H|H]; auto. unfold cset in H. destruct (Nat.eqb_spec t u) as [->|]; auto. inversion H; auto.
    - apply IH in H as [H|H]; auto. unfold cset in H. destruct (Nat.eqb t u); [discriminate|auto]. }
  intros H. apply G in H as [H|H]; auto. discriminate.
Qed.

(** ** C43 *)

Definition written (h : list event) (k : key) (v : val) : Prop :=
  exists u o, In (EInv u o) h /\ stores k v o.

Lemma written_app h h' k v : written h k v -> written (h ++ h') k v.
Proof. intros (u & o & H & S). exists u, o. split; auto. apply in_app_iff. auto. Qed.

Lemma spec_values m o k v : snd (spec m o) k = Some v -> m k = Some v \/ stores k v o.
Proof.
  unfold stores. destruct o as [x|x w|x w|x w|x]; cbn [spec]; auto; try (destruct (m x); cbn [snd]; auto);
    cbn [snd]; unfold sset; destruct (Z.eqb_spec k x) as [->|]; auto; intros H; inversion H; auto.
Qed.

Lemma reach_values M0 m f h : reach M0 m f h ->
  (forall k v, m k = Some v -> M0 k = Some v \/ written h k v) /\
  (forall t k v, pending no_call h t = Some (KRead k) -> f t = SDone (RVal (Some v)) -> M0 k = Some v \/ written h k v) /\
  values_from M0 h.
Proof.
  induction 1 as [|m f h t o R (I1 & I2 & I3) E|m f h t r R (I1 & I2 & I3) E|m f h t o R (I1 & I2 & I3) E].
  - split; [auto|]. split; [discriminate|]. intros [|] ? ? ? ? X; discriminate.
  - split; [|split].
    + intros k v H. apply I1 in H as [H|H]; auto. right. apply written_app; auto.
    + intros u k v. rewrite pend_app. unfold cset, tset. destruct (Nat.eqb u t); [discriminate|].
      intros H1 H2. destruct (I2 u k v H1 H2) as [H|H]; auto. right. apply written_app; auto.
    + intros h1 u v h2 k X P. destruct h2 as [|e h2 _] using rev_ind.
      * apply app_inj_tail in X as [_ X]. discriminate.
      * rewrite app_comm_cons, app_assoc in X. apply app_inj_tail in X as [X _]. eapply I3; eauto.
  - split; [|split].
    + intros k v H. apply I1 in H as [H|H]; auto. right. apply written_app; auto.
    + intros u k v. rewrite pend_app. unfold cset, tset. destruct (Nat.eqb u t); [discriminate|].
      intros H1 H2. destruct (I2 u k v H1 H2) as [H|H]; auto. right. apply written_app; auto.
    + intros h1 u v h2 k X P. destruct h2 as [|e h2 _] using rev_ind.
      * apply app_inj_tail in X as [-> X]. inversion X; subst. eapply I2; eauto.
      * rewrite app_comm_cons, app_assoc in X. apply app_inj_tail in X as [X _]. eapply I3; eauto.
  - pose proof (reach_pend _ _ _ _ R t) as P. rewrite E in P.
    assert (J : forall k v, snd (spec m o) k = Some v -> M0 k = Some v \/ written h k v).
    { intros k v H. apply spec_values in H as [H|H]; auto. right. exists t, o. split; auto. apply pend_in; auto. }
    split; [|split]; auto. intros u k v H1. unfold tset. destruct (Nat.eqb_spec u t) as [->|]; [|eauto].
    rewrite P in H1. inversion H1; subst. cbn [spec fst]. intros H. injection H as H. auto.
Qed.

Lemma conc_values g fuel todos sch : cfg_ok g -> hdr_ok g -> no_merge g ->
  values_from_calls (snd (exec g fuel (start (init g) todos) sch)).
Proof.
  intros OK HO NM. destruct (explained_reach sempty _ _ _ _ _ _ (conc_explained g fuel todos sch OK HO NM) [] (re_nil _))
    as (M & f & R & _). destruct (reach_values _ _ _ _ R) as (_ & _ & V). intros h1 t v h2 k E P.
  destruct (V h1 t v h2 k E P) as [X|X]; [discriminate|exact X].
Qed.

(** ** C44 *)

Lemma pend_split h1 a t o : pending no_call (h1 ++ a) t = Some o ->
  pending no_call h1 t = Some o \/ In (EInv t o) a.
Proof.
  induction a as [|e a IH] using rev_ind; [rewrite app_nil_r; auto|].
  rewrite app_assoc, pend_app, in_app_iff. destruct e as [u x|u x]; unfold cset; destruct (Nat.eqb_spec t u) as [->|].
  - intros H. inversion H. cbn. auto.
  - intros H. apply IH in H as [H|H]; auto.
  - discriminate.
  - intros H. apply IH in H as [H|H]; auto.
Qed.

Lemma stores_spec k v m o : stores k v o -> fst (spec m o) = RCode Success -> snd (spec m o) k <> None.
Proof.
  intros [->|[->| ->]]; cbn [spec]; try destruct (m k); cbn [fst snd]; try discriminate;
    unfold sset; rewrite Z.eqb_refl; discriminate.
Qed.

Lemma reach_stays M0 k m f h : reach M0 m f h -> forall h1 a, h = h1 ++ a ->
  (forall u, pending no_call h1 u <> Some (KDelete k)) -> (forall u, ~ In (EInv u (KDelete k)) a) ->
  (forall t v o, pending no_call a t = Some o -> stores k v o -> f t = SDone (RCode Success) -> m k <> None) /\
  (forall a1 t b v o, a = a1 ++ ERes t (RCode Success) :: b -> pending no_call a1 t = Some o -> stores k v o ->
     m k <> None).
Proof.
  induction 1 as [|m f h t o R IH E|m f h t r R IH E|m f h t o R IH E]; intros h1 a X P D.
  - symmetry in X. apply app_eq_nil in X as [-> ->]. split; [discriminate|]. intros [|]; discriminate.
  - destruct a as [|e a _] using rev_ind.
    { split; [discriminate|]. intros [|]; discriminate. }
    rewrite app_assoc in X. apply app_inj_tail in X as [-> <-].
    destruct (IH h1 a eq_refl P) as [I1 I2]. { intros u H. apply (D u), in_app_iff. auto. }
    split.
    + intros u v x. rewrite pend_app. unfold cset, tset. destruct (Nat.eqb u t); [discriminate|]. apply I1.
    + intros a1 u b v x Y. destruct b as [|e b _] using rev_ind.
      * apply app_inj_tail in Y as [_ Y]. discriminate.
      * rewrite app_comm_cons, app_assoc in Y. apply app_inj_tail in Y as [Y _]. eapply I2; eauto.
  - destruct a as [|e a _] using rev_ind.
    { split; [discriminate|]. intros [|]; discriminate. }
    rewrite app_assoc in X. apply app_inj_tail in X as [-> <-].
    destruct (IH h1 a eq_refl P) as [I1 I2]. { intros u H. apply (D u), in_app_iff. auto. }
    split.
    + intros u v x. rewrite pend_app. unfold cset, tset. destruct (Nat.eqb u t); [discriminate|]. apply I1.
    + intros a1 u b v x Y. destruct b as [|e b _] using rev_ind.
      * apply app_inj_tail in Y as [-> Y]. inversion Y; subst. intros. eapply I1; eauto.
      * rewrite app_comm_cons, app_assoc in Y. apply app_inj_tail in Y as [Y _]. eapply I2; eauto.
  - destruct (IH h1 a X P D) as [I1 I2]. subst h. pose proof (reach_pend _ _ _ _ R t) as Q. rewrite E in Q.
    assert (No : o <> KDelete k).
    { intros ->. apply pend_split in Q as [Q|Q]; [apply (P t Q)|apply (D t Q)]. }
    split.
    + intros u v x H1 H2. unfold tset. destruct (Nat.eqb_spec u t) as [->|].
      * assert (x = o).
        { clear - Q H1. revert h1 Q. revert H1.
          induction a as [|e a IH] using rev_ind; [discriminate|]. rewrite pend_app.
          intros H1 h1. rewrite app_assoc, pend_app. destruct e as [u y|u y]; unfold cset in *;
            destruct (Nat.eqb t u); try congruence; eauto. }
        subst x. intros H. inversion H as [H3]. eapply stores_spec; eauto.
      * intros H. apply spec_keep; auto. eapply I1; eauto.
    + intros. apply spec_keep; auto. eapply I2; eauto.
Qed.

Lemma explained_stays g fuel c M0 sch : explained g fuel c M0 (fun _ => SIdle) sch ->
  stored_stays g (exec g fuel c sch) /\ values_from M0 (snd (exec g fuel c sch)).
Proof.
  intros X. destruct (explained_reach M0 _ _ _ _ _ _ X [] (re_nil _)) as (M & f & R & HR).
  split; [|apply (reach_values _ _ _ _ R)]. intros k v h1 a t b o E P D H1 H2 fu.
  rewrite E in R. cbn [app] in R. destruct (reach_stays _ k M f _ R h1 _ eq_refl P) as [_ I].
  { intros u H. apply (D u). apply in_app_iff. apply in_app_iff in H as [H|[H|H]]; auto. discriminate. }
  specialize (I _ _ _ _ _ eq_refl H1 H2). specialize (HR fu k).
  destruct (run _ _) as [[w|] s'| |]; auto. 
Qed.

Lemma conc_stays g fuel todos sch : cfg_ok g -> hdr_ok g -> no_merge g ->
  stored_stays g (exec g fuel (start (init g) todos) sch).
Proof. intros OK HO NM. eapply explained_stays. apply conc_explained; auto. Qed.

(** ** Refutations *)

Definition storesb (k : key) (v : val) (o : call) : bool :=
  match o with KWrite x w | KInsert x w | KUpdate x w => Z.eqb x k && N.eqb w v | _ => false end.
Definition bad_value (h : list event) : bool :=
  match rev h with
  | ERes t (RVal (Some v)) :: r =>
      match pending no_call (rev r) t with
      | Some (KRead k) => negb (existsb (fun e => match e with EInv _ o => storesb k v o | _ => false end) r)
      | _ => false
      end
  | _ => false
  end.
Lemma bad_value_ok h : bad_value h = true -> ~ values_from_calls h.
Proof.
  unfold bad_value. destruct (rev h) as [|[|t [[v|]|]] r] eqn:E; try discriminate.
  destruct (pending no_call (rev r) t) as [[k| | | |]|] eqn:P; try discriminate.
  intros H V. apply negb_true_iff in H.
  assert (X : h = rev r ++ ERes t (RVal (Some v)) :: []).
  { rewrite <- (rev_involutive h), E. reflexivity. }
  destruct (V _ _ _ _ _ X P) as (u & o & I & S). apply in_rev in I.
  enough (Y : existsb (fun e => match e with EInv _ o => storesb k v o | _ => false end) r = true) by congruence.
  apply existsb_exists. exists (EInv u o). split; auto.
  destruct S as [->|[->| ->]]; cbn; rewrite Z.eqb_refl, N.eqb_refl; auto.
Qed.

(** [n]: position of the response of a Write of [k]. *)
Definition lost (g : cfg) (e : cst * list event) (fuel n : nat) (k : key) : bool :=
  match skipn n (snd e) with
  | ERes t (RCode Success) :: _ =>
      match pending no_call (firstn n (snd e)) t with Some (KWrite x _) => Z.eqb x k | _ => false end
  | _ => false
  end &&
  negb (existsb (fun e => match e with EInv _ (KDelete x) => Z.eqb x k | _ => false end) (snd e)) &&
  match run (op_read g fuel k) (c_mem (fst e)) with Done None _ => true | _ => false end.
Lemma lost_ok g e fuel n k : lost g e fuel n k = true -> ~ stored_stays g e.
Proof.
  unfold lost. intros H V. apply andb_true_iff in H as [H H3]. apply andb_true_iff in H as [H1 H2].
  destruct (skipn n (snd e)) as [|[|t [|[]]] b] eqn:E; try discriminate.
  destruct (pending no_call (firstn n (snd e)) t) as [[|x v| | |]|] eqn:P; try discriminate.
  apply Z.eqb_eq in H1. subst x. apply negb_true_iff in H2.
  assert (X : snd e = [] ++ firstn n (snd e) ++ ERes t (RCode Success) :: b).
  { cbn. rewrite <- E. symmetry. apply firstn_skipn. }
  specialize (V k v [] _ _ _ (KWrite k v) X ltac:(discriminate)).
  assert (D : forall u, ~ In (EInv u (KDelete k)) (firstn n (snd e) ++ b)).
  { intros u I. 
    enough (Y : existsb (fun e => match e with EInv _ (KDelete x) => Z.eqb x k | _ => false end) (snd e) = true) by congruence.
    apply existsb_exists. exists (EInv u (KDelete k)). split; [|apply Z.eqb_refl].
    rewrite X. cbn [app]. apply in_app_iff. apply in_app_iff in I as [I|I]; cbn; auto. }
  specialize (V D P (or_introl eq_refl) fuel). destruct (run _ _) as [[|] ?| |]; try discriminate. auto.
Qed.

(** A case of C44: position [n] is the response of a successful Insert of [k]. *)
Definition stored_at (h : list event) (n : nat) (k : key) : bool :=
  match skipn n h with
  | ERes t (RCode Success) :: _ =>
      match pending no_call (firstn n h) t with Some (KInsert x _) => Z.eqb x k | _ => false end
  | _ => false
  end &&
  negb (existsb (fun e => match e with EInv _ (KDelete x) => Z.eqb x k | _ => false end) h).
Lemma stored_at_ok h n k : stored_at h n k = true -> exists a t b v, h = [] ++ a ++ ERes t (RCode Success) :: b /\
  (forall u, ~ In (EInv u (KDelete k)) (a ++ b)) /\ pending no_call a t = Some (KInsert k v).
Proof.
  unfold stored_at. intros H. apply andb_true_iff in H as [H1 H2]. apply negb_true_iff in H2.
  destruct (skipn n h) as [|[|t [|[]]] b] eqn:E; try discriminate.
  destruct (pending no_call (firstn n h) t) as [[| |x v| |]|] eqn:P; try discriminate.
  apply Z.eqb_eq in H1. subst x.
  assert (X : h = firstn n h ++ ERes t (RCode Success) :: b) by (rewrite <- E; symmetry; apply firstn_skipn).
  exists (firstn n h), t, b, v. split; [exact X|]. split; auto. intros u I.
  enough (Y : existsb (fun e => match e with EInv _ (KDelete x) => Z.eqb x k | _ => false end) h = true) by congruence.
  apply existsb_exists. exists (EInv u (KDelete k)). split; [|apply Z.eqb_refl].
  rewrite X. apply in_app_iff. apply in_app_iff in I as [I|I]; cbn; auto.
Qed.
