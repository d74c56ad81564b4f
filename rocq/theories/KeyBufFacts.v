(** A key argument of the caller's own memory behaves as its value; a key argument that is
    the buffer of Node::GetKey is compared with itself. *)
From Coq Require Import ZArith NArith List Bool Lia.
From Coq Require Import ZifyBool ZifyNat.
From Verif Require Import Config Api Page Machine Tree RunFacts KeyBuf.
Import ListNotations.
Open Scope prog_scope.
Open Scope Z_scope.

Definition sim {A B} (R : A -> B -> Prop) (m : prog A) (m' : prog B) : Prop :=
  forall s, match run m s, run m' s with
            | Done a s1, Done b s2 => R a b /\ s1 = s2
            | Crash u, Crash v => u = v
            | NoFuel, NoFuel => True
            | _, _ => False
            end.

Lemma sim_ret {A B} (R : A -> B -> Prop) a b : R a b -> sim R (Ret a) (Ret b).
Proof. intros H s. cbn [run]. auto. Qed.
Lemma sim_ub {A B} (R : A -> B -> Prop) u : sim R (UB u) (UB u).
Proof. intros s. reflexivity. Qed.
Lemma sim_fuel {A B} (R : A -> B -> Prop) : sim R Fuel Fuel.
Proof. intros s. exact I. Qed.
Lemma sim_bind {A B A' B'} (R : A -> A' -> Prop) (R' : B -> B' -> Prop) m m' f f' :
  sim R m m' -> (forall a a', R a a' -> sim R' (f a) (f' a')) ->
  sim R' (bind m f) (bind m' f').
Proof.
  intros H K s. rewrite !run_bind. specialize (H s).
  destruct (run m s), (run m' s); try contradiction; auto.
  destruct H as [H <-]. apply K, H.
Qed.
Lemma sim_refl {A} (m : prog A) : sim eq m m.
Proof. intros s. destruct (run m s); auto. Qed.
Lemma sim_load {A B} (R : A -> B -> Prop) p k k' :
  (forall c, sim R (k c) (k' c)) -> sim R (Load p k) (Load p k').
Proof. intros H s. cbn [run]. destruct (s_tbl s p); [apply H | reflexivity]. Qed.
Lemma sim_root {A B} (R : A -> B -> Prop) k k' :
  (forall c, sim R (k c) (k' c)) -> sim R (LoadRoot k) (LoadRoot k').
Proof. intros H s. cbn [run]. apply H. Qed.

Lemma bsearch_val fuel : forall rs k buf b e,
  fst (bsearch_r fuel rs (KVal k) buf b e) = bsearch fuel rs k b e.
Proof.
  induction fuel as [|f IH]; intros; cbn [bsearch_r bsearch]; auto.
  cbn [deref]. destruct (b <=? e); auto.
  cbv zeta. destruct (k <? key_at rs ((b + e) / 2)); auto.
  destruct (key_at rs ((b + e) / 2) <? k); auto.
Qed.
Lemma nsearch_val n k buf : fst (node_search_r n (KVal k) buf) = node_search n k.
Proof. apply bsearch_val. Qed.
Lemma nchild_val n k buf cl : fst (node_search_child_r n (KVal k) buf cl) = node_search_child n k cl.
Proof.
  unfold node_search_child_r, node_search_child. erewrite <- (bsearch_val _ _ _ buf).
  destruct (bsearch_r _ _ _ _ _ _) as [[[|] pos] b1]; reflexivity.
Qed.

(** Relation: the result with the buffer dropped. *)
Definition dropl {A} (x : A * key) (y : A) : Prop := fst x = y.

Lemma child_val fuel : forall k buf cl st t,
  sim dropl (search_child_node_r fuel (KVal k) buf cl st t) (search_child_node fuel k cl st t).
Proof.
  induction fuel as [|f IH]; intros; cbn [search_child_node_r search_child_node]; [apply sim_fuel|].
  destruct st as [|p rest]; [apply sim_ub|]. cbn [deref].
  eapply sim_bind; [apply sim_refl|]. intros c ? <-.
  destruct (dc_search_child c k cl false) as [v|a| | |q|n|]; try apply sim_ub; try (apply sim_ret; reflexivity).
  - destruct (h_leaf c); [apply sim_ub|apply sim_ret; reflexivity].
  - eapply sim_bind; [apply sim_refl|]. intros ? ? <-. apply sim_ret. reflexivity.
  - destruct rest as [|r0 rest'].
    + destruct (negb (t =? 0)%N); [apply sim_ret; reflexivity|]. apply sim_root. intros; apply IH.
    + eapply sim_bind; [apply IH|]. intros [[b st1] b1] [b' st1'] E. inversion E; subst.
      destruct b'; [apply sim_ret; reflexivity|].
      destruct st1'; [apply sim_ret; reflexivity|apply IH].
  - destruct (q =? t)%N; [apply sim_ret; reflexivity|apply IH].
  - rewrite <- (nchild_val n k buf cl). destruct (node_search_child_r n (KVal k) buf cl) as [[v|] b1];
      cbn [fst]; [destruct (h_leaf c); [apply sim_ub|apply sim_ret; reflexivity] | apply sim_ub].
Qed.

Lemma leaf_val fuel : forall k buf cl st,
  sim dropl (leaf_loop_r fuel (KVal k) buf cl st) (leaf_loop fuel k cl st).
Proof.
  induction fuel as [|f IH]; intros; cbn [leaf_loop_r leaf_loop]; [apply sim_fuel|].
  destruct st as [|p rest]; [apply sim_ub|].
  eapply sim_bind; [apply sim_refl|]. intros c ? <-.
  destruct (h_leaf c); [apply sim_ret; reflexivity|].
  eapply sim_bind; [apply child_val|]. intros [[b st1] b1] [b' st1'] E. inversion E; subst. apply IH.
Qed.
Lemma sleaf_val fuel k buf cl : sim dropl (search_leaf_r fuel (KVal k) buf cl) (search_leaf fuel k cl).
Proof. apply sim_root. intros. apply leaf_val. Qed.

Lemma kc_val g fuel : forall k buf st,
  sim dropl (get_head_kc_r g fuel (KVal k) buf st) (get_head_kc g fuel k st).
Proof.
  induction fuel as [|f IH]; intros; cbn [get_head_kc_r get_head_kc]; [apply sim_fuel|].
  destruct st as [|p rest]; [apply sim_ub|]. cbn [deref].
  eapply sim_bind; [apply sim_refl|]. intros c ? <-.
  destruct (dc_search_record c k false) as [v|a| | |q|n|]; try apply sim_ub; try (apply sim_ret; reflexivity); try apply IH.
  - destruct rest as [|r0 rest'].
    + eapply sim_bind; [apply sleaf_val|]. intros [st1 b1] st1' E. inversion E; subst. apply IH.
    + eapply sim_bind; [apply child_val|]. intros [[b st1] b1] [b' st1'] E. inversion E; subst. apply IH.
  - rewrite <- (nsearch_val n k buf). destruct (node_search_r n (KVal k) buf) as [[fd pos] b1].
    apply sim_ret. reflexivity.
Qed.

Lemma readl_val g fuel : forall k buf st,
  sim eq (read_loop_r g fuel (KVal k) buf st) (read_loop g fuel k st).
Proof.
  induction fuel as [|f IH]; intros; cbn [read_loop_r read_loop]; [apply sim_fuel|].
  destruct st as [|p rest]; [apply sim_ub|]. cbn [deref].
  eapply sim_bind; [apply sim_refl|]. intros c ? <-.
  destruct (dc_search_record c k false) as [v|a| | |q|n|]; try apply sim_ub; try (apply sim_ret; reflexivity); try apply IH.
  - apply sim_refl.
  - eapply sim_bind; [apply child_val|]. intros [[b st1] b1] [b' st1'] E. inversion E; subst. apply IH.
  - rewrite <- (nsearch_val n k buf). destruct (node_search_r n (KVal k) buf) as [[fd pos] b1].
    cbn [fst]. apply sim_refl.
Qed.

Lemma read_val g fuel k buf : sim eq (op_read_r g fuel (KVal k) buf) (op_read g fuel k).
Proof.
  eapply sim_bind; [apply sleaf_val|]. intros [st1 b1] st1' E. inversion E; subst. apply readl_val.
Qed.

Lemma write_val g fuel : forall a k v buf st,
  sim eq (put_loop_r g fuel WWrite a k v (KVal k) buf st) (write_loop g fuel a k v st).
Proof.
  induction fuel as [|f IH]; intros; cbn [put_loop_r write_loop]; [apply sim_fuel|].
  eapply sim_bind; [apply kc_val|].
  intros [[[hd fd] st1] b1] [[hd' fd'] st1'] E; inversion E; subst; destruct fd'; cbn [wdelta negb];
  (destruct st1' as [|p rest]; [apply sim_ub|]);
  (eapply sim_bind; [apply sim_refl|]; intros ok ? <-; destruct ok; [apply sim_refl|apply IH]).
Qed.
Lemma insert_val g fuel : forall a k v buf st,
  sim eq (put_loop_r g fuel WInsert a k v (KVal k) buf st) (insert_loop g fuel a k v st).
Proof.
  induction fuel as [|f IH]; intros; cbn [put_loop_r insert_loop]; [apply sim_fuel|].
  eapply sim_bind; [apply kc_val|].
  intros [[[hd fd] st1] b1] [[hd' fd'] st1'] E; inversion E; subst; destruct fd'; cbn [wdelta negb];
  try (apply sim_ret; reflexivity);
  (destruct st1' as [|p rest]; [apply sim_ub|]);
  (eapply sim_bind; [apply sim_refl|]; intros ok ? <-; destruct ok; [apply sim_refl|apply IH]).
Qed.
Lemma update_val g fuel : forall a k v buf st,
  sim eq (put_loop_r g fuel WUpdate a k v (KVal k) buf st) (update_loop g fuel a k v st).
Proof.
  induction fuel as [|f IH]; intros; cbn [put_loop_r update_loop]; [apply sim_fuel|].
  eapply sim_bind; [apply kc_val|].
  intros [[[hd fd] st1] b1] [[hd' fd'] st1'] E; inversion E; subst; destruct fd'; cbn [wdelta negb];
  try (apply sim_ret; reflexivity);
  (destruct st1' as [|p rest]; [apply sim_ub|]);
  (eapply sim_bind; [apply sim_refl|]; intros ok ? <-; destruct ok; [apply sim_refl|apply IH]).
Qed.
Lemma delete_val g fuel : forall a k buf st,
  sim eq (put_loop_r g fuel WDelete a k 0%N (KVal k) buf st) (remove_loop g fuel a k st).
Proof.
  induction fuel as [|f IH]; intros; cbn [put_loop_r remove_loop]; [apply sim_fuel|].
  eapply sim_bind; [apply kc_val|].
  intros [[[hd fd] st1] b1] [[hd' fd'] st1'] E; inversion E; subst; destruct fd'; cbn [wdelta negb];
  try (apply sim_ret; reflexivity);
  (destruct st1' as [|p rest]; [apply sim_ub|]);
  (eapply sim_bind; [apply sim_refl|]; intros ok ? <-; destruct ok; [apply sim_refl|apply IH]).
Qed.

Definition key_of (o : call) : key :=
  match o with KRead k | KWrite k _ | KInsert k _ | KUpdate k _ | KDelete k => k end.

Lemma call_val g fuel o buf : sim eq (call_r g fuel o (KVal (key_of o)) buf) (call_prog g fuel o).
Proof.
  destruct o; cbn [call_r call_prog key_of];
    (eapply sim_bind; [|intros ? ? <-; apply sim_refl]); [apply read_val|..];
    (eapply sim_bind; [apply sleaf_val|]; intros [st1 b1] st1' E; inversion E; subst;
     (eapply sim_bind; [apply sim_refl|]); intros a0 ? <-; cbn [deref fst]);
    [apply write_val|apply insert_val|apply update_val|apply delete_val].
Qed.

Lemma sim_run {A} (m m' : prog A) : sim eq m m' -> forall s, run m s = run m' s.
Proof.
  intros H s. specialize (H s). destruct (run m s), (run m' s); try contradiction; auto.
  - destruct H; subst; auto.
  - subst; auto.
Qed.

Lemma call_own_key g fuel o buf s :
  run (call_r g fuel o (KVal (key_of o)) buf) s = run (call_prog g fuel o) s.
Proof. apply sim_run, call_val. Qed.

(** Searching with the buffer itself finds the first probed record, whatever it holds. *)
Lemma bsearch_buf f rs buf b e : b <= e ->
  bsearch_r (S f) rs KBuf buf b e = (true, (b + e) / 2, key_at rs ((b + e) / 2)).
Proof.
  intros H. cbn [bsearch_r deref]. replace (b <=? e) with true by lia.
  cbv zeta. rewrite Z.ltb_irrefl. reflexivity.
Qed.

Lemma call_iter_value g fuel o buf s : c_ptr g = false ->
  run (call_r g fuel o (iter_key g (key_of o)) buf) s = run (call_prog g fuel o) s.
Proof. unfold iter_key. intros ->. apply call_own_key. Qed.
