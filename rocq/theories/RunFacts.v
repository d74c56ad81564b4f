(** Running fuelled programs: a program family "eventually" yields a result when
    it does so for all sufficiently large fuels.  Two independent fuels, because
    the loops of Split and TryMerge receive TrySMOs as a parameter.  Beside the result, the
    chains that the program loads and publishes on the way are of a given kind. *)
From Coq Require Import ZArith NArith List Bool Lia.
From Verif Require Import Config Page Machine ChainSpec SeqSpec.
Import ListNotations.

Lemma run_bind {A B} (m : prog A) (f : A -> prog B) : forall s,
  run (bind m f) s =
  match run m s with Done a s1 => run (f a) s1 | Crash u => Crash u | NoFuel => NoFuel end.
Proof.
  induction m; intros s; cbn [bind run]; auto.
  - destruct (s_tbl s p); auto.
  - destruct (cas_ok s weak false p e); auto.
  - destruct (N.eqb (s_root s) old); auto.
Qed.

(** All chains that the program loads, or publishes by a successful compare-and-swap. *)
Fixpoint calm {A} (S : chain -> Prop) (m : prog A) (s : st) : Prop :=
  match m with
  | Ret _ | UB _ | Fuel => True
  | Load p k => match s_tbl s p with Some c => S c /\ calm S (k c) s | None => True end
  | Store p c k => calm S k (set_tbl s p (Some c))
  | Clear p k => calm S k (set_tbl s p None)
  | Cas w p e c k => if cas_ok s w false p e then S c /\ calm S (k true) (set_tbl s p (Some c)) else calm S (k false) s
  | LoadRoot k => calm S (k (s_root s)) s
  | StoreRoot p k => calm S k (set_root s p)
  | CasRoot o n k => if N.eqb (s_root s) o then calm S (k true) (set_root s n) else calm S (k false) s
  | NewPid k => calm S (k (s_npid s)) (bump_pid s)
  | Alloc k => calm S (k (s_naddr s)) (bump_addr s)
  | LoadCell a k => calm S (k (s_cell s a)) s
  | StoreCell a p k => calm S k (set_cell s a p)
  | Retire l k => calm S k (add_gc s l)
  end.
Lemma calm_bind {A B} S (m : prog A) (f : A -> prog B) : forall s, calm S m s ->
  (forall a s1, run m s = Done a s1 -> calm S (f a) s1) -> calm S (bind m f) s.
Proof.
  induction m; intros s; cbn [bind calm run]; auto.
  - destruct (s_tbl s p); auto. intros [? ?]. auto.
  - destruct (cas_ok s weak false p e); auto. intros [? ?]. auto.
  - destruct (N.eqb (s_root s) old); auto.
Qed.
(** Removed nodes and well-formed chains. *)
Definition good (c : chain) : Prop := is_remove c = true \/ exists g i, cwf g i c.
Lemma good_cwf g i c : cwf g i c -> good c. Proof. right. eauto. Qed.
Lemma good_iwf g c : iwf g c -> good c. Proof. exact (good_cwf g true c). Qed.
Lemma good_lwf g c : lwf g c -> good c. Proof. exact (good_cwf g false c). Qed.
Lemma good_remove a l : good (CRemove a l). Proof. left. reflexivity. Qed.

#[export] Hint Resolve good_cwf good_iwf good_lwf good_remove : core.

Definition evs {A} (S : chain -> Prop) (P : nat -> nat -> prog A) (s : st) (a : A) (s' : st) : Prop :=
  exists F, forall f1 f2, (F <= f1)%nat -> (F <= f2)%nat -> run (P f1 f2) s = Done a s' /\ calm S (P f1 f2) s.
Definition evg {A} (S : chain -> Prop) (P : nat -> nat -> prog A) (s : st) (Q : A -> st -> Prop) : Prop :=
  exists a s', evs S P s a s' /\ Q a s'.
Notation ev := (evs good). Notation evp := (evg good).

Section Rules.
Context {S0 : chain -> Prop}.
Notation evp := (evg S0).

Lemma evp_ret {A} (a : A) s (Q : A -> st -> Prop) : Q a s -> evp (fun _ _ => Ret a) s Q.
Proof. intros H. exists a, s. split; auto. exists 0%nat. cbn. auto. Qed.

Lemma evp_bind {A B} (P : nat -> nat -> prog A) (R : nat -> nat -> A -> prog B) s Q Q' :
  evp P s Q -> (forall a s1, Q a s1 -> evp (fun f1 f2 => R f1 f2 a) s1 Q') ->
  evp (fun f1 f2 => bind (P f1 f2) (R f1 f2)) s Q'.
Proof.
  intros (a & s1 & [F1 H1] & Hq) H. destruct (H _ _ Hq) as (b & s2 & [F2 H2] & Hq2).
  exists b, s2. split; auto. exists (max F1 F2). intros f1 f2 L1 L2.
  destruct (H1 f1 f2 ltac:(lia) ltac:(lia)) as [R1 C1]. destruct (H2 f1 f2 ltac:(lia) ltac:(lia)) as [R2 C2].
  rewrite run_bind, R1. split; auto. apply calm_bind; auto. intros a0 s0 E. rewrite R1 in E. injection E as <- <-. auto.
Qed.

Lemma evp_weaken {A} (P : nat -> nat -> prog A) s (Q Q' : A -> st -> Prop) :
  evp P s Q -> (forall a s1, Q a s1 -> Q' a s1) -> evp P s Q'.
Proof. intros (a & s1 & H & Hq) HQ. exists a, s1. auto. Qed.

(** Unfolding the second fuel. *)
Lemma evp_S {A} (P : nat -> nat -> prog A) s Q :
  evp (fun f1 f2 => P f1 (S f2)) s Q -> evp P s Q.
Proof.
  intros (a & s1 & [F H] & Hq). exists a, s1. split; auto. exists (S F).
  intros f1 [|f2] L1 L2; [lia|]. apply H; lia.
Qed.

Lemma evp_diag {A} (P : nat -> nat -> prog A) s Q :
  evp P s Q -> evp (fun _ f => P f f) s Q.
Proof.
  intros (a & s1 & [F H] & Hq). exists a, s1. split; auto. exists F. intros. apply H; lia.
Qed.

Lemma evp_fst {A} (P : nat -> prog A) s Q :
  evp (fun _ f => P f) s Q -> evp (fun f _ => P f) s Q.
Proof.
  intros (a & s1 & [F H] & Hq). exists a, s1. split; auto. exists F. intros. apply (H F f1); lia.
Qed.

Lemma evp_done {A} (P : nat -> prog A) s Q :
  evp (fun _ f => P f) s Q ->
  exists a s', Q a s' /\ exists F, forall f, (F <= f)%nat -> run (P f) s = Done a s'.
Proof.
  intros (a & s1 & [F H] & Hq). exists a, s1. split; auto. exists F. intros. apply (H F f); lia.
Qed.
Lemma evp_calm {A} (P : nat -> prog A) s Q :
  evp (fun _ f => P f) s Q ->
  exists a s', Q a s' /\ exists F, forall f, (F <= f)%nat -> run (P f) s = Done a s' /\ calm S0 (P f) s.
Proof.
  intros (a & s1 & [F H] & Hq). exists a, s1. split; auto. exists F. intros. apply (H F f); lia.
Qed.

Section Steps.
Context {A : Type}.
Implicit Types (Q : A -> st -> Prop) (s : st).

Local Ltac go := intros; match goal with H : evp _ _ _ |- _ =>
  let a := fresh "a" in let s1 := fresh "s1" in let F := fresh "F" in let Hq := fresh "Hq" in
  destruct H as (a & s1 & [F H] & Hq);
  exists a, s1; split; [|exact Hq]; exists F; intros; cbn [run calm] end.

Lemma evp_load p c k s Q : s_tbl s p = Some c -> S0 c -> evp (fun f1 f2 => k f1 f2 c) s Q ->
  evp (fun f1 f2 => Load p (k f1 f2)) s Q.
Proof. intros E Hg. go. rewrite E. destruct (H f1 f2); auto. Qed.
Lemma evp_store p c k s Q : evp k (set_tbl s p (Some c)) Q ->
  evp (fun f1 f2 => Store p c (k f1 f2)) s Q.
Proof. go. auto. Qed.
Lemma evp_cas w p e n c k s Q : s_tbl s p = Some c -> h_addr c = e -> S0 n ->
  evp (fun f1 f2 => k f1 f2 true) (set_tbl s p (Some n)) Q ->
  evp (fun f1 f2 => Cas w p e n (k f1 f2)) s Q.
Proof. intros E He Hg. go. unfold cas_ok. rewrite E, He, N.eqb_refl, andb_false_r. cbn. destruct (H f1 f2); auto. Qed.
Lemma evp_root k s Q : evp (fun f1 f2 => k f1 f2 (s_root s)) s Q ->
  evp (fun f1 f2 => LoadRoot (k f1 f2)) s Q.
Proof. go. auto. Qed.
Lemma evp_sroot p k s Q : evp k (set_root s p) Q -> evp (fun f1 f2 => StoreRoot p (k f1 f2)) s Q.
Proof. go. auto. Qed.
Lemma evp_casroot o n k s Q :
  (if N.eqb (s_root s) o then evp (fun f1 f2 => k f1 f2 true) (set_root s n) Q
   else evp (fun f1 f2 => k f1 f2 false) s Q) ->
  evp (fun f1 f2 => CasRoot o n (k f1 f2)) s Q.
Proof. destruct (N.eqb (s_root s) o) eqn:E; go; rewrite E; auto. Qed.
Lemma evp_newpid k s Q : evp (fun f1 f2 => k f1 f2 (s_npid s)) (bump_pid s) Q ->
  evp (fun f1 f2 => NewPid (k f1 f2)) s Q.
Proof. go. auto. Qed.
Lemma evp_alloc k s Q : evp (fun f1 f2 => k f1 f2 (s_naddr s)) (bump_addr s) Q ->
  evp (fun f1 f2 => Alloc (k f1 f2)) s Q.
Proof. go. auto. Qed.
Lemma evp_lcell a k s Q : evp (fun f1 f2 => k f1 f2 (s_cell s a)) s Q ->
  evp (fun f1 f2 => LoadCell a (k f1 f2)) s Q.
Proof. go. auto. Qed.
Lemma evp_scell a p k s Q : evp k (set_cell s a p) Q ->
  evp (fun f1 f2 => StoreCell a p (k f1 f2)) s Q.
Proof. go. auto. Qed.
Lemma evp_retire l k s Q : evp k (add_gc s l) Q -> evp (fun f1 f2 => Retire l (k f1 f2)) s Q.
Proof. go. auto. Qed.
End Steps.
End Rules.
