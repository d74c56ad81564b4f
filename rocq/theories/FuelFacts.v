(** Fuel only decides whether a program gets to its end: with more fuel the steps and
    the outcome are the same. *)
From Coq Require Import ZArith NArith List Bool Lia.
From Verif Require Import Config Api Page Machine Tree Scan Bulk.
Import ListNotations.
Open Scope Z_scope.

(** [m'] goes on where [m] runs out of fuel. *)
Fixpoint mle {A} (m m' : prog A) {struct m} : Prop :=
  match m with
  | Fuel => True
  | Ret a => m' = Ret a
  | UB u => m' = UB u
  | Load p k => exists k', m' = Load p k' /\ forall c, mle (k c) (k' c)
  | Store p c k => exists k', m' = Store p c k' /\ mle k k'
  | Clear p k => exists k', m' = Clear p k' /\ mle k k'
  | Cas w p e c k => exists k', m' = Cas w p e c k' /\ forall b, mle (k b) (k' b)
  | LoadRoot k => exists k', m' = LoadRoot k' /\ forall c, mle (k c) (k' c)
  | StoreRoot p k => exists k', m' = StoreRoot p k' /\ mle k k'
  | CasRoot o n k => exists k', m' = CasRoot o n k' /\ forall b, mle (k b) (k' b)
  | NewPid k => exists k', m' = NewPid k' /\ forall c, mle (k c) (k' c)
  | Alloc k => exists k', m' = Alloc k' /\ forall c, mle (k c) (k' c)
  | LoadCell a k => exists k', m' = LoadCell a k' /\ forall c, mle (k c) (k' c)
  | StoreCell a p k => exists k', m' = StoreCell a p k' /\ mle k k'
  | Retire l k => exists k', m' = Retire l k' /\ mle k k'
  end.

Lemma mle_refl {A} (m : prog A) : mle m m.
Proof. induction m; cbn; eauto. Qed.
Lemma mle_bind {A B} (m m' : prog A) (f f' : A -> prog B) : mle m m' -> (forall a, mle (f a) (f' a)) ->
  mle (bind m f) (bind m' f').
Proof.
  intros H1 H2. revert m' H1. induction m; intros m' H1; cbn [mle] in H1.
  1,14: subst; cbn; auto.
  all: try (destruct H1 as (k' & -> & H1); cbn; eexists; split; [reflexivity|]; first [intros; apply H; apply H1|apply IHm; apply H1]).
  exact I.
Qed.
Lemma mle_run {A} (m m' : prog A) : mle m m' -> forall s, run m s <> NoFuel -> run m' s = run m s.
Proof.
  revert m'. induction m; intros m' H1 s0 H2; cbn [mle] in H1.
  1,14: subst; auto.
  all: try (destruct H1 as (k' & -> & H1); cbn [run] in *).
  all: try (now (apply H; auto)).
  all: try (now (apply IHm; auto)).
  - destruct (s_tbl s0 p); auto.
  - destruct (cas_ok s0 weak false p e); auto.
  - destruct (N.eqb (s_root s0) old); auto.
  - cbn in H2. congruence.
Qed.

Ltac up := match goal with L : (S ?f <= ?f')%nat |- _ =>
  let f2 := fresh "f2" in let E := fresh "E" in
  destruct f' as [|f2]; [exfalso; lia|]; assert (E : (f <= f2)%nat) by lia; clear L end.
Create HintDb mono.
Ltac m1 := match goal with
  | |- mle Fuel _ => exact I
  | |- mle (Ret _) (Ret _) => reflexivity
  | |- mle (UB _) (UB _) => reflexivity
  | |- mle (bind _ _) (bind _ _) => apply mle_bind; [|intros]
  | |- mle (Load _ _) (Load _ _) => eexists; split; [reflexivity|]; intros; cbv beta
  | |- mle (Store _ _ _) (Store _ _ _) => eexists; split; [reflexivity|]
  | |- mle (Clear _ _) (Clear _ _) => eexists; split; [reflexivity|]
  | |- mle (Cas _ _ _ _ _) (Cas _ _ _ _ _) => eexists; split; [reflexivity|]; intros; cbv beta
  | |- mle (LoadRoot _) (LoadRoot _) => eexists; split; [reflexivity|]; intros; cbv beta
  | |- mle (StoreRoot _ _) (StoreRoot _ _) => eexists; split; [reflexivity|]
  | |- mle (CasRoot _ _ _) (CasRoot _ _ _) => eexists; split; [reflexivity|]; intros; cbv beta
  | |- mle (NewPid _) (NewPid _) => eexists; split; [reflexivity|]; intros; cbv beta
  | |- mle (Alloc _) (Alloc _) => eexists; split; [reflexivity|]; intros; cbv beta
  | |- mle (LoadCell _ _) (LoadCell _ _) => eexists; split; [reflexivity|]; intros; cbv beta
  | |- mle (StoreCell _ _ _) (StoreCell _ _ _) => eexists; split; [reflexivity|]
  | |- mle (Retire _ _) (Retire _ _) => eexists; split; [reflexivity|]
  | |- mle (match ?x with _ => _ end) (match ?x with _ => _ end) => destruct x
  | |- mle ?x ?x => apply mle_refl
  | |- _ => solve [auto with mono]
  end.
Ltac mono := repeat m1.

Lemma mono_load_valid g p : forall f f', (f <= f')%nat -> mle (load_valid g f p) (load_valid g f' p).
Proof. induction f as [|f IH]; intros f' L; [exact I|]. up. cbn [load_valid]. mono. Qed.
Lemma mono_wait a : forall f f', (f <= f')%nat -> mle (wait_cell f a) (wait_cell f' a).
Proof. induction f as [|f IH]; intros f' L; [exact I|]. up. cbn [wait_cell]. mono. Qed.
#[local] Hint Resolve mono_load_valid mono_wait : mono.
Lemma mono_child k cl t : forall f f' st, (f <= f')%nat -> mle (search_child_node f k cl st t) (search_child_node f' k cl st t).
Proof. induction f as [|f IH]; intros f' st L; [exact I|]. up. cbn [search_child_node]. mono. Qed.
#[local] Hint Resolve mono_child : mono.
Lemma mono_leaf_loop k cl : forall f f' st, (f <= f')%nat -> mle (leaf_loop f k cl st) (leaf_loop f' k cl st).
Proof. induction f as [|f IH]; intros f' st L; [exact I|]. up. cbn [leaf_loop]. mono. Qed.
Lemma mono_leftmost_loop : forall f f' st, (f <= f')%nat -> mle (leftmost_loop f st) (leftmost_loop f' st).
Proof. induction f as [|f IH]; intros f' st L; [exact I|]. up. cbn [leftmost_loop]. mono. Qed.
Lemma mono_target_loop k t : forall f f' st l, (f <= f')%nat -> mle (target_loop f k t st l) (target_loop f' k t st l).
Proof. induction f as [|f IH]; intros f' st l L; [exact I|]. up. cbn [target_loop]. mono. Qed.
#[local] Hint Resolve mono_leaf_loop mono_leftmost_loop mono_target_loop : mono.
Lemma mono_search_leaf k cl f f' : (f <= f')%nat -> mle (search_leaf f k cl) (search_leaf f' k cl).
Proof. intros L. unfold search_leaf. mono. Qed.
Lemma mono_search_leftmost f f' : (f <= f')%nat -> mle (search_leftmost f) (search_leftmost f').
Proof. intros L. unfold search_leftmost. mono. Qed.
Lemma mono_search_target k t : forall f f', (f <= f')%nat -> mle (search_target f k t) (search_target f' k t).
Proof. induction f as [|f IH]; intros f' L; [exact I|]. up. cbn [search_target]. mono. Qed.
#[local] Hint Resolve mono_search_leaf mono_search_leftmost mono_search_target : mono.
Lemma mono_get_head g k cl t : forall f f' st, (f <= f')%nat -> mle (get_head g f k cl st t) (get_head g f' k cl st t).
Proof. induction f as [|f IH]; intros f' st L; [exact I|]. up. cbn [get_head]. mono. Qed.
Lemma mono_get_head_kc g k : forall f f' st, (f <= f')%nat -> mle (get_head_kc g f k st) (get_head_kc g f' k st).
Proof. induction f as [|f IH]; intros f' st L; [exact I|]. up. cbn [get_head_kc]. mono. Qed.
Lemma mono_get_head_merge g k : forall f f' sib st, (f <= f')%nat -> mle (get_head_merge g f k sib st) (get_head_merge g f' k sib st).
Proof. induction f as [|f IH]; intros f' sib st L; [exact I|]. up. cbn [get_head_merge]. mono. Qed.
#[local] Hint Resolve mono_get_head mono_get_head_kc mono_get_head_merge : mono.

Section Smos.
Variable g : cfg.
Definition smle (s s' : chain -> list pid -> prog unit) : Prop := forall c st, mle (s c st) (s' c st).
Lemma mono_split_loop s s' d lp : smle s s' -> forall f f' st, (f <= f')%nat ->
  mle (split_loop g s f d lp st) (split_loop g s' f' d lp st).
Proof. intros Hs. induction f as [|f IH]; intros f' st L; [exact I|]. up. cbn [split_loop]. mono. Qed.
Lemma mono_split s s' l r st f f' : smle s s' -> (f <= f')%nat -> mle (split g s f l r st) (split g s' f' l r st).
Proof. intros Hs L. unfold split. mono. apply mono_split_loop; auto. Qed.
Lemma mono_delete_loop d : forall f f' sib st, (f <= f')%nat -> mle (delete_loop g f d sib st) (delete_loop g f' d sib st).
Proof. induction f as [|f IH]; intros f' sib st L; [exact I|]. up. cbn [delete_loop]. mono. Qed.
Hint Resolve mono_delete_loop : mono.
Lemma mono_delete_entry s s' n st f f' : smle s s' -> (f <= f')%nat ->
  mle (try_delete_entry g s f n st) (try_delete_entry g s' f' n st).
Proof. intros Hs L. unfold try_delete_entry. mono. Qed.
Lemma mono_merge_loop s s' d n p a : smle s s' -> forall f f' b st, (f <= f')%nat ->
  mle (merge_loop g s f d n p a b st) (merge_loop g s' f' d n p a b st).
Proof. intros Hs. induction f as [|f IH]; intros f' b st L; [exact I|]. up. cbn [merge_loop]. mono. Qed.
Hint Resolve mono_delete_entry mono_merge_loop mono_split : mono.
Lemma mono_try_merge s s' h n st f f' : smle s s' -> (f <= f')%nat ->
  mle (try_merge g s f h n st) (try_merge g s' f' h n st).
Proof. intros Hs L. unfold try_merge. mono. Qed.
Hint Resolve mono_try_merge : mono.
Lemma mono_smos : forall f f' c st, (f <= f')%nat -> mle (try_smos g f c st) (try_smos g f' c st).
Proof.
  induction f as [|f IH]; intros f' c st L; [exact I|]. up.
  assert (Hs : smle (try_smos g f) (try_smos g f2)) by (intros c1 st1; apply IH; auto).
  cbn [try_smos]. cbv zeta. mono.
Qed.
Hint Resolve mono_smos : mono.
Lemma mono_finish c st f f' : (f <= f')%nat -> mle (finish g f c st) (finish g f' c st).
Proof. intros L. unfold finish. mono. Qed.
Hint Resolve mono_finish : mono.
Lemma mono_read k : forall f f' st, (f <= f')%nat -> mle (read_loop g f k st) (read_loop g f' k st).
Proof. induction f as [|f IH]; intros f' st L; [exact I|]. up. cbn [read_loop]. mono. Qed.
Lemma mono_write a k v : forall f f' st, (f <= f')%nat -> mle (write_loop g f a k v st) (write_loop g f' a k v st).
Proof. induction f as [|f IH]; intros f' st L; [exact I|]. up. cbn [write_loop]. mono. Qed.
Lemma mono_insert a k v : forall f f' st, (f <= f')%nat -> mle (insert_loop g f a k v st) (insert_loop g f' a k v st).
Proof. induction f as [|f IH]; intros f' st L; [exact I|]. up. cbn [insert_loop]. mono. Qed.
Lemma mono_update a k v : forall f f' st, (f <= f')%nat -> mle (update_loop g f a k v st) (update_loop g f' a k v st).
Proof. induction f as [|f IH]; intros f' st L; [exact I|]. up. cbn [update_loop]. mono. Qed.
Lemma mono_remove a k : forall f f' st, (f <= f')%nat -> mle (remove_loop g f a k st) (remove_loop g f' a k st).
Proof. induction f as [|f IH]; intros f' st L; [exact I|]. up. cbn [remove_loop]. mono. Qed.
Hint Resolve mono_read mono_write mono_insert mono_update mono_remove : mono.
Lemma mono_call o f f' : (f <= f')%nat -> mle (call_prog g f o) (call_prog g f' o).
Proof.
  intros L. destruct o; cbn [call_prog]; unfold op_read, op_write, op_insert, op_update, op_delete; mono.
Qed.
End Smos.

(** A sequence of calls that gets to its end. *)
Lemma run_calls_more g f f' os : (f <= f')%nat -> forall s, run_calls g f os s <> NoFuel ->
  run_calls g f' os s = run_calls g f os s.
Proof.
  intros L. induction os as [|o os IH]; intros s H; cbn [run_calls] in *; auto.
  pose proof (mle_run _ _ (mono_call g o f f' L) s) as E.
  destruct (run (call_prog g f o) s) as [r s1|u|] eqn:R; [| |congruence]; rewrite E by congruence; auto.
  rewrite IH; auto. intros X. rewrite X in H. congruence.
Qed.

(** ** Scans and statistics *)
Section Scans.
Variable g : cfg.
Lemma mono_cons bk cl : forall f f' st, (f <= f')%nat -> mle (cons_for_scan g f bk cl st) (cons_for_scan g f' bk cl st).
Proof. induction f as [|f IH]; intros f' st L; [exact I|]. up. cbn [cons_for_scan]. mono. Qed.
Lemma mono_lhead p : forall f f', (f <= f')%nat -> mle (leftmost_head f p) (leftmost_head f' p).
Proof. induction f as [|f IH]; intros f' L; [exact I|]. up. cbn [leftmost_head]. mono. Qed.
Hint Resolve mono_cons mono_lhead : mono.
Lemma mono_scan b e f f' : (f <= f')%nat -> mle (op_scan g f b e) (op_scan g f' b e).
Proof. intros L. unfold op_scan. mono. Qed.
Lemma mono_sib sb bk e f f' : (f <= f')%nat -> mle (sibling_scan g f sb bk e) (sibling_scan g f' sb bk e).
Proof. intros L. unfold sibling_scan. mono. Qed.
Hint Resolve mono_scan mono_sib : mono.
Lemma mono_has : forall f f' pg it, (f <= f')%nat -> mle (has_record g f pg it) (has_record g f' pg it).
Proof. induction f as [|f IH]; intros f' pg it L; [exact I|]. up. cbn [has_record]. mono. Qed.
Hint Resolve mono_has : mono.
Lemma mono_collect : forall f f' pg it, (f <= f')%nat -> mle (collect g f pg it) (collect g f' pg it).
Proof. induction f as [|f IH]; intros f' pg it L; [exact I|]. up. cbn [collect]. mono. Qed.
Hint Resolve mono_collect : mono.
Lemma mono_scan_all b e f f' : (f <= f')%nat -> mle (scan_all g f b e) (scan_all g f' b e).
Proof. intros L. unfold scan_all. mono. Qed.
Lemma mono_valid p : forall f f', (f <= f')%nat -> mle (valid_head_not_removed g f p) (valid_head_not_removed g f' p).
Proof. induction f as [|f IH]; intros f' L; [exact I|]. up. cbn [valid_head_not_removed]. mono. Qed.
Hint Resolve mono_valid : mono.
Lemma mono_stats drec : forall f f' p l acc, (f <= f')%nat -> mle (collect_stats g drec f p l acc) (collect_stats g drec f' p l acc).
Proof.
  induction f as [|f IH]; intros f' p l acc L; [exact I|]. up. cbn [collect_stats]. cbv zeta. mono.
  match goal with |- mle (_ (n_recs ?n) ?x) _ => generalize x; generalize (n_recs n) end.
  intros rs. induction rs as [|[k c] rs IHr]; intros acc1; mono.
Qed.
Hint Resolve mono_stats : mono.
Lemma mono_op_stats drec f f' : (f <= f')%nat -> mle (op_stats g drec f) (op_stats g drec f').
Proof. intros L. unfold op_stats. mono. Qed.
End Scans.

(** ** Bulkload *)
Section Bulks.
Variable g : cfg.
Lemma mono_layer i : forall f f' es pr, (f <= f')%nat -> mle (construct_layer g f i es pr) (construct_layer g f' i es pr).
Proof. induction f as [|f IH]; intros f' es pr L; [exact I|]. up. cbn [construct_layer]. mono. Qed.
Hint Resolve mono_layer : mono.
Lemma mono_partial : forall f f' ns h, (f <= f')%nat -> mle (partial_layers g f ns h) (partial_layers g f' ns h).
Proof. induction f as [|f IH]; intros f' ns h L; [exact I|]. up. cbn [partial_layers]. mono. Qed.
Hint Resolve mono_partial : mono.
Lemma mono_single es f f' : (f <= f')%nat -> mle (bulk_single g f es) (bulk_single g f' es).
Proof. intros L. unfold bulk_single. mono. Qed.
Lemma mono_vert : forall f f' l r, (f <= f')%nat -> mle (link_vertical g f l r) (link_vertical g f' l r).
Proof. induction f as [|f IH]; intros f' l r L; [exact I|]. up. cbn [link_vertical]. mono. Qed.
Lemma mono_rleft : forall f f' p, (f <= f')%nat -> mle (remove_leftmost f p) (remove_leftmost f' p).
Proof. induction f as [|f IH]; intros f' p L; [exact I|]. up. cbn [remove_leftmost]. mono. Qed.
Lemma mono_raise hh : forall f f' h ns, (f <= f')%nat -> mle (raise_to g f h hh ns) (raise_to g f' h hh ns).
Proof. induction f as [|f IH]; intros f' h ns L; [exact I|]. up. cbn [raise_to]. mono. Qed.
Lemma mono_upper : forall f f' ns, (f <= f')%nat -> mle (upper_layers g f ns) (upper_layers g f' ns).
Proof. induction f as [|f IH]; intros f' ns L; [exact I|]. up. cbn [upper_layers]. mono. Qed.
Hint Resolve mono_single mono_vert mono_rleft mono_raise mono_upper : mono.
Lemma mono_parts f f' ps : (f <= f')%nat -> mle (run_parts g f ps) (run_parts g f' ps).
Proof. intros L. induction ps as [|p ps IH]; cbn [run_parts]; mono. Qed.
Lemma mono_align f f' h : (f <= f')%nat -> forall ts p, mle (align g f h p ts) (align g f' h p ts).
Proof. intros L. induction ts as [|[h1 ns] ts IH]; intros p; cbn [align]; mono. Qed.
Hint Resolve mono_parts mono_align : mono.
Lemma mono_bulkload es T f f' : (f <= f')%nat -> mle (op_bulkload g f es T) (op_bulkload g f' es T).
Proof. intros L. unfold op_bulkload, bulk_align, bulk_root. cbv zeta. mono. Qed.
Lemma mono_join ts f f' : (f <= f')%nat -> mle (bulk_join g f ts) (bulk_join g f' ts).
Proof. intros L. unfold bulk_join, bulk_align, bulk_root. cbv zeta. mono. Qed.
End Bulks.

(** ** Any fuel *)
Lemma any_calls g os s F r : (forall f, (F <= f)%nat -> run_calls g f os s = r) ->
  forall f, run_calls g f os s = NoFuel \/ run_calls g f os s = r.
Proof.
  intros H f. destruct (run_calls g f os s) eqn:E; [right|right|left; reflexivity];
    rewrite <- E, <- (H (f + F)%nat) by lia; symmetry; apply run_calls_more; try lia; congruence.
Qed.
Lemma any_run {A} (m : nat -> prog A) s F r : (forall f f', (f <= f')%nat -> mle (m f) (m f')) ->
  (forall f, (F <= f)%nat -> run (m f) s = r) -> forall f, run (m f) s = NoFuel \/ run (m f) s = r.
Proof.
  intros MO H f. destruct (run (m f) s) eqn:E; [right|right|left; reflexivity];
    rewrite <- E, <- (H (f + F)%nat) by lia; symmetry; apply mle_run; try (apply MO; lia); congruence.
Qed.
