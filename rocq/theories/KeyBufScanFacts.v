(** Scan bounds in the caller's own memory behave as their values. *)
From Coq Require Import ZArith NArith List Bool Lia.
From Coq Require Import ZifyBool ZifyNat.
From Verif Require Import Config Api Page Machine Tree Scan RunFacts KeyBuf KeyBufFacts KeyBufScan.
Import ListNotations.
Open Scope prog_scope.
Open Scope Z_scope.

Section S.
Variable cb : chain -> key -> key.
Lemma head_val g fuel : forall k buf cl st,
  sim dropl (get_head_r g fuel (KVal k) buf cl st) (get_head g fuel k cl st 0%N).
Proof.
  induction fuel as [|f IH]; intros; cbn [get_head_r get_head]; [apply sim_fuel|].
  destruct st as [|p rest]; [apply sim_ub|]. cbn [deref].
  eapply sim_bind; [apply sim_refl|]. intros c ? <-.
  destruct (dc_validate c k cl) as [| |q]; try (apply sim_ret; reflexivity).
  - destruct rest as [|r0 rest'].
    + cbn [N.eqb negb]. eapply sim_bind; [apply sleaf_val|]. intros [st1 b1] st1' E. inversion E; subst. apply IH.
    + eapply sim_bind; [apply child_val|]. intros [[b st1] b1] [b' st1'] E. inversion E; subst.
      destruct st1'; [apply sim_ret; reflexivity|apply IH].
  - destruct (q =? 0)%N; [apply sim_ret; reflexivity|apply IH].
Qed.
Lemma cons_val g fuel : forall k buf cl st,
  sim dropl (cons_for_scan_r cb g fuel (KVal k) buf cl st) (cons_for_scan g fuel k cl st).
Proof.
  induction fuel as [|f IH]; intros; cbn [cons_for_scan_r cons_for_scan]; [apply sim_fuel|].
  eapply sim_bind; [apply head_val|]. intros [[oh st1] b1] [oh' st1'] E. inversion E; subst.
  destruct oh' as [hd|]; [|apply sim_ub]. destruct (is_remove hd); [apply IH|].
  eapply sim_bind; [apply sim_refl|]. intros n ? <-.
  rewrite <- (nsearch_val n k (cb hd b1)). destruct (node_search_r n (KVal k) (cb hd b1)) as [[fd pos] b2].
  apply sim_ret. reflexivity.
Qed.
Lemma end_val n e buf : fst (search_end_r n (own_bound e) buf) = search_end n e.
Proof.
  unfold search_end_r, search_end, is_rightmost_r, is_rightmost_of.
  destruct (n_high n) as [h|]; destruct e as [[k cl]|]; cbn [own_bound deref]; cbv zeta; try reflexivity;
    [destruct ((k <? h) || (negb cl && negb (h <? k))) eqn:E; [|reflexivity]; set (b0 := h)|set (b0 := buf)];
    (rewrite <- (nsearch_val n k b0); destruct (node_search_r n (KVal k) b0) as [[fd pos] b2]; reflexivity).
Qed.

Definition same_it (e : bound) (x : node * place * key) (y : node * iter) : Prop :=
  fst (fst x) = fst y /\ snd y = mk_iter (pl_pos (snd (fst x))) (pl_end (snd (fst x))) (pl_isend (snd (fst x))) e.
Lemma tail_val e (m : prog (node * Z * key)) m' : sim dropl m m' ->
  sim (same_it e)
    ('(n, pos, buf1) <- m ;; let '(is_end, end_pos, buf2) := search_end_r n (own_bound e) buf1 in Ret (n, mk_place pos end_pos is_end, buf2))
    ('(n, pos) <- m' ;; let '(is_end, end_pos) := search_end n e in Ret (n, mk_iter pos end_pos is_end e)).
Proof.
  intros H. eapply sim_bind; [exact H|]. intros [[n pos] b1] [n' pos'] E. inversion E; subst.
  rewrite <- (end_val n' e b1). destruct (search_end_r n' (own_bound e) b1) as [[ie ep] b2]. apply sim_ret. split; reflexivity.
Qed.
Lemma sib_val g fuel sb bk e buf : sim (same_it e) (sibling_scan_r cb g fuel sb bk (own_bound e) buf) (sibling_scan g fuel sb bk e).
Proof. apply tail_val. apply cons_val. Qed.
Lemma scan_val g fuel b e buf : sim (same_it e) (op_scan_r cb g fuel (own_bound b) (own_bound e) buf) (op_scan g fuel b e).
Proof.
  apply tail_val. destruct b as [[k cl]|]; cbn [own_bound].
  - eapply sim_bind; [apply sleaf_val|]. intros [st1 b1] st1' E. inversion E; subst. apply cons_val.
  - eapply sim_bind; [apply sim_refl|]. intros st ? <-. destruct st as [|p st]; [apply sim_ub|].
    eapply sim_bind; [apply sim_refl|]. intros hd ? <-. eapply sim_bind; [apply sim_refl|]. intros n ? <-. apply sim_ret. reflexivity.
Qed.
Definition same_has (e : bound) (x : bool * node * place * key) (y : bool * node * iter) : Prop :=
  fst (fst (fst x)) = fst (fst y) /\ same_it e (snd (fst (fst x)), snd (fst x), snd x) (snd (fst y), snd y).
Lemma has_val g fuel : forall pg it e buf,
  sim (same_has e) (has_record_r cb g fuel pg it (own_bound e) buf) (has_record g fuel pg (mk_iter (pl_pos it) (pl_end it) (pl_isend it) e)).
Proof.
  induction fuel as [|f IH]; intros; cbn [has_record_r has_record]; [apply sim_fuel|]. cbn [i_pos i_end i_isend i_ekey].
  destruct (pl_pos it <? pl_end it); [apply sim_ret; repeat split|].
  destruct (pl_isend it) eqn:E; [apply sim_ret; split; [reflexivity|]; split; [reflexivity|]; cbn [fst snd]; rewrite E; reflexivity|].
  destruct (n_high pg) as [h|]; [|apply sim_ub].
  eapply sim_bind; [apply sib_val|]. intros [[pg1 it1] b1] [pg2 it2] [E1 E2]. cbn [fst snd] in E1, E2. subst. apply IH.
Qed.
Lemma collect_val g fuel : forall pg it e buf,
  sim eq (collect_r cb g fuel pg it (own_bound e) buf) (collect g fuel pg (mk_iter (pl_pos it) (pl_end it) (pl_isend it) e)).
Proof.
  induction fuel as [|f IH]; intros; cbn [collect_r collect]; [apply sim_fuel|].
  eapply sim_bind; [apply has_val|]. intros [[[more pg1] it1] b1] [[more' pg2] it2] [E1 [E2 E3]]. cbn [fst snd] in E1, E2, E3. subst.
  destruct more'; [|apply sim_refl]. unfold get_record. cbn [i_pos].
  destruct (if n_inner pg2 then None else nth_error (n_recs pg2) (Z.to_nat (pl_pos it1))) as [x|]; [|apply sim_ub].
  eapply sim_bind; [apply (IH pg2 (mk_place (pl_pos it1 + 1) (pl_end it1) (pl_isend it1)))|].
  intros ? ? <-. apply sim_refl.
Qed.
Lemma scan_own g fuel b e buf s : run (scan_all_r cb g fuel (own_bound b) (own_bound e) buf) s = run (scan_all g fuel b e) s.
Proof.
  apply sim_run. eapply sim_bind; [apply scan_val|]. intros [[pg1 it1] b1] [pg2 it2] [E1 E2]. cbn [fst snd] in E1, E2. subst. apply collect_val.
Qed.
Lemma iter_bound_val g b : c_ptr g = false -> iter_bound g b = own_bound b.
Proof. intros E. unfold iter_bound, iter_key. rewrite E. reflexivity. Qed.
Lemma scan_iter_value g fuel b e buf s : c_ptr g = false ->
  run (scan_all_r cb g fuel (iter_bound g b) (iter_bound g e) buf) s = run (scan_all g fuel b e) s.
Proof. intros E. rewrite !iter_bound_val by auto. apply scan_own. Qed.
End S.
