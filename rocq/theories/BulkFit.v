(** Bulkload in the fixed-length layout publishes pages within the page size only, whatever
    the interleaving of its workers; so do all programs before and after it. *)
From Coq Require Import ZArith NArith List Bool Lia.
From Coq Require Import ZifyBool ZifyNat ZifyN.
From Verif Require Import Config Api Page Machine Tree Scan Spec Valid Conc ConcSpec StatSpec RunFacts SeqSpec SeqOps Bulk BulkSpec PageFacts StatFacts
  ByteSeqSpec ByteLifeSpec ByteLifeMain.
From Verif Require ByteSeqMain SeqScan.
Import ListNotations.
Open Scope Z_scope.

Section Fit.
Variable g : cfg.
Hypothesis OK : cfg_ok g.
Hypothesis HV : c_varlen g = false.
Hypothesis BC : bulk_ok g.
Notation sp := (sp g).
Definition nfit (n : node) : Prop := n_size n <= c_page g.

Lemma okl0 k : okl g k = 0.
Proof. unfold okl. rewrite HV. reflexivity. Qed.
Lemma fill_size ps : forall es est sz, sz <= c_page g -> sz <= est -> snd (bulk_fill g ps est sz es) <= c_page g.
Proof.
  destruct BC as [B1 B2].
  induction es as [|[k v] es IH]; intros est sz H1 H2; cbn [bulk_fill snd]; auto.
  cbv zeta. destruct (c_bulkcap g <? est + recsz g ps k) eqn:E; [exact H1|].
  specialize (IH (est + recsz g ps k) (sz + recsz g ps k)).
  destruct (bulk_fill g ps (est + recsz g ps k) (sz + recsz g ps k) es) as [[a b] z]. cbn [snd] in *. apply IH; lia.
Qed.
Lemma bulk_node_fit a inner es : nfit (fst (bulk_node g a inner es)).
Proof.
  unfold bulk_node, nfit. destruct (fit_cond g OK) as [_ C2].
  pose proof (fill_size (paysz g inner) es (bulk_est g inner) (c_hdr g) C2) as H.
  unfold bulk_est in *. rewrite HV in *. specialize (H (Z.le_refl _)).
  destruct (bulk_fill g (paysz g inner) (c_hdr g) (c_hdr g) es) as [[rs rest] sz]. cbn [fst snd n_size] in *. rewrite okl0. destruct inner; lia.
Qed.
Lemma link_fit n p k : nfit n -> nfit (link_next g n p k).
Proof. unfold nfit, link_next. cbn [n_size]. rewrite okl0. lia. Qed.

Lemma sp_construct inner : forall f es prev, match prev with Some (_, pn) => nfit pn | None => True end ->
  sp (construct_layer g f inner es prev) any.
Proof.
  induction f as [|f IH]; intros es prev Hp; cbn [construct_layer]; [exact I|]. destruct es as [|x es]; [exact I|].
  cbn [bind alloc PageFacts.sp]. intros a p. pose proof (bulk_node_fit a inner (x :: es)) as Hn.
  destruct (bulk_node g a inner (x :: es)) as [n rest]. cbn [fst] in Hn. cbn [bind store PageFacts.sp]. split; [exact Hn|].
  assert (R : sp (bind (construct_layer g f inner rest (Some (p, n))) (fun nodes => Ret ((match n_low n with Some k => k | None => c_garbage g end, p) :: nodes))) any)
    by (apply sp_bind_any; [apply IH; exact Hn|intros; exact I]).
  destruct prev as [[pp pn]|]; [|exact R]. cbn [bind store PageFacts.sp]. split; [exact (link_fit _ _ _ Hp)|exact R].
Qed.
Lemma sp_layers : forall f ns h, sp (partial_layers g f ns h) any.
Proof.
  induction f as [|f IH]; intros ns h; cbn [partial_layers]; [exact I|]. destruct (inner_cap g <? Z.of_nat (length ns)); [|exact I].
  apply sp_bind_any; [apply sp_construct; exact I|]. intros; apply IH.
Qed.
Lemma sp_single f es : sp (bulk_single g f es) any.
Proof. unfold bulk_single. apply sp_bind_any; [apply sp_construct; exact I|]. intros; apply sp_layers. Qed.
Lemma sp_vertical : forall f l r, sp (link_vertical g f l r) any.
Proof.
  induction f as [|f IH]; intros l r; cbn [link_vertical]; [exact I|]. destruct (N.eqb l 0); [exact I|].
  cbn [bind load PageFacts.sp]. intros cl Hl cr Hr. destruct cl as [ln|? ?|? ? ?|? ?]; try exact I. destruct cr as [rn|? ?|? ? ?|? ?]; try exact I.
  destruct (n_low rn) as [k|]; [|exact I]. cbn [bind store PageFacts.sp]. split; [exact (link_fit _ _ _ Hl)|].
  destruct (n_inner ln); cbn [negb]; [|exact I]. destruct (n_inner rn); [|exact I]. destruct (n_recs rn) as [|[? r'] ?]; [exact I|].
  destruct (rev (n_recs ln)) as [|[? l'] ?]; [exact I|]. apply IH.
Qed.
Lemma sp_leftmost : forall f p, sp (remove_leftmost f p) any.
Proof.
  induction f as [|f IH]; intros p; cbn [remove_leftmost]; [exact I|].
  cbn [bind load PageFacts.sp]. intros c Hc. destruct c as [n|? ?|? ? ?|? ?]; try exact I. cbn [bind store PageFacts.sp]. split; [exact Hc|].
  destruct (n_inner n); cbn [negb]; [|exact I]. destruct (n_recs n) as [|[? q] ?]; [exact I|]. apply IH.
Qed.
Lemma sp_parts f : forall ps, sp (run_parts g f ps) any.
Proof.
  induction ps as [|p ps IH]; cbn [run_parts]; [exact I|]. apply sp_bind_any; [apply sp_single|]. intros x.
  apply sp_bind_any; [exact IH|]. intros; exact I.
Qed.
Lemma sp_raise : forall f h H ns, sp (raise_to g f h H ns) any.
Proof.
  induction f as [|f IH]; intros h H ns; cbn [raise_to]; [exact I|]. destruct (h <? H); [|exact I].
  apply sp_bind_any; [apply sp_construct; exact I|]. intros; apply IH.
Qed.
Lemma sp_align f H : forall ts prev, sp (align g f H prev ts) any.
Proof.
  induction ts as [|[h ns] ts IH]; intros prev; cbn [align]; [exact I|]. apply sp_bind_any; [apply sp_raise|].
  intros [|[k first] ns1]; [exact I|]. apply sp_bind_any; [apply sp_vertical|]. intros _.
  apply sp_bind_any; [apply IH|]. intros; exact I.
Qed.
Lemma sp_upper : forall f ns, sp (upper_layers g f ns) any.
Proof.
  induction f as [|f IH]; intros ns; cbn [upper_layers]; [exact I|]. destruct (1 <? Z.of_nat (length ns)); [|exact I].
  apply sp_bind_any; [apply sp_construct; exact I|]. intros; apply IH.
Qed.
Lemma sp_root f ns : sp (bulk_root g f ns) any.
Proof.
  unfold bulk_root. apply sp_bind_any; [apply sp_upper|]. intros [|[k p] t]; [exact I|]. apply sp_bind_any; [apply sp_leftmost|].
  intros _. cbn [bind load PageFacts.sp]. intros _ c _. exact I.
Qed.
Lemma sp_join f ts : sp (bulk_join g f ts) any.
Proof. unfold bulk_join, bulk_align. apply sp_bind_any; [apply sp_align|]. intros; apply sp_root. Qed.
Lemma sp_load f es T : sp (op_bulkload g f es T) any.
Proof.
  unfold op_bulkload. destruct es as [|x es]; [exact I|]. cbv zeta. apply sp_bind_any; [|intros; apply sp_root].
  destruct ((T <=? 1) || (Z.of_nat (length (x :: es)) <? T)).
  - apply sp_bind_any; [apply sp_single|]. intros [h ns]; exact I.
  - apply sp_bind_any; [apply sp_parts|]. intros; unfold bulk_align; apply sp_align.
Qed.

Lemma pstep_sp {A} (m : prog A) b s m' s' : sp m any -> mem_ok g s -> pstep m b s = Some (m', s') -> sp m' any /\ mem_ok g s'.
Proof.
  intros W Hs. destruct m; cbn [pstep PageFacts.sp] in *; try discriminate.
  - destruct (s_tbl s p) as [c|] eqn:E; intros X; inversion X; subst; split; auto; [apply W; eapply Hs; eauto|exact I].
  - intros X; inversion X; subst. destruct W. split; auto. apply mem_set; auto.
  - intros X; inversion X; subst. split; auto. apply mem_set; auto.
  - destruct W. destruct (cas_ok s weak b p e); intros X; inversion X; subst; split; auto. apply mem_set; auto.
  - intros X; inversion X; subst; auto.
  - intros X; inversion X; subst; auto.
  - destruct (N.eqb (s_root s) old); intros X; inversion X; subst; auto.
  - intros X; inversion X; subst; auto.
  - intros X; inversion X; subst; auto.
  - intros X; inversion X; subst; auto.
  - intros X; inversion X; subst; auto.
  - intros X; inversion X; subst; auto.
Qed.
Lemma work_sp sch : forall ws s, Forall (fun m => sp m any) ws -> mem_ok g s -> mem_ok g (snd (work ws s sch)).
Proof.
  induction sch as [|t sch IH]; intros ws s Hw Hs; cbn [work]; auto.
  destruct (nth_error ws t) as [m|] eqn:E; [|auto]. destruct (pstep m false s) as [[m' s1]|] eqn:Ep; [|auto].
  assert (Hm : sp m any) by (rewrite Forall_forall in Hw; apply Hw; eapply nth_error_In; eauto).
  destruct (pstep_sp _ _ _ _ _ Hm Hs Ep). apply IH; auto. apply Forall_put; auto.
Qed.
Lemma load_fits es s s' : bulkloaded g es s s' -> mem_ok g s -> mem_ok g s'.
Proof.
  intros [f T _ R|f f' T sch ts s1 _ _ W R] H.
  - exact (proj2 (run_sp g _ _ _ _ _ (sp_load f es T) H R)).
  - refine (proj2 (run_sp g _ _ _ _ _ (sp_join f' ts) _ R)).
    pose proof (work_sp sch (bulk_workers g f es T) s) as Q. rewrite W in Q. cbn [snd] in Q. apply Q; auto.
    unfold bulk_workers. apply Forall_forall. intros m Hm. apply in_map_iff in Hm as (x & <- & _). apply sp_single.
Qed.

Lemma items_fit K f : forall is s M js s', SeqOps.tree g s M -> Forall (item_keys K) is -> mem_ok g s -> run_items g f is s = Done js s' -> mem_ok g s'.
Proof.
  induction is as [|i is IH]; intros s M js s' T Hk H E; cbn [run_items] in E; [injection E as _ <-; exact H|].
  destruct (run (item_prog g f i) s) as [j s1| |] eqn:E1; try discriminate.
  destruct (run_items g f is s1) as [js1 s2| |] eqn:E2; try discriminate. injection E as <- <-.
  destruct (ByteSeqMain.item_ok g OK K s M i T (Forall_inv Hk)) as (F1 & j' & s1' & _ & T1 & Sc & H1).
  assert (X : run (item_prog g (max f F1) i) s = run (item_prog g f i) s) by (apply FuelFacts.mle_run; [apply ByteSeqMain.mono_item; lia|rewrite E1; discriminate]).
  destruct (H1 (max f F1)) as [Y _]; [lia|]. rewrite X, E1 in Y. injection Y as <- <-.
  refine (IH s1 _ js1 s2 T1 (Forall_inv_tail Hk) _ E2).
  destruct i as [o|b e].
  - cbn [item_prog] in E1. rewrite run_bind in E1. destruct (run (call_prog g f o) s) as [r s3| |] eqn:E3; try discriminate. cbn in E1. injection E1 as <- <-.
    exact (proj2 (run_sp g _ _ _ _ _ (sp_call g (proj1 (fit_cond g OK)) f o) H E3)).
  - subst s1. exact H.
Qed.
Lemma lived_fits K M s : lived g K M s -> mem_ok g s.
Proof.
  induction 1 as [|M s f is js s' H IH Hk R|M s es s' M' H IH Hk Ha Hn B HM].
  - apply init_fits. exact (proj2 (fit_cond g OK)).
  - destruct (lived_tree g K OK HV BC (fun _ _ => 0%N) M s H) as [T _]. eapply items_fit; eauto.
  - eapply load_fits; eauto.
Qed.

Lemma lived_stats K M s drec : lived g K M s ->
  exists F st, (forall f, (F <= f)%nat -> run (op_stats g drec f) s = Done st s) /\
    forall i, match nth_error st i with
      | Some (n, u, v) => u <= v /\ exists l, NoDup l /\ n = Z.of_nat (length l) /\ forall q, In q l <-> visits s i q
      | None => forall q, ~ visits s i q
      end.
Proof.
  intros H. apply (stats_tree g OK s M drec); [|eapply lived_fits; eauto].
  exact (proj1 (lived_tree g K OK HV BC (fun _ _ => 0%N) M s H)).
Qed.
Lemma lived_conc K M s fuel todos sch : lived g K M s ->
  forall p c, s_tbl (c_mem (fst (exec g fuel (start s todos) sch))) p = Some c -> pfit g c.
Proof.
  intros H p c Hp. refine (proj1 (exec_sp g (proj1 (fit_cond g OK)) fuel sch _ _) p c Hp).
  split; [exact (lived_fits K M s H)|]. cbn. rewrite Forall_forall. intros x Hx. apply in_map_iff in Hx as (td & <- & _). exact I.
Qed.
End Fit.
