(** Fixed-length pages made by consolidation: their size covers their records, so Bulkload's pages and the
    pages of client calls obey one invariant. *)
From Coq Require Import ZArith NArith List Bool Lia.
From Coq Require Import ZifyBool ZifyNat ZifyN.
From Verif Require Import Config Api Spec Page Machine Tree Valid ChainSpec Bytes FixLayout DeltaBytes LayoutFacts ByteCons ByteConsSpec ByteFind
  ByteTree ByteTreeSpec ByteTreeRel ByteTreeInst ByteBulkSim.
From Verif Require BulkFacts.
Import ListNotations.
Open Scope Z_scope.

Section Room.
Variables (g : cfg).
Hypothesis HV : c_varlen g = false.

Definition csok (w : Z) (s : cstate) : Prop :=
  cs_size s = c_hdr g + w * Z.of_nat (length (cs_cur s)) /\
  match cs_left s with Some (l, z) => z = c_hdr g + w * Z.of_nat (length l) | None => True end.
Lemma copy_csok w r s : csok w s -> csok w (copy_rec g w r s).
Proof.
  intros [A B]. unfold copy_rec. destruct (_ && _); split; cbn [cs_size cs_cur cs_left]; auto; try rewrite A, app_length; cbn [length]; try lia.
Qed.
Lemma recsz_w ps k : recsz g ps k = c_ksize g + ps.
Proof. rewrite (BulkFacts.rsz g HV). lia. Qed.
Lemma cdelta_csok ps d s : csok (c_ksize g + ps) s -> csok (c_ksize g + ps) (copy_delta g ps d s).
Proof. intros H. unfold copy_delta. destruct (d_type d); auto; rewrite recsz_w; apply copy_csok; auto. Qed.
Lemma flush_csok ps k : forall ds s, csok (c_ksize g + ps) s -> csok (c_ksize g + ps) (snd (flush_below g ps k ds s)).
Proof.
  induction ds as [|d t IH]; intros s H; cbn [flush_below]; auto. destruct (d_key d <? k); auto. apply IH. apply cdelta_csok; auto.
Qed.
Lemma recs_csok ps : forall rs ds s, csok (c_ksize g + ps) s -> csok (c_ksize g + ps) (snd (merge_recs g ps rs ds s)).
Proof.
  induction rs as [|[k v] rt IH]; intros ds s H; cbn [merge_recs]; auto.
  pose proof (flush_csok ps k ds s H) as H1. destruct (flush_below g ps k ds s) as [ds1 s1]. cbn [snd] in H1.
  destruct ds1 as [|d dt]; [apply IH; rewrite recsz_w; apply copy_csok; auto|].
  destruct (negb _); apply IH; [apply cdelta_csok; auto|rewrite recsz_w; apply copy_csok; auto].
Qed.
Lemma node_csok inner n ds s : n_inner n = inner -> csok (c_ksize g + paysz g inner) s -> csok (c_ksize g + paysz g inner) (snd (merge_node g (paysz g inner) n ds s)).
Proof.
  intros Hi H. unfold merge_node. rewrite Hi. destruct (inner && is_leftmost n) eqn:E; [|apply recs_csok; auto].
  destruct (n_recs n); auto. apply recs_csok. destruct inner; [|discriminate].
  replace (nullsz g) with (c_ksize g + paysz g true); [apply copy_csok; auto|]. unfold nullsz, metalen, paysz. rewrite HV. lia.
Qed.
Lemma nodes_csok inner : forall ns ds s, Forall (fun n => n_inner n = inner) ns -> csok (c_ksize g + paysz g inner) s ->
  csok (c_ksize g + paysz g inner) (merge_nodes g (paysz g inner) ns ds s).
Proof.
  induction ns as [|n t IH]; intros ds s Hf H; cbn [merge_nodes].
  - revert s H. induction ds as [|d t IH]; intros s H; cbn [fold_left]; auto. apply IH. apply cdelta_csok; auto.
  - inversion Hf; subst. pose proof (node_csok _ n ds s eq_refl H) as H1. destruct (merge_node _ _ _ _ _) as [ds1 s1]. apply IH; auto.
Qed.
Lemma cons_csok inner ns ds split : Forall (fun n => n_inner n = inner) ns ->
  csok (c_ksize g + paysz g inner) (merge_nodes g (paysz g inner) (rev ns) ds (mk_cs None [] (c_hdr g) split)).
Proof.
  intros H. apply nodes_csok.
  - apply Forall_forall. intros n Hn. rewrite Forall_forall in H. apply H. apply in_rev. exact Hn.
  - split; cbn; auto. lia.
Qed.
Lemma okl_z k : okl g k = 0.
Proof. unfold okl. rewrite HV. reflexivity. Qed.
Lemma low_z inner b rs : snd (low_of g inner b rs) = 0.
Proof. unfold low_of. rewrite HV. cbn. apply okl_z. Qed.
Lemma one_room inner a ra ns ds n : Forall (fun n => n_inner n = inner) ns ->
  consolidate g inner a ra ns ds false false = COne n -> room g n.
Proof.
  intros Hf E. pose proof (cons_csok inner ns ds false Hf) as [A _]. unfold consolidate in E.
  destruct (low_of g inner _ _) as [low add] eqn:El. pose proof (f_equal snd El) as Ez. rewrite low_z in Ez. cbn in Ez.
  injection E as <-. unfold room. cbn [n_inner n_recs n_size]. rewrite okl_z, A. lia.
Qed.
Lemma scan_room inner a ra ns ds n : Forall (fun n => n_inner n = inner) ns ->
  consolidate g inner a ra ns ds false true = COne n -> scan_bytes g inner ns ds <= 2 * c_page g -> room g n.
Proof.
  intros Hf E Hs. pose proof (cons_csok inner ns ds false Hf) as [A _]. unfold consolidate in E. unfold scan_bytes in Hs. rewrite low_z, okl_z in Hs.
  destruct (low_of g inner _ _) as [low add] eqn:El.
  injection E as <-. unfold room. cbn [n_inner n_recs n_size]. rewrite A in Hs. rewrite !Z.add_0_r in Hs. exact Hs.
Qed.
Lemma two_room inner a ra ns ds l r : Forall (fun n => n_inner n = inner) ns ->
  consolidate g inner a ra ns ds true false = CTwo l r -> room g l /\ room g r.
Proof.
  intros Hf E. pose proof (cons_csok inner ns ds true Hf) as [A B]. unfold consolidate in E.
  destruct (cs_left _) as [[lrs lsz]|]; [|discriminate]. destruct (cs_cur _) as [|[rk rv] rt] eqn:Ec; [discriminate|].
  destruct (low_of g inner _ lrs) as [low add] eqn:El. pose proof (f_equal snd El) as Ez. rewrite low_z in Ez. cbn in Ez.
  injection E as <- <-. unfold room. cbn [n_inner n_recs n_size]. rewrite !okl_z. rewrite A, B. destruct inner; lia.
Qed.

Variables (K : Z -> Prop) (lt : list N -> list N -> bool) (ek : Z -> list N) (evl : N -> list N) (L : flay) (e : N).
Hypothesis OK : cfg_ok g.
Hypothesis HL : flay_ok g L e.
Hypothesis HC : coding g false K lt ek evl.
Notation C := (fix_klass L (Z.to_N (c_paylen g)) lt).

Lemma fixr_ok : klass_ok C lt g K ek evl (NP g ek evl L) (fDP g ek evl L).
Proof.
  pose proof (fix_ok g K lt ek evl L e OK HV HL HC) as Q. destruct Q as [Q1 Q2 Q3 Q4 Q5 Q6 Q7 Q8 Q9 Q10 Q11 Q12 Q13 Q14 Q15 Q16 Q17 Q18 Q19 Q20 Q21 Q22].
  assert (RM : forall inner c b, chain_rep (fun n p => n_inner n = inner /\ NP g ek evl L n p) (fun d b => d_inner d = inner /\ fDP g ek evl L d b) c b ->
     chain_rep (fun n p => n_inner n = inner /\ fNP g ek evl L n p) (fun d b => d_inner d = inner /\ fDP g ek evl L d b) c b).
  { intros inner c b H. eapply rep_mono; [| |exact H]; cbn; auto. intros n p [A [B _]]. auto. }
  constructor; auto.
  - intros n p i [H _]. auto.
  - intros n p j k v [H _]. eauto.
  - intros n p [H _]. auto.
  - intros n n' p S [H R]. split; [eauto|]. destruct S as (E1 & _ & _ & E4 & E5). unfold room in *. rewrite <- E1, <- E4, <- E5. exact R.
  - intros m a. split; [apply Q12|]. unfold room. cbn. lia.
  - intros m a l r k Hl Hr. split; [apply Q13; auto|]. unfold room, new_root. cbn [n_inner n_recs n_size length paysz].
    rewrite recsz_w. unfold nullsz, metalen. rewrite HV. lia.
  - intros m a n p k pid [H _]. eauto.
  - intros m a n p k pid [H _]. eauto.
  - intros m a n p k [H _]. eauto.
  - intros inner c b ds ns n a ra m m' size Hr Hk Es Hpo Ec Hne Hf Hsz.
    destruct (Q20 inner c b ds ns n a ra m m' size (RM _ _ _ Hr) Hk Es Hpo Ec Hne Hf Hsz) as (q & A & B). exists q. split; [exact A|]. split; [exact B|].
    eapply one_room; [|exact Ec]. apply Hpo.
  - intros inner c b ds ns l r a ra m m' size Hr Hk Es Hpo Ec Hfl Hfr Hsz.
    destruct (Q21 inner c b ds ns l r a ra m m' size (RM _ _ _ Hr) Hk Es Hpo Ec Hfl Hfr Hsz) as (ql & qr & A & B1 & B2). exists ql, qr.
    destruct (two_room inner a ra ns ds l r ltac:(apply Hpo) Ec). split; [exact A|]. split; split; auto.
  - intros inner c b ds ns n a ra m m' size Hr Hk Es Hpo Ec Hne Hf.
    destruct (Q22 inner c b ds ns n a ra m m' size (RM _ _ _ Hr) Hk Es Hpo Ec Hne Hf) as (q & A & B). exists q. split; [exact A|]. split; [exact B|].
    eapply scan_room; [|exact Ec|exact Hf]. apply Hpo.
Qed.
End Room.
