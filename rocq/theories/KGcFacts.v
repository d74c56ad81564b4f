(** Ownership of pages and reclamation when threads also scan and collect statistics. *)
From Coq Require Import ZArith NArith List Bool Lia.
From Verif Require Import Config Api Page Machine Tree Scan Spec Conc Client GcFacts KEpochSpec.
From Verif Require EpochFacts.
Import ListNotations.

Section S.
Variable g : cfg.
Local Notation ro := (GcFacts.ro g).
Local Notation wp := (GcFacts.wp g).

(** ** Scans and statistics only load *)
Lemma ro_load_valid p f : ro (load_valid g f p).
Proof. intros R. eapply wp_mono; [|apply wp_load_valid]. intros a R' (E & _). exact E. Qed.
Lemma ro_get_head k cl tgt f st : ro (get_head g f k cl st tgt).
Proof. intros R. eapply wp_mono; [|apply wp_get_head]. intros a R' (E & _). exact E. Qed.
Lemma ro_scan_page c : ro (scan_page g c).
Proof.
  unfold scan_page. destruct (dc_sort c [] []) as [[ds ns]|]; [|apply ro_ub].
  destruct (Z.ltb _ _); [apply ro_ub|]. cbn zeta. destruct (Z.ltb _ _); [apply ro_ub|].
  destruct (consolidate _ _ _ _ _ _ _ _); apply ro_ub || apply ro_ret.
Qed.
Lemma ro_cons_for_scan k cl : forall f st, ro (cons_for_scan g f k cl st).
Proof.
  induction f as [|f IH]; intros st; cbn [cons_for_scan]; [apply ro_fuel|].
  apply ro_bind; [apply ro_get_head|]. intros [[c|] st']; [|apply ro_ub].
  destruct (is_remove c); [apply IH|]. apply ro_bind; [apply ro_scan_page|]. intros n.
  destruct (node_search n k). apply ro_ret.
Qed.
Lemma ro_leftmost_head p : forall f, ro (leftmost_head f p).
Proof.
  induction f as [|f IH]; cbn [leftmost_head]; [apply ro_fuel|]. apply ro_load. intros c.
  destruct (is_remove c); [exact IH|apply ro_ret].
Qed.
Lemma ro_leftmost_loop : forall f st, ro (leftmost_loop f st).
Proof.
  induction f as [|f IH]; intros st; cbn [leftmost_loop]; [apply ro_fuel|]. destruct st as [|p r]; [apply ro_ub|].
  apply ro_load. intros c. destruct (h_leaf c); [apply ro_ret|]. destruct (leftmost_child c); [apply IH|apply ro_ub].
Qed.
Lemma ro_root {A} (k : pid -> prog A) : (forall p, ro (k p)) -> ro (LoadRoot k).
Proof. intros H R. cbn [wp]. intros p. apply H. Qed.
Lemma ro_op_scan f b e : ro (op_scan g f b e).
Proof.
  unfold op_scan. apply ro_bind.
  - destruct b as [[bk cl]|].
    + apply ro_bind; [apply ro_search_leaf|]. intros st. apply ro_cons_for_scan.
    + apply ro_bind; [apply ro_root; intros p; apply ro_leftmost_loop|]. intros [|p st]; [apply ro_ub|].
      apply ro_bind; [apply ro_leftmost_head|]. intros c. apply ro_bind; [apply ro_scan_page|]. intros n. apply ro_ret.
  - intros [n pos]. destruct (search_end n e). apply ro_ret.
Qed.
Lemma ro_sibling f p k e : ro (sibling_scan g f p k e).
Proof.
  unfold sibling_scan. apply ro_bind; [apply ro_cons_for_scan|]. intros [n pos]. destruct (search_end n e). apply ro_ret.
Qed.
Lemma ro_has_record : forall f pg it, ro (has_record g f pg it).
Proof.
  induction f as [|f IH]; intros pg it; cbn [has_record]; [apply ro_fuel|].
  destruct (Z.ltb _ _); [apply ro_ret|]. destruct (i_isend it); [apply ro_ret|].
  destruct (n_high pg); [|apply ro_ub]. apply ro_bind; [apply ro_sibling|]. intros [pg' it']. apply IH.
Qed.
Lemma ro_next f pg it : ro (next_prog g f pg it).
Proof.
  unfold next_prog. apply ro_bind; [apply ro_has_record|]. intros [[[|] pg1] it1]; [|apply ro_ret].
  destruct (get_record pg1 it1); [apply ro_ret|apply ro_ub].
Qed.
Lemma ro_valid_head p : forall f, ro (valid_head_not_removed g f p).
Proof.
  induction f as [|f IH]; cbn [valid_head_not_removed]; [apply ro_fuel|]. apply ro_bind; [apply ro_load_valid|].
  intros c. destruct (is_remove c); [exact IH|apply ro_ret].
Qed.
Lemma ro_collect d : forall f p lvl acc, ro (collect_stats g d f p lvl acc).
Proof.
  induction f as [|f IH]; intros p lvl acc; cbn [collect_stats]; [apply ro_fuel|].
  apply ro_bind; [apply ro_valid_head|]. intros c. destruct (node_usage c) as [[sz dn]|]; [|apply ro_ub]. cbn zeta.
  destruct (h_leaf c); [apply ro_ret|]. apply ro_bind; [apply ro_scan_page|]. intros n.
  generalize (add_stat lvl (sz + dn * d) (c_page g + dn * d) acc). generalize (n_recs n).
  induction l as [|[k v] l IHl]; intros acc1; [apply ro_ret|]. apply ro_bind; [apply IH|]. intros acc2. apply IHl.
Qed.

Lemma wp_clean_ro {A} (m : prog A) R : ro m -> clean tt R -> wp R m clean.
Proof. intros H C. eapply wp_mono; [|apply H]. intros a R' E. exact (clean_ext tt a R R' C E). Qed.
Lemma wp_req f cu q R : clean tt R -> wp R (req_prog g f cu q) clean.
Proof.
  intros C. destruct q as [o|b e| |d]; cbn [req_prog].
  - apply wp_bind. eapply wp_mono; [|apply wp_call, C]. intros r R' X. exact X.
  - apply wp_clean_ro; auto. apply ro_bind; [apply ro_op_scan|]. intros [pg it]. apply ro_ret.
  - apply wp_clean_ro; auto. destruct cu as [[pg it]|]; [apply ro_next|apply ro_ret].
  - apply wp_clean_ro; auto. apply ro_bind; [apply ro_root; intros; apply ro_collect|]. intros l. apply ro_ret.
Qed.

(** ** Executions *)
Definition kthr_wp (G : ghost) (t : nat) (th : client) : Prop :=
  match th with KIdle _ _ => clean tt (g_hold G t) | KRun m _ => wp (g_hold G t) m clean end.
Definition kinv (G : ghost) (c : kst) : Prop :=
  inv g G (k_mem c) /\ forall t, match nth_error (k_thr c) t with Some th => kthr_wp G t th | None => clean tt (g_hold G t) end.

Lemma kstep_inv f c t b G : kinv G c -> exists G', kinv G' (fst (kstep g f c t b)) /\ keeps G G'.
Proof.
  intros [Hi Ht]. unfold kstep. destruct (nth_error (k_thr c) t) as [th|] eqn:E; [|exists G; split; [split; auto|apply keeps_refl]].
  assert (HP : forall G' s' th', inv g G' s' -> kthr_wp G' t th' -> (forall u, u <> t -> g_hold G' u = g_hold G u) ->
    kinv G' (mk_kst s' (firstn t (k_thr c) ++ th' :: skipn (S t) (k_thr c)))).
  { intros G' s' th' A B C. split; auto. cbn [k_thr]. intros u. rewrite (nth_put _ _ _ _ _ E).
    destruct (Nat.eqb u t) eqn:Eu.
    - apply Nat.eqb_eq in Eu. subst u. exact B.
    - apply Nat.eqb_neq in Eu. specialize (Ht u). destruct (nth_error (k_thr c) u) as [[? ?|? ?]|]; cbn [kthr_wp] in *; rewrite C; auto. }
  pose proof (Ht t) as Hm. rewrite E in Hm.
  destruct th as [cu [|o td]|m td].
  - exists G; split; [split; auto|apply keeps_refl].
  - exists G. split; [|apply keeps_refl]. apply HP; auto. apply wp_req. exact Hm.
  - cbn [kthr_wp] in Hm.
    assert (HS : exists G', kinv G' (fst (match pstep m b (k_mem c) with
        | Some (m', s') => (mk_kst s' (firstn t (k_thr c) ++ KRun m' td :: skipn (S t) (k_thr c)), @nil kevent)
        | None => (c, []) end)) /\ keeps G G').
    { destruct (pstep m b (k_mem c)) as [[m' s']|] eqn:Ep; [|exists G; split; [split; auto|apply keeps_refl]].
      destruct (wp_pstep _ _ _ _ _ _ _ _ Hi Hm Ep) as (G' & (A & A') & B & C). exists G'. split; [apply HP; auto|auto]. }
    destruct m as [[a cu]| | | | | | | | | | | | | |]; try exact HS. exists G. split; [apply HP; auto|apply keeps_refl].
Qed.
Lemma kexec_inv f sch : forall c G, kinv G c -> exists G', kinv G' (fst (kexec g f c sch)) /\ keeps G G'.
Proof.
  induction sch as [|[t b] r IH]; intros c G H; cbn [kexec]; [exists G; auto using keeps_refl|].
  destruct (kstep_inv f c t b G H) as (G1 & H1 & K1). destruct (kstep g f c t b) as [c1 h1]. cbn [fst] in H1.
  destruct (IH _ _ H1) as (G2 & H2 & K2). destruct (kexec g f c1 r). exists G2. split; [exact H2|eapply keeps_trans; eauto].
Qed.
Lemma kstart_owns s todos : owns s -> exists G, kinv G (kstart s todos).
Proof.
  intros O. destruct (start_owns g s [] O) as (G & H & T). exists G. split; [exact H|]. intros t.
  specialize (T t). cbn [start c_thr] in T.
  assert (C : clean tt (g_hold G t)) by (destruct t; exact T).
  cbn [kstart k_thr]. rewrite nth_error_map. destruct (nth_error todos t); exact C.
Qed.

Lemma kgc_once_from s0 f todos sch : owns s0 -> let s := k_mem (fst (kexec g f (kstart s0 todos) sch)) in
  NoDup (s_gc s) /\ forall p c a, s_tbl s p = Some c -> In a (chain_addrs c) -> ~ In a (s_gc s).
Proof.
  intros OW. destruct (kstart_owns s0 todos OW) as [G0 H0]. destruct (kexec_inv f sch _ _ H0) as (G & [H _] & _).
  destruct (i_gc _ _ _ H) as [A B]. split; auto. intros p c a E X Y. apply B in Y.
  destruct (i_tbl _ _ _ H _ _ E) as (_ & _ & Z). apply Z in X. congruence.
Qed.
Lemma kfresh_not_gc s0 f todos sch : owns s0 -> let s := k_mem (fst (kexec g f (kstart s0 todos) sch)) in
  ~ In (s_naddr s) (s_gc s).
Proof.
  intros OW. destruct (kstart_owns s0 todos OW) as [G0 H0]. destruct (kexec_inv f sch _ _ H0) as (G & [H _] & _).
  intros s X. apply (proj2 (i_gc _ _ _ H)) in X. pose proof (i_new _ _ _ H (s_naddr s) (N.le_refl _)) as Y. congruence.
Qed.

Lemma kexec_app f s1 : forall c s2, kexec g f c (s1 ++ s2) =
  (fst (kexec g f (fst (kexec g f c s1)) s2),
   snd (kexec g f c s1) ++ snd (kexec g f (fst (kexec g f c s1)) s2)).
Proof.
  induction s1 as [|[t b] s1 IH]; intros c s2; cbn [kexec app fst snd].
  - destruct (kexec g f c s2); reflexivity.
  - destruct (kstep g f c t b) as [c1 h1]. rewrite (IH c1 s2).
    destruct (kexec g f c1 s1) as [c2 h2]. cbn [fst snd]. rewrite app_assoc. reflexivity.
Qed.

(** A page that was reachable is, once no request is running, still reachable or retired. *)
Lemma kno_leak_from s0 f todos s1 s2 p c a : owns s0 ->
  let e1 := fst (kexec g f (kstart s0 todos) s1) in
  let e2 := fst (kexec g f (kstart s0 todos) (s1 ++ s2)) in
  s_tbl (k_mem e1) p = Some c -> In a (chain_addrs c) ->
  (forall th, In th (k_thr e2) -> exists cu td, th = KIdle cu td) ->
  In a (s_gc (k_mem e2)) \/ exists q d, s_tbl (k_mem e2) q = Some d /\ In a (chain_addrs d).
Proof.
  intros OW. cbn zeta. rewrite kexec_app. cbn [fst]. intros E Ha Hid.
  destruct (kstart_owns s0 todos OW) as [G0 H0]. destruct (kexec_inv f s1 _ _ H0) as (G1 & H1 & _).
  destruct (kexec_inv f s2 _ _ H1) as (G2 & [H2 T2] & K2).
  assert (P : pub (g_own G1 a)) by (destruct (i_tbl _ _ _ (proj1 H1) _ _ E) as (_ & _ & Z); rewrite Z by auto; apply pub_table).
  apply K2 in P. destruct (g_own G2 a) as [|t|q|t|] eqn:O.
  - now destruct P.
  - destruct P as [_ P]. now destruct (P t).
  - right. apply (i_xt _ _ _ H2) in O. destruct (s_tbl _ q) as [d|] eqn:Eq; [|destruct O]. exists q, d. auto.
  - exfalso. apply (i_xu _ _ _ H2) in O.
    specialize (T2 t). destruct (nth_error _ t) as [th|] eqn:Et; [|exact (T2 a O)].
    destruct (Hid th (nth_error_In _ _ Et)) as (cu & td & ->). exact (T2 a O).
  - left. apply (i_xg _ _ _ H2), O.
Qed.

(** ** Guards *)
Lemma kstep_gc f c t b a : In a (s_gc (k_mem c)) -> In a (s_gc (k_mem (fst (kstep g f c t b)))).
Proof.
  intros H. unfold kstep. destruct (nth_error (k_thr c) t) as [[cu [|o r]|m r]|]; auto.
  destruct m as [[x cu]| | | | | | | | | | | | | |]; auto; match goal with |- context [pstep ?m ?b ?s] => destruct (pstep m b s) as [[m' s']|] eqn:E end;
    auto; cbn [fst k_mem]; eapply EpochFacts.pstep_gc; eauto.
Qed.
Lemma kexec_gc f sch : forall c a, In a (s_gc (k_mem c)) -> In a (s_gc (k_mem (fst (kexec g f c sch)))).
Proof.
  induction sch as [|[t b] r IH]; intros c a H; cbn [kexec]; auto.
  pose proof (kstep_gc f c t b a H) as H1. destruct (kstep g f c t b) as [c1 h1]. cbn [fst] in H1.
  specialize (IH _ _ H1). destruct (kexec g f c1 r). exact IH.
Qed.

Lemma running_app h1 h2 t : running (h1 ++ h2) t =
  fold_left (fun o e => match e with
    | VInv u q => if Nat.eqb u t then Some q else o
    | VRes u _ => if Nat.eqb u t then None else o end) h2 (running h1 t).
Proof. unfold running. apply fold_left_app. Qed.

(** A thread has a request in progress iff it runs a program. *)
Definition agree (c : kst) (o : tid -> option req) : Prop := forall t,
  match nth_error (k_thr c) t with Some (KRun _ _) => o t <> None | _ => o t = None end.
Lemma kstep_agree f c t b h : agree c (running h) -> agree (fst (kstep g f c t b)) (running (h ++ snd (kstep g f c t b))).
Proof.
  intros A. unfold kstep. pose proof (A t) as At. destruct (nth_error (k_thr c) t) as [th|] eqn:E;
    [|cbn [fst snd]; rewrite app_nil_r; exact A].
  assert (K : forall s th' h', (forall u, u <> t -> running (h ++ h') u = running h u) ->
    (match th' with KRun _ _ => running (h ++ h') t <> None | _ => running (h ++ h') t = None end) ->
    agree (mk_kst s (firstn t (k_thr c) ++ th' :: skipn (S t) (k_thr c))) (running (h ++ h'))).
  { intros s th' h' O T u. cbn [k_thr]. rewrite (nth_put _ _ _ _ _ E). destruct (Nat.eqb u t) eqn:Eu.
    - apply Nat.eqb_eq in Eu. subst u. exact T.
    - apply Nat.eqb_neq in Eu. rewrite O by auto. apply A. }
  destruct th as [cu [|q r]|m r].
  - cbn [fst snd]; rewrite app_nil_r; exact A.
  - cbn [fst snd]. apply K.
    + intros u Hu. rewrite running_app. cbn. destruct (Nat.eqb_spec t u); congruence.
    + rewrite running_app. cbn. rewrite Nat.eqb_refl. discriminate.
  - assert (HS : forall x : option (prog (ans * cursor) * st), let y := match x with
        | Some (m', s') => (mk_kst s' (firstn t (k_thr c) ++ KRun m' r :: skipn (S t) (k_thr c)), @nil kevent)
        | None => (c, []) end in agree (fst y) (running (h ++ snd y))).
    { intros [[m' s']|]; cbn [fst snd].
      - apply K; [intros; rewrite app_nil_r; auto|rewrite app_nil_r; exact At].
      - rewrite app_nil_r. exact A. }
    destruct m as [[x cu]| | | | | | | | | | | | | |]; try apply HS. cbn [fst snd]. apply K.
    + intros u Hu. rewrite running_app. cbn. destruct (Nat.eqb_spec t u); congruence.
    + rewrite running_app. cbn. rewrite Nat.eqb_refl. reflexivity.
Qed.
Lemma kexec_agree f sch : forall c h, agree c (running h) -> agree (fst (kexec g f c sch)) (running (h ++ snd (kexec g f c sch))).
Proof.
  induction sch as [|[t b] r IH]; intros c h A; cbn [kexec].
  - cbn [fst snd]. rewrite app_nil_r. exact A.
  - pose proof (kstep_agree f c t b h A) as A1. destruct (kstep g f c t b) as [c1 h1]. cbn [fst snd] in A1.
    specialize (IH _ _ A1). destruct (kexec g f c1 r) as [c2 h2]. cbn [fst snd] in *. rewrite app_assoc. exact IH.
Qed.
(** A request ends only with its return event. *)
Lemma kstep_running f c t b h u q : agree c (running h) -> running h u = Some q ->
  running (h ++ snd (kstep g f c t b)) u = Some q \/ exists x, In (VRes u x) (snd (kstep g f c t b)).
Proof.
  intros A Hu. pose proof (A u) as Au. rewrite Hu in Au. unfold kstep.
  destruct (nth_error (k_thr c) t) as [th|] eqn:E; [|left; cbn [snd]; rewrite app_nil_r; exact Hu].
  destruct th as [cu [|o r]|m r].
  - left. cbn [snd]. rewrite app_nil_r. exact Hu.
  - cbn [snd]. left. rewrite running_app. cbn. destruct (Nat.eqb_spec t u) as [->|]; auto.
    rewrite E in Au. discriminate.
  - destruct m as [[x cu]| | | | | | | | | | | | | |];
      try (left; match goal with |- context [pstep ?m ?b ?s] => destruct (pstep m b s) as [[m' s']|] end; cbn [snd]; rewrite app_nil_r; exact Hu).
    cbn [snd]. destruct (Nat.eqb_spec t u) as [->|Hn].
    + right. exists x. left. reflexivity.
    + left. rewrite running_app. cbn. destruct (Nat.eqb_spec t u); [easy|exact Hu].
Qed.
Lemma kexec_running f u q sch : forall c h, agree c (running h) -> running h u = Some q ->
  running (h ++ snd (kexec g f c sch)) u = Some q \/ exists x, In (VRes u x) (snd (kexec g f c sch)).
Proof.
  induction sch as [|[t b] r IH]; intros c h A Hu; cbn [kexec].
  - left. cbn [snd]. rewrite app_nil_r. exact Hu.
  - pose proof (kstep_agree f c t b h A) as A1. pose proof (kstep_running f c t b h u q A Hu) as R1.
    destruct (kstep g f c t b) as [c1 h1]. cbn [fst snd] in A1, R1. destruct R1 as [R1|[x R1]].
    + specialize (IH _ _ A1 R1). destruct (kexec g f c1 r) as [c2 h2]. cbn [fst snd] in *. rewrite app_assoc.
      destruct IH as [IH|[x IH]]; auto. right. exists x. apply in_app_iff. auto.
    + right. exists x. destruct (kexec g f c1 r). apply in_app_iff. auto.
Qed.

Lemma knot_freed_from s0 f todos s1 s2 t q a : owns s0 -> let c0 := kstart s0 todos in
  let e := fst (kexec g f c0 s1) in
  running (snd (kexec g f c0 s1)) t = Some q -> guarded q = true ->
  kobtains e t a -> (forall x, ~ In (VRes t x) (snd (kexec g f e s2))) ->
  ~ kmay_free g f c0 (s1 ++ s2) a.
Proof.
  intros OW c0 e Hq Hg Ho Hr (r1 & r2 & E & H).
  assert (Ng : ~ In a (s_gc (k_mem e))).
  { destruct Ho as [(p & k & r & h & _ & Et & Ha)|(k & r & _ & ->)].
    - exact (proj2 (kgc_once_from s0 f todos s1 OW) p h a Et Ha).
    - apply (kfresh_not_gc s0 f todos s1 OW). }
  destruct (kexec g f c0 r1) as [e1 h1] eqn:E1. destruct H as [Hgc Hb].
  apply EpochFacts.app_split in E as [(x & -> & ->)|(x & -> & ->)].
  - (* retired before the access *)
    apply Ng. unfold e. rewrite kexec_app, E1. cbn [fst]. apply kexec_gc. exact Hgc.
  - rewrite kexec_app in E1. cbn [fst snd] in E1. inversion E1; subst e1 h1. clear E1. fold e in Hb, Hgc.
    assert (A : agree e (running (snd (kexec g f c0 s1)))).
    { apply (kexec_agree f s1 c0 []). intros u. cbn. rewrite nth_error_map. destruct (nth_error todos u); reflexivity. }
    destruct (kexec_running f t q x e _ A Hq) as [B|[y B]].
    + destruct (Hb t q B Hg) as [y Hy].
      apply (Hr y). rewrite kexec_app. cbn [snd]. apply in_app_iff. right. exact Hy.
    + apply (Hr y). rewrite kexec_app. cbn [snd]. apply in_app_iff. left. exact B.
Qed.
End S.
