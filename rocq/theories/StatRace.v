(** A thread that collects statistics and finds, in a consolidated parent, the page ID of a
    node that has been merged into its left neighbour meanwhile waits for good. *)
From Coq Require Import ZArith NArith List Bool Lia.
From Verif Require Import Config Api Page Machine Tree Scan Spec Client ClientSpec MrgSpec.
From Verif Require MrgClient.
Import ListNotations.
Open Scope prog_scope.

(** ** Programs that only load *)
(** [m], run on [s], only loads; whatever it returns satisfies [Q]. *)
Fixpoint ro {A} (s : st) (m : prog A) (Q : A -> Prop) : Prop :=
  match m with
  | Ret a => Q a
  | Load p k => match s_tbl s p with Some c => ro s (k c) Q | None => True end
  | LoadRoot k => ro s (k (s_root s)) Q
  | UB _ | Fuel => True
  | _ => False
  end.
Lemma ro_bind {A B} s (m : prog A) (f : A -> prog B) Q : ro s m (fun a => ro s (f a) Q) -> ro s (bind m f) Q.
Proof. induction m; cbn [ro bind]; intros X; auto; try tauto. destruct (s_tbl s p); auto. Qed.
Lemma ro_mono {A} s (m : prog A) (Q R : A -> Prop) : (forall a, Q a -> R a) -> ro s m Q -> ro s m R.
Proof. intros M. induction m; cbn [ro]; intros X; auto; try tauto. destruct (s_tbl s p); auto. Qed.
Lemma ro_step {A} s (m : prog A) Q b m' s' : ro s m Q -> pstep m b s = Some (m', s') -> s' = s /\ ro s m' Q.
Proof.
  destruct m; cbn [ro pstep]; try tauto; try discriminate; intros X E.
  - destruct (s_tbl s p); inversion E; subst; cbn [ro]; auto.
  - inversion E; subst; auto.
Qed.

Lemma ro_load_valid g s p : forall f, ro s (load_valid g f p) (fun c => s_tbl s p = Some c).
Proof.
  induction f as [|f IH]; [exact I|]. cbn [load_valid load bind ro]. destruct (s_tbl s p) as [c|]; auto.
  destruct (need_wait g c); cbn [ro]; auto.
Qed.
Lemma ro_vhead g s p : forall f, ro s (valid_head_not_removed g f p) (fun c => s_tbl s p = Some c /\ is_remove c = false).
Proof.
  induction f as [|f IH]; [exact I|]. cbn [valid_head_not_removed]. apply ro_bind.
  eapply ro_mono; [|apply ro_load_valid]. cbn beta. intros c E. destruct (is_remove c) eqn:R; auto. cbn [ro]. auto.
Qed.
Lemma ro_scan_page g s c : ro s (scan_page g c) (fun n => scan_page g c = Ret n).
Proof.
  unfold scan_page. destruct (dc_sort c [] []) as [[ds ns]|]; [|exact I]. destruct (Z.ltb (c_maxd g) _); [exact I|].
  cbn zeta. destruct (Z.ltb (2 * c_page g) _); [exact I|]. destruct (consolidate _ _ _ _ _ _ _ _); try exact I. reflexivity.
Qed.

(** What CollectStatisticalData does with the head of a node (bw_tree.hpp:735-757). *)
Definition tail (g : cfg) (d : Z) (f : nat) (lvl : nat) (acc : list (Z * Z * Z)) (head : chain) : prog (list (Z * Z * Z)) :=
  match node_usage head with
  | None => UB UbNull
  | Some (sz, dn) =>
      let acc1 := add_stat lvl (sz + dn * d) (c_page g + dn * d) acc in
      if h_leaf head then Ret acc1
      else
        n <- scan_page g head ;;
        (fix go (l : list (key * val)) (acc : list (Z * Z * Z)) :=
           match l with
           | [] => Ret acc
           | (_, c) :: t => acc' <- collect_stats g d f c (S lvl) acc ;; go t acc'
           end) (n_recs n) acc1
  end.
Lemma collect_tail g d f p lvl acc :
  collect_stats g d (S f) p lvl acc = bind (valid_head_not_removed g f p) (tail g d f lvl acc).
Proof. reflexivity. Qed.
Lemma ro_collect g s d : forall f p lvl acc, ro s (collect_stats g d f p lvl acc) (fun _ => True).
Proof.
  induction f as [|f IH]; intros p lvl acc; [exact I|]. rewrite collect_tail. apply ro_bind.
  eapply ro_mono; [|apply ro_vhead]. cbn beta. intros c _. unfold tail.
  destruct (node_usage c) as [[sz dn]|]; [|exact I]. cbn zeta. destruct (h_leaf c); [exact I|]. apply ro_bind.
  eapply ro_mono; [|apply ro_scan_page]. cbn beta. intros n _. generalize (add_stat lvl (sz + dn * d) (c_page g + dn * d) acc).
  generalize (n_recs n). induction l as [|[k v] l IHl]; intros acc1; [exact I|]. apply ro_bind.
  eapply ro_mono; [|apply IH]. cbn beta. intros acc2 _. apply IHl.
Qed.
(** The slot of a removed node never becomes valid again. *)
Lemma ro_collect_removed g s d q c : s_tbl s q = Some c -> is_remove c = true ->
  forall f lvl acc, ro s (collect_stats g d f q lvl acc) (fun _ => False).
Proof.
  intros E R [|f] lvl acc; [exact I|]. rewrite collect_tail. apply ro_bind.
  eapply ro_mono; [|apply ro_vhead]. cbn beta. intros c' [E' R']. congruence.
Qed.
Lemma ro_tail g s d f lvl acc head n q c : scan_page g head = Ret n -> h_leaf head = false -> In q (map snd (n_recs n)) ->
  s_tbl s q = Some c -> is_remove c = true -> ro s (tail g d f lvl acc head) (fun _ => False).
Proof.
  intros En El Hq E R. unfold tail. destruct (node_usage head) as [[sz dn]|]; [|exact I]. rewrite El, En. cbn [bind].
  generalize (add_stat lvl (sz + dn * d) (c_page g + dn * d) acc). revert Hq. generalize (n_recs n).
  induction l as [|[k v] l IHl]; intros Hq acc1; [contradiction|]. apply ro_bind. cbn [map snd In] in Hq. destruct Hq as [->|Hq].
  - eapply ro_mono; [|eapply (ro_collect_removed g s d q c E R)]. contradiction.
  - eapply ro_mono; [|apply ro_collect]. cbn beta. intros acc2 _. apply IHl; auto.
Qed.

(** ** Two clients *)
Section K.
Variables (g : cfg) (fuel : nat).
Lemma kexec_app sch2 : forall sch c, kexec g fuel c (sch ++ sch2) =
  (fst (kexec g fuel (fst (kexec g fuel c sch)) sch2), snd (kexec g fuel c sch) ++ snd (kexec g fuel (fst (kexec g fuel c sch)) sch2)).
Proof.
  induction sch as [|[t b] sch IH]; intros c; cbn [kexec app].
  - cbn [fst snd app]. destruct (kexec g fuel c sch2); reflexivity.
  - destruct (kstep g fuel c t b) as [c1 h1]. rewrite IH. destruct (kexec g fuel c1 sch) as [c2 h2]. cbn [fst snd].
    rewrite app_assoc. reflexivity.
Qed.
(** Steps of the first thread leave the second one where it is. *)
Lemma kstep_other s x y b : exists s' x' h, kstep g fuel (mk_kst s [x; y]) 0%nat b = (mk_kst s' [x'; y], h) /\ forall a, ~ In (VRes 1%nat a) h.
Proof.
  unfold kstep. cbn [k_thr nth_error k_mem firstn skipn app]. destruct x as [cu [|q r]|m r].
  - exists s, (KIdle cu []), []. split; auto.
  - do 3 eexists. split; [reflexivity|]. intros a [H|[]]. discriminate.
  - destruct m as [[a cu]| | | | | | | | | | | | | |];
      try (do 3 eexists; split; [reflexivity|intros ? [H|[]]; discriminate]);
      (match goal with |- context [pstep ?m b s] => destruct (pstep m b s) as [[m' s']|] end;
       do 3 eexists; (split; [reflexivity|intros ? []])).
Qed.
Lemma kexec_other n : forall s x y, exists s' x' h,
  kexec g fuel (mk_kst s [x; y]) (repeat (0%nat, false) n) = (mk_kst s' [x'; y], h) /\ forall a, ~ In (VRes 1%nat a) h.
Proof.
  induction n as [|n IH]; intros s x y; cbn [repeat kexec].
  - do 3 eexists. split; [reflexivity|]. intros a [].
  - destruct (kstep_other s x y false) as (s1 & x1 & h1 & -> & N1). destruct (IH s1 x1 y) as (s2 & x2 & h2 & -> & N2).
    do 3 eexists. split; [reflexivity|]. intros a H. apply in_app_or in H as [H|H]; [eapply N1|eapply N2]; eauto.
Qed.
(** A thread that only loads and never returns, beside a thread that has nothing to do. *)
Lemma spin s cu : forall sch m r, ro s m (fun _ => False) -> exists m' h,
  kexec g fuel (mk_kst s [KIdle cu []; KRun m r]) sch = (mk_kst s [KIdle cu []; KRun m' r], h) /\ forall t a, ~ In (VRes t a) h.
Proof.
  induction sch as [|[t b] sch IH]; intros m r Hm; cbn [kexec].
  - do 2 eexists. split; [reflexivity|]. intros t a [].
  - assert (X : exists m1, kstep g fuel (mk_kst s [KIdle cu []; KRun m r]) t b = (mk_kst s [KIdle cu []; KRun m1 r], []) /\ ro s m1 (fun _ => False)).
    { destruct t as [|[|t]]; unfold kstep; cbn [k_thr nth_error k_mem firstn skipn app]; [exists m; auto| |].
      - destruct (pstep m b s) as [[m1 s1]|] eqn:E.
        + destruct (ro_step _ _ _ _ _ _ Hm E) as [-> H1]. exists m1. split; auto. destruct m as [[a c]| | | | | | | | | | | | | |]; try reflexivity. destruct Hm.
        + exists m. split; auto. destruct m as [[a c]| | | | | | | | | | | | | |]; try reflexivity. destruct Hm.
      - exists m. split; auto. destruct t; reflexivity. }
    destruct X as (m1 & -> & H1). destruct (IH m1 r H1) as (m2 & h2 & -> & N2). do 2 eexists. split; [reflexivity|]. exact N2.
Qed.
Lemma kstays_app R sch2 : forall sch c, kroot_stays g fuel R c sch -> kroot_stays g fuel R (fst (kexec g fuel c sch)) sch2 ->
  kroot_stays g fuel R c (sch ++ sch2).
Proof.
  intros sch c H1 H2 pre post E. apply app_eq_app in E as (l & [[-> ->]|[-> E]]).
  - apply (H1 pre l eq_refl).
  - rewrite kexec_app. cbn [fst]. apply (H2 l post). auto.
Qed.
End K.

(** The first steps of a collector. *)
Lemma three g d f s x cu r head b1 b2 b3 : s_tbl s (s_root s) = Some head -> need_wait g head = false -> is_remove head = false ->
  kexec g (S (S (S f))) (mk_kst s [x; KIdle cu (QStat d :: r)]) [(1%nat, b1); (1%nat, b2); (1%nat, b3)] =
  (mk_kst s [x; KRun (bind (tail g d (S (S f)) 0%nat [] head) (fun l => Ret (AStat l, cu))) r], [VInv 1%nat (QStat d)]).
Proof.
  intros E W R. cbn [kexec kstep k_thr nth_error k_mem firstn skipn app req_prog op_stats bind pstep].
  rewrite collect_tail. cbn [valid_head_not_removed load_valid load bind pstep]. rewrite E. cbn [bind]. rewrite W. cbn [bind]. rewrite R. reflexivity.
Qed.

(** What is to be checked of the first part of the schedule: the root is an inner node with
    the child [q]; and of the state after the second: the first thread is done, the slot
    of [q] holds a remove delta. *)
Definition child_b (g : cfg) (q : pid) (c : kst) : bool :=
  let s := k_mem c in
  match s_tbl s (s_root s) with
  | Some head =>
      negb (need_wait g head) && negb (is_remove head) && negb (h_leaf head) &&
      match scan_page g head with Ret n => existsb (N.eqb q) (map snd (n_recs n)) | _ => false end
  | None => false
  end.
Definition gone_b (q : pid) (c : kst) : bool :=
  match nth_error (k_thr c) 0%nat with Some (KIdle _ []) => true | _ => false end &&
  match s_tbl (k_mem c) q with Some h => is_remove h | None => false end.

Lemma collector_waits g d f s0 cs a b q :
  let sch := repeat (0%nat, false) a ++ [(1%nat, false); (1%nat, false); (1%nat, false)] ++ repeat (0%nat, false) b in
  let c0 := kstart s0 [cs; [QStat d]] in
  let fuel := S (S (S f)) in
  child_b g q (fst (kexec g fuel c0 (repeat (0%nat, false) a))) = true ->
  gone_b q (fst (kexec g fuel c0 sch)) = true ->
  kroot_stays_b g fuel (s_root s0) c0 sch = true ->
  forall sch2, let e := kexec g fuel c0 (sch ++ sch2) in
    kroot_stays g fuel (s_root s0) c0 (sch ++ sch2) /\
    (exists cu, nth_error (k_thr (fst e)) 0%nat = Some (KIdle cu [])) /\
    In (VInv 1%nat (QStat d)) (snd e) /\ forall x, ~ In (VRes 1%nat x) (snd e).
Proof.
  intros sch c0 fuel B1 B2 B3 sch2 e.
  assert (S1 : exists s1 x1 h1, kexec g fuel c0 (repeat (0%nat, false) a) = (mk_kst s1 [x1; KIdle None [QStat d]], h1) /\ forall x, ~ In (VRes 1%nat x) h1)
    by apply kexec_other.
  destruct S1 as (s1 & x1 & h1 & E1 & N1). rewrite E1 in B1. unfold child_b in B1. cbn [fst k_mem] in B1.
  destruct (s_tbl s1 (s_root s1)) as [head|] eqn:Eh; [|discriminate].
  apply andb_true_iff in B1 as [B1 Bq]. apply andb_true_iff in B1 as [B1 Bl]. apply andb_true_iff in B1 as [Bw Br].
  apply negb_true_iff in Bl, Bw, Br. destruct (scan_page g head) as [n| | | | | | | | | | | | | |] eqn:En; try discriminate.
  apply existsb_exists in Bq as (q' & Hq & Eq). apply N.eqb_eq in Eq. subst q'.
  set (m := bind (tail g d (S (S f)) 0%nat [] head) (fun l => Ret (AStat l, None : cursor))) in *.
  pose proof (three g d f s1 x1 None [] head false false false Eh Bw Br) as E2. fold fuel m in E2.
  destruct (kexec_other g fuel b s1 x1 (KRun m [])) as (s3 & x3 & h3 & E3 & N3).
  assert (E : kexec g fuel c0 sch = (mk_kst s3 [x3; KRun m []], h1 ++ [VInv 1%nat (QStat d)] ++ h3)).
  { unfold sch. rewrite kexec_app, E1. cbn [fst snd]. rewrite kexec_app, E2. cbn [fst snd]. rewrite E3. reflexivity. }
  rewrite E in B2. unfold gone_b in B2. cbn [fst k_thr nth_error k_mem] in B2.
  destruct x3 as [cu [|? ?]|]; try discriminate. destruct (s_tbl s3 q) as [h|] eqn:Eq; [|discriminate]. cbn [andb] in B2.
  assert (Hm : ro s3 m (fun _ => False)).
  { unfold m. apply ro_bind. eapply ro_mono; [|eapply ro_tail; eauto]. contradiction. }
  destruct (spin g fuel s3 cu sch2 m [] Hm) as (m' & h' & E4 & N4).
  assert (Ee : e = (mk_kst s3 [KIdle cu []; KRun m' []], (h1 ++ [VInv 1%nat (QStat d)] ++ h3) ++ h')).
  { unfold e. rewrite kexec_app, E. cbn [fst snd]. rewrite E4. reflexivity. }
  rewrite Ee. cbn [fst snd k_thr nth_error].
  pose proof (MrgClient.kroot_stays_ok g fuel (s_root s0) sch c0 B3) as RS. split; [|split; [eauto|split]].
  - apply kstays_app; [exact RS|]. rewrite E. cbn [fst]. intros pre post _. destruct (spin g fuel s3 cu pre m [] Hm) as (m2 & h2 & -> & _).
    specialize (RS sch [] (eq_sym (app_nil_r sch))). rewrite E in RS. exact RS.
  - apply in_or_app. left. apply in_or_app. right. left. reflexivity.
  - intros x H. apply in_app_or in H as [H|H]; [|eapply N4; eauto]. apply in_app_or in H as [H|[H|H]]; [eapply N1; eauto|discriminate|eapply N3; eauto].
Qed.
