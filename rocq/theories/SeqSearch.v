(** Single-threaded behaviour of the search functions on a quiescent tree. *)
From Coq Require Import ZArith NArith List Bool Lia.
From Coq Require Import Sorting.Sorted ZifyBool ZifyNat ZifyN.
From Verif Require Import Config Page Machine Tree ListFacts SearchFacts ChainSpec ChainFacts Valid
  RunFacts SeqSpec LevelFacts.
Import ListNotations.
Open Scope Z_scope.

(** Steps of the derived programs. *)
Section Steps.
Context {A : Type}.
Context {S0 : chain -> Prop}.
Local Notation evp := (evg S0).
Implicit Types (Q : A -> st -> Prop) (s : st).
Lemma evp_bload p c (K : nat -> nat -> chain -> prog A) s Q : s_tbl s p = Some c -> S0 c ->
  evp (fun f1 f2 => K f1 f2 c) s Q -> evp (fun f1 f2 => bind (load p) (K f1 f2)) s Q.
Proof. intros. unfold load. cbn [bind]. eapply evp_load; eauto. Qed.
Lemma evp_balloc (K : nat -> nat -> addr -> prog A) s Q :
  evp (fun f1 f2 => K f1 f2 (s_naddr s)) (bump_addr s) Q ->
  evp (fun f1 f2 => bind alloc (K f1 f2)) s Q.
Proof. intros. unfold alloc. cbn [bind]. apply evp_alloc; auto. Qed.
Lemma evp_bcas w p e n c (K : nat -> nat -> bool -> prog A) s Q :
  s_tbl s p = Some c -> h_addr c = e -> S0 n ->
  evp (fun f1 f2 => K f1 f2 true) (set_tbl s p (Some n)) Q ->
  evp (fun f1 f2 => bind (cas w p e n) (K f1 f2)) s Q.
Proof. intros. unfold cas. cbn [bind]. eapply evp_cas; eauto. Qed.
End Steps.

Section S.
Variable g : cfg.
Hypothesis OK : cfg_ok g.

Lemma quiet_wait c : quiet g c -> need_wait g c = false.
Proof.
  intros [H _]. unfold need_consolidation, need_wait in *. destruct (is_base c); auto. cbn [negb andb] in *.
  destruct (ok_thr g OK). destruct (Z.leb_spec (c_thr g) (h_cnt c)), (Z.leb_spec (c_maxd g) (h_cnt c)); cbn in *; auto; lia.
Qed.

Lemma load_valid_ok s p c (Q : chain -> st -> Prop) : s_tbl s p = Some c -> good c -> quiet g c -> Q c s ->
  evp (fun _ f => load_valid g f p) s Q.
Proof.
  intros E Hg Hq HQ. apply evp_S. cbn [load_valid]. eapply evp_bload; eauto.
  rewrite (quiet_wait c Hq). apply evp_ret; auto.
Qed.

Lemma wait_cell_ok s a (Q : pid -> st -> Prop) : s_cell s a <> 0%N -> Q (s_cell s a) s ->
  evp (fun _ f => wait_cell f a) s Q.
Proof.
  intros E HQ. apply evp_S. cbn [wait_cell]. apply evp_lcell.
  destruct (N.eqb_spec (s_cell s a) 0); [congruence|]. apply evp_ret; auto.
Qed.

Lemma okst_mono s : forall stk lv b b', ole b b' -> okst s lv b stk -> okst s lv b' stk.
Proof.
  intros [|p r] lv b b' H; cbn [okst]; auto. intros (lo & A & B).
  exists lo. split; auto. eapply ole_trans; eauto.
Qed.

Lemma node_ok_cwf pend s i N : Forall (node_ok g pend s i) N -> Forall (fun x => cwf g i (snd x)) N.
Proof. apply Forall_impl. intros x H. apply H. Qed.

Lemma up_in pend s i flat N lv p c : up g pend s i flat (N :: lv) -> In (p, c) N ->
  s_tbl s p = Some c /\ cwf g i c /\ quiet g c /\ (i = true -> iexact c /\ icells (s_cell s) pend c).
Proof.
  intros (_ & _ & _ & _ & H & _) Hi. rewrite Forall_forall in H. apply (H _ Hi).
Qed.

Lemma in_pids p c N lv : In (p, c) N -> In p (pids (N :: lv)).
Proof. intros H. unfold pids. cbn. apply in_app_iff. left. apply in_map_iff. exists (p, c). auto. Qed.

(** A search that starts at a live node with a low enough lower bound. *)
Lemma sc_live pend s flat N lv k closed target rest n1 p c n2 :
  up g pend s true flat (N :: lv) -> N = n1 ++ (p, c) :: n2 ->
  lo_ok (c_lo c) (eff k closed) -> (forall a k', pend a k' -> eff k closed < k') ->
  ~ In target (map fst N) ->
  evp (fun _ f => search_child_node f k closed (p :: rest) target) s
    (fun r s' => s' = s /\ exists q d lo x, r = (false, x :: q :: rest) /\ In (q, d) N /\
       ole (c_lo c) (c_lo d) /\ at_ flat (eff k closed) (lo, x) /\ ole (c_lo d) lo).
Proof.
  intros Hup. revert n1 p c. induction n2 as [|[q d] n2 IH]; intros n1 p c EN Lo Hp Ht.
  - (* last node of the level *)
    assert (Hin : In (p, c) N) by (rewrite EN; apply in_app_iff; right; left; auto).
    destruct (up_in _ _ _ _ _ _ _ _ Hup Hin) as (Et & Hw & Hq & Hic). destruct (Hic eq_refl) as [He Hc].
    destruct Hup as (Hne & H0 & Hl & Hs & Hn & Hf & _).
    assert (Hh : c_hi c = None).
    { rewrite EN in Hl. apply linked_app in Hl as [_ Hl]. cbn in Hl. tauto. }
    apply evp_S. cbn [search_child_node]. eapply evp_bload; eauto.
    pose proof (dc_search_child_spec g (s_cell s) pend c k closed Hw He Hc false ltac:(discriminate)) as R.
    assert (At : exists lo, at_ flat (eff k closed) (lo, route (eff k closed) (ilead c) (ients c)) /\ ole (c_lo c) lo).
    { rewrite <- Hf, EN. rewrite EN in *. eapply at_flat; eauto. eapply node_ok_cwf; eauto.
      rewrite Hh; exact I. }
    destruct At as (lo & At & Lo').
    inversion R as [v A B E|a A B E|n A B C E|h A B E]; try congruence.
    + rewrite (iwf_inner _ _ Hw). apply evp_ret. split; auto. exists p, c, lo, v. subst v. repeat split; auto. apply ole_refl.
    + destruct B as [(k' & P & L)|[B1 B2]]; [apply Hp in P; lia|].
      eapply evp_bind.
      { eapply (wait_cell_ok s a (fun x s' => x = s_cell s a /\ s' = s)); auto. }
      intros x s1 [-> ->]. apply evp_ret. split; auto. exists p, c, lo, (s_cell s a). rewrite B1.
      repeat split; auto. apply ole_refl.
    + destruct B as (Bi & (k0 & R1 & _) & S1 & _).
      rewrite (node_search_child_spec n k closed _ _ _ R1 S1), (iwf_inner _ _ Hw). rewrite <- C.
      apply evp_ret. split; auto. exists p, c, lo. eexists. repeat split; eauto. apply ole_refl.
  - assert (Hin : In (p, c) N) by (rewrite EN; apply in_app_iff; right; left; auto).
    destruct (up_in _ _ _ _ _ _ _ _ Hup Hin) as (Et & Hw & Hq & Hic). destruct (Hic eq_refl) as [He Hc].
    pose proof Hup as (Hne & H0 & Hl & Hs & Hn & Hf & _).
    apply evp_S. cbn [search_child_node]. eapply evp_bload; eauto.
    pose proof (dc_search_child_spec g (s_cell s) pend c k closed Hw He Hc false ltac:(discriminate)) as R.
    assert (At : hi_ok (c_hi c) (eff k closed) -> exists lo, at_ flat (eff k closed) (lo, route (eff k closed) (ilead c) (ients c)) /\ ole (c_lo c) lo).
    { intros Hh. rewrite <- Hf, EN. rewrite EN in *. eapply at_flat; eauto. eapply node_ok_cwf; eauto. }
    inversion R as [v A B E|a A B E|n A B C E|h A B E].
    + destruct (At A) as (lo & At' & Lo').
      rewrite (iwf_inner _ _ Hw). apply evp_ret. split; auto. exists p, c, lo, v. subst v. repeat split; auto. apply ole_refl.
    + destruct (At A) as (lo & At' & Lo').
      destruct B as [(k' & P & L)|[B1 B2]]; [apply Hp in P; lia|].
      eapply evp_bind.
      { eapply (wait_cell_ok s a (fun x s' => x = s_cell s a /\ s' = s)); auto. }
      intros x s1 [-> ->]. apply evp_ret. split; auto. exists p, c, lo, (s_cell s a). rewrite B1.
      repeat split; auto. apply ole_refl.
    + destruct (At A) as (lo & At' & Lo').
      destruct B as (Bi & (k0 & R1 & _) & S1 & _).
      rewrite (node_search_child_spec n k closed _ _ _ R1 S1), (iwf_inner _ _ Hw). rewrite <- C.
      apply evp_ret. split; auto. exists p, c, lo. eexists. repeat split; eauto. apply ole_refl.
    + assert (Ln : c_hi c = c_lo d /\ c_next c = q).
      { rewrite EN in Hl. apply linked_app in Hl as [_ Hl]. cbn in Hl. tauto. }
      destruct Ln as [L1 L2]. rewrite L2.
      assert (EN' : N = (n1 ++ [(p, c)]) ++ (q, d) :: n2) by (rewrite <- app_assoc; auto).
      assert (Hnt : In q (map fst N)).
      { rewrite EN'. rewrite map_app. apply in_app_iff; right; left; auto. }
      destruct (N.eqb_spec q target); [subst; tauto|].
      eapply evp_weaken.
      * eapply (IH (n1 ++ [(p, c)]) q d); auto. rewrite <- L1, A. cbn. auto.
      * cbn beta. intros r s' (-> & q' & d' & lo & x & -> & H1 & H2 & H3 & H4). split; auto.
        exists q', d', lo, x. repeat split; auto. eapply ole_trans; [|exact H2].
        rewrite EN in Hs. rewrite lows_app, !lows_cons in Hs. apply osorted_app_inv in Hs as (_ & Hs & _).
        apply osorted_cons_inv in Hs as [_ Hs]. apply Forall_inv in Hs. apply olt_ole; auto.
Qed.

Lemma search_dead s p : dead s p -> forall k closed rest target (Q : bool * list pid -> st -> Prop),
  (match rest with
   | [] => target <> 0%N /\ Q (false, []) s
   | _ => evp (fun _ f => search_child_node f k closed rest target) s (fun r s' =>
      fst r = false /\
      match snd r with
      | [] => Q (false, []) s'
      | st' => evp (fun _ f => search_child_node f k closed st' target) s' Q
      end)
   end) ->
  evp (fun _ f => search_child_node f k closed (p :: rest) target) s Q.
Proof.
  intros (a & l & E) k closed rest target Q H. apply evp_S. cbn [search_child_node].
  eapply evp_bload; eauto. cbn [dc_search_child]. destruct rest as [|q rest].
  - destruct H as [H1 H2]. destruct (N.eqb_spec target 0); [congruence|]. apply evp_ret; auto.
  - eapply evp_bind; [exact H|]. intros [b st'] s1. cbn [fst snd]. intros [-> H2].
    destruct st'; auto. apply evp_ret. auto.
Qed.

(** A search from any usable stack. *)
Lemma sc_ok s k closed target : target <> 0%N -> forall stk lv flat b,
  up g nopend s true flat lv -> okst s lv b stk -> lo_ok b (eff k closed) -> ~ In target (pids lv) ->
  stk <> [] ->
  evp (fun _ f => search_child_node f k closed stk target) s
    (fun r s' => s' = s /\ (r = (false, []) \/
       exists lo x q rest N c, r = (false, x :: q :: rest) /\ hd_error lv = Some N /\ In (q, c) N /\
         at_ flat (eff k closed) (lo, x) /\ okst s lv lo (q :: rest))).
Proof.
  intros Ht. induction stk as [|p rest IH]; intros lv flat b Hup Hok Lo Hnt Hne; [easy|].
  cbn [okst] in Hok. destruct Hok as (lo & Hlo & Hp & Hr).
  assert (Live : forall N lv' p c lo rest, lv = N :: lv' -> In (p, c) N -> c_lo c = lo ->
    lo_ok lo (eff k closed) -> okst s lv' lo rest ->
    evp (fun _ f => search_child_node f k closed (p :: rest) target) s
    (fun r s' => s' = s /\ (r = (false, []) \/
       exists lo x q rest N c, r = (false, x :: q :: rest) /\ hd_error lv = Some N /\ In (q, c) N /\
         at_ flat (eff k closed) (lo, x) /\ okst s lv lo (q :: rest)))).
  { clear - Hup Hnt OK. intros N lv' p c lo rest -> Hi El Lo Hr. apply in_split in Hi as (n1 & n2 & EN).
    eapply evp_weaken.
    - eapply (sc_live nopend s flat N lv' k closed target rest n1 p c n2); eauto.
      + rewrite El; auto.
      + intros ? ? [].
      + intros Hin. apply Hnt. unfold pids. cbn. apply in_app_iff. auto.
    - cbn beta. intros r s' (-> & q & d & lo' & x & -> & H1 & H2 & H3 & H4). split; auto. right.
      exists lo', x, q, rest, N, d. repeat split; auto. exists (c_lo d). split; auto. split.
      + right. exists N, d. auto.
      + eapply okst_mono; [|exact Hr]. rewrite <- El; auto. }
  destruct Hp as [Hd|(N & c & HN & Hi & El)].
  - apply search_dead; auto. destruct rest as [|q rest]; [split; auto|].
    destruct lv as [|N lv'].
    + (* above the root: everything is removed *)
      eapply evp_weaken; [eapply (IH [] flat lo); eauto; [|discriminate]|].
      * eapply lo_ok_ole; eauto.
      * cbn beta. intros r s' (-> & [->|(? & ? & ? & ? & ? & ? & _ & H & _)]); [|discriminate].
        cbn [fst snd]. auto.
    + pose proof Hup as (_ & _ & Hl & _ & _ & _ & Hup').
      eapply evp_weaken; [eapply (IH lv' (lows N) lo); eauto|].
      * eapply lo_ok_ole; eauto.
      * intros Hin. apply Hnt. unfold pids in *. cbn. apply in_app_iff. auto.
      * discriminate.
      * cbn beta. intros r s' (-> & [->|(lo' & x & q' & rest' & N' & c' & -> & _ & _ & Hat & Hok)]);
          cbn [fst snd]; auto. split; auto.
        destruct (at_lows_inv _ _ _ _ Hl Hat) as (n1 & c & n2 & EN & El & Lo' & Hh).
        eapply Live; eauto. rewrite EN. apply in_app_iff; right; left; auto.
  - destruct lv as [|N' lv']; [discriminate|]. inversion HN; subst N'.
    eapply Live; eauto. eapply lo_ok_ole; eauto.
Qed.


Lemma evp_of_ev {A} (P : nat -> nat -> prog A) s a s' : ev P s a s' ->
  evp P s (fun x y => x = a /\ y = s').
Proof. intros H. exists a, s'. auto. Qed.

Lemma notin_pids p N lv : ~ In p (pids (N :: lv)) -> ~ In p (map fst N) /\ ~ In p (pids lv).
Proof. unfold pids. cbn. rewrite in_app_iff. tauto. Qed.

(** ** Descending from the root *)
Definition live_head (lv : list level) (path : list pid) : Prop :=
  lv <> [] -> exists N q c rest, hd_error lv = Some N /\ In (q, c) N /\ path = q :: rest.

Lemma leaf_descent s k closed : forall lv flat, up g nopend s true flat lv -> ~ In 0%N (pids lv) ->
  exists lo x path, at_ flat (eff k closed) (lo, x) /\ okst s lv lo path /\ live_head lv path /\
    forall Q, evp (fun _ f => leaf_loop f k closed (x :: path)) s Q ->
              evp (fun _ f => leaf_loop f k closed [s_root s]) s Q.
Proof.
  induction lv as [|N lv IH]; intros flat Hup Hz.
  - destruct Hup as [_ ->]. exists None, (s_root s), []. split; [|split; [exact I|split; [easy|auto]]].
    exists [], []. repeat split; auto.
  - pose proof Hup as (_ & _ & Hl & _ & _ & _ & Hup'). apply notin_pids in Hz as [Hz Hz'].
    destruct (IH _ Hup' Hz') as (lo & x & path & Hat & Hok & _ & HQ).
    destruct (at_lows_inv _ _ _ _ Hl Hat) as (n1 & c & n2 & EN & El & Lo & Hh).
    assert (Hin : In (x, c) N) by (rewrite EN; apply in_app_iff; right; left; auto).
    destruct (up_in _ _ _ _ _ _ _ _ Hup Hin) as (Et & Hw & _).
    destruct (sc_live nopend s flat N lv k closed 0%N path n1 x c n2 Hup EN) as
      (r & s' & Hev & -> & q & d & lo' & x' & -> & H1 & H2 & H3 & H4); auto.
    { rewrite El; auto. } { intros ? ? []. }
    exists lo', x', (q :: path). split; auto. split.
    { exists (c_lo d). split; auto. split; [right; exists N, d; auto|].
      eapply okst_mono; [|exact Hok]. rewrite <- El; auto. }
    split; [intros _; exists N, q, d, path; auto|].
    intros Q HQ'. apply HQ. apply evp_S. cbn [leaf_loop]. eapply evp_bload; eauto.
    rewrite (iwf_inner g c Hw). eapply evp_bind; [apply evp_of_ev; exact Hev|].
    cbn beta. intros a s1 [-> ->]. exact HQ'.
Qed.

Lemma target_descent s k target : forall lv flat, up g nopend s true flat lv -> ~ In target (pids lv) ->
  exists lo x path, at_ flat k (lo, x) /\ okst s lv lo path /\ live_head lv path /\
    forall Q, evp (fun _ f => bind (load x) (fun c => target_loop f k target (x :: path) (h_leaf c))) s Q ->
              evp (fun _ f => bind (load (s_root s)) (fun c => target_loop f k target [s_root s] (h_leaf c))) s Q.
Proof.
  induction lv as [|N lv IH]; intros flat Hup Hz.
  - destruct Hup as [_ ->]. exists None, (s_root s), []. split; [|split; [exact I|split; [easy|auto]]].
    exists [], []. repeat split; auto.
  - pose proof Hup as (_ & _ & Hl & _ & _ & _ & Hup'). apply notin_pids in Hz as [Hz Hz'].
    destruct (IH _ Hup' Hz') as (lo & x & path & Hat & Hok & _ & HQ).
    destruct (at_lows_inv _ _ _ _ Hl Hat) as (n1 & c & n2 & EN & El & Lo & Hh).
    assert (Hin : In (x, c) N) by (rewrite EN; apply in_app_iff; right; left; auto).
    destruct (up_in _ _ _ _ _ _ _ _ Hup Hin) as (Et & Hw & _).
    destruct (sc_live nopend s flat N lv k true target path n1 x c n2 Hup EN) as
      (r & s' & Hev & -> & q & d & lo' & x' & -> & H1 & H2 & H3 & H4); auto.
    { rewrite El; auto. } { intros ? ? []. }
    exists lo', x', (q :: path). split; auto. split.
    { exists (c_lo d). split; auto. split; [right; exists N, d; auto|].
      eapply okst_mono; [|exact Hok]. rewrite <- El; auto. }
    split; [intros _; exists N, q, d, path; auto|].
    intros Q HQ'. apply HQ. eapply evp_bload; eauto.
    apply evp_S. cbn [target_loop].
    rewrite (iwf_inner g c Hw). eapply evp_bind; [apply evp_of_ev; exact Hev|].
    cbn beta. intros a s1 [-> ->]. exact HQ'.
Qed.

(** SearchTargetNode finds the node whose key range used to contain the target:
    a leaf, or the left sibling of the target. *)
Lemma search_target_ok s k target lv flat lo x c :
  up g nopend s true flat lv -> ~ In target (pids lv) -> at_ flat k (lo, x) ->
  s_tbl s x = Some c -> good c ->
  (h_leaf c = true \/
   (iwf g c /\ iexact c /\ icells (s_cell s) nopend c /\ c_next c = target /\
    exists h, c_hi c = Some h /\ h <= k)) ->
  evp (fun _ f => search_target f k target) s
    (fun r s' => s' = s /\ exists path, r = x :: path /\ okst s lv lo path /\ live_head lv path).
Proof.
  intros Hup Hnt Hat Et Hg Hc.
  destruct (target_descent s k target lv flat Hup Hnt) as (lo' & x' & path & Hat' & Hok & Hlh & HQ).
  pose proof (at_unique _ _ _ _ Hat Hat') as E. inversion E; subst lo' x'.
  apply evp_S. cbn [search_target]. apply evp_root.
  assert (G : evp (fun _ f => bind (load (s_root s))
     (fun c => target_loop f k target [s_root s] (h_leaf c))) s (fun r s' => s' = s /\ r = x :: path)).
  { apply HQ. eapply evp_bload; eauto. apply evp_S. cbn [target_loop].
    destruct (h_leaf c) eqn:Hl.
    - apply evp_ret. auto.
    - destruct Hc as [Hc|(Hw & He & Hi & Hn & h & Hh & L)]; [congruence|].
      eapply evp_bind with (Q := fun r s' => s' = s /\ r = (true, x :: path)).
      + apply evp_S. cbn [search_child_node]. eapply evp_bload; eauto.
        pose proof (dc_search_child_spec g (s_cell s) nopend c k true Hw He Hi false ltac:(discriminate)) as R.
        inversion R as [v A B E'|a A B E'|n A B C E'|h' A B E'];
          try (rewrite Hh in A; cbn in A; lia).
        rewrite Hn, N.eqb_refl. apply evp_ret. auto.
      + intros r s' [-> ->]. apply evp_ret. auto. }
  destruct G as (r & s' & Hev & -> & ->).
  assert (G2 : evp (fun _ f => bind (bind (load (s_root s)) (fun c => target_loop f k target [s_root s] (h_leaf c)))
     (fun st' => match st' with [] => search_target f k target | _ => Ret st' end)) s
     (fun r s' => s' = s /\ exists path, r = x :: path /\ okst s lv lo path /\ live_head lv path)).
  { eapply evp_bind; [apply evp_of_ev; exact Hev|]. cbn beta. intros a s1 [-> ->]. apply evp_ret. eauto. }
  exact G2.
Qed.

(** ** GetHead *)
Lemma gh_live pend s flat N lv k closed target rest n1 p c n2 :
  up g pend s true flat (N :: lv) -> N = n1 ++ (p, c) :: n2 ->
  lo_ok (c_lo c) (eff k closed) -> ~ In target (map fst N) ->
  evp (fun _ f => get_head g f k closed (p :: rest) target) s
    (fun r s' => s' = s /\ exists q d, r = (Some d, q :: rest) /\ In (q, d) N /\
       ole (c_lo c) (c_lo d) /\ lo_ok (c_lo d) (eff k closed) /\ hi_ok (c_hi d) (eff k closed)).
Proof.
  intros Hup. revert n1 p c. induction n2 as [|[q d] n2 IH]; intros n1 p c EN Lo Ht;
    (assert (Hin : In (p, c) N) by (rewrite EN; apply in_app_iff; right; left; auto));
    destruct (up_in _ _ _ _ _ _ _ _ Hup Hin) as (Et & Hw & Hq & _);
    pose proof Hup as (Hne & H0 & Hl & Hs & Hn & Hf & _);
    apply evp_S; cbn [get_head];
    (eapply evp_bind; [eapply (load_valid_ok s p c (fun x s' => x = c /\ s' = s)); eauto|]);
    intros x s1 [-> ->]; rewrite (validate_spec c k closed (iwf_mhigh _ _ Hw)).
  - assert (Hh : c_hi c = None).
    { rewrite EN in Hl. apply linked_app in Hl as [_ Hl]. cbn in Hl. tauto. }
    rewrite Hh. apply evp_ret. split; auto. exists p, c. rewrite Hh. repeat split; auto. apply ole_refl.
  - assert (Ln : c_hi c = c_lo d /\ c_next c = q).
    { rewrite EN in Hl. apply linked_app in Hl as [_ Hl]. cbn in Hl. tauto. }
    destruct Ln as [L1 L2]. destruct (c_hi c) as [h|] eqn:Hh.
    + destruct (Z.ltb_spec (eff k closed) h).
      * apply evp_ret. split; auto. exists p, c. rewrite Hh. repeat split; auto. apply ole_refl.
      * rewrite L2. assert (EN' : N = (n1 ++ [(p, c)]) ++ (q, d) :: n2) by (rewrite <- app_assoc; auto).
        assert (Hnt : In q (map fst N)).
        { rewrite EN'. rewrite map_app. apply in_app_iff; right; left; auto. }
        destruct (N.eqb_spec q target); [subst; tauto|].
        eapply evp_weaken.
        { eapply (IH (n1 ++ [(p, c)]) q d); auto. rewrite <- L1. cbn. auto. }
        cbn beta. intros r s' (-> & q' & d' & -> & H1 & H2 & H3 & H4). split; auto.
        exists q', d'. repeat split; auto. eapply ole_trans; [|exact H2].
        rewrite EN in Hs. rewrite lows_app, !lows_cons in Hs. apply osorted_app_inv in Hs as (_ & Hs & _).
        apply osorted_cons_inv in Hs as [_ Hs]. apply Forall_inv in Hs. apply olt_ole; auto.
    + apply evp_ret. split; auto. exists p, c. rewrite Hh. repeat split; auto. apply ole_refl.
Qed.

Definition got (s : st) (lv : list level) (kk : key) (r : option chain * list pid) : Prop :=
  exists N q c rest, r = (Some c, q :: rest) /\ hd_error lv = Some N /\ In (q, c) N /\
    lo_ok (c_lo c) kk /\ hi_ok (c_hi c) kk /\ okst s (tl lv) (c_lo c) rest.

Lemma gh_livehead s flat lv k closed target b stk :
  up g nopend s true flat lv -> okst s lv b stk -> lo_ok b (eff k closed) -> ~ In target (pids lv) ->
  (exists N q c rest, hd_error lv = Some N /\ In (q, c) N /\ stk = q :: rest) ->
  evp (fun _ f => get_head g f k closed stk target) s (fun r s' => s' = s /\ got s lv (eff k closed) r).
Proof.
  intros Hup Hok Lo Hnt (N & q & c & rest & HN & Hi & ->). destruct lv as [|N' lv]; inversion HN; subst N'.
  cbn [okst] in Hok. destruct Hok as (lo & Hlo & Hq & Hr). cbn [tl] in Hr.
  assert (El : lo = c_lo c).
  { destruct (up_in _ _ _ _ _ _ _ _ Hup Hi) as (Et & Hw & _).
    destruct Hq as [(a & l & Hd)|(N' & c' & E & Hi' & <-)].
    - rewrite Et in Hd. inversion Hd; subst. destruct Hw.
    - inversion E; subst N'. destruct (up_in _ _ _ _ _ _ _ _ Hup Hi') as (Et' & _).
      rewrite Et in Et'. inversion Et'; auto. }
  pose proof Hi as Hi'. apply in_split in Hi' as (n1 & n2 & EN).
  eapply evp_weaken.
  - eapply (gh_live nopend s flat N lv k closed target rest n1 q c n2); eauto.
    + rewrite <- El. eapply lo_ok_ole; eauto.
    + apply notin_pids in Hnt. tauto.
  - cbn beta. intros r s' (-> & q' & d & -> & H1 & H2 & H3 & H4). split; auto.
    exists N, q', d, rest. repeat split; auto. cbn [tl]. eapply okst_mono; [|exact Hr].
    rewrite El; auto.
Qed.

Lemma gh_ok s flat lv k closed target b stk :
  target <> 0%N ->
  up g nopend s true flat lv -> okst s lv b stk -> lo_ok b (eff k closed) -> ~ In target (pids lv) ->
  stk <> [] ->
  evp (fun _ f => get_head g f k closed stk target) s
    (fun r s' => s' = s /\ (r = (None, []) \/ got s lv (eff k closed) r)).
Proof.
  intros Ht Hup Hok Lo Hnt Hne. destruct stk as [|p rest]; [easy|].
  pose proof Hok as Hok'. cbn [okst] in Hok. destruct Hok as (lo & Hlo & Hp & Hr).
  destruct Hp as [(a & l & Ed)|(N & c & HN & Hi & El)].
  - apply evp_S. cbn [get_head].
    eapply evp_bind with (Q := fun x s' => x = CRemove a l /\ s' = s).
    { apply evp_S. cbn [load_valid]. eapply evp_bload; eauto.
      assert (E : need_wait g (CRemove a l) = false).
      { unfold need_wait. cbn [is_base negb andb h_cnt h_size].
        pose proof (ok_thr g OK).
        pose proof (ok_hdr g OK). pose proof (ok_page g OK). unfold excess, maxrec in *.
        assert (0 <= c_page g).
        { pose proof (ok_key g OK 0). pose proof (ok_pay g OK). unfold kovh, metalen in *.
          destruct (c_varlen g); lia. }
        destruct (Z.leb_spec (c_maxd g) 0), (Z.ltb_spec (c_page g) 0); auto; lia. }
      rewrite E. apply evp_ret. auto. }
    intros x s1 [-> ->]. cbn [dc_validate]. destruct rest as [|q rest].
    + destruct (N.eqb_spec target 0); [congruence|]. apply evp_ret. auto.
    + assert (Lo' : lo_ok lo (eff k closed)) by (eapply lo_ok_ole; eauto).
      destruct lv as [|N lv].
      * eapply evp_bind; [eapply (sc_ok s k closed target Ht (q :: rest) [] flat lo); eauto; discriminate|].
        cbn beta. intros r s1 (-> & [->|(? & ? & ? & ? & ? & ? & _ & H & _)]); [|discriminate].
        apply evp_ret. auto.
      * pose proof Hup as (_ & _ & Hl & _ & _ & _ & Hup'). pose proof Hnt as Hnt'. apply notin_pids in Hnt' as [Hnt1 Hnt2].
        eapply evp_bind; [eapply (sc_ok s k closed target Ht (q :: rest) lv (lows N) lo); eauto; discriminate|].
        cbn beta. intros r s1 (-> & [->|(lo' & x & q' & rest' & N' & c' & -> & HN' & Hi & Hat & Hok2)]).
        { apply evp_ret. auto. }
        destruct (at_lows_inv _ _ _ _ Hl Hat) as (n1 & c & n2 & EN & El & Lo2 & Hh).
        assert (Hi2 : In (x, c) N) by (rewrite EN; apply in_app_iff; right; left; auto).
        eapply evp_weaken.
        { eapply (gh_livehead s flat (N :: lv) k closed target lo'); eauto.
          - exists lo'. split; [apply ole_refl|]. split; auto. right. exists N, c. auto.
          - exists N, x, c, (q' :: rest'). auto. }
        cbn beta. intros r s' [-> H]. auto.
  - eapply evp_weaken; [eapply (gh_livehead s flat lv k closed target b); eauto 10|].
    cbn beta. intros r s' [-> H]. auto.
Qed.
End S.
