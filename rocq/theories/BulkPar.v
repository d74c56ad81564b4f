(** Bulkload with interleaved workers: every interleaving builds the partial trees. *)
From Coq Require Import ZArith NArith List Bool Lia Sorting.Sorted Permutation.
From Coq Require Import ZifyBool ZifyNat ZifyN.
From Verif Require Import Config Api Page Machine Tree Bulk Spec ListFacts SearchFacts ChainSpec ChainFacts
  ConsFacts Valid ConsolidateFacts SeqSpec LevelFacts SeqSearch SeqSmo SeqAux RunFacts SeqOps TreeRef BulkFacts.
Import ListNotations.
Open Scope Z_scope.

Section W.
Variable g : cfg.

(** A page Bulkload builds: a base node that fits, with entries if it is an index page. *)
Definition bpage (c : chain) : Prop :=
  is_base c = true /\ h_size c <= c_page g /\ (forall n, c = CBase n -> n_inner n = true -> n_recs n <> []).

(** ** A worker under interference

    [O] are the page IDs the worker has obtained, [X] the addresses it has allocated and
    not yet put into the mapping table.  The others leave the pages of [O] alone. *)
Record env (O : list pid) (s s' : st) : Prop := mk_env {
  e_np : (s_npid s <= s_npid s')%N;
  e_na : (s_naddr s <= s_naddr s')%N;
  e_tb : forall p, In p O -> s_tbl s' p = s_tbl s p
}.
Lemma env_refl O s : env O s s.
Proof. constructor; auto; lia. Qed.
Lemma env_trans O s1 s2 s3 : env O s1 s2 -> env O s2 s3 -> env O s1 s3.
Proof. intros A B. constructor; [pose proof (e_np _ _ _ A); pose proof (e_np _ _ _ B); lia|pose proof (e_na _ _ _ A); pose proof (e_na _ _ _ B); lia|].
  intros p H. rewrite (e_tb _ _ _ B), (e_tb _ _ _ A); auto. Qed.
Lemma env_incl O O' s s' : incl O' O -> env O s s' -> env O' s s'.
Proof. intros H A. constructor; try apply A. intros p Hp. apply A. auto. Qed.

Fixpoint wi {A} (m : prog A) (O : list pid) (X : list addr) (s : st) (Q : A -> list pid -> st -> Prop) : Prop :=
  match m with
  | Ret a => forall s', env O s s' -> Q a O s'
  | Alloc k => forall s', env O s s' -> wi (k (s_naddr s')) O (s_naddr s' :: X) (bump_addr s') Q
  | NewPid k => forall s', env O s s' -> wi (k (s_npid s')) (s_npid s' :: O) X (bump_pid s') Q
  | Store p c k => forall s', env O s s' -> In p O /\ bpage c /\
      ((exists c0, s_tbl s' p = Some c0 /\ h_addr c0 = h_addr c) /\ wi k O X (set_tbl s' p (Some c)) Q \/
       In (h_addr c) X /\ wi k O (remove N.eq_dec (h_addr c) X) (set_tbl s' p (Some c)) Q)
  | _ => False
  end.

Lemma wi_env {A} (m : prog A) O X s s1 Q : env O s s1 -> wi m O X s Q -> wi m O X s1 Q.
Proof. intros E. destruct m; cbn [wi]; auto; intros H s' E'; apply (H s'); eapply env_trans; eauto. Qed.
Lemma wi_mono {A} (m : prog A) : forall O X s (Q Q' : A -> list pid -> st -> Prop),
  (forall a O' s', Q a O' s' -> Q' a O' s') -> wi m O X s Q -> wi m O X s Q'.
Proof.
  induction m as [a|p k IH|p c m IH|p m IH|w p e c k IH|k IH|p m IH|o n k IH|k IH|k IH|a k IH|a p m IH|l m IH|u|];
    intros O X s Q Q' H; cbn [wi]; auto; intros W s' E; specialize (W s' E).
  - destruct W as (W1 & W2 & [W3|W3]); split; auto; split; auto; [left|right]; split; try apply W3; eapply IH; eauto; apply W3.
  - eapply IH; eauto.
  - eapply IH; eauto.
Qed.
Lemma wi_bind {A B} (m : prog A) (f : A -> prog B) : forall O X s Q,
  wi m O X s (fun a O' s' => forall X', wi (f a) O' X' s' Q) -> wi (bind m f) O X s Q.
Proof.
  induction m as [a|p k IH|p c m IH|p m IH|w p e c k IH|k IH|p m IH|o n k IH|k IH|k IH|a k IH|a p m IH|l m IH|u|];
    intros O X s Q; cbn [wi bind]; auto; intros W.
  - apply W. apply env_refl.
  - intros s' E. specialize (W s' E). destruct W as (W1 & W2 & [W3|W3]); split; auto; split; auto; [left|right]; split; try apply W3; apply IH; apply W3.
Qed.

Hypothesis OK : cfg_ok g.
Hypothesis FX : c_varlen g = false.
Hypothesis BC : bulk_ok g.
Variable b : pid.
Hypothesis Hb0 : (0 < b)%N.

Definition own_ok (O : list pid) (s : st) : Prop :=
  (b <= s_npid s)%N /\ forall p, In p O -> (b <= p < s_npid s)%N.
Lemma own_env O s s' : env O s s' -> own_ok O s -> own_ok O s'.
Proof. intros E [A B]. pose proof (e_np _ _ _ E). split; [lia|]. intros p H'. apply B in H'. lia. Qed.

Lemma own_np O s s' : (s_npid s <= s_npid s')%N -> own_ok O s -> own_ok O s'.
Proof. intros E [A B]. split; [lia|]. intros p H'. apply B in H'. lia. Qed.

Definition prevo (O : list pid) (s : st) (prev : option (pid * node)) : Prop :=
  match prev with
  | Some (pp, pn) => s_tbl s pp = Some (CBase pn) /\ In pp O /\ n_size pn <= c_page g /\ n_recs pn <> []
  | None => True
  end.

(** ** One layer *)
Record lri (O : list pid) (s : st) (inner : bool) (es : list (key * val)) (prev : option (pid * node)) (N : level)
    (r : list (key * val)) (O' : list pid) (s' : st) : Prop := mk_lri {
  q_lows : ekey r = lows N;
  q_flat : flat_of inner N = ekey es;
  q_link : linked N None 0%N;
  q_node : Forall (bnode g s' inner) N;
  q_nodup : NoDup (map fst N);
  q_new : forall p, In p (map fst N) -> In p O' /\ ~ In p O;
  q_incl : incl O O';
  q_own : own_ok O' s';
  q_tbl : forall p, In p O -> ~ touched prev p -> s_tbl s' p = s_tbl s p;
  q_prev : relinked g s' prev r;
  q_sorted : sorted r;
  q_hd : hdk r = hdk es;
  q_keys : incl (keys r) (keys es);
  q_len : (length r <= length es)%nat;
  q_half : inner = true -> (2 * length r <= length es + 1)%nat
}.

Lemma lri_env O s inner es prev N r O' s1 s2 : prevo O s prev -> env O' s1 s2 ->
  lri O s inner es prev N r O' s1 -> lri O s inner es prev N r O' s2.
Proof.
  intros P E L. constructor; try apply L.
  - apply Forall_forall. intros x Hx. pose proof (q_node _ _ _ _ _ _ _ _ _ L) as B. rewrite Forall_forall in B.
    eapply bnode_frame; [|apply B; auto]. apply E. apply (q_new _ _ _ _ _ _ _ _ _ L). apply in_map. auto.
  - eapply own_env; [exact E|apply L].
  - intros p H1 H2. rewrite (e_tb _ _ _ E); [apply L; auto|]. apply (q_incl _ _ _ _ _ _ _ _ _ L); auto.
  - pose proof (q_prev _ _ _ _ _ _ _ _ _ L) as R. destruct prev as [[pp pn]|]; [|exact I]. cbn in *.
    rewrite (e_tb _ _ _ E); auto. apply (q_incl _ _ _ _ _ _ _ _ _ L). apply P.
Qed.

Lemma layer_wi inner : forall m f es prev O X s, (length es <= m)%nat -> (m < f)%nat -> sorted es -> own_ok O s ->
  prevo O s prev ->
  wi (construct_layer g f inner es prev) O X s (fun r O' s' => exists N, lri O s inner es prev N r O' s').
Proof.
  induction m as [|m IH]; intros [|f] es prev O X s Hm Hf Hs Ho Hp; try lia; cbn [construct_layer].
  all: destruct es as [|e0 es0].
  1,3: cbn [wi]; intros s' E; exists []; apply (lri_env O s inner [] prev [] [] O s s' Hp E).
  1,2: constructor; cbn; auto; try easy; try (constructor; fail); try apply incl_refl;
    destruct prev as [[pp pn]|]; cbn in *; tauto.
  - cbn in Hm. lia.
  - set (es := e0 :: es0) in *. assert (Hne : es <> []) by easy. clearbody es. clear e0 es0.
    unfold alloc. cbn [bind wi]. intros s1 E1. cbn [wi]. intros s2 E2.
    set (a := s_naddr s1) in *. set (p := s_npid s2) in *.
    destruct (bulk_node g a inner es) as [n rest] eqn:EB.
    destruct (node_fill g OK FX BC _ _ _ _ _ Hne Hs EB) as (k0 & v & t & Er & El & Ei & Hsn & Hsz & Hpg & Eh & En & Ees & H2).
    assert (Na : n_addr n = a).
    { unfold bulk_node in EB. destruct (bulk_fill _ _ _ _ _) as [[? ?] ?]. inversion EB. reflexivity. }
    assert (E02 : env O s s2).
    { eapply env_trans; [exact E1|]. eapply env_trans; [|exact E2]. constructor; cbn; auto; lia. }
    assert (Hpo : ~ In p O).
    { intros Hi. apply (own_env _ _ _ E02 Ho) in Hi. unfold p in Hi. lia. }
    assert (Hbp : (b <= p)%N) by exact (proj1 (own_env _ _ _ E02 Ho)).
    unfold store. cbn [bind wi]. intros s3 E3. split; [left; auto|]. split; [split; [reflexivity|split; [exact Hpg|intros m0 X0 _; inversion X0; subst m0; rewrite Er; easy]]|]. right.
    cbn [h_addr]. split; [left; auto|].
    set (s4 := set_tbl s3 p (Some (CBase n))).
    assert (E03 : env O s s3).
    { eapply env_trans; [exact E02|]. eapply env_trans; [|eapply env_incl; [|exact E3]; intros q Hq; right; auto].
      constructor; cbn; auto; lia. }
    assert (O3 : own_ok (p :: O) s3).
    { apply (own_env _ _ _ E3). split; cbn; [fold p; lia|]. fold p. intros q [<-|Hq]; [lia|].
      apply (own_env _ _ _ E02 Ho) in Hq. unfold p. lia. }
    assert (T4 : forall q, In q O -> s_tbl s4 q = s_tbl s q).
    { intros q Hq. unfold s4. rewrite tbl_other; [apply E03; auto|]. intros ->. auto. }
    apply wi_bind.
    eapply wi_mono with (Q := fun _ O' s6 => O' = p :: O /\ own_ok (p :: O) s6 /\ s_tbl s6 p = Some (CBase n) /\
       relinked g s6 prev [(k0, p)] /\ forall q, In q O -> ~ touched prev q -> s_tbl s6 q = s_tbl s q).
    2:{ destruct prev as [[pp pn]|].
      - destruct Hp as (Hp1 & Hp2 & Hp3 & Hp4). assert (pp <> p) by (intros ->; auto).
        cbn [wi]. intros s5 E5. split; [right; auto|]. split; [split; [reflexivity|split; [cbn; rewrite (okl0 g FX); lia|intros m0 X0 _; inversion X0; subst m0; exact Hp4]]|]. left. split.
        { exists (CBase pn). split; [|reflexivity]. rewrite (e_tb _ _ _ E5); [|right; auto]. rewrite T4; auto. }
        cbn [wi]. intros s6 E6. split; auto. split; [|split; [|split]].
        + pose proof (e_np _ _ _ E5). pose proof (e_np _ _ _ E6). apply (own_np _ s3); auto. cbn in *. lia.
        + rewrite (e_tb _ _ _ E6); [|left; auto]. rewrite tbl_other by auto. rewrite (e_tb _ _ _ E5); [|left; auto].
          apply tbl_same.
        + unfold relinked. rewrite (e_tb _ _ _ E6); [|right; auto]. rewrite tbl_same, El. auto.
        + intros q Hq Ht. rewrite (e_tb _ _ _ E6); [|right; auto]. rewrite tbl_other by exact Ht.
          rewrite (e_tb _ _ _ E5); [|right; auto]. auto.
      - cbn [wi]. intros s6 E6. split; auto. pose proof (e_np _ _ _ E6). split; [apply (own_np _ s3); auto|].
        split; [|split; [exact I|]].
        + rewrite (e_tb _ _ _ E6); [|left; auto]. apply tbl_same.
        + intros q Hq Ht. rewrite (e_tb _ _ _ E6); [|right; auto]. auto. }
    cbn beta. intros _ O1 s6 (-> & O6 & T6 & R6 & F6) X6.
    assert (Hrest : (length rest <= m)%nat).
    { apply (f_equal (@length _)) in Ees. rewrite app_length, Er in Ees. cbn in Ees. lia. }
    rewrite Ees in Hs. apply sorted_app_inv in Hs as (_ & Hsr & Hlt).
    assert (P6 : prevo (p :: O) s6 (Some (p, n))) by (split; [exact T6|split; [left; auto|split; [exact Hpg|rewrite Er; easy]]]).
    apply wi_bind. eapply wi_mono; [|apply (IH f rest (Some (p, n)) (p :: O) X6 s6 Hrest ltac:(lia) Hsr O6 P6)].
    cbn beta. intros r O' s7 (N & L7) X7. cbn [wi]. intros s8 E8.
    pose proof (lri_env _ _ _ _ _ _ _ _ _ _ P6 E8 L7) as L. clear L7 E8.
    set (n' := match r with [] => n | (k, q) :: _ => link_next g n q (Some k) end).
    assert (T8 : s_tbl s8 p = Some (CBase n')) by exact (q_prev _ _ _ _ _ _ _ _ _ L).
    exists ((p, CBase n') :: N).
    assert (Erec : n_recs n' = n_recs n /\ n_low n' = n_low n /\ n_inner n' = n_inner n /\ n_size n' = n_size n).
    { unfold n'. destruct r as [|[k q] r]; auto. cbn. rewrite (okl0 g FX). repeat split; lia. }
    destruct Erec as (Er' & El' & Ei' & Es').
    assert (Hh : n_high n' = hlo N None /\ n_next n' = hpid N 0%N).
    { pose proof (q_lows _ _ _ _ _ _ _ _ _ L) as Hl. unfold n'.
      destruct r as [|[k q] r], N as [|[q' c'] N]; cbn in Hl; try discriminate; cbn; auto.
      inversion Hl; subst. auto. }
    assert (Hk : Forall (fun k => hi_ok (n_high n') k) (keys (n_recs n'))).
    { rewrite Er'. unfold n'. destruct r as [|[k q] r]; [rewrite Eh; apply Forall_forall; cbn; auto|].
      cbn. pose proof (q_hd _ _ _ _ _ _ _ _ _ L) as Hd. destruct rest as [|[k1 v1] rest]; [discriminate|].
      cbn in Hd. inversion Hd; subst k1. apply Forall_forall. intros x Hx. unfold keys in Hx.
      apply in_map_iff in Hx as (y & <- & Hy). apply (Hlt y (k, v1)); cbn; auto. }
    assert (Hb : bnode g s8 inner (p, CBase n')).
    { exists n', k0, v, t. cbn. rewrite Er', El', Ei', Es'. repeat split; auto. rewrite <- Er'. auto. }
    constructor.
    + cbn [ekey map lows fst snd]. fold (ekey r). fold (lows N). rewrite (q_lows _ _ _ _ _ _ _ _ _ L).
      unfold c_lo. cbn. rewrite El', El. auto.
    + rewrite (flat_base g s8) by exact Hb. rewrite (q_flat _ _ _ _ _ _ _ _ _ L), Er', Ees.
      unfold ekey. rewrite map_app. auto.
    + cbn [linked]. split; [apply Hh|]. split; [apply Hh|apply L].
    + constructor; [exact Hb|apply L].
    + cbn. constructor; [|apply L]. intros Hi. apply (q_new _ _ _ _ _ _ _ _ _ L) in Hi as [_ Hi]. apply Hi. left; auto.
    + intros q [<-|Hi]; cbn [fst].
      * split; auto. apply (q_incl _ _ _ _ _ _ _ _ _ L). left; auto.
      * apply (q_new _ _ _ _ _ _ _ _ _ L) in Hi as [H1 H1']. split; auto. intros Hq. apply H1'. right; auto.
    + intros q Hq. apply (q_incl _ _ _ _ _ _ _ _ _ L). right; auto.
    + apply L.
    + intros q Hq Ht. rewrite (q_tbl _ _ _ _ _ _ _ _ _ L); [auto|right; auto|]. cbn. intros ->. auto.
    + destruct prev as [[pp pn]|]; [|exact I]. cbn in R6 |- *. destruct Hp as (Hp1 & Hp2 & _).
      rewrite (q_tbl _ _ _ _ _ _ _ _ _ L); [rewrite El; exact R6|right; auto|cbn; intros ->; auto].
    + rewrite El. apply sorted_cons; [apply L|]. apply Forall_forall. intros y Hy.
      assert (Hi : In (fst y) (keys rest)) by (apply (q_keys _ _ _ _ _ _ _ _ _ L), in_map; auto).
      unfold keys in Hi. apply in_map_iff in Hi as (z & <- & Hz). apply (Hlt (k0, v) z); auto. rewrite Er. cbn. auto.
    + rewrite El, Ees, Er. reflexivity.
    + rewrite El, Ees. unfold keys. rewrite map_app. intros x [<-|Hx].
      * apply in_app_iff. left. rewrite Er. cbn. auto.
      * apply in_app_iff. right. apply (q_keys _ _ _ _ _ _ _ _ _ L). auto.
    + pose proof (q_len _ _ _ _ _ _ _ _ _ L). rewrite Ees, app_length, Er. cbn. lia.
    + intros Hi. pose proof (q_half _ _ _ _ _ _ _ _ _ L Hi). rewrite Ees, app_length. cbn [length].
      destruct (H2 Hi) as [->|H3]; [|lia].
      destruct r; [rewrite Er; cbn; lia|]. pose proof (q_len _ _ _ _ _ _ _ _ _ L) as Hl. cbn in Hl. lia.
Qed.


Lemma PT_env O s s' lv top es : PT g b s lv top es -> incl (pids lv) O -> env O s s' -> PT g b s' lv top es.
Proof.
  intros [H1 H2 H3 H4 H5] Hi E. constructor; auto.
  - apply pt_frame with s; auto. intros p Hp. apply E. auto.
  - intros p Hp. apply H4 in Hp. pose proof (e_np _ _ _ E). lia.
Qed.
Lemma PTi_leaf O s es N r O' s' : es <> [] -> sorted es -> lri O s false es None N r O' s' ->
  PT g b s' [N] r es /\ incl (pids [N]) O'.
Proof.
  intros Hne Hs L. assert (HI : incl (pids [N]) O').
  { intros p Hp. cbn in Hp. rewrite app_nil_r in Hp. apply (q_new _ _ _ _ _ _ _ _ _ L). auto. }
  split; auto. constructor; auto; try easy.
  - cbn [pt is_in]. split; [split; [|split; apply L]|split; [symmetry; apply L|apply L]].
    intros ->. pose proof (q_flat _ _ _ _ _ _ _ _ _ L). destruct es; [easy|discriminate].
  - cbn. rewrite app_nil_r. apply L.
  - intros p Hp. apply (q_own _ _ _ _ _ _ _ _ _ L). auto.
Qed.
Lemma PTi_layer O s lv top es N r O' s' : PT g b s lv top es -> incl (pids lv) O -> lri O s true top None N r O' s' ->
  PT g b s' (N :: lv) r es /\ incl (pids (N :: lv)) O'.
Proof.
  intros P Hi L. pose proof (t_top _ _ _ _ _ _ P) as Htop.
  assert (HI : incl (pids (N :: lv)) O').
  { intros p Hp. change (In p (map fst N ++ pids lv)) in Hp. apply in_app_iff in Hp as [Hp|Hp].
    - apply (q_new _ _ _ _ _ _ _ _ _ L). auto.
    - apply (q_incl _ _ _ _ _ _ _ _ _ L). auto. }
  split; auto. constructor; try easy; [| | |apply P].
  - cbn [pt]. assert (is_in lv = true) as -> by (pose proof (t_ne _ _ _ _ _ _ P); destruct lv; easy).
    split; [split; [|split; apply L]|split; [symmetry; apply L|]].
    + intros ->. pose proof (q_flat _ _ _ _ _ _ _ _ _ L). destruct top; [easy|discriminate].
    + rewrite (q_flat _ _ _ _ _ _ _ _ _ L). apply pt_frame with s; [apply P|]. intros p Hp. apply L; auto.
  - change (NoDup (map fst N ++ pids lv)). apply nd_join; [apply L|apply P|].
    intros p Hp Hq. apply (q_new _ _ _ _ _ _ _ _ _ L) in Hp as [_ Hp]. auto.
  - intros p Hp. apply (q_own _ _ _ _ _ _ _ _ _ L). auto.
Qed.

Lemma partial_wi : forall m f top h lv es O X s, (length top <= m)%nat -> (m + 1 < f)%nat -> PT g b s lv top es ->
  incl (pids lv) O -> own_ok O s ->
  wi (partial_layers g f top h) O X s (fun x O' s' => exists lv', PT g b s' lv' (snd x) es /\
    Z.of_nat (length lv') - fst x = Z.of_nat (length lv) - h /\ incl (pids lv') O').
Proof.
  induction m as [|m IH]; intros [|f] top h lv es O X s Hm Hf P Hi Ho; try lia; pose proof (t_top _ _ _ _ _ _ P) as Hne; cbn [partial_layers].
  - destruct top; [easy|cbn in Hm; lia].
  - destruct (Z.ltb_spec (inner_cap g) (Z.of_nat (length top))) as [Hl|Hl].
    + apply wi_bind. eapply wi_mono; [|apply (layer_wi true (length top) f top None O X s); auto; [lia|eapply t_sorted; eauto|exact I]].
      cbn beta. intros r O1 s1 (N & L) X1. destruct (PTi_layer _ _ _ _ _ _ _ _ _ P Hi L) as [P1 I1].
      pose proof (icap g OK FX BC b Hb0). pose proof (q_half _ _ _ _ _ _ _ _ _ L eq_refl).
      eapply wi_mono; [|apply (IH f r (h + 1) (N :: lv) es O1 X1 s1); [lia|lia|auto|auto|apply L]].
      cbn beta. intros x O2 s2 (lv' & P2 & El & I2). exists lv'. split; auto. split; auto. cbn [length] in El. lia.
    + cbn [wi]. intros s' E. exists lv. cbn [fst snd]. split; [eapply PT_env; eauto|]. split; auto.
Qed.

Definition wpost (es : list (key * val)) (x : Z * list (key * val)) (O : list pid) (s : st) : Prop :=
  exists lv, PT g b s lv (snd x) es /\ Z.of_nat (length lv) = fst x /\ incl (pids lv) O.

Lemma single_wi f es O X s : es <> [] -> sorted es -> (length es + 1 < f)%nat -> own_ok O s ->
  wi (bulk_single g f es) O X s (wpost es).
Proof.
  intros Hne Hs Hf Ho. unfold bulk_single. apply wi_bind.
  eapply wi_mono; [|apply (layer_wi false (length es) f es None O X s); auto; [lia|exact I]].
  cbn beta. intros r O1 s1 (N & L) X1. destruct (PTi_leaf _ _ _ _ _ _ _ Hne Hs L) as [P I1].
  pose proof (q_len _ _ _ _ _ _ _ _ _ L).
  eapply wi_mono; [|apply (partial_wi (length r) f r 1 [N] es O1 X1 s1); [lia|lia|auto|auto|apply L]].
  cbn beta. intros x O2 s2 (lv' & P2 & El & I2). exists lv'. cbn in El. split; auto. split; auto. lia.
Qed.

(** ** All workers *)
Variables (s0 : st) (a0 : addr).
Hypothesis B0 : s_npid s0 = b.
Hypothesis A0 : s_naddr s0 = a0.
Hypothesis F0 : fresh s0.
Hypothesis L0 : forall p c, s_tbl s0 p = Some c -> (h_addr c < s_naddr s0)%N.

(** New pages are base nodes with addresses of their own; the older pages have older
    addresses. *)
Record based (s : st) : Prop := mk_based {
  d_na : (a0 <= s_naddr s)%N;
  d_ba : forall p c, (b <= p)%N -> s_tbl s p = Some c ->
           bpage c /\ (a0 <= h_addr c < s_naddr s)%N;
  d_in : forall p q c d, (b <= p)%N -> (b <= q)%N -> s_tbl s p = Some c -> s_tbl s q = Some d ->
           h_addr c = h_addr d -> p = q;
  d_old : forall p c, (p < b)%N -> s_tbl s p = Some c -> (h_addr c < a0)%N /\ s_tbl s0 p <> None;
  d_root : s_root s = s_root s0;
  d_gc : s_gc s = s_gc s0
}.

Record winv (ps : list (list (key * val))) (ws : list worker) (s : st) (Of : nat -> list pid) (Xf : nat -> list addr) : Prop := mk_winv {
  v_len : length ws = length ps;
  v_wi : forall i m es, nth_error ws i = Some m -> nth_error ps i = Some es -> wi m (Of i) (Xf i) s (wpost es);
  v_own : forall i, own_ok (Of i) s;
  v_dis : forall i j p, i <> j -> In p (Of i) -> ~ In p (Of j);
  v_xd : forall i j x, i <> j -> In x (Xf i) -> ~ In x (Xf j);
  v_xf : forall i x, In x (Xf i) -> (a0 <= x < s_naddr s)%N /\ forall p c, (b <= p)%N -> s_tbl s p = Some c -> h_addr c <> x;
  v_bas : based s;
  v_fr : fresh s;
  v_ext : ext (fun _ => False) s0 s
}.

Definition fset {A} (f : nat -> A) (i : nat) (x : A) : nat -> A := fun j => if Nat.eqb j i then x else f j.
Lemma fset_same {A} (f : nat -> A) i x : fset f i x i = x.
Proof. unfold fset. rewrite Nat.eqb_refl. auto. Qed.
Lemma fset_other {A} (f : nat -> A) i x j : j <> i -> fset f i x j = f j.
Proof. unfold fset. intros H. destruct (Nat.eqb_spec j i); [easy|auto]. Qed.

Lemma nth_put {A} (l : list A) t (x y : A) u : nth_error l t = Some x ->
  nth_error (firstn t l ++ y :: skipn (S t) l) u = if Nat.eqb u t then Some y else nth_error l u.
Proof.
  revert t u. induction l as [|a l IH]; intros [|t] [|u] H; cbn in H |- *; try discriminate; auto.
  rewrite <- IH by auto. auto.
Qed.
Lemma len_put {A} (l : list A) t (x y : A) : nth_error l t = Some x -> length (firstn t l ++ y :: skipn (S t) l) = length l.
Proof.
  revert t. induction l as [|a l IH]; intros [|t] H; cbn in H |- *; try discriminate; auto. rewrite IH; auto.
Qed.

(** A step of worker [i] that keeps the pages of the others. *)
Lemma winv_put ps ws s Of Xf i m m' es O' X' s' : winv ps ws s Of Xf -> nth_error ws i = Some m ->
  nth_error ps i = Some es -> wi m' O' X' s' (wpost es) -> own_ok O' s' ->
  (forall j, j <> i -> env (Of j) s s') ->
  (forall j p, j <> i -> In p O' -> ~ In p (Of j)) ->
  (forall j x, j <> i -> In x X' -> ~ In x (Xf j)) ->
  (forall x, In x X' \/ (exists j, j <> i /\ In x (Xf j)) -> (a0 <= x < s_naddr s')%N /\ forall p c, (b <= p)%N -> s_tbl s' p = Some c -> h_addr c <> x) ->
  based s' -> fresh s' -> ext (fun _ => False) s0 s' ->
  winv ps (firstn i ws ++ m' :: skipn (S i) ws) s' (fset Of i O') (fset Xf i X').
Proof.
  intros V Hm Hes W Ho He Hd Hx Hxf Hb Hf Hex. constructor; auto.
  - rewrite (len_put ws i m m' Hm). apply V.
  - intros j m1 es1. rewrite (nth_put ws i m m' j Hm). destruct (Nat.eqb_spec j i) as [->|Hj].
    + rewrite !fset_same. intros E1 E2. inversion E1; subst. rewrite Hes in E2. inversion E2; subst. exact W.
    + rewrite !fset_other by auto. intros E1 E2. apply (wi_env _ _ _ s); auto. eapply V; eauto.
  - intros j. destruct (Nat.eq_dec j i) as [->|Hj]; [rewrite fset_same; auto|]. rewrite fset_other by auto.
    eapply own_env; [apply He; auto|apply V].
  - intros j k p Hjk. destruct (Nat.eq_dec j i) as [->|Hj]; destruct (Nat.eq_dec k i) as [->|Hk]; try easy;
      rewrite ?fset_same, ?fset_other by auto; intros H1 H2.
    + apply (Hd k p); auto.
    + apply (Hd j p); auto.
    + apply (v_dis _ _ _ _ _ V j k p); auto.
  - intros j k x Hjk. destruct (Nat.eq_dec j i) as [->|Hj]; destruct (Nat.eq_dec k i) as [->|Hk]; try easy;
      rewrite ?fset_same, ?fset_other by auto; intros H1 H2.
    + apply (Hx k x); auto.
    + apply (Hx j x); auto.
    + apply (v_xd _ _ _ _ _ V j k x); auto.
  - intros j x. destruct (Nat.eq_dec j i) as [->|Hj]; rewrite ?fset_same, ?fset_other by auto; intros H1; apply Hxf; eauto.
Qed.

Lemma winv_step ps ws s Of Xf i m : winv ps ws s Of Xf -> nth_error ws i = Some m ->
  (exists x, m = Ret x) \/
  exists m' s' O' X', pstep m false s = Some (m', s') /\
    winv ps (firstn i ws ++ m' :: skipn (S i) ws) s' (fset Of i O') (fset Xf i X').
Proof.
  intros V Hm. destruct (nth_error ps i) as [es|] eqn:Hes.
  2:{ apply nth_error_None in Hes. rewrite <- (v_len _ _ _ _ _ V) in Hes. apply nth_error_None in Hes. congruence. }
  pose proof (v_wi _ _ _ _ _ V i m es Hm Hes) as W. pose proof (v_own _ _ _ _ _ V i) as Ho.
  pose proof (v_bas _ _ _ _ _ V) as Hb. pose proof (v_fr _ _ _ _ _ V) as Hf. pose proof Ho as [Ho1 Ho2].
  destruct m as [a|p k|p n m|p m|w p e c k|k|p m|o n k|k|k|a k|a p m|l m|u|]; cbn [wi] in W; try contradiction; [left; eauto|right..].
  - (* Store *) destruct (W s (env_refl _ _)) as (Hp & Hc & D). clear W.
    assert (Hpb : (b <= p < s_npid s)%N) by auto.
    assert (He : forall j, j <> i -> env (Of j) s (set_tbl s p (Some n))).
    { intros j Hj. constructor; [cbn; lia|cbn; lia|]. intros q Hq. rewrite tbl_other; auto. intros ->.
      apply (v_dis _ _ _ _ _ V j i p); auto. }
    assert (Hex : ext (fun _ => False) s0 (set_tbl s p (Some n))).
    { destruct (v_ext _ _ _ _ _ V) as (E1 & E2 & E3 & E4 & E5). split; [exact E1|]. split; [exact E2|]. split; [exact E3|].
      split; [exact E4|]. intros q Hq Hn. rewrite tbl_other; [auto|]. intros ->. lia. }
    assert (Hfr : fresh (set_tbl s p (Some n))) by (apply fresh_set; auto; apply Hpb).
    destruct D as [[(c0 & Ec & Ea) D]|[Hin D]]; eexists _, _, (Of i), _; (split; [reflexivity|]); (eapply winv_put; [exact V|exact Hm|exact Hes|exact D|exact Ho|exact He| | | | |exact Hfr|exact Hex]).
    + intros j q Hj Hq. apply (v_dis _ _ _ _ _ V i j q); auto.
    + intros j x Hj Hx. apply (v_xd _ _ _ _ _ V i j x); auto.
    + intros x Hx. assert (Hx' : exists j, In x (Xf j)) by (destruct Hx as [|(j & _ & ?)]; eauto). destruct Hx' as [j Hj].
      destruct (v_xf _ _ _ _ _ V j x Hj) as [H1 H2]. split; [exact H1|]. intros q c Hq.
      destruct (N.eq_dec q p) as [->|Hn]; [rewrite tbl_same|rewrite tbl_other by auto; eauto].
      intros E. inversion E; subst c. rewrite <- Ea. eauto.
    + destruct (d_ba _ Hb _ _ (proj1 Hpb) Ec) as [_ Hr]. constructor; [apply Hb|..].
      * intros q c Hq. destruct (N.eq_dec q p) as [->|Hn]; [rewrite tbl_same|rewrite tbl_other by auto; apply Hb; auto].
        intros E. inversion E; subst c. split; auto. cbn. rewrite <- Ea. auto.
      * intros q r c d Hq Hr'. destruct (N.eq_dec q p) as [->|Hn], (N.eq_dec r p) as [->|Hm']; auto;
          rewrite ?tbl_same, ?tbl_other by auto; intros E1 E2 E3.
        -- inversion E1; subst. rewrite <- Ea in E3. eapply (d_in _ Hb); eauto.
        -- inversion E2; subst. rewrite <- Ea in E3. eapply (d_in _ Hb); eauto.
        -- eapply (d_in _ Hb); eauto.
      * intros q c Hq. rewrite tbl_other by (intros ->; lia). apply Hb. auto.
      * apply Hb.
      * apply Hb.
    + intros j q Hj Hq. apply (v_dis _ _ _ _ _ V i j q); auto.
    + intros j x Hj Hx. apply in_remove in Hx as [Hx _]. apply (v_xd _ _ _ _ _ V i j x); auto.
    + intros x Hx. assert (Hx' : x <> h_addr n /\ exists j, In x (Xf j)).
      { destruct Hx as [Hx|(j & Hj & Hx)]; [apply in_remove in Hx as [? ?]; eauto|]. split; eauto.
        intros ->. apply (v_xd _ _ _ _ _ V i j (h_addr n)); auto. }
      destruct Hx' as [Hne [j Hj]].
      destruct (v_xf _ _ _ _ _ V j x Hj) as [H1 H2]. split; [exact H1|]. intros q c Hq.
      destruct (N.eq_dec q p) as [->|Hn]; [rewrite tbl_same|rewrite tbl_other by auto; eauto].
      intros E. inversion E; subst c. auto.
    + destruct (v_xf _ _ _ _ _ V i _ Hin) as [Hr Hnew]. constructor; [apply Hb|..].
      * intros q c Hq. destruct (N.eq_dec q p) as [->|Hn]; [rewrite tbl_same|rewrite tbl_other by auto; apply Hb; auto].
        intros E. inversion E; subst c. split; auto.
      * intros q r c d Hq Hr'. destruct (N.eq_dec q p) as [->|Hn], (N.eq_dec r p) as [->|Hm']; auto;
          rewrite ?tbl_same, ?tbl_other by auto; intros E1 E2 E3.
        -- inversion E1; subst. exfalso. apply (Hnew r d); auto.
        -- inversion E2; subst. exfalso. apply (Hnew q c); auto.
        -- eapply (d_in _ Hb); eauto.
      * intros q c Hq. rewrite tbl_other by (intros ->; lia). apply Hb. auto.
      * apply Hb.
      * apply Hb.
  - (* NewPid *) specialize (W s (env_refl _ _)). eexists _, _, (s_npid s :: Of i), (Xf i). split; [reflexivity|].
    eapply winv_put; eauto.
    + split; cbn; [lia|]. intros q [<-|Hq]; [lia|]. apply Ho2 in Hq. lia.
    + intros j Hj. constructor; cbn; auto; lia.
    + intros j q Hj [<-|Hq] Hq'; [apply (v_own _ _ _ _ _ V j) in Hq'; lia|]. apply (v_dis _ _ _ _ _ V i j q); auto.
    + intros j x Hj Hx. apply (v_xd _ _ _ _ _ V i j x); auto.
    + intros x Hx. assert (Hx' : exists j, In x (Xf j)) by (destruct Hx as [|(j & _ & ?)]; eauto). destruct Hx' as [j Hj].
      apply (v_xf _ _ _ _ _ V j x Hj).
    + constructor; apply Hb.
    + destruct Hf as [Hf1 Hf2]. split; cbn; [lia|]. intros q Hq. apply Hf2. lia.
    + destruct (v_ext _ _ _ _ _ V) as (E1 & E2 & E3 & E4 & E5). split; [cbn; lia|]. repeat (split; auto).
  - (* Alloc *) specialize (W s (env_refl _ _)). eexists _, _, (Of i), (s_naddr s :: Xf i). split; [reflexivity|].
    eapply winv_put; eauto.
    + intros j Hj. constructor; cbn; auto; lia.
    + intros j q Hj Hq. apply (v_dis _ _ _ _ _ V i j q); auto.
    + intros j x Hj [<-|Hx] Hx'; [apply (v_xf _ _ _ _ _ V j) in Hx' as [? _]; lia|]. apply (v_xd _ _ _ _ _ V i j x); auto.
    + intros x Hx. assert (Hx' : x = s_naddr s \/ exists j, In x (Xf j)) by (destruct Hx as [[|]|(j & _ & ?)]; eauto). cbn.
      pose proof (d_na _ Hb). destruct Hx' as [->|[j Hj]].
      * split; [lia|]. intros q c Hq Hc. apply (d_ba _ Hb) in Hc as [_ Hc]; auto. lia.
      * destruct (v_xf _ _ _ _ _ V j x Hj) as [H1 H2]. split; [lia|auto].
    + pose proof (d_na _ Hb). constructor; cbn; [lia| |apply Hb..]. intros q c Hq Hc. apply (d_ba _ Hb) in Hc as [? ?]; auto. split; auto; lia.
    + destruct (v_ext _ _ _ _ _ V) as (E1 & E2 & E3 & E4 & E5). split; [auto|]. split; [cbn; lia|]. repeat (split; auto).
Qed.

Lemma based0 : based s0.
Proof.
  constructor; [lia|..].
  - intros p c Hp. rewrite (proj2 F0) by lia. discriminate.
  - intros p q c d Hp _. rewrite (proj2 F0) by lia. discriminate.
  - intros p c _ H. rewrite <- A0. split; [eauto|congruence].
  - reflexivity.
  - reflexivity.
Qed.

Lemma winv_init f ps : Forall (fun es : list (key * val) => es <> [] /\ sorted es) ps ->
  Forall (fun es : list (key * val) => (length es + 1 < f)%nat) ps ->
  winv ps (map (bulk_single g f) ps) s0 (fun _ => []) (fun _ => []).
Proof.
  intros Hp Hf. rewrite Forall_forall in Hp, Hf. constructor.
  - apply map_length.
  - intros i m es Hm Hes. rewrite nth_error_map, Hes in Hm. inversion Hm; subst. apply nth_error_In in Hes.
    destruct (Hp _ Hes). apply single_wi; auto. split; [lia|easy].
  - intros _. split; [lia|easy].
  - intros i j p _ [].
  - intros i j p _ [].
  - intros i x [].
  - apply based0.
  - exact F0.
  - apply ext_refl.
Qed.

Lemma winv_work ps : forall sch ws s Of Xf, winv ps ws s Of Xf ->
  exists Of' Xf', winv ps (fst (work ws s sch)) (snd (work ws s sch)) Of' Xf'.
Proof.
  induction sch as [|i sch IH]; intros ws s Of Xf V; cbn [work]; [eauto|].
  destruct (nth_error ws i) as [m|] eqn:Hm; [|eauto].
  destruct (winv_step _ _ _ _ _ _ _ V Hm) as [[x ->]|(m' & s' & O' & X' & E & V')]; [cbn [pstep]; eauto|].
  rewrite E. eauto.
Qed.

(** No worker stops with an error. *)
Lemma winv_ok ps ws s Of Xf m u : winv ps ws s Of Xf -> In m ws -> m <> UB u /\ m <> Fuel.
Proof.
  intros V Hi. apply In_nth_error in Hi as [i Hi].
  destruct (winv_step _ _ _ _ _ _ _ V Hi) as [[x ->]|(m' & s' & O' & X' & E & _)]; [easy|].
  destruct m; easy.
Qed.

(** ** Some continuation ends all workers *)
Definition isret (m : worker) : bool := match m with Ret _ => true | _ => false end.
Lemma work_app : forall a ws s c, work ws s (a ++ c) = work (fst (work ws s a)) (snd (work ws s a)) c.
Proof.
  induction a as [|t a IH]; intros ws s c; cbn [work app]; [auto|].
  destruct (nth_error ws t) as [m|]; [|auto]. destruct (pstep m false s) as [[m' s']|]; auto.
Qed.
Lemma nth_put_eq {A} (l : list A) t (x y : A) : nth_error l t = Some x ->
  nth_error (firstn t l ++ y :: skipn (S t) l) t = Some y.
Proof. intros H. rewrite (nth_put l t x y t H), Nat.eqb_refl. auto. Qed.

(** One worker alone: the others stay as they are. *)
Lemma finish_one ps i : forall m ws s Of Xf, winv ps ws s Of Xf -> nth_error ws i = Some m ->
  exists sch x, let w := work ws s sch in nth_error (fst w) i = Some (Ret x) /\
    length (fst w) = length ws /\ forall j, j <> i -> nth_error (fst w) j = nth_error ws j.
Proof.
  assert (Sim : forall (m m' : worker) ws s s' Of Xf, winv ps ws s Of Xf -> nth_error ws i = Some m ->
    pstep m false s = Some (m', s') ->
    (forall ws1 s1 Of1 Xf1, winv ps ws1 s1 Of1 Xf1 -> nth_error ws1 i = Some m' ->
      exists sch x, let w := work ws1 s1 sch in nth_error (fst w) i = Some (Ret x) /\
        length (fst w) = length ws1 /\ forall j, j <> i -> nth_error (fst w) j = nth_error ws1 j) ->
    exists sch x, let w := work ws s sch in nth_error (fst w) i = Some (Ret x) /\
      length (fst w) = length ws /\ forall j, j <> i -> nth_error (fst w) j = nth_error ws j).
  { intros m m' ws s s' Of Xf V Hm E K.
    destruct (winv_step _ _ _ _ _ _ _ V Hm) as [[x ->]|(m1 & s1 & O' & X' & E1 & V')]; [discriminate|].
    rewrite E in E1. inversion E1; subst m1 s1. destruct (K _ _ _ _ V' (nth_put_eq _ _ _ _ Hm)) as (sch & x & H1 & H2 & H3).
    exists (i :: sch), x. cbn [work]. rewrite Hm, E. split; [exact H1|]. split; [rewrite H2; eapply len_put; eauto|].
    intros j Hj. rewrite H3, (nth_put ws i m m' j Hm) by auto. destruct (Nat.eqb_spec j i); easy. }
  induction m as [a|p k IH|p c m IH|p m IH|w p e c k IH|k IH|p m IH|o n k IH|k IH|k IH|a k IH|a p m IH|l m IH|u|];
    intros ws s Of Xf V Hm; pose proof (winv_step _ _ _ _ _ _ _ V Hm) as D; try (destruct D as [[? D]|(? & ? & ? & ? & D & _)]; easy).
  - exists [], a. cbn. auto.
  - destruct D as [[? D]|(m' & s' & ? & ? & D & _)]; [easy|]. pose proof D as D'. cbn [pstep] in D'.
    destruct (s_tbl s p) as [c|]; inversion D'; subst m' s'; eapply (Sim _ _ _ _ _ _ _ V Hm D); eauto.
    intros ws1 s1 Of1 Xf1 V1 H1. exfalso. apply nth_error_In in H1. destruct (winv_ok _ _ _ _ _ _ UbNull V1 H1). easy.
  - eapply (Sim _ _ _ _ _ _ _ V Hm); [reflexivity|]; eauto.
  - eapply (Sim _ _ _ _ _ _ _ V Hm); [reflexivity|]; eauto.
  - destruct (cas_ok s w false p e) eqn:EC; (eapply (Sim _ _ _ _ _ _ _ V Hm); [cbn [pstep]; rewrite EC; reflexivity|]; eauto).
  - eapply (Sim _ _ _ _ _ _ _ V Hm); [reflexivity|]; eauto.
  - eapply (Sim _ _ _ _ _ _ _ V Hm); [reflexivity|]; eauto.
  - destruct (s_root s =? o)%N eqn:EC; (eapply (Sim _ _ _ _ _ _ _ V Hm); [cbn [pstep]; rewrite EC; reflexivity|]; eauto).
  - eapply (Sim _ _ _ _ _ _ _ V Hm); [reflexivity|]; eauto.
  - eapply (Sim _ _ _ _ _ _ _ V Hm); [reflexivity|]; eauto.
  - eapply (Sim _ _ _ _ _ _ _ V Hm); [reflexivity|]; eauto.
  - eapply (Sim _ _ _ _ _ _ _ V Hm); [reflexivity|]; eauto.
  - eapply (Sim _ _ _ _ _ _ _ V Hm); [reflexivity|]; eauto.
Qed.

Lemma all_ret (ws : list worker) : (forall i, (i < length ws)%nat -> exists x, nth_error ws i = Some (Ret x)) ->
  exists ts, ws = map (fun x => Ret x) ts.
Proof.
  induction ws as [|m ws IH]; intros H; [exists []; auto|].
  destruct (H 0%nat) as [x Hx]; [cbn; lia|]. cbn in Hx. inversion Hx; subst m.
  destruct IH as [ts ->]. { intros i Hi. apply (H (S i)). cbn. lia. }
  exists (x :: ts). auto.
Qed.
Lemma finish_upto ps : forall n ws s Of Xf, winv ps ws s Of Xf -> (n <= length ws)%nat ->
  exists sch, let w := work ws s sch in length (fst w) = length ws /\
    forall i, (i < n)%nat -> exists x, nth_error (fst w) i = Some (Ret x).
Proof.
  induction n as [|n IH]; intros ws s Of Xf V Hn.
  - exists []. cbn. split; auto. intros i Hi. lia.
  - destruct (IH ws s Of Xf V) as (sch & Hl & Hr); [lia|]. destruct (winv_work ps sch _ _ _ _ V) as (Of1 & Xf1 & V1).
    destruct (nth_error (fst (work ws s sch)) n) as [m|] eqn:Hm; [|apply nth_error_None in Hm; lia].
    destruct (finish_one ps n m _ _ _ _ V1 Hm) as (sch2 & x & H1 & H2 & H3).
    exists (sch ++ sch2). cbv zeta. rewrite work_app. split; [congruence|]. intros i Hi.
    destruct (Nat.eq_dec i n) as [->|Hne]; [eauto|]. rewrite H3 by auto. apply Hr. lia.
Qed.
Lemma finish_all ps ws s Of Xf : winv ps ws s Of Xf ->
  exists sch ts, fst (work ws s sch) = map (fun x => Ret x) ts.
Proof.
  intros V. destruct (finish_upto ps (length ws) ws s Of Xf V) as (sch & Hl & Hr); [lia|].
  exists sch. apply all_ret. intros i Hi. apply Hr. lia.
Qed.

(** ** When all have ended: the partial trees *)
Lemma winv_forest : forall ps ts s Of, length ts = length ps ->
  (forall i x es, nth_error ts i = Some x -> nth_error ps i = Some es -> wpost es x (Of i) s) ->
  (forall i j p, i <> j -> In p (Of i) -> ~ In p (Of j)) ->
  (forall i, own_ok (Of i) s) ->
  exists lvs, forest g b s ts ps lvs /\ NoDup (allp lvs) /\ forall p, In p (allp lvs) ->
    (b <= p < s_npid s)%N /\ exists i, (i < length ts)%nat /\ In p (Of i).
Proof.
  induction ps as [|es ps IH]; intros [|[h ns] ts] s Of Hl W D Ho; try discriminate.
  - exists []. split; [constructor|]. split; [constructor|easy].
  - destruct (W 0%nat _ _ eq_refl eq_refl) as (lv & P & Eh & Hi). cbn [fst snd] in *.
    destruct (IH ts s (fun i => Of (S i))) as (lvs & F & ND & Hr); auto.
    { intros i j p Hij. apply D. lia. }
    exists (lv :: lvs). split; [constructor; auto|]. change (allp (lv :: lvs)) with (pids lv ++ allp lvs). split.
    + apply nd_join; auto; [apply P|]. intros p Hp Hq. apply Hr in Hq as (_ & i & _ & Hq). apply (D 0%nat (S i) p); auto.
    + intros p Hp. apply in_app_iff in Hp as [Hp|Hp].
      * split; [eapply t_b; eauto|]. exists 0%nat. split; [cbn; lia|auto].
      * apply Hr in Hp as (H1 & i & H2 & H3). split; auto. exists (S i). split; [cbn; lia|auto].
Qed.
Lemma winv_done ps ts s Of Xf : winv ps (map (fun x => Ret x) ts) s Of Xf ->
  exists lvs, forest g b s ts ps lvs /\ NoDup (allp lvs) /\ forall p, In p (allp lvs) -> (b <= p < s_npid s)%N.
Proof.
  intros V. destruct (winv_forest ps ts s Of) as (lvs & F & ND & Hr).
  - rewrite <- (v_len _ _ _ _ _ V). symmetry. apply map_length.
  - intros i x es H1 H2. pose proof (v_wi _ _ _ _ _ V i (Ret x) es) as W. rewrite nth_error_map, H1 in W.
    apply (W eq_refl H2). apply env_refl.
  - apply V.
  - apply V.
  - exists lvs. split; auto. split; auto. intros p Hp. apply Hr in Hp. tauto.
Qed.

(** ** Addresses while one thread works *)
Definition sinv (s : st) : Prop := based s /\ fresh s /\ (b <= s_npid s)%N.
Definition keeps {A} (m : prog A) : Prop := forall s a s', sinv s -> run m s = Done a s' -> sinv s'.

Lemma sinv_put s p c0 c : sinv s -> s_tbl s p = Some c0 -> h_addr c0 = h_addr c ->
  ((b <= p)%N -> bpage c) -> sinv (set_tbl s p (Some c)).
Proof.
  intros (Hb & Hf & Hn) Ec Ea Hc. split; [|split; [|exact Hn]].
  - constructor; [apply Hb|..].
    + intros q d Hq. destruct (N.eq_dec q p) as [->|Hne]; [rewrite tbl_same|rewrite tbl_other by auto; apply Hb; auto].
      intros E. inversion E; subst d. split; [apply Hc; auto|]. destruct (d_ba _ Hb _ _ Hq Ec) as [_ Hr]. cbn. rewrite <- Ea. auto.
    + intros q r d e Hq Hr. destruct (N.eq_dec q p) as [->|Hq'], (N.eq_dec r p) as [->|Hr']; auto;
        rewrite ?tbl_same, ?tbl_other by auto; intros E1 E2 E3.
      * inversion E1; subst. rewrite <- Ea in E3. eapply (d_in _ Hb); eauto.
      * inversion E2; subst. rewrite <- Ea in E3. eapply (d_in _ Hb); eauto.
      * eapply (d_in _ Hb); eauto.
    + intros q d Hq. destruct (N.eq_dec q p) as [->|Hne]; [rewrite tbl_same|rewrite tbl_other by auto; apply Hb; auto].
      intros E. inversion E; subst d. rewrite <- Ea. eapply Hb; eauto.
    + apply Hb.
    + apply Hb.
  - apply fresh_set; auto. destruct (N.lt_ge_cases p (s_npid s)) as [|Hge]; auto. rewrite (proj2 Hf) in Ec by auto. discriminate.
Qed.
Lemma sinv_new s c : sinv s -> h_addr c = s_naddr s -> bpage c ->
  sinv (set_tbl (bump_pid (bump_addr s)) (s_npid s) (Some c)).
Proof.
  intros (Hb & Hf & Hn) Ea Hc. pose proof (d_na _ Hb) as Hna. split; [|split; [|cbn; lia]].
  - constructor; [cbn; lia|..].
    + intros q d Hq. destruct (N.eq_dec q (s_npid s)) as [->|Hne]; [rewrite tbl_same|rewrite tbl_other by auto].
      * intros E. inversion E; subst d. split; auto. cbn. rewrite Ea. lia.
      * cbn. intros E. destruct (d_ba _ Hb _ _ Hq E). split; auto. lia.
    + intros q r d e Hq Hr. destruct (N.eq_dec q (s_npid s)) as [->|Hq'], (N.eq_dec r (s_npid s)) as [->|Hr']; auto;
        rewrite ?tbl_same, ?tbl_other by auto; cbn [s_tbl bump_pid bump_addr]; intros E1 E2 E3.
      * inversion E1; subst. destruct (d_ba _ Hb _ _ Hr E2). lia.
      * inversion E2; subst. destruct (d_ba _ Hb _ _ Hq E1). lia.
      * eapply (d_in _ Hb); eauto.
    + intros q d Hq. rewrite tbl_other by lia. apply Hb. auto.
    + apply Hb.
    + apply Hb.
  - apply fresh_set; [|cbn; lia]. destruct Hf as [H1 H2]. split; cbn; [lia|]. intros q Hq. apply H2. lia.
Qed.
Lemma sinv_clear s p : sinv s -> sinv (set_tbl s p None).
Proof.
  intros (Hb & Hf & Hn). assert (Ht : forall q c, s_tbl (set_tbl s p None) q = Some c -> s_tbl s q = Some c).
  { intros q c. destruct (N.eq_dec q p) as [->|Hne]; [rewrite tbl_same; discriminate|rewrite tbl_other by auto; auto]. }
  split; [|split; [|exact Hn]].
  - constructor; [apply Hb|..].
    + intros q c Hq E. apply (d_ba _ Hb _ _ Hq). auto.
    + intros q r c d Hq Hr E1 E2. apply (d_in _ Hb); auto.
    + intros q c Hq E. eapply (d_old _ Hb); eauto.
    + apply Hb.
    + apply Hb.
  - split; [apply Hf|]. intros q Hq. destruct (s_tbl (set_tbl s p None) q) as [c|] eqn:E; auto. apply Ht in E.
    rewrite (proj2 Hf) in E by exact Hq. discriminate.
Qed.

Lemma keeps_bind {A B} (m : prog A) (f : A -> prog B) : keeps m -> (forall a, keeps (f a)) -> keeps (bind m f).
Proof.
  intros H K s x s' I. rewrite run_bind. destruct (run m s) as [a s1| |] eqn:E; try discriminate.
  intros R. eapply K; [|exact R]. eapply H; eauto.
Qed.
Lemma keeps_ret {A} (a : A) : keeps (Ret a).
Proof. intros s x s' I R. cbn in R. inversion R; subst. auto. Qed.

Lemma bulk_node_size a inner es n rest : es <> [] -> bulk_node g a inner es = (n, rest) -> n_size n <= c_page g /\ n_recs n <> [].
Proof.
  intros Hn E. unfold bulk_node in E.
  destruct (bulk_fill g (paysz g inner) (bulk_est g inner) (c_hdr g) es) as [[rs r] z] eqn:F.
  apply (fill_ok g FX) in F as (-> & -> & H1 & H2 & _). inversion E; subst. cbn [n_size n_recs].
  unfold bulk_est in *. rewrite FX in *. destruct BC as (B1 & B2 & B3). pose proof (ksz g OK FX). pose proof (ok_pay g OK).
  split; [destruct inner; rewrite ?(okl0 g FX); unfold ptrlen in *; lia|].
  apply H2; auto. destruct inner; cbn [paysz]; unfold ptrlen in *; lia.
Qed.
Definition prevs (s : st) (prev : option (pid * node)) : Prop :=
  match prev with Some (pp, pn) => (n_size pn <= c_page g /\ n_recs pn <> []) /\ exists c0, s_tbl s pp = Some c0 /\ h_addr c0 = n_addr pn | None => True end.
Lemma construct_sinv inner : forall f es prev s r s', sinv s -> prevs s prev ->
  run (construct_layer g f inner es prev) s = Done r s' -> sinv s'.
Proof.
  induction f as [|f IH]; intros es prev s r s' I P; cbn [construct_layer]; [discriminate|].
  destruct es as [|e0 es0]; [cbn; intros R; inversion R; subst; auto|].
  set (es := e0 :: es0). assert (Hne : es <> []) by easy. clearbody es. unfold alloc. cbn [bind run]. intros R.
  set (a := s_naddr s) in *. set (p := s_npid s) in *. change (s_npid (bump_addr s)) with p in R.
  destruct (bulk_node g a inner es) as [n rest] eqn:EB.
  assert (Na : n_addr n = a).
  { unfold bulk_node in EB. destruct (bulk_fill _ _ _ _ _) as [[? ?] ?]. inversion EB. reflexivity. }
  pose proof (bulk_node_size _ _ _ _ _ Hne EB) as Hsz. unfold store in R. cbn [bind run] in R.
  set (s1 := set_tbl (bump_pid (bump_addr s)) p (Some (CBase n))) in *.
  assert (I1 : sinv s1) by (apply sinv_new; [auto|cbn; auto|]; split; [reflexivity|split; [apply Hsz|]]; intros m0 X0 _; inversion X0; subst m0; apply Hsz).
  assert (T1 : s_tbl s1 p = Some (CBase n)) by apply tbl_same.
  assert (K : exists s2, sinv s2 /\ s_tbl s2 p = Some (CBase n) /\
    run (bind (construct_layer g f inner rest (Some (p, n))) (fun nodes =>
      Ret ((match n_low n with Some k => k | None => c_garbage g end, p) :: nodes))) s2 = Done r s').
  { destruct prev as [[pp pn]|].
    - destruct P as ([Pz Pr] & c0 & Ec & Ea). cbn [bind run] in R. assert (Hpp : pp <> p).
      { intros ->. destruct I as (_ & Hf & _). rewrite (proj2 Hf) in Ec by (unfold p; lia). discriminate. }
      exists (set_tbl s1 pp (Some (CBase (link_next g pn p (n_low n))))). split; [|split; [|exact R]].
      + apply (sinv_put s1 pp c0); auto; [unfold s1; rewrite tbl_other by auto; exact Ec|]. intros _. split; [reflexivity|split; [cbn; rewrite (okl0 g FX); lia|]]. intros m0 X0 _. inversion X0; subst m0. exact Pr.
      + rewrite tbl_other by auto. exact T1.
    - exists s1. auto. }
  destruct K as (s2 & I2 & T2 & R2). rewrite run_bind in R2.
  destruct (run (construct_layer g f inner rest (Some (p, n))) s2) as [nodes s3| |] eqn:E3; try discriminate.
  cbn in R2. inversion R2; subst. eapply IH; [exact I2| |exact E3]. split; [exact Hsz|]. exists (CBase n). auto.
Qed.
Lemma construct_keeps inner f es : keeps (construct_layer g f inner es None).
Proof. intros s r s' I. apply construct_sinv; auto. exact Logic.I. Qed.
Lemma partial_keeps : forall f nodes h, keeps (partial_layers g f nodes h).
Proof.
  induction f as [|f IH]; intros nodes h; cbn [partial_layers]; [intros s a s' _; discriminate|].
  destruct (_ <? _); [|apply keeps_ret]. apply keeps_bind; [apply construct_keeps|auto].
Qed.
Lemma single_keeps f es : keeps (bulk_single g f es).
Proof. apply keeps_bind; [apply construct_keeps|intros; apply partial_keeps]. Qed.
Lemma parts_keeps f : forall ps, keeps (run_parts g f ps).
Proof.
  induction ps as [|es ps IH]; cbn [run_parts]; [apply keeps_ret|].
  apply keeps_bind; [apply single_keeps|]. intros x. apply keeps_bind; [auto|intros; apply keeps_ret].
Qed.
Lemma vertical_keeps : forall f l r, keeps (link_vertical g f l r).
Proof.
  induction f as [|f IH]; intros l r; cbn [link_vertical]; [intros s a s' _; discriminate|].
  destruct (N.eqb l 0); [apply keeps_ret|]. intros s x s' I. unfold load, store. cbn [bind run].
  destruct (s_tbl s l) as [cl|] eqn:El; [|discriminate]. cbn [bind run]. destruct (s_tbl s r) as [cr|]; [|discriminate]. cbn [bind run].
  destruct cl as [ln| | |]; try (cbn; discriminate). destruct cr as [rn| | |]; try (cbn; discriminate). destruct (n_low rn); [|cbn; discriminate]. cbn [bind run].
  match goal with |- context [set_tbl s l (Some ?c)] => assert (I1 : sinv (set_tbl s l (Some c)));
    [eapply sinv_put; [exact I|exact El|reflexivity|]; intros Hl; destruct I as (Hb & _); destruct (d_ba _ Hb _ _ Hl El) as [(_ & Hz & Hr) _];
     split; [reflexivity|split; [cbn in Hz |- *; rewrite (okl0 g FX); lia|]]; intros m0 X0; inversion X0; subst m0; exact (Hr _ eq_refl)|] end.
  match goal with |- context [run (if ?x then _ else _) _] => destruct x end; [cbn; intros R; inversion R; subst; auto|].
  destruct (n_inner rn); [|cbn; discriminate].
  destruct (n_recs _) as [|[? ?] ?]; [cbn; discriminate|]. destruct (rev _) as [|[? ?] ?]; [cbn; discriminate|].
  intros R. eapply IH; eauto.
Qed.
Lemma leftmost_keeps : forall f p, keeps (remove_leftmost f p).
Proof.
  induction f as [|f IH]; intros p; cbn [remove_leftmost]; [intros s a s' _; discriminate|].
  intros s x s' I. unfold load, store. cbn [bind run]. destruct (s_tbl s p) as [c|] eqn:Ec; [|discriminate]. cbn [bind run].
  destruct c; try (cbn; discriminate). cbn [bind run].
  match goal with |- context [set_tbl s p (Some ?c)] => assert (I1 : sinv (set_tbl s p (Some c)));
    [eapply sinv_put; [exact I|exact Ec|reflexivity|]; intros Hl; destruct I as (Hb & _); destruct (d_ba _ Hb _ _ Hl Ec) as [(_ & Hz & Hr) _];
     split; [reflexivity|split; [exact Hz|]]; intros m0 X0; inversion X0; subst m0; exact (Hr _ eq_refl)|] end.
  match goal with |- context [run (if ?x then _ else _) _] => destruct x end; [cbn; intros R; inversion R; subst; auto|].
  destruct (n_recs _) as [|[? ?] ?]; [cbn; discriminate|]. intros R. eapply IH; eauto.
Qed.
Lemma raise_keeps : forall f h height nodes, keeps (raise_to g f h height nodes).
Proof.
  induction f as [|f IH]; intros h height nodes; cbn [raise_to]; [intros s a s' _; discriminate|].
  destruct (_ <? _); [|apply keeps_ret]. apply keeps_bind; [apply construct_keeps|auto].
Qed.
Lemma upper_keeps : forall f nodes, keeps (upper_layers g f nodes).
Proof.
  induction f as [|f IH]; intros nodes; cbn [upper_layers]; [intros s a s' _; discriminate|].
  destruct (_ <? _); [|apply keeps_ret]. apply keeps_bind; [apply construct_keeps|auto].
Qed.
Lemma align_keeps f height : forall ts prev, keeps (align g f height prev ts).
Proof.
  induction ts as [|[h ns] ts IH]; intros prev; cbn [align]; [apply keeps_ret|].
  apply keeps_bind; [apply raise_keeps|]. intros [|[k first] ns1]; [intros s a s' _; discriminate|].
  apply keeps_bind; [apply vertical_keeps|]. intros _. apply keeps_bind; [auto|]. intros. apply keeps_ret.
Qed.
(** The end of Bulkload: the exchange of the root, from a state with the invariant. *)
Definition exchanged (s' : st) : Prop := exists s p c, sinv s /\ s_tbl s (s_root s0) = Some c /\
  s' = set_tbl (add_gc (set_root s p) [h_addr c]) (s_root s0) None.
Definition ends {A} (m : prog A) : Prop := forall s a s', sinv s -> run m s = Done a s' -> exchanged s'.
Lemma ends_bind {A B} (m : prog A) (f : A -> prog B) : keeps m -> (forall a, ends (f a)) -> ends (bind m f).
Proof.
  intros H K s x s' I. rewrite run_bind. destruct (run m s) as [a s1| |] eqn:E; try discriminate.
  intros R. eapply K; [|exact R]. eapply H; eauto.
Qed.
Lemma root_ends f nodes : ends (bulk_root g f nodes).
Proof.
  apply ends_bind; [apply upper_keeps|]. intros [|[k p] ns]; [intros s a s' _; discriminate|].
  apply ends_bind; [apply leftmost_keeps|]. intros _ s x s' I. unfold load. cbn [bind run].
  change (s_tbl (set_root s p) (s_root s)) with (s_tbl s (s_root s)).
  assert (Er : s_root s = s_root s0) by apply I. rewrite Er.
  destruct (s_tbl s (s_root s0)) as [c|] eqn:Ec; [|discriminate]. cbn [bind run]. intros R. inversion R; subst.
  exists s, p, c. auto.
Qed.
Lemma join_ends f ts : ends (bulk_join g f ts).
Proof. apply ends_bind; [apply align_keeps|intros; apply root_ends]. Qed.
Lemma bulkload_ends f es T : es <> [] -> ends (op_bulkload g f es T).
Proof.
  intros Hne. unfold op_bulkload. destruct es as [|e0 es0]; [easy|]. apply ends_bind; [|intros; apply root_ends].
  destruct (_ || _).
  - apply keeps_bind; [apply single_keeps|]. intros [? ?]. apply keeps_ret.
  - apply keeps_bind; [apply parts_keeps|]. intros. apply align_keeps.
Qed.
Lemma sinv_addr s : sinv s -> forall p c, s_tbl s p = Some c -> (h_addr c < s_naddr s)%N.
Proof.
  intros (Hb & _) p c E. destruct (N.lt_ge_cases p b) as [H|H].
  - destruct (d_old _ Hb _ _ H E). pose proof (d_na _ Hb). lia.
  - destruct (d_ba _ Hb _ _ H E). lia.
Qed.
Lemma exchanged_addr s : exchanged s -> forall p c, s_tbl s p = Some c -> (h_addr c < s_naddr s)%N.
Proof.
  intros (s1 & q & c1 & I & _ & ->) p c. destruct (N.eq_dec p (s_root s0)) as [->|H]; [rewrite tbl_same; discriminate|].
  rewrite tbl_other by auto. apply (sinv_addr s1 I).
Qed.
Lemma winv_sinv ps ws s Of Xf : winv ps ws s Of Xf -> sinv s.
Proof. intros V. split; [apply V|]. split; [apply V|]. exact (proj1 (v_own _ _ _ _ _ V 0%nat)). Qed.
End W.

(** ** From any tree, every interleaving of the workers *)
Lemma par_tree g s M es T f sch : cfg_ok g -> c_varlen g = false -> bulk_ok g -> tree g s M ->
  (forall p c, s_tbl s p = Some c -> (h_addr c < s_naddr s)%N) ->
  sorted es -> 1 < T <= Z.of_nat (length es) -> (length es + 1 < f)%nat ->
  let w := work (bulk_workers g f es T) s sch in
  (forall m u, In m (fst w) -> m <> UB u /\ m <> Fuel) /\
  (exists sch' ts, fst (work (bulk_workers g f es T) s (sch ++ sch')) = map (fun x => Ret x) ts) /\
  forall ts, fst w = map (fun x => Ret x) ts -> exists F s2,
    (forall f', (F <= f')%nat -> run (bulk_join g f' ts) (snd w) = Done Success s2) /\
    tree g s2 (fun k => find k es) /\ exchanged g (s_npid s) s (s_naddr s) s2 /\ kept s s2 /\
    (forall p c, s_tbl s2 p = Some c -> (h_addr c < s_naddr s2)%N).
Proof.
  intros OK FX BC HT AD Hs HT' Hf w. assert (Hfr : fresh s).
  { destruct HT as (flat & N & lv0 & _ & (_ & G1 & _ & G3 & _) & _). split; auto. }
  assert (Hb0 : (0 < s_npid s)%N) by apply Hfr. assert (Hne : es <> []) by (intros ->; cbn in HT'; lia).
  destruct (c16 es T ltac:(lia)) as (Cc & _).
  pose proof (parts_sorted es T Hs ltac:(lia)) as Hps. unfold bulk_workers in *.
  set (ps := partition T 0 (Z.to_nat T) (Z.of_nat (length es)) es) in *.
  assert (Hl : Forall (fun e : list (key * val) => (length e + 1 < f)%nat) ps).
  { apply Forall_forall. intros e He. assert (length e <= length es)%nat; [|lia]. rewrite <- Cc. clear - He.
    induction ps as [|x t IH]; [easy|]. cbn. rewrite app_length. destruct He as [->|He]; [lia|apply IH in He; lia]. }
  pose proof (winv_init g OK FX BC (s_npid s) Hb0 s (s_naddr s) eq_refl eq_refl Hfr AD f ps Hps Hl) as V0.
  destruct (winv_work g FX (s_npid s) Hb0 s (s_naddr s) eq_refl eq_refl AD ps sch _ _ _ _ V0) as (Of & Xf & V).
  fold w in V. split; [|split].
  - intros m u Hm. apply (winv_ok g FX (s_npid s) Hb0 s (s_naddr s) eq_refl eq_refl AD _ _ _ _ _ _ u V Hm).
  - destruct (finish_all g FX (s_npid s) Hb0 s (s_naddr s) eq_refl eq_refl AD ps _ _ _ _ V) as (sch' & ts & E). exists sch', ts.
    rewrite work_app. exact E.
  - intros ts E. rewrite E in V. destruct (winv_done g FX (s_npid s) Hb0 s (s_naddr s) eq_refl eq_refl AD _ _ _ _ _ V) as (lvs & Fo & ND & Hr).
    pose proof (align_all g OK FX BC es T s (snd w) ts lvs Hne Hs Hfr HT' Fo ND Hr (v_ext _ _ _ _ _ _ _ _ _ V) (v_fr _ _ _ _ _ _ _ _ _ V)) as EA.
    assert (EB : evp (fun _ f' => bulk_join g f' ts) (snd w) (fun r s' => (r = Success /\ tree g s' (fun k => find k es)) /\ kept s s')).
    { eapply evp_bind; [exact EA|]. cbn beta. intros ns s1 (lv & P & X1 & F1). eapply root_ok; eauto. }
    destruct (evp_done _ _ _ EB) as (r & s2 & ((-> & T2) & KP) & F & H2). exists F, s2. split; auto. split; auto.
    assert (EX : exchanged g (s_npid s) s (s_naddr s) s2).
    { apply (join_ends g OK FX BC (s_npid s) Hb0 s (s_naddr s) eq_refl eq_refl AD F ts (snd w) Success); [|apply H2; lia].
      eapply winv_sinv; eauto. }
    split; auto. split; auto. apply (exchanged_addr g FX (s_npid s) Hb0 s (s_naddr s) eq_refl eq_refl AD _ EX).
Qed.

(** The workers one after the other. *)
Lemma bulk_addr g s M es T : cfg_ok g -> c_varlen g = false -> bulk_ok g -> tree g s M ->
  (forall p c, s_tbl s p = Some c -> (h_addr c < s_naddr s)%N) -> sorted es -> es <> [] ->
  exists F s2, (forall f, (F <= f)%nat -> run (op_bulkload g f es T) s = Done Success s2) /\
    tree g s2 (fun k => find k es) /\ exchanged g (s_npid s) s (s_naddr s) s2 /\ kept s s2 /\
    (forall p c, s_tbl s2 p = Some c -> (h_addr c < s_naddr s2)%N).
Proof.
  intros OK FX BC HT AD Hs Hne. assert (Hfr : fresh s).
  { destruct HT as (flat & N & lv0 & _ & (_ & G1 & _ & G3 & _) & _). split; auto. }
  assert (Hb0 : (0 < s_npid s)%N) by apply Hfr.
  destruct (evp_done _ _ _ (bulk_tree g OK FX BC s M es T HT Hne Hs)) as (r & s2 & ((-> & T2) & KP) & F & H2).
  exists F, s2. split; auto. split; auto. assert (EX : exchanged g (s_npid s) s (s_naddr s) s2).
  { apply (bulkload_ends g OK FX BC (s_npid s) Hb0 s (s_naddr s) eq_refl eq_refl AD F es T Hne s Success); [|apply H2; lia].
    split; [|split; [exact Hfr|lia]]. apply based0; auto. }
  split; auto. split; auto. apply (exchanged_addr g FX (s_npid s) Hb0 s (s_naddr s) eq_refl eq_refl AD _ EX).
Qed.
