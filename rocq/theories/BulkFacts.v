(** Bulkload, fixed-length layout: the partial trees, their alignment, and the
    quiescent tree that results. *)
From Coq Require Import ZArith NArith List Bool Lia Permutation.
From Coq Require Import Sorting.Sorted ZifyBool ZifyNat ZifyN.
From Verif Require Import Config Api Page Machine Tree Bulk Spec ListFacts ChainSpec
  Valid RunFacts SeqSpec LevelFacts SeqSearch SeqAux SeqOps TreeRef Scan ScanSpec SeqScan.
Import ListNotations.
Open Scope Z_scope.
(** Which chains are met on the way does not matter here. *)
Definition any (_ : chain) : Prop := True.
Lemma any_ok c : any c. Proof. exact I. Qed.
Notation evp := (evg any).

Definition hdk (l : list (key * val)) : option key := option_map fst (hd_error l).
Definition keys (l : list (key * val)) : list key := map fst l.

Lemma nd_disj (a c : list pid) p : NoDup (a ++ c) -> In p a -> In p c -> False.
Proof.
  induction a as [|x t IH]; [easy|]. cbn. intros H [->|Ha] Hc; inversion H; subst; auto.
  apply H2. apply in_app_iff; auto.
Qed.

Lemma NoDup_app_remove_l (a c : list pid) : NoDup (a ++ c) -> NoDup c.
Proof. induction a; auto. cbn. intros H. inversion H; auto. Qed.
Lemma NoDup_app_remove_r (a c : list pid) : NoDup (a ++ c) -> NoDup a.
Proof.
  induction a; [constructor|]. cbn. intros H. inversion H; subst. constructor; auto.
  intros Hi. apply H2. apply in_app_iff. auto.
Qed.
Lemma nd_join (a c : list pid) : NoDup a -> NoDup c -> (forall p, In p a -> ~ In p c) -> NoDup (a ++ c).
Proof.
  induction a as [|x l IH]; intros H1 H2 Hd; auto. cbn. inversion H1; subst. constructor.
  - rewrite in_app_iff. intros [?|?]; [easy|]. eapply Hd; [left; reflexivity|auto].
  - apply IH; auto. intros p Hp. apply Hd. right. auto.
Qed.

(** ** State changes *)
Definition ext (T : pid -> Prop) (s s' : st) : Prop :=
  (s_npid s <= s_npid s')%N /\ (s_naddr s <= s_naddr s')%N /\ s_cell s' = s_cell s /\
  s_root s' = s_root s /\
  (forall p, (p < s_npid s)%N -> ~ T p -> s_tbl s' p = s_tbl s p).
(** What Bulkload leaves of the old tree. *)
Definition kept (s s' : st) : Prop :=
  (forall q, (q < s_npid s)%N -> q <> s_root s -> s_tbl s' q = s_tbl s q) /\
  exists c0 l, s_tbl s (s_root s) = Some c0 /\ s_gc s' = l ++ [h_addr c0].
Definition fresh (s : st) : Prop :=
  (0 < s_npid s)%N /\ (forall p, (s_npid s <= p)%N -> s_tbl s p = None).

Lemma ext_refl T s : ext T s s.
Proof. repeat split; auto; lia. Qed.
Lemma ext_trans (T T1 T2 : pid -> Prop) s1 s2 s3 : ext T1 s1 s2 -> ext T2 s2 s3 ->
  (forall p, (p < s_npid s1)%N -> T1 p \/ T2 p -> T p) -> ext T s1 s3.
Proof.
  intros (A1 & A2 & A3 & A4 & A5) (B1 & B2 & B3 & B4 & B5) H. repeat split; try lia; try congruence.
  intros p Hp Ht. rewrite B5; [apply A5; auto; intros ?; apply Ht; auto|lia|intros ?; apply Ht; auto].
Qed.

Lemma tbl_same s p c : s_tbl (set_tbl s p c) p = c.
Proof. cbn. unfold upd. rewrite N.eqb_refl. auto. Qed.
Lemma tbl_other s p c q : q <> p -> s_tbl (set_tbl s p c) q = s_tbl s q.
Proof. intros H. cbn. unfold upd. destruct (N.eqb_spec q p); [easy|auto]. Qed.

Lemma fresh_set s p c : fresh s -> (p < s_npid s)%N -> fresh (set_tbl s p c).
Proof. intros [F1 F2] Hp. split; auto. intros q Hq. cbn in Hq. rewrite tbl_other; [auto|lia]. Qed.

Section S.
Variable g : cfg.
Hypothesis OK : cfg_ok g.
Hypothesis FX : c_varlen g = false.
Hypothesis BC : bulk_ok g.

Lemma okl0 o : okl g o = 0.
Proof. unfold okl. rewrite FX. destruct o; auto. Qed.
Lemma rsz ps k : recsz g ps k = c_ksize g + ps.
Proof. unfold recsz, metalen, klen. rewrite FX. lia. Qed.
Lemma ksz : 0 < c_ksize g.
Proof. pose proof (ok_key g OK 0) as H. unfold klen in H. rewrite FX in H. lia. Qed.

(** ** Filling one page *)
Lemma fill_ok ps : forall es est sz a b z, bulk_fill g ps est sz es = (a, b, z) ->
  es = a ++ b /\ z = sz + csum g ps a /\
  (est <= c_bulkcap g -> est + csum g ps a <= c_bulkcap g) /\
  (es <> [] -> est + (c_ksize g + ps) <= c_bulkcap g -> a <> []) /\
  (est + 2 * (c_ksize g + ps) <= c_bulkcap g -> 0 <= c_ksize g + ps -> b = [] \/ (2 <= length a)%nat).
Proof.
  induction es as [|[k v] t IH]; intros est sz a b z; cbn [bulk_fill]; intros E.
  - inversion E; subst. cbn [csum fold_right app length]. repeat split; intros; auto; try easy; try lia; exfalso; lia.
  - rewrite rsz in E. destruct (Z.ltb_spec (c_bulkcap g) (est + (c_ksize g + ps))).
    + inversion E; subst. cbn [csum fold_right app length]. repeat split; intros; auto; try easy; try lia; exfalso; lia.
    + destruct (bulk_fill g ps (est + (c_ksize g + ps)) (sz + (c_ksize g + ps)) t) as [[a1 b1] z1] eqn:E1.
      inversion E; subst. destruct (IH _ _ _ _ _ E1) as (-> & -> & H1 & H2 & H3).
      cbn [csum fold_right fst]. fold (csum g ps a1). rewrite rsz. repeat split; [lia|lia|easy|].
      intros. destruct b as [|x b]; [auto|right].
      cbn. assert (a1 <> []); [|destruct a1; cbn; [easy|lia]].
      apply H2; [destruct a1; easy|lia].
Qed.

Definition bnode (s : st) (inner : bool) (x : pid * chain) : Prop :=
  exists n k0 v t, snd x = CBase n /\ s_tbl s (fst x) = Some (CBase n) /\
    n_recs n = (k0, v) :: t /\ n_low n = Some k0 /\ n_inner n = inner /\ sorted (n_recs n) /\
    n_size n = c_hdr g + csum g (paysz g inner) (n_recs n) /\ n_size n <= c_page g /\
    Forall (fun k => hi_ok (n_high n) k) (keys (n_recs n)).

Lemma node_fill a inner es n rest : es <> [] -> sorted es ->
  bulk_node g a inner es = (n, rest) ->
  exists k0 v t, n_recs n = (k0, v) :: t /\ n_low n = Some k0 /\ n_inner n = inner /\
    sorted (n_recs n) /\ n_size n = c_hdr g + csum g (paysz g inner) (n_recs n) /\
    n_size n <= c_page g /\ n_high n = None /\ n_next n = 0%N /\ es = n_recs n ++ rest /\
    (inner = true -> rest = [] \/ (2 <= length (n_recs n))%nat).
Proof.
  intros Hn Hs E. unfold bulk_node in E.
  destruct (bulk_fill g (paysz g inner) (bulk_est g inner) (c_hdr g) es) as [[rs r] z] eqn:F.
  apply fill_ok in F as (-> & -> & H1 & H2 & H3). inversion E; subst. cbn [n_recs n_low n_inner n_size n_high n_next].
  unfold bulk_est in *. rewrite FX in *. destruct BC as (B1 & B2 & B3).
  pose proof ksz. pose proof (ok_pay g OK). assert (rs <> []).
  { apply H2; auto. destruct inner; cbn [paysz]; unfold ptrlen in *; lia. }
  destruct rs as [|[k0 v] t]; [easy|]. cbn iota. exists k0, v, t. repeat split; auto.
  - apply sorted_app_inv in Hs. apply Hs.
  - destruct inner; rewrite ?okl0; lia.
  - destruct inner; rewrite ?okl0; unfold ptrlen in *; lia.
  - intros ->. apply H3; cbn [paysz]; unfold ptrlen in *; lia.
Qed.

Lemma bnode_frame s s' inner x : s_tbl s' (fst x) = s_tbl s (fst x) -> bnode s inner x -> bnode s' inner x.
Proof. intros E (n & k & v & t & H). exists n, k, v, t. rewrite E. exact H. Qed.

(** ** One layer *)
Definition prevok (s : st) (prev : option (pid * node)) : Prop :=
  match prev with
  | Some (pp, pn) => s_tbl s pp = Some (CBase pn) /\ (pp < s_npid s)%N
  | None => True
  end.
Definition touched (prev : option (pid * node)) (p : pid) : Prop :=
  match prev with Some (pp, _) => p = pp | None => False end.
Definition relinked (s' : st) (prev : option (pid * node)) (r : list (key * val)) : Prop :=
  match prev with
  | Some (pp, pn) =>
      s_tbl s' pp = Some (CBase (match r with [] => pn | (k, p) :: _ => link_next g pn p (Some k) end))
  | None => True
  end.

Record lres (s : st) (inner : bool) (es : list (key * val)) (prev : option (pid * node)) (N : level)
    (r : list (key * val)) (s' : st) : Prop := {
  r_lows : ekey r = lows N;
  r_flat : flat_of inner N = ekey es;
  r_link : linked N None 0%N;
  r_node : Forall (bnode s' inner) N;
  r_nodup : NoDup (map fst N);
  r_new : forall p, In p (map fst N) -> (s_npid s <= p < s_npid s')%N;
  r_ext : ext (touched prev) s s';
  r_fresh : fresh s';
  r_prev : relinked s' prev r;
  r_sorted : sorted r;
  r_hd : hdk r = hdk es;
  r_keys : incl (keys r) (keys es);
  r_len : (length r <= length es)%nat;
  r_half : inner = true -> (2 * length r <= length es + 1)%nat
}.

Lemma flat_base s inner p n N : bnode s inner (p, CBase n) ->
  flat_of inner ((p, CBase n) :: N) = ekey (n_recs n) ++ flat_of inner N.
Proof.
  intros (m & k & v & t & E & _ & Er & El & Ei & _). cbn in E. inversion E; subst m.
  cbn [flat_of flat_map snd]. fold (flat_of inner N). f_equal. unfold cents. destruct inner; auto.
  cbn. unfold c_lo, nlead, nents. cbn. rewrite El, Er. reflexivity.
Qed.

Lemma lres_nil s inner prev : fresh s -> prevok s prev -> lres s inner [] prev [] [] s.
Proof.
  intros Hf Hp. constructor; cbn; auto; try easy; try apply ext_refl; try (constructor; fail).
  - destruct prev as [[pp pn]|]; cbn in *; tauto.
Qed.

Lemma layer_ok inner : forall m es prev s, (length es <= m)%nat -> sorted es -> fresh s -> prevok s prev ->
  evp (fun _ f => construct_layer g f inner es prev) s (fun r s' => exists N, lres s inner es prev N r s').
Proof.
  induction m as [|m IH]; intros es prev s Hm Hs Hf Hp; apply evp_S; cbn [construct_layer].
  all: destruct es as [|e0 es0]; [|].
  1,3: apply evp_ret; exists []; apply lres_nil; auto.
  - cbn in Hm. lia.
  - set (es := e0 :: es0) in *. assert (Hne : es <> []) by easy. clearbody es. clear e0 es0.
    unfold alloc. cbn [bind]. apply evp_alloc. apply evp_newpid.
    set (a := s_naddr s). set (p := s_npid (bump_addr s)).
    destruct (bulk_node g a inner es) as [n rest] eqn:EB.
    destruct (node_fill _ _ _ _ _ Hne Hs EB) as (k0 & v & t & Er & El & Ei & Hsn & Hsz & Hpg & Eh & En & Ees & H2).
    unfold store. cbn [bind]. apply evp_store.
    set (s1 := set_tbl (bump_pid (bump_addr s)) p (Some (CBase n))).
    assert (X1 : ext (fun _ => False) s s1).
    { unfold s1, p. repeat split; cbn; try lia. intros q Hq _. unfold upd.
      destruct (N.eqb_spec q (s_npid s)); [lia|auto]. }
    assert (F1 : fresh s1).
    { destruct Hf as [F0 F1]. split; unfold s1, p; cbn; [lia|]. intros q Hq. unfold upd.
      destruct (N.eqb_spec q (s_npid s)); [lia|]. apply F1. lia. }
    assert (T1 : s_tbl s1 p = Some (CBase n)).
    { unfold s1. cbn. unfold upd. rewrite N.eqb_refl. auto. }
    assert (exists s2, (forall Q : list (key * val) -> st -> Prop,
        evp (fun _ f => bind (construct_layer g f inner rest (Some (p, n)))
          (fun nodes => Ret ((match n_low n with Some k => k | None => c_garbage g end, p) :: nodes))) s2 Q ->
        evp (fun _ f => bind (match prev with
                 | Some (pp, pn) => Store pp (CBase (link_next g pn p (n_low n))) (Ret tt)
                 | None => Ret tt end) (fun _ => bind (construct_layer g f inner rest (Some (p, n)))
          (fun nodes => Ret ((match n_low n with Some k => k | None => c_garbage g end, p) :: nodes)))) s1 Q) /\
        ext (touched prev) s1 s2 /\ fresh s2 /\ s_tbl s2 p = Some (CBase n) /\ s_npid s2 = (s_npid s + 1)%N /\
        relinked s2 prev [(k0, p)]) as (s2 & HQ & X2 & F2 & T2 & N2 & R2).
    { destruct prev as [[pp pn]|].
      - destruct Hp as [Hp1 Hp2]. exists (set_tbl s1 pp (Some (CBase (link_next g pn p (n_low n))))).
        assert (pp <> p) by (unfold p; cbn; lia).
        split; [intros Q H'; cbn [bind]; apply evp_store; exact H'|]. split; [|split; [|split; [|split]]].
        + repeat split; cbn; try lia. intros q Hq Hn. unfold upd. unfold touched in Hn.
          destruct (N.eqb_spec q pp); [easy|auto].
        + destruct F1 as [F1 F1']. split; [exact F1|]. intros q Hq. cbn in *. unfold upd at 1.
          destruct (N.eqb_spec q pp); [lia|]. apply F1'. auto.
        + rewrite tbl_other; auto.
        + reflexivity.
        + unfold relinked. rewrite tbl_same, El. auto.
      - exists s1. split; [intros Q H'; exact H'|]. split; [apply ext_refl|]. repeat split; auto; try apply F1. }
    apply HQ. clear HQ.
    assert (Hrest : (length rest <= m)%nat).
    { apply (f_equal (@length _)) in Ees. rewrite app_length, Er in Ees. cbn in Ees. lia. }
    rewrite Ees in Hs. apply sorted_app_inv in Hs as (_ & Hsr & Hlt).
    eapply evp_bind; [apply (IH rest (Some (p, n)) s2 Hrest Hsr F2)|].
    { split; [exact T2|]. rewrite N2. unfold p. cbn. lia. }
    intros r s3 (N & L). apply evp_ret.
    set (n' := match r with [] => n | (k, q) :: _ => link_next g n q (Some k) end).
    assert (T3 : s_tbl s3 p = Some (CBase n')) by exact (r_prev _ _ _ _ _ _ _ L).
    exists ((p, CBase n') :: N).
    assert (Erec : n_recs n' = n_recs n /\ n_low n' = n_low n /\ n_inner n' = n_inner n /\ n_size n' = n_size n).
    { unfold n'. destruct r as [|[k q] r]; auto. cbn. rewrite okl0. repeat split; lia. }
    destruct Erec as (Er' & El' & Ei' & Es').
    assert (Hh : n_high n' = hlo N None /\ n_next n' = hpid N 0%N).
    { pose proof (r_lows _ _ _ _ _ _ _ L) as Hl. unfold n'.
      destruct r as [|[k q] r], N as [|[q' c'] N]; cbn in Hl; try discriminate; cbn; auto.
      inversion Hl; subst. auto. }
    assert (Hk : Forall (fun k => hi_ok (n_high n') k) (keys (n_recs n'))).
    { rewrite Er'. unfold n'. destruct r as [|[k q] r]; [rewrite Eh; apply Forall_forall; cbn; auto|].
      cbn. pose proof (r_hd _ _ _ _ _ _ _ L) as Hd. destruct rest as [|[k1 v1] rest]; [discriminate|].
      cbn in Hd. inversion Hd; subst k1. apply Forall_forall. intros x Hx. unfold keys in Hx.
      apply in_map_iff in Hx as (y & <- & Hy). apply (Hlt y (k, v1)); cbn; auto. }
    assert (Hb : bnode s3 inner (p, CBase n')).
    { exists n', k0, v, t. cbn. rewrite Er', El', Ei', Es'. repeat split; auto. rewrite <- Er'. auto. }
    assert (Pp : p = s_npid s) by reflexivity.
    constructor.
    + cbn [ekey map lows fst snd]. fold (ekey r). fold (lows N). rewrite (r_lows _ _ _ _ _ _ _ L).
      unfold c_lo. cbn. rewrite El', El. auto.
    + rewrite (flat_base s3) by exact Hb. rewrite (r_flat _ _ _ _ _ _ _ L), Er', Ees.
      unfold ekey. rewrite map_app. auto.
    + cbn [linked]. split; [apply Hh|]. split; [apply Hh|apply L].
    + constructor; [exact Hb|apply L].
    + cbn. constructor; [|apply L]. intros Hi. apply (r_new _ _ _ _ _ _ _ L) in Hi. lia.
    + destruct (r_ext _ _ _ _ _ _ _ L) as (HN & _). intros q [<-|Hi]; cbn; [lia|].
      apply (r_new _ _ _ _ _ _ _ L) in Hi. lia.
    + eapply ext_trans; [exact X1|eapply (ext_trans (fun q => touched prev q \/ q = p)); [exact X2|apply (r_ext _ _ _ _ _ _ _ L)|]|].
      * cbn. tauto.
      * cbn. intros q Hq [[]|[H'|H']]; auto. lia.
    + apply L.
    + destruct prev as [[pp pn]|]; [|exact I]. cbn in *. destruct Hp as [Hp1 Hp2].
      destruct (r_ext _ _ _ _ _ _ _ L) as (_ & _ & _ & _ & HE). rewrite HE; [rewrite El; exact R2|lia|cbn; lia].
    + rewrite El. apply sorted_cons; [apply L|]. apply Forall_forall. intros y Hy.
      assert (Hi : In (fst y) (keys rest)) by (apply (r_keys _ _ _ _ _ _ _ L), in_map; auto).
      unfold keys in Hi. apply in_map_iff in Hi as (z & <- & Hz). apply (Hlt (k0, v) z); auto. rewrite Er. cbn. auto.
    + rewrite El, Ees, Er. reflexivity.
    + rewrite El, Ees. unfold keys. rewrite map_app. intros x [<-|Hx].
      * apply in_app_iff. left. rewrite Er. cbn. auto.
      * apply in_app_iff. right. apply (r_keys _ _ _ _ _ _ _ L). auto.
    + pose proof (r_len _ _ _ _ _ _ _ L). rewrite Ees, app_length, Er. cbn. lia.
    + intros Hi. pose proof (r_half _ _ _ _ _ _ _ L Hi). rewrite Ees, app_length. cbn [length].
      destruct (H2 Hi) as [->|H3]; [|lia].
      destruct r; [rewrite Er; cbn; lia|]. pose proof (r_len _ _ _ _ _ _ _ L) as Hl. cbn in Hl. lia.
Qed.


(** ** Partial trees, top level first *)
Definition is_in (lv : list level) : bool := match lv with [] => false | _ => true end.
Definition blevel (s : st) (inner : bool) (N : level) : Prop :=
  N <> [] /\ linked N None 0%N /\ Forall (bnode s inner) N.
Fixpoint pt (s : st) (lv : list level) (top flat : list (option key * val)) : Prop :=
  match lv with
  | [] => top = flat
  | N :: lv' => blevel s (is_in lv') N /\ lows N = top /\ pt s lv' (flat_of (is_in lv') N) flat
  end.

Lemma bnode_inv s inner x : bnode s inner x -> exists n k0 v t,
  x = (fst x, CBase n) /\ n_recs n = (k0, v) :: t /\ n_low n = Some k0 /\
  cents inner (snd x) = ekey (n_recs n) /\ c_lo (snd x) = Some k0.
Proof.
  intros (n & k & v & t & E & Ht & Er & El & Ei & _). exists n, k, v, t. destruct x as [p c]. cbn in *. subst c.
  repeat split; auto; cbn; try (unfold c_lo; cbn; auto; fail).
  unfold cents. destruct inner; auto. cbn. unfold c_lo, nlead, nents. cbn. rewrite El, Er. auto.
Qed.

Lemma flat_lows s inner N : Forall (bnode s inner) N ->
  (forall x, In x (lows N) -> In (fst x) (map fst (flat_of inner N))) /\
  option_map fst (hd_error (lows N)) = option_map fst (hd_error (flat_of inner N)) /\
  (osorted (flat_of inner N) -> osorted (lows N)).
Proof.
  induction 1 as [|x N Hx _ (I1 & I2 & I3)]; [cbn; repeat split; auto; easy|].
  destruct (bnode_inv _ _ _ Hx) as (n & k0 & v & t & Ex & Er & El & Ec & Elo). destruct x as [p c].
  rewrite flat_of_cons, lows_cons. cbn [snd] in Ec, Elo. rewrite Ec, Elo, Er. split; [|split].
  - intros y [<-|Hy]; [cbn; auto|]. rewrite map_app. apply in_app_iff. right. auto.
  - reflexivity.
  - intros Hs. apply osorted_app_inv in Hs as (_ & S2 & S3). constructor; [apply I3; auto|].
    apply Forall_forall. intros y Hy. apply I1 in Hy. apply in_map_iff in Hy as (z & <- & Hz).
    cbn. apply (S3 (Some k0, v) z); cbn; auto.
Qed.

Lemma pt_facts s : forall lv top flat, pt s lv top flat ->
  (forall x, In x top -> In (fst x) (map fst flat)) /\
  option_map fst (hd_error top) = option_map fst (hd_error flat) /\
  (osorted flat -> osorted top).
Proof.
  induction lv as [|N lv IH]; intros top flat; cbn [pt].
  - intros ->. repeat split; auto. intros. apply in_map. auto.
  - intros ((_ & _ & Hb) & <- & Hp). destruct (flat_lows _ _ _ Hb) as (A1 & A2 & A3).
    apply IH in Hp as (B1 & B2 & B3). repeat split.
    + intros x Hx. apply A1 in Hx. apply in_map_iff in Hx as (y & <- & Hy). auto.
    + congruence.
    + auto.
Qed.

Lemma pt_frame s s' : forall lv top flat, pt s lv top flat ->
  (forall p, In p (pids lv) -> s_tbl s' p = s_tbl s p) -> pt s' lv top flat.
Proof.
  induction lv as [|N lv IH]; intros top flat; cbn [pt]; auto.
  intros ((H1 & H2 & H3) & H4 & H5) Hf. split; [split; [auto|split; auto]|split; auto].
  - apply Forall_forall. intros x Hx. rewrite Forall_forall in H3. eapply bnode_frame; [|apply H3; auto].
    apply Hf. cbn. apply in_app_iff. left. apply in_map. auto.
  - apply IH; auto. intros p Hp. apply Hf. cbn. apply in_app_iff. auto.
Qed.

Variable b : pid.
Hypothesis Hb0 : (0 < b)%N.

Record PT (s : st) (lv : list level) (top es : list (key * val)) : Prop := {
  t_pt : pt s lv (ekey top) (ekey es);
  t_ne : lv <> [];
  t_nodup : NoDup (pids lv);
  t_b : forall p, In p (pids lv) -> (b <= p < s_npid s)%N;
  t_es : sorted es
}.

Lemma ekey_sorted l : osorted (ekey l) -> sorted l.
Proof.
  induction l as [|[k v] l IH]; cbn; intros H; [constructor|].
  apply osorted_cons_inv in H as [H1 H2]. apply sorted_cons; [auto|].
  apply Forall_forall. intros [k' v'] Hy. rewrite Forall_forall in H2.
  apply (H2 (Some k', v')). apply in_ekey. eauto.
Qed.
Lemma t_sorted s lv top es : PT s lv top es -> sorted top.
Proof.
  intros H. apply ekey_sorted. destruct (pt_facts _ _ _ _ (t_pt _ _ _ _ H)) as (_ & _ & S3).
  apply S3, osorted_ekey, H.
Qed.
Lemma t_top s lv top es : PT s lv top es -> top <> [].
Proof.
  intros [H1 H2 _ _ _] ->. destruct lv as [|[|[p c] N] lv]; [easy| |]; cbn [pt] in H1.
  - destruct H1 as ((H & _) & _). easy.
  - destruct H1 as (_ & H & _). discriminate.
Qed.

Lemma PT_frame T s s' lv top es : PT s lv top es -> ext T s s' ->
  (forall p, In p (pids lv) -> ~ T p) -> PT s' lv top es.
Proof.
  intros [H1 H2 H3 H4 H5] (E1 & E2 & E3 & E4 & E5) HT. constructor; auto.
  - apply pt_frame with s; auto. intros p Hp. apply E5; auto. apply H4. auto.
  - intros p Hp. apply H4 in Hp. lia.
Qed.

Lemma PT_leaf s es N r s' : (b <= s_npid s)%N -> es <> [] -> sorted es -> lres s false es None N r s' ->
  PT s' [N] r es.
Proof.
  intros Hb Hne Hs L. constructor; auto; try easy.
  - cbn [pt is_in]. split; [split; [|split; apply L]|split; [symmetry; apply L|apply L]].
    intros ->. pose proof (r_flat _ _ _ _ _ _ _ L). destruct es; [easy|discriminate].
  - cbn. rewrite app_nil_r. apply L.
  - intros p Hp. cbn in Hp. rewrite app_nil_r in Hp. apply (r_new _ _ _ _ _ _ _ L) in Hp. lia.
Qed.

Lemma PT_layer s lv top es N r s' : PT s lv top es -> (b <= s_npid s)%N -> lres s true top None N r s' ->
  PT s' (N :: lv) r es.
Proof.
  intros P Hb L. pose proof (t_top _ _ _ _ P) as Htop.
  assert (P' : PT s' lv top es) by (eapply PT_frame; [exact P|apply L|cbn; auto]).
  constructor; try easy; [| | |apply P].
  - cbn [pt]. assert (is_in lv = true) as -> by (pose proof (t_ne _ _ _ _ P); destruct lv; easy).
    split; [split; [|split; apply L]|split; [symmetry; apply L|rewrite (r_flat _ _ _ _ _ _ _ L); apply P']].
    intros ->. pose proof (r_flat _ _ _ _ _ _ _ L). destruct top; [easy|discriminate].
  - change (NoDup (map fst N ++ pids lv)).
    pose proof (r_nodup _ _ _ _ _ _ _ L) as H1. pose proof (t_nodup _ _ _ _ P) as H2.
    assert (Hd : forall p, In p (map fst N) -> ~ In p (pids lv)).
    { intros p Hp Hq. apply (r_new _ _ _ _ _ _ _ L) in Hp. apply (t_b _ _ _ _ P) in Hq. lia. }
    apply nd_join; auto.
  - intros p Hp. change (In p (map fst N ++ pids lv)) in Hp. apply in_app_iff in Hp as [Hp|Hp].
    + apply (r_new _ _ _ _ _ _ _ L) in Hp. lia.
    + apply (t_b _ _ _ _ P') in Hp. lia.
Qed.

Definition grow (s : st) (lv : list level) (s' : st) (lv' : list level) : Prop :=
  ext (fun _ => False) s s' /\ fresh s' /\ (forall p, In p (pids lv') -> In p (pids lv) \/ (s_npid s <= p)%N).
Lemma grow_refl s lv : fresh s -> grow s lv s lv.
Proof. intros H. split; [apply ext_refl|split; auto]. Qed.
Lemma grow_layer s lv top s1 N r s2 lv2 : lres s true top None N r s1 -> grow s1 (N :: lv) s2 lv2 -> grow s lv s2 lv2.
Proof.
  intros L (E & F & H). split; [|split; auto].
  - eapply ext_trans; [apply L|exact E|cbn; tauto].
  - intros p Hp. apply H in Hp as [Hp|Hp].
    + change (In p (map fst N ++ pids lv)) in Hp. apply in_app_iff in Hp as [Hp|Hp]; auto.
      apply (r_new _ _ _ _ _ _ _ L) in Hp. lia.
    + pose proof (r_ext _ _ _ _ _ _ _ L) as (? & _). lia.
Qed.

Lemma icap : 1 <= inner_cap g.
Proof.
  unfold inner_cap, metalen. rewrite FX. pose proof ksz. destruct BC as (_ & B2 & B3). unfold ptrlen in *.
  apply Z.div_le_lower_bound; lia.
Qed.

Lemma partial_ok : forall m top h lv es s, (length top <= m)%nat -> PT s lv top es -> fresh s -> (b <= s_npid s)%N ->
  evp (fun _ f => partial_layers g f top h) s (fun x s' => exists lv', PT s' lv' (snd x) es /\
    Z.of_nat (length lv') - fst x = Z.of_nat (length lv) - h /\ grow s lv s' lv').
Proof.
  induction m as [|m IH]; intros top h lv es s Hm P Hf Hb; pose proof (t_top _ _ _ _ P) as Hne; apply evp_S; cbn [partial_layers].
  - destruct top; [easy|cbn in Hm; lia].
  - destruct (Z.ltb_spec (inner_cap g) (Z.of_nat (length top))) as [Hl|Hl].
    + eapply evp_bind; [apply (layer_ok true (length top) top None s); auto; [eapply t_sorted; eauto|exact I]|].
      cbn beta. intros r s1 (N & L). pose proof (PT_layer _ _ _ _ _ _ _ P Hb L) as P1. pose proof icap.
      pose proof (r_half _ _ _ _ _ _ _ L eq_refl). pose proof (r_ext _ _ _ _ _ _ _ L) as (Hn & _).
      eapply evp_weaken; [apply (IH r (h + 1) (N :: lv) es s1); [lia|auto|apply L|lia]|].
      cbn beta. intros x s2 (lv' & P2 & El & G). exists lv'. split; auto. split.
      * cbn [length] in El. lia.
      * eapply grow_layer; eauto.
    + apply evp_ret. exists lv. split; [exact P|split; [reflexivity|apply grow_refl; auto]].
Qed.

Lemma single_ok es s : es <> [] -> sorted es -> fresh s -> (b <= s_npid s)%N ->
  evp (fun _ f => bulk_single g f es) s (fun x s' => exists lv', PT s' lv' (snd x) es /\
    Z.of_nat (length lv') = fst x /\ grow s [] s' lv').
Proof.
  intros Hne Hs Hf Hb. unfold bulk_single.
  eapply evp_bind; [apply (layer_ok false (length es) es None s); auto; exact I|].
  cbn beta. intros r s1 (N & L). pose proof (PT_leaf _ _ _ _ _ Hb Hne Hs L) as P.
  pose proof (r_ext _ _ _ _ _ _ _ L) as (Hn & _).
  eapply evp_weaken; [apply (partial_ok (length r) r 1 [N] es s1); [lia|auto|apply L|lia]|].
  cbn beta. intros x s2 (lv' & P2 & El & (E & F & H)). exists lv'. split; auto. split; [cbn in El; lia|].
  split; [|split; auto].
  - eapply ext_trans; [apply L|exact E|cbn; tauto].
  - intros p Hp. right. apply H in Hp as [Hp|Hp]; [|lia]. cbn in Hp. rewrite app_nil_r in Hp.
    apply (r_new _ _ _ _ _ _ _ L) in Hp. lia.
Qed.

(** ** The parts of the worker threads *)
Inductive forest (s : st) : list (Z * list (key * val)) -> list (list (key * val)) -> list (list level) -> Prop :=
| f_nil : forest s [] [] []
| f_cons h ns ts es ps lv lvs : PT s lv ns es -> Z.of_nat (length lv) = h -> forest s ts ps lvs ->
    forest s ((h, ns) :: ts) (es :: ps) (lv :: lvs).
Definition allp (lvs : list (list level)) : list pid := flat_map pids lvs.

Lemma forest_frame T s s' ts ps lvs : forest s ts ps lvs -> ext T s s' ->
  (forall p, In p (allp lvs) -> ~ T p) -> forest s' ts ps lvs.
Proof.
  intros F E. induction F as [|h ns ts es ps lv lvs P Hh _ IH]; intros HT; constructor; auto.
  - eapply PT_frame; eauto. intros p Hp. apply HT. cbn. apply in_app_iff. auto.
  - apply IH. intros p Hp. apply HT. cbn. apply in_app_iff. auto.
Qed.

Lemma parts_ok : forall ps s, Forall (fun es => es <> [] /\ sorted es) ps -> fresh s -> (b <= s_npid s)%N ->
  evp (fun _ f => run_parts g f ps) s (fun ts s' => exists lvs, forest s' ts ps lvs /\ NoDup (allp lvs) /\
    (forall p, In p (allp lvs) -> (s_npid s <= p < s_npid s')%N) /\ ext (fun _ => False) s s' /\ fresh s').
Proof.
  induction ps as [|es ps IH]; intros s Hp Hf Hb; cbn [run_parts].
  - apply evp_ret. exists []. split; [constructor|]. split; [constructor|]. split; [easy|]. split; [apply ext_refl|auto].
  - inversion Hp as [|? ? [Hne Hs] Hps]; subst.
    eapply evp_bind; [apply single_ok; eauto|]. cbn beta. intros [h ns] s1 (lv & P1 & Eh & (E1 & F1 & G1)).
    assert (Hn1 : (s_npid s <= s_npid s1)%N) by apply E1.
    eapply evp_bind; [apply IH; auto; lia|]. cbn beta. intros ts s2 (lvs & Fo & ND & Hr & E2 & F2).
    apply evp_ret. exists (lv :: lvs). assert (Hn2 : (s_npid s1 <= s_npid s2)%N) by apply E2.
    assert (Hlv : forall p, In p (pids lv) -> (s_npid s <= p < s_npid s1)%N).
    { intros p Hp'. pose proof (t_b _ _ _ _ P1 p Hp'). apply G1 in Hp' as [[]|]. lia. }
    split; [|split; [|split; [|split]]].
    + cbn in Eh. constructor; auto. eapply PT_frame; eauto.
    + change (NoDup (pids lv ++ allp lvs)). pose proof (t_nodup _ _ _ _ P1) as H1.
      assert (Hd : forall p, In p (pids lv) -> ~ In p (allp lvs)).
      { intros p Hp' Hq. apply Hlv in Hp'. apply Hr in Hq. lia. }
      apply nd_join; auto.
    + intros p Hp'. change (In p (pids lv ++ allp lvs)) in Hp'. apply in_app_iff in Hp' as [H'|H'].
      * apply Hlv in H'. lia.
      * apply Hr in H'. lia.
    + eapply ext_trans; [exact E1|exact E2|cbn; tauto].
    + auto.
Qed.

Lemma raise_ok height : forall m h ns lv es s, Z.to_nat (height - h) = m -> Z.of_nat (length lv) = h -> h <= height ->
  PT s lv ns es -> fresh s -> (b <= s_npid s)%N ->
  evp (fun _ f => raise_to g f h height ns) s (fun r s' => exists lv', PT s' lv' r es /\
    Z.of_nat (length lv') = height /\ grow s lv s' lv').
Proof.
  induction m as [|m IH]; intros h ns lv es s Hm Hh Hle P Hf Hb; apply evp_S; cbn [raise_to].
  - destruct (Z.ltb_spec h height); [lia|]. apply evp_ret. exists lv. split; auto. split; [lia|]. apply grow_refl; auto.
  - destruct (Z.ltb_spec h height); [|lia].
    eapply evp_bind; [apply (layer_ok true (length ns) ns None s); auto; [eapply t_sorted; eauto|exact I]|].
    cbn beta. intros r s1 (N & L). pose proof (PT_layer _ _ _ _ _ _ _ P Hb L) as P1.
    pose proof (r_ext _ _ _ _ _ _ _ L) as (Hn & _).
    eapply evp_weaken; [apply (IH (h + 1) r (N :: lv) es s1); auto; [lia|cbn [length]; lia|lia|apply L|lia]|].
    cbn beta. intros r2 s2 (lv' & P2 & El & G). exists lv'. split; auto. split; auto. eapply grow_layer; eauto.
Qed.

(** ** Linking two partial trees of the same height *)
Lemma last_lows N p c : last (lows (N ++ [(p, c)])) (None, 0%N) = (c_lo c, p).
Proof. rewrite lows_app, lows_cons. cbn. apply last_last. Qed.

Lemma link_ok ks : forall lv1 lv2 s top1 top2 fl1 fl2, length lv1 = length lv2 -> lv1 <> [] ->
  pt s lv1 top1 fl1 -> pt s lv2 top2 fl2 -> NoDup (pids lv1 ++ pids lv2) ->
  (forall p, In p (pids lv1 ++ pids lv2) -> (0 < p < s_npid s)%N) ->
  (forall x, In x fl1 -> olt (fst x) (Some ks)) -> option_map fst (hd_error fl2) = Some (Some ks) ->
  evp (fun _ f => link_vertical g f (snd (last top1 (None, 0%N))) (hd 0%N (map snd top2))) s
    (fun _ s' => exists lv', pt s' lv' (top1 ++ top2) (fl1 ++ fl2) /\
       Permutation (pids lv') (pids lv1 ++ pids lv2) /\ length lv' = length lv1 /\
       ext (fun p => In p (pids lv1)) s s' /\ s_npid s' = s_npid s /\ (fresh s -> fresh s')).
Proof.
  induction lv1 as [|N1 lv1 IH]; intros [|N2 lv2] s top1 top2 fl1 fl2 Hlen Hne H1 H2 ND H0 Hlt Hhd; try easy.
  cbn [length] in Hlen. pose proof (pt_facts _ _ _ _ H1) as (K1 & _). pose proof (pt_facts _ _ _ _ H2) as (_ & K2 & _).
  cbn [pt] in H1, H2. destruct H1 as ((Ne1 & L1 & B1) & E1 & P1), H2 as ((Ne2 & L2 & B2) & E2 & P2).
  assert (Ei : is_in lv2 = is_in lv1) by (destruct lv1, lv2; easy). rewrite Ei in *.
  destruct (exists_last Ne1) as (N1' & (l & cl) & ->). destruct N2 as [|[r cr] N2]; [easy|].
  apply Forall_app in B1 as [B1 Bl]. inversion Bl as [|? ? Bl' _]; subst. clear Bl. rename Bl' into Bl.
  inversion B2 as [|? ? Br B2']; subst.
  rewrite last_lows. rewrite lows_cons. cbn [map hd snd].
  destruct Bl as (ln & kl & vl & tl & Ecl & Tl & Rl & Ll & Il & Sl & Zl & Gl & Hl). cbn in Ecl, Tl. subst cl.
  destruct Br as (rn & kr & vr & tr & Ecr & Tr & Rr & Lr & Ir & Sr & Zr & Gr & Hr). cbn in Ecr, Tr. subst cr.
  assert (kr = ks).
  { rewrite lows_cons in K2. cbn in K2. rewrite Hhd in K2. unfold c_lo in K2. cbn in K2. congruence. }
  subst kr.
  assert (Hin1 : In l (pids ((N1' ++ [(l, CBase ln)]) :: lv1))).
  { cbn. apply in_app_iff. left. rewrite map_app. apply in_app_iff. right. cbn. auto. }
  set (ln' := link_next g ln r (n_low rn)). set (s1 := set_tbl s l (Some (CBase ln'))).
  set (Q1 := pids lv1) in *. set (Q2 := pids lv2) in *.
  assert (NDl : ~ In l (map fst N1') /\ ~ In l Q1 /\ l <> r /\ ~ In l (map fst N2) /\ ~ In l Q2).
  { cbn in ND. rewrite map_app in ND. cbn in ND. fold Q1 Q2 in ND. rewrite <- !app_assoc in ND.
    apply NoDup_remove_2 in ND. rewrite !in_app_iff in ND. cbn in ND. rewrite in_app_iff in ND. intuition. }
  destruct NDl as (D1 & D2 & D3 & D4 & D5).
  assert (Hkeys : Forall (fun k => k < ks) (keys (n_recs ln))).
  { apply Forall_forall. intros k Hk. unfold keys in Hk. apply in_map_iff in Hk as ([k' v'] & <- & Hk).
    pose proof (pt_facts _ _ _ _ P1) as (A & _).
    assert (Hi : In (Some k', v') (flat_of (is_in lv1) (N1' ++ [(l, CBase ln)]))).
    { rewrite flat_of_app. apply in_app_iff. right. rewrite (flat_base s).
      - apply in_app_iff. left. apply in_ekey. eauto.
      - exists ln, kl, vl, tl. repeat split; auto. }
    apply A in Hi. apply in_map_iff in Hi as (y & Ey & Hy). apply Hlt in Hy. rewrite Ey in Hy. exact Hy. }
  assert (Bln : forall s', s_tbl s' l = Some (CBase ln') -> bnode s' (is_in lv1) (l, CBase ln')).
  { intros s' Ht. exists ln', kl, vl, tl. cbn. rewrite okl0. repeat split; auto; try (unfold csum in Zl; lia).
    unfold ln'. cbn. rewrite Lr. exact Hkeys. }
  assert (EN : exists M, M = N1' ++ (l, CBase ln') :: (r, CBase rn) :: N2 /\ linked M None 0%N /\
    lows M = lows (N1' ++ [(l, CBase ln)]) ++ lows ((r, CBase rn) :: N2) /\
    flat_of (is_in lv1) M = flat_of (is_in lv1) (N1' ++ [(l, CBase ln)]) ++ flat_of (is_in lv1) ((r, CBase rn) :: N2) /\
    map fst M = map fst (N1' ++ [(l, CBase ln)]) ++ map fst ((r, CBase rn) :: N2)).
  { eexists. split; [reflexivity|]. split; [|split; [|split]].
    - apply linked_app in L1 as [La Lb]. rewrite linked_app. split; [exact La|].
      cbn [linked]. split; [reflexivity|]. split; [reflexivity|]. exact L2.
    - rewrite !lows_app, !lows_cons, <- app_assoc. reflexivity.
    - rewrite !flat_of_app, !flat_of_cons, <- app_assoc. f_equal. cbn [flat_of flat_map]. rewrite app_nil_r.
      destruct (is_in lv1); reflexivity.
    - rewrite !map_app. cbn. rewrite <- app_assoc. reflexivity. }
  destruct EN as (M & EM & LM & LowM & FM & PM).
  assert (BM : forall s', (forall p, ~ In p (l :: Q1) -> In p (map fst N1' ++ r :: map fst N2) -> s_tbl s' p = s_tbl s p) ->
    (forall p, In p (map fst N1' ++ r :: map fst N2) -> ~ In p Q1) ->
    s_tbl s' l = Some (CBase ln') -> Forall (bnode s' (is_in lv1)) M).
  { intros s' Hs' Hd Ht. subst M. apply Forall_app. split; [|constructor; [auto|constructor]].
    - apply Forall_forall. intros x Hx. rewrite Forall_forall in B1. apply bnode_frame with s; auto.
      assert (Hx' : In (fst x) (map fst N1')) by (apply in_map; auto).
      apply Hs'; [|apply in_app_iff; auto]. intros [E|Hi]; [apply D1; rewrite E; auto|]. revert Hi. apply Hd. apply in_app_iff; auto.
    - exists rn, ks, vr, tr. cbn. rewrite Hs'; [repeat split; auto| |apply in_app_iff; cbn; auto].
      intros [E|Hi]; [auto|]. revert Hi. apply Hd. apply in_app_iff; cbn; auto.
    - apply Forall_forall. intros x Hx. rewrite Forall_forall in B2'. apply bnode_frame with s; auto.
      assert (Hx' : In (fst x) (map fst N2)) by (apply in_map; auto).
      apply Hs'; [|apply in_app_iff; cbn; auto]. intros [E|Hi]; [apply D4; rewrite E; auto|]. revert Hi. apply Hd. apply in_app_iff; cbn; auto. }
  assert (Hd : forall p, In p (map fst N1' ++ r :: map fst N2) -> ~ In p Q1).
  { intros p Hp Hq.
    change (NoDup ((map fst (N1' ++ [(l, CBase ln)]) ++ Q1) ++ (map fst ((r, CBase rn) :: N2) ++ Q2))) in ND.
    apply in_app_iff in Hp as [Hp|Hp].
    - apply NoDup_app_remove_r in ND. apply (nd_disj _ _ p ND); auto. rewrite map_app. apply in_app_iff. auto.
    - apply (nd_disj _ _ p ND); apply in_app_iff; cbn in *; auto. }
  apply evp_S. cbn [link_vertical].
  destruct (N.eqb_spec l 0) as [El0|_]; [assert (0 < l)%N by (apply H0, in_app_iff; auto); lia|].
  eapply evp_bload; [exact Tl|apply any_ok|]. eapply evp_bload; [exact Tr|apply any_ok|].
  assert (EL : link_next g ln r (Some ks) = ln') by (unfold ln'; rewrite Lr; reflexivity). cbn beta iota. rewrite Lr.
  unfold store. cbn [bind]. apply evp_store. rewrite Il, EL. fold s1.
  assert (F1 : forall p, p <> l -> s_tbl s1 p = s_tbl s p) by (intros; apply tbl_other; auto).
  assert (Tl1 : s_tbl s1 l = Some (CBase ln')) by apply tbl_same.
  destruct lv1 as [|M1 lv1], lv2 as [|M2 lv2]; try easy; cbn [is_in negb].
  - apply evp_ret. exists [M]. cbn [pt is_in] in *. split; [|split; [|split; [|split]]].
    + split; [split; [|split; [exact LM|]]|split; [auto|]].
      * subst M. destruct N1'; discriminate.
      * apply BM; auto. intros p Hp _. apply F1. intros ->. apply Hp. cbn. auto.
      * rewrite FM, P1, P2. reflexivity.
    + cbn. rewrite !app_nil_r, PM. apply Permutation_refl.
    + reflexivity.
    + repeat split; cbn; try lia. intros p _ Hp. apply F1. intros ->. apply Hp. cbn. rewrite map_app.
      rewrite !in_app_iff. cbn. auto.
    + split; [reflexivity|]. intros Hf. apply fresh_set; auto. apply H0, in_app_iff. auto.
  - rewrite Rr. assert (exists ll kk l', n_recs ln = ll ++ [(kk, l')]) as (ll & kk & l' & Ell).
    { destruct (exists_last (l := n_recs ln)) as (ll & (kk & l') & E); [rewrite Rl; easy|]. eauto. }
    rewrite Ell, rev_app_distr, Ir. cbn [rev app is_in].
    assert (Q : evp (fun _ f => link_vertical g f (snd (last (flat_of true (N1' ++ [(l, CBase ln)])) (None, 0%N)))
       (hd 0%N (map snd (flat_of true ((r, CBase rn) :: N2))))) s1
     (fun _ s' => exists lv', pt s' lv' (flat_of true (N1' ++ [(l, CBase ln)]) ++ flat_of true ((r, CBase rn) :: N2)) (fl1 ++ fl2) /\
       Permutation (pids lv') (Q1 ++ Q2) /\ length lv' = length (M1 :: lv1) /\
       ext (fun p => In p Q1) s1 s' /\ s_npid s' = s_npid s1 /\ (fresh s1 -> fresh s'))).
    { apply IH; auto; try easy.
      - apply pt_frame with s; auto. intros p Hp. apply F1. intros ->. auto.
      - apply pt_frame with s; auto. intros p Hp. apply F1. intros ->. auto.
      - change (NoDup ((map fst (N1' ++ [(l, CBase ln)]) ++ Q1) ++ (map fst ((r, CBase rn) :: N2) ++ Q2))) in ND.
        rewrite <- app_assoc in ND. apply NoDup_app_remove_l in ND.
        apply (Permutation_NoDup (l := Q1 ++ map fst ((r, CBase rn) :: N2) ++ Q2)) with (l' := map fst ((r, CBase rn) :: N2) ++ Q1 ++ Q2) in ND.
        + apply NoDup_app_remove_l in ND. exact ND.
        + rewrite !app_assoc. apply Permutation_app_tail, Permutation_app_comm.
      - intros p Hp. apply in_app_iff in Hp. apply H0. 
        change (In p ((map fst (N1' ++ [(l, CBase ln)]) ++ Q1) ++ (map fst ((r, CBase rn) :: N2) ++ Q2))).
        rewrite !in_app_iff. destruct Hp as [Hp|Hp]; auto. }
    assert (Ec : forall m k0 v t, n_recs m = (k0, v) :: t -> n_low m = Some k0 -> cents true (CBase m) = ekey (n_recs m)).
    { intros m k0 v t E E'. cbn. unfold c_lo, nlead, nents. cbn. rewrite E, E'. auto. }
    assert (Ela : snd (last (flat_of true (N1' ++ [(l, CBase ln)])) (None, 0%N)) = l').
    { rewrite flat_of_app, flat_of_cons, (Ec ln kl vl tl), Ell, ekey_app by auto. cbn [flat_of flat_map ekey map fst snd].
      rewrite app_nil_r, app_assoc, last_last. reflexivity. }
    assert (Ehd : hd 0%N (map snd (flat_of true ((r, CBase rn) :: N2))) = vr).
    { rewrite flat_of_cons, (Ec rn ks vr tr), Rr by auto. reflexivity. }
    rewrite Ela, Ehd in Q.
    eapply evp_weaken; [exact Q|]. cbn beta. intros _ s2 (lv' & P' & Pm & Len & X & Np & Fr).
    exists (M :: lv'). cbn [pt]. assert (is_in lv' = true) as -> by (destruct lv'; easy).
    destruct X as (X1 & X2 & X3 & X4 & X5). split; [|split; [|split; [|split]]].
    + cbn [is_in] in *. split; [split; [|split; [exact LM|]]|split; [auto|]].
      * subst M. destruct N1'; discriminate.
      * apply BM; auto.
        -- intros p Hp Hp'. cbn [In] in Hp. rewrite X5; [apply F1; intros ->; auto| |auto].
           cbn. apply H0. cbn. rewrite map_app. fold Q1 Q2. rewrite !in_app_iff. cbn. rewrite in_app_iff.
           apply in_app_iff in Hp'. cbn in Hp'. tauto.
        -- rewrite X5; auto. cbn. apply H0, in_app_iff. auto.
      * rewrite FM. exact P'.
    + change (Permutation (map fst M ++ pids lv')
        ((map fst (N1' ++ [(l, CBase ln)]) ++ Q1) ++ (map fst ((r, CBase rn) :: N2) ++ Q2))).
      rewrite PM, Pm, <- !app_assoc. apply Permutation_app_head. rewrite !app_assoc.
      apply Permutation_app_tail, Permutation_app_comm.
    + cbn [length] in *. lia.
    + apply (ext_trans _ (fun p => p = l) (fun p => In p Q1) s s1 s2).
      * repeat split; cbn; try lia. intros p _ Hp. apply F1. auto.
      * repeat split; auto.
      * intros p _ [->|Hp]; auto.
        change (In p (map fst (N1' ++ [(l, CBase ln)]) ++ Q1)). apply in_app_iff. auto.
    + split; [exact Np|]. intros Hf. apply Fr, fresh_set; auto. apply H0, in_app_iff. auto.
Qed.


(** ** Aligning the parts *)
Definition above (p : pid) : Prop := (b <= p)%N.

Lemma snd_last_ekey l d : snd (last (ekey l) (None, d)) = snd (last l (0, d)).
Proof.
  induction l as [|[k v] l IH]; auto. destruct l as [|y l]; auto.
Qed.

Lemma PT_link s lv1 top1 es1 lv2 top2 es2 : length lv1 = length lv2 ->
  PT s lv1 top1 es1 -> PT s lv2 top2 es2 -> NoDup (pids lv1 ++ pids lv2) -> sorted (es1 ++ es2) ->
  evp (fun _ f => link_vertical g f (snd (last top1 (0, 0%N))) (hd 0%N (map snd top2))) s
    (fun _ s' => exists lv', PT s' lv' (top1 ++ top2) (es1 ++ es2) /\ length lv' = length lv1 /\
       Permutation (pids lv') (pids lv1 ++ pids lv2) /\
       ext (fun p => In p (pids lv1)) s s' /\ s_npid s' = s_npid s /\ (fresh s -> fresh s')).
Proof.
  intros Hlen P1 P2 ND Hs.
  assert (exists ks v es2', es2 = (ks, v) :: es2') as (ks & v & es2' & E2).
  { destruct es2 as [|[k v] es2]; eauto. exfalso. apply (t_top _ _ _ _ P2).
    pose proof (pt_facts _ _ _ _ (t_pt _ _ _ _ P2)) as (A & _). destruct top2 as [|[k v] t]; auto.
    destruct (A (Some k, v)); cbn; auto. }
  assert (Q : evp (fun _ f => link_vertical g f (snd (last (ekey top1) (None, 0%N))) (hd 0%N (map snd (ekey top2)))) s
    (fun _ s' => exists lv', pt s' lv' (ekey top1 ++ ekey top2) (ekey es1 ++ ekey es2) /\
       Permutation (pids lv') (pids lv1 ++ pids lv2) /\ length lv' = length lv1 /\
       ext (fun p => In p (pids lv1)) s s' /\ s_npid s' = s_npid s /\ (fresh s -> fresh s'))).
  { apply (link_ok ks); auto.
    - apply P1.
    - apply P1.
    - apply P2.
    - intros p Hp. apply in_app_iff in Hp as [Hp|Hp]; [apply P1 in Hp|apply P2 in Hp]; lia.
    - intros x Hx. apply in_ekey in Hx as (k & w & -> & Hx). cbn.
      apply sorted_app_inv in Hs as (_ & _ & Hs). apply (Hs (k, w) (ks, v)); auto. rewrite E2. cbn. auto.
    - rewrite E2. reflexivity. }
  rewrite snd_last_ekey in Q. unfold ekey in Q at 1. rewrite map_map in Q. cbn [snd] in Q.
  eapply evp_weaken; [exact Q|]. cbn beta. intros _ s' (lv' & P & Pm & Len & X & Np & Fr). exists lv'.
  split; [|repeat split; auto; try apply X; try apply Fr; auto]. constructor; auto.
  - rewrite !ekey_app. auto.
  - pose proof (t_ne _ _ _ _ P1). destruct lv1, lv'; easy.
  - eapply Permutation_NoDup; [apply Permutation_sym; exact Pm|auto].
  - intros p Hp. rewrite Np. apply (Permutation_in _ Pm), in_app_iff in Hp as [Hp|Hp]; [apply P1|apply P2]; auto.
Qed.

Lemma grow_nodup s lv s' lv' l : grow s lv s' lv' -> NoDup (pids lv') -> NoDup l ->
  (forall p, In p l -> (p < s_npid s)%N) -> (forall p, In p (pids lv) -> ~ In p l) -> NoDup (l ++ pids lv').
Proof.
  intros (_ & _ & G) N1 N2 Hl Hd. apply nd_join; auto. intros p Hp Hq.
  destruct (G _ Hq) as [H|H]; [apply (Hd _ H); auto|apply Hl in Hp; lia].
Qed.

Lemma align_ok height : forall ts ps lvs s lva topa esa, PT s lva topa esa -> Z.of_nat (length lva) = height ->
  forest s ts ps lvs -> Forall (fun t => fst t <= height) ts -> NoDup (pids lva ++ allp lvs) ->
  sorted (esa ++ concat ps) -> fresh s -> (b <= s_npid s)%N ->
  evp (fun _ f => align g f height (snd (last topa (0, 0%N))) ts) s
    (fun ns s' => exists lv', PT s' lv' (topa ++ ns) (esa ++ concat ps) /\ ext above s s' /\ fresh s').
Proof.
  induction ts as [|[h ns] ts IH]; intros ps lvs s lva topa esa P Hh Fo Hm ND Hs Hf Hb; inversion Fo; subst; cbn [align].
  - apply evp_ret. exists lva. cbn. rewrite !app_nil_r. split; auto. split; auto. apply ext_refl.
  - match goal with H : PT s lv ns es |- _ => rename H into P0 end. rename ps0 into ps. rename lvs0 into lvs.
    match goal with H : forest s ts ps lvs |- _ => rename H into Fo' end.
    inversion Hm as [|? ? Hm1 Hm2]; subst. cbn [fst] in Hm1.
    eapply evp_bind.
    { apply (raise_ok (Z.of_nat (length lva)) _ _ ns lv es s eq_refl eq_refl Hm1 P0 Hf Hb). }
    cbn beta. intros ns1 s1 (lv1 & P1 & Hl1 & G1). pose proof G1 as (X1 & F1 & G1').
    assert (Hn1 : (s_npid s <= s_npid s1)%N) by apply X1.
    change (NoDup (pids lva ++ (pids lv ++ allp lvs))) in ND.
    assert (Pa : PT s1 lva topa esa) by (eapply PT_frame; eauto).
    assert (Fo1 : forest s1 ts ps lvs) by (eapply forest_frame; eauto).
    assert (Bl : forall p, In p (allp lvs) -> (p < s_npid s)%N).
    { clear -Fo'. induction Fo' as [|h ns ts es ps lv lvs P Hh _ IHf]; [easy|]. cbn. intros p Hp.
      apply in_app_iff in Hp as [Hp|Hp]; auto. apply P in Hp. lia. }
    assert (ND1 : NoDup ((pids lva ++ allp lvs) ++ pids lv1)).
    { eapply grow_nodup; [exact G1|apply P1| | |].
      - apply (Permutation_NoDup (l := pids lva ++ pids lv ++ allp lvs) (l' := pids lv ++ pids lva ++ allp lvs)) in ND.
        + apply NoDup_app_remove_l in ND. auto.
        + rewrite !app_assoc. apply Permutation_app_tail, Permutation_app_comm.
      - intros p Hp. apply in_app_iff in Hp as [Hp|Hp]; auto. apply P in Hp. lia.
      - intros p Hp Hq. apply in_app_iff in Hq as [Hq|Hq].
        + apply (nd_disj _ _ p ND); auto. apply in_app_iff; auto.
        + apply NoDup_app_remove_l in ND. apply (nd_disj _ _ p ND); auto. }
    assert (ND2 : NoDup ((pids lva ++ pids lv1) ++ allp lvs)).
    { eapply Permutation_NoDup; [|exact ND1]. rewrite <- !app_assoc. apply Permutation_app_head, Permutation_app_comm. }
    cbn [concat] in Hs. rewrite app_assoc in Hs. pose proof (sorted_app_inv _ _ Hs) as (Hs1 & _ & _).
    assert (Q := PT_link s1 lva topa esa lv1 ns1 es ltac:(lia) Pa P1 (NoDup_app_remove_r _ _ ND2) Hs1).
    pose proof (t_top _ _ _ _ P1) as Hne. destruct ns1 as [|[k1 first] ns1]; [easy|].
    cbn [map hd snd] in Q.
    eapply evp_bind; [exact Q|]. cbn beta. intros _ s2 (lv2 & P2 & Len2 & Pm2 & X2 & Np2 & Fr2). pose proof (Fr2 F1) as F2.
    assert (El : last ((k1, first) :: ns1) (0, 0%N) = last (topa ++ (k1, first) :: ns1) (0, 0%N)).
    { clear. induction topa as [|x t IHt]; auto. cbn [app]. rewrite IHt. cbn [last]. destruct (t ++ (k1, first) :: ns1) eqn:E; auto.
      destruct t; discriminate. }
    rewrite El.
    eapply evp_bind; [apply (IH ps lvs s2 lv2 (topa ++ (k1, first) :: ns1) (esa ++ es)); auto|].
    + eapply forest_frame; [exact Fo1|exact X2|]. intros p Hp Hq.
      apply (nd_disj _ _ p ND2); auto. apply in_app_iff. auto.
    + eapply Permutation_NoDup; [|exact ND2]. apply Permutation_app_tail, Permutation_sym. exact Pm2.
    + lia.
    + cbn beta. intros ns2 s3 (lv3 & P3 & X3 & F3). apply evp_ret. exists lv3. cbn [concat].
      rewrite app_assoc, app_assoc. split; [exact P3|]. split; [|auto].
      eapply ext_trans; [exact X1|eapply (ext_trans above); [exact X2|exact X3|]|].
      * intros p _ [Hp|Hp]; auto. apply Pa in Hp. unfold above. lia.
      * intros p _ [[]|Hp]; auto.
Qed.


Lemma upper_ok : forall m top lv es s, (length top <= m)%nat -> PT s lv top es -> fresh s -> (b <= s_npid s)%N ->
  evp (fun _ f => upper_layers g f top) s (fun r s' => exists lv' k p, r = [(k, p)] /\ PT s' lv' r es /\
    ext above s s' /\ fresh s').
Proof.
  induction m as [|m IH]; intros top lv es s Hm P Hf Hb; pose proof (t_top _ _ _ _ P) as Hne; apply evp_S; cbn [upper_layers].
  - destruct top; [easy|cbn in Hm; lia].
  - destruct (Z.ltb_spec 1 (Z.of_nat (length top))) as [Hl|Hl].
    + eapply evp_bind; [apply (layer_ok true (length top) top None s); auto; [eapply t_sorted; eauto|exact I]|].
      cbn beta. intros r s1 (N & L). pose proof (PT_layer _ _ _ _ _ _ _ P Hb L) as P1.
      pose proof (r_half _ _ _ _ _ _ _ L eq_refl). pose proof (r_ext _ _ _ _ _ _ _ L) as (Hn & _).
      eapply evp_weaken; [apply (IH r (N :: lv) es s1); [lia|auto|apply L|lia]|].
      cbn beta. intros x s2 (lv' & k & p & -> & P2 & X & F). exists lv', k, p. split; auto. split; auto. split; auto.
      eapply ext_trans; [apply L|exact X|cbn; tauto].
    + apply evp_ret. destruct top as [|[k p] [|y t]]; [easy| |cbn in Hl; lia].
      exists lv, k, p. split; auto. split; auto. split; auto. apply ext_refl.
Qed.

(** ** Removing the leftmost keys *)
Lemma bnode_ok s inner x : bnode s inner x -> node_ok g nopend s inner x.
Proof.
  intros (n & k0 & v & t & E & Ht & Er & El & Ei & Hs & Hz & Hp & Hk). destruct x as [p c]. cbn in *. subst c.
  split; [exact Ht|]. split; [|split; [apply quiet_base; auto|cbn; auto]].
  rewrite Er in Hs. apply sorted_cons_inv in Hs as [Hs Hf].
  rewrite Er in Hk. cbn in Hk. inversion Hk as [|? ? Hk0 Hk']; subst. rewrite Forall_forall in Hk', Hf.
  unfold cwf. destruct (n_inner n) eqn:Ei; cbn.
  - unfold inode, nlead, nents. rewrite Er, El. cbn [tl]. split; auto. split; [exists k0; auto|]. split; auto. split; [|split].
    + apply Forall_forall. intros y Hy. split; cbn; [apply Hf; auto|]. apply Hk', in_map, Hy.
    + unfold rng_ne. destruct (n_high n); cbn in *; auto.
    + unfold ibytes. cbn [ifirst]. rewrite Hz, Er, okl0. cbn [csum fold_right fst paysz]. unfold csum. lia.
  - unfold lnode. rewrite Er, El. split; auto. split; [apply sorted_cons; auto; apply Forall_forall; auto|]. split; [|split].
    + constructor; cbn; [split; cbn; [lia|auto]|]. apply Forall_forall. intros y Hy. split; cbn.
      * apply Hf in Hy. lia.
      * apply Hk', in_map, Hy.
    + unfold rng_ne. destruct (n_high n); cbn in *; auto.
    + unfold lbytes. rewrite !okl0, Hz, Er. cbn [paysz]. lia.
Qed.

Definition nolow (n : node) : node :=
  mk_node (n_addr n) (n_inner n) None (n_high n) (n_next n) (n_recs n) (n_size n).
Lemma nolow_ok s s' inner p n : bnode s inner (p, CBase n) -> s_tbl s' p = Some (CBase (nolow n)) ->
  node_ok g nopend s' inner (p, CBase (nolow n)).
Proof.
  intros (m & k0 & v & t & E & Ht & Er & El & Ei & Hs & Hz & Hp & Hk) Ht'. cbn in *. inversion E; subst m.
  split; [exact Ht'|]. split; [|split; [apply quiet_base; auto|cbn; auto]].
  pose proof Hs as Hs0. rewrite Er in Hs. apply sorted_cons_inv in Hs as [Hs Hf].
  rewrite Er in Hk. cbn in Hk. inversion Hk as [|? ? Hk0 Hk']; subst. rewrite Forall_forall in Hk', Hf.
  unfold cwf. destruct (n_inner n) eqn:Ei; cbn.
  - unfold inode, nlead, nents. cbn. rewrite Er. cbn [tl]. split; auto. split; [exists k0; auto|]. split; auto. split; [|split].
    + apply Forall_forall. intros y Hy. split; cbn; auto. apply Hk', in_map, Hy.
    + unfold rng_ne. destruct (n_high n); cbn in *; auto.
    + unfold ibytes, ifirst, nullsz, metalen. rewrite FX, Hz, Er, okl0. cbn [csum fold_right fst paysz]. rewrite rsz.
      unfold csum, ptrlen. lia.
  - unfold lnode. cbn. split; auto. split; auto. split; [|split].
    + rewrite Er. constructor; cbn; [split; cbn; auto|]. apply Forall_forall. intros y Hy. split; cbn; auto.
      apply Hk', in_map, Hy.
    + unfold rng_ne. destruct (n_high n); cbn in *; auto.
    + unfold lbytes. rewrite !okl0, Hz. cbn [paysz]. lia.
Qed.

Fixpoint pu (s : st) (lv : list level) (top flat : list (option key * val)) : Prop :=
  match lv with
  | [] => top = flat
  | N :: lv' => N <> [] /\ hlo N None = None /\ linked N None 0%N /\ osorted (lows N) /\
      Forall (node_ok g nopend s (is_in lv')) N /\ lows N = top /\ pu s lv' (flat_of (is_in lv') N) flat
  end.

Lemma pu_up s : forall lv top flat acc, pu s lv top flat -> up g nopend s (is_in lv) top acc ->
  up g nopend s false flat (rev lv ++ acc).
Proof.
  induction lv as [|N lv IH]; intros top flat acc; cbn [pu is_in rev].
  - intros ->. auto.
  - intros (H1 & H2 & H3 & H4 & H5 & <- & H6) Hu. rewrite <- app_assoc. cbn [app].
    apply (IH (flat_of (is_in lv) N)); auto. cbn [up]. auto 10.
Qed.

Lemma rl_ok : forall lv s k p t flat, pt s lv ((Some k, p) :: t) flat -> lv <> [] -> NoDup (pids lv) ->
  osorted flat -> (forall q, In q (pids lv) -> (q < s_npid s)%N) ->
  evp (fun _ f => remove_leftmost f p) s (fun _ s' => exists lv', pu s' lv' ((None, p) :: t) flat /\
    pids lv' = pids lv /\ length lv' = length lv /\ ext (fun q => In q (pids lv)) s s' /\
    s_npid s' = s_npid s /\ (fresh s -> fresh s')).
Proof.
  induction lv as [|N lv IH]; intros s k p t flat Hp Hne ND Hs Hlt; [easy|].
  pose proof (pt_facts _ _ _ _ Hp) as (_ & _ & Hos). specialize (Hos Hs).
  cbn [pt] in Hp. destruct Hp as ((Ne & L & B) & El & P). destruct N as [|[p' c] N]; [easy|].
  rewrite lows_cons in El. inversion El as [[E1 E2 E3]]. subst p'. clear El.
  inversion B as [|? ? B0 B1]; subst. pose proof B0 as (n & k0 & v & tr & Ec & Tp & Er & Elo & Ei & _).
  cbn in Ec, Tp. subst c.
  change (NoDup (p :: map fst N ++ pids lv)) in ND. inversion ND as [|? ? D1 D2]; subst.
  rewrite in_app_iff in D1. assert (D3 : forall q, In q (map fst N) -> ~ In q (pids lv)).
  { intros q Hq Hq'. apply (nd_disj _ _ q D2); auto. }
  apply evp_S. cbn [remove_leftmost]. eapply evp_bload; [exact Tp|apply any_ok|]. unfold store. cbn [bind]. apply evp_store.
  fold (nolow n). rewrite Ei. set (s1 := set_tbl s p (Some (CBase (nolow n)))).
  assert (F1 : forall q, q <> p -> s_tbl s1 q = s_tbl s q) by (intros; apply tbl_other; auto).
  assert (Tp1 : s_tbl s1 p = Some (CBase (nolow n))) by apply tbl_same.
  assert (Hp0 : (p < s_npid s)%N) by (apply Hlt; cbn; auto).
  assert (X1 : ext (fun q => q = p) s s1).
  { repeat split; cbn; try lia. intros q _ Hq. apply F1. auto. }
  assert (Lv : forall s', s_tbl s' p = Some (CBase (nolow n)) -> (forall q, In q (map fst N) -> s_tbl s' q = s_tbl s q) ->
    Forall (node_ok g nopend s' (is_in lv)) ((p, CBase (nolow n)) :: N)).
  { intros s' H1 H2. constructor; [eapply nolow_ok; eauto|]. apply Forall_forall. intros x Hx. apply bnode_ok.
    rewrite Forall_forall in B1. apply bnode_frame with s; auto. apply H2, in_map, Hx. }
  assert (Lk : linked ((p, CBase (nolow n)) :: N) None 0%N) by exact L.
  assert (Lo : osorted (lows ((p, CBase (nolow n)) :: N))).
  { rewrite lows_cons. apply osorted_cons_inv in Hos as [O1 O2]. constructor; auto.
    eapply Forall_impl; [|exact O2]. intros [[a|] w]; cbn; auto. }
  destruct lv as [|M lv]; cbn [is_in negb] in *.
  - apply evp_ret. exists [(p, CBase (nolow n)) :: N]. cbn [pu is_in]. split; [|split; [|split; [|split; [|split]]]]; auto.
    + split; [easy|]. split; [reflexivity|]. split; [exact Lk|]. split; [exact Lo|]. split; [|split].
      * apply Lv; auto. intros q Hq. apply F1. intros ->. auto.
      * reflexivity.
      * exact P.
    + eapply ext_trans; [exact X1|apply (ext_refl (fun _ => False))|]. intros q _ [->|[]]. cbn. auto.
    + intros Hf. apply fresh_set; auto.
  - rewrite Er.
    assert (Efl : flat_of true ((p, CBase n) :: N) = (Some k0, v) :: ekey tr ++ flat_of true N).
    { rewrite (flat_base s) by exact B0. rewrite Er. reflexivity. }
    rewrite Efl in P.
    assert (P1 : pt s1 (M :: lv) ((Some k0, v) :: ekey tr ++ flat_of true N) flat).
    { eapply pt_frame; [exact P|]. intros q Hq. apply F1. intros ->. auto. }
    eapply evp_weaken; [apply (IH s1 k0 v _ flat P1); [easy|eapply NoDup_app_remove_l; exact D2|auto|]|].
    + intros q Hq. cbn. apply Hlt. change (In q (p :: map fst N ++ pids (M :: lv))). right. apply in_app_iff. auto.
    + cbn beta. intros _ s2 (lv' & P2 & Ep & Len & X2 & Np & Fr). pose proof X2 as (_ & _ & _ & _ & X5).
      assert (Hi : is_in lv' = true) by (destruct lv'; easy).
      exists (((p, CBase (nolow n)) :: N) :: lv'). cbn [pu]. rewrite Hi.
      split; [|split; [|split; [|split; [|split]]]].
      * split; [easy|]. split; [reflexivity|]. split; [exact Lk|]. split; [exact Lo|]. split; [|split].
        -- apply Lv; [rewrite X5; auto|]. intros q Hq. rewrite X5; [apply F1; intros ->; auto| |auto].
           cbn. apply Hlt. change (In q (p :: map fst N ++ pids (M :: lv))). right. apply in_app_iff. auto.
        -- reflexivity.
        -- rewrite flat_of_cons. replace (cents true (CBase (nolow n))) with ((@None Z, v) :: ekey tr); [exact P2|].
           unfold cents, c_lo, ients, nents, ilead, nlead. cbn. rewrite Er. reflexivity.
      * change (p :: map fst N ++ pids lv' = p :: map fst N ++ pids (M :: lv)). rewrite Ep. reflexivity.
      * cbn. cbn in Len. lia.
      * eapply ext_trans; [exact X1|exact X2|]. intros q _ [->|Hq]; [cbn; auto|].
        change (In q (p :: map fst N ++ pids (M :: lv))). right. apply in_app_iff. auto.
      * exact Np.
      * intros Hf. apply Fr, fresh_set; auto.
Qed.

End S.

(** ** Bulkload *)
Lemma height_ge : forall (ts : list (Z * list (key * val))) h0,
  h0 <= fold_left (fun h t => Z.max h (fst t)) ts h0 /\
  Forall (fun t => fst t <= fold_left (fun h t => Z.max h (fst t)) ts h0) ts.
Proof.
  induction ts as [|t ts IH]; intros h0; cbn [fold_left]; [split; [lia|constructor]|].
  destruct (IH (Z.max h0 (fst t))) as [I1 I2]. split; [lia|]. constructor; [lia|exact I2].
Qed.

Lemma pids_rev lv : Permutation (pids (rev lv)) (pids lv).
Proof.
  induction lv as [|N lv IH]; [constructor|]. cbn [rev]. unfold pids. rewrite flat_map_app.
  fold (pids (rev lv)). cbn [flat_map]. fold (pids lv). rewrite app_nil_r, IH. apply Permutation_app_comm.
Qed.

Section Bulk.
Variable g : cfg.
Hypothesis OK : cfg_ok g.
Hypothesis FX : c_varlen g = false.
Hypothesis BC : bulk_ok g.

(** The partial trees of the workers are aligned and linked. *)
Lemma align_all es T s s1 ts lvs : es <> [] -> sorted es -> fresh s -> 1 < T <= Z.of_nat (length es) ->
  let ps := partition T 0 (Z.to_nat T) (Z.of_nat (length es)) es in
  forest g (s_npid s) s1 ts ps lvs -> NoDup (allp lvs) ->
  (forall p, In p (allp lvs) -> (s_npid s <= p < s_npid s1)%N) -> ext (fun _ => False) s s1 -> fresh s1 ->
  evp (fun _ f => bulk_align g f ts) s1
    (fun ns s' => exists lv, PT g (s_npid s) s' lv ns es /\ ext (above (s_npid s)) s s' /\ fresh s').
Proof.
  intros Hne Hs Hf HT ps Fo ND Hr X1 F1. set (b := s_npid s) in *. assert (Hb0 : (0 < b)%N) by apply Hf.
  destruct HT as [T1 T2].
  destruct (c16 es T ltac:(lia)) as (Cc & Cl & Cn & _).
  fold ps in Cc, Cl, Cn. clearbody ps.
  assert (Hps : Forall (fun e => e <> [] /\ sorted e) ps).
  { apply Forall_forall. intros e He. split; [auto|]. clear -He Cc Hs. subst es. induction ps as [|x t IH]; [easy|].
    cbn in Hs. apply sorted_app_inv in Hs as (H1 & H2 & _). destruct He as [->|He]; auto. }
  unfold bulk_align. cbv zeta.
  set (height := fold_left (fun h t => Z.max h (fst t)) ts 1).
  assert (Hh : Forall (fun t => fst t <= height) ts) by apply height_ge.
  assert (Hn1 : (s_npid s <= s_npid s1)%N) by apply X1.
  inversion Fo as [|h ns ts' e ps' lv lvs' P Eh Fo' E1 E2 E3]; subst; [cbn in T1; lia|]. clearbody height.
  cbn [align]. inversion Hh as [|? ? Hh1 Hh2]; subst. cbn [fst] in Hh1.
  eapply evp_bind.
  { apply (raise_ok g OK FX BC b Hb0 height _ _ ns lv e s1 eq_refl eq_refl Hh1 P F1). unfold b. lia. }
  cbn beta. intros ns1 s2 (lv1 & P1 & Hl1 & G1). pose proof G1 as (X2 & F2 & G1').
  assert (Hn2 : (s_npid s1 <= s_npid s2)%N) by apply X2.
  pose proof (t_top _ _ _ _ _ _ P1) as Hne1. destruct ns1 as [|[k1 first] ns1]; [easy|].
  eapply evp_bind with (Q := fun _ s' => s' = s2).
  { apply evp_S. cbn [link_vertical]. apply evp_ret. reflexivity. }
  cbn beta. intros _ ? ->.
  change (NoDup (pids lv ++ allp lvs')) in ND.
  assert (Hi : forall p, In p (allp lvs') -> (b <= p < s_npid s1)%N).
  { intros p Hp. apply Hr. cbn. apply in_app_iff. auto. }
  eapply evp_bind.
  { apply (align_ok g OK FX BC b Hb0 height ts' ps' lvs' s2 lv1 ((k1, first) :: ns1) e); auto.
    - eapply forest_frame; eauto.
    - eapply Permutation_NoDup; [apply Permutation_app_comm|]. eapply grow_nodup; eauto.
      + apply P1.
      + eapply NoDup_app_remove_l; eauto.
      + intros p Hp. apply Hi in Hp. lia.
      + intros p Hp Hq. apply (nd_disj _ _ p ND); auto.
    - unfold b. lia. }
  cbn beta. intros ns2 s3 (lv3 & P3 & X3 & F3). apply evp_ret. exists lv3. split; [exact P3|]. split; auto.
  eapply ext_trans; [exact X1|eapply (ext_trans (above b)); [exact X2|exact X3|]|].
  + intros p _ [[]|Hp]; auto.
  + intros p _ [[]|Hp]; auto.
Qed.

Lemma parts_sorted es T : sorted es -> 1 <= T <= Z.of_nat (length es) ->
  Forall (fun e : list (key * val) => e <> [] /\ sorted e) (partition T 0 (Z.to_nat T) (Z.of_nat (length es)) es).
Proof.
  intros Hs HT. destruct (c16 es T HT) as (Cc & Cl & Cn & _). cbv zeta in *.
  set (ps := partition T 0 (Z.to_nat T) (Z.of_nat (length es)) es) in *. clearbody ps.
  apply Forall_forall. intros e He. split; [auto|]. clear -He Cc Hs. subst es. induction ps as [|x t IH]; [easy|].
  cbn in Hs. apply sorted_app_inv in Hs as (H1 & H2 & _). destruct He as [->|He]; auto.
Qed.

Lemma nodes_ok es T s : es <> [] -> sorted es -> fresh s ->
  evp (fun _ f =>
    if (T <=? 1) || (Z.of_nat (length es) <? T) then
      bind (bulk_single g f es) (fun x => match x with (_, ns) => Ret ns end)
    else bind (run_parts g f (partition T 0 (Z.to_nat T) (Z.of_nat (length es)) es))
      (fun ts => bulk_align g f ts)) s
    (fun ns s' => exists lv, PT g (s_npid s) s' lv ns es /\ ext (above (s_npid s)) s s' /\ fresh s').
Proof.
  intros Hne Hs Hf. set (b := s_npid s). assert (Hb0 : (0 < b)%N) by apply Hf.
  destruct ((T <=? 1) || (Z.of_nat (length es) <? T)) eqn:ET.
  - eapply evp_bind; [apply (single_ok g OK FX BC b Hb0 es s); auto; unfold b; lia|].
    cbn beta. intros [h ns] s1 (lv & P & _ & (X & F & _)). apply evp_ret. exists lv. split; auto. split; auto.
    eapply ext_trans; [exact X|apply (ext_refl (fun _ => False))|cbn; tauto].
  - apply orb_false_iff in ET as [T1 T2]. apply Z.leb_gt in T1. apply Z.ltb_ge in T2.
    eapply evp_bind; [apply (parts_ok g OK FX BC b Hb0 _ s); auto; [apply parts_sorted; auto; lia|unfold b; lia]|].
    cbn beta. intros ts s1 (lvs & Fo & ND & Hr & X1 & F1).
    apply (align_all es T s s1 ts lvs); auto.
Qed.

(** The upper layers and the exchange of the root. *)
Lemma root_ok s M es s1 ns lv1 : tree g s M -> PT g (s_npid s) s1 lv1 ns es ->
  ext (above (s_npid s)) s s1 -> fresh s1 ->
  evp (fun _ f => bulk_root g f ns) s1 (fun r s' => (r = Success /\ tree g s' (fun k => find k es)) /\ kept s s').
Proof.
  intros (flat & N & lv0 & Hup & Hgl & _) P1 X1 F1. pose proof (t_es _ _ _ _ _ _ P1) as Hs.
  destruct Hgl as (_ & G1 & G2 & G3 & G4).
  assert (Hf : fresh s) by (split; auto).
  assert (Hr : In (s_root s) (pids (N :: lv0))) by (eapply up_root_in; [exact Hup|easy]).
  assert (exists c0, s_tbl s (s_root s) = Some c0) as (c0 & Tc0).
  { apply in_pids_iff in Hr as (N1 & c1 & Hn1 & Hc1). exists c1. destruct (alive_up g nopend s _ _ _ Hup _ _ _ Hn1 Hc1) as (Et & _). exact Et. }
  assert (Hr' : (s_root s < s_npid s)%N) by (apply G2; auto).
  unfold bulk_root.
  assert (Hb0 : (0 < s_npid s)%N) by auto.
  assert (Hn1 : (s_npid s <= s_npid s1)%N) by apply X1.
  eapply evp_bind; [apply (upper_ok g OK FX BC (s_npid s) Hb0 (length ns) ns lv1 es s1); auto; lia|].
  cbn beta. intros r s2 (lv2 & k & p & -> & P2 & X2 & F2).
  assert (Hn2 : (s_npid s1 <= s_npid s2)%N) by apply X2.
  eapply evp_bind.
  { apply (rl_ok g FX (s_npid s) Hb0 lv2 s2 k p [] (ekey es)).
    - apply P2.
    - apply P2.
    - apply P2.
    - apply osorted_ekey; auto.
    - intros q Hq. apply P2. auto. }
  cbn beta. intros _ s3 (lv3 & P3 & Ep & Len & X3 & Np & Fr). specialize (Fr F2).
  assert (X : ext (above (s_npid s)) s s3).
  { eapply ext_trans; [exact X1|eapply (ext_trans (above (s_npid s))); [exact X2|exact X3|]|tauto].
    intros q _ [Hq|Hq]; auto. apply P2 in Hq. unfold above. lia. }
  destruct X as (Xa & Xb & Xc & Xd & Xe).
  apply evp_root. apply evp_sroot. rewrite Xd. unfold load. cbn [bind].
  eapply evp_load; [cbn; rewrite Xe; [exact Tc0|auto|unfold above; lia]|apply any_ok|].
  apply evp_retire.
  assert (HC : forall s (Q : rc -> st -> Prop) q, Q Success (set_tbl s q None) -> evp (fun _ _ => Clear q (Ret Success)) s Q).
  { intros s' Q q HQ. exists Success, (set_tbl s' q None). split; auto. exists 0%nat. cbn. auto. }
  apply HC. split.
  2:{ split; [intros q Hq Hne; rewrite tbl_other by auto; apply Xe; unfold above; lia|]. exists c0, (s_gc s3). split; [exact Tc0|reflexivity]. }
  split; auto.
  set (s4 := set_tbl (add_gc (set_root s3 p) [h_addr c0]) (s_root s) None).
  assert (Hpid : forall q, In q (pids lv3) -> (s_npid s <= q < s_npid s3)%N).
  { intros q Hq. rewrite Ep in Hq. apply P2 in Hq. lia. }
  assert (Hfr : forall q, q <> s_root s -> s_tbl s4 q = s_tbl s3 q).
  { intros q Hq. unfold s4. rewrite tbl_other; auto. }
  assert (U : up g nopend s4 false (ekey es) (rev lv3 ++ [])).
  { apply pu_up with (top := [(None, p)]).
    - assert (G : forall lv top fl, pu g s3 lv top fl -> (forall q, In q (pids lv) -> (s_npid s <= q)%N) -> pu g s4 lv top fl).
      { induction lv as [|M1 lv IH]; intros top fl; cbn [pu]; auto.
        intros (H1 & H2 & H3 & H4 & H5 & H6 & H7) Hq. repeat split; auto.
        - apply Forall_forall. intros x Hx. rewrite Forall_forall in H5. destruct (H5 _ Hx) as (J1 & J2 & J3 & J4).
          split; [|split; [auto|split; [auto|exact J4]]]. rewrite Hfr; auto.
          assert (s_npid s <= fst x)%N; [|lia]. apply Hq. cbn. apply in_app_iff. left. apply in_map. auto.
        - apply IH; auto. intros q Hq'. apply Hq. cbn. apply in_app_iff. auto. }
      apply G; auto. intros q Hq. apply Hpid. auto.
    - cbn. split; [|reflexivity]. pose proof (t_ne _ _ _ _ _ _ P2). destruct lv2, lv3; easy. }
  rewrite app_nil_r in U.
  assert (Hnr : rev lv3 <> []).
  { pose proof (t_ne _ _ _ _ _ _ P2). intros E. apply (f_equal (@length _)) in E. rewrite rev_length, Len in E.
    destruct lv2; easy. }
  destruct (rev lv3) as [|N3 lv4] eqn:Er; [easy|].
  exists (ekey es), N3, lv4. split; [exact U|]. split.
  - assert (Pm : Permutation (pids (N3 :: lv4)) (pids lv3)) by (rewrite <- Er; apply pids_rev).
    split; [|split; [|split; [|split]]].
    + eapply Permutation_NoDup; [apply Permutation_sym; exact Pm|]. rewrite Ep. apply P2.
    + cbn. lia.
    + intros q Hq. apply (Permutation_in _ Pm), Hpid in Hq. cbn. lia.
    + intros q Hq. change (s_npid s3 <= q)%N in Hq. rewrite Hfr; [apply Fr; auto|lia].
    + intros a Ha. change (s_naddr s3 <= a)%N in Ha. change (s_cell s3 a = 0%N). rewrite Xc. apply G4. lia.
  - intros k'. apply ofind_ekey.
Qed.

Lemma bulk_tree s M es T : tree g s M -> es <> [] -> sorted es ->
  evp (fun _ f => op_bulkload g f es T) s (fun r s' => (r = Success /\ tree g s' (fun k => find k es)) /\ kept s s').
Proof.
  intros HT Hne Hs. assert (Hf : fresh s).
  { destruct HT as (flat & N & lv0 & _ & (_ & G1 & _ & G3 & _) & _). split; auto. }
  unfold op_bulkload. destruct es as [|e0 es0]; [easy|]. set (es := e0 :: es0) in *. clearbody es.
  eapply evp_bind; [apply (nodes_ok es T s Hne Hs Hf)|]. cbn beta. intros ns s1 (lv1 & P1 & X1 & F1).
  apply (root_ok s M es s1 ns lv1); auto.
Qed.
End Bulk.

Lemma c15 g pre es T os b e : cfg_ok g -> c_varlen g = false -> bulk_ok g ->
  StronglySorted (fun x y => fst x < fst y) es -> es <> [] -> (forall k, b <> Some (k, false)) ->
  exists F s0 s1 s2 l M, (forall k v, M k = Some v <-> In (k, v) es) /\ forall f, (F <= f)%nat ->
    run_calls g f pre (init g) = Done (fst (spec_run sempty pre)) s0 /\
    run (op_bulkload g f es T) s0 = Done Success s1 /\
    run_calls g f os s1 = Done (fst (spec_run M os)) s2 /\
    run (scan_all g f b e) s2 = Done l s2 /\
    StronglySorted (fun x y => fst x < fst y) l /\
    (forall k v, In (k, v) l <-> snd (spec_run M os) k = Some v /\ ScanSpec.after b k /\ ScanSpec.before e k).
Proof.
  intros OK FX BC Hs Hne Hb.
  destruct (calls_ok g OK pre (init g) sempty (init_tree g OK)) as (F0 & s0 & T0 & H0).
  destruct (evp_done _ _ _ (bulk_tree g OK FX BC s0 _ es T T0 Hne Hs)) as (r & s1 & ((-> & T1) & _) & F1 & H1).
  destruct (calls_ok g OK os s1 _ T1) as (F2 & s2 & T2 & H2).
  destruct (scan_tree g s2 _ b e OK T2) as (F3 & l & b' & H3 & S3 & I3 & B3).
  exists (max (max F0 F1) (max F2 F3)), s0, s1, s2, l, (fun k => find k es). split.
  - intros k v. split; [apply find_in|apply in_find; exact Hs].
  - intros f Hf. split; [apply H0; lia|]. split; [apply H1; lia|]. split; [apply H2; lia|]. split; [apply H3; lia|].
    split; [exact S3|]. destruct B3 as [->|(bk & E & _)]; [exact I3|destruct (Hb _ E)].
Qed.

Lemma c17p g pre es T : cfg_ok g -> c_varlen g = false -> bulk_ok g ->
  StronglySorted (fun x y => fst x < fst y) es ->
  exists F s0 s1, forall f, (F <= f)%nat ->
    run_calls g f pre (init g) = Done (fst (spec_run sempty pre)) s0 /\
    run (op_bulkload g f es T) s0 = Done Success s1.
Proof.
  intros OK FX BC Hs.
  destruct (calls_ok g OK pre (init g) sempty (init_tree g OK)) as (F0 & s0 & T0 & H0).
  destruct es as [|e es].
  - exists F0, s0, s0. intros f Hf. split; [apply H0; lia|reflexivity].
  - destruct (evp_done _ _ _ (bulk_tree g OK FX BC s0 _ (e :: es) T T0 ltac:(easy) Hs)) as (r & s1 & ((-> & T1) & _) & F1 & H1).
    exists (max F0 F1), s0, s1. intros f Hf. split; [apply H0; lia|apply H1; lia].
Qed.
