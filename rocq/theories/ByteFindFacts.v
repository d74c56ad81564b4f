(** Searches in chains of bytes agree with the searches of Page.v. *)
From Coq Require Import ZArith NArith List Bool Lia Sorting.Sorted.
From Verif Require Import Config Page ListFacts ChainSpec SearchFacts ChainFacts ChainProps Valid SeqSpec Bytes FixLayout VarLayout
  DeltaBytes DeltaBytesFacts ByteCons ByteConsSpec ByteFind ByteFindSpec.
Import ListNotations.
Open Scope Z_scope.

Section Find.
Context {P D : Type}.
Variable F : finder P D.
Variables (K : Z -> Prop) (lt : list N -> list N -> bool) (ek : Z -> list N) (ev : N -> list N).
Variables (cell : addr -> pid) (inner : bool).
Hypothesis HL : forall a b, K a -> K b -> lt (ek a) (ek b) = (a <? b).

Lemma b_same_ok a b : K a -> K b -> b_same lt (ek a) (ek b) = same_key a b.
Proof. intros A B. unfold b_same, same_key. rewrite !HL by auto. reflexivity. Qed.
Lemma b_low_ok a b cl : K a -> K b -> b_low_le lt (ek a) (ek b) cl = low_le a b cl.
Proof. intros A B. unfold b_low_le, low_le. rewrite !HL by auto. reflexivity. Qed.
Lemma b_high_ok h b cl : opt_key K h -> K b -> b_high_ge lt (option_map ek h) (ek b) cl = high_ge h b cl.
Proof. intros A B. destruct h; cbn in *; auto. rewrite !HL by auto. reflexivity. Qed.

Notation np := (page_stands F ek ev inner).
Notation st := (chain_stands F ek ev cell inner).
Notation nk := (fun n p => page_stands F ek ev inner n p /\ page_keys K inner n).

Lemma bf_record_ok k : K k -> forall c b smo, st c b -> chain_keys K inner c -> fence_keys K c ->
  res_agree nk ev cell (dc_search_record c k smo) (bf_record F lt b (ek k) smo).
Proof.
  intros Hk. induction c as [n|d nx IH|d n nx IH|]; intros [p|bd bx|bd p bx] smo S CK FK; try contradiction; cbn in S, CK, FK.
  - pose proof S as (_ & _ & _ & _ & _ & S5). cbn [dc_search_record bf_record]. rewrite S5, b_high_ok by (apply FK || auto).
    destruct (negb smo && negb (high_ge (n_high n) k false)); cbn; [eauto|auto].
  - destruct S as ((T1 & T2 & T3 & _) & S), CK as [CK1 CK], FK as [_ FK].
    cbn [dc_search_record bf_record]. rewrite T1, T2, b_same_ok by auto.
    specialize (IH bx smo S CK FK).
    destruct (d_type d) eqn:Et; try exact I; destruct (same_key (d_key d) k); auto; cbn; auto; apply T3; discriminate.
  - destruct S as ((T1 & T2) & Sp & S), CK as [CP CK], FK as (FK1 & FK2 & FK).
    cbn [dc_search_record bf_record]. rewrite T1, T2, b_low_ok, b_high_ok by auto.
    destruct (low_le (d_key d) k true); [|apply IH; auto].
    destruct (negb smo && negb (high_ge (d_high d) k false)); cbn; [eauto|auto].
Qed.

Lemma bf_child_ok k closed : inner = true -> K k -> forall c b smo, st c b -> chain_keys K inner c -> fence_keys K c ->
  res_agree nk ev cell (dc_search_child c k closed smo) (bf_child F lt b (ek k) closed smo).
Proof.
  intros Hi Hk. induction c as [n|d nx IH|d n nx IH|]; intros [p|bd bx|bd p bx] smo S CK FK; try contradiction; cbn in S, CK, FK.
  - pose proof S as (_ & _ & _ & _ & _ & S5). cbn [dc_search_child bf_child]. rewrite S5, b_high_ok by (apply FK || auto).
    destruct (negb smo && negb (high_ge (n_high n) k (negb closed))); cbn; [eauto|auto].
  - destruct S as ((T1 & T2 & T3 & T4 & T5) & S), CK as [CK1 CK], FK as [FK1 FK].
    cbn [dc_search_child bf_child]. rewrite T1, T2, (T4 Hi), b_low_ok, b_high_ok by auto.
    specialize (IH bx smo S CK FK).
    destruct (d_type d) eqn:Et; try exact I;
      destruct (low_le (d_key d) k closed && high_ge (d_high d) k (negb closed)); auto; cbn; auto. apply T3; discriminate.
  - destruct S as ((T1 & T2) & Sp & S), CK as [CP CK], FK as (FK1 & FK2 & FK).
    cbn [dc_search_child bf_child]. rewrite T1, T2, b_low_ok, b_high_ok by auto.
    destruct (low_le (d_key d) k closed); [|apply IH; auto].
    destruct (negb smo && negb (high_ge (d_high d) k (negb closed))); cbn; [eauto|auto].
Qed.

Lemma bf_merge_ok k sib : K k -> opt_key K sib -> forall c b kf sf smo, st c b -> chain_keys K inner c -> fence_keys K c ->
  mres_agree nk (dc_search_merge c k sib kf sf smo) (bf_merge F lt b (ek k) (option_map ek sib) kf sf smo).
Proof.
  intros Hk Hs. assert (SB : forall x, K x -> match option_map ek sib with Some s => b_same lt (ek x) s | None => false end =
    match sib with Some s => same_key x s | None => false end).
  { intros x Hx. destruct sib; cbn in *; auto. apply b_same_ok; auto. }
  induction c as [n|d nx IH|d n nx IH|]; intros [p|bd bx|bd p bx] kf sf smo S CK FK; try contradiction; cbn in S, CK, FK.
  - pose proof S as (_ & _ & _ & S3 & S4 & S5). destruct FK as [FK1 FK2]. cbn [dc_search_merge bf_merge].
    rewrite S5, S3, b_high_ok by auto. destruct kf; cbn [negb andb]; [cbn; auto|].
    assert (E : negb (is_leftmost n) && b_same lt (q_low F p) (ek k) =
                negb (is_leftmost n) && match n_low n with Some l => same_key l k | None => false end).
    { unfold is_leftmost. destruct (n_low n) as [l|] eqn:El; auto. rewrite (S4 _ eq_refl). cbn [negb andb]. apply b_same_ok; auto. }
    rewrite E. destruct (negb (is_leftmost n) && match n_low n with Some l => same_key l k | None => false end); [exact I|].
    destruct smo; cbn [negb andb]; [cbn; auto|]. destruct (high_ge (n_high n) k false); cbn; eauto.
  - destruct S as ((T1 & T2 & _) & S), CK as [CK1 CK], FK as [FK1 FK].
    cbn [dc_search_merge bf_merge]. rewrite T1, T2, !SB, b_same_ok by auto. cbv zeta.
    set (q := match sib with Some s => same_key (d_key d) s | None => false end).
    destruct (d_type d) eqn:Et; try exact I.
    + destruct (negb kf && same_key (d_key d) k && sf); [exact I|].
      destruct (negb sf && q && (kf || negb kf && same_key (d_key d) k)); [exact I|]. apply IH; auto.
    + destruct (negb kf && same_key (d_key d) k); [exact I|]. destruct (negb sf && q); [exact I|]. apply IH; auto.
  - destruct S as ((T1 & T2) & Sp & S), CK as [CP CK], FK as (FK1 & FK2 & FK).
    cbn [dc_search_merge bf_merge]. rewrite T1, T2, !SB, b_low_ok, b_high_ok by auto. cbv zeta.
    set (q := match sib with Some s => same_key (d_key d) s | None => false end).
    destruct (low_le (d_key d) k true).
    + destruct smo, kf; cbn [negb andb]; try (cbn; auto; fail). destruct (high_ge (d_high d) k false); cbn; eauto.
    + destruct (negb sf && q && kf); [exact I|]. apply IH; auto.
Qed.

Lemma bf_validate_ok k closed : K k -> forall c b, st c b -> chain_keys K inner c -> fence_keys K c ->
  match dc_validate c k closed, bf_validate F lt b (ek k) closed with
  | VOk, None => True
  | VSibling x, Some p => exists n, nk n p /\ n_next n = x
  | _, _ => False
  end.
Proof.
  intros Hk. induction c as [n|d nx IH|d n nx IH|]; intros [p|bd bx|bd p bx] S CK FK; try contradiction; cbn in S, CK, FK.
  - pose proof S as (_ & _ & _ & _ & _ & S5). cbn [dc_validate bf_validate]. rewrite S5, b_high_ok by (apply FK || auto).
    destruct (high_ge (n_high n) k (negb closed)); eauto.
  - exact (IH bx (proj2 S) (proj2 CK) (proj2 FK)).
  - destruct S as ((T1 & T2) & Sp & S), CK as [CP CK], FK as (FK1 & FK2 & FK).
    cbn [dc_validate bf_validate]. rewrite T2, b_high_ok by auto. destruct (high_ge (d_high d) k (negb closed)); eauto.
Qed.

Lemma b_bsearch_ok n p k : K k -> np n p -> page_keys K inner n ->
  forall fuel b e, 0 <= b -> (inner && is_leftmost n = true -> 1 <= b) -> e < Z.of_nat (length (n_recs n)) ->
  b_bsearch F lt fuel p (ek k) b e = bsearch fuel (n_recs n) k b e.
Proof.
  intros Hk (S0 & S1 & S2 & _) PK. induction fuel as [|f IH]; intros b e Hb Hlm He; cbn [b_bsearch bsearch]; auto.
  destruct (Z.leb_spec b e) as [L|]; auto. cbv zeta. assert (PP : b <= (b + e) / 2 <= e) by lia.
  set (pos := (b + e) / 2) in *. destruct (nth_error (n_recs n) (Z.to_nat pos)) as [[x v]|] eqn:En.
  2:{ apply nth_error_None in En. lia. }
  assert (NK : nokey inner n (Z.to_nat pos) = false).
  { unfold nokey. destruct (inner && is_leftmost n) eqn:E; auto. specialize (Hlm eq_refl). cbn [andb].
    apply Nat.eqb_neq. lia. }
  destruct (S2 _ _ _ En) as [S2' _]. specialize (S2' NK). rewrite Z_nat_N in S2'.
  assert (Ek : key_at (n_recs n) pos = x) by (unfold key_at; rewrite (nth_error_nth _ _ _ En); reflexivity).
  rewrite S2', Ek, !HL by (auto; eapply PK; eauto). rewrite !IH by lia. reflexivity.
Qed.

Lemma b_pay_ok n p i v : np n p -> pay_at n i = Some v -> q_pay F p (Z.to_N i) = ev v.
Proof.
  intros (S0 & S1 & S2 & _) H. unfold pay_at in H. destruct (Z.ltb_spec i 0); [discriminate|].
  destruct (nth_error (n_recs n) (Z.to_nat i)) as [[x w]|] eqn:En; [|discriminate]. injection H as <-.
  destruct (S2 _ _ _ En) as [_ E]. rewrite Z_nat_N in E. exact E.
Qed.

Lemma b_search_ok n p k : K k -> np n p -> page_keys K inner n -> b_search F lt inner p (ek k) = node_search n k.
Proof.
  intros Hk S PK. pose proof S as (S0 & S1 & S2 & S3 & _). unfold b_search, node_search. rewrite S0, S1, S3.
  rewrite Nat2N.id, nat_N_Z. apply b_bsearch_ok; auto; destruct (inner && is_leftmost n); lia.
Qed.

Lemma b_child_ok n p k closed v : K k -> np n p -> page_keys K inner n ->
  node_search_child n k closed = Some v -> b_child F lt p (ek k) closed = ev v.
Proof.
  intros Hk S PK H. pose proof S as (S0 & S1 & S2 & S3 & _). unfold b_child. rewrite S1, Nat2N.id, nat_N_Z.
  rewrite (b_bsearch_ok n p k) by (auto; lia). unfold node_search_child in H.
  destruct (bsearch _ _ _ _ _) as [[] pos]; eapply b_pay_ok; eauto.
Qed.
End Find.

Lemma mono_res {P} (np np' : node -> P -> Prop) ev cell r f : (forall n p, np n p -> np' n p) ->
  res_agree np ev cell r f -> res_agree np' ev cell r f.
Proof. intros H. destruct r, f; cbn; auto. intros (n & A & B). eauto. Qed.
Lemma mono_mres {P} (np np' : node -> P -> Prop) r f : (forall n p, np n p -> np' n p) ->
  mres_agree np r f -> mres_agree np' r f.
Proof.
  intros H. destruct r, f; cbn; auto; [intros (n & A & B); eauto|intros (A & B); auto].
Qed.

(** Reading a leaf. *)
Lemma read_ok {P D} (F : finder P D) (K : Z -> Prop) lt ek ev cell g c b k :
  (forall a b, K a -> K b -> lt (ek a) (ek b) = (a <? b)) ->
  lwf g c -> chain_stands F ek ev cell false c b -> chain_keys K false c -> fence_keys K c -> K k ->
  (hi_ok (c_hi c) k -> b_read F lt false b (ek k) = match visible c k with Some v => RdVal (ev v) | None => RdNone end) /\
  (~ hi_ok (c_hi c) k -> exists p n, b_read F lt false b (ek k) = RdSib p /\ page_stands F ek ev false n p /\ n_next n = c_next c).
Proof.
  intros HL Hw S CK FK Hk.
  pose proof (bf_record_ok F K lt ek ev cell false HL k Hk c b false S CK FK) as A.
  pose proof (dc_search_record_spec g c k Hw false ltac:(discriminate)) as R.
  unfold b_read. rewrite <- (lget_visible g c k Hw). fold (lget c k). split; intros Hh.
  - inversion R as [v A1 B E|A1 B E|n A1 B C E|h A1 B E]; rewrite <- E in A; destruct (bf_record F lt b (ek k) false) eqn:Eb; cbn in A; try contradiction.
    + subst. rewrite B. reflexivity.
    + rewrite B. reflexivity.
    + destruct A as [Sn PK]. rewrite (b_search_ok F K lt ek ev cell false HL n p k Hk Sn PK).
      pose proof (page_lookup_find g n k B) as PL. unfold page_lookup in PL. rewrite C, <- PL.
      pose proof (c05_leaf n k) as C5. destruct B as (B0 & B1 & _). specialize (C5 B0 B1).
      destruct (node_search n k) as [[] pos]; auto. destruct C5 as [C5 (w & C6)].
      assert (PA : pay_at n pos = Some w) by (unfold pay_at; destruct (Z.ltb_spec pos 0); [lia|]; rewrite C6; reflexivity).
      rewrite PA. f_equal. eapply b_pay_ok; eauto.
    + rewrite A1 in Hh. cbn in Hh. lia.
  - inversion R as [v A1 B E|A1 B E|n A1 B C E|h A1 B E]; try contradiction. rewrite <- E in A.
    destruct (bf_record F lt b (ek k) false) eqn:Eb; cbn in A; try contradiction. destruct A as (n & [A _] & En). eauto.
Qed.

(** Choosing a child. *)
Lemma descend_ok {P D} (F : finder P D) (K : Z -> Prop) lt ek ev cell g c b k (closed : bool) :
  (forall a b, K a -> K b -> lt (ek a) (ek b) = (a <? b)) ->
  iwf g c -> iexact c -> icells cell (fun _ _ => False) c ->
  chain_stands F ek ev cell true c b -> chain_keys K true c -> fence_keys K c -> K k ->
  (hi_ok (c_hi c) (if closed then k else k - 1) -> exists i x p,
     b_descend F lt b (ek k) closed = RdVal (ev p) /\ nth_error ((0, ilead c) :: ients c) i = Some (x, p) /\
     forall j y q, nth_error ((0, ilead c) :: ients c) j = Some (y, q) -> (j <> 0)%nat ->
       if closed then ((j <= i)%nat -> y <= k) /\ ((i < j)%nat -> k < y)
       else ((j <= i)%nat -> y < k) /\ ((i < j)%nat -> k <= y)) /\
  (~ hi_ok (c_hi c) (if closed then k else k - 1) ->
     exists p n, b_descend F lt b (ek k) closed = RdSib p /\ page_stands F ek ev true n p /\ n_next n = c_next c).
Proof.
  intros HL Hw He Hc S CK FK Hk.
  pose proof (bf_child_ok F K lt ek ev cell true HL k closed eq_refl Hk c b false S CK FK) as A.
  pose proof (dc_search_child_spec g cell _ c k closed Hw He Hc false ltac:(discriminate)) as R.
  change (if closed then k else k - 1) with (eff k closed). split; intros Hh.
  - assert (RT : b_descend F lt b (ek k) closed = RdVal (ev (route (eff k closed) (ilead c) (ients c)))).
    { unfold b_descend. inversion R as [v A1 B E|a A1 B E|n A1 B C E|h A1 B E]; rewrite <- E in A;
        destruct (bf_child F lt b (ek k) closed false) eqn:Eb; cbn in A; try contradiction.
      - subst. reflexivity.
      - destruct B as [(? & [] & _)|[B _]]. subst. rewrite B. reflexivity.
      - destruct A as [Sn PK]. f_equal. rewrite C. destruct B as (_ & (k0 & B1 & _) & B2 & _).
        eapply (b_child_ok F K lt ek ev cell true HL n p k closed); eauto.
        apply (node_search_child_spec n k closed k0); auto.
      - rewrite A1 in Hh. cbn in Hh. lia. }
    destruct (iwf_sorted g c Hw) as [Hs _].
    set (nd := mk_node 0 true None None 0 ((0, ilead c) :: ients c) 0).
    destruct (c05_child nd k closed 0 (ilead c) (ients c) eq_refl Hs) as (i & x & p & E1 & E2 & E3).
    rewrite (node_search_child_spec nd k closed 0 (ilead c) (ients c) eq_refl Hs) in E1. injection E1 as E1.
    exists i, x, p. rewrite RT, E1. split; [reflexivity|]. split; [exact E2|exact E3].
  - unfold b_descend. inversion R as [v A1 B E|a A1 B E|n A1 B C E|h A1 B E]; try contradiction. rewrite <- E in A.
    destruct (bf_child F lt b (ek k) closed false) eqn:Eb; cbn in A; try contradiction. destruct A as (n & [A _] & En). eauto.
Qed.
