(** Binary search on page bytes finds exactly the stored keys. *)
From Coq Require Import ZArith NArith List Bool Lia Sorting.Sorted.
From Coq Require Import ZifyBool ZifyNat ZifyN.
From Verif Require Import Bytes FixLayout VarLayout Misc LayoutSpec LayoutFacts ByteSearch.
Import ListNotations.
Open Scope Z_scope.
Ltac Zify.zify_post_hook ::= Z.to_euclidean_division_equations.

(** The loop with an abstract comparison of the key argument with the key at a position. *)
Fixpoint gs (fuel : nat) (cmp : Z -> comparison) (b e : Z) : bool * Z :=
  match fuel with
  | O => (false, b)
  | S f =>
      if b <=? e then
        let pos := (b + e) / 2 in
        match cmp pos with
        | Lt => gs f cmp b (pos - 1)
        | Gt => gs f cmp (pos + 1) e
        | Eq => (true, pos)
        end
      else (false, b)
  end.

Lemma gs_ok cmp n :
  (forall i j, 0 <= i < j -> j < n -> cmp i <> Gt -> cmp j = Lt) ->
  (forall i j, 0 <= i < j -> j < n -> cmp j <> Lt -> cmp i = Gt) ->
  forall fuel b e, 0 <= b -> b <= e + 1 -> e < n -> e - b + 1 < Z.of_nat fuel ->
  (forall i, 0 <= i < b -> cmp i = Gt) -> (forall i, e < i < n -> cmp i = Lt) ->
  match gs fuel cmp b e with
  | (true, pos) => 0 <= pos < n /\ cmp pos = Eq
  | (false, pos) => 0 <= pos <= n /\ (forall i, 0 <= i < pos -> cmp i = Gt) /\
                    (forall i, pos <= i < n -> cmp i = Lt)
  end.
Proof.
  intros M1 M2. induction fuel as [|f IH]; intros b e Hb He Hn Hf Lo Hi; [lia|].
  cbn [gs]. destruct (Z.leb_spec b e).
  - cbv zeta. assert (P : b <= (b + e) / 2 <= e) by lia.
    set (pos := (b + e) / 2) in *. clearbody pos. destruct (cmp pos) eqn:C.
    + split; [lia|exact C].
    + apply IH; try lia; auto. intros i Hi'. destruct (Z.eq_dec i pos) as [->|]; auto.
      apply (M1 pos i); try lia. congruence.
    + apply IH; try lia; auto. intros i Hi'. destruct (Z.eq_dec i pos) as [->|]; auto.
      apply (M2 i pos); try lia. congruence.
  - assert (b = e + 1) by lia. subst. split; [lia|]. split; auto. intros i Hi'. apply Hi. lia.
Qed.

(** Reading a sorted list. *)
Lemma sorted_nth {A} (R : A -> A -> Prop) l : StronglySorted R l ->
  forall i j x y, (i < j)%nat -> nth_error l i = Some x -> nth_error l j = Some y -> R x y.
Proof.
  induction 1 as [|a l Hs IH Hf]; intros i j x y Hij Hi Hj; [destruct i; discriminate|].
  destruct j as [|j]; [lia|]. destruct i as [|i]; cbn [nth_error] in Hi, Hj.
  - injection Hi as <-. rewrite Forall_forall in Hf. apply Hf, nth_error_In with j, Hj.
  - apply (IH i j); auto. lia.
Qed.

(** ** Fixed-length pages *)
Definition fix_cmp (L : flay) (p : fpage) (q : N) (i : Z) : comparison :=
  N.compare q (unle (fix_key L p (Z.to_N i))).
Lemma fix_gs L p q fuel : forall b e, fix_bs fuel L p q b e = gs fuel (fix_cmp L p q) b e.
Proof.
  induction fuel as [|f IH]; intros; cbn [fix_bs gs]; auto. destruct (b <=? e); auto. cbv zeta.
  unfold fix_cmp at 1. rewrite !N.ltb_compare, (N.compare_antisym q).
  destruct (q ?= unle (fix_key L p (Z.to_N ((b + e) / 2))))%N; cbn [CompOpp]; auto.
Qed.

Lemma fix_search_ok L p (ks : list N) q :
  fp_cnt p = N.of_nat (length ks) ->
  (forall i k, nth_error ks i = Some k -> unle (fix_key L p (N.of_nat i)) = k) ->
  StronglySorted N.lt ks ->
  match fix_search L p q with
  | (true, pos) => 0 <= pos /\ nth_error ks (Z.to_nat pos) = Some q
  | (false, pos) => 0 <= pos <= Z.of_nat (length ks) /\
      (forall i k, nth_error ks i = Some k -> if Z.of_nat i <? pos then (k < q)%N else (q < k)%N)
  end.
Proof.
  intros Hc Hk Hs. unfold fix_search. rewrite fix_gs, Hc.
  assert (V : forall i, 0 <= i < Z.of_nat (length ks) ->
    exists k, nth_error ks (Z.to_nat i) = Some k /\ fix_cmp L p q i = N.compare q k).
  { intros i Hi. destruct (nth_error ks (Z.to_nat i)) as [k|] eqn:E.
    - exists k. split; auto. unfold fix_cmp. rewrite <- (Hk _ _ E). do 3 f_equal. lia.
    - apply nth_error_None in E. lia. }
  assert (O : forall i j, 0 <= i < j -> j < Z.of_nat (length ks) ->
    exists x y, fix_cmp L p q i = N.compare q x /\ fix_cmp L p q j = N.compare q y /\ (x < y)%N).
  { intros i j Hi Hj. destruct (V i) as (x & Ex & Cx); [lia|]. destruct (V j) as (y & Ey & Cy); [lia|].
    exists x, y. repeat split; auto. apply (sorted_nth N.lt ks Hs (Z.to_nat i) (Z.to_nat j)); auto. lia. }
  pose proof (gs_ok (fix_cmp L p q) (Z.of_nat (length ks))) as G. rewrite nat_N_Z, Nat2N.id.
  match goal with |- match gs ?f ?c ?b ?e with _ => _ end => specialize (fun a1 a2 => G a1 a2 f b e) end.
  match type of G with ?A -> ?B -> _ => assert (HA : A); [|assert (HB : B)] end.
  { intros i j Hi Hj H. destruct (O i j Hi Hj) as (x & y & Ei & Ej & Hxy). rewrite Ei, Ej in *.
    apply N.compare_lt_iff. destruct (N.compare_spec q x); subst; auto; try lia. congruence. }
  { intros i j Hi Hj H. destruct (O i j Hi Hj) as (x & y & Ei & Ej & Hxy). rewrite Ei, Ej in *.
    apply N.compare_gt_iff. destruct (N.compare_spec q y); subst; auto; try lia. congruence. }
  specialize (G HA HB). destruct (gs _ _ _ _) as [[|] pos].
  - destruct G as [P C]; try lia. split; [lia|]. destruct (V pos P) as (k & E & C').
    rewrite C' in C. apply N.compare_eq in C. subst. exact E.
  - destruct G as (P & G1 & G2); try lia. split; [lia|]. intros i k E.
    assert (Hi : 0 <= Z.of_nat i < Z.of_nat (length ks)).
    { assert (i < length ks)%nat by (apply nth_error_Some; congruence). lia. }
    destruct (V _ Hi) as (k' & E' & C). rewrite Nat2Z.id in E'. rewrite E in E'. injection E' as <-.
    destruct (Z.ltb_spec (Z.of_nat i) pos).
    + rewrite G1 in C by lia. symmetry in C. apply N.compare_gt_iff in C. exact C.
    + rewrite G2 in C by lia. symmetry in C. apply N.compare_lt_iff in C. exact C.
Qed.

(** ** Variable-length pages *)
Definition var_cmp (p : vpage) (q : list N) (i : Z) : comparison :=
  strcmp q (var_key p (Z.to_N i)).

Lemma strcmp_term q : forall s x y, cstr q -> cstr s ->
  strcmp (q ++ 0%N :: x) (s ++ 0%N :: y) = strcmp q s.
Proof. intros. apply strcmp_tail; auto. Qed.

Lemma copy_term buf s : copy_key buf (s ++ [0%N]) = s ++ 0%N :: skipn (length (s ++ [0%N])) buf.
Proof. unfold copy_key. rewrite <- app_assoc. reflexivity. Qed.

Lemma var_gs p q x (n : Z) (ss : list (list N)) : cstr q -> Forall cstr ss ->
  (forall i, 0 <= i < n -> exists s, nth_error ss (Z.to_nat i) = Some s /\ var_key p (Z.to_N i) = s ++ [0%N]) ->
  forall fuel buf b e, 0 <= b -> e < n ->
  fst (var_bs fuel p (q ++ 0%N :: x) buf b e) =
  gs fuel (fun i => strcmp q (nth (Z.to_nat i) ss [])) b e.
Proof.
  intros Cq Cs V. induction fuel as [|f IH]; intros buf b e Hb He; cbn [var_bs gs]; auto.
  destruct (Z.leb_spec b e); auto. cbv zeta.
  assert (P : b <= (b + e) / 2 <= e) by lia.
  destruct (V ((b + e) / 2)) as (s & Es & Ek); [lia|].
  rewrite Ek, copy_term. rewrite (nth_error_nth _ _ _ Es).
  assert (Hs : cstr s) by (rewrite Forall_forall in Cs; apply Cs, nth_error_In with (1 := Es)).
  cbn [as_cstring_lt]. rewrite (strcmp_flip (q ++ _)), strcmp_term by auto.
  destruct (strcmp q s); cbn [CompOpp]; auto; apply IH; lia.
Qed.

Lemma var_search_ok p (ss : list (list N)) q x buf :
  cstr q -> Forall cstr ss -> vp_cnt p = N.of_nat (length ss) ->
  (forall i s, nth_error ss i = Some s -> var_key p (N.of_nat i) = s ++ [0%N]) ->
  StronglySorted lex ss ->
  match fst (var_search p (q ++ 0%N :: x) buf) with
  | (true, pos) => 0 <= pos /\ nth_error ss (Z.to_nat pos) = Some q
  | (false, pos) => 0 <= pos <= Z.of_nat (length ss) /\
      (forall i s, nth_error ss i = Some s -> if Z.of_nat i <? pos then lex s q else lex q s)
  end.
Proof.
  intros Cq Cs Hc Hk Hs. unfold var_search. rewrite Hc, nat_N_Z, Nat2N.id.
  assert (V : forall i, 0 <= i < Z.of_nat (length ss) ->
    exists s, nth_error ss (Z.to_nat i) = Some s /\ var_key p (Z.to_N i) = s ++ [0%N]).
  { intros i Hi. destruct (nth_error ss (Z.to_nat i)) as [k|] eqn:E.
    - exists k. split; auto. rewrite <- (Hk _ _ E). f_equal. lia.
    - apply nth_error_None in E. lia. }
  rewrite (var_gs p q x (Z.of_nat (length ss)) ss) by (auto; lia).
  set (cmp := fun i => strcmp q (nth (Z.to_nat i) ss [])).
  assert (CS : forall i s, nth_error ss i = Some s -> cstr s).
  { intros i s E. rewrite Forall_forall in Cs. apply Cs, nth_error_In with (1 := E). }
  assert (CE : forall s, cstr s -> (strcmp q s = Gt <-> lex s q)).
  { intros s Hss. rewrite <- strcmp_lex by auto. rewrite (strcmp_flip q s). destruct (strcmp q s); cbn; split; congruence. }
  assert (O : forall i j, 0 <= i < j -> j < Z.of_nat (length ss) ->
    exists a b, cstr a /\ cstr b /\ cmp i = strcmp q a /\ cmp j = strcmp q b /\ lex a b).
  { intros i j Hi Hj. destruct (V i) as (a & Ea & _); [lia|]. destruct (V j) as (b & Eb & _); [lia|].
    exists a, b. unfold cmp. rewrite (nth_error_nth _ _ _ Ea), (nth_error_nth _ _ _ Eb). repeat split; eauto.
    apply (sorted_nth lex ss Hs (Z.to_nat i) (Z.to_nat j)); auto. lia. }
  pose proof (gs_ok cmp (Z.of_nat (length ss))) as G.
  match goal with |- match gs ?f ?c ?b ?e with _ => _ end => specialize (fun a1 a2 => G a1 a2 f b e) end.
  match type of G with ?A -> ?B -> _ => assert (HA : A); [|assert (HB : B)] end.
  { intros i j Hi Hj H. destruct (O i j Hi Hj) as (a & b & Ca & Cb & Ei & Ej & Hab). rewrite Ei, Ej in *.
    apply strcmp_lex; auto. destruct (strcmp q a) eqn:E; [| |congruence].
    - apply strcmp_eq in E; auto. subst. exact Hab.
    - apply strcmp_lex in E; auto. eauto using lex_trans. }
  { intros i j Hi Hj H. destruct (O i j Hi Hj) as (a & b & Ca & Cb & Ei & Ej & Hab). rewrite Ei, Ej in *.
    apply CE; auto. destruct (strcmp q b) eqn:E; [|congruence|].
    - apply strcmp_eq in E; auto. subst. exact Hab.
    - apply CE in E; auto. eauto using lex_trans. }
  specialize (G HA HB). destruct (gs _ _ _ _) as [[|] pos].
  - destruct G as [P C]; try lia. split; [lia|]. destruct (V pos P) as (s & E & _).
    unfold cmp in C. rewrite (nth_error_nth _ _ _ E) in C. apply strcmp_eq in C; eauto. subst. exact E.
  - destruct G as (P & G1 & G2); try lia. split; [lia|]. intros i s E.
    assert (Hi : 0 <= Z.of_nat i < Z.of_nat (length ss)).
    { assert (i < length ss)%nat by (apply nth_error_Some; congruence). lia. }
    assert (CC : cmp (Z.of_nat i) = strcmp q s).
    { unfold cmp. rewrite Nat2Z.id, (nth_error_nth _ _ _ E). reflexivity. }
    destruct (Z.ltb_spec (Z.of_nat i) pos).
    + apply CE; eauto. rewrite <- CC. apply G1. lia.
    + apply strcmp_lex; eauto. rewrite <- CC. apply G2. lia.
Qed.

(** ** Pages as they are filled *)
Lemma fix_bytes_search L ps e m (rs : list (N * list N)) q :
  Forall (fun r => (fst r < 256 ^ fl_ks L)%N /\ blen (snd r) = ps) rs ->
  StronglySorted N.lt (map fst rs) ->
  (fl_page L = 2 ^ e)%N -> (0 < fl_hdr L)%N -> (fl_koff L <= fl_hdr L)%N ->
  (fl_hdr L + (fl_ks L + ps) * N.of_nat (length rs) <= fl_page L)%N ->
  let bytes := map (fun r => (le (N.to_nat (fl_ks L)) (fst r), snd r)) rs in
  let p := fst (fix_fill L (fix_new L m) (fl_page L) bytes) in
  match fix_search L p q with
  | (true, pos) => 0 <= pos /\ nth_error rs (Z.to_nat pos) = Some (q, fix_pay L p ps (Z.to_N pos))
  | (false, pos) => 0 <= pos <= Z.of_nat (length rs) /\
      forall i k v, nth_error rs i = Some (k, v) -> if Z.of_nat i <? pos then (k < q)%N else (q < k)%N
  end.
Proof.
  intros Hr Hs He Hh Hk Hsz bytes p.
  assert (Hb : Forall (fun r => blen (fst r) = fl_ks L /\ blen (snd r) = ps) bytes).
  { unfold bytes. apply Forall_map. eapply Forall_impl; [|exact Hr]. intros r [_ H]. cbn [fst snd].
    split; auto. unfold blen. rewrite le_len. lia. }
  assert (Hl : length bytes = length rs) by (unfold bytes; apply map_length).
  destruct (fix_page_ok L ps e m bytes Hb He Hh Hk) as (Hc & Hn & _); [rewrite Hl; exact Hsz|].
  change (fst (fix_fill L (fix_new L m) (fl_page L) bytes)) with p in Hc, Hn. rewrite Hl in Hc.
  assert (Hkey : forall i k v, nth_error rs i = Some (k, v) ->
     unle (fix_key L p (N.of_nat i)) = k /\ fix_pay L p ps (N.of_nat i) = v).
  { intros i k v E. destruct (Hn i (le (N.to_nat (fl_ks L)) k) v) as [-> ->].
    - unfold bytes. rewrite nth_error_map, E. reflexivity.
    - split; auto. apply unle_le. rewrite Forall_forall in Hr. apply nth_error_In in E.
      rewrite N2Nat.id. exact (proj1 (Hr _ E)). }
  pose proof (fix_search_ok L p (map fst rs) q) as S. rewrite map_length in S.
  specialize (S Hc). destruct (fix_search L p q) as [[|] pos].
  - destruct S as [P E]; auto.
    { intros i k E. rewrite nth_error_map in E. destruct (nth_error rs i) as [[k' v]|] eqn:E1; [|discriminate].
      cbn in E. injection E as <-. exact (proj1 (Hkey _ _ _ E1)). }
    split; auto. rewrite nth_error_map in E. destruct (nth_error rs (Z.to_nat pos)) as [[k v]|] eqn:E1; [|discriminate].
    cbn in E. injection E as ->. do 2 f_equal. rewrite <- (proj2 (Hkey _ _ _ E1)). f_equal. lia.
  - destruct S as [P E]; auto.
    { intros i k E. rewrite nth_error_map in E. destruct (nth_error rs i) as [[k' v]|] eqn:E1; [|discriminate].
      cbn in E. injection E as <-. exact (proj1 (Hkey _ _ _ E1)). }
    split; auto. intros i k v E1. apply E. rewrite nth_error_map, E1. reflexivity.
Qed.

Lemma var_bytes_search page m o (rs : list (list N * list N)) low high q x buf :
  cstr q -> Forall (fun r => cstr (fst r)) rs -> StronglySorted lex (map fst rs) ->
  let bytes := map (fun r => (fst r ++ [0%N], snd r)) rs in
  (o < 65536)%N -> (page <= o)%N ->
  (32 + 8 * N.of_nat (length rs) + rsum bytes + blen low + blen high <= o)%N ->
  (32 + blen low + blen high <= page)%N ->
  let p := var_high (var_low_leaf (fst (var_fill (var_new page m) o bytes)) low) high in
  match fst (var_search p (q ++ 0%N :: x) buf) with
  | (true, pos) => 0 <= pos /\ exists v, nth_error rs (Z.to_nat pos) = Some (q, v) /\
                     var_pay p (blen v) (Z.to_N pos) = v
  | (false, pos) => 0 <= pos <= Z.of_nat (length rs) /\
      forall i k v, nth_error rs i = Some (k, v) -> if Z.of_nat i <? pos then lex k q else lex q k
  end.
Proof.
  intros Cq Cr Hs bytes Ho Hp Hsz Hlh p.
  assert (Hl : length bytes = length rs) by (unfold bytes; apply map_length).
  destruct (var_leaf_ok page m o bytes low high) as (Hc & _ & Hr & _); auto; [rewrite Hl; exact Hsz|].
  change (var_high _ _) with p in Hc, Hr. rewrite Hl in Hc.
  pose proof (recs_read _ _ _ Hr) as Hn.
  assert (Hkey : forall i k v, nth_error rs i = Some (k, v) ->
     var_key p (N.of_nat i) = k ++ [0%N] /\ var_pay p (blen v) (N.of_nat i) = v).
  { intros i k v E. apply Hn. unfold bytes. rewrite nth_error_map, E. reflexivity. }
  assert (Cs : Forall cstr (map fst rs)) by (apply Forall_map; exact Cr).
  pose proof (var_search_ok p (map fst rs) q x buf Cq Cs) as S. rewrite map_length in S.
  specialize (S Hc).
  match type of S with ?A -> _ => assert (HA : A) end.
  { intros i k E. rewrite nth_error_map in E. destruct (nth_error rs i) as [[k' v]|] eqn:E1; [|discriminate].
    cbn in E. injection E as <-. exact (proj1 (Hkey _ _ _ E1)). }
  specialize (S HA Hs). destruct (fst (var_search p (q ++ 0%N :: x) buf)) as [[|] pos].
  - destruct S as [P E]. split; auto. rewrite nth_error_map in E.
    destruct (nth_error rs (Z.to_nat pos)) as [[k v]|] eqn:E1; [|discriminate].
    cbn in E. injection E as ->. exists v. split; auto.
    replace (Z.to_N pos) with (N.of_nat (Z.to_nat pos)) by lia. exact (proj2 (Hkey _ _ _ E1)).
  - destruct S as [P E]. split; auto. intros i k v E1. apply E. rewrite nth_error_map, E1. reflexivity.
Qed.
