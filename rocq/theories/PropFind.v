(** C53: searching chains of bytes. *)
From Coq Require Import ZArith NArith List Bool Lia.
From Verif Require Import Config Page ListFacts ChainSpec ChainFacts Valid SeqSpec PropChain Bytes FixLayout VarLayout
  DeltaBytes ByteCons ByteConsSpec ByteFind ByteFindSpec ByteFindFacts ByteFindRep ByteFindEx PropBytes.
Import ListNotations.
Open Scope Z_scope.

(** Reading a leaf, for any page and record classes whose accessors return the bytes of
    the chain: the payload of the visible record, nothing if there is none, the right
    sibling if the key lies at or above the high key. *)
Theorem C53_read_leaf {P D} (F : finder P D) (K : Z -> Prop) lt ek ev cell g c b k :
  coding g false K lt ek ev -> lwf g c ->
  chain_stands F ek ev cell false c b -> chain_keys K false c -> fence_keys K c -> K k ->
  (hi_ok (c_hi c) k -> b_read F lt false b (ek k) = match visible c k with Some v => RdVal (ev v) | None => RdNone end) /\
  (~ hi_ok (c_hi c) k ->
     exists p n, b_read F lt false b (ek k) = RdSib p /\ page_stands F ek ev false n p /\ n_next n = c_next c).
Proof. intros HC. exact (read_ok F K lt ek ev cell g c b k (proj1 HC)). Qed.
Print Assumptions C53_read_leaf.

(** Choosing a child: the one at the greatest separator not above (closed) or strictly
    below (open) the key. *)
Theorem C53_choose_child {P D} (F : finder P D) (K : Z -> Prop) lt ek ev cell g c b k (closed : bool) :
  coding g true K lt ek ev -> iwf g c -> iexact c -> icells cell (fun _ _ => False) c ->
  chain_stands F ek ev cell true c b -> chain_keys K true c -> fence_keys K c -> K k ->
  (hi_ok (c_hi c) (if closed then k else k - 1) -> exists i x p,
     b_descend F lt b (ek k) closed = RdVal (ev p) /\ nth_error ((0, ilead c) :: ients c) i = Some (x, p) /\
     forall j y q, nth_error ((0, ilead c) :: ients c) j = Some (y, q) -> (j <> 0)%nat ->
       if closed then ((j <= i)%nat -> y <= k) /\ ((i < j)%nat -> k < y)
       else ((j <= i)%nat -> y < k) /\ ((i < j)%nat -> k <= y)) /\
  (~ hi_ok (c_hi c) (if closed then k else k - 1) ->
     exists p n, b_descend F lt b (ek k) closed = RdSib p /\ page_stands F ek ev true n p /\ n_next n = c_next c).
Proof. intros HC. exact (descend_ok F K lt ek ev cell g c b k closed (proj1 HC)). Qed.
Print Assumptions C53_choose_child.

(** All four searches agree with those of Page.v on every chain without a remove-node
    delta, well formed or not: what is proved of Page.v carries over to bytes. *)
Theorem C53_searches_agree {P D} (F : finder P D) (K : Z -> Prop) lt ek ev cell inner g c b k sib (closed : bool) :
  coding g inner K lt ek ev ->
  chain_stands F ek ev cell inner c b -> chain_keys K inner c -> fence_keys K c -> K k -> opt_key K sib ->
  let np := page_stands F ek ev inner in
  (forall smo, res_agree np ev cell (dc_search_record c k smo) (bf_record F lt b (ek k) smo)) /\
  (forall smo, inner = true -> res_agree np ev cell (dc_search_child c k closed smo) (bf_child F lt b (ek k) closed smo)) /\
  (forall kf sf smo, mres_agree np (dc_search_merge c k sib kf sf smo) (bf_merge F lt b (ek k) (option_map ek sib) kf sf smo)) /\
  match dc_validate c k closed, bf_validate F lt b (ek k) closed with
  | VOk, None => True
  | VSibling x, Some p => exists n, np n p /\ n_next n = x
  | _, _ => False
  end.
Proof.
  intros HC S CK FK Hk Hs np. split; [|split; [|split]].
  - intros smo. eapply mono_res; [|apply bf_record_ok with (K := K); eauto; apply HC]. intros n p [A _]. exact A.
  - intros smo Hi. eapply mono_res; [|apply bf_child_ok with (K := K); eauto; apply HC]. intros n p [A _]. exact A.
  - intros kf sf smo. eapply mono_mres; [|apply bf_merge_ok with (K := K) (cell := cell); eauto; apply HC]. intros n p [A _]. exact A.
  - pose proof (bf_validate_ok F K lt ek ev cell inner (proj1 HC) k closed Hk c b S CK FK) as H.
    destruct (dc_validate c k closed), (bf_validate F lt b (ek k) closed); auto. destruct H as (n & [A _] & E). exists n. auto.
Qed.
Print Assumptions C53_searches_agree.

(** The pages of C52 and the records built by the constructors of C51 stand for their
    pages and records. *)
Theorem C53_varlen_stands g inner K lt ek ev : cfg_ok g -> c_varlen g = true -> coding g inner K lt ek ev ->
  let F := var_finder (Z.to_N (paysz g inner)) in
  (forall n p, n_inner n = inner -> vnode_rep ek ev inner n p -> page_stands F ek ev inner n p) /\
  (forall cell d m, klen g (d_key d) + 48 + paysz g inner < 65536 ->
    (inner = false -> d_type d <> DDelete ->
       delta_stands F ek ev cell inner d (vard_put m (d_type d) (ek (d_key d)) (ev (d_pay d)))) /\
    (inner = false -> d_type d = DDelete -> delta_stands F ek ev cell inner d (vard_del m (ek (d_key d)))) /\
    (forall n p, vnode_rep ek ev inner n p -> n_low n = Some (d_key d) -> n_high n = d_high d ->
       48 + klen g (d_key d) + okl g (n_high n) < 65536 ->
       (inner = true -> d_type d = DInsert -> delta_stands F ek ev cell inner d (vard_smo m DInsert inner p (ev (d_pay d)))) /\
       (inner = true -> d_type d = DDelete ->
          delta_stands F ek ev cell inner d (vard_set (vard_idel m p) (ev (cell (d_addr d))))) /\
       (forall pid, blen pid = 8%N -> merge_stands F ek d (vard_smo m DMerge inner p pid)))).
Proof.
  intros OK HV HC F. split.
  - intros n p. apply (var_page_stands g inner K lt ek ev OK HC n p).
  - intros cell d m. exact (var_delta_stands g inner K lt ek ev OK HV HC cell d m).
Qed.
Print Assumptions C53_varlen_stands.

Theorem C53_fixlen_stands g inner K lt ek ev L e : c_varlen g = false -> coding g inner K lt ek ev -> flay_ok g L e ->
  let ps := Z.to_N (paysz g inner) in
  let F := fix_finder L ps in
  (forall n p, n_inner n = inner -> fnode_rep L ps ek ev inner n p -> page_stands F ek ev inner n p) /\
  (forall cell d m,
    (inner = false -> d_type d <> DDelete ->
       delta_stands F ek ev cell inner d (fixd_put L m (d_type d) (ek (d_key d)) (ev (d_pay d)))) /\
    (inner = false -> d_type d = DDelete -> delta_stands F ek ev cell inner d (fixd_del L m (ek (d_key d)))) /\
    (forall n p, fnode_rep L ps ek ev inner n p -> n_low n = Some (d_key d) -> n_high n = d_high d ->
       (inner = true -> d_type d = DInsert -> delta_stands F ek ev cell inner d (fixd_smo L m DInsert inner p (ev (d_pay d)))) /\
       (inner = true -> d_type d = DDelete ->
          delta_stands F ek ev cell inner d (fixd_set L (fixd_idel L m p) (ev (cell (d_addr d))))) /\
       (forall pid, blen pid = 8%N -> merge_stands F ek d (fixd_smo L m DMerge inner p pid)))).
Proof.
  intros HV HC HL ps F. split.
  - intros n p. apply fix_page_stands.
  - intros cell d m. exact (fix_delta_stands g inner K lt ek ev L e HV HC HL cell d m).
Qed.
Print Assumptions C53_fixlen_stands.

(** The hypotheses hold of [ex_leaf] and [ex_inner] (fixed length) and of [ex_vleaf]
    (variable length), with unsigned 64-bit keys. *)
Lemma ex_keys_in inner c : In (inner, c) [(false, ex_leaf); (true, ex_inner); (false, ex_vleaf)] ->
  chain_keys ex_u64 inner c /\ fence_keys ex_u64 c.
Proof.
  assert (PK : forall i n, Forall (fun r => ex_u64 (fst r)) (n_recs n) -> page_keys ex_u64 i n).
  { intros i n H j k v E _. rewrite Forall_forall in H. apply (H (k, v)). apply nth_error_In with j. exact E. }
  intros [H|[H|[H|[]]]]; inversion H; subst; (split; [|cbn; unfold ex_u64; repeat split; lia]).
  all: unfold ex_leaf, ex_inner, ex_vleaf; cbn [chain_keys].
  all: repeat match goal with |- _ /\ _ => split end; try (unfold ex_u64; cbn; lia).
  all: apply PK; cbn [n_recs]; repeat (apply Forall_cons; [unfold ex_u64; cbn; lia|]); apply Forall_nil.
Qed.
Example ex_fix_stands inner c : In (inner, c) [(false, ex_leaf); (true, ex_inner)] ->
  exists b, chain_stands (fix_finder ex_L 8) ex_ek ex_ev ex_cell inner c b.
Proof.
  intros H. assert (W : cwf cfg_fix8 inner c /\ Forall (fun n => n_size n <= 1024) (pages c)).
  { destruct H as [H|[H|[]]]; inversion H; subst; (split; [|unfold pages, ex_leaf, ex_inner; repeat (apply Forall_cons; [cbn; lia|]); apply Forall_nil]).
    - exact ex_leaf_wf. - apply ex_inner_wf. }
  destruct W as [W1 W2]. pose proof (fix_stands_ex cfg_fix8 inner ex_u64 ex_lt ex_ek ex_ev ex_cell cfg_fix8_ok (ex_coding false inner) ex_L 10 c) as X.
  destruct inner; apply X; auto using ex_L_ok.
Qed.
Example ex_var_stands : exists b, chain_stands (var_finder 8) ex_ek ex_ev ex_cell false ex_vleaf b.
Proof.
  apply (var_stands_ex cfg_var8 false ex_u64 ex_lt ex_ek ex_ev ex_cell cfg_var8_ok (ex_coding true false) 1024%N ex_vleaf);
    try reflexivity; [apply ex_v_wf|].
  unfold pages, ex_vleaf. repeat (apply Forall_cons; [cbn; lia|]). apply Forall_nil.
Qed.

(** Searching the bytes of an empty leaf with three deltas on top. *)
Open Scope N_scope.
Example ex_find_run :
  let put k v := vard_put ex_ones DInsert (ex_ek k) (ex_ev v) in
  let b := BRec (vard_del ex_ones (ex_ek 5)) (BRec (put 3%Z 30) (BRec (put 5%Z 50) (BBase (var_new 1024 ex_ones)))) in
  let read k := b_read (var_finder 8) ex_lt false b (ex_ek k) in
  read 3%Z = RdVal (le 8 30) /\ read 5%Z = RdNone /\ read 4%Z = RdNone /\
  match var_try 1024 false ex_lt ex_ones ex_ones b 56 false with
  | BOne p => b_read (var_finder 8) ex_lt false (BBase p) (ex_ek 3) = RdVal (le 8 30) /\
              b_read (var_finder 8) ex_lt false (BBase p) (ex_ek 5) = RdNone
  | _ => False
  end.
Proof. vm_compute. repeat split. Qed.
