(** C03-C06: pages and delta chains. *)
From Coq Require Import ZArith NArith List Bool Lia Sorting.Sorted.
From Verif Require Import Config Page ListFacts ChainSpec Valid ChainProps.
Import ListNotations.
Open Scope Z_scope.

(** C03, leaves: consolidation succeeds, and the new page holds exactly the
    records visible through the chain, strictly sorted; bounds and sibling link
    are kept. *)
Theorem C03_leaf_consolidation_keeps_records g c a ra : lwf g c ->
  exists ds n,
    dc_sort c [] [] = Some (ds, pages c) /\
    consolidate g false a ra (pages c) ds false false = COne n /\
    StronglySorted (fun x y => fst x < fst y) (n_recs n) /\
    (forall k v, In (k, v) (n_recs n) <-> visible c k = Some v) /\
    n_low n = c_lo c /\ n_high n = c_hi c /\ n_next n = c_next c.
Proof. exact (c03_leaf g c a ra). Qed.
Print Assumptions C03_leaf_consolidation_keeps_records.

(** C03/C04, inner nodes: the consolidated page sends every key to the child the
    chain sends it to. *)
Theorem C03_inner_consolidation_keeps_routing g c cell a ra k (closed : bool) :
  iwf g c -> iexact c -> icells cell (fun _ _ => False) c ->
  exists ds n,
    dc_sort c [] [] = Some (ds, pages c) /\
    consolidate g true a ra (pages c) ds false false = COne n /\
    n_low n = c_lo c /\ n_high n = c_hi c /\ n_next n = c_next c /\
    (hi_ok (c_hi c) (if closed then k else k - 1) ->
     exists p, chain_child cell c k closed = Some p /\ node_search_child n k closed = Some p).
Proof. exact (c03_inner g c cell a ra k closed). Qed.
Print Assumptions C03_inner_consolidation_keeps_routing.

(** C04: looking a key up through the chain and in the consolidated page gives
    the same answer, the record visible through the chain. *)
Theorem C04_chain_lookup_is_page_lookup g c a ra k : lwf g c -> hi_ok (c_hi c) k ->
  exists ds n,
    dc_sort c [] [] = Some (ds, pages c) /\
    consolidate g false a ra (pages c) ds false false = COne n /\
    chain_lookup c k = Some (page_lookup n k) /\ page_lookup n k = visible c k.
Proof. exact (c04_leaf g c a ra k). Qed.
Print Assumptions C04_chain_lookup_is_page_lookup.

(** C05, records: the position of the key, or the insertion position. *)
Theorem C05_record_search n k :
  n_inner n = false -> StronglySorted (fun x y => fst x < fst y) (n_recs n) ->
  let '(found, p) := node_search n k in
  0 <= p <= Z.of_nat (length (n_recs n)) /\
  if found then exists v, nth_error (n_recs n) (Z.to_nat p) = Some (k, v)
  else forall i x v, nth_error (n_recs n) i = Some (x, v) ->
         (Z.of_nat i < p -> x < k) /\ (p <= Z.of_nat i -> k < x).
Proof. exact (c05_leaf n k). Qed.
Print Assumptions C05_record_search.

(** C05, children: the child at the greatest separator not above (closed) or
    strictly below (open) the key; separator 0 counts as minus infinity. *)
Theorem C05_child_search n k (closed : bool) k0 lead ents :
  n_recs n = (k0, lead) :: ents -> StronglySorted (fun x y => fst x < fst y) ents ->
  exists i x p, node_search_child n k closed = Some p /\ nth_error (n_recs n) i = Some (x, p) /\
    forall j y q, nth_error (n_recs n) j = Some (y, q) -> (j <> 0)%nat ->
      if closed then ((j <= i)%nat -> y <= k) /\ ((i < j)%nat -> k < y)
      else ((j <= i)%nat -> y < k) /\ ((i < j)%nat -> k <= y).
Proof. exact (c05_child n k closed k0 lead ents). Qed.
Print Assumptions C05_child_search.

(** C06, leaves. *)
Theorem C06_leaf_split_partitions g c a ra :
  cfg_ok g -> lwf g c -> c_page g < h_size c <= c_page g + excess g ->
  exists ds l r sep,
    dc_sort c [] [] = Some (ds, pages c) /\
    consolidate g false a ra (pages c) ds true false = CTwo l r /\
    n_recs l <> [] /\ n_recs r <> [] /\
    (forall k v, visible c k = Some v <-> In (k, v) (n_recs l ++ n_recs r)) /\
    (forall k v, In (k, v) (n_recs l) -> k < sep) /\
    (forall k v, In (k, v) (n_recs r) -> sep <= k) /\
    (exists v, hd_error (n_recs r) = Some (sep, v)) /\
    n_low l = c_lo c /\ n_high l = Some sep /\ n_low r = Some sep /\ n_high r = c_hi c /\
    n_next r = c_next c /\ n_size l <= c_page g /\ n_size r <= c_page g.
Proof. exact (c06_leaf g c a ra). Qed.
Print Assumptions C06_leaf_split_partitions.

(** C06, inner nodes: the child of the new right page keeps its separator as the
    page's first record. *)
Theorem C06_inner_split_partitions g c a ra :
  cfg_ok g -> iwf g c -> c_page g < h_size c <= c_page g + excess g ->
  exists ds l r sep,
    dc_sort c [] [] = Some (ds, pages c) /\
    consolidate g true a ra (pages c) ds true false = CTwo l r /\
    n_recs l <> [] /\ n_recs r <> [] /\
    tl (n_recs l ++ n_recs r) = ients c /\
    (exists k0, hd_error (n_recs l) = Some (k0, ilead c)) /\
    (forall k v, In (k, v) (tl (n_recs l)) -> k < sep) /\
    (forall k v, In (k, v) (n_recs r) -> sep <= k) /\
    (exists v, hd_error (n_recs r) = Some (sep, v)) /\
    n_low l = c_lo c /\ n_high l = Some sep /\ n_low r = Some sep /\ n_high r = c_hi c /\
    n_next r = c_next c /\ n_size l <= c_page g /\ n_size r <= c_page g.
Proof. exact (c06_inner g c a ra). Qed.
Print Assumptions C06_inner_split_partitions.

(** ** The hypotheses are met by non-trivial cases *)

(** The default build satisfies the arithmetic conditions. *)
Example cfg_fix8_ok : cfg_ok cfg_fix8.
Proof. constructor; vm_compute; intros; repeat split; congruence. Qed.
Example cfg_var8_ok : cfg_ok cfg_var8.
Proof. constructor; vm_compute; intros; repeat split; congruence. Qed.

(** A leaf chain with a base page, an absorbed sibling, an update, a deletion of
    a record of the absorbed page and an insertion. *)
Definition ex_leaf : chain :=
  CRec (mk_delta 6 false DInsert 4 None 44 4 80)
  (CRec (mk_delta 5 false DDelete 20 None 0 3 64)
  (CRec (mk_delta 4 false DModify 3 None 33 2 80)
  (CMerge (mk_delta 3 false DMerge 10 (Some 30) 0 1 80)
     (mk_node 2 false (Some 10) (Some 30) 9 [(10, 1%N); (20, 2%N)] 64)
  (CBase (mk_node 1 false None (Some 10) 7 [(3, 3%N)] 48))))).
Ltac wf := unfold rng_ne, in_rng, in_srng, lo_ok, lo_lt, hi_ok in *; cbn in *;
  repeat match goal with
  | |- _ /\ _ => split
  | |- Forall _ _ => constructor
  | |- StronglySorted _ _ => constructor
  | |- exists _, _ => eexists
  end; cbn; try reflexivity; try exact I; try lia.
Example ex_leaf_wf : lwf cfg_fix8 ex_leaf.
Proof. unfold lwf, ex_leaf, lnode, sorted; wf. Qed.
Example ex_leaf_visible :
  map (visible ex_leaf) [3; 4; 10; 20] = [Some 33; Some 44; Some 1; None]%N.
Proof. reflexivity. Qed.

(** An inner chain: an index-entry insertion over a deleted separator. *)
Definition ex_inner : chain :=
  CRec (mk_delta 3 true DInsert 15 (Some 20) 103 2 80)
  (CRec (mk_delta 2 true DDelete 10 (Some 20) 0 1 64)
  (CBase (mk_node 1 true None (Some 90) 7 [(0, 100%N); (10, 101%N); (20, 102%N)] 80))).
Definition ex_cell (a : addr) : pid := if N.eqb a 2 then 100%N else 0%N.
Example ex_inner_wf : iwf cfg_fix8 ex_inner /\ iexact ex_inner /\
  icells ex_cell (fun _ _ => False) ex_inner.
Proof.
  unfold ex_inner. split; [|split].
  - unfold iwf, inode, sorted; wf.
  - cbn. auto.
  - cbn. split; [split; [exact I|]|]; intros; [|discriminate]. right. split; [reflexivity|discriminate].
Qed.

(** An oversized leaf: 62 records of 16 bytes behind a header of 32 bytes fill the
    page, one more overflows it; an oversized inner page likewise. *)
Definition ex_recs (n : nat) : list (key * val) := map (fun i => (Z.of_nat i, N.of_nat i)) (seq 1 n).
Definition ex_big : chain :=
  CRec (mk_delta 2 false DInsert 100 None 7 1 1040)
    (CBase (mk_node 1 false None None 0 (ex_recs 62) 1024)).
Lemma ex_recs_sorted n : forall s,
  StronglySorted (fun x y => fst x < fst y) (map (fun i => (Z.of_nat i, N.of_nat i)) (seq s n)) /\
  Forall (fun r => Z.of_nat s <= fst r) (map (fun i => (Z.of_nat i, N.of_nat i)) (seq s n)).
Proof.
  induction n; intros s; cbn [seq map]; [split; constructor|].
  destruct (IHn (S s)) as [A B]. split; constructor; auto; cbn; try lia;
    eapply Forall_impl; try exact B; cbn; intros; lia.
Qed.
Example ex_big_split : lwf cfg_fix8 ex_big /\
  c_page cfg_fix8 < h_size ex_big <= c_page cfg_fix8 + excess cfg_fix8.
Proof.
  split; [|vm_compute; split; congruence].
  unfold ex_big, lwf, lnode. repeat split; try reflexivity; try exact I.
  - apply (ex_recs_sorted 62 1).
  - apply Forall_forall. intros x _. split; exact I.
Qed.
Definition ex_big_inner : chain :=
  CRec (mk_delta 2 true DInsert 100 None 7 1 1040)
    (CBase (mk_node 1 true None None 0 ((0, 99%N) :: ex_recs 61) 1024)).
Example ex_big_inner_split : iwf cfg_fix8 ex_big_inner /\
  c_page cfg_fix8 < h_size ex_big_inner <= c_page cfg_fix8 + excess cfg_fix8.
Proof.
  split; [|vm_compute; split; congruence].
  unfold ex_big_inner, iwf, inode. repeat split; try reflexivity; try exact I.
  - exists 0. split; [reflexivity|exact I].
  - apply (ex_recs_sorted 61 1).
  - apply Forall_forall. intros x _. split; exact I.
Qed.
