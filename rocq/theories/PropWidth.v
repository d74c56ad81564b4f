(** C42: the header fields rec_count_ and node_size_. *)
From Coq Require Import ZArith NArith List Bool.
From Verif Require Import Config Api Page Machine Tree Spec Conc ChainSpec ConcChain Valid WidthFacts PropTree PropConc.
Import ListNotations.
Open Scope Z_scope.

(** Any execution, merging included: rec_count_ of what a slot holds and of every page behind
    it fits in 16 bits, and node_size_ stays below 2^32; pages have a non-negative size.
    Missing: node_size_ of a delta record does not become negative when threads merge pages. *)
Theorem C42_header_fields_fit_partial g fuel todos sch :
  cfg_ok g -> 0 < c_hdr g -> c_page g <= 2 ^ 16 -> c_maxd g < 2 ^ 16 ->
  let e := fst (exec g fuel (start (init g) todos) sch) in
  forall p c, s_tbl (c_mem e) p = Some c ->
    0 <= h_cnt c < 2 ^ 16 /\ h_size c < 2 ^ 32 /\
    forall n, In n (pages c) -> Z.of_nat (length (n_recs n)) < 2 ^ 16 /\ 0 <= n_size n < 2 ^ 32.
Proof. exact (header_widths g fuel todos sch). Qed.
Print Assumptions C42_header_fields_fit_partial.

(** With merging disabled, any execution: node_size_ is also bounded from below, and in front
    of delta records it is the number of bytes of the records the chain stands for. *)
Theorem C42_sizes_exact_partial g fuel todos sch : cfg_ok g -> hdr_ok g -> no_merge g ->
  let e := fst (exec g fuel (start (init g) todos) sch) in
  forall p c, s_tbl (c_mem e) p = Some c ->
    c_hdr g <= h_size c <= c_page g + maxrec g /\
    (is_base c = false ->
     h_size c = if h_leaf c then lbytes g (c_lo c) (c_hi c) (lrecs c)
                else ibytes g (c_lo c) (c_hi c) (ients c)).
Proof. exact (sizes_exact g fuel todos sch). Qed.
Print Assumptions C42_sizes_exact_partial.

(** Single-threaded calls, merging included: the same for every leaf a search ends in. *)
Theorem C42_leaf_sizes_exact_partial g os k : cfg_ok g ->
  exists F s p path c, (forall f, (F <= f)%nat ->
      run_calls g f os (init g) = Done (fst (spec_run sempty os)) s /\
      run (search_leaf f k true) s = Done (p :: path) s) /\
    s_tbl s p = Some c /\ h_leaf c = true /\
    h_size c = lbytes g (c_lo c) (c_hi c) (lrecs c) /\ c_hdr g <= h_size c <= c_page g.
Proof. exact (sizes_exact_seq g os k). Qed.
Print Assumptions C42_leaf_sizes_exact_partial.

(** The execution of C09_case (three threads, merging disabled) holds a leaf with delta
    records, and the tree of forty keys with merging enabled too. *)
Definition leaf_size (s : st) (p : pid) : Z * Z * bool :=
  match s_tbl s p with Some c => (h_cnt c, h_size c, negb (is_base c) && h_leaf c) | None => (0, 0, false) end.
Example C42_case :
  (cfg_ok cfg_nm /\ hdr_ok cfg_nm /\ no_merge cfg_nm) /\
  (0 < c_hdr cfg_nm /\ c_page cfg_nm <= 2 ^ 16 /\ c_maxd cfg_nm < 2 ^ 16) /\
  leaf_size (c_mem (fst run3)) 6 = (1, 112, true) /\
  match s_tbl (c_mem (fst run3)) 6 with Some c => length (lrecs c) | None => O end = 5%nat /\
  leaf_size tree40 7 = (1, 192, true).
Proof.
  split; [exact cfg_nm_ok|]. split; [vm_compute; repeat split; congruence|].
  vm_compute. auto.
Qed.
