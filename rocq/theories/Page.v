(** Base pages, delta records, delta chains and the functions that search and
    rebuild them.  Pages hold record lists here; the byte layouts are modelled
    separately in FixLayout.v and VarLayout.v. *)
From Coq Require Import ZArith NArith List Bool.
From Verif Require Import Config.
Import ListNotations.
Open Scope Z_scope.

(** component/common.hpp:76-83 DeltaType (kNotDelta and kRemoveNode are separate
    chain constructors below). *)
Inductive dtype := DInsert | DModify | DDelete | DMerge.

(** Base node header and records: fixlen/node.hpp:749-780, varlen/node.hpp.
    [n_low]/[n_high] merge the has_low_key_/has_high_key_ flags (varlen: key_len
    <> 0) with the keys. [n_recs] are the records in array order; rec_count_ is
    their number.  The key of record 0 of a leftmost inner node is garbage. *)
Record node := mk_node {
  n_addr  : addr;
  n_inner : bool;
  n_low   : option key;
  n_high  : option key;
  n_next  : pid;
  n_recs  : list (key * val);
  n_size  : Z
}.

(** Delta record header: fixlen/delta_record.hpp member variables.
    [d_pay] is the inline payload (index-delete deltas keep their payload in a
    mutable cell instead, see Machine.v). *)
Record delta := mk_delta {
  d_addr  : addr;
  d_inner : bool;
  d_type  : dtype;
  d_key   : key;
  d_high  : option key;
  d_pay   : val;
  d_cnt   : Z;   (* rec_count_ *)
  d_size  : Z    (* node_size_ *)
}.

(** A logical node as seen from its head pointer: delta records newest first,
    linked by next_, ending in a base node, or a remove-node delta whose next_
    is null (fixlen/delta_record.hpp:147-154).  A merge delta also points to the
    merged page.  Published records are immutable, so a chain is a value. *)
Inductive chain :=
| CBase (n : node)
| CRec (d : delta) (next : chain)
| CMerge (d : delta) (merged : node) (next : chain)
| CRemove (a : addr) (leaf : bool).

Definition is_leftmost (n : node) : bool := match n_low n with None => true | _ => false end.

(** Address, IsLeaf, node_size_, rec_count_ of a head. *)
Definition h_addr (c : chain) : addr :=
  match c with CBase n => n_addr n | CRec d _ | CMerge d _ _ => d_addr d | CRemove a _ => a end.
Definition h_leaf (c : chain) : bool :=
  match c with CBase n => negb (n_inner n) | CRec d _ | CMerge d _ _ => negb (d_inner d)
  | CRemove _ l => l end.
Definition h_size (c : chain) : Z :=
  match c with CBase n => n_size n | CRec d _ | CMerge d _ _ => d_size d | CRemove _ _ => 0 end.
Definition h_cnt (c : chain) : Z :=
  match c with CBase n => Z.of_nat (length (n_recs n)) | CRec d _ | CMerge d _ _ => d_cnt d
  | CRemove _ _ => 0 end.
Definition is_base (c : chain) : bool := match c with CBase _ => true | _ => false end.
Definition is_remove (c : chain) : bool := match c with CRemove _ _ => true | _ => false end.

(** fixlen/delta_record.hpp:244-250 NeedConsolidation, 256-262 NeedWaitSMOs. *)
Definition need_consolidation (g : cfg) (c : chain) : bool :=
  negb (is_base c) && ((c_thr g <=? h_cnt c) || (c_page g <? h_size c)).
Definition need_wait (g : cfg) (c : chain) : bool :=
  negb (is_base c) && ((c_maxd g <=? h_cnt c) || (c_page g <? h_size c)).

(** fixlen/delta_record.hpp:352-360 SetNext: rec_count_ and node_size_ of a
    delta put in front of [nx]. *)
Definition set_next (d : delta) (nx : chain) (diff : Z) : delta :=
  mk_delta (d_addr d) (d_inner d) (d_type d) (d_key d) (d_high d) (d_pay d)
    (if is_base nx then 1 else h_cnt nx + 1) (h_size nx + diff).

(** fixlen/delta_record.hpp:203-236 HasSameKey, LowKeyIsLE, HighKeyIsGE. *)
Definition same_key (a b : key) : bool := negb (b <? a) && negb (a <? b).
Definition low_le (low : key) (k : key) (closed : bool) : bool :=
  (low <? k) || (closed && negb (k <? low)).
Definition high_ge (high : option key) (k : key) (closed : bool) : bool :=
  match high with
  | None => true
  | Some h => (k <? h) || (closed && negb (h <? k))
  end.

(** Result of a traversal of a chain: DeltaRC (component/common.hpp:54-61) with
    its out_ptr.  [RWait a]: the matching index-delete delta at address [a],
    whose payload the caller has to load with GetPayloadAtomically.
    [RGarbage]: a record was interpreted as a page of the wrong kind. *)
Inductive dres :=
| RFound (v : val)
| RWait (a : addr)
| RNotFound
| RRemoved
| RSibling (p : pid)
| RBase (n : node)
| RGarbage.

(** delta_chain.hpp:65-127 SearchChildNode.  A kModify record falls into the
    default case of the switch and is taken for a base node: RGarbage. *)
Fixpoint dc_search_child (c : chain) (k : key) (closed : bool) (smo : bool) : dres :=
  match c with
  | CRec d nx =>
      match d_type d with
      | DInsert =>
          if low_le (d_key d) k closed && high_ge (d_high d) k (negb closed)
          then RFound (d_pay d) else dc_search_child nx k closed smo
      | DDelete =>
          if low_le (d_key d) k closed && high_ge (d_high d) k (negb closed)
          then RWait (d_addr d) else dc_search_child nx k closed smo
      | _ => RGarbage
      end
  | CMerge d n nx =>
      if low_le (d_key d) k closed then
        if negb smo && negb (high_ge (d_high d) k (negb closed))
        then RSibling (n_next n) else RBase n
      else dc_search_child nx k closed true
  | CRemove _ _ => RRemoved
  | CBase n =>
      if negb smo && negb (high_ge (n_high n) k (negb closed))
      then RSibling (n_next n) else RBase n
  end.

(** delta_chain.hpp:140-199 SearchRecord (with the GetPayload of bw_tree.hpp:165). *)
Fixpoint dc_search_record (c : chain) (k : key) (smo : bool) : dres :=
  match c with
  | CRec d nx =>
      match d_type d with
      | DInsert | DModify =>
          if same_key (d_key d) k then RFound (d_pay d) else dc_search_record nx k smo
      | DDelete =>
          if same_key (d_key d) k then RNotFound else dc_search_record nx k smo
      | DMerge => RGarbage
      end
  | CMerge d n nx =>
      if low_le (d_key d) k true then
        if negb smo && negb (high_ge (d_high d) k false)
        then RSibling (n_next n) else RBase n
      else dc_search_record nx k true
  | CRemove _ _ => RRemoved
  | CBase n =>
      if negb smo && negb (high_ge (n_high n) k false)
      then RSibling (n_next n) else RBase n
  end.

(** Outcome of SearchForMerge: kRecordFound, kAbortMerge, or the other codes
    together with the two flags passed by reference.  [high]: the high key that
    HighKeyIsGE copied into the thread-local buffer of DeltaRecord::GetHighKey on the
    way (varlen/delta_record.hpp:251-258, 347-367), if it was called and there is one. *)
Inductive mres :=
| MFound | MAbort | MRemoved | MSibling (p : pid) (high : option key)
| MBase (n : node) (key_found sib_found : bool) (high : option key) | MGarbage.

(** delta_chain.hpp:215-288 SearchForMerge. *)
Fixpoint dc_search_merge (c : chain) (k : key) (sib : option key)
    (kf sf : bool) (smo : bool) : mres :=
  let is_sib x := match sib with Some s => same_key x s | None => false end in
  match c with
  | CRec d nx =>
      match d_type d with
      | DInsert =>
          let hit := negb kf && same_key (d_key d) k in
          if hit && sf then MFound else
          let kf1 := kf || hit in
          let hit2 := negb sf && is_sib (d_key d) in
          if hit2 && kf1 then MFound else
          dc_search_merge nx k sib kf1 (sf || hit2) smo
      | DDelete =>
          if negb kf && same_key (d_key d) k then MAbort else
          if negb sf && is_sib (d_key d) then MAbort else
          dc_search_merge nx k sib kf sf smo
      | _ => MGarbage
      end
  | CMerge d n nx =>
      if low_le (d_key d) k true then
        if negb smo && negb kf then
          if high_ge (d_high d) k false
          then MBase n kf sf (d_high d) else MSibling (n_next n) (d_high d)
        else MBase n kf sf None
      else
        let hit2 := negb sf && is_sib (d_key d) in
        if hit2 && kf then MFound else
        dc_search_merge nx k sib kf (sf || hit2) true
  | CRemove _ _ => MRemoved
  | CBase n =>
      if negb kf then
        if negb (is_leftmost n)
           && match n_low n with Some l => same_key l k | None => false end
        then MAbort else
        if negb smo then
          if high_ge (n_high n) k false
          then MBase n kf sf (n_high n) else MSibling (n_next n) (n_high n)
        else MBase n kf sf None
      else MBase n kf sf None
  end.

(** delta_chain.hpp:301-336 Validate; [RBase] stands for kReachBaseNode (its
    out_ptr is unset and unused). *)
Inductive vres := VOk | VRemoved | VSibling (p : pid).
Fixpoint dc_validate (c : chain) (k : key) (closed : bool) : vres :=
  match c with
  | CRec _ nx => dc_validate nx k closed
  | CMerge d n _ =>
      if high_ge (d_high d) k (negb closed) then VOk else VSibling (n_next n)
  | CRemove _ _ => VRemoved
  | CBase n =>
      if high_ge (n_high n) k (negb closed) then VOk else VSibling (n_next n)
  end.

(** fixlen/delta_record.hpp:457-481 AddByInsertionSortTo: skip lower keys, then
    insert, or keep the record already there (it is newer). *)
Fixpoint add_sorted (d : delta) (arr : list delta) : list delta :=
  match arr with
  | [] => [d]
  | x :: t =>
      if d_key x <? d_key d then x :: add_sorted d t
      else if d_key d <? d_key x then d :: x :: t
      else x :: t
  end.

(** delta_chain.hpp:346-375 Sort: sorted delta records and the list of pages,
    merged pages newest first, base page last.  [None]: a remove-node delta
    would be taken for a base page. *)
Fixpoint dc_sort (c : chain) (arr : list delta) (nodes : list node)
    : option (list delta * list node) :=
  match c with
  | CRec d nx => dc_sort nx (add_sorted d arr) nodes
  | CMerge _ n nx => dc_sort nx arr (nodes ++ [n])
  | CBase n => Some (arr, nodes ++ [n])
  | CRemove _ _ => None
  end.

(** fixlen/delta_record.hpp:297-308 GetNodeUsage: size of the base page and
    number of delta records; [None] for a remove-node delta (null next_). *)
Fixpoint node_usage (c : chain) : option (Z * Z) :=
  match c with
  | CBase n => Some (n_size n, 0)
  | CRec _ nx | CMerge _ _ nx =>
      match node_usage nx with Some (s, d) => Some (s, d + 1) | None => None end
  | CRemove _ _ => None
  end.

(** fixlen/node.hpp:300-311 GetLeftmostChild; [None]: null dereference or a page
    without records. *)
Fixpoint leftmost_child (c : chain) : option pid :=
  match c with
  | CBase n => match n_recs n with (_, v) :: _ => Some v | [] => None end
  | CRec _ nx | CMerge _ _ nx => leftmost_child nx
  | CRemove _ _ => None
  end.

(** ** Binary search in a page *)

Definition key_at (rs : list (key * val)) (i : Z) : key :=
  fst (nth (Z.to_nat i) rs (0, 0%N)).

(** The loop of fixlen/node.hpp:336-347 and 370-382 (varlen/node.hpp has the
    same loops): [(true, pos)] when an equal key is found, else
    [(false, begin_pos)].  [fuel] bounds the iterations; rec_count_ + 1 always
    suffices (SearchFacts.v). *)
Fixpoint bsearch (fuel : nat) (rs : list (key * val)) (k : key) (b e : Z) : bool * Z :=
  match fuel with
  | O => (false, b)
  | S f =>
      if b <=? e then
        let pos := (b + e) / 2 in
        let ik := key_at rs pos in
        if k <? ik then bsearch f rs k b (pos - 1)
        else if ik <? k then bsearch f rs k (pos + 1) e
        else (true, pos)
      else (false, b)
  end.

(** fixlen/node.hpp:330-350 SearchRecord. *)
Definition node_search (n : node) (k : key) : bool * Z :=
  bsearch (S (length (n_recs n))) (n_recs n) k
    (if n_inner n && is_leftmost n then 1 else 0)
    (Z.of_nat (length (n_recs n)) - 1).

(** GetPayload(pos) for a position inside the page. *)
Definition pay_at (n : node) (i : Z) : option val :=
  if i <? 0 then None else option_map snd (nth_error (n_recs n) (Z.to_nat i)).

(** fixlen/node.hpp:362-385 SearchChild; [None]: the position is outside the
    page (garbage payload). *)
Definition node_search_child (n : node) (k : key) (closed : bool) : option pid :=
  match bsearch (S (length (n_recs n))) (n_recs n) k 1
          (Z.of_nat (length (n_recs n)) - 1) with
  | (true, pos) => pay_at n (pos + (if closed then 1 else 0) - 1)
  | (false, b) => pay_at n (b - 1)
  end.

(** A scan bound: key and closedness (the key length is not needed). *)
Definition bound := option (key * bool).

(** fixlen/node.hpp:677-686 IsRightmostOf. *)
Definition is_rightmost_of (n : node) (e : bound) : bool :=
  match n_high n with
  | None => true
  | Some h =>
      match e with
      | None => false
      | Some (ek, closed) => (ek <? h) || (negb closed && negb (h <? ek))
      end
  end.

(** fixlen/node.hpp:394-409 SearchEndPositionFor. *)
Definition search_end (n : node) (e : bound) : bool * Z :=
  let is_end := is_rightmost_of n e in
  match is_end, e with
  | true, Some (ek, closed) =>
      let '(found, pos) := node_search n ek in
      (is_end, if found && closed then pos + 1 else pos)
  | _, _ => (is_end, Z.of_nat (length (n_recs n)))
  end.

(** ** Consolidation *)

(** The destination of CopyRecordFrom: the page being filled, its node_size_,
    and, when splitting, the filled left page ([cs_left]) or the fact that the
    switch to the right page is still pending ([cs_pend]: r_node != nullptr). *)
Record cstate := mk_cs {
  cs_left : option (list (key * val) * Z);
  cs_cur  : list (key * val);
  cs_size : Z;
  cs_pend : bool
}.

(** fixlen/node.hpp:476-541, varlen/node.hpp:512-580 CopyRecordFrom: append a
    record of [sz] bytes, switch to the right page once the left one exceeds
    half of the page capacity. *)
Definition copy_rec (g : cfg) (sz : Z) (r : key * val) (s : cstate) : cstate :=
  let cur := cs_cur s ++ [r] in
  let size := cs_size s + sz in
  if cs_pend s && ((c_page g - c_hdr g) / 2 <? size)
  then mk_cs (Some (cur, size)) [] (c_hdr g) false
  else mk_cs (cs_left s) cur size (cs_pend s).

(** CopyRecordFrom for a delta record: delete deltas are dropped. *)
Definition copy_delta (g : cfg) (ps : Z) (d : delta) (s : cstate) : cstate :=
  match d_type d with
  | DDelete => s
  | _ => copy_rec g (recsz g ps (d_key d)) (d_key d, d_pay d) s
  end.

(** bw_tree.hpp:1303-1305: copy the deltas below [k]. *)
Fixpoint flush_below (g : cfg) (ps : Z) (k : key) (ds : list delta) (s : cstate)
    : list delta * cstate :=
  match ds with
  | d :: t => if d_key d <? k then flush_below g ps k t (copy_delta g ps d s) else (ds, s)
  | [] => ([], s)
  end.

(** bw_tree.hpp:1300-1313: the records of one page. *)
Fixpoint merge_recs (g : cfg) (ps : Z) (rs : list (key * val)) (ds : list delta)
    (s : cstate) : list delta * cstate :=
  match rs with
  | [] => (ds, s)
  | (k, v) :: rt =>
      let '(ds1, s1) := flush_below g ps k ds s in
      match ds1 with
      | d :: dt =>
          if negb (k <? d_key d)
          then merge_recs g ps rt dt (copy_delta g ps d s1)
          else merge_recs g ps rt ds1 (copy_rec g (recsz g ps k) (k, v) s1)
      | [] => merge_recs g ps rt [] (copy_rec g (recsz g ps k) (k, v) s1)
      end
  end.

(** bw_tree.hpp:1291-1299: one page, the key-less first record of a leftmost
    inner page being copied without a key comparison. *)
Definition merge_node (g : cfg) (ps : Z) (n : node) (ds : list delta) (s : cstate)
    : list delta * cstate :=
  if n_inner n && is_leftmost n then
    match n_recs n with
    | r :: rt => merge_recs g ps rt ds (copy_rec g (nullsz g) r s)
    | [] => (ds, s)
    end
  else merge_recs g ps (n_recs n) ds s.

(** bw_tree.hpp:1291 (pages from the last of the list to the first) and
    1317-1319 (remaining deltas). *)
Fixpoint merge_nodes (g : cfg) (ps : Z) (ns : list node) (ds : list delta) (s : cstate)
    : cstate :=
  match ns with
  | [] => fold_left (fun s d => copy_delta g ps d s) ds s
  | n :: t => let '(ds1, s1) := merge_node g ps n ds s in merge_nodes g ps t ds1 s1
  end.

Definition okl (g : cfg) (k : option key) : Z :=
  if c_varlen g then match k with Some x => klen g x | None => 0 end else 0.

(** CopyLowKeyFrom (fixlen/node.hpp:422-439, varlen/node.hpp:450-474): the low
    key and the bytes added to node_size_.  In the varlen layout an inner page
    takes it from its first record (whose key length is 0 iff it is the
    key-less record of a leftmost page). *)
Definition low_of (g : cfg) (inner : bool) (base : node) (rs : list (key * val))
    : option key * Z :=
  if c_varlen g && inner then
    ((if is_leftmost base then None
      else match rs with (k, _) :: _ => Some k | [] => None end), 0)
  else (n_low base, okl g (n_low base)).

(** Result of Consolidate (bw_tree.hpp:1275-1337): one page, or a left and a right
    page; [CSplitBad] is the case where a split was requested but the right page
    received no record (its first key would be uninitialised memory). *)
Inductive cons_res :=
| COne (n : node)
| CTwo (l r : node)
| CSplitBad.

(** Default for [hd]/[last]; Sort always returns at least the base page. *)
Definition dummy_node (inner : bool) : node := mk_node 0%N inner None None 0%N [] 0.

(** [ns] is the page list as built by Sort: front = newest merged page, back =
    base page.  [a]/[ra] are the addresses of the pages to fill.  The split-left
    page gets next_ := r_pid in Split. *)
Definition consolidate (g : cfg) (inner : bool) (a ra : addr) (ns : list node)
    (ds : list delta) (split scan : bool) : cons_res :=
  let ps := paysz g inner in
  let base := last ns (dummy_node inner) in
  let front := hd (dummy_node inner) ns in
  let s := merge_nodes g ps (rev ns) ds (mk_cs None [] (c_hdr g) split) in
  if split then
    match cs_left s, cs_cur s with
    | Some (lrs, lsz), (rk, rv) :: _ =>
        let '(llow, ladd) := low_of g inner base lrs in
        let rrs := cs_cur s in
        let radd := if inner then 0 else okl g (Some rk) in
        CTwo (mk_node a inner llow (Some rk) 0%N lrs (lsz + ladd + okl g (Some rk)))
             (mk_node ra inner (Some rk) (n_high front) (n_next front) rrs
                (cs_size s + radd + okl g (n_high front)))
    | _, _ => CSplitBad
    end
  else
    let '(low, add) := low_of g inner base (cs_cur s) in
    COne (mk_node a inner low (n_high front) (n_next front) (cs_cur s)
            (if scan then 2 * c_page g else cs_size s + add + okl g (n_high front))).

(** Bytes a consolidated page really occupies (needed because a page built for a
    scan has its node_size_ overwritten, bw_tree.hpp:1334-1336). *)
Definition scan_bytes (g : cfg) (inner : bool) (ns : list node) (ds : list delta) : Z :=
  let base := last ns (dummy_node inner) in
  let front := hd (dummy_node inner) ns in
  let s := merge_nodes g (paysz g inner) (rev ns) ds (mk_cs None [] (c_hdr g) false) in
  cs_size s + snd (low_of g inner base (cs_cur s)) + okl g (n_high front).

(** GetNodeDiff: fixlen/node.hpp:156-161, varlen/node.hpp:160-166. *)
Definition node_diff (g : cfg) (n : node) : Z :=
  n_size n - c_hdr g
  - okl g (n_low n) * (1 + (if n_inner n then 0 else 1)).

(** New root after a root split: fixlen/node.hpp:86-99, varlen/node.hpp:84-103. *)
Definition new_root (g : cfg) (a : addr) (left_pid : pid) (sep : key) (right_pid : pid) : node :=
  mk_node a true None None 0%N [(c_garbage g, left_pid); (sep, right_pid)]
    (c_hdr g + nullsz g + recsz g ptrlen sep).
