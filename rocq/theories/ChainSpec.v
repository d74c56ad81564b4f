(** Vocabulary for delta chains: their key range, the records or index entries
    they stand for, and when a chain is well formed.  Definitions only. *)
From Coq Require Import ZArith NArith List Bool.
From Coq Require Import Sorting.Sorted.
From Verif Require Import Config Page ListFacts.
Import ListNotations.
Open Scope Z_scope.

Definition lo_ok (lo : option key) (k : key) : Prop :=
  match lo with Some l => l <= k | None => True end.
Definition lo_lt (lo : option key) (k : key) : Prop :=
  match lo with Some l => l < k | None => True end.
Definition hi_ok (hi : option key) (k : key) : Prop :=
  match hi with Some h => k < h | None => True end.
Definition in_rng lo hi k := lo_ok lo k /\ hi_ok hi k.
Definition in_srng lo hi k := lo_lt lo k /\ hi_ok hi k.
Definition rng_ne (lo hi : option key) : Prop :=
  match hi with Some h => lo_lt lo h | None => True end.

(** Base page and newest merged page of a chain. *)
Fixpoint c_base (c : chain) : node :=
  match c with
  | CBase n => n
  | CRec _ nx | CMerge _ _ nx => c_base nx
  | CRemove _ l => dummy_node (negb l)
  end.
Fixpoint c_front (c : chain) : node :=
  match c with
  | CBase n => n
  | CRec _ nx => c_front nx
  | CMerge _ n _ => n
  | CRemove _ l => dummy_node (negb l)
  end.
Definition c_lo c := n_low (c_base c).
Definition c_hi c := n_high (c_front c).
Definition c_next c := n_next (c_front c).
(** Pages in the order of Sort (newest merged page first). *)
Fixpoint pages (c : chain) : list node :=
  match c with
  | CBase n => [n]
  | CRec _ nx => pages nx
  | CMerge _ n nx => n :: pages nx
  | CRemove _ _ => []
  end.
(** Newest delta record for a key. *)
Fixpoint newest (k : key) (c : chain) : option delta :=
  match c with
  | CRec d nx => if d_key d =? k then Some d else newest k nx
  | CMerge _ _ nx => newest k nx
  | _ => None
  end.
Fixpoint ndelta (c : chain) : nat :=
  match c with CRec _ nx => S (ndelta nx) | CMerge _ _ nx => ndelta nx | _ => 0 end.

(** What a reader that walks a leaf chain from the newest delta to the base page
    sees under a key.  A merge delta stands for the page of an absorbed right
    sibling, whose keys start at the separator of the delta. *)
Fixpoint visible (c : chain) (k : key) : option val :=
  match c with
  | CBase n => find k (n_recs n)
  | CRec d nx =>
      if d_key d =? k
      then match d_type d with DDelete => None | _ => Some (d_pay d) end
      else visible nx k
  | CMerge d n nx => if d_key d <=? k then find k (n_recs n) else visible nx k
  | CRemove _ _ => None
  end.

(** ** Leaf chains *)
Fixpoint lrecs (c : chain) : list (key * val) :=
  match c with
  | CBase n => n_recs n
  | CRec d nx =>
      match d_type d with
      | DDelete => del (d_key d) (lrecs nx)
      | _ => put (d_key d) (d_pay d) (lrecs nx)
      end
  | CMerge _ n nx => lrecs nx ++ n_recs n
  | CRemove _ _ => []
  end.

Definition csum (g : cfg) (ps : Z) (rs : list (key * val)) : Z :=
  fold_right (fun r a => recsz g ps (fst r) + a) 0 rs.

Definition lbytes (g : cfg) (lo hi : option key) (rs : list (key * val)) : Z :=
  c_hdr g + csum g (c_paylen g) rs + okl g lo + okl g hi.

(** A well-formed leaf page. *)
Definition lnode (g : cfg) (n : node) : Prop :=
  n_inner n = false /\ sorted (n_recs n) /\
  Forall (fun r => in_rng (n_low n) (n_high n) (fst r)) (n_recs n) /\
  rng_ne (n_low n) (n_high n) /\
  n_size n = lbytes g (n_low n) (n_high n) (n_recs n).

Definition next_cnt (nx : chain) : Z := if is_base nx then 1 else h_cnt nx + 1.

Fixpoint lwf (g : cfg) (c : chain) : Prop :=
  match c with
  | CBase n => lnode g n
  | CRec d nx =>
      lwf g nx /\ d_inner d = false /\ in_rng (c_lo nx) (c_hi nx) (d_key d) /\
      d_cnt d = next_cnt nx /\
      match d_type d with
      | DInsert => find (d_key d) (lrecs nx) = None /\
                   d_size d = h_size nx + recsz g (c_paylen g) (d_key d)
      | DModify => (exists v, find (d_key d) (lrecs nx) = Some v) /\ d_size d = h_size nx
      | DDelete => (exists v, find (d_key d) (lrecs nx) = Some v) /\
                   d_size d = h_size nx - recsz g (c_paylen g) (d_key d)
      | DMerge => False
      end
  | CMerge d n nx =>
      lwf g nx /\ lnode g n /\ d_inner d = false /\ d_type d = DMerge /\
      n_low n = Some (d_key d) /\ c_hi nx = Some (d_key d) /\ d_high d = n_high n /\
      d_cnt d = next_cnt nx /\ d_size d = h_size nx + node_diff g n
  | CRemove _ _ => False
  end.

(** ** Inner chains: a leading child and the separator entries *)
Definition nlead (n : node) : pid := match n_recs n with (_, v) :: _ => v | [] => 0%N end.
Definition nents (n : node) : list (key * val) := tl (n_recs n).
Fixpoint ilead (c : chain) : pid :=
  match c with
  | CBase n => nlead n
  | CRec _ nx | CMerge _ _ nx => ilead nx
  | CRemove _ _ => 0%N
  end.
Fixpoint ients (c : chain) : list (key * val) :=
  match c with
  | CBase n => nents n
  | CRec d nx =>
      match d_type d with
      | DDelete => del (d_key d) (ients nx)
      | _ => put (d_key d) (d_pay d) (ients nx)
      end
  | CMerge d n nx => ients nx ++ (d_key d, nlead n) :: nents n
  | CRemove _ _ => []
  end.

Definition ifirst (g : cfg) (lo : option key) : Z :=
  match lo with None => nullsz g | Some l => recsz g ptrlen l end.
Definition ibytes (g : cfg) (lo hi : option key) (es : list (key * val)) : Z :=
  c_hdr g + ifirst g lo + csum g ptrlen es + okl g hi.

(** A well-formed inner page. *)
Definition inode (g : cfg) (n : node) : Prop :=
  n_inner n = true /\
  (exists k0, n_recs n = (k0, nlead n) :: nents n /\
     match n_low n with Some l => k0 = l | None => True end) /\
  sorted (nents n) /\
  Forall (fun r => in_srng (n_low n) (n_high n) (fst r)) (nents n) /\
  rng_ne (n_low n) (n_high n) /\
  n_size n = ibytes g (n_low n) (n_high n) (nents n).

Fixpoint iwf (g : cfg) (c : chain) : Prop :=
  match c with
  | CBase n => inode g n
  | CRec d nx =>
      iwf g nx /\ d_inner d = true /\ in_srng (c_lo nx) (c_hi nx) (d_key d) /\
      d_cnt d = next_cnt nx /\
      match d_type d with
      | DInsert => find (d_key d) (ients nx) = None /\
                   d_size d = h_size nx + recsz g ptrlen (d_key d)
      | DDelete => (exists v, find (d_key d) (ients nx) = Some v) /\
                   d_size d = h_size nx - recsz g ptrlen (d_key d)
      | _ => False
      end
  | CMerge d n nx =>
      iwf g nx /\ inode g n /\ d_inner d = true /\ d_type d = DMerge /\
      n_low n = Some (d_key d) /\ c_hi nx = Some (d_key d) /\ d_high d = n_high n /\
      d_cnt d = next_cnt nx /\ d_size d = h_size nx + node_diff g n
  | CRemove _ _ => False
  end.

(** Successor of a separator among [es], or the high key of the node. *)
Fixpoint succ_key (k : key) (hi : option key) (es : list (key * val)) : option key :=
  match es with
  | [] => hi
  | (x, _) :: t => if k <? x then Some x else succ_key k hi t
  end.

(** Each index delta covers the keys up to the next separator. *)
Fixpoint iexact (c : chain) : Prop :=
  match c with
  | CBase _ | CRemove _ _ => True
  | CRec d nx => iexact nx /\ d_high d = succ_key (d_key d) (c_hi nx) (ients nx)
  | CMerge _ _ nx => iexact nx
  end.

(** Payload cells of the index-delete deltas: the left neighbour. *)
Fixpoint icells (cell : addr -> pid) (pend : addr -> key -> Prop) (c : chain) : Prop :=
  match c with
  | CBase _ | CRemove _ _ => True
  | CRec d nx =>
      icells cell pend nx /\
      (d_type d = DDelete ->
        pend (d_addr d) (d_key d) \/
        (cell (d_addr d) = route (d_key d) (ilead nx) (del (d_key d) (ients nx))
         /\ cell (d_addr d) <> 0%N))
  | CMerge _ _ nx => icells cell pend nx
  end.

(** What a search of a page and of a chain answers, as combined by the callers:
    bw_tree.hpp:161-193 (Read) and 776-813 (SearchChildNode).  [None]: the search
    leaves this node. *)
Definition page_lookup (n : node) (k : key) : option val :=
  let '(found, p) := node_search n k in if found then pay_at n p else None.
Definition chain_lookup (c : chain) (k : key) : option (option val) :=
  match dc_search_record c k false with
  | RFound v => Some (Some v)
  | RNotFound => Some None
  | RBase n => Some (page_lookup n k)
  | _ => None
  end.
Definition chain_child (cell : addr -> pid) (c : chain) (k : key) (closed : bool) : option pid :=
  match dc_search_child c k closed false with
  | RFound v => Some v
  | RWait a => Some (cell a)
  | RBase n => node_search_child n k closed
  | _ => None
  end.
