(** Bulkload (bw_tree.hpp:471-548, 1597-1650; fixlen/node.hpp:558-652;
    varlen/node.hpp:597-706).  [op_bulkload] runs the worker threads of the
    multi-threaded path one after the other, which fixes one numbering of the pages;
    [work] interleaves them. *)
From Coq Require Import ZArith NArith List Bool.
From Verif Require Import Config Api Page Machine Tree.
Import ListNotations.
Open Scope prog_scope.
Open Scope Z_scope.

(** kInnerNodeCap, bw_tree.hpp:617-618. *)
Definition inner_cap (g : cfg) : Z :=
  (c_page g - c_hdr g - c_ksize g) / (c_ksize g + ptrlen + metalen g).

(** The loops of fixlen/node.hpp:572-583 and varlen/node.hpp:614-630: take entries
    while the estimated size stays within the bulk-loading capacity.  [est] is
    node_size_ (fixlen) or the local node_size (varlen), [sz] is node_size_. *)
Fixpoint bulk_fill (g : cfg) (ps est sz : Z) (es : list (key * val))
    : list (key * val) * list (key * val) * Z :=
  match es with
  | [] => ([], [], sz)
  | (k, v) :: t =>
      let tot := recsz g ps k in
      if c_bulkcap g <? est + tot then ([], es, sz)
      else let '(a, b, z) := bulk_fill g ps (est + tot) (sz + tot) t in ((k, v) :: a, b, z)
  end.

(** Initial estimate: kHeaderLen (fixlen), or varlen/node.hpp:610-615, where the
    variable called is_leaf is 1 for inner nodes. *)
Definition bulk_est (g : cfg) (inner : bool) : Z :=
  if c_varlen g then c_hdr g + c_maxklen g + (if inner then c_maxklen g else 0)
  else c_hdr g.

(** Node::Bulkload: the node and the remaining entries.  The low key is the key of
    record 0; varlen/node.hpp:635 adds its length to node_size_ for inner nodes. *)
Definition bulk_node (g : cfg) (a : addr) (inner : bool) (es : list (key * val))
    : node * list (key * val) :=
  let '(rs, rest, sz) := bulk_fill g (paysz g inner) (bulk_est g inner) (c_hdr g) es in
  let low := match rs with (k, _) :: _ => k | [] => c_garbage g end in
  (mk_node a inner (Some low) None 0%N rs
     (sz + (if inner then okl g (Some low) else 0)), rest).

(** LinkNext: fixlen/node.hpp:732-743, varlen/node.hpp:858-873. *)
Definition link_next (g : cfg) (n : node) (rp : pid) (low : option key) : node :=
  mk_node (n_addr n) (n_inner n) (n_low n) low rp (n_recs n) (n_size n + okl g low).

(** bw_tree.hpp:1626-1650 ConstructSingleLayer: the (low key, page ID) entries of
    the new pages.  In-place updates of pages not yet reachable are Stores. *)
Fixpoint construct_layer (g : cfg) (fuel : nat) (inner : bool) (es : list (key * val))
    (prev : option (pid * node)) : prog (list (key * val)) :=
  match fuel with
  | O => Fuel
  | S f =>
      match es with
      | [] => Ret []
      | _ =>
          a <- alloc ;;
          NewPid (fun p =>
            let '(n, rest) := bulk_node g a inner es in
            _ <- store p (CBase n) ;;
            _ <- match prev with
                 | Some (pp, pn) => store pp (CBase (link_next g pn p (n_low n)))
                 | None => Ret tt
                 end ;;
            nodes <- construct_layer g f inner rest (Some (p, n)) ;;
            Ret ((match n_low n with Some k => k | None => c_garbage g end, p) :: nodes))
      end
  end.

(** bw_tree.hpp:1607-1612: index layers of a partial tree. *)
Fixpoint partial_layers (g : cfg) (fuel : nat) (nodes : list (key * val)) (height : Z)
    : prog (Z * list (key * val)) :=
  match fuel with
  | O => Fuel
  | S f =>
      if inner_cap g <? Z.of_nat (length nodes) then
        ns <- construct_layer g f true nodes None ;; partial_layers g f ns (height + 1)
      else Ret (height, nodes)
  end.

(** bw_tree.hpp:1597-1615 BulkloadWithSingleThread. *)
Definition bulk_single (g : cfg) (fuel : nat) (es : list (key * val))
    : prog (Z * list (key * val)) :=
  nodes <- construct_layer g fuel false es None ;; partial_layers g fuel nodes 1.

(** LinkVerticalBorderNodes: fixlen/node.hpp:605-627. *)
Fixpoint link_vertical (g : cfg) (fuel : nat) (l r : pid) : prog unit :=
  match fuel with
  | O => Fuel
  | S f =>
      if N.eqb l 0 then Ret tt
      else
        cl <- load l ;; cr <- load r ;;
        match cl, cr with
        | CBase ln, CBase rn =>
            match n_low rn with
            | None => UB UbGarbage      (* low_key_ of the right page was never set *)
            | Some _ =>
                _ <- store l (CBase (link_next g ln r (n_low rn))) ;;
                if negb (n_inner ln) then Ret tt
                else match n_inner rn, n_recs rn, rev (n_recs ln) with
                     | true, (_, r') :: _, (_, l') :: _ => link_vertical g f l' r'
                     | _, _, _ => UB UbGarbage  (* GetPayload<PageID> of a leaf or of no record *)
                     end
            end
        | _, _ => UB UbGarbage
        end
  end.

(** RemoveLeftmostKeys: fixlen/node.hpp:636-652, varlen/node.hpp:684-706. *)
Fixpoint remove_leftmost (fuel : nat) (p : pid) : prog unit :=
  match fuel with
  | O => Fuel
  | S f =>
      c <- load p ;;
      match c with
      | CBase n =>
          _ <- store p (CBase (mk_node (n_addr n) (n_inner n) None (n_high n) (n_next n)
                                 (n_recs n) (n_size n))) ;;
          if negb (n_inner n) then Ret tt
          else match n_recs n with
               | (_, q) :: _ => remove_leftmost f q
               | [] => UB UbGarbage
               end
      | _ => UB UbGarbage
      end
  end.

(** bw_tree.hpp:497-506: the i-th worker gets (rec_num + i) / thread_num entries. *)
Definition part_size (rec_num thread_num i : Z) : Z := (rec_num + i) / thread_num.
Fixpoint partition {A} (thread_num : Z) (i : Z) (cnt : nat) (rec_num : Z) (es : list A)
    : list (list A) :=
  match cnt with
  | O => []
  | S c =>
      let n := Z.to_nat (part_size rec_num thread_num i) in
      firstn n es :: partition thread_num (i + 1) c rec_num (skipn n es)
  end.

Fixpoint run_parts (g : cfg) (fuel : nat) (ps : list (list (key * val)))
    : prog (list (Z * list (key * val))) :=
  match ps with
  | [] => Ret []
  | p :: t => x <- bulk_single g fuel p ;; xs <- run_parts g fuel t ;; Ret (x :: xs)
  end.

(** bw_tree.hpp:522-525. *)
Fixpoint raise_to (g : cfg) (fuel : nat) (h height : Z) (nodes : list (key * val))
    : prog (list (key * val)) :=
  match fuel with
  | O => Fuel
  | S f =>
      if h <? height then
        ns <- construct_layer g f true nodes None ;; raise_to g f (h + 1) height ns
      else Ret nodes
  end.

(** bw_tree.hpp:519-531: align heights and link the partial trees. *)
Fixpoint align (g : cfg) (fuel : nat) (height : Z) (prev : pid)
    (ts : list (Z * list (key * val))) : prog (list (key * val)) :=
  match ts with
  | [] => Ret []
  | (h, ns) :: t =>
      ns1 <- raise_to g fuel h height ns ;;
      match ns1 with
      | [] => UB UbGarbage
      | (_, first) :: _ =>
          _ <- link_vertical g fuel prev first ;;
          rest <- align g fuel height (snd (last ns1 (0, 0%N))) t ;;
          Ret (ns1 ++ rest)
      end
  end.

(** bw_tree.hpp:535-537. *)
Fixpoint upper_layers (g : cfg) (fuel : nat) (nodes : list (key * val))
    : prog (list (key * val)) :=
  match fuel with
  | O => Fuel
  | S f =>
      if 1 <? Z.of_nat (length nodes) then
        ns <- construct_layer g f true nodes None ;; upper_layers g f ns
      else Ret nodes
  end.

(** Which kind of memory is registered with the collector

    NodePage (kPageSize bytes) or DeltaPage (kDeltaRecSize bytes), common.hpp:112-127; the
    collector hands memory out again for the kind it was registered as (bw_tree.hpp:650-673). *)
Inductive kind := NodePage | DeltaPage.
(** bw_tree.hpp:684-709 AddToGC with its template arguments. *)
Fixpoint gc_adds (c : chain) : list (kind * addr) :=
  match c with
  | CBase n => [(NodePage, n_addr n)]
  | CRec d nx => (DeltaPage, d_addr d) :: gc_adds nx
  | CMerge d n nx => (DeltaPage, d_addr d) :: (NodePage, n_addr n) :: gc_adds nx
  | CRemove a _ => [(DeltaPage, a)]
  end.
(** bw_tree.hpp:544: gc_.AddGarbage<NodePage>(old_lptr->Load()), without regard to what
    the slot of the old root holds. *)
Definition bulk_adds (c : chain) : list (kind * addr) := [(NodePage, h_addr c)].

(** bw_tree.hpp:534-545: the upper layers and the exchange of the root. *)
Definition bulk_root (g : cfg) (fuel : nat) (nodes : list (key * val)) : prog rc :=
  ns <- upper_layers g fuel nodes ;;
  match ns with
  | [] => UB UbGarbage
  | (_, new_pid) :: _ =>
      _ <- remove_leftmost fuel new_pid ;;
      LoadRoot (fun old =>      (* root_.exchange *)
        StoreRoot new_pid
          (c <- load old ;;
           Retire (map snd (bulk_adds c)) (Clear old (Ret Success))))
  end.

(** bw_tree.hpp:512-532: the height of the partial trees, alignment, links. *)
Definition bulk_align (g : cfg) (fuel : nat) (ts : list (Z * list (key * val)))
    : prog (list (key * val)) :=
  let height := fold_left (fun h t => Z.max h (fst t)) ts 1 in
  align g fuel height 0%N ts.

(** bw_tree.hpp:471-548 Bulkload. *)
Definition op_bulkload (g : cfg) (fuel : nat) (es : list (key * val)) (thread_num : Z)
    : prog rc :=
  match es with
  | [] => Ret Success
  | _ =>
      let n := Z.of_nat (length es) in
      nodes <-
        (if (thread_num <=? 1) || (n <? thread_num) then
           '(_, ns) <- bulk_single g fuel es ;; Ret ns
         else
           ts <- run_parts g fuel (partition thread_num 0 (Z.to_nat thread_num) n es) ;;
           bulk_align g fuel ts) ;;
      bulk_root g fuel nodes
  end.

(** ** The worker threads interleaved (bw_tree.hpp:489-515)

    Every worker runs BulkloadWithSingleThread on its slice; the calling thread waits for
    all of them and goes on with [bulk_join]. *)
Notation worker := (prog (Z * list (key * val))).
Definition bulk_workers (g : cfg) (fuel : nat) (es : list (key * val)) (thread_num : Z) : list worker :=
  map (bulk_single g fuel) (partition thread_num 0 (Z.to_nat thread_num) (Z.of_nat (length es)) es).
Fixpoint work (ws : list worker) (s : st) (sch : list nat) : list worker * st :=
  match sch with
  | [] => (ws, s)
  | t :: r =>
      match nth_error ws t with
      | Some m =>
          match pstep m false s with
          | Some (m', s') => work (firstn t ws ++ m' :: skipn (S t) ws) s' r
          | None => work ws s r
          end
      | None => work ws s r
      end
  end.
Definition bulk_join (g : cfg) (fuel : nat) (ts : list (Z * list (key * val))) : prog rc :=
  nodes <- bulk_align g fuel ts ;; bulk_root g fuel nodes.
