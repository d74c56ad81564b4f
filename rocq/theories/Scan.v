(** Range scans (bw_tree.hpp:206-242, record_iterator.hpp) and the statistics walk
    (bw_tree.hpp:561-572, 718-758). *)
From Coq Require Import ZArith NArith List Bool.
From Verif Require Import Config Page Machine Tree.
Import ListNotations.
Open Scope prog_scope.
Open Scope Z_scope.

(** TryConsolidate(head, page, dummy, kIsScan), bw_tree.hpp:1227-1262: rebuild a
    chain in a private page of 2 * kPageSize bytes. *)
Definition scan_page (g : cfg) (head : chain) : prog node :=
  match dc_sort head [] [] with
  | None => UB UbGarbage
  | Some (ds, ns) =>
      if c_maxd g <? Z.of_nat (length ds) then UB UbArray
      else
        let inner := negb (h_leaf head) in
        if 2 * c_page g <? scan_bytes g inner ns ds then UB UbOverflow
        else match consolidate g inner 0%N 0%N ns ds false true with
             | COne n => Ret n
             | _ => UB UbSplit
             end
  end.

(** bw_tree.hpp:1092-1113 ConsolidateForScan: the page and the begin position. *)
Fixpoint cons_for_scan (g : cfg) (fuel : nat) (bk : key) (closed : bool) (stack : list pid)
    : prog (node * Z) :=
  match fuel with
  | O => Fuel
  | S f =>
      '(oh, st') <- get_head g f bk closed stack 0%N ;;
      match oh with
      | None => UB UbNull
      | Some head =>
          if is_remove head then cons_for_scan g f bk closed st'
          else
            n <- scan_page g head ;;
            let '(found, pos) := node_search n bk in
            Ret (n, if negb found || closed then pos else pos + 1)
      end
  end.

(** The iterator's own fields (record_iterator.hpp:207-223).  Its node_ points to
    the calling thread's scan page (bw_tree.hpp:213-217, thread_local), which is
    passed around explicitly. *)
Record iter := mk_iter { i_pos : Z; i_end : Z; i_isend : bool; i_ekey : bound }.

(** bw_tree.hpp:227-234: wait for the leftmost leaf not to be removed. *)
Fixpoint leftmost_head (fuel : nat) (p : pid) : prog chain :=
  match fuel with
  | O => Fuel
  | S f => c <- load p ;; if is_remove c then leftmost_head f p else Ret c
  end.

(** bw_tree.hpp:206-242 Scan. *)
Definition op_scan (g : cfg) (fuel : nat) (b e : bound) : prog (node * iter) :=
  '(n, pos) <-
    match b with
    | Some (bk, closed) =>
        stack <- search_leaf fuel bk closed ;;
        cons_for_scan g fuel bk closed stack
    | None =>
        stack <- search_leftmost fuel ;;
        match stack with
        | [] => UB UbStack
        | p :: _ => head <- leftmost_head fuel p ;; n <- scan_page g head ;; Ret (n, 0)
        end
    end ;;
  let '(is_end, end_pos) := search_end n e in
  Ret (n, mk_iter pos end_pos is_end e).

(** bw_tree.hpp:1124-1141 SiblingScan, with the move assignment of
    record_iterator.hpp:99-109 (which keeps end_key_). *)
Definition sibling_scan (g : cfg) (fuel : nat) (sib : pid) (bk : key) (e : bound)
    : prog (node * iter) :=
  '(n, pos) <- cons_for_scan g fuel bk true [sib] ;;
  let '(is_end, end_pos) := search_end n e in
  Ret (n, mk_iter pos end_pos is_end e).

(** record_iterator.hpp:167-180 HasRecord. *)
Fixpoint has_record (g : cfg) (fuel : nat) (pg : node) (it : iter)
    : prog (bool * node * iter) :=
  match fuel with
  | O => Fuel
  | S f =>
      if i_pos it <? i_end it then Ret (true, pg, it)
      else if i_isend it then Ret (false, pg, it)
      else match n_high pg with
           | None => UB UbGarbage
           | Some hk =>
               '(pg', it') <- sibling_scan g f (n_next pg) hk (i_ekey it) ;;
               has_record g f pg' it'
           end
  end.

(** record_iterator.hpp:138-143 operator*; 149-153 operator++.  An entry of an inner page
    is not a record. *)
Definition get_record (pg : node) (it : iter) : option (key * val) :=
  if n_inner pg then None else nth_error (n_recs pg) (Z.to_nat (i_pos it)).
Definition advance (it : iter) : iter :=
  mk_iter (i_pos it + 1) (i_end it) (i_isend it) (i_ekey it).

(** The usual client loop: for (auto it = Scan(b, e); it; ++it) use( *it ). *)
Fixpoint collect (g : cfg) (fuel : nat) (pg : node) (it : iter) : prog (list (key * val)) :=
  match fuel with
  | O => Fuel
  | S f =>
      '(more, pg1, it1) <- has_record g f pg it ;;
      if more : bool then
        match get_record pg1 it1 with
        | None => UB UbGarbage
        | Some r => rest <- collect g f pg1 (advance it1) ;; Ret (r :: rest)
        end
      else Ret []
  end.
Definition scan_all (g : cfg) (fuel : nat) (b e : bound) : prog (list (key * val)) :=
  '(pg, it) <- op_scan g fuel b e ;; collect g fuel pg it.

(** ** Statistics *)

(** bw_tree.hpp:729-733. *)
Fixpoint valid_head_not_removed (g : cfg) (fuel : nat) (p : pid) : prog chain :=
  match fuel with
  | O => Fuel
  | S f =>
      c <- load_valid g f p ;;
      if is_remove c then valid_head_not_removed g f p else Ret c
  end.

(** Add one page to the entry of its level, appending the entry if missing
    (bw_tree.hpp:725-727, 736-741): (pages, actual bytes, reserved bytes). *)
Fixpoint add_stat (lvl : nat) (a v : Z) (acc : list (Z * Z * Z)) : list (Z * Z * Z) :=
  match lvl, acc with
  | O, [] => [(1, a, v)]
  | O, (n, x, y) :: t => (n + 1, x + a, y + v) :: t
  | S l, [] => [(0, 0, 0)]
  | S l, e :: t => e :: add_stat l a v t
  end.

(** bw_tree.hpp:718-758; [drec] is kDeltaRecSize. *)
Fixpoint collect_stats (g : cfg) (drec : Z) (fuel : nat) (p : pid) (lvl : nat)
    (acc : list (Z * Z * Z)) : prog (list (Z * Z * Z)) :=
  match fuel with
  | O => Fuel
  | S f =>
      head <- valid_head_not_removed g f p ;;
      match node_usage head with
      | None => UB UbNull
      | Some (sz, dn) =>
          let acc1 := add_stat lvl (sz + dn * drec) (c_page g + dn * drec) acc in
          if h_leaf head then Ret acc1
          else
            n <- scan_page g head ;;
            (fix go (l : list (key * val)) (acc : list (Z * Z * Z)) :=
               match l with
               | [] => Ret acc
               | (_, c) :: t => acc' <- collect_stats g drec f c (S lvl) acc ;; go t acc'
               end) (n_recs n) acc1
      end
  end.
Definition op_stats (g : cfg) (drec : Z) (fuel : nat) : prog (list (Z * Z * Z)) :=
  LoadRoot (fun r => collect_stats g drec fuel r 0 []).
