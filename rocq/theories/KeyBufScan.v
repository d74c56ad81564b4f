(** Scans whose bounds may be the buffer of Node::GetKey, that is, keys obtained from an
    iterator over pointer keys (KeyBuf.v has the point calls). *)
From Coq Require Import ZArith NArith List Bool.
From Verif Require Import Config Api Page Machine Tree Scan KeyBuf.
Import ListNotations.
Open Scope prog_scope.
Open Scope Z_scope.

(** bw_tree.hpp:83 ScanKey: the key argument and whether it is included. *)
Definition kbound := option (kref * bool).

(** bw_tree.hpp:929-967 GetHead, without a target page; Validate uses the buffers of DeltaRecord. *)
Fixpoint get_head_r (g : cfg) (fuel : nat) (r : kref) (buf : key) (closed : bool)
    (stack : list pid) : prog (option chain * list pid * key) :=
  match fuel with
  | O => Fuel
  | S f =>
      match stack with
      | [] => UB UbStack
      | p :: rest =>
          head <- load_valid g f p ;;
          match dc_validate head (deref r buf) closed with
          | VOk => Ret (Some head, stack, buf)
          | VSibling q =>
              if N.eqb q 0 then Ret (Some head, stack, buf)
              else get_head_r g f r buf closed (q :: rest)
          | VRemoved =>
              match rest with
              | [] => '(st', buf1) <- search_leaf_r f r buf closed ;;
                      get_head_r g f r buf1 closed st'
              | _ =>
                  '(_, st', buf1) <- search_child_node_r f r buf closed rest 0%N ;;
                  match st' with
                  | [] => Ret (None, [], buf1)
                  | _ => get_head_r g f r buf1 closed st'
                  end
              end
          end
      end
  end.

Section Cb.
(** What the buffer holds after TryConsolidate has rebuilt the chain: the key read last by
    bw_tree.hpp:1302.  Nothing below depends on it, so it is left open. *)
Variable cb : chain -> key -> key.

(** bw_tree.hpp:1092-1113 ConsolidateForScan. *)
Fixpoint cons_for_scan_r (g : cfg) (fuel : nat) (r : kref) (buf : key) (closed : bool)
    (stack : list pid) : prog (node * Z * key) :=
  match fuel with
  | O => Fuel
  | S f =>
      '(oh, st', buf1) <- get_head_r g f r buf closed stack ;;
      match oh with
      | None => UB UbNull
      | Some head =>
          if is_remove head then cons_for_scan_r g f r buf1 closed st'
          else
            n <- scan_page g head ;;
            let '(found, pos, buf2) := node_search_r n r (cb head buf1) in
            Ret (n, (if negb found || closed then pos else pos + 1), buf2)
      end
  end.

(** varlen/node.hpp:731-741 IsRightmostOf: the high key is copied to the buffer. *)
Definition is_rightmost_r (n : node) (e : kbound) (buf : key) : bool * key :=
  match n_high n, e with
  | None, _ => (true, buf)
  | Some _, None => (false, buf)
  | Some h, Some (r, closed) =>
      let k := deref r h in ((k <? h) || (negb closed && negb (h <? k)), h)
  end.
(** varlen/node.hpp:422-437 SearchEndPositionFor. *)
Definition search_end_r (n : node) (e : kbound) (buf : key) : bool * Z * key :=
  let '(is_end, buf1) := is_rightmost_r n e buf in
  match is_end, e with
  | true, Some (r, closed) =>
      let '(found, pos, buf2) := node_search_r n r buf1 in
      (is_end, (if found && closed then pos + 1 else pos), buf2)
  | _, _ => (is_end, Z.of_nat (length (n_recs n)), buf1)
  end.

(** The fields of an iterator except the end key, which stays what it was. *)
Record place := mk_place { pl_pos : Z; pl_end : Z; pl_isend : bool }.

(** bw_tree.hpp:206-242 Scan. *)
Definition op_scan_r (g : cfg) (fuel : nat) (b e : kbound) (buf : key)
    : prog (node * place * key) :=
  '(n, pos, buf1) <-
    match b with
    | Some (r, closed) =>
        '(stack, buf1) <- search_leaf_r fuel r buf closed ;;
        cons_for_scan_r g fuel r buf1 closed stack
    | None =>
        stack <- search_leftmost fuel ;;
        match stack with
        | [] => UB UbStack
        | p :: _ =>
            head <- leftmost_head fuel p ;;
            n <- scan_page g head ;; Ret (n, 0, cb head buf)
        end
    end ;;
  let '(is_end, end_pos, buf2) := search_end_r n e buf1 in
  Ret (n, mk_place pos end_pos is_end, buf2).

(** bw_tree.hpp:1124-1141 SiblingScan; its begin key is in the buffer of Node::GetHighKey. *)
Definition sibling_scan_r (g : cfg) (fuel : nat) (sib : pid) (bk : key) (e : kbound)
    (buf : key) : prog (node * place * key) :=
  '(n, pos, buf1) <- cons_for_scan_r g fuel (KVal bk) buf true [sib] ;;
  let '(is_end, end_pos, buf2) := search_end_r n e buf1 in
  Ret (n, mk_place pos end_pos is_end, buf2).

(** record_iterator.hpp:167-180 HasRecord. *)
Fixpoint has_record_r (g : cfg) (fuel : nat) (pg : node) (it : place) (e : kbound) (buf : key)
    : prog (bool * node * place * key) :=
  match fuel with
  | O => Fuel
  | S f =>
      if pl_pos it <? pl_end it then Ret (true, pg, it, buf)
      else if pl_isend it then Ret (false, pg, it, buf)
      else match n_high pg with
           | None => UB UbGarbage
           | Some hk =>
               '(pg', it', buf1) <- sibling_scan_r g f (n_next pg) hk e buf ;;
               has_record_r g f pg' it' e buf1
           end
  end.

(** The client loop; operator* (record_iterator.hpp:138-143) fills the buffer. *)
Fixpoint collect_r (g : cfg) (fuel : nat) (pg : node) (it : place) (e : kbound) (buf : key)
    : prog (list (key * val)) :=
  match fuel with
  | O => Fuel
  | S f =>
      '(more, pg1, it1, buf1) <- has_record_r g f pg it e buf ;;
      if more : bool then
        match (if n_inner pg1 then None else nth_error (n_recs pg1) (Z.to_nat (pl_pos it1))) with
        | None => UB UbGarbage
        | Some x =>
            rest <- collect_r g f pg1 (mk_place (pl_pos it1 + 1) (pl_end it1) (pl_isend it1)) e (fst x) ;;
            Ret (x :: rest)
        end
      else Ret []
  end.
Definition scan_all_r (g : cfg) (fuel : nat) (b e : kbound) (buf : key) : prog (list (key * val)) :=
  '(pg, it, buf1) <- op_scan_r g fuel b e buf ;; collect_r g fuel pg it e buf1.
End Cb.

(** The bound a user builds from RecordIterator::GetKey at a record with key [k]. *)
Definition iter_bound (g : cfg) (b : bound) : kbound :=
  match b with Some (k, closed) => Some (iter_key g k, closed) | None => None end.
(** ... and from a copy of the key. *)
Definition own_bound (b : bound) : kbound :=
  match b with Some (k, closed) => Some (KVal k, closed) | None => None end.
