(** Pointer keys (Key = char* ): the node getters return a pointer to one thread-local
    buffer (varlen/node.hpp:757-774 GetKey), and RecordIterator::GetKey and operator*
    (record_iterator.hpp:138-143, 182-190) hand that pointer to the user.  This file
    repeats the point calls for a key argument that may be this very pointer.

    Of the thread-local key buffers only this one is user-visible through a public call
    (Node::GetLowKey, Node::GetHighKey, DeltaRecord::GetKey and DeltaRecord::GetHighKey
    each have their own); it is written by the probes of SearchRecord and SearchChild.
    Simplification: the length of a key is a function of the key (Config.v), so a delta
    record built from the buffer gets the length of the buffer's content; in the code it is
    the caller's key_len.  The two agree when all keys have the same length. *)
From Coq Require Import ZArith NArith List Bool.
From Verif Require Import Config Api Page Machine Tree.
Import ListNotations.
Open Scope prog_scope.
Open Scope Z_scope.

(** A key argument: memory of the caller's own, or the buffer of Node::GetKey. *)
Inductive kref := KVal (k : key) | KBuf.
Definition deref (r : kref) (buf : key) : key := match r with KVal k => k | KBuf => buf end.

(** The loops of varlen/node.hpp:358-380 and 392-415; also the buffer afterwards. *)
Fixpoint bsearch_r (fuel : nat) (rs : list (key * val)) (r : kref) (buf : key) (b e : Z)
    : bool * Z * key :=
  match fuel with
  | O => (false, b, buf)
  | S f =>
      if b <=? e then
        let pos := (b + e) / 2 in
        let buf1 := key_at rs pos in (* GetKey(meta_array_[pos]) fills the buffer *)
        let k := deref r buf1 in
        if k <? buf1 then bsearch_r f rs r buf1 b (pos - 1)
        else if buf1 <? k then bsearch_r f rs r buf1 (pos + 1) e
        else (true, pos, buf1)
      else (false, b, buf)
  end.

(** varlen/node.hpp:358-380 SearchRecord. *)
Definition node_search_r (n : node) (r : kref) (buf : key) : bool * Z * key :=
  bsearch_r (S (length (n_recs n))) (n_recs n) r buf
    (if n_inner n && is_leftmost n then 1 else 0)
    (Z.of_nat (length (n_recs n)) - 1).

(** varlen/node.hpp:392-415 SearchChild. *)
Definition node_search_child_r (n : node) (r : kref) (buf : key) (closed : bool)
    : option pid * key :=
  match bsearch_r (S (length (n_recs n))) (n_recs n) r buf 1
          (Z.of_nat (length (n_recs n)) - 1) with
  | (true, pos, b1) => (pay_at n (pos + (if closed then 1 else 0) - 1), b1)
  | (false, b, b1) => (pay_at n (b - 1), b1)
  end.

(** bw_tree.hpp:770-816 SearchChildNode; the comparisons with delta records use the
    buffers of DeltaRecord. *)
Fixpoint search_child_node_r (fuel : nat) (r : kref) (buf : key) (closed : bool)
    (stack : list pid) (target : pid) : prog (bool * list pid * key) :=
  match fuel with
  | O => Fuel
  | S f =>
      match stack with
      | [] => UB UbStack
      | p :: rest =>
          c <- load p ;;
          match dc_search_child c (deref r buf) closed false with
          | RFound v => if h_leaf c then UB UbGarbage else Ret (false, v :: stack, buf)
          | RWait a => v <- wait_cell f a ;; Ret (false, v :: stack, buf)
          | RSibling q =>
              if N.eqb q target then Ret (true, stack, buf)
              else search_child_node_r f r buf closed (q :: rest) target
          | RRemoved =>
              match rest with
              | [] =>
                  if negb (N.eqb target 0) then Ret (false, [], buf)
                  else LoadRoot (fun q => search_child_node_r f r buf closed [q] target)
              | _ =>
                  '(b, st', buf1) <- search_child_node_r f r buf closed rest target ;;
                  if b : bool then Ret (true, st', buf1)
                  else match st' with
                       | [] => Ret (false, [], buf1)
                       | _ => search_child_node_r f r buf1 closed st' target
                       end
              end
          | RBase n =>
              let '(ov, buf1) := node_search_child_r n r buf closed in
              match ov with
              | Some v => if h_leaf c then UB UbGarbage else Ret (false, v :: stack, buf1)
              | None => UB UbGarbage
              end
          | RNotFound | RGarbage => UB UbGarbage
          end
      end
  end.

(** bw_tree.hpp:825-842 SearchLeafNode. *)
Fixpoint leaf_loop_r (fuel : nat) (r : kref) (buf : key) (closed : bool) (stack : list pid)
    : prog (list pid * key) :=
  match fuel with
  | O => Fuel
  | S f =>
      match stack with
      | [] => UB UbStack
      | p :: _ =>
          c <- load p ;;
          if h_leaf c then Ret (stack, buf)
          else '(_, st', buf1) <- search_child_node_r f r buf closed stack 0%N ;;
               leaf_loop_r f r buf1 closed st'
      end
  end.
Definition search_leaf_r (fuel : nat) (r : kref) (buf : key) (closed : bool)
    : prog (list pid * key) :=
  LoadRoot (fun q => leaf_loop_r fuel r buf closed [q]).

(** bw_tree.hpp:977-1017 GetHeadWithKeyCheck. *)
Fixpoint get_head_kc_r (g : cfg) (fuel : nat) (r : kref) (buf : key) (stack : list pid)
    : prog (chain * bool * list pid * key) :=
  match fuel with
  | O => Fuel
  | S f =>
      match stack with
      | [] => UB UbStack
      | p :: rest =>
          head <- load_valid g f p ;;
          match dc_search_record head (deref r buf) false with
          | RFound _ => Ret (head, true, stack, buf)
          | RNotFound => Ret (head, false, stack, buf)
          | RSibling q => get_head_kc_r g f r buf (q :: rest)
          | RRemoved =>
              match rest with
              | [] => '(st', buf1) <- search_leaf_r f r buf true ;; get_head_kc_r g f r buf1 st'
              | _ => '(_, st', buf1) <- search_child_node_r f r buf true rest 0%N ;;
                     get_head_kc_r g f r buf1 st'
              end
          | RBase n =>
              let '(found, _, buf1) := node_search_r n r buf in
              Ret (head, found, stack, buf1)
          | RWait _ | RGarbage => UB UbGarbage
          end
      end
  end.

(** bw_tree.hpp:145-197 Read. *)
Fixpoint read_loop_r (g : cfg) (fuel : nat) (r : kref) (buf : key) (stack : list pid)
    : prog (option val) :=
  match fuel with
  | O => Fuel
  | S f =>
      match stack with
      | [] => UB UbStack
      | p :: rest =>
          head <- load p ;;
          match dc_search_record head (deref r buf) false with
          | RFound v => if h_leaf head then Ret (Some v) else UB UbGarbage
          | RNotFound => Ret None
          | RSibling q => read_loop_r g f r buf (q :: rest)
          | RRemoved =>
              '(_, st', buf1) <- search_child_node_r f r buf true rest 0%N ;;
              read_loop_r g f r buf1 st'
          | RBase n =>
              let '(found, pos, _) := node_search_r n r buf in
              if found : bool then
                match pay_at n pos with
                | Some v => if h_leaf head then Ret (Some v) else UB UbGarbage
                | None => UB UbGarbage
                end
              else Ret None
          | RWait _ | RGarbage => UB UbGarbage
          end
      end
  end.
Definition op_read_r (g : cfg) (fuel : nat) (r : kref) (buf : key) : prog (option val) :=
  '(stack, buf1) <- search_leaf_r fuel r buf true ;; read_loop_r g fuel r buf1 stack.

(** What a writing call appends, given the page head and whether the key was found
    (bw_tree.hpp:277-283, 331-338, 384-391, 433-441); [None]: nothing, with the returned
    code.  [k] is the key stored in the delta record. *)
Inductive wkind := WWrite | WInsert | WUpdate | WDelete.
Definition wdelta (g : cfg) (w : wkind) (a : addr) (k : key) (v : val) (head : chain)
    (found : bool) : delta + rc :=
  match w, found with
  | WWrite, true => inl (set_next (leaf_delta a DModify k v) head 0)
  | WWrite, false | WInsert, false =>
      inl (set_next (leaf_delta a DInsert k v) head (recsz g (c_paylen g) k))
  | WInsert, true => inr KeyExist
  | WUpdate, true => inl (set_next (leaf_delta a DModify k v) head 0)
  | WDelete, true =>
      inl (set_next (leaf_delta a DDelete k 0%N) head (- recsz g (c_paylen g) k))
  | WUpdate, false | WDelete, false => inr KeyNotExist
  end.

(** The loops of Write, Insert, Update and Delete (bw_tree.hpp:260-452).  The delta record
    ([dk]) is built once, after SearchLeafNode; the checks go on reading the argument. *)
Fixpoint put_loop_r (g : cfg) (fuel : nat) (w : wkind) (a : addr) (dk : key) (v : val)
    (r : kref) (buf : key) (stack : list pid) : prog rc :=
  match fuel with
  | O => Fuel
  | S f =>
      '(head, found, st', buf1) <- get_head_kc_r g f r buf stack ;;
      match wdelta g w a dk v head found with
      | inr c => Ret c
      | inl d =>
          match st' with
          | [] => UB UbStack
          | p :: _ =>
              ok <- cas true p (h_addr head) (CRec d head) ;;
              if ok then finish g f (CRec d head) st'
              else put_loop_r g f w a dk v r buf1 st'
          end
      end
  end.
Definition op_put_r (g : cfg) (fuel : nat) (w : wkind) (r : kref) (v : val) (buf : key)
    : prog rc :=
  '(stack, buf1) <- search_leaf_r fuel r buf true ;;
  a <- alloc ;;
  put_loop_r g fuel w a (deref r buf1) v r buf1 stack.

(** A point call whose key argument is [r] while the buffer holds [buf]. *)
Definition call_r (g : cfg) (fuel : nat) (o : call) (r : kref) (buf : key) : prog ret :=
  match o with
  | KRead _ => x <- op_read_r g fuel r buf ;; Ret (RVal x)
  | KWrite _ v => x <- op_put_r g fuel WWrite r v buf ;; Ret (RCode x)
  | KInsert _ v => x <- op_put_r g fuel WInsert r v buf ;; Ret (RCode x)
  | KUpdate _ v => x <- op_put_r g fuel WUpdate r v buf ;; Ret (RCode x)
  | KDelete _ => x <- op_put_r g fuel WDelete r 0%N buf ;; Ret (RCode x)
  end.

(** The key argument a user gets from RecordIterator::GetKey at a record with key [k]
    (the buffer then holds [k]): a value, or the buffer if keys are pointers. *)
Definition iter_key (g : cfg) (k : key) : kref := if c_ptr g then KBuf else KVal k.
