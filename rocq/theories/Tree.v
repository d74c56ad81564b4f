(** The tree operations of include/bw_tree/bw_tree.hpp as programs over shared
    memory, function by function.  [fuel] bounds loop iterations and recursion;
    running out is the explicit outcome [Fuel].  Traversal stacks are lists with
    stack.back() at the head. *)
From Coq Require Import ZArith NArith List Bool.
From Verif Require Import Config Api Page Machine.
Import ListNotations.
Open Scope prog_scope.
Open Scope Z_scope.

Definition load (p : pid) : prog chain := Load p Ret.
Definition alloc : prog addr := Alloc Ret.
Definition cas (w : bool) (p : pid) (e : addr) (c : chain) : prog bool := Cas w p e c Ret.
Definition store (p : pid) (c : chain) : prog unit := Store p c (Ret tt).
Definition retire (l : list addr) : prog unit := Retire l (Ret tt).

(** bw_tree.hpp:904-918 LoadValidHead: spin while the head needs an SMO. *)
Fixpoint load_valid (g : cfg) (fuel : nat) (p : pid) : prog chain :=
  match fuel with
  | O => Fuel
  | S f => c <- load p ;; if need_wait g c then load_valid g f p else Ret c
  end.

(** fixlen/delta_record.hpp:404-418 GetPayloadAtomically: spin while null. *)
Fixpoint wait_cell (fuel : nat) (a : addr) : prog pid :=
  match fuel with
  | O => Fuel
  | S f => LoadCell a (fun p => if N.eqb p 0 then wait_cell f a else Ret p)
  end.

(** bw_tree.hpp:770-816 SearchChildNode; [target] = 0 is kNullPtr.  A payload that is read
    as a page ID (lines 783, 808) from a page of leaf level counts as undefined
    behaviour: leaf payloads need not have the size of a page ID. *)
Fixpoint search_child_node (fuel : nat) (k : key) (closed : bool) (stack : list pid)
    (target : pid) : prog (bool * list pid) :=
  match fuel with
  | O => Fuel
  | S f =>
      match stack with
      | [] => UB UbStack
      | p :: rest =>
          c <- load p ;;
          match dc_search_child c k closed false with
          | RFound v => if h_leaf c then UB UbGarbage else Ret (false, v :: stack)
          | RWait a => v <- wait_cell f a ;; Ret (false, v :: stack)
          | RSibling q =>
              if N.eqb q target then Ret (true, stack)
              else search_child_node f k closed (q :: rest) target
          | RRemoved =>
              match rest with
              | [] =>
                  if negb (N.eqb target 0) then Ret (false, [])
                  else LoadRoot (fun r => search_child_node f k closed [r] target)
              | _ =>
                  '(b, st') <- search_child_node f k closed rest target ;;
                  if b then Ret (true, st')
                  else match st' with
                       | [] => Ret (false, [])
                       | _ => search_child_node f k closed st' target
                       end
              end
          | RBase n =>
              match node_search_child n k closed with
              | Some v => if h_leaf c then UB UbGarbage else Ret (false, v :: stack)
              | None => UB UbGarbage
              end
          | RNotFound | RGarbage => UB UbGarbage
          end
      end
  end.

(** bw_tree.hpp:836-841: the loop of SearchLeafNode. *)
Fixpoint leaf_loop (fuel : nat) (k : key) (closed : bool) (stack : list pid)
    : prog (list pid) :=
  match fuel with
  | O => Fuel
  | S f =>
      match stack with
      | [] => UB UbStack
      | p :: _ =>
          c <- load p ;;
          if h_leaf c then Ret stack
          else '(_, st') <- search_child_node f k closed stack 0%N ;;
               leaf_loop f k closed st'
      end
  end.

(** bw_tree.hpp:825-842 SearchLeafNode. *)
Definition search_leaf (fuel : nat) (k : key) (closed : bool) : prog (list pid) :=
  LoadRoot (fun r => leaf_loop fuel k closed [r]).

(** bw_tree.hpp:849-866 SearchLeftmostLeaf. *)
Fixpoint leftmost_loop (fuel : nat) (stack : list pid) : prog (list pid) :=
  match fuel with
  | O => Fuel
  | S f =>
      match stack with
      | [] => UB UbStack
      | p :: _ =>
          c <- load p ;;
          if h_leaf c then Ret stack
          else match leftmost_child c with
               | Some q => leftmost_loop f (q :: stack)
               | None => UB UbNull
               end
      end
  end.
Definition search_leftmost (fuel : nat) : prog (list pid) :=
  LoadRoot (fun r => leftmost_loop fuel [r]).

(** bw_tree.hpp:887-892: the inner loop of SearchTargetNode. *)
Fixpoint target_loop (fuel : nat) (k : key) (target : pid) (stack : list pid) (leaf : bool)
    : prog (list pid) :=
  match fuel with
  | O => Fuel
  | S f =>
      if leaf then Ret stack
      else
        '(b, st') <- search_child_node f k true stack target ;;
        if b then Ret st'
        else match st' with
             | [] => Ret []
             | p :: _ => c <- load p ;; target_loop f k target st' (h_leaf c)
             end
  end.

(** bw_tree.hpp:875-894 SearchTargetNode (always called with an empty stack). *)
Fixpoint search_target (fuel : nat) (k : key) (target : pid) : prog (list pid) :=
  match fuel with
  | O => Fuel
  | S f =>
      LoadRoot (fun r =>
        c <- load r ;;
        st' <- target_loop f k target [r] (h_leaf c) ;;
        match st' with [] => search_target f k target | _ => Ret st' end)
  end.

(** bw_tree.hpp:929-967 GetHead; [None] is nullptr. *)
Fixpoint get_head (g : cfg) (fuel : nat) (k : key) (closed : bool) (stack : list pid)
    (target : pid) : prog (option chain * list pid) :=
  match fuel with
  | O => Fuel
  | S f =>
      match stack with
      | [] => UB UbStack
      | p :: rest =>
          head <- load_valid g f p ;;
          match dc_validate head k closed with
          | VOk => Ret (Some head, stack)
          | VSibling q =>
              if N.eqb q target then Ret (Some head, stack)
              else get_head g f k closed (q :: rest) target
          | VRemoved =>
              match rest with
              | [] =>
                  if negb (N.eqb target 0) then Ret (None, [])
                  else st' <- search_leaf f k closed ;; get_head g f k closed st' target
              | _ =>
                  '(_, st') <- search_child_node f k closed rest target ;;
                  match st' with
                  | [] => Ret (None, [])
                  | _ => get_head g f k closed st' target
                  end
              end
          end
      end
  end.

(** bw_tree.hpp:977-1017 GetHeadWithKeyCheck: head, key existence, stack. *)
Fixpoint get_head_kc (g : cfg) (fuel : nat) (k : key) (stack : list pid)
    : prog (chain * bool * list pid) :=
  match fuel with
  | O => Fuel
  | S f =>
      match stack with
      | [] => UB UbStack
      | p :: rest =>
          head <- load_valid g f p ;;
          match dc_search_record head k false with
          | RFound _ => Ret (head, true, stack)
          | RNotFound => Ret (head, false, stack)
          | RSibling q => get_head_kc g f k (q :: rest)
          | RRemoved =>
              match rest with
              | [] => st' <- search_leaf f k true ;; get_head_kc g f k st'
              | _ => '(_, st') <- search_child_node f k true rest 0%N ;;
                     get_head_kc g f k st'
              end
          | RBase n => Ret (head, fst (node_search n k), stack)
          | RWait _ | RGarbage => UB UbGarbage
          end
      end
  end.

(** [sib_key] of TryDeleteIndexEntry (bw_tree.hpp:1529) after HighKeyIsGE copied [high].
    For pointer keys it is the thread-local buffer of DeltaRecord::GetHighKey itself
    (varlen/delta_record.hpp:356-361), so its content is overwritten. *)
Definition sib_after (g : cfg) (sib high : option key) : option key :=
  if c_ptr g then match sib, high with Some _, Some _ => high | _, _ => sib end else sib.

(** bw_tree.hpp:1028-1077 GetHeadForMerge: [None] is kAbortMerge; also the content of
    [sib_key] afterwards. *)
Fixpoint get_head_merge (g : cfg) (fuel : nat) (k : key) (sib : option key)
    (stack : list pid) : prog (option chain * list pid * option key) :=
  match fuel with
  | O => Fuel
  | S f =>
      match stack with
      | [] => UB UbStack
      | p :: rest =>
          head <- load_valid g f p ;;
          match dc_search_merge head k sib false
                  (match sib with None => true | Some _ => false end) false with
          | MFound => Ret (Some head, stack, sib)
          | MAbort | MRemoved => Ret (None, stack, sib)
          | MSibling q h => get_head_merge g f k (sib_after g sib h) (q :: rest)
          | MBase n kf sf h =>
              let sib1 := sib_after g sib h in
              let kf1 := kf || fst (node_search n k) in
              let sf1 := sf || match sib1 with
                               | Some s => fst (node_search n s)
                               | None => false
                               end in
              if sf1 && kf1 then Ret (Some head, stack, sib1) else Ret (None, stack, sib1)
          | MGarbage => UB UbGarbage
          end
      end
  end.

(** Addresses registered by AddToGC(head), bw_tree.hpp:684-709. *)
Fixpoint chain_addrs (c : chain) : list addr :=
  match c with
  | CBase n => [n_addr n]
  | CRec d nx => d_addr d :: chain_addrs nx
  | CMerge d n nx => d_addr d :: n_addr n :: chain_addrs nx
  | CRemove a _ => [a]
  end.

(** bw_tree.hpp:1406-1423 TryRootSplit. *)
Definition try_root_split (g : cfg) (sep : key) (r_pid old_pid : pid) : prog bool :=
  LoadRoot (fun r =>
    if negb (N.eqb r old_pid) then Ret false
    else
      a <- alloc ;;
      NewPid (fun np =>
        Store np (CBase (new_root g a old_pid sep r_pid))
          (StoreRoot np (Ret true)))).

(** bw_tree.hpp:1368-1395: the loops of Split.  [smos] is TrySMOs. *)
Fixpoint split_loop (g : cfg) (smos : chain -> list pid -> prog unit) (fuel : nat)
    (d : delta) (l_pid : pid) (stack : list pid) : prog unit :=
  match fuel with
  | O => Fuel
  | S f =>
      match stack with
      | [] =>
          ok <- try_root_split g (d_key d) (d_pay d) l_pid ;;
          if ok then Ret tt
          else
            st' <- search_target f (d_key d) (d_pay d) ;;
            match st' with
            | [] => UB UbStack
            | _ :: t => split_loop g smos f d l_pid t
            end
      | _ =>
          '(oh, st') <- get_head g f (d_key d) true stack (d_pay d) ;;
          match oh with
          | None => split_loop g smos f d l_pid st'
          | Some head =>
              match st' with
              | [] => UB UbStack
              | p :: _ =>
                  let d' := set_next d head (recsz g ptrlen (d_key d)) in
                  ok <- cas true p (h_addr head) (CRec d' head) ;;
                  if ok then
                    if need_consolidation g (CRec d' head) then smos (CRec d' head) st'
                    else Ret tt
                  else split_loop g smos f d l_pid st'
              end
          end
      end
  end.

Definition with_next (n : node) (p : pid) : node :=
  mk_node (n_addr n) (n_inner n) (n_low n) (n_high n) p (n_recs n) (n_size n).

(** bw_tree.hpp:1346-1396 Split. *)
Definition split (g : cfg) (smos : chain -> list pid -> prog unit) (fuel : nat)
    (l r : node) (stack : list pid) : prog unit :=
  NewPid (fun r_pid =>
    Store r_pid (CBase r)
      match stack, n_low r with
      | l_pid :: st', Some sep =>
          Store l_pid (CBase (with_next l r_pid))
            (a <- alloc ;;
             split_loop g smos fuel (mk_delta a true DInsert sep (n_high r) r_pid 0 0)
               l_pid st')
      | _, _ => UB UbStack
      end).

(** bw_tree.hpp:1560-1579 TryRemoveRoot. *)
Definition try_remove_root (root : node) (old_pid : pid) (stack : list pid) : prog bool :=
  match stack with
  | _ :: _ => Ret false
  | [] =>
      if (1 <? Z.of_nat (length (n_recs root))) || negb (n_inner root) then Ret false
      else match leftmost_child (CBase root) with
           | None => UB UbGarbage
           | Some np =>
               c <- load np ;;
               if h_leaf c then Ret false
               else CasRoot old_pid np (fun b =>
                      if b then Retire [n_addr root] (Ret true) else Ret false)
           end
  end.

(** bw_tree.hpp:1530-1543: the loop of TryDeleteIndexEntry. *)
Fixpoint delete_loop (g : cfg) (fuel : nat) (d : delta) (sib : option key)
    (stack : list pid) : prog (option chain * list pid) :=
  match fuel with
  | O => Fuel
  | S f =>
      '(oh, st', sib') <- get_head_merge g f (d_key d) sib stack ;;
      match oh, st' with
      | None, _ => Ret (None, st')
      | Some _, [] => UB UbStack
      | Some head, p :: _ =>
          let d' := set_next d head (- recsz g ptrlen (d_key d)) in
          ok <- cas true p (h_addr head) (CRec d' head) ;;
          if ok then Ret (Some (CRec d' head), st')
          else delete_loop g f d sib' st'
      end
  end.

(** bw_tree.hpp:1514-1549 TryDeleteIndexEntry: the address of the published
    index-delete delta, or None (nullptr).  Its payload cell is null on creation
    (fixlen/delta_record.hpp:140-142). *)
Definition try_delete_entry (g : cfg) (smos : chain -> list pid -> prog unit) (fuel : nat)
    (removed : node) (stack : list pid) : prog (option addr) :=
  match stack, n_low removed with
  | [], _ | _, None => Ret None
  | _, Some dk =>
      a <- alloc ;;
      StoreCell a 0%N
        ('(oc, st') <- delete_loop g fuel (mk_delta a true DDelete dk (n_high removed) 0%N 0 0)
                         (n_high removed) stack ;;
         match oc with
         | None => Ret None
         | Some c =>
             _ <- (if need_consolidation g c then smos c st' else Ret tt) ;;
             Ret (Some a)
         end)
  end.

(** bw_tree.hpp:1474-1501: the loops of TryMerge that install the merge delta.
    [at_sib]: the inner loop is entered with the left sibling on the stack. *)
Fixpoint merge_loop (g : cfg) (smos : chain -> list pid -> prog unit) (fuel : nat)
    (d : delta) (removed : node) (rem_pid : pid) (del_a : addr) (at_sib : bool)
    (stack : list pid) : prog unit :=
  match fuel with
  | O => Fuel
  | S f =>
      if at_sib then
        '(oh, st') <- get_head g f (d_key d) false stack rem_pid ;;
        match oh with
        | None => merge_loop g smos f d removed rem_pid del_a false st'
        | Some head =>
            match st' with
            | [] => UB UbStack
            | p :: _ =>
                let d' := set_next d head (node_diff g removed) in
                ok <- cas true p (h_addr head) (CMerge d' removed head) ;;
                if ok then
                  StoreCell del_a p
                    (if need_consolidation g (CMerge d' removed head)
                     then smos (CMerge d' removed head) st' else Ret tt)
                else merge_loop g smos f d removed rem_pid del_a true st'
            end
        end
      else
        match stack with
        | [] =>
            st' <- search_target f (d_key d) rem_pid ;;
            merge_loop g smos f d removed rem_pid del_a true st'
        | _ =>
            '(_, st') <- search_child_node f (d_key d) false stack rem_pid ;;
            match st' with
            | [] => merge_loop g smos f d removed rem_pid del_a false []
            | _ => merge_loop g smos f d removed rem_pid del_a true st'
            end
        end
  end.

(** bw_tree.hpp:1434-1502 TryMerge. *)
Definition try_merge (g : cfg) (smos : chain -> list pid -> prog unit) (fuel : nat)
    (head : chain) (removed : node) (stack : list pid) : prog bool :=
  match stack with
  | [] => UB UbStack
  | rem_pid :: st' =>
      a <- alloc ;;
      ok <- cas false rem_pid (h_addr head) (CRemove a (negb (n_inner removed))) ;;
      if negb ok then Ret false
      else
        od <- try_delete_entry g smos fuel removed st' ;;
        match od, n_low removed with
        | Some del_a, Some dk =>
            ma <- alloc ;;
            _ <- merge_loop g smos fuel
                   (mk_delta ma (n_inner removed) DMerge dk (n_high removed) 0%N 0 0)
                   removed rem_pid del_a false st' ;;
            Ret true
        | _, _ =>
            rr <- try_remove_root removed rem_pid st' ;;
            if rr then Ret true
            else Store rem_pid (CBase removed) (Retire [a] (Ret true))
        end
  end.

(** Pages fit: the bytes of a freshly consolidated page are its node_size_. *)
Definition fits (g : cfg) (n : node) : bool := n_size n <=? c_page g.

(** bw_tree.hpp:1178-1216 TrySMOs with 1227-1262 TryConsolidate. *)
Fixpoint try_smos (g : cfg) (fuel : nat) (head : chain) (stack : list pid) : prog unit :=
  match fuel with
  | O => Fuel
  | S f =>
      match stack with
      | [] => UB UbStack
      | p :: _ =>
          c <- load p ;;
          if negb (N.eqb (h_addr c) (h_addr head)) then Ret tt
          else
            a <- alloc ;;
            match dc_sort head [] [] with
            | None => UB UbGarbage
            | Some (ds, ns) =>
                if c_maxd g <? Z.of_nat (length ds) then UB UbArray
                else
                  let inner := negb (h_leaf head) in
                  if c_page g <? h_size head then
                    ra <- alloc ;;
                    match consolidate g inner a ra ns ds true false with
                    | CTwo l r =>
                        if fits g l && fits g r then
                          _ <- split g (try_smos g f) f l r stack ;;
                          retire (chain_addrs head)
                        else UB UbOverflow
                    | _ => UB UbSplit
                    end
                  else
                    match consolidate g inner a 0%N ns ds false false with
                    | COne n =>
                        if fits g n then
                          if h_size head <=? c_min g then
                            ok <- try_merge g (try_smos g f) f head n stack ;;
                            if ok then retire (chain_addrs head) else Ret tt
                          else
                            ok <- cas false p (h_addr head) (CBase n) ;;
                            if ok then retire (chain_addrs head) else Ret tt
                        else UB UbOverflow
                    | _ => UB UbSplit
                    end
            end
      end
  end.

(** ** Point operations *)

(** bw_tree.hpp:156-196: the loop of Read.  A payload that is read (lines 165, 188) from a
    page of inner level counts as undefined behaviour, as above. *)
Fixpoint read_loop (g : cfg) (fuel : nat) (k : key) (stack : list pid)
    : prog (option val) :=
  match fuel with
  | O => Fuel
  | S f =>
      match stack with
      | [] => UB UbStack
      | p :: rest =>
          head <- load p ;;
          match dc_search_record head k false with
          | RFound v => if h_leaf head then Ret (Some v) else UB UbGarbage
          | RNotFound => Ret None
          | RSibling q => read_loop g f k (q :: rest)
          | RRemoved =>
              (* line 178-179: no check that the stack is non-empty *)
              '(_, st') <- search_child_node f k true rest 0%N ;;
              read_loop g f k st'
          | RBase n =>
              let '(found, pos) := node_search n k in
              if found then
                match pay_at n pos with
                | Some v => if h_leaf head then Ret (Some v) else UB UbGarbage
                | None => UB UbGarbage
                end
              else Ret None
          | RWait _ | RGarbage => UB UbGarbage
          end
      end
  end.

(** bw_tree.hpp:145-197 Read. *)
Definition op_read (g : cfg) (fuel : nat) (k : key) : prog (option val) :=
  stack <- search_leaf fuel k true ;; read_loop g fuel k stack.

(** A leaf delta record (fixlen/delta_record.hpp:75-104). *)
Definition leaf_delta (a : addr) (t : dtype) (k : key) (v : val) : delta :=
  mk_delta a false t k None v 0 0.

Definition finish (g : cfg) (fuel : nat) (c : chain) (stack : list pid) : prog rc :=
  _ <- (if need_consolidation g c then try_smos g fuel c stack else Ret tt) ;;
  Ret Success.

(** bw_tree.hpp:260-297 Write. *)
Fixpoint write_loop (g : cfg) (fuel : nat) (a : addr) (k : key) (v : val)
    (stack : list pid) : prog rc :=
  match fuel with
  | O => Fuel
  | S f =>
      '(head, found, st') <- get_head_kc g f k stack ;;
      match st' with
      | [] => UB UbStack
      | p :: _ =>
          let d := if found : bool
                   then set_next (leaf_delta a DModify k v) head 0
                   else set_next (leaf_delta a DInsert k v) head (recsz g (c_paylen g) k) in
          ok <- cas true p (h_addr head) (CRec d head) ;;
          if ok then finish g f (CRec d head) st'
          else write_loop g f a k v st'
      end
  end.
Definition op_write (g : cfg) (fuel : nat) (k : key) (v : val) : prog rc :=
  stack <- search_leaf fuel k true ;; a <- alloc ;; write_loop g fuel a k v stack.

(** bw_tree.hpp:313-350 Insert. *)
Fixpoint insert_loop (g : cfg) (fuel : nat) (a : addr) (k : key) (v : val)
    (stack : list pid) : prog rc :=
  match fuel with
  | O => Fuel
  | S f =>
      '(head, found, st') <- get_head_kc g f k stack ;;
      if found : bool then Ret KeyExist
      else
        match st' with
        | [] => UB UbStack
        | p :: _ =>
            let d := set_next (leaf_delta a DInsert k v) head (recsz g (c_paylen g) k) in
            ok <- cas true p (h_addr head) (CRec d head) ;;
            if ok then finish g f (CRec d head) st'
            else insert_loop g f a k v st'
        end
  end.
Definition op_insert (g : cfg) (fuel : nat) (k : key) (v : val) : prog rc :=
  stack <- search_leaf fuel k true ;; a <- alloc ;; insert_loop g fuel a k v stack.

(** bw_tree.hpp:367-403 Update. *)
Fixpoint update_loop (g : cfg) (fuel : nat) (a : addr) (k : key) (v : val)
    (stack : list pid) : prog rc :=
  match fuel with
  | O => Fuel
  | S f =>
      '(head, found, st') <- get_head_kc g f k stack ;;
      if negb found then Ret KeyNotExist
      else
        match st' with
        | [] => UB UbStack
        | p :: _ =>
            let d := set_next (leaf_delta a DModify k v) head 0 in
            ok <- cas true p (h_addr head) (CRec d head) ;;
            if ok then finish g f (CRec d head) st'
            else update_loop g f a k v st'
        end
  end.
Definition op_update (g : cfg) (fuel : nat) (k : key) (v : val) : prog rc :=
  stack <- search_leaf fuel k true ;; a <- alloc ;; update_loop g fuel a k v stack.

(** bw_tree.hpp:417-452 Delete. *)
Fixpoint remove_loop (g : cfg) (fuel : nat) (a : addr) (k : key)
    (stack : list pid) : prog rc :=
  match fuel with
  | O => Fuel
  | S f =>
      '(head, found, st') <- get_head_kc g f k stack ;;
      if negb found then Ret KeyNotExist
      else
        match st' with
        | [] => UB UbStack
        | p :: _ =>
            let d := set_next (leaf_delta a DDelete k 0%N) head
                       (- recsz g (c_paylen g) k) in
            ok <- cas true p (h_addr head) (CRec d head) ;;
            if ok then finish g f (CRec d head) st'
            else remove_loop g f a k st'
        end
  end.
Definition op_delete (g : cfg) (fuel : nat) (k : key) : prog rc :=
  stack <- search_leaf fuel k true ;; a <- alloc ;; remove_loop g fuel a k stack.

(** bw_tree.hpp:102-115: the constructor; an empty leaf as root. *)
Definition empty_leaf (g : cfg) (a : addr) : node := mk_node a false None None 0%N [] (c_hdr g).
Definition init (g : cfg) : st :=
  mk_st (upd (fun _ => None) 1%N (Some (CBase (empty_leaf g 1%N)))) 1%N 2%N 2%N
    (fun _ => 0%N) [].

(** An API call as a program. *)
Definition call_prog (g : cfg) (fuel : nat) (o : call) : prog ret :=
  match o with
  | KRead k => x <- op_read g fuel k ;; Ret (RVal x)
  | KWrite k v => x <- op_write g fuel k v ;; Ret (RCode x)
  | KInsert k v => x <- op_insert g fuel k v ;; Ret (RCode x)
  | KUpdate k v => x <- op_update g fuel k v ;; Ret (RCode x)
  | KDelete k => x <- op_delete g fuel k ;; Ret (RCode x)
  end.

(** A single-threaded client issuing calls one after the other. *)
Fixpoint run_calls (g : cfg) (fuel : nat) (os : list call) (s : st) : res (list ret) :=
  match os with
  | [] => Done [] s
  | o :: t =>
      match run (call_prog g fuel o) s with
      | Done r s1 =>
          match run_calls g fuel t s1 with
          | Done rs s2 => Done (r :: rs) s2
          | Crash u => Crash u
          | NoFuel => NoFuel
          end
      | Crash u => Crash u
      | NoFuel => NoFuel
      end
  end.
