(** Range scans and statistics over pages and delta records made of bytes: Scan.v and
    Client.v once more, with the page and record classes of both layouts in place of the
    lists of Page.v.  A scan rebuilds each node in the thread's own page, on whatever the
    previous scan has left there.

    Simplified as in ByteTree.v; the page CollectStatisticalData allocates for a node is
    not an address of the model, [stat_mem p] is the old content of the one for node [p]. *)
From Coq Require Import ZArith NArith List Bool.
From Verif Require Import Config Api Page Machine Scan Bytes FixLayout VarLayout DeltaBytes ByteCons ByteFind ByteTree.
Import ListNotations.
Open Scope xprog_scope.
Open Scope Z_scope.

(** A bound of a scan and whether it is closed. *)
Definition bbound := option (list N * bool).
(** The iterator's own fields (record_iterator.hpp:207-223). *)
Record biter := mk_biter { bi_pos : Z; bi_end : Z; bi_isend : bool; bi_ekey : bbound }.

(** Requests and answers, as in Client.v. *)
Inductive breq := BQCall (o : bcall) | BQOpen (b e : bbound) | BQNext | BQStat (drec : Z).
Inductive bans := BACall (r : bret) | BAOpen | BARec (k v : list N) | BAEnd | BAStat (l : list (Z * Z * Z)).
Inductive bkevent := BVInv (t : nat) (q : breq) | BVRes (t : nat) (a : bans).

Section Scan.
Context {P D : Type}.
Variable C : klass P D.
Variable lt : list N -> list N -> bool.
Variable g : cfg.
Variable pmem : P -> mem.          (* the memory of a page *)
Variable stat_mem : pid -> mem.

Notation ch := (tchain P D).
Notation pg := (tpage P).
Notation rec := (tdelta D).
Notation xp := (xprog ch).
Notation F := (t_find C).

(** fixlen/node.hpp:677-686, varlen/node.hpp:731-741. *)
Definition x_rightmost (p : pg) (e : bbound) : bool :=
  match q_high (F (tp_inner p)) p with
  | None => true
  | Some h =>
      match e with
      | None => false
      | Some (k, closed) => lt k h || (negb closed && negb (lt h k))
      end
  end.
(** fixlen/node.hpp:394-409, varlen/node.hpp:422-437. *)
Definition x_end (p : pg) (e : bbound) : bool * Z :=
  let is_end := x_rightmost p e in
  match is_end, e with
  | true, Some (k, closed) =>
      let '(found, pos) := b_search (F (tp_inner p)) lt (tp_inner p) p k in
      (is_end, if found && closed then pos + 1 else pos)
  | _, _ => (is_end, Z.of_N (q_cnt (F (tp_inner p)) p))
  end.

(** TryConsolidate(head, page, dummy, kIsScan), bw_tree.hpp:1227-1262, into memory [m]. *)
Definition xscan_page (m : mem) (head : ch) : xp pg :=
  match head with
  | TGone _ _ => XUB UbGarbage
  | TLive hb =>
      let inner := negb (x_leaf C head) in
      match k_try C inner m m (bodies hb) (Z.to_N (x_size C head)) true with
      | BOne n => XRet (mk_tpage 0%N inner (b_next hb) n)
      | _ => XUB UbSplit
      end
  end.

(** bw_tree.hpp:1092-1113. *)
Fixpoint xcons_for_scan (m : mem) (fuel : nat) (bk : list N) (closed : bool) (stack : list pid) : xp (pg * Z) :=
  match fuel with
  | O => XFuel
  | S f =>
      '(oh, st') <- xget_head C lt g f bk closed stack 0%N ;;
      match oh with
      | None => XUB UbNull
      | Some (TGone _ _) => xcons_for_scan m f bk closed st'
      | Some (TLive hb) =>
          n <- xscan_page m (TLive hb) ;;
          let '(found, pos) := b_search (F (tp_inner n)) lt (tp_inner n) n bk in
          XRet (n, if negb found || closed then pos else pos + 1)
      end
  end.

(** bw_tree.hpp:849-866 with fixlen/node.hpp:300-311, varlen/node.hpp:328-341. *)
Fixpoint b_leftmost (c : bchain pg rec) : pid :=
  match c with
  | BBase p => unle (q_pay (F true) p 0%N)
  | BRec _ nx => b_leftmost nx
  | BMerge _ _ nx => b_leftmost nx
  end.
Fixpoint xleftmost_loop (fuel : nat) (stack : list pid) : xp (list pid) :=
  match fuel with
  | O => XFuel
  | S f =>
      match stack with
      | [] => XUB UbStack
      | p :: _ =>
          c <- xload p ;;
          if x_leaf C c then XRet stack
          else match c with
               | TLive b => xleftmost_loop f (b_leftmost b :: stack)
               | TGone _ _ => XUB UbNull
               end
      end
  end.
Definition xsearch_leftmost (fuel : nat) : xp (list pid) := XLoadRoot (fun r => xleftmost_loop fuel [r]).
(** bw_tree.hpp:227-234. *)
Fixpoint xleftmost_head (fuel : nat) (p : pid) : xp ch :=
  match fuel with
  | O => XFuel
  | S f => c <- xload p ;; match c with TGone _ _ => xleftmost_head f p | TLive _ => XRet c end
  end.

(** bw_tree.hpp:206-242. *)
Definition xscan (m : mem) (fuel : nat) (b e : bbound) : xp (pg * biter) :=
  '(n, pos) <-
    match b with
    | Some (bk, closed) =>
        stack <- xsearch_leaf C lt fuel bk closed ;;
        xcons_for_scan m fuel bk closed stack
    | None =>
        stack <- xsearch_leftmost fuel ;;
        match stack with
        | [] => XUB UbStack
        | p :: _ => head <- xleftmost_head fuel p ;; n <- xscan_page m head ;; XRet (n, 0)
        end
    end ;;
  let '(is_end, end_pos) := x_end n e in
  XRet (n, mk_biter pos end_pos is_end e).

(** bw_tree.hpp:1124-1141 with record_iterator.hpp:99-109: the node at hand is
    overwritten by the next one. *)
Definition xsibling_scan (fuel : nat) (old : pg) (bk : list N) (e : bbound) : xp (pg * biter) :=
  '(n, pos) <- xcons_for_scan (pmem (tp_body old)) fuel bk true [tp_next old] ;;
  let '(is_end, end_pos) := x_end n e in
  XRet (n, mk_biter pos end_pos is_end e).

(** record_iterator.hpp:167-180. *)
Fixpoint xhas_record (fuel : nat) (p : pg) (it : biter) : xp (bool * pg * biter) :=
  match fuel with
  | O => XFuel
  | S f =>
      if bi_pos it <? bi_end it then XRet (true, p, it)
      else if bi_isend it then XRet (false, p, it)
      else match q_high (F (tp_inner p)) p with
           | None => XUB UbGarbage
           | Some hk =>
               '(p', it') <- xsibling_scan f p hk (bi_ekey it) ;;
               xhas_record f p' it'
           end
  end.

(** record_iterator.hpp:138-153 with fixlen/node.hpp:284-290, varlen/node.hpp:311-318. *)
Definition xget_record (p : pg) (it : biter) : option (list N * list N) :=
  if tp_inner p || negb (bi_pos it <? Z.of_N (q_cnt (F false) p)) then None
  else Some (q_key (F false) p (Z.to_N (bi_pos it)), q_pay (F false) p (Z.to_N (bi_pos it))).
Definition xadvance (it : biter) : biter := mk_biter (bi_pos it + 1) (bi_end it) (bi_isend it) (bi_ekey it).

(** ** Statistics: bw_tree.hpp:561-572, 718-758 *)
Fixpoint xvalid_head (fuel : nat) (p : pid) : xp ch :=
  match fuel with
  | O => XFuel
  | S f =>
      c <- xload_valid C g f p ;;
      match c with TGone _ _ => xvalid_head f p | TLive _ => XRet c end
  end.
(** fixlen/delta_record.hpp:297-308. *)
Fixpoint b_usage (c : bchain pg rec) : Z * Z :=
  match c with
  | BBase p => (Z.of_N (k_psize C (tp_body p)), 0)
  | BRec _ nx | BMerge _ _ nx => let '(s, d) := b_usage nx in (s, d + 1)
  end.
(** The children in a page, bw_tree.hpp:751-754. *)
Definition x_children (p : pg) : list pid :=
  map (fun i => unle (q_pay (F true) p (N.of_nat i))) (seq 0 (N.to_nat (q_cnt (F true) p))).
Fixpoint xcollect_stats (drec : Z) (fuel : nat) (p : pid) (lvl : nat) (acc : list (Z * Z * Z)) : xp (list (Z * Z * Z)) :=
  match fuel with
  | O => XFuel
  | S f =>
      head <- xvalid_head f p ;;
      match head with
      | TGone _ _ => XUB UbNull
      | TLive hb =>
          let '(sz, dn) := b_usage hb in
          let acc1 := add_stat lvl (sz + dn * drec) (c_page g + dn * drec) acc in
          if x_leaf C head then XRet acc1
          else
            n <- xscan_page (stat_mem p) head ;;
            (fix go (l : list pid) (acc : list (Z * Z * Z)) :=
               match l with
               | [] => XRet acc
               | c :: t => acc' <- xcollect_stats drec f c (S lvl) acc ;; go t acc'
               end) (x_children n) acc1
      end
  end.
Definition xstats (drec : Z) (fuel : nat) : xp (list (Z * Z * Z)) :=
  XLoadRoot (fun r => xcollect_stats drec fuel r 0 []).

(** ** Threads, as in Client.v *)

(** The thread's page: not used so far, or with an iterator. *)
Inductive bcursor := BNew (m : mem) | BOn (p : pg) (it : biter).
Definition cur_mem (cu : bcursor) : mem := match cu with BNew m => m | BOn p _ => pmem (tp_body p) end.

Definition bnext_prog (fuel : nat) (p : pg) (it : biter) : xp (bans * bcursor) :=
  '(more, p1, it1) <- xhas_record fuel p it ;;
  if more : bool then
    match xget_record p1 it1 with
    | None => XUB UbGarbage
    | Some (k, v) => XRet (BARec k v, BOn p1 (xadvance it1))
    end
  else XRet (BAEnd, BOn p1 it1).
Definition breq_prog (fuel : nat) (cu : bcursor) (q : breq) : xp (bans * bcursor) :=
  match q with
  | BQCall o => r <- bcall_prog C lt g fuel o ;; XRet (BACall r, cu)
  | BQOpen b e => '(p, it) <- xscan (cur_mem cu) fuel b e ;; XRet (BAOpen, BOn p it)
  | BQNext => match cu with BNew m => XRet (BAEnd, BNew m) | BOn p it => bnext_prog fuel p it end
  | BQStat drec => l <- xstats drec fuel ;; XRet (BAStat l, cu)
  end.

Inductive bclient := BKIdle (cu : bcursor) (todo : list breq) | BKRun (m : xp (bans * bcursor)) (todo : list breq).
Record bkst := mk_bkst { bk_mem : xst ch; bk_thr : list bclient }.

Definition bkstep (junk : addr -> mem) (fuel : nat) (c : bkst) (t : nat) (spur : bool) : bkst * list bkevent :=
  match nth_error (bk_thr c) t with
  | None => (c, [])
  | Some th =>
      let put m th' := mk_bkst m (firstn t (bk_thr c) ++ th' :: skipn (S t) (bk_thr c)) in
      match th with
      | BKIdle _ [] => (c, [])
      | BKIdle cu (q :: r) => (put (bk_mem c) (BKRun (breq_prog fuel cu q) r), [BVInv t q])
      | BKRun (XRet (a, cu)) r => (put (bk_mem c) (BKIdle cu r), [BVRes t a])
      | BKRun m r =>
          match xstep x_addr junk m spur (bk_mem c) with
          | Some (m', s') => (put s' (BKRun m' r), [])
          | None => (c, [])
          end
      end
  end.
Fixpoint bkexec (junk : addr -> mem) (fuel : nat) (c : bkst) (sch : list (nat * bool)) : bkst * list bkevent :=
  match sch with
  | [] => (c, [])
  | (t, b) :: r =>
      let '(c1, h1) := bkstep junk fuel c t b in
      let '(c2, h2) := bkexec junk fuel c1 r in (c2, h1 ++ h2)
  end.
(** Each thread comes with the former content of its page. *)
Definition bkstart (s : xst ch) (todos : list (mem * list breq)) : bkst :=
  mk_bkst s (map (fun x => BKIdle (BNew (fst x)) (snd x)) todos).

(** Some thread has run into undefined behaviour. *)
Definition bkcrashed (c : bkst) : Prop := exists u r, In (BKRun (XUB u) r) (bk_thr c).
End Scan.

(** The memory of a page in either layout. *)
Definition var_pmem (p : vpage) : mem := vp_mem p.
Definition fix_pmem (p : fnode) : mem := fp_mem (fn_page p).
