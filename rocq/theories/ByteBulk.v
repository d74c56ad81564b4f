(** Bulkload over pages made of bytes, fixed-length layout: Bulk.v once more, function by
    function (bw_tree.hpp:471-548, 1597-1650; fixlen/node.hpp:558-652, 732-743).

    Simplified: as in ByteTree.v.  One page is written in one step, as in Bulk.v; no other
    thread has a pointer to it before. *)
From Coq Require Import ZArith NArith List Bool.
From Verif Require Import Config Api Page Machine Bulk Bytes FixLayout DeltaBytes ByteCons ByteFind ByteTree.
Import ListNotations.
Open Scope Z_scope.

Notation bents := (list (list N * list N)).
Notation bnodes := (list (list N * pid)).

(** A program of one thread run to its end. *)
Inductive xres (CH A : Type) := XDone (a : A) (s : xst CH) | XCrash (u : ub) | XNoFuel.
Arguments XDone {CH A} a s. Arguments XCrash {CH A} u. Arguments XNoFuel {CH A}.
Section Run.
Context {CH : Type}.
Variables (hd : CH -> addr) (junk : addr -> mem).
Fixpoint xrun {A} (m : xprog CH A) (s : xst CH) : xres CH A :=
  match m with
  | XRet a => XDone a s
  | XUB u => XCrash u
  | XFuel => XNoFuel
  | XLoad p k => match x_tbl s p with Some c => xrun (k c) s | None => XCrash UbNull end
  | XStore p c k => xrun k (mk_xst (upd (x_tbl s) p (Some c)) (x_root s) (x_npid s) (x_naddr s) (x_cell s) (x_gc s))
  | XClear p k => xrun k (mk_xst (upd (x_tbl s) p None) (x_root s) (x_npid s) (x_naddr s) (x_cell s) (x_gc s))
  | XCas w p e c k =>
      if match x_tbl s p with Some c0 => (hd c0 =? e)%N | None => false end
      then xrun (k true) (mk_xst (upd (x_tbl s) p (Some c)) (x_root s) (x_npid s) (x_naddr s) (x_cell s) (x_gc s))
      else xrun (k false) s
  | XLoadRoot k => xrun (k (x_root s)) s
  | XStoreRoot p k => xrun k (mk_xst (x_tbl s) p (x_npid s) (x_naddr s) (x_cell s) (x_gc s))
  | XCasRoot o n k =>
      if (x_root s =? o)%N then xrun (k true) (mk_xst (x_tbl s) n (x_npid s) (x_naddr s) (x_cell s) (x_gc s))
      else xrun (k false) s
  | XNewPid k => xrun (k (x_npid s)) (mk_xst (x_tbl s) (x_root s) (x_npid s + 1)%N (x_naddr s) (x_cell s) (x_gc s))
  | XAlloc k => xrun (k (x_naddr s) (junk (x_naddr s)))
      (mk_xst (x_tbl s) (x_root s) (x_npid s) (x_naddr s + 1)%N (x_cell s) (x_gc s))
  | XLoadCell a k => xrun (k (x_cell s a)) s
  | XStoreCell a p k => xrun k (mk_xst (x_tbl s) (x_root s) (x_npid s) (x_naddr s) (upd (x_cell s) a p) (x_gc s))
  | XRetire l k => xrun k (mk_xst (x_tbl s) (x_root s) (x_npid s) (x_naddr s) (x_cell s) (x_gc s ++ l))
  end.
End Run.

(** ** Pages (fixlen/node.hpp) *)

(** 572-588: the records from the end of the page downwards, then the low key. *)
Definition fixn_bulk (L : flay) (m : mem) (rs : bents) : fnode :=
  let p := fst (fix_fill L (fix_new L m) (fl_page L) rs) in
  fixn_setmem (mk_fnode p false false) (fl_low L) (fix_key L p 0) true false.
(** 732-743 LinkNext (the sibling link: [xlink]). *)
Definition fixn_link (L : flay) (n right : fnode) : fnode :=
  fixn_setmem n (fl_high L) (fixn_low L right) (fn_haslow n) true.
(** 645 has_low_key_ = 0. *)
Definition fixn_unlow (n : fnode) : fnode := mk_fnode (fn_page n) false (fn_hashigh n).

Section Bulk.
Variables (L : flay) (lps : N) (lt : list N -> list N -> bool) (g : cfg).
Notation C := (fix_klass L lps lt).
Notation ch := (tchain fnode fdelta).
Notation pg := (tpage fnode).
Notation xp := (xprog ch).

Definition xstore (p : pid) (n : pg) : xp unit := XStore p (TLive (BBase n)) (XRet tt).

(** 573-576: take entries while they fit. *)
Fixpoint x_fill (ps est : Z) (es : bents) : bents * bents :=
  match es with
  | [] => ([], [])
  | (k, v) :: t =>
      let tot := x_recsz g ps k in
      if c_bulkcap g <? est + tot then ([], es)
      else let '(a, b) := x_fill ps (est + tot) t in ((k, v) :: a, b)
  end.
(** 558-593 Bulkload: the page and the remaining entries. *)
Definition xbulk_node (m : mem) (a : addr) (inner : bool) (es : bents) : pg * bents :=
  let '(rs, rest) := x_fill (paysz g inner) (c_hdr g) es in
  (mk_tpage a inner 0%N (fixn_bulk L m rs), rest).
Definition xlink (n : pg) (rp : pid) (right : pg) : pg :=
  mk_tpage (tp_addr n) (tp_inner n) rp (fixn_link L (tp_body n) (tp_body right)).
(** Entries of an inner layer. *)
Definition to_ents (ns : bnodes) : bents := map (fun x => (fst x, le 8 (snd x))) ns.

(** bw_tree.hpp:1626-1650. *)
Fixpoint xconstruct (fuel : nat) (inner : bool) (es : bents) (prev : option (pid * pg)) : xp bnodes :=
  match fuel with
  | O => XFuel
  | S f =>
      match es with
      | [] => XRet []
      | _ =>
          XAlloc (fun a m => XNewPid (fun p =>
            let '(n, rest) := xbulk_node m a inner es in
            _ <- xstore p n ;;
            _ <- match prev with
                 | Some (pp, pn) => xstore pp (xlink pn p n)
                 | None => XRet tt
                 end ;;
            nodes <- xconstruct f inner rest (Some (p, n)) ;;
            XRet ((fixn_low L (tp_body n), p) :: nodes)))
      end
  end.
(** bw_tree.hpp:1607-1612. *)
Fixpoint xpartial (fuel : nat) (nodes : bnodes) (height : Z) : xp (Z * bnodes) :=
  match fuel with
  | O => XFuel
  | S f =>
      if inner_cap g <? Z.of_nat (length nodes) then
        ns <- xconstruct f true (to_ents nodes) None ;; xpartial f ns (height + 1)
      else XRet (height, nodes)
  end.
(** bw_tree.hpp:1597-1615. *)
Definition xsingle (fuel : nat) (es : bents) : xp (Z * bnodes) :=
  nodes <- xconstruct fuel false es None ;; xpartial fuel nodes 1.

(** GetPayload<PageID>, fixlen/node.hpp:263-276. *)
Definition x_child_at (n : pg) (i : N) : pid := unle (q_pay (k_find C true) (tp_body n) i).
(** fixlen/node.hpp:605-627. *)
Fixpoint xvertical (fuel : nat) (l r : pid) : xp unit :=
  match fuel with
  | O => XFuel
  | S f =>
      if N.eqb l 0 then XRet tt
      else
        cl <- xload l ;; cr <- xload r ;;
        match cl, cr with
        | TLive (BBase ln), TLive (BBase rn) =>
            _ <- xstore l (xlink ln r rn) ;;
            if negb (tp_inner ln) then XRet tt
            else xvertical f (x_child_at ln (q_cnt (k_find C true) (tp_body ln) - 1)) (x_child_at rn 0)
        | _, _ => XUB UbGarbage
        end
  end.
(** fixlen/node.hpp:636-652. *)
Fixpoint xleftmost (fuel : nat) (p : pid) : xp unit :=
  match fuel with
  | O => XFuel
  | S f =>
      c <- xload p ;;
      match c with
      | TLive (BBase n) =>
          _ <- xstore p (mk_tpage (tp_addr n) (tp_inner n) (tp_next n) (fixn_unlow (tp_body n))) ;;
          if negb (tp_inner n) then XRet tt else xleftmost f (x_child_at n 0)
      | _ => XUB UbGarbage
      end
  end.

(** bw_tree.hpp:522-525. *)
Fixpoint xraise (fuel : nat) (h height : Z) (nodes : bnodes) : xp bnodes :=
  match fuel with
  | O => XFuel
  | S f =>
      if h <? height then
        ns <- xconstruct f true (to_ents nodes) None ;; xraise f (h + 1) height ns
      else XRet nodes
  end.
(** bw_tree.hpp:519-531. *)
Fixpoint xalign (fuel : nat) (height : Z) (prev : pid) (ts : list (Z * bnodes)) : xp bnodes :=
  match ts with
  | [] => XRet []
  | (h, ns) :: t =>
      ns1 <- xraise fuel h height ns ;;
      match ns1 with
      | [] => XUB UbGarbage
      | (_, first) :: _ =>
          _ <- xvertical fuel prev first ;;
          rest <- xalign fuel height (snd (last ns1 ([], 0%N))) t ;;
          XRet (ns1 ++ rest)
      end
  end.
(** bw_tree.hpp:535-537. *)
Fixpoint xupper (fuel : nat) (nodes : bnodes) : xp bnodes :=
  match fuel with
  | O => XFuel
  | S f =>
      if 1 <? Z.of_nat (length nodes) then
        ns <- xconstruct f true (to_ents nodes) None ;; xupper f ns
      else XRet nodes
  end.
(** bw_tree.hpp:534-545. *)
Definition xbulk_root (fuel : nat) (nodes : bnodes) : xp rc :=
  ns <- xupper fuel nodes ;;
  match ns with
  | [] => XUB UbGarbage
  | (_, new_pid) :: _ =>
      _ <- xleftmost fuel new_pid ;;
      XLoadRoot (fun old =>
        XStoreRoot new_pid
          (c <- xload old ;; XRetire [x_addr c] (XClear old (XRet Success))))
  end.
(** bw_tree.hpp:512-532. *)
Definition xbulk_align (fuel : nat) (ts : list (Z * bnodes)) : xp bnodes :=
  xalign fuel (fold_left (fun h t => Z.max h (fst t)) ts 1) 0%N ts.
(** bw_tree.hpp:471-548, the calling thread alone (479-482, 534-548); the entries are not
    empty. *)
Definition xop_single (fuel : nat) (es : bents) : xp rc :=
  nodes <- ('(_, ns) <- xsingle fuel es ;; XRet ns) ;; xbulk_root fuel nodes.

(** ** The worker threads interleaved (bw_tree.hpp:489-515), as in Bulk.v *)
Definition xworkers (fuel : nat) (es : bents) (thread_num : Z) : list (xp (Z * bnodes)) :=
  map (xsingle fuel) (partition thread_num 0 (Z.to_nat thread_num) (Z.of_nat (length es)) es).
Fixpoint xwork (junk : addr -> mem) (ws : list (xp (Z * bnodes))) (s : xst ch) (sch : list nat)
    : list (xp (Z * bnodes)) * xst ch :=
  match sch with
  | [] => (ws, s)
  | t :: r =>
      match nth_error ws t with
      | Some m =>
          match xstep x_addr junk m false s with
          | Some (m', s') => xwork junk (firstn t ws ++ m' :: skipn (S t) ws) s' r
          | None => xwork junk ws s r
          end
      | None => xwork junk ws s r
      end
  end.
Definition xjoin (fuel : nat) (ts : list (Z * bnodes)) : xp rc :=
  nodes <- xbulk_align fuel ts ;; xbulk_root fuel nodes.

(** What a call of Bulkload leaves behind, as [bulkloaded] of BulkSpec.v: by the calling
    thread alone, or after all workers have ended, in any interleaving [sch]. *)
Inductive xbulkloaded (junk : addr -> mem) (es : bents) (s s' : xst ch) : Prop :=
| xl_one f thread_num : thread_num <= 1 \/ Z.of_nat (length es) < thread_num ->
    xrun x_addr junk (xop_single f es) s = XDone Success s' -> xbulkloaded junk es s s'
| xl_many f f' thread_num sch ts s1 : 1 < thread_num <= Z.of_nat (length es) -> (length es + 1 < f)%nat ->
    xwork junk (xworkers f es thread_num) s sch = (map (fun x => XRet x) ts, s1) ->
    xrun x_addr junk (xjoin f' ts) s1 = XDone Success s' -> xbulkloaded junk es s s'.
End Bulk.
