(** Consolidation on bytes: Sort (delta_chain.hpp:346-375), TryConsolidate
    (bw_tree.hpp:1227-1262) and Consolidate (bw_tree.hpp:1275-1337) as templates over the
    page class, instantiated with the byte layouts of both node.hpp files.

    Simplified: next_ is left out (a plain copy, see Page.v); the level of a chain is a
    parameter instead of a header bit of every page. *)
From Coq Require Import NArith List Bool.
From Verif Require Import Config Page Bytes FixLayout VarLayout DeltaBytes.
Import ListNotations.
Open Scope N_scope.

(** A delta chain: [P] is Node_t, [D] is Delta_t. *)
Inductive bchain (P D : Type) :=
| BBase (p : P)
| BRec (d : D) (next : bchain P D)
| BMerge (d : D) (merged : P) (next : bchain P D).
Arguments BBase {P D}. Arguments BRec {P D}. Arguments BMerge {P D}.

Inductive bres (P : Type) := BOne (p : P) | BTwo (l r : P) | BBad.
Arguments BOne {P}. Arguments BTwo {P}. Arguments BBad {P}.

(** new_node, the offset, and r_node while the switch to it is pending; [b_left] is the
    page that was filled before the switch. *)
Record bst (P : Type) := mk_bst { b_left : option P; b_cur : P; b_off : N; b_pend : option P }.
Arguments mk_bst {P}. Arguments b_left {P}. Arguments b_cur {P}. Arguments b_off {P}. Arguments b_pend {P}.

(** The members of Node_t and Delta_t that Consolidate uses. *)
Record ops (P D : Type) := mk_ops {
  o_cnt : P -> N;                    (* GetRecordCount *)
  o_lm : P -> bool;                  (* IsLeftmost *)
  o_key : P -> N -> list N;          (* GetKey(pos) *)
  o_size : P -> N;                   (* node_size_ *)
  o_cpage : P * N -> P -> N -> P * N;(* CopyRecordFrom a page *)
  o_cdelta : P * N -> D -> P * N;    (* CopyRecordFrom a delta record that is no delete *)
  o_dkey : D -> list N;              (* key of a delta record *)
  o_dtype : D -> dtype;
  o_low : P -> P -> P * N;           (* CopyLowKeyFrom(other page) *)
  o_lowself : P -> P * N;            (* CopyLowKeyFrom(this) *)
  o_high : P * N -> P -> P;          (* CopyHighKeyFrom(other page) *)
  o_highleft : P * N -> P -> P;      (* CopyHighKeyFrom(right page, kIsSplitLeft) *)
  o_scan : P -> P                    (* SetNodeSizeForScan *)
}.
Arguments mk_ops {P D}.
Arguments o_cnt {P D}. Arguments o_lm {P D}. Arguments o_key {P D}. Arguments o_size {P D}.
Arguments o_cpage {P D}. Arguments o_cdelta {P D}. Arguments o_dkey {P D}. Arguments o_dtype {P D}.
Arguments o_low {P D}. Arguments o_lowself {P D}. Arguments o_high {P D}. Arguments o_highleft {P D}.
Arguments o_scan {P D}.

Section Cons.
Context {P D : Type}.
Variable W : ops P D.
(** Comp on key bytes, kPageSize, kHeaderLen, whether the chain is an inner node. *)
Variable lt : list N -> list N -> bool.
Variables (page hdr : N) (inner : bool).

(** AddByInsertionSortTo (fixlen/delta_record.hpp:457-481, varlen 501-532). *)
Fixpoint b_add (d : D) (arr : list D) : list D :=
  match arr with
  | [] => [d]
  | x :: t =>
      if lt (o_dkey W x) (o_dkey W d) then x :: b_add d t
      else if lt (o_dkey W d) (o_dkey W x) then d :: x :: t
      else x :: t
  end.
(** delta_chain.hpp:346-375. *)
Fixpoint b_sort (c : bchain P D) (arr : list D) (nodes : list P) : list D * list P :=
  match c with
  | BRec d nx => b_sort nx (b_add d arr) nodes
  | BMerge _ p nx => b_sort nx arr (nodes ++ [p])
  | BBase p => (arr, nodes ++ [p])
  end.

(** Tail of CopyRecordFrom (fixlen/node.hpp:494-499, varlen/node.hpp:533-538). *)
Definition b_put (left pend : option P) (pair : P * N) : bst P :=
  let '(p, off) := pair in
  match pend with
  | Some r =>
      if (page - hdr) / 2 <? o_size W p then mk_bst (Some p) r page None
      else mk_bst left p off pend
  | None => mk_bst left p off pend
  end.
Definition b_page (src : P) (i : N) (s : bst P) : bst P :=
  b_put (b_left s) (b_pend s) (o_cpage W (b_cur s, b_off s) src i).
Definition b_delta (d : D) (s : bst P) : bst P :=
  match o_dtype W d with
  | DDelete => s
  | _ => b_put (b_left s) (b_pend s) (o_cdelta W (b_cur s, b_off s) d)
  end.

(** bw_tree.hpp:1303-1305. *)
Fixpoint b_flush (k : list N) (ds : list D) (s : bst P) : list D * bst P :=
  match ds with
  | d :: t => if lt (o_dkey W d) k then b_flush k t (b_delta d s) else (ds, s)
  | [] => ([], s)
  end.
(** 1300-1313: [n] records from position [i] on. *)
Fixpoint b_recs (n : nat) (src : P) (i : N) (ds : list D) (s : bst P) : list D * bst P :=
  match n with
  | O => (ds, s)
  | S m =>
      let k := o_key W src i in
      let '(ds1, s1) := b_flush k ds s in
      match ds1 with
      | d :: dt =>
          if negb (lt k (o_dkey W d)) then b_recs m src (i + 1) dt (b_delta d s1)
          else b_recs m src (i + 1) ds1 (b_page src i s1)
      | [] => b_recs m src (i + 1) [] (b_page src i s1)
      end
  end.
(** 1292-1299. *)
Definition b_node (src : P) (ds : list D) (s : bst P) : list D * bst P :=
  let n := N.to_nat (o_cnt W src) in
  if inner && o_lm W src then b_recs (n - 1) src 1 ds (b_page src 0 s)
  else b_recs n src 0 ds s.
(** 1291 and 1317-1319. *)
Fixpoint b_nodes (ps : list P) (ds : list D) (s : bst P) : bst P :=
  match ps with
  | [] => fold_left (fun s d => b_delta d s) ds s
  | p :: t => let '(ds1, s1) := b_node p ds s in b_nodes t ds1 s1
  end.

(** 1275-1337; [new] and [r] are the freshly constructed pages, [None] for r_node ==
    nullptr.  [BBad]: the right page was never reached. *)
Definition b_consolidate (new : P) (r : option P) (nodes : list P) (arr : list D) (scan : bool) : bres P :=
  let s := b_nodes (rev nodes) arr (mk_bst None new (if scan then page * 2 else page) r) in
  let base := last nodes new in
  let front := hd new nodes in
  match r with
  | None =>
      let p := o_high W (o_low W (b_cur s) base) front in
      BOne (if scan then o_scan W p else p)
  | Some _ =>
      match b_left s with
      | None => BBad
      | Some l =>
          let l1 := o_highleft W (o_low W l base) (b_cur s) in
          let r1 := o_high W (o_lowself W (b_cur s)) front in
          BTwo l1 r1
      end
  end.
(** TryConsolidate, bw_tree.hpp:1227-1262; [size] is node_size_ of the head. *)
Definition b_try (new r : P) (c : bchain P D) (size : N) (scan : bool) : bres P :=
  let '(arr, nodes) := b_sort c [] [] in
  let do_split := negb scan && (page <? size) in
  b_consolidate new (if do_split then Some r else None) nodes arr scan.
End Cons.

(** ** varlen/node.hpp *)

(** 512-540, 553-580: copy rec_len bytes from the place the metadata points to. *)
Definition var_copy_raw (st : vpage * N) (m : mem) (x : meta) : vpage * N :=
  let '(p, o) := st in
  let rec_len := mt_rlen x in
  let offset := o - rec_len in
  let m1 := wr (vp_mem p) offset (rd m (mt_off x) rec_len) in
  let m2 := set_meta m1 (vp_cnt p) (new_meta offset (mt_klen x) rec_len) in
  (mk_vpage m2 (vp_cnt p + 1) (vp_size p + (8 + rec_len)) (vp_low p) (vp_high p), offset).

Definition var_ops (page : N) (inner : bool) : ops vpage vdelta := mk_ops
  vp_cnt
  (fun p => mt_klen (vp_low p) =? 0)
  var_key
  vp_size
  (fun st src i => var_copy_raw st (vp_mem src) (meta_at src i))
  (fun st d => var_copy_raw st (vd_mem d) (vd_meta d))
  vard_key
  vd_type
  (* 450-474 *)
  (fun p base => if inner then var_low_inner p else var_low_leaf p (key_of (vp_mem base) (vp_low base)))
  (fun p => if inner then var_low_inner p else var_low_leaf p (var_key p 0))
  (* 483-501 *)
  (fun st front => var_high st (key_of (vp_mem front) (vp_high front)))
  (fun st right => var_high st (var_key right 0))
  (* 260-264 *)
  (fun p => mk_vpage (vp_mem p) (vp_cnt p) (2 * page) (vp_low p) (vp_high p)).

(** TryConsolidate in the variable-length layout: [m1], [m2] are the old contents of
    the new pages. *)
Definition var_try (page : N) (inner : bool) (lt : list N -> list N -> bool) (m1 m2 : mem)
    (c : bchain vpage vdelta) (size : N) (scan : bool) : bres vpage :=
  b_try (var_ops page inner) lt page var_hdr inner (var_new page m1) (var_new page m2) c size scan.

(** ** fixlen/node.hpp *)

(** 71-77: header flags cleared. *)
Definition fixn_new (L : flay) (m : mem) : fnode := mk_fnode (fix_new L m) false false.
Definition fixn_copy (L : flay) (st : fnode * N) (k v : list N) : fnode * N :=
  let '(n, o) := st in
  let '(p, o') := fix_copy L (fn_page n, o) (k, v) in
  (mk_fnode p (fn_haslow n) (fn_hashigh n), o').
Definition fixn_setmem (n : fnode) (o : N) (bs : list N) (hl hh : bool) : fnode :=
  let p := fn_page n in
  mk_fnode (mk_fpage (wr (fp_mem p) o bs) (fp_cnt p) (fp_size p)) hl hh.

(** [ps] = sizeof(T) of Consolidate<T>. *)
Definition fix_ops (L : flay) (ps : N) : ops fnode fdelta := mk_ops
  (fun n => fp_cnt (fn_page n))
  (fun n => negb (fn_haslow n))
  (fun n i => fix_key L (fn_page n) i)
  (fun n => fp_size (fn_page n))
  (* 476-501, 513-541 *)
  (fun st src i => fixn_copy L st (fix_key L (fn_page src) i) (fix_pay L (fn_page src) ps i))
  (fun st d => fixn_copy L st (fixd_key L d) (fixd_pay L d ps))
  (fixd_key L)
  fd_type
  (* 422-439 *)
  (fun n base => (fixn_setmem n (fl_low L) (fixn_low L base) (fn_haslow base) (fn_hashigh n), fl_page L))
  (fun n => (fixn_setmem n (fl_low L) (fix_key L (fn_page n) 0) true (fn_hashigh n), fl_page L))
  (* 448-465 *)
  (fun st front => fixn_setmem (fst st) (fl_high L) (fixn_high L front) (fn_haslow (fst st)) (fn_hashigh front))
  (fun st right => fixn_setmem (fst st) (fl_high L) (fix_key L (fn_page right) 0) (fn_haslow (fst st)) true)
  (* 231-235 *)
  (fun n => mk_fnode (fix_scan_size L (fn_page n)) (fn_haslow n) (fn_hashigh n)).

Definition fix_try (L : flay) (ps : N) (inner : bool) (lt : list N -> list N -> bool) (m1 m2 : mem)
    (c : bchain fnode fdelta) (size : N) (scan : bool) : bres fnode :=
  b_try (fix_ops L ps) lt (fl_page L) (fl_hdr L) inner (fixn_new L m1) (fixn_new L m2) c size scan.
