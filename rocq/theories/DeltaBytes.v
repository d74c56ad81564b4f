(** Delta records as bytes (component/fixlen/delta_record.hpp,
    component/varlen/delta_record.hpp): constructors and accessors.  A constructor is
    placed on memory with arbitrary old content ([m]: GetRecPage hands out recycled
    pages).  rec_count_, node_size_ and next_ are in Page.v; bit fields are plain
    fields. *)
From Coq Require Import NArith List Bool.
From Verif Require Import Config Page Bytes FixLayout VarLayout.
Import ListNotations.
Open Scope N_scope.

(** ** Variable-length layout *)

(** varlen/delta_record.hpp:602-630; the data block starts at kHeaderLen = 32. *)
Record vdelta := mk_vdelta {
  vd_mem : mem; vd_inner : bool; vd_type : dtype; vd_meta : meta; vd_high : meta }.

(** Default member initialisers of Metadata (metadata.hpp:92-98). *)
Definition meta0 : meta := mk_meta 0 0 0.

(** 78-88: insert/modify in a leaf (SetKey 566-583, SetPayload 594-603). *)
Definition vard_put (m : mem) (t : dtype) (k v : list N) : vdelta :=
  let m1 := wr m var_hdr k in
  let offset := var_hdr + blen k in
  mk_vdelta (wr m1 offset v) false t (new_meta var_hdr (blen k) (blen k + blen v)) meta0.
(** 96-104: delete in a leaf. *)
Definition vard_del (m : mem) (k : list N) : vdelta :=
  mk_vdelta (wr m var_hdr k) false DDelete (new_meta var_hdr (blen k) (blen k)) meta0.
(** 117-138: index-entry insert and merge; the keys are copied from the right page [r]
    (a Node read through its identical header), [inner] is r_node->is_inner_. *)
Definition vard_smo (m : mem) (t : dtype) (inner : bool) (r : vpage) (pid : list N) : vdelta :=
  let key_len := mt_klen (vp_low r) in
  let m1 := wr m var_hdr (rd (vp_mem r) (mt_off (vp_low r)) key_len) in
  let m2 := wr m1 (var_hdr + key_len) pid in
  let offset := var_hdr + key_len + 8 in
  let hlen := mt_klen (vp_high r) in
  mk_vdelta (wr m2 offset (rd (vp_mem r) (mt_off (vp_high r)) hlen))
    (match t with DInsert => true | _ => inner end) t
    (new_meta var_hdr key_len (key_len + 8)) (new_meta offset hlen hlen).
(** 145-165: index-entry delete; the child pointer is word aligned and starts as
    kNullPtr (eight zero bytes). *)
Definition vard_idel (m : mem) (r : vpage) : vdelta :=
  let klen := mt_klen (vp_low r) in
  let o1 := N.ldiff (var_hdr + 7 + klen) 7 - klen in
  let m1 := wr m o1 (rd (vp_mem r) (mt_off (vp_low r)) klen) in
  let o2 := o1 + klen in
  let m2 := wr m1 o2 (le 8 0) in
  let o3 := o2 + 8 in
  let hlen := mt_klen (vp_high r) in
  mk_vdelta (wr m2 o3 (rd (vp_mem r) (mt_off (vp_high r)) hlen)) true DDelete
    (new_meta o1 klen (klen + 8)) (new_meta o3 hlen hlen).

(** 411-427 GetKey, 433-442 GetPayload ([ps] = sizeof(T)), 347-367 GetHighKey, 547-552
    GetPayloadAddr, 472-477 SetSiblingPID. *)
Definition vard_key (d : vdelta) : list N := key_of (vd_mem d) (vd_meta d).
Definition vard_pay (d : vdelta) (ps : N) : list N := pay_of (vd_mem d) (vd_meta d) ps.
Definition vard_high (d : vdelta) : option (list N) :=
  if mt_klen (vd_high d) =? 0 then None else Some (key_of (vd_mem d) (vd_high d)).
Definition vard_pay_addr (d : vdelta) : N := mt_off (vd_meta d) + mt_klen (vd_meta d).
Definition vard_set (d : vdelta) (pid : list N) : vdelta :=
  mk_vdelta (wr (vd_mem d) (vard_pay_addr d) pid) (vd_inner d) (vd_type d) (vd_meta d) (vd_high d).

(** ** Fixed-length layout *)

(** fixlen/node.hpp:749-780 and fixlen/delta_record.hpp:519-552: low_key_/key_,
    high_key_ and keys_/payload_ follow each other, so the keys lie directly in front of
    offset [fl_koff]; both flags of the header tell whether they are set. *)
Record fnode := mk_fnode { fn_page : fpage; fn_haslow : bool; fn_hashigh : bool }.
Record fdelta := mk_fdelta {
  fd_mem : mem; fd_inner : bool; fd_type : dtype; fd_haslow : bool; fd_hashigh : bool }.

Definition fl_low (L : flay) : N := fl_koff L - 2 * fl_ks L.
Definition fl_high (L : flay) : N := fl_koff L - fl_ks L.

(** Fence keys of a page: node.hpp:205-226 GetLowKey, GetHighKey. *)
Definition fixn_low (L : flay) (n : fnode) : list N := rd (fp_mem (fn_page n)) (fl_low L) (fl_ks L).
Definition fixn_high (L : flay) (n : fnode) : list N := rd (fp_mem (fn_page n)) (fl_high L) (fl_ks L).

(** 72-79: insert/modify in a leaf; high_key_ is value-initialised. *)
Definition fixd_put (L : flay) (m : mem) (t : dtype) (k v : list N) : fdelta :=
  let m1 := wr m (fl_low L) k in
  let m2 := wr m1 (fl_high L) (repeat 0 (N.to_nat (fl_ks L))) in
  mk_fdelta (wr m2 (fl_koff L) v) false t true false.
(** 87-92: delete in a leaf. *)
Definition fixd_del (L : flay) (m : mem) (k : list N) : fdelta :=
  let m1 := wr m (fl_low L) k in
  mk_fdelta (wr m1 (fl_high L) (repeat 0 (N.to_nat (fl_ks L)))) false DDelete true false.
(** 105-118: index-entry insert and merge. *)
Definition fixd_smo (L : flay) (m : mem) (t : dtype) (inner : bool) (r : fnode) (pid : list N) : fdelta :=
  let m1 := wr m (fl_low L) (fixn_low L r) in
  let m2 := wr m1 (fl_high L) (fixn_high L r) in
  mk_fdelta (wr m2 (fl_koff L) pid) (match t with DInsert => true | _ => inner end) t true (fn_hashigh r).
(** 125-136: index-entry delete, child pointer at kPayOffset. *)
Definition fixd_idel (L : flay) (m : mem) (r : fnode) : fdelta :=
  let m1 := wr m (fl_low L) (fixn_low L r) in
  let m2 := wr m1 (fl_high L) (fixn_high L r) in
  mk_fdelta (wr m2 (fixd_pay_offset L) (le 8 0)) true DDelete true (fn_hashigh r).

(** 379-384 GetKey, 390-399 GetPayload, 327-333 GetHighKey, 405-420
    GetPayloadAtomically, 427-432 SetSiblingPID. *)
Definition fixd_key (L : flay) (d : fdelta) : list N := rd (fd_mem d) (fl_low L) (fl_ks L).
Definition fixd_pay (L : flay) (d : fdelta) (ps : N) : list N := rd (fd_mem d) (fl_koff L) ps.
Definition fixd_high (L : flay) (d : fdelta) : option (list N) :=
  if fd_hashigh d then Some (rd (fd_mem d) (fl_high L) (fl_ks L)) else None.
Definition fixd_child (L : flay) (d : fdelta) : list N := rd (fd_mem d) (fixd_pay_offset L) 8.
Definition fixd_set (L : flay) (d : fdelta) (pid : list N) : fdelta :=
  mk_fdelta (wr (fd_mem d) (fixd_pay_offset L) pid) (fd_inner d) (fd_type d) (fd_haslow d) (fd_hashigh d).
