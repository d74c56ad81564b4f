(** Byte layout of fixed-length pages and delta records
    (component/fixlen/node.hpp, component/fixlen/delta_record.hpp). *)
From Coq Require Import NArith List Bool.
From Verif Require Import Bytes.
Import ListNotations.
Open Scope N_scope.

(** [fl_koff] is the offset of keys_ (node.hpp:780), [fl_hdr] is sizeof(Node); the
    compiler may leave padding between them, so only [fl_koff <= fl_hdr] is used. *)
Record flay := mk_flay { fl_page : N; fl_hdr : N; fl_koff : N; fl_ks : N }.

(** rec_count_, node_size_ and the bytes of a page (node.hpp:749-780; the other header
    fields are never overwritten by record accesses, see C24). *)
Record fpage := mk_fpage { fp_mem : mem; fp_cnt : N; fp_size : N }.

(** node.hpp:71-77: an empty page on arbitrary memory. *)
Definition fix_new (L : flay) (m : mem) : fpage := mk_fpage m 0 (fl_hdr L).

(** node.hpp:251-256 GetKey. *)
Definition fix_key (L : flay) (p : fpage) (pos : N) : list N :=
  rd (fp_mem p) (fl_koff L + fl_ks L * pos) (fl_ks L).
(** node.hpp:692-700 GetPayloadAddr, 263-276 GetPayload ([ps] = sizeof(T)). *)
Definition fix_pay_addr (L : flay) (p : fpage) (ps pos : N) : N :=
  align_up (fp_size p) (fl_page L) - ps * (pos + 1).
Definition fix_pay (L : flay) (p : fpage) (ps pos : N) : list N :=
  rd (fp_mem p) (fix_pay_addr L p ps pos) ps.

(** node.hpp:486-493 and 524-531 CopyRecordFrom (the switch to the right page of a
    split restarts with a new page and [offset = kPageSize]); 577-584 Bulkload writes
    records the same way.  Result: the page and the new offset. *)
Definition fix_copy (L : flay) (st : fpage * N) (r : list N * list N) : fpage * N :=
  let '(p, offset) := st in
  let '(k, v) := r in
  let m1 := wr (fp_mem p) (fl_koff L + fl_ks L * fp_cnt p) k in
  let offset := offset - blen v in
  let m2 := wr m1 offset v in
  (mk_fpage m2 (fp_cnt p + 1) (fp_size p + (fl_ks L + blen v)), offset).
Definition fix_fill (L : flay) (p : fpage) (offset : N) (rs : list (list N * list N)) : fpage * N :=
  fold_left (fix_copy L) rs (p, offset).

(** node.hpp:231-235 SetNodeSizeForScan. *)
Definition fix_scan_size (L : flay) (p : fpage) : fpage :=
  mk_fpage (fp_mem p) (fp_cnt p) (2 * fl_page L).

(** node.hpp:85-99: a new root with two children; 8 = kPtrLen. *)
Definition fix_root (L : flay) (m : mem) (k left right : list N) : fpage :=
  let m1 := wr m (fl_koff L + fl_ks L * 1) k in
  let m2 := wr m1 (fl_page L - 8) left in
  mk_fpage (wr m2 (fl_page L - 8 - 8) right) 2 (fl_hdr L + 2 * (fl_ks L + 8)).

(** ** Delta records: last byte written by each constructor (delta_record.hpp) *)

(** 72-79 insert/modify, 103-118 split/merge: payload_ (at the same offset as keys_)
    receives sizeof(T) bytes. *)
Definition fixd_end (L : flay) (paylen : N) : N := fl_koff L + paylen.
(** 125-141 index-entry delete: eight bytes at kPayOffset (498). *)
Definition fixd_pay_offset (L : flay) : N := align_up (fl_hdr L) 8.
Definition fixd_index_delete_end (L : flay) : N := fixd_pay_offset L + 8.
(** 442-449 GetMaxDeltaSize. *)
Definition fixd_max (L : flay) (paylen : N) : N :=
  align_up (fl_hdr L + (if 8 <? paylen then paylen else 8)) 64.
