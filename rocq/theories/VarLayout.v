(** Byte layout of variable-length pages and delta records
    (component/varlen/metadata.hpp, node.hpp, delta_record.hpp). *)
From Coq Require Import NArith List Bool.
From Verif Require Import Bytes.
Import ListNotations.
Open Scope N_scope.

(** metadata.hpp:45-53, 92-98: the constructor truncates all three arguments to 16
    bits; the members have 32, 16 and 16 bits. *)
Record meta := mk_meta { mt_off : N; mt_klen : N; mt_rlen : N }.
Definition u16 (x : N) : N := x mod 65536.
Definition new_meta (offset key_len rec_len : N) : meta :=
  mk_meta (u16 offset) (u16 key_len) (u16 rec_len).
(** The eight bytes of a metadata object. *)
Definition meta_bytes (x : meta) : list N := le 4 (mt_off x) ++ le 2 (mt_klen x) ++ le 2 (mt_rlen x).
Definition meta_read (m : mem) (o : N) : meta :=
  mk_meta (unle (rd m o 4)) (unle (rd m (o + 4) 2)) (unle (rd m (o + 6) 2)).

(** node.hpp:876-904: header fields and bytes; meta_array_ starts at kHeaderLen = 32. *)
Record vpage := mk_vpage {
  vp_mem : mem; vp_cnt : N; vp_size : N; vp_low : meta; vp_high : meta }.
Definition var_hdr : N := 32.
Definition var_new (page : N) (m : mem) : vpage :=
  mk_vpage m 0 var_hdr (new_meta page 0 0) (new_meta page 0 0).

Definition meta_at (p : vpage) (i : N) : meta := meta_read (vp_mem p) (var_hdr + 8 * i).
Definition set_meta (m : mem) (i : N) (x : meta) : mem := wr m (var_hdr + 8 * i) (meta_bytes x).

(** node.hpp:741-746, 752-768, 774-779, 787-794: access through metadata. *)
Definition key_of (m : mem) (x : meta) : list N := rd m (mt_off x) (mt_klen x).
Definition pay_of (m : mem) (x : meta) (ps : N) : list N := rd m (mt_off x + mt_klen x) ps.
Definition var_key (p : vpage) (i : N) : list N := key_of (vp_mem p) (meta_at p i).
Definition var_pay (p : vpage) (ps i : N) : list N := pay_of (vp_mem p) (meta_at p i) ps.

(** node.hpp:512-540, 553-580 CopyRecordFrom (record bytes: key then payload). *)
Definition var_copy (st : vpage * N) (r : list N * list N) : vpage * N :=
  let '(p, offset) := st in
  let '(k, v) := r in
  let rec_len := blen k + blen v in
  let offset := offset - rec_len in
  let m1 := wr (vp_mem p) offset (k ++ v) in
  let m2 := set_meta m1 (vp_cnt p) (new_meta offset (blen k) rec_len) in
  (mk_vpage m2 (vp_cnt p + 1) (vp_size p + (8 + rec_len)) (vp_low p) (vp_high p), offset).
Definition var_fill (p : vpage) (offset : N) (rs : list (list N * list N)) : vpage * N :=
  fold_left var_copy rs (p, offset).

(** node.hpp:450-474 CopyLowKeyFrom for leaves: [low] is the key found in the old page
    (empty for a leftmost page).  meta_array_[-1] is high_meta_. *)
Definition var_low_leaf (p : vpage) (low : list N) : vpage * N :=
  let o := if vp_cnt p =? 0 then mt_off (vp_high p) else mt_off (meta_at p (vp_cnt p - 1)) in
  let offset := o - blen low in
  (mk_vpage (wr (vp_mem p) offset low) (vp_cnt p) (vp_size p + blen low)
     (new_meta offset (blen low) (blen low)) (vp_high p), offset).
(** 454-459: inner pages share the key of their first record. *)
Definition var_low_inner (p : vpage) : vpage * N :=
  let x := meta_at p 0 in
  (mk_vpage (vp_mem p) (vp_cnt p) (vp_size p) (mk_meta (mt_off x) (mt_klen x) (mt_klen x)) (vp_high p),
   mt_off (meta_at p (vp_cnt p - 1))).
(** 483-501 CopyHighKeyFrom. *)
Definition var_high (st : vpage * N) (high : list N) : vpage :=
  let '(p, o) := st in
  let offset := o - blen high in
  mk_vpage (wr (vp_mem p) offset high) (vp_cnt p) (vp_size p + blen high) (vp_low p)
    (new_meta offset (blen high) (blen high)).

(** 614-641 Bulkload: records from [kPageSize - kMaxKeyLen] downwards, the low key
    shared with record 0. *)
Definition var_bulk (page maxk : N) (m : mem) (rs : list (list N * list N)) : vpage :=
  let p := fst (var_fill (var_new page m) (page - maxk) rs) in
  let x := meta_at p 0 in
  mk_vpage (vp_mem p) (vp_cnt p) (vp_size p) (mk_meta (mt_off x) (mt_klen x) (mt_klen x)) (vp_high p).
(** 858-873 LinkNext: the high key at the very end of the page. *)
Definition var_link (page : N) (p : vpage) (high : list N) : vpage :=
  let offset := page - blen high in
  mk_vpage (wr (vp_mem p) offset high) (vp_cnt p) (vp_size p + blen high) (vp_low p)
    (new_meta offset (blen high) (blen high)).
(** 694-702 RemoveLeftmostKeys on an inner page. *)
Definition var_drop_key0 (page : N) (p : vpage) : vpage :=
  let x := meta_at p 0 in
  mk_vpage (set_meta (vp_mem p) 0 (new_meta (mt_off x + mt_klen x) 0 (mt_rlen x - mt_klen x)))
    (vp_cnt p) (vp_size p) (new_meta page 0 0) (vp_high p).

(** 83-103: a new root with two children (page IDs as 8 bytes). *)
Definition var_root (page : N) (m : mem) (k left right : list N) : vpage :=
  let o1 := page - 8 in
  let m1 := set_meta (wr m o1 left) 0 (new_meta o1 0 8) in
  let o2 := o1 - 8 in
  let m2 := wr m1 o2 right in
  let o3 := o2 - blen k in
  let m3 := wr m2 o3 k in
  mk_vpage (set_meta m3 1 (new_meta o3 (blen k) (blen k + 8))) 2 (var_hdr + (2 * 8 + page - o3))
    (new_meta page 0 0) (new_meta page 0 0).

(** ** Delta records: end of the bytes written by each constructor
    (delta_record.hpp; the header has 32 bytes) *)
(** 78-105 insert/modify/delete in leaves. *)
Definition vard_leaf_end (klen paylen : N) : N := 32 + klen + paylen.
(** 118-138 index-entry insert, merge. *)
Definition vard_smo_end (klen hlen : N) : N := 32 + klen + 8 + hlen.
(** 145-165 index-entry delete: the payload is aligned to a word. *)
Definition vard_index_delete_end (klen hlen : N) : N :=
  N.ldiff (32 + 7 + klen) 7 - klen + klen + 8 + hlen.
(** 485-493 GetMaxDeltaSize. *)
Definition vard_max (maxk paylen : N) : N :=
  align_up (32 + 2 * maxk + (if 8 <? paylen then paylen else 8)) 64.
