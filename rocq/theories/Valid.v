(** Configurations for which the page arithmetic works out. *)
From Coq Require Import ZArith.
From Verif Require Import Config.
Open Scope Z_scope.

(** Bytes a page spends on each of its fence keys (the fixed-length layout keeps
    them in the header). *)
Definition kovh (g : cfg) : Z := if c_varlen g then c_maxklen g else 0.
(** An upper bound of the bytes of one record. *)
Definition maxrec (g : cfg) : Z := metalen g + c_maxklen g + Z.max (c_paylen g) ptrlen.
(** How far a node may exceed the page size before it is split: by one record,
    or by a merged page. *)
Definition excess (g : cfg) : Z := Z.max (maxrec g) (c_min g).

Record cfg_ok (g : cfg) : Prop := mk_cfg_ok {
  ok_key  : forall k, 0 < klen g k <= c_maxklen g;
  ok_pay  : 0 <= c_paylen g;
  ok_hdr  : 0 <= c_hdr g;
  ok_thr  : 1 <= c_thr g <= c_maxd g;
  ok_page : c_hdr g + 2 * (excess g + c_hdr g + 2 * kovh g) <= c_page g
}.

(** Merging disabled: kMinNodeSize below the size of an empty page. *)
Definition no_merge (g : cfg) : Prop := c_min g < c_hdr g.

(** Bulk loading in the fixed-length layout: room for one record per leaf page and
    two entries per inner page within the bulk-loading capacity. *)
Definition bulk_ok (g : cfg) : Prop :=
  c_hdr g + c_ksize g + c_paylen g <= c_bulkcap g /\
  c_hdr g + 2 * (c_ksize g + ptrlen) <= c_bulkcap g <= c_page g.
