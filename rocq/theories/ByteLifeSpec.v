(** The life of a tree of fixed-length nodes: programs of one thread and Bulkloads, one
    after the other, on Tree.v and on bytes.  Definitions only. *)
From Coq Require Import ZArith NArith List Bool Sorting.Sorted.
From Verif Require Import Config Api Spec Page Machine Tree Scan ScanSpec Bulk BulkSpec Bytes FixLayout DeltaBytes ByteCons ByteTree ByteTreeSpec ByteScan
  ByteScanSpec ByteBulk ByteSeq ByteSeqSpec.
Import ListNotations.
Open Scope Z_scope.

(** [lived g K M s]: [s] is a state of Tree.v that a new tree may come to, and [M] is the map
    a user expects it to hold: a program changes it as its calls say, Bulkload replaces it
    by the entries given. *)
Inductive lived (g : cfg) (K : key -> Prop) : smap -> st -> Prop :=
| lv_new : lived g K sempty (init g)
| lv_run M s f is js s' : lived g K M s -> Forall (item_keys K) is -> run_items g f is s = Done js s' ->
    lived g K (after_items M is) s'
| lv_load M s es s' M' : lived g K M s -> Forall (fun x => K (fst x)) es -> ascending es -> es <> [] ->
    bulkloaded g es s s' -> holds_only M' es -> lived g K M' s'.

(** The same on bytes. *)
Section X.
Variables (g : cfg) (K : key -> Prop) (lt : list N -> list N -> bool) (ek : key -> list N) (ev : N -> list N) (L : flay) (junk : addr -> mem).
Notation lps := (Z.to_N (c_paylen g)).
Notation C := (fix_klass L lps lt).
Inductive xlived : smap -> xst (tchain fnode fdelta) -> Prop :=
| xlv_new : xlived sempty (xinit C junk)
| xlv_run M xs f xis js xs' : xlived M xs -> Forall (item_keys K) (map snd xis) ->
    xrun_items C lt g fix_pmem junk f (map (enc_item ek ev) xis) xs = XDone js xs' ->
    xlived (after_items M (map snd xis)) xs'
| xlv_load M xs es xs' M' : xlived M xs -> Forall (fun x => K (fst x)) es -> ascending es -> es <> [] ->
    xbulkloaded L lps lt g junk (map (fun x => (ek (fst x), ev (snd x))) es) xs xs' -> holds_only M' es ->
    xlived M' xs'.
End X.
