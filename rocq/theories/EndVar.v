(** The end key of a scan is held by reference: ScanKey is
    std::optional<std::tuple<const Key &, size_t, bool>> (record_iterator.hpp:43,
    bw_tree.hpp:83), and the iterator keeps this tuple (record_iterator.hpp:219-220) and
    hands it to SiblingScan each time it goes on to another page (record_iterator.hpp:178).
    So the key is read anew from the caller's variable; whether the key itself belongs to the
    interval is stored in the tuple.  Scan.v keeps the key of the call instead. *)
From Coq Require Import ZArith NArith List Bool.
From Verif Require Import Config Page Machine Tree Scan.
Import ListNotations.
Open Scope prog_scope.
Open Scope Z_scope.

(** The iterator when the variable of its end key holds [k]. *)
Definition end_var (it : iter) (k : key) : iter :=
  mk_iter (i_pos it) (i_end it) (i_isend it)
    match i_ekey it with Some (_, closed) => Some (k, closed) | None => None end.

(** The client loop of Scan.v, at most [length vs] times round; [vs]: the values of the
    variable at the calls of HasRecord.  Also whether HasRecord has returned false. *)
Fixpoint iterate (g : cfg) (fuel : nat) (pg : node) (it : iter) (vs : list key)
    : prog (list (key * val) * bool) :=
  match vs with
  | [] => Ret ([], false)
  | v :: vs' =>
      '(more, pg1, it1) <- has_record g fuel pg (end_var it v) ;;
      if more : bool then
        match get_record pg1 it1 with
        | None => UB UbGarbage
        | Some r => '(l, fin) <- iterate g fuel pg1 (advance it1) vs' ;; Ret (r :: l, fin)
        end
      else Ret ([], true)
  end.

(** The variable holds [k] when Scan is called. *)
Definition scan_var (g : cfg) (fuel : nat) (b : bound) (k : key) (closed : bool)
    (vs : list key) : prog (list (key * val) * bool) :=
  '(pg, it) <- op_scan g fuel b (Some (k, closed)) ;; iterate g fuel pg it vs.
