(** Scans of a tree built by single-threaded calls (C12, C13). *)
From Coq Require Import ZArith NArith List Bool Sorting.Sorted.
From Verif Require Import Config Api Page Machine Tree Scan Spec Valid SeqSpec SeqScan PropTree ScanSpec.
Import ListNotations.
Open Scope Z_scope.

(** C12.  Iterating over Scan(b, e) to the end, with no begin key or an included one,
    returns the records of the map within the interval, each once, by ascending key,
    and leaves the tree as it was. *)
Theorem C12_scan_exact : forall g os b e, cfg_ok g -> (forall k, b <> Some (k, false)) ->
  exists F s l, forall f, (F <= f)%nat ->
    run_calls g f os (init g) = Done (fst (spec_run sempty os)) s /\
    run (scan_all g f b e) s = Done l s /\
    StronglySorted (fun x y => fst x < fst y) l /\
    (forall k v, In (k, v) l <-> snd (spec_run sempty os) k = Some v /\ after b k /\ before e k).
Proof. exact c12. Qed.
Print Assumptions C12_scan_exact.

(** A scan across three leaves. *)
Example cfg_p256_ok : cfg_ok cfg_p256.
Proof. constructor; vm_compute; intros; repeat split; congruence. Qed.
Example C12_ex : (forall k, Some (11, true) <> Some (k, false)) /\
  match run (scan_all cfg_p256 60 (Some (11, true)) (Some (28, false))) tree40 with
  | Done l _ => map fst l = map Z.of_nat (seq 11 17)
  | _ => False
  end.
Proof. split; [discriminate|vm_compute; reflexivity]. Qed.

(** C13, the part that holds: with an excluded begin key the scan returns exactly the
    records of the open interval, except that the begin key itself may be returned
    too, with its stored payload.  Missing: that it is not returned, which is false
    ([C13_exclusive_begin_refuted]). *)
Theorem C13_exclusive_begin_partial : forall g os bk e, cfg_ok g ->
  exists F s l, forall f, (F <= f)%nat ->
    run_calls g f os (init g) = Done (fst (spec_run sempty os)) s /\
    run (scan_all g f (Some (bk, false)) e) s = Done l s /\
    StronglySorted (fun x y => fst x < fst y) l /\
    (forall k v, k <> bk ->
       In (k, v) l <-> snd (spec_run sempty os) k = Some v /\ after (Some (bk, false)) k /\ before e k) /\
    (forall v, In (bk, v) l -> snd (spec_run sempty os) bk = Some v).
Proof. exact c13. Qed.
Print Assumptions C13_exclusive_begin_partial.

(** Here the begin key is not returned. *)
Example C13_ex :
  match run (scan_all cfg_p256 60 (Some (11, false)) (Some (28, false))) tree40 with
  | Done l _ => map fst l = map Z.of_nat (seq 12 16)
  | _ => False
  end.
Proof. vm_compute; reflexivity. Qed.
