(** * C40: passing keys obtained from an iterator to Scan
    Property theorems only; [cb] is whatever rebuilding a page leaves in the buffer. *)
From Coq Require Import ZArith NArith List Bool Lia.
From Verif Require Import Config Api Page Machine Tree Scan Valid KeyBuf KeyBufFacts KeyBufScan KeyBufScanFacts PropTree PropKeys.
Import ListNotations.
Open Scope Z_scope.

(** With value keys (any type but char* ) a scan behaves as if it were given the keys. *)
Theorem C40_scan_bounds_partial cb g fuel b e buf s : c_ptr g = false ->
  run (scan_all_r cb g fuel (iter_bound g b) (iter_bound g e) buf) s = run (scan_all g fuel b e) s.
Proof. exact (scan_iter_value cb g fuel b e buf s). Qed.
Print Assumptions C40_scan_bounds_partial.

(** With char* keys the same holds for copies of the keys in the caller's own memory. *)
Theorem C40_scan_copied_partial cb g fuel b e buf s :
  run (scan_all_r cb g fuel (own_bound b) (own_bound e) buf) s = run (scan_all g fuel b e) s.
Proof. exact (scan_own cb g fuel b e buf s). Qed.
Print Assumptions C40_scan_copied_partial.

(** C40 is false for scan bounds that are char* keys of an iterator.  Default settings,
    strings of eight bytes, keys 1 to 48.  A scan from the key of the first record leaves that
    record and many others out. *)
Notation run_ptr := (run_calls cfg_ptr 60 (puts 48) (init cfg_ptr)).
Definition rescanned {A} (cb : chain -> key -> key) (r : res A) (b e : bound) : res (list (key * val)) :=
  match r with Done _ s => run (scan_all_r cb cfg_ptr 60 (iter_bound cfg_ptr b) (iter_bound cfg_ptr e) 1) s | Crash u => Crash u | NoFuel => NoFuel end.
Definition got {A} (r : res (list A)) : list A := match r with Done l _ => l | _ => [] end.
Lemma rescanned_done {A} cb (r : res A) b e l s' : rescanned cb r b e = Done l s' ->
  exists a s, r = Done a s /\ run (scan_all_r cb cfg_ptr 60 (iter_bound cfg_ptr b) (iter_bound cfg_ptr e) 1) s = Done l s'.
Proof. unfold rescanned. destruct r as [a s| |]; try discriminate. eauto. Qed.
Theorem C40_scan_begin_refuted : cfg_ok cfg_ptr /\ c_ptr cfg_ptr = true /\
  forall cb, exists rs s l s', run_ptr = Done rs s /\
    (exists s1, run (op_read cfg_ptr 60 1) s = Done (Some 1%N) s1) /\
    run (scan_all_r cb cfg_ptr 60 (iter_bound cfg_ptr (Some (1, true))) None 1) s = Done l s' /\
    ~ In 1 (map fst l).
Proof.
  split; [apply C40_iterator_key_refuted|]. split; [reflexivity|]. intros cb.
  assert (E0 : match run_ptr with Done _ s => reads_as s 1 (Some 1%N) | _ => false end = true) by (vm_compute; reflexivity).
  destruct (rescanned cb run_ptr (Some (1, true)) None) as [l s'| |] eqn:E; [|vm_compute in E; discriminate|vm_compute in E; discriminate].
  pose proof E as E'. vm_compute in E'. injection E' as El _.
  apply rescanned_done in E as (rs & s & E1 & E2). rewrite E1 in E0. apply reads_as_run in E0.
  exists rs, s, l, s'. split; [exact E1|]. split; [exact E0|]. split; [exact E2|].
  rewrite <- El. cbn [map fst]. intros H. repeat (destruct H as [H|H]; [discriminate|]). destruct H.
Qed.
Print Assumptions C40_scan_begin_refuted.
(** A scan to the key of the first record goes far beyond it. *)
Theorem C40_scan_end_refuted : cfg_ok cfg_ptr /\ c_ptr cfg_ptr = true /\
  forall cb, exists rs s l s', run_ptr = Done rs s /\
    run (scan_all_r cb cfg_ptr 60 None (iter_bound cfg_ptr (Some (1, true))) 1) s = Done l s' /\
    In (34, 34%N) l.
Proof.
  split; [apply C40_iterator_key_refuted|]. split; [reflexivity|]. intros cb.
  destruct (rescanned cb run_ptr None (Some (1, true))) as [l s'| |] eqn:E; [|vm_compute in E; discriminate|vm_compute in E; discriminate].
  pose proof E as E'. vm_compute in E'. injection E' as El _.
  apply rescanned_done in E as (rs & s & E1 & E2).
  exists rs, s, l, s'. split; [exact E1|]. split; [exact E2|].
  rewrite <- El. cbn [In]. tauto.
Qed.
Print Assumptions C40_scan_end_refuted.

(** A case of the partial theorems: the bounds 5 and 30, copied. *)
Definition recopied {A} (r : res A) (b e : bound) : res (list (key * val)) :=
  match r with Done _ s => run (scan_all_r (fun _ _ => 99) cfg_ptr 60 (own_bound b) (own_bound e) 77) s | Crash u => Crash u | NoFuel => NoFuel end.
Example C40_scan_case : map fst (got (recopied run_ptr (Some (5, true)) (Some (30, true)))) = map Z.of_nat (seq 5 26).
Proof. vm_compute. reflexivity. Qed.
