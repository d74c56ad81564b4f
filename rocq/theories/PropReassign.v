(** * C64: assigning a new scan to an iterator variable
    Property theorems only.  [old]: the iterator before the assignment, at any point of its
    own scan, whose end bound is [i_ekey old]. *)
From Coq Require Import ZArith NArith List Bool Lia Sorting.Sorted.
From Verif Require Import Config Api Spec ScanSpec SeqSpec Page Machine Tree Scan Bulk BulkSpec Valid Reassign ReassignSpec ReassignFacts
  ByteLifeSpec ByteLifeMain PropBytes PropTree PropSeq PropScan PropByteTree PropByteMrg PropByteLife.
Import ListNotations.
Open Scope Z_scope.

(** it = index.Scan(b, e) on the same index: the iteration ends, without undefined behaviour
    and with the tree as it was; records within the old and the new end bound are all there,
    and there are none outside both.  Missing: that exactly the records within the new bound
    are returned, see below. *)
Theorem C64_reassigned_partial g os old b e : cfg_ok g ->
  exists s l, two_ends (snd (spec_run sempty os)) b (i_ekey old) e l /\
    (exists F, forall f, (F <= f)%nat ->
       run_calls g f os (init g) = Done (fst (spec_run sempty os)) s /\
       run (scan_again g f old b e) s = Done l s) /\
    (forall f, run (scan_again g f old b e) s = NoFuel \/ run (scan_again g f old b e) s = Done l s).
Proof. exact (again_new g os old b e). Qed.
Print Assumptions C64_reassigned_partial.

(** The same on a tree of fixed-length nodes that Bulkloads and programs have been through. *)
Theorem C64_reassigned_loaded_partial g K M s old b e : cfg_ok g -> c_varlen g = false -> bulk_ok g ->
  lived g K M s ->
  exists l, two_ends M b (i_ekey old) e l /\
    (exists F, forall f, (F <= f)%nat -> run (scan_again g f old b e) s = Done l s) /\
    (forall f, run (scan_again g f old b e) s = NoFuel \/ run (scan_again g f old b e) s = Done l s).
Proof. exact (again_lived g K M s old b e). Qed.
Print Assumptions C64_reassigned_loaded_partial.

(** With the same end bound in both scans the assigned iterator returns exactly the records of
    the interval. *)
Theorem C64_same_end_partial g os old b : cfg_ok g -> (forall k, b <> Some (k, false)) ->
  exists s l, (exists F, forall f, (F <= f)%nat ->
       run_calls g f os (init g) = Done (fst (spec_run sempty os)) s /\
       run (scan_again g f old b (i_ekey old)) s = Done l s) /\
    StronglySorted (fun x y => fst x < fst y) l /\
    forall k w, In (k, w) l <-> snd (spec_run sempty os) k = Some w /\ ScanSpec.after b k /\ before (i_ekey old) k.
Proof.
  intros OK Hb. destruct (again_new g os old b (i_ekey old) OK) as (s & l & P & H & _).
  exists s, l. split; [exact H|]. exact (two_ends_same _ _ _ _ Hb P).
Qed.
Print Assumptions C64_same_end_partial.

(** False for different end bounds.  On the keys 1 to 30, after a scan of 1 to 3 the same
    variable is given a scan of everything: only the first page is returned. *)
Notation run_thirty := (run_calls cfg_small 60 (writes 1 30) (init cfg_small)).
Definition assigned {A} (r : res A) (b1 e1 b e : bound) : res (list (key * val)) :=
  match r with
  | Done _ s =>
      match run (op_scan cfg_small 60 b1 e1) s with
      | Done (_, it) s1 => run (scan_again cfg_small 60 it b e) s1
      | Crash u => Crash u
      | NoFuel => NoFuel
      end
  | Crash u => Crash u
  | NoFuel => NoFuel
  end.
Lemma assigned_done {A} (r : res A) b1 e1 b e l s' : assigned r b1 e1 b e = Done l s' ->
  exists a s pg it s1, r = Done a s /\ run (op_scan cfg_small 60 b1 e1) s = Done (pg, it) s1 /\
    run (scan_again cfg_small 60 it b e) s1 = Done l s'.
Proof.
  unfold assigned. destruct r as [a s| |]; try discriminate.
  destruct (run (op_scan cfg_small 60 b1 e1) s) as [[pg it] s1| |] eqn:E; try discriminate. intros H.
  exists a, s, pg, it, s1. auto.
Qed.
Theorem C64_reassigned_refuted : exists g f os rs s e1 pg it s1 l s' k w,
  cfg_ok g /\ run_calls g f os (init g) = Done rs s /\
  run (op_scan g f None e1) s = Done (pg, it) s1 /\
  run (scan_again g f it None None) s1 = Done l s' /\
  snd (spec_run sempty os) k = Some w /\ ~ In (k, w) l.
Proof.
  destruct (assigned run_thirty None (Some (3, true)) None None) as [l s'| |] eqn:E; [|vm_compute in E; discriminate|vm_compute in E; discriminate].
  pose proof E as E'. vm_compute in E'. injection E' as El _.
  apply assigned_done in E as (rs & s & pg & it & s1 & E1 & E2 & E3).
  exists cfg_small, 60%nat, (writes 1 30), rs, s, (Some (3, true)), pg, it, s1, l, s', 30, 7%N.
  split; [exact cfg_small_ok|]. split; [exact E1|]. split; [exact E2|]. split; [exact E3|].
  split; [vm_compute; reflexivity|]. rewrite <- El. intros H. repeat (destruct H as [H|H]; [discriminate|]). destruct H.
Qed.
Print Assumptions C64_reassigned_refuted.
(** The other way round the iteration passes its end. *)
Theorem C64_reassigned_passed_refuted : exists g f os rs s pg it s1 k l s' q w,
  cfg_ok g /\ run_calls g f os (init g) = Done rs s /\
  run (op_scan g f None None) s = Done (pg, it) s1 /\
  run (scan_again g f it None (Some (k, true))) s1 = Done l s' /\
  In (q, w) l /\ k < q.
Proof.
  destruct (assigned run_thirty None None None (Some (10, true))) as [l s'| |] eqn:E; [|vm_compute in E; discriminate|vm_compute in E; discriminate].
  pose proof E as E'. vm_compute in E'. injection E' as El _.
  apply assigned_done in E as (rs & s & pg & it & s1 & E1 & E2 & E3).
  exists cfg_small, 60%nat, (writes 1 30), rs, s, pg, it, s1, 10, l, s', 30, 7%N.
  split; [exact cfg_small_ok|]. split; [exact E1|]. split; [exact E2|]. split; [exact E3|].
  split; [|reflexivity]. rewrite <- El. cbn [In]. tauto.
Qed.
Print Assumptions C64_reassigned_passed_refuted.

(** With a scan of another index (of the same type) the iterator goes on in the old one, with
    the page IDs of the new one: undefined behaviour. *)
Notation run_one := (run_calls cfg_small 60 (writes 1 1) (init cfg_small)).
Definition crossed {A B} (r1 : res A) (r2 : res B) : bool :=
  match r1, r2 with
  | Done _ s, Done _ o =>
      match run (op_scan cfg_small 60 None None) s with
      | Done (_, it) _ => match scan_other cfg_small 60 it None None o s with Crash _ => true | _ => false end
      | _ => false
      end
  | _, _ => false
  end.
Lemma crossed_spec {A B} (r1 : res A) (r2 : res B) : crossed r1 r2 = true ->
  exists a s b o pg it s1 u, r1 = Done a s /\ r2 = Done b o /\
    run (op_scan cfg_small 60 None None) s = Done (pg, it) s1 /\ scan_other cfg_small 60 it None None o s = Crash u.
Proof.
  unfold crossed. destruct r1 as [a s| |]; try discriminate. destruct r2 as [b o| |]; try discriminate.
  destruct (run (op_scan cfg_small 60 None None) s) as [[pg it] s1| |] eqn:E3; try discriminate.
  destruct (scan_other cfg_small 60 it None None o s) as [l s'|u|] eqn:E4; try discriminate. intros _.
  exists a, s, b, o, pg, it, s1, u. auto.
Qed.
Theorem C64_other_index_refuted : exists g f os1 os2 rs1 rs2 s o pg it s1 u,
  cfg_ok g /\ run_calls g f os1 (init g) = Done rs1 s /\ run_calls g f os2 (init g) = Done rs2 o /\
  run (op_scan g f None None) s = Done (pg, it) s1 /\
  scan_other g f it None None o s = Crash u.
Proof.
  assert (E : crossed run_one run_thirty = true) by (vm_compute; reflexivity).
  apply crossed_spec in E as (rs1 & s & rs2 & o & pg & it & s1 & u & E1 & E2 & E3 & E4).
  exists cfg_small, 60%nat, (writes 1 1), (writes 1 30), rs1, rs2, s, o, pg, it, s1, u.
  split; [exact cfg_small_ok|]. split; [exact E1|]. split; [exact E2|]. split; [exact E3|exact E4].
Qed.
Print Assumptions C64_other_index_refuted.

(** ** The hypotheses hold *)
Definition got {A} (r : res (list A)) : list A := match r with Done l _ => l | _ => [] end.
Example C64_case : map fst (got (assigned run_thirty None (Some (20, true)) (Some (4, true)) (Some (20, true)))) = map Z.of_nat (seq 4 17) /\
  map fst (got (assigned run_thirty None (Some (3, true)) None (Some (20, true)))) = [1; 2; 3; 4; 5; 6].
Proof. vm_compute. auto. Qed.
Example C64_case_loaded : exists M s, lived cfg_p256 ex_u64 M s /\ exists l, two_ends M None (Some (9, true)) (Some (4, false)) l.
Proof.
  destruct C60_life_case as (s0 & H & _). eexists _, s0. split; [exact H|].
  destruct (C64_reassigned_loaded_partial cfg_p256 ex_u64 _ s0 (mk_iter 0 0 true (Some (9, true))) None (Some (4, false))
    cfg_p256_ok eq_refl cfg_p256_bulk H) as (l & P & _). exists l. exact P.
Qed.
