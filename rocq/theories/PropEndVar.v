(** * C63: the end key of a scan lives in the caller's variable
    Property theorems only.  [vs] lists the values of the variable at the calls of HasRecord.
    The variable has to stay alive: a dangling reference is undefined behaviour in C++, and
    nothing is said about it here. *)
From Coq Require Import ZArith NArith List Bool Lia Sorting.Sorted.
From Verif Require Import Config Api Spec ScanSpec SeqSpec Page Machine Tree Scan Bulk BulkSpec Valid EndVar EndVarSpec EndVarFacts
  ByteLifeSpec ByteLifeMain PropBytes PropTree PropSeq PropScan PropByteTree PropByteMrg PropByteLife.
Import ListNotations.
Open Scope Z_scope.

(** Whatever is assigned to the variable, the scan never runs into undefined behaviour, the
    tree stays as it is, keys ascend, and the result lies between the scans to the smallest
    and to the largest value the variable has had. *)
Theorem C63_end_variable g os closed lo hi b k0 vs : cfg_ok g ->
  lo <= k0 <= hi -> Forall (fun v => lo <= v <= hi) vs ->
  exists s l fin, end_ok (snd (spec_run sempty os)) b closed lo hi (length vs) l fin /\
    (exists F, forall f, (F <= f)%nat ->
       run_calls g f os (init g) = Done (fst (spec_run sempty os)) s /\
       run (scan_var g f b k0 closed vs) s = Done (l, fin) s) /\
    (forall f, run (scan_var g f b k0 closed vs) s = NoFuel \/
               run (scan_var g f b k0 closed vs) s = Done (l, fin) s).
Proof. exact (scan_var_new g os closed lo hi b k0 vs). Qed.
Print Assumptions C63_end_variable.

(** The same on a tree of fixed-length nodes that Bulkloads and programs have been through. *)
Theorem C63_end_variable_loaded g K M s closed lo hi b k0 vs : cfg_ok g -> c_varlen g = false -> bulk_ok g ->
  lived g K M s -> lo <= k0 <= hi -> Forall (fun v => lo <= v <= hi) vs ->
  exists l fin, end_ok M b closed lo hi (length vs) l fin /\
    (exists F, forall f, (F <= f)%nat -> run (scan_var g f b k0 closed vs) s = Done (l, fin) s) /\
    (forall f, run (scan_var g f b k0 closed vs) s = NoFuel \/
               run (scan_var g f b k0 closed vs) s = Done (l, fin) s).
Proof. exact (scan_var_lived g K M s closed lo hi b k0 vs). Qed.
Print Assumptions C63_end_variable_loaded.

(** If the variable keeps the value it had when Scan was called, a scan that comes to its end
    has returned exactly the records of the interval. *)
Theorem C63_kept_variable g os closed b k n : cfg_ok g -> (forall q, b <> Some (q, false)) ->
  exists s l fin,
    (exists F, forall f, (F <= f)%nat ->
       run_calls g f os (init g) = Done (fst (spec_run sempty os)) s /\
       run (scan_var g f b k closed (repeat k n)) s = Done (l, fin) s) /\
    (fin = false -> length l = n) /\
    (fin = true -> StronglySorted (fun x y => fst x < fst y) l /\
       forall q w, In (q, w) l <-> snd (spec_run sempty os) q = Some w /\ ScanSpec.after b q /\ before (Some (k, closed)) q).
Proof.
  intros OK Hb. assert (Hv : Forall (fun v => k <= v <= k) (repeat k n)) by (apply Forall_forall; intros v Hv; apply repeat_spec in Hv; lia).
  destruct (scan_var_new g os closed k k b k (repeat k n) OK ltac:(lia) Hv) as (s & l & fin & P & H & _).
  exists s, l, fin. split; [exact H|]. split; [rewrite <- (repeat_length k n) at 1; apply P|].
  intros ->. exact (end_ok_kept _ _ _ _ _ _ Hb P).
Qed.
Print Assumptions C63_kept_variable.

(** The claim that the interval is fixed by the call of Scan is false, with keys of any type.
    Scan up to 25 on the keys 1 to 30; the caller stores each key it gets in the variable it
    had passed as end key: the scan ends early, and the record of 25 is missing. *)
Notation run_short := (run_calls cfg_small 60 (writes 1 30) (init cfg_small)).
Definition scanned {A} (r : res A) (b : bound) (k : key) (vs : list key) : res (list (key * val) * bool) :=
  match r with Done _ s => run (scan_var cfg_small 60 b k true vs) s | Crash u => Crash u | NoFuel => NoFuel end.
Lemma scanned_done {A} (r : res A) b k vs x s' : scanned r b k vs = Done x s' ->
  exists a s, r = Done a s /\ run (scan_var cfg_small 60 b k true vs) s = Done x s'.
Proof. unfold scanned. destruct r as [a s| |]; try discriminate. eauto. Qed.
Theorem C63_end_missed_refuted : exists g f os rs s k vs l s',
  cfg_ok g /\ run_calls g f os (init g) = Done rs s /\
  run (scan_var g f None k true vs) s = Done (l, true) s' /\
  snd (spec_run sempty os) k = Some 7%N /\ ~ In (k, 7%N) l /\
  (* each time round, the variable holds the key returned the time before *)
  vs = k :: map fst l.
Proof.
  destruct (scanned run_short None 25 [25; 1; 2; 3; 4; 5; 6]) as [[l fin] s'| |] eqn:E; [|vm_compute in E; discriminate|vm_compute in E; discriminate].
  pose proof E as E'. vm_compute in E'. injection E' as <- <- _.
  apply scanned_done in E as (rs & s & E1 & E2).
  exists cfg_small, 60%nat, (writes 1 30), rs, s, 25, [25; 1; 2; 3; 4; 5; 6], [(1, 7%N); (2, 7%N); (3, 7%N); (4, 7%N); (5, 7%N); (6, 7%N)], s'.
  split; [exact cfg_small_ok|]. split; [exact E1|]. split; [exact E2|]. split; [vm_compute; reflexivity|].
  split; [|reflexivity]. intros H. repeat (destruct H as [H|H]; [discriminate|]). destruct H.
Qed.
Print Assumptions C63_end_missed_refuted.
(** With a larger value the scan goes on beyond the end key it was given. *)
Theorem C63_end_passed_refuted : exists g f os rs s k vs l s' q w,
  cfg_ok g /\ run_calls g f os (init g) = Done rs s /\
  run (scan_var g f None k true vs) s = Done (l, true) s' /\ In (q, w) l /\ k < q.
Proof.
  destruct (scanned run_short None 8 (repeat 8 3 ++ repeat 20 30)) as [[l fin] s'| |] eqn:E; [|vm_compute in E; discriminate|vm_compute in E; discriminate].
  pose proof E as E'. vm_compute in E'. injection E' as El Ef _. subst fin.
  apply scanned_done in E as (rs & s & E1 & E2).
  exists cfg_small, 60%nat, (writes 1 30), rs, s, 8, (repeat 8 3 ++ repeat 20 30), l, s', 20, 7%N.
  split; [exact cfg_small_ok|]. split; [exact E1|]. split; [exact E2|]. split; [|reflexivity].
  rewrite <- El. cbn. tauto.
Qed.
Print Assumptions C63_end_passed_refuted.

(** ** The hypotheses hold *)
Example C63_case_kept : scanned run_short (Some (3, true)) 25 (repeat 25 40) = scanned run_short (Some (3, true)) 25 (repeat 25 24) /\
  match scanned run_short (Some (3, true)) 25 (repeat 25 40) with Done (l, fin) _ => map fst l = map Z.of_nat (seq 3 23) /\ fin = true | _ => False end /\
  match scanned run_short None 25 (repeat 25 4) with Done (l, fin) _ => map fst l = [1; 2; 3; 4] /\ fin = false | _ => False end.
Proof. vm_compute. auto. Qed.
(** The variable goes up and down between 10 and 25. *)
Example C63_case_moving : Forall (fun v => 10 <= v <= 25) [25; 10; 11; 12; 25; 25; 20; 21; 10; 10; 10; 10; 10; 10; 10; 25] /\
  match scanned run_short None 12 [25; 10; 11; 12; 25; 25; 20; 21; 10; 10; 10; 10; 10; 10; 10; 25] with
  | Done (l, fin) _ => (length l >= 10)%nat /\ fin = true
  | _ => False
  end.
Proof. split; [repeat constructor; lia|]. vm_compute. auto 30. Qed.
Example C63_case_loaded : exists M s, lived cfg_p256 ex_u64 M s /\ exists l fin, end_ok M None true 10 25 2 l fin.
Proof.
  destruct C60_life_case as (s0 & H & _). eexists _, s0. split; [exact H|].
  destruct (C63_end_variable_loaded cfg_p256 ex_u64 _ s0 true 10 25 None 20 [25; 10] cfg_p256_ok eq_refl cfg_p256_bulk H ltac:(lia)
    ltac:(repeat constructor; lia)) as (l & fin & P & _). exists l, fin. exact P.
Qed.
