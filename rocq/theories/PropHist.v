(** C43, C44: what histories of point calls show, beyond linearizability. *)
From Coq Require Import ZArith NArith List Bool.
From Verif Require Import Config Api Page Machine Tree Spec Conc Race ConcSpec Valid ConcChain TreeRef
  HistSpec HistFacts PropTree PropConc.
Import ListNotations.
Open Scope Z_scope.

(** ** C43: a Read reports only values that were stored under its key *)

(** False of the code: two threads, kPageSize = 256, every call stores the value 7; a Read
    of 19 returns 10, the ID of a page.  A Write of 7 had reached a leaf that was merged
    away, found the root replaced, and took an inner page for the leaf (see C29); it added
    its leaf record there, so that later calls take the entries of that page for records. *)
Definition c43_calls : list call := writes 1 40 ++ deletes_but 10 1 40 ++ writes 1 150.
Definition c43_reader : list call := [KWrite 7 7%N; KRead 19].
Definition c43_sch : list (tid * bool) :=
  steps 0 415 ++ steps 1 5 ++ steps 0 321 ++ steps 1 3 ++ steps 0 2000 ++ steps 1 40.
Theorem C43_values_from_calls_refuted :
  exists sch, let e := exec cfg_p256 60 (start (init cfg_p256) [c43_calls; c43_reader]) sch in
    ~ values_from_calls (snd e) /\ last (snd e) (EInv 0%nat (KRead 0)) = ERes 1%nat (RVal (Some 10%N)) /\
    forall o k v, In o (c43_calls ++ c43_reader) -> stores k v o -> v = 7%N.
Proof.
  exists c43_sch. cbv zeta. split; [|split].
  - apply bad_value_ok. vm_compute. reflexivity.
  - vm_compute. reflexivity.
  - intros o k v I S.
    assert (E : forallb (fun o => match o with KWrite _ w | KInsert _ w | KUpdate _ w => N.eqb w 7 | _ => true end)
      (c43_calls ++ c43_reader) = true) by (vm_compute; reflexivity).
    rewrite forallb_forall in E. apply E in I. destruct S as [->|[->| ->]]; apply N.eqb_eq in I; auto.
Qed.
Print Assumptions C43_values_from_calls_refuted.

(** With merging disabled it holds, in every execution. *)
Theorem C43_values_from_calls_partial g fuel todos sch : cfg_ok g -> hdr_ok g -> no_merge g ->
  values_from_calls (snd (exec g fuel (start (init g) todos) sch)).
Proof. exact (conc_values g fuel todos sch). Qed.
Print Assumptions C43_values_from_calls_partial.

(** ** C44: a stored record stays until it is deleted *)

(** False of the code: in the same situation a Write of 7 adds its leaf record to the inner
    page, which from then on is taken for a leaf.  Key 10 was written and is never deleted;
    when all calls have returned no Read finds it. *)
Definition c44_todos : list (list call) := [c43_calls; [KWrite 7 9%N]].
Definition c44_sch : list (tid * bool) :=
  steps 0 415 ++ steps 1 5 ++ steps 0 321 ++ steps 1 3 ++ steps 0 2000 ++ steps 1 40.
Theorem C44_stored_stays_refuted :
  exists sch, let e := exec cfg_p256 60 (start (init cfg_p256) c44_todos) sch in
    ~ stored_stays cfg_p256 e /\ c_thr (fst e) = [TIdle []; TIdle []].
Proof.
  exists c44_sch. cbv zeta. split.
  - apply (lost_ok _ _ 60 19 10). vm_compute. reflexivity.
  - vm_compute. reflexivity.
Qed.
Print Assumptions C44_stored_stays_refuted.

(** With merging disabled it holds, in every execution. *)
Theorem C44_stored_stays_partial g fuel todos sch : cfg_ok g -> hdr_ok g -> no_merge g ->
  stored_stays g (exec g fuel (start (init g) todos) sch).
Proof. exact (conc_stays g fuel todos sch). Qed.
Print Assumptions C44_stored_stays_partial.

(** In the execution of three threads a Read returns a value, and an Insert of key 11
    succeeds that no Delete follows. *)
Example C43_case : (cfg_ok cfg_nm /\ hdr_ok cfg_nm /\ no_merge cfg_nm) /\
  existsb (fun e => match e with ERes _ (RVal (Some _)) => true | _ => false end) (snd run3) = true.
Proof. split; [exact cfg_nm_ok|vm_compute; reflexivity]. Qed.
Example C44_case : exists a t b v, snd run3 = [] ++ a ++ ERes t (RCode Success) :: b /\
  (forall u, ~ In (EInv u (KDelete 11)) (a ++ b)) /\ pending no_call a t = Some (KInsert 11 v).
Proof. apply (stored_at_ok _ 54). vm_compute. reflexivity. Qed.
