(** C36: scans next to other calls, merging disabled; any number of threads, each mixing
    point calls and iterations, any schedule, spurious compare-and-swap failures included. *)
From Coq Require Import ZArith NArith List Bool.
From Verif Require Import Config Api Page Machine Tree Scan Spec ScanSpec Valid ConcSpec ConcChain Client ClientSpec ClientFacts.
Import ListNotations.
Open Scope Z_scope.

(** Every iteration is as [scan_ok] says, every point call takes effect once between its
    invocation and its response, and nothing else changes the tree. *)
Theorem C36_scans_explained : forall g fuel todos sch, cfg_ok g -> hdr_ok g -> no_merge g ->
  kexplained g fuel (kstart (init g) todos) sempty no_view sch.
Proof. exact (fun g fuel todos sch A B C => client_explained g A B C fuel todos sch). Qed.
Print Assumptions C36_scans_explained.

(** No thread runs into undefined behaviour. *)
Theorem C36_scans_safe : forall g fuel todos sch, cfg_ok g -> hdr_ok g -> no_merge g ->
  ~ kcrashed (fst (kexec g fuel (kstart (init g) todos) sch)).
Proof. exact (fun g fuel todos sch A B C => client_nocrash g A B C fuel todos sch). Qed.
Print Assumptions C36_scans_safe.

(** What [scan_ok] gives a client: a record that is in the tree all the time with a fixed
    value is returned with that value, a key that is never there is not returned. *)
Example scan_ok_stable b e log l k v : scan_ok b e log l true -> after b k -> before e k ->
  (forall M, In M log -> M k = Some v) -> In (k, v) l.
Proof.
  intros (_ & w & H1 & _ & H2 & H3) A B HM.
  assert (S : forall u, seen log (w k) k u -> u = Some v).
  { intros u (M & E & <-). apply HM. eapply nth_error_In; eauto. }
  destruct (in_dec Z.eq_dec k (map fst l)) as [Hin|Hn].
  - apply in_map_iff in Hin as ([x u] & <- & Hin). cbn [fst] in *. destruct (H2 _ _ Hin) as (_ & _ & X).
    apply S in X. congruence.
  - specialize (S _ (H3 k A B (or_introl eq_refl) Hn)). discriminate.
Qed.
Example scan_ok_absent b e log l fin k : scan_ok b e log l fin -> (forall M, In M log -> M k = None) -> ~ In k (map fst l).
Proof.
  intros (_ & w & _ & _ & H2 & _) HM Hin. apply in_map_iff in Hin as ([x u] & <- & Hin).
  destruct (H2 _ _ Hin) as (_ & _ & M & E & X). rewrite HM in X; [discriminate|]. eapply nth_error_In; eauto.
Qed.

(** ** A concrete case *)
Definition cfg_kc : cfg := mk_cfg false (fun _ => 8) 8 8 8 32 128 0 2 8 115 0 false.
Example cfg_kc_ok : cfg_ok cfg_kc /\ hdr_ok cfg_kc /\ no_merge cfg_kc.
Proof. split; [|split]; [constructor|..]; try (vm_compute; congruence); try (intros k; vm_compute; split; congruence). vm_compute. split; congruence. Qed.

(** Thread 0 inserts 2, 4, ..., 16 and then iterates over [3, 30), writing 31 and deleting 14 on the
    way; thread 1 inserts odd keys meanwhile, splitting the leaves. *)
Definition todos_kc : list (list req) :=
  [map (fun k => QCall (KInsert (2 * Z.of_nat k) 1%N)) (seq 1 8) ++
   [QOpen (Some (3, true)) (Some (30, false)); QNext; QNext; QCall (KWrite 31 3%N); QCall (KDelete 14)] ++ repeat QNext 13;
   map (fun k => QCall (KInsert (2 * Z.of_nat k + 1) 2%N)) (seq 1 8)].
Fixpoint turns_kc (n : nat) : list (tid * bool) :=
  match n with
  | O => []
  | S m => [(0, Nat.eqb (m mod 5) 0); (0, false); (1, false)]%nat ++ turns_kc m
  end.
Definition run_kc : kst * list kevent := kexec cfg_kc 200 (kstart (init cfg_kc) todos_kc) (turns_kc 260).
Definition recs_kc : list (key * val) :=
  flat_map (fun v => match v with VRes 0%nat (ARec r) => [r] | _ => [] end) (snd run_kc).
(** Both finish; 15 and 17 were inserted during the iteration; leaves were split. *)
Example run_kc_done :
  map (fun c => match c with KIdle _ [] => true | _ => false end) (k_thr (fst run_kc)) = [true; true] /\
  map fst recs_kc = [3; 4; 5; 6; 7; 8; 9; 10; 11; 12; 13; 15; 16; 17] /\
  nth_error (snd run_kc) 28 = Some (VInv 0%nat (QOpen (Some (3, true)) (Some (30, false)))) /\
  nth_error (snd run_kc) 29 = Some (VInv 1%nat (QCall (KInsert 15 2%N))) /\
  last (snd run_kc) (VInv 9%nat QNext) = VRes 0%nat AEnd /\ s_npid (k_mem (fst run_kc)) = 8%N.
Proof. vm_compute. repeat split; reflexivity. Qed.
Example C36_case : kexplained cfg_kc 200 (kstart (init cfg_kc) todos_kc) sempty no_view (turns_kc 260) /\
  ~ kcrashed (fst run_kc).
Proof.
  split; [exact (C36_scans_explained _ _ _ _ (proj1 cfg_kc_ok) (proj1 (proj2 cfg_kc_ok)) (proj2 (proj2 cfg_kc_ok)))|].
  exact (C36_scans_safe _ _ _ _ (proj1 cfg_kc_ok) (proj1 (proj2 cfg_kc_ok)) (proj2 (proj2 cfg_kc_ok))).
Qed.
