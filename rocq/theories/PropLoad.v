(** Bulkload with interleaved workers (C15) and concurrent use of the tree afterwards
    (C47), fixed-length layout. *)
From Coq Require Import ZArith NArith List Bool Sorting.Sorted Lia.
From Verif Require Import Config Api Page Machine Tree Scan Bulk Spec ScanSpec Valid ConcSpec Conc ConcChain Client ClientSpec
  MrgSpec BulkSpec BulkConc MrgMain MrgClient PropBulk PropClient PropTree PropScan PropMerge
  EpochSpec BulkGc.
Import ListNotations.
Open Scope Z_scope.

(** C15: the workers of Bulkload, in any interleaving, never stop with an error, can
    always run to their end, and the calling thread then ends as well.  The fuel of the
    workers only has to exceed the number of entries. *)
Theorem C15_workers_end_partial g f0 pre rs s0 es T f sch :
  cfg_ok g -> c_varlen g = false -> bulk_ok g ->
  run_calls g f0 pre (init g) = Done rs s0 -> ascending es ->
  1 < T <= Z.of_nat (length es) -> (length es + 1 < f)%nat ->
  let ws := bulk_workers g f es T in let w := work ws s0 sch in
  (forall m u, In m (fst w) -> m <> UB u /\ m <> Fuel) /\
  (exists sch' ts, fst (work ws s0 (sch ++ sch')) = map (fun x => Ret x) ts) /\
  (forall ts, fst w = map (fun x => Ret x) ts -> exists F s', forall f', (F <= f')%nat ->
     run (bulk_join g f' ts) (snd w) = Done Success s').
Proof. exact (fun OK FX BC => workers g OK FX BC f0 pre rs s0 es T f sch). Qed.
Print Assumptions C15_workers_end_partial.

(** C15: whatever the interleaving was, later calls of one thread answer as on the map of
    exactly the loaded entries, and so does a scan after them. *)
Theorem C15_any_interleaving_partial g f0 pre rs s0 es s' os b e :
  cfg_ok g -> c_varlen g = false -> bulk_ok g ->
  run_calls g f0 pre (init g) = Done rs s0 -> ascending es -> es <> [] -> bulkloaded g es s0 s' ->
  (forall k, b <> Some (k, false)) ->
  exists M F s2 l, holds_only M es /\ forall f, (F <= f)%nat ->
    run_calls g f os s' = Done (fst (spec_run M os)) s2 /\
    run (scan_all g f b e) s2 = Done l s2 /\ StronglySorted (fun x y => fst x < fst y) l /\
    (forall k v, In (k, v) l <-> snd (spec_run M os) k = Some v /\ ScanSpec.after b k /\ ScanSpec.before e k).
Proof.
  intros OK FX BC R A N B Hb.
  exact (ex_intro _ _ (match loaded_seq g OK FX BC f0 pre rs s0 es s' R A N B os b e Hb with
    ex_intro _ F (ex_intro _ s2 (ex_intro _ l H)) =>
      ex_intro _ F (ex_intro _ s2 (ex_intro _ l (conj (holds_find es A) H))) end)).
Qed.
Print Assumptions C15_any_interleaving_partial.

(** C47, merging disabled, Bulkload into a new tree: point calls of any number of threads
    are linearizable from the loaded contents, nothing crashes, pages fit, and what is
    retired is retired once and in no page. *)
Theorem C47_calls_after_bulkload_partial g es s' fuel todos sch :
  cfg_ok g -> hdr_ok g -> no_merge g -> c_varlen g = false -> bulk_ok g ->
  ascending es -> es <> [] -> bulkloaded g es (init g) s' ->
  exists M, holds_only M es /\ let e := exec g fuel (start s' todos) sch in
    linearizable M (snd e) /\ ~ crashed (fst e) /\
    (forall p n, s_tbl (c_mem (fst e)) p = Some (CBase n) -> n_size n <= c_page g) /\
    NoDup (s_gc (c_mem (fst e))) /\
    forall p c a, s_tbl (c_mem (fst e)) p = Some c -> In a (chain_addrs c) -> ~ In a (s_gc (c_mem (fst e))).
Proof.
  intros OK HO NM FX BC A N B.
  exact (ex_intro _ _ (conj (holds_find es A) (loaded_calls g OK FX BC HO NM es s' A N B fuel sch todos))).
Qed.
Print Assumptions C47_calls_after_bulkload_partial.

(** ... and iterations next to them return what was stored. *)
Theorem C47_scans_after_bulkload_partial g es s' fuel todos sch :
  cfg_ok g -> hdr_ok g -> no_merge g -> c_varlen g = false -> bulk_ok g ->
  ascending es -> es <> [] -> bulkloaded g es (init g) s' ->
  exists M, holds_only M es /\ kexplained g fuel (kstart s' todos) M no_view sch /\
    ~ kcrashed (fst (kexec g fuel (kstart s' todos) sch)).
Proof.
  intros OK HO NM FX BC A N B.
  exact (ex_intro _ _ (conj (holds_find es A) (loaded_scans g OK FX BC HO NM es s' A N B fuel sch todos))).
Qed.
Print Assumptions C47_scans_after_bulkload_partial.

(** C47 with node merging, Bulkload into any tree that calls have built, as long as the
    new root stays in place (as in C45 and C46); to begin with, it is in place. *)
Theorem C47_merging_after_bulkload_partial g f0 pre rs s0 es s' :
  cfg_ok g -> c_varlen g = false -> bulk_ok g ->
  run_calls g f0 pre (init g) = Done rs s0 -> ascending es -> es <> [] -> bulkloaded g es s0 s' ->
  root_in_place (s_root s') s' /\ exists M, holds_only M es /\
  (forall fuel todos sch, root_stays g fuel (s_root s') (start s' todos) sch ->
     let e := exec g fuel (start s' todos) sch in linearizable M (snd e) /\ ~ crashed (fst e)) /\
  (forall fuel todos sch, begins_given todos \/ two_levels s' ->
     kroot_stays g fuel (s_root s') (kstart s' todos) sch ->
     kexplained g fuel (kstart s' todos) M no_view sch /\ ~ kcrashed (fst (kexec g fuel (kstart s' todos) sch))).
Proof.
  intros OK FX BC R A N B. split; [exact (loaded_root g OK FX BC f0 pre rs s0 es s' R A N B)|].
  exact (ex_intro _ _ (conj (holds_find es A) (conj
    (fun fuel todos sch RS => loaded_mcalls g OK FX BC f0 pre rs s0 es s' R A N B fuel sch todos RS)
    (fun fuel todos sch BG RS => loaded_mscans g OK FX BC f0 pre rs s0 es s' R A N B fuel sch todos BG RS)))).
Qed.
Print Assumptions C47_merging_after_bulkload_partial.

(** C48: Bulkload registers the head of the old root's chain with the collector, as a page.
    If that chain is a page without delta records, as in a new tree, nothing is lost and
    the kind is right. *)
Theorem C48_root_page_partial g f0 pre rs s0 es s' n :
  cfg_ok g -> c_varlen g = false -> bulk_ok g ->
  run_calls g f0 pre (init g) = Done rs s0 -> ascending es -> es <> [] -> bulkloaded g es s0 s' ->
  s_tbl s0 (s_root s0) = Some (CBase n) ->
  nothing_lost s0 s' /\ s_gc s' = s_gc s0 ++ map snd (bulk_adds (CBase n)) /\
  forall k a, In (k, a) (bulk_adds (CBase n)) -> piece (CBase n) k a.
Proof. exact (fun OK FX BC R A N B => loaded_page g OK FX BC f0 pre rs s0 R es s' A N B n). Qed.
Print Assumptions C48_root_page_partial.

(** AddToGC, used by all other operations, registers every page and every record of a
    chain, each as what it is. *)
Theorem C48_other_operations_partial c :
  map snd (gc_adds c) = chain_addrs c /\ forall k a, In (k, a) (gc_adds c) <-> piece c k a.
Proof. exact (conj (adds_addrs c) (fun k a => adds_piece c k a)). Qed.
Print Assumptions C48_other_operations_partial.

(** After Bulkload into any tree, in every execution of any threads, merging and changes of
    the root included: what is retired is retired once, while it is not linked, and is not
    reclaimed before the calls that obtained it have returned; nothing else is lost. *)
Theorem C48_later_calls_partial g f0 pre rs s0 es s' fuel todos :
  cfg_ok g -> c_varlen g = false -> bulk_ok g ->
  run_calls g f0 pre (init g) = Done rs s0 -> ascending es -> es <> [] -> bulkloaded g es s0 s' ->
  let c0 := start s' todos in
  (forall sch, let s := c_mem (fst (exec g fuel c0 sch)) in NoDup (s_gc s) /\ forall a, linked s a -> ~ In a (s_gc s)) /\
  (forall sch1 sch2 t a, let e := fst (exec g fuel c0 sch1) in
     obtains e t a -> (forall x, ~ In (ERes t x) (snd (exec g fuel e sch2))) -> ~ may_free g fuel c0 (sch1 ++ sch2) a) /\
  (forall sch1 sch2, let e1 := fst (exec g fuel c0 sch1) in let e2 := fst (exec g fuel c0 (sch1 ++ sch2)) in
     (forall th, In th (c_thr e2) -> exists td, th = TIdle td) -> nothing_lost (c_mem e1) (c_mem e2)).
Proof. exact (fun OK FX BC R A N B => loaded_memory g OK FX BC f0 pre rs s0 R es s' A N B fuel todos). Qed.
Print Assumptions C48_later_calls_partial.

(** In general C48 is false: one Write, then Bulkload.  The delta record of the Write is
    registered as a page, so its memory, kDeltaRecSize bytes, is handed out for a page of
    kPageSize bytes later, and the page below it is lost. *)
Definition one_write : st :=
  match run_calls cfg_p256 60 [KWrite 5 1%N] (init cfg_p256) with Done _ s => s | _ => init cfg_p256 end.
Definition after_write : st :=
  match run (op_bulkload cfg_p256 60 (entries 1 3) 1) one_write with Done Success s => s | _ => init cfg_p256 end.
Theorem C48_bulkload_memory_refuted : exists g f0 pre rs s0 es s',
  cfg_ok g /\ c_varlen g = false /\ bulk_ok g /\
  run_calls g f0 pre (init g) = Done rs s0 /\ ascending es /\ es <> [] /\ bulkloaded g es s0 s' /\
  (exists c a, s_tbl s0 (s_root s0) = Some c /\ In (NodePage, a) (bulk_adds c) /\ In a (s_gc s') /\ piece c DeltaPage a) /\
  ~ nothing_lost s0 s'.
Proof.
  exists cfg_p256, 60%nat, [KWrite 5 1%N], [RCode Success], one_write, (entries 1 3), after_write.
  assert (A : ascending (entries 1 3)) by (repeat (constructor; [|repeat constructor]); constructor).
  assert (R : run_calls cfg_p256 60 [KWrite 5 1%N] (init cfg_p256) = Done [RCode Success] one_write) by (vm_compute; reflexivity).
  assert (BC : bulk_ok cfg_p256) by (repeat split; vm_compute; congruence).
  assert (B : bulkloaded cfg_p256 (entries 1 3) one_write after_write).
  { apply (bl_one _ _ _ _ 60 1); [left; vm_compute; congruence|vm_compute; reflexivity]. }
  split; [exact cfg_p256_ok|]. split; [reflexivity|]. split; [exact BC|]. split; [exact R|]. split; [exact A|]. split; [discriminate|].
  split; [exact B|]. split.
  - eexists. eexists. split; [vm_compute; reflexivity|]. split; [left; reflexivity|]. split; [vm_compute; auto|apply pc_rec].
  - intros L. destruct (L 1%N) as [X|X].
    + exists 1%N. eexists. split; [vm_compute; reflexivity|]. vm_compute. auto.
    + revert X. apply unlinked_ok; [|vm_compute; reflexivity].
      exact (loaded_owns cfg_p256 cfg_p256_ok eq_refl BC _ _ _ _ R _ _ A ltac:(discriminate) B).
    + vm_compute in X. intuition discriminate.
Qed.
Print Assumptions C48_bulkload_memory_refuted.

(** ** A concrete case: three workers that take turns, 30 entries, 128-byte pages, and
    then three threads: two insert and delete, splitting leaves, the third scans. *)
Fixpoint results (ws : list worker) : option (list (Z * list (key * val))) :=
  match ws with
  | [] => Some []
  | Ret x :: r => match results r with Some t => Some (x :: t) | None => None end
  | _ => None
  end.
Lemma results_ok ws : forall ts, results ws = Some ts -> ws = map (fun x => Ret x) ts.
Proof.
  induction ws as [|[] ws IH]; cbn; intros ts H; try discriminate; [inversion H; auto|].
  destruct (results ws) as [t|]; inversion H. cbn. rewrite (IH t); auto.
Qed.
Fixpoint zigzag (n : nat) : list nat :=
  match n with O => [] | S m => [0; 2; 1; 1; 2; 0]%nat ++ zigzag m end.
Definition zig (g : cfg) (s : st) (es : list (key * val)) : option st :=
  let w := work (bulk_workers g 60 es 3) s (zigzag 40) in
  match results (fst w) with
  | Some ts => match run (bulk_join g 60 ts) (snd w) with Done Success s' => Some s' | _ => None end
  | None => None
  end.
Lemma zig_loaded g s es s' : 3 <= Z.of_nat (length es) < 59 -> zig g s es = Some s' -> bulkloaded g es s s'.
Proof.
  unfold zig. intros L. destruct (work _ _ _) as [ws s1] eqn:W. cbn [fst snd]. destruct (results ws) as [ts|] eqn:R; [|discriminate].
  destruct (run _ _) as [[] s2| |] eqn:J; try discriminate. intros E. inversion E; subst.
  apply results_ok in R. subst ws. eapply bl_many; [| |exact W|exact J]; lia.
Qed.
Definition is_some {A} (o : option A) : bool := match o with Some _ => true | None => false end.
Definition loaded30 : st := match zig cfg_kc (init cfg_kc) (entries 2 30) with Some s => s | None => init cfg_kc end.
Lemma some_default {A} (o : option A) d : is_some o = true -> o = Some (match o with Some x => x | None => d end).
Proof. destruct o; [auto|discriminate]. Qed.
Lemma entries_asc : ascending (entries 2 30).
Proof. repeat (constructor; [|repeat constructor]). constructor. Qed.
Lemma loaded30_ok : bulkloaded cfg_kc (entries 2 30) (init cfg_kc) loaded30.
Proof.
  apply zig_loaded; [vm_compute; split; congruence|].
  assert (E : is_some (zig cfg_kc (init cfg_kc) (entries 2 30)) = true) by (vm_compute; reflexivity).
  exact (some_default _ (init cfg_kc) E).
Qed.
Definition todos_ld : list (list req) :=
  [map (fun k => QCall (KInsert (2 * Z.of_nat k + 1) 7%N)) (seq 3 8);
   map (fun k => QCall (KDelete (2 * Z.of_nat k))) (seq 12 6);
   QOpen (Some (5, true)) (Some (41, false)) :: repeat QNext 24].
Fixpoint turns_ld (n : nat) : list (tid * bool) :=
  match n with O => [] | S m => [(0, false); (2, false); (1, false)]%nat ++ turns_ld m end.
Definition run_ld : kst * list kevent := kexec cfg_kc 200 (kstart loaded30 todos_ld) (turns_ld 220).
Example C47_case :
  bulk_ok cfg_kc /\ ascending (entries 2 30) /\ bulkloaded cfg_kc (entries 2 30) (init cfg_kc) loaded30 /\
  recs_of (snd run_ld) = [6; 8; 10; 12; 14; 16; 18; 20; 22; 28; 30; 32; 34; 36; 38; 40] /\
  forallb (fun t => match t with KIdle _ [] => true | _ => false end) (k_thr (fst run_ld)) = true.
Proof.
  split; [repeat split; vm_compute; congruence|]. split; [exact entries_asc|]. split; [exact loaded30_ok|].
  split; vm_compute; reflexivity.
Qed.

(** With merging: the same workers replace the tree of forty keys, and then two threads
    empty leaves of the new tree, which are merged, while the third scans. *)
Definition over40 : st := match zig cfg_p256 tree40 (entries 1 40) with Some s => s | None => init cfg_p256 end.
Lemma entries40_asc : ascending (entries 1 40).
Proof. repeat (constructor; [|repeat constructor]). constructor. Qed.
Lemma over40_ok : bulkloaded cfg_p256 (entries 1 40) tree40 over40.
Proof.
  apply zig_loaded; [vm_compute; split; congruence|].
  assert (E : is_some (zig cfg_p256 tree40 (entries 1 40)) = true) by (vm_compute; reflexivity).
  exact (some_default _ (init cfg_p256) E).
Qed.
Definition todos_ov : list (list req) :=
  [map (fun v => QCall (KWrite 13 v)) [1; 2; 3; 4; 5; 6]%N; map (fun v => QCall (KUpdate 26 v)) [1; 2; 3; 4; 5; 6]%N;
   QOpen None (Some (30, false)) :: repeat QNext 36].
Definition run_ov : kst * list kevent := kexec cfg_p256 60 (kstart over40 todos_ov) (turns_mrg 130).
Definition gone (s : st) : list pid := filter (removed_at s) (map N.of_nat (seq 0 40)).
Example C47_merging_case :
  cfg_ok cfg_p256 /\ bulk_ok cfg_p256 /\
  (exists rs, run_calls cfg_p256 60 (writes 1 40) (init cfg_p256) = Done rs tree40) /\
  ascending (entries 1 40) /\ bulkloaded cfg_p256 (entries 1 40) tree40 over40 /\ two_levels over40 /\
  kroot_stays cfg_p256 60 (s_root over40) (kstart over40 todos_ov) (turns_mrg 130) /\
  recs_of (snd run_ov) = map Z.of_nat (seq 1 29) /\
  forallb (fun t => match t with KIdle _ [] => true | _ => false end) (k_thr (fst run_ov)) = true /\
  gone over40 = [] /\ gone (k_mem (fst run_ov)) = [11; 13]%N.
Proof.
  split; [exact cfg_p256_ok|]. split; [repeat split; vm_compute; congruence|].
  split; [exact tree40_reached|]. split; [exact entries40_asc|]. split; [exact over40_ok|].
  split; [apply two_levels_ok; vm_compute; reflexivity|].
  split; [apply kroot_stays_ok; vm_compute; reflexivity|].
  split; [vm_compute; reflexivity|]. split; [vm_compute; reflexivity|]. split; vm_compute; reflexivity.
Qed.
(** Hence what the scan returned next to the merges is explained by the loaded contents. *)
Example C47_merging_scan_explained :
  exists M, holds_only M (entries 1 40) /\ kexplained cfg_p256 60 (kstart over40 todos_ov) M no_view (turns_mrg 130).
Proof.
  destruct C47_merging_case as (OK & BC & (rs & R) & A & B & TL & RS & _).
  destruct (C47_merging_after_bulkload_partial cfg_p256 60 (writes 1 40) rs tree40 (entries 1 40) over40 OK eq_refl BC R A
              ltac:(discriminate) B) as (_ & M & H & _ & K).
  exact (ex_intro _ M (conj H (proj1 (K 60%nat todos_ov (turns_mrg 130) (or_intror TL) RS)))).
Qed.

(** C48: the load of thirty entries replaces the root of a new tree; later, with merging,
    sixteen pages and records of the other tree are retired while threads work on it. *)
Example C48_case :
  run_calls cfg_kc 1 [] (init cfg_kc) = Done [] (init cfg_kc) /\
  s_tbl (init cfg_kc) (s_root (init cfg_kc)) = Some (CBase (empty_leaf cfg_kc 1%N)) /\
  bulkloaded cfg_kc (entries 2 30) (init cfg_kc) loaded30 /\ s_gc loaded30 = [1%N] /\
  let e := exec cfg_p256 60 (start over40 todos_mrg) (turns_mrg 120) in
  forallb (fun t => match t with TIdle [] => true | _ => false end) (c_thr (fst e)) = true /\
  (length (s_gc over40) + 15 < length (s_gc (c_mem (fst e))))%nat.
Proof.
  split; [vm_compute; reflexivity|]. split; [vm_compute; reflexivity|]. split; [exact loaded30_ok|].
  split; [vm_compute; reflexivity|]. split; [vm_compute; reflexivity|].
  apply PeanoNat.Nat.ltb_lt. vm_compute. reflexivity.
Qed.
