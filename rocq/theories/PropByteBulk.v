(** * C56: Bulkload carried out on bytes
    Property theorems only.  Fixed-length layout: the pages that Bulkload fills, links and
    cuts off are the bytes of fixlen/node.hpp; what memory held before is arbitrary
    ([junk]).  Loading follows Bulkload of Bulk.v, and the clients of ByteScan.v afterwards
    find what was loaded. *)
From Coq Require Import ZArith NArith List Bool Sorting.Sorted Lia.
From Verif Require Import Config Api Spec Page Machine Tree Scan Bulk BulkSpec Client ClientSpec Valid ConcChain Bytes FixLayout ByteCons ByteConsSpec
  ByteTree ByteTreeSpec ByteTreeInst ByteScan ByteScanSpec ByteBulk ByteBulkMain PropBytes PropClient PropBulk PropLoad PropScan PropTree PropByteScan.
From Verif Require BulkConc.
Import ListNotations.
Open Scope Z_scope.

(** The workers, in any interleaving, never come to undefined behaviour and never run out of
    fuel. *)
Theorem C56_fixlen_workers g K lt ek ev L e junk es T f sch :
  cfg_ok g -> c_varlen g = false -> bulk_ok g -> flay_ok g L e -> coding g false K lt ek ev ->
  Forall (fun x => K (fst x)) es -> ascending es -> 1 < T <= Z.of_nat (length es) -> (length es + 1 < f)%nat ->
  let C := fix_klass L (Z.to_N (c_paylen g)) lt in
  let w := xwork junk (xworkers L g f (map (fun x => (ek (fst x), ev (snd x))) es) T) (xinit C junk) sch in
  (x_npid (snd w) <= 2 ^ 64)%N -> forall m u, In m (fst w) -> m <> XUB u /\ m <> XFuel.
Proof.
  exact (fun OK HV BC HL HC Hk Ha HT Hf => workers_safe g K lt ek ev L e OK HV HL HC BC junk f es T sch Hk Ha HT Hf).
Qed.
Print Assumptions C56_fixlen_workers.

(** Whenever Bulkload of Bulk.v ends, Bulkload on bytes ends as well ... *)
Theorem C56_fixlen_loads g K lt ek ev L e junk es s' :
  cfg_ok g -> c_varlen g = false -> bulk_ok g -> flay_ok g L e -> coding g false K lt ek ev ->
  Forall (fun x => K (fst x)) es -> ascending es -> es <> [] ->
  bulkloaded g es (init g) s' -> (s_npid s' <= 2 ^ 64)%N ->
  let C := fix_klass L (Z.to_N (c_paylen g)) lt in
  exists xs', xbulkloaded L (Z.to_N (c_paylen g)) lt g junk (map (fun x => (ek (fst x), ev (snd x))) es) (xinit C junk) xs' /\
    x_npid xs' = s_npid s'.
Proof.
  exact (fun OK HV BC HL HC Hk Ha Hn HB Hp =>
    match loaded_follows g K lt ek ev L e OK HV HL HC BC junk es s' Hk Ha Hn HB Hp with ex_intro _ xs' (conj A B) =>
      ex_intro _ xs' (conj A (ByteTreeMain.sr_npid _ _ _ _ _ _ _ B)) end).
Qed.
Print Assumptions C56_fixlen_loads.

(** ... and whatever it leaves behind: clients on it, merging included, follow those on what
    Bulkload of Bulk.v leaves behind. *)
Theorem C56_fixlen_follows g K lt ek ev L e junk es xs' :
  cfg_ok g -> c_varlen g = false -> bulk_ok g -> flay_ok g L e -> coding g false K lt ek ev ->
  Forall (fun x => K (fst x)) es -> ascending es -> es <> [] ->
  let C := fix_klass L (Z.to_N (c_paylen g)) lt in
  xbulkloaded L (Z.to_N (c_paylen g)) lt g junk (map (fun x => (ek (fst x), ev (snd x))) es) (xinit C junk) xs' -> (x_npid xs' <= 2 ^ 64)%N ->
  exists s', bulkloaded g es (init g) s' /\ forall stat_mem mems fuel todos sch,
    Forall (Forall (req_keys K)) todos -> length mems = length todos -> ksteady g fuel (kstart s' todos) sch ->
    let e := bkexec C lt g fix_pmem stat_mem junk fuel (bkstart xs' (combine mems (map (map (enc_req ek ev)) todos))) sch in
    ~ bkcrashed (fst e) /\ snd e = map (enc_kevent ek ev) (snd (kexec g fuel (kstart s' todos) sch)).
Proof.
  exact (fun OK HV BC HL HC Hk Ha Hn HB Hp =>
    match loaded_bytes g K lt ek ev L e OK HV HL HC BC junk es xs' Hk Ha Hn HB Hp with ex_intro _ s' (conj A B) =>
      ex_intro _ s' (conj A (fun stat_mem mems fuel todos sch => loaded_clients g K lt ek ev L e OK HV HL HC junk stat_mem fuel xs' s' todos mems sch B)) end).
Qed.
Print Assumptions C56_fixlen_follows.

(** Merging disabled: no undefined behaviour, point calls take effect once each on a map
    that holds exactly the loaded entries at first, and iterations answer as [scan_ok] says. *)
Theorem C56_fixlen_explained g K lt ek ev L e junk es xs' stat_mem mems fuel todos sch :
  cfg_ok g -> hdr_ok g -> no_merge g -> c_varlen g = false -> bulk_ok g -> flay_ok g L e -> coding g false K lt ek ev ->
  Forall (fun x => K (fst x)) es -> ascending es -> es <> [] ->
  let C := fix_klass L (Z.to_N (c_paylen g)) lt in
  xbulkloaded L (Z.to_N (c_paylen g)) lt g junk (map (fun x => (ek (fst x), ev (snd x))) es) (xinit C junk) xs' ->
  Forall (Forall (req_keys K)) todos -> length mems = length todos ->
  (x_npid xs' + N.of_nat (length sch) <= 2 ^ 64)%N ->
  let e := bkexec C lt g fix_pmem stat_mem junk fuel (bkstart xs' (combine mems (map (map (enc_req ek ev)) todos))) sch in
  ~ bkcrashed (fst e) /\
  exists M steps, holds_only M es /\ snd e = map (enc_kevent ek ev) (concat (map snd steps)) /\ map fst steps = map fst sch /\ told M no_view steps.
Proof.
  exact (fun OK HO NM HV BC HL HC Hk Ha Hn HB HT Hl Hp =>
    match loaded_explained g K lt ek ev L e OK HV HL HC BC junk stat_mem fuel HO NM es xs' todos mems sch Hk Ha Hn HB Hp HT Hl with
    | conj A (ex_intro _ steps B) => conj A (ex_intro _ _ (ex_intro _ steps (conj (BulkConc.holds_find es Ha) B))) end).
Qed.
Print Assumptions C56_fixlen_explained.

(** ** A concrete case: three workers that take turns, 30 entries, 128-byte pages full of
    ones, and then the three threads of PropLoad.v *)
Fixpoint xresults (ws : list (xprog (tchain DeltaBytes.fnode DeltaBytes.fdelta) (Z * bnodes))) : option (list (Z * bnodes)) :=
  match ws with
  | [] => Some []
  | XRet x :: r => match xresults r with Some t => Some (x :: t) | None => None end
  | _ => None
  end.
Lemma xresults_ok ws : forall ts, xresults ws = Some ts -> ws = map (fun x => XRet x) ts.
Proof.
  induction ws as [|[] ws IH]; cbn; intros ts H; try discriminate; [inversion H; auto|].
  destruct (xresults ws) as [t|]; inversion H. cbn. rewrite (IH t); auto.
Qed.
Definition xzig (es : bents) : option (xst (tchain DeltaBytes.fnode DeltaBytes.fdelta)) :=
  let C := fix_klass ex_kc_L 8%N ex_lt in
  let w := xwork (fun _ => ex_ones) (xworkers ex_kc_L cfg_kc 60 es 3) (xinit C (fun _ => ex_ones)) (zigzag 40) in
  match xresults (fst w) with
  | Some ts => match xrun x_addr (fun _ => ex_ones) (xjoin ex_kc_L 8%N ex_lt cfg_kc 60 ts) (snd w) with XDone Success s' => Some s' | _ => None end
  | None => None
  end.
Lemma xzig_loaded es s' : 3 <= Z.of_nat (length es) < 59 -> xzig es = Some s' ->
  xbulkloaded ex_kc_L 8%N ex_lt cfg_kc (fun _ => ex_ones) es (xinit (fix_klass ex_kc_L 8%N ex_lt) (fun _ => ex_ones)) s'.
Proof.
  unfold xzig. intros L. destruct (xwork _ _ _ _) as [ws s1] eqn:W. cbn [fst snd]. destruct (xresults ws) as [ts|] eqn:R; [|discriminate].
  destruct (xrun _ _ _ _) as [[] s2| |] eqn:J; try discriminate. intros E. inversion E; subst.
  apply xresults_ok in R. subst ws. eapply xl_many; [| |exact W|exact J]; lia.
Qed.
Definition ex_ents : bents := map (fun x => (ex_ek (fst x), ex_ev (snd x))) (entries 2 30).
Definition xloaded30 : xst (tchain DeltaBytes.fnode DeltaBytes.fdelta) :=
  match xzig ex_ents with Some s => s | None => xinit (fix_klass ex_kc_L 8%N ex_lt) (fun _ => ex_ones) end.
Lemma xloaded30_ok :
  xbulkloaded ex_kc_L 8%N ex_lt cfg_kc (fun _ => ex_ones) ex_ents (xinit (fix_klass ex_kc_L 8%N ex_lt) (fun _ => ex_ones)) xloaded30.
Proof.
  apply xzig_loaded; [vm_compute; split; congruence|].
  assert (E : is_some (xzig ex_ents) = true) by (vm_compute; reflexivity).
  exact (some_default _ (xinit (fix_klass ex_kc_L 8%N ex_lt) (fun _ => ex_ones)) E).
Qed.
Lemma entries_u64 : Forall (fun x => ex_u64 (fst x)) (entries 2 30).
Proof. repeat (apply Forall_cons; [vm_compute; split; congruence|]). apply Forall_nil. Qed.
Lemma xloaded30_npid : (x_npid xloaded30 + N.of_nat (length (turns_ld 220)) <= 2 ^ 64)%N.
Proof. apply N.leb_le. vm_compute. reflexivity. Qed.
Lemma loaded30_npid : (s_npid loaded30 <= 2 ^ 64)%N.
Proof. apply N.leb_le. vm_compute. reflexivity. Qed.
Lemma todos_ld_u64 : Forall (Forall (req_keys ex_u64)) todos_ld.
Proof.
  unfold todos_ld, ex_u64. cbn [map seq rev app repeat].
  repeat (apply Forall_cons; [repeat (apply Forall_cons; [cbn; lia|]); apply Forall_nil|]). apply Forall_nil.
Qed.
Lemma cfg_kc_bulk : bulk_ok cfg_kc.
Proof. repeat split; vm_compute; congruence. Qed.
Example C56_fixlen_case :
  let C := fix_klass ex_kc_L (Z.to_N (c_paylen cfg_kc)) ex_lt in
  let e := bkexec C ex_lt cfg_kc fix_pmem (fun _ => ex_ones) (fun _ => ex_ones) 200
    (bkstart xloaded30 (combine [ex_ones; ex_ones; ex_ones] (map (map (enc_req ex_ek ex_ev)) todos_ld))) (turns_ld 220) in
  ~ bkcrashed (fst e) /\
  exists M steps, holds_only M (entries 2 30) /\ snd e = map (enc_kevent ex_ek ex_ev) (concat (map snd steps)) /\ map fst steps = map fst (turns_ld 220) /\ told M no_view steps.
Proof.
  destruct cfg_kc_ok as (A & B & D).
  exact (C56_fixlen_explained cfg_kc ex_u64 ex_lt ex_ek ex_ev ex_kc_L 7%N (fun _ => ex_ones) (entries 2 30) xloaded30 (fun _ => ex_ones)
    [ex_ones; ex_ones; ex_ones] 200 todos_ld (turns_ld 220) A B D eq_refl cfg_kc_bulk ex_kc_L_ok ex_kc_coding entries_u64 entries_asc ltac:(discriminate)
    xloaded30_ok todos_ld_u64 eq_refl xloaded30_npid).
Qed.

Example C56_fixlen_workers_case n : let C := fix_klass ex_kc_L (Z.to_N (c_paylen cfg_kc)) ex_lt in
  let w := xwork (fun _ => ex_ones) (xworkers ex_kc_L cfg_kc 60 ex_ents 3) (xinit C (fun _ => ex_ones)) (zigzag n) in
  (x_npid (snd w) <= 2 ^ 64)%N -> forall m u, In m (fst w) -> m <> XUB u /\ m <> XFuel.
Proof.
  destruct cfg_kc_ok as (A & _ & _).
  exact (C56_fixlen_workers cfg_kc ex_u64 ex_lt ex_ek ex_ev ex_kc_L 7%N (fun _ => ex_ones) (entries 2 30) 3 60 (zigzag n)
    A eq_refl cfg_kc_bulk ex_kc_L_ok ex_kc_coding entries_u64 entries_asc ltac:(vm_compute; split; congruence) ltac:(cbn; lia)).
Qed.
Example C56_fixlen_loads_case : let C := fix_klass ex_kc_L (Z.to_N (c_paylen cfg_kc)) ex_lt in
  exists xs', xbulkloaded ex_kc_L (Z.to_N (c_paylen cfg_kc)) ex_lt cfg_kc (fun _ => ex_ones) ex_ents (xinit C (fun _ => ex_ones)) xs' /\
    x_npid xs' = s_npid loaded30.
Proof.
  destruct cfg_kc_ok as (A & _ & _).
  exact (C56_fixlen_loads cfg_kc ex_u64 ex_lt ex_ek ex_ev ex_kc_L 7%N (fun _ => ex_ones) (entries 2 30) loaded30
    A eq_refl cfg_kc_bulk ex_kc_L_ok ex_kc_coding entries_u64 entries_asc ltac:(discriminate) loaded30_ok loaded30_npid).
Qed.

(** Carried out on bytes: the calls and an iteration over what was loaded. *)
Definition ex_load_reqs : list breq :=
  BQCall (BRead (ex_ek 12)) :: BQCall (BRead (ex_ek 61)) :: BQOpen (Some (ex_ek 20, true)) (Some (ex_ek 30, false)) :: repeat BQNext 6.
Example ex_load_bytes : let C := fix_klass ex_kc_L 8%N ex_lt in
  let e := bkexec C ex_lt cfg_kc fix_pmem (fun _ => ex_ones) (fun _ => ex_ones) 200
    (bkstart xloaded30 [(ex_ones, ex_load_reqs)]) (repeat (0%nat, false) 260) in
  (ex_answers (snd e), (x_root xloaded30 =? 1)%N) =
    ([BACall (BVal (Some (ex_ev 6))); BACall (BVal None); BAOpen] ++ map (fun k => BARec (ex_ek (2 * k)) (ex_ev (Z.to_N k))) [10; 11; 12; 13; 14] ++ [BAEnd], false).
Proof. vm_compute. reflexivity. Qed.
