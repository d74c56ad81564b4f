(** A tree of fixed-length nodes on bytes at any moment of its life between programs and
    Bulkloads. *)
From Coq Require Import ZArith NArith List Bool Lia.
From Coq Require Import ZifyBool ZifyNat ZifyN.
From Verif Require Import Config Api Spec Page Machine Tree Scan Bulk BulkSpec Client ClientSpec Valid ListFacts Bytes FixLayout DeltaBytes ByteCons ByteConsSpec
  ByteTree ByteTreeSpec ByteTreeRel ByteTreeInst ByteTreeMain ByteScan ByteScanSpec ByteScanSim ByteBulk MrgSpec ByteMrgSpec ByteMrgMain
  ByteSeq ByteSeqSpec ByteSeqMain ByteLifeSpec.
From Verif Require AddrFacts MrgStart BulkFacts BulkConc ByteBulkSim ByteBulkMain ByteRoom SeqOps SeqAux.
Import ListNotations.
Open Scope Z_scope.

Section Main.
Variables (g : cfg) (K : Z -> Prop) (lt : list N -> list N -> bool) (ek : Z -> list N) (evl : N -> list N) (L : flay) (e : N).
Hypothesis OK : cfg_ok g.
Hypothesis HV : c_varlen g = false.
Hypothesis HL : flay_ok g L e.
Hypothesis HC : coding g false K lt ek evl.
Hypothesis BC : bulk_ok g.
Variable junk : addr -> mem.
Notation lps := (Z.to_N (c_paylen g)).
Notation C := (fix_klass L lps lt).
Notation NP := (ByteBulkSim.NP g ek evl L).
Notation DP := (fDP g ek evl L).
Notation srl := (srl C K ek NP DP).
Notation tree := (SeqOps.tree g).
Notation HK := (ByteRoom.fixr_ok g HV K lt ek evl L e OK HL HC).

Lemma tree_ext s M M' : (forall k, M k = M' k) -> tree s M -> tree s M'.
Proof. intros H (flat & N & lv & A & B & D). exists flat, N, lv. split; [exact A|]. split; [exact B|]. intros k. rewrite D. apply H. Qed.
Lemma holds_same M es : ascending es -> holds_only M es -> forall k, find k es = M k.
Proof.
  intros Ha H k. pose proof (BulkConc.holds_find es Ha) as F.
  destruct (find k es) as [v|] eqn:E.
  - apply (F k v) in E. symmetry. apply H. exact E.
  - destruct (M k) as [v|] eqn:E2; auto. apply H in E2. apply (F k v) in E2. congruence.
Qed.

Lemma init_addr : MrgStart.addr_lt (init g).
Proof. exact (ByteBulkMain.init_addr g junk). Qed.

(** On Tree.v. *)
Lemma lived_tree M s : lived g K M s -> tree s M /\ MrgStart.addr_lt s.
Proof.
  induction 1 as [|M s f is js s' H [T A] Hk R|M s es s' M' H [T A] Hk Ha Hn B HM].
  - split; [apply (SeqOps.init_tree g OK)|apply init_addr].
  - assert (exists xis : list (mem * item), map snd xis = is) as [xis <-].
    { exists (map (fun i => (((fun _ => 0%N) : mem), i)) is). rewrite map_map. cbn. apply map_id. }
    destruct (from_any g OK K s M T xis Hk) as (F & js0 & s0 & J & T0 & _ & _ & E).
    destruct (E f) as [X|[_ X]]; rewrite X in R; [|discriminate]. injection R as <- <-. split; [exact T0|].
    eapply items_addr; eauto.
  - destruct (BulkConc.loaded g OK HV BC s M es s' T A Ha Hn B) as (T' & _ & A' & _). split; [|exact A'].
    eapply tree_ext; [|exact T']. apply holds_same; auto.
Qed.

Lemma xload_npid es xs xs' : xbulkloaded L lps lt g junk es xs xs' -> (x_npid xs <= x_npid xs')%N.
Proof.
  intros [f T HT R|f f' T sch xts xs1 HT Hf W R].
  - exact (ByteBulkSim.xrun_npid g e junk _ _ _ _ R).
  - pose proof (ByteBulkSim.xrun_npid g e junk _ _ _ _ R). pose proof (ByteBulkMain.xwork_npid g e junk sch (xworkers L g f es T) xs) as Q.
    rewrite W in Q. cbn [snd] in Q. lia.
Qed.

Lemma lived_bytes M xs : xlived g K lt ek evl L junk M xs -> (x_npid xs <= max64)%N ->
  exists s, lived g K M s /\ srl xs s.
Proof.
  induction 1 as [|M xs f xis js xs' H IH Hk R|M xs es xs' M' H IH Hk Ha Hn B HM]; intros Hp.
  - exists (init g). split; [constructor|]. exact (ByteBulkMain.init_rl g K lt ek evl L e OK HV HL HC junk).
  - pose proof (xitems_npid _ _ _ _ _ _ _ _ _ _ R) as Np. destruct IH as (s & Hl & Hs); [lia|].
    destruct (lived_tree M s Hl) as [T A].
    destruct (from_left _ lt g OK K ek evl _ _ HK fix_pmem junk xs s M T Hs xis Hk f js xs' A R Hp) as (js' & s' & _ & _ & R' & S' & _).
    exists s'. split; [|exact S']. eapply lv_run; eauto.
  - pose proof (xload_npid _ _ _ B) as Np. destruct IH as (s & Hl & Hs); [lia|].
    destruct (lived_tree M s Hl) as [T A].
    destruct (ByteBulkMain.load_bytes g K lt ek evl L e OK HV HL HC BC junk xs s M T A Hs es xs' Hk Ha Hn B Hp) as (s' & B' & S').
    exists s'. split; [|exact S']. eapply lv_load; eauto.
Qed.

(** Programs. *)
Lemma life_answers M xs f xis b xs' : xlived g K lt ek evl L junk M xs -> Forall (item_keys K) (map snd xis) ->
  xrun_items C lt g fix_pmem junk f (map (enc_item ek evl) xis) xs = XDone b xs' -> (x_npid xs' <= max64)%N ->
  exists js, b = map (enc_answer ek evl) js /\ answers M (map snd xis) js.
Proof.
  intros H Hk R Hp. pose proof (xitems_npid _ _ _ _ _ _ _ _ _ _ R) as Np.
  destruct (lived_bytes M xs H) as (s & Hl & Hs); [lia|]. destruct (lived_tree M s Hl) as [T A].
  destruct (from_left _ lt g OK K ek evl _ _ HK fix_pmem junk xs s M T Hs xis Hk f b xs' A R Hp) as (js & s' & E & J & _). eauto.
Qed.
Lemma life_runs M xs : xlived g K lt ek evl L junk M xs -> (x_npid xs <= max64)%N ->
  exists s, lived g K M s /\ x_npid xs = s_npid s /\
  forall xis, Forall (item_keys K) (map snd xis) ->
  exists F js s', answers M (map snd xis) js /\
    (forall f, (F <= f)%nat -> run_items g f (map snd xis) s = Done js s') /\
    ((s_npid s' <= max64)%N -> forall f,
       (exists xs', xrun_items C lt g fix_pmem junk f (map (enc_item ek evl) xis) xs = XDone (map (enc_answer ek evl) js) xs') \/
       (f < F)%nat /\ xrun_items C lt g fix_pmem junk f (map (enc_item ek evl) xis) xs = XNoFuel).
Proof.
  intros H Hp. destruct (lived_bytes M xs H Hp) as (s & Hl & Hs). destruct (lived_tree M s Hl) as [T A].
  exists s. split; [exact Hl|]. split; [apply Hs|]. intros xis Hk.
  exact (from_bytes _ lt g OK K ek evl _ _ HK fix_pmem junk xs s M T Hs xis Hk).
Qed.
(** Bulkload. *)
Lemma life_workers M xs es T f sch : xlived g K lt ek evl L junk M xs ->
  Forall (fun x => K (fst x)) es -> ascending es -> 1 < T <= Z.of_nat (length es) -> (length es + 1 < f)%nat ->
  let w := xwork junk (xworkers L g f (map (fun x => (ek (fst x), evl (snd x))) es) T) xs sch in
  (x_npid (snd w) <= max64)%N -> forall m u, In m (fst w) -> m <> XUB u /\ m <> XFuel.
Proof.
  intros H Hk Ha HT Hf w Hp. pose proof (ByteBulkMain.xwork_npid g e junk sch (xworkers L g f (map (fun x => (ek (fst x), evl (snd x))) es) T) xs) as Np.
  fold w in Np. destruct (lived_bytes M xs H) as (s & Hl & Hs); [lia|]. destruct (lived_tree M s Hl) as [T0 A].
  exact (ByteBulkMain.wsafe g K lt ek evl L e OK HV HL HC BC junk xs s M T0 A Hs f es T sch Hk Ha HT Hf Hp).
Qed.
Lemma life_loads M xs : xlived g K lt ek evl L junk M xs -> (x_npid xs <= max64)%N ->
  exists s, lived g K M s /\ x_npid xs = s_npid s /\
  forall es s', Forall (fun x => K (fst x)) es -> ascending es -> es <> [] -> bulkloaded g es s s' -> (s_npid s' <= max64)%N ->
  exists xs', xbulkloaded L lps lt g junk (map (fun x => (ek (fst x), evl (snd x))) es) xs xs' /\ x_npid xs' = s_npid s'.
Proof.
  intros H Hp. destruct (lived_bytes M xs H Hp) as (s & Hl & Hs). destruct (lived_tree M s Hl) as [T A].
  exists s. split; [exact Hl|]. split; [apply Hs|]. intros es s' Hk Ha Hn B Hp'.
  destruct (ByteBulkMain.load_follows g K lt ek evl L e OK HV HL HC BC junk xs s M T A Hs es s' Hk Ha Hn B Hp') as (xs' & B' & S').
  exists xs'. split; [exact B'|]. apply S'.
Qed.
(** Clients. *)
Lemma life_clients M xs stat_mem mems fuel todos sch : xlived g K lt ek evl L junk M xs ->
  Forall (Forall (req_keys K)) todos -> length mems = length todos -> begins_given todos \/ x_two_levels C xs ->
  let c0 := bkstart xs (combine mems (map (map (enc_req ek evl)) todos)) in
  xroot_stays C lt g fix_pmem stat_mem junk fuel (x_root xs) c0 sch -> (x_npid xs + N.of_nat (length sch) <= max64)%N ->
  let e := bkexec C lt g fix_pmem stat_mem junk fuel c0 sch in
  ~ bkcrashed (fst e) /\
  exists steps, snd e = map (enc_kevent ek evl) (concat (map snd steps)) /\ map fst steps = map fst sch /\ told M no_view steps.
Proof.
  intros H HT Hl BG c0 Rs Hn. destruct (lived_bytes M xs H ltac:(lia)) as (s & Hlv & Hs). destruct (lived_tree M s Hlv) as [T A].
  exact (mrg_clients C lt g OK K ek evl NP DP HK fix_pmem stat_mem junk fuel xs s _ todos mems sch Hs T A HT Hl BG Rs Hn).
Qed.
End Main.
