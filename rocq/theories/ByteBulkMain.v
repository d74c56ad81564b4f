(** Bulkload on bytes, its workers in any interleaving, and clients after it. *)
From Coq Require Import ZArith NArith List Bool Lia.
From Coq Require Import ZifyBool ZifyNat ZifyN.
From Verif Require Import Config Api Spec Page Machine Tree Scan Bulk BulkSpec Client ClientSpec Valid ListFacts Bytes FixLayout DeltaBytes ByteCons ByteConsSpec
  ByteTree ByteTreeSpec ByteTreeRel ByteTreeInst ByteTreeMain ByteScan ByteScanSpec ByteScanSim ByteBulk ByteBulkSim.
From Verif Require BulkFacts BulkPar BulkConc FuelFacts ConcChain ConcInv ConcMain ConcStart ClientFacts MrgStart ByteTreeConc ByteScanConc SeqOps.
Import ListNotations.
Open Scope Z_scope.

Section Main.
Variables (g : cfg) (K : Z -> Prop) (lt : list N -> list N -> bool) (ek : Z -> list N) (evl : N -> list N) (L : flay) (e : N).
Hypothesis OK : cfg_ok g.
Hypothesis HV : c_varlen g = false.
Hypothesis HL : flay_ok g L e.
Hypothesis HC : coding g false K lt ek evl.
Hypothesis BC : bulk_ok g.
Variable junk : addr -> mem.
Notation lps := (Z.to_N (c_paylen g)).
Notation C := (fix_klass L lps lt).
Notation ch := (tchain fnode fdelta).
Notation NP := (NP g ek evl L).
Notation DP := (fDP g ek evl L).
Notation srl := (srl C K ek NP DP).
Notation brel := (brel g K lt ek evl L).
Notation zrel := (zrel K ek).
Notation enc := (enc ek evl false).

(** ** Workers *)
Lemma step_sim {B A} (R : B -> A -> Prop) x m xs s m' s' : brel R x m -> srl xs s ->
  pstep m false s = Some (m', s') -> (forall u, m' <> UB u) ->
  ((s_npid s' <= max64)%N \/ forall x' xs', xstep x_addr junk x false xs = Some (x', xs') -> (x_npid xs' <= max64)%N) ->
  exists x' xs', xstep x_addr junk x false xs = Some (x', xs') /\ brel R x' m' /\ srl xs' s'.
Proof.
  intros H Hs Hp Hu Hb. pose proof Hs as [T1 T2 T3 T4 T5 T6 T7]. destruct H; cbn [pstep] in Hp; try discriminate.
  - destruct (s_tbl s p) as [c|] eqn:E; injection Hp as <- <-; [|destruct (Hu _ eq_refl)]. pose proof (T1 p) as Q. rewrite E in Q.
    cbn [xstep]. destruct (x_tbl xs p) as [b|]; [|contradiction]. eauto 10.
  - injection Hp as <- <-. cbn [xstep]. eexists _, _. split; [reflexivity|]. split; [auto|]. apply put_rl; auto.
  - injection Hp as <- <-. cbn [xstep]. eexists _, _. split; [reflexivity|]. split; [auto|]. apply clear_rl; auto.
  - injection Hp as <- <-. cbn [xstep]. rewrite T2. eauto 10.
  - injection Hp as <- <-. cbn [xstep]. eexists _, _. split; [reflexivity|]. split; [auto|]. constructor; auto.
  - injection Hp as <- <-. cbn [xstep] in *. eexists _, _. split; [reflexivity|]. split.
    + rewrite T4. apply H. destruct Hb as [Hb|Hb].
      * change (s_npid s + 1 <= max64)%N in Hb. lia.
      * specialize (Hb _ _ eq_refl). cbn [x_npid] in Hb. lia.
    + constructor; auto. cbn. lia.
  - injection Hp as <- <-. cbn [xstep]. eexists _, _. split; [reflexivity|]. rewrite T5. split; [auto|]. constructor; auto.
  - injection Hp as <- <-. cbn [xstep]. eexists _, _. split; [reflexivity|]. split; [auto|]. constructor; auto. cbn. rewrite T7. reflexivity.
Qed.
Lemma xstep_npid {A} (x : xprog ch A) xs x' xs' : xstep x_addr junk x false xs = Some (x', xs') -> (x_npid xs <= x_npid xs')%N.
Proof.
  destruct x; cbn [xstep]; try discriminate; try (destruct (x_tbl xs p)); try (match goal with |- (if ?b then _ else _) = _ -> _ => destruct b end);
    intros E; injection E as <- <-; cbn; lia.
Qed.
Lemma xwork_npid sch : forall ws s, (x_npid s <= x_npid (snd (xwork junk ws s sch)))%N.
Proof.
  induction sch as [|t sch IH]; intros ws s; cbn [xwork]; [cbn; lia|]. destruct (nth_error ws t) as [m|]; [|apply IH].
  destruct (xstep x_addr junk m false s) as [[m' s']|] eqn:E; [|apply IH]. apply xstep_npid in E. specialize (IH (firstn t ws ++ m' :: skipn (S t) ws) s'). lia.
Qed.
Lemma work_npid sch : forall ws s, (s_npid s <= s_npid (snd (work ws s sch)))%N.
Proof.
  induction sch as [|t sch IH]; intros ws s; cbn [work]; [cbn; lia|]. destruct (nth_error ws t) as [m|]; [|apply IH].
  destruct (pstep m false s) as [[m' s']|] eqn:E; [|apply IH]. apply ByteTreeConc.pstep_npid in E. specialize (IH (firstn t ws ++ m' :: skipn (S t) ws) s'). lia.
Qed.

Definition calm (ws : list worker) : Prop := forall u, ~ In (UB u) ws.
Lemma work_sim sch : forall xws xs ws s, Forall2 (brel zrel) xws ws -> srl xs s ->
  (forall i, calm (fst (work ws s (firstn i sch)))) ->
  ((s_npid (snd (work ws s sch)) <= max64)%N \/ (x_npid (snd (xwork junk xws xs sch)) <= max64)%N) ->
  Forall2 (brel zrel) (fst (xwork junk xws xs sch)) (fst (work ws s sch)) /\
  srl (snd (xwork junk xws xs sch)) (snd (work ws s sch)).
Proof.
  induction sch as [|t sch IH]; intros xws xs ws s Hw Hs Hc Hb; cbn [xwork work] in *; [auto|].
  pose proof (f2_nth _ _ _ Hw t) as Q.
  destruct (nth_error xws t) as [x|] eqn:Ex, (nth_error ws t) as [m|] eqn:Em; try contradiction.
  2: { apply IH; auto. intros i. specialize (Hc (S i)). cbn [firstn work] in Hc. rewrite Em in Hc. exact Hc. }
  destruct (pstep m false s) as [[m' s']|] eqn:Ep.
  - assert (Hc' : forall i, calm (fst (work (firstn t ws ++ m' :: skipn (S t) ws) s' (firstn i sch)))).
    { intros i. specialize (Hc (S i)). cbn [firstn work] in Hc. rewrite Em, Ep in Hc. exact Hc. }
    destruct (step_sim _ x m xs s m' s' Q Hs Ep) as (x' & xs' & E1 & E2 & E3).
    + intros u ->. apply (Hc' 0%nat u). cbn. apply in_or_app. right. left. reflexivity.
    + destruct Hb as [Hb|Hb]; [left; pose proof (work_npid sch (firstn t ws ++ m' :: skipn (S t) ws) s'); lia|right].
      intros x' xs' E1. rewrite E1 in Hb. pose proof (xwork_npid sch (firstn t xws ++ x' :: skipn (S t) xws) xs'). lia.
    + rewrite E1 in *. apply IH; auto. apply f2_put; auto.
  - assert (Ex' : xstep x_addr junk x false xs = None).
    { destruct m; cbn [pstep] in Ep; try discriminate; try (destruct (s_tbl s p); discriminate); try (destruct (cas_ok _ _ _ _ _); discriminate);
        try (destruct (N.eqb _ _); discriminate).
      - inversion Q; subst. reflexivity.
      - exfalso. apply (Hc 0%nat u). cbn. eapply nth_error_In; eauto.
      - inversion Q; subst. reflexivity. }
    rewrite Ex' in *. apply IH; auto. intros i. specialize (Hc (S i)). cbn [firstn work] in Hc. rewrite Em, Ep in Hc. exact Hc.
Qed.

Lemma init_rl : srl (xinit C junk) (init g).
Proof.
  destruct (init_srl C lt g K ek evl _ _ (fix_ok g K lt ek evl L e OK HV HL HC) junk) as [T1 T2 T3 T4 T5 T6 T7].
  constructor; auto. intros p. specialize (T1 p). cbn [xinit x_tbl init s_tbl] in *. unfold upd in *. destruct (N.eqb p 1); [|exact I].
  cbn [trl] in *. cbn in *. destruct T1 as (A & B & D & E & F). split; [exact A|]. split; [exact B|]. split; [exact D|]. split; [split; [exact E|]|exact F].
  unfold room. cbn [empty_leaf n_inner n_recs n_size length]. lia.
Qed.
Lemma init_addr : MrgStart.addr_lt (init g).
Proof. intros p c. cbn. unfold upd. destruct (N.eqb_spec p 1); [|discriminate]. intros X; inversion X. cbn. lia. Qed.

Lemma ends_nocrash {A} (m : nat -> prog A) s F r f : (forall f f', (f <= f')%nat -> FuelFacts.mle (m f) (m f')) ->
  (forall f, (F <= f)%nat -> exists a s', r = Done a s' /\ run (m f) s = r) -> forall u, run (m f) s <> Crash u.
Proof.
  intros Hm Hr u E. destruct (FuelFacts.any_run m s F r Hm) with (f := f) as [X|X].
  - intros f' Hf. destruct (Hr f' Hf) as (a & s' & _ & Y). exact Y.
  - congruence.
  - destruct (Hr F ltac:(lia)) as (a & s' & Y & _). congruence.
Qed.

Lemma ents_good es : Forall (fun x => K (fst x)) es -> Forall (egood K false) es.
Proof. intros H. eapply Forall_impl; [|exact H]. intros x Hx. split; [exact Hx|discriminate]. Qed.

(** ** From any tree *)
Section From.
Variables (x0 : xst ch) (s0 : st) (M0 : smap).
Hypothesis T0 : SeqOps.tree g s0 M0.
Hypothesis A0 : MrgStart.addr_lt s0.
Hypothesis R0 : srl x0 s0.
Lemma wcalm f es T sch : ascending es -> 1 < T <= Z.of_nat (length es) -> (length es + 1 < f)%nat ->
  forall m u, In m (fst (work (bulk_workers g f es T) s0 sch)) -> m <> UB u /\ m <> Fuel.
Proof.
  intros Ha HT Hf. destruct (BulkPar.par_tree g s0 M0 es T f sch OK HV BC T0 A0 Ha HT Hf) as (A & _). exact A.
Qed.

Lemma wbytes f es T sch : Forall (fun x => K (fst x)) es -> ascending es -> 1 < T <= Z.of_nat (length es) -> (length es + 1 < f)%nat ->
  let w := xwork junk (xworkers L g f (map enc es) T) x0 sch in let a := work (bulk_workers g f es T) s0 sch in
  (s_npid (snd a) <= max64)%N \/ (x_npid (snd w) <= max64)%N ->
  Forall2 (brel zrel) (fst w) (fst a) /\ srl (snd w) (snd a).
Proof.
  intros Hk Ha HT Hf w a Hb. apply work_sim; auto.
  - apply (workers_sim g K lt ek evl L e OK HV HL HC BC junk). apply ents_good. exact Hk.
  - intros i u Hin. destruct (wcalm f es T (firstn i sch) Ha HT Hf _ u Hin) as [X _]. apply X. reflexivity.
Qed.
Lemma f2_rets (xts : list (Z * bnodes)) : forall (l : list (xprog ch (Z * bnodes))) ws, l = map (fun x => XRet x) xts -> Forall2 (brel zrel) l ws -> calm ws ->
  exists ts, ws = map (fun x => Ret x) ts /\ Forall2 zrel xts ts.
Proof.
  induction xts as [|x xts IH]; intros l ws -> H Hc; inversion H as [|? m ? ws' Hm Hr]; subst; [exists []; auto|].
  destruct (IH _ _ eq_refl Hr) as (ts & -> & Ht); [intros u Hu; apply (Hc u); right; exact Hu|].
  inversion Hm; subst; [destruct (Hc u); left; reflexivity|]. exists (a :: ts). split; [reflexivity|]. constructor; auto.
Qed.

(** What Bulkload on bytes leaves behind stands for what Bulkload of Bulk.v leaves behind. *)
Lemma load_bytes es xs' : Forall (fun x => K (fst x)) es -> ascending es -> es <> [] ->
  xbulkloaded L lps lt g junk (map enc es) x0 xs' -> (x_npid xs' <= max64)%N ->
  exists s', bulkloaded g es s0 s' /\ srl xs' s'.
Proof.
  intros Hk Ha Hn [f T HT R|f f' T sch xts xs1 HT Hf W R] Hb.
  - rewrite map_length in HT.
    destruct (BulkPar.bulk_addr g s0 M0 es T OK HV BC T0 A0 Ha Hn) as (F & s2 & Q & _).
    destruct (run_sim g K lt ek evl L e junk _ _ _ (op_sim g K lt ek evl L e OK HV HL HC BC junk f es T (ents_good _ Hk) Hn HT) _ _ _ _ R0 R Hb) as (a & s' & R' & <- & Hs).
    { apply (ends_nocrash (fun f => op_bulkload g f es T) s0 F (Done Success s2)); [intros; apply FuelFacts.mono_bulkload; auto|]. intros f0 H0. eauto. }
    exists s'. split; [|exact Hs]. eapply bl_one; eauto.
  - rewrite map_length in HT, Hf. pose proof (wbytes f es T sch Hk Ha HT Hf) as WB. cbv zeta in WB. rewrite W in WB. cbn [fst snd] in WB.
    pose proof (xrun_npid g e junk _ _ _ _ R) as Np. destruct WB as [WB1 WB2]; [right; lia|].
    destruct (BulkPar.par_tree g s0 M0 es T f sch OK HV BC T0 A0 Ha HT Hf) as (PA & _ & PC).
    destruct (f2_rets xts _ _ eq_refl WB1) as (ts & Ets & Hts).
    { intros u Hu. destruct (PA _ u Hu) as [X _]. apply X. reflexivity. }
    destruct (PC ts Ets) as (F & s2 & Q & _).
    destruct (run_sim g K lt ek evl L e junk _ _ _ (join_sim g K lt ek evl L e OK HV HL HC BC junk f' xts ts Hts) _ _ _ _ WB2 R Hb) as (a & s' & R' & <- & Hs).
    { apply (ends_nocrash (fun f => bulk_join g f ts) _ F (Done Success s2)); [intros; apply FuelFacts.mono_join; auto|]. intros f0 H0. eauto. }
    exists s'. split; [|exact Hs]. eapply bl_many; [exact HT|exact Hf| |exact R']. rewrite <- Ets. apply surjective_pairing.
Qed.

(** And the other way round. *)
Lemma load_follows es s' : Forall (fun x => K (fst x)) es -> ascending es -> es <> [] ->
  bulkloaded g es s0 s' -> (s_npid s' <= max64)%N ->
  exists xs', xbulkloaded L lps lt g junk (map enc es) x0 xs' /\ srl xs' s'.
Proof.
  intros Hk Ha Hn [f T HT R|f f' T sch ts s1 HT Hf W R] Hb.
  - destruct (run_fwd g K lt ek evl L e junk _ _ _ (op_sim g K lt ek evl L e OK HV HL HC BC junk f es T (ents_good _ Hk) Hn HT) _ _ _ _ R0 R Hb) as (a & xs' & R' & -> & Hs).
    exists xs'. split; [|exact Hs]. eapply xl_one; [rewrite map_length; exact HT|exact R'].
  - pose proof (wbytes f es T sch Hk Ha HT Hf) as WB. cbv zeta in WB. rewrite W in WB. cbn [fst snd] in WB.
    pose proof (run_npid g e junk _ _ _ _ R) as Np. destruct WB as [WB1 WB2]; [left; lia|].
    assert (exists xts, fst (xwork junk (xworkers L g f (map enc es) T) x0 sch) = map (fun x => XRet x) xts /\ Forall2 zrel xts ts) as (xts & Ex & Hx).
    { revert WB1. generalize (fst (xwork junk (xworkers L g f (map enc es) T) x0 sch)) as l. clear - ts. induction ts as [|t ts IH]; intros l H; cbn [map] in H.
      - inversion H. exists []. auto.
      - inversion H as [|x ? l' ? Hx Hr]; subst. destruct (IH _ Hr) as (xts & -> & Ht). inversion Hx; subst. exists (b :: xts). split; [reflexivity|]. constructor; auto. }
    destruct (run_fwd g K lt ek evl L e junk _ _ _ (join_sim g K lt ek evl L e OK HV HL HC BC junk f' xts ts Hx) _ _ _ _ WB2 R Hb) as (a & xs' & R' & -> & Hs).
    exists xs'. split; [|exact Hs]. eapply xl_many; [rewrite map_length; exact HT|rewrite map_length; exact Hf| |exact R']. rewrite <- Ex. apply surjective_pairing.
Qed.

(** No worker on bytes runs into undefined behaviour. *)
Lemma wsafe f es T sch : Forall (fun x => K (fst x)) es -> ascending es -> 1 < T <= Z.of_nat (length es) -> (length es + 1 < f)%nat ->
  let w := xwork junk (xworkers L g f (map enc es) T) x0 sch in
  (x_npid (snd w) <= max64)%N -> forall m u, In m (fst w) -> m <> XUB u /\ m <> XFuel.
Proof.
  intros Hk Ha HT Hf w Hb m u Hin. destruct (wbytes f es T sch Hk Ha HT Hf (or_intror Hb)) as [WB _]. fold w in WB.
  apply In_nth_error in Hin as [i Ei]. pose proof (f2_nth _ _ _ WB i) as Q. rewrite Ei in Q.
  destruct (nth_error (fst (work _ _ _)) i) as [am|] eqn:Ea; [|contradiction]. apply nth_error_In in Ea.
  pose proof (wcalm f es T sch Ha HT Hf am) as WC. split; intros ->; inversion Q; subst.
  - destruct (WC u0 Ea) as [X _]. apply X. reflexivity.
  - destruct (WC u0 Ea) as [X _]. apply X. reflexivity.
  - destruct (WC u Ea) as [_ X]. apply X. reflexivity.
Qed.

End From.
Lemma loaded_bytes es xs' : Forall (fun x => K (fst x)) es -> ascending es -> es <> [] ->
  xbulkloaded L lps lt g junk (map enc es) (xinit C junk) xs' -> (x_npid xs' <= max64)%N ->
  exists s', bulkloaded g es (init g) s' /\ srl xs' s'.
Proof. apply (load_bytes _ _ _ (SeqOps.init_tree g OK) init_addr init_rl). Qed.
Lemma loaded_follows es s' : Forall (fun x => K (fst x)) es -> ascending es -> es <> [] ->
  bulkloaded g es (init g) s' -> (s_npid s' <= max64)%N ->
  exists xs', xbulkloaded L lps lt g junk (map enc es) (xinit C junk) xs' /\ srl xs' s'.
Proof. apply (load_follows _ _ _ (SeqOps.init_tree g OK) init_addr init_rl). Qed.
Lemma workers_safe f es T sch : Forall (fun x => K (fst x)) es -> ascending es -> 1 < T <= Z.of_nat (length es) -> (length es + 1 < f)%nat ->
  let w := xwork junk (xworkers L g f (map enc es) T) (xinit C junk) sch in
  (x_npid (snd w) <= max64)%N -> forall m u, In m (fst w) -> m <> XUB u /\ m <> XFuel.
Proof. apply (wsafe _ _ _ (SeqOps.init_tree g OK) init_addr init_rl). Qed.

(** ** Clients *)
Lemma weak_crl c b : crl C K ek NP DP c b -> crl C K ek (fNP g ek evl L) DP c b.
Proof.
  assert (P : forall n p, prl K NP n p -> prl K (fNP g ek evl L) n p).
  { intros n p (A & B & D & [E _] & F). split; [exact A|]. split; [exact B|]. split; [exact D|]. split; [exact E|exact F]. }
  destruct b as [x|a l]; cbn [crl]; [|auto]. revert x. induction c as [n|d nx IH|d n nx IH|]; intros [p|bd bx|bd p bx]; cbn; auto.
  - intros [A B]. split; [exact A|]. apply IH. exact B.
  - intros (A & B & D). split; [exact A|]. split; [apply P; exact B|]. apply IH. exact D.
Qed.
Lemma weak_srl xs s : srl xs s -> ByteTreeMain.srl C K ek (fNP g ek evl L) DP xs s.
Proof.
  intros [T1 T2 T3 T4 T5 T6 T7]. constructor; auto. intros p. specialize (T1 p). unfold trl in *.
  destruct (x_tbl xs p), (s_tbl s p); auto. apply weak_crl. exact T1.
Qed.

Variables (stat_mem : addr -> mem) (fuel : nat).
Lemma loaded_clients xs s todos mems sch : srl xs s -> Forall (Forall (req_keys K)) todos -> length mems = length todos -> ksteady g fuel (kstart s todos) sch ->
  let e := bkexec C lt g fix_pmem stat_mem junk fuel (bkstart xs (combine mems (map (map (enc_req ek evl)) todos))) sch in
  ~ bkcrashed (fst e) /\ snd e = map (enc_kevent ek evl) (snd (kexec g fuel (kstart s todos) sch)).
Proof.
  intros Hs Hk Hl Hst. cbn zeta.
  destruct (kexec_sim C lt g K ek evl _ _ (fix_ok g K lt ek evl L e OK HV HL HC) fix_pmem stat_mem junk fuel sch
    (bkstart xs (combine mems (map (map (enc_req ek evl)) todos))) (kstart s todos)) as [[A1 A2] B].
  { split; [apply weak_srl; exact Hs|]. cbn [bkstart kstart bk_thr k_thr]. clear Hst. revert mems Hl.
    induction Hk as [|td todos H _ IH]; intros [|m mems] Hl; try discriminate; cbn; constructor; auto. cbn. auto. }
  { intros i. destruct (Hst i) as (S1 & S2 & S3). split; [exact S1|exact S3]. }
  { intros i t b0 E m r x. destruct (Hst i) as (S1 & S2 & S3). eapply S2; eauto. }
  split; [|exact B]. intros (u & r & Hin). apply In_nth_error in Hin as [t E].
  pose proof (f2_nth _ _ _ A2 t) as Q. rewrite E in Q. destruct (nth_error _ t) as [[|m td]|] eqn:Et in Q; try contradiction.
  cbn in Q. destruct Q as (Q & _). destruct (Hst (length sch)) as (S1 & _). rewrite firstn_all in S1.
  inversion Q; subst. apply S1. exists u0, td. eapply nth_error_In; eauto.
Qed.

Lemma pstep_npid1 {A} (m : prog A) spur s m' s' : pstep m spur s = Some (m', s') -> (s_npid s' <= s_npid s + 1)%N.
Proof.
  destruct m; cbn [pstep]; try discriminate; try (destruct (s_tbl s p)); try (destruct (cas_ok s weak spur p e0)); try (destruct (N.eqb (s_root s) old));
    intros E; injection E as <- <-; cbn; lia.
Qed.
Lemma kexec_npid1 sch : forall c, (s_npid (k_mem (fst (kexec g fuel c sch))) <= s_npid (k_mem c) + N.of_nat (length sch))%N.
Proof.
  induction sch as [|[t b] sch IH]; intros c; cbn [kexec]; [cbn; lia|].
  assert (H : (s_npid (k_mem (fst (kstep g fuel c t b))) <= s_npid (k_mem c) + 1)%N).
  { unfold kstep. destruct (nth_error (k_thr c) t) as [[cu [|o r]|m r]|]; cbn; try lia.
    destruct (pstep m b (k_mem c)) as [[m' s']|] eqn:E; [apply pstep_npid1 in E|]; destruct m as [[]| | | | | | | | | | | | | |]; cbn; try lia. }
  destruct (kstep g fuel c t b) as [c1 h1]. specialize (IH c1). destruct (kexec g fuel c1 sch). cbn [fst length] in *. lia.
Qed.

Section NoMerge.
Hypothesis HO : ConcChain.hdr_ok g.
Hypothesis NM : no_merge g.
Lemma inv_ksteady s M Nn lv todos sch : let gh := ConcStart.bgh s M Nn lv in ConcInv.inv g (ConcInv.mk_w s gh) -> (s_npid s + N.of_nat (length sch) <= max64)%N ->
  ksteady g fuel (kstart s todos) sch.
Proof.
  intros gh Hi Hp i. cbn zeta.
  assert (C0 : ClientFacts.kinv g (kstart s todos) gh no_view).
  { split; [exact Hi|]. cbn [k_mem k_thr kstart]. intros t th E. apply nth_error_In in E.
    apply in_map_iff in E as (td & <- & _). repeat split; reflexivity. }
  assert (TB : forall sch p x, s_tbl (k_mem (fst (kexec g fuel (kstart s todos) sch))) p = Some x -> sane g x).
  { clear Hp i sch. intros sch p x T.
    destruct (ClientFacts.kexplained_ok g OK HO NM fuel sch _ gh no_view C0) as [_ (gh' & f & Hi' & _)].
    set (c' := fst (kexec _ _ _ _)) in *. destruct (ConcInv.nd gh' p) as [[lf lo]|] eqn:E.
    - pose proof (ConcInv.n_wf _ _ _ _ _ _ (ConcInv.nok_at g (ConcInv.mk_w (k_mem c') gh') _ _ _ _ Hi' E T)) as W.
      destruct lf; [apply ByteTreeConc.lwf_sane|apply ByteTreeConc.jwf_sane]; auto.
    - destruct (ConcInv.i_prv _ _ Hi' p x E T) as ((B & _ & R) & _). destruct x; try discriminate. cbn. apply R; auto. }
  set (c' := fst (kexec _ _ _ _)).
  destruct (ClientFacts.kexplained_ok g OK HO NM fuel (firstn i sch) _ gh no_view C0) as [_ (gh' & f & H)].
  fold c' in H. split; [eapply ClientFacts.kinv_nocrash; eauto|]. split.
  - intros t b m r x _ Et Me. destruct m; cbn [meets] in Me; try contradiction; [exact (TB _ _ _ Me)|].
    destruct Me as [-> Me]. apply (TB (firstn i sch ++ [(t, b)]) p c). rewrite ByteScanConc.kexec_snoc. transitivity (s_tbl (k_mem (fst (kstep g fuel c' t b))) p); [reflexivity|].
    unfold kstep. rewrite Et. cbn [pstep]. rewrite Me. cbn. unfold upd. rewrite N.eqb_refl. reflexivity.
  - pose proof (ByteScanConc.kexec_npid g fuel sch (kstart s todos) i) as A. pose proof (kexec_npid1 sch (kstart s todos)) as B.
    fold c' in A. cbn [kstart k_mem] in B. change (s_npid (k_mem c') <= max64)%N. eapply N.le_trans; [exact A|]. eapply N.le_trans; [exact B|exact Hp].
Qed.

Lemma loaded_explained es xs' todos mems sch : Forall (fun x => K (fst x)) es -> ascending es -> es <> [] ->
  xbulkloaded L lps lt g junk (map enc es) (xinit C junk) xs' -> (x_npid xs' + N.of_nat (length sch) <= max64)%N ->
  Forall (Forall (req_keys K)) todos -> length mems = length todos ->
  let e := bkexec C lt g fix_pmem stat_mem junk fuel (bkstart xs' (combine mems (map (map (enc_req ek evl)) todos))) sch in
  ~ bkcrashed (fst e) /\
  exists steps, snd e = map (enc_kevent ek evl) (concat (map snd steps)) /\ map fst steps = map fst sch /\ told (fun k => find k es) no_view steps.
Proof.
  intros Hk Ha Hn HB Hp HT HL'. cbv zeta. destruct (loaded_bytes es xs' Hk Ha Hn HB ltac:(lia)) as (s' & BL & Hs).
  destruct (BulkConc.loaded_inv g OK HV BC es s' Ha Hn BL) as (Nn & lv & Hi).
  assert (En : x_npid xs' = s_npid s') by apply Hs. rewrite En in Hp.
  destruct (loaded_clients xs' s' todos mems sch Hs HT HL' (inv_ksteady s' _ _ _ todos sch Hi Hp)) as [A B].
  split; [exact A|]. destruct (ByteScanConc.told_history g fuel sch _ _ _ (proj1 (BulkConc.loaded_scans g OK HV BC HO NM es s' Ha Hn BL fuel sch todos))) as (steps & E & X & Y).
  exists steps. split; [|split; [exact X|exact Y]]. eapply eq_trans; [exact B|]. f_equal. exact E.
Qed.
End NoMerge.
End Main.
