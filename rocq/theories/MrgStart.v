(** The invariant of [MrgInv] holds in the quiescent states that sequences of calls reach. *)
From Coq Require Import ZArith NArith List Bool Lia.
From Coq Require Import ZifyBool ZifyNat ZifyN.
From Verif Require Import Config Api Page Machine Tree Spec Conc ListFacts SearchFacts ChainSpec ChainFacts
  ConsFacts Valid ConsolidateFacts SeqSpec LevelFacts SeqSearch SeqSmo SeqAux SeqOps MrgInv MrgSteps.
From Verif Require GcFacts.
Import ListNotations.
Open Scope Z_scope.

(** ** Addresses in the mapping table have been allocated *)
Section Addr.
Variable g : cfg.
Definition addr_lt (s : st) : Prop := forall p c, s_tbl s p = Some c -> (h_addr c < s_naddr s)%N.

Lemma run_gc : forall (m : prog ret) s r s' G, GcFacts.inv g G s -> GcFacts.wp g (GcFacts.g_hold G 0%nat) m GcFacts.clean ->
  run m s = Done r s' -> exists G', GcFacts.inv g G' s' /\ GcFacts.clean tt (GcFacts.g_hold G' 0%nat).
Proof.
  induction m as [a|p k IH|p c m IH|p m IH|w p e c k IH|k IH|p m IH|o n k IH|k IH|k IH|a k IH|a p m IH|l m IH|u|];
    intros s r s' G Hi W E; cbn [run] in E; try discriminate.
  - injection E as <- <-. exists G. split; auto.
  - destruct (s_tbl s p) as [c|] eqn:T; [|discriminate].
    destruct (GcFacts.wp_pstep g (Load p k) false s (k c) s G 0%nat Hi W) as (G' & (A & _) & B & _); [cbn; rewrite T; auto|].
    eapply IH; eauto.
  - destruct (GcFacts.wp_pstep g (Store p c m) false s m _ G 0%nat Hi W eq_refl) as (G' & (A & _) & B & _). eapply IH; eauto.
  - destruct (GcFacts.wp_pstep g (Clear p m) false s m _ G 0%nat Hi W eq_refl) as (G' & (A & _) & B & _). eapply IH; eauto.
  - destruct (cas_ok s w false p e) eqn:T.
    + destruct (GcFacts.wp_pstep g (Cas w p e c k) false s (k true) (set_tbl s p (Some c)) G 0%nat Hi W) as (G' & (A & _) & B & _);
        [cbn; rewrite T; auto|]. eapply IH; eauto.
    + destruct (GcFacts.wp_pstep g (Cas w p e c k) false s (k false) s G 0%nat Hi W) as (G' & (A & _) & B & _);
        [cbn; rewrite T; auto|]. eapply IH; eauto.
  - destruct (GcFacts.wp_pstep g (LoadRoot k) false s _ _ G 0%nat Hi W eq_refl) as (G' & (A & _) & B & _). eapply IH; eauto.
  - destruct (GcFacts.wp_pstep g (StoreRoot p m) false s _ _ G 0%nat Hi W eq_refl) as (G' & (A & _) & B & _). eapply IH; eauto.
  - destruct (N.eqb (s_root s) o) eqn:T.
    + destruct (GcFacts.wp_pstep g (CasRoot o n k) false s (k true) (set_root s n) G 0%nat Hi W) as (G' & (A & _) & B & _);
        [cbn; rewrite T; auto|]. eapply IH; eauto.
    + destruct (GcFacts.wp_pstep g (CasRoot o n k) false s (k false) s G 0%nat Hi W) as (G' & (A & _) & B & _);
        [cbn; rewrite T; auto|]. eapply IH; eauto.
  - destruct (GcFacts.wp_pstep g (NewPid k) false s _ _ G 0%nat Hi W eq_refl) as (G' & (A & _) & B & _). eapply IH; eauto.
  - destruct (GcFacts.wp_pstep g (Alloc k) false s _ _ G 0%nat Hi W eq_refl) as (G' & (A & _) & B & _). eapply IH; eauto.
  - destruct (GcFacts.wp_pstep g (LoadCell a k) false s _ _ G 0%nat Hi W eq_refl) as (G' & (A & _) & B & _). eapply IH; eauto.
  - destruct (GcFacts.wp_pstep g (StoreCell a p m) false s _ _ G 0%nat Hi W eq_refl) as (G' & (A & _) & B & _). eapply IH; eauto.
  - destruct (GcFacts.wp_pstep g (Retire l m) false s _ _ G 0%nat Hi W eq_refl) as (G' & (A & _) & B & _). eapply IH; eauto.
Qed.

Lemma calls_gc f : forall os s rs s' G, GcFacts.inv g G s -> GcFacts.clean tt (GcFacts.g_hold G 0%nat) ->
  run_calls g f os s = Done rs s' -> exists G', GcFacts.inv g G' s'.
Proof.
  induction os as [|o os IH]; intros s rs s' G Hi C E; cbn [run_calls] in E; [inversion E; subst; eauto|].
  destruct (run (call_prog g f o) s) as [r s1| |] eqn:E1; try discriminate.
  destruct (run_gc _ _ _ _ _ Hi (GcFacts.wp_call g f o _ C) E1) as (G1 & H1 & C1).
  destruct (run_calls g f os s1) as [rs1 s2| |] eqn:E2; try discriminate. inversion E; subst. eapply IH; eauto.
Qed.

Lemma calls_addr f os rs s : run_calls g f os (init g) = Done rs s -> addr_lt s.
Proof.
  intros E. destruct (GcFacts.start_inv g [[]]) as (G & Hi & Ht). cbn [c_mem start] in Hi.
  pose proof (Ht 0%nat) as C. cbn in C. destruct (calls_gc f os _ _ _ G Hi C E) as (G' & H).
  intros p c T. eapply GcFacts.tbl_lt; eauto. apply GcFacts.h_addr_in.
Qed.
End Addr.

(** ** Levels *)
Definition lowk (N : level) (k : key) : Prop := exists p c, In (p, c) N /\ c_lo c = Some k.
Fixpoint assoc (p : pid) (N : level) : option chain :=
  match N with [] => None | (q, c) :: r => if N.eqb q p then Some c else assoc p r end.
Fixpoint loc (lv : list level) (p : pid) : option (nat * chain) :=
  match lv with
  | [] => None
  | N :: r => match assoc p N with
              | Some c => Some (O, c)
              | None => match loc r p with Some (j, c) => Some (S j, c) | None => None end
              end
  end.
Definition hasent (k : key) (x : pid * chain) : bool := hasb (find k (ients (snd x))).
Fixpoint tokl (lv : list level) (k : key) : option (nat * pid) :=
  match lv with
  | [] => None
  | N :: r => match List.find (hasent k) N with
              | Some x => Some (O, fst x)
              | None => match tokl r k with Some (j, p) => Some (S j, p) | None => None end
              end
  end.

Lemma assoc_in p N c : assoc p N = Some c -> In (p, c) N.
Proof.
  induction N as [|[q d] r IH]; cbn; [discriminate|]. destruct (N.eqb_spec q p) as [->|]; auto.
  intros E; inversion E; subst; auto.
Qed.
Lemma assoc_none p N : assoc p N = None -> ~ In p (map fst N).
Proof.
  induction N as [|[q d] r IH]; cbn; [tauto|]. destruct (N.eqb_spec q p) as [->|]; [discriminate|].
  intros E [->|H]; [congruence|]. apply IH; auto.
Qed.
Lemma assoc_some p N c : NoDup (map fst N) -> In (p, c) N -> assoc p N = Some c.
Proof.
  induction N as [|[q d] r IH]; cbn; [tauto|]. intros Nd [E|H].
  - inversion E; subst. rewrite N.eqb_refl. auto.
  - inversion Nd; subst. destruct (N.eqb_spec q p) as [->|]; auto. exfalso. apply H2. apply in_map_iff. exists (p, c). auto.
Qed.
Lemma loc_some p : forall lv j c, loc lv p = Some (j, c) -> exists N, nth_error lv j = Some N /\ In (p, c) N.
Proof.
  induction lv as [|N r IH]; cbn; intros j c E; [discriminate|]. destruct (assoc p N) as [d|] eqn:A.
  - inversion E; subst. exists N. split; auto. apply assoc_in; auto.
  - destruct (loc r p) as [[j' c']|] eqn:L; [|discriminate]. inversion E; subst. apply IH; auto.
Qed.
Lemma nodup_app {A} (a b : list A) : NoDup (a ++ b) -> NoDup a /\ NoDup b /\ forall x, In x a -> ~ In x b.
Proof.
  induction a as [|x a IH]; cbn; intros H; [repeat split; auto; constructor|].
  inversion H; subst. destruct (IH H3) as (A1 & A2 & A3). split; [|split; auto].
  - constructor; auto. intros Q. apply H2. apply in_app_iff. auto.
  - intros y [->|Hy]; auto. intros Q. apply H2. apply in_app_iff. auto.
Qed.
Lemma nth_pids lv : forall j N p c, nth_error lv j = Some N -> In (p, c) N -> In p (pids lv).
Proof.
  intros j N p c E H. unfold pids. apply in_flat_map. exists N. split; [eapply nth_error_In; eauto|].
  apply in_map_iff. exists (p, c). auto.
Qed.
Lemma loc_in p c : forall lv j N, NoDup (pids lv) -> nth_error lv j = Some N -> In (p, c) N -> loc lv p = Some (j, c).
Proof.
  induction lv as [|N r IH]; intros [|j] N1 Nd E H; cbn in E |- *; try discriminate;
    unfold pids in Nd; cbn in Nd; apply nodup_app in Nd as (A1 & A2 & A3).
  - inversion E; subst. rewrite (assoc_some p N1 c); auto.
  - destruct (assoc p N) as [d|] eqn:A.
    + exfalso. apply assoc_in in A. apply (A3 p); [apply in_map_iff; exists (p, d); auto|].
      apply (nth_pids r j N1 p c); auto.
    + rewrite (IH j N1); auto.
Qed.

Lemma skipn_next {A} (l : list A) : forall n x r, skipn n l = x :: r -> nth_error l n = Some x /\ skipn (S n) l = r.
Proof.
  induction l as [|a l IH]; intros [|n] x r E; cbn [skipn] in E; try discriminate.
  - inversion E; subst. auto.
  - apply IH in E. exact E.
Qed.

Section Start.
Variable g : cfg.
Hypothesis OK : cfg_ok g.
Variables (s : st) (M : smap) (N0 : level) (lv : list level) (flat : list (option key * val)).
Hypothesis UP : up g nopend s false flat (N0 :: lv).
Hypothesis GL : glob s (N0 :: lv).
Hypothesis FM : forall k, ofind k flat = M k.
Hypothesis AD : addr_lt s.

Lemma up_nth : forall lv i flat, up g nopend s i flat lv -> forall j N, nth_error lv j = Some N ->
  N <> [] /\ hlo N None = None /\ linked N None 0%N /\ osorted (lows N) /\
  Forall (node_ok g nopend s (match j with O => i | S _ => true end)) N /\
  (forall j', j = S j' -> exists N', nth_error lv j' = Some N' /\ flat_of true N = lows N') /\
  (S j = length lv -> lows N = [(None, s_root s)]).
Proof.
  clear UP GL FM AD. induction lv0 as [|N1 r IH]; intros i fl H [|j] N E; cbn in E; try discriminate.
  - inversion E; subst. destruct H as (A1 & A2 & A3 & A4 & A5 & A6 & A7). do 5 (split; auto). split; [discriminate|].
    cbn. intros L. destruct r; [|discriminate]. apply A7.
  - destruct H as (A1 & A2 & A3 & A4 & A5 & A6 & A7). destruct (IH _ _ A7 _ _ E) as (B1 & B2 & B3 & B4 & B5 & B6 & B7).
    do 4 (split; auto). split; [destruct j; auto|]. split.
    + intros j' Ej. injection Ej as <-. destruct j as [|j].
      * exists N1. split; auto. destruct r; [discriminate|]. cbn in E. inversion E; subst. apply A7.
      * destruct (B6 j eq_refl) as (N' & C1 & C2). exists N'. auto.
    + intros L. apply B7. cbn in L. lia.
Qed.

Definition LV := N0 :: lv.
Record lev_ok (l : nat) (N : level) : Prop := mk_lev {
  v_lnk : linked N None 0%N;
  v_srt : osorted (lows N);
  v_ok  : forall p c, In (p, c) N -> s_tbl s p = Some c /\ cwf g (inn l) c /\ quiet g c /\
            (inn l = true -> iexact c /\ icells (s_cell s) nopend c);
  v_sub : forall m, l = S m -> exists N', nth_error LV m = Some N' /\ flat_of true N = lows N';
  v_top : l = length lv -> lows N = [(None, s_root s)]
}.
Lemma lev l N : nth_error LV l = Some N -> lev_ok l N.
Proof.
  intros E. destruct (up_nth _ _ _ UP _ _ E) as (B1 & B2 & B3 & B4 & B5 & B6 & B7). constructor; auto.
  - rewrite Forall_forall in B5. intros p c H. apply B5 in H. destruct l; exact H.
  - intros ->. apply B7. reflexivity.
Qed.

Lemma dis N l p q c1 c2 k : lev_ok l N -> In (p, c1) N -> In (q, c2) N ->
  in_rng (c_lo c1) (c_hi c1) k -> in_rng (c_lo c2) (c_hi c2) k -> (p, c1) = (q, c2).
Proof.
  intros V H1 H2 R1 R2.
  assert (X : forall (a : pid) ca b cb n1 n2, in_rng (c_lo ca) (c_hi ca) k -> in_rng (c_lo cb) (c_hi cb) k ->
     N = n1 ++ (a, ca) :: n2 -> In (b, cb) n2 -> False).
  { intros a ca b cb n1 n2 Ra Rb En Hn. pose proof (v_srt _ _ V) as Hs. pose proof (v_lnk _ _ V) as Hl.
    rewrite En in Hs, Hl. destruct (right_ge _ _ _ _ Hs Hl _ _ Hn) as (A & B & _).
    destruct Ra as [_ Ra], Rb as [Rb _]. destruct (c_hi ca) as [h|]; [|congruence]. cbn in *. clear -B Ra Rb. ord. }
  pose proof H1 as I1. apply in_split in I1 as (n1 & n2 & En). pose proof H2 as I2. rewrite En in I2.
  apply in_app_iff in I2 as [I2|[I2|I2]]; auto.
  - exfalso. apply in_split in I2 as (m1 & m2 & E). apply (X q c2 p c1 m1 (m2 ++ (p, c1) :: n2)); auto.
    + rewrite En, E, <- app_assoc. reflexivity.
    + apply in_app_iff. right. left. auto.
  - exfalso. apply (X p c1 q c2 n1 n2); auto.
Qed.

Lemma ent_rng l N p c k : lev_ok (S l) N -> In (p, c) N -> find k (ients c) <> None ->
  in_srng (c_lo c) (c_hi c) k.
Proof. intros V H F. destruct (v_ok _ _ V _ _ H) as (_ & W & _). exact (ients_rng g c k W F). Qed.
Lemma low_rng l N p c k : lev_ok l N -> In (p, c) N -> c_lo c = Some k -> in_rng (c_lo c) (c_hi c) k.
Proof.
  intros V H E. destruct (v_ok _ _ V _ _ H) as (_ & W & _). apply cwf_rg in W. rewrite E in *. split; cbn; [lia|].
  destruct (c_hi c); cbn in *; auto.
Qed.
Lemma srng_rng lo hi k : in_srng lo hi k -> in_rng lo hi k.
Proof. unfold in_srng, in_rng. destruct lo; cbn; intuition lia. Qed.
(** A boundary is either a node's low key or an entry within a node, and only one. *)
Lemma ent_low l N p c q d k : lev_ok (S l) N -> In (p, c) N -> find k (ients c) <> None -> In (q, d) N -> c_lo d = Some k -> False.
Proof.
  intros V H1 F H2 E. pose proof (ent_rng _ _ _ _ _ V H1 F) as R1. pose proof (low_rng _ _ _ _ _ V H2 E) as R2.
  pose proof (dis N _ p q c d k V H1 H2 (srng_rng _ _ _ R1) R2) as X. inversion X; subst.
  destruct R1 as [R1 _]. rewrite E in R1. cbn in R1. lia.
Qed.
Lemma ent_ent l N p c q d k : lev_ok (S l) N -> In (p, c) N -> find k (ients c) <> None -> In (q, d) N ->
  find k (ients d) <> None -> (p, c) = (q, d).
Proof.
  intros V H1 F H2 E. eapply (dis N _ p q c d k V H1 H2); apply srng_rng; eapply ent_rng; eauto.
Qed.
Lemma flat_true l N k : lev_ok (S l) N ->
  ((exists v, In (Some k, v) (flat_of true N)) <-> lowk N k \/ exists p c, In (p, c) N /\ find k (ients c) <> None).
Proof.
  intros V. split.
  - intros (v & H). apply flat_of_in in H as (p & c & H1 & [H2|H2]).
    + left. exists p, c. split; auto. congruence.
    + right. exists p, c. split; auto. apply in_ekey in H2 as (k' & v' & E & H2). inversion E; subst.
      intros X. eapply find_none_in; eauto.
  - intros [(p & c & H1 & H2)|(p & c & H1 & H2)].
    + exists (ilead c). unfold flat_of. apply in_flat_map. exists (p, c). split; auto. left. cbn [snd]. congruence.
    + destruct (find k (ients c)) as [v|] eqn:E; [|congruence]. exists v. unfold flat_of. apply in_flat_map. exists (p, c).
      split; auto. apply cents_in; auto.
Qed.
Lemma lows_low N k : lowk N k <-> exists v, In (Some k, v) (lows N).
Proof.
  split.
  - intros (p & c & H & E). exists p. apply in_lows. exists p, c. rewrite E. auto.
  - intros (v & H). apply in_lows in H as (p & c & E & H). inversion E; subst. exists p, c. auto.
Qed.

Definition tsp (lvs : list level) (k : key) (P : Prop) : Prop :=
  match tokl lvs k with
  | Some (j, p) => P /\ (exists N c, nth_error lvs j = Some N /\ In (p, c) N /\ find k (ients c) <> None) /\
      (forall i N, nth_error lvs i = Some N -> lowk N k <-> (i < j)%nat) /\
      (forall i N q c, nth_error lvs i = Some N -> In (q, c) N -> find k (ients c) <> None -> i = j /\ q = p)
  | None => ~ P /\ forall i N, nth_error lvs i = Some N -> ~ lowk N k /\ forall q c, In (q, c) N -> find k (ients c) = None
  end.

Lemma tok_spec k : forall lvs n low, skipn (S n) LV = lvs -> nth_error LV n = Some low -> tsp lvs k (lowk low k).
Proof.
  induction lvs as [|N r IH]; intros n low E El; unfold tsp; cbn [tokl].
  - split; [|intros [|i]; discriminate]. destruct (lev _ _ El) as [_ _ _ _ Tp]. intros (p & c & H & Ec).
    assert (L : n = length lv).
    { assert (X : length (skipn (S n) LV) = 0%nat) by (rewrite E; auto). rewrite skipn_length in X.
      assert (n < length LV)%nat by (apply nth_error_Some; congruence). cbn in *. lia. }
    specialize (Tp L). assert (X : In (c_lo c, p) (lows low)) by (apply in_lows; eauto). rewrite Tp in X.
    destruct X as [X|[]]. congruence.
  - destruct (skipn_next _ _ _ _ E) as [EN Er].
    pose proof (lev _ _ EN) as V. destruct (v_sub _ _ V n eq_refl) as (N' & E1 & E2). rewrite El in E1. inversion E1; subst N'.
    pose proof (flat_true n N k V) as FT. rewrite E2, <- lows_low in FT.
    specialize (IH (S n) N Er EN). unfold tsp in IH.
    destruct (List.find (hasent k) N) as [[p c]|] eqn:F.
    + apply find_some in F as [F1 F2]. unfold hasent in F2. apply hasb_iff in F2. cbn [snd fst] in *.
      assert (NL : ~ lowk N k). { intros (q & d & Q1 & Q2). eapply (ent_low n N p c q d); eauto. }
      destruct (tokl r k) as [[j q]|]; [tauto|]. destruct IH as [_ IH]. split; [apply FT; eauto|]. split; [exists N, c; auto|]. split.
      * intros [|i] N1 Hi; cbn in Hi. { inversion Hi; subst. split; [tauto|lia]. }
        apply IH in Hi as [Hi _]. split; [tauto|lia].
      * intros [|i] N1 q c1 Hi Hq Hf; cbn in Hi.
        -- inversion Hi; subst. pose proof (ent_ent n N1 p c q c1 k V F1 F2 Hq Hf) as X. inversion X; auto.
        -- apply IH in Hi as [_ Hi]. exfalso. apply Hf. eapply Hi; eauto.
    + assert (NE : forall q c, In (q, c) N -> find k (ients c) = None).
      { intros q c Hq. pose proof (find_none _ _ F _ Hq) as X. unfold hasent in X. cbn in X. destruct (find k (ients c)); [discriminate|auto]. }
      destruct (tokl r k) as [[j q]|].
      * destruct IH as (A1 & (N1 & c1 & A2 & A3 & A4) & A5 & A6). split; [apply FT; auto|]. split; [exists N1, c1; auto|]. split.
        -- intros [|i] N2 Hi; cbn in Hi. { inversion Hi; subst. split; [lia|tauto]. } rewrite (A5 _ _ Hi). lia.
        -- intros [|i] N2 q2 c2 Hi Hq Hf; cbn in Hi. { inversion Hi; subst. exfalso. apply Hf; eauto. }
           destruct (A6 _ _ _ _ Hi Hq Hf). split; auto.
      * destruct IH as [A1 A2]. split.
        -- intros X. apply FT in X as [X|(q & c & Q1 & Q2)]; auto. apply Q2; eauto.
        -- intros [|i] N2 Hi; cbn in Hi; [inversion Hi; subst; split; auto|eauto].
Qed.

(** ** The ghost state *)
Definition gnd (p : pid) : option (nat * option key) :=
  match loc LV p with Some (l, c) => Some (l, c_lo c) | None => None end.
Definition gtok (k : key) : tok_t := match tokl lv k with Some (_, p) => TkIn p | None => TkNone end.
Definition ghist (p : pid) (a : addr) : option chain :=
  match loc LV p with Some (_, c) => if N.eqb a (h_addr c) then Some c else None | None => None end.
Definition sgh : ghost :=
  mk_gh gnd (fun _ => LLive) (fun _ => 0%nat) ghist (fun _ => 0%nat) (fun _ => None) gtok M (fun _ => SIdle).
Let x0 : world := mk_w s sgh.

Lemma gnd_some p l lo : gnd p = Some (l, lo) -> exists N c, nth_error LV l = Some N /\ In (p, c) N /\ c_lo c = lo /\
  s_tbl s p = Some c /\ lev_ok l N.
Proof.
  unfold gnd. destruct (loc LV p) as [[j c]|] eqn:E; [|discriminate]. intros X; inversion X; subst.
  destruct (loc_some _ _ _ _ E) as (N & E1 & E2). exists N, c. pose proof (lev _ _ E1) as V. do 3 (split; auto).
  split; auto. apply (v_ok _ _ V _ _ E2).
Qed.
Lemma gnd_in l N p c : nth_error LV l = Some N -> In (p, c) N -> gnd p = Some (l, c_lo c).
Proof. intros E H. unfold gnd. rewrite (loc_in p c LV l N); auto. apply GL. Qed.
Lemma gtok_lev k m : tlev gnd (gtok k) = Some m <-> exists j p, tokl lv k = Some (j, p) /\ m = j.
Proof.
  pose proof (tok_spec k lv 0%nat N0 eq_refl eq_refl) as T. unfold tsp in T. unfold gtok.
  destruct (tokl lv k) as [[j p]|].
  - destruct T as (_ & (N & c & E1 & E2 & _) & _). cbn [tlev].
    rewrite (gnd_in (S j) N p c) by auto. split; [intros X; inversion X; eauto|]. intros (j' & p' & X & ->). inversion X; auto.
  - cbn. split; [discriminate|]. intros (j & p & X & _). discriminate.
Qed.
(** A boundary exists on the levels below its entry. *)
Lemma gtok_low k l N : nth_error LV l = Some N ->
  lowk N k <-> exists m, tlev gnd (gtok k) = Some m /\ (l <= m)%nat.
Proof.
  intros E. pose proof (tok_spec k lv 0%nat N0 eq_refl eq_refl) as T. unfold tsp in T.
  setoid_rewrite gtok_lev. destruct (tokl lv k) as [[j p]|].
  - destruct T as (T1 & _ & T3 & _). destruct l as [|l]; cbn in E.
    + inversion E; subst. split; auto. intros _. exists j. split; [eauto|lia].
    + rewrite (T3 _ _ E). split.
      * intros L. exists j. split; [eauto|lia].
      * intros (m & (j' & p' & X & ->) & L). inversion X; subst. lia.
  - destruct T as (T1 & T2). split.
    + destruct l as [|l]; cbn in E; [inversion E; subst; tauto|]. apply T2 in E as [E _]. tauto.
    + intros (m & (j' & p' & X & ->) & L). discriminate.
Qed.

Lemma kids_ok m N p c : nth_error LV (S m) = Some N -> In (p, c) N -> ikids x0 m c.
Proof.
  intros E H. pose proof (lev _ _ E) as V. destruct (v_sub _ _ V m eq_refl) as (N' & E1 & E2).
  apply Forall_forall. intros [k v] Hk. cbn [fst snd].
  assert (X : In (k, v) (lows N')).
  { rewrite <- E2. unfold flat_of. apply in_flat_map. exists (p, c). auto. }
  apply in_lows in X as (q & d & X1 & X2). inversion X1; subst. apply (gnd_in m N' q d); auto.
Qed.

Lemma kido_ok m N p c e : nth_error LV (S m) = Some N -> In (p, c) N -> lo_ok (c_lo c) e ->
  kido x0 m c e (route e (ilead c) (ients c)).
Proof.
  intros E H Lo. pose proof (lev _ _ E) as V. destruct (v_ok _ _ V _ _ H) as (_ & W & _). cbn in W.
  destruct (at_route e (c_lo c) (ilead c) (ients c)) as (lo & A); [apply (iwf_sorted _ _ W)|auto|].
  pose proof (at_in _ _ _ A) as I. destruct A as (f1 & f2 & _ & A & _). exists lo.
  pose proof (kids_ok m N p c E H) as K. unfold ikids in K. rewrite Forall_forall in K.
  split; [apply (K (lo, route e (ilead c) (ients c))); exact I|]. split; auto.
  apply (cents_rng g true c W (lo, route e (ilead c) (ients c))). exact I.
Qed.

Lemma rok_ok m N p c : nth_error LV (S m) = Some N -> In (p, c) N -> rok (s_naddr s) x0 m c.
Proof.
  intros E H k closed smo Lo Hs. pose proof (lev _ _ E) as V. destruct (v_ok _ _ V _ _ H) as (_ & W & _ & X).
  destruct (X eq_refl) as [X1 X2]. cbn in W.
  pose proof (kido_ok m N p c _ E H Lo) as K.
  pose proof (dc_search_child_spec g (s_cell s) nopend c k closed W X1 X2 smo Hs) as R.
  destruct smo; inversion R as [v R1 R2 R3|a R1 R2 R3|n R1 R2 R4 R3|h R1 R2 R3].
  all: try (subst; exact K).
  all: try (destruct R2 as (Q1 & (k0 & Q & _) & Q3 & _); eexists; split; [exact (node_search_child_spec n k closed _ _ _ Q Q3)|];
    rewrite <- R4; exact K).
  all: try (destruct R2 as [(? & [] & _)|[R2 R4]]; exists (eff k closed); split; [lia|]; left;
    split; [destruct (N.lt_ge_cases a (s_naddr s)) as [|Y]; auto; exfalso; apply R4; apply GL; auto|];
    split; [exact R4|]; destruct K as (lo & K1 & _ & K3); exists lo; split; auto; cbn; rewrite R2; exact K1).
  - exfalso. specialize (Hs eq_refl). rewrite R1 in Hs. cbn in Hs. lia.
  - split; auto. split; auto. eauto.
Qed.

Lemma start_inv : inv g (s_naddr s) (s_root s) (length lv) x0.
Proof.
  pose proof (nullsz_bound g OK) as NB. pose proof (maxrec_excess g) as ME. pose proof (ok_thr g OK) as TH.
  destruct GL as (G1 & G2 & G3 & G4 & G5).
  assert (TOP : exists N c, nth_error LV (length lv) = Some N /\ In (s_root s, c) N /\ c_lo c = None).
  { destruct (nth_error LV (length lv)) as [N|] eqn:E.
    - pose proof (v_top _ _ (lev _ _ E) eq_refl) as T. assert (X : In (None, s_root s) (lows N)) by (rewrite T; left; auto).
      apply in_lows in X as (p & c & X1 & X2). inversion X1. exists N, c. rewrite H1. auto.
    - apply nth_error_None in E. cbn in E. lia. }
  constructor; cbn [x0 w_s w_g nd lim tok sgh cont].
  - intros p [l lo] E. apply gnd_some in E as (N & c & E1 & E2 & _). apply G3. eapply nth_pids; eauto.
  - congruence.
  - discriminate.
  - intros p l lo E _. apply gnd_some in E as (N & c & E1 & E2 & E3 & E4 & V).
    exists c. split; [exact E4|]. destruct (v_ok _ _ V _ _ E2) as (_ & W & [Q1 Q2] & _). constructor.
    + constructor; auto; [lia|]. intros B. unfold need_consolidation in Q1. rewrite B in Q1. cbn in Q1.
      apply orb_false_iff in Q1 as [Q1 _]. lia.
    + auto.
    + intros h Hh. split; [|discriminate]. pose proof (v_lnk _ _ V) as Hl. pose proof E2 as I2. apply in_split in I2 as (n1 & n2 & En).
      rewrite En in Hl. apply linked_app in Hl as [_ Hl]. cbn [linked] in Hl. destruct Hl as (L1 & L2 & _).
      destruct n2 as [|[q d] n2]; cbn [hlo hpid] in L1, L2; [congruence|]. rewrite L2.
      change (gnd q = Some (l, Some h)). rewrite <- Hh, L1. apply (gnd_in l N); auto. rewrite En. apply in_app_iff. right. right. left. auto.
    + intros m ->. split; [eapply kids_ok; eauto|eapply rok_ok; eauto].
    + intros L k F. destruct l as [|l]; [congruence|]. cbn [x0 w_g tok sgh]. unfold gtok.
      pose proof (tok_spec k lv 0%nat N0 eq_refl eq_refl) as T. unfold tsp in T. destruct (tokl lv k) as [[j q]|].
      * destruct T as (_ & _ & _ & T). destruct (T l N p c) as [_ ->]; auto.
      * destruct T as [_ T]. exfalso. apply F. apply (T l N) with (q := p); auto.
  - intros p l lo E. pose proof E as E0. apply gnd_some in E as (N & c & E1 & E2 & E3 & E4 & V). exists c. split; auto. split; [|congruence].
    cbn. unfold ghist. rewrite (loc_in p c LV l N); auto. rewrite N.eqb_refl. auto.
  - intros p q l l1 l2 c1 c2 k E1 E2 T1 T2 R1 R2. apply gnd_some in E1 as (N & d1 & A1 & A2 & A3 & A4 & V).
    apply gnd_some in E2 as (N' & d2 & B1 & B2 & B3 & B4 & _). rewrite A1 in B1. inversion B1; subst N'.
    unfold cur in T1, T2. cbn in T1, T2. rewrite A4 in T1. rewrite B4 in T2. inversion T1; subst. inversion T2; subst.
    pose proof (dis N l p q c1 c2 k V A2 B2 R1 R2) as X. inversion X; auto.
  - intros p lo c k E T R. apply gnd_some in E as (N & d & A1 & A2 & A3 & A4 & V). cbn in A1. inversion A1; subst N.
    unfold cur in T. cbn in T. rewrite A4 in T. inversion T; subst. rewrite <- FM.
    destruct UP as (_ & _ & Hl & Hs & Hn & Hf & _). rewrite <- Hf. apply in_split in A2 as (n1 & n2 & En).
    rewrite En in *. apply Forall_app in Hn as [Hn1 Hn2]. inversion Hn2; subst. apply node_ok_cwf in Hn1. apply node_ok_cwf in H2.
    rewrite flat_of_app, flat_of_cons, !ofind_app. cbn [cents]. rewrite ofind_ekey. fold (lget c k). destruct R as [R1 R2].
    rewrite (ofind_none k (flat_of false n1)).
    + rewrite (ofind_none k (flat_of false n2)); [destruct (lget c k); auto|].
      eapply Forall_impl; [|eapply (flat_right g false n1 p c n2 k); eauto].
      intros y Hy E. apply Hy. rewrite E. cbn. lia.
    + eapply Forall_impl; [|eapply (flat_left g false n1 p c n2 None 0%N k); eauto].
      intros y Hy E. cbn beta in Hy. rewrite E in Hy. cbn in Hy. lia.
  - intros k H E. apply H. unfold gtok in *. pose proof (tok_spec k lv 0%nat N0 eq_refl eq_refl) as T. unfold tsp in T.
    destruct (tokl lv k) as [[j q]|]; auto. destruct T as (_ & (N & c & E1 & E2 & _) & _). cbn [tlev] in E.
    rewrite (gnd_in (S j) N q c) in E by auto. discriminate.
  - intros q l k E _. apply gnd_some in E as (N & c & E1 & E2 & E3 & _). apply (gtok_low k l N E1). exists q, c. auto.
  - intros k m j E L. assert (J : exists N, nth_error LV j = Some N).
    { apply gtok_lev in E as (j' & p & E & ->). pose proof (tok_spec k lv 0%nat N0 eq_refl eq_refl) as T. unfold tsp in T.
      rewrite E in T. destruct T as (_ & (N & c & E1 & _) & _).
      destruct (nth_error LV j) eqn:Q; eauto. apply nth_error_None in Q.
      assert (j' < length lv)%nat by (apply nth_error_Some; congruence). cbn in Q. lia. }
    destruct J as [N J]. destruct (proj2 (gtok_low k j N J)) as (q & c & Q1 & Q2); [eauto|].
    exists q. split; [|discriminate]. rewrite <- Q2. apply (gnd_in j N); auto.
  - destruct TOP as (N & c & T1 & T2 & T3). rewrite <- T3. apply (gnd_in _ N); auto.
  - intros p l lo E. apply gnd_some in E as (N & c & E1 & E2 & E3 & _ & V).
    assert (l < length LV)%nat by (apply nth_error_Some; congruence). cbn in H. split; [lia|].
    intros ->. pose proof (v_top _ _ V eq_refl) as T. assert (X : In (c_lo c, p) (lows N)) by (apply in_lows; eauto).
    rewrite T in X. destruct X as [X|[]]. congruence.
  - intros p a. cbn. unfold ghist. destruct (loc LV p) as [[j c]|] eqn:E; [|congruence].
    destruct (N.eqb_spec a (h_addr c)) as [->|]; [|congruence]. intros _. destruct (loc_some _ _ _ _ E) as (N & E1 & E2).
    apply (AD p). apply (v_ok _ _ (lev _ _ E1) _ _ E2).
  - discriminate.
  - discriminate.
  - cbn. lia.
  - exact G2.
Qed.
End Start.
