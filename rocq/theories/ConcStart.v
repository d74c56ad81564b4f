(** The invariant of [ConcInv] holds in a tree whose pages are all base nodes, such as
    the one Bulkload leaves. *)
From Coq Require Import ZArith NArith List Bool Lia.
From Coq Require Import ZifyBool ZifyNat ZifyN.
From Verif Require Import Config Api Page Machine Tree Spec Conc ListFacts SearchFacts ChainSpec ChainFacts
  ConsFacts Valid ConsolidateFacts SeqSpec LevelFacts SeqSearch SeqSmo SeqAux SeqOps ConcChain ConcInv.
From Verif Require MrgStart.
Import ListNotations.
Open Scope Z_scope.

(** Every page is a base node with an address of its own, and what has been retired is
    in no page. *)
Record plain (g : cfg) (s : st) : Prop := mk_plain {
  a_base : forall p c, s_tbl s p = Some c -> (is_base c = true /\ h_size c <= c_page g /\ (forall n, c = CBase n -> n_inner n = true -> n_recs n <> [])) /\ (h_addr c < s_naddr s)%N;
  a_inj : forall p q c d, s_tbl s p = Some c -> s_tbl s q = Some d -> h_addr c = h_addr d -> p = q;
  a_npid : forall p c, s_tbl s p = Some c -> (p < s_npid s)%N;
  a_gcd : NoDup (s_gc s);
  a_gc : forall a, In a (s_gc s) -> (a < s_naddr s)%N /\ forall p c, s_tbl s p = Some c -> h_addr c <> a
}.

Section Start.
Variable g : cfg.
Hypothesis OK : cfg_ok g.
Variables (s : st) (M : smap) (N0 : level) (lv : list level) (flat : list (option key * val)).
Hypothesis UP : up g nopend s false flat (N0 :: lv).
Hypothesis GL : glob s (N0 :: lv).
Hypothesis FM : forall k, ofind k flat = M k.
Hypothesis PL : plain g s.

Let LV := N0 :: lv.
Let lev := MrgStart.lev g s N0 lv flat UP.

(** ** The ghost state *)
Definition gnd (p : pid) : option (bool * option key) :=
  match MrgStart.loc LV p with Some (l, c) => Some (Nat.eqb l 0, c_lo c) | None => None end.
Definition gtok (k : key) : tok_t := match MrgStart.tokl lv k with Some (_, p) => TkIn p | None => TkNone end.
Definition at_addr (a : addr) (p : pid) : bool :=
  match s_tbl s p with Some c => N.eqb (h_addr c) a | None => false end.
Definition page_at (a : addr) : option pid := List.find (at_addr a) (map N.of_nat (seq 0 (N.to_nat (s_npid s)))).
Definition retired (a : addr) : bool := existsb (N.eqb a) (s_gc s).
Definition ghist (a : addr) : option (pid * chain) :=
  if retired a then Some (0%N, CRemove a true)
  else match page_at a with
       | Some p => match s_tbl s p with Some c => Some (p, c) | None => None end
       | None => None
       end.
Definition gast (a : addr) : ast_t :=
  if retired a then AGone else match page_at a with Some p => ALive p | None => AFree end.
Definition bgh : ghost :=
  mk_gh gnd (fun _ => 0%nat) ghist (fun _ => 0%nat) gast gtok M (fun _ => SIdle).
Let x0 : world := mk_w s bgh.

Lemma retired_in a : retired a = true <-> In a (s_gc s).
Proof.
  unfold retired. rewrite existsb_exists. split.
  - intros (y & H & E). apply N.eqb_eq in E. subst. auto.
  - intros H. exists a. split; auto. apply N.eqb_refl.
Qed.
Lemma page_at_some p c : s_tbl s p = Some c -> page_at (h_addr c) = Some p.
Proof.
  intros T. unfold page_at. destruct (List.find _ _) as [q|] eqn:E.
  - apply find_some in E as [_ E]. unfold at_addr in E. destruct (s_tbl s q) as [d|] eqn:D; [|discriminate].
    apply N.eqb_eq in E. f_equal. eapply (a_inj g s PL); eauto.
  - exfalso. assert (Hi : In p (map N.of_nat (seq 0 (N.to_nat (s_npid s))))).
    { apply in_map_iff. exists (N.to_nat p). split; [lia|]. apply in_seq. pose proof (a_npid g s PL _ _ T). lia. }
    pose proof (find_none _ _ E _ Hi) as X. unfold at_addr in X. rewrite T, N.eqb_refl in X. discriminate.
Qed.
Lemma live_not_retired p c : s_tbl s p = Some c -> retired (h_addr c) = false.
Proof.
  intros T. destruct (retired (h_addr c)) eqn:E; auto. apply retired_in in E. apply (a_gc g s PL) in E as [_ E].
  exfalso. eapply E; eauto.
Qed.
Lemma ghist_live p c : s_tbl s p = Some c -> ghist (h_addr c) = Some (p, c) /\ gast (h_addr c) = ALive p.
Proof.
  intros T. unfold ghist, gast. rewrite (live_not_retired _ _ T), (page_at_some _ _ T), T. auto.
Qed.

Lemma gnd_some p lf lo : gnd p = Some (lf, lo) -> exists l N c, lf = Nat.eqb l 0 /\ nth_error LV l = Some N /\ In (p, c) N /\
  c_lo c = lo /\ s_tbl s p = Some c /\ MrgStart.lev_ok g s N0 lv l N.
Proof.
  unfold gnd. destruct (MrgStart.loc LV p) as [[j c]|] eqn:E; [|discriminate]. intros X; inversion X; subst.
  destruct (MrgStart.loc_some _ _ _ _ E) as (N & E1 & E2). exists j, N, c. pose proof (lev _ _ E1) as V. do 4 (split; auto).
  split; auto. apply (MrgStart.v_ok _ _ _ _ _ _ V _ _ E2).
Qed.
Lemma gnd_in l N p c : nth_error LV l = Some N -> In (p, c) N -> gnd p = Some (Nat.eqb l 0, c_lo c).
Proof. intros E H. unfold gnd. rewrite (MrgStart.loc_in p c LV l N); auto. apply GL. Qed.

Lemma inode_jnode n : inode g n -> jnode g n.
Proof.
  intros (H1 & H2 & H3 & H4 & H5 & H6). split; auto. split; auto. split; auto. split; [|split; auto].
  - eapply Forall_impl; [|exact H4]. cbn beta. intros [k v] [A B]. split; auto. cbn in *. destruct (n_high n); cbn in *; auto; lia.
  - unfold rng_ne, rng_le in *. destruct (n_high n); auto. destruct (n_low n); cbn in *; auto; lia.
Qed.

Lemma kids_ok m N p c : nth_error LV (S m) = Some N -> In (p, c) N -> is_base c = true -> jkids (kid x0) c.
Proof.
  intros E H B. pose proof (lev _ _ E) as V. destruct (MrgStart.v_sub _ _ _ _ _ _ V m eq_refl) as (N' & E1 & E2).
  assert (K : forall k v, In (k, v) (cents true c) -> kid x0 k v).
  { intros k v Hk. assert (X : In (k, v) (lows N')).
    { rewrite <- E2. unfold flat_of. apply in_flat_map. exists (p, c). auto. }
    apply in_lows in X as (q & d & X1 & X2). inversion X1; subst. exists (Nat.eqb m 0). apply (gnd_in m N' q d); auto. }
  destruct c as [n| | |]; try discriminate. cbn [jkids]. split.
  - apply K. left. reflexivity.
  - apply Forall_forall. intros [k v] Hi. apply K. right. cbn. apply in_map_iff. exists (k, v). auto.
Qed.

Lemma base_inv : inv g x0.
Proof.
  pose proof (nullsz_bound g OK) as NB. pose proof (maxrec_excess g) as ME. pose proof (kovh_nn g OK). pose proof (page_pos g OK).
  destruct GL as (G1 & G2 & G3 & G4 & G5). destruct PL as [P1 P2 P3 P4 P5].
  constructor; cbn [x0 w_s w_g nd tok bgh cont hist ast].
  - intros p [lf lo] E. apply gnd_some in E as (l & N & c & _ & E1 & E2 & _). apply G3. eapply MrgStart.nth_pids; eauto.
  - intros p lf lo E. apply gnd_some in E as (l & N & c & -> & E1 & E2 & E3 & E4 & V).
    destruct (P1 _ _ E4) as [[B1 B2] B3].
    exists c. destruct (MrgStart.v_ok _ _ _ _ _ _ V _ _ E2) as (_ & W & [Q1 Q2] & _). destruct c as [n| | |]; try discriminate.
    constructor; cbn [x0 w_s w_g nd tok bgh cont hist ast]; auto.
    + destruct l as [|l]; cbn [Nat.eqb]; cbn in W; [exact W|]. apply inode_jnode. exact W.
    + apply (ghist_live p (CBase n) E4).
    + cbn in *. lia.
    + discriminate.
    + intros h Hh. pose proof (MrgStart.v_lnk _ _ _ _ _ _ V) as Hl. pose proof E2 as I2. apply in_split in I2 as (n1 & n2 & En).
      rewrite En in Hl. apply linked_app in Hl as [_ Hl]. cbn [linked] in Hl. destruct Hl as (L1 & L2 & _).
      destruct n2 as [|[q d] n2]; cbn [hlo hpid] in L1, L2; [congruence|]. rewrite L2.
      rewrite <- Hh, L1. apply (gnd_in l N); auto. rewrite En. apply in_app_iff. right. right. left. auto.
    + destruct l as [|l]; [discriminate|]. intros _. eapply kids_ok; eauto.
    + destruct l as [|l]; [discriminate|]. intros _ k F. unfold gtok.
      pose proof (MrgStart.tok_spec g s M N0 lv flat UP FM k lv 0%nat N0 eq_refl eq_refl) as T. unfold MrgStart.tsp in T.
      destruct (MrgStart.tokl lv k) as [[j q]|].
      * destruct T as (_ & _ & _ & T). destruct (T l N p (CBase n)) as [_ ->]; auto.
      * destruct T as [_ T]. exfalso. apply F. apply (T l N) with (q := p); auto.
    + cbn. constructor; [easy|constructor].
    + cbn. intros a [<-|[]]. apply (ghist_live p (CBase n) E4).
  - intros p c _ T. destruct (P1 _ _ T) as [B _]. split; auto. apply (ghist_live p c T).
  - intros p q l1 l2 c1 c2 k E1 E2 T1 T2 R1 R2. apply gnd_some in E1 as (l & N & d1 & Z1 & A1 & A2 & A3 & A4 & V).
    apply gnd_some in E2 as (l' & N' & d2 & Z2 & B1 & B2 & B3 & B4 & _).
    destruct l; [|discriminate]. destruct l'; [|discriminate]. rewrite A1 in B1. inversion B1; subst N'.
    rewrite A4 in T1. rewrite B4 in T2. inversion T1; subst. inversion T2; subst.
    pose proof (MrgStart.dis g s N0 lv N 0 p q c1 c2 k V A2 B2 R1 R2) as X. inversion X; auto.
  - intros p lo c k E T R. apply gnd_some in E as (l & N & d & Z1 & A1 & A2 & A3 & A4 & V). destruct l; [|discriminate].
    cbn in A1. assert (N = N0) by congruence; subst N.
    rewrite A4 in T. inversion T; subst. rewrite <- FM.
    pose proof UP as (_ & _ & Hl & Hs & Hn & Hf & _). rewrite <- Hf. apply in_split in A2 as (n1 & n2 & En).
    rewrite En in Hl, Hs, Hn |- *. apply Forall_app in Hn as [Hn1 Hn2]. inversion Hn2 as [|? ? Hc2 Hn3]. subst x l. apply node_ok_cwf in Hn1. apply node_ok_cwf in Hn3.
    rewrite flat_of_app, flat_of_cons, !ofind_app. cbn [cents]. rewrite ofind_ekey. fold (lget c k). destruct R as [R1 R2].
    rewrite (ofind_none k (flat_of false n1)).
    + rewrite (ofind_none k (flat_of false n2)); [destruct (lget c k); auto|].
      eapply Forall_impl; [|eapply (flat_right g false n1 p c n2 k); eauto].
      intros y Hy E. apply Hy. rewrite E. cbn. lia.
    + eapply Forall_impl; [|eapply (flat_left g false n1 p c n2 None 0%N k); eauto].
      intros y Hy E. cbn beta in Hy. rewrite E in Hy. cbn in Hy. lia.
  - intros k Hk. unfold gtok in Hk. pose proof (MrgStart.tok_spec g s M N0 lv flat UP FM k lv 0%nat N0 eq_refl eq_refl) as T.
    unfold MrgStart.tsp in T. destruct (MrgStart.tokl lv k) as [[j q]|]; [|congruence].
    destruct T as ((p & c & T1 & T2) & _). exists p. rewrite <- T2. apply (gnd_in 0 N0); auto.
  - destruct (nth_error LV (length lv)) as [N|] eqn:E.
    + pose proof (MrgStart.v_top _ _ _ _ _ _ (lev _ _ E) eq_refl) as T.
      assert (X : In (None, s_root s) (lows N)) by (rewrite T; left; auto).
      apply in_lows in X as (p & c & X1 & X2). injection X1 as X3 X4. exists (Nat.eqb (length lv) 0). rewrite X4, X3. apply (gnd_in _ N); auto.
    + apply nth_error_None in E. cbn in E. lia.
  - intros a. unfold ghist. destruct (retired a) eqn:Er; [intros _; apply P5; apply retired_in; auto|].
    destruct (page_at a) as [p|] eqn:Ep; [|congruence]. apply find_some in Ep as [_ Ep]. unfold at_addr in Ep.
    destruct (s_tbl s p) as [c|] eqn:T; [|congruence]. apply N.eqb_eq in Ep. intros _. rewrite <- Ep. apply (P1 p c T).
  - intros a. unfold ghist, gast. destruct (retired a) eqn:Er; [discriminate|].
    destruct (page_at a) as [p|] eqn:Ep; auto. apply find_some in Ep as [_ Ep]. unfold at_addr in Ep.
    destruct (s_tbl s p) as [c|] eqn:T; [|discriminate]. discriminate.
  - exact P4.
  - intros a Ha. unfold gast. apply retired_in in Ha. rewrite Ha. auto.
  - exact G2.
Qed.
End Start.
