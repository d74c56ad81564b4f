(** Bulkload on bytes follows Bulkload of Bulk.v. *)
From Coq Require Import ZArith NArith List Bool Lia.
From Coq Require Import ZifyBool ZifyNat ZifyN.
From Verif Require Import Config Api Spec Page Machine Tree Bulk Valid ChainSpec Bytes FixLayout DeltaBytes LayoutFacts ByteCons ByteConsSpec ByteFind
  ByteTree ByteTreeSpec ByteTreeRel ByteTreeInst ByteTreeMain ByteBulk.
From Verif Require BulkFacts.
Import ListNotations.
Open Scope Z_scope.

Section Sim.
Variables (g : cfg) (K : Z -> Prop) (lt : list N -> list N -> bool) (ek : Z -> list N) (evl : N -> list N) (L : flay) (e : N).
Hypothesis OK : cfg_ok g.
Hypothesis HV : c_varlen g = false.
Hypothesis HL : flay_ok g L e.
Hypothesis HC : coding g false K lt ek evl.
Hypothesis BC : bulk_ok g.
Variable junk : addr -> mem.
Notation lps := (Z.to_N (c_paylen g)).
Notation C := (fix_klass L lps lt).
Notation ch := (tchain fnode fdelta).

(** The size of a page covers its records, so that payloads lie behind the header. *)
Definition room (n : node) : Prop :=
  c_hdr g + (c_ksize g + paysz g (n_inner n)) * Z.of_nat (length (n_recs n)) <= n_size n.
Definition NP (n : node) (p : fnode) : Prop := fNP g ek evl L n p /\ room n.
Notation DP := (fDP g ek evl L).
Notation prl := (prl K NP).
Notation crl := (crl C K ek NP DP).
Notation srl := (srl C K ek NP DP).

Lemma EK k : blen (ek k) = fl_ks L.
Proof. destruct HC as (_ & C2 & _). destruct HL as (_ & _ & L3 & _). specialize (C2 k). unfold klen in C2. rewrite HV in C2. lia. Qed.
Lemma EV i v : blen (evi evl i v) = Z.to_N (paysz g i).
Proof. destruct (coding_lvl g K lt ek evl HC i) as (_ & _ & H). specialize (H v). lia. Qed.
Lemma PS i : Z.of_N (Z.to_N (paysz g i)) = paysz g i.
Proof. destruct (coding_lvl g K lt ek evl HC i) as (_ & _ & H). specialize (H 0%N). lia. Qed.

Lemma align_ge x n : (x <= align_up x (2 ^ n))%N.
Proof.
  rewrite align_up_pow. pose proof (N.pow_nonzero 2 n ltac:(lia)) as H.
  pose proof (N.div_mod' (x + (2 ^ n - 1)) (2 ^ n)) as D. pose proof (N.mod_lt (x + (2 ^ n - 1)) (2 ^ n) H). lia.
Qed.

(** ** Pages *)
Definition enc (inner : bool) (x : key * val) : list N * list N := (ek (fst x), evi evl inner (snd x)).
Definition egood (inner : bool) (x : key * val) : Prop := K (fst x) /\ (inner = true -> (snd x < max64)%N).

Lemma x_fill_ok inner : forall es est sz a b z, bulk_fill g (paysz g inner) est sz es = (a, b, z) ->
  x_fill g (paysz g inner) est (map (enc inner) es) = (map (enc inner) a, map (enc inner) b).
Proof.
  induction es as [|[k v] t IH]; intros est sz a b z; cbn [bulk_fill map x_fill enc fst snd].
  - intros E. injection E as <- <- <-. reflexivity.
  - rewrite (x_recsz_ok _ _ _ _ _ _ _ _ (fix_ok g K lt ek evl L e OK HV HL HC)).
    destruct (c_bulkcap g <? est + recsz g (paysz g inner) k); [intros E; injection E as <- <- <-; reflexivity|].
    destruct (bulk_fill g _ _ _ t) as [[a1 b1] z1] eqn:E1. intros E. injection E as <- <- <-.
    rewrite (IH _ _ _ _ _ E1). reflexivity.
Qed.
Lemma csum_len ps : forall l : list (key * val), csum g ps l = (c_ksize g + ps) * Z.of_nat (length l).
Proof.
  induction l as [|[k v] l IH]; cbn [csum fold_right length]; [lia|]. fold (csum g ps l). rewrite IH, (BulkFacts.rsz g HV). lia.
Qed.

Lemma page_sim m a inner es n rest : es <> [] -> Forall (egood inner) es -> bulk_node g a inner es = (n, rest) ->
  exists p k0, xbulk_node L g m a inner (map (enc inner) es) = (p, map (enc inner) rest) /\ prl n p /\
    n_low n = Some k0 /\ K k0 /\ fixn_low L (tp_body p) = ek k0 /\ Forall (egood inner) rest.
Proof.
  intros Hn Hg E. unfold bulk_node in E. unfold xbulk_node.
  destruct (bulk_fill g (paysz g inner) (bulk_est g inner) (c_hdr g) es) as [[rs r] z] eqn:F.
  assert (Eb : bulk_est g inner = c_hdr g) by (unfold bulk_est; rewrite HV; reflexivity). rewrite Eb in F.
  rewrite (x_fill_ok inner _ _ _ _ _ _ F).
  apply (BulkFacts.fill_ok g HV) in F as (-> & -> & H1 & H2 & _). injection E as <- <-.
  destruct BC as (B1 & B2 & B3). pose proof (BulkFacts.ksz g OK HV) as Hks. pose proof (ok_pay g OK) as Hpay.
  assert (Hrs : rs <> []).
  { apply H2; auto. destruct inner; cbn [paysz]; unfold ptrlen in *; lia. }
  destruct rs as [|[k0 v0] t]; [easy|]. set (rs := (k0, v0) :: t) in *.
  rewrite (BulkFacts.okl0 g HV). apply Forall_app in Hg as [Hg Hg'].
  assert (Hfit : c_hdr g + (c_ksize g + paysz g inner) * Z.of_nat (length rs) <= c_page g).
  { rewrite <- csum_len. assert (c_hdr g <= c_bulkcap g) by (unfold ptrlen in *; lia). lia. }
  destruct HL as (L1 & L2 & L3 & L4 & L5 & L6). pose proof (ok_hdr g OK) as Hh0.
  assert (FO : Forall (fun r : list N * list N => blen (fst r) = fl_ks L /\ blen (snd r) = Z.to_N (paysz g inner)) (map (enc inner) rs)).
  { apply Forall_forall. intros x Hx. apply in_map_iff in Hx as (y & <- & _). split; [apply EK|apply EV]. }
  pose proof (PS inner) as HPS.
  pose proof (fix_fill_ok L _ m (fl_page L) _ FO) as FF. rewrite map_length in FF.
  unfold fixn_bulk. destruct (fix_fill L (fix_new L m) (fl_page L) (map (enc inner) rs)) as [p o] eqn:EF.
  destruct FF as (A & B & _ & R & _); [nia|]. cbn [fst].
  assert (AL : align_up (fp_size p) (fl_page L) = fl_page L).
  { rewrite L6. apply align_up_page. rewrite <- L6. assert (1 <= length rs)%nat by (cbn; lia). nia. }
  assert (K0 : fix_key L p 0 = ek k0).
  { destruct (R 0%nat (ek k0) (evi evl inner v0) eq_refl) as [R1 _]. exact R1. }
  eexists _, k0. split; [reflexivity|]. rewrite K0.
  set (q := fixn_setmem (mk_fnode p false false) (fl_low L) (ek k0) true false).
  assert (LOW : fixn_low L q = ek k0).
  { unfold fixn_low, q, fixn_setmem, fl_low. cbn [fn_page fp_mem]. apply rd_wr_eq. apply EK. }
  split; [|split; [reflexivity|split; [exact (proj1 (Forall_inv Hg))|split; [exact LOW|exact Hg']]]].
  unfold ByteTreeRel.prl. cbn [tp_addr tp_inner tp_next tp_body n_addr n_inner n_next].
  split; [reflexivity|]. split; [reflexivity|]. split; [reflexivity|]. split; [split|].
  - unfold fNP, fnode_rep. cbn [n_inner n_recs n_size n_low n_high]. fold rs.
    unfold q, fixn_setmem at 1 2 3 4. cbn [fn_page fn_haslow fn_hashigh fp_cnt fp_size].
    split; [exact A|]. split; [rewrite csum_len; destruct inner; lia|]. split.
    { intros i k v Hi. assert (Hn' : nth_error (map (enc inner) rs) i = Some (ek k, evi evl inner v)) by (rewrite nth_error_map, Hi; reflexivity).
      destruct (R i _ _ Hn') as [R1 R2]. assert (Hlen : (i < length rs)%nat) by (apply nth_error_Some; congruence).
      split.
      - intros _. unfold fix_key. cbn [fp_mem]. rewrite rd_wr_other; [exact R1|]. right. rewrite EK. unfold fl_low. nia.
      - unfold fix_pay, fix_pay_addr. cbn [fp_mem fp_size]. rewrite AL. rewrite rd_wr_other; [exact R2|]. right. rewrite EK. unfold fl_low. nia. }
    split; [reflexivity|]. split; [intros k Hk; injection Hk as <-; exact LOW|]. split; [reflexivity|discriminate].
  - unfold room. cbn [n_inner n_recs n_size]. fold rs. rewrite csum_len. destruct inner; lia.
  - unfold ngood. cbn [n_inner n_low n_high n_recs]. fold rs. split; [|split; [exact (proj1 (Forall_inv Hg))|split; [exact I|]]].
    + intros i k v Hi _. cbn [n_recs] in Hi. apply nth_error_In in Hi. rewrite Forall_forall in Hg. apply (Hg _ Hi).
    + intros Hi. eapply Forall_impl; [|exact Hg]. intros x [_ Hx]. auto.
Qed.

Lemma link_sim n p r rn rp k : prl n p -> prl rn rp -> n_low rn = Some k ->
  prl (link_next g n r (n_low rn)) (xlink L p r rp).
Proof.
  intros (P1 & P2 & P3 & (P4 & P5) & P6) (_ & _ & _ & (Q4 & _) & Q6) Hk. rewrite Hk.
  unfold ByteTreeRel.prl, link_next, xlink. cbn [tp_addr tp_inner tp_next tp_body n_addr n_inner n_next].
  split; [exact P1|]. split; [exact P2|]. split; [reflexivity|].
  destruct Q4 as (_ & _ & _ & _ & Q4 & _). specialize (Q4 _ Hk). destruct Q6 as (_ & Q6 & _). rewrite Hk in Q6. cbn in Q6.
  destruct P4 as (A & B & R & D & E & F & G). unfold room in *.
  destruct HL as (L1 & L2 & L3 & L4 & L5 & L6). pose proof (PS (n_inner n)) as HPS.
  split; [split|].
  - unfold fNP, fnode_rep, fixn_link, fixn_setmem. cbn [n_inner n_recs n_size n_low n_high fn_page fn_haslow fn_hashigh fp_cnt fp_size].
    rewrite Q4, (BulkFacts.okl0 g HV). split; [exact A|]. split; [lia|]. split.
    { intros i k' v Hi. destruct (R i k' v Hi) as [R1 R2]. assert (Hlen : (i < length (n_recs n))%nat) by (apply nth_error_Some; congruence).
      split.
      - intros Hnk. rewrite <- R1 by exact Hnk. unfold fix_key. cbn [fp_mem]. rewrite rd_wr_other; [reflexivity|]. right. rewrite EK. unfold fl_high. nia.
      - rewrite <- R2. unfold fix_pay, fix_pay_addr. cbn [fp_mem fp_size]. rewrite rd_wr_other; [reflexivity|]. right. rewrite EK. unfold fl_high.
        assert (fp_size (fn_page (tp_body p)) <= align_up (fp_size (fn_page (tp_body p))) (fl_page L))%N.
        { rewrite L6. apply align_ge. }
        nia. }
    split; [exact D|]. split.
    { intros k' Hk'. rewrite <- (E _ Hk'). unfold fixn_low. cbn [fn_page fp_mem]. rewrite rd_wr_other; [reflexivity|]. left. unfold fl_low, fl_high. lia. }
    split; [reflexivity|]. intros k' Hk'. injection Hk' as <-. unfold fixn_high. cbn [fn_page fp_mem]. apply rd_wr_eq. apply EK.
  - unfold room. cbn [n_inner n_recs n_size]. rewrite (BulkFacts.okl0 g HV). lia.
  - destruct P6 as (G1 & G2 & G3 & G4). split; [exact G1|]. split; [exact G2|]. split; [exact Q6|exact G4].
Qed.

Lemma unlow_sim n p : prl n p ->
  prl (mk_node (n_addr n) (n_inner n) None (n_high n) (n_next n) (n_recs n) (n_size n))
    (mk_tpage (tp_addr p) (tp_inner p) (tp_next p) (fixn_unlow (tp_body p))).
Proof.
  intros (P1 & P2 & P3 & (P4 & P5) & P6). unfold ByteTreeRel.prl. cbn [tp_addr tp_inner tp_next tp_body n_addr n_inner n_next].
  split; [exact P1|]. split; [exact P2|]. split; [exact P3|]. split; [split; [|exact P5]|].
  - destruct P4 as (A & B & R & D & E & F & G). unfold fNP, fnode_rep, fixn_unlow. cbn [n_inner n_recs n_size n_low n_high fn_page fn_haslow fn_hashigh].
    split; [exact A|]. split; [exact B|]. split.
    { intros i k v Hi. destruct (R i k v Hi) as [R1 R2]. split; [|exact R2]. intros Hnk. apply R1. revert Hnk. unfold nokey, is_leftmost. cbn [n_low].
      destruct (n_inner n); [|auto]. destruct (n_low n); auto. }
    split; [reflexivity|]. split; [discriminate|]. split; [exact F|exact G].
  - destruct P6 as (G1 & G2 & G3 & G4). split; [|split; [exact I|split; [exact G3|exact G4]]].
    intros i k v Hi Hnk. apply (G1 i k v Hi). revert Hnk. unfold nokey, is_leftmost. cbn [n_low]. destruct (n_inner n); [|auto]. destruct (n_low n); auto.
Qed.

Lemma child_at n p i k v : prl n p -> n_inner n = true -> nth_error (n_recs n) i = Some (k, v) ->
  x_child_at L lps lt p (N.of_nat i) = v.
Proof.
  intros (_ & _ & _ & (P4 & _) & P6) Hi E. unfold x_child_at.
  pose proof (ko_ppay _ _ _ _ _ _ _ _ (fix_ok g K lt ek evl L e OK HV HL HC) n (tp_body p) i k v P4 E) as Q. rewrite Hi in Q. rewrite Q.
  destruct P6 as (_ & _ & _ & G). specialize (G Hi). rewrite Forall_forall in G. apply unle8. apply (G (k, v)). eapply nth_error_In; eauto.
Qed.
Lemma page_cnt n p : prl n p -> q_cnt (k_find C true) (tp_body p) = N.of_nat (length (n_recs n)).
Proof.
  intros (_ & _ & _ & (P4 & _) & _).
  destruct (ko_page _ _ _ _ _ _ _ _ (fix_ok g K lt ek evl L e OK HV HL HC) n (tp_body p) true P4) as (E & _). exact E.
Qed.

(** ** Programs *)
Inductive brel {B A : Type} (R : B -> A -> Prop) : xprog ch B -> prog A -> Prop :=
| br_ub x u : brel R x (UB u)
| br_fuel : brel R XFuel Fuel
| br_ret b a : R b a -> brel R (XRet b) (Ret a)
| br_load p kb k : (forall b c, crl c b -> brel R (kb b) (k c)) -> brel R (XLoad p kb) (Load p k)
| br_store p b c kb k : crl c b -> brel R kb k -> brel R (XStore p b kb) (Store p c k)
| br_clear p kb k : brel R kb k -> brel R (XClear p kb) (Clear p k)
| br_loadroot kb k : (forall r, brel R (kb r) (k r)) -> brel R (XLoadRoot kb) (LoadRoot k)
| br_storeroot p kb k : (p < max64)%N -> brel R kb k -> brel R (XStoreRoot p kb) (StoreRoot p k)
| br_newpid kb k : (forall p, (p < max64)%N -> brel R (kb p) (k p)) -> brel R (XNewPid kb) (NewPid k)
| br_alloc kb k : (forall a m, brel R (kb a m) (k a)) -> brel R (XAlloc kb) (Alloc k)
| br_retire l kb k : brel R kb k -> brel R (XRetire l kb) (Retire l k).

Lemma brel_bind {B A B' A'} (R : B -> A -> Prop) (R' : B' -> A' -> Prop) x m f f' :
  brel R x m -> (forall b a, R b a -> brel R' (f b) (f' a)) -> brel R' (xbind x f) (bind m f').
Proof. intros H F. induction H; cbn [xbind bind]; try (constructor; auto; fail). apply F; auto. Qed.
Ltac pb := eapply brel_bind.
Ltac ub := apply br_ub.
Ltac re := apply br_ret; auto.

Definition nrel (b : list N * pid) (a : key * val) : Prop := fst b = ek (fst a) /\ snd b = snd a /\ egood true a.
Notation nsrel := (Forall2 nrel).
Definition zrel (b : Z * bnodes) (a : Z * list (key * val)) : Prop := fst b = fst a /\ nsrel (snd b) (snd a).

Lemma f2_len {A B} (R : A -> B -> Prop) l l' : Forall2 R l l' -> length l = length l'.
Proof. induction 1; cbn; auto. Qed.
Lemma nsrel_ents bs ns : nsrel bs ns -> to_ents bs = map (enc true) ns /\ Forall (egood true) ns.
Proof.
  unfold to_ents. induction 1 as [|b a bs ns (E1 & E2 & E3) _ [IH1 IH2]]; cbn [map]; [auto|]. split; [|auto].
  rewrite IH1. unfold enc. cbn [fst snd evi]. rewrite E1, E2. reflexivity.
Qed.

Lemma xstore_sim p b n : prl n b -> brel eq (xstore p b) (store p (CBase n)).
Proof. intros H. unfold xstore, store. apply br_store; [exact H|]. re. Qed.

Definition prevrl (b : option (pid * tpage fnode)) (a : option (pid * node)) : Prop :=
  match b, a with Some (p, x), Some (q, n) => p = q /\ prl n x | None, None => True | _, _ => False end.

Lemma construct_sim inner : forall fuel es bprev prev, Forall (egood inner) es -> prevrl bprev prev ->
  brel nsrel (xconstruct L g fuel inner (map (enc inner) es) bprev) (construct_layer g fuel inner es prev).
Proof.
  induction fuel as [|f IH]; intros es bprev prev Hg Hp; cbn [xconstruct construct_layer]; [apply br_fuel|].
  destruct es as [|x es]; [re|]. set (l := x :: es) in *.
  change (map (enc inner) l) with (enc inner x :: map (enc inner) es). cbv iota. change (enc inner x :: map (enc inner) es) with (map (enc inner) l).
  unfold alloc. cbn [bind]. apply br_alloc. intros a m. apply br_newpid. intros p Hpm.
  destruct (bulk_node g a inner l) as [n rest] eqn:E.
  destruct (page_sim m a inner l n rest ltac:(discriminate) Hg E) as (q & k0 & Eq & Hq & Hl & Hk & Hlow & Hrest). rewrite Eq.
  pb; [apply xstore_sim; exact Hq|]. intros _ _ _. eapply brel_bind with (R := eq).
  { destruct bprev as [[pp pn]|], prev as [[pp' pn']|]; cbn [prevrl] in Hp; try contradiction; [|re].
    destruct Hp as [-> Hp]. apply xstore_sim. eapply link_sim; eauto. }
  intros _ _ _. pb; [apply IH; [exact Hrest|]; cbn; auto|]. intros bs ns Hns. re. constructor; [|exact Hns].
  rewrite Hl. split; [exact Hlow|]. split; [reflexivity|]. split; [exact Hk|]. cbn. auto.
Qed.
Lemma construct_nodes fuel bs ns : nsrel bs ns -> brel nsrel (xconstruct L g fuel true (to_ents bs) None) (construct_layer g fuel true ns None).
Proof. intros H. destruct (nsrel_ents bs ns H) as [-> Hg]. apply construct_sim; [exact Hg|exact I]. Qed.

Lemma partial_sim : forall fuel bs ns h, nsrel bs ns -> brel zrel (xpartial L g fuel bs h) (partial_layers g fuel ns h).
Proof.
  induction fuel as [|f IH]; intros bs ns h H; cbn [xpartial partial_layers]; [apply br_fuel|].
  rewrite (f2_len _ _ _ H). destruct (_ <? _); [|re; split; auto]. pb; [apply construct_nodes; exact H|]. intros. apply IH. auto.
Qed.
Lemma single_sim fuel es : Forall (egood false) es -> brel zrel (xsingle L g fuel (map (enc false) es)) (bulk_single g fuel es).
Proof. intros H. unfold xsingle, bulk_single. pb; [apply construct_sim; [exact H|exact I]|]. intros. apply partial_sim. auto. Qed.

Lemma base_inv (c : chain) (b : ch) : crl c b -> match c with CBase n => exists p, b = TLive (BBase p) /\ prl n p
  | _ => forall p, b <> TLive (BBase p) end.
Proof. destruct b as [[p|bd bx|bd p bx]|a l], c; cbn; try contradiction; intros H; try discriminate; try (intros; discriminate). eauto. Qed.

Lemma nth_last {A} (l : list A) x t : rev l = x :: t -> nth_error l (length l - 1) = Some x.
Proof.
  intros E. assert (El : l = rev t ++ [x]) by (rewrite <- (rev_involutive l), E; reflexivity). rewrite El, app_length. cbn [length].
  rewrite nth_error_app2 by lia. replace (_ - _)%nat with 0%nat by lia. reflexivity.
Qed.

Lemma vertical_sim : forall fuel l r, brel eq (xvertical L lps lt fuel l r) (link_vertical g fuel l r).
Proof.
  induction fuel as [|f IH]; intros l r; cbn [xvertical link_vertical]; [apply br_fuel|].
  destruct (N.eqb l 0); [re|]. unfold xload, load. cbn [xbind bind].
  apply br_load. intros bl cl Hl. apply br_load. intros br cr Hr. apply base_inv in Hl, Hr.
  destruct cl as [ln| | |]; try ub. destruct cr as [rn| | |]; try ub. destruct Hl as (pl & -> & Hl), Hr as (pr & -> & Hr).
  destruct (n_low rn) as [k|] eqn:Ek; [|ub]. rewrite <- Ek. pb; [apply xstore_sim; eapply link_sim; eauto|]. intros _ _ _.
  destruct Hl as (A1 & A2 & A3). rewrite A2. destruct (n_inner ln) eqn:Ei; cbn [negb]; [|re].
  destruct (n_inner rn) eqn:Er; [|ub]. destruct (n_recs rn) as [|[k1 r'] t1] eqn:E1; [ub|]. destruct (rev (n_recs ln)) as [|[k2 l'] t2] eqn:E2; [ub|].
  assert (Hl : prl ln pl) by (split; [exact A1|split; [congruence|exact A3]]).
  rewrite (page_cnt ln pl Hl). pose proof (nth_last _ _ _ E2) as N2.
  assert (Hlen : (length (n_recs ln) <> 0)%nat) by (intros X; apply length_zero_iff_nil in X; rewrite X in E2; discriminate).
  replace (N.of_nat (length (n_recs ln)) - 1)%N with (N.of_nat (length (n_recs ln) - 1)) by lia.
  rewrite (child_at ln pl _ _ _ Hl Ei N2).
  change 0%N with (N.of_nat 0). rewrite (child_at rn pr 0%nat k1 r' Hr Er); [apply IH|]. rewrite E1. reflexivity.
Qed.
Lemma leftmost_sim : forall fuel p, brel eq (xleftmost L lps lt fuel p) (remove_leftmost fuel p).
Proof.
  induction fuel as [|f IH]; intros p; cbn [xleftmost remove_leftmost]; [apply br_fuel|].
  unfold xload, load. cbn [xbind bind]. apply br_load. intros b c H. apply base_inv in H. destruct c as [n| | |]; try ub. destruct H as (q & -> & H).
  pb; [apply xstore_sim; apply unlow_sim; exact H|]. intros _ _ _.
  pose proof H as (_ & A2 & _). rewrite A2. destruct (n_inner n) eqn:Ei; cbn [negb]; [|re].
  destruct (n_recs n) as [|[k r'] t] eqn:E1; [ub|]. change 0%N with (N.of_nat 0). rewrite (child_at n q 0%nat k r' H Ei); [apply IH|]. rewrite E1. reflexivity.
Qed.
Lemma raise_sim : forall fuel h height bs ns, nsrel bs ns -> brel nsrel (xraise L g fuel h height bs) (raise_to g fuel h height ns).
Proof.
  induction fuel as [|f IH]; intros h height bs ns H; cbn [xraise raise_to]; [apply br_fuel|].
  destruct (h <? height); [|re]. pb; [apply construct_nodes; exact H|]. intros. apply IH. auto.
Qed.
Lemma last_rel bs ns : nsrel bs ns -> snd (last bs ([], 0%N)) = snd (last ns (0, 0%N)).
Proof.
  induction 1 as [|b a bs ns (E1 & E2 & E3) H IH]; [reflexivity|]. destruct H; [exact E2|]. exact IH.
Qed.
Lemma align_sim fuel height : forall bts ts prev, Forall2 zrel bts ts ->
  brel nsrel (xalign L lps lt g fuel height prev bts) (align g fuel height prev ts).
Proof.
  induction bts as [|[bh bns] bts IH]; intros ts prev H; inversion H as [|x [h ns] y ts' [E1 E2] Ht]; subst; cbn [xalign align]; [re|].
  cbn [fst snd] in E1, E2. subst h. pb; [apply raise_sim; exact E2|]. intros bs1 ns1 H1. pose proof (last_rel _ _ H1) as La.
  destruct H1 as [|[kb fb] [ka fa] bs1 ns1 (F1 & F2 & F3) H1]; [ub|]. cbn [snd] in F2. subst fb.
  pb; [apply vertical_sim|]. intros _ _ _. pb; [rewrite La; apply IH; exact Ht|]. intros br nr Hr. re.
  apply Forall2_app; [|exact Hr]. constructor; [|exact H1]. split; [exact F1|]. split; [reflexivity|exact F3].
Qed.
Lemma upper_sim : forall fuel bs ns, nsrel bs ns -> brel nsrel (xupper L g fuel bs) (upper_layers g fuel ns).
Proof.
  induction fuel as [|f IH]; intros bs ns H; cbn [xupper upper_layers]; [apply br_fuel|].
  rewrite (f2_len _ _ _ H). destruct (_ <? _); [|re]. pb; [apply construct_nodes; exact H|]. intros. apply IH. auto.
Qed.
Lemma root_sim fuel bs ns : nsrel bs ns -> brel eq (xbulk_root L lps lt g fuel bs) (bulk_root g fuel ns).
Proof.
  intros H. unfold xbulk_root, bulk_root. pb; [apply upper_sim; exact H|]. intros bs1 ns1 H1.
  destruct H1 as [|[kb fb] [ka fa] bs1 ns1 (F1 & F2 & F3) H1]; [ub|]. cbn [snd] in F2. subst fb. destruct F3 as [_ F3].
  pb; [apply leftmost_sim|]. intros _ _ _. apply br_loadroot. intros r. apply br_storeroot; [apply (F3 eq_refl)|].
  unfold xload, load. cbn [xbind bind]. apply br_load. intros b c Hc. cbn [bulk_adds map snd].
  rewrite (x_addr_ok _ _ _ _ _ c b Hc). apply br_retire, br_clear. re.
Qed.
Lemma bulk_align_sim fuel bts ts : Forall2 zrel bts ts -> brel nsrel (xbulk_align L lps lt g fuel bts) (bulk_align g fuel ts).
Proof.
  intros H. unfold xbulk_align, bulk_align. cbv zeta.
  replace (fold_left (fun h t => Z.max h (fst t)) bts 1) with (fold_left (fun h t => Z.max h (fst t)) ts 1); [apply align_sim; exact H|].
  generalize 1 as z. induction H as [|b a bts ts [E _] _ IH]; intros z; cbn [fold_left]; [reflexivity|]. rewrite E. apply IH.
Qed.
Lemma join_sim fuel bts ts : Forall2 zrel bts ts -> brel eq (xjoin L lps lt g fuel bts) (bulk_join g fuel ts).
Proof. intros H. unfold xjoin, bulk_join. pb; [apply bulk_align_sim; exact H|]. intros. apply root_sim. auto. Qed.
Lemma op_sim fuel es T : Forall (egood false) es -> es <> [] -> T <= 1 \/ Z.of_nat (length es) < T ->
  brel eq (xop_single L lps lt g fuel (map (enc false) es)) (op_bulkload g fuel es T).
Proof.
  intros H Hn HT. destruct es as [|x es]; [easy|]. set (l := x :: es) in *. unfold xop_single, op_bulkload. unfold l at 2. cbv iota. fold l. cbv zeta.
  replace ((T <=? 1) || (Z.of_nat (length l) <? T)) with true by (destruct HT; lia). cbv iota.
  eapply brel_bind with (R := nsrel).
  - pb; [apply single_sim; exact H|]. intros [bh bns] [h ns] [_ E]. re.
  - intros. apply root_sim. auto.
Qed.
Lemma map_partition {A B} (f : A -> B) T n : forall cnt i es,
  partition T i cnt n (map f es) = map (map f) (partition T i cnt n es).
Proof.
  induction cnt as [|c IH]; intros i es; cbn [partition map]; [reflexivity|]. cbv zeta. rewrite firstn_map, skipn_map, IH. reflexivity.
Qed.
Lemma workers_sim fuel es T : Forall (egood false) es ->
  Forall2 (brel zrel) (xworkers L g fuel (map (enc false) es) T) (bulk_workers g fuel es T).
Proof.
  intros H. unfold xworkers, bulk_workers. rewrite map_length, map_partition. generalize (Z.of_nat (length es)) as n. intros n.
  assert (P : forall cnt i (l : list (key * val)), Forall (egood false) l -> Forall (Forall (egood false)) (partition T i cnt n l)).
  { induction cnt as [|c IH]; intros i l Hl; cbn [partition]; constructor.
    - apply Forall_forall. intros y Hy. rewrite Forall_forall in Hl. apply Hl. rewrite <- (firstn_skipn (Z.to_nat (part_size n T i)) l). apply in_or_app. auto.
    - apply IH. apply Forall_forall. intros y Hy. rewrite Forall_forall in Hl. apply Hl. rewrite <- (firstn_skipn (Z.to_nat (part_size n T i)) l). apply in_or_app. auto. }
  specialize (P (Z.to_nat T) 0 es H). revert P. generalize (partition T 0 (Z.to_nat T) n es). intros ps P.
  induction P as [|l ps Hl _ IH]; cbn [map]; constructor; [|exact IH]. apply single_sim. exact Hl.
Qed.

(** ** Executions *)
Lemma xrun_npid {A} (m : xprog ch A) : forall s a s', xrun x_addr junk m s = XDone a s' -> (x_npid s <= x_npid s')%N.
Proof.
  induction m; intros s b s' E; cbn [xrun] in E; try discriminate.
  - injection E as <- <-. lia.
  - destruct (x_tbl s p); [|discriminate]. eapply H; eauto.
  - apply IHm in E. exact E.
  - apply IHm in E. exact E.
  - match type of E with (if ?x then _ else _) = _ => destruct x end; apply H in E; exact E.
  - eapply H; eauto.
  - apply IHm in E. exact E.
  - destruct (N.eqb _ _); apply H in E; exact E.
  - apply H in E. cbn in E. lia.
  - apply H in E. exact E.
  - eapply H; eauto.
  - apply IHm in E. exact E.
  - apply IHm in E. exact E.
Qed.

Lemma put_rl x s p b c : srl x s -> crl c b ->
  srl (mk_xst (upd (x_tbl x) p (Some b)) (x_root x) (x_npid x) (x_naddr x) (x_cell x) (x_gc x)) (set_tbl s p (Some c)).
Proof. apply put_srl. Qed.
Lemma clear_rl x s p : srl x s ->
  srl (mk_xst (upd (x_tbl x) p None) (x_root x) (x_npid x) (x_naddr x) (x_cell x) (x_gc x)) (set_tbl s p None).
Proof. intros []. constructor; auto. cbn. intros q. unfold upd. destruct (N.eqb q p); [exact I|apply sr_tbl]. Qed.

Lemma run_sim {B A} (R : B -> A -> Prop) x m : brel R x m -> forall xs s b xs', srl xs s ->
  xrun x_addr junk x xs = XDone b xs' -> (x_npid xs' <= max64)%N -> (forall u, run m s <> Crash u) ->
  exists a s', run m s = Done a s' /\ R b a /\ srl xs' s'.
Proof.
  induction 1 as [x u| |b0 a0 H|p kb k H IH|p b0 c kb k Hc H IH|p kb k H IH|kb k H IH|p kb k Hp H IH|kb k H IH|kb k H IH|l kb k H IH];
    intros xs s b xs' Hs E Hb Hu; cbn [xrun] in E; cbn [run] in *; pose proof Hs as [T1 T2 T3 T4 T5 T6 T7].
  - destruct (Hu _ eq_refl).
  - discriminate.
  - injection E as <- <-. eauto 10.
  - pose proof (T1 p) as Q. destruct (s_tbl s p) as [c|]; [|destruct (Hu _ eq_refl)]. destruct (x_tbl xs p) as [b0|]; [|contradiction].
    eapply IH; eauto.
  - eapply IH; [apply put_rl; eauto|exact E|exact Hb|exact Hu].
  - eapply IH; [apply clear_rl; eauto|exact E|exact Hb|exact Hu].
  - rewrite T2 in E. eapply IH; eauto.
  - eapply IH; [|exact E|exact Hb|exact Hu]. constructor; auto.
  - pose proof (xrun_npid _ _ _ _ E) as Q. cbn in Q. rewrite T4 in *. eapply IH; [lia| |exact E|exact Hb|exact Hu]. constructor; auto.
  - rewrite T5 in *. eapply IH; [|exact E|exact Hb|exact Hu]. constructor; auto.
  - eapply IH; [|exact E|exact Hb|exact Hu]. constructor; auto. cbn. rewrite T7. reflexivity.
Qed.

(** The other direction, for programs that end. *)
Lemma run_npid {A} (m : prog A) : forall s a s', run m s = Done a s' -> (s_npid s <= s_npid s')%N.
Proof.
  induction m; intros s b s' E; cbn [run] in E; try discriminate.
  - injection E as <- <-. lia.
  - destruct (s_tbl s p); [|discriminate]. eapply H; eauto.
  - apply IHm in E. exact E.
  - apply IHm in E. exact E.
  - match type of E with (if ?x then _ else _) = _ => destruct x end; apply H in E; exact E.
  - eapply H; eauto.
  - apply IHm in E. exact E.
  - destruct (N.eqb _ _); apply H in E; exact E.
  - apply H in E. cbn in E. lia.
  - apply H in E. exact E.
  - eapply H; eauto.
  - apply IHm in E. exact E.
  - apply IHm in E. exact E.
Qed.
Lemma run_fwd {B A} (R : B -> A -> Prop) x m : brel R x m -> forall xs s a s', srl xs s ->
  run m s = Done a s' -> (s_npid s' <= max64)%N ->
  exists b xs', xrun x_addr junk x xs = XDone b xs' /\ R b a /\ srl xs' s'.
Proof.
  induction 1 as [x u| |b0 a0 H|p kb k H IH|p b0 c kb k Hc H IH|p kb k H IH|kb k H IH|p kb k Hp H IH|kb k H IH|kb k H IH|l kb k H IH];
    intros xs s a s' Hs E Hb; cbn [xrun]; cbn [run] in E; pose proof Hs as [T1 T2 T3 T4 T5 T6 T7]; try discriminate.
  - injection E as <- <-. eauto 10.
  - pose proof (T1 p) as Q. destruct (s_tbl s p) as [c|]; [|discriminate]. destruct (x_tbl xs p) as [b0|]; [|contradiction].
    eapply IH; eauto.
  - eapply IH; [apply put_rl; eauto|exact E|exact Hb].
  - eapply IH; [apply clear_rl; eauto|exact E|exact Hb].
  - rewrite T2. eapply IH; eauto.
  - eapply IH; [|exact E|exact Hb]. constructor; auto.
  - pose proof (run_npid _ _ _ _ E) as Q. cbn in Q. rewrite T4. eapply IH; [lia| |exact E|exact Hb]. constructor; auto.
  - rewrite T5. eapply IH; [|exact E|exact Hb]. constructor; auto.
  - eapply IH; [|exact E|exact Hb]. constructor; auto. cbn. rewrite T7. reflexivity.
Qed.
End Sim.
