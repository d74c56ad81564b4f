(** The programs of ByteTree.v follow the programs of Tree.v step by step. *)
From Coq Require Import ZArith NArith List Bool Lia.
From Verif Require Import Config Api Page Machine Tree Valid Bytes ByteCons ByteConsSpec ByteFind ByteFindSpec ByteTree ByteTreeSpec ByteTreeRel.
Import ListNotations.
Open Scope Z_scope.

Section Sim.
Context {P D : Type}.
Variable C : klass P D.
Variable lt : list N -> list N -> bool.
Variable g : cfg.
Variables (K : Z -> Prop) (ek : Z -> list N) (evl : N -> list N).
Variables (NP : node -> P -> Prop) (DP : delta -> D -> Prop).
Hypothesis HK : klass_ok C lt g K ek evl NP DP.

Notation ch := (tchain P D).
Notation crl := (crl C K ek NP DP).
Notation prl := (prl K NP).
Notation sane := (sane g).

(** A program of ByteTree.v does what a program of Tree.v does, as long as the latter has
    no undefined behaviour and loads sane chains. *)
Inductive prel {B A : Type} (R : B -> A -> Prop) : xprog ch B -> prog A -> Prop :=
| pr_ub x u : prel R x (UB u)
| pr_fuel : prel R XFuel Fuel
| pr_ret b a : R b a -> prel R (XRet b) (Ret a)
| pr_load p kb k : (forall b c, crl c b -> sane c -> prel R (kb b) (k c)) -> prel R (XLoad p kb) (Load p k)
| pr_store p b c kb k : crl c b -> prel R kb k -> prel R (XStore p b kb) (Store p c k)
| pr_cas w p e b c kb k : crl c b -> (sane c -> prel R (kb true) (k true)) -> prel R (kb false) (k false) ->
    prel R (XCas w p e b kb) (Cas w p e c k)
| pr_loadroot kb k : (forall r, (r < max64)%N -> prel R (kb r) (k r)) -> prel R (XLoadRoot kb) (LoadRoot k)
| pr_storeroot p kb k : (p < max64)%N -> prel R kb k -> prel R (XStoreRoot p kb) (StoreRoot p k)
| pr_casroot o n kb k : (n < max64)%N -> (forall b, prel R (kb b) (k b)) -> prel R (XCasRoot o n kb) (CasRoot o n k)
| pr_newpid kb k : (forall p, (p < max64)%N -> prel R (kb p) (k p)) -> prel R (XNewPid kb) (NewPid k)
| pr_alloc kb k : (forall a m, prel R (kb a m) (k a)) -> prel R (XAlloc kb) (Alloc k)
| pr_loadcell a kb k : (forall p, prel R (kb p) (k p)) -> prel R (XLoadCell a kb) (LoadCell a k)
| pr_storecell a p kb k : prel R kb k -> prel R (XStoreCell a p kb) (StoreCell a p k)
| pr_retire l kb k : prel R kb k -> prel R (XRetire l kb) (Retire l k).

Lemma prel_bind {B A B' A'} (R : B -> A -> Prop) (R' : B' -> A' -> Prop) x m f f' :
  prel R x m -> (forall b a, R b a -> prel R' (f b) (f' a)) -> prel R' (xbind x f) (bind m f').
Proof.
  intros H F. induction H; cbn [xbind bind]; try (constructor; auto; fail). apply F; auto.
Qed.
Ltac pb := eapply prel_bind.
Ltac ub := apply pr_ub.
Ltac re := apply pr_ret; auto.

Lemma load_valid_sim : forall fuel p, prel (fun b c => crl c b /\ sane c) (xload_valid C g fuel p) (load_valid g fuel p).
Proof.
  induction fuel as [|f IH]; intros p; cbn [xload_valid load_valid]; [apply pr_fuel|].
  cbn [xload load xbind bind]. apply pr_load. intros b c Hc Hs. rewrite (x_need_wait_ok C lt g K ek evl NP DP HK c b Hc).
  destruct (need_wait g c); [apply IH|re].
Qed.
Lemma wait_cell_sim : forall fuel a, prel (@eq pid) (xwait_cell fuel a) (wait_cell fuel a).
Proof.
  induction fuel as [|f IH]; intros a; cbn [xwait_cell wait_cell]; [apply pr_fuel|]. apply pr_loadcell. intros p.
  destruct (N.eqb p 0); [apply IH|re].
Qed.

Lemma search_child_sim k closed : K k -> forall fuel stack target,
  prel eq (xsearch_child C lt fuel (ek k) closed stack target) (search_child_node fuel k closed stack target).
Proof.
  intros Hk. induction fuel as [|f IH]; intros stack target; cbn [xsearch_child search_child_node]; [apply pr_fuel|].
  destruct stack as [|p rest]; [ub|]. cbn [xload load xbind bind]. apply pr_load. intros b c Hc Hs.
  pose proof (child_ok C lt g K ek evl NP DP HK k closed c b Hk Hc Hs) as A. unfold cr_agree in A.
  destruct (dc_search_child c k closed false) as [v|a| | |q|n|];
    destruct (t_child C lt b (ek k) closed) as [w|a'|p'|p'| |]; try contradiction; try ub.
  - destruct (h_leaf c) eqn:El; [ub|]. destruct (A eq_refl) as [-> Hv]. rewrite unle8 by auto. re.
  - subst a'. pb; [apply wait_cell_sim|]. intros ? ? <-. re.
  - destruct rest as [|r rest].
    + destruct (negb (N.eqb target 0)); [re|]. apply pr_loadroot. intros r _. apply IH.
    + pb; [apply IH|]. intros x [b0 st] ->. destruct b0; [re|]. destruct st; [re|apply IH].
  - rewrite A. destruct (N.eqb q target); [re|apply IH].
  - destruct A as [Sp Li]. destruct (node_search_child n k closed) as [v|] eqn:En; [|ub]. destruct (h_leaf c) eqn:El; [ub|].
    rewrite (nchild_ok C lt g K ek evl NP DP HK n p' k closed v Hk Sp) by auto. re.
Qed.

Lemma leaf_loop_sim k closed : K k -> forall fuel stack,
  prel eq (xleaf_loop C lt fuel (ek k) closed stack) (leaf_loop fuel k closed stack).
Proof.
  intros Hk. induction fuel as [|f IH]; intros stack; cbn [xleaf_loop leaf_loop]; [apply pr_fuel|].
  destruct stack as [|p rest]; [ub|]. cbn [xload load xbind bind]. apply pr_load. intros b c Hc Hs.
  rewrite (x_leaf_ok C lt g K ek evl NP DP HK c b Hc). destruct (h_leaf c); [re|].
  pb; [apply search_child_sim; auto|]. intros x [b0 st] ->. apply IH.
Qed.
Lemma search_leaf_sim k closed fuel : K k -> prel eq (xsearch_leaf C lt fuel (ek k) closed) (search_leaf fuel k closed).
Proof. intros Hk. unfold xsearch_leaf, search_leaf. apply pr_loadroot. intros r _. apply leaf_loop_sim; auto. Qed.

Lemma target_loop_sim k target : K k -> forall fuel stack leaf,
  prel eq (xtarget_loop C lt fuel (ek k) target stack leaf) (target_loop fuel k target stack leaf).
Proof.
  intros Hk. induction fuel as [|f IH]; intros stack leaf; cbn [xtarget_loop target_loop]; [apply pr_fuel|].
  destruct leaf; [re|]. pb; [apply search_child_sim; auto|]. intros x [b0 st] ->. destruct b0; [re|].
  destruct st as [|p st]; [re|]. cbn [xload load xbind bind]. apply pr_load. intros b c Hc Hs.
  rewrite (x_leaf_ok C lt g K ek evl NP DP HK c b Hc). apply IH.
Qed.
Lemma search_target_sim k target : K k -> forall fuel,
  prel eq (xsearch_target C lt fuel (ek k) target) (search_target fuel k target).
Proof.
  intros Hk. induction fuel as [|f IH]; cbn [xsearch_target search_target]; [apply pr_fuel|].
  apply pr_loadroot. intros r _. cbn [xload load xbind bind]. apply pr_load. intros b c Hc Hs.
  rewrite (x_leaf_ok C lt g K ek evl NP DP HK c b Hc). pb; [apply target_loop_sim; auto|]. intros x st ->.
  destruct st; [apply IH|re].
Qed.

Definition orl (b : option ch) (c : option chain) : Prop :=
  match b, c with
  | None, None => True
  | Some b, Some c => crl c b /\ sane c /\ is_remove c = false
  | _, _ => False
  end.
Definition ghrel (b : option ch * list pid) (a : option chain * list pid) : Prop := orl (fst b) (fst a) /\ snd b = snd a.

Lemma get_head_sim k closed target : K k -> forall fuel stack,
  prel ghrel (xget_head C lt g fuel (ek k) closed stack target) (get_head g fuel k closed stack target).
Proof.
  intros Hk. induction fuel as [|f IH]; intros stack; cbn [xget_head get_head]; [apply pr_fuel|].
  destruct stack as [|p rest]; [ub|]. pb; [apply load_valid_sim|]. intros b c [Hc Hs].
  pose proof (validate_ok C lt g K ek evl NP DP HK k closed c b Hk Hc) as A.
  destruct (dc_validate c k closed).
  - destruct A as [-> Er]. re. split; cbn; auto.
  - rewrite A. destruct rest as [|r rest].
    + destruct (negb (N.eqb target 0)); [re; split; cbn; auto|]. pb; [apply search_leaf_sim; auto|]. intros x st ->. apply IH.
    + pb; [apply search_child_sim; auto|]. intros x [b0 st] ->. destruct st; [re; split; cbn; auto|apply IH].
  - destruct A as [-> Er]. destruct (N.eqb p0 target); [re; split; cbn; auto|apply IH].
Qed.

Definition kcrel (b : ch * bool * list pid) (a : chain * bool * list pid) : Prop :=
  let '(bc, bf, bs) := b in let '(ac, af, as_) := a in
  crl ac bc /\ sane ac /\ is_remove ac = false /\ bf = af /\ bs = as_.
Lemma rec_live k c : dc_search_record c k false <> RRemoved -> is_remove c = false.
Proof. destruct c; cbn; auto. congruence. Qed.
Lemma get_head_kc_sim k : K k -> forall fuel stack,
  prel kcrel (xget_head_kc C lt g fuel (ek k) stack) (get_head_kc g fuel k stack).
Proof.
  intros Hk. induction fuel as [|f IH]; intros stack; cbn [xget_head_kc get_head_kc]; [apply pr_fuel|].
  destruct stack as [|p rest]; [ub|]. pb; [apply load_valid_sim|]. intros b c [Hc Hs].
  pose proof (trecord_ok C lt g K ek evl NP DP HK k c b Hk Hc Hs) as A. unfold recok in A.
  pose proof (rec_live k c) as RL.
  destruct (dc_search_record c k false) as [v|a| | |q|n|]; try ub.
  - destruct A as (w & -> & _). re. cbn. split; [exact Hc|]. split; [exact Hs|]. split; [apply RL; discriminate|auto].
  - rewrite A. re. cbn. split; [exact Hc|]. split; [exact Hs|]. split; [apply RL; discriminate|auto].
  - rewrite A. destruct rest as [|r rest].
    + pb; [apply search_leaf_sim; auto|]. intros x st ->. apply IH.
    + pb; [apply search_child_sim; auto|]. intros x [b0 st] ->. apply IH.
  - rewrite A. apply IH.
  - assert (Er : is_remove c = false) by (apply RL; discriminate).
    destruct (fst (node_search n k)).
    + destruct A as (w & -> & _). re. cbn. auto.
    + rewrite A. re. cbn. auto.
Qed.

Definition gmrel (b : option ch * list pid * option (list N)) (a : option chain * list pid * option key) : Prop :=
  let '(bc, bs, bk) := b in let '(ac, as_, ak) := a in orl bc ac /\ bs = as_ /\ bk = option_map ek ak /\ opt_key K ak.
Lemma sib_ok sib h : opt_key K sib -> opt_key K h ->
  x_sib_after g (option_map ek sib) (option_map ek h) = option_map ek (sib_after g sib h) /\ opt_key K (sib_after g sib h).
Proof.
  intros Hs Hh. unfold x_sib_after, sib_after. destruct (c_ptr g); auto. destruct sib, h; cbn; auto.
Qed.
Lemma mrg_live k sib sf c : dc_search_merge c k sib false sf false <> MRemoved -> is_remove c = false.
Proof. destruct c; cbn; auto. congruence. Qed.
Lemma get_head_merge_sim k : K k -> forall fuel sib stack, opt_key K sib ->
  prel gmrel (xget_head_merge C lt g fuel (ek k) (option_map ek sib) stack) (get_head_merge g fuel k sib stack).
Proof.
  intros Hk. induction fuel as [|f IH]; intros sib stack Hsb; cbn [xget_head_merge get_head_merge]; [apply pr_fuel|].
  destruct stack as [|p rest]; [ub|]. pb; [apply load_valid_sim|]. intros b c [Hc Hs].
  replace (match option_map ek sib with Some _ => false | None => true end) with (match sib with Some _ => false | None => true end) by (destruct sib; reflexivity).
  set (sf0 := match sib with Some _ => false | None => true end).
  pose proof (merge_ok C lt g K ek evl NP DP HK k sib sf0 c b Hk Hsb Hc) as A.
  pose proof (mrg_live k sib sf0 c) as RL. unfold mr_agree in A.
  destruct (dc_search_merge c k sib false sf0 false) as [| | |q h|n kf sf h|];
    destruct (t_merge C lt b (ek k) (option_map ek sib) sf0) as [| | |p' hb|p' kf' sf' hb|]; try contradiction; try ub.
  - re. cbn. split; [split; [exact Hc|split; [exact Hs|apply RL; discriminate]]|auto].
  - re. cbn. auto.
  - re. cbn. auto.
  - destruct A as (<- & -> & Kh). destruct (sib_ok sib h Hsb Kh) as [E1 E2]. rewrite E1. apply IH; auto.
  - destruct A as (Sp & <- & <- & -> & Kh). destruct (sib_ok sib h Hsb Kh) as [E1 E2]. rewrite E1.
    rewrite (search_ok C lt g K ek evl NP DP HK n p' true k Hk Sp).
    assert (E3 : match option_map ek (sib_after g sib h) with Some s => fst (b_search (t_find C true) lt (tp_inner p') p' s) | None => false end =
                 match sib_after g sib h with Some s => fst (node_search n s) | None => false end).
    { destruct (sib_after g sib h) as [s|]; cbn [option_map]; auto. f_equal. apply (search_ok C lt g K ek evl NP DP HK); auto. }
    rewrite E3. cbv zeta.
    destruct ((sf || _) && (kf || fst (node_search n k))); re; cbn.
    + split; [split; [exact Hc|split; [exact Hs|apply RL; discriminate]]|auto].
    + auto.
Qed.

Definition smos_ok (xs : ch -> list pid -> xprog ch unit) (as_ : chain -> list pid -> prog unit) : Prop :=
  forall c b stack, crl c b -> sane c -> is_base c = false -> is_remove c = false -> prel eq (xs b stack) (as_ c stack).

Lemma root_split_sim d b l_pid : DP d b -> d_inner d = true -> d_type d = DInsert -> dgood K d ->
  prel eq (xroot_split C b l_pid) (try_root_split g (d_key d) (d_pay d) l_pid).
Proof.
  intros HD Hi Ht (G1 & G2 & G3). unfold xroot_split, try_root_split. apply pr_loadroot. intros r Hr.
  destruct (N.eqb_spec r l_pid) as [->|]; cbn [negb]; [|re]. cbn [alloc bind]. apply pr_alloc. intros a m.
  apply pr_newpid. intros np Hnp.
  pose proof (ko_dpay _ _ _ _ _ _ _ _ HK d b HD ltac:(congruence)) as HP. rewrite Hi in HP. cbn [evi] in HP.
  destruct (ko_delta _ _ _ _ _ _ _ _ HK d b true HD) as (_ & T2 & _). rewrite HP, T2.
  apply pr_store.
  - cbn. unfold ByteTreeRel.prl. cbn [tp_addr tp_inner tp_next tp_body new_root n_addr n_inner n_next].
    do 3 (split; [reflexivity|]). split; [apply (ko_root _ _ _ _ _ _ _ _ HK); auto|].
    unfold ngood. cbn. split; [|split; [exact I|split; [exact I|]]].
    + intros i k v Hn Hk. destruct i as [|[|i]]; cbn in Hn; [discriminate|injection Hn as <- <-; exact G1|destruct i; discriminate].
    + intros _. constructor; [exact Hr|]. constructor; [exact (G3 Hi)|constructor].
  - apply pr_storeroot; auto. re.
Qed.

Ltac live c b Hc Hr := destruct b as [b|]; [|cbn in Hc; subst c; discriminate Hr].

Lemma split_loop_sim xs as_ d b l_pid : smos_ok xs as_ -> DP d b -> d_inner d = true -> d_type d = DInsert -> dgood K d ->
  forall fuel stack, prel eq (xsplit_loop C lt g xs fuel (d_addr d) b l_pid stack) (split_loop g as_ fuel d l_pid stack).
Proof.
  intros HS HD Hi Ht Gd. destruct Gd as (G1 & G2 & G3).
  pose proof (ko_dpay _ _ _ _ _ _ _ _ HK d b HD ltac:(congruence)) as HP. rewrite Hi in HP. cbn [evi] in HP.
  destruct (ko_delta _ _ _ _ _ _ _ _ HK d b true HD) as (_ & T2 & _).
  induction fuel as [|f IH]; intros stack; cbn [xsplit_loop split_loop]; [apply pr_fuel|].
  rewrite HP, T2, unle8 by auto. destruct stack as [|p0 st0].
  - pb; [apply root_split_sim; auto; split; auto|]. intros ok ? <-. destruct ok; [re|].
    pb; [apply search_target_sim; auto|]. intros x st ->. destruct st; [ub|]. apply IH.
  - pb; [apply get_head_sim; auto|]. intros [ob st] [oc st'] [O E]. cbn in O, E. subst st.
    destruct ob as [hb|], oc as [hc|]; cbn in O; try contradiction; [|apply IH].
    destruct O as (Hc & Hs & Hr). live hc hb Hc Hr.
    destruct st' as [|p st]; [ub|]. rewrite (x_recsz_ok C lt g K ek evl NP DP HK), (x_addr_ok C K ek NP DP _ _ Hc).
    set (d' := set_next d hc (recsz g ptrlen (d_key d))).
    assert (Hcr : crl (CRec d' hc) (TLive (BRec (x_rec C (d_addr d) b (TLive hb) (recsz g ptrlen (d_key d))) hb))).
    { split; [|exact Hc]. apply (drl_rec C lt g K ek evl NP DP HK); auto. split; auto. }
    cbn [cas xcas xbind bind]. cbv zeta. apply pr_cas; auto.
    intros Hs'. rewrite (x_need_cons_ok C lt g K ek evl NP DP HK _ _ Hcr).
    destruct (need_consolidation g (CRec d' hc)); [apply HS; auto|re].
Qed.

Lemma split_sim xs as_ fuel l r pl pr stack : smos_ok xs as_ -> prl l pl -> prl r pr -> (exists k, n_low r = Some k) ->
  prel eq (xsplit C lt g xs fuel pl pr stack) (split g as_ fuel l r stack).
Proof.
  intros HS Sl Sr (k & Ek). unfold xsplit, split. apply pr_newpid. intros r_pid Hr. apply pr_store; [exact Sr|].
  rewrite Ek. destruct stack as [|l_pid st]; [ub|]. apply pr_store; [exact (prl_next C lt g K ek evl NP DP HK l pl r_pid Sl)|].
  cbn [alloc bind]. apply pr_alloc. intros a m.
  pose proof Sr as (_ & Ei & _ & HN & PK & Gl & Gh & _). rewrite Ei.
  apply (split_loop_sim xs as_ (mk_delta a true DInsert k (n_high r) r_pid 0 0)); auto.
  - apply (ko_ins _ _ _ _ _ _ _ _ HK); auto.
  - split; [|split]; cbn; auto. rewrite Ek in Gl. exact Gl.
Qed.

Lemma remove_root_sim n p old stack : prl n p -> prel eq (xremove_root C p old stack) (try_remove_root n old stack).
Proof.
  intros S. unfold xremove_root, try_remove_root. destruct stack; [|re]. pose proof S as (E0 & Ei & _ & HN & _).
  destruct (ko_page _ _ _ _ _ _ _ _ HK _ _ (tp_inner p) HN) as (E1 & _). cbn [t_find q_cnt q_pay]. cbv zeta. rewrite E1, Ei, nat_N_Z.
  destruct ((1 <? Z.of_nat (length (n_recs n))) || negb (n_inner n)) eqn:Eb; [re|].
  apply orb_false_elim in Eb as [_ Eb]. apply negb_false_iff in Eb.
  destruct (n_recs n) as [|[k v] t] eqn:Er; cbn [leftmost_child]; rewrite Er; [ub|].
  assert (Hp : pay_at n 0 = Some v) by (unfold pay_at; cbn; rewrite Er; reflexivity).
  pose proof (pay_ok C lt g K ek evl NP DP HK n p 0 v S Hp) as Ev. cbn [t_find q_pay] in Ev. rewrite Eb in *. cbn [Z.to_N evi] in Ev.
  pose proof (pay_max K NP n p 0 v S Eb Hp) as Hv. rewrite Ev, unle8 by auto.
  cbn [xload load xbind bind]. apply pr_load. intros b c Hc Hs. rewrite (x_leaf_ok C lt g K ek evl NP DP HK c b Hc).
  destruct (h_leaf c); [re|]. apply pr_casroot; auto. intros [|]; [|re]. rewrite E0. apply pr_retire. re.
Qed.

Lemma delete_loop_sim d b : DP d b -> d_inner d = true -> d_type d = DDelete -> dgood K d -> forall fuel sib stack, opt_key K sib ->
  prel (fun x y => match fst x, fst y with
                   | None, None => True
                   | Some bb, Some c => crl c bb /\ sane c /\ is_base c = false /\ is_remove c = false
                   | _, _ => False end /\ snd x = snd y)
    (xdelete_loop C lt g fuel (d_addr d) b (option_map ek sib) stack) (delete_loop g fuel d sib stack).
Proof.
  intros HD Hi Ht (G1 & G2 & G3). destruct (ko_delta _ _ _ _ _ _ _ _ HK d b true HD) as (_ & T2 & _).
  induction fuel as [|f IH]; intros sib stack Hsb; cbn [xdelete_loop delete_loop]; [apply pr_fuel|].
  rewrite T2. pb; [apply get_head_merge_sim; auto|]. intros [[ob st] bk] [[oc st'] ak] (O & -> & -> & Kk).
  destruct ob as [hb|], oc as [hc|]; cbn in O; try contradiction; [|re; cbn; auto].
  destruct O as (Hc & Hs & Hr). destruct st' as [|p st]; [ub|]. live hc hb Hc Hr.
  rewrite (x_recsz_ok C lt g K ek evl NP DP HK), (x_addr_ok C K ek NP DP _ _ Hc).
  set (d' := set_next d hc (- recsz g ptrlen (d_key d))).
  assert (Hcr : crl (CRec d' hc) (TLive (BRec (x_rec C (d_addr d) b (TLive hb) (- recsz g ptrlen (d_key d))) hb))).
  { split; [|exact Hc]. apply (drl_rec C lt g K ek evl NP DP HK); auto. split; auto. }
  cbn [cas xcas xbind bind]. cbv zeta. apply pr_cas; auto.
  intros Hs'. re. cbn. auto.
Qed.

Lemma delete_entry_sim xs as_ fuel n p stack : smos_ok xs as_ -> prl n p ->
  prel (fun x y => x = y /\ (x <> None -> exists k, n_low n = Some k))
    (xdelete_entry C lt g xs fuel p stack) (try_delete_entry g as_ fuel n stack).
Proof.
  intros HS S. pose proof S as (E0 & Ei & _ & HN & PK & Gl & Gh & _).
  destruct (ko_page _ _ _ _ _ _ _ _ HK _ _ (tp_inner p) HN) as (_ & _ & E1 & E2 & E3).
  unfold xdelete_entry, try_delete_entry. cbn [t_find q_lm q_high]. rewrite E1, E3. unfold is_leftmost.
  destruct stack as [|s0 st0]; [re; split; [reflexivity|congruence]|].
  destruct (n_low n) as [k|] eqn:El; [|re; split; [reflexivity|congruence]].
  cbn [alloc bind]. apply pr_alloc. intros a m. apply pr_storecell.
  pb.
  - apply (delete_loop_sim (mk_delta a true DDelete k (n_high n) 0%N 0 0)); auto.
    + apply (ko_idel _ _ _ _ _ _ _ _ HK); auto.
    + split; [|split]; cbn; auto. reflexivity.
  - intros [ob st] [oc st'] [O E]. cbn in O, E. subst st. destruct ob as [bb|], oc as [c|]; try contradiction.
    + destruct O as (Hc & Hs & Hb & Hr). rewrite (x_need_cons_ok C lt g K ek evl NP DP HK _ _ Hc).
      pb; [instantiate (1 := eq); destruct (need_consolidation g c); [apply HS; auto|re]|]. intros _ _ _.
      re. split; eauto.
    + re. split; [reflexivity|congruence].
Qed.

Lemma merge_loop_sim xs as_ d b n p rem_pid del_a : smos_ok xs as_ -> prl n p -> MP C ek d b -> n_low n = Some (d_key d) ->
  K (d_key d) -> opt_key K (d_high d) ->
  forall fuel at_sib stack, prel eq (xmerge_loop C lt g xs fuel (d_addr d) b p rem_pid del_a at_sib stack)
    (merge_loop g as_ fuel d n rem_pid del_a at_sib stack).
Proof.
  intros HS S HM El Gk Gh. pose proof S as (E0 & Ei & _ & HN & _).
  destruct (ko_page _ _ _ _ _ _ _ _ HK _ _ (tp_inner p) HN) as (_ & _ & _ & E2 & _).
  induction fuel as [|f IH]; intros at_sib stack; cbn [xmerge_loop merge_loop]; [apply pr_fuel|].
  cbn [t_find q_low]. rewrite (E2 _ El). destruct at_sib.
  - pb; [apply get_head_sim; auto|]. intros [ob st] [oc st'] [O E]. cbn in O, E. subst st.
    destruct ob as [hb|], oc as [hc|]; cbn in O; try contradiction; [|apply IH].
    destruct O as (Hc & Hs & Hr). live hc hb Hc Hr.
    destruct st' as [|q st]; [ub|]. rewrite (x_diff_ok C lt g K ek evl NP DP HK n p S), (x_addr_ok C K ek NP DP _ _ Hc).
    set (d' := set_next d hc (node_diff g n)).
    assert (Hcr : crl (CMerge d' n hc) (TLive (BMerge (x_rec C (d_addr d) b (TLive hb) (node_diff g n)) p hb))).
    { split; [|split; [exact S|exact Hc]]. apply (mrl_rec C lt g K ek evl NP DP HK); auto. }
    cbn [cas xcas xbind bind]. cbv zeta. apply pr_cas; auto.
    intros Hs'. apply pr_storecell. rewrite (x_need_cons_ok C lt g K ek evl NP DP HK _ _ Hcr).
    destruct (need_consolidation g (CMerge d' n hc)); [apply HS; auto|re].
  - destruct stack as [|q st].
    + pb; [apply search_target_sim; auto|]. intros x y ->. apply IH.
    + pb; [apply search_child_sim; auto|]. intros x [b0 y] ->. destruct y; apply IH.
Qed.

Lemma merge_sim xs as_ fuel c b n p stack : smos_ok xs as_ -> crl c b -> prl n p ->
  prel eq (xmerge C lt g xs fuel b p stack) (try_merge g as_ fuel c n stack).
Proof.
  intros HS Hc S. unfold xmerge, try_merge. destruct stack as [|rem_pid st]; [ub|].
  cbn [alloc bind]. apply pr_alloc. intros a m. pose proof S as (E0 & Ei & _ & HN & PK & Gl & Gh & _).
  rewrite (x_addr_ok C K ek NP DP _ _ Hc), Ei. cbn [cas xcas xbind bind]. apply pr_cas; [reflexivity| |re].
  intros _. cbn [negb]. pb; [apply delete_entry_sim; auto|]. intros od od' [<- Hl].
  assert (RR : prel eq (xbind (xremove_root C p rem_pid st) (fun rr : bool => if rr then XRet true else XStore rem_pid (TLive (BBase p)) (XRetire [a] (XRet true))))
    (bind (try_remove_root n rem_pid st) (fun rr : bool => if rr then Ret true else Store rem_pid (CBase n) (Retire [a] (Ret true))))).
  { pb; [apply remove_root_sim; auto|]. intros rr ? <-. destruct rr; [re|]. apply pr_store; [exact S|]. apply pr_retire. re. }
  destruct od as [del_a|]; [|exact RR]. destruct (Hl ltac:(discriminate)) as [k Ek]. rewrite Ek.
  cbn [alloc bind]. apply pr_alloc. intros ma mm. pb.
  - apply (merge_loop_sim xs as_ (mk_delta ma (n_inner n) DMerge k (n_high n) 0%N 0 0)); auto.
    + apply (ko_mrg _ _ _ _ _ _ _ _ HK); auto.
    + cbn. rewrite Ek in Gl. exact Gl.
  - intros _ _ _. re.
Qed.

Lemma smos_sim : forall fuel, smos_ok (xsmos C lt g fuel) (try_smos g fuel).
Proof.
  induction fuel as [|f IH]; intros c b stack Hc Hs Hb Hr; cbn [xsmos try_smos]; [apply pr_fuel|].
  destruct stack as [|p st]; [ub|]. live c b Hc Hr. cbn [xload load xbind bind]. apply pr_load. intros b' c' Hc' _.
  rewrite (x_addr_ok C K ek NP DP _ _ Hc), (x_addr_ok C K ek NP DP _ _ Hc').
  destruct (negb (h_addr c' =? h_addr c)%N); [re|]. cbn [alloc bind]. apply pr_alloc. intros a m.
  rewrite (x_size_ok C lt g K ek evl NP DP HK _ _ Hc), (x_leaf_ok C lt g K ek evl NP DP HK _ _ Hc), (x_addrs_ok C K ek NP DP _ _ Hc). cbv zeta.
  destruct (dc_sort c [] []) as [[ds ns]|] eqn:Es; [|ub]. destruct (c_maxd g <? Z.of_nat (length ds)); [ub|].
  destruct (c_page g <? h_size c) eqn:Ez.
  - cbn [alloc bind]. apply pr_alloc. intros ra rm.
    destruct (consolidate g (negb (h_leaf c)) a ra ns ds true false) as [|l r|] eqn:Ec; try ub.
    destruct (fits g l && fits g r) eqn:Ef; [|ub].
    destruct (two_ok C lt g K ek evl NP DP HK c b ds ns l r a ra m rm Hc Hs Hb Es Ec Ef Ez) as (ql & qr & -> & Sl & Sr & Ek).
    pb; [apply split_sim; eauto|]. intros _ _ _. apply pr_retire. re.
  - destruct (consolidate g (negb (h_leaf c)) a 0%N ns ds false false) as [n| |] eqn:Ec; try ub.
    destruct (fits g n) eqn:Ef; [|ub].
    destruct (one_ok C lt g K ek evl NP DP HK c b ds ns n a m m Hc Hs Hb Es Ec Ef Ez) as (q & -> & Sn).
    destruct (h_size c <=? c_min g).
    + pb; [apply (merge_sim _ _ f c (TLive b) n); auto|]. intros ok ? <-. destruct ok; [apply pr_retire|]; re.
    + cbn [cas xcas xbind bind]. apply pr_cas; [exact Sn|intros _; apply pr_retire; re|re].
Qed.

(** ** Point operations *)
Lemma read_loop_sim k : K k -> forall fuel stack,
  prel (fun x y => x = option_map evl y) (xread_loop C lt fuel (ek k) stack) (read_loop g fuel k stack).
Proof.
  intros Hk. induction fuel as [|f IH]; intros stack; cbn [xread_loop read_loop]; [apply pr_fuel|].
  destruct stack as [|p rest]; [ub|]. cbn [xload load xbind bind]. apply pr_load. intros b c Hc Hs.
  pose proof (trecord_ok C lt g K ek evl NP DP HK k c b Hk Hc Hs) as A. unfold recok in A.
  destruct (dc_search_record c k false) as [v|a| | |q|n|]; try ub.
  - destruct A as (w & -> & Hw). destruct (h_leaf c); [|ub]. re. cbn. f_equal. auto.
  - rewrite A. re.
  - rewrite A. pb; [apply search_child_sim; auto|]. intros x [b0 y] ->. apply IH.
  - rewrite A. apply IH.
  - destruct (node_search n k) as [found pos]. cbn [fst snd] in A. destruct found; [|rewrite A; re].
    destruct A as (w & -> & Hw). destruct (pay_at n pos) as [v|]; [|ub]. destruct (h_leaf c); [|ub]. re. cbn. f_equal. auto.
Qed.
Lemma read_sim k fuel : K k -> prel (fun x y => x = option_map evl y) (xread C lt fuel (ek k)) (op_read g fuel k).
Proof. intros Hk. unfold xread, op_read. pb; [apply search_leaf_sim; auto|]. intros x st ->. apply read_loop_sim; auto. Qed.

Lemma finish_sim fuel c b stack : crl c b -> sane c -> is_base c = false -> is_remove c = false ->
  prel eq (xfinish C lt g fuel b stack) (finish g fuel c stack).
Proof.
  intros Hc Hs Hb Hr. unfold xfinish, finish. rewrite (x_need_cons_ok C lt g K ek evl NP DP HK _ _ Hc).
  pb; [instantiate (1 := eq); destruct (need_consolidation g c); [apply smos_sim; auto|re]|]. intros _ _ _. re.
Qed.
Lemma leaf_crl a t k v c hb bd diff : DP (leaf_delta a t k v) bd -> K k -> crl c (TLive hb) ->
  crl (CRec (set_next (leaf_delta a t k v) c diff) c) (TLive (BRec (x_rec C a bd (TLive hb) diff) hb)).
Proof.
  intros HD Hk Hc. split; [|exact Hc]. apply (drl_rec C lt g K ek evl NP DP HK c (TLive hb) (leaf_delta a t k v)); auto.
  split; [exact Hk|]. split; [exact I|]. cbn. discriminate.
Qed.

Lemma write_loop_sim a k v : K k -> forall fuel bd t stack, DP (leaf_delta a t k v) bd -> t <> DDelete ->
  prel eq (xwrite_loop C lt g fuel a bd (ek k) stack) (write_loop g fuel a k v stack).
Proof.
  intros Hk. induction fuel as [|f IH]; intros bd t stack HD Ht; cbn [xwrite_loop write_loop]; [apply pr_fuel|].
  pb; [apply get_head_kc_sim; auto|]. intros [[hb bf] st] [[hc af] st'] (Hc & Hs & Hr & -> & ->).
  destruct st' as [|p st]; [ub|]. live hc hb Hc Hr. cbv zeta.
  rewrite (x_recsz_ok C lt g K ek evl NP DP HK), (x_addr_ok C K ek NP DP _ _ Hc).
  set (t1 := if af then DModify else DInsert).
  assert (HD1 : DP (leaf_delta a t1 k v) (k_type C bd t1)) by (eapply (ko_type _ _ _ _ _ _ _ _ HK); eauto).
  assert (Ht1 : t1 <> DDelete) by (unfold t1; destruct af; discriminate).
  set (d1 := if af then set_next (leaf_delta a DModify k v) hc 0 else set_next (leaf_delta a DInsert k v) hc (recsz g (c_paylen g) k)).
  assert (Hcr : crl (CRec d1 hc) (TLive (BRec (x_rec C a (k_type C bd t1) (TLive hb) (if af then 0 else recsz g (c_paylen g) k)) hb))).
  { unfold d1, t1 in *. destruct af; eapply leaf_crl; eauto. }
  cbn [cas xcas xbind bind]. apply pr_cas; auto.
  - intros Hs'. apply finish_sim; auto.
  - eapply IH; eauto.
Qed.
Lemma write_sim k v fuel : K k -> prel eq (xwrite C lt g fuel (ek k) (evl v)) (op_write g fuel k v).
Proof.
  intros Hk. unfold xwrite, op_write. pb; [apply search_leaf_sim; auto|]. intros x st ->. cbn [alloc bind]. apply pr_alloc. intros a m.
  apply (write_loop_sim a k v Hk fuel _ DInsert); [|discriminate]. apply (ko_put _ _ _ _ _ _ _ _ HK). auto.
Qed.

Lemma insert_loop_sim a k v bd : K k -> DP (leaf_delta a DInsert k v) bd -> forall fuel stack,
  prel eq (xinsert_loop C lt g fuel a bd (ek k) stack) (insert_loop g fuel a k v stack).
Proof.
  intros Hk HD. induction fuel as [|f IH]; intros stack; cbn [xinsert_loop insert_loop]; [apply pr_fuel|].
  pb; [apply get_head_kc_sim; auto|]. intros [[hb bf] st] [[hc af] st'] (Hc & Hs & Hr & -> & ->).
  destruct af; [re|]. destruct st' as [|p st]; [ub|]. live hc hb Hc Hr. cbv zeta.
  rewrite (x_recsz_ok C lt g K ek evl NP DP HK), (x_addr_ok C K ek NP DP _ _ Hc).
  pose proof (leaf_crl a DInsert k v hc hb bd (recsz g (c_paylen g) k) HD Hk Hc) as Hcr.
  cbn [cas xcas xbind bind]. apply pr_cas; auto. intros Hs'. apply finish_sim; auto.
Qed.
Lemma insert_sim k v fuel : K k -> prel eq (xinsert C lt g fuel (ek k) (evl v)) (op_insert g fuel k v).
Proof.
  intros Hk. unfold xinsert, op_insert. pb; [apply search_leaf_sim; auto|]. intros x st ->. cbn [alloc bind]. apply pr_alloc. intros a m.
  apply insert_loop_sim; auto. apply (ko_put _ _ _ _ _ _ _ _ HK). auto.
Qed.

Lemma update_loop_sim a k v bd : K k -> DP (leaf_delta a DModify k v) bd -> forall fuel stack,
  prel eq (xchange_loop C lt g fuel a bd 0 (ek k) stack) (update_loop g fuel a k v stack).
Proof.
  intros Hk HD. induction fuel as [|f IH]; intros stack; cbn [xchange_loop update_loop]; [apply pr_fuel|].
  pb; [apply get_head_kc_sim; auto|]. intros [[hb bf] st] [[hc af] st'] (Hc & Hs & Hr & -> & ->).
  destruct af; cbn [negb]; [|re]. destruct st' as [|p st]; [ub|]. live hc hb Hc Hr. cbv zeta.
  rewrite (x_addr_ok C K ek NP DP _ _ Hc).
  pose proof (leaf_crl a DModify k v hc hb bd 0 HD Hk Hc) as Hcr.
  cbn [cas xcas xbind bind]. apply pr_cas; auto. intros Hs'. apply finish_sim; auto.
Qed.
Lemma update_sim k v fuel : K k -> prel eq (xupdate C lt g fuel (ek k) (evl v)) (op_update g fuel k v).
Proof.
  intros Hk. unfold xupdate, op_update. pb; [apply search_leaf_sim; auto|]. intros x st ->. cbn [alloc bind]. apply pr_alloc. intros a m.
  apply update_loop_sim; auto. apply (ko_put _ _ _ _ _ _ _ _ HK). auto.
Qed.

Lemma remove_loop_sim a k bd : K k -> DP (leaf_delta a DDelete k 0%N) bd -> forall fuel stack,
  prel eq (xchange_loop C lt g fuel a bd (- recsz g (c_paylen g) k) (ek k) stack) (remove_loop g fuel a k stack).
Proof.
  intros Hk HD. induction fuel as [|f IH]; intros stack; cbn [xchange_loop remove_loop]; [apply pr_fuel|].
  pb; [apply get_head_kc_sim; auto|]. intros [[hb bf] st] [[hc af] st'] (Hc & Hs & Hr & -> & ->).
  destruct af; cbn [negb]; [|re]. destruct st' as [|p st]; [ub|]. live hc hb Hc Hr. cbv zeta.
  rewrite (x_addr_ok C K ek NP DP _ _ Hc).
  pose proof (leaf_crl a DDelete k 0%N hc hb bd (- recsz g (c_paylen g) k) HD Hk Hc) as Hcr.
  cbn [cas xcas xbind bind]. apply pr_cas; auto. intros Hs'. apply finish_sim; auto.
Qed.
Lemma delete_sim k fuel : K k -> prel eq (xdelete C lt g fuel (ek k)) (op_delete g fuel k).
Proof.
  intros Hk. unfold xdelete, op_delete. pb; [apply search_leaf_sim; auto|]. intros x st ->. cbn [alloc bind]. apply pr_alloc. intros a m.
  rewrite (x_recsz_ok C lt g K ek evl NP DP HK). apply remove_loop_sim; auto. apply (ko_del _ _ _ _ _ _ _ _ HK).
Qed.

Lemma call_sim fuel o : K (call_key o) ->
  prel (fun x y => x = enc_ret evl y) (bcall_prog C lt g fuel (enc_call ek evl o)) (call_prog g fuel o).
Proof.
  intros Hk. destruct o; cbn [enc_call bcall_prog call_prog call_key] in *.
  - pb; [apply read_sim; auto|]. intros x y ->. re.
  - pb; [apply write_sim; auto|]. intros x y ->. re.
  - pb; [apply insert_sim; auto|]. intros x y ->. re.
  - pb; [apply update_sim; auto|]. intros x y ->. re.
  - pb; [apply delete_sim; auto|]. intros x y ->. re.
Qed.
End Sim.
