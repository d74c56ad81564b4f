(** Point operations under interference. *)
From Coq Require Import ZArith NArith List Bool Lia.
From Coq Require Import ZifyBool ZifyNat ZifyN.
From Verif Require Import Config Api Page Machine Tree Spec Conc ListFacts SearchFacts ChainSpec ChainFacts
  ConsFacts Valid ConsolidateFacts SeqSmo SeqOps ConcChain ConcInv ConcSteps ConcSearch ConcSmo.
Import ListNotations.
Open Scope Z_scope.

Section Ops.
Variable g : cfg.
Hypothesis OK : cfg_ok g.
Hypothesis HO : hdr_ok g.
Hypothesis NM : no_merge g.
Notation inv := (inv g). Notation nok := (nok g). Notation rely := (rely g).
Notation step_ok := (step_ok g). Notation wp := (wp g).

Definition nval (ty : dtype) (v : val) : option val := match ty with DDelete => None | _ => Some v end.

Lemma put_wp t y0 p rest lo head a k ty v diff o f (Kf : prog rc) :
  $nd y0 p = Some (true, lo) -> stk y0 lo rest -> $hist y0 (h_addr head) = Some (p, head) ->
  need_wait g head = false -> in_rng lo (c_hi head) k -> fr t y0 a -> $stat y0 t = SPend o ->
  match ty with
  | DInsert => lget head k = None /\ diff = recsz g (c_paylen g) k
  | DModify => lget head k <> None /\ diff = 0
  | DDelete => lget head k <> None /\ diff = - recsz g (c_paylen g) k
  | DMerge => False
  end ->
  (forall M : smap, M k = lget head k -> spec M o = (RCode Success, sset M k (nval ty v))) ->
  (forall y, rely t y0 y -> inv y -> wp t Kf (fun r z => $stat z t = SDone (RCode r)) y) ->
  let d := set_next (leaf_delta a ty k v) head diff in
  wp t (bind (cas true p (h_addr head) (CRec d head))
          (fun ok => if ok then finish g f (CRec d head) (p :: rest) else Kf))
    (fun r z => $stat z t = SDone (RCode r)) y0.
Proof.
  intros E S Hh Hw Rk Fa So Hd Hsp HK d. cbn [bind cas wp]. intros y R Hi.
  pose proof (r_nd _ _ _ _ R _ _ E) as Ey. pose proof (r_hist _ _ _ _ R _ _ Hh) as Hhy.
  pose proof (fr_rely _ _ _ _ _ R Fa) as (A1 & A2 & A3).
  assert (Soy : $stat y t = SPend o) by (rewrite (r_stat _ _ _ _ R); auto).
  split; [|apply step_nop; auto]. intros c0 T A0.
  assert (c0 = head) by (eapply hist_same; eauto). subst c0.
  pose proof (nok_at _ _ _ _ _ _ Hi Ey T) as Hc. pose proof (n_wf _ _ _ _ _ _ Hc) as W.
  pose proof (n_lo _ _ _ _ _ _ Hc) as Elo. destruct (lwf_sorted _ _ W) as [Hs _].
  assert (HG : lget head k = $cont y k) by (eapply (i_con _ _ Hi); eauto).
  assert (Sp : spec ($cont y) o = (RCode Success, sset ($cont y) k (nval ty v))) by (apply Hsp; auto).
  pose proof (recsz_leaf g OK k) as Rz.
  assert (Hq : h_size head <= c_page g /\ (is_base head = false -> h_cnt head < c_maxd g)).
  { unfold need_wait in Hw. destruct (is_base head) eqn:Eb; cbn [negb andb] in Hw.
    - split; [apply (n_bse _ _ _ _ _ _ Hc); auto|discriminate].
    - split; [lia|intros; lia]. }
  assert (Na : ~ In a (chain_addrs head)).
  { intros Hin. pose proof (n_ast _ _ _ _ _ _ Hc _ Hin) as Q. rewrite (i_fre _ _ Hi _ A2) in Q. discriminate. }
  assert (Lg : forall x, lget (CRec d head) x = if x =? k then nval ty v else lget head x).
  { intros x. unfold lget, d. cbn [lrecs set_next leaf_delta d_type d_key d_pay].
    destruct ty; try contradiction; rewrite ?find_put, ?find_del by auto; auto. }
  eapply step_mono; [|eapply (step_replace g t y p true lo head (CRec d head) [] ($tok y)
    (snd (spec ($cont y) o)) (tset ($stat y) t (SDone (fst (spec ($cont y) o)))))]; auto.
  - intros z Hz (N1 & N2 & N3 & N4 & N5 & N6 & N7 & N8 & N9).
    assert (Sz : $stat z t = SDone (RCode Success)).
    { rewrite N5, Sp. unfold tset. rewrite Nat.eqb_refl. auto. }
    unfold finish. apply wp_bind. destruct (need_consolidation g (CRec d head)); [|cbn [wp]; auto].
    eapply wp_mono; [|apply smo_wp; auto].
    + intros u w Kw. cbn [wp]. rewrite (k_stat _ _ _ Kw). auto.
    + exists p, rest, true, lo. split; auto. rewrite N1, N4. split; auto. split; [|auto].
      eapply stk_mono; [|exact S]. intros q u Hq2. rewrite N1. apply (r_nd _ _ _ _ R); auto.
  - apply not_wait; auto.
  - cbn [lwf]. split; auto. split; auto. rewrite Elo. split; auto. split; [reflexivity|].
    unfold lget in Hd, HG. cbn. destruct ty; try contradiction; destruct Hd as [Hd ->]; auto.
    + split; [|lia]. destruct (find k (lrecs head)); [eauto|congruence].
    + split; [|lia]. destruct (find k (lrecs head)); [eauto|congruence].
  - discriminate.
  - cbn. destruct ty; try contradiction; destruct Hd as [_ ->]; lia.
  - intros _. cbn. pose proof (ok_thr g OK). destruct (is_base head); [lia|]. destruct Hq as [_ Hq]. specialize (Hq eq_refl). lia.
  - discriminate.
  - discriminate.
  - cbn [chain_addrs]. constructor; auto. apply (n_dup _ _ _ _ _ _ Hc).
  - cbn [chain_addrs]. intros b [<-|Hb]; auto.
  - intros b [].
  - right. exists o. auto.
  - intros _ x Hx. rewrite Lg, Sp. cbn [snd]. unfold sset. destruct (x =? k); auto. eapply (i_con _ _ Hi); eauto.
  - intros x. rewrite Sp. cbn [snd]. unfold sset. destruct (Z.eqb_spec x k) as [->|]; auto.
Qed.

(** Failing calls and reads take effect at a load. *)
Lemma lin_at t y (o : call) (r : ret) {B} (m : prog B) (Q : B -> world -> Prop) : inv y -> $stat y t = SPend o ->
  spec ($cont y) o = (r, $cont y) -> (forall z, $stat z t = SDone r -> wp t m Q z) ->
  step_ok t y (w_s y) (wp t m Q).
Proof.
  intros Hi So Sp H. eapply step_mono; [|eapply step_lin; eauto].
  - intros z Hz (_ & Sz). rewrite Sp in Sz. auto.
  - rewrite Sp. auto.
Qed.

Notation done t := (fun r z => $stat z t = SDone (RCode r)).

Lemma has_none (o : option val) : has o = false -> o = None. Proof. destruct o; auto; discriminate. Qed.
Lemma has_some (o : option val) : has o = true -> o <> None. Proof. destruct o; discriminate. Qed.

Ltac prep :=
  match goal with Hr : ConcInv.rely _ ?t ?x ?y, Hi : ConcInv.inv _ ?y, Hc : ConcInv.nok _ ?y ?p true ?lo ?head |- _ =>
    pose proof (n_his _ _ _ _ _ _ Hc) as Hh;
    pose proof (n_tbl _ _ _ _ _ _ Hc) as T
  end.

Lemma retry_stk t y z k lo p rest (hi : option key) : rely t y z -> $nd y p = Some (true, lo) -> stk y lo rest -> in_rng lo hi k ->
  tstk z k true (p :: rest).
Proof.
  intros R E S [A _]. eapply tstk_mono; [apply (r_nd _ _ _ _ R)|]. exists p, rest, lo. auto.
Qed.

Lemma write_wp t a k v : forall fuel x stack, tstk x k true stack -> fr t x a -> $stat x t = SPend (KWrite k v) ->
  wp t (write_loop g fuel a k v stack) (done t) x.
Proof.
  induction fuel as [|f IH]; intros x stack Ht Fa So; [exact I|]. cbn [write_loop].
  apply get_kc_wp; auto. intros y head p rest lo Hr Hi Hc E S Hw Rk. prep. apply step_nop; auto.
  pose proof (fr_rely _ _ _ _ _ Hr Fa) as Fay.
  assert (Soy : $stat y t = SPend (KWrite k v)) by (rewrite (r_stat _ _ _ _ Hr); auto).
  assert (Rt : forall z, rely t y z -> inv z -> wp t (write_loop g f a k v (p :: rest)) (done t) z).
  { intros z Rz Hz. apply IH; [eapply retry_stk; eauto|eapply fr_rely; eauto|]. rewrite (r_stat _ _ _ _ Rz). auto. }
  destruct (has (lget head k)) eqn:Eh.
  - eapply (put_wp t y p rest lo head a k DModify v 0); eauto; split; auto; apply has_some; auto.
  - eapply (put_wp t y p rest lo head a k DInsert v); eauto; split; auto; apply has_none; auto.
Qed.

Lemma insert_wp t a k v : forall fuel x stack, tstk x k true stack -> fr t x a -> $stat x t = SPend (KInsert k v) ->
  wp t (insert_loop g fuel a k v stack) (done t) x.
Proof.
  induction fuel as [|f IH]; intros x stack Ht Fa So; [exact I|]. cbn [insert_loop].
  apply get_kc_wp; auto. intros y head p rest lo Hr Hi Hc E S Hw Rk. prep.
  pose proof (fr_rely _ _ _ _ _ Hr Fa) as Fay.
  assert (Soy : $stat y t = SPend (KInsert k v)) by (rewrite (r_stat _ _ _ _ Hr); auto).
  assert (HG : lget head k = $cont y k) by (eapply (i_con _ _ Hi); eauto).
  destruct (has (lget head k)) eqn:Eh.
  - eapply lin_at; eauto. cbn [spec]. rewrite <- HG.
    destruct (lget head k); [reflexivity|discriminate].
  - apply step_nop; auto. apply has_none in Eh.
    eapply (put_wp t y p rest lo head a k DInsert v); eauto.
    + intros M HM. cbn [spec]. rewrite HM, Eh. auto.
    + intros z Rz Hz. apply IH; [eapply retry_stk; eauto|eapply fr_rely; eauto|]. rewrite (r_stat _ _ _ _ Rz). auto.
Qed.

Lemma update_wp t a k v : forall fuel x stack, tstk x k true stack -> fr t x a -> $stat x t = SPend (KUpdate k v) ->
  wp t (update_loop g fuel a k v stack) (done t) x.
Proof.
  induction fuel as [|f IH]; intros x stack Ht Fa So; [exact I|]. cbn [update_loop].
  apply get_kc_wp; auto. intros y head p rest lo Hr Hi Hc E S Hw Rk. prep.
  pose proof (fr_rely _ _ _ _ _ Hr Fa) as Fay.
  assert (Soy : $stat y t = SPend (KUpdate k v)) by (rewrite (r_stat _ _ _ _ Hr); auto).
  assert (HG : lget head k = $cont y k) by (eapply (i_con _ _ Hi); eauto).
  destruct (has (lget head k)) eqn:Eh; cbn [negb].
  - apply step_nop; auto. apply has_some in Eh.
    eapply (put_wp t y p rest lo head a k DModify v 0); eauto.
    + intros M HM. cbn [spec]. rewrite HM. destruct (lget head k); [auto|congruence].
    + intros z Rz Hz. apply IH; [eapply retry_stk; eauto|eapply fr_rely; eauto|]. rewrite (r_stat _ _ _ _ Rz). auto.
  - eapply lin_at; eauto. cbn [spec]. rewrite <- HG.
    destruct (lget head k); [discriminate|reflexivity].
Qed.

Lemma remove_wp t a k : forall fuel x stack, tstk x k true stack -> fr t x a -> $stat x t = SPend (KDelete k) ->
  wp t (remove_loop g fuel a k stack) (done t) x.
Proof.
  induction fuel as [|f IH]; intros x stack Ht Fa So; [exact I|]. cbn [remove_loop].
  apply get_kc_wp; auto. intros y head p rest lo Hr Hi Hc E S Hw Rk. prep.
  pose proof (fr_rely _ _ _ _ _ Hr Fa) as Fay.
  assert (Soy : $stat y t = SPend (KDelete k)) by (rewrite (r_stat _ _ _ _ Hr); auto).
  assert (HG : lget head k = $cont y k) by (eapply (i_con _ _ Hi); eauto).
  destruct (has (lget head k)) eqn:Eh; cbn [negb].
  - apply step_nop; auto. apply has_some in Eh.
    eapply (put_wp t y p rest lo head a k DDelete 0%N); eauto.
    + intros M HM. cbn [spec]. rewrite HM. destruct (lget head k); [auto|congruence].
    + intros z Rz Hz. apply IH; [eapply retry_stk; eauto|eapply fr_rely; eauto|]. rewrite (r_stat _ _ _ _ Rz). auto.
  - eapply lin_at; eauto. cbn [spec]. rewrite <- HG.
    destruct (lget head k); [discriminate|reflexivity].
Qed.

(** ** A call, from its invocation to its response *)
Lemma call_wp t fuel o x : $stat x t = SPend o -> wp t (call_prog g fuel o) (fun r y => $stat y t = SDone r) x.
Proof.
  intros So. destruct o as [k|k v|k v|k v|k]; cbn [call_prog].
  - unfold op_read. apply wp_assoc, wp_bind. eapply wp_mono; [|apply search_leaf_wp].
    intros st y [Hr Hs]. apply read_loop_wp; auto. intros z Rz Hz.
    eapply (lin_at t z (KRead k)); auto; [|reflexivity|].
    + rewrite (r_stat _ _ _ _ Rz), (r_stat _ _ _ _ Hr). auto.
    + intros w Hw. exact Hw.
  - apply wp_bind. unfold op_write. apply wp_bind. eapply wp_mono; [|apply search_leaf_wp].
    intros st y [Hr Hs]. cbn [bind alloc]. apply wp_alloc. intros y1 a R1 Fa Hi1 _. cbn [bind].
    apply write_wp; auto; [eapply tstk_mono; [apply (r_nd _ _ _ _ R1)|auto]|].
    rewrite (r_stat _ _ _ _ R1), (r_stat _ _ _ _ Hr). auto.
  - apply wp_bind. unfold op_insert. apply wp_bind. eapply wp_mono; [|apply search_leaf_wp].
    intros st y [Hr Hs]. cbn [bind alloc]. apply wp_alloc. intros y1 a R1 Fa Hi1 _. cbn [bind].
    apply insert_wp; auto; [eapply tstk_mono; [apply (r_nd _ _ _ _ R1)|auto]|].
    rewrite (r_stat _ _ _ _ R1), (r_stat _ _ _ _ Hr). auto.
  - apply wp_bind. unfold op_update. apply wp_bind. eapply wp_mono; [|apply search_leaf_wp].
    intros st y [Hr Hs]. cbn [bind alloc]. apply wp_alloc. intros y1 a R1 Fa Hi1 _. cbn [bind].
    apply update_wp; auto; [eapply tstk_mono; [apply (r_nd _ _ _ _ R1)|auto]|].
    rewrite (r_stat _ _ _ _ R1), (r_stat _ _ _ _ Hr). auto.
  - apply wp_bind. unfold op_delete. apply wp_bind. eapply wp_mono; [|apply search_leaf_wp].
    intros st y [Hr Hs]. cbn [bind alloc]. apply wp_alloc. intros y1 a R1 Fa Hi1 _. cbn [bind].
    apply remove_wp; auto; [eapply tstk_mono; [apply (r_nd _ _ _ _ R1)|auto]|].
    rewrite (r_stat _ _ _ _ R1), (r_stat _ _ _ _ Hr). auto.
Qed.
End Ops.
