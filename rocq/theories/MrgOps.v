(** Point operations under interference, with node merging and the root in place. *)
From Coq Require Import ZArith NArith List Bool Lia.
From Coq Require Import ZifyBool ZifyNat ZifyN.
From Verif Require Import Config Api Page Machine Tree Spec Conc ListFacts SearchFacts ChainFacts
  ConsFacts Valid ConsolidateFacts SeqSpec LevelFacts SeqSmo SeqAux SeqOps MrgInv MrgSteps MrgSearch MrgSmo.
Import ListNotations.
Open Scope Z_scope.

Section Ops.
Variable g : cfg.
Hypothesis OK : cfg_ok g.
Variable A0 : addr.
Variable R0 : pid.
Variable L0 : nat.
Notation inv := (inv g A0 R0 L0). Notation cok := (cok g A0). Notation rely := (rely g A0).
Notation step_ok := (step_ok g A0 R0 L0). Notation wp := (wp g A0 R0 L0). Notation fr := (fr A0).
Notation ext := (ext A0). Notation stable := (stable R0). Notation keep := (keep A0).
Notation step_nop := (step_nop g A0 R0 L0). Notation rely_trans := (rely_trans g A0).
Notation bstk := (bstk L0). Notation hgot := (hgot g L0).
Notation done t := (fun r z => $stat z t = SDone (RCode r)).

Definition nval (ty : dtype) (v : val) : option val := match ty with DDelete => None | _ => Some v end.

Lemma put_wp t y0 p rest head a k ty v diff o f (Kf : prog rc) :
  hgot y0 O k head (p :: rest) -> fr t y0 a -> $stat y0 t = SPend o ->
  match ty with
  | DInsert => lget head k = None /\ diff = recsz g (c_paylen g) k
  | DModify => lget head k <> None /\ diff = 0
  | DDelete => lget head k <> None /\ diff = - recsz g (c_paylen g) k
  | DMerge => False
  end ->
  (forall M : smap, M k = lget head k -> spec M o = (RCode Success, sset M k (nval ty v))) ->
  (forall y, rely t y0 y -> inv y -> wp t Kf (done t) y) ->
  let d := set_next (leaf_delta a ty k v) head diff in
  wp t (bind (cas true p (h_addr head) (CRec d head))
          (fun ok => if ok then finish g f (CRec d head) (p :: rest) else Kf)) (done t) y0.
Proof.
  intros Hg Fa So Hd Hsp HK d. cbn [bind cas wp]. intros y (R & Hi & Hst).
  pose proof (hgot_rely g A0 L0 t y0 y _ _ _ _ R Hg) as Hgy.
  destruct Hgy as (p' & rest' & lo & Ep & Ey & Hhy & Rc & Hw & Rk & Sr). injection Ep as <- <-.
  assert (Fay : fr t y a) by (apply (r_free _ _ _ _ _ R); auto).
  assert (Soy : $stat y t = SPend o) by (rewrite (r_stat _ _ _ _ _ R); auto).
  split; [congruence|]. split; [|apply step_nop; auto]. intros c0 T Ea.
  assert (c0 = head) by (eapply (hist_same g A0 R0 L0 y p); eauto). subst c0.
  destruct (live_at _ _ _ _ _ _ _ _ _ Hi Ey T Rc) as (Elim & Cc & Kc).
  pose proof (n_sok _ _ _ _ _ _ _ Kc) as Sk. pose proof (s_wf _ _ _ Sk) as W. cbn [inn cwf] in W.
  pose proof (n_lo _ _ _ _ _ _ _ Kc) as Elo. destruct (lwf_sorted _ _ W) as [Hs _].
  destruct (nw_bound g OK _ _ Sk Hw) as [B1 B2].
  assert (HG : lget head k = $cont y k) by (eapply (i_con _ _ _ _ _ Hi); eauto).
  assert (Sp : spec ($cont y) o = (RCode Success, sset ($cont y) k (nval ty v))) by (apply Hsp; auto).
  pose proof (recsz_leaf g OK k) as Rz. pose proof (maxrec_excess g) as Mx.
  assert (Lg : forall x, lget (CRec d head) x = if x =? k then nval ty v else lget head x).
  { intros x. unfold lget, d. cbn [lrecs set_next leaf_delta d_type d_key d_pay].
    destruct ty; try contradiction; rewrite ?find_put, ?find_del by auto; auto. }
  eapply step_mono; [|eapply (step_replace g A0 R0 L0 t y p O lo head (CRec d head) (CRec d head) LLive ($tok y) ($dele y)
    (snd (spec ($cont y) o)) (tset ($stat y) t (SDone (fst (spec ($cont y) o)))))]; auto.
  - intros z Hz _ (G & Sz & X).
    assert (Stz : $stat z t = SDone (RCode Success)).
    { rewrite G, Sp. cbn. unfold tset. rewrite Nat.eqb_refl. auto. }
    unfold finish. apply wp_bind. destruct (need_consolidation g (CRec d head)); [|cbn [MrgInv.wp]; auto].
    eapply wp_mono; [|apply (smo_wp g OK A0 R0 L0); auto].
    + intros u w Kw. cbn [MrgInv.wp]. rewrite (k_stat _ _ _ _ Kw). auto.
    + exists p, rest, O, lo. split; auto. split; [rewrite G; auto|].
      split; [eapply bstk_ext; eauto|]. change (h_addr (CRec d head)) with a.
      split; [rewrite G; cbn; unfold upd2; rewrite !N.eqb_refl; auto|].
      split; [rewrite G; apply Fay|]. split; [rewrite Sz; apply Fay|]. auto.
  - intros co Tco. rewrite T in Tco. injection Tco as <-. eapply not_wait; eauto.
  - intros u n Eu. congruence.
  - constructor; cbn [is_base h_size h_cnt set_next d_size d_cnt d leaf_delta].
    + cbn [inn cwf lwf]. split; auto. split; auto. rewrite Elo. split; auto. split; [reflexivity|].
      unfold lget in Hd, HG. cbn. destruct ty; try contradiction; destruct Hd as [Hd ->]; auto.
      * split; [|lia]. destruct (find k (lrecs head)); [eauto|congruence].
      * split; [|lia]. destruct (find k (lrecs head)); [eauto|congruence].
    + discriminate.
    + destruct ty; try contradiction; destruct Hd as [_ ->]; lia.
    + intros _. exact B2.
  - discriminate.
  - intros Q. congruence.
  - intros q Eq. destruct Fay as (_ & _ & _ & Fay). change (h_addr (CRec d head)) with a in Eq. congruence.
  - right. exists o. auto.
  - intros _ x Hx. rewrite Lg, Sp. cbn [snd]. unfold sset. destruct (x =? k); auto. eapply (i_con _ _ _ _ _ Hi); eauto.
  - intros x. rewrite Sp. cbn [snd]. unfold sset. destruct (Z.eqb_spec x k) as [->|]; auto.
Qed.

(** Failing calls and reads take effect at a load. *)
Lemma lin_at t y (o : call) (r : ret) {B} (m : prog B) (Q : B -> world -> Prop) : inv y -> $stat y t = SPend o ->
  spec ($cont y) o = (r, $cont y) -> (forall z, $stat z t = SDone r -> wp t m Q z) ->
  step_ok t y (w_s y) (wp t m Q).
Proof.
  intros Hi So Sp H. eapply step_mono; [|eapply step_lin; eauto].
  - intros z Hz _ (_ & Sz). rewrite Sp in Sz. auto.
  - rewrite Sp. auto.
Qed.

Lemma has_none (o : option val) : has o = false -> o = None. Proof. destruct o; auto; discriminate. Qed.
Lemma has_some (o : option val) : has o = true -> o <> None. Proof. destruct o; discriminate. Qed.

Lemma retry t y z k head st (m : list pid -> prog rc) :
  (forall x st, st <> [] -> bstk x O (Some k) st -> rely t y x -> wp t (m st) (done t) x) ->
  rely t y z -> hgot y O k head st -> wp t (m st) (done t) z.
Proof.
  intros H R Hg. pose proof (hgot_rely g A0 L0 t y z _ _ _ _ R Hg) as Hz. apply H; auto.
  - destruct Hz as (? & ? & ? & -> & _). discriminate.
  - apply (hgot_bstk g L0 z O k head); auto.
Qed.

Lemma write_wp t a k v : forall fuel x stack, stack <> [] -> bstk x O (Some k) stack -> fr t x a ->
  $stat x t = SPend (KWrite k v) -> wp t (write_loop g fuel a k v stack) (done t) x.
Proof.
  induction fuel as [|f IH]; intros x stack Hne S Fa So; [exact I|]. cbn [write_loop].
  apply get_kc_wp; auto. intros y head st p rest lo Hr Hi Hs -> Hg E Cc Rk. apply step_nop; auto.
  pose proof (r_free _ _ _ _ _ Hr _ Fa) as Fay.
  assert (Soy : $stat y t = SPend (KWrite k v)) by (rewrite (r_stat _ _ _ _ _ Hr); auto).
  assert (Rt : forall z, rely t y z -> inv z -> wp t (write_loop g f a k v (p :: rest)) (done t) z).
  { intros z Rz Hz. eapply (retry t y z k head); eauto. intros w st N1 N2 N3. apply IH; auto.
    - apply (r_free _ _ _ _ _ N3); auto.
    - rewrite (r_stat _ _ _ _ _ N3); auto. }
  destruct (has (lget head k)) eqn:Eh.
  - eapply (put_wp t y p rest head a k DModify v 0); eauto; split; auto; apply has_some; auto.
  - eapply (put_wp t y p rest head a k DInsert v); eauto; split; auto; apply has_none; auto.
Qed.

Lemma insert_wp t a k v : forall fuel x stack, stack <> [] -> bstk x O (Some k) stack -> fr t x a ->
  $stat x t = SPend (KInsert k v) -> wp t (insert_loop g fuel a k v stack) (done t) x.
Proof.
  induction fuel as [|f IH]; intros x stack Hne S Fa So; [exact I|]. cbn [insert_loop].
  apply get_kc_wp; auto. intros y head st p rest lo Hr Hi Hs -> Hg E Cc Rk.
  pose proof (r_free _ _ _ _ _ Hr _ Fa) as Fay.
  assert (Soy : $stat y t = SPend (KInsert k v)) by (rewrite (r_stat _ _ _ _ _ Hr); auto).
  assert (HG : lget head k = $cont y k) by (eapply (i_con _ _ _ _ _ Hi); eauto).
  destruct (has (lget head k)) eqn:Eh.
  - eapply lin_at; eauto. cbn [spec]. rewrite <- HG.
    destruct (lget head k); [reflexivity|discriminate].
  - apply step_nop; auto. apply has_none in Eh.
    eapply (put_wp t y p rest head a k DInsert v); eauto.
    + intros M HM. cbn [spec]. rewrite HM, Eh. auto.
    + intros z Rz Hz. eapply (retry t y z k head); eauto. intros w st N1 N2 N3. apply IH; auto.
      * apply (r_free _ _ _ _ _ N3); auto.
      * rewrite (r_stat _ _ _ _ _ N3); auto.
Qed.

Lemma update_wp t a k v : forall fuel x stack, stack <> [] -> bstk x O (Some k) stack -> fr t x a ->
  $stat x t = SPend (KUpdate k v) -> wp t (update_loop g fuel a k v stack) (done t) x.
Proof.
  induction fuel as [|f IH]; intros x stack Hne S Fa So; [exact I|]. cbn [update_loop].
  apply get_kc_wp; auto. intros y head st p rest lo Hr Hi Hs -> Hg E Cc Rk.
  pose proof (r_free _ _ _ _ _ Hr _ Fa) as Fay.
  assert (Soy : $stat y t = SPend (KUpdate k v)) by (rewrite (r_stat _ _ _ _ _ Hr); auto).
  assert (HG : lget head k = $cont y k) by (eapply (i_con _ _ _ _ _ Hi); eauto).
  destruct (has (lget head k)) eqn:Eh; cbn [negb].
  - apply step_nop; auto. apply has_some in Eh.
    eapply (put_wp t y p rest head a k DModify v 0); eauto.
    + intros M HM. cbn [spec]. rewrite HM. destruct (lget head k); [auto|congruence].
    + intros z Rz Hz. eapply (retry t y z k head); eauto. intros w st N1 N2 N3. apply IH; auto.
      * apply (r_free _ _ _ _ _ N3); auto.
      * rewrite (r_stat _ _ _ _ _ N3); auto.
  - eapply lin_at; eauto. cbn [spec]. rewrite <- HG.
    destruct (lget head k); [discriminate|reflexivity].
Qed.

Lemma remove_wp t a k : forall fuel x stack, stack <> [] -> bstk x O (Some k) stack -> fr t x a ->
  $stat x t = SPend (KDelete k) -> wp t (remove_loop g fuel a k stack) (done t) x.
Proof.
  induction fuel as [|f IH]; intros x stack Hne S Fa So; [exact I|]. cbn [remove_loop].
  apply get_kc_wp; auto. intros y head st p rest lo Hr Hi Hs -> Hg E Cc Rk.
  pose proof (r_free _ _ _ _ _ Hr _ Fa) as Fay.
  assert (Soy : $stat y t = SPend (KDelete k)) by (rewrite (r_stat _ _ _ _ _ Hr); auto).
  assert (HG : lget head k = $cont y k) by (eapply (i_con _ _ _ _ _ Hi); eauto).
  destruct (has (lget head k)) eqn:Eh; cbn [negb].
  - apply step_nop; auto. apply has_some in Eh.
    eapply (put_wp t y p rest head a k DDelete 0%N); eauto.
    + intros M HM. cbn [spec]. rewrite HM. destruct (lget head k); [auto|congruence].
    + intros z Rz Hz. eapply (retry t y z k head); eauto. intros w st N1 N2 N3. apply IH; auto.
      * apply (r_free _ _ _ _ _ N3); auto.
      * rewrite (r_stat _ _ _ _ _ N3); auto.
  - eapply lin_at; eauto. cbn [spec]. rewrite <- HG.
    destruct (lget head k); [discriminate|reflexivity].
Qed.

(** ** A call, from its invocation to its response *)
Lemma call_wp t fuel o x : $stat x t = SPend o -> wp t (call_prog g fuel o) (fun r y => $stat y t = SDone r) x.
Proof.
  intros So. destruct o as [k|k v|k v|k v|k]; cbn [call_prog].
  - unfold op_read. apply wp_assoc, wp_bind. eapply wp_mono; [|apply search_leaf_wp].
    intros st y (Hr & Hn & Hs). apply read_loop_wp; auto. intros z Rz Hz.
    eapply (lin_at t z (KRead k)); auto; [|reflexivity|].
    + rewrite (r_stat _ _ _ _ _ Rz), (r_stat _ _ _ _ _ Hr). auto.
    + intros w Hw. exact Hw.
  - apply wp_bind. unfold op_write. apply wp_bind. eapply wp_mono; [|apply search_leaf_wp].
    intros st y (Hr & Hn & Hs). cbn [bind alloc]. apply wp_alloc. intros y1 a R1 Fa Hi1 _ _. cbn [bind].
    apply write_wp; auto; [eapply bstk_rely; eauto|].
    rewrite (r_stat _ _ _ _ _ R1), (r_stat _ _ _ _ _ Hr). auto.
  - apply wp_bind. unfold op_insert. apply wp_bind. eapply wp_mono; [|apply search_leaf_wp].
    intros st y (Hr & Hn & Hs). cbn [bind alloc]. apply wp_alloc. intros y1 a R1 Fa Hi1 _ _. cbn [bind].
    apply insert_wp; auto; [eapply bstk_rely; eauto|].
    rewrite (r_stat _ _ _ _ _ R1), (r_stat _ _ _ _ _ Hr). auto.
  - apply wp_bind. unfold op_update. apply wp_bind. eapply wp_mono; [|apply search_leaf_wp].
    intros st y (Hr & Hn & Hs). cbn [bind alloc]. apply wp_alloc. intros y1 a R1 Fa Hi1 _ _. cbn [bind].
    apply update_wp; auto; [eapply bstk_rely; eauto|].
    rewrite (r_stat _ _ _ _ _ R1), (r_stat _ _ _ _ _ Hr). auto.
  - apply wp_bind. unfold op_delete. apply wp_bind. eapply wp_mono; [|apply search_leaf_wp].
    intros st y (Hr & Hn & Hs). cbn [bind alloc]. apply wp_alloc. intros y1 a R1 Fa Hi1 _ _. cbn [bind].
    apply remove_wp; auto; [eapply bstk_rely; eauto|].
    rewrite (r_stat _ _ _ _ _ R1), (r_stat _ _ _ _ _ Hr). auto.
Qed.
End Ops.
