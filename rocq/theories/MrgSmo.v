(** Structure modifications under interference, with node merging and the root in place. *)
From Coq Require Import ZArith NArith List Bool Lia.
From Coq Require Import ZifyBool ZifyNat ZifyN.
From Verif Require Import Config Api Page Machine Tree Spec Conc ListFacts SearchFacts ChainFacts
  ConsFacts Valid ConsolidateFacts SeqSpec LevelFacts SeqSmo SeqAux SeqOps MrgInv MrgSteps MrgSearch.
From Verif Require GcFacts.
Import ListNotations.
Open Scope Z_scope.

Section Smo.
Variable g : cfg.
Hypothesis OK : cfg_ok g.
Variable A0 : addr.
Variable R0 : pid.
Variable L0 : nat.
Notation inv := (inv g A0 R0 L0). Notation cok := (cok g A0). Notation rely := (rely g A0).
Notation step_ok := (step_ok g A0 R0 L0). Notation wp := (wp g A0 R0 L0). Notation fr := (fr A0).
Notation ext := (ext A0). Notation stable := (stable R0). Notation keep := (keep A0).
Notation step_nop := (step_nop g A0 R0 L0). Notation rely_trans := (rely_trans g A0).
Notation rely_ext := (rely_ext g A0). Notation rely_keep := (rely_keep g A0). Notation keep_trans := (keep_trans A0).
Notation bstk := (bstk L0). Notation hgot := (hgot g L0). Notation big := (big g). Notation sok := (sok g).
Notation rok := (rok A0).

Lemma excess_pos : 0 < excess g.
Proof. pose proof (nullsz_bound g OK). pose proof (maxrec_excess g). lia. Qed.
Lemma min_excess : c_min g <= excess g. Proof. unfold excess. lia. Qed.

Lemma not_wait head : need_wait g head = false -> ~ big head.
Proof. unfold need_wait, MrgInv.big. intros H [B S]. rewrite B in H. cbn in H. lia. Qed.

Lemma nw_bound l head : sok l head -> need_wait g head = false -> h_size head <= c_page g /\ next_cnt head <= c_maxd g.
Proof.
  intros S H. unfold need_wait, next_cnt in *. pose proof (ok_thr g OK). destruct (is_base head) eqn:B; cbn [negb andb] in H.
  - split; [apply (s_bse _ _ _ S); auto|lia].
  - split; lia.
Qed.

(** ** Fresh addresses and page IDs *)
Definition fp (t : tid) (x : world) (p : pid) : Prop := $pown x p = t /\ $nd x p = None /\ (0 < p < $npid x)%N.
Lemma fp_rely t x y p : rely t x y -> fp t x p -> fp t y p /\ $tbl y p = $tbl x p.
Proof.
  intros R (A & B & C). destruct (r_priv _ _ _ _ _ R p) as [E1 E2]; auto; [lia|]. split; auto.
  split; [rewrite (r_pown _ _ _ _ _ R); auto; lia|]. split; auto. pose proof (r_npi _ _ _ _ _ R). lia.
Qed.

Lemma wp_alloc t {B} (K : addr -> prog B) Q x :
  (forall y a, rely t x y -> fr t y a -> inv y -> stable (w_s y) -> ($naddr x <= a)%N -> wp t (K a) Q y) ->
  wp t (Alloc K) Q x.
Proof.
  intros H. cbn [wp]. intros y (Hr & Hi & Hs). eapply step_mono; [|apply step_alloc; auto].
  intros z Hz Hsz (A & B0). apply H; auto; [eapply rely_trans; eauto|]. apply (r_nad _ _ _ _ _ Hr).
Qed.
Lemma wp_newpid t {B} (K : pid -> prog B) Q x :
  (forall y p, rely t x y -> fp t y p -> inv y -> wp t (K p) Q y) -> wp t (NewPid K) Q x.
Proof.
  intros H. cbn [wp]. intros y (Hr & Hi & Hs). eapply step_mono; [|apply step_newpid; auto].
  intros z Hz _ (A & B0 & C & D). apply H; auto; [eapply rely_trans; eauto|]. split; auto.
Qed.
(** An address allocated later is not one of the base world. *)
Lemma new_fr t x0 x a : keep t x0 x -> ($naddr x <= a)%N -> ~ fr t x0 a.
Proof. intros K H F. apply (k_fr _ _ _ _ K) in F. destruct F as (F & _). lia. Qed.

(** ** The effect of [step_replace] *)
Lemma rep_keep t x0 y z p ct lm tok' dele' cont' stat' : keep t x0 y -> ext y z ->
  w_g z = mk_gh ($nd y) (upd ($lim y) p lm) ($pown y) (upd2 ($hist y) p (h_addr ct) (Some ct)) ($own y)
            dele' tok' cont' stat' ->
  w_s z = set_tbl (w_s y) p (Some ct) ->
  stat' t = $stat y t ->
  fr t y (h_addr ct) -> ~ fr t x0 (h_addr ct) ->
  (forall k m, $tok x0 k = TkPend t m -> $tok y k = TkPend t m -> tok' k = TkPend t m) ->
  (forall n, $lim x0 p = LRem t n -> lm = LRem t n) ->
  (forall a, a <> h_addr ct -> dele' a = $dele y a) ->
  keep t x0 z /\ $hist z p (h_addr ct) = Some ct /\ $own z (h_addr ct) = t /\ (h_addr ct < $naddr z)%N.
Proof.
  intros K X G S Es F NF HT HL HD.
  assert (Hh : forall q a v, $hist y q a = Some v -> $hist z q a = Some v).
  { intros q a v E. rewrite G. cbn. unfold upd2. destruct (N.eqb_spec q p) as [->|]; cbn; auto.
    destruct (N.eqb_spec a (h_addr ct)) as [->|]; auto. destruct F as (_ & _ & F & _). congruence. }
  split.
  - constructor.
    + eapply ext_trans; [apply K|auto].
    + intros q a v E. apply Hh. apply (k_hist _ _ _ _ K). auto.
    + rewrite G. cbn. rewrite Es. apply K.
    + intros k m E. rewrite G. cbn. apply HT; auto. apply (k_tok _ _ _ _ K). auto.
    + intros q n E. rewrite G. cbn. unfold upd. destruct (N.eqb_spec q p) as [->|]; [apply HL; auto|].
      apply (k_rem _ _ _ _ K). auto.
    + intros a Fa. assert (Ha : a <> h_addr ct) by congruence.
      apply (k_fr _ _ _ _ K) in Fa. destruct Fa as (F1 & F2 & F3 & F4).
      unfold MrgInv.fr. rewrite G, S. cbn. split; auto. split; auto. split.
      * intros q. unfold upd2. destruct (N.eqb_spec a (h_addr ct)); [congruence|]. rewrite andb_false_r. auto.
      * rewrite HD; auto.
    + intros a Ha. destruct (k_own _ _ _ _ K a Ha) as [A1 A2]. rewrite G, S. cbn. auto.
  - rewrite G, S. cbn. unfold upd2. rewrite !N.eqb_refl. cbn. destruct F as (F1 & F2 & _). split; auto. split; auto. apply F1.
Qed.

(** What TrySMOs is called with. *)
Definition smo_pre (t : tid) (x : world) (head : chain) (stack : list pid) : Prop :=
  exists p rest l lo, stack = p :: rest /\ $nd x p = Some (l, lo) /\ bstk x (S l) lo rest /\
    $hist x p (h_addr head) = Some head /\ $own x (h_addr head) = t /\ (h_addr head < $naddr x)%N /\
    is_remove head = false /\ is_base head = false.

Lemma cents_ients n c : cents true (CBase n) = cents true c -> nents n = ients c.
Proof. cbn [cents ients]. intros E. injection E as _ _ E. apply ekey_inj; auto. Qed.
Lemma cents_lrecs n c : cents false (CBase n) = cents false c -> n_recs n = lrecs c.
Proof. cbn [cents lrecs]. apply ekey_inj. Qed.

Lemma in_ekey_put k v (l : list (key * val)) (P : option key * val -> Prop) : P (Some k, v) -> Forall P (ekey l) -> Forall P (ekey (put k v l)).
Proof.
  intros H. induction l as [|[x w] l IH]; cbn [put ekey map]; intros F; [repeat constructor; auto|].
  apply Forall_cons_iff in F as [F1 F2]. destruct (x <? k); [|destruct (k <? x)]; cbn [ekey map fst snd];
    repeat (constructor; auto).
Qed.
Lemma in_ekey_del k (l : list (key * val)) (P : option key * val -> Prop) : Forall P (ekey l) -> Forall P (ekey (del k l)).
Proof.
  induction l as [|[x w] l IH]; cbn [del ekey map]; auto. intros F.
  apply Forall_cons_iff in F as [F1 F2]. destruct (x =? k); cbn [ekey map fst snd]; auto.
Qed.

(** ** Posting an index entry *)
Lemma post_index t x0 y p l lo head a sep hi rp : inv y -> keep t x0 y ->
  $nd y p = Some (S l, lo) -> $tbl y p = Some head -> is_remove head = false -> need_wait g head = false ->
  in_rng lo (c_hi head) sep -> $nd y rp = Some (l, Some sep) -> $tok y sep = TkPend t l ->
  (forall m, $tok x0 sep <> TkPend t m) -> fr t y a -> ~ fr t x0 a ->
  let c' := CRec (set_next (mk_delta a true DInsert sep hi rp 0 0) head (recsz g ptrlen sep)) head in
  step_ok t y (set_tbl (w_s y) p (Some c')) (fun z =>
    keep t x0 z /\ ext y z /\ $hist z p (h_addr c') = Some c' /\ $own z (h_addr c') = t /\ (h_addr c' < $naddr z)%N).
Proof.
  intros H K E T Rc Hw Rg Er Et Et0 Fa Fa0 c'.
  destruct (live_at _ _ _ _ _ _ _ _ _ H E T Rc) as (Elim & Cc & Kc).
  pose proof (n_sok _ _ _ _ _ _ _ Kc) as Sk. pose proof (s_wf _ _ _ Sk) as W. cbn [inn cwf] in W.
  pose proof (n_lo _ _ _ _ _ _ _ Kc) as Elo. destruct (nw_bound _ _ Sk Hw) as [B1 B2].
  pose proof (recsz_inner g OK sep) as Rz. pose proof (maxrec_excess g) as Mx.
  assert (Fn : find sep (ients head) = None).
  { destruct (find sep (ients head)) eqn:Ef; auto.
    pose proof (n_tok _ _ _ _ _ _ _ Kc ltac:(discriminate) sep) as Q. rewrite Ef in Q. specialize (Q ltac:(discriminate)). congruence. }
  assert (Hlo : lo <> Some sep).
  { intros ->. destruct (i_top _ _ _ _ _ H _ _ _ E) as (m & M1 & M2); [congruence|]. rewrite Et in M1. cbn in M1.
    injection M1 as <-. lia. }
  set (tok' := fun k => if k =? sep then TkIn p else $tok y k).
  eapply step_mono; [|eapply (step_replace g A0 R0 L0 t y p (S l) lo head c' c' LLive tok' ($dele y) ($cont y) ($stat y))]; auto.
  - intros z Hz Hst (G & S & X).
    destruct (rep_keep t x0 y z p c' LLive tok' ($dele y) ($cont y) ($stat y)) as (K1 & K2 & K3 & K4); auto.
    + intros k m E0 _. unfold tok'. destruct (Z.eqb_spec k sep) as [->|]; [|apply (k_tok _ _ _ _ K); auto].
      exfalso. eapply Et0; eauto.
    + intros n E0. apply (k_rem _ _ _ _ K) in E0. congruence.
  - intros co Tco. rewrite T in Tco. injection Tco as <-. apply not_wait; auto.
  - intros u n Eu. congruence.
  - constructor; cbn [is_base h_size h_cnt c' set_next d_size d_cnt].
    + cbn [inn cwf iwf c' d_inner d_type d_key d_cnt d_size set_next]. split; auto. split; auto.
      split; [|split; [reflexivity|split; auto]]. rewrite Elo. destruct Rg as [Rg1 Rg2]. split; auto.
      destruct lo as [k0|]; cbn in *; auto. assert (k0 <> sep) by congruence. lia.
    + discriminate.
    + lia.
    + intros _. exact B2.
  - intros z X _ m Em. injection Em as <-. destruct (n_kids _ _ _ _ _ _ _ Kc l eq_refl) as [V1 V2]. split.
    + apply (ikids_ext A0 y); auto. unfold ikids in *. cbn [cents ilead ients c' d_type set_next d_key d_pay] in *.
      change (c_lo c') with (c_lo head). apply Forall_cons_iff in V1 as [V1 V3]. constructor; auto.
      apply in_ekey_put; auto.
    + apply (rok_ext A0 y); auto. apply rok_ins; auto. cbn [d_key set_next]. rewrite Elo. apply ole_lo_ok. apply Rg.
  - intros _ k. change (ients c') with (put sep rp (ients head)). destruct (iwf_sorted _ _ W) as [Si _].
    rewrite find_put by auto. unfold tok'. destruct (Z.eqb_spec k sep); auto.
    apply (n_tok _ _ _ _ _ _ _ Kc). discriminate.
  - intros v Ev. destruct Fa as (_ & _ & _ & Fa). change (h_addr c') with a in Ev. congruence.
  - intros k q Hq Ek. unfold tok'. destruct (Z.eqb_spec k sep); auto. congruence.
  - intros k u m Hu Ek. unfold tok'. destruct (Z.eqb_spec k sep); auto. congruence.
  - intros k. unfold tok'. destruct (Z.eqb_spec k sep) as [->|]; auto. rewrite Et. cbn. rewrite E. auto.
  - intros k Ek. unfold tok'. destruct (Z.eqb_spec k sep); auto. congruence.
  - discriminate.
Qed.

(** ** Deleting an index entry *)
Lemma post_delete t x0 y p l lo head a dk hi : inv y -> keep t x0 y ->
  $nd y p = Some (S l, lo) -> $tbl y p = Some head -> is_remove head = false -> need_wait g head = false ->
  find dk (ients head) <> None -> fr t y a -> ~ fr t x0 a -> $cell y a = 0%N ->
  let c' := CRec (set_next (mk_delta a true DDelete dk hi 0%N 0 0) head (- recsz g ptrlen dk)) head in
  step_ok t y (set_tbl (w_s y) p (Some c')) (fun z =>
    keep t x0 z /\ ext y z /\ $hist z p (h_addr c') = Some c' /\ $own z (h_addr c') = t /\ (h_addr c' < $naddr z)%N /\
    $tok z dk = TkPend t l /\ $dele z a = Some (l, dk) /\ (forall m, $tok x0 dk <> TkPend t m)).
Proof.
  intros H K E T Rc Hw Hf Fa Fa0 Ca c'.
  destruct (live_at _ _ _ _ _ _ _ _ _ H E T Rc) as (Elim & Cc & Kc).
  pose proof (n_sok _ _ _ _ _ _ _ Kc) as Sk. pose proof (s_wf _ _ _ Sk) as W. cbn [inn cwf] in W.
  pose proof (n_lo _ _ _ _ _ _ _ Kc) as Elo. destruct (nw_bound _ _ Sk Hw) as [B1 B2].
  pose proof (recsz_inner g OK dk) as Rz. pose proof excess_pos as Mx.
  pose proof (n_tok _ _ _ _ _ _ _ Kc ltac:(discriminate) dk Hf) as Et.
  assert (Et0 : forall m, $tok x0 dk <> TkPend t m).
  { intros m Q. apply (k_tok _ _ _ _ K) in Q. congruence. }
  set (tok' := fun k => if k =? dk then TkPend t l else $tok y k).
  set (dele' := fun b => if N.eqb b a then Some (l, dk) else $dele y b).
  eapply step_mono; [|eapply (step_replace g A0 R0 L0 t y p (S l) lo head c' c' LLive tok' dele' ($cont y) ($stat y))]; auto.
  - intros z Hz Hst (G & S & X).
    destruct (rep_keep t x0 y z p c' LLive tok' dele' ($cont y) ($stat y)) as (K1 & K2 & K3 & K4); auto.
    + intros k m E0 _. unfold tok'. destruct (Z.eqb_spec k dk) as [->|]; [|apply (k_tok _ _ _ _ K); auto].
      exfalso. eapply Et0; eauto.
    + intros n E0. apply (k_rem _ _ _ _ K) in E0. congruence.
    + intros b Hb. unfold dele'. change (h_addr c') with a in Hb. destruct (N.eqb_spec b a); congruence.
    + repeat (split; [solve [auto]|]). rewrite G. cbn. unfold tok', dele'. rewrite Z.eqb_refl, N.eqb_refl. auto.
  - intros co Tco. rewrite T in Tco. injection Tco as <-. apply not_wait; auto.
  - intros u n Eu. congruence.
  - constructor; cbn [is_base h_size h_cnt c' set_next d_size d_cnt].
    + cbn [inn cwf iwf c' d_inner d_type d_key d_cnt d_size set_next]. split; auto. split; auto.
      split; [apply ients_rng with (g := g); auto|]. split; [reflexivity|]. split; [|lia].
      destruct (find dk (ients head)); [eauto|congruence].
    + discriminate.
    + lia.
    + intros _. exact B2.
  - intros z X Ed m Em. injection Em as <-. destruct (n_kids _ _ _ _ _ _ _ Kc l eq_refl) as [V1 V2]. split.
    + apply (ikids_ext A0 y); auto. unfold ikids in *. cbn [cents ilead ients c' d_type set_next d_key d_pay] in *.
      change (c_lo c') with (c_lo head). apply Forall_cons_iff in V1 as [V1 V3]. constructor; auto.
      apply in_ekey_del; auto.
    + apply rok_del; auto; [apply (rok_ext A0 y); auto|]. cbn [d_key d_addr set_next]. right. rewrite Ed. unfold dele'.
      rewrite N.eqb_refl. auto.
  - intros _ k. change (ients c') with (del dk (ients head)). destruct (iwf_sorted _ _ W) as [Si _].
    rewrite find_del by auto. unfold tok'. destruct (Z.eqb_spec k dk); [congruence|].
    apply (n_tok _ _ _ _ _ _ _ Kc). discriminate.
  - intros b Hb. unfold dele'. change (h_addr c') with a in Hb. destruct (N.eqb_spec b a); congruence.
  - intros k q Hq Ek. unfold tok'. destruct (Z.eqb_spec k dk); auto. congruence.
  - intros k u m Hu Ek. unfold tok'. destruct (Z.eqb_spec k dk); auto. congruence.
  - intros k. unfold tok'. destruct (Z.eqb_spec k dk) as [->|]; auto. rewrite Et. cbn. rewrite E. auto.
  - intros k Ek. unfold tok'. destruct (Z.eqb_spec k dk); auto. congruence.
  - discriminate.
Qed.

(** ** The loops *)
Section Loop.
Variable t : tid.
Variable smos : chain -> list pid -> prog unit.
Hypothesis SM : forall head stack x, smo_pre t x head stack -> inv x -> wp t (smos head stack) (fun _ y => keep t x y) x.

Lemma smos_if x0 x c st : keep t x0 x -> smo_pre t x c st -> inv x -> 
  wp t (if need_consolidation g c then smos c st else Ret tt) (fun _ y => keep t x0 y) x.
Proof.
  intros K P H. destruct (need_consolidation g c); [|exact K].
  eapply wp_mono; [|apply SM; auto]. intros u y Ky. eapply keep_trans; eauto.
Qed.

(** The chain at CAS time. *)
Lemma cas_head y p l lo c0 head : inv y -> $nd y p = Some (l, lo) -> $tbl y p = Some c0 -> h_addr c0 = h_addr head ->
  $hist y p (h_addr head) = Some head -> c0 = head.
Proof. intros. eapply hist_same; eauto. Qed.

Lemma split_loop_wp x0 sep rp l a lp hi : (l < L0)%nat -> (forall m, $tok x0 sep <> TkPend t m) -> ~ fr t x0 a ->
  forall fuel x stack, keep t x0 x -> $nd x rp = Some (l, Some sep) -> $tok x sep = TkPend t l ->
  fr t x a -> bstk x (S l) (Some sep) stack ->
  wp t (split_loop g smos fuel (mk_delta a true DInsert sep hi rp 0 0) lp stack) (fun _ y => keep t x0 y) x.
Proof.
  intros Hl Et0 Fa0. induction fuel as [|f IH]; intros x stack K Er Et Fa S; [exact I|].
  cbn [split_loop]. destruct stack as [|p0 rest0]; [cbn [MrgSearch.bstk] in S; lia|].
  cbn [d_key d_pay]. apply wp_bind. eapply wp_mono; [|eapply (get_head_wp g A0 R0 L0 t sep true rp f x (Datatypes.S l))].
  2:{ discriminate. }
  2:{ exact S. }
  2:{ right. exists l, (Some sep). split; auto. }
  intros [oh st] y (Ry & head & Eh & Hg). cbn [fst snd eff] in *. subst oh. cbn beta iota.
  pose proof Hg as (p & rest & lo & -> & E & Hh & Rc & Hw & Rg & Sr).
  cbn [bind cas wp]. intros y2 (R2 & Hi2 & Hs2). pose proof (rely_trans _ _ _ _ Ry R2) as Rx.
  pose proof (r_nd _ _ _ _ _ R2 _ _ E) as E2. pose proof (r_hist _ _ _ _ _ R2 _ _ _ Hh) as Hh2.
  assert (K2 : keep t x0 y2) by (eapply keep_trans; [eauto|]; apply rely_keep; auto).
  assert (Er2 : $nd y2 rp = Some (l, Some sep)) by (apply (r_nd _ _ _ _ _ Rx); auto).
  assert (Et2 : $tok y2 sep = TkPend t l) by (apply (r_tok _ _ _ _ _ Rx); auto).
  assert (Fa2 : fr t y2 a) by (apply (r_free _ _ _ _ _ Rx); auto).
  split; [congruence|]. split.
  - intros c0 T0 A1. assert (c0 = head) by (eapply (cas_head y2 p); eauto). subst c0.
    eapply step_mono; [|eapply (post_index t x0 y2 p l lo head a sep hi rp)]; auto.
    intros z Hz _ (Kz & Xz & Hhz & Oz & Az). apply smos_if; auto.
    exists p, rest, (Datatypes.S l), lo. split; auto. split; [apply Xz; auto|].
    split; [|split; [exact Hhz|split; [exact Oz|split; [exact Az|split; reflexivity]]]].
    eapply bstk_ext; [|exact Sr]. eapply ext_trans; [eapply rely_ext; eauto|auto].
  - apply step_nop; auto. apply IH; auto. apply (hgot_bstk g L0 y2 (Datatypes.S l) sep head).
    eapply (hgot_rely g A0 L0 t y y2); eauto.
Qed.

Lemma delete_loop_wp x0 l dk a hi : ~ fr t x0 a ->
  forall fuel x sib stack, keep t x0 x -> fr t x a -> $cell x a = 0%N -> stack <> [] -> bstk x (S l) (Some dk) stack ->
  wp t (delete_loop g fuel (mk_delta a true DDelete dk hi 0%N 0 0) sib stack) (fun r y =>
    keep t x0 y /\
    match fst r with
    | None => True
    | Some c => inv y /\ smo_pre t y c (snd r) /\ $tok y dk = TkPend t l /\ $dele y a = Some (l, dk) /\
        $own y a = t /\ (forall m, $tok x0 dk <> TkPend t m)
    end) x.
Proof.
  intros Fa0. induction fuel as [|f IH]; intros x sib stack K Fa Ca Hne S; [exact I|].
  cbn [delete_loop d_key]. apply wp_bind. eapply wp_mono; [|eapply (head_merge_wp g A0 R0 L0 t dk f x l sib stack); auto].
  intros [[oh st] sib'] y (Ry & Hg). cbn [fst snd] in *.
  destruct oh as [head|].
  2:{ cbn [wp fst]. split; auto. eapply keep_trans; [eauto|]. apply rely_keep; auto. }
  destruct Hg as [Hg Hf]. pose proof Hg as (p & rest & lo & -> & E & Hh & Rc & Hw & Rg & Sr).
  cbn [bind cas wp]. intros y2 (R2 & Hi2 & Hs2). pose proof (rely_trans _ _ _ _ Ry R2) as Rx.
  pose proof (r_nd _ _ _ _ _ R2 _ _ E) as E2. pose proof (r_hist _ _ _ _ _ R2 _ _ _ Hh) as Hh2.
  assert (K2 : keep t x0 y2) by (eapply keep_trans; [eauto|]; apply rely_keep; auto).
  assert (Fa2 : fr t y2 a) by (apply (r_free _ _ _ _ _ Rx); auto).
  assert (Ca2 : $cell y2 a = 0%N) by (rewrite (r_frc _ _ _ _ _ Rx); auto).
  split; [congruence|]. split.
  - intros c0 T0 A1. assert (c0 = head) by (eapply (cas_head y2 p); eauto). subst c0.
    eapply step_mono; [|eapply (post_delete t x0 y2 p l lo head a dk hi)]; auto.
    intros z Hz _ (Kz & Xz & Hhz & Oz & Az & Tz & Dz & Nz). cbn [wp fst snd]. split; auto. split; auto.
    split; [|split; [auto|split; [auto|split; [exact Oz|auto]]]].
    exists p, rest, (Datatypes.S l), lo. split; auto. split; [apply Xz; auto|].
    split; [|split; [exact Hhz|split; [exact Oz|split; [exact Az|split; reflexivity]]]].
    eapply bstk_ext; [|exact Sr]. eapply ext_trans; [eapply rely_ext; eauto|auto].
  - apply step_nop; auto. apply IH; auto; [discriminate|]. apply (hgot_bstk g L0 y2 (Datatypes.S l) dk head).
    eapply (hgot_rely g A0 L0 t y y2); eauto.
Qed.

(** A write to the payload cell of an address of our own. *)
Lemma cell_keep y z a v : w_g z = w_g y -> w_s z = set_cell (w_s y) a v -> (A0 <= a)%N -> ext y z /\ keep t y z.
Proof.
  intros G S Ha.
  assert (X : ext y z).
  { constructor; intros; try (rewrite G; auto; fail). rewrite S. cbn. apply upd_other. lia. }
  split; auto. constructor; auto; intros; try (rewrite G; auto; fail).
  - unfold MrgInv.fr in *. rewrite G, S. cbn. auto.
  - rewrite G, S. cbn. auto.
Qed.

Lemma delete_entry_wp x0 fuel n stack l dk : n_low n = Some dk -> stack <> [] ->
  forall x, keep t x0 x -> bstk x (S l) (Some dk) stack ->
  wp t (try_delete_entry g smos fuel n stack) (fun r y =>
    keep t x0 y /\
    match r with
    | None => True
    | Some a => $tok y dk = TkPend t l /\ $dele y a = Some (l, dk) /\ $own y a = t /\ (A0 <= a < $naddr y)%N /\
        (forall m, $tok x0 dk <> TkPend t m)
    end) x.
Proof.
  intros El Hne x K S. unfold try_delete_entry. rewrite El. destruct stack as [|q r]; [congruence|].
  cbn [bind alloc]. apply wp_alloc. intros y a Ry Fa Hi Hst Ha. cbn [wp]. intros y2 (R2 & Hi2 & Hs2).
  pose proof (rely_trans _ _ _ _ Ry R2) as Rx. pose proof (r_free _ _ _ _ _ R2 _ Fa) as Fa2.
  assert (Fa0 : ~ fr t x0 a) by (eapply new_fr; eauto).
  eapply step_mono; [|apply step_cell]; auto; [|apply Fa2|apply Fa2|].
  2:{ intros m dk' E. destruct Fa2 as (_ & _ & _ & Fa2). congruence. }
  intros z Hz _ (G & Sz). destruct (cell_keep _ _ _ _ G Sz) as [Xz Kz]; [apply Fa2|].
  apply wp_bind. eapply wp_mono; [|eapply (delete_loop_wp x0 l dk a (n_high n) Fa0 fuel z (n_high n) (q :: r))]; auto.
  - intros [oc st] w (Kw & Hc). cbn [fst snd] in *. destruct oc as [c|]; [|cbn [wp]; auto].
    destruct Hc as (Hiw & Pw & Tw & Dw & Ow & Nw). pose proof (i_dadr _ _ _ _ _ Hiw _ _ Dw) as Aw.
    apply wp_bind. eapply wp_mono; [|apply (smos_if w w c st); auto; apply keep_refl].
    intros u v Kv. cbn [wp]. split; [eapply keep_trans; eauto|]. split; [apply (k_tok _ _ _ _ Kv); auto|].
    split; [apply (e_dele _ _ _ (k_ext _ _ _ _ Kv)); auto|].
    destruct (k_own _ _ _ _ Kv a) as [V1 V2]; [lia|]. split; [congruence|]. split; [lia|]. auto.
  - eapply keep_trans; [|exact Kz]. eapply keep_trans; [eauto|]. apply rely_keep; auto.
  - apply (k_fr _ _ _ _ Kz); auto.
  - rewrite Sz. cbn. apply upd_same.
  - eapply bstk_ext; [exact Xz|]. eapply bstk_rely; eauto.
Qed.

(** ** Installing the merge delta *)
Lemma bstk_pred x u l dk : inv x -> $tok x dk = TkPend u l -> forall st m, (l < m)%nat ->
  bstk x m (Some dk) st -> bstk x m (Some (dk - 1)) st.
Proof.
  intros H Et. induction st as [|q r IH]; intros m Lm; cbn [MrgSearch.bstk]; auto. intros ((lq & A & B) & D).
  split; [|apply IH; auto]. exists lq. split; auto. destruct B as [B|B]; auto.
  destruct ($lim x q) eqn:EL; auto; left; (destruct lq as [kq|]; [|exact I]); cbn in *;
    (destruct (Z.eq_dec kq dk) as [->|]; [|lia]); exfalso;
    (destruct (i_top _ _ _ _ _ H _ _ _ A) as (m' & M1 & M2); [congruence|]); rewrite Et in M1; cbn in M1;
    injection M1 as <-; lia.
Qed.

Lemma merge_sok l q lo y head n ma dk : cok y q l lo head -> need_wait g head = false ->
  cwf g (inn l) (CBase n) -> n_inner n = inn l -> n_low n = Some dk -> c_hi head = Some dk -> n_size n <= c_min g ->
  sok l (CMerge (set_next (mk_delta ma (n_inner n) DMerge dk (n_high n) 0%N 0 0) head (node_diff g n)) n head).
Proof.
  intros Kc Hw Wn Ni Nl Eh Ns. pose proof (n_sok _ _ _ _ _ _ _ Kc) as Sk. destruct (nw_bound _ _ Sk Hw) as [B1 B2].
  pose proof (s_wf _ _ _ Sk) as W. constructor; cbn [is_base h_size h_cnt set_next d_size d_cnt].
  - destruct (inn l); cbn in *; repeat split; auto; apply Wn.
  - discriminate.
  - unfold node_diff. pose proof (ok_hdr g OK). pose proof (okl_bound g OK (n_low n)). pose proof min_excess.
    destruct (n_inner n); lia.
  - intros _. exact B2.
Qed.

Lemma merge_loop_wp x0 l dk p n da ma : n_low n = Some dk -> n_inner n = inn l -> (l < L0)%nat ->
  (forall m, $tok x0 dk <> TkPend t m) -> (forall n', $lim x0 p <> LRem t n') -> ~ fr t x0 ma ->
  forall fuel x at_sib stack, keep t x0 x -> $nd x p = Some (l, Some dk) -> $lim x p = LRem t n ->
  $tok x dk = TkPend t l -> $dele x da = Some (l, dk) -> $own x da = t -> (A0 <= da < $naddr x)%N -> fr t x ma ->
  stack <> [] -> bstk x (if at_sib : bool then l else S l) (Some (dk - 1)) stack ->
  wp t (merge_loop g smos fuel (mk_delta ma (n_inner n) DMerge dk (n_high n) 0%N 0 0) n p da at_sib stack)
    (fun _ y => keep t x0 y) x.
Proof.
  intros Nl Ni Hl Et0 El0 Fm0. induction fuel as [|f IH]; intros x at_sib stack K E EL Et Ed Eo Ea Fm Hne S; [exact I|].
  cbn [merge_loop d_key]. destruct at_sib.
  - apply wp_bind. eapply wp_mono; [|eapply (get_head_wp g A0 R0 L0 t dk false p f x l)]; auto.
    2:{ right. exists l, (Some dk). split; auto. right. split; auto. cbn. lia. }
    intros [oh st] y (Ry & head & Eh & Hg). cbn [fst snd eff] in *. subst oh. cbn beta iota.
    pose proof Hg as (q & rest & lo & -> & Eq & Hh & Rc & Hw & Rg & Sr).
    cbn [bind cas wp]. intros y2 (R2 & Hi2 & Hs2). pose proof (rely_trans _ _ _ _ Ry R2) as Rx.
    pose proof (r_nd _ _ _ _ _ R2 _ _ Eq) as E2. pose proof (r_hist _ _ _ _ _ R2 _ _ _ Hh) as Hh2.
    assert (K2 : keep t x0 y2) by (eapply keep_trans; [eauto|]; apply rely_keep; auto).
    assert (Ep2 : $nd y2 p = Some (l, Some dk)) by (apply (r_nd _ _ _ _ _ Rx); auto).
    assert (Et2 : $tok y2 dk = TkPend t l) by (apply (r_tok _ _ _ _ _ Rx); auto).
    assert (EL2 : $lim y2 p = LRem t n) by (apply (r_rem _ _ _ _ _ Rx); auto).
    assert (Ed2 : $dele y2 da = Some (l, dk)) by (apply (r_dele _ _ _ _ _ Rx); auto).
    assert (Fm2 : fr t y2 ma) by (apply (r_free _ _ _ _ _ Rx); auto).
    assert (Eo2 : $own y2 da = t) by (rewrite (r_own _ _ _ _ _ Rx); auto; apply Ea).
    assert (Ea2 : (A0 <= da < $naddr y2)%N) by (pose proof (r_nad _ _ _ _ _ Rx); lia).
    split; [congruence|]. split.
    + intros c0 T0 A1. assert (c0 = head) by (eapply (cas_head y2 q); eauto). subst c0.
      destruct (live_at _ _ _ _ _ _ _ _ _ Hi2 E2 T0 Rc) as (Elim & Cc & Kc).
      pose proof (merge_adj g A0 R0 L0 y2 q p l lo head dk n t Hi2 E2 Cc Ep2 EL2 Rg) as Ehi.
      destruct (i_cur _ _ _ _ _ Hi2 _ _ _ Ep2) as (cn & Cn & Kn); [congruence|].
      unfold cur in Cn. rewrite EL2 in Cn. injection Cn as <-.
      pose proof (i_min _ _ _ _ _ Hi2 _ _ _ EL2) as Ns.
      set (d' := set_next _ _ _).
      eapply step_mono; [|eapply (step_merge g A0 R0 L0 t y2 q p l lo head n d' dk)]; auto.
      * intros z Hz _ (Xz & Nz & Tz & Lz & Sz & Oz & Dz & Hhz & Hq & Fz & Wz). cbn [wp]. intros y3 (R3 & Hi3 & Hs3).
        assert (Kz : keep t x0 z).
        { constructor.
          - eapply ext_trans; [apply K2|auto].
          - intros b a v Eb. apply Hhz. apply (k_hist _ _ _ _ K2). auto.
          - rewrite Sz. apply K2.
          - intros k m E0. pose proof (k_tok _ _ _ _ K2 _ _ E0) as E1. rewrite Tz. unfold mtok.
            destruct (Z.eqb_spec k dk) as [->|]; [exfalso; eapply Et0; eauto|].
            destruct l as [|l']; cbn [inn andb]; auto. destruct (hasb (find k (nents n))) eqn:Q; auto.
            apply hasb_iff in Q. pose proof (n_tok _ _ _ _ _ _ _ Kn ltac:(discriminate) k Q). congruence.
          - intros b nb E0. rewrite Lz. rewrite upd_other; [apply (k_rem _ _ _ _ K2); auto|].
            intros ->. eapply El0; eauto.
          - intros a Fa. apply Fz; [apply (k_fr _ _ _ _ K2); auto|]. intros ->. apply Fm0; auto.
          - intros a Ha. destruct (k_own _ _ _ _ K2 a Ha) as [V1 V2]. rewrite Oz, Wz. cbn. auto. }
        eapply step_mono; [|apply step_cell]; auto.
        -- intros w Hiw _ (G & Sw). destruct (cell_keep _ _ _ _ G Sw) as [Xw Kw]; [lia|].
           apply smos_if; auto.
           ++ eapply keep_trans; [|exact Kw]. eapply keep_trans; [eauto|]. apply rely_keep; auto.
           ++ assert (X3 : ext z w) by (eapply ext_trans; [eapply rely_ext; eauto|auto]).
              assert (Az : (ma < $naddr z)%N) by (rewrite Wz; apply Fm2).
              assert (Az3 : (ma < $naddr y3)%N) by (pose proof (r_nad _ _ _ _ _ R3); lia).
              exists q, rest, l, lo. split; auto. split; [apply X3; rewrite Nz; auto|].
              split; [eapply bstk_ext; [|exact Sr]; eapply ext_trans; [eapply rely_ext; eauto|]; eapply ext_trans; eauto|].
              change (h_addr (CMerge d' n head)) with ma.
              split; [rewrite G; apply (r_hist _ _ _ _ _ R3); auto|].
              split; [rewrite G, (r_own _ _ _ _ _ R3) by auto; rewrite Oz; apply Fm2|].
              split; [rewrite Sw; exact Az3|]. split; reflexivity.
        -- lia.
        -- rewrite (r_own _ _ _ _ _ R3); [rewrite Oz; auto|]. rewrite Wz. apply Ea2.
        -- intros m dk' E3.
           assert (E4 : $dele y3 da = Some (l, dk)) by (apply (r_dele _ _ _ _ _ R3); rewrite Dz; auto).
           rewrite E4 in E3. injection E3 as <- <-. exists lo. split.
           ++ apply (r_nd _ _ _ _ _ R3). rewrite Nz. auto.
           ++ destruct Rg as [Rg _]. clear -Rg. ord.
      * apply not_wait; auto.
      * eapply merge_sok; eauto. apply (n_sok _ _ _ _ _ _ _ Kn).
    + apply step_nop; auto. apply IH; auto; [discriminate|]. apply (hgot_bstk g L0 y2 l (dk - 1) head).
      eapply (hgot_rely g A0 L0 t y y2); eauto.
  - destruct stack as [|q r]; [congruence|].
    apply wp_bind. eapply wp_mono; [|eapply (child_wp g A0 R0 L0 t dk false p f l x (q :: r))]; auto.
    2:{ right. exists l, (Some dk). split; auto. }
    intros [b st] y (Ry & _ & Hne' & Sy). cbn [fst snd eff] in *. destruct st as [|q' r']; [congruence|].
    apply IH; auto.
    + eapply keep_trans; [eauto|]. apply rely_keep; auto.
    + apply (r_nd _ _ _ _ _ Ry); auto.
    + apply (r_rem _ _ _ _ _ Ry); auto.
    + apply (r_tok _ _ _ _ _ Ry); auto.
    + apply (r_dele _ _ _ _ _ Ry); auto.
    + rewrite (r_own _ _ _ _ _ Ry); auto. apply Ea.
    + pose proof (r_nad _ _ _ _ _ Ry). lia.
    + apply (r_free _ _ _ _ _ Ry); auto.
Qed.

(** ** Replacing the chain of a node by its consolidated page, marking it as removed,
    and restoring it *)
Lemma post_page x0 y p l lo c ct n lm : inv y -> keep t x0 y -> $nd y p = Some (l, lo) -> cur y p = Some c ->
  (forall co, $tbl y p = Some co -> ~ big co) -> (forall u n', $lim y p = LRem u n' -> u = t) ->
  (lm = LLive /\ ct = CBase n) \/ (lm = LRem t n /\ ct = CRemove (h_addr ct) (negb (inn l)) /\ n_size n <= c_min g) ->
  cwf g (inn l) (CBase n) -> n_low n = c_lo c -> n_high n = c_hi c -> n_next n = c_next c ->
  cents (inn l) (CBase n) = cents (inn l) c -> n_size n <= c_page g ->
  fr t y (h_addr ct) -> ~ fr t x0 (h_addr ct) -> (forall n', $lim x0 p = LRem t n' -> lm = LRem t n') ->
  step_ok t y (set_tbl (w_s y) p (Some ct)) (fun z =>
    keep t x0 z /\ ext y z /\ (forall a, fr t y a -> a <> h_addr ct -> fr t z a) /\ $lim z p = lm /\
    $hist z p (h_addr ct) = Some ct).
Proof.
  intros H K E C Hb Hu Hlm W L1 L2 L3 CE Ns Fa Fa0 Hl0.
  destruct (i_cur _ _ _ _ _ H _ _ _ E) as (c2 & C2 & Kc).
  { unfold cur in C. destruct ($lim y p); try discriminate. }
  rewrite C in C2. injection C2 as <-.
  eapply step_mono; [|eapply (step_replace g A0 R0 L0 t y p l lo c ct (CBase n) lm ($tok y) ($dele y) ($cont y) ($stat y))]; auto.
  - intros z Hz Hst (G & S & X).
    destruct (rep_keep t x0 y z p ct lm ($tok y) ($dele y) ($cont y) ($stat y)) as (K1 & K2 & K3 & K4); auto.
    split; auto. split; auto. split; [|split; auto; rewrite G; cbn; apply upd_same].
    intros a (F1 & F2 & F3 & F4) Ha. unfold MrgInv.fr. rewrite G, S. cbn. split; auto. split; auto. split; auto.
    intros q. unfold upd2. destruct (N.eqb_spec a (h_addr ct)); [congruence|]. rewrite andb_false_r. auto.
  - destruct Hlm as [[-> ->]|(-> & Q1 & Q2)]; auto.
  - pose proof excess_pos. constructor; auto; [cbn; lia|discriminate].
  - intros z X _ m Em. rewrite Em in *. cbn [inn cwf] in W.
    destruct (n_kids _ _ _ _ _ _ _ Kc m eq_refl) as [V1 V2].
    assert (V3 : ikids z m (CBase n)).
    { apply (ikids_ext A0 y); auto. unfold ikids in *. cbn [inn] in CE. rewrite CE. auto. }
    split; auto. eapply rok_base; eauto.
  - intros Hl k Hk. apply (n_tok _ _ _ _ _ _ _ Kc Hl). destruct l; [congruence|]. cbn [inn] in CE.
    apply cents_ients in CE. cbn [ients] in Hk. congruence.
  - intros v Ev. destruct Fa as (_ & _ & _ & Fa). congruence.
  - intros -> k Rk. cbn [inn] in CE. apply cents_lrecs in CE.
    rewrite <- (i_con _ _ _ _ _ H p lo c k E C Rk). unfold lget. cbn [lrecs]. congruence.
Qed.

(** ** TryMerge *)
Lemma try_merge_wp x0 fuel p rest l lo head n :
  cwf g (inn l) (CBase n) -> n_inner n = inn l -> n_low n = c_lo head -> n_high n = c_hi head -> n_next n = c_next head ->
  cents (inn l) (CBase n) = cents (inn l) head -> n_size n = h_size head -> h_size head <= c_min g -> n_size n <= c_page g ->
  is_remove head = false -> ~ fr t x0 (n_addr n) -> 
  forall x, keep t x0 x -> $nd x p = Some (l, lo) -> $hist x p (h_addr head) = Some head ->
  fr t x (n_addr n) -> bstk x (S l) lo rest ->
  wp t (try_merge g smos fuel head n (p :: rest)) (fun _ y => keep t x0 y) x.
Proof.
  intros W Ni L1 L2 L3 CE Ns Hm Np Rc Fn0 x K E Hh Fn S. unfold try_merge. cbn [bind alloc].
  apply wp_alloc. intros y a Ry Fa Hi Hst Ha. cbn [bind cas wp]. intros y2 (R2 & Hi2 & Hs2).
  pose proof (rely_trans _ _ _ _ Ry R2) as Rx.
  assert (K2 : keep t x0 y2) by (eapply keep_trans; [eauto|]; apply rely_keep; auto).
  pose proof (r_nd _ _ _ _ _ Rx _ _ E) as E2. pose proof (r_hist _ _ _ _ _ Rx _ _ _ Hh) as Hh2.
  assert (Fa2 : fr t y2 a) by (apply (r_free _ _ _ _ _ R2); auto).
  assert (Fn2 : fr t y2 (n_addr n)) by (apply (r_free _ _ _ _ _ Rx); auto).
  assert (S2 : bstk y2 (Datatypes.S l) lo rest) by (eapply (bstk_rely g A0 L0 t x y2); eauto).
  assert (Fa0 : ~ fr t x0 a) by (eapply new_fr; [exact K|exact Ha]).
  assert (Hna : n_addr n <> a) by (intros Q; destruct Fn as (Fn & _); lia).
  split; [congruence|]. split; [|apply step_nop; auto; cbn [wp]; auto].
  intros c0 T0 A1. assert (c0 = head) by (eapply (cas_head y2 p); eauto). subst c0.
  destruct (live_at _ _ _ _ _ _ _ _ _ Hi2 E2 T0 Rc) as (Elim & Cc & Kc).
  pose proof (n_lo _ _ _ _ _ _ _ Kc) as Elo.
  rewrite Ni. eapply step_mono; [|eapply (post_page x0 y2 p l lo head (CRemove a (negb (inn l))) n (LRem t n))]; auto.
  2:{ intros co Tc. rewrite T0 in Tc. injection Tc as <-. intros [_ B]. lia. }
  2:{ intros u n' Q. congruence. }
  2:{ right. split; auto. split; auto. lia. }
  2:{ intros n' Q. apply (k_rem _ _ _ _ K2) in Q. congruence. }
  intros z Hz Hsz (Kz & Xz & Fz & Lz & Hhz). cbn [h_addr] in *.
  assert (Ez : $nd z p = Some (l, lo)) by (apply Xz; auto).
  assert (Fnz : fr t z (n_addr n)) by auto.
  assert (Sz : bstk z (Datatypes.S l) lo rest) by (eapply bstk_ext; eauto).
  assert (HpR : p <> R0).
  { intros ->. pose proof (root_live _ _ _ _ _ Hz Hsz). congruence. }
  assert (Hne : rest <> []) by (eapply (top_root g A0 R0 L0 z p l lo rest lo); eauto).
  assert (Hl : (l < L0)%nat).
  { destruct (i_rlev _ _ _ _ _ Hz _ _ _ Ez) as [Q1 Q2]. destruct (Nat.eq_dec l L0); [|lia]. exfalso. auto. }
  assert (El0 : forall n', $lim x0 p <> LRem t n').
  { intros n' Q. apply (k_rem _ _ _ _ K2) in Q. congruence. }
  assert (Restore : forall w, keep t x0 w -> $lim w p = LRem t n -> $nd w p = Some (l, lo) -> fr t w (n_addr n) ->
    wp t (bind (try_remove_root n p rest) (fun rr => if rr then Ret true else Store p (CBase n) (Retire [a] (Ret true))))
      (fun _ y => keep t x0 y) w).
  { intros w Kw Lw Ew Fw. unfold try_remove_root. destruct rest as [|q0 r0]; [congruence|]. cbn [bind wp].
    intros w2 (Rw & Hiw & Hsw).
    assert (Kw2 : keep t x0 w2) by (eapply keep_trans; [eauto|]; apply rely_keep; auto).
    assert (Lw2 : $lim w2 p = LRem t n) by (apply (r_rem _ _ _ _ _ Rw); auto).
    assert (Ew2 : $nd w2 p = Some (l, lo)) by (apply (r_nd _ _ _ _ _ Rw); auto).
    eapply step_mono; [|eapply (post_page x0 w2 p l lo (CBase n) (CBase n) n LLive)]; auto.
    - intros v Hv _ (Kv & _) v2 (Rv & Hiv & Hsv). eapply step_mono; [|apply step_retire; auto].
      intros u _ _ (Ru & _). cbn [wp]. eapply keep_trans; [exact Kv|]. apply rely_keep. eapply rely_trans; eauto.
    - unfold cur. rewrite Lw2. auto.
    - intros co Tc [_ B]. destruct (i_tbl _ _ _ _ _ Hiw _ _ _ Ew2) as (c2 & T2 & _ & Q). rewrite Tc in T2. injection T2 as <-.
      destruct Q as [a' ->]; [congruence|]. cbn in B. pose proof (page_pos g OK). pose proof (ok_hdr g OK).
      pose proof (nullsz_bound g OK). lia.
    - intros u n' Q. congruence.
    - cbn [h_addr]. apply (r_free _ _ _ _ _ Rw); auto.
    - intros n' Q. exfalso. eapply El0; eauto. }
  cbn [negb]. apply wp_bind. rewrite L1, Elo. destruct lo as [dk|].
  - eapply wp_mono; [|eapply (delete_entry_wp z fuel n rest l dk)]; auto; [|congruence|apply keep_refl].
    intros od w (Kw & Hod). destruct od as [da|].
    + destruct Hod as (Tw & Dw & Ow & Aw & Nw). cbn [bind alloc]. apply wp_alloc. intros v ma Rv Fma Hiv Hsv Hma.
      assert (Kv : keep t z v) by (eapply keep_trans; [eauto|]; apply rely_keep; auto).
      apply wp_bind. rewrite <- Ni. eapply wp_mono; [|eapply (merge_loop_wp x0 l dk p n da ma)]; auto.
      * congruence.
      * intros m Q. apply (k_tok _ _ _ _ Kz) in Q. eapply Nw; eauto.
      * eapply new_fr; [|exact Hma]. eapply keep_trans; eauto.
      * eapply keep_trans; eauto.
      * apply (k_ext _ _ _ _ Kv); auto.
      * apply (k_rem _ _ _ _ Kv); auto.
      * apply (r_tok _ _ _ _ _ Rv); auto.
      * apply (r_dele _ _ _ _ _ Rv); auto.
      * rewrite (r_own _ _ _ _ _ Rv); auto. apply Aw.
      * pose proof (r_nad _ _ _ _ _ Rv). lia.
      * apply (bstk_pred v t l dk); auto; [apply (r_tok _ _ _ _ _ Rv); auto|].
        eapply bstk_ext; [apply Kv|auto].
    + apply Restore.
      * eapply keep_trans; eauto.
      * apply (k_rem _ _ _ _ Kw); auto.
      * apply (k_ext _ _ _ _ Kw); auto.
      * apply (k_fr _ _ _ _ Kw); auto.
  - unfold try_delete_entry. rewrite L1, Elo. destruct rest as [|q0 r0]; [congruence|]. cbn [wp].
    apply Restore; auto.
Qed.

(** ** Split *)
Lemma same_keep x y : w_g y = w_g x -> $naddr y = $naddr x -> $cell y = $cell x -> keep t x y.
Proof.
  intros G A C. constructor; try (rewrite G; auto; fail).
  - constructor; rewrite ?G, ?C; auto.
  - intros a. unfold MrgInv.fr. rewrite G, A. auto.
  - intros a. rewrite G, A. auto.
Qed.

Lemma split_wp x0 fuel x p rest l lo head nl nr sep :
  keep t x0 x -> $nd x p = Some (l, lo) -> $tbl x p = Some head -> inv x -> is_remove head = false -> big head ->
  $own x (h_addr head) = t -> (h_addr head < $naddr x)%N ->
  cwf g (inn l) (CBase nl) -> cwf g (inn l) (CBase nr) -> n_low nl = lo -> n_high nl = Some sep ->
  n_low nr = Some sep -> n_high nr = c_hi head -> n_next nr = c_next head ->
  cents (inn l) (CBase nl) ++ cents (inn l) (CBase nr) = cents (inn l) head ->
  n_size nl <= c_page g -> n_size nr <= c_page g -> olt lo (Some sep) -> hi_ok (c_hi head) sep ->
  fr t x (n_addr nl) -> fr t x (n_addr nr) -> ~ fr t x0 (n_addr nl) -> ~ fr t x0 (n_addr nr) ->
  bstk x (S l) lo rest ->
  wp t (split g smos fuel nl nr (p :: rest)) (fun _ y => keep t x0 y) x.
Proof.
  intros K E T Hi Hrm Hb Ho Ha W1 W2 L1 L2 R1 R2 R3 CE S1 S2 O1 O2 Fl Fr Fl0 Fr0 S.
  unfold split. rewrite R1. apply wp_newpid. intros y1 rp Q1 Fp Hi1. cbn [wp]. intros y2 (Q2 & Hi2 & Hs2).
  pose proof (rely_trans _ _ _ _ Q1 Q2) as Rx2.
  destruct (fp_rely _ _ _ _ Q2 Fp) as [(P1 & P2 & P3) _].
  eapply step_mono; [|apply step_private; auto].
  intros z2 Hz2 _ (M1 & M2 & M3 & M4 & M5 & M6) y3 (Q3 & Hi3 & Hs3).
  assert (Kz2 : keep t y2 z2) by (apply same_keep; auto).
  assert (E2 : $nd z2 p = Some (l, lo)) by (rewrite M1; apply (r_nd _ _ _ _ _ Rx2); auto).
  assert (Hprp : p <> rp) by (intros ->; rewrite M1 in E2; congruence).
  assert (T2 : $tbl z2 p = Some head).
  { rewrite M6 by auto. apply (r_big _ _ _ _ _ Rx2); auto. rewrite E. discriminate. }
  assert (A2 : (h_addr head < $naddr z2)%N) by (rewrite M2; pose proof (r_nad _ _ _ _ _ Rx2); lia).
  assert (O22 : $own z2 (h_addr head) = t) by (rewrite M1, (r_own _ _ _ _ _ Rx2); auto).
  assert (T3 : $tbl y3 p = Some head).
  { apply (r_big _ _ _ _ _ Q3); auto. rewrite E2; discriminate. }
  assert (E3 : $nd y3 p = Some (l, lo)) by (apply (r_nd _ _ _ _ _ Q3); auto).
  assert (Fp2 : fp t z2 rp) by (unfold fp; rewrite M1, M3; auto).
  destruct (fp_rely _ _ _ _ Q3 Fp2) as [(V1 & V2 & V3) V4]. rewrite M5 in V4.
  assert (K23 : keep t y2 y3) by (eapply keep_trans; [exact Kz2|]; apply rely_keep; auto).
  assert (Kx3 : keep t x y3) by (eapply keep_trans; [apply rely_keep; exact Rx2|auto]).
  assert (K3 : keep t x0 y3) by (eapply keep_trans; eauto).
  assert (O3 : $own y3 (h_addr head) = t) by (rewrite (r_own _ _ _ _ _ Q3); auto).
  pose proof excess_pos.
  eapply step_mono; [|eapply (step_split g A0 R0 L0 t y3 p l lo head (with_next nl rp) nr rp sep)]; auto.
  - intros z3 Hz3 _ (Hl & X & N1 & N2 & N3 & N4 & N5 & N6 & N7 & N8 & N9). cbn [bind alloc].
    assert (Kz3 : keep t x0 z3).
    { constructor.
      - eapply ext_trans; [apply K3|auto].
      - intros b a v Eb. apply N5. apply (k_hist _ _ _ _ K3). auto.
      - rewrite N4. apply K3.
      - intros k m E0. pose proof (k_tok _ _ _ _ K3 _ _ E0) as E1. rewrite N2. unfold stok.
        destruct (Z.eqb_spec k sep) as [->|]; [exfalso; eapply N9; eauto|].
        destruct (inn l) eqn:El; cbn [andb]; auto. destruct (hasb (find k (nents nr))) eqn:Q; auto. exfalso.
        apply hasb_iff in Q. destruct (live_at _ _ _ _ _ _ _ _ _ Hi3 E3 T3 Hrm) as (_ & _ & Kc).
        assert (Hne : l <> O) by (intros ->; discriminate).
        rewrite (n_tok _ _ _ _ _ _ _ Kc Hne k) in E1; [discriminate|].
        cbn [cents] in CE. injection CE as _ _ CE. destruct (find k (nents nr)) as [v|] eqn:Ef; [|congruence].
        apply find_in in Ef. assert (I2 : In (Some k, v) (ekey (ients head))).
        { rewrite <- CE. apply in_or_app. right. right. apply in_ekey. eauto. }
        apply in_ekey in I2 as (k' & v' & I3 & I4). injection I3 as <- <-. eapply find_some_in; eauto.
      - intros b nb E0. rewrite N3. apply (k_rem _ _ _ _ K3); auto.
      - intros a F0. apply N6; [apply (k_fr _ _ _ _ K3); auto| |]; intros ->; auto.
      - intros a F0. rewrite N7, N8. apply (k_own _ _ _ _ K3). auto. }
    apply wp_alloc. intros y4 a Q4 Fa Hi4 Hs4 Ha4.
    eapply (split_loop_wp x0 sep rp l); auto.
    + intros m Q. apply (k_tok _ _ _ _ K3) in Q. eapply N9; eauto.
    + eapply new_fr; [exact Kz3|exact Ha4].
    + eapply keep_trans; [exact Kz3|]. apply rely_keep; auto.
    + apply (r_nd _ _ _ _ _ Q4). exact N1.
    + apply (r_tok _ _ _ _ _ Q4). rewrite N2. unfold stok. rewrite Z.eqb_refl. auto.
    + eapply bstk_le; [|eapply bstk_ext; [|exact S]].
      * clear -O1. ord.
      * eapply ext_trans; [apply Kx3|]. eapply ext_trans; [exact X|]. eapply rely_ext; eauto.
  - apply (k_fr _ _ _ _ Kx3). exact Fl.
  - apply (k_fr _ _ _ _ Kx3). exact Fr.
Qed.
End Loop.

(** ** TrySMOs *)
Lemma smo_wp t : forall fuel head stack x, smo_pre t x head stack -> inv x ->
  wp t (try_smos g fuel head stack) (fun _ y => keep t x y) x.
Proof.
  induction fuel as [|f IH]; intros head stack x (p & rest & l & lo & -> & E & S & Hh & Ho & Hax & Rc & Hb) Hix; [exact I|].
  cbn [try_smos bind load]. eapply wp_load; eauto. intros y c Hr Hi Hs Ey T Hc. apply step_nop; auto.
  pose proof (r_hist _ _ _ _ _ Hr _ _ _ Hh) as Hhy.
  destruct (N.eqb_spec (h_addr c) (h_addr head)) as [Ea|Ea]; cbn [negb]; [|cbn [wp]; apply rely_keep; auto].
  assert (c = head) by (eapply (cas_head y p); eauto). subst c. clear Ea.
  destruct Hc as [(_ & Lim & Cc & Kc & _)|[Q _]]; [|rewrite Q in Rc; discriminate].
  pose proof (n_sok _ _ _ _ _ _ _ Kc) as Sk. pose proof (s_wf _ _ _ Sk) as W. pose proof (n_lo _ _ _ _ _ _ _ Kc) as Elo.
  assert (Oy : $own y (h_addr head) = t) by (rewrite (r_own _ _ _ _ _ Hr); auto).
  assert (Hay : (h_addr head < $naddr y)%N) by (pose proof (r_nad _ _ _ _ _ Hr); lia).
  apply wp_alloc. intros y1 a R1 Fa Hi1 _ Ha1. cbn [bind].
  destruct (sort_ex g (inn l) head W) as [ds Hs2]. pose proof Hs2 as (Ed & _ & _ & Ln). rewrite Ed.
  assert (Hlen : Z.of_nat (length ds) <= c_maxd g).
  { pose proof (s_cnt _ _ _ Sk Hb). assert (Z.of_nat (ndelta head) <= h_cnt head); [|lia].
    destruct (inn l); cbn [cwf] in W; [eapply ndelta_cnt_i|eapply ndelta_cnt_l]; eauto. }
  destruct (Z.ltb_spec (c_maxd g) (Z.of_nat (length ds))); [lia|].
  rewrite (cwf_leaf g (inn l) head W), negb_involutive.
  pose proof (rely_trans _ _ _ _ Hr R1) as Rx1.
  assert (Retire : forall w, keep t x w -> wp t (retire (chain_addrs head)) (fun _ v => keep t x v) w).
  { intros w Kw. cbn [retire wp]. intros w2 (Rw & Hiw & Hsw). eapply step_mono; [|apply step_retire; auto].
    intros u _ _ (Ru & _). cbn [wp]. eapply keep_trans; [exact Kw|]. apply rely_keep. eapply rely_trans; eauto. }
  destruct (Z.ltb_spec (c_page g) (h_size head)) as [Hz|Hz].
  - assert (Bg : big head) by (split; auto).
    apply wp_alloc. intros y2 ra R2 Fra Hi2 _ Hra. cbn [bind].
    destruct (cons_two g OK (inn l) head ds a ra W Hs2) as (nl & nr & sep & C & W1 & W2 & L1 & L2 & L3 & L4 & L5 & CE & Z1 & Z2 & O1 & O2 & _).
    { split; auto. apply Sk. }
    rewrite C. destruct (GcFacts.cons_two _ _ _ _ _ _ _ _ _ C) as [Al Ar]. unfold fits.
    destruct (Z.leb_spec (n_size nl) (c_page g)); [|lia].
    destruct (Z.leb_spec (n_size nr) (c_page g)); [|lia]. cbn [andb].
    pose proof (rely_trans _ _ _ _ R1 R2) as Ry2. pose proof (rely_trans _ _ _ _ Hr Ry2) as Rx2.
    assert (T2 : $tbl y2 p = Some head).
    { apply (r_big _ _ _ _ _ Ry2); auto. rewrite Ey; discriminate. }
    assert (E2 : $nd y2 p = Some (l, lo)) by (apply (r_nd _ _ _ _ _ Rx2); auto).
    apply wp_bind. eapply wp_mono; [|eapply (split_wp t (try_smos g f) IH x f y2 p rest l lo head nl nr sep)]; auto.
    + apply rely_keep; auto.
    + rewrite (r_own _ _ _ _ _ Ry2); auto.
    + pose proof (r_nad _ _ _ _ _ Ry2). lia.
    + congruence.
    + rewrite <- Elo. auto.
    + clear -O2. destruct (c_hi head); cbn in *; auto; lia.
    + rewrite Al. apply (r_free _ _ _ _ _ R2); auto.
    + rewrite Ar. auto.
    + rewrite Al. eapply new_fr; [|exact Ha1]. apply rely_keep; auto.
    + rewrite Ar. eapply new_fr; [|exact Hra]. apply rely_keep; auto.
    + eapply (bstk_rely g A0 L0 t x y2); eauto.
  - destruct (cons_one g (inn l) head ds a 0%N W Hs2) as (n & C & Wn & Ni & L1 & L2 & L3 & CE & Z1).
    rewrite C. pose proof (GcFacts.cons_one _ _ _ _ _ _ _ _ C) as An.
    unfold fits. destruct (Z.leb_spec (n_size n) (c_page g)); [|lia].
    assert (E1 : $nd y1 p = Some (l, lo)) by (apply (r_nd _ _ _ _ _ Rx1); auto).
    assert (Fa0 : ~ fr t x a) by (eapply new_fr; [apply rely_keep; exact Hr|exact Ha1]).
    destruct (Z.leb_spec (h_size head) (c_min g)) as [Hm|Hm].
    + apply wp_bind. eapply wp_mono; [|eapply (try_merge_wp t (try_smos g f) IH x f p rest l lo head n)]; auto.
      * intros ok w Kw. destruct ok; [apply Retire; auto|exact Kw].
      * congruence.
      * apply rely_keep; auto.
      * apply (r_hist _ _ _ _ _ R1); auto.
      * congruence.
      * eapply (bstk_rely g A0 L0 t x y1); eauto.
    + cbn [bind cas wp]. intros y2 (R2 & Hi2 & Hst2).
      pose proof (rely_trans _ _ _ _ R1 R2) as Ry2. pose proof (rely_trans _ _ _ _ Hr Ry2) as Rx2.
      assert (E2 : $nd y2 p = Some (l, lo)) by (apply (r_nd _ _ _ _ _ Rx2); auto).
      split; [congruence|]. split; [|apply step_nop; auto; cbn [wp]; apply rely_keep; auto].
      intros c0 T0 A1. assert (c0 = head).
      { eapply (cas_head y2 p); eauto. apply (r_hist _ _ _ _ _ Ry2); auto. }
      subst c0. destruct (live_at _ _ _ _ _ _ _ _ _ Hi2 E2 T0 Rc) as (Elim & Cc2 & Kc2).
      eapply step_mono; [|eapply (post_page t (try_smos g f) IH x y2 p l lo head (CBase n) n LLive)]; auto.
      * intros z Hz2 _ (Kz & _). apply Retire; auto.
      * apply rely_keep; auto.
      * intros co Tc. rewrite T0 in Tc. injection Tc as <-. intros [_ B]. lia.
      * intros u n' Q. congruence.
      * cbn [h_addr]. rewrite An. apply (r_free _ _ _ _ _ R2); auto.
      * cbn [h_addr]. rewrite An. auto.
      * intros n' Q. apply (r_rem _ _ _ _ _ Rx2) in Q. congruence.
Qed.
End Smo.
