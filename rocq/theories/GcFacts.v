(** Ownership of pages in any execution, merging included: every address is
    fresh, in one slot of the mapping table, unlinked by one thread, or retired. *)
From Coq Require Import ZArith NArith List Bool Lia.
From Coq Require Import ZifyBool ZifyNat ZifyN.
From Verif Require Import Config Api Page Machine Tree Spec Conc.
Import ListNotations.
Open Scope Z_scope.

(** ** What a thread holds *)
Record hold := mk_hold {
  fr : addr -> Prop;          (* allocated and not published *)
  un : addr -> Prop;          (* unlinked by this thread *)
  tok : addr -> Prop;         (* heads this thread has published *)
  kn : chain -> Prop;         (* chains seen *)
  pds : pid -> Prop;          (* page IDs obtained and not used *)
  lk : pid -> chain -> Prop   (* slots that no other thread changes *)
}.

Section Own.
Variable g : cfg.

Definition r_load (p : pid) (c : chain) (R : hold) : hold :=
  mk_hold (fr R) (un R) (tok R) (fun x => kn R x \/ x = c) (pds R)
    (fun q x => lk R q x \/ (q = p /\ x = c /\ tok R (h_addr c) /\ need_wait g c = true)).
Definition r_store (p : pid) (c : chain) (old : list addr) (R : hold) : hold :=
  mk_hold (fun x => fr R x /\ ~ In x (chain_addrs c))
    (fun x => un R x \/ In x old)
    (tok R) (kn R) (fun q => pds R q /\ q <> p) (fun q x => lk R q x /\ q <> p).
Definition r_cas (p : pid) (h : chain) (l : list addr) (keep : bool) (c : chain) (R : hold) : hold :=
  mk_hold (fun x => fr R x /\ ~ In x l)
    (fun x => un R x \/ (keep = false /\ In x (chain_addrs h)))
    (fun x => tok R x \/ x = h_addr c) (fun x => kn R x \/ x = c) (pds R)
    (fun q x => (lk R q x /\ q <> p) \/ (q = p /\ x = c /\ is_remove c = true)).
Definition r_alloc (a : addr) (R : hold) : hold :=
  mk_hold (fun x => fr R x \/ x = a) (un R) (tok R) (kn R) (pds R) (lk R).
Definition r_pid (p : pid) (R : hold) : hold :=
  mk_hold (fr R) (un R) (tok R) (kn R) (fun q => pds R q \/ q = p) (lk R).
Definition r_ret (l : list addr) (R : hold) : hold :=
  mk_hold (fun x => fr R x /\ ~ In x l) (fun x => un R x /\ ~ In x l) (tok R) (kn R) (pds R) (lk R).

(** A head on which this thread may compare-and-swap. *)
Definition may (R : hold) (h : chain) : Prop :=
  (need_wait g h = false /\ is_remove h = false) \/ tok R (h_addr h).

Fixpoint wp {A} (R : hold) (m : prog A) (Q : A -> hold -> Prop) : Prop :=
  match m with
  | Ret a => Q a R
  | Load p k => forall c, (forall h, kn R h -> h_addr h = h_addr c -> h = c) ->
      NoDup (chain_addrs c) -> (forall x, In x (chain_addrs c) -> ~ fr R x /\ ~ un R x) ->
      wp (r_load p c R) (k c) Q
  | Store p c k => NoDup (chain_addrs c) /\ (forall x, In x (chain_addrs c) -> fr R x) /\
      exists old, ((pds R p /\ old = []) \/ exists c0, lk R p c0 /\ old = chain_addrs c0) /\
      wp (r_store p c old R) k Q
  | Clear _ _ => False
  | Cas _ p e c k => exists (h : chain) (l : list addr) (keep : bool), kn R h /\ h_addr h = e /\ may R h /\
      chain_addrs c = l ++ (if keep then chain_addrs h else []) /\ NoDup l /\
      (forall x, In x l -> fr R x) /\ In (h_addr c) l /\
      wp R (k false) Q /\
      ((forall c', lk R p c' -> c' = h /\ (need_wait g h = true \/ is_remove h = true)) ->
       wp (r_cas p h l keep c R) (k true) Q)
  | LoadRoot k => forall r, wp R (k r) Q
  | StoreRoot _ k => wp R k Q
  | CasRoot _ _ k => forall b, wp R (k b) Q
  | NewPid k => forall p, (forall c, ~ lk R p c) -> wp (r_pid p R) (k p) Q
  | Alloc k => forall a, ~ fr R a -> ~ un R a -> (forall h, kn R h -> ~ In a (chain_addrs h)) -> wp (r_alloc a R) (k a) Q
  | LoadCell _ k => forall p, wp R (k p) Q
  | StoreCell _ _ k => wp R k Q
  | Retire l k => NoDup l /\ (forall x, In x l -> fr R x \/ un R x) /\ wp (r_ret l R) k Q
  | UB _ | Fuel => True
  end.

Lemma wp_mono {A} (m : prog A) : forall R (Q Q' : A -> hold -> Prop),
  (forall a R', Q a R' -> Q' a R') -> wp R m Q -> wp R m Q'.
Proof.
  induction m; intros R Q Q' HQ; cbn [wp]; auto; intros HW; try (intros; eauto; fail).
  - destruct HW as (? & ? & old & ? & ?). split; auto. split; auto. exists old. split; eauto.
  - destruct HW as (h & l & kp & ? & ? & ? & ? & ? & ? & ? & ? & ?). exists h, l, kp. repeat split; auto; eauto.
  - destruct HW as (? & ? & ?). eauto.
Qed.
Lemma wp_bind {A B} (m : prog A) (f : A -> prog B) : forall R Q,
  wp R m (fun a R' => wp R' (f a) Q) -> wp R (bind m f) Q.
Proof.
  induction m; intros R Q; cbn [wp bind]; auto; intros HW; try (intros; eauto; fail).
  - destruct HW as (? & ? & old & ? & ?). split; auto. split; auto. exists old. split; eauto.
  - destruct HW as (h & l & kp & ? & ? & ? & ? & ? & ? & ? & ? & ?). exists h, l, kp. repeat split; auto; eauto.
  - destruct HW as (? & ? & ?). eauto.
Qed.

(** ** Programs that publish nothing *)
Definition sub (R R' : hold) : Prop :=
  (forall x, fr R x -> fr R' x) /\ (forall x, un R x -> un R' x) /\
  (forall x, tok R x -> tok R' x) /\ (forall c, kn R c -> kn R' c).
Definition ext (R R' : hold) : Prop :=
  fr R' = fr R /\ un R' = un R /\ tok R' = tok R /\ pds R' = pds R /\
  (forall c, kn R c -> kn R' c) /\ (forall p c, lk R p c -> lk R' p c).
(** Nothing unlinked is left behind. *)
Definition les (R R' : hold) : Prop := forall x, un R' x -> un R x.
Lemma les_refl R : les R R. Proof. intros x; auto. Qed.
Lemma les_trans R1 R2 R3 : les R1 R2 -> les R2 R3 -> les R1 R3. Proof. intros A B x; auto. Qed.
Lemma ext_les R R' : ext R R' -> les R R'.
Proof. intros (_ & E & _) x. rewrite E. auto. Qed.
Lemma sub_refl R : sub R R. Proof. repeat split; auto. Qed.
Lemma sub_trans R1 R2 R3 : sub R1 R2 -> sub R2 R3 -> sub R1 R3.
Proof. intros (A1 & A2 & A3 & A4) (B1 & B2 & B3 & B4). repeat split; auto. Qed.
Lemma ext_refl R : ext R R. Proof. repeat split; auto. Qed.
Lemma ext_trans R1 R2 R3 : ext R1 R2 -> ext R2 R3 -> ext R1 R3.
Proof.
  intros (A1 & A2 & A3 & A4 & A5 & A6) (B1 & B2 & B3 & B4 & B5 & B6).
  repeat split; auto; congruence.
Qed.
Lemma ext_sub R R' : ext R R' -> sub R R'.
Proof. intros (A1 & A2 & A3 & A4 & A5 & A6). repeat split; auto; congruence. Qed.
Lemma ext_load p c R : ext R (r_load p c R).
Proof. repeat split; cbn; auto. Qed.
Lemma know_load p c R : kn (r_load p c R) c. Proof. cbn. auto. Qed.

Definition ro {A} (m : prog A) : Prop := forall R, wp R m (fun _ R' => ext R R').
Lemma wp_ro {A B} (m : prog A) (f : A -> prog B) R Q :
  ro m -> (forall a R', ext R R' -> wp R' (f a) Q) -> wp R (bind m f) Q.
Proof. intros H1 H2. apply wp_bind. eapply wp_mono; [|apply H1]. intros a R' H. apply H2, H. Qed.
Lemma ro_bind {A B} (m : prog A) (f : A -> prog B) : ro m -> (forall a, ro (f a)) -> ro (bind m f).
Proof.
  intros H1 H2 R. apply wp_ro; auto. intros a R' H. eapply wp_mono; [|apply H2].
  intros x R2 HE. eapply ext_trans; eauto.
Qed.
Lemma ro_load {B} p (f : chain -> prog B) : (forall c, ro (f c)) -> ro (bind (load p) f).
Proof. intros H. apply ro_bind; auto. intros R. cbn. intros c _ _ _. apply ext_load. Qed.
Lemma ro_ret {A} (a : A) : ro (Ret a). Proof. intros R. apply ext_refl. Qed.
Lemma ro_ub {A} u : ro (@UB A u). Proof. intros R. exact I. Qed.
Lemma ro_fuel {A} : ro (@Fuel A). Proof. intros R. exact I. Qed.
Hint Resolve ro_ret ro_ub ro_fuel : core.

Lemma ro_wait_cell a : forall f, ro (wait_cell f a).
Proof. induction f; cbn [wait_cell]; auto. intros R. cbn [wp]. intros p. destruct (N.eqb p 0); [apply IHf|apply ro_ret]. Qed.

Lemma ro_child k cl tgt : forall f st, ro (search_child_node f k cl st tgt).
Proof.
  induction f; intros st; cbn [search_child_node]; auto. destruct st as [|p rest]; auto.
  apply ro_load. intros c. destruct (dc_search_child c k cl false); auto.
  - destruct (h_leaf c); auto.
  - apply ro_bind; [apply ro_wait_cell|auto].
  - destruct rest; [destruct (negb (N.eqb tgt 0)); auto; intros R; cbn [wp]; intros r; apply IHf|].
    apply ro_bind; [apply IHf|]. intros [[|] [|q st']]; auto.
  - match goal with |- context [N.eqb ?x tgt] => destruct (N.eqb x tgt) end; auto.
  - destruct (node_search_child n k cl); auto. destruct (h_leaf c); auto.
Qed.
Lemma ro_leaf_loop k cl : forall f st, ro (leaf_loop f k cl st).
Proof.
  induction f; intros st; cbn [leaf_loop]; auto. destruct st as [|p rest]; auto.
  apply ro_load. intros c. destruct (h_leaf c); auto.
  apply ro_bind; [apply ro_child|]. intros [b st']. apply IHf.
Qed.
Lemma ro_search_leaf k cl f : ro (search_leaf f k cl).
Proof. intros R. cbn [search_leaf wp]. intros r. apply ro_leaf_loop. Qed.
Lemma ro_target_loop k tgt : forall f st b, ro (target_loop f k tgt st b).
Proof.
  induction f; intros st b; cbn [target_loop]; auto. destruct b; auto.
  apply ro_bind; [apply ro_child|]. intros [b st']. destruct b; auto. destruct st'; auto.
  apply ro_load. intros c. apply IHf.
Qed.
Lemma ro_search_target k tgt : forall f, ro (search_target f k tgt).
Proof.
  induction f; cbn [search_target]; auto. intros R. cbn [wp]. intros r. revert R.
  change (ro (bind (load r) (fun c => bind (target_loop f k tgt [r] (h_leaf c))
    (fun st' => match st' with [] => search_target f k tgt | _ => Ret st' end)))).
  apply ro_load. intros c. apply ro_bind; [apply ro_target_loop|]. intros [|p st']; auto.
Qed.

(** Heads returned for an update. *)
Definition good (R : hold) (c : chain) : Prop := kn R c /\ need_wait g c = false /\ is_remove c = false.
Definition gdo (R : hold) (o : option chain) : Prop := match o with Some c => good R c | None => True end.

Lemma wp_load_valid p : forall f R, wp R (load_valid g f p) (fun c R' => ext R R' /\ kn R' c /\ need_wait g c = false).
Proof.
  induction f; intros R; cbn [load_valid]; [exact I|]. cbn [bind load wp]. intros c _ _ _.
  destruct (need_wait g c) eqn:W.
  - eapply wp_mono; [|apply IHf]. intros x R' (A & B & C). split; auto. eapply ext_trans; [apply ext_load|exact A].
  - cbn [wp]. split; [apply ext_load|split; auto; apply know_load].
Qed.

Lemma validate_norem c k cl : dc_validate c k cl <> VRemoved -> is_remove c = false.
Proof. destruct c; auto. cbn. congruence. Qed.
Lemma record_norem c k s : dc_search_record c k s <> RRemoved -> is_remove c = false.
Proof. destruct c; auto. cbn. congruence. Qed.
Lemma merge_norem c k s kf sf m : dc_search_merge c k s kf sf m <> MRemoved -> is_remove c = false.
Proof. destruct c; auto. cbn. congruence. Qed.

Lemma wp_get_head k cl tgt : forall f st R, wp R (get_head g f k cl st tgt) (fun r R' => ext R R' /\ gdo R' (fst r)).
Proof.
  induction f; intros st R; cbn [get_head]; [exact I|]. destruct st as [|p rest]; [exact I|].
  assert (IH : forall st R2, ext R R2 -> wp R2 (get_head g f k cl st tgt) (fun r R' => ext R R' /\ gdo R' (fst r))).
  { intros st R2 HE. eapply wp_mono; [|apply IHf]. intros a R' [A B]. split; auto. eapply ext_trans; eauto. }
  apply wp_bind. eapply wp_mono; [|apply wp_load_valid]. intros c R1 (E1 & K & W).
  destruct (dc_validate c k cl) eqn:V.
  - cbn [wp fst gdo]. repeat split; auto; try apply E1. eapply validate_norem; rewrite V; discriminate.
  - destruct rest; [destruct (negb (N.eqb tgt 0)); [cbn; auto|]|].
    + apply wp_ro; [apply ro_search_leaf|]. intros st R2 E2. apply IH. eapply ext_trans; eauto.
    + apply wp_ro; [apply ro_child|]. intros [b [|q st']] R2 E2; [|apply IH; eapply ext_trans; eauto].
      cbn [wp fst gdo]. split; [eapply ext_trans; eauto|auto].
  - match goal with |- context [N.eqb ?x tgt] => destruct (N.eqb x tgt) end; [|apply IH; auto].
    cbn [wp fst gdo]. repeat split; auto; try apply E1. eapply validate_norem; rewrite V; discriminate.
Qed.

Lemma wp_get_kc k : forall f st R, wp R (get_head_kc g f k st) (fun r R' => ext R R' /\ good R' (fst (fst r))).
Proof.
  induction f; intros st R; cbn [get_head_kc]; [exact I|]. destruct st as [|p rest]; [exact I|].
  assert (IH : forall st R2, ext R R2 -> wp R2 (get_head_kc g f k st) (fun r R' => ext R R' /\ good R' (fst (fst r)))).
  { intros st R2 HE. eapply wp_mono; [|apply IHf]. intros a R' [A B]. split; auto. eapply ext_trans; eauto. }
  apply wp_bind. eapply wp_mono; [|apply wp_load_valid]. intros c R1 (E1 & K & W).
  destruct (dc_search_record c k false) eqn:V; try exact I;
    try (cbn [wp fst]; split; [exact E1|]; repeat split; auto; eapply record_norem; rewrite V; discriminate).
  - destruct rest.
    + apply wp_ro; [apply ro_search_leaf|]. intros st R2 E2. apply IH. eapply ext_trans; eauto.
    + apply wp_ro; [apply ro_child|]. intros [b st'] R2 E2. apply IH. eapply ext_trans; eauto.
  - apply IH; auto.
Qed.

Lemma wp_get_merge k : forall f sib st R, wp R (get_head_merge g f k sib st) (fun r R' => ext R R' /\ gdo R' (fst (fst r))).
Proof.
  induction f; intros sib st R; cbn [get_head_merge]; [exact I|]. destruct st as [|p rest]; [exact I|].
  assert (IH : forall sib st R2, ext R R2 -> wp R2 (get_head_merge g f k sib st) (fun r R' => ext R R' /\ gdo R' (fst (fst r)))).
  { intros sib' st R2 HE. eapply wp_mono; [|apply IHf]. intros a R' [A B]. split; auto. eapply ext_trans; eauto. }
  apply wp_bind. eapply wp_mono; [|apply wp_load_valid]. intros c R1 (E1 & K & W).
  match goal with |- context [dc_search_merge ?a ?b ?cc ?d ?e ?ff] => destruct (dc_search_merge a b cc d e ff) eqn:V end;
    try exact I; try (cbn [wp fst gdo]; split; [exact E1|exact I]); try (apply IH; auto).
  - cbn [wp fst gdo]. repeat split; auto; try apply E1. eapply merge_norem; rewrite V; discriminate.
  - match goal with |- wp _ (if ?x then _ else _) _ => destruct x end; cbn [wp fst gdo]; split; auto.
    repeat split; auto. eapply merge_norem; rewrite V; discriminate.
Qed.

(** ** Publishing a delta record *)
Lemma sub_ext R0 R R' : sub R0 R -> ext R R' -> sub R0 R'.
Proof. intros H1 H2. eapply sub_trans; [exact H1|apply ext_sub, H2]. Qed.
(** Frame: resources outside [l] survive. *)
Lemma sub_cas R0 R p h l kp c : sub R0 R -> (forall x, In x l -> ~ fr R0 x) -> sub R0 (r_cas p h l kp c R).
Proof.
  intros (A & B & C & D) H. repeat split; cbn; auto. intros X. eapply H; eauto.
Qed.
Lemma sub_alloc R0 R a : sub R0 R -> sub R0 (r_alloc a R).
Proof. intros (A & B & C & D). repeat split; cbn; auto. Qed.
Lemma sub_load R0 R p c : sub R0 R -> sub R0 (r_load p c R).
Proof. intros (A & B & C & D). repeat split; cbn; auto. Qed.
Lemma sub_pid R0 R p : sub R0 R -> sub R0 (r_pid p R).
Proof. intros (A & B & C & D). repeat split; cbn; auto. Qed.
Lemma sub_store R0 R p c old : sub R0 R -> (forall x, In x (chain_addrs c) -> ~ fr R0 x) -> sub R0 (r_store p c old R).
Proof. intros (A & B & C & D) H. repeat split; cbn; auto. intros X. eapply H; eauto. Qed.
Lemma sub_ret R0 R l : sub R0 R -> (forall x, In x l -> ~ fr R0 x /\ ~ un R0 x) -> sub R0 (r_ret l R).
Proof.
  intros (A & B & C & D) H. repeat split; cbn; auto; intros X; destruct (H x X); auto.
Qed.

(** [cas] of a record in front of a [good] head. *)
Lemma wp_cas_rec {B} R w p h d (k : bool -> prog B) Q :
  good R h -> fr R (d_addr d) ->
  wp R (k false) Q ->
  wp (r_cas p h [d_addr d] true (CRec d h) R) (k true) Q ->
  wp R (bind (cas w p (h_addr h) (CRec d h)) k) Q.
Proof.
  intros G F W1 W2. cbn [bind cas wp]. exists h, [d_addr d], true. cbn [chain_addrs app h_addr In].
  destruct G as (G1 & G2 & G3). repeat split; auto.
  - left; auto.
  - constructor; [intros []|constructor].
  - intros x [<-|[]]. auto.
Qed.

Definition smo_wp (smos : chain -> list pid -> prog unit) : Prop := forall c st R0 R,
  sub R0 R -> kn R c -> tok R (h_addr c) -> is_base c = false -> wp R (smos c st) (fun _ R' => sub R0 R' /\ les R R').

Lemma wp_opt_smos smos (b : bool) c st R0 R : smo_wp smos -> sub R0 R -> kn R c -> tok R (h_addr c) -> is_base c = false ->
  wp R (if b then smos c st else Ret tt) (fun _ R' => sub R0 R' /\ les R R').
Proof. intros. destruct b; [apply H; auto|]. cbn [wp]. split; [auto|apply les_refl]. Qed.
Lemma wp_opt_les smos (b : bool) c st R0 R1 R : smo_wp smos -> les R1 R -> sub R0 R -> kn R c -> tok R (h_addr c) -> is_base c = false ->
  wp R (if b then smos c st else Ret tt) (fun _ R' => sub R0 R' /\ les R1 R').
Proof.
  intros HS L S K T B. eapply wp_mono; [|apply wp_opt_smos; eauto]. intros u R' [A D]. split; auto. eapply les_trans; eauto.
Qed.

Lemma wp_root_split sep r l R0 R : sub R0 R ->
  wp R (try_root_split g sep r l) (fun b R' => (sub R0 R' /\ les R R') /\ (b = false -> R' = R)).
Proof.
  intros HS. cbn [try_root_split wp]. intros rt. destruct (negb (N.eqb rt l)); [cbn; auto using les_refl|].
  cbn [bind alloc wp]. intros a Ha Hu Hk np Hnp. cbn [chain_addrs new_root n_addr].
  split; [constructor; [intros []|constructor]|]. split; [intros x [<-|[]]; cbn; auto|].
  exists []. split; [left; cbn; auto|]. split; [|discriminate]. split; [|intros x [X|[]]; exact X].
  apply sub_store; [apply sub_pid, sub_alloc; auto|]. intros x [<-|[]] X. apply Ha. apply HS in X. auto.
Qed.

Lemma wp_split_loop smos d l R0 : smo_wp smos -> ~ fr R0 (d_addr d) -> forall f st R,
  sub R0 R -> fr R (d_addr d) -> wp R (split_loop g smos f d l st) (fun _ R' => sub R0 R' /\ les R R').
Proof.
  intros HS HD. induction f; intros st R S F; cbn [split_loop]; [exact I|].
  assert (IH : forall st R2, ext R R2 -> wp R2 (split_loop g smos f d l st) (fun _ R' => sub R0 R' /\ les R R')).
  { intros st' R2 E. eapply wp_mono; [|apply IHf]; [|eapply sub_ext; eauto|destruct E as (-> & _); auto].
    intros u R' [A B]. split; auto. eapply les_trans; [apply ext_les, E|auto]. }
  destruct st as [|p rest].
  - apply wp_bind. eapply wp_mono; [|apply wp_root_split; eauto]. intros [|] R1 (S1 & E1); [exact S1|].
    rewrite (E1 eq_refl) in *. apply wp_ro; [apply ro_search_target|]. intros [|q t] R2 E2; [exact I|].
    apply IH, E2.
  - apply wp_bind. eapply wp_mono; [|apply wp_get_head]. intros [[head|] st'] R1 (E1 & G); cbn [fst gdo] in G.
    + destruct st' as [|q t]; [exact I|].
      assert (F1 : fr R1 (d_addr d)) by (destruct E1 as (-> & _); auto).
      apply wp_cas_rec; [auto|exact F1| |].
      * apply IH, E1.
      * apply wp_opt_les; auto; cbn; auto.
        -- intros x [X|[X _]]; [apply (ext_les _ _ E1), X|discriminate].
        -- apply sub_cas; [eapply sub_ext; eauto|]. intros x [<-|[]]. exact HD.
    + apply IH, E1.
Qed.

Lemma wp_split smos f l r st R0 R head lp : smo_wp smos -> sub R0 R ->
  fr R (n_addr l) -> fr R (n_addr r) -> n_addr l <> n_addr r -> ~ fr R0 (n_addr l) -> ~ fr R0 (n_addr r) ->
  lk R lp head ->
  wp R (split g smos f l r (lp :: st))
    (fun _ R' => (sub R0 R' /\ forall x, In x (chain_addrs head) -> un R' x) /\
       forall x, un R' x -> un R x \/ In x (chain_addrs head)).
Proof.
  intros HS S Fl Fr Hn Nl Nr HL. unfold split. cbn [wp]. intros rp Hrp. cbn [chain_addrs].
  split; [constructor; [intros []|constructor]|]. split; [intros x [<-|[]]; cbn; auto|].
  exists []. split; [left; cbn; auto|].
  destruct (n_low r); [|exact I]. cbn [wp chain_addrs with_next n_addr].
  split; [constructor; [intros []|constructor]|].
  split; [intros x [<-|[]]; cbn; split; auto; intros [X|[]]; congruence|].
  assert (Hne : lp <> rp) by (intros ->; eapply Hrp; eauto).
  exists (chain_addrs head). split; [right; exists head; cbn; auto|]. cbn [bind alloc wp]. intros a Ha Hu Hk.
  match goal with |- wp ?R2 _ _ => set (R3 := R2) in * end.
  match type of Ha with ~ fr ?R2 _ => set (R2' := R2) in * end.
  set (R0' := mk_hold (fr R0) (fun x => un R0 x \/ In x (chain_addrs head)) (tok R0) (kn R0) (pds R0) (lk R0)).
  assert (S2 : sub R0' R2').
  { destruct S as (A & B & C & D). repeat split; cbn; auto.
    - intros [X|[]]; subst; auto.
    - intros [X|[]]; subst; auto.
    - intros x [X|X]; auto. }
  eapply wp_mono; [|apply (wp_split_loop smos _ lp R0' HS)].
  - intros u R' ((A & B & C & D) & L). split; [split; [|intros x X; apply B; cbn; auto]; repeat split; auto; intros x X; apply B; cbn; auto|].
    intros x X. apply L in X. cbn in X. destruct X as [[X|[]]|X]; auto.
  - cbn [d_addr]. intros X. apply Ha. destruct S2 as (A & _). apply A. exact X.
  - apply sub_alloc, S2.
  - cbn. auto.
Qed.

Lemma wp_delete_loop d R0 p0 c0 : ~ fr R0 (d_addr d) -> forall f sib st R,
  sub R0 R -> fr R (d_addr d) -> lk R p0 c0 ->
  wp R (delete_loop g f d sib st) (fun r R' => (sub R0 R' /\ les R R') /\
    match fst r with
    | Some c => kn R' c /\ tok R' (h_addr c) /\ is_base c = false
    | None => lk R' p0 c0
    end).
Proof.
  intros HD. induction f; intros sib st R S F L; cbn [delete_loop]; [exact I|]. apply wp_bind.
  eapply wp_mono; [|apply wp_get_merge]. intros [[[head|] st'] sib'] R1 (E1 & G); cbn [fst gdo] in G.
  - destruct st' as [|p t]; [exact I|].
    assert (F1 : fr R1 (d_addr d)) by (destruct E1 as (-> & _); auto).
    apply wp_cas_rec; [auto|exact F1| |].
    + eapply wp_mono; [|apply IHf; auto; [eapply sub_ext; eauto|apply E1; auto]]. intros r R' [[A B] C]. split; [split; auto|exact C].
      eapply les_trans; [apply ext_les, E1|auto].
    + cbn [wp fst]. split; [|cbn; auto]. split; [apply sub_cas; [eapply sub_ext; eauto|]; intros x [<-|[]]; exact HD|].
      intros x [X|[X _]]; [apply (ext_les _ _ E1), X|discriminate].
  - cbn [wp fst]. split; [split; [eapply sub_ext; eauto|apply ext_les, E1]|]. apply E1. auto.
Qed.

Lemma wp_delete_entry smos f n st R0 R p0 c0 : smo_wp smos -> sub R0 R -> lk R p0 c0 ->
  wp R (try_delete_entry g smos f n st) (fun r R' => (sub R0 R' /\ les R R') /\ (r = None -> lk R' p0 c0) /\ (r <> None -> n_low n <> None)).
Proof.
  intros HS S L. unfold try_delete_entry. destruct st; [cbn; split; [auto using les_refl|split; [auto|congruence]]|]. destruct (n_low n) eqn:El; [|cbn; split; [auto using les_refl|split; [auto|congruence]]].
  cbn [bind alloc wp]. intros a Ha Hu Hk. apply wp_bind. eapply wp_mono; [|apply (wp_delete_loop _ R0 p0 c0)].
  - intros [[c|] st'] R1 ((S1 & L1) & X); cbn [fst] in X; [|cbn; split; [auto|split; [auto|congruence]]]. destruct X as (K & T & B).
    apply wp_bind. eapply wp_mono; [|apply (wp_opt_les smos _ c st' R0 R R1); eauto]. intros u R2 S2. cbn [wp]. split; [exact S2|split; discriminate].
  - cbn. intros X. apply Ha. apply S in X. auto.
  - apply sub_alloc; auto.
  - cbn; auto.
  - cbn; auto.
Qed.

Lemma wp_merge_loop smos d n rp da R0 : smo_wp smos -> ~ fr R0 (d_addr d) -> ~ fr R0 (n_addr n) ->
  d_addr d <> n_addr n -> forall f b st R,
  sub R0 R -> fr R (d_addr d) -> fr R (n_addr n) ->
  wp R (merge_loop g smos f d n rp da b st) (fun _ R' => sub R0 R' /\ les R R').
Proof.
  intros HS HD HN Hne. induction f; intros b st R S F Fn; cbn [merge_loop]; [exact I|].
  assert (IH : forall b st R2, ext R R2 -> wp R2 (merge_loop g smos f d n rp da b st) (fun _ R' => sub R0 R' /\ les R R')).
  { intros b' st' R2 E. eapply wp_mono; [|apply IHf]; [|eapply sub_ext; eauto|destruct E as (-> & _); auto|destruct E as (-> & _); auto].
    intros u R' [A B]. split; auto. eapply les_trans; [apply ext_les, E|auto]. }
  destruct b.
  - apply wp_bind. eapply wp_mono; [|apply wp_get_head]. intros [[head|] st'] R1 (E1 & G); cbn [fst gdo] in G.
    + destruct st' as [|q t]; [exact I|].
      assert (F1 : fr R1 (d_addr d)) by (destruct E1 as (-> & _); auto).
      assert (F2 : fr R1 (n_addr n)) by (destruct E1 as (-> & _); auto).
      assert (S1 : sub R0 R1) by (eapply sub_ext; eauto). destruct G as (G1 & G2 & G3).
      cbn [bind cas wp]. exists head, [d_addr d; n_addr n], true. cbn [chain_addrs set_next d_addr app h_addr].
      split; [exact G1|]. split; [reflexivity|]. split; [left; auto|]. split; [reflexivity|].
      split; [constructor; [intros [X|[]]; auto|constructor; [intros []|constructor]]|].
      split; [intros x [<-|[<-|[]]]; auto|]. split; [left; auto|]. split; [apply IH; auto|].
      intros _. cbn [wp]. apply wp_opt_les; auto; cbn; auto.
      * intros x [X|[X _]]; [apply (ext_les _ _ E1), X|discriminate].
      * apply sub_cas; auto. intros x [<-|[<-|[]]]; auto.
    + apply IH, E1.
  - destruct st.
    + apply wp_ro; [apply ro_search_target|]. intros st R1 E1. apply IH, E1.
    + apply wp_ro; [apply ro_child|].
      intros [b [|q t]] R1 E1; apply IH, E1.
Qed.

Lemma wp_remove_root n p st R0 R p0 c0 : sub R0 R -> fr R (n_addr n) -> ~ fr R0 (n_addr n) -> ~ un R0 (n_addr n) -> lk R p0 c0 ->
  wp R (try_remove_root n p st) (fun r R' => (sub R0 R' /\ les R R') /\ (r = false -> lk R' p0 c0 /\ fr R' (n_addr n))).
Proof.
  intros S F N1 N2 L. unfold try_remove_root. destruct st; [|cbn; auto using les_refl].
  destruct ((1 <? Z.of_nat (length (n_recs n))) || negb (n_inner n)); [cbn; auto using les_refl|].
  destruct (leftmost_child (CBase n)) as [p1|]; [|exact I]. cbn [bind load wp]. intros c _ _ _.
  assert (LL : les R (r_load p1 c R)) by (intros x; cbn; auto).
  destruct (h_leaf c); [cbn [wp]; split; [split; [apply sub_load|]; auto|cbn; auto]|].
  cbn [wp]. intros [|]; [|cbn [wp]; split; [split; [apply sub_load|]; auto|cbn; auto]].
  cbn [wp]. split; [constructor; [intros []|constructor]|]. split; [intros x [<-|[]]; cbn; auto|].
  split; [|discriminate]. split; [apply sub_ret; [apply sub_load; auto|]; intros x [<-|[]]; auto|].
  intros x [X _]. exact X.
Qed.

Lemma wp_try_merge smos f head n st R0 R : smo_wp smos -> sub R0 R -> kn R head -> tok R (h_addr head) ->
  fr R (n_addr n) -> ~ fr R0 (n_addr n) -> ~ un R0 (n_addr n) -> ~ In (n_addr n) (chain_addrs head) ->
  wp R (try_merge g smos f head n st)
    (fun r R' => (sub R0 R' /\ (r = true -> forall x, In x (chain_addrs head) -> un R' x)) /\
       forall x, un R' x -> un R x \/ (r = true /\ In x (chain_addrs head))).
Proof.
  intros HS S K T F N1 N2 N3. unfold try_merge. destruct st as [|p st]; [exact I|]. cbn [bind alloc wp]. intros a Ha Hu Hk.
  cbn [cas bind wp]. exists head, [a], false. cbn [chain_addrs app h_addr].
  split; [exact K|]. split; [reflexivity|]. split; [right; exact T|]. split; [reflexivity|].
  split; [constructor; [intros []|constructor]|]. split; [intros x [<-|[]]; cbn; auto|]. split; [left; auto|].
  split; [cbn [negb wp]; split; [split; [apply sub_alloc; auto|discriminate]|intros x X; left; exact X]|].
  intros _. cbn [negb]. set (C := CRemove a (negb (n_inner n))).
  match goal with |- wp ?R2 _ _ => set (R1 := R2) end.
  assert (Ran : a <> n_addr n) by (intros ->; auto).
  (* what must survive the nested operations *)
  set (R0' := mk_hold (fun x => fr R0 x) (fun x => un R0 x \/ In x (chain_addrs head)) (tok R0) (kn R0) (pds R0) (lk R0)).
  set (R0n := mk_hold (fun x => fr R0 x \/ x = n_addr n) (un R0') (tok R0) (kn R0) (pds R0) (lk R0)).
  assert (S1 : sub R0n R1).
  { destruct S as (A & B & D & E). repeat split; cbn; auto.
    - destruct H as [H| ->]; auto.
    - intros [->|[]]. destruct H as [H|H]; auto.
    - intros x [X|X]; auto. }
  assert (L1 : lk R1 p C) by (cbn; auto).
  assert (HW : forall R2, sub R0' R2 -> les R1 R2 -> (sub R0 R2 /\ (true = true -> forall x, In x (chain_addrs head) -> un R2 x)) /\
    forall x, un R2 x -> un R x \/ (true = true /\ In x (chain_addrs head))).
  { intros R2 (A & B & D & E) LE. split; [split; [|intros _ x X; apply B; cbn; auto];
    repeat split; auto; intros x X; apply B; cbn; auto|]. intros x X. apply LE in X. cbn in X. tauto. }
  apply wp_bind. eapply wp_mono; [|apply (wp_delete_entry smos f n st R0n R1 p C HS S1 L1)].
  intros od R2 ((S2 & LE2) & X2 & X2').
  assert (F2 : fr R2 (n_addr n)) by (apply S2; cbn; auto).
  assert (S2' : sub R0' R2).
  { destruct S2 as (A & B & D & E). repeat split; auto. intros x X. apply A. cbn; auto. }
  assert (HR : lk R2 p C -> wp R2 (bind (try_remove_root n p st) (fun rr : bool =>
      if rr then Ret true else Store p (CBase n) (Retire [a] (Ret true))))
      (fun r R' => (sub R0 R' /\ (r = true -> forall x, In x (chain_addrs head) -> un R' x)) /\
         forall x, un R' x -> un R x \/ (r = true /\ In x (chain_addrs head)))).
  { intros L2. apply wp_bind. eapply wp_mono; [|apply (wp_remove_root n p st R0' R2 p C S2' F2)].
    - intros [|] R3 ((S3 & LE3) & X3); [cbn [wp]; apply HW; [exact S3|eapply les_trans; eauto]|]. destruct (X3 eq_refl) as (L3 & F3).
      cbn [wp chain_addrs]. split; [constructor; [intros []|constructor]|].
      split; [intros x [<-|[]]; auto|]. exists [a]. split; [right; exists C; auto|].
      split; [constructor; [intros []|constructor]|].
      split; [intros x [<-|[]]; right; cbn; auto|].
      apply HW; [apply sub_ret; [apply sub_store; auto|]|].
      + cbn. intros x [<-|[]]. exact N1.
      + cbn. intros x [<-|[]]. split; [intros X; apply Ha, S, X|]. intros [X|X]; [apply Hu, S, X|]. eapply Hk; eauto.
      + intros x [[X|[<-|[]]] Y]; [apply LE2, LE3, X|]. destruct Y. left; auto.
    - exact N1.
    - cbn. tauto.
    - exact L2. }
  destruct od as [da|]; [|apply HR, X2; reflexivity]. destruct (n_low n) eqn:El.
  2:{ exfalso. apply X2'; [discriminate|reflexivity]. }
  cbn [bind alloc wp]. intros ma Hma Hmu Hmk. apply wp_bind.
  eapply wp_mono; [|apply (wp_merge_loop smos _ n p da R0' HS)].
  - intros u R3 [S3 LE3]. cbn [wp]. apply HW; [exact S3|]. eapply les_trans; [exact LE2|]. intros x X. apply LE3 in X. exact X.
  - cbn. intros X. apply Hma, S2', X.
  - exact N1.
  - cbn. intros ->. auto.
  - apply sub_alloc, S2'.
  - cbn. auto.
  - cbn. auto.
Qed.

Lemma cons_two inner a ra ns ds sc l r : consolidate g inner a ra ns ds true sc = CTwo l r -> n_addr l = a /\ n_addr r = ra.
Proof.
  unfold consolidate. destruct (cs_left _) as [[lrs lsz]|]; [|discriminate]. destruct (cs_cur _) as [|[rk rv] t]; [discriminate|].
  destruct (low_of _ _ _ _). intros X. inversion X. auto.
Qed.
Lemma cons_one inner a ra ns ds sc n : consolidate g inner a ra ns ds false sc = COne n -> n_addr n = a.
Proof. unfold consolidate. destruct (low_of _ _ _ _). intros X. inversion X. auto. Qed.

Lemma wp_smos : forall f, smo_wp (try_smos g f).
Proof.
  induction f; intros head st R0 R S K T B; cbn [try_smos]; [exact I|]. destruct st as [|p st]; [exact I|].
  cbn [bind load wp]. intros c Hc ND Hx. destruct (N.eqb (h_addr c) (h_addr head)) eqn:E; cbn [negb]; [|split; [apply sub_load; auto|intros x X; exact X]].
  apply N.eqb_eq in E. assert (c = head) by (symmetry; apply Hc; auto). subst c. clear E Hc.
  cbn [bind alloc wp]. intros a Ha Hu Hk. destruct (dc_sort head [] []) as [[ds ns]|]; [|exact I].
  destruct (c_maxd g <? Z.of_nat (length ds)); [exact I|].
  assert (Nf : ~ fr R0 a) by (intros X; apply Ha, S, X).
  assert (Nu : ~ un R0 a) by (intros X; apply Hu, S, X).
  assert (Nh : ~ In a (chain_addrs head)) by (apply Hk; cbn; auto).
  assert (HR : forall R', sub R0 R' -> (forall x, In x (chain_addrs head) -> un R' x) ->
    (forall x, un R' x -> un R x \/ In x (chain_addrs head)) ->
    wp R' (retire (chain_addrs head)) (fun _ R2 => sub R0 R2 /\ les R R2)).
  { intros R' S' U' L'. cbn [wp retire]. split; [auto|]. split; [auto|]. split; [apply sub_ret; auto|intros x [X Y]; apply L' in X; tauto].
    intros x X. destruct (Hx x X) as [X1 X2]. split; intros Y; [apply X1, S, Y|apply X2, S, Y]. }
  destruct (c_page g <? h_size head) eqn:Ep.
  - cbn [bind alloc wp]. intros ra Hra Hru Hrk.
    destruct (consolidate g _ a ra ns ds true false) as [|l r|] eqn:Ec; try exact I.
    apply cons_two in Ec as [El Er]. destruct (fits g l && fits g r); [|exact I].
    apply wp_bind. eapply wp_mono; [|apply (wp_split (try_smos g f) f l r st R0 _ head p IHf)].
    + intros u R' ((S' & U') & L'). apply HR; auto.
    + apply sub_alloc, sub_alloc, sub_load, S.
    + cbn. rewrite El. auto.
    + cbn. rewrite Er. auto.
    + rewrite El, Er. intros <-. apply Hra. cbn. auto.
    + rewrite El. auto.
    + rewrite Er. intros X. apply Hra. cbn. left. apply S, X.
    + cbn. right. repeat split; auto. unfold need_wait. rewrite B, Ep. cbn. apply orb_true_r.
  - destruct (consolidate g _ a 0%N ns ds false false) as [n| |] eqn:Ec; try exact I.
    apply cons_one in Ec. destruct (fits g n); [|exact I]. destruct (h_size head <=? c_min g).
    + apply wp_bind. eapply wp_mono; [|apply (wp_try_merge (try_smos g f) f head n (p :: st) R0 _ IHf)].
      * intros [|] R' ((S' & U') & L'); [apply HR; auto; intros x X; apply L' in X; cbn in X; tauto|].
        split; [exact S'|]. intros x X. apply L' in X. cbn in X. destruct X as [X|[X _]]; [exact X|discriminate].
      * apply sub_alloc, sub_load, S.
      * cbn. auto.
      * cbn. auto.
      * cbn. auto.
      * rewrite Ec. auto.
      * rewrite Ec. auto.
      * rewrite Ec. auto.
    + cbn [bind cas wp]. exists head, [n_addr n], false. rewrite Ec. cbn [chain_addrs app h_addr].
      split; [cbn; auto|]. split; [reflexivity|]. split; [right; cbn; auto|]. split; [rewrite Ec; reflexivity|].
      split; [constructor; [intros []|constructor]|]. split; [intros x [<-|[]]; cbn; auto|]. split; [left; auto|].
      split; [split; [apply sub_alloc, sub_load, S|intros x X; exact X]|]. intros _. apply HR.
      * apply sub_cas; [apply sub_alloc, sub_load, S|]. intros x [<-|[]]. auto.
      * intros x X. cbn. auto.
      * intros x X. cbn in X. tauto.
Qed.
(** ** Calls *)
(** A call ends with nothing unlinked on its hands, if it started so. *)
Definition clean {A} (_ : A) (R : hold) : Prop := forall x, ~ un R x.
Lemma wp_finish f c st R : clean c R -> kn R c -> tok R (h_addr c) -> is_base c = false -> wp R (finish g f c st) clean.
Proof.
  intros CL K T B. unfold finish. apply wp_bind.
  eapply wp_mono; [|apply (wp_opt_smos (try_smos g f) _ c st R R (wp_smos f) (sub_refl R)); auto].
  intros u R' [_ L] x X. apply L in X. exact (CL x X).
Qed.
Lemma clean_ext {A B} (a : A) (b : B) R R' : clean a R -> ext R R' -> clean b R'.
Proof. intros H E x X. apply (ext_les _ _ E) in X. exact (H x X). Qed.

Lemma ro_read k : forall f st, ro (read_loop g f k st).
Proof.
  induction f; intros st; cbn [read_loop]; auto. destruct st as [|p rest]; auto.
  apply ro_load. intros c. destruct (dc_search_record c k false); auto.
  - destruct (h_leaf c); auto.
  - apply ro_bind; [apply ro_child|]. intros [b st']. apply IHf.
  - destruct (node_search n k) as [[|] pos]; auto. destruct (pay_at n pos); auto. destruct (h_leaf c); auto.
Qed.

Lemma clean_cas {A B} (a : A) (b : B) p h l c R : clean a R -> clean b (r_cas p h l true c R).
Proof. intros H x [X|[X _]]; [exact (H x X)|discriminate]. Qed.
Ltac upd_head :=
  apply wp_bind; eapply wp_mono; [|apply wp_get_kc]; intros [[head found] st'] R1 (E1 & G); cbn [fst] in G;
  match goal with CL : clean tt _ |- _ => pose proof (clean_ext tt tt _ _ CL E1) as CL1 end.
Ltac upd_cas IHf F :=
  match goal with |- wp _ match ?x with _ => _ end _ => destruct x; [exact I|] end;
  match goal with E1 : ext _ _ |- _ => destruct E1 as (E1 & _); rewrite <- E1 in F end;
  apply wp_cas_rec; [auto|exact F|apply IHf; [exact F|assumption]|apply wp_finish; [eapply clean_cas; eassumption|cbn; auto..]].

Lemma wp_write a k v : forall f st R, fr R a -> clean tt R -> wp R (write_loop g f a k v st) clean.
Proof.
  induction f; intros st R F CL; cbn [write_loop]; [exact I|]. upd_head. destruct st'; [exact I|].
  assert (F1 : fr R1 a) by (destruct E1 as (-> & _); exact F).
  destruct found; (apply wp_cas_rec; [auto|exact F1|apply IHf; [exact F1|exact CL1]|apply wp_finish; [eapply clean_cas; eassumption|cbn; auto..]]).
Qed.
Lemma wp_insert a k v : forall f st R, fr R a -> clean tt R -> wp R (insert_loop g f a k v st) clean.
Proof. induction f; intros st R F CL; cbn [insert_loop]; [exact I|]. upd_head. destruct found; [exact CL1|]. upd_cas IHf F. Qed.
Lemma wp_update a k v : forall f st R, fr R a -> clean tt R -> wp R (update_loop g f a k v st) clean.
Proof. induction f; intros st R F CL; cbn [update_loop]; [exact I|]. upd_head. destruct found; [|exact CL1]. cbn [negb]. upd_cas IHf F. Qed.
Lemma wp_remove a k : forall f st R, fr R a -> clean tt R -> wp R (remove_loop g f a k st) clean.
Proof. induction f; intros st R F CL; cbn [remove_loop]; [exact I|]. upd_head. destruct found; [|exact CL1]. cbn [negb]. upd_cas IHf F. Qed.

Lemma wp_call f o R : clean tt R -> wp R (call_prog g f o) clean.
Proof.
  intros CL.
  assert (HB : forall A B (m : prog A) (h : A -> B), wp R m clean -> wp R (bind m (fun x => Ret (h x))) clean).
  { intros A B m h H. apply wp_bind. eapply wp_mono; [|exact H]. intros a R' X. exact X. }
  destruct o; cbn [call_prog]; apply HB.
  - apply wp_ro; [apply ro_search_leaf|]. intros st R' E. eapply wp_mono; [|apply ro_read]. intros a R2 E2.
    eapply clean_ext; [|exact E2]. eapply (clean_ext tt tt); [exact CL|exact E].
  - apply wp_ro; [apply ro_search_leaf|]. intros st R' E. cbn [bind alloc wp]. intros; apply wp_write; [cbn; auto|]. exact (clean_ext tt tt _ _ CL E).
  - apply wp_ro; [apply ro_search_leaf|]. intros st R' E. cbn [bind alloc wp]. intros; apply wp_insert; [cbn; auto|]. exact (clean_ext tt tt _ _ CL E).
  - apply wp_ro; [apply ro_search_leaf|]. intros st R' E. cbn [bind alloc wp]. intros; apply wp_update; [cbn; auto|]. exact (clean_ext tt tt _ _ CL E).
  - apply wp_ro; [apply ro_search_leaf|]. intros st R' E. cbn [bind alloc wp]. intros; apply wp_remove; [cbn; auto|]. exact (clean_ext tt tt _ _ CL E).
Qed.

(** ** The global invariant *)
Inductive place := Free | Fresh (t : nat) | Table (p : pid) | Unl (t : nat) | Gc.
Record ghost := mk_ghost {
  g_own : addr -> place;
  g_head : addr -> option chain;   (* the chain published with this head *)
  g_tok : addr -> option nat;
  g_pid : pid -> option nat;
  g_hold : nat -> hold
}.

Definition oaddrs (o : option chain) : list addr := match o with Some c => chain_addrs c | None => [] end.

Record inv (G : ghost) (s : st) : Prop := mk_inv {
  i_tbl : forall p c, s_tbl s p = Some c -> g_head G (h_addr c) = Some c /\ NoDup (chain_addrs c) /\
            forall x, In x (chain_addrs c) -> g_own G x = Table p;
  i_gc : NoDup (s_gc s) /\ forall x, In x (s_gc s) -> g_own G x = Gc;
  i_new : forall x, (s_naddr s <= x)%N -> g_own G x = Free;
  i_head : forall x, g_head G x <> None -> g_own G x <> Free /\ forall t, g_own G x <> Fresh t;
  i_fr : forall t x, fr (g_hold G t) x -> g_own G x = Fresh t;
  i_un : forall t x, un (g_hold G t) x -> g_own G x = Unl t;
  i_kn : forall t c, kn (g_hold G t) c -> g_head G (h_addr c) = Some c /\ forall x, In x (chain_addrs c) -> (x < s_naddr s)%N;
  i_tok : forall t x, tok (g_hold G t) x -> g_tok G x = Some t /\ g_head G x <> None;
  i_lk : forall t p c, lk (g_hold G t) p c -> s_tbl s p = Some c /\ tok (g_hold G t) (h_addr c) /\
           (need_wait g c = true \/ is_remove c = true);
  i_pd : forall t p, pds (g_hold G t) p -> g_pid G p = Some t /\ (p < s_npid s)%N /\ s_tbl s p = None;
  i_np : forall p, (s_npid s <= p)%N -> s_tbl s p = None;
  (* nothing is lost *)
  i_xt : forall x p, g_own G x = Table p -> In x (oaddrs (s_tbl s p));
  i_xg : forall x, g_own G x = Gc -> In x (s_gc s);
  i_xu : forall x t, g_own G x = Unl t -> un (g_hold G t) x
}.
(** Pages that were published: in the table, unlinked, or with the collector. *)
Definition pub (y : place) : Prop := y <> Free /\ forall t, y <> Fresh t.
Definition keeps (G G' : ghost) : Prop := forall x, pub (g_own G x) -> pub (g_own G' x).
Lemma keeps_refl G : keeps G G. Proof. intros x; auto. Qed.
Lemma keeps_trans G1 G2 G3 : keeps G1 G2 -> keeps G2 G3 -> keeps G1 G3. Proof. intros A B x; auto. Qed.
Lemma pub_table p : pub (Table p). Proof. split; intros; discriminate. Qed.
Lemma pub_unl p : pub (Unl p). Proof. split; intros; discriminate. Qed.
Lemma pub_gc : pub Gc. Proof. split; intros; discriminate. Qed.

Definition hset (f : nat -> hold) (t : nat) (R : hold) : nat -> hold := fun u => if Nat.eqb u t then R else f u.
Lemma hset_same f t R : hset f t R t = R. Proof. unfold hset. now rewrite Nat.eqb_refl. Qed.
Lemma hset_other f t R u : u <> t -> hset f t R u = f u.
Proof. intros H. unfold hset. destruct (Nat.eqb u t) eqn:E; auto. apply Nat.eqb_eq in E. congruence. Qed.
Lemma upd_same {A} (f : N -> A) i x : upd f i x i = x. Proof. unfold upd. now rewrite N.eqb_refl. Qed.
Lemma upd_other {A} (f : N -> A) i x j : j <> i -> upd f i x j = f j.
Proof. intros H. unfold upd. destruct (N.eqb j i) eqn:E; auto. apply N.eqb_eq in E. congruence. Qed.

(** Addresses [l] move to [y]. *)
Definition move (o : addr -> place) (l : list addr) (y : place) : addr -> place :=
  fun x => if in_dec N.eq_dec x l then y else o x.
Lemma move_in o l y x : In x l -> move o l y x = y.
Proof. intros H. unfold move. destruct (in_dec N.eq_dec x l); tauto. Qed.
Lemma move_out o l y x : ~ In x l -> move o l y x = o x.
Proof. intros H. unfold move. destruct (in_dec N.eq_dec x l); tauto. Qed.

Lemma h_addr_in c : In (h_addr c) (chain_addrs c).
Proof. destruct c; cbn; auto. Qed.

Lemma tbl_lt G s p c x : inv G s -> s_tbl s p = Some c -> In x (chain_addrs c) -> (x < s_naddr s)%N.
Proof.
  intros H E X. destruct (i_tbl _ _ H _ _ E) as (_ & _ & A). apply A in X.
  destruct (N.lt_ge_cases x (s_naddr s)) as [L|L]; auto. apply (i_new _ _ H) in L. congruence.
Qed.

Ltac cases u t := destruct (Nat.eq_dec u t) as [->|]; [rewrite ?hset_same; cbn [fr un tok kn pds lk r_load r_pid r_alloc r_ret]|rewrite ?hset_other by auto; eauto].

(** Thread [t] puts the chain [c] into slot [p]. *)
Lemma inv_publish G s t p c l (keep : bool) R' : inv G s ->
  chain_addrs c = l ++ (if keep then oaddrs (s_tbl s p) else []) -> NoDup l -> In (h_addr c) l ->
  (forall x, In x l -> g_own G x = Fresh t) -> (p < s_npid s)%N ->
  (forall u x, u <> t -> ~ lk (g_hold G u) p x) -> (forall u, u <> t -> ~ pds (g_hold G u) p) ->
  (forall x, fr R' x -> fr (g_hold G t) x /\ ~ In x l) ->
  (forall x, un R' x -> un (g_hold G t) x \/ (keep = false /\ In x (oaddrs (s_tbl s p)))) ->
  (forall x, tok R' x -> tok (g_hold G t) x \/ x = h_addr c) ->
  (forall x, kn R' x -> kn (g_hold G t) x \/ x = c) ->
  (forall q, pds R' q -> pds (g_hold G t) q /\ q <> p) ->
  (forall x, tok (g_hold G t) x -> tok R' x) ->
  (forall q x, lk R' q x -> (lk (g_hold G t) q x /\ q <> p) \/ (q = p /\ x = c /\ is_remove c = true /\ tok R' (h_addr c))) ->
  (forall x, un (g_hold G t) x \/ (keep = false /\ In x (oaddrs (s_tbl s p))) -> un R' x) ->
  exists G', (inv G' (set_tbl s p (Some c)) /\ keeps G G') /\ g_hold G' t = R' /\ forall u, u <> t -> g_hold G' u = g_hold G u.
Proof.
  intros H Ec Nl Hh Hl Hp Hlk Hpd Rfr Run Rtok Rkn Rpd Rtok' Rlk Run'.
  set (d := if keep then [] else oaddrs (s_tbl s p)).
  set (own := move (move (g_own G) d (Unl t)) l (Table p)).
  exists (mk_ghost own (upd (g_head G) (h_addr c) (Some c)) (upd (g_tok G) (h_addr c) (Some t)) (g_pid G)
            (hset (g_hold G) t R')).
  cbn [g_hold]. rewrite hset_same. split; [|split; [auto|intros; apply hset_other; auto]].
  assert (Ho : forall x, In x (oaddrs (s_tbl s p)) -> g_own G x = Table p).
  { intros x Hx. destruct (s_tbl s p) as [c0|] eqn:E; [|destruct Hx]. apply (i_tbl _ _ H _ _ E), Hx. }
  assert (Hd : forall x, In x d -> g_own G x = Table p).
  { intros x Hx. unfold d in Hx. destruct keep; [destruct Hx|auto]. }
  assert (O1 : forall x, In x l -> own x = Table p) by (intros; apply move_in; auto).
  assert (O2 : forall x, In x d -> own x = Unl t).
  { intros x Hx. unfold own. rewrite move_out; [apply move_in; auto|]. intros Y. apply Hl in Y. apply Hd in Hx. congruence. }
  assert (O3 : forall x, ~ In x l -> ~ In x d -> own x = g_own G x).
  { intros x Y1 Y2. unfold own. rewrite move_out by auto. apply move_out; auto. }
  assert (O4 : forall x, g_own G x <> Fresh t -> g_own G x <> Table p -> own x = g_own G x).
  { intros x Y1 Y2. apply O3; intros Z; auto. }
  assert (Hhn : g_head G (h_addr c) = None).
  { destruct (g_head G (h_addr c)) as [z|] eqn:Z; auto. exfalso.
    destruct (i_head _ _ H (h_addr c)) as [_ B]; [congruence|]. apply (B t), Hl, Hh. }
  assert (Hal : forall x, In x (chain_addrs c) -> (x < s_naddr s)%N).
  { intros x Hx. destruct (N.lt_ge_cases x (s_naddr s)) as [L|L]; auto. apply (i_new _ _ H) in L.
    rewrite Ec in Hx. apply in_app_iff in Hx as [Y|Y]; [apply Hl in Y; congruence|].
    destruct keep; [|destruct Y]. apply Ho in Y. congruence. }
  assert (O5 : forall x, own x = Table p /\ In x l \/ own x = Unl t /\ In x d \/ own x = g_own G x /\ ~ In x l /\ ~ In x d).
  { intros x. destruct (in_dec N.eq_dec x l); [left; auto|]. destruct (in_dec N.eq_dec x d); [right; left; auto|]. right; right; auto. }
  split; [|intros x Hx; cbn [g_own]; destruct (O5 x) as [[-> _]|[[-> _]|[-> _]]]; [apply pub_table|apply pub_unl|exact Hx]].
  constructor; cbn [g_own g_head g_tok g_pid g_hold set_tbl s_tbl s_gc s_naddr s_npid].
  - intros q c1. destruct (N.eq_dec q p) as [->|N].
    + rewrite upd_same. intros X; inversion X; subst c1. rewrite upd_same. split; [auto|]. split.
      * rewrite Ec. destruct keep; [|rewrite app_nil_r; auto].
        assert (ND : NoDup (oaddrs (s_tbl s p))).
        { destruct (s_tbl s p) as [c0|] eqn:E; [|constructor]. apply (i_tbl _ _ H _ _ E). }
        clear -Nl ND Hl Ho. induction l as [|a l IH]; cbn; auto. inversion Nl; subst. constructor.
        -- rewrite in_app_iff. intros [Y|Y]; auto. apply Ho in Y. rewrite Hl in Y by (left; auto). discriminate.
        -- apply IH; auto. intros; apply Hl; right; auto.
      * intros x. rewrite Ec, in_app_iff. intros [Y|Y]; auto. destruct keep; [|destruct Y].
        destruct (in_dec N.eq_dec x l) as [Z|Z]; [auto|]. rewrite O3; auto.
    + rewrite upd_other by auto. intros E. destruct (i_tbl _ _ H _ _ E) as (A & B & C). split; [|split; [auto|]].
      * rewrite upd_other; auto. intros Y. congruence.
      * intros x Hx. pose proof (C x Hx) as D. rewrite O4; auto; rewrite D; congruence.
  - destruct (i_gc _ _ H) as [A B]. split; auto. intros x Hx. pose proof (B x Hx) as D. rewrite O4; auto; rewrite D; congruence.
  - intros x Hx. pose proof (i_new _ _ H x Hx) as D. rewrite O4; auto; rewrite D; congruence.
  - intros x. destruct (N.eq_dec x (h_addr c)) as [->|N].
    + intros _. rewrite O1 by auto. split; intros; discriminate.
    + rewrite upd_other by auto. intros Y. destruct (i_head _ _ H x Y) as [A B].
      destruct (in_dec N.eq_dec x l) as [Z|Z]; [rewrite O1 by auto; split; intros; discriminate|].
      destruct (in_dec N.eq_dec x d) as [Z'|Z']; [rewrite O2 by auto; split; intros; discriminate|].
      rewrite O3 by auto. auto.
  - intros u x. cases u t.
    + intros Y. apply Rfr in Y as [Y1 Y2]. apply (i_fr _ _ H) in Y1. rewrite O3; auto. intros Z. apply Hd in Z. congruence.
    + intros Y. apply (i_fr _ _ H) in Y. rewrite O4; auto; rewrite Y; congruence.
  - intros u x. cases u t.
    + intros Y. apply Run in Y as [Y|[-> Y]]; [|apply O2; unfold d; auto].
      apply (i_un _ _ H) in Y. rewrite O4; auto; rewrite Y; congruence.
    + intros Y. apply (i_un _ _ H) in Y. rewrite O4; auto; rewrite Y; congruence.
  - intros u x.
    assert (K : kn (g_hold G u) x -> upd (g_head G) (h_addr c) (Some c) (h_addr x) = Some x /\
      forall y, In y (chain_addrs x) -> (y < s_naddr s)%N).
    { intros Y. apply (i_kn _ _ H) in Y as [Y1 Y2]. split; auto. rewrite upd_other; auto. congruence. }
    cases u t; eauto. intros Y. apply Rkn in Y as [Y| ->]; auto. rewrite upd_same. auto.
  - intros u x.
    assert (K : tok (g_hold G u) x -> upd (g_tok G) (h_addr c) (Some t) x = Some u /\ upd (g_head G) (h_addr c) (Some c) x <> None).
    { intros Y. apply (i_tok _ _ H) in Y as [Y1 Y2]. assert (x <> h_addr c) by congruence.
      rewrite !upd_other by auto. auto. }
    cases u t; eauto. intros Y. apply Rtok in Y as [Y| ->]; auto. rewrite !upd_same. split; congruence.
  - intros u q x. cases u t.
    + intros Y. apply Rlk in Y as [[Y1 Y2]|(-> & -> & Y1 & Y2)].
      * apply (i_lk _ _ H) in Y1 as (Y3 & Y4 & Y5). rewrite upd_other by auto. auto.
      * rewrite upd_same. auto.
    + intros Y. assert (q <> p) by (intros ->; eapply Hlk; eauto). rewrite upd_other by auto. apply (i_lk _ _ H); auto.
  - intros u q. cases u t.
    + intros Y. apply Rpd in Y as [Y1 Y2]. rewrite upd_other by auto. apply (i_pd _ _ H); auto.
    + intros Y. assert (q <> p) by (intros ->; eapply Hpd; eauto). rewrite upd_other by auto. apply (i_pd _ _ H); auto.
  - intros q Hq. rewrite upd_other by lia. apply (i_np _ _ H); auto.
  - intros x q. destruct (O5 x) as [[-> Y]|[[-> Y]|(-> & Y & Z)]]; intros E; try discriminate.
    + inversion E; subst q. rewrite upd_same. cbn [oaddrs]. rewrite Ec. apply in_or_app; auto.
    + pose proof (i_xt _ _ H _ _ E) as X. destruct (N.eq_dec q p) as [->|N]; [|rewrite upd_other; auto].
      rewrite upd_same. cbn [oaddrs]. rewrite Ec. unfold d in Z. destruct keep; [apply in_or_app; auto|tauto].
  - intros x. destruct (O5 x) as [[-> Y]|[[-> Y]|(-> & Y & Z)]]; intros E; try discriminate. apply (i_xg _ _ H), E.
  - intros x u. destruct (O5 x) as [[-> Y]|[[-> Y]|(-> & Y & Z)]]; intros E; try discriminate.
    + inversion E; subst u. rewrite hset_same. apply Run'. right. unfold d in Y. destruct keep; [destruct Y|auto].
    + pose proof (i_xu _ _ H _ _ E) as X. destruct (Nat.eq_dec u t) as [->|]; [rewrite hset_same; auto|rewrite hset_other; auto].
Qed.

Lemma tbl_pid G s p c : inv G s -> s_tbl s p = Some c -> (p < s_npid s)%N.
Proof. intros H E. destruct (N.lt_ge_cases p (s_npid s)) as [L|L]; auto. apply (i_np _ _ H) in L. congruence. Qed.
Lemma lk_excl G s t u p c c' : inv G s -> lk (g_hold G t) p c -> lk (g_hold G u) p c' -> u = t.
Proof.
  intros H A B. apply (i_lk _ _ H) in A as (A1 & A2 & _). apply (i_lk _ _ H) in B as (B1 & B2 & _).
  rewrite A1 in B1. inversion B1; subst. apply (i_tok _ _ H) in A2 as [A2 _]. apply (i_tok _ _ H) in B2 as [B2 _]. congruence.
Qed.

(** Chains a thread gets to know are loaded or published by it, fresh addresses are allocated. *)
Definition grows {X0} (m : prog X0) (s s' : st) (R R' : hold) : Prop :=
  (forall h, kn R' h -> kn R h \/ (exists p k, m = Load p k /\ s_tbl s p = Some h) \/ (exists p, s_tbl s' p = Some h /\ fr R (h_addr h))) /\
  (forall x, fr R' x -> fr R x \/ exists k, m = Alloc k /\ x = s_naddr s).
Lemma grows_refl {X0} (m : prog X0) s s' R : grows m s s' R R. Proof. split; auto. Qed.

Lemma wp_pstep_grows {X0} (m : prog X0) b s m' s' G t : inv G s -> wp (g_hold G t) m clean -> pstep m b s = Some (m', s') ->
  exists G', (inv G' s' /\ keeps G G') /\ (wp (g_hold G' t) m' clean /\ grows m s s' (g_hold G t) (g_hold G' t)) /\
    forall u, u <> t -> g_hold G' u = g_hold G u.
Proof.
  intros H W. destruct m; cbn [pstep wp] in *; try discriminate; intros X.
  - (* Load *)
    destruct (s_tbl s p) as [c|] eqn:E; inversion X; subst; [|exists G; split; [auto using keeps_refl|split; [split; [exact I|apply grows_refl]|auto]]].
    destruct (i_tbl _ _ H _ _ E) as (T1 & T2 & T3).
    exists (mk_ghost (g_own G) (g_head G) (g_tok G) (g_pid G) (hset (g_hold G) t (r_load p c (g_hold G t)))).
    split; [|split; [split; [cbn; rewrite hset_same; apply W|]|intros u Hu; cbn; apply hset_other; auto]].
    + split; [|exact (keeps_refl G)]. destruct H. constructor; cbn; auto.
      * intros u x. cases u t; eauto.
      * intros u x. cases u t; eauto.
      * intros u x. cases u t.
        cbn. intros [Y| ->]; [eapply i_kn0; eauto|]. split; auto. intros y Hy.
        destruct (N.lt_ge_cases y (s_naddr s')) as [L|L]; auto. apply i_new0 in L. apply T3 in Hy. congruence.
      * intros u x. cases u t; eauto.
      * intros u q x. cases u t; eauto.
        cbn. intros [Y|(-> & -> & Y1 & Y2)]; auto.
      * intros u x. cases u t; eauto.
      * intros x u. cases u t; eauto.
    + intros h Hh Eh. apply (i_kn _ _ H) in Hh as [Hh _]. rewrite Eh in Hh. congruence.
    + exact T2.
    + intros x Hx. apply T3 in Hx. split; intros Y; [apply (i_fr _ _ H) in Y|apply (i_un _ _ H) in Y]; congruence.
    + cbn. rewrite hset_same. split; [|auto]. intros h [Y| ->]; eauto 6.
  - (* Store *)
    inversion X; subst; clear X. destruct W as (ND & Hf & old & Hp & W).
    assert (Eo : old = oaddrs (s_tbl s p)).
    { destruct Hp as [[Hp ->]|(c0 & Hp & ->)]; [apply (i_pd _ _ H) in Hp as (_ & _ & ->)|apply (i_lk _ _ H) in Hp as (-> & _)]; reflexivity. }
    destruct (inv_publish G s t p c (chain_addrs c) false (r_store p c old (g_hold G t)) H) as (G' & A & B & C);
      cbn [fr un tok kn pds lk r_store]; rewrite ?Eo; auto.
    + now rewrite app_nil_r.
    + apply h_addr_in.
    + intros x Hx. apply (i_fr _ _ H); auto.
    + destruct Hp as [[Hp _]|(c0 & Hp & _)]; [apply (i_pd _ _ H) in Hp; tauto|]. apply (i_lk _ _ H) in Hp as [Hp _]. eapply tbl_pid; eauto.
    + intros u x Hu Hx. destruct Hp as [[Hp _]|(c0 & Hp & _)]; [|apply Hu; eapply lk_excl; eauto].
      apply (i_pd _ _ H) in Hp as (_ & _ & Hp). apply (i_lk _ _ H) in Hx as (Hx & _). congruence.
    + intros u Hu Hx. apply (i_pd _ _ H) in Hx as (Hx1 & _ & Hx2). destruct Hp as [[Hp _]|(c0 & Hp & _)].
      * apply (i_pd _ _ H) in Hp as (Hp & _). congruence.
      * apply (i_lk _ _ H) in Hp as (Hp & _). congruence.
    + intros x [Hx|Hx]; auto.
    + intros x [Hx|[_ Hx]]; auto.
    + exists G'. rewrite B. split; [exact A|]. split; [|exact C]. split; [exact W|]. split; [auto|]. intros x [Y _]; auto.
  - tauto.
  - (* Cas *)
    destruct W as (h & l & kp & K & Eh & M & Ec & ND & Hf & Hh & W1 & W2).
    destruct (cas_ok s weak b p e) eqn:Eo; inversion X; subst; clear X; [|exists G; auto using keeps_refl, grows_refl].
    unfold cas_ok in Eo. destruct (s_tbl s p) as [c0|] eqn:E0; [|discriminate].
    apply andb_true_iff in Eo as [Eo _]. apply N.eqb_eq in Eo.
    assert (c0 = h).
    { destruct (i_tbl _ _ H _ _ E0) as (Y & _). apply (i_kn _ _ H) in K as (K & _). rewrite Eo in Y. congruence. }
    subst c0. clear Eo.
    assert (HL : forall u x, lk (g_hold G u) p x -> u = t /\ x = h /\ (need_wait g h = true \/ is_remove h = true)).
    { intros u x Hx. pose proof Hx as Hx'. apply (i_lk _ _ H) in Hx as (Y1 & Y2 & Y3). rewrite E0 in Y1. inversion Y1; subst x.
      split; [|auto]. destruct M as [[M1 M2]|M]; [destruct Y3; congruence|].
      apply (i_tok _ _ H) in M as [M _]. apply (i_tok _ _ H) in Y2 as [Y2 _]. congruence. }
    destruct (inv_publish G s t p c l kp (r_cas p h l kp c (g_hold G t)) H) as (G' & A & B & C);
      cbn [fr un tok kn pds lk r_cas]; rewrite ?E0; cbn [oaddrs]; auto.
    + intros x Hx. apply (i_fr _ _ H); auto.
    + eapply tbl_pid; eauto.
    + intros u x Hu Hx. apply HL in Hx as (Hx & _). auto.
    + intros u Hu Hx. apply (i_pd _ _ H) in Hx as (_ & _ & Hx). congruence.
    + intros q Hq. split; auto. intros ->. apply (i_pd _ _ H) in Hq as (_ & _ & Hq). congruence.
    + intros q x [Y|(-> & -> & Y)]; auto. right. repeat split; auto.
    + exists G'. rewrite B. split; auto. split; auto. split; [apply W2; intros c' Hc'; apply HL in Hc'; tauto|].
      split; [|intros x [Y _]; auto]. intros x [Y| ->]; auto. right; right. exists p. cbn. rewrite upd_same. auto.
  - inversion X; subst; exists G; auto using keeps_refl, grows_refl.
  - inversion X; subst; exists G; split; [split; [destruct H; constructor; auto|apply keeps_refl]|auto using grows_refl].
  - destruct (N.eqb (s_root s) old); inversion X; subst; exists G; (split; [split; [destruct H; constructor; auto|apply keeps_refl]|auto using grows_refl]).
  - (* NewPid *)
    inversion X; subst; clear X.
    exists (mk_ghost (g_own G) (g_head G) (g_tok G) (upd (g_pid G) (s_npid s) (Some t)) (hset (g_hold G) t (r_pid (s_npid s) (g_hold G t)))).
    cbn [g_hold]. rewrite hset_same. split; [|split; [split; [|split; cbn; auto]|intros; apply hset_other; auto]].
    + split; [|exact (keeps_refl G)]. destruct H. constructor; cbn [g_own g_head g_tok g_pid g_hold bump_pid s_tbl s_gc s_naddr s_npid]; auto.
      * intros u x. cases u t; eauto.
      * intros u x. cases u t; eauto.
      * intros u x. cases u t; eauto.
      * intros u x. cases u t; eauto.
      * intros u q x. cases u t; eauto.
      * intros u q.
        assert (K : pds (g_hold G u) q -> upd (g_pid G) (s_npid s) (Some t) q = Some u /\ (q < s_npid s + 1)%N /\ s_tbl s q = None).
        { intros Y. apply i_pd0 in Y as (Y1 & Y2 & Y3). rewrite upd_other by lia. repeat split; auto. lia. }
        cases u t; eauto. cbn. intros [Y| ->]; auto. rewrite upd_same. repeat split; auto; [lia|]. apply i_np0. lia.
      * intros q Hq. apply i_np0. lia.
      * intros x u. cases u t; eauto.
    + apply W. intros c Y. apply (i_lk _ _ H) in Y as (Y & _). rewrite (i_np _ _ H) in Y by lia. discriminate.
  - (* Alloc *)
    inversion X; subst; clear X. pose proof (i_new _ _ H (s_naddr s) (N.le_refl _)) as Hn.
    exists (mk_ghost (move (g_own G) [s_naddr s] (Fresh t)) (g_head G) (g_tok G) (g_pid G) (hset (g_hold G) t (r_alloc (s_naddr s) (g_hold G t)))).
    cbn [g_hold]. rewrite hset_same. split; [|split; [split; [|split; cbn; [auto|]; intros x [Y| ->]; eauto]|intros; apply hset_other; auto]].
    + assert (O : forall x, g_own G x <> Free -> move (g_own G) [s_naddr s] (Fresh t) x = g_own G x).
      { intros x Y. apply move_out. intros [<-|[]]. auto. }
      split; [|intros x Hx; cbn [g_own]; rewrite O; [exact Hx|apply Hx]].
      assert (O' : forall x y, move (g_own G) [s_naddr s] (Fresh t) x = y -> y <> Fresh t -> g_own G x = y).
      { intros x y. unfold move. destruct (in_dec N.eq_dec x [s_naddr s]); intros; [congruence|auto]. }
      destruct H. constructor; cbn [g_own g_head g_tok g_pid g_hold bump_addr s_tbl s_gc s_naddr s_npid]; auto.
      * intros p c E. destruct (i_tbl0 _ _ E) as (A & B & C). repeat split; auto. intros x Hx. rewrite O; auto. rewrite C by auto. discriminate.
      * destruct i_gc0 as [A B]. split; auto. intros x Hx. rewrite O; auto. rewrite B by auto. discriminate.
      * intros x Hx. rewrite move_out; [apply i_new0; lia|]. intros [<-|[]]. lia.
      * intros x Hx. destruct (i_head0 x Hx) as [A B]. rewrite O; auto.
      * intros u x. assert (K : fr (g_hold G u) x -> move (g_own G) [s_naddr s] (Fresh t) x = Fresh u).
        { intros Y. apply i_fr0 in Y. rewrite O; auto. congruence. }
        cases u t; eauto. cbn. intros [Y| ->]; auto. apply move_in. left; auto.
      * intros u x. assert (K : un (g_hold G u) x -> move (g_own G) [s_naddr s] (Fresh t) x = Unl u).
        { intros Y. apply i_un0 in Y. rewrite O; auto. congruence. }
        cases u t; eauto.
      * intros u x. assert (K : kn (g_hold G u) x -> g_head G (h_addr x) = Some x /\ forall y, In y (chain_addrs x) -> (y < s_naddr s + 1)%N).
        { intros Y. apply i_kn0 in Y as [Y1 Y2]. split; auto. intros y Hy. apply Y2 in Hy. lia. }
        cases u t; eauto.
      * intros u x. cases u t; eauto.
      * intros u q x. cases u t; eauto.
      * intros u q. cases u t; eauto.
      * intros x q E. apply i_xt0, O'; [exact E|discriminate].
      * intros x E. apply i_xg0, O'; [exact E|discriminate].
      * intros x u E. apply O' in E; [|discriminate]. apply i_xu0 in E. cases u t; eauto.
    + apply W.
      * intros Y. apply (i_fr _ _ H) in Y. congruence.
      * intros Y. apply (i_un _ _ H) in Y. congruence.
      * intros h Hh Y. apply (i_kn _ _ H) in Hh as (_ & Hh). apply Hh in Y. lia.
  - inversion X; subst; exists G; auto using keeps_refl, grows_refl.
  - inversion X; subst; exists G; split; [split; [destruct H; constructor; auto|apply keeps_refl]|auto using grows_refl].
  - (* Retire *)
    inversion X; subst; clear X. destruct W as (ND & Hx & W).
    exists (mk_ghost (move (g_own G) l Gc) (g_head G) (g_tok G) (g_pid G) (hset (g_hold G) t (r_ret l (g_hold G t)))).
    cbn [g_hold]. rewrite hset_same. split; [|split; [split; [exact W|split; cbn; [auto|intros x [Y _]; auto]]|intros; apply hset_other; auto]].
    assert (Hl : forall x, In x l -> g_own G x = Fresh t \/ g_own G x = Unl t).
    { intros x Y. apply Hx in Y as [Y|Y]; [left; apply (i_fr _ _ H)|right; apply (i_un _ _ H)]; auto. }
    assert (O : forall x, g_own G x <> Fresh t -> g_own G x <> Unl t -> move (g_own G) l Gc x = g_own G x).
    { intros x Y1 Y2. apply move_out. intros Y. apply Hl in Y as [Y|Y]; auto. }
    split; [|intros x Y; cbn [g_own]; unfold move; destruct (in_dec N.eq_dec x l); [apply pub_gc|exact Y]].
    assert (O' : forall x y, move (g_own G) l Gc x = y -> y <> Gc -> g_own G x = y /\ ~ In x l).
    { intros x y. unfold move. destruct (in_dec N.eq_dec x l); intros; [congruence|auto]. }
    destruct H. constructor; cbn [g_own g_head g_tok g_pid g_hold add_gc s_tbl s_gc s_naddr s_npid]; auto.
    + intros p c E. destruct (i_tbl0 _ _ E) as (A & B & C). repeat split; auto. intros x Y. rewrite O; auto; rewrite C by auto; discriminate.
    + destruct i_gc0 as [A B]. split.
      * clear -ND A B Hl. induction (s_gc s) as [|a r IH]; cbn; auto. inversion A; subst. constructor.
        -- rewrite in_app_iff. intros [Y|Y]; auto. apply Hl in Y. rewrite B in Y by (left; auto). destruct Y; discriminate.
        -- apply IH; auto. intros; apply B; right; auto.
      * intros x. rewrite in_app_iff. intros [Y|Y]; [|apply move_in; auto]. rewrite O; auto; rewrite B by auto; discriminate.
    + intros x Y. apply i_new0 in Y. rewrite O; auto; rewrite Y; discriminate.
    + intros x Y. destruct (i_head0 x Y) as [A B]. unfold move. destruct (in_dec N.eq_dec x l); auto. split; intros; discriminate.
    + intros u x. cases u t.
      * cbn. intros [Y1 Y2]. rewrite move_out by auto. auto.
      * intros Y. apply i_fr0 in Y. rewrite O; auto; rewrite Y; congruence.
    + intros u x. cases u t.
      * cbn. intros [Y1 Y2]. rewrite move_out by auto. auto.
      * intros Y. apply i_un0 in Y. rewrite O; auto; rewrite Y; congruence.
    + intros u x. cases u t; eauto.
    + intros u x. cases u t; eauto.
    + intros u q x. cases u t; eauto.
    + intros u q. cases u t; eauto.
    + intros x q E. apply i_xt0, O'; [exact E|discriminate].
    + intros x. unfold move. rewrite in_app_iff. destruct (in_dec N.eq_dec x l); auto.
    + intros x u E. apply O' in E as [E Y]; [|discriminate]. apply i_xu0 in E. cases u t; eauto.
Qed.

Lemma wp_pstep {X0} (m : prog X0) b s m' s' G t : inv G s -> wp (g_hold G t) m clean -> pstep m b s = Some (m', s') ->
  exists G', (inv G' s' /\ keeps G G') /\ wp (g_hold G' t) m' clean /\ forall u, u <> t -> g_hold G' u = g_hold G u.
Proof. intros H W E. destruct (wp_pstep_grows m b s m' s' G t H W E) as (G' & A & (B & _) & C). eauto. Qed.

(** ** Executions *)
Definition thr_wp (G : ghost) (t : nat) (th : thread) : Prop :=
  match th with TIdle _ => clean tt (g_hold G t) | TRun m _ => wp (g_hold G t) m clean end.
Definition cinv (G : ghost) (c : cst) : Prop :=
  inv G (c_mem c) /\ forall t, match nth_error (c_thr c) t with Some th => thr_wp G t th | None => clean tt (g_hold G t) end.

Lemma nth_put {A} (l : list A) t y z u : nth_error l t = Some z ->
  nth_error (firstn t l ++ y :: skipn (S t) l) u = if Nat.eqb u t then Some y else nth_error l u.
Proof.
  revert l u. induction t as [|t IH]; intros [|x l] u E; cbn in *; try discriminate.
  - destruct u; reflexivity.
  - destruct u; cbn; auto.
Qed.

Lemma cstep_inv f c t b G : cinv G c -> exists G', cinv G' (fst (cstep g f c t b)) /\ keeps G G'.
Proof.
  intros [Hi Ht]. unfold cstep. destruct (nth_error (c_thr c) t) as [th|] eqn:E; [|exists G; split; [split; auto|apply keeps_refl]].
  assert (HP : forall G' s' th', inv G' s' -> thr_wp G' t th' -> (forall u, u <> t -> g_hold G' u = g_hold G u) ->
    cinv G' (mk_cst s' (firstn t (c_thr c) ++ th' :: skipn (S t) (c_thr c)))).
  { intros G' s' th' A B C. split; auto. cbn [c_thr]. intros u. rewrite (nth_put _ _ _ _ _ E).
    destruct (Nat.eqb u t) eqn:Eu.
    - apply Nat.eqb_eq in Eu. subst u. exact B.
    - apply Nat.eqb_neq in Eu. specialize (Ht u). destruct (nth_error (c_thr c) u) as [[?|? ?]|]; cbn [thr_wp] in *; rewrite C; auto. }
  pose proof (Ht t) as Hm. rewrite E in Hm.
  destruct th as [[|o td]|m td].
  - exists G; split; [split; auto|apply keeps_refl].
  - exists G. split; [|apply keeps_refl]. apply HP; auto. apply wp_call. exact Hm.
  - cbn [thr_wp] in Hm.
    assert (HS : exists G', cinv G' (fst (match pstep m b (c_mem c) with
        | Some (m', s') => (mk_cst s' (firstn t (c_thr c) ++ TRun m' td :: skipn (S t) (c_thr c)), @nil event)
        | None => (c, []) end)) /\ keeps G G').
    { destruct (pstep m b (c_mem c)) as [[m' s']|] eqn:Ep; [|exists G; split; [split; auto|apply keeps_refl]].
      destruct (wp_pstep _ _ _ _ _ _ _ Hi Hm Ep) as (G' & (A & A') & B & C). exists G'. split; [apply HP; auto|auto]. }
    destruct m; try exact HS. exists G. split; [apply HP; auto|apply keeps_refl].
Qed.

Lemma exec_inv f sch : forall c G, cinv G c -> exists G', cinv G' (fst (exec g f c sch)) /\ keeps G G'.
Proof.
  induction sch as [|[t b] r IH]; intros c G H; cbn [exec]; [exists G; auto using keeps_refl|].
  destruct (cstep_inv f c t b G H) as (G1 & H1 & K1). destruct (cstep g f c t b) as [c1 h1]. cbn [fst] in H1.
  destruct (IH _ _ H1) as (G2 & H2 & K2). destruct (exec g f c1 r). exists G2. split; [exact H2|eapply keeps_trans; eauto].
Qed.

Definition hold0 : hold := mk_hold (fun _ => False) (fun _ => False) (fun _ => False) (fun _ => False) (fun _ => False) (fun _ _ => False).
(** States from which the ownership invariant can start, no call running. *)
Record owns (s : st) : Prop := mk_owns {
  o_nd : forall p c, s_tbl s p = Some c -> NoDup (chain_addrs c);
  o_dj : forall p q c d x, s_tbl s p = Some c -> s_tbl s q = Some d -> In x (chain_addrs c) -> In x (chain_addrs d) -> p = q;
  o_lt : forall p c x, s_tbl s p = Some c -> In x (chain_addrs c) -> (x < s_naddr s)%N;
  o_gd : NoDup (s_gc s);
  o_gl : forall x, In x (s_gc s) -> (x < s_naddr s)%N /\ forall p c, s_tbl s p = Some c -> ~ In x (chain_addrs c);
  o_np : forall p, (s_npid s <= p)%N -> s_tbl s p = None
}.
Lemma inv_owns G s : inv G s -> owns s.
Proof.
  intros H. constructor.
  - intros p c E. apply (i_tbl _ _ H _ _ E).
  - intros p q c d x E1 E2 X1 X2. destruct (i_tbl _ _ H _ _ E1) as (_ & _ & A1). destruct (i_tbl _ _ H _ _ E2) as (_ & _ & A2).
    apply A1 in X1. apply A2 in X2. congruence.
  - intros p c x E X. eapply tbl_lt; eauto.
  - apply (i_gc _ _ H).
  - intros x X. apply (proj2 (i_gc _ _ H)) in X. split.
    + destruct (N.lt_ge_cases x (s_naddr s)) as [L|L]; auto. apply (i_new _ _ H) in L. congruence.
    + intros p c E Y. destruct (i_tbl _ _ H _ _ E) as (_ & _ & A). apply A in Y. congruence.
  - apply (i_np _ _ H).
Qed.
Lemma init_owns : owns (init g).
Proof.
  assert (K : forall p c, s_tbl (init g) p = Some c -> p = 1%N /\ c = CBase (empty_leaf g 1%N)).
  { intros p c. cbn [init s_tbl]. unfold upd. destruct (N.eqb_spec p 1) as [->|]; [|discriminate]. intros E; inversion E; auto. }
  constructor.
  - intros p c E. apply K in E as [_ ->]. constructor; [intros []|constructor].
  - intros p q c d x E1 E2 _ _. apply K in E1 as [-> _]. apply K in E2 as [-> _]. auto.
  - intros p c x E. apply K in E as [_ ->]. cbn. intros [<-|[]]. lia.
  - constructor.
  - intros x [].
  - intros p Hp. cbn in *. rewrite upd_other by lia. reflexivity.
Qed.

Definition slot_of (s : st) (x : addr) : option pid :=
  List.find (fun p => if in_dec N.eq_dec x (oaddrs (s_tbl s p)) then true else false) (map N.of_nat (seq 0 (N.to_nat (s_npid s)))).
Lemma slot_of_in s x p c : owns s -> s_tbl s p = Some c -> In x (chain_addrs c) -> slot_of s x = Some p.
Proof.
  intros O E X. unfold slot_of. destruct (List.find _ _) as [q|] eqn:F.
  - apply find_some in F as [_ F]. destruct (in_dec _ _ _) as [Y|]; [|discriminate]. destruct (s_tbl s q) as [d|] eqn:Eq; [|destruct Y].
    f_equal. symmetry. apply (o_dj _ O _ _ _ _ _ E Eq X Y).
  - exfalso. assert (Hp : (p < s_npid s)%N).
    { destruct (N.lt_ge_cases p (s_npid s)) as [L|L]; auto. rewrite (o_np _ O) in E by auto. discriminate. }
    apply (find_none _ _) with (x := p) in F.
    + destruct (in_dec _ _ _) as [|Y]; [discriminate|]. rewrite E in Y. auto.
    + apply in_map_iff. exists (N.to_nat p). split; [lia|]. apply in_seq. lia.
Qed.
Lemma slot_of_some s x p : slot_of s x = Some p -> In x (oaddrs (s_tbl s p)).
Proof. intros F. apply find_some in F as [_ F]. destruct (in_dec _ _ _); [auto|discriminate]. Qed.

Lemma start_owns s todos : owns s -> exists G, cinv G (start s todos).
Proof.
  intros O.
  exists (mk_ghost (fun x => match slot_of s x with Some p => Table p | None => if in_dec N.eq_dec x (s_gc s) then Gc else Free end)
    (fun x => match slot_of s x with
              | Some p => match s_tbl s p with Some c => if N.eqb (h_addr c) x then Some c else None | None => None end
              | None => None end)
    (fun _ => None) (fun _ => None) (fun _ => hold0)).
  assert (GC : forall x, In x (s_gc s) -> slot_of s x = None).
  { intros x X. destruct (slot_of s x) as [p|] eqn:F; auto. apply slot_of_some in F. destruct (s_tbl s p) as [c|] eqn:E; [|destruct F].
    destruct (o_gl _ O x X) as [_ Y]. exfalso. eapply Y; eauto. }
  split.
  - constructor; cbn [g_own g_head g_tok g_pid g_hold hold0 fr un tok kn pds lk start c_mem]; try tauto.
    + intros p c E. rewrite (slot_of_in s _ p c O E (h_addr_in c)), E, N.eqb_refl. split; auto. split; [eapply o_nd; eauto|].
      intros x X. rewrite (slot_of_in s x p c O E X). auto.
    + split; [apply O|]. intros x X. rewrite (GC x X). destruct (in_dec _ _ _); [auto|easy].
    + intros x X. destruct (slot_of s x) as [p|] eqn:F.
      * apply slot_of_some in F. destruct (s_tbl s p) as [c|] eqn:E; [|destruct F]. apply (o_lt _ O _ _ _ E) in F. lia.
      * destruct (in_dec _ _ _) as [Y|]; auto. apply (o_gl _ O) in Y. lia.
    + intros x. destruct (slot_of s x); [|tauto]. split; intros; discriminate.
    + apply O.
    + intros x p. destruct (slot_of s x) as [q|] eqn:F; [|destruct (in_dec _ _ _); discriminate]. intros E; inversion E; subst q. apply slot_of_some; auto.
    + intros x. destruct (slot_of s x); [discriminate|]. destruct (in_dec _ _ _); [auto|discriminate].
    + intros x t. destruct (slot_of s x); [discriminate|]. destruct (in_dec _ _ _); discriminate.
  - cbn [start c_thr]. intros t. rewrite nth_error_map. destruct (nth_error todos t); intros x X; exact X.
Qed.
Lemma start_inv todos : exists G, cinv G (start (init g) todos).
Proof. apply start_owns, init_owns. Qed.

Lemma gc_once_from s0 f todos sch : owns s0 -> let s := c_mem (fst (exec g f (start s0 todos) sch)) in
  NoDup (s_gc s) /\ forall p c a, s_tbl s p = Some c -> In a (chain_addrs c) -> ~ In a (s_gc s).
Proof.
  intros OW. destruct (start_owns s0 todos OW) as [G0 H0]. destruct (exec_inv f sch _ _ H0) as (G & [H _] & _).
  destruct (i_gc _ _ H) as [A B]. split; auto. intros p c a E X Y. apply B in Y.
  destruct (i_tbl _ _ H _ _ E) as (_ & _ & Z). apply Z in X. congruence.
Qed.

Lemma exec_app f s1 : forall c s2, fst (exec g f c (s1 ++ s2)) = fst (exec g f (fst (exec g f c s1)) s2).
Proof.
  induction s1 as [|[t b] r IH]; intros c s2; cbn [app exec]; [reflexivity|].
  destruct (cstep g f c t b) as [c1 h1]. specialize (IH c1 s2).
  destruct (exec g f c1 (r ++ s2)), (exec g f c1 r). exact IH.
Qed.

(** A page that was reachable is, once no call is running, still reachable or retired. *)
Lemma no_leak_from s0 f todos s1 s2 p c a : owns s0 ->
  let e1 := fst (exec g f (start s0 todos) s1) in
  let e2 := fst (exec g f (start s0 todos) (s1 ++ s2)) in
  s_tbl (c_mem e1) p = Some c -> In a (chain_addrs c) ->
  (forall th, In th (c_thr e2) -> exists td, th = TIdle td) ->
  In a (s_gc (c_mem e2)) \/ exists q d, s_tbl (c_mem e2) q = Some d /\ In a (chain_addrs d).
Proof.
  intros OW. cbn zeta. rewrite exec_app. intros E Ha Hid.
  destruct (start_owns s0 todos OW) as [G0 H0]. destruct (exec_inv f s1 _ _ H0) as (G1 & H1 & _).
  destruct (exec_inv f s2 _ _ H1) as (G2 & [H2 T2] & K2).
  assert (P : pub (g_own G1 a)) by (destruct (i_tbl _ _ (proj1 H1) _ _ E) as (_ & _ & Z); rewrite Z by auto; apply pub_table).
  apply K2 in P. destruct (g_own G2 a) as [|t|q|t|] eqn:O.
  - now destruct P.
  - destruct P as [_ P]. now destruct (P t).
  - right. apply (i_xt _ _ H2) in O. destruct (s_tbl _ q) as [d|] eqn:Eq; [|destruct O]. exists q, d. auto.
  - exfalso. apply (i_xu _ _ H2) in O.
    specialize (T2 t). destruct (nth_error _ t) as [th|] eqn:Et; [|exact (T2 a O)].
    destruct (Hid th (nth_error_In _ _ Et)) as [td ->]. exact (T2 a O).
  - left. apply (i_xg _ _ H2), O.
Qed.
Lemma gc_once f todos sch : let s := c_mem (fst (exec g f (start (init g) todos) sch)) in
  NoDup (s_gc s) /\ forall p c a, s_tbl s p = Some c -> In a (chain_addrs c) -> ~ In a (s_gc s).
Proof. apply gc_once_from, init_owns. Qed.
Lemma no_leak f todos s1 s2 p c a :
  let e1 := fst (exec g f (start (init g) todos) s1) in
  let e2 := fst (exec g f (start (init g) todos) (s1 ++ s2)) in
  s_tbl (c_mem e1) p = Some c -> In a (chain_addrs c) ->
  (forall th, In th (c_thr e2) -> exists td, th = TIdle td) ->
  In a (s_gc (c_mem e2)) \/ exists q d, s_tbl (c_mem e2) q = Some d /\ In a (chain_addrs d).
Proof. apply no_leak_from, init_owns. Qed.
End Own.
