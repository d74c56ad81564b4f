(** Proof of the concurrent properties with node merging, as long as the root node
    stays in place: ghost state, invariant, what threads may rely on, and weakest
    preconditions of programs under interference. *)
From Coq Require Import ZArith NArith List Bool Lia.
From Coq Require Import ZifyBool ZifyNat ZifyN.
From Verif Require Import Config Api Page Machine Tree Spec Conc ListFacts SearchFacts ChainFacts
  ConsFacts Valid ConsolidateFacts SeqSpec LevelFacts.
Import ListNotations.
Open Scope Z_scope.

(** Where the index entry for a separator is: nowhere, with a thread that has yet to
    insert it above level [m] or has deleted it there, or in a node. *)
Inductive tok_t := TkNone | TkPend (t : tid) (m : nat) | TkIn (p : pid).
(** Life of a linked node: in use; marked as removed by [t], who consolidated it
    into the page [n]; absorbed by its left sibling. *)
Inductive lst := LLive | LRem (t : tid) (n : node) | LDead.

Record ghost := mk_gh {
  nd   : pid -> option (nat * option key);   (* nodes ever linked: level (0 = leaf), low key *)
  lim  : pid -> lst;
  pown : pid -> tid;                         (* who allocated a page ID *)
  hist : pid -> addr -> option chain;        (* every chain ever published for a node *)
  own  : addr -> tid;                        (* who allocated an address *)
  dele : addr -> option (nat * key);         (* published index-delete deltas: level of the child, key *)
  tok  : key -> tok_t;
  cont : smap;                               (* abstract content *)
  stat : tid -> status                       (* calls in progress *)
}.
Record world := mk_w { w_s : st; w_g : ghost }.
Notation "'$nd' x" := (nd (w_g x)) (at level 9, x at level 9).
Notation "'$lim' x" := (lim (w_g x)) (at level 9, x at level 9).
Notation "'$tbl' x" := (s_tbl (w_s x)) (at level 9, x at level 9).
Notation "'$cell' x" := (s_cell (w_s x)) (at level 9, x at level 9).
Notation "'$hist' x" := (hist (w_g x)) (at level 9, x at level 9).
Notation "'$own' x" := (own (w_g x)) (at level 9, x at level 9).
Notation "'$pown' x" := (pown (w_g x)) (at level 9, x at level 9).
Notation "'$dele' x" := (dele (w_g x)) (at level 9, x at level 9).
Notation "'$tok' x" := (tok (w_g x)) (at level 9, x at level 9).
Notation "'$cont' x" := (cont (w_g x)) (at level 9, x at level 9).
Notation "'$stat' x" := (stat (w_g x)) (at level 9, x at level 9).
Notation "'$naddr' x" := (s_naddr (w_s x)) (at level 9, x at level 9).
Notation "'$npid' x" := (s_npid (w_s x)) (at level 9, x at level 9).

Definition inn (l : nat) : bool := match l with O => false | S _ => true end.

(** The chain that currently stands for a node. *)
Definition cur (x : world) (p : pid) : option chain :=
  match $lim x p with LLive => $tbl x p | LRem _ n => Some (CBase n) | LDead => None end.

(** The highest level at which a boundary exists, according to its token. *)
Definition tlev (f : pid -> option (nat * option key)) (k : tok_t) : option nat :=
  match k with
  | TkNone => None
  | TkPend _ m => Some m
  | TkIn p => match f p with Some (S m, _) => Some m | _ => None end
  end.

Section Inv.
Variable g : cfg.
Variable A0 : addr.   (* addresses below were allocated before the threads started *)
Variable R0 : pid.    (* the root *)
Variable L0 : nat.    (* its level *)

(** The root word, and the root node neither removed nor split. *)
Definition stable (s : st) : Prop :=
  s_root s = R0 /\ exists c, s_tbl s R0 = Some c /\ is_remove c = false /\ c_hi c = None.

(** What a reader may find in the payload of an index-delete delta for [dk]. *)
Definition wgood (x : world) (m : nat) (dk : key) (v : pid) : Prop :=
  exists lo, $nd x v = Some (m, lo) /\ lo_ok lo dk.
Definition wok (x : world) (m : nat) (dk : key) (a : addr) : Prop :=
  ((a < A0)%N /\ $cell x a <> 0%N /\ wgood x m dk ($cell x a)) \/ $dele x a = Some (m, dk).

Definition kido (x : world) (m : nat) (c : chain) (e : key) (v : pid) : Prop :=
  exists l, $nd x v = Some (m, l) /\ ole (c_lo c) l /\ lo_ok l e.

(** Routing in a chain leads to children that are not right of the key. *)
Definition rok (x : world) (m : nat) (c : chain) : Prop :=
  forall k closed smo, lo_ok (c_lo c) (eff k closed) -> (smo = true -> hi_ok (c_hi c) (eff k closed)) ->
  match dc_search_child c k closed smo with
  | RFound v => kido x m c (eff k closed) v
  | RWait a => exists dk, dk <= eff k closed /\ wok x m dk a
  | RBase n => exists v, node_search_child n k closed = Some v /\ kido x m c (eff k closed) v
  | RSibling q => smo = false /\ q = c_next c /\ exists h, c_hi c = Some h /\ h <= eff k closed
  | RRemoved | RNotFound | RGarbage => False
  end.
Definition ikids (x : world) (m : nat) (c : chain) : Prop :=
  Forall (fun e => $nd x (snd e) = Some (m, fst e)) (cents true c).

(** Well-formed chains of published pages. *)
Record sok (l : nat) (c : chain) : Prop := mk_sok {
  s_wf  : cwf g (inn l) c;
  s_bse : is_base c = true -> h_size c <= c_page g;
  s_sz  : h_size c <= c_page g + excess g;
  s_cnt : is_base c = false -> h_cnt c <= c_maxd g
}.

Record cok (x : world) (p : pid) (l : nat) (lo : option key) (c : chain) : Prop := mk_cok {
  n_sok  : sok l c;
  n_lo   : c_lo c = lo;
  n_link : forall h, c_hi c = Some h -> $nd x (c_next c) = Some (l, Some h) /\ $lim x (c_next c) <> LDead;
  n_kids : forall m, l = S m -> ikids x m c /\ rok x m c;
  n_tok  : l <> O -> forall k, find k (ients c) <> None -> $tok x k = TkIn p
}.

Record inv (x : world) : Prop := mk_inv {
  i_pid  : forall p v, $nd x p = Some v -> (0 < p < $npid x)%N;
  i_lim  : forall p, $lim x p <> LLive -> $nd x p <> None;
  i_min  : forall p t n, $lim x p = LRem t n -> n_size n <= c_min g;
  i_cur  : forall p l lo, $nd x p = Some (l, lo) -> $lim x p <> LDead ->
             exists c, cur x p = Some c /\ cok x p l lo c;
  i_tbl  : forall p l lo, $nd x p = Some (l, lo) -> exists c, $tbl x p = Some c /\
             $hist x p (h_addr c) = Some c /\
             ($lim x p <> LLive -> exists a, c = CRemove a (negb (inn l)));
  i_dis  : forall p q l l1 l2 c1 c2 k, $nd x p = Some (l, l1) -> $nd x q = Some (l, l2) ->
             cur x p = Some c1 -> cur x q = Some c2 ->
             in_rng l1 (c_hi c1) k -> in_rng l2 (c_hi c2) k -> p = q;
  i_con  : forall p lo c k, $nd x p = Some (O, lo) -> cur x p = Some c ->
             in_rng lo (c_hi c) k -> lget c k = $cont x k;
  i_tokw : forall k, $tok x k <> TkNone -> tlev ($nd x) ($tok x k) <> None;
  i_top  : forall q l k, $nd x q = Some (l, Some k) -> $lim x q <> LDead ->
             exists m, tlev ($nd x) ($tok x k) = Some m /\ (l <= m)%nat;
  i_bot  : forall k m j, tlev ($nd x) ($tok x k) = Some m -> (j <= m)%nat ->
             exists q, $nd x q = Some (j, Some k) /\ $lim x q <> LDead;
  i_root : $nd x R0 = Some (L0, None);
  i_rlev : forall p l lo, $nd x p = Some (l, lo) -> (l <= L0)%nat /\ (l = L0 -> p = R0);
  i_adr  : forall p a, $hist x p a <> None -> (a < $naddr x)%N;
  i_dadr : forall a v, $dele x a = Some v -> (A0 <= a < $naddr x)%N;
  i_cell : forall a m dk, $dele x a = Some (m, dk) -> $cell x a = 0%N \/ wgood x m dk ($cell x a);
  i_a0   : (A0 <= $naddr x)%N;
  i_npid : (0 < $npid x)%N
}.

Definition big (c : chain) : Prop := is_base c = false /\ c_page g < h_size c.

(** An address thread [t] has allocated and not yet published. *)
Definition fr (t : tid) (x : world) (a : addr) : Prop :=
  (A0 <= a < $naddr x)%N /\ $own x a = t /\ (forall p, $hist x p a = None) /\ $dele x a = None.

(** ** What thread [t] may assume about the steps of the others *)
Record rely (t : tid) (x y : world) : Prop := mk_rely {
  r_nd   : forall p v, $nd x p = Some v -> $nd y p = Some v;
  r_hist : forall p a v, $hist x p a = Some v -> $hist y p a = Some v;
  r_nad  : ($naddr x <= $naddr y)%N;
  r_npi  : ($npid x <= $npid y)%N;
  r_own  : forall a, (a < $naddr x)%N -> $own y a = $own x a;
  r_pown : forall p, (p < $npid x)%N -> $pown y p = $pown x p;
  r_free : forall a, fr t x a -> fr t y a;
  r_priv : forall p, (p < $npid x)%N -> $pown x p = t -> $nd x p = None ->
             $nd y p = None /\ $tbl y p = $tbl x p;
  r_big  : forall p c, $tbl x p = Some c -> $nd x p <> None -> big c -> (h_addr c < $naddr x)%N ->
             $own x (h_addr c) = t -> $tbl y p = Some c;
  r_tok  : forall k m, $tok x k = TkPend t m -> $tok y k = TkPend t m;
  r_rem  : forall p n, $lim x p = LRem t n -> $lim y p = LRem t n;
  r_dead : forall p, $lim x p = LDead -> $lim y p = LDead;
  r_dele : forall a v, $dele x a = Some v -> $dele y a = Some v;
  r_cell : forall a, (a < A0)%N -> $cell y a = $cell x a;
  r_frc  : forall a, fr t x a -> $cell y a = $cell x a;
  r_stat : $stat y t = $stat x t
}.

(** What only grows. *)
Record ext (x y : world) : Prop := mk_ext {
  e_nd   : forall p v, $nd x p = Some v -> $nd y p = Some v;
  e_dead : forall p, $lim x p = LDead -> $lim y p = LDead;
  e_dele : forall a v, $dele x a = Some v -> $dele y a = Some v;
  e_cell : forall a, (a < A0)%N -> $cell y a = $cell x a
}.

(** What survives the structure modifications of [t] itself as well. *)
Record keep (t : tid) (x y : world) : Prop := mk_keep {
  k_ext  : ext x y;
  k_hist : forall p a v, $hist x p a = Some v -> $hist y p a = Some v;
  k_stat : $stat y t = $stat x t;
  k_tok  : forall k m, $tok x k = TkPend t m -> $tok y k = TkPend t m;
  k_rem  : forall p n, $lim x p = LRem t n -> $lim y p = LRem t n;
  k_fr   : forall a, fr t x a -> fr t y a;
  k_own  : forall a, (a < $naddr x)%N -> (a < $naddr y)%N /\ $own y a = $own x a
}.

(** ** What a step of [t] must guarantee *)
Definition lstep (t : tid) (x y : world) : Prop :=
  ($cont y = $cont x /\ $stat y = $stat x) \/
  exists o, $stat x t = SPend o /\ $cont y = snd (spec ($cont x) o) /\
    $stat y = tset ($stat x) t (SDone (fst (spec ($cont x) o))).
Definition guar (t : tid) (x y : world) : Prop :=
  (forall u, u <> t -> rely u x y) /\ lstep t x y.

(** [t] takes a step from [y] to the memory [s] in which the root is still in place,
    and can choose the ghost state such that invariant, guarantee and [P] hold. *)
Definition step_ok (t : tid) (y : world) (s : st) (P : world -> Prop) : Prop :=
  stable s -> exists gh, inv (mk_w s gh) /\ guar t y (mk_w s gh) /\ P (mk_w s gh).

Definition envst (t : tid) (x y : world) : Prop := rely t x y /\ inv y /\ stable (w_s y).

Fixpoint wp (t : tid) {A} (m : prog A) (Q : A -> world -> Prop) (x : world) {struct m} : Prop :=
  match m with
  | Ret a => Q a x
  | Fuel => True
  | Load p k => forall y, envst t x y -> $nd y p <> None /\
      exists c, $tbl y p = Some c /\ step_ok t y (w_s y) (wp t (k c) Q)
  | Store p c k => forall y, envst t x y -> step_ok t y (set_tbl (w_s y) p (Some c)) (wp t k Q)
  | Cas w p e c k => forall y, envst t x y -> $nd y p <> None /\
      (forall c0, $tbl y p = Some c0 -> h_addr c0 = e ->
         step_ok t y (set_tbl (w_s y) p (Some c)) (wp t (k true) Q)) /\
      step_ok t y (w_s y) (wp t (k false) Q)
  | LoadRoot k => forall y, envst t x y -> step_ok t y (w_s y) (wp t (k (s_root (w_s y))) Q)
  | NewPid k => forall y, envst t x y -> step_ok t y (bump_pid (w_s y)) (wp t (k ($npid y)) Q)
  | Alloc k => forall y, envst t x y -> step_ok t y (bump_addr (w_s y)) (wp t (k ($naddr y)) Q)
  | LoadCell a k => forall y, envst t x y -> step_ok t y (w_s y) (wp t (k ($cell y a)) Q)
  | StoreCell a v k => forall y, envst t x y -> step_ok t y (set_cell (w_s y) a v) (wp t k Q)
  | Retire l k => forall y, envst t x y -> step_ok t y (add_gc (w_s y) l) (wp t k Q)
  | UB _ | Clear _ _ | CasRoot _ _ _ | StoreRoot _ _ => False
  end.

(** ** Rely is a preorder *)
Lemma rely_refl t x : rely t x x.
Proof. constructor; auto; try reflexivity. Qed.

Lemma rely_trans t x y z : rely t x y -> rely t y z -> rely t x z.
Proof.
  intros A B. constructor.
  - intros. apply B, A; auto.
  - intros. apply B, A; auto.
  - pose proof (r_nad _ _ _ A). pose proof (r_nad _ _ _ B). lia.
  - pose proof (r_npi _ _ _ A). pose proof (r_npi _ _ _ B). lia.
  - intros a H. pose proof (r_nad _ _ _ A). rewrite (r_own _ _ _ B), (r_own _ _ _ A); auto. lia.
  - intros a H. pose proof (r_npi _ _ _ A). rewrite (r_pown _ _ _ B), (r_pown _ _ _ A); auto. lia.
  - intros. apply B, A; auto.
  - intros p H1 H2 H3. pose proof (r_npi _ _ _ A). destruct (r_priv _ _ _ A p H1 H2 H3) as [E1 E2].
    destruct (r_priv _ _ _ B p) as [E3 E4]; auto; [lia| |].
    + rewrite (r_pown _ _ _ A); auto.
    + split; auto. congruence.
  - intros p c H1 H2 H3 H4 H5. pose proof (r_nad _ _ _ A). apply (r_big _ _ _ B); auto.
    + apply (r_big _ _ _ A); auto.
    + destruct ($nd x p) as [v|] eqn:E; [|contradiction]. rewrite (r_nd _ _ _ A _ _ E). discriminate.
    + lia.
    + rewrite (r_own _ _ _ A); auto.
  - intros. apply B, A; auto.
  - intros. apply B, A; auto.
  - intros. apply B, A; auto.
  - intros. apply B, A; auto.
  - intros. rewrite (r_cell _ _ _ B), (r_cell _ _ _ A); auto.
  - intros. rewrite (r_frc _ _ _ B), (r_frc _ _ _ A); auto. apply A; auto.
  - rewrite (r_stat _ _ _ B). apply A.
Qed.

Lemma ext_refl x : ext x x. Proof. constructor; auto. Qed.
Lemma ext_trans x y z : ext x y -> ext y z -> ext x z.
Proof.
  intros A B. constructor.
  - intros. apply B, A; auto.
  - intros. apply B, A; auto.
  - intros. apply B, A; auto.
  - intros. rewrite (e_cell _ _ B), (e_cell _ _ A); auto.
Qed.
Lemma rely_ext t x y : rely t x y -> ext x y.
Proof. intros A. constructor; apply A. Qed.

Lemma keep_refl t x : keep t x x. Proof. constructor; auto. apply ext_refl. Qed.
Lemma keep_trans t x y z : keep t x y -> keep t y z -> keep t x z.
Proof.
  intros A B. constructor.
  - eapply ext_trans; [apply A|apply B].
  - intros. apply B, A; auto.
  - rewrite (k_stat _ _ _ B). apply A.
  - intros. apply B, A; auto.
  - intros. apply B, A; auto.
  - intros. apply B, A; auto.
  - intros a Ha. destruct (k_own _ _ _ A a Ha) as [H1 H2]. destruct (k_own _ _ _ B a H1) as [H3 H4]. split; auto. congruence.
Qed.
Lemma rely_keep t x y : rely t x y -> keep t x y.
Proof.
  intros A. constructor; try apply A; [eapply rely_ext; eauto|].
  intros a Ha. pose proof (r_nad _ _ _ A). split; [lia|]. apply A; auto.
Qed.

Lemma guar_refl t x : guar t x x.
Proof. split; [intros; apply rely_refl|left; auto]. Qed.

Lemma step_nop t y (P : world -> Prop) : inv y -> P y -> step_ok t y (w_s y) P.
Proof. intros H HP _. exists (w_g y). destruct y. cbn. split; auto. split; auto. apply guar_refl. Qed.

Lemma step_mono t y s (P Q : world -> Prop) : (forall z, inv z -> stable (w_s z) -> P z -> Q z) ->
  step_ok t y s P -> step_ok t y s Q.
Proof. intros H X Hs. destruct (X Hs) as (gh & A & B & C). exists gh. auto. Qed.

Lemma envst_rely t x y z : rely t x y -> envst t y z -> envst t x z.
Proof. intros A (B & C). split; auto. eapply rely_trans; eauto. Qed.

(** ** Rules *)
Ltac wp_cases IH :=
  match goal with H : forall y, envst _ _ y -> _ |- forall y, envst _ _ y -> _ =>
    let y := fresh "y" in let Hr := fresh "Hr" in
    intros y Hr; specialize (H y Hr);
    first
    [ destruct H as (?Hn & ?c & ?E & H); split; [assumption|]; eexists; split; [eassumption|];
      eapply step_mono; [|apply H]; intros ? _ _; apply IH; auto
    | destruct H as (?Hn & ?H1 & ?H2); split; [assumption|]; split;
      [ intros; eapply step_mono; [|eauto]; intros ? _ _; apply IH; auto
      | eapply step_mono; [|eassumption]; intros ? _ _; apply IH; auto ]
    | eapply step_mono; [|apply H]; intros ? _ _; apply IH; auto ]
  end.

Lemma wp_mono t {A} (m : prog A) : forall (Q Q' : A -> world -> Prop) x,
  (forall a z, Q a z -> Q' a z) -> wp t m Q x -> wp t m Q' x.
Proof.
  induction m as [a|p k IH|p c m IH|p m IH|w p e c k IH|k IH|p m IH|o n k IH|k IH|k IH|a k IH|a p m IH|l m IH|u|];
    intros Q Q' x HQ; cbn [wp]; auto; intros H; wp_cases IH.
Qed.

Lemma wp_bind t {A B} (m : prog A) (f : A -> prog B) Q : forall x,
  wp t m (fun a z => wp t (f a) Q z) x -> wp t (bind m f) Q x.
Proof.
  induction m as [a|p k IH|p c m IH|p m IH|w p e c k IH|k IH|p m IH|o n k IH|k IH|k IH|a k IH|a p m IH|l m IH|u|];
    intros x; cbn [bind wp]; auto; intros H; wp_cases IH.
Qed.

Lemma wp_assoc t {A B C} (m : prog A) (f : A -> prog B) (h : B -> prog C) Q : forall x,
  wp t (bind m (fun a => bind (f a) h)) Q x -> wp t (bind (bind m f) h) Q x.
Proof.
  induction m as [a|p k IH|p c m IH|p m IH|w p e c k IH|k IH|p m IH|o n k IH|k IH|k IH|a k IH|a p m IH|l m IH|u|];
    intros x; cbn [bind wp]; auto; intros H; wp_cases IH.
Qed.

(** Interference before the first step of a program. *)
Lemma wp_rely t {A} (m : prog A) (Q : A -> world -> Prop) x y :
  (forall a z1 z2, Q a z1 -> rely t z1 z2 -> Q a z2) -> rely t x y -> wp t m Q x -> wp t m Q y.
Proof.
  intros HQ Hr. destruct m; cbn [wp]; auto; try (intros H z Hz; apply (H z); auto; eapply envst_rely; eauto; fail).
  eauto.
Qed.

(** ** Simple facts *)
Lemma inn_0 l : inn l = false -> l = O. Proof. destruct l; [auto|discriminate]. Qed.

Lemma live_at x p l lo c : inv x -> $nd x p = Some (l, lo) -> $tbl x p = Some c -> is_remove c = false ->
  $lim x p = LLive /\ cur x p = Some c /\ cok x p l lo c.
Proof.
  intros H E T R. destruct (i_tbl _ H _ _ _ E) as (c' & T' & _ & X). rewrite T in T'. inversion T'; subst c'.
  assert (EL : $lim x p = LLive).
  { destruct ($lim x p); auto; (destruct X as [a ->]; [discriminate|]; cbn in R; discriminate). }
  split; auto. destruct (i_cur _ H _ _ _ E) as (c' & C1 & C2); [congruence|].
  unfold cur in *. rewrite EL in *. rewrite T in C1. inversion C1; subst. auto.
Qed.

Lemma rem_at x p l lo c : inv x -> $nd x p = Some (l, lo) -> $tbl x p = Some c -> is_remove c = true ->
  $lim x p <> LLive /\ exists a, c = CRemove a (negb (inn l)).
Proof.
  intros H E T R. destruct (i_tbl _ H _ _ _ E) as (c' & T' & _ & X). rewrite T in T'. inversion T'; subst c'.
  assert (EL : $lim x p <> LLive).
  { intros EL. destruct (i_cur _ H _ _ _ E) as (c' & C1 & C2); [congruence|].
    unfold cur in C1. rewrite EL, T in C1. inversion C1; subst c'.
    pose proof (s_wf _ _ (n_sok _ _ _ _ _ C2)) as W. destruct (inn l); cbn in W; destruct c; cbn in *; try discriminate; auto. }
  split; auto.
Qed.

Lemma cwf_nrem i c : cwf g i c -> is_remove c = false.
Proof. destruct i; cbn; intros H; [eapply iwf_not_remove|eapply lwf_not_remove]; eauto. Qed.

Lemma cok_nrem x p l lo c : cok x p l lo c -> is_remove c = false.
Proof. intros H. eapply cwf_nrem. apply H. Qed.

Lemma cwf_lf i c : cwf g i c -> h_leaf c = negb i.
Proof. destruct i; cbn; intros H; [eapply iwf_inner|eapply lwf_leaf]; eauto. Qed.

Lemma tbl_leaf x p l lo c : inv x -> $nd x p = Some (l, lo) -> $tbl x p = Some c -> h_leaf c = negb (inn l).
Proof.
  intros H E T. destruct (is_remove c) eqn:R.
  - destruct (rem_at _ _ _ _ _ H E T R) as [_ [a ->]]. reflexivity.
  - destruct (live_at _ _ _ _ _ H E T R) as (_ & _ & K). eapply cwf_lf. apply K.
Qed.

(** The published chain of an address is unique. *)
Lemma hist_same x p l lo c h : inv x -> $nd x p = Some (l, lo) -> $tbl x p = Some c ->
  $hist x p (h_addr h) = Some h -> h_addr c = h_addr h -> c = h.
Proof.
  intros H E T Hh Ea. destruct (i_tbl _ H _ _ _ E) as (c' & T' & X & _). rewrite T in T'. inversion T'; subst c'.
  rewrite Ea in X. congruence.
Qed.

Lemma cwf_rg i c : cwf g i c -> rng_ne (c_lo c) (c_hi c).
Proof. destruct i; cbn; intros H; [eapply iwf_rng|eapply lwf_rng]; eauto. Qed.

Lemma cok_rng x p l lo c : cok x p l lo c -> rng_ne lo (c_hi c).
Proof. intros H. rewrite <- (n_lo _ _ _ _ _ H). eapply cwf_rg. apply H. Qed.

Lemma cok_olt x p l lo c h : cok x p l lo c -> c_hi c = Some h -> olt lo (Some h).
Proof. intros H E. pose proof (cok_rng _ _ _ _ _ H) as R. rewrite E in R. cbn in R. destruct lo; cbn in *; auto. Qed.

Lemma cok_mhigh x p l lo c : cok x p l lo c -> mhigh_ok c.
Proof. intros H. pose proof (s_wf _ _ (n_sok _ _ _ _ _ H)). destruct (inn l); [eapply iwf_mhigh|eapply lwf_mhigh]; eauto. Qed.

Lemma root_live x : inv x -> stable (w_s x) -> $lim x R0 = LLive.
Proof.
  intros H (_ & c & T & R & _). apply (live_at x R0 _ _ c H (i_root _ H) T R).
Qed.

Lemma ole_dec (a b : option key) : ole a b \/ ~ ole a b.
Proof. destruct a as [a|], b as [b|]; cbn; auto. destruct (Z_le_gt_dec a b); [left|right]; lia. Qed.

(** Higher nodes have their low key not inside the range of a lower node. *)
Lemma nest x p l lo c k q m lq : inv x -> $nd x p = Some (l, lo) -> cur x p = Some c -> in_rng lo (c_hi c) k ->
  $nd x q = Some (m, lq) -> (l < m)%nat -> lo_ok lq k -> ole lq lo \/ $lim x q = LDead.
Proof.
  intros H E C Rk Eq Lm Hq. destruct ($lim x q) eqn:EL; auto; left;
  (destruct lq as [kq|]; [|exact I]);
  (destruct (i_top _ H _ _ _ Eq) as (m' & M1 & M2); [congruence|]);
  (destruct (i_bot _ H _ _ l M1) as (w & W1 & W2); [lia|]);
  (destruct (i_cur _ H _ _ _ W1 W2) as (cw & Cw & Kw));
  pose proof (cok_rng _ _ _ _ _ Kw) as Rw;
  (destruct (ole_dec (Some kq) lo) as [|Hn]; auto; exfalso);
  (assert (w = p); [eapply (i_dis _ H w p l (Some kq) lo cw c kq); eauto|subst w; rewrite E in W1; inversion W1; subst; apply Hn; cbn; lia]).
  all: unfold in_rng, rng_ne, lo_ok, lo_lt, hi_ok, ole in *; destruct lo, (c_hi cw), (c_hi c); lia.
Qed.
End Inv.
