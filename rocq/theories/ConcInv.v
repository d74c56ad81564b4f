(** Proof of the concurrent properties: ghost state, invariant, what threads may
    rely on, and weakest preconditions of programs under interference. *)
From Coq Require Import ZArith NArith List Bool Lia.
From Coq Require Import ZifyBool ZifyNat ZifyN.
From Verif Require Import Config Api Page Machine Tree Spec Conc ListFacts SearchFacts ChainFacts
  ConsFacts Valid ConsolidateFacts ConcChain.
Import ListNotations.
Open Scope Z_scope.

(** Where the index entry for a separator is: nowhere, with the thread that
    split the node, or in a node. *)
Inductive tok_t := TkNone | TkPend (t : tid) | TkIn (p : pid).
(** Life of an address: not yet published, in the chain of a node, unlinked by a
    thread that has yet to retire it, retired. *)
Inductive ast_t := AFree | ALive (p : pid) | AOut (t : tid) | AGone.

Record ghost := mk_gh {
  nd   : pid -> option (bool * option key);  (* linked nodes: leaf?, low key *)
  pown : pid -> tid;                         (* who allocated a page ID *)
  hist : addr -> option (pid * chain);       (* every chain ever published *)
  own  : addr -> tid;                        (* who allocated an address *)
  ast  : addr -> ast_t;
  tok  : key -> tok_t;
  cont : smap;                               (* abstract content *)
  stat : tid -> status                       (* calls in progress *)
}.
Record world := mk_w { w_s : st; w_g : ghost }.
Notation "'$nd' x" := (nd (w_g x)) (at level 9, x at level 9).
Notation "'$tbl' x" := (s_tbl (w_s x)) (at level 9, x at level 9).
Notation "'$hist' x" := (hist (w_g x)) (at level 9, x at level 9).
Notation "'$own' x" := (own (w_g x)) (at level 9, x at level 9).
Notation "'$pown' x" := (pown (w_g x)) (at level 9, x at level 9).
Notation "'$ast' x" := (ast (w_g x)) (at level 9, x at level 9).
Notation "'$tok' x" := (tok (w_g x)) (at level 9, x at level 9).
Notation "'$cont' x" := (cont (w_g x)) (at level 9, x at level 9).
Notation "'$stat' x" := (stat (w_g x)) (at level 9, x at level 9).
Notation "'$naddr' x" := (s_naddr (w_s x)) (at level 9, x at level 9).
Notation "'$npid' x" := (s_npid (w_s x)) (at level 9, x at level 9).

(** A child listed under the separator [l]. *)
Definition kid (x : world) (l : option key) (v : pid) : Prop := exists b, $nd x v = Some (b, l).

Section Inv.
Variable g : cfg.

Record nok (x : world) (p : pid) (lf : bool) (lo : option key) (c : chain) : Prop := mk_nok {
  n_tbl  : $tbl x p = Some c;
  n_lo   : c_lo c = lo;
  n_wf   : if lf then lwf g c else jwf g c;
  n_his  : $hist x (h_addr c) = Some (p, c);
  n_bse  : is_base c = true -> h_size c <= c_page g;
  n_sz   : h_size c <= c_page g + maxrec g;
  n_cnt  : is_base c = false -> h_cnt c <= c_maxd g;
  n_link : forall h, c_hi c = Some h -> $nd x (c_next c) = Some (lf, Some h);
  n_kids : lf = false -> jkids (kid x) c;
  n_tok  : lf = false -> forall k, find k (ients c) <> None -> $tok x k = TkIn p;
  n_dup  : NoDup (chain_addrs c);
  n_ast  : forall a, In a (chain_addrs c) -> $ast x a = ALive p
}.

Record inv (x : world) : Prop := mk_inv {
  i_pid  : forall p v, $nd x p = Some v -> (0 < p < $npid x)%N;
  i_nd   : forall p lf lo, $nd x p = Some (lf, lo) -> exists c, nok x p lf lo c;
  i_prv  : forall p c, $nd x p = None -> $tbl x p = Some c ->
             (is_base c = true /\ h_size c <= c_page g /\ (forall n, c = CBase n -> n_inner n = true -> n_recs n <> [])) /\ $hist x (h_addr c) = Some (p, c) /\ $ast x (h_addr c) = ALive p;
  i_dis  : forall p q l1 l2 c1 c2 k, $nd x p = Some (true, l1) -> $nd x q = Some (true, l2) ->
             $tbl x p = Some c1 -> $tbl x q = Some c2 ->
             in_rng l1 (c_hi c1) k -> in_rng l2 (c_hi c2) k -> p = q;
  i_con  : forall p lo c k, $nd x p = Some (true, lo) -> $tbl x p = Some c ->
             in_rng lo (c_hi c) k -> lget c k = $cont x k;
  i_tok  : forall k, $tok x k <> TkNone -> exists q, $nd x q = Some (true, Some k);
  i_root : exists b, $nd x (s_root (w_s x)) = Some (b, None);
  i_adr  : forall a, $hist x a <> None -> (a < $naddr x)%N;
  i_fre  : forall a, $hist x a = None -> $ast x a = AFree;
  i_gcd  : NoDup (s_gc (w_s x));
  i_gc   : forall a, In a (s_gc (w_s x)) -> $ast x a = AGone;
  i_npid : (0 < $npid x)%N
}.

Definition big (c : chain) : Prop := is_base c = false /\ c_page g < h_size c.

(** ** What thread [t] may assume about the steps of the others *)
Record rely (t : tid) (x y : world) : Prop := mk_rely {
  r_nd   : forall p v, $nd x p = Some v -> $nd y p = Some v;
  r_hist : forall a v, $hist x a = Some v -> $hist y a = Some v;
  r_nad  : ($naddr x <= $naddr y)%N;
  r_npi  : ($npid x <= $npid y)%N;
  r_own  : forall a, (a < $naddr x)%N -> $own y a = $own x a;
  r_pown : forall p, (p < $npid x)%N -> $pown y p = $pown x p;
  r_free : forall a, (a < $naddr x)%N -> $own x a = t -> $hist x a = None -> $hist y a = None;
  r_priv : forall p, (p < $npid x)%N -> $pown x p = t -> $nd x p = None ->
             $nd y p = None /\ $tbl y p = $tbl x p;
  r_big  : forall p c, $tbl x p = Some c -> $nd x p <> None -> big c -> (h_addr c < $naddr x)%N ->
             $own x (h_addr c) = t -> $tbl y p = Some c;
  r_tok  : forall k, $tok x k = TkPend t -> $tok y k = TkPend t;
  r_stat : $stat y t = $stat x t;
  r_out  : forall a, $ast x a = AOut t -> $ast y a = AOut t
}.

(** What survives the structure modifications of [t] itself as well. *)
Record keep (t : tid) (x y : world) : Prop := mk_keep {
  k_nd   : forall p v, $nd x p = Some v -> $nd y p = Some v;
  k_hist : forall a v, $hist x a = Some v -> $hist y a = Some v;
  k_stat : $stat y t = $stat x t;
  k_out  : forall a, $ast x a = AOut t -> $ast y a = AOut t
}.

(** ** What a step of [t] must guarantee *)
Definition lstep (t : tid) (x y : world) : Prop :=
  ($cont y = $cont x /\ $stat y = $stat x) \/
  exists o, $stat x t = SPend o /\ $cont y = snd (spec ($cont x) o) /\
    $stat y = tset ($stat x) t (SDone (fst (spec ($cont x) o))).
Definition guar (t : tid) (x y : world) : Prop :=
  (forall u, u <> t -> rely u x y) /\ lstep t x y.

(** [t] takes a step from [y] to the memory [s], and can choose the ghost state
    such that invariant, guarantee and [P] hold. *)
Definition step_ok (t : tid) (y : world) (s : st) (P : world -> Prop) : Prop :=
  exists gh, inv (mk_w s gh) /\ guar t y (mk_w s gh) /\ P (mk_w s gh).

Fixpoint wp (t : tid) {A} (m : prog A) (Q : A -> world -> Prop) (x : world) {struct m} : Prop :=
  match m with
  | Ret a => Q a x
  | Fuel => True
  | Load p k => forall y, rely t x y -> inv y ->
      exists c, $tbl y p = Some c /\ step_ok t y (w_s y) (wp t (k c) Q)
  | Store p c k => forall y, rely t x y -> inv y -> step_ok t y (set_tbl (w_s y) p (Some c)) (wp t k Q)
  | Cas w p e c k => forall y, rely t x y -> inv y ->
      (forall c0, $tbl y p = Some c0 -> h_addr c0 = e ->
         step_ok t y (set_tbl (w_s y) p (Some c)) (wp t (k true) Q)) /\
      step_ok t y (w_s y) (wp t (k false) Q)
  | LoadRoot k => forall y, rely t x y -> inv y -> step_ok t y (w_s y) (wp t (k (s_root (w_s y))) Q)
  | StoreRoot p k => forall y, rely t x y -> inv y -> step_ok t y (set_root (w_s y) p) (wp t k Q)
  | NewPid k => forall y, rely t x y -> inv y -> step_ok t y (bump_pid (w_s y)) (wp t (k ($npid y)) Q)
  | Alloc k => forall y, rely t x y -> inv y -> step_ok t y (bump_addr (w_s y)) (wp t (k ($naddr y)) Q)
  | Retire l k => forall y, rely t x y -> inv y -> step_ok t y (add_gc (w_s y) l) (wp t k Q)
  | UB _ | Clear _ _ | CasRoot _ _ _ | LoadCell _ _ | StoreCell _ _ _ => False
  end.

(** ** Rely is a preorder *)
Lemma rely_refl t x : rely t x x.
Proof. constructor; auto; try reflexivity. Qed.

Lemma rely_trans t x y z : rely t x y -> rely t y z -> rely t x z.
Proof.
  intros A B. constructor.
  - intros. apply B, A; auto.
  - intros. apply B, A; auto.
  - pose proof (r_nad _ _ _ A). pose proof (r_nad _ _ _ B). lia.
  - pose proof (r_npi _ _ _ A). pose proof (r_npi _ _ _ B). lia.
  - intros a H. pose proof (r_nad _ _ _ A). rewrite (r_own _ _ _ B), (r_own _ _ _ A); auto. lia.
  - intros a H. pose proof (r_npi _ _ _ A). rewrite (r_pown _ _ _ B), (r_pown _ _ _ A); auto. lia.
  - intros a H1 H2 H3. pose proof (r_nad _ _ _ A). apply (r_free _ _ _ B); [lia| |].
    + rewrite (r_own _ _ _ A); auto.
    + apply (r_free _ _ _ A); auto.
  - intros p H1 H2 H3. pose proof (r_npi _ _ _ A). destruct (r_priv _ _ _ A p H1 H2 H3) as [E1 E2].
    destruct (r_priv _ _ _ B p) as [E3 E4]; auto; [lia| |].
    + rewrite (r_pown _ _ _ A); auto.
    + split; auto. congruence.
  - intros p c H1 H2 H3 H4 H5. pose proof (r_nad _ _ _ A). apply (r_big _ _ _ B); auto.
    + apply (r_big _ _ _ A); auto.
    + destruct ($nd x p) as [v|] eqn:E; [|contradiction]. rewrite (r_nd _ _ _ A _ _ E). discriminate.
    + lia.
    + rewrite (r_own _ _ _ A); auto.
  - intros. apply B, A; auto.
  - rewrite (r_stat _ _ _ B). apply A.
  - intros. apply B, A; auto.
Qed.

Lemma keep_refl t x : keep t x x. Proof. constructor; auto. Qed.
Lemma keep_trans t x y z : keep t x y -> keep t y z -> keep t x z.
Proof.
  intros A B. constructor.
  - intros. apply B, A; auto.
  - intros. apply B, A; auto.
  - rewrite (k_stat _ _ _ B). apply A.
  - intros. apply B, A; auto.
Qed.
Lemma rely_keep t x y : rely t x y -> keep t x y.
Proof. intros A. constructor; apply A. Qed.

Lemma guar_refl t x : guar t x x.
Proof. split; [intros; apply rely_refl|left; auto]. Qed.

Lemma step_nop t y (P : world -> Prop) : inv y -> P y -> step_ok t y (w_s y) P.
Proof. intros H HP. exists (w_g y). destruct y. cbn. split; auto. split; auto. apply guar_refl. Qed.

Lemma step_mono t y s (P Q : world -> Prop) : (forall z, inv z -> P z -> Q z) -> step_ok t y s P -> step_ok t y s Q.
Proof. intros H (gh & A & B & C). exists gh. auto. Qed.

(** ** Rules *)
Lemma wp_mono t {A} (m : prog A) : forall (Q Q' : A -> world -> Prop) x,
  (forall a z, Q a z -> Q' a z) -> wp t m Q x -> wp t m Q' x.
Proof.
  induction m as [a|p k IH|p c m IH|p m IH|w p e c k IH|k IH|p m IH|o n k IH|k IH|k IH|a k IH|a p m IH|l m IH|u|];
    intros Q Q' x HQ; cbn [wp]; auto; intros H y Hr Hi; specialize (H y Hr Hi).
  - destruct H as (c & E & H). exists c. split; auto. eapply step_mono; [|apply H]. intros z _. apply IH; auto.
  - eapply step_mono; [|apply H]. intros z _. apply IH; auto.
  - destruct H as [H1 H2]. split.
    + intros c0 E1 E2. eapply step_mono; [|eapply H1; eauto]. intros z _. apply IH; auto.
    + eapply step_mono; [|apply H2]. intros z _. apply IH; auto.
  - eapply step_mono; [|apply H]. intros z _. apply IH; auto.
  - eapply step_mono; [|apply H]. intros z _. apply IH; auto.
  - eapply step_mono; [|apply H]. intros z _. apply IH; auto.
  - eapply step_mono; [|apply H]. intros z _. apply IH; auto.
  - eapply step_mono; [|apply H]. intros z _. apply IH; auto.
Qed.

Lemma wp_bind t {A B} (m : prog A) (f : A -> prog B) Q : forall x,
  wp t m (fun a z => wp t (f a) Q z) x -> wp t (bind m f) Q x.
Proof.
  induction m as [a|p k IH|p c m IH|p m IH|w p e c k IH|k IH|p m IH|o n k IH|k IH|k IH|a k IH|a p m IH|l m IH|u|];
    intros x; cbn [bind wp]; auto; intros H y Hr Hi; specialize (H y Hr Hi).
  - destruct H as (c & E & H). exists c. split; auto. eapply step_mono; [|apply H]. intros z _. apply IH; auto.
  - eapply step_mono; [|apply H]. intros z _. apply IH; auto.
  - destruct H as [H1 H2]. split.
    + intros c0 E1 E2. eapply step_mono; [|eapply H1; eauto]. intros z _. apply IH; auto.
    + eapply step_mono; [|apply H2]. intros z _. apply IH; auto.
  - eapply step_mono; [|apply H]. intros z _. apply IH; auto.
  - eapply step_mono; [|apply H]. intros z _. apply IH; auto.
  - eapply step_mono; [|apply H]. intros z _. apply IH; auto.
  - eapply step_mono; [|apply H]. intros z _. apply IH; auto.
  - eapply step_mono; [|apply H]. intros z _. apply IH; auto.
Qed.

(** Interference before the first step of a program. *)
Lemma wp_rely t {A} (m : prog A) (Q : A -> world -> Prop) x y :
  (forall a z1 z2, Q a z1 -> rely t z1 z2 -> Q a z2) -> rely t x y -> wp t m Q x -> wp t m Q y.
Proof.
  intros HQ Hr. destruct m; cbn [wp]; auto; try (intros H z Hz Hi; apply (H z); auto; eapply rely_trans; eauto; fail).
  eauto.
Qed.

(** ** Simple facts *)
Lemma inv_at x p lf lo : inv x -> $nd x p = Some (lf, lo) -> exists c, nok x p lf lo c /\ $tbl x p = Some c.
Proof. intros H E. destruct (i_nd _ H _ _ _ E) as [c Hc]. exists c. split; auto. apply Hc. Qed.

Lemma nok_at x p lf lo c : inv x -> $nd x p = Some (lf, lo) -> $tbl x p = Some c -> nok x p lf lo c.
Proof. intros H E T. destruct (inv_at _ _ _ _ H E) as (c' & Hc & T'). congruence. Qed.

(** The published chain of an address is unique. *)
Lemma hist_same x p lf lo c h : inv x -> $nd x p = Some (lf, lo) -> $tbl x p = Some c ->
  $hist x (h_addr h) = Some (p, h) -> h_addr c = h_addr h -> c = h.
Proof.
  intros H E T Hh Ea. pose proof (n_his _ _ _ _ _ (nok_at _ _ _ _ _ H E T)) as Hc. rewrite Ea, Hh in Hc. congruence.
Qed.

Lemma nok_leaf x p lf lo c : nok x p lf lo c -> h_leaf c = lf.
Proof. intros H. pose proof (n_wf _ _ _ _ _ H). destruct lf; [eapply lwf_leaf|eapply jwf_inner]; eauto. Qed.

Lemma nok_rng x p lf lo c h : nok x p lf lo c -> c_hi c = Some h -> ole lo (Some h).
Proof.
  intros H E. pose proof (n_wf _ _ _ _ _ H) as W. rewrite <- (n_lo _ _ _ _ _ H). destruct lf.
  - apply lwf_rng in W. rewrite E in W. unfold rng_ne, lo_lt in W. destruct (c_lo c); simpl; auto. lia.
  - apply jwf_rng in W. rewrite E in W. unfold rng_le, lo_ok in W. destruct (c_lo c); simpl; auto.
Qed.
End Inv.
