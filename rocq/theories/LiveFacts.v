(** A search that never reaches a leaf, and the execution that leads to it. *)
From Coq Require Import ZArith NArith List Bool Lia.
From Verif Require Import Config Api Page Machine Tree Spec Valid ConcSpec Conc ConcChain SeqAux SeqOps RunFacts.
Import ListNotations.
Open Scope Z_scope.

(** Every page of [W] is an inner page whose search for [k] leads to a page of [W]. *)
Definition trap1 (s : st) (k : key) (W : list pid) (p : pid) : bool :=
  match s_tbl s p with
  | Some c =>
      negb (h_leaf c) &&
      match dc_search_child c k true false with
      | RFound v => existsb (N.eqb v) W
      | RSibling q => negb (N.eqb q 0) && existsb (N.eqb q) W
      | RBase n => match node_search_child n k true with
                   | Some v => existsb (N.eqb v) W | None => false end
      | _ => false
      end
  | None => false
  end.
Definition trap (s : st) (k : key) (W : list pid) : bool :=
  existsb (N.eqb (s_root s)) W && forallb (trap1 s k W) W.

Lemma in_ex p W : existsb (N.eqb p) W = true -> In p W.
Proof. rewrite existsb_exists. intros (x & H & E). apply N.eqb_eq in E. subst; auto. Qed.

Lemma trap_child s k W : forallb (trap1 s k W) W = true ->
  forall f p st, In p W ->
    run (search_child_node f k true (p :: st) 0%N) s = NoFuel \/
    exists v st', In v W /\ run (search_child_node f k true (p :: st) 0%N) s = Done (false, v :: st') s.
Proof.
  intros HW. rewrite forallb_forall in HW. induction f as [|f IH]; intros p st Hp; [left; reflexivity|].
  pose proof (HW p Hp) as T. unfold trap1 in T. cbn [search_child_node]. unfold load. cbn [bind run].
  destruct (s_tbl s p) as [c|]; [|discriminate]. apply andb_prop in T; destruct T as [T0 T]. apply negb_true_iff in T0. cbn [bind]. rewrite T0.
  destruct (dc_search_child c k true false) as [v|a| | |q|n|]; try discriminate.
  - right. exists v, (p :: st). split; [apply in_ex; auto|reflexivity].
  - apply andb_prop in T; destruct T as [T1 T2]. apply negb_true_iff in T1. rewrite T1. apply IH. apply in_ex; auto.
  - destruct (node_search_child n k true) as [v|]; [|discriminate].
    right. exists v, (p :: st). split; [apply in_ex; auto|reflexivity].
Qed.

Lemma trap_loop s k W : forallb (trap1 s k W) W = true ->
  forall f p st, In p W -> run (leaf_loop f k true (p :: st)) s = NoFuel.
Proof.
  intros HW. pose proof HW as HW'. rewrite forallb_forall in HW'.
  induction f as [|f IH]; intros p st Hp; [reflexivity|].
  pose proof (HW' p Hp) as T. unfold trap1 in T. cbn [leaf_loop]. unfold load. cbn [bind run].
  destruct (s_tbl s p) as [c|]; [|discriminate]. apply andb_prop in T; destruct T as [T _].
  apply negb_true_iff in T. cbn [bind]. rewrite T. rewrite run_bind.
  destruct (trap_child s k W HW f p st Hp) as [E|(v & st' & Hv & E)]; rewrite E; [reflexivity|].
  apply IH; auto.
Qed.

Definition on_key (k : key) (o : call) : Prop :=
  match o with KRead x | KWrite x _ | KInsert x _ | KUpdate x _ | KDelete x => x = k end.

Lemma trap_call g s k W : trap s k W = true ->
  forall o fuel, on_key k o -> run (call_prog g fuel o) s = NoFuel.
Proof.
  intros T o fuel Ho. unfold trap in T. apply andb_prop in T. destruct T as [T1 T2].
  assert (E : run (search_leaf fuel k true) s = NoFuel).
  { unfold search_leaf. cbn [run]. apply (trap_loop s k W T2). apply in_ex; auto. }
  destruct o; cbn [on_key] in Ho; subst; cbn [call_prog];
    unfold op_read, op_write, op_insert, op_update, op_delete; rewrite !run_bind, E; reflexivity.
Qed.

Definition idle (th : thread) : bool := match th with TIdle [] => true | _ => false end.
Definition good (e : event) : bool :=
  match e with ERes _ (RCode Success) => true | ERes _ _ => false | EInv _ _ => true end.

Definition witness_ok (c : cst) (h : list event) (k : key) (W : list pid) : bool :=
  forallb idle (c_thr c) && forallb good h && trap (c_mem c) k W.

Lemma live_ref g fuel todos sch k W :
  witness_ok (fst (exec g fuel (start (init g) todos) sch)) (snd (exec g fuel (start (init g) todos) sch)) k W = true ->
  (forall th, In th (c_thr (fst (exec g fuel (start (init g) todos) sch))) -> th = TIdle []) /\
  (forall t r, In (ERes t r) (snd (exec g fuel (start (init g) todos) sch)) -> r = RCode Success) /\
  (forall o f, on_key k o -> run (call_prog g f o) (c_mem (fst (exec g fuel (start (init g) todos) sch))) = NoFuel).
Proof.
  generalize (exec g fuel (start (init g) todos) sch). intros [c h]. cbn [fst snd]. unfold witness_ok.
  intros E. apply andb_prop in E. destruct E as [E T]. apply andb_prop in E. destruct E as [E1 E2].
  rewrite forallb_forall in E1, E2. repeat split.
  - intros th Hth. apply E1 in Hth. unfold idle in Hth. destruct th as [[|]|]; try discriminate. auto.
  - intros t r Hr. apply E2 in Hr. cbn [good] in Hr. destruct r as [|[]]; try discriminate; auto.
  - exact (trap_call g _ k W T).
Qed.

Lemma alone_returns g os o : cfg_ok g -> exists F s r s', forall f, (F <= f)%nat ->
  run_calls g f os (init g) = Done (fst (spec_run sempty os)) s /\ run (call_prog g f o) s = Done r s'.
Proof.
  intros OK. destruct (calls_ok g OK os (init g) sempty (init_tree g OK)) as (F & s & T & H).
  destruct (evp_done _ _ _ (call_ok g OK s _ o T)) as (r & s1 & _ & F1 & H1).
  exists (max F F1), s, r, s1. intros f Hf. split; [apply H|apply H1]; lia.
Qed.
