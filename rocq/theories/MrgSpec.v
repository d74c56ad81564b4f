(** Specification: executions along which the root node stays in place. *)
From Coq Require Import ZArith NArith List Bool.
From Verif Require Import Config Api Page Machine Tree Spec Conc ChainSpec Client.
Import ListNotations.

(** The root word is [r], and that node is neither removed nor split: no high key. *)
Definition root_in_place (r : pid) (s : st) : Prop :=
  s_root s = r /\ exists c, s_tbl s r = Some c /\ is_remove c = false /\ c_hi c = None.

(** It is so in every state the schedule goes through. *)
Definition root_stays (g : cfg) (fuel : nat) (r : pid) (c : cst) (sch : list (tid * bool)) : Prop :=
  forall pre post, sch = pre ++ post -> root_in_place r (c_mem (fst (exec g fuel c pre))).

(** The same as a computation. *)
Definition root_in_place_b (r : pid) (s : st) : bool :=
  N.eqb (s_root s) r &&
  match s_tbl s r with
  | Some c => negb (is_remove c) && match c_hi c with None => true | Some _ => false end
  | None => false
  end.
Fixpoint root_stays_b (g : cfg) (fuel : nat) (r : pid) (c : cst) (sch : list (tid * bool)) : bool :=
  root_in_place_b r (c_mem c) &&
  match sch with
  | [] => true
  | (t, b) :: q => root_stays_b g fuel r (fst (cstep g fuel c t b)) q
  end.

(** Threads with iterators (Client.v). *)
Definition kroot_stays (g : cfg) (fuel : nat) (r : pid) (c : kst) (sch : list (tid * bool)) : Prop :=
  forall pre post, sch = pre ++ post -> root_in_place r (k_mem (fst (kexec g fuel c pre))).
Fixpoint kroot_stays_b (g : cfg) (fuel : nat) (r : pid) (c : kst) (sch : list (tid * bool)) : bool :=
  root_in_place_b r (k_mem c) &&
  match sch with
  | [] => true
  | (t, b) :: q => kroot_stays_b g fuel r (fst (kstep g fuel c t b)) q
  end.

(** The root is a leaf or has leaves below it. *)
Definition two_levels (s : st) : Prop :=
  forall c, s_tbl s (s_root s) = Some c -> h_leaf c = true \/
    exists p d, leftmost_child c = Some p /\ s_tbl s p = Some d /\ h_leaf d = true.
(** Every scan has a begin key. *)
Definition begins_given (todos : list (list req)) : Prop :=
  forall l b e, In l todos -> In (QOpen b e) l -> b <> None.
