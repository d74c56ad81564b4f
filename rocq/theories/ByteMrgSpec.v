(** Executions on bytes along which the root node stays in place, and shallow trees on
    bytes.  Definitions only. *)
From Coq Require Import ZArith NArith List Bool.
From Verif Require Import Config Machine Bytes ByteCons ByteFind ByteTree ByteScan.
Import ListNotations.

Section Root.
Context {P D : Type}.
Variable C : klass P D.
(** The high key of a node: that of the page merged in last, or of its only page. *)
Fixpoint x_high (x : bchain (tpage P) (tdelta D)) : option (list N) :=
  match x with
  | BBase p | BMerge _ p _ => q_high (k_find C (tp_inner p)) (tp_body p)
  | BRec _ nx => x_high nx
  end.
(** The root word is [r], and that node is neither removed nor split. *)
Definition xroot_in_place (r : pid) (s : xst (tchain P D)) : Prop :=
  x_root s = r /\ exists x, x_tbl s r = Some (TLive x) /\ x_high x = None.
Definition xroot_in_place_b (r : pid) (s : xst (tchain P D)) : bool :=
  N.eqb (x_root s) r &&
  match x_tbl s r with Some (TLive x) => match x_high x with None => true | Some _ => false end | _ => false end.

(** The root is a leaf or has leaves below it. *)
Definition x_two_levels (s : xst (tchain P D)) : Prop :=
  forall b, x_tbl s (x_root s) = Some b -> x_leaf C b = true \/
    exists x d, b = TLive x /\ x_tbl s (b_leftmost C x) = Some d /\ x_leaf C d = true.
Definition x_two_levels_b (s : xst (tchain P D)) : bool :=
  match x_tbl s (x_root s) with
  | None => true
  | Some b => x_leaf C b ||
      match b with
      | TLive x => match x_tbl s (b_leftmost C x) with Some d => x_leaf C d | None => false end
      | TGone _ _ => false
      end
  end.

Variables (lt : list N -> list N -> bool) (g : cfg) (pmem : P -> mem) (stat_mem junk : addr -> mem) (fuel : nat).
(** In every state the schedule goes through. *)
Definition xroot_stays (r : pid) (c : @bkst P D) (sch : list (nat * bool)) : Prop :=
  forall pre post, sch = pre ++ post -> xroot_in_place r (bk_mem (fst (bkexec C lt g pmem stat_mem junk fuel c pre))).
Fixpoint xroot_stays_b (r : pid) (c : @bkst P D) (sch : list (nat * bool)) : bool :=
  xroot_in_place_b r (bk_mem c) &&
  match sch with
  | [] => true
  | (t, b) :: q => xroot_stays_b r (fst (bkstep C lt g pmem stat_mem junk fuel c t b)) q
  end.
End Root.
