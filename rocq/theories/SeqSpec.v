(** The shape of a quiescent tree: levels of nodes, bottom level first.
    Definitions only. *)
From Coq Require Import ZArith NArith List Bool.
From Coq Require Import Sorting.Sorted.
From Verif Require Import Config Page Machine ListFacts ChainSpec Valid.
Import ListNotations.
Open Scope Z_scope.

(** Lower bounds of key ranges: [None] is minus infinity. *)
Definition olt (a b : option key) : Prop :=
  match a, b with
  | None, Some _ => True
  | Some x, Some y => x < y
  | _, None => False
  end.
Definition ole (a b : option key) : Prop :=
  match a, b with
  | None, _ => True
  | Some x, Some y => x <= y
  | Some _, None => False
  end.
Definition lob (a : option key) (k : key) : bool :=
  match a with Some x => x <=? k | None => true end.
Definition osorted (l : list (option key * val)) : Prop :=
  StronglySorted (fun x y => olt (fst x) (fst y)) l.

(** A level: its nodes from left to right with their current chains. *)
Definition level := list (pid * chain).
Definition lows (N : level) : list (option key * pid) := map (fun x => (c_lo (snd x), fst x)) N.
Definition ekey (l : list (key * val)) : list (option key * val) :=
  map (fun e => (Some (fst e), snd e)) l.
(** Content of a node: child pointers with their lower bounds, or records. *)
Definition cents (inner : bool) (c : chain) : list (option key * val) :=
  if inner then (c_lo c, ilead c) :: ekey (ients c) else ekey (lrecs c).
Definition flat_of (inner : bool) (N : level) : list (option key * val) :=
  flat_map (fun x => cents inner (snd x)) N.
Definition cwf (g : cfg) (inner : bool) (c : chain) : Prop := if inner then iwf g c else lwf g c.

Definition hlo (t : level) (eh : option key) : option key :=
  match t with (_, d) :: _ => c_lo d | [] => eh end.
Definition hpid (t : level) (ep : pid) : pid := match t with (q, _) :: _ => q | [] => ep end.
(** Neighbours: the high key and the sibling link of each node. *)
Fixpoint linked (N : level) (eh : option key) (ep : pid) : Prop :=
  match N with
  | [] => True
  | (_, c) :: t => c_hi c = hlo t eh /\ c_next c = hpid t ep /\ linked t eh ep
  end.

(** A node at rest: within its page and not due for consolidation. *)
Definition quiet (g : cfg) (c : chain) : Prop :=
  need_consolidation g c = false /\ h_size c <= c_page g.

Definition nopend : addr -> key -> Prop := fun _ _ => False.
(** [pend]: keys of index-delete deltas whose payload is still null. *)
Definition node_ok (g : cfg) (pend : addr -> key -> Prop) (s : st) (inner : bool) (x : pid * chain) : Prop :=
  s_tbl s (fst x) = Some (snd x) /\ cwf g inner (snd x) /\ quiet g (snd x) /\
  (inner = true -> iexact (snd x) /\ icells (s_cell s) pend (snd x)).

(** Levels above (and including) one whose content is [flat]; the root is alone on
    the topmost level. *)
Fixpoint up (g : cfg) (pend : addr -> key -> Prop) (s : st) (inner : bool)
    (flat : list (option key * val)) (lv : list level) : Prop :=
  match lv with
  | [] => inner = true /\ flat = [(None, s_root s)]
  | N :: lv' =>
      N <> [] /\ hlo N None = None /\ linked N None 0%N /\ osorted (lows N) /\
      Forall (node_ok g pend s inner) N /\
      flat_of inner N = flat /\ up g pend s true (lows N) lv'
  end.

Definition pids (lv : list level) : list pid := flat_map (map fst) lv.

(** Page IDs and cells not in use. *)
Definition glob (s : st) (lv : list level) : Prop :=
  NoDup (pids lv) /\ (0 < s_npid s)%N /\
  (forall p, In p (pids lv) -> (0 < p)%N /\ (p < s_npid s)%N) /\
  (forall p, (s_npid s <= p)%N -> s_tbl s p = None) /\
  (forall a, (s_naddr s <= a)%N -> s_cell s a = 0%N).

(** A removed node. *)
Definition dead (s : st) (p : pid) : Prop := exists a l, s_tbl s p = Some (CRemove a l).
Definition live (lv : list level) (i : nat) (p : pid) (lo : option key) : Prop :=
  exists N c, nth_error lv i = Some N /\ In (p, c) N /\ c_lo c = lo.

(** Traversal stacks: the i-th element is a node of the i-th level, or removed;
    lower bounds decrease towards the root. *)
Fixpoint okst (s : st) (lv : list level) (b : option key) (stk : list pid) : Prop :=
  match stk with
  | [] => True
  | p :: r =>
      exists lo, ole lo b /\
        (dead s p \/ exists N c, hd_error lv = Some N /\ In (p, c) N /\ c_lo c = lo) /\
        okst s (tl lv) lo r
  end.

(** [x] is the last entry of [flat] at or below [k]. *)
Definition at_ (flat : list (option key * val)) (k : key) (x : option key * val) : Prop :=
  exists f1 f2, flat = f1 ++ x :: f2 /\ lo_ok (fst x) k /\
    Forall (fun y => ~ lo_ok (fst y) k) f2.
Fixpoint osucc (k : key) (flat : list (option key * val)) : option key :=
  match flat with
  | [] => None
  | (lo, _) :: t => if lob lo k then osucc k t else lo
  end.
Fixpoint oins (k : key) (v : val) (flat : list (option key * val)) : list (option key * val) :=
  match flat with
  | [] => [(Some k, v)]
  | y :: t => if lob (fst y) k then y :: oins k v t else (Some k, v) :: y :: t
  end.
Definition isk (k : key) (y : option key * val) : bool :=
  match fst y with Some x => x =? k | None => false end.
Definition odel (k : key) (flat : list (option key * val)) : list (option key * val) :=
  filter (fun y => negb (isk k y)) flat.
Fixpoint ofind (k : key) (flat : list (option key * val)) : option val :=
  match flat with
  | [] => None
  | y :: t => if isk k y then Some (snd y) else ofind k t
  end.

(** What an operation on some levels leaves alone. *)
Definition frame (s : st) (lv : list level) (s' : st) : Prop :=
  (forall p, ~ In p (pids lv) -> (p < s_npid s)%N -> s_tbl s' p = s_tbl s p) /\
  (forall a, (a < s_naddr s)%N -> s_cell s' a = s_cell s a) /\
  (s_npid s <= s_npid s')%N /\ (s_naddr s <= s_naddr s')%N.
(** How levels evolve: nodes stay on their level with their lower bound, or die;
    new nodes have new IDs. *)
Definition evolve (s : st) (lv : list level) (s' : st) (lv' : list level) : Prop :=
  (forall i p lo, live lv i p lo -> live lv' i p lo \/ dead s' p) /\
  (forall p, In p (pids lv') -> In p (pids lv) \/ (s_npid s <= p)%N).
