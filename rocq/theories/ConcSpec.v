(** Specification of the concurrent properties beyond linearizability. *)
From Coq Require Import ZArith NArith List Bool.
From Verif Require Import Config Api Page Machine Tree Spec Conc.
Import ListNotations.

(** ** Abstract values along an execution *)

(** What a Read issued now and running alone would report is the map [M]; it
    does not hit undefined behaviour either. *)
Definition reads_as (g : cfg) (s : st) (M : smap) : Prop :=
  forall fuel k, match run (op_read g fuel k) s with
                 | Done v _ => v = M k
                 | Crash _ => False
                 | NoFuel => True
                 end.

(** One step of thread [t] that emits the events [h]: only a call in progress
    that has not yet taken effect changes the map, as the specification says. *)
Inductive effect (t : tid) : smap -> (tid -> status) -> list event -> smap -> (tid -> status) -> Prop :=
| ef_inv M f o : f t = SIdle -> effect t M f [EInv t o] M (tset f t (SPend o))
| ef_res M f r : f t = SDone r -> effect t M f [ERes t r] M (tset f t SIdle)
| ef_none M f : effect t M f [] M f
| ef_call M f o : f t = SPend o ->
    effect t M f [] (snd (spec M o)) (tset f t (SDone (fst (spec M o)))).

(** In every state along the schedule, Reads report a map, and the maps of
    consecutive states are related by [effect]. *)
Inductive explained (g : cfg) (fuel : nat) : cst -> smap -> (tid -> status) -> list (tid * bool) -> Prop :=
| ex_nil c M f : reads_as g (c_mem c) M -> explained g fuel c M f []
| ex_step c M f t b sch c' h M' f' : reads_as g (c_mem c) M ->
    cstep g fuel c t b = (c', h) -> effect t M f h M' f' ->
    explained g fuel c' M' f' sch -> explained g fuel c M f ((t, b) :: sch).

(** ** Racing Inserts *)

Definition cset (f : tid -> option call) (t : tid) (x : option call) : tid -> option call :=
  fun u => if Nat.eqb u t then x else f u.
(** The call each thread has invoked and not yet returned from. *)
Fixpoint pending (f : tid -> option call) (h : list event) : tid -> option call :=
  match h with
  | [] => f
  | EInv t o :: r => pending (cset f t (Some o)) r
  | ERes t _ :: r => pending (cset f t None) r
  end.
Definition is_insert (k : key) (o : option call) : bool :=
  match o with Some (KInsert x _) => Z.eqb x k | _ => false end.
Definition is_success (r : ret) : bool := match r with RCode Success => true | _ => false end.
(** Inserts of [k] invoked in the history that returned kSuccess. *)
Fixpoint wins (k : key) (f : tid -> option call) (h : list event) : nat :=
  match h with
  | [] => 0
  | EInv t o :: r => wins k (cset f t (Some o)) r
  | ERes t x :: r => (if is_insert k (f t) && is_success x then 1 else 0) + wins k (cset f t None) r
  end.
Definition no_call (_ : tid) : option call := None.

(** ** Delta chains *)

(** Number of delta records in front of the base page. *)
Fixpoint deltas (c : chain) : Z :=
  match c with
  | CRec _ nx | CMerge _ _ nx => (deltas nx + 1)%Z
  | CBase _ | CRemove _ _ => 0%Z
  end.
