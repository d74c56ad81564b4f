(** Specification of scans that run next to other calls. *)
From Coq Require Import ZArith NArith List Bool Sorting.Sorted.
From Verif Require Import Config Api Page Machine Tree Spec ScanSpec ConcSpec Client.
Import ListNotations.

(** The [i]-th map of [log] gives [k] the value [v]. *)
Definition seen (log : list smap) (i : nat) (k : key) (v : option val) : Prop :=
  exists M, nth_error log i = Some M /\ M k = v.

(** [l] is what an iteration over the interval [b], [e] may have returned so far, if
    [log] lists the contents of the tree from the call of Scan until now; [fin]: it has
    ended.  Keys ascend; each key of the interval up to the last one returned (all of
    them, at the end) has been looked up once, at the instant [at_ k], smaller keys no
    later than larger ones, and [l] holds what was found then.  The key of an excluded
    begin bound may be returned as well (C13). *)
Definition scan_ok (b e : bound) (log : list smap) (l : list (key * val)) (fin : bool) : Prop :=
  StronglySorted (fun x y => (fst x < fst y)%Z) l /\
  exists at_ : key -> nat,
    (forall k, (at_ k < length log)%nat) /\
    (forall k k', (k <= k')%Z -> (at_ k <= at_ k')%nat) /\
    (forall k v, In (k, v) l ->
       (after b k \/ b = Some (k, false)) /\ before e k /\ seen log (at_ k) k (Some v)) /\
    (forall k, after b k -> before e k -> fin = true \/ (exists x, In x l /\ (k <= fst x)%Z) ->
       ~ In k (map fst l) -> seen log (at_ k) k None).

(** Statistics: the first level has one page, the root; each further level has at least one. *)
Definition stat_ok (l : list (Z * Z * Z)) : Prop :=
  match l with
  | [] => False
  | root :: below => fst (fst root) = 1%Z /\ Forall (fun e => (1 <= fst (fst e))%Z) below
  end.

(** What is known of a thread: its point call in progress; the interval of its iterator,
    the contents of the tree since Scan was called, and the records returned. *)
Record view := mk_view { v_call : status; v_cur : option (bound * bound * list smap * list (key * val)) }.
Definition vset (f : tid -> view) (t : tid) (x : view) : tid -> view :=
  fun u => if Nat.eqb u t then x else f u.
(** The map has become [M]. *)
Definition observe (M : smap) (f : tid -> view) : tid -> view :=
  fun u => mk_view (v_call (f u))
    match v_cur (f u) with
    | Some (b, e, log, l) => Some (b, e, log ++ [M], l)
    | None => None
    end.

(** One step of thread [t] that emits the events [h]. *)
Inductive keffect (t : tid) : smap -> (tid -> view) -> list kevent -> smap -> (tid -> view) -> Prop :=
| ke_inv M f o : v_call (f t) = SIdle ->
    keffect t M f [VInv t (QCall o)] M (vset f t (mk_view (SPend o) (v_cur (f t))))
| ke_call M f o : v_call (f t) = SPend o ->
    keffect t M f [] (snd (spec M o)) (vset f t (mk_view (SDone (fst (spec M o))) (v_cur (f t))))
| ke_res M f r : v_call (f t) = SDone r ->
    keffect t M f [VRes t (ACall r)] M (vset f t (mk_view SIdle (v_cur (f t))))
| ke_none M f : keffect t M f [] M f
| ke_open M f b e :
    keffect t M f [VInv t (QOpen b e)] M (vset f t (mk_view (v_call (f t)) (Some (b, e, [M], []))))
| ke_opened M f : keffect t M f [VRes t AOpen] M f
| ke_next M f : keffect t M f [VInv t QNext] M f
| ke_rec M f b e log l r : v_cur (f t) = Some (b, e, log, l) -> scan_ok b e log (l ++ [r]) false ->
    keffect t M f [VRes t (ARec r)] M (vset f t (mk_view (v_call (f t)) (Some (b, e, log, l ++ [r]))))
| ke_end M f b e log l : v_cur (f t) = Some (b, e, log, l) -> scan_ok b e log l true ->
    keffect t M f [VRes t AEnd] M f
| ke_noiter M f : v_cur (f t) = None -> keffect t M f [VRes t AEnd] M f
| ke_stat M f drec : keffect t M f [VInv t (QStat drec)] M f
| ke_stats M f l : stat_ok l -> keffect t M f [VRes t (AStat l)] M f.

(** In every state along the schedule Reads report a map; the maps of consecutive states
    are related by [keffect]. *)
Inductive kexplained (g : cfg) (fuel : nat) : kst -> smap -> (tid -> view) -> list (tid * bool) -> Prop :=
| kx_nil c M f : reads_as g (k_mem c) M -> kexplained g fuel c M f []
| kx_step c M f t b sch c' h M' f' : reads_as g (k_mem c) M ->
    kstep g fuel c t b = (c', h) -> keffect t M f h M' f' ->
    kexplained g fuel c' M' (observe M' f') sch -> kexplained g fuel c M f ((t, b) :: sch).

Definition no_view (_ : tid) : view := mk_view SIdle None.
