(** The programs of Tree.v over a release/acquire memory with relaxed accesses.

    Every atomic word (mapping-table slot, root_, payload cell of an index-delete
    delta) is a set of messages; a message carries the interval of time stamps it
    occupies in the modification order of its word and the view it releases.  A
    thread has a view: for each word the oldest message it may still read.
    - Load of a slot: acquire (logical_ptr.hpp:72).
    - Store to a slot: release (logical_ptr.hpp:89).
    - Clear of a slot: relaxed (logical_ptr.hpp:99).
    - CASWeak/CASStrong: release on success, relaxed on failure
      (logical_ptr.hpp:126-129, 155-158).
    - root_: relaxed load (bw_tree.hpp:798, 833, 855, 882, 1412), relaxed store
      (1421), relaxed compare-and-swap (1574).
    - payload cell: relaxed load and store (fixlen/delta_record.hpp:140, 411, 429,
      varlen/delta_record.hpp:153, 454, 472).
    With [strong = true] the accesses to root_ and to the payload cells are release
    and acquire instead; the code corresponds to [strong = false].

    The counter of page IDs is advanced by a compare-and-swap and never hands out an
    ID twice (mapping_table.hpp:124-165, C18); it transfers no view.  The constructor
    of the tree (bw_tree.hpp:102-115) happens before all calls. *)
From Coq Require Import ZArith NArith List Bool.
From Verif Require Import Config Api Page Machine Tree Spec Conc.
Import ListNotations.
Open Scope N_scope.

Inductive loc := LSlot (p : pid) | LRoot | LCell (a : addr).
Definition loc_eqb (x y : loc) : bool :=
  match x, y with
  | LSlot p, LSlot q => p =? q
  | LRoot, LRoot => true
  | LCell a, LCell b => a =? b
  | _, _ => false
  end.

(** Contents of a word: a page or null, or a page ID. *)
Inductive wval := WPage (c : option chain) | WPid (p : pid).

Definition view := loc -> N.
Definition vbot : view := fun _ => 0.
Definition vset (v : view) (l : loc) (t : N) : view := fun x => if loc_eqb x l then t else v x.
Definition vjoin (v w : view) : view := fun x => N.max (v x) (w x).

Record msg := mk_msg { m_loc : loc; m_from : N; m_to : N; m_val : wval; m_view : view }.

(** The value every word has from the start, at time stamp 0. *)
Definition init_msg (l : loc) : msg :=
  mk_msg l 0 0 (match l with LSlot _ => WPage None | _ => WPid 0 end) vbot.

Record wmem := mk_wmem { w_msgs : list msg; w_npid : pid; w_naddr : addr; w_gc : list addr }.

(** The message of word [l] with time stamp [t]. *)
Definition find_msg (M : wmem) (l : loc) (t : N) : option msg :=
  match find (fun m => loc_eqb (m_loc m) l && (m_to m =? t)) (w_msgs M) with
  | Some m => Some m
  | None => if t =? 0 then Some (init_msg l) else None
  end.
(** The interval (f, t] of word [l] is free. *)
Definition free_at (M : wmem) (l : loc) (f t : N) : bool :=
  (f <? t) &&
  forallb (fun m => negb (loc_eqb (m_loc m) l) || (m_to m <=? f) || (t <=? m_from m)) (w_msgs M).
Definition add_msg (M : wmem) (m : msg) : wmem :=
  mk_wmem (m :: w_msgs M) (w_npid M) (w_naddr M) (w_gc M).

(** What the scheduler chooses: the time stamp of the message read, the interval of
    the message written, a spurious failure. *)
Record choice := mk_choice { h_rd : N; h_from : N; h_to : N; h_spur : bool }.

(** A read of [l]: the message and the new view. *)
Definition rd_view (acq : bool) (v : view) (m : msg) : view :=
  let v1 := vset v (m_loc m) (N.max (v (m_loc m)) (m_to m)) in
  if acq then vjoin v1 (m_view m) else v1.
Definition do_read (M : wmem) (acq : bool) (v : view) (l : loc) (t : N) : option (wval * view) :=
  if v l <=? t then
    match find_msg M l t with
    | Some m => Some (m_val m, rd_view acq v m)
    | None => None
    end
  else None.
(** A write of [x] to [l]. *)
Definition do_write (M : wmem) (rel : bool) (v : view) (l : loc) (f t : N) (x : wval)
    : option (wmem * view) :=
  if (v l <? t) && free_at M l f t then
    let v1 := vset v l t in
    Some (add_msg M (mk_msg l f t x (if rel then v1 else vset vbot l t)), v1)
  else None.
(** A successful compare-and-swap: reads the message at [f] and writes right behind
    it; the new message also releases what the message it replaces did. *)
Definition do_rmw (M : wmem) (acq rel : bool) (v : view) (l : loc) (f t : N) (x : wval)
    : option (wval * wmem * view) :=
  if (v l <=? f) && free_at M l f t then
    match find_msg M l f with
    | Some m =>
        let v1 := vset (if acq then vjoin v (m_view m) else v) l t in
        Some (m_val m, add_msg M (mk_msg l f t x
                (vjoin (m_view m) (if rel then v1 else vset vbot l t))), v1)
    | None => None
    end
  else None.

Definition holds (x : wval) (e : addr) : bool :=
  match x with WPage (Some c) => h_addr c =? e | _ => false end.

(** One step of a program; [None]: stopped, or a choice the memory does not allow. *)
Definition wstep {A} (strong : bool) (m : prog A) (h : choice) (M : wmem) (v : view)
    : option (prog A * wmem * view) :=
  match m with
  | Ret _ | UB _ | Fuel => None
  | Load p k =>
      match do_read M true v (LSlot p) (h_rd h) with
      | Some (WPage (Some c), v') => Some (k c, M, v')
      | Some (_, v') => Some (UB UbNull, M, v')
      | None => None
      end
  | Store p c k =>
      match do_write M true v (LSlot p) (h_from h) (h_to h) (WPage (Some c)) with
      | Some (M', v') => Some (k, M', v')
      | None => None
      end
  | Clear p k =>
      match do_write M false v (LSlot p) (h_from h) (h_to h) (WPage None) with
      | Some (M', v') => Some (k, M', v')
      | None => None
      end
  | Cas w p e c k =>
      match do_rmw M false true v (LSlot p) (h_from h) (h_to h) (WPage (Some c)) with
      | Some (x, M', v') =>
          if holds x e && negb (w && h_spur h) then Some (k true, M', v') else
          match do_read M false v (LSlot p) (h_rd h) with
          | Some (y, v1) => if holds y e && negb (w && h_spur h) then None else Some (k false, M, v1)
          | None => None
          end
      | None =>
          match do_read M false v (LSlot p) (h_rd h) with
          | Some (y, v1) => if holds y e && negb (w && h_spur h) then None else Some (k false, M, v1)
          | None => None
          end
      end
  | LoadRoot k =>
      match do_read M strong v LRoot (h_rd h) with
      | Some (WPid r, v') => Some (k r, M, v')
      | _ => None
      end
  | StoreRoot p k =>
      match do_write M strong v LRoot (h_from h) (h_to h) (WPid p) with
      | Some (M', v') => Some (k, M', v')
      | None => None
      end
  | CasRoot o n k =>
      match do_rmw M strong strong v LRoot (h_from h) (h_to h) (WPid n) with
      | Some (WPid x, M', v') =>
          if x =? o then Some (k true, M', v') else
          match do_read M strong v LRoot (h_rd h) with
          | Some (WPid y, v1) => if y =? o then None else Some (k false, M, v1)
          | _ => None
          end
      | _ =>
          match do_read M strong v LRoot (h_rd h) with
          | Some (WPid y, v1) => if y =? o then None else Some (k false, M, v1)
          | _ => None
          end
      end
  | NewPid k => Some (k (w_npid M), mk_wmem (w_msgs M) (w_npid M + 1) (w_naddr M) (w_gc M), v)
  | Alloc k => Some (k (w_naddr M), mk_wmem (w_msgs M) (w_npid M) (w_naddr M + 1) (w_gc M), v)
  | LoadCell a k =>
      match do_read M strong v (LCell a) (h_rd h) with
      | Some (WPid p, v') => Some (k p, M, v')
      | _ => None
      end
  | StoreCell a p k =>
      match do_write M strong v (LCell a) (h_from h) (h_to h) (WPid p) with
      | Some (M', v') => Some (k, M', v')
      | None => None
      end
  | Retire l k => Some (k, mk_wmem (w_msgs M) (w_npid M) (w_naddr M) (w_gc M ++ l), v)
  end.

Record wcst := mk_wcst { wc_mem : wmem; wc_thr : list (thread * view) }.

(** One scheduled step of thread [t], as [cstep] of Conc.v. *)
Definition wcstep (strong : bool) (g : cfg) (fuel : nat) (c : wcst) (t : tid) (h : choice)
    : wcst * list event :=
  match nth_error (wc_thr c) t with
  | None => (c, [])
  | Some (th, v) =>
      let put M th' v' := mk_wcst M (firstn t (wc_thr c) ++ (th', v') :: skipn (S t) (wc_thr c)) in
      match th with
      | TIdle [] => (c, [])
      | TIdle (o :: r) => (put (wc_mem c) (TRun (call_prog g fuel o) r) v, [EInv t o])
      | TRun (Ret x) r => (put (wc_mem c) (TIdle r) v, [ERes t x])
      | TRun m r =>
          match wstep strong m h (wc_mem c) v with
          | Some (m', M', v') => (put M' (TRun m' r) v', [])
          | None => (c, [])
          end
      end
  end.
Fixpoint wexec (strong : bool) (g : cfg) (fuel : nat) (c : wcst) (sch : list (tid * choice))
    : wcst * list event :=
  match sch with
  | [] => (c, [])
  | (t, h) :: r =>
      let '(c1, h1) := wcstep strong g fuel c t h in
      let '(c2, h2) := wexec strong g fuel c1 r in (c2, h1 ++ h2)
  end.

(** bw_tree.hpp:102-115: an empty leaf under page ID 1, the root; every thread has
    seen it. *)
Definition winit (g : cfg) : wmem :=
  mk_wmem [mk_msg LRoot 0 1 (WPid 1) vbot;
           mk_msg (LSlot 1) 0 1 (WPage (Some (CBase (empty_leaf g 1)))) vbot] 2 2 [].
Definition view0 : view := vset (vset vbot LRoot 1) (LSlot 1) 1.
Definition wstart (g : cfg) (todos : list (list call)) : wcst :=
  mk_wcst (winit g) (map (fun l => (TIdle l, view0)) todos).
Definition wcrashed (c : wcst) : Prop :=
  exists u r v, In (TRun (UB u) r, v) (wc_thr c).
