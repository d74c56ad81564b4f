(** The tree operations of include/bw_tree/bw_tree.hpp over pages and delta records made
    of bytes: Tree.v once more, function by function, with the page and record classes of
    both layouts in place of the lists of Page.v.  Keys and values are byte strings, page
    IDs inside pages and records are eight bytes, and every new page or record is built
    on memory with arbitrary old content.

    Simplified: the header fields is_inner_, next_, rec_count_ and node_size_ are plain
    fields next to the bytes; the child pointer of an index-entry delete, which is written
    after publication, is a separate word as in Machine.v (C51: SetSiblingPID writes these
    eight bytes and nothing else). *)
From Coq Require Import ZArith NArith List Bool.
From Verif Require Import Config Api Page Machine Bytes FixLayout VarLayout DeltaBytes ByteCons ByteFind.
Import ListNotations.
Open Scope Z_scope.

(** ** Pages, records, chains *)

(** The address of a page, is_inner_, next_ and the rest of the page class. *)
Record tpage (P : Type) := mk_tpage { tp_addr : addr; tp_inner : bool; tp_next : pid; tp_body : P }.
Arguments mk_tpage {P}. Arguments tp_addr {P}. Arguments tp_inner {P}. Arguments tp_next {P}. Arguments tp_body {P}.
(** The address of a record, rec_count_, node_size_ and the rest of the record class. *)
Record tdelta (D : Type) := mk_tdelta { td_addr : addr; td_cnt : Z; td_size : Z; td_body : D }.
Arguments mk_tdelta {D}. Arguments td_addr {D}. Arguments td_cnt {D}. Arguments td_size {D}. Arguments td_body {D}.
(** A node as seen from its head pointer; [TGone]: a remove-node delta
    (fixlen/delta_record.hpp:147-154). *)
Inductive tchain (P D : Type) :=
| TLive (c : bchain (tpage P) (tdelta D))
| TGone (a : addr) (leaf : bool).
Arguments TLive {P D}. Arguments TGone {P D}.

(** The members of Node_t and Delta_t. *)
Record klass (P D : Type) := mk_klass {
  k_find : bool -> finder P D;                              (* accessors of a level *)
  k_try : bool -> mem -> mem -> bchain P D -> N -> bool -> bres P;  (* TryConsolidate *)
  k_new : mem -> P;                                         (* Node() *)
  k_root : mem -> list N -> list N -> list N -> P;          (* Node(split_d, left_pid) *)
  k_psize : P -> N;                                         (* node_size_ of a page *)
  k_put : mem -> dtype -> list N -> list N -> D;            (* insert/modify in a leaf *)
  k_del : mem -> list N -> D;                               (* delete in a leaf *)
  k_smo : mem -> dtype -> bool -> P -> list N -> D;         (* index-entry insert, merge *)
  k_idel : mem -> P -> D;                                   (* index-entry delete *)
  k_type : D -> dtype -> D;                                 (* SetDeltaType *)
  k_dinner : D -> bool                                      (* is_inner_ of a record *)
}.
Arguments mk_klass {P D}. Arguments k_find {P D}. Arguments k_try {P D}. Arguments k_new {P D}.
Arguments k_root {P D}. Arguments k_psize {P D}. Arguments k_put {P D}. Arguments k_del {P D}.
Arguments k_smo {P D}. Arguments k_idel {P D}. Arguments k_type {P D}. Arguments k_dinner {P D}.

(** varlen: node.hpp, delta_record.hpp (SetDeltaType 454-458); [lt] is Comp, [lps] is
    sizeof(Payload). *)
Definition var_klass (page lps : N) (lt : list N -> list N -> bool) : klass vpage vdelta := mk_klass
  (fun inner => var_finder (if inner then 8%N else lps))
  (fun inner => var_try page inner lt)
  (var_new page) (var_root page) vp_size
  vard_put vard_del vard_smo vard_idel
  (fun d t => mk_vdelta (vd_mem d) (vd_inner d) t (vd_meta d) (vd_high d))
  vd_inner.
(** fixlen. *)
Definition fix_klass (L : flay) (lps : N) (lt : list N -> list N -> bool) : klass fnode fdelta := mk_klass
  (fun inner => fix_finder L (if inner then 8%N else lps))
  (fun inner => fix_try L (if inner then 8%N else lps) inner lt)
  (fixn_new L)
  (fun m k l r => mk_fnode (fix_root L m k l r) false false)
  (fun n => fp_size (fn_page n))
  (fixd_put L) (fixd_del L) (fixd_smo L) (fixd_idel L)
  (fun d t => mk_fdelta (fd_mem d) (fd_inner d) t (fd_haslow d) (fd_hashigh d))
  fd_inner.

(** ** Programs, as in Machine.v; [CH] is the type of chains.  A new page or record
    comes with the old content of its memory. *)
Inductive xprog (CH A : Type) : Type :=
| XRet (a : A)
| XLoad (p : pid) (k : CH -> xprog CH A)
| XStore (p : pid) (c : CH) (k : xprog CH A)
| XClear (p : pid) (k : xprog CH A)
| XCas (weak : bool) (p : pid) (e : addr) (c : CH) (k : bool -> xprog CH A)
| XLoadRoot (k : pid -> xprog CH A)
| XStoreRoot (p : pid) (k : xprog CH A)
| XCasRoot (old new : pid) (k : bool -> xprog CH A)
| XNewPid (k : pid -> xprog CH A)
| XAlloc (k : addr -> mem -> xprog CH A)
| XLoadCell (a : addr) (k : pid -> xprog CH A)
| XStoreCell (a : addr) (p : pid) (k : xprog CH A)
| XRetire (l : list addr) (k : xprog CH A)
| XUB (u : ub)
| XFuel.
Arguments XRet {CH A} a. Arguments XLoad {CH A} p k. Arguments XStore {CH A} p c k. Arguments XClear {CH A} p k.
Arguments XCas {CH A} weak p e c k. Arguments XLoadRoot {CH A} k. Arguments XStoreRoot {CH A} p k.
Arguments XCasRoot {CH A} old new k. Arguments XNewPid {CH A} k. Arguments XAlloc {CH A} k.
Arguments XLoadCell {CH A} a k. Arguments XStoreCell {CH A} a p k. Arguments XRetire {CH A} l k.
Arguments XUB {CH A} u. Arguments XFuel {CH A}.

Fixpoint xbind {CH A B} (m : xprog CH A) (f : A -> xprog CH B) : xprog CH B :=
  match m with
  | XRet a => f a
  | XLoad p k => XLoad p (fun c => xbind (k c) f)
  | XStore p c k => XStore p c (xbind k f)
  | XClear p k => XClear p (xbind k f)
  | XCas w p e c k => XCas w p e c (fun b => xbind (k b) f)
  | XLoadRoot k => XLoadRoot (fun r => xbind (k r) f)
  | XStoreRoot p k => XStoreRoot p (xbind k f)
  | XCasRoot o n k => XCasRoot o n (fun b => xbind (k b) f)
  | XNewPid k => XNewPid (fun p => xbind (k p) f)
  | XAlloc k => XAlloc (fun a m => xbind (k a m) f)
  | XLoadCell a k => XLoadCell a (fun p => xbind (k p) f)
  | XStoreCell a p k => XStoreCell a p (xbind k f)
  | XRetire l k => XRetire l (xbind k f)
  | XUB u => XUB u
  | XFuel => XFuel
  end.

Declare Scope xprog_scope.
Notation "x <- m ;; k" := (xbind m (fun x => k))
  (at level 61, m at next level, right associativity) : xprog_scope.
Notation "' p <- m ;; k" := (xbind m (fun x => match x with p => k end))
  (at level 61, p pattern, m at next level, right associativity) : xprog_scope.
Open Scope xprog_scope.

Record xst (CH : Type) := mk_xst {
  x_tbl : pid -> option CH; x_root : pid; x_npid : pid; x_naddr : addr;
  x_cell : addr -> pid; x_gc : list addr }.
Arguments mk_xst {CH}. Arguments x_tbl {CH}. Arguments x_root {CH}. Arguments x_npid {CH}.
Arguments x_naddr {CH}. Arguments x_cell {CH}. Arguments x_gc {CH}.

(** One atomic step, as [pstep]; [junk a] is the old content of the memory handed out
    under address [a], [hd] the address of the head of a chain. *)
Definition xstep {CH A} (hd : CH -> addr) (junk : addr -> mem) (m : xprog CH A) (spur : bool) (s : xst CH)
    : option (xprog CH A * xst CH) :=
  let put p c := mk_xst (upd (x_tbl s) p (Some c)) (x_root s) (x_npid s) (x_naddr s) (x_cell s) (x_gc s) in
  let root p := mk_xst (x_tbl s) p (x_npid s) (x_naddr s) (x_cell s) (x_gc s) in
  match m with
  | XRet _ | XUB _ | XFuel => None
  | XLoad p k => match x_tbl s p with Some c => Some (k c, s) | None => Some (XUB UbNull, s) end
  | XStore p c k => Some (k, put p c)
  | XClear p k => Some (k, mk_xst (upd (x_tbl s) p None) (x_root s) (x_npid s) (x_naddr s) (x_cell s) (x_gc s))
  | XCas w p e c k =>
      if match x_tbl s p with
         | Some c0 => (hd c0 =? e)%N && negb (w && spur)
         | None => false
         end
      then Some (k true, put p c) else Some (k false, s)
  | XLoadRoot k => Some (k (x_root s), s)
  | XStoreRoot p k => Some (k, root p)
  | XCasRoot o n k => if (x_root s =? o)%N then Some (k true, root n) else Some (k false, s)
  | XNewPid k => Some (k (x_npid s),
      mk_xst (x_tbl s) (x_root s) (x_npid s + 1)%N (x_naddr s) (x_cell s) (x_gc s))
  | XAlloc k => Some (k (x_naddr s) (junk (x_naddr s)),
      mk_xst (x_tbl s) (x_root s) (x_npid s) (x_naddr s + 1)%N (x_cell s) (x_gc s))
  | XLoadCell a k => Some (k (x_cell s a), s)
  | XStoreCell a p k => Some (k,
      mk_xst (x_tbl s) (x_root s) (x_npid s) (x_naddr s) (upd (x_cell s) a p) (x_gc s))
  | XRetire l k => Some (k,
      mk_xst (x_tbl s) (x_root s) (x_npid s) (x_naddr s) (x_cell s) (x_gc s ++ l))
  end.

(** ** The tree *)
Section Tree.
Context {P D : Type}.
Variable C : klass P D.
Variable lt : list N -> list N -> bool.
Variable g : cfg.

Notation ch := (tchain P D).
Notation pg := (tpage P).
Notation rec := (tdelta D).
Notation xp := (xprog ch).

(** The accessors with the header fields left aside.  [r_child] is not used: see
    [xsearch_child]. *)
Definition t_find (inner : bool) : finder pg rec :=
  let F := k_find C inner in
  mk_finder
    (fun p => q_cnt F (tp_body p)) (fun p => q_lm F (tp_body p)) (fun p => q_low F (tp_body p))
    (fun p => q_high F (tp_body p)) (fun p => q_key F (tp_body p)) (fun p => q_pay F (tp_body p))
    (fun d => r_type F (td_body d)) (fun d => r_key F (td_body d)) (fun d => r_high F (td_body d))
    (fun d => r_pay F (td_body d)) (fun d => le 8 (td_addr d)).

Fixpoint bodies (c : bchain pg rec) : bchain P D :=
  match c with
  | BBase p => BBase (tp_body p)
  | BRec d nx => BRec (td_body d) (bodies nx)
  | BMerge d p nx => BMerge (td_body d) (tp_body p) (bodies nx)
  end.

Definition x_addr (c : ch) : addr :=
  match c with
  | TLive (BBase p) => tp_addr p
  | TLive (BRec d _) | TLive (BMerge d _ _) => td_addr d
  | TGone a _ => a
  end.
Definition x_leaf (c : ch) : bool :=
  match c with
  | TLive (BBase p) => negb (tp_inner p)
  | TLive (BRec d _) | TLive (BMerge d _ _) => negb (k_dinner C (td_body d))
  | TGone _ l => l
  end.
Definition x_size (c : ch) : Z :=
  match c with
  | TLive (BBase p) => Z.of_N (k_psize C (tp_body p))
  | TLive (BRec d _) | TLive (BMerge d _ _) => td_size d
  | TGone _ _ => 0
  end.
Definition x_base (c : ch) : bool := match c with TLive (BBase _) => true | _ => false end.
Definition x_cnt (c : ch) : Z :=
  match c with
  | TLive (BBase p) => Z.of_N (q_cnt (k_find C (tp_inner p)) (tp_body p))
  | TLive (BRec d _) | TLive (BMerge d _ _) => td_cnt d
  | TGone _ _ => 0
  end.

(** fixlen/delta_record.hpp:244-262, 352-360. *)
Definition x_need_cons (c : ch) : bool :=
  negb (x_base c) && ((c_thr g <=? x_cnt c) || (c_page g <? x_size c)).
Definition x_need_wait (c : ch) : bool :=
  negb (x_base c) && ((c_maxd g <=? x_cnt c) || (c_page g <? x_size c)).
Definition x_rec (a : addr) (b : D) (nx : ch) (diff : Z) : rec :=
  mk_tdelta a (if x_base nx then 1 else x_cnt nx + 1) (x_size nx + diff) b.

(** Bytes of a record of a page (rec_len of bw_tree.hpp:274, 1362, 1527). *)
Definition x_recsz (ps : Z) (k : list N) : Z :=
  if c_varlen g then Z.of_N (blen k) + ps + 8 else c_ksize g + ps.
(** GetNodeDiff: fixlen/node.hpp:156-161, varlen/node.hpp:160-166. *)
Definition x_diff (p : pg) : Z :=
  let F := t_find (tp_inner p) in
  let low := if c_varlen g then if q_lm F p then 0 else Z.of_N (blen (q_low F p)) else 0 in
  Z.of_N (k_psize C (tp_body p)) - c_hdr g - low * (1 + (if tp_inner p then 0 else 1)).

(** delta_chain.hpp:65-127; [TWait]: the index-entry delete whose child pointer has to
    be loaded. *)
Inductive tres := TFound (v : list N) | TWait (a : addr) | TSib (p : pg) | TBase (p : pg) | TRemoved | TGarbage.
Fixpoint t_child_in (c : bchain pg rec) (k : list N) (closed smo : bool) : tres :=
  let F := t_find true in
  match c with
  | BRec d nx =>
      let hit := b_low_le lt (r_key F d) k closed && b_high_ge lt (r_high F d) k (negb closed) in
      match r_type F d with
      | DInsert => if hit then TFound (r_pay F d) else t_child_in nx k closed smo
      | DDelete => if hit then TWait (td_addr d) else t_child_in nx k closed smo
      | _ => TGarbage
      end
  | BMerge d p nx =>
      if b_low_le lt (r_key F d) k closed then
        if negb smo && negb (b_high_ge lt (r_high F d) k (negb closed)) then TSib p else TBase p
      else t_child_in nx k closed true
  | BBase p => if negb smo && negb (b_high_ge lt (q_high F p) k (negb closed)) then TSib p else TBase p
  end.
Definition t_child (c : ch) (k : list N) (closed : bool) : tres :=
  match c with TLive b => t_child_in b k closed false | TGone _ _ => TRemoved end.

(** delta_chain.hpp:215-288 with the high key that HighKeyIsGE leaves in the thread-local
    buffer, see [mres] of Page.v. *)
Inductive tmres :=
| TMFound | TMAbort | TMRemoved | TMSib (p : pg) (high : option (list N))
| TMBase (p : pg) (key_found sib_found : bool) (high : option (list N)) | TMGarbage.
Fixpoint t_merge_in (c : bchain pg rec) (k : list N) (sib : option (list N)) (kf sf smo : bool) : tmres :=
  let F := t_find true in
  let is_sib x := match sib with Some s => b_same lt x s | None => false end in
  match c with
  | BRec d nx =>
      match r_type F d with
      | DInsert =>
          let hit := negb kf && b_same lt (r_key F d) k in
          if hit && sf then TMFound else
          let kf1 := kf || hit in
          let hit2 := negb sf && is_sib (r_key F d) in
          if hit2 && kf1 then TMFound else t_merge_in nx k sib kf1 (sf || hit2) smo
      | DDelete =>
          if negb kf && b_same lt (r_key F d) k then TMAbort else
          if negb sf && is_sib (r_key F d) then TMAbort else t_merge_in nx k sib kf sf smo
      | _ => TMGarbage
      end
  | BMerge d p nx =>
      if b_low_le lt (r_key F d) k true then
        if negb smo && negb kf then
          if b_high_ge lt (r_high F d) k false then TMBase p kf sf (r_high F d) else TMSib p (r_high F d)
        else TMBase p kf sf None
      else
        let hit2 := negb sf && is_sib (r_key F d) in
        if hit2 && kf then TMFound else t_merge_in nx k sib kf (sf || hit2) true
  | BBase p =>
      if negb kf then
        if negb (q_lm F p) && b_same lt (q_low F p) k then TMAbort else
        if negb smo then
          if b_high_ge lt (q_high F p) k false then TMBase p kf sf (q_high F p) else TMSib p (q_high F p)
        else TMBase p kf sf None
      else TMBase p kf sf None
  end.
Definition t_merge (c : ch) (k : list N) (sib : option (list N)) (sf : bool) : tmres :=
  match c with TLive b => t_merge_in b k sib false sf false | TGone _ _ => TMRemoved end.

Definition xload (p : pid) : xp ch := XLoad p XRet.
Definition xcas (w : bool) (p : pid) (e : addr) (c : ch) : xp bool := XCas w p e c XRet.
Definition xretire (l : list addr) : xp unit := XRetire l (XRet tt).

(** bw_tree.hpp:904-918. *)
Fixpoint xload_valid (fuel : nat) (p : pid) : xp ch :=
  match fuel with
  | O => XFuel
  | S f => c <- xload p ;; if x_need_wait c then xload_valid f p else XRet c
  end.
(** fixlen/delta_record.hpp:404-418. *)
Fixpoint xwait_cell (fuel : nat) (a : addr) : xp pid :=
  match fuel with
  | O => XFuel
  | S f => XLoadCell a (fun p => if N.eqb p 0 then xwait_cell f a else XRet p)
  end.

(** bw_tree.hpp:770-816. *)
Fixpoint xsearch_child (fuel : nat) (k : list N) (closed : bool) (stack : list pid)
    (target : pid) : xp (bool * list pid) :=
  match fuel with
  | O => XFuel
  | S f =>
      match stack with
      | [] => XUB UbStack
      | p :: rest =>
          c <- xload p ;;
          match t_child c k closed with
          | TFound v => XRet (false, unle v :: stack)
          | TWait a => v <- xwait_cell f a ;; XRet (false, v :: stack)
          | TSib q =>
              if N.eqb (tp_next q) target then XRet (true, stack)
              else xsearch_child f k closed (tp_next q :: rest) target
          | TRemoved =>
              match rest with
              | [] =>
                  if negb (N.eqb target 0) then XRet (false, [])
                  else XLoadRoot (fun r => xsearch_child f k closed [r] target)
              | _ =>
                  '(b, st') <- xsearch_child f k closed rest target ;;
                  if b then XRet (true, st')
                  else match st' with
                       | [] => XRet (false, [])
                       | _ => xsearch_child f k closed st' target
                       end
              end
          | TBase q => XRet (false, unle (b_child (t_find true) lt q k closed) :: stack)
          | TGarbage => XUB UbGarbage
          end
      end
  end.

(** bw_tree.hpp:825-842. *)
Fixpoint xleaf_loop (fuel : nat) (k : list N) (closed : bool) (stack : list pid) : xp (list pid) :=
  match fuel with
  | O => XFuel
  | S f =>
      match stack with
      | [] => XUB UbStack
      | p :: _ =>
          c <- xload p ;;
          if x_leaf c then XRet stack
          else '(_, st') <- xsearch_child f k closed stack 0%N ;;
               xleaf_loop f k closed st'
      end
  end.
Definition xsearch_leaf (fuel : nat) (k : list N) (closed : bool) : xp (list pid) :=
  XLoadRoot (fun r => xleaf_loop fuel k closed [r]).

(** bw_tree.hpp:875-894. *)
Fixpoint xtarget_loop (fuel : nat) (k : list N) (target : pid) (stack : list pid) (leaf : bool)
    : xp (list pid) :=
  match fuel with
  | O => XFuel
  | S f =>
      if leaf then XRet stack
      else
        '(b, st') <- xsearch_child f k true stack target ;;
        if b then XRet st'
        else match st' with
             | [] => XRet []
             | p :: _ => c <- xload p ;; xtarget_loop f k target st' (x_leaf c)
             end
  end.
Fixpoint xsearch_target (fuel : nat) (k : list N) (target : pid) : xp (list pid) :=
  match fuel with
  | O => XFuel
  | S f =>
      XLoadRoot (fun r =>
        c <- xload r ;;
        st' <- xtarget_loop f k target [r] (x_leaf c) ;;
        match st' with [] => xsearch_target f k target | _ => XRet st' end)
  end.

(** delta_chain.hpp:301-336 on a node; the level only selects the payload size. *)
Inductive tvres := TVOk | TVRemoved | TVSib (q : pid).
Definition t_validate (c : ch) (k : list N) (closed : bool) : tvres :=
  match c with
  | TGone _ _ => TVRemoved
  | TLive b =>
      match bf_validate (t_find (negb (x_leaf c))) lt b k closed with
      | None => TVOk
      | Some p => TVSib (tp_next p)
      end
  end.

(** bw_tree.hpp:929-967; the head is returned without the case of a remove delta. *)
Fixpoint xget_head (fuel : nat) (k : list N) (closed : bool) (stack : list pid) (target : pid)
    : xp (option ch * list pid) :=
  match fuel with
  | O => XFuel
  | S f =>
      match stack with
      | [] => XUB UbStack
      | p :: rest =>
          head <- xload_valid f p ;;
          match t_validate head k closed with
          | TVOk => XRet (Some head, stack)
          | TVSib q =>
              if N.eqb q target then XRet (Some head, stack)
              else xget_head f k closed (q :: rest) target
          | TVRemoved =>
              match rest with
              | [] =>
                  if negb (N.eqb target 0) then XRet (None, [])
                  else st' <- xsearch_leaf f k closed ;; xget_head f k closed st' target
              | _ =>
                  '(_, st') <- xsearch_child f k closed rest target ;;
                  match st' with
                  | [] => XRet (None, [])
                  | _ => xget_head f k closed st' target
                  end
              end
          end
      end
  end.

(** SearchRecord of delta_chain.hpp and the search of the page it ends in, on a leaf:
    the payload, nothing, a sibling, or a removed node. *)
Inductive trres := TRVal (v : list N) | TRNone | TRSib (q : pid) | TRRemoved | TRGarbage.
Definition t_record (c : ch) (k : list N) : trres :=
  match c with
  | TGone _ _ => TRRemoved
  | TLive b =>
      match bf_record (t_find false) lt b k false with
      | FFound v => TRVal v
      | FNone => TRNone
      | FSib p => TRSib (tp_next p)
      | FBase p =>
          let '(found, pos) := b_search (t_find false) lt (tp_inner p) p k in
          if found then TRVal (q_pay (t_find false) p (Z.to_N pos)) else TRNone
      | FGarbage => TRGarbage
      end
  end.

(** bw_tree.hpp:977-1017. *)
Fixpoint xget_head_kc (fuel : nat) (k : list N) (stack : list pid) : xp (ch * bool * list pid) :=
  match fuel with
  | O => XFuel
  | S f =>
      match stack with
      | [] => XUB UbStack
      | p :: rest =>
          head <- xload_valid f p ;;
          match t_record head k with
          | TRVal _ => XRet (head, true, stack)
          | TRNone => XRet (head, false, stack)
          | TRSib q => xget_head_kc f k (q :: rest)
          | TRRemoved =>
              match rest with
              | [] => st' <- xsearch_leaf f k true ;; xget_head_kc f k st'
              | _ => '(_, st') <- xsearch_child f k true rest 0%N ;; xget_head_kc f k st'
              end
          | TRGarbage => XUB UbGarbage
          end
      end
  end.

(** See [sib_after] of Tree.v. *)
Definition x_sib_after (sib high : option (list N)) : option (list N) :=
  if c_ptr g then match sib, high with Some _, Some _ => high | _, _ => sib end else sib.

(** bw_tree.hpp:1028-1077. *)
Fixpoint xget_head_merge (fuel : nat) (k : list N) (sib : option (list N)) (stack : list pid)
    : xp (option ch * list pid * option (list N)) :=
  match fuel with
  | O => XFuel
  | S f =>
      match stack with
      | [] => XUB UbStack
      | p :: rest =>
          head <- xload_valid f p ;;
          match t_merge head k sib (match sib with None => true | Some _ => false end) with
          | TMFound => XRet (Some head, stack, sib)
          | TMAbort | TMRemoved => XRet (None, stack, sib)
          | TMSib q h => xget_head_merge f k (x_sib_after sib h) (tp_next q :: rest)
          | TMBase q kf sf h =>
              let sib1 := x_sib_after sib h in
              let kf1 := kf || fst (b_search (t_find true) lt (tp_inner q) q k) in
              let sf1 := sf || match sib1 with
                               | Some s => fst (b_search (t_find true) lt (tp_inner q) q s)
                               | None => false
                               end in
              if sf1 && kf1 then XRet (Some head, stack, sib1) else XRet (None, stack, sib1)
          | TMGarbage => XUB UbGarbage
          end
      end
  end.

(** bw_tree.hpp:684-709. *)
Fixpoint b_addrs (c : bchain pg rec) : list addr :=
  match c with
  | BBase p => [tp_addr p]
  | BRec d nx => td_addr d :: b_addrs nx
  | BMerge d p nx => td_addr d :: tp_addr p :: b_addrs nx
  end.
Definition x_addrs (c : ch) : list addr := match c with TLive b => b_addrs b | TGone a _ => [a] end.

(** bw_tree.hpp:1406-1423. *)
Definition xroot_split (b : D) (old_pid : pid) : xp bool :=
  XLoadRoot (fun r =>
    if negb (N.eqb r old_pid) then XRet false
    else
      XAlloc (fun a m =>
      XNewPid (fun np =>
        XStore np (TLive (BBase (mk_tpage a true 0%N
            (k_root C m (r_key (k_find C true) b) (le 8 old_pid) (r_pay (k_find C true) b)))))
          (XStoreRoot np (XRet true))))).

(** bw_tree.hpp:1368-1395; [a], [b]: the index-entry record. *)
Fixpoint xsplit_loop (smos : ch -> list pid -> xp unit) (fuel : nat) (a : addr) (b : D)
    (l_pid : pid) (stack : list pid) : xp unit :=
  let k := r_key (k_find C true) b in
  let r_pid := unle (r_pay (k_find C true) b) in
  match fuel with
  | O => XFuel
  | S f =>
      match stack with
      | [] =>
          ok <- xroot_split b l_pid ;;
          if ok : bool then XRet tt
          else
            st' <- xsearch_target f k r_pid ;;
            match st' with
            | [] => XUB UbStack
            | _ :: t => xsplit_loop smos f a b l_pid t
            end
      | _ =>
          '(oh, st') <- xget_head f k true stack r_pid ;;
          match oh with
          | None => xsplit_loop smos f a b l_pid st'
          | Some (TGone _ _) => XUB UbGarbage
          | Some (TLive hb) =>
              match st' with
              | [] => XUB UbStack
              | p :: _ =>
                  let c := TLive (BRec (x_rec a b (TLive hb) (x_recsz ptrlen k)) hb) in
                  ok <- xcas true p (x_addr (TLive hb)) c ;;
                  if ok : bool then if x_need_cons c then smos c st' else XRet tt
                  else xsplit_loop smos f a b l_pid st'
              end
          end
      end
  end.

(** bw_tree.hpp:1346-1396. *)
Definition xsplit (smos : ch -> list pid -> xp unit) (fuel : nat) (l r : pg) (stack : list pid) : xp unit :=
  XNewPid (fun r_pid =>
    XStore r_pid (TLive (BBase r))
      match stack with
      | l_pid :: st' =>
          XStore l_pid (TLive (BBase (mk_tpage (tp_addr l) (tp_inner l) r_pid (tp_body l))))
            (XAlloc (fun a m =>
               xsplit_loop smos fuel a (k_smo C m DInsert (tp_inner r) (tp_body r) (le 8 r_pid)) l_pid st'))
      | [] => XUB UbStack
      end).

(** bw_tree.hpp:1560-1579; the leftmost child of a page (fixlen/node.hpp:300-311). *)
Definition xremove_root (root : pg) (old_pid : pid) (stack : list pid) : xp bool :=
  let F := t_find (tp_inner root) in
  match stack with
  | _ :: _ => XRet false
  | [] =>
      if (1 <? Z.of_N (q_cnt F root)) || negb (tp_inner root) then XRet false
      else
        let np := unle (q_pay F root 0%N) in
        c <- xload np ;;
        if x_leaf c then XRet false
        else XCasRoot old_pid np (fun b =>
               if b then XRetire [tp_addr root] (XRet true) else XRet false)
  end.

(** bw_tree.hpp:1530-1543. *)
Fixpoint xdelete_loop (fuel : nat) (a : addr) (b : D) (sib : option (list N)) (stack : list pid)
    : xp (option ch * list pid) :=
  let k := r_key (k_find C true) b in
  match fuel with
  | O => XFuel
  | S f =>
      '(oh, st', sib') <- xget_head_merge f k sib stack ;;
      match oh, st' with
      | None, _ => XRet (None, st')
      | Some _, [] => XUB UbStack
      | Some (TGone _ _), _ => XUB UbGarbage
      | Some (TLive hb), p :: _ =>
          let c := TLive (BRec (x_rec a b (TLive hb) (- x_recsz ptrlen k)) hb) in
          ok <- xcas true p (x_addr (TLive hb)) c ;;
          if ok : bool then XRet (Some c, st') else xdelete_loop f a b sib' st'
      end
  end.
(** bw_tree.hpp:1514-1549. *)
Definition xdelete_entry (smos : ch -> list pid -> xp unit) (fuel : nat) (removed : pg)
    (stack : list pid) : xp (option addr) :=
  match stack, q_lm (t_find (tp_inner removed)) removed with
  | [], _ | _, true => XRet None
  | _, false =>
      XAlloc (fun a m =>
        XStoreCell a 0%N
          ('(oc, st') <- xdelete_loop fuel a (k_idel C m (tp_body removed))
                           (q_high (t_find (tp_inner removed)) removed) stack ;;
           match oc with
           | None => XRet None
           | Some c =>
               _ <- (if x_need_cons c then smos c st' else XRet tt) ;;
               XRet (Some a)
           end))
  end.

(** bw_tree.hpp:1474-1501; [a], [b]: the merge record. *)
Fixpoint xmerge_loop (smos : ch -> list pid -> xp unit) (fuel : nat) (a : addr) (b : D)
    (removed : pg) (rem_pid : pid) (del_a : addr) (at_sib : bool) (stack : list pid) : xp unit :=
  let k := q_low (t_find (tp_inner removed)) removed in
  match fuel with
  | O => XFuel
  | S f =>
      if at_sib then
        '(oh, st') <- xget_head f k false stack rem_pid ;;
        match oh with
        | None => xmerge_loop smos f a b removed rem_pid del_a false st'
        | Some (TGone _ _) => XUB UbGarbage
        | Some (TLive hb) =>
            match st' with
            | [] => XUB UbStack
            | p :: _ =>
                let c := TLive (BMerge (x_rec a b (TLive hb) (x_diff removed)) removed hb) in
                ok <- xcas true p (x_addr (TLive hb)) c ;;
                if ok : bool then
                  XStoreCell del_a p (if x_need_cons c then smos c st' else XRet tt)
                else xmerge_loop smos f a b removed rem_pid del_a true st'
            end
        end
      else
        match stack with
        | [] =>
            st' <- xsearch_target f k rem_pid ;;
            xmerge_loop smos f a b removed rem_pid del_a true st'
        | _ =>
            '(_, st') <- xsearch_child f k false stack rem_pid ;;
            match st' with
            | [] => xmerge_loop smos f a b removed rem_pid del_a false []
            | _ => xmerge_loop smos f a b removed rem_pid del_a true st'
            end
        end
  end.

(** bw_tree.hpp:1434-1502. *)
Definition xmerge (smos : ch -> list pid -> xp unit) (fuel : nat) (head : ch) (removed : pg)
    (stack : list pid) : xp bool :=
  match stack with
  | [] => XUB UbStack
  | rem_pid :: st' =>
      XAlloc (fun a _ =>
      ok <- xcas false rem_pid (x_addr head) (TGone a (negb (tp_inner removed))) ;;
      if negb ok then XRet false
      else
        od <- xdelete_entry smos fuel removed st' ;;
        match od with
        | Some del_a =>
            XAlloc (fun ma m =>
            _ <- xmerge_loop smos fuel ma
                   (k_smo C m DMerge (tp_inner removed) (tp_body removed) (le 8 (tp_addr removed)))
                   removed rem_pid del_a false st' ;;
            XRet true)
        | None =>
            rr <- xremove_root removed rem_pid st' ;;
            if rr : bool then XRet true
            else XStore rem_pid (TLive (BBase removed)) (XRetire [a] (XRet true))
        end)
  end.

(** next_ of the front page (delta_chain.hpp:346-375, bw_tree.hpp:1320-1333). *)
Fixpoint b_next (c : bchain pg rec) : pid :=
  match c with BBase p => tp_next p | BRec _ nx => b_next nx | BMerge _ p _ => tp_next p end.

(** bw_tree.hpp:1178-1216 with 1227-1262. *)
Fixpoint xsmos (fuel : nat) (head : ch) (stack : list pid) : xp unit :=
  match fuel with
  | O => XFuel
  | S f =>
      match stack, head with
      | [], _ => XUB UbStack
      | _, TGone _ _ => XUB UbGarbage
      | p :: _, TLive hb =>
          c <- xload p ;;
          if negb (N.eqb (x_addr c) (x_addr head)) then XRet tt
          else
            XAlloc (fun a m =>
            let inner := negb (x_leaf head) in
            let size := Z.to_N (x_size head) in
            if c_page g <? x_size head then
              XAlloc (fun ra rm =>
              match k_try C inner m rm (bodies hb) size false with
              | BTwo l r =>
                  _ <- xsplit (xsmos f) f (mk_tpage a inner 0%N l) (mk_tpage ra inner (b_next hb) r) stack ;;
                  xretire (x_addrs head)
              | _ => XUB UbSplit
              end)
            else
              match k_try C inner m m (bodies hb) size false with
              | BOne n =>
                  let n := mk_tpage a inner (b_next hb) n in
                  if x_size head <=? c_min g then
                    ok <- xmerge (xsmos f) f head n stack ;;
                    if ok : bool then xretire (x_addrs head) else XRet tt
                  else
                    ok <- xcas false p (x_addr head) (TLive (BBase n)) ;;
                    if ok : bool then xretire (x_addrs head) else XRet tt
              | _ => XUB UbSplit
              end)
      end
  end.

(** ** Point operations *)

(** bw_tree.hpp:145-197. *)
Fixpoint xread_loop (fuel : nat) (k : list N) (stack : list pid) : xp (option (list N)) :=
  match fuel with
  | O => XFuel
  | S f =>
      match stack with
      | [] => XUB UbStack
      | p :: rest =>
          head <- xload p ;;
          match t_record head k with
          | TRVal v => XRet (Some v)
          | TRNone => XRet None
          | TRSib q => xread_loop f k (q :: rest)
          | TRRemoved =>
              '(_, st') <- xsearch_child f k true rest 0%N ;;
              xread_loop f k st'
          | TRGarbage => XUB UbGarbage
          end
      end
  end.
Definition xread (fuel : nat) (k : list N) : xp (option (list N)) :=
  stack <- xsearch_leaf fuel k true ;; xread_loop fuel k stack.

Definition xfinish (fuel : nat) (c : ch) (stack : list pid) : xp rc :=
  _ <- (if x_need_cons c then xsmos fuel c stack else XRet tt) ;;
  XRet Success.

(** bw_tree.hpp:260-297: the record is built once, its type is set in every round. *)
Fixpoint xwrite_loop (fuel : nat) (a : addr) (b : D) (k : list N) (stack : list pid) : xp rc :=
  match fuel with
  | O => XFuel
  | S f =>
      '(head, found, st') <- xget_head_kc f k stack ;;
      match st', head with
      | [], _ => XUB UbStack
      | _, TGone _ _ => XUB UbGarbage
      | p :: _, TLive hb =>
          let b1 := k_type C b (if found : bool then DModify else DInsert) in
          let c := TLive (BRec (x_rec a b1 head (if found then 0 else x_recsz (c_paylen g) k)) hb) in
          ok <- xcas true p (x_addr head) c ;;
          if ok : bool then xfinish f c st' else xwrite_loop f a b1 k st'
      end
  end.
Definition xwrite (fuel : nat) (k v : list N) : xp rc :=
  stack <- xsearch_leaf fuel k true ;;
  XAlloc (fun a m => xwrite_loop fuel a (k_put C m DInsert k v) k stack).

(** bw_tree.hpp:313-350. *)
Fixpoint xinsert_loop (fuel : nat) (a : addr) (b : D) (k : list N) (stack : list pid) : xp rc :=
  match fuel with
  | O => XFuel
  | S f =>
      '(head, found, st') <- xget_head_kc f k stack ;;
      if found : bool then XRet KeyExist
      else
        match st', head with
        | [], _ => XUB UbStack
        | _, TGone _ _ => XUB UbGarbage
        | p :: _, TLive hb =>
            let c := TLive (BRec (x_rec a b head (x_recsz (c_paylen g) k)) hb) in
            ok <- xcas true p (x_addr head) c ;;
            if ok : bool then xfinish f c st' else xinsert_loop f a b k st'
        end
  end.
Definition xinsert (fuel : nat) (k v : list N) : xp rc :=
  stack <- xsearch_leaf fuel k true ;;
  XAlloc (fun a m => xinsert_loop fuel a (k_put C m DInsert k v) k stack).

(** bw_tree.hpp:367-403 (Update) and 417-452 (Delete): the loops differ in the record and
    in what they add to node_size_. *)
Fixpoint xchange_loop (fuel : nat) (a : addr) (b : D) (diff : Z) (k : list N) (stack : list pid) : xp rc :=
  match fuel with
  | O => XFuel
  | S f =>
      '(head, found, st') <- xget_head_kc f k stack ;;
      if negb found then XRet KeyNotExist
      else
        match st', head with
        | [], _ => XUB UbStack
        | _, TGone _ _ => XUB UbGarbage
        | p :: _, TLive hb =>
            let c := TLive (BRec (x_rec a b head diff) hb) in
            ok <- xcas true p (x_addr head) c ;;
            if ok : bool then xfinish f c st' else xchange_loop f a b diff k st'
        end
  end.
Definition xupdate (fuel : nat) (k v : list N) : xp rc :=
  stack <- xsearch_leaf fuel k true ;;
  XAlloc (fun a m => xchange_loop fuel a (k_put C m DModify k v) 0 k stack).
Definition xdelete (fuel : nat) (k : list N) : xp rc :=
  stack <- xsearch_leaf fuel k true ;;
  XAlloc (fun a m => xchange_loop fuel a (k_del C m k) (- x_recsz (c_paylen g) k) k stack).

(** bw_tree.hpp:102-115. *)
Definition xinit (junk : addr -> mem) : xst ch :=
  mk_xst (upd (fun _ => None) 1%N (Some (TLive (BBase (mk_tpage 1%N false 0%N (k_new C (junk 1%N)))))))
    1%N 2%N 2%N (fun _ => 0%N) [].

(** ** Threads, as in Conc.v *)
Inductive bcall :=
| BRead (k : list N) | BWrite (k v : list N) | BInsert (k v : list N)
| BUpdate (k v : list N) | BDelete (k : list N).
Inductive bret := BVal (o : option (list N)) | BCode (c : rc).
Definition bcall_prog (fuel : nat) (o : bcall) : xp bret :=
  match o with
  | BRead k => x <- xread fuel k ;; XRet (BVal x)
  | BWrite k v => x <- xwrite fuel k v ;; XRet (BCode x)
  | BInsert k v => x <- xinsert fuel k v ;; XRet (BCode x)
  | BUpdate k v => x <- xupdate fuel k v ;; XRet (BCode x)
  | BDelete k => x <- xdelete fuel k ;; XRet (BCode x)
  end.

Inductive bthread := UIdle (todo : list bcall) | URun (m : xp bret) (todo : list bcall).
Record bcst := mk_bcst { bc_mem : xst ch; bc_thr : list bthread }.
Inductive bevent := BInv (t : nat) (o : bcall) | BRes (t : nat) (r : bret).

Definition bstep (junk : addr -> mem) (fuel : nat) (c : bcst) (t : nat) (spur : bool) : bcst * list bevent :=
  match nth_error (bc_thr c) t with
  | None => (c, [])
  | Some th =>
      let put m th' := mk_bcst m (firstn t (bc_thr c) ++ th' :: skipn (S t) (bc_thr c)) in
      match th with
      | UIdle [] => (c, [])
      | UIdle (o :: r) => (put (bc_mem c) (URun (bcall_prog fuel o) r), [BInv t o])
      | URun (XRet x) r => (put (bc_mem c) (UIdle r), [BRes t x])
      | URun m r =>
          match xstep x_addr junk m spur (bc_mem c) with
          | Some (m', s') => (put s' (URun m' r), [])
          | None => (c, [])
          end
      end
  end.
Fixpoint bexec (junk : addr -> mem) (fuel : nat) (c : bcst) (sch : list (nat * bool)) : bcst * list bevent :=
  match sch with
  | [] => (c, [])
  | (t, b) :: r =>
      let '(c1, h1) := bstep junk fuel c t b in
      let '(c2, h2) := bexec junk fuel c1 r in (c2, h1 ++ h2)
  end.
Definition bstart (s : xst ch) (todos : list (list bcall)) : bcst := mk_bcst s (map UIdle todos).
End Tree.
