(** The mapping table: page IDs, rows and tables, destruction
    (component/mapping_table.hpp), with its own interleaving of threads. *)
From Coq Require Import ZArith NArith List Bool.
From Verif Require Import Config Page.
Import ListNotations.
Open Scope N_scope.

(** mapping_table.hpp:217-241. *)
Definition kRowShift : N := 16.
Definition kTabShift : N := 32.
Definition kMSBShift : N := 63.
Definition kColIDUnit : N := 1.
Definition kRowIDUnit : N := N.shiftl 1 kRowShift.
Definition kTabIDUnit : N := N.shiftl 1 kTabShift.
Definition kIDMask : N := 65535.
Definition kVMPageSize : N := 4096.      (* component/common.hpp *)
Definition kWordSize : N := 8.
Definition kCacheLineSize : N := 64.
Definition kArrayCapacity : N := kVMPageSize / kWordSize.
Definition kTableCapacity : N := (kVMPageSize - kCacheLineSize) / kWordSize.

(** The fields of an ID as extracted everywhere in the file. *)
Definition tab_of (id : N) : N := N.land (N.shiftr id kTabShift) kIDMask.
Definition row_of (id : N) : N := N.land (N.shiftr id kRowShift) kIDMask.
Definition col_of (id : N) : N := N.land id kIDMask.

(** Memory: the counter, the array tables_, the contents of table pages (by page
    address) and the allocator.  Pages are zeroed, so an unset entry is null. *)
Record mt := mk_mt {
  m_cnt  : N;
  m_tabs : N -> option N;        (* tables_[i]: address of a table page *)
  m_rows : N -> N -> option N;   (* table page, index: address of a row page *)
  m_next : N                     (* next fresh page address *)
}.

(** mapping_table.hpp:71-77, 275: the constructor. *)
Definition mt_init : mt :=
  mk_mt (N.shiftl 1 kMSBShift)
    (fun i => if i =? 0 then Some 1 else None)
    (fun t i => if (t =? 1) && (i =? 0) then Some 0 else None) 2.

(** Program points of GetNewPageID (mapping_table.hpp:124-165). *)
Inductive pc :=
| PLoad                          (* 129: load the counter *)
| PCas (cur : N)                 (* 135: compare_exchange_weak *)
| PRow1 (cur new : N)            (* 144-145: allocate a row, load the table *)
| PRow2 (cur new t r : N)        (* 146: publish the row *)
| PRow3 (cur new : N)            (* 147: store the counter *)
| PTab1 (cur new : N)            (* 152-154: allocate row and table *)
| PTab2 (cur new t : N)          (* 156: publish the table *)
| PTab3 (cur new : N)            (* 157: store the counter *)
| PRet (id : N)                  (* return id *)
| PAbort                         (* 130: the assertion failed *)
| POob                           (* tables_ indexed out of bounds *)
| PNull.                         (* null table dereferenced *)

Definition set2 (m : N -> N -> option N) (i j : N) (x : option N) : N -> N -> option N :=
  fun a b => if (a =? i) && (b =? j) then x else m a b.
Definition set1 (m : N -> option N) (i : N) (x : option N) : N -> option N :=
  fun a => if a =? i then x else m a.

(** One atomic access of a thread; [spur]: the weak compare-and-swap fails
    spuriously. The returned option is an ID handed to the caller. *)
Definition mstep (m : mt) (p : pc) (spur : bool) : mt * pc * option N :=
  match p with
  | PLoad =>
      let cur := m_cnt m in
      if negb (tab_of cur <? kArrayCapacity) then (m, PAbort, None)
      else if col_of cur <? kArrayCapacity then (m, PCas cur, None)
      else (m, PLoad, None)
  | PCas cur =>
      if (m_cnt m =? cur) && negb spur then
        let new := cur + kColIDUnit in
        let m' := mk_mt new (m_tabs m) (m_rows m) (m_next m) in
        if col_of new <? kArrayCapacity then (m', PRet cur, None)
        else
          let new2 := new + kRowIDUnit in
          if row_of new2 <? kArrayCapacity then (m', PRow1 cur new2, None)
          else (m', PTab1 cur new2, None)
      else (m, PLoad, None)
  | PRow1 cur new =>
      if negb (tab_of new <? kTableCapacity) then (m, POob, None)
      else match m_tabs m (tab_of new) with
           | Some t =>
               (mk_mt (m_cnt m) (m_tabs m) (m_rows m) (m_next m + 1), PRow2 cur new t (m_next m), None)
           | None => (m, PNull, None)
           end
  | PRow2 cur new t r =>
      (mk_mt (m_cnt m) (m_tabs m) (set2 (m_rows m) t (row_of new) (Some r)) (m_next m),
       PRow3 cur new, None)
  | PRow3 cur new =>
      (mk_mt (N.ldiff new kIDMask) (m_tabs m) (m_rows m) (m_next m), PRet cur, None)
  | PTab1 cur new =>
      let r := m_next m in
      let t := m_next m + 1 in
      (mk_mt (m_cnt m) (m_tabs m) (set2 (m_rows m) t 0 (Some r)) (m_next m + 2),
       PTab2 cur (new + kTabIDUnit) t, None)
  | PTab2 cur new t =>
      if negb (tab_of new <? kTableCapacity) then (m, POob, None)
      else (mk_mt (m_cnt m) (set1 (m_tabs m) (tab_of new) (Some t)) (m_rows m) (m_next m),
            PTab3 cur new, None)
  | PTab3 cur new =>
      (mk_mt (N.ldiff new (kTabIDUnit - 1)) (m_tabs m) (m_rows m) (m_next m), PRet cur, None)
  | PRet id => (m, PLoad, Some id)
  | PAbort | POob | PNull => (m, p, None)
  end.

(** Any number of threads, each calling GetNewPageID again and again; [ms_out]: the
    IDs returned so far, newest first. *)
Record mst := mk_mst { ms_mem : mt; ms_pc : nat -> pc; ms_out : list N }.
Definition ms_init : mst := mk_mst mt_init (fun _ => PLoad) [].
Definition mt_step (s : mst) (t : nat) (spur : bool) : mst :=
  let '(m, p, o) := mstep (ms_mem s) (ms_pc s t) spur in
  mk_mst m (fun u => if Nat.eqb u t then p else ms_pc s u)
    (match o with Some id => id :: ms_out s | None => ms_out s end).
Definition mt_exec (s : mst) (sch : list (nat * bool)) : mst :=
  fold_left (fun s x => mt_step s (fst x) (snd x)) sch s.

(** mapping_table.hpp:171-178 GetLogicalPtr: the slot, as row page and index. *)
Definition slot (m : mt) (id : N) : option (N * N) :=
  match m_tabs m (tab_of id) with
  | Some t => match m_rows m t (row_of id) with Some r => Some (r, col_of id) | None => None end
  | None => None
  end.

(** mapping_table.hpp:191-205: (used bytes, reserved bytes).  The code computes
    modulo 2^64; the results are non-negative and far below 2^64, so integers
    give the same values. *)
Definition mt_stats (m : mt) : Z * Z :=
  let id := m_cnt m in
  let tab := Z.of_N (tab_of id) in
  let row := Z.of_N (row_of id) in
  let col := Z.of_N (col_of id) in
  let cap := Z.of_N kArrayCapacity in
  let reserved := ((tab * (cap + 1) + row + 3) * Z.of_N kVMPageSize)%Z in
  let empty_num := (2 * cap + Z.of_N kTableCapacity - col - row - tab - 3)%Z in
  ((reserved - empty_num * Z.of_N kWordSize)%Z, reserved).

(** mapping_table.hpp:94-113 ~MappingTable: the pages released, and the slots
    (row page, index) passed to ReleaseLogicalPtr. *)
Definition upto (n : N) : list N := map N.of_nat (seq 0 (N.to_nat n)).
Definition dtor_row_num (cur i : N) : N :=
  if i + 1 =? tab_of cur then row_of cur else kArrayCapacity.
Definition dtor_col_num (cur i : N) : N :=
  if i + 1 =? tab_of cur then col_of cur else kArrayCapacity.
Definition ocons {A} (o : option A) (l : list A) : list A :=
  match o with Some x => x :: l | None => l end.
Definition dtor_tables (m : mt) : list N :=
  flat_map (fun i => ocons (m_tabs m i) []) (upto (tab_of (m_cnt m))).
Definition dtor_rows (m : mt) : list N :=
  flat_map (fun i =>
    match m_tabs m i with
    | Some t => flat_map (fun j => ocons (m_rows m t j) []) (upto (dtor_row_num (m_cnt m) i))
    | None => []
    end) (upto (tab_of (m_cnt m))).
Definition dtor_slots (m : mt) : list (N * N) :=
  flat_map (fun i =>
    match m_tabs m i with
    | Some t => flat_map (fun j =>
        match m_rows m t j with
        | Some r => map (fun k => (r, k)) (upto (dtor_col_num (m_cnt m) i))
        | None => []
        end) (upto (dtor_row_num (m_cnt m) i))
    | None => []
    end) (upto (tab_of (m_cnt m))).

(** mapping_table.hpp:252-268 ReleaseLogicalPtr: the addresses released. *)
Fixpoint release_chain (c : chain) : list addr :=
  match c with
  | CBase n => [n_addr n]
  | CRec d nx => d_addr d :: release_chain nx
  | CMerge d n nx => n_addr n :: d_addr d :: release_chain nx
  | CRemove a _ => [a]
  end.
