(** Searches in delta chains of bytes: SearchChildNode, SearchRecord, SearchForMerge and
    Validate of delta_chain.hpp and the searches of both node.hpp files as templates over
    the page and record classes.  Keys are compared as bytes.

    Simplified: next_ of a page is not part of the bytes, [FSib p] stands for the
    next_ of page [p]. *)
From Coq Require Import ZArith NArith List Bool.
From Verif Require Import Config Page Bytes FixLayout VarLayout DeltaBytes ByteCons.
Import ListNotations.
Open Scope Z_scope.

(** The members of Node_t and Delta_t that the searches use. *)
Record finder (P D : Type) := mk_finder {
  q_cnt : P -> N;                     (* rec_count_ *)
  q_lm : P -> bool;                   (* IsLeftmost *)
  q_low : P -> list N;                (* low key of a page that has one *)
  q_high : P -> option (list N);      (* GetHighKey *)
  q_key : P -> N -> list N;           (* GetKey(pos) *)
  q_pay : P -> N -> list N;           (* GetPayload(pos) *)
  r_type : D -> dtype;
  r_key : D -> list N;                (* GetKey *)
  r_high : D -> option (list N);      (* GetHighKey *)
  r_pay : D -> list N;                (* GetPayload *)
  r_child : D -> list N               (* GetPayloadAtomically *)
}.
Arguments mk_finder {P D}.
Arguments q_cnt {P D}. Arguments q_lm {P D}. Arguments q_low {P D}. Arguments q_high {P D}.
Arguments q_key {P D}. Arguments q_pay {P D}. Arguments r_type {P D}. Arguments r_key {P D}.
Arguments r_high {P D}. Arguments r_pay {P D}. Arguments r_child {P D}.

(** DeltaRC with its out_ptr. *)
Inductive fres (P : Type) := FFound (v : list N) | FNone | FSib (p : P) | FBase (p : P) | FGarbage.
Arguments FFound {P}. Arguments FNone {P}. Arguments FSib {P}. Arguments FBase {P}. Arguments FGarbage {P}.
Inductive fmres (P : Type) :=
| FMFound | FMAbort | FMSib (p : P) | FMBase (p : P) (key_found sib_found : bool) | FMGarbage.
Arguments FMFound {P}. Arguments FMAbort {P}. Arguments FMSib {P}. Arguments FMBase {P}. Arguments FMGarbage {P}.

Section Find.
Context {P D : Type}.
Variable F : finder P D.
Variable lt : list N -> list N -> bool.
Variable inner : bool.

(** fixlen/delta_record.hpp:203-236, varlen/delta_record.hpp:219-258. *)
Definition b_same (a b : list N) : bool := negb (lt b a) && negb (lt a b).
Definition b_low_le (low k : list N) (closed : bool) : bool := lt low k || (closed && negb (lt k low)).
Definition b_high_ge (high : option (list N)) (k : list N) (closed : bool) : bool :=
  match high with None => true | Some h => lt k h || (closed && negb (lt h k)) end.

(** delta_chain.hpp:65-127. *)
Fixpoint bf_child (c : bchain P D) (k : list N) (closed smo : bool) : fres P :=
  match c with
  | BRec d nx =>
      match r_type F d with
      | DInsert =>
          if b_low_le (r_key F d) k closed && b_high_ge (r_high F d) k (negb closed)
          then FFound (r_pay F d) else bf_child nx k closed smo
      | DDelete =>
          if b_low_le (r_key F d) k closed && b_high_ge (r_high F d) k (negb closed)
          then FFound (r_child F d) else bf_child nx k closed smo
      | _ => FGarbage
      end
  | BMerge d p nx =>
      if b_low_le (r_key F d) k closed then
        if negb smo && negb (b_high_ge (r_high F d) k (negb closed)) then FSib p else FBase p
      else bf_child nx k closed true
  | BBase p => if negb smo && negb (b_high_ge (q_high F p) k (negb closed)) then FSib p else FBase p
  end.
(** delta_chain.hpp:140-199 with the GetPayload of bw_tree.hpp:165. *)
Fixpoint bf_record (c : bchain P D) (k : list N) (smo : bool) : fres P :=
  match c with
  | BRec d nx =>
      match r_type F d with
      | DInsert | DModify => if b_same (r_key F d) k then FFound (r_pay F d) else bf_record nx k smo
      | DDelete => if b_same (r_key F d) k then FNone else bf_record nx k smo
      | DMerge => FGarbage
      end
  | BMerge d p nx =>
      if b_low_le (r_key F d) k true then
        if negb smo && negb (b_high_ge (r_high F d) k false) then FSib p else FBase p
      else bf_record nx k true
  | BBase p => if negb smo && negb (b_high_ge (q_high F p) k false) then FSib p else FBase p
  end.
(** delta_chain.hpp:215-288. *)
Fixpoint bf_merge (c : bchain P D) (k : list N) (sib : option (list N)) (kf sf smo : bool) : fmres P :=
  let is_sib x := match sib with Some s => b_same x s | None => false end in
  match c with
  | BRec d nx =>
      match r_type F d with
      | DInsert =>
          let hit := negb kf && b_same (r_key F d) k in
          if hit && sf then FMFound else
          let kf1 := kf || hit in
          let hit2 := negb sf && is_sib (r_key F d) in
          if hit2 && kf1 then FMFound else bf_merge nx k sib kf1 (sf || hit2) smo
      | DDelete =>
          if negb kf && b_same (r_key F d) k then FMAbort else
          if negb sf && is_sib (r_key F d) then FMAbort else bf_merge nx k sib kf sf smo
      | _ => FMGarbage
      end
  | BMerge d p nx =>
      if b_low_le (r_key F d) k true then
        if negb smo && negb kf && negb (b_high_ge (r_high F d) k false) then FMSib p else FMBase p kf sf
      else
        let hit2 := negb sf && is_sib (r_key F d) in
        if hit2 && kf then FMFound else bf_merge nx k sib kf (sf || hit2) true
  | BBase p =>
      if negb kf && negb (q_lm F p) && b_same (q_low F p) k then FMAbort else
      if negb kf && negb smo && negb (b_high_ge (q_high F p) k false) then FMSib p else FMBase p kf sf
  end.
(** delta_chain.hpp:301-336; [None]: kReachBaseNode. *)
Fixpoint bf_validate (c : bchain P D) (k : list N) (closed : bool) : option P :=
  match c with
  | BRec _ nx => bf_validate nx k closed
  | BMerge d p _ => if b_high_ge (r_high F d) k (negb closed) then None else Some p
  | BBase p => if b_high_ge (q_high F p) k (negb closed) then None else Some p
  end.

(** The loop of fixlen/node.hpp:336-347, 370-382 and varlen/node.hpp:363-375, 397-409. *)
Fixpoint b_bsearch (fuel : nat) (p : P) (k : list N) (b e : Z) : bool * Z :=
  match fuel with
  | O => (false, b)
  | S f =>
      if b <=? e then
        let pos := (b + e) / 2 in
        let ik := q_key F p (Z.to_N pos) in
        if lt k ik then b_bsearch f p k b (pos - 1)
        else if lt ik k then b_bsearch f p k (pos + 1) e
        else (true, pos)
      else (false, b)
  end.
(** SearchRecord: fixlen/node.hpp:330-350, varlen/node.hpp:357-378. *)
Definition b_search (p : P) (k : list N) : bool * Z :=
  b_bsearch (S (N.to_nat (q_cnt F p))) p k (if inner && q_lm F p then 1 else 0) (Z.of_N (q_cnt F p) - 1).
(** SearchChild: fixlen/node.hpp:362-385, varlen/node.hpp:390-412. *)
Definition b_child (p : P) (k : list N) (closed : bool) : list N :=
  match b_bsearch (S (N.to_nat (q_cnt F p))) p k 1 (Z.of_N (q_cnt F p) - 1) with
  | (true, pos) => q_pay F p (Z.to_N (pos + (if closed then 1 else 0) - 1))
  | (false, b) => q_pay F p (Z.to_N (b - 1))
  end.

(** What Read does with one node (bw_tree.hpp:163-192): the payload, nothing, or the
    page whose right sibling is searched next. *)
Inductive rres := RdVal (v : list N) | RdNone | RdSib (p : P) | RdBad.
Definition b_read (c : bchain P D) (k : list N) : rres :=
  match bf_record c k false with
  | FFound v => RdVal v
  | FNone => RdNone
  | FSib p => RdSib p
  | FBase p => let '(found, pos) := b_search p k in if found then RdVal (q_pay F p (Z.to_N pos)) else RdNone
  | FGarbage => RdBad
  end.
(** What SearchChildNode does with one node (bw_tree.hpp:777-811). *)
Definition b_descend (c : bchain P D) (k : list N) (closed : bool) : rres :=
  match bf_child c k closed false with
  | FFound v => RdVal v
  | FNone => RdBad
  | FSib p => RdSib p
  | FBase p => RdVal (b_child p k closed)
  | FGarbage => RdBad
  end.
End Find.
Arguments RdVal {P}. Arguments RdNone {P}. Arguments RdSib {P}. Arguments RdBad {P}.

(** varlen: an empty fence key is none (varlen/node.hpp:236-258,
    varlen/delta_record.hpp:347-367); [ps] = sizeof(T) of the level. *)
Definition var_finder (ps : N) : finder vpage vdelta := mk_finder
  vp_cnt
  (fun p => (mt_klen (vp_low p) =? 0)%N)
  (fun p => VarLayout.key_of (vp_mem p) (vp_low p))
  (fun p => if (mt_klen (vp_high p) =? 0)%N then None else Some (VarLayout.key_of (vp_mem p) (vp_high p)))
  var_key
  (fun p i => var_pay p ps i)
  vd_type vard_key vard_high
  (fun d => vard_pay d ps)
  (fun d => vard_pay d 8).
(** fixlen. *)
Definition fix_finder (L : flay) (ps : N) : finder fnode fdelta := mk_finder
  (fun n => fp_cnt (fn_page n))
  (fun n => negb (fn_haslow n))
  (fixn_low L)
  (fun n => if fn_hashigh n then Some (fixn_high L n) else None)
  (fun n i => fix_key L (fn_page n) i)
  (fun n i => fix_pay L (fn_page n) ps i)
  fd_type (fixd_key L) (fixd_high L)
  (fun d => fixd_pay L d ps)
  (fixd_child L).
