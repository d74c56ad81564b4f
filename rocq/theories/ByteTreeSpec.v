(** Executions of the tree on bytes next to executions of Tree.v: encoded calls, results
    and events, and what is asked of the execution of Tree.v.  Definitions only. *)
From Coq Require Import ZArith NArith List Bool.
From Verif Require Import Config Api Spec Page Machine Tree Conc Bytes ByteCons ByteConsSpec ByteConsFacts ByteTree.
Import ListNotations.
Open Scope Z_scope.

Section Enc.
Variables (ek : Z -> list N) (ev : N -> list N).
Definition enc_call (o : call) : bcall :=
  match o with
  | KRead k => BRead (ek k) | KWrite k v => BWrite (ek k) (ev v) | KInsert k v => BInsert (ek k) (ev v)
  | KUpdate k v => BUpdate (ek k) (ev v) | KDelete k => BDelete (ek k)
  end.
Definition enc_ret (r : ret) : bret :=
  match r with RVal o => BVal (option_map ev o) | RCode c => BCode c end.
Definition enc_event (e : event) : bevent :=
  match e with EInv t o => BInv t (enc_call o) | ERes t r => BRes t (enc_ret r) end.
End Enc.

Definition call_key (o : call) : key :=
  match o with KRead k | KWrite k _ | KInsert k _ | KUpdate k _ | KDelete k => k end.

(** All records and pages of a chain are of one level. *)
Fixpoint lev (inner : bool) (c : chain) : Prop :=
  match c with
  | CBase n => n_inner n = inner
  | CRec d nx => d_inner d = inner /\ lev inner nx
  | CMerge d n nx => d_inner d = inner /\ n_inner n = inner /\ lev inner nx
  | CRemove _ _ => True
  end.
(** A chain that can be consolidated: one level, only its base page may be leftmost
    (inner levels), and an inner page keeps a record. *)
Definition sane (g : cfg) (c : chain) : Prop :=
  match c with
  | CBase n => n_inner n = true -> n_recs n <> []
  | CRemove _ _ => True
  | _ =>
      let inner := negb (h_leaf c) in
      lev inner c /\
      forall ds ns, dc_sort c [] [] = Some (ds, ns) ->
        pages_ok inner ns /\
        (inner = true -> forall a ra n, consolidate g inner a ra ns ds false false = COne n -> n_recs n <> [])
  end.

(** The chain that a step of a program loads, or puts into the mapping table by a
    compare-and-swap that succeeds. *)
Definition meets {A} (m : prog A) (spur : bool) (s : st) (x : chain) : Prop :=
  match m with
  | Load p _ => s_tbl s p = Some x
  | Cas w p e c _ => x = c /\ cas_ok s w spur p e = true
  | _ => False
  end.

(** No thread of the execution of Tree.v runs into undefined behaviour, the chains that
    threads meet are sane, page IDs fit into eight bytes. *)
Definition steady (g : cfg) (fuel : nat) (c : cst) (sch : list (nat * bool)) : Prop :=
  forall i, let c' := fst (exec g fuel c (firstn i sch)) in
    ~ crashed c' /\
    (forall t b m r x, nth_error sch i = Some (t, b) -> nth_error (c_thr c') t = Some (TRun m r) ->
       meets m b (c_mem c') x -> sane g x) /\
    (s_npid (c_mem c') <= 2 ^ 64)%N.

(** Some thread of the tree on bytes has run into undefined behaviour. *)
Definition bcrashed {P D} (c : @bcst P D) : Prop := exists u r, In (URun (XUB u) r) (bc_thr c).
