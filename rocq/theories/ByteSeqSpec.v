(** Programs of one thread made of calls and complete scans, on Tree.v and on bytes, and
    the answers of a map.  Definitions only. *)
From Coq Require Import ZArith NArith List Bool Sorting.Sorted.
From Verif Require Import Config Api Spec Page Machine Tree Scan ScanSpec Bytes ByteTree ByteTreeSpec ByteScan ByteScanSpec ByteSeq.
Import ListNotations.
Open Scope Z_scope.

Inductive item := ICall (o : call) | IScan (b e : bound).
Inductive answer := JRet (r : ret) | JRecs (l : list (key * val)).

(** What a map answers: a scan returns the records within the interval, each once, by
    ascending key. *)
Fixpoint answers (M : smap) (is : list item) (js : list answer) : Prop :=
  match is, js with
  | [], [] => True
  | ICall o :: t, JRet r :: u => r = fst (spec M o) /\ answers (snd (spec M o)) t u
  | IScan b e :: t, JRecs l :: u =>
      StronglySorted (fun x y => fst x < fst y) l /\
      (forall k v, In (k, v) l <-> M k = Some v /\ after b k /\ before e k) /\ answers M t u
  | _, _ => False
  end.
(** The map afterwards. *)
Fixpoint after_items (M : smap) (is : list item) : smap :=
  match is with
  | [] => M
  | ICall o :: t => after_items (snd (spec M o)) t
  | IScan _ _ :: t => after_items M t
  end.

(** The keys an item names; begin keys are included (C13). *)
Definition item_keys (K : key -> Prop) (i : item) : Prop :=
  match i with
  | ICall o => K (call_key o)
  | IScan b e => bound_key K b /\ bound_key K e /\ forall k, b <> Some (k, false)
  end.

(** On Tree.v. *)
Definition item_prog (g : cfg) (fuel : nat) (i : item) : prog answer :=
  match i with
  | ICall o => bind (call_prog g fuel o) (fun r => Ret (JRet r))
  | IScan b e => bind (scan_all g fuel b e) (fun l => Ret (JRecs l))
  end.
Fixpoint run_items (g : cfg) (fuel : nat) (is : list item) (s : st) : res (list answer) :=
  match is with
  | [] => Done [] s
  | i :: t =>
      match run (item_prog g fuel i) s with
      | Done j s1 =>
          match run_items g fuel t s1 with
          | Done js s2 => Done (j :: js) s2
          | Crash u => Crash u
          | NoFuel => NoFuel
          end
      | Crash u => Crash u
      | NoFuel => NoFuel
      end
  end.

(** Encoded items and answers; a scan comes with what the memory of its page held
    before. *)
Definition enc_item (ek : key -> list N) (ev : N -> list N) (x : mem * item) : bitem :=
  match snd x with
  | ICall o => BICall (enc_call ek ev o)
  | IScan b e => BIScan (fst x) (enc_bound ek b) (enc_bound ek e)
  end.
Definition enc_answer (ek : key -> list N) (ev : N -> list N) (j : answer) : banswer :=
  match j with
  | JRet r => BJRet (enc_ret ev r)
  | JRecs l => BJRecs (map (fun x => (ek (fst x), ev (snd x))) l)
  end.
