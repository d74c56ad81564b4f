(** One thread that issues point calls, opens an iterator, advances it and asks for
    statistics, in any order; and what it may be told.  Definitions only. *)
From Coq Require Import ZArith NArith List Bool.
From Verif Require Import Config Api Page Machine Tree Scan Spec ScanSpec Client ClientSpec.
Import ListNotations.

(** The requests [qs] one after the other, by a thread whose iterator is [cu] (the only
    thread at work); [fuel] is for each of them. *)
Fixpoint serve (g : cfg) (fuel : nat) (cu : cursor) (qs : list req) (s : st) : res (list ans) :=
  match qs with
  | [] => Done [] s
  | q :: t =>
      match run (req_prog g fuel cu q) s with
      | Done (a, cu') s1 =>
          match serve g fuel cu' t s1 with
          | Done l s2 => Done (a :: l) s2
          | Crash u => Crash u
          | NoFuel => NoFuel
          end
      | Crash u => Crash u
      | NoFuel => NoFuel
      end
  end.

(** The interval of the iterator, what the map was since the iterator was opened, and the
    records it has returned. *)
Definition window := option (bound * bound * list smap * list (key * val)).
Definition watch (M : smap) (w : window) : window :=
  match w with Some (b, e, log, l) => Some (b, e, log ++ [M], l) | None => None end.

(** [replies M w qs l]: the answers [l] to [qs], if the map is [M].  A call answers like the
    map.  The records of an iterator are explained by the maps since it was opened: keys
    ascend, each key of the interval is looked up once, at some instant, later keys no
    earlier, and the records are what was found ([scan_ok]). *)
Fixpoint replies (M : smap) (w : window) (qs : list req) (l : list ans) : Prop :=
  match qs, l with
  | [], [] => True
  | QCall o :: qs', ACall r :: l' =>
      r = fst (spec M o) /\ replies (snd (spec M o)) (watch (snd (spec M o)) w) qs' l'
  | QOpen b e :: qs', AOpen :: l' => replies M (Some (b, e, [M], [])) qs' l'
  | QNext :: qs', ARec x :: l' =>
      match w with
      | Some (b, e, log, rs) => scan_ok b e log (rs ++ [x]) false /\ replies M (Some (b, e, log, rs ++ [x])) qs' l'
      | None => False
      end
  | QNext :: qs', AEnd :: l' =>
      match w with Some (b, e, log, rs) => scan_ok b e log rs true | None => True end /\ replies M w qs' l'
  | QStat _ :: qs', AStat a :: l' => stat_ok a /\ replies M w qs' l'
  | _, _ => False
  end.

(** The map after the requests. *)
Fixpoint after_reqs (M : smap) (qs : list req) : smap :=
  match qs with
  | [] => M
  | QCall o :: t => after_reqs (snd (spec M o)) t
  | _ :: t => after_reqs M t
  end.

(** ** What a user sees *)
Definition recs (l : list ans) : list (key * val) :=
  flat_map (fun a => match a with ARec x => [x] | _ => [] end) l.
Definition no_open (q : req) : Prop := match q with QOpen _ _ => False | _ => True end.
(** [q] opens no iterator and does not change the value of [k]. *)
Definition spares (k : key) (q : req) : Prop :=
  match q with
  | QCall (KWrite k' _) | QCall (KInsert k' _) | QCall (KUpdate k' _) | QCall (KDelete k') => k' <> k
  | QOpen _ _ => False
  | _ => True
  end.
(** No request changes [k] before the record of [k] has been returned. *)
Fixpoint unspoilt (k : key) (qs : list req) (l : list ans) : Prop :=
  match qs, l with
  | q :: qs', a :: l' =>
      spares k q /\ match a with ARec (k', _) => if Z.eqb k' k then Forall no_open qs' else unspoilt k qs' l' | _ => unspoilt k qs' l' end
  | _, _ => True
  end.
