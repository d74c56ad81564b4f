(** The pages a search can come across. *)
From Coq Require Import ZArith NArith List.
From Verif Require Import Config Api Page Machine ChainSpec.
Import ListNotations.

(** [p] can be reached from the root by following [d] index entries and any number of
    links to right siblings.  (The entries of a chain are those it stands for, ChainSpec.v,
    and the one for its lowest key.) *)
Inductive linked (s : st) : nat -> pid -> Prop :=
| ln_root : linked s 0 (s_root s)
| ln_kid d p c v : linked s d p -> s_tbl s p = Some c -> is_remove c = false -> h_leaf c = false ->
    In v (ilead c :: map snd (ients c)) -> linked s (S d) v
| ln_next d p c : linked s d p -> s_tbl s p = Some c -> is_remove c = false -> c_hi c <> None ->
    linked s d (c_next c).

(** Every page has a slot, and the leaves are exactly the pages at one depth [L]. *)
Definition balanced (s : st) : Prop :=
  exists L, forall d p, linked s d p -> exists c, s_tbl s p = Some c /\ (d <= L)%nat /\ (h_leaf c = true <-> d = L).

(** ** A path of entries (their index) and sibling links, followed by computation *)
Inductive hop := HKid (i : nat) | HNext.
Fixpoint follow (s : st) (h : list hop) (d : nat) (p : pid) : option (nat * pid * bool) :=
  match s_tbl s p with
  | None => None
  | Some c =>
      match h with
      | [] => Some (d, p, h_leaf c)
      | x :: t =>
          if is_remove c then None
          else match x with
               | HKid i => if h_leaf c then None
                           else match nth_error (ilead c :: map snd (ients c)) i with
                                | Some v => follow s t (S d) v
                                | None => None
                                end
               | HNext => match c_hi c with Some _ => follow s t d (c_next c) | None => None end
               end
      end
  end.
