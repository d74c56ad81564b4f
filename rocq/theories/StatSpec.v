(** What the statistics and page sizes are compared with. *)
From Coq Require Import ZArith NArith List.
From Verif Require Import Config Api Page Machine Tree.
Import ListNotations.
Open Scope Z_scope.

(** [q] is the i-th page, counted from the root, on the way to some key
    (the stack returned by SearchLeafNode, bw_tree.hpp:825-842). *)
Definition visits (s : st) (i : nat) (q : pid) : Prop :=
  exists k F stk, (forall f, (F <= f)%nat -> run (search_leaf f k true) s = Done stk s) /\
    nth_error (rev stk) i = Some q.

(** Every page of the chain, merged pages included, is within the page size. *)
Fixpoint pfit (g : cfg) (c : chain) : Prop :=
  match c with
  | CBase n => n_size n <= c_page g
  | CRec _ nx => pfit g nx
  | CMerge _ n nx => n_size n <= c_page g /\ pfit g nx
  | CRemove _ _ => True
  end.
