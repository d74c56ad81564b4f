(** Vocabulary of the layout theorems (independent of the modelled code). *)
From Coq Require Import NArith List.
From Verif Require Import Bytes.
Import ListNotations.
Open Scope N_scope.

(** A record is a pair of byte strings; bytes of a record and of a list of records. *)
Definition rec_bytes (r : list N * list N) : N := blen (fst r) + blen (snd r).
Fixpoint rsum (rs : list (list N * list N)) : N :=
  match rs with [] => 0 | r :: t => rec_bytes r + rsum t end.

(** A string without embedded NUL. *)
Definition cstr (a : list N) : Prop := Forall (fun c => c <> 0) a.
(** Lexicographic order, as a specification. *)
Inductive lex : list N -> list N -> Prop :=
| lex_nil c b : lex [] (c :: b)
| lex_lt c d a b : c < d -> lex (c :: a) (d :: b)
| lex_eq c a b : lex a b -> lex (c :: a) (c :: b).
