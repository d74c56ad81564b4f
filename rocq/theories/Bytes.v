(** Byte-addressed memory of one page: what memcpy reads and writes. *)
From Coq Require Import NArith List Bool.
Import ListNotations.
Open Scope N_scope.

Definition mem := N -> N.
Definition blen (bs : list N) : N := N.of_nat (length bs).
(** memcpy(page + o, bs, blen bs). *)
Definition wr (m : mem) (o : N) (bs : list N) : mem :=
  fun a => if (o <=? a) && (a <? o + blen bs) then nth (N.to_nat (a - o)) bs 0 else m a.
(** memcpy(dst, page + o, n). *)
Definition rd (m : mem) (o n : N) : list N :=
  map (fun i => m (o + N.of_nat i)) (seq 0 (N.to_nat n)).
(** Unsigned integers in memory (little endian, [n] bytes). *)
Fixpoint le (n : nat) (x : N) : list N :=
  match n with O => [] | S k => x mod 256 :: le k (x / 256) end.
Fixpoint unle (bs : list N) : N :=
  match bs with [] => 0 | b :: t => b + 256 * unle t end.
(** [(x + mask) & ~mask] with mask = unit - 1. *)
Definition align_up (x unit : N) : N := N.ldiff (x + (unit - 1)) (unit - 1).
