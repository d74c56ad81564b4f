(** One thread on bytes that keeps an iterator open between its own calls: the requests of
    ByteScan.v one after the other, as serve of Serve.v.  Definitions only. *)
From Coq Require Import ZArith NArith List Bool.
From Verif Require Import Config Api Page Machine Bytes ByteCons ByteFind ByteTree ByteScan ByteBulk.
Import ListNotations.

Section Serve.
Context {P D : Type}.
Variable C : klass P D.
Variable lt : list N -> list N -> bool.
Variable g : cfg.
Variables (pmem : P -> mem) (stat_mem : pid -> mem) (junk : addr -> mem).

(** The requests [qs] by a thread whose iterator, or the old contents of whose page buffer,
    is [cu]; [fuel] is for each of them. *)
Fixpoint xserve (fuel : nat) (cu : bcursor (P := P)) (qs : list breq) (s : xst (tchain P D)) : xres (tchain P D) (list bans) :=
  match qs with
  | [] => XDone [] s
  | q :: t =>
      match xrun x_addr junk (breq_prog C lt g pmem stat_mem fuel cu q) s with
      | XDone (a, cu') s1 =>
          match xserve fuel cu' t s1 with
          | XDone l s2 => XDone (a :: l) s2
          | XCrash u => XCrash u
          | XNoFuel => XNoFuel
          end
      | XCrash u => XCrash u
      | XNoFuel => XNoFuel
      end
  end.
End Serve.
