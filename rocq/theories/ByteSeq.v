(** One thread that uses the tree on bytes: calls (include/bw_tree/bw_tree.hpp:146-463) and
    complete scans (206-242 with record_iterator.hpp:138-180), as scan_all of Scan.v.
    Definitions only. *)
From Coq Require Import ZArith NArith List Bool.
From Verif Require Import Config Api Page Machine Bytes ByteCons ByteFind ByteTree ByteScan ByteBulk.
Import ListNotations.
Open Scope xprog_scope.
Open Scope Z_scope.

(** [m]: what the memory of the scan's page held before. *)
Inductive bitem := BICall (o : bcall) | BIScan (m : mem) (b e : bbound).
Inductive banswer := BJRet (r : bret) | BJRecs (l : list (list N * list N)).

Section Seq.
Context {P D : Type}.
Variable C : klass P D.
Variable lt : list N -> list N -> bool.
Variable g : cfg.
Variables (pmem : P -> mem) (junk : addr -> mem).

(** The usual client loop: for (auto it = Scan(b, e); it; ++it) use( *it ). *)
Fixpoint xcollect (fuel : nat) (p : tpage P) (it : biter) : xprog (tchain P D) (list (list N * list N)) :=
  match fuel with
  | O => XFuel
  | S f =>
      '(more, p1, it1) <- xhas_record C lt g pmem f p it ;;
      if more : bool then
        match xget_record C p1 it1 with
        | None => XUB UbGarbage
        | Some r => rest <- xcollect f p1 (xadvance it1) ;; XRet (r :: rest)
        end
      else XRet []
  end.
Definition xscan_all (m : mem) (fuel : nat) (b e : bbound) : xprog (tchain P D) (list (list N * list N)) :=
  '(p, it) <- xscan C lt g m fuel b e ;; xcollect fuel p it.

(** One after the other. *)
Definition xitem_prog (fuel : nat) (i : bitem) : xprog (tchain P D) banswer :=
  match i with
  | BICall o => r <- bcall_prog C lt g fuel o ;; XRet (BJRet r)
  | BIScan m b e => l <- xscan_all m fuel b e ;; XRet (BJRecs l)
  end.
Fixpoint xrun_items (fuel : nat) (is : list bitem) (s : xst (tchain P D)) : xres (tchain P D) (list banswer) :=
  match is with
  | [] => XDone [] s
  | i :: t =>
      match xrun x_addr junk (xitem_prog fuel i) s with
      | XDone j s1 =>
          match xrun_items fuel t s1 with
          | XDone js s2 => XDone (j :: js) s2
          | XCrash u => XCrash u
          | XNoFuel => XNoFuel
          end
      | XCrash u => XCrash u
      | XNoFuel => XNoFuel
      end
  end.
End Seq.
