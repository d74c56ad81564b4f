(** SearchRecord on the bytes of a page. *)
From Coq Require Import ZArith NArith List Bool.
From Verif Require Import Bytes FixLayout VarLayout Misc.
Import ListNotations.
Open Scope Z_scope.

(** fixlen/node.hpp:330-350 SearchRecord of a leaf with unsigned integer keys and std::less:
    keys_[pos] is compared as a number.  [fuel] bounds the iterations. *)
Fixpoint fix_bs (fuel : nat) (L : flay) (p : fpage) (q : N) (b e : Z) : bool * Z :=
  match fuel with
  | O => (false, b)
  | S f =>
      if b <=? e then
        let pos := (b + e) / 2 in
        let ik := unle (fix_key L p (Z.to_N pos)) in
        if N.ltb q ik then fix_bs f L p q b (pos - 1)
        else if N.ltb ik q then fix_bs f L p q (pos + 1) e
        else (true, pos)
      else (false, b)
  end.
Definition fix_search (L : flay) (p : fpage) (q : N) : bool * Z :=
  fix_bs (S (N.to_nat (fp_cnt p))) L p q 0 (Z.of_N (fp_cnt p) - 1).

(** varlen/node.hpp:757-774 GetKey for char* keys: key_len bytes are copied to the start of
    the thread-local buffer; no terminator is added. *)
Definition copy_key (buf k : list N) : list N := k ++ skipn (length k) buf.

(** varlen/node.hpp:358-380 SearchRecord of a leaf with char* keys and CompareAsCString;
    [q]: the memory the key argument points to, not the buffer.  Also the buffer afterwards. *)
Fixpoint var_bs (fuel : nat) (p : vpage) (q buf : list N) (b e : Z) : bool * Z * list N :=
  match fuel with
  | O => (false, b, buf)
  | S f =>
      if b <=? e then
        let pos := (b + e) / 2 in
        let buf1 := copy_key buf (var_key p (Z.to_N pos)) in
        if as_cstring_lt (Some q) (Some buf1) then var_bs f p q buf1 b (pos - 1)
        else if as_cstring_lt (Some buf1) (Some q) then var_bs f p q buf1 (pos + 1) e
        else (true, pos, buf1)
      else (false, b, buf)
  end.
Definition var_search (p : vpage) (q buf : list N) : bool * Z * list N :=
  var_bs (S (N.to_nat (vp_cnt p))) p q buf 0 (Z.of_N (vp_cnt p) - 1).
