(** The point operations of the public API (bw_tree.hpp:145-452) and their results
    (ReturnCode, utility.hpp:54-58; Read returns std::optional). *)
From Verif Require Import Config.

Inductive rc := Success | KeyExist | KeyNotExist.
Inductive call :=
| KRead (k : key) | KWrite (k : key) (v : val) | KInsert (k : key) (v : val)
| KUpdate (k : key) (v : val) | KDelete (k : key).
Inductive ret := RVal (o : option val) | RCode (c : rc).
