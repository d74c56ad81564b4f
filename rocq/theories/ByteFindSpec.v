(** When the accessors of page and record classes return what a page, a delta record or a
    chain of Page.v holds.  [ek] and [ev] give the bytes of a key and of a payload,
    [cell] the child stored in an index-entry delete.  Definitions only. *)
From Coq Require Import ZArith NArith List Bool.
From Verif Require Import Config Page ListFacts ChainSpec Bytes ByteCons ByteConsSpec ByteFind.
Import ListNotations.

Section Stands.
Context {P D : Type}.
Variable F : finder P D.
Variables (ek : Z -> list N) (ev : N -> list N) (cell : addr -> pid) (inner : bool).

Definition page_stands (n : node) (p : P) : Prop :=
  n_inner n = inner /\
  q_cnt F p = N.of_nat (length (n_recs n)) /\
  (forall i k v, nth_error (n_recs n) i = Some (k, v) ->
     (nokey inner n i = false -> q_key F p (N.of_nat i) = ek k) /\ q_pay F p (N.of_nat i) = ev v) /\
  q_lm F p = is_leftmost n /\
  (forall l, n_low n = Some l -> q_low F p = ek l) /\
  q_high F p = option_map ek (n_high n).
Definition delta_stands (d : delta) (b : D) : Prop :=
  r_type F b = d_type d /\ r_key F b = ek (d_key d) /\
  (d_type d <> DDelete -> r_pay F b = ev (d_pay d)) /\
  (inner = true -> r_high F b = option_map ek (d_high d)) /\
  (inner = true -> d_type d = DDelete -> r_child F b = ev (cell (d_addr d))).
Definition merge_stands (d : delta) (b : D) : Prop :=
  r_key F b = ek (d_key d) /\ r_high F b = option_map ek (d_high d).
Fixpoint chain_stands (c : chain) (b : bchain P D) : Prop :=
  match c, b with
  | CBase n, BBase p => page_stands n p
  | CRec d nx, BRec bd bx => delta_stands d bd /\ chain_stands nx bx
  | CMerge d n nx, BMerge bd p bx => merge_stands d bd /\ page_stands n p /\ chain_stands nx bx
  | _, _ => False
  end.
End Stands.

(** Fence keys and separators of merged pages are of the key type. *)
Definition opt_key (K : Z -> Prop) (k : option Z) : Prop := match k with Some x => K x | None => True end.
Fixpoint fence_keys (K : Z -> Prop) (c : chain) : Prop :=
  match c with
  | CBase n => opt_key K (n_low n) /\ opt_key K (n_high n)
  | CRec d nx => opt_key K (d_high d) /\ fence_keys K nx
  | CMerge d _ nx => K (d_key d) /\ opt_key K (d_high d) /\ fence_keys K nx
  | CRemove _ _ => True
  end.

(** The outcome of a search in bytes next to the outcome of the same search in Page.v. *)
Definition res_agree {P} (np : node -> P -> Prop) (ev : N -> list N) (cell : addr -> pid) (r : dres) (f : fres P) : Prop :=
  match r, f with
  | RFound v, FFound b => b = ev v
  | RWait a, FFound b => b = ev (cell a)
  | RNotFound, FNone => True
  | RSibling x, FSib p => exists n, np n p /\ n_next n = x
  | RBase n, FBase p => np n p
  | RGarbage, FGarbage => True
  | _, _ => False
  end.
Definition mres_agree {P} (np : node -> P -> Prop) (r : mres) (f : fmres P) : Prop :=
  match r, f with
  | MFound, FMFound | MAbort, FMAbort | MGarbage, FMGarbage => True
  | MSibling x _, FMSib p => exists n, np n p /\ n_next n = x
  | MBase n kf sf _, FMBase p kf' sf' => np n p /\ kf = kf' /\ sf = sf'
  | _, _ => False
  end.
