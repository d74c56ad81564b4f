(** When bytes stand for a page, a delta record or a delta chain of Page.v.  [ek] and
    [ev] give the bytes of a key and of a payload.  Definitions only. *)
From Coq Require Import ZArith NArith List Bool Sorting.Sorted.
From Verif Require Import Config Page ListFacts ChainSpec Bytes FixLayout VarLayout DeltaBytes ByteCons.
Import ListNotations.

(** Key bytes are compared like keys (of the key type: [K]) and have the right length;
    payloads have the size of the level. *)
Definition coding (g : cfg) (inner : bool) (K : Z -> Prop) (lt : list N -> list N -> bool)
    (ek : Z -> list N) (ev : N -> list N) : Prop :=
  (forall a b, K a -> K b -> lt (ek a) (ek b) = (a <? b)%Z) /\
  (forall k, Z.of_N (blen (ek k)) = klen g k) /\
  (forall v, Z.of_N (blen (ev v)) = paysz g inner).

Definition fence (ek : Z -> list N) (k : option Z) : list N :=
  match k with Some x => ek x | None => [] end.

(** The first record of a leftmost inner page has no key. *)
Definition nokey (inner : bool) (n : node) (i : nat) : bool := inner && is_leftmost n && Nat.eqb i 0.

Definition vnode_rep (ek : Z -> list N) (ev : N -> list N) (inner : bool) (n : node) (p : vpage) : Prop :=
  vp_cnt p = N.of_nat (length (n_recs n)) /\ Z.of_N (vp_size p) = n_size n /\
  (forall i k v, nth_error (n_recs n) i = Some (k, v) ->
     var_key p (N.of_nat i) = (if nokey inner n i then [] else ek k) /\
     var_pay p (blen (ev v)) (N.of_nat i) = ev v /\
     mt_rlen (meta_at p (N.of_nat i)) = (mt_klen (meta_at p (N.of_nat i)) + blen (ev v))%N) /\
  key_of (vp_mem p) (vp_low p) = fence ek (n_low n) /\
  key_of (vp_mem p) (vp_high p) = fence ek (n_high n).

Definition vdelta_rep (ek : Z -> list N) (ev : N -> list N) (d : delta) (b : vdelta) : Prop :=
  vard_key b = ek (d_key d) /\ vd_type b = d_type d /\
  (d_type d <> DDelete ->
     vard_pay b (blen (ev (d_pay d))) = ev (d_pay d) /\
     mt_rlen (vd_meta b) = (mt_klen (vd_meta b) + blen (ev (d_pay d)))%N).

Definition fnode_rep (L : flay) (ps : N) (ek : Z -> list N) (ev : N -> list N) (inner : bool) (n : node) (p : fnode) : Prop :=
  fp_cnt (fn_page p) = N.of_nat (length (n_recs n)) /\ Z.of_N (fp_size (fn_page p)) = n_size n /\
  (forall i k v, nth_error (n_recs n) i = Some (k, v) ->
     (nokey inner n i = false -> fix_key L (fn_page p) (N.of_nat i) = ek k) /\
     fix_pay L (fn_page p) ps (N.of_nat i) = ev v) /\
  fn_haslow p = negb (is_leftmost n) /\
  (forall k, n_low n = Some k -> fixn_low L p = ek k) /\
  fn_hashigh p = (match n_high n with Some _ => true | None => false end) /\
  (forall k, n_high n = Some k -> fixn_high L p = ek k).

Definition fdelta_rep (L : flay) (ps : N) (ek : Z -> list N) (ev : N -> list N) (d : delta) (b : fdelta) : Prop :=
  fixd_key L b = ek (d_key d) /\ fd_type b = d_type d /\
  (d_type d <> DDelete -> fixd_pay L b ps = ev (d_pay d)).

(** The keys stored in a chain are of the key type. *)
Definition page_keys (K : Z -> Prop) (inner : bool) (n : node) : Prop :=
  forall i k v, nth_error (n_recs n) i = Some (k, v) -> nokey inner n i = false -> K k.
Fixpoint chain_keys (K : Z -> Prop) (inner : bool) (c : chain) : Prop :=
  match c with
  | CBase n => page_keys K inner n
  | CRec d nx => K (d_key d) /\ chain_keys K inner nx
  | CMerge _ n nx => page_keys K inner n /\ chain_keys K inner nx
  | CRemove _ _ => True
  end.

(** A chain of bytes stands for a chain. *)
Fixpoint chain_rep {P D} (np : node -> P -> Prop) (dp : delta -> D -> Prop) (c : chain) (b : bchain P D) : Prop :=
  match c, b with
  | CBase n, BBase p => np n p
  | CRec d nx, BRec bd bx => dp d bd /\ chain_rep np dp nx bx
  | CMerge _ n nx, BMerge _ p bx => np n p /\ chain_rep np dp nx bx
  | _, _ => False
  end.

(** What a node has to hold: in a leaf the records visible through the chain in
    ascending order, in an inner node the children and separators of the chain. *)
Definition holds (inner : bool) (c : chain) (rs : list (key * val)) : Prop :=
  if inner then exists k0, rs = (k0, ilead c) :: ients c
  else StronglySorted (fun x y => (fst x < fst y)%Z) rs /\
       forall k v, In (k, v) rs <-> visible c k = Some v.

(** Numbers of the page layout agree with the configuration. *)
Definition flay_ok (g : cfg) (L : flay) (e : N) : Prop :=
  Z.of_N (fl_page L) = c_page g /\ Z.of_N (fl_hdr L) = c_hdr g /\ Z.of_N (fl_ks L) = c_ksize g /\
  (2 * fl_ks L <= fl_koff L)%N /\ (fl_koff L <= fl_hdr L)%N /\ fl_page L = (2 ^ e)%N.
