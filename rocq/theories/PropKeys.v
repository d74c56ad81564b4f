(** C40 and C41: keys as they lie in memory. *)
From Coq Require Import ZArith NArith List Bool Lia Sorting.Sorted.
From Verif Require Import Config Api Page Machine Tree Scan Valid KeyBuf KeyBufFacts.
From Verif Require Import Bytes FixLayout VarLayout Misc LayoutSpec LayoutFacts ByteSearch ByteFacts PropTree PropLayout.
Import ListNotations.
Open Scope Z_scope.

(** ** C40: passing a key obtained from an iterator to a call *)

(** With value keys (any type but char* ) the call behaves as if it were given the key.
    Missing: char* keys, see below. *)
Theorem C40_iterator_key_partial g fuel o buf s : c_ptr g = false ->
  run (call_r g fuel o (iter_key g (KeyBufFacts.key_of o)) buf) s = run (call_prog g fuel o) s.
Proof. exact (call_iter_value g fuel o buf s). Qed.
Print Assumptions C40_iterator_key_partial.

(** With char* keys the same holds for a copy of the key in the caller's own memory,
    whatever the buffer of the index holds. *)
Theorem C40_copied_key_partial g fuel o buf s :
  run (call_r g fuel o (KVal (KeyBufFacts.key_of o)) buf) s = run (call_prog g fuel o) s.
Proof. exact (call_own_key g fuel o buf s). Qed.
Print Assumptions C40_copied_key_partial.

(** C40 is false for char* keys.  Default settings, strings of eight bytes, keys 1 to 48
    with different payloads.  The first record of a full scan has key 1; Read with the
    pointer returned by GetKey yields the payload of another key, and Delete with it
    reports success, keeps key 1 and deletes another record. *)
Definition cfg_ptr : cfg := mk_cfg true (fun _ => 8) 8 128 8 32 1024 64 4 64 921 0 true.
Definition puts (n : nat) : list call := map (fun k => KWrite (Z.of_nat k) (N.of_nat k)) (seq 1 n).
Definition reads_as (s : st) (k : key) (x : option val) : bool :=
  match run (op_read cfg_ptr 60 k) s with
  | Done (Some v) _ => match x with Some w => N.eqb v w | None => false end
  | Done None _ => match x with Some _ => false | None => true end
  | _ => false
  end.
Definition alias_case (s : st) : bool :=
  match run (op_scan cfg_ptr 60 None None) s with
  | Done (pg, it) _ =>
      match get_record pg it with
      | Some (k, v) =>
          (k =? 1) && N.eqb v 1 &&
          match run (call_r cfg_ptr 60 (KRead 1) (iter_key cfg_ptr 1) 1) s with
          | Done (RVal (Some w)) _ => N.eqb w 33
          | _ => false
          end &&
          match run (call_r cfg_ptr 60 (KDelete 1) (iter_key cfg_ptr 1) 1) s with
          | Done (RCode Success) s' =>
              reads_as s 21 (Some 21%N) && reads_as s' 1 (Some 1%N) && reads_as s' 21 None
          | _ => false
          end
      | None => false
      end
  | _ => false
  end.
Lemma reads_as_run s k x : reads_as s k x = true ->
  exists s', run (op_read cfg_ptr 60 k) s = Done x s'.
Proof.
  unfold reads_as. destruct (run _ s) as [[v|] s'| |]; destruct x; try discriminate; eauto.
  intros H. apply N.eqb_eq in H. subst. eauto.
Qed.
Lemma alias_case_spec s : alias_case s = true ->
  exists pg it s0 s1 s' k2 v2,
    run (op_scan cfg_ptr 60 None None) s = Done (pg, it) s0 /\ get_record pg it = Some (1, 1%N) /\
    (exists w, w <> 1%N /\
       run (call_r cfg_ptr 60 (KRead 1) (iter_key cfg_ptr 1) 1) s = Done (RVal (Some w)) s1) /\
    run (call_r cfg_ptr 60 (KDelete 1) (iter_key cfg_ptr 1) 1) s = Done (RCode Success) s' /\
    (exists s2, run (op_read cfg_ptr 60 1) s' = Done (Some 1%N) s2) /\ k2 <> 1 /\
    (exists s2, run (op_read cfg_ptr 60 k2) s = Done (Some v2) s2) /\
    (exists s2, run (op_read cfg_ptr 60 k2) s' = Done None s2).
Proof.
  unfold alias_case. destruct (run (op_scan _ _ _ _) s) as [[pg it] s0| |]; try discriminate.
  destruct (get_record pg it) as [[k v]|] eqn:G; try discriminate.
  destruct (run (call_r _ _ (KRead 1) _ _) s) as [[[w|]|] s1| |];
    try (rewrite andb_false_r; discriminate).
  destruct (run (call_r _ _ (KDelete 1) _ _) s) as [[|[]] s'| |];
    try (rewrite andb_false_r; discriminate).
  rewrite !andb_true_iff. intros [[[Hk Hv] Hw] [[H1 H2] H3]].
  apply Z.eqb_eq in Hk. apply N.eqb_eq in Hv, Hw. subst.
  exists pg, it, s0, s1, s', 21, 21%N. split; auto. split; auto.
  split; [exists 33%N; split; [discriminate|auto]|]. split; auto.
  split; [apply reads_as_run; auto|]. split; [discriminate|]. split; apply reads_as_run; auto.
Qed.
Theorem C40_iterator_key_refuted :
  cfg_ok cfg_ptr /\ c_ptr cfg_ptr = true /\
  exists rs s pg it s0 s1 s' k2 v2,
    run_calls cfg_ptr 60 (puts 48) (init cfg_ptr) = Done rs s /\
    run (op_scan cfg_ptr 60 None None) s = Done (pg, it) s0 /\ get_record pg it = Some (1, 1%N) /\
    (exists w, w <> 1%N /\
       run (call_r cfg_ptr 60 (KRead 1) (iter_key cfg_ptr 1) 1) s = Done (RVal (Some w)) s1) /\
    run (call_r cfg_ptr 60 (KDelete 1) (iter_key cfg_ptr 1) 1) s = Done (RCode Success) s' /\
    (exists s2, run (op_read cfg_ptr 60 1) s' = Done (Some 1%N) s2) /\ k2 <> 1 /\
    (exists s2, run (op_read cfg_ptr 60 k2) s = Done (Some v2) s2) /\
    (exists s2, run (op_read cfg_ptr 60 k2) s' = Done None s2).
Proof.
  split; [constructor; [intros k; unfold klen; cbn; split; [reflexivity|discriminate]|..];
          vm_compute; repeat split; congruence|].
  split; [reflexivity|].
  assert (E : match run_calls cfg_ptr 60 (puts 48) (init cfg_ptr) with
              | Done _ s => alias_case s | _ => false end = true) by (vm_compute; reflexivity).
  destruct (run_calls cfg_ptr 60 (puts 48) (init cfg_ptr)) as [rs s| |]; try discriminate.
  apply alias_case_spec in E. destruct E as (pg & it & s0 & s1 & s' & k2 & v2 & E).
  exists rs, s, pg, it, s0, s1, s', k2, v2. split; [reflexivity|exact E].
Qed.
Print Assumptions C40_iterator_key_refuted.

(** A case of the partial theorems: deleting the first scanned key of tree40. *)
Example C40_case :
  match run (call_r cfg_p256 60 (KDelete 1) (iter_key cfg_p256 1) 1) tree40 with
  | Done (RCode Success) s => match run (op_read cfg_p256 60 1) s with Done None _ => true | _ => false end
  | _ => false
  end = true /\
  match run (call_r cfg_ptr 60 (KInsert 3 5%N) (KVal 3) 77) (init cfg_ptr) with
  | Done (RCode Success) s => match run (op_read cfg_ptr 60 3) s with Done (Some 5%N) _ => true | _ => false end
  | _ => false
  end = true.
Proof. split; vm_compute; reflexivity. Qed.

(** ** C41: searching the bytes of a page *)

(** Leaves of the fixed-length layout with unsigned integer keys of [fl_ks] bytes: the search
    returns the position of the key, where its payload is read; otherwise the key is absent
    and the position is where it belongs. *)
Theorem C41_fixlen_bytes_search L ps e m (rs : list (N * list N)) q :
  Forall (fun r => (fst r < 256 ^ fl_ks L)%N /\ blen (snd r) = ps) rs ->
  StronglySorted N.lt (map fst rs) ->
  (fl_page L = 2 ^ e)%N -> (0 < fl_hdr L)%N -> (fl_koff L <= fl_hdr L)%N ->
  (fl_hdr L + (fl_ks L + ps) * N.of_nat (length rs) <= fl_page L)%N ->
  let bytes := map (fun r => (le (N.to_nat (fl_ks L)) (fst r), snd r)) rs in
  let p := fst (fix_fill L (fix_new L m) (fl_page L) bytes) in
  match fix_search L p q with
  | (true, pos) => 0 <= pos /\ nth_error rs (Z.to_nat pos) = Some (q, fix_pay L p ps (Z.to_N pos))
  | (false, pos) => 0 <= pos <= Z.of_nat (length rs) /\
      forall i k v, nth_error rs i = Some (k, v) -> if Z.of_nat i <? pos then (k < q)%N else (q < k)%N
  end.
Proof. exact (fix_bytes_search L ps e m rs q). Qed.
Print Assumptions C41_fixlen_bytes_search.

(** Leaves of the variable-length layout with char* keys stored with their NUL; [x]: whatever
    follows the key argument in memory, [buf]: whatever the buffer holds. *)
Theorem C41_varlen_bytes_search_partial page m o (rs : list (list N * list N)) low high q x buf :
  cstr q -> Forall (fun r => cstr (fst r)) rs -> StronglySorted lex (map fst rs) ->
  let bytes := map (fun r => (fst r ++ [0%N], snd r)) rs in
  (o < 65536)%N -> (page <= o)%N ->
  (32 + 8 * N.of_nat (length rs) + rsum bytes + blen low + blen high <= o)%N ->
  (32 + blen low + blen high <= page)%N ->
  let p := var_high (var_low_leaf (fst (var_fill (var_new page m) o bytes)) low) high in
  match fst (var_search p (q ++ 0%N :: x) buf) with
  | (true, pos) => 0 <= pos /\ exists v, nth_error rs (Z.to_nat pos) = Some (q, v) /\
                     var_pay p (blen v) (Z.to_N pos) = v
  | (false, pos) => 0 <= pos <= Z.of_nat (length rs) /\
      forall i k v, nth_error rs i = Some (k, v) -> if Z.of_nat i <? pos then lex k q else lex q k
  end.
Proof. exact (var_bytes_search page m o rs low high q x buf). Qed.
Print Assumptions C41_varlen_bytes_search_partial.

(** Missing: keys stored without their NUL (key_len = strlen).  Then a stored key is not found:
    in a leaf with the keys "a", "ab" and "abc" the search for "a" first copies "ab" to the
    buffer and then, over its first byte, "a". *)
Definition no_nul : list (list N * list N) :=
  [([97], le 8 1); ([97; 98], le 8 2); ([97; 98; 99], le 8 3)]%N.
Theorem C41_keys_without_nul_refuted :
  Forall (fun r => cstr (fst r)) no_nul /\ StronglySorted lex (map fst no_nul) /\
  let p := var_high (var_low_leaf (fst (var_fill (var_new 1024 (fun _ => 0%N)) 1024 no_nul)) []) [] in
  In [97%N] (map fst no_nul) /\
  var_search p [97%N; 0%N] (repeat 0%N 128) = (false, 0, [97; 98]%N ++ repeat 0%N 126).
Proof.
  split; [repeat constructor; discriminate|].
  split; [repeat first [apply SSorted_cons | apply SSorted_nil | apply Forall_cons | apply Forall_nil
                       | apply lex_nil | apply lex_eq]|].
  cbv zeta. split; [left; reflexivity|vm_compute; reflexivity].
Qed.
Print Assumptions C41_keys_without_nul_refuted.

Example C41_case :
  fix_search ex_lay (fst (fix_fill ex_lay (fix_new ex_lay (fun _ => 255%N)) 1024 ex_recs)) 40000 = (true, 40) /\
  fix_search ex_lay (fst (fix_fill ex_lay (fix_new ex_lay (fun _ => 255%N)) 1024 ex_recs)) 40001 = (false, 41) /\
  let p := var_high (var_low_leaf (fst (var_fill (var_new 1024 (fun _ => 255%N)) 1024
             (map (fun r => (fst r ++ [0%N], snd r)) no_nul))) [97; 0]%N) [100; 0]%N in
  fst (var_search p [97; 0; 5; 5]%N (repeat 7%N 128)) = (true, 0) /\
  fst (var_search p [97; 98; 98; 0]%N (repeat 7%N 128)) = (false, 2).
Proof. vm_compute. repeat split. Qed.
