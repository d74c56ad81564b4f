(** The lemmas behind the theorems of PropSeq.v. *)
From Coq Require Import ZArith NArith List Bool Lia.
From Verif Require Import Config Api Page Machine Tree Spec Valid RunFacts SeqSpec SeqOps.
Import ListNotations.

Lemma c01 g os : cfg_ok g -> exists F s, forall f, (F <= f)%nat ->
  run_calls g f os (init g) = Done (fst (spec_run sempty os)) s.
Proof.
  intros OK. destruct (calls_ok g OK os (init g) sempty (init_tree g OK)) as (F & s & _ & H).
  exists F, s. auto.
Qed.

Lemma c02 g os o : cfg_ok g -> exists F rs s r s', 
  (forall f, (F <= f)%nat -> run_calls g f os (init g) = Done rs s /\ run (call_prog g f o) s = Done r s') /\
  (r = RCode KeyExist \/ r = RCode KeyNotExist ->
     s_tbl s' = s_tbl s /\ s_root s' = s_root s /\ s_npid s' = s_npid s /\ s_cell s' = s_cell s /\ s_gc s' = s_gc s) /\
  (forall k, o = KRead k -> s' = s).
Proof.
  intros OK. destruct (calls_ok g OK os (init g) sempty (init_tree g OK)) as (F & s & T & H).
  destruct (evp_done _ _ _ (call_ok g OK s _ o T)) as (r & s' & (_ & _ & A & B) & F1 & H1).
  exists (max F F1), (fst (spec_run sempty os)), s, r, s'. split; [|split; auto].
  - intros f Hf. rewrite H, H1 by lia. auto.
  - intros Hr. rewrite A by (destruct Hr as [-> | ->]; reflexivity). cbn. auto.
Qed.
