(** What histories of calls must not show (C43, C44). *)
From Coq Require Import ZArith NArith List Bool.
From Verif Require Import Config Api Page Machine Tree Spec Conc ConcSpec.
Import ListNotations.

(** The call stores the value [v] under the key [k]. *)
Definition stores (k : key) (v : val) (o : call) : Prop :=
  o = KWrite k v \/ o = KInsert k v \/ o = KUpdate k v.

(** A value that a Read reports was passed under the same key to a call invoked before. *)
Definition values_from_calls (h : list event) : Prop :=
  forall h1 t v h2 k, h = h1 ++ ERes t (RVal (Some v)) :: h2 ->
    pending no_call h1 t = Some (KRead k) ->
    exists u o, In (EInv u o) h1 /\ stores k v o.

(** The same for a tree that contained the map [M0] before. *)
Definition values_from (M0 : smap) (h : list event) : Prop :=
  forall h1 t v h2 k, h = h1 ++ ERes t (RVal (Some v)) :: h2 ->
    pending no_call h1 t = Some (KRead k) ->
    M0 k = Some v \/ exists u o, In (EInv u o) h1 /\ stores k v o.

(** A call that stores [k] is invoked and succeeds at a time when no Delete of [k] is in
    progress, and none is invoked later: a Read of [k] running alone at the end finds a
    value. *)
Definition stored_stays (g : cfg) (e : cst * list event) : Prop :=
  forall k v h1 a t b o, snd e = h1 ++ a ++ ERes t (RCode Success) :: b ->
    (forall u, pending no_call h1 u <> Some (KDelete k)) ->
    (forall u, ~ In (EInv u (KDelete k)) (a ++ b)) ->
    pending no_call a t = Some o -> stores k v o ->
    forall fuel, match run (op_read g fuel k) (c_mem (fst e)) with
                 | Done None _ | Crash _ => False
                 | _ => True
                 end.
