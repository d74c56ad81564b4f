(** The specification: a finite map with the documented return codes
    (README; bw_tree.hpp:133-144, 244-259, 299-312, 352-366, 405-416) and
    linearizability.  Nothing here mentions pages, chains or the model. *)
From Coq Require Import ZArith NArith List Bool.
From Verif Require Import Config Api.
Import ListNotations.
Open Scope Z_scope.

Definition smap := key -> option val.
Definition sempty : smap := fun _ => None.
Definition sset (m : smap) (k : key) (v : option val) : smap :=
  fun x => if x =? k then v else m x.

(** What each call returns and how it changes the map. *)
Definition spec (m : smap) (o : call) : ret * smap :=
  match o with
  | KRead k => (RVal (m k), m)
  | KWrite k v => (RCode Success, sset m k (Some v))
  | KInsert k v =>
      match m k with
      | Some _ => (RCode KeyExist, m)
      | None => (RCode Success, sset m k (Some v))
      end
  | KUpdate k v =>
      match m k with
      | Some _ => (RCode Success, sset m k (Some v))
      | None => (RCode KeyNotExist, m)
      end
  | KDelete k =>
      match m k with
      | Some _ => (RCode Success, sset m k None)
      | None => (RCode KeyNotExist, m)
      end
  end.

Fixpoint spec_run (m : smap) (os : list call) : list ret * smap :=
  match os with
  | [] => ([], m)
  | o :: t =>
      let '(r, m1) := spec m o in
      let '(rs, m2) := spec_run m1 t in (r :: rs, m2)
  end.

(** ** Linearizability *)

Definition tid := nat.
Inductive event := EInv (t : tid) (o : call) | ERes (t : tid) (r : ret).
Inductive status := SIdle | SPend (o : call) | SDone (r : ret).
Definition tset (f : tid -> status) (t : tid) (x : status) : tid -> status :=
  fun u => if Nat.eqb u t then x else f u.

(** [lin m f h]: with the map [m] and the calls in progress [f], the history [h]
    can be explained by letting each pending call take effect atomically at one
    instant between its invocation and its response. *)
Inductive lin : smap -> (tid -> status) -> list event -> Prop :=
| lin_nil m f : lin m f []
| lin_inv m f t o h :
    f t = SIdle -> lin m (tset f t (SPend o)) h -> lin m f (EInv t o :: h)
| lin_res m f t r h :
    f t = SDone r -> lin m (tset f t SIdle) h -> lin m f (ERes t r :: h)
| lin_eff m f t o h :
    f t = SPend o ->
    lin (snd (spec m o)) (tset f t (SDone (fst (spec m o)))) h -> lin m f h.

Definition linearizable (m : smap) (h : list event) : Prop := lin m (fun _ => SIdle) h.
