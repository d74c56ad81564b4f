(** Clients of the tree on bytes next to the clients of Client.v: encoded requests,
    answers and events, and what is asked of the execution of Client.v.  Definitions only. *)
From Coq Require Import ZArith NArith List Bool.
From Verif Require Import Config Api Spec Page Machine Tree Scan Client ClientSpec Bytes ByteTree ByteTreeSpec ByteScan.
Import ListNotations.
Open Scope Z_scope.

Section Enc.
Variables (ek : Z -> list N) (ev : N -> list N).
Definition enc_bound (b : bound) : bbound := option_map (fun x => (ek (fst x), snd x)) b.
Definition enc_req (q : req) : breq :=
  match q with
  | QCall o => BQCall (enc_call ek ev o) | QOpen b e => BQOpen (enc_bound b) (enc_bound e)
  | QNext => BQNext | QStat d => BQStat d
  end.
Definition enc_ans (a : ans) : bans :=
  match a with
  | ACall r => BACall (enc_ret ev r) | AOpen => BAOpen | ARec (k, v) => BARec (ek k) (ev v)
  | AEnd => BAEnd | AStat l => BAStat l
  end.
Definition enc_kevent (e : kevent) : bkevent :=
  match e with VInv t q => BVInv t (enc_req q) | VRes t a => BVRes t (enc_ans a) end.
End Enc.

(** The keys a request names. *)
Definition bound_key (K : key -> Prop) (b : bound) : Prop := match b with Some (k, _) => K k | None => True end.
Definition req_keys (K : key -> Prop) (q : req) : Prop :=
  match q with
  | QCall o => K (call_key o) | QOpen b e => bound_key K b /\ bound_key K e
  | QNext | QStat _ => True
  end.

(** As [steady]. *)
Definition ksteady (g : cfg) (fuel : nat) (c : kst) (sch : list (nat * bool)) : Prop :=
  forall i, let c' := fst (kexec g fuel c (firstn i sch)) in
    ~ kcrashed c' /\
    (forall t b m r x, nth_error sch i = Some (t, b) -> nth_error (k_thr c') t = Some (KRun m r) ->
       meets m b (k_mem c') x -> sane g x) /\
    (s_npid (k_mem c') <= 2 ^ 64)%N.

(** A history, cut into the events of single steps, is explained by point calls that each
    take effect once and by iterations as [scan_ok] says. *)
Inductive told : smap -> (nat -> view) -> list (nat * list kevent) -> Prop :=
| told_nil M f : told M f []
| told_step M f t h M' f' r : keffect t M f h M' f' -> told M' (observe M' f') r -> told M f ((t, h) :: r).
