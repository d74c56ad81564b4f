(** Facts about levels as lists of nodes (no memory, no programs). *)
From Coq Require Import ZArith NArith List Bool Lia.
From Coq Require Import Sorting.Sorted ZifyBool ZifyNat ZifyN.
From Verif Require Import Config Page Machine ListFacts SearchFacts ChainSpec ChainFacts Valid SeqSpec.
Import ListNotations.
Open Scope Z_scope.

Ltac ord := unfold in_rng, in_srng, rng_ne, hi_ok, lo_ok, lo_lt, olt, ole in *;
  repeat match goal with
  | x : option Z |- _ => destruct x
  | H : context [match ?x with Some _ => _ | None => _ end] |- _ => destruct x eqn:?
  | |- context [match ?x with Some _ => _ | None => _ end] => destruct x eqn:?
  end; try congruence; try tauto; try lia.

Lemma lob_ok a k : lob a k = true <-> lo_ok a k.
Proof. unfold lob, lo_ok. destruct a; [lia|tauto]. Qed.
Lemma lob_no a k : lob a k = false <-> ~ lo_ok a k.
Proof. rewrite <- lob_ok. destruct (lob a k); split; congruence. Qed.
Lemma ole_refl a : ole a a. Proof. destruct a; simpl; [lia|auto]. Qed.
Lemma ole_trans a b c : ole a b -> ole b c -> ole a c.
Proof. intros; ord. Qed.
Lemma olt_ole a b : olt a b -> ole a b. Proof. intros; ord. Qed.
Lemma olt_trans a b c : olt a b -> olt b c -> olt a c. Proof. intros; ord. Qed.
Lemma olt_le_trans a b c : olt a b -> ole b c -> olt a c. Proof. intros; ord. Qed.
Lemma ole_lt_trans a b c : ole a b -> olt b c -> olt a c. Proof. intros; ord. Qed.
Lemma olt_irrefl a : ~ olt a a. Proof. intros H; ord. Qed.
Lemma lo_ok_ole a b k : ole a b -> lo_ok b k -> lo_ok a k. Proof. intros; ord. Qed.
Lemma ole_lo_ok a k : ole a (Some k) <-> lo_ok a k. Proof. split; intros; ord. Qed.

Lemma osorted_app_inv l1 l2 : osorted (l1 ++ l2) ->
  osorted l1 /\ osorted l2 /\ (forall x y, In x l1 -> In y l2 -> olt (fst x) (fst y)).
Proof.
  unfold osorted. induction l1 as [|x l1 IH]; simpl; intros H.
  - split; [constructor|split; auto; easy].
  - inversion H as [|? ? H1 F]; subst. apply IH in H1 as (A & B & C).
    apply Forall_app in F as [F1 F2]. rewrite Forall_forall in F2.
    split; [constructor; auto|]. split; auto. intros a b [->|Ha] Hb; auto.
Qed.
Lemma osorted_app l1 l2 : osorted l1 -> osorted l2 ->
  (forall x y, In x l1 -> In y l2 -> olt (fst x) (fst y)) -> osorted (l1 ++ l2).
Proof.
  unfold osorted. induction l1 as [|x l1 IH]; simpl; intros H1 H2 H; auto.
  inversion H1 as [|? ? H3 F]; subst. constructor.
  - apply IH; auto.
  - apply Forall_app; split; auto. apply Forall_forall. intros; apply H; auto.
Qed.
Lemma osorted_cons_inv x l : osorted (x :: l) ->
  osorted l /\ Forall (fun y => olt (fst x) (fst y)) l.
Proof. intros H. inversion H; subst; auto. Qed.
Lemma osorted_ekey l : sorted l -> osorted (ekey l).
Proof.
  induction 1 as [|[k v] l Hs IH F]; cbn; constructor; auto.
  apply Forall_forall. intros [x w] Hx. unfold ekey in Hx. apply in_map_iff in Hx as ([y u] & E & Hy).
  inversion E; subst. rewrite Forall_forall in F. apply (F _ Hy).
Qed.

Lemma in_ekey x l : In x (ekey l) <-> exists k v, x = (Some k, v) /\ In (k, v) l.
Proof.
  unfold ekey. rewrite in_map_iff. split.
  - intros ([k v] & <- & H). eauto.
  - intros (k & v & -> & H). exists (k, v). auto.
Qed.
Lemma ekey_app a b : ekey (a ++ b) = ekey a ++ ekey b.
Proof. apply map_app. Qed.

(** ** Lists of nodes *)
Lemma lows_app a b : lows (a ++ b) = lows a ++ lows b.
Proof. apply map_app. Qed.
Lemma flat_of_app i a b : flat_of i (a ++ b) = flat_of i a ++ flat_of i b.
Proof. apply flat_map_app. Qed.
Lemma flat_of_cons i p c t : flat_of i ((p, c) :: t) = cents i c ++ flat_of i t.
Proof. reflexivity. Qed.
Lemma lows_cons p c t : lows ((p, c) :: t) = (c_lo c, p) :: lows t.
Proof. reflexivity. Qed.
Lemma in_lows x N : In x (lows N) <-> exists p c, x = (c_lo c, p) /\ In (p, c) N.
Proof.
  unfold lows. rewrite in_map_iff. split.
  - intros ([p c] & <- & H). eauto.
  - intros (p & c & -> & H). exists (p, c). auto.
Qed.

Lemma hlo_app a b eh : hlo (a ++ b) eh = hlo a (hlo b eh).
Proof. destruct a as [|[? ?] ?]; reflexivity. Qed.
Lemma hpid_app a b ep : hpid (a ++ b) ep = hpid a (hpid b ep).
Proof. destruct a as [|[? ?] ?]; reflexivity. Qed.
Lemma linked_app a b eh ep :
  linked (a ++ b) eh ep <-> linked a (hlo b eh) (hpid b ep) /\ linked b eh ep.
Proof.
  induction a as [|[p c] a IH]; cbn [app linked]; [tauto|].
  rewrite IH, hlo_app, hpid_app. tauto.
Qed.

(** Replacing the chain of a node by one with the same bounds. *)
Lemma linked_upd n1 p c c' n2 eh ep :
  c_lo c' = c_lo c -> c_hi c' = c_hi c -> c_next c' = c_next c ->
  linked (n1 ++ (p, c) :: n2) eh ep -> linked (n1 ++ (p, c') :: n2) eh ep.
Proof.
  intros E1 E2 E3. rewrite !linked_app. cbn [linked hlo hpid]. rewrite E1, E2, E3. auto.
Qed.
Lemma lows_upd n1 p c c' n2 : c_lo c' = c_lo c ->
  lows (n1 ++ (p, c') :: n2) = lows (n1 ++ (p, c) :: n2).
Proof. intros E. rewrite !lows_app, !lows_cons, E. reflexivity. Qed.
Lemma hlo_upd n1 p c c' n2 eh : c_lo c' = c_lo c ->
  hlo (n1 ++ (p, c') :: n2) eh = hlo (n1 ++ (p, c) :: n2) eh.
Proof. intros E. rewrite !hlo_app. cbn [hlo]. rewrite E. auto. Qed.

(** Splitting a node. *)
Lemma linked_split n1 p c n2 eh ep l r q sep :
  linked (n1 ++ (p, c) :: n2) eh ep ->
  c_lo l = c_lo c -> c_hi l = Some sep -> c_next l = q ->
  c_lo r = Some sep -> c_hi r = c_hi c -> c_next r = c_next c ->
  linked (n1 ++ (p, l) :: (q, r) :: n2) eh ep.
Proof.
  rewrite !linked_app. cbn [linked hlo hpid]. intros (A & B & C & D) E1 E2 E3 E4 E5 E6.
  rewrite E1, E2, E3, E4, E5, E6. auto 10.
Qed.
(** Absorbing the right neighbour. *)
Lemma linked_merge n1 l cl p c n2 eh ep m :
  linked (n1 ++ (l, cl) :: (p, c) :: n2) eh ep ->
  c_lo m = c_lo cl -> c_hi m = c_hi c -> c_next m = c_next c ->
  linked (n1 ++ (l, m) :: n2) eh ep.
Proof.
  rewrite !linked_app. cbn [linked hlo hpid]. intros (A & _ & _ & B & C & D) E1 E2 E3.
  rewrite E1, E2, E3. auto.
Qed.

Definition ohi (a h : option key) : Prop := match h with Some _ => olt a h | None => True end.

Section Cfg.
Variable g : cfg.

Lemma cwf_rng i c : cwf g i c -> rng_ne (c_lo c) (c_hi c).
Proof. destruct i; [apply iwf_rng|apply lwf_rng]. Qed.

Lemma cents_rng i c : cwf g i c ->
  forall x, In x (cents i c) -> ole (c_lo c) (fst x) /\ ohi (fst x) (c_hi c).
Proof.
  intros Hw x Hx. pose proof (cwf_rng _ _ Hw) as Hr. destruct i; cbn [cents cwf] in *.
  - destruct (iwf_sorted _ _ Hw) as [_ F]. rewrite Forall_forall in F.
    destruct Hx as [<-|Hx]; cbn [fst].
    + split; [apply ole_refl|]. unfold ohi; ord.
    + apply in_ekey in Hx as (k & v & -> & Hx). apply F in Hx. cbn [fst] in *.
      unfold ohi; split; ord.
  - destruct (lwf_sorted _ _ Hw) as [_ F]. rewrite Forall_forall in F.
    apply in_ekey in Hx as (k & v & -> & Hx). apply F in Hx. cbn [fst] in *.
    unfold ohi; split; ord.
Qed.

Lemma cents_sorted i c : cwf g i c -> osorted (cents i c).
Proof.
  intros Hw. destruct i; cbn [cents cwf] in *.
  - destruct (iwf_sorted _ _ Hw) as [S F]. constructor; [apply osorted_ekey; auto|].
    apply Forall_forall. intros x Hx. apply in_ekey in Hx as (k & v & -> & Hx).
    rewrite Forall_forall in F. apply F in Hx. cbn [fst] in *. ord.
  - apply osorted_ekey, (lwf_sorted g c Hw).
Qed.

(** Nodes right of a node start at or above its high key. *)
Lemma right_ge n1 p c n2 : osorted (lows (n1 ++ (p, c) :: n2)) -> linked (n1 ++ (p, c) :: n2) None 0%N ->
  forall q d, In (q, d) n2 -> c_hi c <> None /\ ole (c_hi c) (c_lo d) /\ c_lo d <> None.
Proof.
  intros Hs Hl q d Hd. rewrite lows_app, lows_cons in Hs. apply osorted_app_inv in Hs as (_ & Hs & _).
  apply osorted_cons_inv in Hs as [Hs F].
  apply linked_app in Hl as [_ Hl]. cbn [linked] in Hl. destruct Hl as [Hh _].
  destruct n2 as [|[q' d'] n2]; [easy|]. cbn [hlo] in Hh. rewrite Hh.
  rewrite lows_cons in F, Hs. apply Forall_inv in F as F1. cbn [fst] in F1.
  apply osorted_cons_inv in Hs as [Hs F2]. split; [intros E; rewrite E in F1; ord|].
  destruct Hd as [E|Hd].
  - inversion E; subst. split; [apply ole_refl|]. intros E'; rewrite E' in F1; ord.
  - rewrite Forall_forall in F2. specialize (F2 (c_lo d, q)). cbn [fst] in F2.
    assert (olt (c_lo d') (c_lo d)) by (apply F2, in_lows; eauto).
    split; [apply olt_ole; auto|]. intros E'; rewrite E' in *; ord.
Qed.
Lemma left_le n1 p c n2 : osorted (lows (n1 ++ (p, c) :: n2)) ->
  forall q d, In (q, d) n1 -> olt (c_lo d) (c_lo c).
Proof.
  intros Hs q d Hd. rewrite lows_app, lows_cons in Hs. apply osorted_app_inv in Hs as (_ & _ & H).
  apply (H (c_lo d, q) (c_lo c, p)); [apply in_lows; eauto|left; auto].
Qed.
(** ... and end at or below its low key. *)
Lemma left_hi n1 p c n2 eh ep : osorted (lows (n1 ++ (p, c) :: n2)) -> linked (n1 ++ (p, c) :: n2) eh ep ->
  forall q d, In (q, d) n1 -> c_hi d <> None /\ ole (c_hi d) (c_lo c).
Proof.
  intros Hs Hl q d Hd. apply in_split in Hd as (a & b & ->).
  rewrite <- app_assoc in Hl, Hs. cbn [app] in Hl, Hs. apply linked_app in Hl as [_ Hl]. cbn [linked] in Hl.
  destruct Hl as [Hh _]. rewrite Hh, hlo_app. rewrite lows_app, lows_cons in Hs.
  apply osorted_app_inv in Hs as (_ & Hs & _). apply osorted_cons_inv in Hs as [Hs F].
  destruct b as [|[q' d'] b]; cbn [hlo app] in *.
  - rewrite lows_cons in F. apply Forall_inv in F. cbn [fst] in F. split; [intros E; rewrite E in F; ord|apply ole_refl].
  - rewrite lows_cons in Hs, F. apply Forall_inv in F. cbn [fst] in F.
    split; [intros E; rewrite E in F; ord|].
    apply osorted_cons_inv in Hs as [_ Hs]. rewrite Forall_forall in Hs.
    specialize (Hs (c_lo c, p)). cbn [fst] in Hs. apply olt_ole, Hs. rewrite lows_app. apply in_app_iff. right. left. auto.
Qed.

Lemma flat_of_in i N x : In x (flat_of i N) -> exists p c, In (p, c) N /\ In x (cents i c).
Proof. unfold flat_of. rewrite in_flat_map. intros ([p c] & H1 & H2). eauto. Qed.

Lemma flat_right i n1 p c n2 kk : Forall (fun x => cwf g i (snd x)) n2 ->
  osorted (lows (n1 ++ (p, c) :: n2)) -> linked (n1 ++ (p, c) :: n2) None 0%N ->
  hi_ok (c_hi c) kk -> Forall (fun y => ~ lo_ok (fst y) kk) (flat_of i n2).
Proof.
  intros Hw Hs Hl Hh. apply Forall_forall. intros x Hx. apply flat_of_in in Hx as (q & d & Hd & Hx).
  destruct (right_ge _ _ _ _ Hs Hl _ _ Hd) as (A & B & _). rewrite Forall_forall in Hw.
  destruct (cents_rng _ _ (Hw _ Hd) _ Hx) as [C _]. cbn [snd] in C.
  destruct (c_hi c); [|easy]. intros D. ord.
Qed.
Lemma flat_left i n1 p c n2 eh ep kk : Forall (fun x => cwf g i (snd x)) n1 ->
  osorted (lows (n1 ++ (p, c) :: n2)) -> linked (n1 ++ (p, c) :: n2) eh ep ->
  lo_ok (c_lo c) kk -> Forall (fun y => olt (fst y) (Some kk)) (flat_of i n1).
Proof.
  intros Hw Hs Hl Hh. apply Forall_forall. intros x Hx. apply flat_of_in in Hx as (q & d & Hd & Hx).
  destruct (left_hi _ _ _ _ _ _ Hs Hl _ _ Hd) as (A & B). rewrite Forall_forall in Hw.
  destruct (cents_rng _ _ (Hw _ Hd) _ Hx) as [_ C]. cbn [snd] in C. unfold ohi in C.
  destruct (c_hi d); [|easy]. ord.
Qed.

Lemma flat_sorted i N : Forall (fun x => cwf g i (snd x)) N ->
  osorted (lows N) -> linked N None 0%N -> osorted (flat_of i N).
Proof.
  induction N as [|[p c] t IH]; intros Hw Hs Hl; [constructor|].
  rewrite flat_of_cons. inversion Hw; subst. apply osorted_app.
  - apply cents_sorted; auto.
  - apply IH; auto. rewrite lows_cons in Hs. apply osorted_cons_inv in Hs. tauto. apply Hl.
  - intros x y Hx Hy. apply flat_of_in in Hy as (q & d & Hd & Hy).
    destruct (right_ge [] p c t Hs Hl _ _ Hd) as (A & B & _).
    destruct (cents_rng _ _ H1 _ Hx) as [_ C]. rewrite Forall_forall in H2.
    destruct (cents_rng _ _ (H2 _ Hd) _ Hy) as [D _]. cbn [snd] in *. unfold ohi in C.
    destruct (c_hi c); [|easy]. eapply olt_le_trans; eauto. eapply ole_trans; eauto.
Qed.

(** ** The entry responsible for a key *)
Lemma at_unique flat k x y : at_ flat k x -> at_ flat k y -> x = y.
Proof.
  intros (f1 & f2 & E1 & L1 & F1) (g1 & g2 & E2 & L2 & F2). rewrite E1 in E2. clear E1.
  revert g1 E2. induction f1 as [|a f1 IH]; intros [|b g1] E; cbn [app] in E; inversion E; subst; auto.
  - exfalso. rewrite Forall_forall in F1. apply (F1 y); auto. apply in_app_iff; right; left; auto.
  - exfalso. rewrite Forall_forall in F2. apply (F2 x); auto. apply in_app_iff; right; left; auto.
  - eapply IH; eauto.
Qed.
Lemma at_in flat k x : at_ flat k x -> In x flat.
Proof. intros (f1 & f2 & -> & _). apply in_app_iff; right; left; auto. Qed.
Lemma at_app f0 f1 f2 k x : at_ f1 k x -> Forall (fun y => ~ lo_ok (fst y) k) f2 ->
  at_ (f0 ++ f1 ++ f2) k x.
Proof.
  intros (a & b & -> & L & F) H. exists (f0 ++ a), (b ++ f2). rewrite <- !app_assoc. cbn [app].
  split; auto. split; auto. apply Forall_app; auto.
Qed.
Lemma at_route k d0 lead l : sorted l -> lo_ok d0 k ->
  exists lo, at_ ((d0, lead) :: ekey l) k (lo, route k lead l).
Proof.
  revert d0 lead. induction l as [|[x v] l IH]; intros d0 lead Hs Hl.
  - exists d0, [], []. repeat split; auto.
  - apply sorted_cons_inv in Hs as [Hs F]. cbn [route]. destruct (Z.leb_spec x k).
    + destruct (IH (Some x) v Hs H) as (lo & f1 & f2 & E & A & B).
      exists lo, ((d0, lead) :: f1), f2. split; [|auto]. cbn. f_equal. exact E.
    + exists d0, [], (ekey ((x, v) :: l)). repeat split; auto.
      apply Forall_forall. intros y Hy. apply in_ekey in Hy as (k' & v' & -> & Hy). cbn.
      rewrite Forall_forall in F. destruct Hy as [E|Hy]; [inversion E; subst; lia|].
      specialize (F _ Hy). cbn in F. lia.
Qed.

Lemma at_flat n1 p c n2 kk : Forall (fun x => cwf g true (snd x)) (n1 ++ (p, c) :: n2) ->
  osorted (lows (n1 ++ (p, c) :: n2)) -> linked (n1 ++ (p, c) :: n2) None 0%N ->
  lo_ok (c_lo c) kk -> hi_ok (c_hi c) kk ->
  exists lo, at_ (flat_of true (n1 ++ (p, c) :: n2)) kk (lo, route kk (ilead c) (ients c)) /\
    ole (c_lo c) lo.
Proof.
  intros Hw Hs Hl Lo Hi. apply Forall_app in Hw as [Hw1 Hw2]. inversion Hw2; subst. cbn [snd] in *.
  destruct (iwf_sorted _ _ H1) as [S _].
  destruct (at_route kk (c_lo c) (ilead c) (ients c) S Lo) as (lo & H). exists lo.
  split.
  - rewrite flat_of_app, flat_of_cons. apply at_app; [exact H|].
    eapply flat_right; eauto.
  - apply at_in in H. apply (cents_rng true c H1 _ H).
Qed.

Lemma at_lows n1 p c n2 kk :
  osorted (lows (n1 ++ (p, c) :: n2)) -> linked (n1 ++ (p, c) :: n2) None 0%N ->
  lo_ok (c_lo c) kk -> hi_ok (c_hi c) kk ->
  at_ (lows (n1 ++ (p, c) :: n2)) kk (c_lo c, p).
Proof.
  intros Hs Hl Lo Hi. exists (lows n1), (lows n2). rewrite lows_app, lows_cons.
  split; auto. split; auto. apply Forall_forall. intros x Hx. apply in_lows in Hx as (q & d & -> & Hd).
  destruct (right_ge _ _ _ _ Hs Hl _ _ Hd) as (A & B & _). cbn [fst]. ord.
Qed.

Lemma at_lows_inv N kk lo x : linked N None 0%N -> at_ (lows N) kk (lo, x) ->
  exists n1 c n2, N = n1 ++ (x, c) :: n2 /\ c_lo c = lo /\ lo_ok lo kk /\ hi_ok (c_hi c) kk.
Proof.
  intros Hl (f1 & f2 & E & L & F). unfold lows in E. apply map_eq_app in E as (n1 & n2' & -> & <- & E).
  apply map_eq_cons in E as ([q c] & n2 & -> & E & <-). inversion E; subst.
  exists n1, c, n2. split; auto. split; auto. split; auto.
  apply linked_app in Hl as [_ Hl]. cbn [linked] in Hl. destruct Hl as [-> _].
  destruct n2 as [|[q d] n2]; cbn [hlo]; [exact I|]. inversion F; subst. cbn [fst snd] in *.
  destruct (c_lo d); cbn in *; [lia|tauto].
Qed.

(** Every key has a responsible node. *)
Lemma locate N kk : N <> [] -> hlo N None = None -> osorted (lows N) -> linked N None 0%N ->
  exists n1 p c n2, N = n1 ++ (p, c) :: n2 /\ lo_ok (c_lo c) kk /\ hi_ok (c_hi c) kk.
Proof.
  intros Hne H0 Hs Hl.
  assert (G : forall N, N <> [] -> lo_ok (hlo N None) kk -> linked N None 0%N ->
    exists n1 p c n2, N = n1 ++ (p, c) :: n2 /\ lo_ok (c_lo c) kk /\ hi_ok (c_hi c) kk).
  { clear. induction N as [|[p c] t IH]; intros Hne Lo Hl; [easy|].
    cbn [linked hlo] in *. destruct Hl as (Hh & _ & Hl).
    assert (D : hi_ok (c_hi c) kk \/ ~ hi_ok (c_hi c) kk) by (unfold hi_ok; destruct (c_hi c); [lia|auto]).
    destruct D as [D|D].
    - exists [], p, c, t. auto.
    - destruct t as [|[q d] t]; [rewrite Hh in D; cbn in D; tauto|].
      destruct IH as (n1 & p' & c' & n2 & E & A & B); auto; [discriminate| |].
      + cbn [hlo] in *. rewrite Hh in D. ord.
      + exists ((p, c) :: n1), p', c', n2. rewrite E. auto. }
  apply G; auto. rewrite H0. exact I.
Qed.

(** The next lower bound. *)
Lemma osucc_app_le k f1 f2 : Forall (fun y => lo_ok (fst y) k) f1 -> osucc k (f1 ++ f2) = osucc k f2.
Proof.
  induction 1 as [|[lo v] f1 H _ IH]; cbn; auto. apply lob_ok in H. cbn in H. rewrite H. auto.
Qed.
Lemma osucc_ekey k hi l f2 : osucc k f2 = hi -> sorted l ->
  osucc k (ekey l ++ f2) = succ_key k hi l.
Proof.
  intros E. induction l as [|[x v] l IH]; cbn [ekey map app osucc succ_key fst snd lob]; auto.
  intros Hs. apply sorted_cons_inv in Hs as [Hs _].
  destruct (Z.leb_spec x k), (Z.ltb_spec k x); try lia; auto.
Qed.
Lemma osucc_hlo i n2 kk h : Forall (fun x => cwf g i (snd x)) n2 -> osorted (lows n2) ->
  (i = true \/ n2 = []) ->
  hlo n2 None = h -> (forall x, In x (flat_of i n2) -> ~ lo_ok (fst x) kk) ->
  osucc kk (flat_of i n2) = h.
Proof.
  intros Hw Hs Hi <- Hf. destruct n2 as [|[q d] n2]; auto. destruct Hi as [->|]; [|discriminate].
  cbn. specialize (Hf (c_lo d, ilead d)). destruct (lob (c_lo d) kk) eqn:E; auto.
  apply lob_ok in E. exfalso. apply Hf; auto. rewrite flat_of_cons. left. auto.
Qed.

Lemma osucc_flat n1 p c n2 kk : Forall (fun x => cwf g true (snd x)) (n1 ++ (p, c) :: n2) ->
  osorted (lows (n1 ++ (p, c) :: n2)) -> linked (n1 ++ (p, c) :: n2) None 0%N ->
  lo_ok (c_lo c) kk -> hi_ok (c_hi c) kk ->
  osucc kk (flat_of true (n1 ++ (p, c) :: n2)) = succ_key kk (c_hi c) (ients c).
Proof.
  intros Hw Hs Hl Lo Hi. pose proof Hw as Hw'.
  apply Forall_app in Hw as [Hw1 Hw2]. inversion Hw2; subst. cbn [snd] in *.
  destruct (iwf_sorted _ _ H1) as [S _].
  rewrite flat_of_app, flat_of_cons. rewrite osucc_app_le.
  2:{ pose proof (flat_left true _ _ _ _ _ _ kk Hw1 Hs Hl Lo) as F.
      eapply Forall_impl; [|exact F]. cbn beta. intros a Ha. ord. }
  cbn [cents app osucc]. destruct (lob (c_lo c) kk) eqn:E; [|apply lob_no in E; tauto].
  apply osucc_ekey; auto.
  apply osucc_hlo; auto.
  - rewrite lows_app, lows_cons in Hs. apply osorted_app_inv in Hs as (_ & Hs & _).
    apply osorted_cons_inv in Hs. tauto.
  - apply linked_app in Hl as [_ Hl]. cbn [linked] in Hl. symmetry. tauto.
  - apply Forall_forall. eapply flat_right; eauto.
Qed.

Lemma osucc_lows n1 p c n2 kk :
  osorted (lows (n1 ++ (p, c) :: n2)) -> linked (n1 ++ (p, c) :: n2) None 0%N ->
  lo_ok (c_lo c) kk -> hi_ok (c_hi c) kk ->
  osucc kk (lows (n1 ++ (p, c) :: n2)) = c_hi c.
Proof.
  intros Hs Hl Lo Hi. rewrite lows_app, lows_cons. rewrite osucc_app_le.
  2:{ apply Forall_forall. intros x Hx. apply in_lows in Hx as (q & d & -> & Hd). cbn [fst].
      pose proof (left_le _ _ _ _ Hs _ _ Hd). ord. }
  cbn [osucc]. destruct (lob (c_lo c) kk) eqn:E; [|apply lob_no in E; tauto].
  pose proof Hl as Hl'. apply linked_app in Hl as [_ Hl]. cbn [linked] in Hl. destruct Hl as [Hh _].
  rewrite Hh. destruct n2 as [|[q d] n2]; auto. cbn [lows map osucc fst snd hlo].
  destruct (right_ge _ _ _ _ Hs Hl' q d) as (A & B & _); [left; auto|].
  destruct (lob (c_lo d) kk) eqn:E'; auto. apply lob_ok in E'. exfalso. ord.
Qed.

(** ** Inserting and deleting entries *)
Lemma oins_app_le k v f1 f2 : Forall (fun y => lo_ok (fst y) k) f1 ->
  oins k v (f1 ++ f2) = f1 ++ oins k v f2.
Proof. induction 1 as [|y f1 H _ IH]; cbn; auto. apply lob_ok in H. rewrite H, IH. auto. Qed.
Lemma oins_app_gt k v f1 f2 : Forall (fun y => ~ lo_ok (fst y) k) f2 ->
  oins k v (f1 ++ f2) = oins k v f1 ++ f2.
Proof.
  intros F. induction f1 as [|y f1 IH]; cbn.
  - destruct f2 as [|y f2]; auto. cbn. inversion F; subst. apply lob_no in H1. rewrite H1. auto.
  - destruct (lob (fst y) k); cbn; rewrite ?IH; auto.
Qed.
Lemma oins_ekey k v l : sorted l -> find k l = None -> oins k v (ekey l) = ekey (put k v l).
Proof.
  induction l as [|[x w] l IH]; cbn [ekey map oins put find fst snd lob]; auto.
  intros Hs Hf. apply sorted_cons_inv in Hs as [Hs _].
  destruct (Z.eqb_spec x k); [discriminate|].
  destruct (Z.leb_spec x k), (Z.ltb_spec x k), (Z.ltb_spec k x); try lia; cbn [map fst snd]; auto.
  f_equal. apply IH; auto.
Qed.
Lemma oins_at flat k v f1 x f2 : flat = f1 ++ x :: f2 -> Forall (fun y => lo_ok (fst y) k) (f1 ++ [x]) ->
  Forall (fun y => ~ lo_ok (fst y) k) f2 ->
  oins k v flat = f1 ++ x :: (Some k, v) :: f2.
Proof.
  intros -> F1 F2. change (x :: f2) with ([x] ++ f2). rewrite app_assoc, oins_app_le by auto.
  rewrite <- (app_nil_l f2), oins_app_gt by auto. cbn. rewrite <- app_assoc. auto.
Qed.

Lemma odel_app k a b : odel k (a ++ b) = odel k a ++ odel k b.
Proof. apply filter_app. Qed.
Lemma odel_none k f : Forall (fun y => fst y <> Some k) f -> odel k f = f.
Proof.
  induction 1 as [|[[x|] v] f H _ IH]; cbn in *; auto; [|f_equal; auto].
  unfold isk. cbn. destruct (Z.eqb_spec x k); [subst; congruence|]. cbn. f_equal; auto.
Qed.
Lemma odel_ekey k l : sorted l -> odel k (ekey l) = ekey (del k l).
Proof.
  induction l as [|[x w] l IH]; auto. intros Hs. apply sorted_cons_inv in Hs as [Hs F].
  cbn. unfold isk. cbn. destruct (Z.eqb_spec x k); cbn.
  - apply odel_none. apply Forall_forall. intros y Hy. apply in_ekey in Hy as (k' & v & -> & Hy).
    rewrite Forall_forall in F. apply F in Hy. cbn in *. intros E; inversion E; lia.
  - f_equal. apply IH; auto.
Qed.
Lemma ofind_app k a b : ofind k (a ++ b) = match ofind k a with Some v => Some v | None => ofind k b end.
Proof. induction a as [|y a IH]; cbn; auto. destruct (isk k y); auto. Qed.
Lemma ofind_ekey k l : ofind k (ekey l) = find k l.
Proof. induction l as [|[x w] l IH]; auto. cbn. unfold isk; cbn. destruct (x =? k); auto. Qed.
Lemma ofind_none k f : Forall (fun y => fst y <> Some k) f -> ofind k f = None.
Proof.
  induction 1 as [|[[x|] v] f H _ IH]; cbn in *; auto.
  unfold isk; cbn. destruct (Z.eqb_spec x k); [subst; congruence|auto].
Qed.
End Cfg.
