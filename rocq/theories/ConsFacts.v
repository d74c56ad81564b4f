(** Consolidation: Sort, the merge of deltas and pages, and the page sizes. *)
From Coq Require Import ZArith NArith List Bool Lia.
From Coq Require Import Sorting.Sorted ZifyBool ZifyNat ZifyN.
From Verif Require Import Config Page ListFacts SearchFacts ChainFacts.
Import ListNotations.
Open Scope Z_scope.

(** ** Sort *)
Definition da (ds : list delta) : list (key * delta) := map (fun d => (d_key d, d)) ds.

Lemma da_add d : forall arr, sorted (da arr) ->
  da (add_sorted d arr) =
  match find (d_key d) (da arr) with
  | Some _ => da arr
  | None => put (d_key d) d (da arr)
  end.
Proof.
  induction arr as [|x t IH]; intros Hs; cbn [add_sorted da map find put]; auto.
  change (map (fun d => (d_key d, d)) t) with (da t) in *.
  apply sorted_cons_inv in Hs as [Hs Hf]. specialize (IH Hs).
  destruct (Z.ltb_spec (d_key x) (d_key d)).
  - destruct (Z.eqb_spec (d_key x) (d_key d)); [lia|].
    cbn [da map]. fold (da (add_sorted d t)). rewrite IH. destruct (find (d_key d) (da t)); auto.
  - destruct (Z.ltb_spec (d_key d) (d_key x)).
    + destruct (Z.eqb_spec (d_key x) (d_key d)); [lia|].
      rewrite find_none_lt; auto.
      eapply Forall_impl; [|apply Hf]. simpl; intros; lia.
    + destruct (Z.eqb_spec (d_key x) (d_key d)); [auto|lia].
Qed.

Lemma da_add_sorted d arr : sorted (da arr) -> sorted (da (add_sorted d arr)).
Proof.
  intros H. rewrite da_add by auto. destruct (find _ _); auto. apply put_sorted; auto.
Qed.

Lemma find_add d arr k : sorted (da arr) ->
  find k (da (add_sorted d arr)) =
  match find k (da arr) with
  | Some x => Some x
  | None => if d_key d =? k then Some d else None
  end.
Proof.
  intros H. rewrite da_add by auto. destruct (find (d_key d) (da arr)) eqn:E.
  - destruct (find k (da arr)) eqn:E2; auto. destruct (Z.eqb_spec (d_key d) k); auto. congruence.
  - rewrite find_put by auto. destruct (Z.eqb_spec k (d_key d)).
    + subst. rewrite E, Z.eqb_refl. auto.
    + destruct (Z.eqb_spec (d_key d) k); [lia|]. destruct (find k (da arr)); auto.
Qed.

Lemma add_sorted_length d arr : (length (add_sorted d arr) <= S (length arr))%nat.
Proof.
  induction arr as [|x t IH]; simpl; auto.
  destruct (d_key x <? d_key d); [|destruct (d_key d <? d_key x)]; simpl; lia.
Qed.

Lemma dc_sort_spec : forall c arr nodes, sorted (da arr) -> mhigh_ok c ->
  exists ds, dc_sort c arr nodes = Some (ds, nodes ++ pages c) /\ sorted (da ds) /\
    (forall k, find k (da ds) = match find k (da arr) with Some x => Some x | None => newest k c end) /\
    (length ds <= length arr + ndelta c)%nat.
Proof.
  induction c as [n|d nx IH|d n nx IH|]; intros arr nodes Hs Hm; cbn [dc_sort pages newest ndelta mhigh_ok] in *.
  - exists arr. repeat split; auto; try lia. intros k. destruct (find k (da arr)); auto.
  - destruct (IH (add_sorted d arr) nodes (da_add_sorted d _ Hs) Hm) as (ds & E & S & F & L).
    exists ds. repeat split; auto.
    + intros k. rewrite F, find_add by auto. destruct (find k (da arr)); auto.
      destruct (d_key d =? k); auto.
    + pose proof (add_sorted_length d arr). lia.
  - destruct Hm as [_ Hm]. destruct (IH arr (nodes ++ [n]) Hs Hm) as (ds & E & S & F & L).
    exists ds. rewrite <- app_assoc in E. auto.
  - contradiction.
Qed.

(** ** Merging sorted deltas into sorted records *)
Definition drec (d : delta) : list (key * val) :=
  match d_type d with DDelete => [] | _ => [(d_key d, d_pay d)] end.
Definition drecs (ds : list delta) : list (key * val) := flat_map drec ds.

Fixpoint fl (k : key) (ds : list delta) : list delta * list (key * val) :=
  match ds with
  | d :: t => if d_key d <? k then let '(r, o) := fl k t in (r, drec d ++ o) else (ds, [])
  | [] => ([], [])
  end.

Fixpoint mrg (rs : list (key * val)) (ds : list delta) : list delta * list (key * val) :=
  match rs with
  | [] => (ds, [])
  | (k, v) :: rt =>
      let '(ds1, o1) := fl k ds in
      match ds1 with
      | d :: dt =>
          if negb (k <? d_key d)
          then let '(r, o) := mrg rt dt in (r, o1 ++ drec d ++ o)
          else let '(r, o) := mrg rt ds1 in (r, o1 ++ (k, v) :: o)
      | [] => let '(r, o) := mrg rt [] in (r, o1 ++ (k, v) :: o)
      end
  end.

Definition tot rs ds := let '(r, o) := mrg rs ds in o ++ drecs r.

(** Copying a list of ordinary records. *)
Definition cpr (g : cfg) (ps : Z) (rs : list (key * val)) (s : cstate) : cstate :=
  fold_left (fun s r => copy_rec g (recsz g ps (fst r)) r s) rs s.

Lemma cpr_app g ps a b s : cpr g ps (a ++ b) s = cpr g ps b (cpr g ps a s).
Proof. apply fold_left_app. Qed.

Lemma copy_delta_cpr g ps d s : copy_delta g ps d s = cpr g ps (drec d) s.
Proof. unfold copy_delta, drec. destruct (d_type d); reflexivity. Qed.

Lemma flush_fl g ps k : forall ds s,
  flush_below g ps k ds s = (fst (fl k ds), cpr g ps (snd (fl k ds)) s).
Proof.
  induction ds as [|d t IH]; intros s; cbn [flush_below fl]; auto.
  destruct (d_key d <? k); [|reflexivity].
  rewrite IH, copy_delta_cpr. destruct (fl k t) as [r o]. simpl. rewrite cpr_app. reflexivity.
Qed.

Lemma merge_mrg g ps : forall rs ds s,
  merge_recs g ps rs ds s = (fst (mrg rs ds), cpr g ps (snd (mrg rs ds)) s).
Proof.
  induction rs as [|[k v] rt IH]; intros ds s; cbn [merge_recs mrg]; auto.
  rewrite flush_fl. destruct (fl k ds) as [ds1 o1]. cbn [fst snd].
  destruct ds1 as [|d dt].
  - rewrite IH. destruct (mrg rt []) as [r o]. cbn [fst snd].
    rewrite cpr_app. reflexivity.
  - destruct (negb (k <? d_key d)).
    + rewrite IH, copy_delta_cpr. destruct (mrg rt dt) as [r o]. cbn [fst snd].
      rewrite !cpr_app. reflexivity.
    + rewrite IH. destruct (mrg rt (d :: dt)) as [r o]. cbn [fst snd].
      rewrite cpr_app. reflexivity.
Qed.

Lemma mrg_app : forall r1 r2 ds,
  mrg (r1 ++ r2) ds =
  (fst (mrg r2 (fst (mrg r1 ds))), snd (mrg r1 ds) ++ snd (mrg r2 (fst (mrg r1 ds)))).
Proof.
  induction r1 as [|[k v] r1 IH]; intros r2 ds.
  - simpl. destruct (mrg r2 ds); reflexivity.
  - rewrite <- app_comm_cons. cbn [mrg]. destruct (fl k ds) as [ds1 o1].
    destruct ds1 as [|d dt].
    + rewrite IH. destruct (mrg r1 []) as [r o]. cbn [fst snd].
      rewrite <- app_assoc. reflexivity.
    + destruct (negb (k <? d_key d)).
      * rewrite IH. destruct (mrg r1 dt) as [r o]. cbn [fst snd].
        rewrite <- !app_assoc. reflexivity.
      * rewrite IH. destruct (mrg r1 (d :: dt)) as [r o]. cbn [fst snd].
        rewrite <- app_assoc. reflexivity.
Qed.

Lemma drecs_app a b : drecs (a ++ b) = drecs a ++ drecs b.
Proof. apply flat_map_app. Qed.

Lemma fl_spec k : forall ds, sorted (da ds) ->
  exists pre, ds = pre ++ fst (fl k ds) /\ snd (fl k ds) = drecs pre /\
    Forall (fun d => d_key d < k) pre /\ Forall (fun d => k <= d_key d) (fst (fl k ds)).
Proof.
  induction ds as [|d t IH]; intros Hs; cbn [fl].
  - exists []. simpl. repeat split; constructor.
  - cbn [da map] in Hs. apply sorted_cons_inv in Hs as [Hs Hf].
    destruct (Z.ltb_spec (d_key d) k).
    + destruct (IH Hs) as (pre & E1 & E2 & F1 & F2). destruct (fl k t) as [r o]. cbn [fst snd] in *.
      exists (d :: pre). repeat split; auto.
      * simpl. congruence.
      * simpl. congruence.
    + exists []. repeat split; auto. cbn [fst]. constructor; auto.
      rewrite Forall_forall in *. intros x Hx. specialize (Hf (d_key x, x)). simpl in Hf.
      assert (In (d_key x, x) (map (fun d => (d_key d, d)) t)) by (apply (in_map (fun d => (d_key d, d))); auto).
      specialize (Hf H0). lia.
Qed.

Lemma da_app a b : da (a ++ b) = da a ++ da b.
Proof. apply map_app. Qed.

Lemma da_forall (P : key -> Prop) ds : Forall (fun d => P (d_key d)) ds <-> Forall (fun y => P (fst y)) (da ds).
Proof. unfold da. rewrite Forall_map. simpl. tauto. Qed.

Definition dval (d : delta) : option val :=
  match d_type d with DDelete => None | _ => Some (d_pay d) end.

Lemma drecs_keys (P : key -> Prop) ds : Forall (fun d => P (d_key d)) ds -> Forall (fun y => P (fst y)) (drecs ds).
Proof.
  induction 1; simpl; auto. apply Forall_app. split; auto.
  unfold drec. destruct (d_type x); repeat constructor; auto.
Qed.

Lemma drecs_sorted ds : sorted (da ds) -> sorted (drecs ds).
Proof.
  induction ds as [|d t IH]; intros Hs; simpl; [constructor|].
  cbn [da map] in Hs. apply sorted_cons_inv in Hs as [Hs Hf]. fold (da t) in Hs, Hf.
  assert (F : Forall (fun y => d_key d < fst y) (drecs t)).
  { apply (drecs_keys (fun x => d_key d < x)). apply (da_forall (fun x => d_key d < x)); auto. }
  unfold drec. destruct (d_type d); simpl; auto; apply sorted_cons; auto.
Qed.

Lemma drecs_find ds k : sorted (da ds) ->
  find k (drecs ds) = match find k (da ds) with Some d => dval d | None => None end.
Proof.
  induction ds as [|d t IH]; intros Hs; simpl; auto.
  cbn [da map] in Hs. apply sorted_cons_inv in Hs as [Hs Hf]. fold (da t) in *.
  rewrite find_app. destruct (Z.eqb_spec (d_key d) k).
  - subst. unfold drec, dval. destruct (d_type d); simpl; rewrite ?Z.eqb_refl; auto.
    apply find_none_lt. apply (drecs_keys (fun x => d_key d < x)).
    apply (da_forall (fun x => d_key d < x)); auto.
  - rewrite <- IH by auto. unfold drec. destruct (d_type d); simpl; auto;
    destruct (Z.eqb_spec (d_key d) k); auto; lia.
Qed.

Lemma tot_nil ds : tot [] ds = drecs ds.
Proof. reflexivity. Qed.

(** Lower bounds are preserved by merging. *)
Lemma tot_lb (P : key -> Prop) : forall rs ds, sorted (da ds) ->
  Forall (fun y => P (fst y)) rs -> Forall (fun d => P (d_key d)) ds ->
  Forall (fun y => P (fst y)) (tot rs ds).
Proof.
  induction rs as [|[k v] rt IH]; intros ds Hs Hr Hd.
  - rewrite tot_nil. apply drecs_keys; auto.
  - unfold tot. cbn [mrg]. destruct (fl_spec k ds Hs) as (pre & E1 & E2 & F1 & F2).
    inversion Hr as [|? ? Hk Hr']; subst. cbn [fst] in Hk.
    destruct (fl k ds) as [ds1 o1]. cbn [fst snd] in *. subst o1.
    rewrite E1 in Hd. apply Forall_app in Hd as [Hd1 Hd2].
    rewrite E1, da_app in Hs. apply sorted_app_inv in Hs as (_ & Hs & _).
    pose proof (drecs_keys P _ Hd1) as Hp.
    destruct ds1 as [|d dt].
    + specialize (IH [] Hs Hr' Hd2). unfold tot in IH. destruct (mrg rt []) as [r o].
      rewrite <- app_assoc. apply Forall_app. split; auto. simpl. constructor; auto.
    + destruct (negb (k <? d_key d)).
      * inversion Hd2; subst. cbn [da map] in Hs. apply sorted_cons_inv in Hs as [Hs _]. fold (da dt) in Hs.
        specialize (IH dt Hs Hr' ltac:(auto)). unfold tot in IH. destruct (mrg rt dt) as [r o].
        rewrite <- !app_assoc. apply Forall_app. split; auto. apply Forall_app. split; auto.
        unfold drec. destruct (d_type d); repeat constructor; auto.
      * specialize (IH (d :: dt) Hs Hr' Hd2). unfold tot in IH. destruct (mrg rt (d :: dt)) as [r o].
        rewrite <- app_assoc. apply Forall_app. split; auto. simpl. constructor; auto.
Qed.

Definition overlay (rs : list (key * val)) (ds : list delta) (k : key) : option val :=
  match find k (da ds) with Some d => dval d | None => find k rs end.

Lemma tot_spec : forall rs ds, sorted rs -> sorted (da ds) ->
  sorted (tot rs ds) /\ forall k, find k (tot rs ds) = overlay rs ds k.
Proof.
  induction rs as [|[k v] rt IH]; intros ds Hr Hs.
  - rewrite tot_nil. split; [apply drecs_sorted; auto|]. intros k. unfold overlay.
    rewrite drecs_find by auto. destruct (find k (da ds)); auto.
  - pose proof Hr as Hr0. apply sorted_cons_inv in Hr as [Hr Hfr].
    destruct (fl_spec k ds Hs) as (pre & E1 & E2 & F1 & F2).
    unfold tot. cbn [mrg]. destruct (fl k ds) as [ds1 o1]. cbn [fst snd] in *. subst o1.
    rewrite E1, da_app in Hs. apply sorted_app_inv in Hs as (Hs1 & Hs2 & Hs3).
    assert (Hpre : Forall (fun y => fst y < k) (drecs pre)) by (apply (drecs_keys (fun x => x < k)); auto).
    assert (Hprea : forall j, k <= j -> find j (da pre) = None).
    { intros j Hj. apply find_none_gt. apply (da_forall (fun x => x < j)).
      eapply Forall_impl; [|apply F1]. simpl; intros; lia. }
    assert (Hpre' : forall j, k <= j -> find j (drecs pre) = None).
    { intros j Hj. apply find_none_gt. eapply Forall_impl; [|apply Hpre]. simpl; intros; lia. }
    assert (Hlt : forall j, j < k -> find j ((k,v) :: rt) = None /\ find j (da ds1) = None).
    { intros j Hj. split.
      - apply find_none_lt. constructor; auto. eapply Forall_impl; [|apply Hfr]. simpl; intros; lia.
      - apply find_none_lt. apply (da_forall (fun x => j < x)).
        eapply Forall_impl; [|apply F2]. simpl; intros; lia. }
    (* the rest of the output has keys >= k, and its lookups are right there *)
    assert (Goal : forall rest, sorted rest -> Forall (fun y => k <= fst y) rest ->
      (forall j, k <= j -> find j rest = match find j (da ds1) with Some d => dval d | None => find j ((k,v)::rt) end) ->
      sorted (drecs pre ++ rest) /\ forall j, find j (drecs pre ++ rest) = overlay ((k,v)::rt) ds j).
    { intros rest Hrs Hrf Hfind. split.
      - apply sorted_app; auto. apply drecs_sorted; auto.
        intros x y Hx Hy. rewrite Forall_forall in Hpre, Hrf. specialize (Hpre _ Hx). specialize (Hrf _ Hy). lia.
      - intros j. rewrite find_app. unfold overlay. rewrite E1, da_app, find_app.
        destruct (Z_lt_ge_dec j k) as [L|L].
        + destruct (Hlt j L) as [A B]. rewrite A, B. rewrite drecs_find by auto.
          rewrite (find_none_lt j rest).
          * destruct (find j (da pre)) as [d|]; auto. destruct (dval d); auto.
          * eapply Forall_impl; [|apply Hrf]. simpl; intros; lia.
        + rewrite Hpre', Hprea by lia. apply Hfind; lia. }
    destruct ds1 as [|d dt].
    + specialize (IH [] Hr Hs2) as [IH1 IH2].
      pose proof (tot_lb (fun x => k < x) rt [] Hs2 Hfr ltac:(constructor)) as LB.
      unfold tot in *. destruct (mrg rt []) as [r o]. rewrite <- app_assoc. apply Goal.
      * simpl. apply sorted_cons; auto.
      * simpl. constructor; [simpl; lia|]. eapply Forall_impl; [|apply LB]. simpl; intros; lia.
      * intros j Hj. simpl. destruct (Z.eqb_spec k j); auto. rewrite IH2. reflexivity.
    + cbn [da map] in Hs2. fold (da dt) in Hs2. pose proof Hs2 as Hs2'.
      apply sorted_cons_inv in Hs2 as [Hs2 Hfd]. inversion F2 as [|? ? Fd Fdt]; subst.
      destruct (Z.ltb_spec k (d_key d)); cbn [negb].
      * assert (Hdd : Forall (fun x => k < d_key x) (d :: dt)).
        { constructor; auto. apply (da_forall (fun x => k < x)).
          eapply Forall_impl; [|apply Hfd]. simpl; intros; lia. }
        specialize (IH (d :: dt) Hr Hs2') as [IH1 IH2].
        pose proof (tot_lb (fun x => k < x) rt (d :: dt) Hs2' Hfr Hdd) as LB.
        unfold tot in *. destruct (mrg rt (d :: dt)) as [r o]. rewrite <- app_assoc. apply Goal.
        -- simpl. apply sorted_cons; auto.
        -- simpl. constructor; [simpl; lia|]. eapply Forall_impl; [|apply LB]. simpl; intros; lia.
        -- intros j Hj. simpl app. cbn [find]. destruct (Z.eqb_spec k j).
           ++ subst j. rewrite find_none_lt; auto. apply (da_forall (fun x => k < x)); auto.
           ++ rewrite IH2. reflexivity.
      * assert (d_key d = k) by lia. subst k.
        specialize (IH dt Hr Hs2) as [IH1 IH2].
        assert (Hdd : Forall (fun x => d_key d < d_key x) dt) by (apply (da_forall (fun x => d_key d < x)); auto).
        pose proof (tot_lb (fun x => d_key d < x) rt dt Hs2 Hfr Hdd) as LB.
        unfold tot in *. destruct (mrg rt dt) as [r o]. rewrite <- !app_assoc. apply Goal.
        -- unfold drec. destruct (d_type d); simpl; auto; apply sorted_cons; auto.
        -- apply Forall_app. split.
           ++ unfold drec. destruct (d_type d); repeat constructor; simpl; lia.
           ++ eapply Forall_impl; [|apply LB]. simpl; intros; lia.
        -- intros j Hj. rewrite find_app. cbn [da map find]. fold (da dt).
           destruct (Z.eqb_spec (d_key d) j).
           ++ subst j. unfold drec, dval. destruct (d_type d); simpl; rewrite ?Z.eqb_refl; auto.
              apply find_none_lt. auto.
           ++ rewrite IH2. unfold overlay.
              assert (E : find j (drec d) = None).
              { unfold drec. destruct (d_type d); simpl; auto; destruct (Z.eqb_spec (d_key d) j); auto; lia. }
              rewrite E. auto.
Qed.

(** A first record below all deltas stays first. *)
Lemma tot_first k v rs ds : sorted (da ds) -> Forall (fun d => k < d_key d) ds ->
  tot ((k, v) :: rs) ds = (k, v) :: tot rs ds.
Proof.
  intros Hs Hd. unfold tot. cbn [mrg].
  destruct ds as [|d dt]; cbn [fl].
  - destruct (mrg rs []); reflexivity.
  - inversion Hd; subst. destruct (Z.ltb_spec (d_key d) k); [lia|].
    destruct (Z.ltb_spec k (d_key d)); [|lia]. cbn [negb]. destruct (mrg rs (d :: dt)); reflexivity.
Qed.

(** ** Page sizes while copying *)
Lemma csum_app g ps a b : csum g ps (a ++ b) = csum g ps a + csum g ps b.
Proof. induction a as [|x a IH]; simpl; [reflexivity|]. unfold csum in *. rewrite IH. lia. Qed.

Lemma csum_cons g ps x a : csum g ps (x :: a) = recsz g ps (fst x) + csum g ps a.
Proof. reflexivity. Qed.

Definition all_recs (s : cstate) : list (key * val) :=
  match cs_left s with Some (l, _) => l ++ cs_cur s | None => cs_cur s end.

Lemma cpr_nosplit g ps : forall rs s, cs_pend s = false ->
  cpr g ps rs s = mk_cs (cs_left s) (cs_cur s ++ rs) (cs_size s + csum g ps rs) false.
Proof.
  induction rs as [|r rs IH]; intros s Hp.
  - simpl. rewrite app_nil_r, Z.add_0_r. destruct s; simpl in *; subst; auto.
  - change (cpr g ps (r :: rs) s) with (cpr g ps rs (copy_rec g (recsz g ps (fst r)) r s)).
    unfold copy_rec. rewrite Hp. cbn [andb]. rewrite IH by reflexivity. cbn [cs_left cs_cur cs_size].
    rewrite <- app_assoc. rewrite csum_cons. f_equal. lia.
Qed.

Definition half (g : cfg) : Z := (c_page g - c_hdr g) / 2.

Lemma cpr_split g ps : forall rs s, cs_pend s = true -> cs_left s = None -> cs_size s <= half g ->
  (cs_size s + csum g ps rs <= half g /\
   cpr g ps rs s = mk_cs None (cs_cur s ++ rs) (cs_size s + csum g ps rs) true)
  \/ exists r1 x r2, rs = r1 ++ x :: r2 /\
      cpr g ps rs s = mk_cs (Some (cs_cur s ++ r1 ++ [x], cs_size s + csum g ps (r1 ++ [x]))) r2
                        (c_hdr g + csum g ps r2) false /\
      cs_size s + csum g ps r1 <= half g /\ half g < cs_size s + csum g ps (r1 ++ [x]).
Proof.
  induction rs as [|r rs IH]; intros s Hp Hl Hh.
  - left. simpl. rewrite app_nil_r, Z.add_0_r. destruct s; simpl in *; subst; auto.
  - change (cpr g ps (r :: rs) s) with (cpr g ps rs (copy_rec g (recsz g ps (fst r)) r s)).
    unfold copy_rec. rewrite Hp. fold (half g). cbn [andb].
    destruct (Z.ltb_spec (half g) (cs_size s + recsz g ps (fst r))).
    + right. exists [], r, rs. split; [reflexivity|]. rewrite cpr_nosplit by reflexivity.
      cbn [cs_left cs_cur cs_size app]. rewrite csum_cons. simpl csum. rewrite !Z.add_0_r.
      repeat split; auto.
    + specialize (IH (mk_cs (cs_left s) (cs_cur s ++ [r]) (cs_size s + recsz g ps (fst r)) true)
        eq_refl Hl ltac:(simpl; lia)). cbn [cs_left cs_cur cs_size] in IH.
      destruct IH as [[IH1 IH2]|(r1 & x & r2 & E1 & E2 & L1 & L2)].
      * left. rewrite csum_cons. split; [lia|]. rewrite IH2, <- app_assoc. simpl. f_equal. lia.
      * right. exists (r :: r1), x, r2. rewrite E1. split; [reflexivity|].
        rewrite <- E1, E2. simpl app. rewrite !csum_cons. repeat split; try lia.
        f_equal. f_equal. rewrite <- app_assoc. simpl. f_equal. lia.
Qed.
