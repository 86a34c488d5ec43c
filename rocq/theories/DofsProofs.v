From Verif Require Import ListAux DofsModel DofsSpec.

Section P.
Context {V : Type}.
Implicit Types d : dofs V.

Lemma resolve_inl d n k i :
  wf d -> n = length (d_x d) -> (resolve d n k = inl i <-> denotes d k i).
Proof.
  intros (Hf & Hl & Hu & Hn & Hnd) ->. destruct k as [s|z]; cbn.
  - destruct (find_index (Nat.eqb s) (d_names d)) as [k|] eqn:E.
    + destruct (proj1 (find_index_Some _ _ _) E) as (a & Ha & Hs & _).
      apply Nat.eqb_eq in Hs; subst a.
      assert (k < length (d_names d)) by (apply nth_error_lt; eauto).
      destruct (Nat.ltb_spec k (length (d_x d))); [|lia].
      split.
      * injection 1 as <-. auto.
      * intros Hi. f_equal. eapply (proj1 (NoDup_nth_error _) Hnd); auto. congruence.
    + split; [discriminate|]. intros Hi. apply nth_error_In in Hi.
      rewrite find_index_None in E. specialize (E _ Hi). now rewrite Nat.eqb_refl in E.
  - destruct ((0 <=? z) && (z <? Z.of_nat (length (d_x d))))%Z eqn:E1.
    + split.
      * injection 1 as <-. lia.
      * intros [H1 H2]. f_equal. lia.
    + destruct ((- Z.of_nat (length (d_x d)) <=? z) && (z <? 0))%Z eqn:E2.
      * split.
        -- injection 1 as <-. lia.
        -- intros [H1 H2]. f_equal. lia.
      * split; [discriminate|]. lia.
Qed.

Lemma resolve_inr d n k e :
  wf d -> n = length (d_x d) -> resolve d n k = inr e ->
  (forall i, ~ denotes d k i) /\ e = match k with KName _ => EValue | KIdx _ => EIndex end.
Proof.
  intros W Hn H. split.
  - intros i Hi. apply (resolve_inl d n k i W Hn) in Hi. congruence.
  - destruct W as (Hf & Hl & Hu & Hnm & Hnd). destruct k as [s|z]; cbn in H.
    + destruct (find_index _ _) eqn:E; [|congruence].
      destruct (proj1 (find_index_Some _ _ _) E) as (a & Ha & _).
      assert (n0 < length (d_names d)) by (apply nth_error_lt; eauto).
      destruct (Nat.ltb_spec n0 n); [congruence|lia].
    + destruct (_ && _)%bool; [congruence|]. destruct (_ && _)%bool; congruence.
Qed.

Lemma denotes_lt d k i : wf d -> denotes d k i -> i < length (d_x d).
Proof.
  intros (Hf & Hl & Hu & Hn & Hnd). destruct k; cbn; intros H.
  - rewrite <- Hn. apply nth_error_lt; eauto.
  - tauto.
Qed.

Lemma denotes_unique d k i j : wf d -> denotes d k i -> denotes d k j -> i = j.
Proof.
  intros W Hi Hj. apply (resolve_inl d _ k i W eq_refl) in Hi.
  apply (resolve_inl d _ k j W eq_refl) in Hj. congruence.
Qed.

Lemma upd_replaced {A} i (v : A) l : i < length l -> replaced i v l (upd i v l).
Proof.
  intros H; repeat split; [apply length_upd| now apply nth_error_upd_same |].
  intros; now apply nth_error_upd_other; auto.
Qed.

(* free positions *)
Lemma free_pos_shift (m : list bool) k n :
  n = length m ->
  filter (fun i => match nth_error m (i - k) with Some true => true | _ => false end) (seq k n)
  = true_positions_from k m.
Proof.
  intros ->. revert k; induction m as [|b m IH]; intros k; cbn; auto.
  rewrite Nat.sub_diag; cbn.
  assert (E : filter (fun i => match nth_error (b :: m) (i - k) with Some true => true | _ => false end) (seq (S k) (length m))
     = filter (fun i => match nth_error m (i - S k) with Some true => true | _ => false end) (seq (S k) (length m))).
  { apply filter_ext_in. intros i Hi. apply in_seq in Hi.
    replace (i - k) with (S (i - S k)) by lia. reflexivity. }
  destruct b; rewrite E, IH; auto.
Qed.

Lemma free_positions_eq d : wf d -> free_positions d = true_positions_from 0 (d_free d).
Proof.
  intros (Hf & _). unfold free_positions.
  rewrite <- (free_pos_shift (d_free d) 0 (length (d_x d))) by auto.
  apply filter_ext. intros i. now rewrite Nat.sub_0_r.
Qed.

Lemma gather_positions {A} (m : list bool) (l : list A) k (pre : list A) :
  length m = length l -> length pre = k ->
  map Some (gather m l) = map (nth_error (pre ++ l)) (true_positions_from k m).
Proof.
  revert l k pre; induction m as [|b m IH]; intros [|a l] k pre Hl Hk; cbn in *; try discriminate; auto.
  assert (E : pre ++ a :: l = (pre ++ [a]) ++ l) by now rewrite <- app_assoc.
  destruct b; cbn.
  - f_equal.
    + rewrite nth_error_app2, Hk, Nat.sub_diag by lia. reflexivity.
    + rewrite E. apply IH; [lia|]. rewrite app_length; cbn; lia.
  - rewrite E. apply IH; [lia|]. rewrite app_length; cbn; lia.
Qed.

Lemma gather_spec {A} d (l : list A) : wf d -> length l = length (d_x d) ->
  map Some (gather (d_free d) l) = map (nth_error l) (free_positions d).
Proof.
  intros W Hl. rewrite free_positions_eq by auto. destruct W as (Hf & _).
  now apply (gather_positions (d_free d) l 0 []); [lia|].
Qed.

Lemma length_true_positions k m : length (true_positions_from k m) = count_true m.
Proof. unfold count_true. revert k; induction m as [|[] m IH]; intros; cbn; auto. Qed.

Lemma reduced_len_spec d : wf d -> reduced_len d = length (free_positions d).
Proof.
  intros W. unfold reduced_len. rewrite length_gather by auto.
  now rewrite free_positions_eq, length_true_positions.
Qed.

Lemma count_reduced d : reduced_len d = count_true (d_free d).
Proof. unfold reduced_len. now rewrite length_gather. Qed.

Lemma free_names_loop_spec free names i pre :
  length free = length names -> length pre = i ->
  free_names_loop free (pre ++ names) i = gather free names.
Proof.
  revert names i pre; induction free as [|f free IH]; intros [|s names] i pre Hl Hi; cbn in *; try discriminate; auto.
  rewrite nth_error_app2, Hi, Nat.sub_diag by lia. cbn.
  replace (pre ++ s :: names) with ((pre ++ [s]) ++ names) by now rewrite <- app_assoc.
  rewrite IH by (rewrite ?app_length; cbn; lia). destruct f; reflexivity.
Qed.

Lemma free_names_gather d : wf d -> free_names d = gather (d_free d) (d_names d).
Proof. intros (Hf & Hl & Hu & Hn & Hd). unfold free_names. apply (free_names_loop_spec (d_free d) (d_names d) 0 []); [congruence|reflexivity]. Qed.

(* C01 *)
Lemma free_x_roundtrip d (v : list V) : wf d -> length v = length (free_positions d) ->
  let d' := fst (set_free_x d v) in
  snd (set_free_x d v) = None /\ free_x d' = v /\
  (forall k i, nth_error (free_positions d) k = Some i -> nth_error (full_x d') i = nth_error v k) /\
  (forall i, ~ In i (free_positions d) -> nth_error (full_x d') i = nth_error (full_x d) i) /\
  length (full_x d') = length (full_x d) /\ same_but_x d d'.
Proof.
  intros W Hv. unfold set_free_x. rewrite reduced_len_spec by auto.
  rewrite Hv, Nat.eqb_refl. cbn [negb fst snd].
  assert (W' := W). destruct W' as (Hf & Hl & Hu & Hn & Hnd).
  assert (Hc : length v = count_true (d_free d))
    by (rewrite Hv, free_positions_eq, length_true_positions; auto).
  assert (G : gather (d_free d) (scatter (d_free d) (d_x d) v) = v) by (apply gather_scatter; auto).
  repeat split; cbn; auto.
  - intros k i Hk.
    assert (W2 : wf (set_xs d (scatter (d_free d) (d_x d) v)))
      by (repeat split; cbn; rewrite ?length_scatter; auto).
    assert (E := gather_spec _ (scatter (d_free d) (d_x d) v) W2 ltac:(cbn; now rewrite length_scatter)).
    cbn [d_free set_xs] in E. rewrite G in E.
    assert (FP : free_positions (set_xs d (scatter (d_free d) (d_x d) v)) = free_positions d)
      by (unfold free_positions; cbn; now rewrite length_scatter).
    rewrite FP in E.
    assert (E2 := f_equal (fun l => nth_error l k) E). cbn beta in E2.
    rewrite (map_nth_error (nth_error _) _ _ Hk) in E2.
    destruct (nth_error v k) as [y|] eqn:Ey.
    + rewrite (map_nth_error Some _ _ Ey) in E2. congruence.
    + exfalso. apply nth_error_None in Ey.
      assert (k < length (free_positions d)) by (apply nth_error_lt; eauto). lia.
  - intros i Hi. destruct (nth_error (d_free d) i) as [[]|] eqn:E.
    + exfalso; apply Hi. unfold free_positions. apply filter_In. rewrite E. split; auto.
      apply in_seq. assert (i < length (d_free d)) by (apply nth_error_lt; eauto). lia.
    + now apply nth_scatter_fixed.
    + apply nth_error_None in E. rewrite (proj2 (nth_error_None _ _)), (proj2 (nth_error_None _ _)); auto.
      * unfold full_x; lia.
      * rewrite length_scatter; lia.
  - now rewrite length_scatter.
Qed.

(* C02 *)
Lemma free_x_reject d (v : list V) : wf d -> length v <> length (free_positions d) ->
  set_free_x d v = (d, Some (ELenMismatch (length v) (length (free_positions d)))) /\
  set_free_lb d v = (d, Some (ELenMismatch (length v) (length (free_positions d)))) /\
  set_free_ub d v = (d, Some (ELenMismatch (length v) (length (free_positions d)))).
Proof.
  intros W Hv. unfold set_free_x, set_free_lb, set_free_ub. rewrite reduced_len_spec by auto.
  destruct (Nat.eqb_spec (length (free_positions d)) (length v)); [lia|]. auto.
Qed.

Lemma full_x_reject d (v : list V) : length v <> length (d_x d) ->
  set_full_x d v = (d, Some (ELenMismatch (length v) (length (d_x d)))).
Proof.
  intros Hv. unfold set_full_x. destruct (Nat.eqb_spec (length (d_x d)) (length v)); [lia|]. auto.
Qed.

Lemma full_x_accept d (v : list V) : length v = length (d_x d) ->
  snd (set_full_x d v) = None /\ full_x (fst (set_full_x d v)) = v /\ same_but_x d (fst (set_full_x d v)).
Proof.
  intros Hv. unfold set_full_x. rewrite Hv, Nat.eqb_refl. cbn. repeat split; auto.
Qed.

(* C03 *)
Lemma set_status_denotes b d k i : wf d -> denotes d k i ->
  snd (set_status b d k) = None /\ replaced i b (d_free d) (d_free (fst (set_status b d k))) /\
  same_but_free d (fst (set_status b d k)) /\ is_free (fst (set_status b d k)) k = inl b.
Proof.
  intros W Hi. assert (W' := W). destruct W' as (Hf & _).
  assert (Hlt := denotes_lt _ _ _ W Hi).
  assert (R : resolve d (length (d_free d)) k = inl i) by (apply resolve_inl; auto).
  unfold set_status. rewrite R. cbn. split; [|split;[|split]]; auto.
  - apply upd_replaced; lia.
  - repeat split; auto.
  - unfold is_free. cbn. rewrite length_upd.
    assert (R2 : resolve (set_free d (upd i b (d_free d))) (length (d_free d)) k = resolve d (length (d_free d)) k)
      by (destruct k; reflexivity).
    rewrite R2, R. rewrite nth_error_upd_same by lia. reflexivity.
Qed.

Lemma set_status_unknown b d k : wf d -> (forall i, ~ denotes d k i) ->
  exists e, set_status b d k = (d, Some e) /\ is_free d k = inr e /\
            e = match k with KName _ => EValue | KIdx _ => EIndex end.
Proof.
  intros W Hno. destruct W as (Hf & W2).
  assert (W : wf d) by (split; auto).
  destruct (resolve d (length (d_free d)) k) as [i|e] eqn:R.
  - exfalso. apply (Hno i). eapply (resolve_inl d _ k i W); [|exact R]; congruence.
  - exists e. unfold set_status, is_free. rewrite R.
    apply resolve_inr in R; auto. tauto.
Qed.

Lemma is_free_spec d k i : wf d -> denotes d k i ->
  exists b, nth_error (d_free d) i = Some b /\ is_free d k = inl b.
Proof.
  intros W Hi. assert (Hlt := denotes_lt _ _ _ W Hi). destruct W as (Hf & W2).
  assert (W : wf d) by (split; auto).
  assert (R : resolve d (length (d_free d)) k = inl i) by (apply resolve_inl; auto).
  unfold is_free. rewrite R. destruct (nth_error (d_free d) i) eqn:E; eauto.
  apply nth_error_None in E. lia.
Qed.

(* C04 *)
Lemma get_spec d k : wf d ->
  (forall i, denotes d k i -> exists v, nth_error (d_x d) i = Some v /\ dofs_get d k = inl v) /\
  ((forall i, ~ denotes d k i) -> exists e, dofs_get d k = inr e).
Proof.
  intros W. split.
  - intros i Hi. assert (Hlt := denotes_lt _ _ _ W Hi).
    unfold dofs_get. rewrite (proj2 (resolve_inl d _ k i W eq_refl) Hi).
    destruct (nth_error (d_x d) i) eqn:E; eauto. apply nth_error_None in E. lia.
  - intros Hno. unfold dofs_get. destruct (resolve d (length (d_x d)) k) as [i|e] eqn:R; eauto.
    exfalso. apply (Hno i). eapply (resolve_inl d _ k i W); [|exact R]; congruence.
Qed.

Lemma set_denotes d k i v : wf d -> denotes d k i ->
  snd (dofs_set d k v) = None /\ replaced i v (d_x d) (d_x (fst (dofs_set d k v))) /\
  same_but_x d (fst (dofs_set d k v)) /\ dofs_get (fst (dofs_set d k v)) k = inl v.
Proof.
  intros W Hi. assert (Hlt := denotes_lt _ _ _ W Hi).
  assert (R : resolve d (length (d_x d)) k = inl i) by (apply resolve_inl; auto).
  unfold dofs_set. rewrite R. cbn. split; [|split;[|split]]; auto.
  - apply upd_replaced; lia.
  - repeat split; auto.
  - unfold dofs_get. cbn. rewrite length_upd.
    assert (R2 : resolve (set_xs d (upd i v (d_x d))) (length (d_x d)) k = resolve d (length (d_x d)) k)
      by (destruct k; reflexivity).
    rewrite R2, R. rewrite nth_error_upd_same by lia. reflexivity.
Qed.

Lemma set_unknown d k v w : wf d -> (forall i, ~ denotes d k i) ->
  exists e, dofs_set d k v = (d, Some e) /\ update_lb d k v = (d, Some e) /\ update_ub d k v = (d, Some e)
    /\ update_bounds d k w = (d, Some e) /\ e = match k with KName _ => EValue | KIdx _ => EIndex end.
Proof.
  intros W Hno. assert (W' := W). destruct W' as (Hf & Hl & Hu & W2).
  unfold dofs_set, update_bounds, update_lb, update_ub. rewrite Hl, Hu.
  destruct (resolve d (length (d_x d)) k) as [i|e] eqn:R.
  - exfalso. apply (Hno i). apply (resolve_inl d _ k i W eq_refl); exact R.
  - exists e. apply resolve_inr in R; tauto.
Qed.

Lemma update_bounds_denotes d k i (l u : V) : wf d -> denotes d k i ->
  (snd (update_lb d k l) = None /\ replaced i l (d_lb d) (d_lb (fst (update_lb d k l))) /\ same_but_lb d (fst (update_lb d k l))) /\
  (snd (update_ub d k u) = None /\ replaced i u (d_ub d) (d_ub (fst (update_ub d k u))) /\ same_but_ub d (fst (update_ub d k u))) /\
  (snd (update_bounds d k (l,u)) = None /\
   replaced i l (d_lb d) (d_lb (fst (update_bounds d k (l,u)))) /\
   replaced i u (d_ub d) (d_ub (fst (update_bounds d k (l,u)))) /\
   d_x (fst (update_bounds d k (l,u))) = d_x d /\ d_free (fst (update_bounds d k (l,u))) = d_free d /\
   d_names (fst (update_bounds d k (l,u))) = d_names d).
Proof.
  intros W Hi. assert (Hlt := denotes_lt _ _ _ W Hi). assert (W' := W).
  destruct W' as (Hf & Hl & Hu & W2).
  assert (R : resolve d (length (d_x d)) k = inl i) by (apply resolve_inl; auto).
  assert (R1 : forall l' n, resolve (set_lbs d l') n k = resolve d n k)
    by (destruct k; reflexivity).
  unfold update_bounds, update_lb, update_ub. rewrite Hl, Hu, R. cbn. rewrite Hu, R1, R. cbn.
  repeat split; auto; try (now apply upd_replaced; lia);
  try (now rewrite length_upd); try (now rewrite nth_error_upd_same by lia);
    intros; now apply nth_error_upd_other; auto.
Qed.

(* bounds round trip *)
Lemma free_lb_roundtrip d (v : list V) : wf d -> length v = length (free_positions d) ->
  snd (set_free_lb d v) = None /\ free_lb (fst (set_free_lb d v)) = v /\ same_but_lb d (fst (set_free_lb d v)) /\
  (forall i, ~ In i (free_positions d) -> nth_error (d_lb (fst (set_free_lb d v))) i = nth_error (d_lb d) i).
Proof.
  intros W Hv. unfold set_free_lb. rewrite reduced_len_spec by auto.
  rewrite Hv, Nat.eqb_refl. cbn [negb fst snd].
  assert (W' := W). destruct W' as (Hf & Hl & Hu & Hn & Hnd).
  assert (Hc : length v = count_true (d_free d))
    by (rewrite Hv, free_positions_eq, length_true_positions; auto).
  repeat split; cbn; auto.
  - unfold free_lb; cbn. apply gather_scatter; auto; lia.
  - intros i Hi. destruct (nth_error (d_free d) i) as [[]|] eqn:E.
    + exfalso; apply Hi. unfold free_positions. apply filter_In. rewrite E. split; auto.
      apply in_seq. assert (i < length (d_free d)) by (apply nth_error_lt; eauto). lia.
    + now apply nth_scatter_fixed.
    + apply nth_error_None in E. rewrite (proj2 (nth_error_None _ _)), (proj2 (nth_error_None _ _)); auto.
      * lia.
      * rewrite length_scatter; lia.
Qed.

Lemma free_ub_roundtrip d (v : list V) : wf d -> length v = length (free_positions d) ->
  snd (set_free_ub d v) = None /\ free_ub (fst (set_free_ub d v)) = v /\ same_but_ub d (fst (set_free_ub d v)) /\
  (forall i, ~ In i (free_positions d) -> nth_error (d_ub (fst (set_free_ub d v))) i = nth_error (d_ub d) i).
Proof.
  intros W Hv. unfold set_free_ub. rewrite reduced_len_spec by auto.
  rewrite Hv, Nat.eqb_refl. cbn [negb fst snd].
  assert (W' := W). destruct W' as (Hf & Hl & Hu & Hn & Hnd).
  assert (Hc : length v = count_true (d_free d))
    by (rewrite Hv, free_positions_eq, length_true_positions; auto).
  repeat split; cbn; auto.
  - unfold free_ub; cbn. apply gather_scatter; auto; lia.
  - intros i Hi. destruct (nth_error (d_free d) i) as [[]|] eqn:E.
    + exfalso; apply Hi. unfold free_positions. apply filter_In. rewrite E. split; auto.
      apply in_seq. assert (i < length (d_free d)) by (apply nth_error_lt; eauto). lia.
    + now apply nth_scatter_fixed.
    + apply nth_error_None in E. rewrite (proj2 (nth_error_None _ _)), (proj2 (nth_error_None _ _)); auto.
      * lia.
      * rewrite length_scatter; lia.
Qed.

(* C05 *)
Lemma free_views d : wf d ->
  map Some (free_x d) = map (nth_error (d_x d)) (free_positions d) /\
  map Some (free_lb d) = map (nth_error (d_lb d)) (free_positions d) /\
  map Some (free_ub d) = map (nth_error (d_ub d)) (free_positions d) /\
  map Some (free_names d) = map (nth_error (d_names d)) (free_positions d) /\
  reduced_len d = length (free_positions d).
Proof.
  intros W. assert (W' := W). destruct W' as (Hf & Hl & Hu & Hn & Hnd).
  rewrite free_names_gather by auto. unfold free_x, free_lb, free_ub.
  repeat split; try (apply gather_spec; auto). now apply reduced_len_spec.
Qed.

(* C06 *)
Lemma has_dup_spec l : has_dup l = false <-> NoDup l.
Proof.
  induction l as [|a l IH]; cbn.
  - split; auto. constructor.
  - rewrite orb_false_iff, IH. split.
    + intros [H1 H2]. constructor; auto. intros Ha.
      assert (existsb (Nat.eqb a) l = true) by (apply existsb_exists; exists a; split; auto; apply Nat.eqb_refl).
      congruence.
    + inversion 1 as [|x r Hn Hd]; subst. split; auto.
      destruct (existsb (Nat.eqb a) l) eqn:E; auto. apply existsb_exists in E.
      destruct E as (b & Hb & E). apply Nat.eqb_eq in E. congruence.
Qed.

Lemma init_wf ninf pinf x names free lb ub (d : dofs V) :
  dofs_init ninf pinf x names free lb ub = inl d -> wf d.
Proof.
  unfold dofs_init. intros H.
  destruct (has_dup _) eqn:E; [discriminate|].
  apply has_dup_spec in E.
  match type of H with (if ?b then _ else _) = _ => destruct b eqn:B; [|discriminate] end.
  injection H as <-. unfold wf; cbn.
  rewrite !andb_true_iff, !Nat.eqb_eq in B. repeat split; auto; lia.
Qed.

Lemma set_status_wf b d k : wf d -> wf (fst (set_status b d k)).
Proof.
  intros (Hf & W). unfold set_status. destruct (resolve _ _ _); cbn; split; auto; cbn; auto.
  now rewrite length_upd.
Qed.

Lemma dstep_wf d o : wf d -> wf (fst (dstep d o)).
Proof.
  intros W. assert (W' := W). destruct W' as (Hf & Hl & Hu & Hn & Hnd).
  destruct o as [k|k| | |k v|v|v|v|v|v|v|k v|k v|k v]; cbn [dstep]; auto.
  - now apply set_status_wf.
  - now apply set_status_wf.
  - split; cbn; [now rewrite map_length|auto].
  - split; cbn; [now rewrite map_length|auto].
  - unfold dofs_set. destruct (resolve _ _ _); cbn; auto. unfold wf; cbn. rewrite length_upd. auto.
  - unfold set_free_x. destruct (negb _); cbn; auto. unfold wf; cbn. rewrite length_scatter; auto.
  - unfold set_full_x. destruct (Nat.eqb_spec (length (d_x d)) (length v)); cbn; auto.
    unfold wf; cbn. repeat split; auto; lia.
  - unfold set_free_lb. destruct (negb _); cbn; auto. unfold wf; cbn. rewrite length_scatter; auto.
  - unfold set_free_ub. destruct (negb _); cbn; auto. unfold wf; cbn. rewrite length_scatter; auto.
  - unfold update_lb. destruct (resolve _ _ _); cbn; auto. unfold wf; cbn. rewrite length_upd. auto.
  - unfold update_ub. destruct (resolve _ _ _); cbn; auto. unfold wf; cbn. rewrite length_upd. auto.
  - unfold update_bounds, update_lb. destruct (resolve _ _ _); cbn; auto.
    unfold update_ub. destruct (resolve _ _ _); cbn; unfold wf; cbn; rewrite ?length_upd; auto.
Qed.

Lemma drun_wf d ops : wf d -> wf (drun d ops).
Proof.
  unfold drun. revert d; induction ops as [|o ops IH]; intros d W; cbn; auto.
  apply IH. now apply dstep_wf.
Qed.

Lemma dstep_err_atomic d o : wf d -> snd (dstep d o) <> None -> fst (dstep d o) = d.
Proof.
  intros W. assert (W' := W). destruct W' as (Hf & Hl & Hu & Hn & Hnd).
  destruct o as [k|k| | |k v|v|v|v|v|v|v|k v|k v|k v]; cbn [dstep]; cbn; try congruence;
  unfold dofs_fix, dofs_unfix, set_status, dofs_set, set_free_x, set_full_x, set_free_lb, set_free_ub, update_lb, update_ub;
  try (destruct (resolve _ _ _); cbn; congruence); try (destruct (negb _); cbn; congruence).
  unfold update_bounds, update_lb, update_ub.
  destruct (resolve d _ k) as [i|e] eqn:R; cbn; [|congruence].
  assert (R2 : resolve (set_lbs d (upd i (fst v) (d_lb d))) (length (d_ub d)) k = inl i)
   by (rewrite Hu; rewrite Hl in R; destruct k; exact R).
  rewrite R2. cbn. congruence.
Qed.

(* last-status characterisation of an arbitrary history *)
Lemma names_len_run d o : wf d -> d_names (fst (dstep d o)) = d_names d /\ length (d_x (fst (dstep d o))) = length (d_x d).
Proof.
  intros W. assert (W' := W). destruct W' as (Hf & Hl & Hu & Hn & Hnd).
  destruct o as [k|k| | |k v|v|v|v|v|v|v|k v|k v|k v]; cbn [dstep]; auto;
  unfold dofs_fix, dofs_unfix, set_status, dofs_set, set_free_x, set_full_x, set_free_lb, set_free_ub, update_bounds, update_lb, update_ub;
  try (destruct (resolve _ _ _); cbn; rewrite ?length_upd; auto; fail);
  try (destruct (Nat.eqb_spec (reduced_len d) (length v)); cbn; rewrite ?length_scatter; auto; fail).
  - destruct (Nat.eqb_spec (length (d_x d)) (length v)); cbn; auto.
  - destruct (resolve _ _ _); cbn; auto. destruct (resolve _ _ _); cbn; auto.
Qed.

Lemma denotes_step d o k i : wf d -> (denotes (fst (dstep d o)) k i <-> denotes d k i).
Proof.
  intros W. destruct (names_len_run d o W) as [H1 H2].
  unfold denotes. now rewrite H1, H2.
Qed.
End P.

Section H.
Context {V : Type}.
Implicit Types d : dofs V.

(** spec vocabulary: operation [o] gives dof [i] status [b] *)
Definition gives_status d (o : @dop V) (i : nat) (b : bool) : Prop :=
  match o with
  | OFix k => denotes d k i /\ b = false
  | OUnfix k => denotes d k i /\ b = true
  | OFixAll => b = false
  | OUnfixAll => b = true
  | _ => False
  end.

Lemma gives_status_step d o i b : wf d -> i < length (d_x d) -> gives_status d o i b ->
  nth_error (d_free (fst (dstep d o))) i = Some b.
Proof.
  intros W Hi. assert (Hf : length (d_free d) = length (d_x d)) by apply W.
  destruct o; cbn [gives_status dstep]; try tauto.
  - intros [Hd ->]. now apply (set_status_denotes false d k i W Hd).
  - intros [Hd ->]. now apply (set_status_denotes true d k i W Hd).
  - intros ->. cbn. destruct (proj1 (nth_error_lt (d_free d) i)) as (c & Hc); [lia|].
    now rewrite (map_nth_error _ _ _ Hc).
  - intros ->. cbn. destruct (proj1 (nth_error_lt (d_free d) i)) as (c & Hc); [lia|].
    now rewrite (map_nth_error _ _ _ Hc).
Qed.

Lemma no_status_step d o i : wf d -> i < length (d_x d) -> (forall b, ~ gives_status d o i b) ->
  nth_error (d_free (fst (dstep d o))) i = nth_error (d_free d) i.
Proof.
  intros W Hi Hno. assert (Hf : length (d_free d) = length (d_x d)) by apply W.
  assert (ST : forall b k, (~ denotes d k i) -> nth_error (d_free (fst (set_status b d k))) i = nth_error (d_free d) i).
  { intros b k Hk. unfold set_status. destruct (resolve d (length (d_free d)) k) as [j|e] eqn:R; cbn; auto.
    apply nth_error_upd_other. intros ->. apply Hk. apply (resolve_inl d _ k i W Hf). exact R. }
  destruct o; cbn [gives_status dstep] in *.
  - apply ST. intros Hk; apply (Hno false); auto.
  - apply ST. intros Hk; apply (Hno true); auto.
  - exfalso; apply (Hno false); auto.
  - exfalso; apply (Hno true); auto.
  - unfold dofs_set. destruct (resolve _ _ _); reflexivity.
  - unfold set_free_x. destruct (negb _); reflexivity.
  - unfold set_full_x. destruct (negb _); reflexivity.
  - unfold set_free_lb. destruct (negb _); reflexivity.
  - unfold set_free_ub. destruct (negb _); reflexivity.
  - reflexivity.
  - reflexivity.
  - unfold update_lb. destruct (resolve _ _ _); reflexivity.
  - unfold update_ub. destruct (resolve _ _ _); reflexivity.
  - unfold update_bounds, update_lb. destruct (resolve _ _ _); cbn; auto.
    unfold update_ub. destruct (resolve _ _ _); reflexivity.
Qed.

Lemma gives_status_ext d d' o i b : wf d ->
  d_names d' = d_names d -> length (d_x d') = length (d_x d) ->
  (gives_status d' o i b <-> gives_status d o i b).
Proof.
  intros W Hn Hx. unfold gives_status, denotes. rewrite Hn, Hx. tauto.
Qed.

Lemma status_untouched d ops i : wf d -> i < length (d_x d) ->
  (forall o b, In o ops -> ~ gives_status d o i b) ->
  nth_error (d_free (drun d ops)) i = nth_error (d_free d) i.
Proof.
  unfold drun. revert d; induction ops as [|o ops IH]; intros d W Hi Hno; cbn [fold_left]; auto.
  destruct (names_len_run d o W) as [H1 H2].
  rewrite IH.
  - apply no_status_step; auto. intros b. apply Hno; cbn; auto.
  - now apply dstep_wf.
  - lia.
  - intros o' b Ho Hg. apply (Hno o' b); [cbn; auto|].
    apply (gives_status_ext d (fst (dstep d o)) o' i b W H1 H2). exact Hg.
Qed.

Lemma run_names_len d ops : wf d -> d_names (drun d ops) = d_names d /\ length (d_x (drun d ops)) = length (d_x d).
Proof.
  unfold drun. revert d; induction ops as [|o ops IH]; intros d W; cbn [fold_left]; auto.
  destruct (names_len_run d o W) as [H1 H2].
  destruct (IH (fst (dstep d o)) (dstep_wf d o W)) as [H3 H4]. split; congruence.
Qed.

Lemma last_status d ops1 o ops2 i b : wf d -> i < length (d_x d) ->
  gives_status d o i b -> (forall o' b', In o' ops2 -> ~ gives_status d o' i b') ->
  nth_error (d_free (drun d (ops1 ++ o :: ops2))) i = Some b.
Proof.
  intros W Hi Hg Hno. unfold drun. rewrite fold_left_app. cbn [fold_left].
  change (fold_left _ ops1 d) with (drun d ops1).
  assert (W1 := drun_wf d ops1 W). destruct (run_names_len d ops1 W) as [H1 H2].
  destruct (names_len_run (drun d ops1) o W1) as [H3 H4].
  fold (drun (fst (dstep (drun d ops1) o)) ops2).
  rewrite status_untouched.
  - apply gives_status_step; auto; [lia|].
    apply (gives_status_ext d (drun d ops1) o i b W H1 H2). exact Hg.
  - now apply dstep_wf.
  - lia.
  - intros o' b' Ho Hb. apply (Hno o' b' Ho).
    apply (gives_status_ext d (fst (dstep (drun d ops1) o)) o' i b' W); [congruence|congruence|exact Hb].
Qed.

Lemma count_free_entries d : wf d -> reduced_len d = count_occ Bool.bool_dec (d_free d) true.
Proof.
  intros W. rewrite count_reduced. unfold count_true.
  induction (d_free d) as [|[] l IH]; cbn; auto.
Qed.
End H.

Lemma init_explicit {V} (ninf pinf : V) x n f l u (d : dofs V) :
  dofs_init ninf pinf (Some x) (Some n) (Some f) (Some l) (Some u) = inl d <->
  (wf (mkDofs x f l u n) /\ d = mkDofs x f l u n).
Proof.
  split.
  - intros H. assert (W := init_wf _ _ _ _ _ _ _ _ H). unfold dofs_init in H.
    destruct (has_dup n); [discriminate|]. destruct (_ && _)%bool; [|discriminate].
    injection H as <-. auto.
  - intros [(Hf & Hl & Hu & Hn & Hnd) ->]. cbn in *. unfold dofs_init.
    rewrite (proj2 (has_dup_spec n) Hnd).
    rewrite Hf, Hl, Hu, Hn, Nat.eqb_refl. reflexivity.
Qed.

Lemma init_error {V} (ninf pinf : V) x n f l u e :
  dofs_init ninf pinf x n f l u = inr e -> e = EAssert.
Proof.
  unfold dofs_init. destruct (has_dup _); [congruence|]. destruct (_ && _)%bool; congruence.
Qed.

Lemma init_defaults {V} (ninf pinf : V) x :
  dofs_init ninf pinf (Some x) None None None None =
  inl (mkDofs x (repeat true (length x)) (repeat ninf (length x)) (repeat pinf (length x)) (seq 0 (length x))).
Proof.
  unfold dofs_init. rewrite (proj2 (has_dup_spec _) (seq_NoDup _ _)).
  now rewrite !repeat_length, seq_length, Nat.eqb_refl.
Qed.
