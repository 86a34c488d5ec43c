(** Functional effect of the graph-wide operations, termination, refinement of cached evaluation. *)
From Coq Require Import Sorting.Sorted.
From Verif Require Import ListAux DofsModel DofsSpec DofsProofs GraphModel GraphTrace GraphLists GraphInv GraphSpec GraphPres GraphPres2 GraphPres3.

Section P.
Context {V : Type}.
Notation st := (@st V).
Implicit Types s : st.

(** ** shape of the getters *)
Lemma same_graph_refl s : Inv s -> same_graph s s.
Proof. intros I. unfold same_graph. repeat split; auto; now apply (gi_wf s (inv_g s I)). Qed.
Lemma same_graph_trans s1 s2 s3 : same_graph s1 s2 -> same_graph s2 s3 -> same_graph s1 s3.
Proof.
  intros (A1 & A2 & A3 & A4 & A5 & A6 & A7 & A8 & A9 & A10 & A11 & A12)
         (B1 & B2 & B3 & B4 & B5 & B6 & B7 & B8 & B9 & B10 & B11 & B12).
  unfold same_graph. repeat match goal with |- _ /\ _ => split end; try congruence.
  intros D HD. apply B12. lia.
Qed.

Lemma uniq_nd s a : Inv s -> a < nobj s -> NoDup (map (dof_of s) (uniq_of s a)).
Proof. intros I Ha. rewrite uniq_eq by auto. apply uniq_loop_spec. Qed.
Lemma uniq_lt s a o : Inv s -> a < nobj s -> In o (uniq_of s a) -> o < nobj s.
Proof. intros I Ha Ho. eapply lineage_lt; eauto. now apply uniq_in_lineage. Qed.
Lemma uniq_ne s a : Inv s -> a < nobj s -> uniq_of s a <> [].
Proof. intros I Ha. rewrite uniq_eq by auto. apply uniq_loop_nonempty. destruct (ancestors s a); discriminate. Qed.
Lemma lineage_Anc s a o : Inv s -> a < nobj s -> (In o (ancestors s a ++ [a]) <-> o = a \/ Anc s o a).
Proof.
  intros [G A F _ _] Ha. rewrite in_app_iff. cbn. destruct (anc_char s G A F a Ha) as (_ & K & _).
  rewrite K. intuition.
Qed.
Lemma uniq_uses s a D : Inv s -> a < nobj s ->
  (In D (map (dof_of s) (uniq_of s a)) <-> exists o, (o = a \/ Anc s o a) /\ dof_of s o = D).
Proof.
  intros I Ha. rewrite uniq_eq by auto.
  destruct (uniq_loop_spec s [] (ancestors s a ++ [a])) as (_ & K & _). rewrite K, in_map_iff. split.
  - intros ((o & <- & Ho) & _). exists o. split; auto. now apply lineage_Anc.
  - intros (o & Ho & <-). split; [|intros []]. exists o. split; auto. now apply lineage_Anc.
Qed.

Lemma dof_size_eq s a : Inv s -> a < nobj s ->
  dof_size s a = list_sum (map (fun o => reduced_len (cel s (dof_of s o))) (uniq_of s a)).
Proof.
  intros I Ha. unfold dof_size. rewrite (inv_free s I a Ha). cbn [r_size free_entry]. apply total_spec.
Qed.
Lemma full_size_eq s a : Inv s -> a < nobj s ->
  full_dof_size s a = list_sum (map (fun o => dofs_len (cel s (dof_of s o))) (uniq_of s a)).
Proof.
  intros I Ha. unfold full_dof_size. assert (E := uniq_eq s a I Ha).
  rewrite (inv_full s I a Ha). cbn [f_size full_entry]. rewrite total_spec, get_ancestors_eq by auto. now rewrite E.
Qed.
Lemma last_end_eq s a : Inv s -> a < nobj s -> last_end s a = dof_size s a.
Proof.
  intros I Ha. rewrite dof_size_eq by auto. unfold last_end. rewrite r_idx_eq by auto.
  rewrite last_combine_blocks; [lia| |now apply uniq_ne]. now rewrite map_length.
Qed.

Lemma length_concat_map {A B} (f : A -> list B) l : length (concat (map f l)) = list_sum (map (fun x => length (f x)) l).
Proof. induction l as [|x l IH]; cbn; auto. rewrite app_length, IH. reflexivity. Qed.

Lemma free_x_len (d : dofs V) : wf d -> length (free_x d) = reduced_len d.
Proof.
  intros (H & _). unfold free_x. rewrite length_gather by auto. now rewrite count_reduced.
Qed.
Lemma free_lb_len (d : dofs V) : wf d -> length (free_lb d) = reduced_len d.
Proof.
  intros (H & H2 & _). unfold free_lb. rewrite length_gather by congruence. now rewrite count_reduced.
Qed.
Lemma free_ub_len (d : dofs V) : wf d -> length (free_ub d) = reduced_len d.
Proof.
  intros (H & _ & H2 & _). unfold free_ub. rewrite length_gather by congruence. now rewrite count_reduced.
Qed.
Lemma free_names_len (d : dofs V) : wf d -> length (free_names d) = reduced_len d.
Proof.
  intros W. rewrite free_names_gather by auto. destruct W as (H & _ & _ & H2 & _).
  rewrite length_gather by congruence. now rewrite count_reduced.
Qed.

Lemma cell_wf s o : Inv s -> o < nobj s -> wf (cel s (dof_of s o)).
Proof. intros I Ho. apply (gi_wf s (inv_g s I)). now apply (gi_dof s (inv_g s I)). Qed.

Lemma lengths s a : Inv s -> a < nobj s ->
  length (get_x s a) = dof_size s a /\ length (get_lower s a) = dof_size s a /\
  length (get_upper s a) = dof_size s a /\ length (get_names s a) = dof_size s a /\
  length (get_full_x s a) = full_dof_size s a /\ length (get_status s a) = full_dof_size s a.
Proof.
  intros I Ha. rewrite dof_size_eq, full_size_eq by auto.
  unfold get_x, get_lower, get_upper, get_names, get_full_x, get_status. rewrite !length_concat_map.
  assert (W : forall o, In o (uniq_of s a) -> wf (cel s (dof_of s o)))
    by (intros; apply cell_wf; auto; eapply uniq_lt; eauto).
  repeat split; f_equal; apply map_ext_in; intros o Ho.
  - now apply free_x_len, W. 
  - now apply free_lb_len, W.
  - now apply free_ub_len, W.
  - rewrite map_length. now apply free_names_len, W.
  - unfold full_x, dofs_len. symmetry. apply (W o Ho).
Qed.

Lemma skipn_add {A} n m (l : list A) : skipn m (skipn n l) = skipn (n + m) l.
Proof. revert n; induction l as [|x l IH]; intros [|n]; cbn; auto. now destruct m. Qed.

(** consecutive half open intervals covering [n, m) *)
Inductive tiles : nat -> list (nat * nat) -> nat -> Prop :=
| tiles_nil n : tiles n [] n
| tiles_cons n k m l : n <= k -> tiles k l m -> tiles n ((n, k) :: l) m.

Lemma blocks_tile n sizes : tiles n (blocks n sizes) (n + list_sum sizes).
Proof.
  revert n; induction sizes as [|k l IH]; intros n; cbn.
  - rewrite Nat.add_0_r. constructor.
  - constructor; [lia|]. rewrite Nat.add_assoc. apply IH.
Qed.

Lemma map_snd_combine {A B} (l : list A) (m : list B) : length l = length m -> map snd (combine l m) = m.
Proof. revert m; induction l as [|a l IH]; intros [|b m] H; cbn in *; try discriminate; auto. f_equal; auto. Qed.
Lemma map_fst_combine {A B} (l : list A) (m : list B) : length l = length m -> map fst (combine l m) = l.
Proof. revert m; induction l as [|a l IH]; intros [|b m] H; cbn in *; try discriminate; auto. f_equal; auto. Qed.

Lemma slice_block {A} (f : nat -> list A) us : forall n pre o i j,
  length pre = n ->
  In (o, (i, j)) (combine us (blocks n (map (fun o => length (f o)) us))) ->
  slice i j (pre ++ concat (map f us)) = f o.
Proof.
  induction us as [|u us IH]; intros n pre o i j Hn H; cbn in H; [destruct H|].
  destruct H as [H|H].
  - injection H as <- <- <-. cbn. unfold slice. rewrite skipn_app, skipn_all2 by lia.
    replace (n - length pre) with 0 by lia. cbn.
    replace (n + length (f u) - n) with (length (f u)) by lia.
    rewrite firstn_app, Nat.sub_diag, firstn_all. cbn. apply app_nil_r.
  - cbn. rewrite app_assoc. apply (IH (n + length (f u))); auto. rewrite app_length. lia.
Qed.

(** ** generic fold of block writes *)
Section BlockWrite.
Variables (w : st -> nat -> list V -> @outcome V) (sz : dofs V -> nat) (acc : dofs V -> list V)
          (R : dofs V -> dofs V -> Prop) (rings : bool).
Hypothesis sz_free : forall d d' : dofs V, d_free d' = d_free d -> sz d' = sz d.
Hypothesis w_spec : forall s o v s' e, Inv s -> o < nobj s -> length v = sz (cel s (dof_of s o)) ->
  w s o v = Some (s', e) ->
  e = None /\ same_graph s s' /\ (forall D, D <> dof_of s o -> cel s' D = cel s D) /\
  acc (cel s' (dof_of s o)) = v /\ R (cel s (dof_of s o)) (cel s' (dof_of s o)) /\
  (forall b, newx s' b = true <-> newx s b = true \/
      (rings = true /\ exists o', o' < nobj s /\ dof_of s o' = dof_of s o /\ desc s o' b)).

Lemma block_fold us : forall s v n s' e, Inv s -> (forall o, In o us -> o < nobj s) ->
  NoDup (map (dof_of s) us) ->
  n + list_sum (map (fun o => sz (cel s (dof_of s o))) us) <= length v ->
  fold_left (fun r (x : nat * (nat * nat)) => bindr r (fun s' => w s' (fst x) (slice (fst (snd x)) (snd (snd x)) v)))
    (combine us (blocks n (map (fun o => sz (cel s (dof_of s o))) us))) (Some (s, None)) = Some (s', e) ->
  e = None /\ same_graph s s' /\
  (forall D, ~ In D (map (dof_of s) us) -> cel s' D = cel s D) /\
  concat (map (fun o => acc (cel s' (dof_of s o))) us)
    = slice n (n + list_sum (map (fun o => sz (cel s (dof_of s o))) us)) v /\
  (forall o, In o us -> R (cel s (dof_of s o)) (cel s' (dof_of s o))) /\
  (forall b, newx s' b = true <-> newx s b = true \/
      (rings = true /\ exists o', o' < nobj s /\ In (dof_of s o') (map (dof_of s) us) /\ desc s o' b)).
Proof.
  assert (Hnone : forall v l, fold_left (fun (r : @outcome V) (x : nat * (nat * nat)) => bindr r (fun s' => w s' (fst x) (slice (fst (snd x)) (snd (snd x)) v))) l None = None)
    by (intros v l; induction l; cbn; auto).
  induction us as [|u us IH]; intros s v n s' e I Hlt Nd Hn H; cbn [combine blocks map fold_left] in H.
  - injection H as <- <-. repeat match goal with |- _ /\ _ => split end; auto.
    + now apply same_graph_refl.
    + cbn. unfold slice. rewrite Nat.add_0_r, Nat.sub_diag. reflexivity.
    + intros o [].
    + intros b. split; auto. intros [Hb|(_ & o & _ & [] & _)]; auto.
  - cbn [combine blocks map fold_left bindr fst snd] in H.
    set (k := sz (cel s (dof_of s u))) in *.
    cbn [map list_sum fold_right] in Hn. fold (list_sum (map (fun o => sz (cel s (dof_of s o))) us)) in Hn. fold k in Hn.
    destruct (w s u (slice n (n + k) v)) as [[s1 e1]|] eqn:E; [|rewrite Hnone in H; discriminate].
    assert (Hu : u < nobj s) by (apply Hlt; now left).
    apply w_spec in E; auto; [|rewrite slice_length by lia; unfold k; lia].
    destruct E as (-> & SG & Hoth & Hacc & HR & Hnx).
    inversion Nd as [|? ? Nu Nd']; subst.
    assert (I1 : Inv s1) by (eapply same_graph_inv; eauto).
    assert (SG0 := SG). destruct SG0 as (E1 & E2 & E3 & E4 & E5 & E6 & E7 & E8 & E9 & E10 & E11 & E12).
    assert (Hsz : map (fun o => sz (cel s1 (dof_of s1 o))) us = map (fun o => sz (cel s (dof_of s o))) us).
    { apply map_ext. intros o. rewrite E4. apply sz_free. apply E11. }
    rewrite <- Hsz in H. apply IH in H; auto.
    2:{ intros o Ho. rewrite E1. apply Hlt. now right. }
    2:{ now rewrite E4. }
    2:{ rewrite Hsz. lia. }
    destruct H as (He & SG2 & Hoth2 & Hcon & HR2 & Hnx2). rewrite E4 in *. rewrite Hsz in Hcon.
    split; [auto|]. split; [eapply same_graph_trans; eauto|]. split; [|split; [|split]].
    + intros D HD. cbn in HD. rewrite Hoth2 by tauto. apply Hoth. intros ->. tauto.
    + cbn [map concat list_sum fold_right]. fold (list_sum (map (fun o => sz (cel s (dof_of s o))) us)).
      rewrite Hcon, Hoth2 by auto. rewrite Hacc. fold k.
      set (m := list_sum _). unfold slice.
      replace (n + k - n) with k by lia. replace (n + k + m - (n + k)) with m by lia.
      replace (n + (k + m) - n) with (k + m) by lia.
      rewrite <- (firstn_skipn k (firstn (k + m) (skipn n v))) at 1.
      rewrite firstn_firstn, Nat.min_l by lia. f_equal.
      rewrite skipn_firstn_comm. replace (k + m - k) with m by lia. f_equal.
      symmetry. apply skipn_add.
    + intros o [<-|Ho].
      * now rewrite Hoth2 by auto.
      * rewrite <- (Hoth (dof_of s o)); auto.
        intros Eo. apply Nu. rewrite <- Eo. now apply in_map.
    + intros b. rewrite Hnx2, Hnx, E1. unfold desc. rewrite E7. cbn [map In]. split.
      * intros [[Hb|(Hr & o & H1 & H2 & H3)]|(Hr & o & H1 & H2 & H3)]; auto; right; split; auto; exists o; auto.
      * intros [Hb|(Hr & o & H1 & [H2|H2] & H3)]; auto.
        -- left; right. split; auto. exists o. auto.
        -- right. split; auto. exists o; auto.
Qed.
End BlockWrite.

Section WithOrd.
Variables (ord : list nat -> list nat) (k : nat).
Hypothesis ord_perm : any_order ord.

Lemma local_x_spec s o v s' e : Inv s -> o < nobj s -> length v = reduced_len (cel s (dof_of s o)) ->
  set_local_x ord k s o v = Some (s', e) ->
  e = None /\ same_graph s s' /\ (forall D, D <> dof_of s o -> cel s' D = cel s D) /\
  free_x (cel s' (dof_of s o)) = v /\
  ((forall i, ~ In i (free_positions (cel s (dof_of s o))) ->
      nth_error (full_x (cel s' (dof_of s o))) i = nth_error (full_x (cel s (dof_of s o))) i) /\
   same_but_x (cel s (dof_of s o)) (cel s' (dof_of s o))) /\
  (forall b, newx s' b = true <-> newx s b = true \/
      (true = true /\ exists o', o' < nobj s /\ dof_of s o' = dof_of s o /\ desc s o' b)).
Proof.
  intros I Ho Hv H. unfold set_local_x in H. rewrite Hv, Nat.eqb_refl in H. cbn [negb] in H.
  assert (HD := gi_dof s (inv_g s I) o Ho). assert (W := cell_wf s o I Ho).
  assert (Hv' : length v = length (free_positions (cel s (dof_of s o)))) by (now rewrite <- reduced_len_spec).
  assert (K := free_x_roundtrip (cel s (dof_of s o)) v W Hv'). cbv zeta in K.
  assert (W2 := dstep_wf _ (OFreeX v) W). cbn [dstep] in W2.
  destruct (set_free_x (cel s (dof_of s o)) v) as [d ee]. cbn [fst snd] in K, W2.
  destruct K as (-> & K1 & K2 & K3 & K4 & K5). cbn [cell_write] in H.
  apply value_write_step in H; auto; [|apply K5].
  destruct H as (_ & He & Hc & SG & Hn). rewrite Hc, fup_same.
  split; [auto|]. split; [auto|]. split; [intros; now apply fup_other|]. split; [auto|]. split; [auto|].
  intros b. rewrite Hn. split; intros [Hb|Hb]; auto. destruct Hb; auto.
Qed.

Lemma local_full_x_spec s o v s' e : Inv s -> o < nobj s -> length v = dofs_len (cel s (dof_of s o)) ->
  set_local_full_x ord k s o v = Some (s', e) ->
  e = None /\ same_graph s s' /\ (forall D, D <> dof_of s o -> cel s' D = cel s D) /\
  full_x (cel s' (dof_of s o)) = v /\
  same_but_x (cel s (dof_of s o)) (cel s' (dof_of s o)) /\
  (forall b, newx s' b = true <-> newx s b = true \/
      (true = true /\ exists o', o' < nobj s /\ dof_of s o' = dof_of s o /\ desc s o' b)).
Proof.
  intros I Ho Hv H. unfold set_local_full_x in H.
  assert (HD := gi_dof s (inv_g s I) o Ho). assert (W := cell_wf s o I Ho).
  assert (Hv' : length v = length (d_x (cel s (dof_of s o)))) by (rewrite Hv; apply W).
  assert (K := full_x_accept (cel s (dof_of s o)) v Hv').
  assert (W2 := dstep_wf _ (OFullX v) W). cbn [dstep] in W2.
  destruct (set_full_x (cel s (dof_of s o)) v) as [d ee]. cbn [fst snd] in K, W2.
  destruct K as (-> & K1 & K5). cbn [cell_write] in H.
  apply value_write_step in H; auto; [|apply K5].
  destruct H as (_ & He & Hc & SG & Hn). rewrite Hc, fup_same.
  split; [auto|]. split; [auto|]. split; [intros; now apply fup_other|]. split; [auto|]. split; [auto|].
  intros b. rewrite Hn. split; intros [Hb|Hb]; auto. destruct Hb; auto.
Qed.

Lemma slice_all {A} (v : list A) n : n = length v -> slice 0 (0 + n) v = v.
Proof. intros ->. unfold slice. cbn. rewrite Nat.sub_0_r. apply firstn_all. Qed.

Lemma desc_Anc s o b : Inv s -> o < nobj s -> b < nobj s -> (desc s o b <-> b = o \/ Anc s o b).
Proof.
  intros I Ho Hb. unfold desc. split; intros [->|H]; auto; right.
  - apply reachp_Anc; auto. apply I.
  - apply Anc_reachp; auto. apply I.
Qed.

(** the DOFs used by the lineage of [a] *)
Definition uses s a D := exists o, (o = a \/ Anc s o a) /\ dof_of s o = D.

Lemma set_x_effect s a v s' e : Inv s -> a < nobj s -> length v = dof_size s a ->
  set_x ord k s a v = Some (s', e) ->
  e = None /\ get_x s' a = v /\
  same_graph s s' /\
  (forall D, ~ uses s a D -> cel s' D = cel s D) /\
  (forall D, D < ncell s -> (forall i, ~ In i (free_positions (cel s D)) ->
        nth_error (full_x (cel s' D)) i = nth_error (full_x (cel s D)) i) /\ same_but_x (cel s D) (cel s' D)) /\
  (forall b, b < nobj s -> (newx s' b = true <-> newx s b = true \/
      exists o, (b = o \/ Anc s o b) /\ uses s a (dof_of s o))).
Proof.
  intros I Ha Hv H. unfold set_x in H. rewrite last_end_eq, Hv, Nat.eqb_refl in H by auto. cbn [negb] in H.
  rewrite r_idx_eq in H by auto.
  eapply (block_fold (set_local_x ord k) reduced_len free_x
     (fun d d' => (forall i, ~ In i (free_positions d) -> nth_error (full_x d') i = nth_error (full_x d) i) /\ same_but_x d d') true) in H; eauto.
  - destruct H as (He & SG & Hoth & Hcon & HR & Hnx).
    assert (SG0 := SG). destruct SG0 as (E1 & E2 & E3 & E4 & E5 & E6 & E7 & E8 & E9 & E10 & E11 & E12).
    assert (Hu : forall D, In D (map (dof_of s) (uniq_of s a)) <-> uses s a D) by (intros; now apply uniq_uses).
    split; [auto|]. split; [|split; [auto|split; [|split]]].
    + unfold get_x, uniq_of. rewrite E8, E4. fold (uniq_of s a). rewrite Hcon.
      apply slice_all. rewrite Hv. symmetry. now apply dof_size_eq.
    + intros D HD. apply Hoth. now rewrite Hu.
    + intros D HD. destruct (in_dec Nat.eq_dec D (map (dof_of s) (uniq_of s a))) as [Hin|Hin].
      * apply in_map_iff in Hin. destruct Hin as (o & <- & Ho). apply (HR o Ho).
      * rewrite Hoth by auto. split; auto. unfold same_but_x; auto.
    + intros b Hb. rewrite Hnx. split; intros [H|H]; auto; right.
      * destruct H as (_ & o & Ho & Hin & Hd). exists o. rewrite <- Hu. split; auto. now apply desc_Anc.
      * destruct H as (o & Ho & Hin). split; auto.
        assert (o < nobj s) by (destruct Ho as [<-|Ho]; auto; eapply Anc_lt; [apply I| |]; eauto).
        exists o. rewrite Hu. repeat split; auto. now apply desc_Anc.
  - intros d d'. apply reduced_len_free.
  - intros s0 o v0 s0' e0 I0 Ho Hv0 Hw. exact (local_x_spec s0 o v0 s0' e0 I0 Ho Hv0 Hw).
  - intros o Ho. eapply uniq_lt; eauto.
  - now apply uniq_nd.
  - rewrite <- dof_size_eq by auto. lia.
Qed.

Lemma set_full_x_effect s a v s' e : Inv s -> a < nobj s -> length v = full_dof_size s a ->
  set_gfull_x ord k s a v = Some (s', e) ->
  e = None /\ get_full_x s' a = v /\
  same_graph s s' /\
  (forall D, ~ uses s a D -> cel s' D = cel s D) /\
  (forall D, D < ncell s -> same_but_x (cel s D) (cel s' D)) /\
  (forall b, b < nobj s -> (newx s' b = true <-> newx s b = true \/
      exists o, (b = o \/ Anc s o b) /\ uses s a (dof_of s o))).
Proof.
  intros I Ha Hv H. unfold set_gfull_x in H.
  rewrite f_idx_eq in H by auto.
  eapply (block_fold (set_local_full_x ord k) dofs_len full_x same_but_x true) in H; eauto.
  - destruct H as (He & SG & Hoth & Hcon & HR & Hnx).
    assert (SG0 := SG). destruct SG0 as (E1 & E2 & E3 & E4 & E5 & E6 & E7 & E8 & E9 & E10 & E11 & E12).
    assert (Hu : forall D, In D (map (dof_of s) (uniq_of s a)) <-> uses s a D) by (intros; now apply uniq_uses).
    split; [auto|]. split; [|split; [auto|split; [|split]]].
    + unfold get_full_x, uniq_of. rewrite E8, E4. fold (uniq_of s a). rewrite Hcon.
      apply slice_all. rewrite Hv. symmetry. now apply full_size_eq.
    + intros D HD. apply Hoth. now rewrite Hu.
    + intros D HD. destruct (in_dec Nat.eq_dec D (map (dof_of s) (uniq_of s a))) as [Hin|Hin].
      * apply in_map_iff in Hin. destruct Hin as (o & <- & Ho). apply (HR o Ho).
      * rewrite Hoth by auto. unfold same_but_x; auto.
    + intros b Hb. rewrite Hnx. split; intros [H|H]; auto; right.
      * destruct H as (_ & o & Ho & Hin & Hd). exists o. rewrite <- Hu. split; auto. now apply desc_Anc.
      * destruct H as (o & Ho & Hin). split; auto.
        assert (o < nobj s) by (destruct Ho as [<-|Ho]; auto; eapply Anc_lt; [apply I| |]; eauto).
        exists o. rewrite Hu. repeat split; auto. now apply desc_Anc.
  - intros d d'. apply dofs_len_free.
  - intros s0 o v0 s0' e0 I0 Ho Hv0 Hw. exact (local_full_x_spec s0 o v0 s0' e0 I0 Ho Hv0 Hw).
  - intros o Ho. eapply uniq_lt; eauto.
  - now apply uniq_nd.
  - rewrite <- full_size_eq by auto. lia.
Qed.

(** single-object writes *)
Lemma ring_iff s o b (P : Prop) : Inv s -> o < nobj s -> b < nobj s ->
  (P <-> newx s b = true \/ (true = true /\ exists o', o' < nobj s /\ dof_of s o' = dof_of s o /\ desc s o' b)) ->
  (P <-> newx s b = true \/ exists o', (b = o' \/ Anc s o' b) /\ dof_of s o' = dof_of s o).
Proof.
  intros I Ho Hb ->. split; (intros [H|H]; [auto|right]).
  - destruct H as (_ & o' & H1 & H2 & H3). exists o'. split; auto. now apply desc_Anc.
  - destruct H as (o' & H1 & H2). split; auto. exists o'.
    assert (o' < nobj s) by (destruct H1 as [<-|H1]; auto; eapply Anc_lt; [apply I| |]; eauto).
    repeat split; auto. now apply desc_Anc.
Qed.

Lemma set_key_effect s a kk i v s' e : Inv s -> a < nobj s -> denotes (cel s (dof_of s a)) kk i ->
  set_key ord k s a kk v = Some (s', e) ->
  e = None /\ same_graph s s' /\ (forall D, D <> dof_of s a -> cel s' D = cel s D) /\
  replaced i v (d_x (cel s (dof_of s a))) (d_x (cel s' (dof_of s a))) /\
  same_but_x (cel s (dof_of s a)) (cel s' (dof_of s a)) /\
  (forall b, b < nobj s -> (newx s' b = true <-> newx s b = true \/
      exists o, (b = o \/ Anc s o b) /\ dof_of s o = dof_of s a)).
Proof.
  intros I Ha Hk H. unfold set_key in H.
  assert (HD := gi_dof s (inv_g s I) a Ha). assert (W := cell_wf s a I Ha).
  assert (K := set_denotes (cel s (dof_of s a)) kk i v W Hk).
  assert (W2 := dstep_wf _ (OSet kk v) W). cbn [dstep] in W2.
  destruct (dofs_set (cel s (dof_of s a)) kk v) as [d ee]. cbn [fst snd] in K, W2.
  destruct K as (-> & K1 & K2 & _). cbn [cell_write] in H.
  apply value_write_step in H; auto; [|apply K2].
  destruct H as (_ & He & Hc & SG & Hn). rewrite Hc, fup_same.
  split; [auto|]. split; [auto|]. split; [intros; now apply fup_other|]. split; [auto|]. split; [auto|].
  intros b Hb. apply ring_iff; auto. rewrite Hn. split; intros [X|X]; auto. destruct X; auto.
Qed.

(** bounds *)
Definition only_free_lb (d d' : dofs V) := same_but_lb d d' /\
  forall i, ~ In i (free_positions d) -> nth_error (d_lb d') i = nth_error (d_lb d) i.
Definition only_free_ub (d d' : dofs V) := same_but_ub d d' /\
  forall i, ~ In i (free_positions d) -> nth_error (d_ub d') i = nth_error (d_ub d) i.
Lemma lower_write_spec s o v s' e : Inv s -> o < nobj s -> length v = reduced_len (cel s (dof_of s o)) ->
  cell_write s (dof_of s o) (set_free_lb (cel s (dof_of s o)) v) (fun s'' => Some (s'', None)) = Some (s', e) ->
  e = None /\ same_graph s s' /\ (forall D, D <> dof_of s o -> cel s' D = cel s D) /\
  free_lb (cel s' (dof_of s o)) = v /\ only_free_lb (cel s (dof_of s o)) (cel s' (dof_of s o)) /\
  (forall b, newx s' b = true <-> newx s b = true \/
      (false = true /\ exists o', o' < nobj s /\ dof_of s o' = dof_of s o /\ desc s o' b)).
Proof.
  intros I Ho Hv H.
  assert (HD := gi_dof s (inv_g s I) o Ho). assert (W := cell_wf s o I Ho).
  assert (Hv' : length v = length (free_positions (cel s (dof_of s o)))) by (now rewrite <- reduced_len_spec).
  assert (K := free_lb_roundtrip (cel s (dof_of s o)) v W Hv'). cbv zeta in K.
  assert (W2 := dstep_wf _ (OFreeLb v) W). cbn [dstep] in W2.
  destruct (set_free_lb (cel s (dof_of s o)) v) as [d ee]. cbn [fst snd] in K, W2.
  destruct K as (-> & K1 & K2 & K3). cbn [cell_write] in H. injection H as <- <-. cbn [cel set_cel newx]. rewrite fup_same.
  split; [auto|]. split; [apply cell_same_graph; auto; apply K2|]. split; [intros; now apply fup_other|].
  split; [auto|]. split; [split; auto|].
  intros b. split; intros H; auto. destruct H as [H|[H _]]; auto; discriminate.
Qed.

Lemma upper_write_spec s o v s' e : Inv s -> o < nobj s -> length v = reduced_len (cel s (dof_of s o)) ->
  cell_write s (dof_of s o) (set_free_ub (cel s (dof_of s o)) v) (fun s'' => Some (s'', None)) = Some (s', e) ->
  e = None /\ same_graph s s' /\ (forall D, D <> dof_of s o -> cel s' D = cel s D) /\
  free_ub (cel s' (dof_of s o)) = v /\ only_free_ub (cel s (dof_of s o)) (cel s' (dof_of s o)) /\
  (forall b, newx s' b = true <-> newx s b = true \/
      (false = true /\ exists o', o' < nobj s /\ dof_of s o' = dof_of s o /\ desc s o' b)).
Proof.
  intros I Ho Hv H.
  assert (HD := gi_dof s (inv_g s I) o Ho). assert (W := cell_wf s o I Ho).
  assert (Hv' : length v = length (free_positions (cel s (dof_of s o)))) by (now rewrite <- reduced_len_spec).
  assert (K := free_ub_roundtrip (cel s (dof_of s o)) v W Hv'). cbv zeta in K.
  assert (W2 := dstep_wf _ (OFreeUb v) W). cbn [dstep] in W2.
  destruct (set_free_ub (cel s (dof_of s o)) v) as [d ee]. cbn [fst snd] in K, W2.
  destruct K as (-> & K1 & K2 & K3). cbn [cell_write] in H. injection H as <- <-. cbn [cel set_cel newx]. rewrite fup_same.
  split; [auto|]. split; [apply cell_same_graph; auto; apply K2|]. split; [intros; now apply fup_other|].
  split; [auto|]. split; [split; auto|].
  intros b. split; intros H; auto. destruct H as [H|[H _]]; auto; discriminate.
Qed.

Lemma get_ext_lb s a s' : same_graph s s' -> get_lower s' a = concat (map (fun o => free_lb (cel s' (dof_of s o))) (uniq_of s a)).
Proof. intros (E1 & E2 & E3 & E4 & E5 & E6 & E7 & E8 & _). unfold get_lower, uniq_of. now rewrite E8, E4. Qed.
Lemma get_ext_ub s a s' : same_graph s s' -> get_upper s' a = concat (map (fun o => free_ub (cel s' (dof_of s o))) (uniq_of s a)).
Proof. intros (E1 & E2 & E3 & E4 & E5 & E6 & E7 & E8 & _). unfold get_upper, uniq_of. now rewrite E8, E4. Qed.

Lemma set_lower_effect s a v s' e : Inv s -> a < nobj s -> length v = dof_size s a ->
  set_lower s a v = Some (s', e) ->
  e = None /\ get_lower s' a = v /\ same_graph s s' /\
  (forall D, ~ uses s a D -> cel s' D = cel s D) /\
  (forall D, D < ncell s -> only_free_lb (cel s D) (cel s' D)) /\
  (forall b, newx s' b = newx s b).
Proof.
  intros I Ha Hv H. unfold set_lower in H. rewrite last_end_eq, Hv, Nat.eqb_refl in H by auto. cbn [negb] in H.
  rewrite r_idx_eq in H by auto.
  eapply (block_fold (fun s' o v => cell_write s' (dof_of s' o) (set_free_lb (cel s' (dof_of s' o)) v) (fun s'' => Some (s'', None)))
            reduced_len free_lb only_free_lb false) in H; eauto.
  - destruct H as (He & SG & Hoth & Hcon & HR & Hnx).
    assert (Hu : forall D, In D (map (dof_of s) (uniq_of s a)) <-> uses s a D) by (intros; now apply uniq_uses).
    split; [auto|]. split; [|split; [auto|split; [|split]]].
    + rewrite (get_ext_lb s a s' SG), Hcon. apply slice_all. rewrite Hv. symmetry. now apply dof_size_eq.
    + intros D HD. apply Hoth. now rewrite Hu.
    + intros D HD. destruct (in_dec Nat.eq_dec D (map (dof_of s) (uniq_of s a))) as [Hin|Hin].
      * apply in_map_iff in Hin. destruct Hin as (o & <- & Ho). apply (HR o Ho).
      * rewrite Hoth by auto. unfold only_free_lb, same_but_lb; auto.
    + intros b. specialize (Hnx b). destruct (newx s b), (newx s' b); auto; [|].
      * apply Hnx. auto.
      * exfalso. destruct (proj1 Hnx eq_refl) as [X|[X _]]; discriminate.
  - intros d d'. apply reduced_len_free.
  - intros; now apply lower_write_spec.
  - intros o Ho. eapply uniq_lt; eauto.
  - now apply uniq_nd.
  - rewrite <- dof_size_eq by auto. lia.
Qed.

Lemma set_upper_effect s a v s' e : Inv s -> a < nobj s -> length v = dof_size s a ->
  set_upper s a v = Some (s', e) ->
  e = None /\ get_upper s' a = v /\ same_graph s s' /\
  (forall D, ~ uses s a D -> cel s' D = cel s D) /\
  (forall D, D < ncell s -> only_free_ub (cel s D) (cel s' D)) /\
  (forall b, newx s' b = newx s b).
Proof.
  intros I Ha Hv H. unfold set_upper in H. rewrite last_end_eq, Hv, Nat.eqb_refl in H by auto. cbn [negb] in H.
  rewrite r_idx_eq in H by auto.
  eapply (block_fold (fun s' o v => cell_write s' (dof_of s' o) (set_free_ub (cel s' (dof_of s' o)) v) (fun s'' => Some (s'', None)))
            reduced_len free_ub only_free_ub false) in H; eauto.
  - destruct H as (He & SG & Hoth & Hcon & HR & Hnx).
    assert (Hu : forall D, In D (map (dof_of s) (uniq_of s a)) <-> uses s a D) by (intros; now apply uniq_uses).
    split; [auto|]. split; [|split; [auto|split; [|split]]].
    + rewrite (get_ext_ub s a s' SG), Hcon. apply slice_all. rewrite Hv. symmetry. now apply dof_size_eq.
    + intros D HD. apply Hoth. now rewrite Hu.
    + intros D HD. destruct (in_dec Nat.eq_dec D (map (dof_of s) (uniq_of s a))) as [Hin|Hin].
      * apply in_map_iff in Hin. destruct Hin as (o & <- & Ho). apply (HR o Ho).
      * rewrite Hoth by auto. unfold only_free_ub, same_but_ub; auto.
    + intros b. specialize (Hnx b). destruct (newx s b), (newx s' b); auto; [|].
      * apply Hnx. auto.
      * exfalso. destruct (proj1 Hnx eq_refl) as [X|[X _]]; discriminate.
  - intros d d'. apply reduced_len_free.
  - intros; now apply upper_write_spec.
  - intros o Ho. eapply uniq_lt; eauto.
  - now apply uniq_nd.
  - rewrite <- dof_size_eq by auto. lia.
Qed.

Lemma wrong_length s a v : Inv s -> a < nobj s -> length v <> dof_size s a ->
  set_x ord k s a v = Some (s, Some EValue) /\ set_lower s a v = Some (s, Some EValue) /\
  set_upper s a v = Some (s, Some EValue).
Proof.
  intros I Ha Hv. unfold set_x, set_lower, set_upper. rewrite last_end_eq by auto.
  destruct (Nat.eqb_spec (dof_size s a) (length v)); [congruence|]. auto.
Qed.

End WithOrd.
End P.
