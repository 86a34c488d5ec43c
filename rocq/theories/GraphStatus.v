(** Effect of the status operations on the whole graph. *)
From Verif Require Import ListAux DofsModel DofsSpec DofsProofs GraphModel GraphTrace GraphLists GraphInv GraphSpec GraphPres GraphPres2 GraphPres3 GraphFacts.

Section P.
Context {V : Type}.
Notation st := (@st V).
Implicit Types s : st.
Variables (ord : list nat -> list nat) (k : nat).
Hypothesis ord_perm : any_order ord.

(** nothing but statuses and the free index tables differs *)
Definition status_only s s' := s' = set_fre (set_cel s (cel s')) (fre s').

Lemma status_only_trans s1 s2 s3 : status_only s1 s2 -> status_only s2 s3 -> status_only s1 s3.
Proof. unfold status_only. intros H1 H2. rewrite H2 at 1. rewrite H1. reflexivity. Qed.
Lemma status_only_refl s : status_only s s.
Proof. unfold status_only. destruct s; reflexivity. Qed.

Lemma status_tail s D d s' e a : Inv s -> D < ncell s -> length (d_free d) = length (d_free (cel s D)) ->
  d_x d = d_x (cel s D) -> wf d ->
  bindr (update_opt_indices ord k (set_cel s (fup (cel s) D d)) D) (fun s'' => ret (update_free ord k s'' a)) = Some (s', e) ->
  e = None /\ status_only s s' /\ cel s' = fup (cel s) D d.
Proof.
  intros I HD Hl Hx W H.
  destruct (update_opt_indices _ _ _ _) as [[s1 e1]|] eqn:E1; [|discriminate].
  eapply status_write_step in E1; eauto. destruct E1 as (S1 & -> & Hs1). cbn [bindr] in H.
  destruct (update_free ord k s1 a) as [s2|] eqn:E2; [|discriminate]. cbn in H. injection H as <- <-.
  apply update_free_spec in E2; auto. destruct E2 as (E2 & _).
  split; auto. unfold status_only. rewrite E2, Hs1. cbn. split; reflexivity.
Qed.

Lemma set_status_key_effect b s a kk i s' e : Inv s -> a < nobj s -> denotes (cel s (dof_of s a)) kk i ->
  set_status_key ord k b s a kk = Some (s', e) ->
  e = None /\ status_only s s' /\ (forall D, D <> dof_of s a -> cel s' D = cel s D) /\
  replaced i b (d_free (cel s (dof_of s a))) (d_free (cel s' (dof_of s a))) /\
  same_but_free (cel s (dof_of s a)) (cel s' (dof_of s a)).
Proof.
  intros I Ha Hk H. unfold set_status_key in H.
  assert (HD := gi_dof s (inv_g s I) a Ha). assert (W := cell_wf s a I Ha).
  assert (K := set_status_denotes b (cel s (dof_of s a)) kk i W Hk).
  assert (W2 := set_status_wf b _ kk W).
  destruct (set_status b (cel s (dof_of s a)) kk) as [d ee]. cbn [fst snd] in K, W2.
  destruct K as (-> & K1 & K2 & _). cbn [cell_write] in H.
  apply status_tail in H; auto; [|apply K1|apply K2].
  destruct H as (He & HS & Hc). rewrite Hc, fup_same.
  split; [auto|]. split; [auto|]. split; [intros; now apply fup_other|]. auto.
Qed.

Lemma set_status_key_unknown b s a kk s' e : Inv s -> a < nobj s ->
  (forall i, ~ denotes (cel s (dof_of s a)) kk i) -> set_status_key ord k b s a kk = Some (s', e) ->
  e <> None /\ status_only s s' /\ (forall D, cel s' D = cel s D) /\ fre s' = fre s.
Proof.
  intros I Ha Hk H. unfold set_status_key in H.
  destruct (set_status_unknown b _ kk (cell_wf s a I Ha) Hk) as (er & E & _). rewrite E in H. cbn in H.
  injection H as <- <-. split; [discriminate|]. split; [unfold status_only; destruct s; reflexivity|]. split; auto.
  intros D. cbn. unfold fup. destruct (Nat.eqb_spec D (dof_of s a)); subst; auto.
Qed.

Definition all_status (b : bool) (d d' : dofs V) := same_but_free d d' /\
  length (d_free d') = length (d_free d) /\ forall f, In f (d_free d') -> f = b.

Lemma local_status_all_effect b s a s' e : Inv s -> a < nobj s ->
  local_status_all ord k b s a = Some (s', e) ->
  e = None /\ status_only s s' /\ (forall D, D <> dof_of s a -> cel s' D = cel s D) /\
  all_status b (cel s (dof_of s a)) (cel s' (dof_of s a)).
Proof.
  intros I Ha H. unfold local_status_all in H.
  assert (HD := gi_dof s (inv_g s I) a Ha). assert (W := cell_wf s a I Ha).
  assert (W2 := dstep_wf _ (if b then OUnfixAll else OFixAll) W).
  set (d := if b then _ else _) in H.
  assert (Ed : d = set_free (cel s (dof_of s a)) (map (fun _ => b) (d_free (cel s (dof_of s a))))) by (unfold d; destruct b; reflexivity).
  assert (Wd : wf d) by (unfold d; destruct b; exact W2).
  cbn [cell_write] in H. apply status_tail in H; auto.
  2,3: rewrite Ed; cbn; now rewrite ?map_length.
  destruct H as (He & HS & Hc). rewrite Hc, fup_same.
  split; [auto|]. split; [auto|]. split; [intros; now apply fup_other|].
  rewrite Ed. split; [unfold same_but_free; auto|]. cbn. split; [apply map_length|].
  intros f Hf. apply in_map_iff in Hf. destruct Hf as (? & <- & _). reflexivity.
Qed.

Lemma fold_err_none {A} (f : st -> A -> @outcome V) : forall l,
  fold_left (fun (r : @outcome V) x => bindr r (fun s' => f s' x)) l None = None.
Proof. induction l; cbn; auto. Qed.

Lemma status_all_fold b us : forall s s' e, Inv s -> (forall o, In o us -> o < nobj s) ->
  fold_left (fun r o => bindr r (fun s' => local_status_all ord k b s' o)) us (Some (s, None)) = Some (s', e) ->
  e = None /\ status_only s s' /\ (forall D, ~ In D (map (dof_of s) us) -> cel s' D = cel s D) /\
  (forall o, In o us -> all_status b (cel s (dof_of s o)) (cel s' (dof_of s o))).
Proof.
  induction us as [|u us IH]; intros s s' e I Hlt H; cbn [fold_left bindr] in H.
  - injection H as <- <-. split; auto. split; [apply status_only_refl|]. split; auto. intros o [].
  - destruct (local_status_all ord k b s u) as [[s1 e1]|] eqn:E; [|rewrite fold_err_none in H; discriminate].
    assert (Hu : u < nobj s) by (apply Hlt; now left).
    assert (S1 : Step s s1) by (eapply local_status_all_step; eauto).
    apply local_status_all_effect in E; auto. destruct E as (-> & SO & Hoth & HA).
    assert (Hdof : dof_of s1 = dof_of s) by (rewrite SO; reflexivity).
    assert (Hn : nobj s1 = nobj s) by (rewrite SO; reflexivity).
    apply IH in H; [|apply S1|intros o Ho; rewrite Hn; apply Hlt; now right].
    destruct H as (He & SO2 & Hoth2 & HA2). rewrite Hdof in *.
    split; auto. split; [eapply status_only_trans; eauto|]. split.
    + intros D HD. cbn in HD. rewrite Hoth2 by tauto. apply Hoth. intros ->. tauto.
    + assert (Comb : forall D, D = dof_of s u -> all_status b (cel s D) (cel s' D)).
      { intros D ->. destruct (in_dec Nat.eq_dec (dof_of s u) (map (dof_of s) us)) as [Hin|Hin].
        - apply in_map_iff in Hin. destruct Hin as (o & Eo & Ho). specialize (HA2 o Ho). rewrite Eo in HA2.
          destruct HA as (A1 & A2 & A3), HA2 as (B1 & B2 & B3). split; [|split; [congruence|auto]].
          unfold same_but_free in *. intuition congruence.
        - now rewrite Hoth2. }
      intros o [<-|Ho]; [now apply Comb|].
      destruct (Nat.eq_dec (dof_of s o) (dof_of s u)) as [Eo|No]; [now apply Comb|].
      rewrite <- (Hoth _ No). now apply HA2.
Qed.

Lemma status_all_effect b s a s' e : Inv s -> a < nobj s -> status_all ord k b s a = Some (s', e) ->
  e = None /\ status_only s s' /\ (forall D, ~ uses s a D -> cel s' D = cel s D) /\
  (forall D, uses s a D -> all_status b (cel s D) (cel s' D)).
Proof.
  intros I Ha H. unfold status_all in H. apply status_all_fold in H; auto.
  2:{ intros o Ho. eapply uniq_lt; eauto. }
  fold (uniq_of s a) in H. destruct H as (He & SO & Hoth & HA). split; auto. split; auto. split.
  - intros D HD. apply Hoth. now rewrite uniq_uses.
  - intros D HD. apply (uniq_uses s a D I Ha) in HD. apply in_map_iff in HD. destruct HD as (o & <- & Ho). now apply HA.
Qed.

(** full_fix / full_unfix *)
Lemma full_status_fold (neg : bool) us : forall s v n s' e, Inv s -> (forall o, In o us -> o < nobj s) ->
  NoDup (map (dof_of s) us) ->
  n + list_sum (map (fun o => dofs_len (cel s (dof_of s o))) us) <= length v ->
  fold_left (fun r (x : nat * (nat * nat)) => bindr r (fun s' =>
      let D := dof_of s' (fst x) in
      let w := slice (fst (snd x)) (snd (snd x)) v in
      cell_write s' D (assign_free (cel s' D) (if neg then map negb w else w))
                 (fun s'' => update_opt_indices ord k s'' D)))
    (combine us (blocks n (map (fun o => dofs_len (cel s (dof_of s o))) us))) (Some (s, None)) = Some (s', e) ->
  e = None /\ status_only s s' /\ (forall D, ~ In D (map (dof_of s) us) -> cel s' D = cel s D) /\
  concat (map (fun o => d_free (cel s' (dof_of s o))) us)
    = (let w := slice n (n + list_sum (map (fun o => dofs_len (cel s (dof_of s o))) us)) v in if neg then map negb w else w) /\
  (forall o, In o us -> same_but_free (cel s (dof_of s o)) (cel s' (dof_of s o))).
Proof.
  induction us as [|u us IH]; intros s v n s' e I Hlt Nd Hn H; cbn [combine blocks map fold_left] in H.
  - injection H as <- <-. split; auto. split; [apply status_only_refl|]. split; auto. split; [|intros o []].
    cbn. unfold slice. rewrite Nat.add_0_r, Nat.sub_diag. now destruct neg.
  - cbn [combine blocks map fold_left bindr fst snd] in H. cbv zeta in H. cbn [fst snd] in H.
    set (m := dofs_len (cel s (dof_of s u))) in *.
    cbn [map list_sum fold_right] in Hn. fold (list_sum (map (fun o => dofs_len (cel s (dof_of s o))) us)) in Hn. fold m in Hn.
    assert (Hu : u < nobj s) by (apply Hlt; now left).
    set (w := if neg then map negb (slice n (n + m) v) else slice n (n + m) v) in H.
    assert (Hw : length w = m).
    { unfold w. assert (length (slice n (n + m) v) = m) by (rewrite slice_length by lia; lia).
      destruct neg; rewrite ?map_length; auto. }
    destruct (cell_write s (dof_of s u) _ _) as [[s1 e1]|] eqn:E.
    2:{ exfalso. revert H. match goal with |- fold_left ?g ?l None = _ -> _ =>
          change (fold_left g l None = Some (s', e) -> False) end.
        rewrite (fold_err_none (fun s' (x : nat * (nat * nat)) =>
      let D := dof_of s' (fst x) in
      let w := slice (fst (snd x)) (snd (snd x)) v in
      cell_write s' D (assign_free (cel s' D) (if neg then map negb w else w))
                 (fun s'' => update_opt_indices ord k s'' D))). discriminate. }
    assert (S1 : Step s s1) by (eapply full_status_one_step; eauto).
    assert (W := cell_wf s u I Hu). assert (HD := gi_dof s (inv_g s I) u Hu).
    unfold assign_free in E. assert (Hwl : length w = length (d_free (cel s (dof_of s u)))) by exact Hw.
    rewrite Hwl, Nat.eqb_refl in E. cbn [cell_write] in E.
    eapply status_write_step in E; eauto.
    2:{ destruct W as (W1 & W2). split; cbn; [congruence|auto]. }
    destruct E as (_ & -> & Hs1).
    assert (SO : status_only s s1) by (unfold status_only; rewrite Hs1; reflexivity).
    assert (Hc1 : cel s1 = fup (cel s) (dof_of s u) (set_free (cel s (dof_of s u)) w)) by (rewrite Hs1; reflexivity).
    assert (Hdof : dof_of s1 = dof_of s) by (rewrite SO; reflexivity).
    assert (Hno : nobj s1 = nobj s) by (rewrite SO; reflexivity).
    inversion Nd as [|? ? Nu Nd']; subst.
    assert (Hne : forall o, In o us -> dof_of s o <> dof_of s u).
    { intros o Ho Eo. apply Nu. rewrite <- Eo. now apply in_map. }
    assert (Hsz : map (fun o => dofs_len (cel s1 (dof_of s1 o))) us = map (fun o => dofs_len (cel s (dof_of s o))) us).
    { apply map_ext_in. intros o Ho. rewrite Hdof, Hc1, fup_other; auto. }
    rewrite <- Hsz in H. apply IH in H; [|apply S1| | |].
    2:{ intros o Ho. rewrite Hno. apply Hlt. now right. }
    2:{ now rewrite Hdof. }
    2:{ rewrite Hsz. lia. }
    destruct H as (He & SO2 & Hoth2 & Hcon & HR2). rewrite Hdof in *. rewrite Hsz in Hcon.
    split; [auto|]. split; [eapply status_only_trans; eauto|]. split; [|split].
    + intros D HDn. cbn in HDn. rewrite Hoth2 by tauto. rewrite Hc1. apply fup_other. intros ->. tauto.
    + cbn [map concat list_sum fold_right]. fold (list_sum (map (fun o => dofs_len (cel s (dof_of s o))) us)).
      rewrite Hcon, Hoth2 by auto. rewrite Hc1, fup_same. cbn [d_free set_free]. fold m.
      set (q := list_sum _). cbv zeta.
      assert (Hsl : slice n (n + (m + q)) v = slice n (n + m) v ++ slice (n + m) (n + m + q) v).
      { unfold slice.
        replace (n + m - n) with m by lia. replace (n + m + q - (n + m)) with q by lia.
        replace (n + (m + q) - n) with (m + q) by lia.
        rewrite <- (firstn_skipn m (firstn (m + q) (skipn n v))).
        rewrite firstn_firstn, Nat.min_l by lia. f_equal.
        rewrite skipn_firstn_comm. replace (m + q - m) with q by lia. f_equal. apply skipn_add. }
      rewrite Hsl. unfold w. destruct neg; rewrite ?map_app; reflexivity.
    + intros o [<-|Ho].
      * rewrite Hoth2 by auto. rewrite Hc1, fup_same. unfold same_but_free. auto.
      * replace (cel s (dof_of s o)) with (cel s1 (dof_of s o)); auto. rewrite Hc1. apply fup_other; auto.
Qed.

Lemma full_status_effect (neg : bool) s a v s' e : Inv s -> a < nobj s -> length v = full_dof_size s a ->
  full_status ord k neg s a v = Some (s', e) ->
  e = None /\ status_only s s' /\ (forall D, ~ uses s a D -> cel s' D = cel s D) /\
  get_status s' a = (if neg then map negb v else v) /\
  (forall D, D < ncell s -> same_but_free (cel s D) (cel s' D)).
Proof.
  intros I Ha Hv H. unfold full_status in H. rewrite f_idx_eq in H by auto.
  apply full_status_fold in H; auto.
  - destruct H as (He & SO & Hoth & Hcon & HR). split; auto. split; auto. split; [|split].
    + intros D HD. apply Hoth. now rewrite uniq_uses.
    + assert (E8 : full s' = full s) by (rewrite SO; reflexivity).
      assert (E4 : dof_of s' = dof_of s) by (rewrite SO; reflexivity).
      unfold get_status, uniq_of. rewrite E8, E4. fold (uniq_of s a). rewrite Hcon. cbv zeta.
      rewrite slice_all; auto. rewrite Hv. symmetry. now apply full_size_eq.
    + intros D HD. destruct (in_dec Nat.eq_dec D (map (dof_of s) (uniq_of s a))) as [Hin|Hin].
      * apply in_map_iff in Hin. destruct Hin as (o & <- & Ho). apply (HR o Ho).
      * rewrite Hoth by auto. unfold same_but_free; auto.
  - intros o Ho. eapply uniq_lt; eauto.
  - now apply uniq_nd.
  - rewrite <- full_size_eq by auto. lia.
Qed.
End P.
