(** Preservation, part 2: value, bounds and status operations. *)
From Verif Require Import ListAux DofsModel DofsSpec DofsProofs GraphModel GraphTrace GraphLists GraphInv GraphSpec GraphPres.

Section P.
Context {V : Type}.
Notation st := (@st V).
Implicit Types s : st.
Variables (ord : list nat -> list nat) (k : nat).
Hypothesis ord_perm : any_order ord.

(** writing back an unchanged cell changes nothing observable *)
Lemma cell_noop_step s D d : Inv s -> D < ncell s -> d = cel s D -> Step s (set_cel s (fup (cel s) D d)).
Proof.
  intros I HD ->. assert (W := gi_wf s (inv_g s I) D HD).
  assert (E : forall D', fup (cel s) D (cel s D) D' = cel s D').
  { intros D'. unfold fup. destruct (Nat.eqb_spec D' D); subst; auto. }
  split.
  - eapply same_graph_inv; eauto. apply cell_same_graph; auto.
  - split; [|split; [|split; reflexivity]].
    + intros b Hb Hx. split; auto. unfold view, ancestors. cbn. apply map_ext. intros o. now rewrite E.
    + intros X o Ho Hs. cbn in *. rewrite E. auto.
Qed.

Lemma set_local_x_step s a v s' e : Inv s -> a < nobj s ->
  set_local_x ord k s a v = Some (s', e) -> Step s s'.
Proof.
  intros I Ha H. unfold set_local_x in H.
  assert (HD := gi_dof s (inv_g s I) a Ha). assert (W := gi_wf s (inv_g s I) _ HD).
  destruct (negb _) eqn:E; [injection H as <- _; now apply Step_refl|].
  unfold set_free_x in H. rewrite E in H. cbn [cell_write] in H.
  eapply value_write_step in H; eauto; [tauto|].
  assert (W2 := dstep_wf _ (OFreeX v) W). cbn [dstep] in W2. unfold set_free_x in W2. rewrite E in W2. exact W2.
Qed.

Lemma set_local_full_x_step s a v s' e : Inv s -> a < nobj s ->
  set_local_full_x ord k s a v = Some (s', e) -> Step s s'.
Proof.
  intros I Ha H. unfold set_local_full_x in H.
  assert (HD := gi_dof s (inv_g s I) a Ha). assert (W := gi_wf s (inv_g s I) _ HD).
  assert (W2 := dstep_wf _ (OFullX v) W). cbn [dstep] in W2.
  unfold set_full_x in H, W2. destruct (negb _) eqn:E; cbn [cell_write] in H.
  - injection H as <- _. now apply cell_noop_step.
  - eapply value_write_step in H; eauto. tauto.
Qed.

Lemma set_key_step s a kk v s' e : Inv s -> a < nobj s ->
  set_key ord k s a kk v = Some (s', e) -> Step s s'.
Proof.
  intros I Ha H. unfold set_key in H.
  assert (HD := gi_dof s (inv_g s I) a Ha). assert (W := gi_wf s (inv_g s I) _ HD).
  assert (W2 := dstep_wf _ (OSet kk v) W). cbn [dstep] in W2.
  unfold dofs_set in H, W2. destruct (resolve _ _ _) eqn:E; cbn [cell_write] in H.
  - eapply value_write_step in H; eauto. tauto.
  - injection H as <- _. now apply cell_noop_step.
Qed.

Lemma r_idx_eq s a : Inv s -> a < nobj s ->
  r_idx (fre s a) = combine (uniq_of s a) (blocks 0 (map (fun o => reduced_len (cel s (dof_of s o))) (uniq_of s a))).
Proof.
  intros I Ha. rewrite (inv_free s I a Ha). unfold free_entry, uniq_of. cbn [r_idx].
  apply dict_zip_combine.
  - apply inj_on_lt; [apply I|]. intros x Hx. eapply lineage_lt; eauto. now apply uniq_in_lineage.
  - fold (uniq_of s a). rewrite uniq_eq by auto. eapply NoDup_map_inv. apply uniq_loop_spec.
Qed.

Lemma f_idx_eq s a : Inv s -> a < nobj s ->
  f_idx (full s a) = combine (uniq_of s a) (blocks 0 (map (fun o => dofs_len (cel s (dof_of s o))) (uniq_of s a))).
Proof.
  intros I Ha. assert (E := uniq_eq s a I Ha).
  rewrite (inv_full s I a Ha). unfold full_entry. cbn [f_idx].
  rewrite get_ancestors_eq by auto. rewrite <- E.
  apply dict_zip_combine.
  - apply inj_on_lt; [apply I|]. intros x Hx. eapply lineage_lt; eauto. now apply uniq_in_lineage.
  - rewrite E. eapply NoDup_map_inv. apply uniq_loop_spec.
Qed.

Lemma r_idx_lt s a x : Inv s -> a < nobj s -> In x (r_idx (fre s a)) -> fst x < nobj s.
Proof.
  intros I Ha Hx. rewrite r_idx_eq in Hx by auto. destruct x as [o ij]. apply in_combine_l in Hx.
  cbn. eapply lineage_lt; eauto. now apply uniq_in_lineage.
Qed.
Lemma f_idx_lt s a x : Inv s -> a < nobj s -> In x (f_idx (full s a)) -> fst x < nobj s.
Proof.
  intros I Ha Hx. rewrite f_idx_eq in Hx by auto. destruct x as [o ij]. apply in_combine_l in Hx.
  cbn. eapply lineage_lt; eauto. now apply uniq_in_lineage.
Qed.

Lemma step_lt s s' (x : nat * (nat * nat)) : Step s s' -> fst x < nobj s -> fst x < nobj s'.
Proof. intros (_ & _ & _ & -> & _); auto. Qed.

Lemma set_x_step s a v s' e : Inv s -> a < nobj s -> set_x ord k s a v = Some (s', e) -> Step s s'.
Proof.
  intros I Ha H. unfold set_x in H.
  destruct (negb _); [injection H as <- _; now apply Step_refl|].
  eapply (fold_step_gen (fun s' (x : nat * (nat * nat)) => set_local_x ord k s' (fst x) (slice (fst (snd x)) (snd (snd x)) v))
            (fun s x => fst x < nobj s)); eauto.
  - intros; eapply set_local_x_step; eauto.
  - intros; eapply step_lt; eauto.
  - intros x Hx. eapply r_idx_lt; eauto.
Qed.

Lemma set_gfull_x_step s a v s' e : Inv s -> a < nobj s -> set_gfull_x ord k s a v = Some (s', e) -> Step s s'.
Proof.
  intros I Ha H. unfold set_gfull_x in H.
  eapply (fold_step_gen (fun s' (x : nat * (nat * nat)) => set_local_full_x ord k s' (fst x) (slice (fst (snd x)) (snd (snd x)) v))
            (fun s x => fst x < nobj s)); eauto.
  - intros; eapply set_local_full_x_step; eauto.
  - intros; eapply step_lt; eauto.
  - intros x Hx. eapply f_idx_lt; eauto.
Qed.

(** writes that change neither values nor statuses *)
Lemma bounds_write_step s D d : Inv s -> D < ncell s -> d_free d = d_free (cel s D) -> d_x d = d_x (cel s D) -> wf d ->
  Step s (set_cel s (fup (cel s) D d)).
Proof.
  intros I HD Hf Hx W.
  assert (E : forall D', d_x (fup (cel s) D d D') = d_x (cel s D')).
  { intros D'. unfold fup. destruct (Nat.eqb_spec D' D); subst; auto. }
  split.
  - eapply same_graph_inv; eauto. apply cell_same_graph; auto.
  - split; [|split; [|split; reflexivity]].
    + intros b Hb Hx0. split; auto. unfold view, ancestors. cbn. apply map_ext. intros o. now rewrite E.
    + intros X o Ho Hs. cbn in *. rewrite E. auto.
Qed.

Lemma set_lower_step s a v s' e : Inv s -> a < nobj s -> set_lower s a v = Some (s', e) -> Step s s'.
Proof.
  intros I Ha H. unfold set_lower in H.
  destruct (negb _); [injection H as <- _; now apply Step_refl|].
  eapply (fold_step_gen (fun s' (x : nat * (nat * nat)) => let D := dof_of s' (fst x) in
           cell_write s' D (set_free_lb (cel s' D) (slice (fst (snd x)) (snd (snd x)) v)) (fun s'' => Some (s'', None)))
            (fun s x => fst x < nobj s)); eauto.
  - clear. intros s x s' e I Hx H. cbn zeta in H.
    assert (HD := gi_dof s (inv_g s I) _ Hx). assert (W := gi_wf s (inv_g s I) _ HD).
    assert (W2 := dstep_wf _ (OFreeLb (slice (fst (snd x)) (snd (snd x)) v)) W). cbn [dstep] in W2.
    unfold set_free_lb in H, W2. destruct (negb _); cbn [cell_write] in H; injection H as <- _.
    + now apply cell_noop_step.
    + now apply bounds_write_step.
  - intros; eapply step_lt; eauto.
  - intros x Hx. eapply r_idx_lt; eauto.
Qed.

Lemma set_upper_step s a v s' e : Inv s -> a < nobj s -> set_upper s a v = Some (s', e) -> Step s s'.
Proof.
  intros I Ha H. unfold set_upper in H.
  destruct (negb _); [injection H as <- _; now apply Step_refl|].
  eapply (fold_step_gen (fun s' (x : nat * (nat * nat)) => let D := dof_of s' (fst x) in
           cell_write s' D (set_free_ub (cel s' D) (slice (fst (snd x)) (snd (snd x)) v)) (fun s'' => Some (s'', None)))
            (fun s x => fst x < nobj s)); eauto.
  - clear. intros s x s' e I Hx H. cbn zeta in H.
    assert (HD := gi_dof s (inv_g s I) _ Hx). assert (W := gi_wf s (inv_g s I) _ HD).
    assert (W2 := dstep_wf _ (OFreeUb (slice (fst (snd x)) (snd (snd x)) v)) W). cbn [dstep] in W2.
    unfold set_free_ub in H, W2. destruct (negb _); cbn [cell_write] in H; injection H as <- _.
    + now apply cell_noop_step.
    + now apply bounds_write_step.
  - intros; eapply step_lt; eauto.
  - intros x Hx. eapply r_idx_lt; eauto.
Qed.

(** ** status operations *)
Lemma free_fold l : forall s s' e,
  fold_left (fun r o => bindr r (fun s' => ret (update_free ord k s' o))) l (Some (s, None)) = Some (s', e) ->
  e = None /\ s' = set_fre s (fre s') /\
  (forall b, (forall o, In o l -> ~ desc s o b) -> fre s' b = fre s b) /\
  (forall b o, In o l -> desc s o b -> fre s' b = free_entry s b) /\
  (forall b, (exists o, In o l /\ desc s o b) \/ (forall o, In o l -> ~ desc s o b)).
Proof.
  assert (Hnone : forall l, fold_left (fun (r : @outcome V) o => bindr r (fun s' => ret (update_free ord k s' o))) l None = None)
    by (induction l0; cbn; auto).
  induction l as [|o l IH]; intros s s' e H; cbn [fold_left bindr] in H.
  - injection H as <- <-. repeat split; auto.
    + now rewrite set_fre_id.
    + intros b o [].
  - destruct (update_free ord k s o) as [s1|] eqn:E; cbn [ret bindo] in H.
    2: { rewrite Hnone in H. discriminate. }
    apply update_free_spec in E; auto. destruct E as (E1 & E2 & E3 & E4).
    destruct (IH s1 s' e H) as (He & Hs & Hn & Hd & Hdec). clear IH H Hnone.
    assert (Hd1 : forall x b, desc s1 x b <-> desc s x b)
      by (intros; unfold desc; rewrite E1; reflexivity).
    assert (Hfe : forall b, free_entry s1 b = free_entry s b) by (intros; rewrite E1; apply free_entry_fre).
    split; [auto|]. split; [|split; [|split]].
    + rewrite Hs at 1. rewrite E1. reflexivity.
    + intros b Hb. rewrite Hn.
      * apply E2. apply Hb; now left.
      * intros x Hx. rewrite Hd1. apply Hb; now right.
    + intros b x [<-|Hx] Hdx.
      * destruct (Hdec b) as [(y & Hy & Hdy)|Hno].
        -- rewrite (Hd b y Hy Hdy). apply Hfe.
        -- rewrite Hn by auto. now apply E3.
      * rewrite (Hd b x Hx); [apply Hfe|now apply Hd1].
    + intros b. destruct (Hdec b) as [(y & Hy & Hdy)|Hno].
      * left; exists y. split; [now right|now apply Hd1].
      * destruct (E4 b) as [Y|N].
        -- left. exists o. split; [now left|auto].
        -- right. intros x [<-|Hx]; auto. rewrite <- Hd1. auto.
Qed.

Lemma status_write_step s D d s' e : Inv s -> D < ncell s ->
  length (d_free d) = length (d_free (cel s D)) -> d_x d = d_x (cel s D) -> wf d ->
  update_opt_indices ord k (set_cel s (fup (cel s) D d)) D = Some (s', e) ->
  Step s s' /\ e = None /\ s' = set_fre (set_cel s (fup (cel s) D d)) (fre s').
Proof.
  intros I HD Hl Hx W H. set (s1 := set_cel s (fup (cel s) D d)) in *.
  apply free_fold in H. destruct H as (He & Hs & Hn & Hd & Hdec).
  assert (Hdx : forall D', d_x (fup (cel s) D d D') = d_x (cel s D')).
  { intros D'. unfold fup. destruct (Nat.eqb_spec D' D); subst; auto. }
  assert (Hlen : forall D', dofs_len (fup (cel s) D d D') = dofs_len (cel s D')).
  { intros D'. unfold fup, dofs_len. destruct (Nat.eqb_spec D' D); subst; auto. }
  assert (Hdc : forall o b, desc s1 o b <-> desc s o b) by reflexivity.
  assert (I' : Inv s').
  { destruct I as [G A F R DP] eqn:EI. constructor.
    - destruct G as [G1 G2 G3 G4 G5 G6]. rewrite Hs. constructor; cbn; auto.
      intros D' HD'. unfold fup. destruct (Nat.eqb_spec D' D); subst; auto.
    - destruct A as (rank & Hr). exists rank. rewrite Hs. exact Hr.
    - intros a Ha. rewrite Hs in Ha. cbn in Ha. rewrite Hs. cbn [full set_fre s1 set_cel].
      rewrite (F a Ha) at 1. symmetry. apply full_entry_ext; cbn; auto.
    - intros a Ha. rewrite Hs in Ha. cbn in Ha.
      assert (EE : free_entry s' a = free_entry s1 a) by (rewrite Hs; apply free_entry_fre). rewrite EE.
      destruct (Hdec a) as [(o & Ho & Hda)|Hno]; [now apply (Hd a o)|].
      rewrite (Hn a Hno). cbn [fre s1 set_cel]. rewrite (R a Ha). symmetry. apply free_entry_ext; auto.
      intros o Ho. cbn [nm dof_of cel s1 set_cel]. repeat split; auto.
      unfold fup. destruct (Nat.eqb_spec (dof_of s o) D) as [Eo|]; auto. exfalso.
      assert (Hin : In o (ancestors s a ++ [a])) by (apply uniq_in_lineage; auto; now constructor).
      apply (Hno o).
      + cbn [dep s1 set_cel]. apply (DP D HD). split; auto. eapply lineage_lt; eauto; now constructor.
      + apply Hdc. apply lineage_desc; auto; now constructor.
    - rewrite Hs. exact DP. }
  split; [|auto]. split; auto. split; [|split; [|rewrite Hs; split; reflexivity]].
  - intros b Hb Hx0. rewrite Hs in Hx0 |- *. split; auto.
    unfold view, ancestors. cbn. apply map_ext. intros o. now rewrite Hdx.
  - intros X o Ho Hst. rewrite Hs in Ho, Hst |- *. cbn in *. rewrite Hdx. auto.
Qed.

Lemma update_free_step s a s' : Inv s -> update_free ord k s a = Some s' -> Step s s'.
Proof.
  intros I H. apply update_free_spec in H; auto. destruct H as (E1 & E2 & E3 & E4).
  assert (Hf : forall b, b < nobj s -> fre s' b = fre s b).
  { intros b Hb. destruct (E4 b) as [Y|N]; auto. rewrite E3 by auto. symmetry. now apply (inv_free s I). }
  split; [|split; [|split; [|rewrite E1; split; reflexivity]]].
  - destruct I as [G A F R DP]. constructor.
    + destruct G. rewrite E1. constructor; auto.
    + rewrite E1. exact A.
    + intros b Hb. rewrite E1 in Hb. cbn in Hb. rewrite E1. cbn [full set_fre]. rewrite (F b Hb) at 1.
      symmetry. apply full_entry_ext; auto.
    + intros b Hb. rewrite E1 in Hb. cbn in Hb. rewrite (Hf b Hb), (R b Hb). rewrite E1. symmetry. apply free_entry_fre.
    + rewrite E1. exact DP.
  - intros b Hb Hx. rewrite E1 in Hx |- *. auto.
  - intros X o Ho Hst. rewrite E1 in *. apply X; auto.
Qed.

Lemma set_status_key_step b s a kk s' e : Inv s -> a < nobj s ->
  set_status_key ord k b s a kk = Some (s', e) -> Step s s'.
Proof.
  intros I Ha H. unfold set_status_key in H.
  assert (HD := gi_dof s (inv_g s I) a Ha). assert (W := gi_wf s (inv_g s I) _ HD).
  assert (W2 := set_status_wf b _ kk W).
  unfold set_status in H, W2. destruct (resolve _ _ _) as [i|er] eqn:E; cbn [cell_write] in H.
  - destruct (update_opt_indices _ _ _ _) as [[s1 [e1|]]|] eqn:E1; cbn [bindr] in H; [| |discriminate].
    + injection H as <- _. eapply status_write_step in E1; eauto; [tauto|]. cbn. now rewrite length_upd.
    + eapply status_write_step in E1; eauto; [|cbn; now rewrite length_upd].
      destruct (update_free _ _ s1 a) as [s2|] eqn:E2; cbn [ret bindo] in H; [|discriminate].
      injection H as <- _. destruct E1 as (S1 & _). eapply Step_trans; eauto.
      eapply update_free_step; eauto. apply S1.
  - injection H as <- _. now apply cell_noop_step.
Qed.

Lemma local_status_all_step b s a s' e : Inv s -> a < nobj s ->
  local_status_all ord k b s a = Some (s', e) -> Step s s'.
Proof.
  intros I Ha H. unfold local_status_all in H.
  assert (HD := gi_dof s (inv_g s I) a Ha). assert (W := gi_wf s (inv_g s I) _ HD).
  assert (W2 := dstep_wf _ (if b then OUnfixAll else OFixAll) W).
  cbn [cell_write] in H.
  assert (HL : length (d_free (if b then unfix_all (cel s (dof_of s a)) else fix_all (cel s (dof_of s a)))) = length (d_free (cel s (dof_of s a))))
    by (destruct b; cbn; now rewrite map_length).
  assert (HX : d_x (if b then unfix_all (cel s (dof_of s a)) else fix_all (cel s (dof_of s a))) = d_x (cel s (dof_of s a)))
    by (destruct b; reflexivity).
  assert (HW : wf (if b then unfix_all (cel s (dof_of s a)) else fix_all (cel s (dof_of s a)))) by (destruct b; exact W2).
  destruct (update_opt_indices _ _ _ _) as [[s1 [e1|]]|] eqn:E1; cbn [bindr] in H; [| |discriminate].
  - injection H as <- _. eapply status_write_step in E1; eauto; tauto.
  - eapply status_write_step in E1; eauto.
    destruct (update_free _ _ s1 a) as [s2|] eqn:E2; cbn [ret bindo] in H; [|discriminate].
    injection H as <- _. destruct E1 as (S1 & _). eapply Step_trans; eauto.
    eapply update_free_step; eauto. apply S1.
Qed.

Lemma status_all_step b s a s' e : Inv s -> a < nobj s ->
  status_all ord k b s a = Some (s', e) -> Step s s'.
Proof.
  intros I Ha H. unfold status_all in H.
  eapply (fold_step_gen (fun s' o => local_status_all ord k b s' o) (fun s o => o < nobj s)); eauto.
  - intros; eapply local_status_all_step; eauto.
  - intros s0 s0' x (_ & _ & _ & -> & _); auto.
  - intros x Hx. eapply lineage_lt; eauto. now apply uniq_in_lineage.
Qed.

Lemma full_status_one_step s o w s' e : Inv s -> o < nobj s ->
  cell_write s (dof_of s o) (assign_free (cel s (dof_of s o)) w)
             (fun s'' => update_opt_indices ord k s'' (dof_of s o)) = Some (s', e) -> Step s s'.
Proof.
  intros I Hx H.
  assert (HD := gi_dof s (inv_g s I) _ Hx). assert (W := gi_wf s (inv_g s I) _ HD).
  assert (W' := W). destruct W' as (Hf & Hw).
  unfold assign_free in H. destruct (Nat.eqb_spec (length w) (length (d_free (cel s (dof_of s o))))).
  + cbn [cell_write] in H. eapply status_write_step in H; eauto; [tauto|]. split; cbn; [congruence|auto].
  + destruct (length w =? 1); cbn [cell_write] in H.
    * eapply status_write_step in H; eauto; [tauto| |]; cbn; rewrite ?map_length; auto.
      split; cbn; [now rewrite map_length|auto].
    * injection H as <- _. now apply cell_noop_step.
Qed.

Lemma full_status_step neg s a v s' e : Inv s -> a < nobj s ->
  full_status ord k neg s a v = Some (s', e) -> Step s s'.
Proof.
  intros I Ha H. unfold full_status in H.
  eapply (fold_step_gen (fun s' (x : nat * (nat * nat)) =>
      let D := dof_of s' (fst x) in
      let w := slice (fst (snd x)) (snd (snd x)) v in
      cell_write s' D (assign_free (cel s' D) (if neg then map negb w else w))
                 (fun s'' => update_opt_indices ord k s'' D)) (fun s x => fst x < nobj s)); eauto.
  - clear - ord_perm. intros s x s' e I Hx H. cbn zeta in H. eapply full_status_one_step; eauto.
  - intros; eapply step_lt; eauto.
  - intros x Hx. eapply f_idx_lt; eauto.
Qed.
End P.
