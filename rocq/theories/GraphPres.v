(** Every valid operation preserves the graph invariant, flags what it invalidates, and keeps the
    external copies in sync. *)
From Verif Require Import ListAux DofsModel DofsSpec DofsProofs GraphModel GraphTrace GraphLists GraphInv GraphSpec.

Section P.
Context {V : Type}.
Notation st := (@st V).
Implicit Types s : st.

Definition Frame s s' := forall b, b < nobj s -> newx s' b = false -> newx s b = false /\ view s' b = view s b.

(** result of an operation that creates no object *)
Definition Step s s' := Inv s' /\ Frame s s' /\ (ExtOK s -> ExtOK s') /\ nobj s' = nobj s /\ ncell s' = ncell s.

Lemma Frame_trans s1 s2 s3 : nobj s2 = nobj s1 -> Frame s1 s2 -> Frame s2 s3 -> Frame s1 s3.
Proof.
  intros Hn F1 F2 b Hb Hx. destruct (F2 b) as [H1 H2]; auto; [lia|].
  destruct (F1 b) as [H3 H4]; auto. split; congruence.
Qed.
Lemma Step_refl s : Inv s -> Step s s.
Proof. intros; split; auto. split; [intros b; auto|auto]. Qed.
Lemma Step_trans s1 s2 s3 : Step s1 s2 -> Step s2 s3 -> Step s1 s3.
Proof.
  intros (I1 & F1 & E1 & N1 & C1) (I2 & F2 & E2 & N2 & C2).
  split; auto. split; [eapply Frame_trans; eauto|]. split; auto. split; congruence.
Qed.

Lemma fold_step_gen {A} (f : st -> A -> outcome) (P : st -> A -> Prop) :
  (forall s x s' e, Inv s -> P s x -> f s x = Some (s', e) -> Step s s') ->
  (forall s s' x, Step s s' -> P s x -> P s' x) ->
  forall l s s' e, Inv s -> (forall x, In x l -> P s x) ->
  fold_left (fun r x => bindr r (fun s' => f s' x)) l (Some (s, None)) = Some (s', e) -> Step s s'.
Proof.
  intros Hf HP l.
  assert (Hnone : forall l, fold_left (fun (r : @outcome V) x => bindr r (fun s' => f s' x)) l None = None)
    by (induction l0; cbn; auto).
  assert (Herr : forall l s e, fold_left (fun (r : @outcome V) x => bindr r (fun s' => f s' x)) l (Some (s, Some e)) = Some (s, Some e))
    by (induction l0; cbn; auto).
  induction l as [|x l IH]; intros s s' e I Hl H; cbn [fold_left bindr] in H.
  - injection H as <- _. now apply Step_refl.
  - destruct (f s x) as [[s1 [e1|]]|] eqn:E.
    + rewrite Herr in H. injection H as <- _. eapply Hf; eauto. apply Hl; now left.
    + assert (S1 : Step s s1) by (eapply Hf; eauto; apply Hl; now left).
      eapply Step_trans; eauto. eapply IH; eauto; [apply S1|].
      intros y Hy. eapply HP; eauto. apply Hl; now right.
    + rewrite Hnone in H. discriminate.
Qed.

(** ** lineage facts *)
Lemma lineage_lt s a o : Inv s -> a < nobj s -> In o (ancestors s a ++ [a]) -> o < nobj s.
Proof.
  intros [G A F _ _] Ha Ho. apply in_app_iff in Ho. destruct Ho as [Ho|[<-|[]]]; auto.
  now apply (anc_char s G A F a Ha).
Qed.
Lemma lineage_desc s a o : Inv s -> a < nobj s -> In o (ancestors s a ++ [a]) -> desc s o a.
Proof.
  intros I Ha Ho. assert (Hlt := lineage_lt s a o I Ha Ho). destruct I as [G A F _ _].
  apply in_app_iff in Ho. destruct Ho as [Ho|[<-|[]]]; [right|now left].
  apply Anc_reachp; auto. now apply (anc_char s G A F a Ha).
Qed.
Lemma desc_lineage s a o : Inv s -> a < nobj s -> o < nobj s -> desc s o a -> In o (ancestors s a ++ [a]).
Proof.
  intros [G A F _ _] Ha Ho [->|R]; apply in_app_iff; [right; now left|left].
  apply (anc_char s G A F a Ha). now apply reachp_Anc.
Qed.
Lemma uniq_eq s a : Inv s -> a < nobj s -> uniq_of s a = uniq_loop s [] (ancestors s a ++ [a]).
Proof.
  intros [G A F _ _] Ha. unfold uniq_of, ancestors. rewrite (F a Ha). reflexivity.
Qed.
Lemma uniq_in_lineage s a o : Inv s -> a < nobj s -> In o (uniq_of s a) -> In o (ancestors s a ++ [a]).
Proof. intros I Ha Ho. rewrite uniq_eq in Ho by auto. now apply uniq_loop_spec in Ho. Qed.
Lemma get_ancestors_eq s a : Inv s -> a < nobj s -> get_ancestors s a = ancestors s a.
Proof. intros [G A F _ _] Ha. unfold ancestors. rewrite (F a Ha). reflexivity. Qed.
Lemma par_anc_lt s a p o : Inv s -> a < nobj s -> In p (par s a) -> In o (f_anc (full s p)) -> o < nobj s.
Proof.
  intros I Ha Hp Ho. destruct I as [G A F Fr D]. assert (p < nobj s) by (eapply gi_par; eauto).
  now apply (anc_char s G A F p).
Qed.

(** ** operations that only write dof values, bounds, flags, external copies *)
Definition same_graph s s' :=
  nobj s' = nobj s /\ ncell s' = ncell s /\ nm s' = nm s /\ dof_of s' = dof_of s /\ setter s' = setter s /\
  par s' = par s /\ chi s' = chi s /\ full s' = full s /\ fre s' = fre s /\ dep s' = dep s /\
  (forall D, d_free (cel s' D) = d_free (cel s D)) /\ (forall D, D < ncell s -> wf (cel s' D)).

Lemma reduced_len_free (d d' : dofs V) : d_free d' = d_free d -> reduced_len d' = reduced_len d.
Proof. unfold reduced_len. now intros ->. Qed.
Lemma dofs_len_free (d d' : dofs V) : d_free d' = d_free d -> dofs_len d' = dofs_len d.
Proof. unfold dofs_len. now intros ->. Qed.

Lemma same_graph_inv s s' : Inv s -> same_graph s s' -> Inv s'.
Proof.
  intros [[G1 G2 G3 G4 G5 G6] (rank & Hr) F R D] (E1 & E2 & E3 & E4 & E5 & E6 & E7 & E8 & E9 & E10 & E11 & E12).
  constructor.
  - constructor; rewrite ?E1, ?E2, ?E3, ?E4, ?E6, ?E7; auto.
  - exists rank. intros a p. rewrite E1, E6. apply Hr.
  - intros a Ha. rewrite E1 in Ha. rewrite E8, (F a Ha). symmetry. apply full_entry_ext; rewrite ?E3, ?E4, ?E6, ?E8; auto.
    intros o Ho. repeat split; auto. now apply dofs_len_free.
  - intros a Ha. rewrite E1 in Ha. rewrite E9, (R a Ha). symmetry. apply free_entry_ext; rewrite ?E8; auto.
    intros o Ho. rewrite E3, E4. repeat split; auto. now apply reduced_len_free.
  - intros d Hd. rewrite E2 in Hd. rewrite E1, E4, E10. apply D; auto.
Qed.

(** one cell written, statuses kept *)
Lemma cell_same_graph s D d : Inv s -> D < ncell s -> d_free d = d_free (cel s D) -> wf d ->
  same_graph s (set_cel s (fup (cel s) D d)).
Proof.
  intros I HD Hf W. repeat split; cbn; auto.
  - intros D'. unfold fup. destruct (Nat.eqb_spec D' D); subst; auto.
  - unfold fup. destruct (Nat.eqb_spec D0 D); [apply W|]. now apply (gi_wf s (inv_g s I)).
  - unfold fup. destruct (Nat.eqb_spec D0 D); [apply W|]. now apply (gi_wf s (inv_g s I)).
  - unfold fup. destruct (Nat.eqb_spec D0 D); [apply W|]. now apply (gi_wf s (inv_g s I)).
  - unfold fup. destruct (Nat.eqb_spec D0 D); [apply W|]. now apply (gi_wf s (inv_g s I)).
  - unfold fup. destruct (Nat.eqb_spec D0 D); [apply W|]. now apply (gi_wf s (inv_g s I)).
Qed.

Section WithOrd.
Variables (ord : list nat -> list nat) (k : nat).
Hypothesis ord_perm : any_order ord.

Definition flag_one D (s : st) (o : nat) : @outcome V :=
  let s'' := if setter s o then set_ext s (fup (ext s) o (d_x (cel s D))) else s in ret (set_flag ord k s'' o).

Lemma flag_fold D l : forall s s' e,
  fold_left (fun r o => bindr r (fun s' => flag_one D s' o)) l (Some (s, None)) = Some (s', e) ->
  e = None /\ s' = set_newx (set_ext s (ext s')) (newx s') /\
  (forall b, newx s' b = true <-> newx s b = true \/ exists o, In o l /\ desc s o b) /\
  (forall o, ext s' o = if existsb (Nat.eqb o) l && setter s o then d_x (cel s D) else ext s o).
Proof.
  assert (Hnone : forall l, fold_left (fun (r : @outcome V) o => bindr r (fun s' => flag_one D s' o)) l None = None)
    by (induction l0; cbn; auto).
  induction l as [|o l IH]; intros s s' e H; cbn [fold_left bindr] in H.
  - injection H as <- <-. repeat split; auto.
    + destruct s; reflexivity.
    + intros [H|(o & [] & _)]; auto.
  - unfold flag_one in H at 2. destruct (set_flag _ _ _ o) as [s1|] eqn:E; cbn [ret bindo] in H.
    2: { rewrite Hnone in H. discriminate. }
    apply set_flag_spec in E; auto. destruct E as (E1 & E2 & E3 & E4).
    destruct (IH s1 s' e H) as (He & Hs & Hn & Hx). clear IH H Hnone.
    set (s0 := if setter s o then set_ext s (fup (ext s) o (d_x (cel s D))) else s) in *.
    assert (Hc : chi s0 = chi s) by (unfold s0; destruct (setter s o); reflexivity).
    assert (Hst : setter s0 = setter s) by (unfold s0; destruct (setter s o); reflexivity).
    assert (Hnw : newx s0 = newx s) by (unfold s0; destruct (setter s o); reflexivity).
    assert (Hce : cel s0 = cel s) by (unfold s0; destruct (setter s o); reflexivity).
    assert (Hd0 : forall x b, desc s0 x b <-> desc s x b) by (intros; unfold desc; now rewrite Hc).
    assert (Hd1 : forall x b, desc s1 x b <-> desc s x b)
      by (intros; unfold desc; rewrite E1; cbn; now rewrite Hc).
    assert (Hn1 : forall b, newx s1 b = true <-> newx s b = true \/ desc s o b).
    { intros b. rewrite <- Hd0. destruct (E4 b) as [Y|N].
      - rewrite E3 by auto. tauto.
      - rewrite E2 by auto. rewrite Hnw. tauto. }
    split; [auto|]. split; [|split].
    + rewrite Hs at 1. rewrite E1. unfold s0. destruct (setter s o); reflexivity.
    + intros b. rewrite Hn, Hn1. split.
      * intros [[Hb|Hb]|(x & Hx1 & Hx2)]; auto.
        -- right. exists o. split; [now left|auto].
        -- right. exists x. split; [now right|]. now apply Hd1.
      * intros [Hb|(x & [<-|Hx1] & Hx2)]; auto.
        right. exists x. split; auto. now apply Hd1.
    + intros x. rewrite Hx. cbn [existsb].
      replace (setter s1) with (setter s) by (rewrite E1; cbn; auto).
      replace (cel s1) with (cel s) by (rewrite E1; cbn; auto).
      assert (X1 : ext s1 x = if (x =? o) && setter s x then d_x (cel s D) else ext s x).
      { rewrite E1. cbn. unfold s0. destruct (Nat.eqb_spec x o) as [->|Nx]; cbn.
        - destruct (setter s o); cbn; [now rewrite fup_same|auto].
        - destruct (setter s o); cbn; [now rewrite fup_other|auto]. }
      destruct (x =? o), (existsb (Nat.eqb x) l), (setter s x); cbn in *; auto.
Qed.

Lemma flag_recompute_spec s D s' e : flag_recompute ord k s D = Some (s', e) ->
  e = None /\ s' = set_newx (set_ext s (ext s')) (newx s') /\
  (forall b, newx s' b = true <-> newx s b = true \/ exists o, In o (dep s D) /\ desc s o b) /\
  (forall o, ext s' o = if existsb (Nat.eqb o) (dep s D) && setter s o then d_x (cel s D) else ext s o).
Proof. intros H. apply (flag_fold D (dep s D) s s' e). exact H. Qed.

Lemma existsb_eqb_In x l : existsb (Nat.eqb x) l = true <-> In x l.
Proof.
  rewrite existsb_exists. split.
  - intros (y & Hy & E). apply Nat.eqb_eq in E. now subst.
  - intros H; exists x; split; auto. apply Nat.eqb_refl.
Qed.

(** writing values into DOFs [D] (statuses kept) and ringing the bell *)
Lemma value_write_step s D d s' e : Inv s -> D < ncell s -> d_free d = d_free (cel s D) -> wf d ->
  flag_recompute ord k (set_cel s (fup (cel s) D d)) D = Some (s', e) ->
  Step s s' /\ e = None /\ cel s' = fup (cel s) D d /\ same_graph s s' /\
  (forall b, newx s' b = true <-> newx s b = true \/ exists o, o < nobj s /\ dof_of s o = D /\ desc s o b).
Proof.
  intros I HD Hf W H. set (s1 := set_cel s (fup (cel s) D d)) in *.
  assert (SG := cell_same_graph s D d I HD Hf W). fold s1 in SG.
  apply flag_recompute_spec in H. destruct H as (He & Hs & Hn & Hx).
  assert (SG' : same_graph s s').
  { rewrite Hs. destruct SG as (E1 & E2 & E3 & E4 & E5 & E6 & E7 & E8 & E9 & E10 & E11 & E12).
    repeat split; auto; now apply E12. }
  assert (Hc : cel s' = fup (cel s) D d) by (rewrite Hs; reflexivity).
  assert (Hn' : forall b, newx s' b = true <-> newx s b = true \/ exists o, o < nobj s /\ dof_of s o = D /\ desc s o b).
  { intros b. rewrite Hn. cbn [newx s1 set_cel]. unfold desc. cbn [chi s1 set_cel dep].
    destruct (inv_dep s I D HD) as [_ HDp]. split; intros [Hb|(o & Ho1 & Ho2)]; auto; right; exists o.
    - apply HDp in Ho1. tauto.
    - split; [|tauto]. apply HDp. tauto. }
  split; [|auto].
  split; [eapply same_graph_inv; eauto|]. split; [|split; [|split; apply SG']].
  - intros b Hb Hx0. assert (Nb : newx s' b <> true) by congruence. rewrite Hn' in Nb.
    destruct SG' as (E1 & E2 & E3 & E4 & E5 & E6 & E7 & E8 & E9 & E10 & E11 & E12).
    split; [destruct (newx s b); tauto|]. unfold view, ancestors. rewrite E8, E6, E4, Hc.
    apply map_ext_in. intros o Ho. f_equal. unfold fup.
    destruct (Nat.eqb_spec (dof_of s o) D) as [Eo|]; auto. exfalso. apply Nb. right. exists o.
    split; [eapply lineage_lt; eauto|]. split; auto. now apply lineage_desc.
  - intros X o Ho Hst. destruct SG' as (E1 & E2 & E3 & E4 & E5 & E6 & E7 & E8 & E9 & E10 & E11 & E12).
    rewrite E1 in Ho. rewrite E5 in Hst. rewrite E4, Hc, Hx.
    cbn [dep s1 set_cel setter cel ext]. rewrite Hst, andb_true_r.
    destruct (inv_dep s I D HD) as [_ HDp].
    destruct (existsb (Nat.eqb o) (dep s D)) eqn:Eo.
    + apply existsb_eqb_In in Eo. apply HDp in Eo. destruct Eo as [_ ->]. now rewrite fup_same.
    + rewrite fup_other; [now rewrite fup_other || apply X; auto|].
      intros Eo2. assert (In o (dep s D)) as Hin by (apply HDp; auto). apply existsb_eqb_In in Hin. congruence.
Qed.
End WithOrd.
End P.
