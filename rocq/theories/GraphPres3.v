(** Preservation, part 3: edits of the graph. *)
From Verif Require Import ListAux DofsModel DofsSpec DofsProofs GraphModel GraphTrace GraphLists GraphInv GraphSpec GraphPres GraphPres2.

Section P.
Context {V : Type}.
Notation st := (@st V).
Implicit Types s : st.
Variables (ord : list nat -> list nat) (k : nat).
Hypothesis ord_perm : any_order ord.

Lemma edge_change_step s a P C s' e : Inv s -> a < nobj s ->
  let s1 := set_chi (set_par s (fup (par s) a P)) C in
  GInv s1 -> refresh ord k s1 a = Some (s', e) ->
  Step s s' /\ e = None /\ s' = set_newx (set_fre (set_full s1 (full s')) (fre s')) (newx s').
Proof.
  intros I Ha s1 G1 H.
  assert (Hpar : forall b, b <> a -> par s1 b = par s b) by (intros; unfold s1; cbn; now apply fup_other).
  destruct (inv_ac s I) as (rank & Hr).
  assert (Hok : forall b, b < nobj s1 -> ~ desc s1 a b -> full s1 b = full_entry s1 b /\ fre s1 b = free_entry s1 b).
  { intros b Hb Nd. assert (b <> a) by (intros ->; apply Nd; now left).
    assert (Hb' : b < nobj s) by exact Hb. split.
    - change (full s1 b) with (full s b). rewrite (inv_full s I b Hb'). symmetry.
      apply full_entry_ext; auto.
    - change (fre s1 b) with (fre s b). rewrite (inv_free s I b Hb'). symmetry.
      apply free_entry_ext; auto. }
  apply (refresh_spec ord ord_perm k s1 a s' e rank) in H; auto.
  2:{ intros b p Hb Nb Hp. rewrite Hpar in Hp by auto. now apply Hr. }
  destruct H as (He & G' & A' & F' & R' & Hs & Hnd & Hd & Hdec).
  split; [|auto]. split; [|split; [|split]].
  - constructor; auto. rewrite Hs. exact (inv_dep s I).
  - intros b Hb Hx. destruct (Hdec b) as [Y|N]; [rewrite (Hd b Y) in Hx; discriminate|].
    destruct (Hnd b N) as (E1 & E2 & E3). rewrite E3 in Hx. split; [exact Hx|].
    unfold view. assert (El : ancestors s' b = ancestors s b) by (unfold ancestors; now rewrite E1).
    rewrite El. apply map_ext_in. intros o Ho.
    assert (No : o <> a).
    { intros ->. apply N. rewrite <- El in Ho.
      assert (I' : Inv s') by (constructor; auto; rewrite Hs; exact (inv_dep s I)).
      assert (Hd' : desc s' a b) by (apply lineage_desc; auto; rewrite Hs; exact Hb).
      unfold desc in *. rewrite Hs in Hd'. exact Hd'. }
    rewrite Hs. cbn [par set_newx set_fre set_full cel dof_of]. rewrite Hpar by auto. reflexivity.
  - intros X. rewrite Hs. exact X.
  - rewrite Hs. split; reflexivity.
Qed.

Lemma set_chi_id s : set_chi s (chi s) = s. Proof. destruct s; reflexivity. Qed.

Lemma py_insert_spec i x (l : list nat) : exists l1 l2, l = l1 ++ l2 /\ py_insert i x l = l1 ++ x :: l2.
Proof. unfold py_insert. set (j := Z.to_nat _). exists (firstn j l), (skipn j l). now rewrite firstn_skipn. Qed.

Lemma drop_nth (l1 l2 : list nat) x :
  firstn (length l1) (l1 ++ x :: l2) ++ skipn (S (length l1)) (l1 ++ x :: l2) = l1 ++ l2.
Proof.
  rewrite firstn_app, Nat.sub_diag, firstn_all, firstn_O, app_nil_r. f_equal.
  rewrite skipn_app, skipn_all2 by lia. replace (S (length l1) - length l1) with 1 by lia. reflexivity.
Qed.

Lemma py_pop_spec i x (l r : list nat) : py_pop i l = Some (x, r) -> exists l1 l2, l = l1 ++ x :: l2 /\ r = l1 ++ l2.
Proof.
  unfold py_pop. cbv zeta. set (j := if (i <? 0)%Z then (i + Z.of_nat (length l))%Z else i). destruct (_ && _); [|discriminate].
  destruct (nth_error l (Z.to_nat j)) as [y|] eqn:E; [|discriminate]. intros H. injection H as <- <-.
  apply nth_error_split in E. destruct E as (l1 & l2 & -> & El). rewrite <- El. exists l1, l2. split; auto.
  apply drop_nth.
Qed.

Lemma find_pop_spec {f : nat -> bool} l j : find_index f l = Some j ->
  exists l1 x l2, l = l1 ++ x :: l2 /\ f x = true /\ firstn j l ++ skipn (S j) l = l1 ++ l2.
Proof.
  intros H. apply find_index_Some in H. destruct H as (x & Hx & Hf & _).
  apply nth_error_split in Hx. destruct Hx as (l1 & l2 & -> & El). rewrite <- El.
  exists l1, x, l2. repeat split; auto.
  apply drop_nth.
Qed.

Lemma chi_lt s p c : GInv s -> p < nobj s -> In c (chi s p) -> c < nobj s.
Proof. intros G Hp Hc. now apply (gi_chi s G p c Hp) in Hc. Qed.

Lemma add_parent_step s a i p s' e : Inv s -> a < nobj s -> p < nobj s ->
  add_parent ord k s a i p = Some (s', e) -> Step s s'.
Proof.
  intros I Ha Hp H. unfold add_parent in H. assert (G := inv_g s I).
  destruct (memn s (par s a) p) eqn:E; [injection H as <- _; now apply Step_refl|].
  assert (Np : ~ In p (par s a)).
  { intros Hi. assert (memn s (par s a) p = true); [|congruence]. apply memn_spec. eauto. }
  destruct (py_insert_spec i p (par s a)) as (l1 & l2 & El & Ei).
  set (P := py_insert i p (par s a)) in *.
  assert (HP : forall x, In x P <-> x = p \/ In x (par s a)).
  { intros x. rewrite Ei, El, !in_app_iff. cbn. intuition. }
  unfold add_child in H. change (memn (set_par s (fup (par s) a P)) (chi (set_par s (fup (par s) a P)) p) a)
    with (memn s (chi s p) a) in H.
  assert (Nc : memn s (chi s p) a = false).
  { destruct (memn s (chi s p) a) eqn:E2; auto. apply memn_spec in E2. destruct E2 as (b & Hb & En).
    assert (b = a) by (apply (gi_nm s G); auto; eapply chi_lt; eauto). subst b.
    apply (gi_chi s G p a Hp) in Hb. tauto. }
  rewrite Nc in H. eapply edge_change_step in H; eauto; [tauto|].
  destruct G as [G1 G2 G3 G4 G5 G6]. constructor; cbn; auto.
  - intros b q Hb Hq. unfold fup in Hq. destruct (Nat.eqb_spec b a); [|eauto].
    apply HP in Hq. destruct Hq as [->|Hq]; auto. subst; eauto.
  - intros q c Hq. unfold fup. destruct (Nat.eqb_spec q p) as [->|Nq]; destruct (Nat.eqb_spec c a) as [->|Nca].
    + rewrite in_app_iff. cbn. rewrite HP. tauto.
    + rewrite in_app_iff. cbn. rewrite <- (G2 p c Hp). intuition. congruence.
    + rewrite HP, (G2 q a Hq). tauto.
    + apply G2; auto.
  - intros b Hb. unfold fup. destruct (Nat.eqb_spec b a) as [->|]; auto.
    rewrite Ei. apply NoDup_Add with (a := p) (l := l1 ++ l2).
    + apply Add_app.
    + rewrite <- El. split; auto.
Qed.

Lemma drop_parent_step s a p l1 l2 s' e : Inv s -> a < nobj s -> p < nobj s ->
  par s a = l1 ++ p :: l2 ->
  drop_child_and_refresh ord k (set_par s (fup (par s) a (l1 ++ l2))) a p = Some (s', e) ->
  Step s s' /\ e = None.
Proof.
  intros I Ha Hp El H. assert (G := inv_g s I).
  assert (Hin : In p (par s a)) by (rewrite El; apply in_elt).
  assert (Hc : In a (chi s p)) by (apply (gi_chi s G); auto).
  assert (Nd := gi_nd s G a Ha). rewrite El in Nd. assert (Nd2 := NoDup_remove _ _ _ Nd). destruct Nd2 as [Nd2 Np].
  set (s1 := set_par s _) in *. unfold drop_child_and_refresh, remove_child in H.
  assert (M : memn s1 (chi s1 p) a = true) by (apply memn_spec; eauto).
  rewrite M in H. unfold s1 in H. cbn [chi set_par nm] in H.
  eapply (edge_change_step s a (l1 ++ l2)) in H; eauto; [tauto|].
  assert (HP : forall x, In x (l1 ++ l2) <-> In x (par s a) /\ x <> p).
  { intros x. rewrite El, !in_app_iff. cbn. rewrite !in_app_iff in Np. intuition; subst; intuition. }
  destruct G as [G1 G2 G3 G4 G5 G6]. constructor; cbn; auto.
  - intros b q Hb Hq. unfold fup in Hq. destruct (Nat.eqb_spec b a); [|eauto].
    apply HP in Hq. subst. apply (G1 a q); tauto.
  - intros q c Hq. unfold fup. destruct (Nat.eqb_spec q p) as [->|Nq]; destruct (Nat.eqb_spec c a) as [->|Nca].
    + rewrite filter_In, HP, Nat.eqb_refl. cbn. intuition.
    + rewrite filter_In, (G2 p c Hp). split; [tauto|]. intros [H1 H2]. split; auto.
      destruct (Nat.eqb_spec (nm s c) (nm s a)) as [En|]; [|reflexivity]. exfalso. apply Nca, G4; auto.
    + rewrite HP, (G2 q a Hq). intuition.
    + apply G2; auto.
  - intros b Hb. unfold fup. destruct (Nat.eqb_spec b a) as [->|]; auto.
Qed.

Lemma pop_parent_step s a i s' e : Inv s -> a < nobj s ->
  pop_parent ord k s a i = Some (s', e) -> Step s s'.
Proof.
  intros I Ha H. unfold pop_parent in H.
  destruct (py_pop i (par s a)) as [[p l]|] eqn:E; [|injection H as <- _; now apply Step_refl].
  apply py_pop_spec in E. destruct E as (l1 & l2 & El & ->).
  eapply drop_parent_step in H; eauto; [tauto|]. apply (gi_par s (inv_g s I) a p Ha). rewrite El. apply in_elt.
Qed.

Lemma remove_parent_step s a p s' e : Inv s -> a < nobj s -> p < nobj s ->
  remove_parent ord k s a p = Some (s', e) -> Step s s'.
Proof.
  intros I Ha Hp H. unfold remove_parent in H.
  destruct (find_index _ _) as [j|] eqn:E; [|injection H as <- _; now apply Step_refl].
  apply find_pop_spec in E. destruct E as (l1 & x & l2 & El & Hf & Er). apply Nat.eqb_eq in Hf.
  assert (x < nobj s) by (apply (gi_par s (inv_g s I) a x Ha); rewrite El; apply in_elt).
  assert (x = p) by (apply (gi_nm s (inv_g s I)); auto). subst x. rewrite Er in H.
  eapply drop_parent_step in H; eauto. tauto.
Qed.

(** ** dependency lists of DOFs *)
Lemma add_opt_spec s D o : (forall x, In x (dep s D) -> nm s x = nm s o -> x = o) -> NoDup (dep s D) ->
  exists dp, add_opt s D o = set_dep s dp /\ NoDup (dp D) /\ (forall D', D' <> D -> dp D' = dep s D') /\
  (forall x, In x (dp D) <-> In x (dep s D) \/ x = o).
Proof.
  intros Hi Nd. unfold add_opt. destruct (memn s (dep s D) o) eqn:E.
  - apply memn_spec in E. destruct E as (b & Hb & En). assert (b = o) by auto. subst b.
    exists (dep s). repeat split; auto; [destruct s; reflexivity|]. intros [H| ->]; auto.
  - assert (No : ~ In o (dep s D)).
    { intros Hin. assert (memn s (dep s D) o = true); [apply memn_spec; eauto|congruence]. }
    eexists. split; [reflexivity|]. rewrite fup_same. repeat split.
    + apply NoDup_app_intro_one || (apply (NoDup_Add (a := o) (l := dep s D)); [|auto]).
      replace (dep s D) with (dep s D ++ []) at 1 by apply app_nil_r. apply Add_app.
    + intros D' HD'. now apply fup_other.
    + rewrite in_app_iff. cbn. intuition.
    + rewrite in_app_iff. cbn. intuition.
Qed.

Lemma remove_opt_spec s D o : (forall x, In x (dep s D) -> nm s x = nm s o -> x = o) -> NoDup (dep s D) ->
  exists dp, remove_opt s D o = set_dep s dp /\ NoDup (dp D) /\ (forall D', D' <> D -> dp D' = dep s D') /\
  (forall x, In x (dp D) <-> In x (dep s D) /\ x <> o).
Proof.
  intros Hi Nd. unfold remove_opt. destruct (find_index _ _) as [j|] eqn:E.
  - apply find_pop_spec in E. destruct E as (l1 & x & l2 & El & Hf & Er). apply Nat.eqb_eq in Hf.
    assert (x = o) by (apply Hi; auto; rewrite El; apply in_elt). subst x. rewrite Er.
    rewrite El in Nd. apply NoDup_remove in Nd. destruct Nd as [Nd No].
    eexists. split; [reflexivity|]. rewrite fup_same. split; [auto|]. split; [intros; now apply fup_other|].
    intros x. rewrite El, !in_app_iff. cbn. rewrite in_app_iff in No. intuition; subst; intuition.
  - assert (F := proj1 (find_index_None _ _) E).
    exists (dep s). repeat split; auto; [destruct s; reflexivity| |tauto].
    intros ->. specialize (F o H). cbv beta in F. rewrite Nat.eqb_refl in F. discriminate.
Qed.

Lemma set_dep_inv s dp : GInv s -> Acyc s -> FullOK s -> FreeOK s -> DepOK (set_dep s dp) -> Inv (set_dep s dp).
Proof.
  intros G A F R Dp. constructor; auto.
  - destruct G; constructor; auto.
  - intros b Hb. change (full (set_dep s dp) b) with (full s b). rewrite (F b Hb). symmetry. apply full_entry_ext; auto.
  - intros b Hb. change (fre (set_dep s dp) b) with (fre s b). rewrite (R b Hb). symmetry. apply free_entry_ext; auto.
Qed.

Lemma replace_dofs_step s a D s' e : Inv s -> a < nobj s -> D < ncell s ->
  replace_dofs ord k s a D = Some (s', e) ->
  Inv s' /\ Frame s s' /\ nobj s' = nobj s /\ ncell s' = ncell s.
Proof.
  intros I Ha HD H. unfold replace_dofs in H. assert (G := inv_g s I).
  assert (HD0 := gi_dof s G a Ha).
  destruct (inv_dep s I _ HD0) as [ND0 HDp0].
  destruct (remove_opt_spec s (dof_of s a) a) as (dp & Er & Ndp & Hother & Hdp); auto.
  { intros x Hx En. apply HDp0 in Hx. apply (gi_nm s G); tauto. }
  rewrite Er in H. set (s2 := set_dof_of _ _) in *.
  destruct (inv_ac s I) as (rank & Hr).
  destruct (refresh ord k s2 a) as [[s3 e3]|] eqn:E; [|discriminate].
  assert (G2 : GInv s2).
  { destruct G as [G1 G2 G3 G4 G5 G6]. constructor; auto. intros b Hb. cbn. unfold fup.
    destruct (Nat.eqb_spec b a); auto. }
  assert (Hok : forall b, b < nobj s2 -> ~ desc s2 a b -> full s2 b = full_entry s2 b /\ fre s2 b = free_entry s2 b).
  { intros b Hb Nd. change (~ desc s a b) in Nd. assert (Hb' : b < nobj s) by exact Hb.
    assert (Na : forall o, In o (ancestors s b ++ [b]) -> o <> a).
    { intros o Ho ->. apply Nd. now apply lineage_desc. }
    split.
    - change (full s2 b) with (full s b). rewrite (inv_full s I b Hb'). symmetry.
      apply full_entry_ext; auto. intros o Ho. rewrite get_ancestors_eq in Ho by auto.
      repeat split; auto. cbn. apply fup_other. now apply Na.
    - change (fre s2 b) with (fre s b). rewrite (inv_free s I b Hb'). symmetry.
      apply free_entry_ext; auto. intros o Ho. repeat split; auto. cbn. apply fup_other. apply Na.
      now apply uniq_in_lineage. }
  apply (refresh_spec ord ord_perm k s2 a s3 e3 rank) in E; auto.
  destruct E as (-> & G' & A' & F' & R' & Hs & Hnd & Hd & Hdec). cbn [bindr] in H. injection H as <- <-.
  assert (Hdep3 : dep s3 = dp) by (rewrite Hs; reflexivity).
  assert (Hnm3 : nm s3 = nm s) by (rewrite Hs; reflexivity).
  assert (Hn3 : nobj s3 = nobj s) by (rewrite Hs; reflexivity).
  assert (Hc3 : ncell s3 = ncell s) by (rewrite Hs; reflexivity).
  assert (Hdof3 : dof_of s3 = fup (dof_of s) a D) by (rewrite Hs; reflexivity).
  assert (Hdp' : forall D', D' < ncell s -> NoDup (dp D') /\
            forall o, In o (dp D') <-> (o < nobj s /\ dof_of s o = D') /\ o <> a).
  { intros D' HD'. destruct (Nat.eq_dec D' (dof_of s a)) as [->|N].
    - split; auto. intros o. rewrite Hdp, HDp0. tauto.
    - rewrite Hother by auto. destruct (inv_dep s I D' HD') as [N1 N2]. split; auto.
      intros o. rewrite N2. split; [|tauto]. intros [H1 H2]. repeat split; auto. intros ->; auto. }
  destruct (add_opt_spec s3 D a) as (dp2 & Ea & Ndp2 & Hother2 & Hdp2).
  { rewrite Hdep3, Hnm3. intros x Hx En. apply Hdp' in Hx; auto. apply (gi_nm s G); tauto. }
  { rewrite Hdep3. now apply Hdp'. }
  rewrite Ea. rewrite Hdep3 in Hdp2, Hother2.
  split; [|split; [|auto]].
  - apply set_dep_inv; auto.
    intros D' HD'. cbn in HD' |- *. rewrite Hc3 in HD'. rewrite Hn3, Hdof3.
    destruct (Nat.eq_dec D' D) as [->|N].
    + split; auto. intros o. rewrite Hdp2. destruct (Hdp' D HD') as [_ K]. rewrite K. unfold fup.
      destruct (Nat.eqb_spec o a) as [->|No]; [tauto|]. tauto.
    + rewrite Hother2 by auto. destruct (Hdp' D' HD') as [N1 K]. split; auto. intros o. rewrite K. unfold fup.
      destruct (Nat.eqb_spec o a) as [->|No]; [|tauto]. intuition.
  - intros b Hb Hx. cbn in Hx. destruct (Hdec b) as [Y|N]; [rewrite (Hd b Y) in Hx; discriminate|].
    destruct (Hnd b N) as (E1 & E2 & E3). rewrite E3 in Hx. split; [exact Hx|].
    unfold view, ancestors. cbn [full set_dep]. rewrite E1. change (full s2 b) with (full s b).
    apply map_ext_in. intros o Ho. cbn [set_dep cel dof_of par]. rewrite Hdof3.
    rewrite fup_other. { rewrite Hs. reflexivity. }
    intros ->. apply N. change (desc s a b). now apply lineage_desc.
Qed.

(** ** construction *)
Lemma fold_add_child a l : forall s, (forall p x, In p l -> In x (chi s p) -> nm s x <> nm s a) -> NoDup l ->
  exists C, fold_left (fun s p => add_child s p a) l s = set_chi s C /\
  (forall q x, In x (C q) <-> In x (chi s q) \/ (x = a /\ In q l)).
Proof.
  induction l as [|p l IH]; intros s Hn Nd; cbn [fold_left].
  - exists (chi s). split; [destruct s; reflexivity|]. intros; cbn; tauto.
  - inversion Nd as [|? ? Hp Nd']; subst. unfold add_child at 2.
    destruct (memn s (chi s p) a) eqn:E.
    { exfalso. apply memn_spec in E. destruct E as (b & Hb & En). eapply Hn; eauto. now left. }
    destruct (IH (set_chi s (fup (chi s) p (chi s p ++ [a])))) as (C & EC & HC); auto.
    + intros q x Hq Hx. cbn in Hx |- *. rewrite fup_other in Hx by (intros ->; auto). eapply Hn; eauto. now right.
    + exists C. split; [rewrite EC; reflexivity|]. intros q x. rewrite HC. cbn.
      unfold fup. destruct (Nat.eqb_spec q p) as [->|N].
      * rewrite in_app_iff. cbn. intuition.
      * intuition; subst; congruence.
Qed.

Definition NewStep s s' := Inv s' /\ Frame s s' /\ (ExtOK s -> ExtOK s').

Lemma new_obj_step s name da hs vf dl s' e : Inv s -> valid_op s (GNew name da hs vf dl) ->
  new_obj ord k s name da hs vf dl = Some (s', e) ->
  Inv s' /\ Frame s s' /\ (ExtOK s -> ExtOK s') /\ e = None /\ nobj s' = S (nobj s) /\
  par s' (nobj s) = (if vf then dedup s dl else dl) /\ newx s' (nobj s) = true /\
  (forall b, b < nobj s -> par s' b = par s b) /\ nm s' (nobj s) = name.
Proof.
  intros I (Hname & Hda & Hdl & Hvf) H. assert (G := inv_g s I). unfold new_obj in H.
  set (a := nobj s) in *.
  set (D := match da with inl _ => ncell s | inr D => D end) in *.
  set (cel' := match da with inl d => fup (cel s) (ncell s) d | inr _ => cel s end) in *.
  set (dep' := match da with inl _ => fup (dep s) (ncell s) [] | inr _ => dep s end) in *.
  set (ncell' := match da with inl _ => S (ncell s) | inr _ => ncell s end) in *.
  assert (HD : D < ncell') by (unfold D, ncell'; destruct da; auto).
  assert (Hnc : ncell s <= ncell') by (unfold ncell'; destruct da; auto).
  assert (Hcel : forall d, d < ncell s -> cel' d = cel s d).
  { intros d Hd. unfold cel'. destruct da; auto. apply fup_other. lia. }
  assert (Hwf : forall d, d < ncell' -> wf (cel' d)).
  { intros d Hd. unfold cel', ncell' in *. destruct da; [|now apply (gi_wf s G)].
    unfold fup. destruct (Nat.eqb_spec d (ncell s)); auto. apply (gi_wf s G). lia. }
  assert (Hdep : forall d, d < ncell' -> NoDup (dep' d) /\ forall o, In o (dep' d) <-> o < nobj s /\ dof_of s o = d).
  { intros d Hd. unfold dep', ncell' in *. destruct da; [|now apply (inv_dep s I)].
    unfold fup. destruct (Nat.eqb_spec d (ncell s)) as [->|]; [|apply (inv_dep s I); lia].
    split; [constructor|]. intros o; split; [intros []|]. intros [H1 H2]. assert (X := gi_dof s G o H1). lia. }
  set (s0 := mkSt _ _ _ _ _ _ _ _ _ _ _ _ _) in *.
  assert (Hnm0 : forall b, b < nobj s -> nm s0 b = nm s b) by (intros; cbn; apply fup_other; unfold a; lia).
  assert (Hded : dedup s0 dl = dedup s dl).
  { unfold dedup. apply dedup_acc_ext. cbn [app]. intros b Hb. apply Hnm0. auto. }
  set (P := if vf then dedup s0 dl else dl) in *.
  assert (HP : NoDup P /\ forall x, In x P <-> In x dl).
  { unfold P. destruct vf; [|split; [auto|tauto]]. rewrite Hded. apply dedup_spec.
    intros x y Hx Hy. apply (gi_nm s G); auto. }
  destruct HP as [NdP HP].
  set (s1 := set_par s0 _) in *.
  destruct (fold_add_child a P s1) as (C & EC & HC); auto.
  { intros p x Hp Hx. cbn in Hx. assert (Hplt : p < nobj s) by (apply Hdl, HP; auto).
    rewrite fup_other in Hx by (unfold a; lia). assert (Hxl := chi_lt s p x G Hplt Hx).
    cbn. rewrite fup_same, fup_other by (unfold a; lia). auto. }
  rewrite EC in H. set (s2 := set_chi s1 C) in *.
  assert (HC' : forall q x, q < nobj s -> (In x (C q) <-> In x (chi s q) \/ (x = a /\ In q P))).
  { intros q x Hq. rewrite HC. cbn. rewrite fup_other by (unfold a; lia). tauto. }
  assert (HCa : C a = []).
  { destruct (C a) as [|x r] eqn:E; auto. exfalso. assert (Hx : In x (C a)) by (rewrite E; now left).
    apply HC in Hx. cbn in Hx. rewrite fup_same in Hx. destruct Hx as [[]|[_ Hx]].
    apply HP, Hdl in Hx. unfold a in Hx. lia. }
  assert (Hdesc : forall b, desc s2 a b <-> b = a).
  { intros b. split; [|intros ->; now left]. intros [->|R]; auto.
    inversion R as [x y Hy|x y z Hy R2]; subst; cbn in Hy; rewrite HCa in Hy; destruct Hy. }
  assert (Hpar2 : forall b, b <> a -> par s2 b = par s b) by (intros; cbn; now apply fup_other).
  assert (Hpar2a : par s2 a = P) by (cbn; apply fup_same).
  destruct (refresh ord k s2 a) as [[s3 e3]|] eqn:E; [|discriminate].
  assert (G2 : GInv s2).
  { constructor.
    - intros b q Hb Hq. cbn in Hb. destruct (Nat.eq_dec b a) as [->|N].
      + rewrite Hpar2a in Hq. apply HP, Hdl in Hq. cbn; unfold a; lia.
      + rewrite Hpar2 in Hq by auto. assert (q < nobj s); [|cbn; unfold a; lia].
        eapply gi_par; [eauto| |eauto]. unfold a in *; lia.
    - intros q c Hq. change (chi s2 q) with (C q). change (nobj s2) with (S a). change (nobj s2) with (S a) in Hq.
      destruct (Nat.eq_dec q a) as [->|N].
      + rewrite HCa. split; [intros []|]. intros [Hc Hin]. destruct (Nat.eq_dec c a) as [->|N].
        * rewrite Hpar2a in Hin. apply HP, Hdl in Hin. unfold a in Hin; lia.
        * rewrite Hpar2 in Hin by auto. assert (a < nobj s); [|unfold a in *; lia].
          eapply gi_par; [eauto| |eauto]. unfold a in *; lia.
      + assert (Hq' : q < nobj s) by (unfold a in *; lia). rewrite HC' by auto.
        rewrite (gi_chi s G q c Hq'). destruct (Nat.eq_dec c a) as [->|Nc].
        * rewrite Hpar2a. unfold a. intuition; lia.
        * rewrite Hpar2 by auto. unfold a in *. intuition; lia.
    - intros b Hb. change (nobj s2) with (S a) in Hb. destruct (Nat.eq_dec b a) as [->|N].
      + now rewrite Hpar2a.
      + rewrite Hpar2 by auto. apply (gi_nd s G). unfold a in *; lia.
    - intros b c Hb Hc. cbn in Hb, Hc |- *. unfold fup, a in *.
      destruct (Nat.eqb_spec b (nobj s)), (Nat.eqb_spec c (nobj s)); intros En; subst; auto.
      + exfalso. apply (Hname c); [lia|auto].
      + exfalso. apply (Hname b); [lia|auto].
      + apply (gi_nm s G); auto; lia.
    - intros b Hb. cbn in Hb |- *. unfold fup, a in *. destruct (Nat.eqb_spec b (nobj s)); auto.
      assert (X := gi_dof s G b ltac:(lia)). lia.
    - intros d Hd. apply Hwf. exact Hd. }
  assert (Hlow : forall o, o < nobj s -> nm s2 o = nm s o /\ dof_of s2 o = dof_of s o /\ cel s2 (dof_of s o) = cel s (dof_of s o)).
  { intros o Ho. cbn. rewrite !fup_other by (unfold a; lia). repeat split; auto. apply Hcel. now apply (gi_dof s G). }
  assert (Hok : forall b, b < nobj s2 -> ~ desc s2 a b -> full s2 b = full_entry s2 b /\ fre s2 b = free_entry s2 b).
  { intros b Hb Nd. rewrite Hdesc in Nd. assert (Hb' : b < nobj s) by (cbn in Hb; unfold a in *; lia). split.
    - change (full s2 b) with (full s b). rewrite (inv_full s I b Hb'). symmetry.
      apply full_entry_ext; auto.
      + intros o Ho. apply Hlow. eapply gi_par; eauto.
      + intros p o Hp Ho. apply Hlow. eapply par_anc_lt; eauto.
      + intros o Ho. rewrite get_ancestors_eq in Ho by auto.
        destruct (Hlow o) as (X1 & X2 & X3); [eapply lineage_lt; eauto|]. rewrite X3. auto.
    - change (fre s2 b) with (fre s b). rewrite (inv_free s I b Hb'). symmetry.
      apply free_entry_ext; auto. intros o Ho.
      destruct (Hlow o) as (X1 & X2 & X3); [eapply lineage_lt; eauto; now apply uniq_in_lineage|]. rewrite X3. auto. }
  destruct (inv_ac s I) as (rank & Hr).
  apply (refresh_spec ord ord_perm k s2 a s3 e3 rank) in E; auto.
  2:{ intros b p Hb Nb Hp. rewrite Hpar2 in Hp by auto. apply Hr; auto. cbn in Hb; unfold a in *; lia. }
  destruct E as (-> & G' & A' & F' & R' & Hs & Hnd & Hd & Hdec). cbn [bindr] in H. injection H as <- <-.
  assert (Hdep3 : dep s3 = dep') by (rewrite Hs; reflexivity).
  assert (Hnm3 : nm s3 = nm s2) by (rewrite Hs; reflexivity).
  assert (Hn3 : nobj s3 = S (nobj s)) by (rewrite Hs; reflexivity).
  assert (Hc3 : ncell s3 = ncell') by (rewrite Hs; reflexivity).
  assert (Hcl3 : cel s3 = cel') by (rewrite Hs; reflexivity).
  assert (Hdof3 : dof_of s3 = fup (dof_of s) a D) by (rewrite Hs; reflexivity).
  destruct (add_opt_spec s3 D a) as (dp2 & Ea & Ndp2 & Hother2 & Hdp2).
  { rewrite Hdep3, Hnm3. intros x Hx En. apply Hdep in Hx; auto. apply (gi_nm s2 G2); auto; cbn; unfold a; lia. }
  { rewrite Hdep3. now apply Hdep. }
  rewrite Ea. rewrite Hdep3 in Hdp2, Hother2. cbn [nobj set_dep par newx nm].
  split; [|split; [|split; [|split; [|split; [|split; [|split; [|split]]]]]]]; auto.
  - apply set_dep_inv; auto.
    intros D' HD'. cbn in HD' |- *. rewrite Hc3 in HD'. rewrite Hn3, Hdof3.
    destruct (Nat.eq_dec D' D) as [->|N].
    + split; auto. intros o. rewrite Hdp2. destruct (Hdep D HD') as [_ K]. rewrite K. unfold fup.
      destruct (Nat.eqb_spec o a) as [->|No].
      * unfold a. intuition.
      * unfold a in *. intuition; lia.
    + rewrite Hother2 by auto. destruct (Hdep D' HD') as [N1 K]. split; auto. intros o. rewrite K. unfold fup.
      destruct (Nat.eqb_spec o a) as [->|No]; unfold a in *; intuition; lia.
  - intros b Hb Hx. cbn in Hx. destruct (Hdec b) as [Y|N]; [rewrite (Hd b Y) in Hx; discriminate|].
    destruct (Hnd b N) as (E1 & E2 & E3). rewrite E3 in Hx. split; [exact Hx|].
    unfold view, ancestors. cbn [full set_dep]. rewrite E1. change (full s2 b) with (full s b).
    apply map_ext_in. intros o Ho. assert (Hol : o < nobj s) by (eapply lineage_lt; eauto).
    cbn [set_dep cel dof_of par]. rewrite Hdof3, Hcl3.
    rewrite fup_other by (unfold a; lia). rewrite Hcel by now apply (gi_dof s G).
    replace (par s3 o) with (par s o); [reflexivity|]. rewrite Hs. cbn [par set_newx set_fre set_full].
    symmetry. apply Hpar2. unfold a; lia.
  - intros X o Ho Hst. cbn in Ho, Hst |- *. rewrite Hn3 in Ho. rewrite Hdof3, Hcl3.
    assert (Hst' : fup (setter s) a hs o = true) by (rewrite <- Hst, Hs; reflexivity).
    assert (Hex : ext s3 o = fup (ext s) a (d_x (cel' D)) o) by (rewrite Hs; reflexivity).
    rewrite Hex. unfold fup in *. destruct (Nat.eqb_spec o a) as [->|No]; auto.
    assert (o < nobj s) by (unfold a in *; lia). rewrite Hcel; [apply X; auto|]. now apply (gi_dof s G).
  - rewrite Hs. cbn [par set_newx set_fre set_full]. change (par s2 a = if vf then dedup s dl else dl).
    rewrite Hpar2a. unfold P. destruct vf; auto.
  - apply Hd. apply Hdesc. reflexivity.
  - intros b Hb. rewrite Hs. cbn [par set_newx set_fre set_full]. apply Hpar2. unfold a; lia.
  - rewrite Hnm3. cbn. apply fup_same.
Qed.

Lemma clear_step s a : Inv s -> let s' := set_newx s (fup (newx s) a false) in
  Inv s' /\ nobj s' = nobj s /\ (ExtOK s -> ExtOK s').
Proof.
  intros I s'. split; [|split; auto].
  eapply same_graph_inv; eauto. repeat split; auto; now apply (gi_wf s (inv_g s I)).
Qed.

Lemma gstep_inv s o s' e : Inv s -> valid_op s o -> gstep ord k s o = Some (s', e) -> Inv s'.
Proof.
  intros I Hv H. destruct o; cbn [gstep] in H; cbn in Hv.
  - eapply new_obj_step in H; eauto. tauto.
  - eapply add_parent_step in H; eauto; [apply H|tauto|tauto].
  - unfold append_parent in H. eapply add_parent_step in H; eauto; [apply H|tauto|tauto].
  - eapply pop_parent_step in H; eauto; apply H.
  - eapply remove_parent_step in H; eauto; [apply H|tauto|tauto].
  - eapply replace_dofs_step in H; eauto; [apply H|tauto|tauto].
  - eapply set_status_key_step in H; eauto; apply H.
  - eapply local_status_all_step in H; eauto; apply H.
  - eapply status_all_step in H; eauto; apply H.
  - eapply full_status_step in H; eauto; apply H.
  - eapply set_x_step in H; eauto; apply H.
  - eapply set_gfull_x_step in H; eauto; apply H.
  - eapply set_local_x_step in H; eauto; apply H.
  - eapply set_local_full_x_step in H; eauto; apply H.
  - eapply set_key_step in H; eauto; apply H.
  - eapply set_lower_step in H; eauto; apply H.
  - eapply set_upper_step in H; eauto; apply H.
  - injection H as <- _. now apply clear_step.
Qed.

(** [GClear] is the only operation that can turn a flag off *)
Definition is_clear (o : @gop V) := match o with GClear _ => True | _ => False end.

Lemma gstep_frame s o s' e : Inv s -> valid_op s o -> ~ is_clear o -> gstep ord k s o = Some (s', e) ->
  Frame s s' /\ nobj s <= nobj s'.
Proof.
  intros I Hv Hc H.
  assert (HS : forall s', Step s s' -> Frame s s' /\ nobj s <= nobj s').
  { intros s0 (_ & F & _ & -> & _). auto. }
  destruct o; cbn [gstep] in H; cbn in Hv, Hc.
  - eapply new_obj_step in H; eauto. destruct H as (_ & F & _ & _ & -> & _). auto.
  - apply HS. eapply add_parent_step; eauto; tauto.
  - apply HS. unfold append_parent in H. eapply add_parent_step; eauto; tauto.
  - apply HS. eapply pop_parent_step; eauto.
  - apply HS. eapply remove_parent_step; eauto; tauto.
  - eapply replace_dofs_step in H; eauto; [|tauto|tauto]. destruct H as (_ & F & -> & _). auto.
  - apply HS. eapply set_status_key_step; eauto.
  - apply HS. eapply local_status_all_step; eauto.
  - apply HS. eapply status_all_step; eauto.
  - apply HS. eapply full_status_step; eauto.
  - apply HS. eapply set_x_step; eauto.
  - apply HS. eapply set_gfull_x_step; eauto.
  - apply HS. eapply set_local_x_step; eauto.
  - apply HS. eapply set_local_full_x_step; eauto.
  - apply HS. eapply set_key_step; eauto.
  - apply HS. eapply set_lower_step; eauto.
  - apply HS. eapply set_upper_step; eauto.
  - tauto.
Qed.

Definition is_replace (o : @gop V) := match o with GReplaceDofs _ _ => True | _ => False end.

Lemma gstep_ext s o s' e : Inv s -> valid_op s o -> ~ is_replace o -> gstep ord k s o = Some (s', e) ->
  ExtOK s -> ExtOK s'.
Proof.
  intros I Hv Hc H.
  assert (HS : forall s', Step s s' -> ExtOK s -> ExtOK s') by (intros s0 (_ & _ & F & _); auto).
  destruct o; cbn [gstep] in H; cbn in Hv, Hc.
  - eapply new_obj_step in H; eauto. tauto.
  - apply HS. eapply add_parent_step; eauto; tauto.
  - apply HS. unfold append_parent in H. eapply add_parent_step; eauto; tauto.
  - apply HS. eapply pop_parent_step; eauto.
  - apply HS. eapply remove_parent_step; eauto; tauto.
  - tauto.
  - apply HS. eapply set_status_key_step; eauto.
  - apply HS. eapply local_status_all_step; eauto.
  - apply HS. eapply status_all_step; eauto.
  - apply HS. eapply full_status_step; eauto.
  - apply HS. eapply set_x_step; eauto.
  - apply HS. eapply set_gfull_x_step; eauto.
  - apply HS. eapply set_local_x_step; eauto.
  - apply HS. eapply set_local_full_x_step; eauto.
  - apply HS. eapply set_key_step; eauto.
  - apply HS. eapply set_lower_step; eauto.
  - apply HS. eapply set_upper_step; eauto.
  - injection H as <- _. now apply clear_step.
Qed.
End P.

Lemma init_inv {V} : Inv (@init_st V).
Proof.
  constructor; [constructor| | | |]; try (cbn; intros; lia).
  - exists (fun _ => 0). intros a p Ha. cbn in Ha. lia.
  - intros a Ha. cbn in Ha. lia.
  - intros a Ha. cbn in Ha. lia.
  - intros a Ha. cbn in Ha. lia.
Qed.

Lemma reachable_inv {V} (s : @st V) : reachable s -> Inv s.
Proof. induction 1; [apply init_inv|]. eapply gstep_inv; eauto. Qed.
