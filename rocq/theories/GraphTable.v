(** Layout of the index tables (used by C10). *)
From Coq Require Import Sorting.Sorted.
From Verif Require Import ListAux DofsModel DofsSpec DofsProofs GraphModel GraphTrace GraphLists GraphInv GraphSpec GraphPres GraphPres2 GraphPres3 GraphFacts.

Section T.
Context {V : Type}.
Notation st := (@st V).
Implicit Types s : st.

(** [reps]: the members of the list that are the first in it to use their DOFs *)
Definition first_users s (L us : list nat) : Prop :=
  us = filter (fun o => existsb (Nat.eqb o) us) L /\
  (forall l1 o l2, L = l1 ++ o :: l2 -> (In o us <-> ~ In (dof_of s o) (map (dof_of s) l1))).

Lemma uniq_in s : forall L seen l1 o l2, NoDup L -> L = l1 ++ o :: l2 ->
  (In o (uniq_loop s seen L) <-> ~ In (dof_of s o) seen /\ ~ In (dof_of s o) (map (dof_of s) l1)).
Proof.
  induction L as [|x L IH]; intros seen l1 o l2 Nd E; [destruct l1; discriminate|].
  inversion Nd as [|? ? Hx Nd']; subst. cbn.
  assert (HS : existsb (Nat.eqb (dof_of s x)) seen = true <-> In (dof_of s x) seen).
  { rewrite existsb_exists. split; [intros (y & Hy & Ey); apply Nat.eqb_eq in Ey; now rewrite Ey|].
    intros H; exists (dof_of s x); split; auto. apply Nat.eqb_refl. }
  destruct l1 as [|y l1]; cbn in E; injection E as -> ->.
  - cbn. destruct (existsb _ seen).
    + split; [|tauto]. intros Hin. apply uniq_loop_spec in Hin. contradiction.
    + split; [intros _|intros _; now left]. split; [|tauto]. intros H. apply HS in H. discriminate.
  - assert (Hy : y <> o) by (intros ->; apply Hx; apply in_elt). cbn.
    destruct (existsb _ seen) eqn:Ex.
    + rewrite (IH seen l1 o l2) by auto. assert (In (dof_of s y) seen) by tauto.
      split; [|tauto]. intros [H1 H2]. split; auto. intros [H3|H3]; [|tauto]. rewrite H3 in H. contradiction.
    + cbn. rewrite (IH (dof_of s y :: seen) l1 o l2) by auto. cbn. intuition congruence.
Qed.

Lemma uniq_filter s : forall L seen, NoDup L ->
  uniq_loop s seen L = filter (fun o => existsb (Nat.eqb o) (uniq_loop s seen L)) L.
Proof.
  assert (K : forall L seen U, NoDup L -> (forall o, In o L -> (In o (uniq_loop s seen L) <-> In o U)) ->
     uniq_loop s seen L = filter (fun o => existsb (Nat.eqb o) U) L).
  { induction L as [|x L IH]; intros seen U Nd HU; cbn; auto. inversion Nd as [|? ? Hx Nd']; subst.
    assert (HE : forall b, existsb (Nat.eqb b) U = true <-> In b U).
    { intros b. rewrite existsb_exists. split; [intros (y & Hy & Ey); apply Nat.eqb_eq in Ey; now subst|].
      intros H; exists b; split; auto. apply Nat.eqb_refl. }
    specialize (HU x (or_introl eq_refl)) as Hx0. cbn in Hx0, HU.
    destruct (existsb (Nat.eqb (dof_of s x)) seen).
    - destruct (existsb (Nat.eqb x) U) eqn:E.
      + exfalso. apply HE in E. apply Hx0 in E. apply uniq_loop_spec in E. contradiction.
      + apply IH; auto.
    - assert (E : existsb (Nat.eqb x) U = true) by (apply HE, Hx0; now left). rewrite E. f_equal.
      apply IH; auto. intros o Ho. rewrite <- HU by auto. cbn.
      assert (x <> o) by (intros ->; contradiction). intuition congruence. }
  intros L seen Nd. apply K; auto. tauto.
Qed.

Lemma lineage_nd s a : Inv s -> a < nobj s -> NoDup (ancestors s a ++ [a]).
Proof.
  intros I Ha. destruct (anc_char s (inv_g _ I) (inv_ac _ I) (inv_full _ I) a Ha) as (N & K & _).
  eapply Permutation_NoDup; [apply Permutation_cons_append|]. constructor; auto.
  rewrite K. apply anc_irrefl; auto; apply I.
Qed.

Lemma uniq_first s a : Inv s -> a < nobj s -> first_users s (ancestors s a ++ [a]) (uniq_of s a).
Proof.
  intros I Ha. assert (N := lineage_nd s a I Ha). rewrite uniq_eq by auto. split.
  - now apply uniq_filter.
  - intros l1 o l2 E. rewrite uniq_in by eauto. cbn. tauto.
Qed.

Lemma nodup_perm (l m : list nat) : NoDup m -> (forall x, In x m <-> In x l) -> Permutation (nodup Nat.eq_dec l) m.
Proof.
  intros N H. apply NoDup_Permutation; [apply NoDup_nodup|auto|]. intros x. rewrite nodup_In. now rewrite H.
Qed.
Lemma list_sum_perm l m : Permutation l m -> list_sum l = list_sum m.
Proof. unfold list_sum. induction 1; cbn [fold_right]; lia. Qed.

Lemma sizes_once s a (f : dofs V -> nat) : Inv s -> a < nobj s ->
  list_sum (map (fun o => f (cel s (dof_of s o))) (uniq_of s a))
  = list_sum (map (fun D => f (cel s D)) (nodup Nat.eq_dec (map (dof_of s) (ancestors s a ++ [a])))).
Proof.
  intros I Ha. symmetry. rewrite <- (map_map (dof_of s) (fun D => f (cel s D))). apply list_sum_perm, Permutation_map, nodup_perm.
  - now apply uniq_nd.
  - intros x. rewrite uniq_uses by auto. rewrite in_map_iff. split.
    + intros (o & Ho & <-). exists o. split; auto. now apply lineage_Anc.
    + intros (o & <- & Ho). exists o. split; auto. now apply lineage_Anc.
Qed.

Lemma r_table s a : Inv s -> a < nobj s ->
  map fst (r_idx (fre s a)) = uniq_of s a /\ tiles 0 (map snd (r_idx (fre s a))) (dof_size s a).
Proof.
  intros I Ha. rewrite r_idx_eq by auto. split.
  - apply map_fst_combine. now rewrite blocks_length, map_length.
  - rewrite map_snd_combine by (now rewrite blocks_length, map_length). rewrite dof_size_eq by auto.
    apply (blocks_tile 0).
Qed.
Lemma f_table s a : Inv s -> a < nobj s ->
  map fst (f_idx (full s a)) = uniq_of s a /\ tiles 0 (map snd (f_idx (full s a))) (full_dof_size s a).
Proof.
  intros I Ha. rewrite f_idx_eq by auto. split.
  - apply map_fst_combine. now rewrite blocks_length, map_length.
  - rewrite map_snd_combine by (now rewrite blocks_length, map_length). rewrite full_size_eq by auto.
    apply (blocks_tile 0).
Qed.

Lemma combine_ext {A} (us : list nat) (f g : nat -> A) n h : (forall o, In o us -> f o = g o) ->
  combine us (blocks n (map (fun o => h (f o)) us)) = combine us (blocks n (map (fun o => h (g o)) us)).
Proof. intros H. f_equal. f_equal. apply map_ext_in. intros; now rewrite H. Qed.

Lemma r_slices s a o i j : Inv s -> a < nobj s -> In (o, (i, j)) (r_idx (fre s a)) ->
  slice i j (get_x s a) = free_x (cel s (dof_of s o)) /\
  slice i j (get_lower s a) = free_lb (cel s (dof_of s o)) /\
  slice i j (get_upper s a) = free_ub (cel s (dof_of s o)) /\
  slice i j (get_names s a) = map (fun n => (nm s o, n)) (free_names (cel s (dof_of s o))).
Proof.
  intros I Ha. rewrite r_idx_eq by auto.
  assert (W : forall o', In o' (uniq_of s a) -> wf (cel s (dof_of s o'))).
  { intros o' Ho'. apply cell_wf; auto. eapply uniq_lt; eauto. }
  assert (E : forall (A : Type) (f : nat -> list A), (forall o', In o' (uniq_of s a) -> length (f o') = reduced_len (cel s (dof_of s o'))) ->
     In (o, (i, j)) (combine (uniq_of s a) (blocks 0 (map (fun o => reduced_len (cel s (dof_of s o))) (uniq_of s a)))) ->
     slice i j (concat (map f (uniq_of s a))) = f o).
  { intros A f Hf Hin. apply (slice_block f (uniq_of s a) 0 [] o i j eq_refl).
    erewrite (map_ext_in (fun o => length (f o))); [exact Hin|]. exact Hf. }
  intros Hin. unfold get_x, get_lower, get_upper, get_names. repeat split; (rewrite E; [reflexivity| |exact Hin]); intros o' Ho'.
  - apply free_x_len; auto. - apply free_lb_len; auto. - apply free_ub_len; auto.
  - rewrite map_length. apply free_names_len; auto.
Qed.
Lemma f_slices s a o i j : Inv s -> a < nobj s -> In (o, (i, j)) (f_idx (full s a)) ->
  slice i j (get_full_x s a) = d_x (cel s (dof_of s o)) /\ slice i j (get_status s a) = d_free (cel s (dof_of s o)).
Proof.
  intros I Ha. rewrite f_idx_eq by auto.
  assert (W : forall o', In o' (uniq_of s a) -> wf (cel s (dof_of s o'))).
  { intros o' Ho'. apply cell_wf; auto. eapply uniq_lt; eauto. }
  assert (E : forall (A : Type) (f : nat -> list A), (forall o', In o' (uniq_of s a) -> length (f o') = dofs_len (cel s (dof_of s o'))) ->
     In (o, (i, j)) (combine (uniq_of s a) (blocks 0 (map (fun o => dofs_len (cel s (dof_of s o))) (uniq_of s a)))) ->
     slice i j (concat (map f (uniq_of s a))) = f o).
  { intros A f Hf Hin. apply (slice_block f (uniq_of s a) 0 [] o i j eq_refl).
    erewrite (map_ext_in (fun o => length (f o))); [exact Hin|]. exact Hf. }
  intros Hin. unfold get_full_x, get_status. split; (rewrite E; [reflexivity| |exact Hin]); intros o' Ho'.
  - unfold full_x, dofs_len. destruct (W o' Ho') as (X & _). now rewrite X.
  - reflexivity.
Qed.

Lemma ancestors_sorted s a : Inv s -> a < nobj s -> StronglySorted (fun x y => nm s x < nm s y) (ancestors s a).
Proof.
  intros I Ha. destruct (anc_char s (inv_g _ I) (inv_ac _ I) (inv_full _ I) a Ha) as (N & K & L).
  assert (S : Sorted (le_name s) (ancestors s a)).
  { unfold ancestors. rewrite (inv_full s I a Ha). apply sort_sorted. }
  apply Sorted_StronglySorted in S; [|intros x y z; unfold le_name; lia].
  revert N L S. clear K. induction (ancestors s a) as [|x l IH]; intros N L S; constructor.
  - inversion N; inversion S; subst. apply IH; auto. intros; apply L; now right.
  - inversion N as [|? ? Nx _]; inversion S as [|? ? _ F]; subst. rewrite Forall_forall in *. intros y Hy.
    specialize (F y Hy). unfold le_name in F. assert (nm s x <> nm s y); [|lia]. intros E.
    apply (gi_nm s (inv_g _ I)) in E; [subst; contradiction|apply L; now left|apply L; now right].
Qed.
End T.
