(** C23 (Derivative.__call__) and C24 (sums and multiples of objectives). *)
From Verif Require Import ListAux VecAux DofsModel DofsSpec DofsProofs GraphModel GraphLists GraphInv GraphSpec
  GraphPres GraphPres2 GraphPres3 GraphFacts GraphFacts2 GraphTable GraphExec GraphProps DerivModel DerivProps.

(** the sum of a list of vectors of length n *)
Fixpoint vsum (n : nat) (l : list (list R)) : list R := match l with [] => zeros n | v :: r => vadd v (vsum n r) end.

Lemma vsum_length n l : (forall v, In v l -> length v = n) -> length (vsum n l) = n.
Proof. induction l; cbn; intros H; [apply zeros_length|]. apply vadd_length; auto. Qed.
Lemma vsum_perm n l l' : Permutation l l' -> vsum n l = vsum n l'.
Proof.
  induction 1; cbn; auto; [now rewrite IHPermutation| |congruence].
  now rewrite !vadd_assoc, (vadd_comm y x).
Qed.
Lemma vsum_nth n l i : (forall v, In v l -> length v = n) -> i < n -> nth i (vsum n l) 0%R = rsuml (map (fun v => nth i v 0%R) l).
Proof.
  intros H Hi. induction l as [|v l IH]; cbn.
  - unfold zeros. rewrite nth_repeat. reflexivity.
  - assert (length v = n) by (apply H; now left). assert (length (vsum n l) = n) by (apply vsum_length; intros; apply H; now right).
    unfold vadd. erewrite (vmap2_nth Rplus 0%R 0%R 0%R) by lia. f_equal. apply IH. intros; apply H; now right.
Qed.
Lemma vsum_dot n l w : (forall v, In v l -> length v = n) -> dot (vsum n l) w = rsuml (map (fun v => dot v w) l).
Proof.
  induction l as [|v l IH]; cbn; intros H; [apply dot_zeros_l|].
  rewrite dot_vadd_l, IH; auto. rewrite vsum_length; auto.
Qed.
Lemma vsum_app n l l' : (forall v, In v (l ++ l') -> length v = n) -> vsum n (l ++ l') = vadd (vsum n l) (vsum n l').
Proof.
  induction l as [|v l IH]; cbn; intros H.
  - symmetry. apply vadd_zeros_l. apply vsum_length. auto.
  - rewrite IH by auto. apply vadd_assoc.
Qed.
Lemma vsum_scale n c l : vsum n (map (vscale c) l) = vscale c (vsum n l).
Proof. induction l as [|v l IH]; cbn; [now rewrite vscale_zeros|]. rewrite IH. symmetry. apply vscale_vadd. Qed.

Lemma gather_length_count {A} m (l : list A) : length l = length m -> length (gather m l) = length (gather m m).
Proof. intros. rewrite !length_gather; auto. Qed.
Lemma gather_vadd m : forall u v, length u = length m -> length v = length m ->
  gather m (vadd u v) = vadd (gather m u) (gather m v).
Proof.
  unfold vadd. induction m as [|b m IH]; intros [|x u] [|y v] H1 H2; cbn in *; try discriminate; auto.
  destruct b; cbn; rewrite IH; auto.
Qed.
Lemma gather_zeros m : gather m (zeros (length m)) = zeros (length (gather m m)).
Proof. unfold zeros. induction m as [|b m IH]; cbn; auto. destruct b; cbn; now rewrite ?IH. Qed.
Lemma gather_vsum m l : (forall v, In v l -> length v = length m) ->
  gather m (vsum (length m) l) = vsum (length (gather m m)) (map (gather m) l).
Proof.
  induction l as [|v l IH]; cbn; intros H; [apply gather_zeros|].
  rewrite gather_vadd; auto. - now rewrite IH by auto. - apply vsum_length. auto.
Qed.
Lemma gather_scale m c : forall u, gather m (vscale c u) = vscale c (gather m u).
Proof. unfold vscale. induction m as [|b m IH]; intros [|x u]; cbn; auto; destruct b; auto. cbn. now rewrite IH. Qed.
Lemma gather_none {A} m (l : list A) : existsb (fun b => b) m = false -> gather m l = [].
Proof. revert l; induction m as [|b m IH]; intros [|x l]; cbn; auto; destruct b; cbn; auto; discriminate. Qed.

Lemma dot_gather m : forall u w, length u = length m -> length w = length m ->
  (forall i, nth_error m i = Some false -> nth_error w i = Some 0%R) -> dot u w = dot (gather m u) (gather m w).
Proof.
  unfold dot. induction m as [|b m IH]; intros [|x u] [|y w] H1 H2 H; cbn in *; try discriminate; auto.
  assert (K : forall i, nth_error m i = Some false -> nth_error w i = Some 0%R) by (intros i; apply (H (S i))).
  destruct b; cbn; rewrite (IH u w); auto.
  specialize (H 0 eq_refl). cbn in H. injection H as ->. ring.
Qed.

Section Grad.
Context {V : Type}.
Variable s : @st V.
Notation size := (size_of s).

(** same numbers, same objects; the call may only add explicit zero entries to [d] itself *)
Definition same_meaning (h h' : heap) (d : nat) : Prop :=
  narr h <= narr h' /\ ndict h' = ndict h /\ (forall a, a < narr h -> arr h' a = arr h a) /\
  (forall d', d' <> d -> dict h' d' = dict h d') /\ ok size h' d /\ (forall k, sem size h' d k = sem size h d k).
Lemma sm_refl h d : ok size h d -> same_meaning h h d. Proof. intros. unfold same_meaning. auto 10. Qed.
Lemma sm_trans h1 h2 h3 d : same_meaning h1 h2 d -> same_meaning h2 h3 d -> same_meaning h1 h3 d.
Proof.
  intros (A & B & C & D & E & F) (A' & B' & C' & D' & E' & F'). split; [lia|]. split; [lia|].
  split; [intros; rewrite C', C; auto; lia|]. split; [intros; rewrite D', D; auto|]. split; auto. intros. now rewrite F', F.
Qed.

Lemma fetch_spec h d k : ok size h d -> forall h' a, fetch size h d k = (h', a) ->
  same_meaning h h' d /\ arr h' a = sem size h d k.
Proof.
  intros O h' a. unfold fetch. destruct (lookup k (dict h d)) as [b|] eqn:E.
  - intros H. injection H as <- <-. split; [now apply sm_refl|]. unfold sem, asem. now rewrite E.
  - cbn [new_arr]. intros H. injection H as <- <-. destruct O as (Hd & N & K).
    assert (U : forall k0 a0, In (k0, a0) (dict h d) -> a0 <> narr h) by (intros k0 a0 I; apply K in I; lia).
    assert (NK : ~ In k (map fst (dict h d))) by now apply lookup_None.
    split; [|cbn; rewrite fup_same; unfold sem, asem; now rewrite E].
    split; [cbn; lia|]. split; [reflexivity|]. split; [intros; cbn; apply fup_other; lia|]. split; [intros; cbn; now apply fup_other|].
    unfold ok, sem. cbn. rewrite fup_same. split.
    + split; auto. split.
      * rewrite map_app. cbn. apply Permutation_NoDup with (l := k :: map fst (dict h d)); [apply Permutation_cons_append|]. now constructor.
      * cbn. intros k0 a0 I. apply in_app_iff in I. destruct I as [I|[I|[]]].
        -- rewrite fup_other by (eapply U; eauto). apply K in I. split; [lia|tauto].
        -- injection I as <- <-. rewrite fup_same. split; [lia|apply zeros_length].
    + intros k0. unfold asem. cbn. rewrite lookup_app. destruct (lookup k0 (dict h d)) as [b|] eqn:E'.
      * apply fup_other. apply lookup_In in E'. exact (U _ _ E').
      * cbn. destruct (Nat.eqb_spec k k0) as [<-|]; auto. now rewrite fup_same.
Qed.

Lemma local_sum_spec D opts : wf (cel s D) -> (forall o, In o opts -> dof_of s o = D) ->
  forall h d acc, ok size h d -> length acc = reduced_len (cel s D) ->
  exists h', local_sum s h d acc opts = (h', inl (vadd acc (vsum (reduced_len (cel s D)) (map (fun o => gather (d_free (cel s D)) (sem size h d o)) opts)))) /\
  same_meaning h h' d.
Proof.
  intros W. induction opts as [|o opts IH]; intros Ho h d acc O L; cbn [local_sum].
  - exists h. split; [|now apply sm_refl]. cbn. now rewrite vadd_zeros_r.
  - destruct (fetch size h d o) as [h1 a] eqn:E. destruct (fetch_spec h d o O _ _ E) as [SM Ea].
    rewrite (Ho o (or_introl eq_refl)).
    assert (Ls : length (sem size h d o) = length (d_free (cel s D))).
    { unfold sem. rewrite (asem_length size) by apply O. unfold size_of, dofs_len. now rewrite (Ho o (or_introl eq_refl)). }
    rewrite Ea, Ls, Nat.eqb_refl. unfold np_inplace.
    assert (Lg : length (gather (d_free (cel s D)) (sem size h d o)) = reduced_len (cel s D)).
    { unfold reduced_len. now apply gather_length_count. }
    rewrite Lg, L, Nat.eqb_refl.
    destruct SM as (A & B & C & D0 & E0 & F).
    destruct (IH (fun o' I => Ho o' (or_intror I)) h1 d (vmap2 Rplus acc (gather (d_free (cel s D)) (sem size h d o)))) as (h' & R & S).
    + exact E0.
    + apply (vadd_length acc _ (reduced_len (cel s D))); auto.
    + exists h'. split; [|eapply sm_trans; [|exact S]; unfold same_meaning; auto 10].
      rewrite R. f_equal. f_equal. cbn [map vsum].
      erewrite map_ext; [|intros o'; rewrite F; reflexivity].
      change (vmap2 Rplus acc (gather (d_free (cel s D)) (sem size h d o))) with (vadd acc (gather (d_free (cel s D)) (sem size h d o))).
      now rewrite <- vadd_assoc.
Qed.

(** every object that uses the DOFs instance D *)
Definition users (D : nat) : list nat := filter (fun q => dof_of s q =? D) (seq 0 (nobj s)).
(** derivative with respect to the instance D: the contributions of all its users added up *)
Definition total_partial (h : heap) (d D : nat) : list R := vsum (dofs_len (cel s D)) (map (sem size h d) (users D)).

Lemma dep_users D : Inv s -> D < ncell s -> Permutation (dep s D) (users D).
Proof.
  intros I HD. destruct (inv_dep s I D HD) as [N K]. apply NoDup_Permutation; auto.
  - apply NoDup_filter, seq_NoDup.
  - intros o. rewrite K. unfold users. rewrite filter_In, in_seq, Nat.eqb_eq. split; [intros []; split; auto; lia|intros []; split; auto; lia].
Qed.
Lemma sem_users_length h d D : ok size h d -> forall v, In v (map (sem size h d) (users D)) -> length v = dofs_len (cel s D).
Proof.
  intros O v H. apply in_map_iff in H. destruct H as (q & <- & Hq). unfold sem. rewrite (asem_length size) by apply O.
  unfold users in Hq. apply filter_In in Hq. destruct Hq as [_ Hq]. apply Nat.eqb_eq in Hq. unfold size_of. now rewrite Hq.
Qed.

Definition block (h : heap) (d k : nat) : list R := gather (d_free (cel s (dof_of s k))) (total_partial h d (dof_of s k)).
Lemma block_length h d k : ok size h d -> length (block h d k) = reduced_len (cel s (dof_of s k)).
Proof.
  intros O. unfold block, reduced_len. apply gather_length_count. unfold total_partial. rewrite vsum_length; [reflexivity|].
  now apply sem_users_length.
Qed.

Lemma status_free k : Inv s -> k < nobj s ->
  (existsb (fun b => b) (get_status s k) = true <-> exists D, uses s k D /\ existsb (fun b => b) (d_free (cel s D)) = true).
Proof.
  intros I Hk. unfold get_status. rewrite existsb_exists. split.
  - intros (b & H & Hb). apply in_concat in H. destruct H as (l & H1 & H2). apply in_map_iff in H1. destruct H1 as (o & <- & Ho).
    exists (dof_of s o). split. + apply uniq_uses; auto. apply in_map_iff. eauto. + rewrite existsb_exists. eauto.
  - intros (D & U & F). apply (uniq_uses s k D I Hk) in U. apply in_map_iff in U. destruct U as (o & <- & Ho).
    apply existsb_exists in F. destruct F as (b & H1 & H2). exists b. split; auto. apply in_concat. exists (d_free (cel s (dof_of s o))). split; auto.
    apply in_map_iff. eauto.
Qed.

Lemma call_loop_spec us : Inv s -> (forall k, In k us -> k < nobj s) ->
  forall h d, ok size h d ->
  exists h' vs, call_loop s h d us = (h', inl vs) /\ same_meaning h h' d /\
    concat vs = concat (map (block h d) us) /\
    (vs = [] <-> forall k, In k us -> existsb (fun b => b) (get_status s k) = false).
Proof.
  intros I. induction us as [|k us IH]; intros Hu h d O; cbn [call_loop].
  - exists h, []. split; auto. split; [now apply sm_refl|]. split; auto. split; auto. intros _ k [].
  - assert (Hk : k < nobj s) by (apply Hu; now left).
    assert (W := cell_wf s k I Hk). assert (HD := gi_dof s (inv_g s I) k Hk).
    destruct (existsb (fun b => b) (get_status s k)) eqn:E.
    + destruct (local_sum_spec (dof_of s k) (dep s (dof_of s k)) W) with (h := h) (d := d) (acc := zeros (reduced_len (cel s (dof_of s k)))) as (h1 & R1 & S1); auto.
      { intros o Ho. apply (inv_dep s I _ HD) in Ho. tauto. } { apply zeros_length. }
      rewrite R1. destruct (IH (fun k' I' => Hu k' (or_intror I')) h1 d) as (h2 & vs & R2 & S2 & C2 & _); [apply S1|].
      rewrite R2. exists h2. eexists. split; [reflexivity|]. split; [eapply sm_trans; eauto|].
      assert (F1 := proj2 (proj2 (proj2 (proj2 (proj2 S1))))).
      split.
      * cbn [concat map]. f_equal.
        -- unfold block, total_partial. rewrite vadd_zeros_l.
           2:{ apply vsum_length. intros v Hv. apply in_map_iff in Hv. destruct Hv as (o & <- & Ho). unfold reduced_len. apply gather_length_count.
               unfold sem. rewrite (asem_length size) by apply O. unfold size_of, dofs_len. apply (inv_dep s I _ HD) in Ho. destruct Ho as [_ ->]. reflexivity. }
           unfold dofs_len at 1. rewrite gather_vsum by (apply sem_users_length; auto).
           rewrite map_map. apply vsum_perm. apply Permutation_map. now apply dep_users.
        -- rewrite C2. f_equal. apply map_ext. intros k'. unfold block, total_partial. f_equal. f_equal. apply map_ext. intros q. apply F1.
      * split; [discriminate|]. intros H. rewrite (H k (or_introl eq_refl)) in E. discriminate.
    + destruct (IH (fun k' I' => Hu k' (or_intror I')) h d O) as (h2 & vs & R2 & S2 & C2 & N2).
      rewrite R2. exists h2, vs. split; auto. split; auto. split.
      * cbn [concat map]. rewrite C2. replace (block h d k) with (@nil R); auto. symmetry. unfold block. apply gather_none.
        destruct (existsb (fun b => b) (d_free (cel s (dof_of s k)))) eqn:F; auto. exfalso.
        assert (T : existsb (fun b => b) (get_status s k) = true); [|congruence].
        apply status_free; auto. exists (dof_of s k). split; auto. exists k. auto.
      * rewrite N2. split; [intros H k' [<-|H']; auto|intros H k' H'; apply H; now right].
Qed.

(** * C23 *)
Lemma call_spec h d a : Inv s -> a < nobj s -> ok size h d ->
  (exists D, uses s a D /\ exists i, In i (free_positions (cel s D))) ->
  exists h', d_call s h d a = (h', inl (concat (map (block h d) (uniq_of s a)))) /\ same_meaning h h' d.
Proof.
  intros I Ha O (D & U & i & Hi).
  destruct (call_loop_spec (uniq_of s a) I (fun k H => uniq_lt s a k I Ha H) h d O) as (h' & vs & E & S & C & N).
  exists h'. split; auto. unfold d_call. rewrite E. destruct vs as [|v vs]; [|now rewrite C].
  exfalso. assert (U' := U). apply (uniq_uses s a D I Ha) in U. apply in_map_iff in U. destruct U as (k & <- & Hk).
  assert (K := proj1 N eq_refl k Hk).
  assert (T : existsb (fun b => b) (get_status s k) = true); [|congruence].
  apply status_free; auto. { eapply uniq_lt; eauto. } exists (dof_of s k). split; [exists k; auto|].
  unfold free_positions in Hi. apply filter_In in Hi. destruct Hi as [_ Hi].
  destruct (nth_error (d_free (cel s (dof_of s k))) i) as [[]|] eqn:F; try discriminate. apply existsb_exists. exists true. split; auto. eapply nth_error_In; eauto.
Qed.

Theorem C23_gradient h d a : reachable s -> a < nobj s -> ok size h d ->
  (exists D, uses s a D /\ exists i, In i (free_positions (cel s D))) ->
  exists h' g, d_call s h d a = (h', inl g) /\ same_meaning h h' d /\ length g = dof_size s a /\
  forall o i j, In (o, (i, j)) (r_idx (fre s a)) ->
    slice i j g = gather (d_free (cel s (dof_of s o)))
      (map (fun m => rsuml (map (fun q => nth m (sem size h d q) 0%R) (filter (fun q => dof_of s q =? dof_of s o) (seq 0 (nobj s)))))
           (seq 0 (dofs_len (cel s (dof_of s o))))).
Proof.
  intros R Ha O F. apply reachable_inv in R. destruct (call_spec h d a R Ha O F) as (h' & E & S).
  exists h'. eexists. split; [exact E|]. split; auto. split.
  - rewrite length_concat_map, dof_size_eq by auto. f_equal. apply map_ext. intros o. now apply block_length.
  - intros o i j H. rewrite r_idx_eq in H by auto.
    assert (M : map (fun o => reduced_len (cel s (dof_of s o))) (uniq_of s a) = map (fun o => length (block h d o)) (uniq_of s a)).
    { apply map_ext. intros. now rewrite block_length. }
    rewrite M in H. assert (B := slice_block (block h d) (uniq_of s a) 0 [] o i j eq_refl H). cbn in B. rewrite B.
    unfold block. f_equal. unfold total_partial. apply nth_ext with (d := 0%R) (d' := 0%R).
    + rewrite vsum_length by (now apply sem_users_length). now rewrite map_length, seq_length.
    + intros m Hm. rewrite vsum_length in Hm by (now apply sem_users_length).
      rewrite vsum_nth by (auto; now apply sem_users_length). rewrite map_map.
      erewrite (nth_indep (map _ (seq 0 (dofs_len _)))) by (now rewrite map_length, seq_length).
      rewrite (map_nth (fun m => rsuml (map (fun q => nth m (sem size h d q) 0%R) _)) _ 0 m). rewrite seq_nth by auto. reflexivity.
Qed.

(** nothing is free: numpy cannot concatenate an empty list *)
Theorem C23_nothing_free h d a : reachable s -> a < nobj s -> ok size h d ->
  (forall D, uses s a D -> free_positions (cel s D) = []) ->
  exists h', d_call s h d a = (h', inr EValue) /\ same_meaning h h' d.
Proof.
  intros R Ha O F. apply reachable_inv in R. rename R into I.
  destruct (call_loop_spec (uniq_of s a) I (fun k H => uniq_lt s a k I Ha H) h d O) as (h' & vs & E & S & C & N).
  exists h'. split; auto. unfold d_call. rewrite E. replace vs with (@nil (list R)); auto. symmetry. apply N.
  intros k Hk. destruct (existsb (fun b => b) (get_status s k)) eqn:T; auto. exfalso.
  assert (Hk' := uniq_lt s a k I Ha Hk). apply (status_free k I Hk') in T. destruct T as (D & U & B).
  assert (U' : uses s a D).
  { destruct U as (o & Ho & HD). exists o. split; auto. apply uniq_in_lineage in Hk; auto. apply lineage_Anc in Hk; auto.
    destruct Ho as [->|Ho], Hk as [->|Hk]; auto. right. eapply Anc_trans; eauto. }
  assert (HD : D < ncell s).
  { destruct U as (o & [->|Ho] & <-); apply (gi_dof s (inv_g s I)); auto. eapply Anc_lt; eauto. apply I. }
  apply existsb_exists in B. destruct B as (b & Hb & ->). apply In_nth_error in Hb. destruct Hb as (i & Hi).
  assert (W := gi_wf s (inv_g s I) D HD).
  assert (In i (free_positions (cel s D))); [|rewrite F in H; auto].
  unfold free_positions. apply filter_In. rewrite Hi. split; auto. apply in_seq. destruct W as (W & _).
  assert (i < length (d_free (cel s D))) by (apply nth_error_Some; congruence). lia.
Qed.

(** as_derivative=True: exactly the objects with dofs using some DOFs of the lineage, same arrays *)
Lemma lookup_put k a z k' : lookup k' (put k a z) = if k =? k' then Some a else lookup k' z.
Proof.
  induction z as [|[p q] z IH]; cbn. { now destruct (k =? k'). }
  destruct (Nat.eqb_spec p k) as [->|Hp]; cbn.
  - destruct (Nat.eqb_spec k k'); auto.
  - rewrite IH. destruct (Nat.eqb_spec p k') as [->|]; auto. destruct (Nat.eqb_spec k k') as [->|]; auto. congruence.
Qed.
Lemma lookup_fst k z : (exists a, lookup k z = Some a) <-> In k (map fst z).
Proof.
  destruct (lookup k z) eqn:E. - split; [intros _|eauto]. apply lookup_In in E. now apply in_map with (f := fst) in E.
  - split; [intros (a & H); discriminate|]. intros H. apply lookup_None in E. tauto.
Qed.
Lemma put_nodup k a z : NoDup (map fst z) -> NoDup (map fst (put k a z)).
Proof.
  induction z as [|[p q] z IH]; cbn; [repeat constructor; auto|]. intros N. inversion_clear N as [|? ? N1 N2].
  destruct (Nat.eqb_spec p k) as [->|Hp]; cbn; constructor; auto. intros H. apply N1.
  rewrite <- lookup_fst in *. destruct H as (x & H). rewrite lookup_put in H.
  destruct (Nat.eqb_spec k p); [congruence|eauto].
Qed.
Lemma pick_spec opts : forall h d acc, ok size h d -> NoDup (map fst acc) ->
  (forall k a, lookup k acc = Some a -> lookup k (dict h d) = Some a) ->
  exists h' z, pick s h d opts acc = (h', z) /\ same_meaning h h' d /\ NoDup (map fst z) /\
  (forall k a, lookup k z = Some a -> lookup k (dict h' d) = Some a) /\
  (forall k, (exists a, lookup k z = Some a) <-> (exists a, lookup k acc = Some a) \/ (In k opts /\ 0 < size k)).
Proof.
  induction opts as [|o opts IH]; intros h d acc O N H; cbn [pick].
  - exists h, acc. split; auto. split; [now apply sm_refl|]. split; auto. split; auto. intros k. cbn. tauto.
  - destruct (Nat.ltb_spec 0 (size o)) as [L|L].
    + destruct (fetch size h d o) as [h1 a] eqn:E. destruct (fetch_spec h d o O _ _ E) as [SM Ea].
      assert (KE : forall k b, lookup k (dict h d) = Some b -> lookup k (dict h1 d) = Some b).
      { intros k b Hk. unfold fetch in E. destruct (lookup o (dict h d)) eqn:E'.
        - injection E as <- <-. auto. - cbn in E. injection E as <- <-. cbn. rewrite fup_same, lookup_app, Hk. reflexivity. }
      assert (KO : lookup o (dict h1 d) = Some a).
      { unfold fetch in E. destruct (lookup o (dict h d)) eqn:E'.
        - injection E as <- <-. auto. - cbn in E. injection E as <- <-. cbn. rewrite fup_same, lookup_app, E'. cbn. now rewrite Nat.eqb_refl. }
      destruct (IH h1 d (put o a acc)) as (h2 & z & R & S2 & N2 & L2 & K2).
      * apply SM. * now apply put_nodup.
      * intros k b. rewrite lookup_put. destruct (Nat.eqb_spec o k) as [<-|]; [congruence|auto].
      * exists h2, z. split; auto. split; [eapply sm_trans; eauto|]. split; auto. split; auto. intros k. rewrite K2, lookup_put.
        destruct (Nat.eqb_spec o k) as [<-|].
        { split; [intros _; right; split; auto; now left|intros _; left; eauto]. }
        cbn. split; [intros [|[]]; auto|intros [|[[|] ?]]; auto]. congruence.
    + destruct (IH h d acc O N H) as (h2 & z & R & S2 & N2 & L2 & K2). exists h2, z. split; auto. split; auto. split; auto. split; auto.
      intros k. rewrite K2. cbn. split; [intros [|[]]; auto|intros [|[[<-|] ?]]; auto]. lia.
Qed.
Theorem C23_as_derivative h d a : reachable s -> a < nobj s -> ok size h d ->
  exists h' r, d_call_derivative s h d a = (h', r) /\ r = ndict h /\ ok size h' r /\ ok size h' d /\
  (forall k, sem size h' d k = sem size h d k) /\
  (forall k, In k (map fst (dict h' r)) <-> k < nobj s /\ uses s a (dof_of s k) /\ 0 < size k) /\
  (forall k, k < nobj s -> uses s a (dof_of s k) -> sem size h' r k = sem size h d k) /\
  (forall k b, In (k, b) (dict h' r) -> In (k, b) (dict h' d)).
Proof.
  intros R Ha O. apply reachable_inv in R. rename R into I. unfold d_call_derivative.
  destruct (pick_spec (concat (map (fun k => dep s (dof_of s k)) (uniq_of s a))) h d [] O) as (h1 & z & E & S & N & L & K).
  { constructor. } { cbn. discriminate. }
  rewrite E. cbn [new_dict]. destruct S as (A & B & C & D & (E1 & E2 & E3) & F).
  assert (Hd : d <> ndict h1) by lia.
  eexists; eexists. split; [reflexivity|]. split; [lia|].
  unfold ok, sem. cbn. rewrite fup_same, fup_other by auto.
  assert (IZ : forall k b, In (k, b) z -> In (k, b) (dict h1 d)).
  { intros k b H. apply lookup_In, L, In_lookup; auto. }
  assert (KU : forall k, (In k (concat (map (fun k => dep s (dof_of s k)) (uniq_of s a))) /\ 0 < size k) <-> k < nobj s /\ uses s a (dof_of s k) /\ 0 < size k).
  { intros k. rewrite in_concat. split.
    - intros ((l & H1 & H2) & P). apply in_map_iff in H1. destruct H1 as (o & <- & Ho).
      assert (Ho' := uniq_lt s a o I Ha Ho). apply (inv_dep s I _ (gi_dof s (inv_g s I) o Ho')) in H2. destruct H2 as [H2 H3]. split; auto. split; auto.
      apply uniq_uses; auto. rewrite H3. now apply in_map.
    - intros (Hk & U & P). split; auto. apply (uniq_uses s a _ I Ha) in U. apply in_map_iff in U. destruct U as (o & H1 & H2).
      exists (dep s (dof_of s o)). split; [apply in_map_iff; eauto|]. assert (Ho' := uniq_lt s a o I Ha H2).
      apply (inv_dep s I _ (gi_dof s (inv_g s I) o Ho')). auto. }
  split; [|split; [|split; [|split; [|split]]]].
  - split; [lia|]. split; auto. cbn. intros k b H. apply E3. auto.
  - split; [lia|]. split; auto.
  - intros k. apply F.
  - intros k. rewrite <- lookup_fst, K, KU. cbn. split; [intros [(x & H)|]; [discriminate|auto]|auto].
  - intros k Hk U. unfold asem. cbn. destruct (lookup k z) as [b|] eqn:Ek.
    + apply L in Ek. specialize (F k). unfold sem, asem in F. rewrite Ek in F. exact F.
    + destruct (Nat.eq_dec (size k) 0) as [Z|Z].
      * change (zeros (size k) = sem size h d k). assert (LL : length (sem size h d k) = 0) by (unfold sem; rewrite (asem_length size) by apply O; exact Z).
        apply length_zero_iff_nil in LL. now rewrite LL, Z.
      * exfalso. assert (X : exists b, lookup k z = Some b) by (apply K; right; apply KU; repeat split; auto; lia). destruct X; congruence.
  - auto.
Qed.
End Grad.

(** C23, tying the gradient to the x setter: for the linear functional with the given partials, the
    change caused by [obj.x = v] is the dot product of the gradient with [v - x] *)
Section Pairing.
Lemma group_sum (D : nat -> nat) (f : nat -> R) l : NoDup l -> forall L,
  (forall q, In q L -> ~ In (D q) l -> f q = 0%R) ->
  rsuml (map f L) = rsuml (map (fun d => rsuml (map f (filter (fun q => D q =? d) L))) l).
Proof.
  intros N. induction L as [|q L IH]; intros H.
  - cbn. symmetry. now apply rsuml_map_zero.
  - cbn [map rsuml]. rewrite IH by (intros; apply H; [now right|auto]).
    assert (G : forall l, NoDup l -> rsuml (map (fun d => rsuml (map f (filter (fun q => D q =? d) (q :: L)))) l) =
                ((if in_dec Nat.eq_dec (D q) l then f q else 0) + rsuml (map (fun d => rsuml (map f (filter (fun q => D q =? d) L))) l))%R).
    { clear - f. induction l as [|d l IHl]; intros N; cbn [map rsuml]. { cbn. ring. }
      inversion_clear N as [|? ? N1 N2]. rewrite (IHl N2). cbn [filter].
      destruct (Nat.eqb_spec (D q) d) as [E|E].
      - subst d. cbn [map rsuml]. destruct (in_dec _ (D q) l); [tauto|]. destruct (in_dec _ (D q) (D q :: l)) as [X|X]; [ring|]. exfalso; apply X; now left.
      - destruct (in_dec _ (D q) l) as [X|X], (in_dec _ (D q) (d :: l)) as [Y|Y]; try ring.
        + exfalso; apply Y; now right. + exfalso. destruct Y; auto. }
    rewrite (G l N). destruct (in_dec _ (D q) l) as [X|X]; [reflexivity|]. now rewrite (H q (or_introl eq_refl) X).
Qed.

Lemma dot_vsub_r u : forall v w, length v = length w -> dot u (vsub v w) = (dot u v - dot u w)%R.
Proof.
  unfold dot, vsub. induction u as [|a u IH]; intros [|b v] [|c w] H; cbn in *; try discriminate; try ring.
  rewrite IH by lia. ring.
Qed.
Lemma gather_vsub m : forall u v, length u = length m -> length v = length m ->
  gather m (vsub u v) = vsub (gather m u) (gather m v).
Proof.
  unfold vsub. induction m as [|b m IH]; intros [|x u] [|y v] H1 H2; cbn in *; try discriminate; auto.
  destruct b; cbn; rewrite IH; auto.
Qed.

Theorem C23_gradient_pairs_with_x (s : @st R) h d a v ord fuel : reachable s -> a < nobj s -> ok (size_of s) h d ->
  any_order ord -> nobj s < fuel -> length v = dof_size s a ->
  (exists D, uses s a D /\ exists i, In i (free_positions (cel s D))) ->
  exists h' g s', d_call s h d a = (h', inl g) /\ set_x ord fuel s a v = Some (s', None) /\
  let value t := rsuml (map (fun q => dot (sem (size_of s) h d q) (d_x (cel t (dof_of t q)))) (seq 0 (nobj t))) in
  (value s' - value s)%R = dot g (vsub v (get_x s a)).
Proof.
  intros R Ha O Hord Hf Hv F.
  destruct (C11_set_x ord fuel Hord s a v R Ha Hv Hf) as (s' & E' & X' & G' & Out & In').
  apply reachable_inv in R. rename R into I.
  destruct (call_spec s h d a I Ha O F) as (h' & E & _).
  exists h', (concat (map (block s h d) (uniq_of s a))), s'. split; auto. split; auto.
  intros value. unfold value. assert (G := G'). destruct G as (G1 & G2 & G3 & G4 & G5 & G6 & G7 & G8 & G9 & G10 & G11 & G12).
  rewrite G1, G4, <- rsuml_map_minus.
  assert (W : forall o, o < nobj s -> wf (cel s (dof_of s o)) /\ wf (cel s' (dof_of s o))).
  { intros o Ho. assert (HD := gi_dof s (inv_g s I) o Ho). split; [now apply cell_wf|auto]. }
  assert (LX : forall o, o < nobj s -> length (d_x (cel s' (dof_of s o))) = length (d_x (cel s (dof_of s o)))).
  { intros o Ho. destruct (W o Ho) as ((W1 & _) & (W2 & _)). rewrite <- W1, <- W2, G11. reflexivity. }
  rewrite (map_ext_in _ (fun q => dot (sem (size_of s) h d q) (vsub (d_x (cel s' (dof_of s q))) (d_x (cel s (dof_of s q)))))).
  2:{ intros q Hq. apply in_seq in Hq. rewrite dot_vsub_r; auto. apply LX. lia. }
  rewrite (group_sum (dof_of s) _ (map (dof_of s) (uniq_of s a)) (uniq_nd s a I Ha)).
  2:{ intros q Hq NU. rewrite Out. - rewrite vsub_diag. apply dot_zeros_r. - intros U. apply NU. now apply uniq_uses. }
  rewrite map_map. rewrite <- X'. unfold get_x. assert (UQ : uniq_of s' a = uniq_of s a) by (unfold uniq_of; now rewrite G8).
  rewrite UQ, G4.
  assert (Hu : forall o, In o (uniq_of s a) -> o < nobj s) by (intros o Ho; eapply uniq_lt; eauto).
  clear - I O Hu W LX G11 In' G'.
  induction (uniq_of s a) as [|o us IH]; [reflexivity|].
  cbn [map rsuml concat].
  assert (Ho : o < nobj s) by (apply Hu; now left). set (D := dof_of s o).
  assert (HD : D < ncell s) by now apply (gi_dof s (inv_g s I)).
  destruct (W o Ho) as ((W1 & _) & (W2 & _)). fold D in W1, W2.
  assert (L1 : length (free_x (cel s' D)) = length (block s h d o)).
  { rewrite block_length by auto. fold D. rewrite free_x_len by (apply W; auto). apply reduced_len_free. apply G11. }
  assert (L2 : length (free_x (cel s D)) = length (block s h d o)).
  { rewrite block_length by auto. apply free_x_len. apply W; auto. }
  assert (VS : vsub (free_x (cel s' D) ++ concat (map (fun o => free_x (cel s' (dof_of s o))) us)) (free_x (cel s D) ++ concat (map (fun o => free_x (cel s (dof_of s o))) us)) =
     vsub (free_x (cel s' D)) (free_x (cel s D)) ++ vsub (concat (map (fun o => free_x (cel s' (dof_of s o))) us)) (concat (map (fun o => free_x (cel s (dof_of s o))) us))).
  { assert (LL : length (free_x (cel s' D)) = length (free_x (cel s D))) by lia. revert LL. generalize (free_x (cel s' D)), (free_x (cel s D)). unfold vsub.
    induction l as [|x l IHl]; intros [|y l'] LL; cbn in *; try discriminate; auto. now rewrite IHl by lia. }
  rewrite VS, dot_app by (unfold vsub; rewrite vmap2_length; lia).
  rewrite IH by (intros; apply Hu; now right). f_equal.
  (* one block *)
  set (w := vsub (d_x (cel s' D)) (d_x (cel s D))).
  transitivity (dot (total_partial s h d D) w).
  - unfold total_partial. rewrite vsum_dot by (now apply sem_users_length). rewrite map_map. unfold users. f_equal. apply map_ext_in.
    intros q Hq. apply filter_In in Hq. destruct Hq as [_ Hq]. apply Nat.eqb_eq in Hq. rewrite Hq. reflexivity.
  - unfold block. fold D. assert (Lw : length w = length (d_free (cel s D))).
    { unfold w, vsub. rewrite vmap2_length. unfold D. rewrite LX by auto. fold D. rewrite <- W1. lia. }
    assert (Lt : length (total_partial s h d D) = length (d_free (cel s D))).
    { unfold total_partial. rewrite vsum_length; [reflexivity|now apply sem_users_length]. }
    rewrite (dot_gather (d_free (cel s D)) _ w Lt Lw).
    + f_equal. unfold w. rewrite gather_vsub. * unfold free_x. now rewrite G11. * unfold D. rewrite LX by auto. auto. * auto.
    + intros i Hi. unfold w, vsub. rewrite vmap2_nth_error. destruct (In' D HD) as [_ K]. rewrite K.
      * destruct (nth_error (d_x (cel s D)) i) eqn:Q; [f_equal; ring|]. exfalso. apply nth_error_None in Q.
        assert (i < length (d_free (cel s D))) by (apply nth_error_Some; congruence). lia.
      * unfold free_positions. rewrite filter_In. intros [_ T]. now rewrite Hi in T.
Qed.
End Pairing.
