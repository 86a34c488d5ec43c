(** Exact behaviour of the dependency graph where the natural expectation fails:
    C12 (vectors of the wrong length), C16 (a parent listed twice), C17 (full bounds),
    C19 (names), C47 (replace_dofs). *)
From Coq Require Import Sorting.Sorted.
From Verif Require Import ListAux DofsModel DofsSpec DofsProofs GraphModel GraphTrace GraphLists GraphInv GraphSpec
  GraphPres GraphPres2 GraphPres3 GraphFacts GraphFacts2 GraphStatus GraphCache GraphTable GraphExec GraphProps.
From Coq Require String.
From Verif Require MakeOptModel.

(** ---------------------------------------------------------------- C12, C16, C17, C47 *)
Section G.
Context {V : Type}.
Notation st := (@st V).
Implicit Types s : st.
Variables (ord : list nat -> list nat) (fuel : nat).
Hypothesis Hord : any_order ord.

Lemma blocks_bound sizes : forall n i j, In (i, j) (blocks n sizes) -> n <= i <= j /\ j <= n + list_sum sizes.
Proof.
  induction sizes as [|k l IH]; intros n i j H; [destruct H|]. cbn [blocks In] in H.
  change (list_sum (k :: l)) with (k + list_sum l). destruct H as [H|H].
  - inversion H; subst. lia.
  - apply IH in H. lia.
Qed.
Lemma nd_left {A} (l r : list A) : NoDup (l ++ r) -> NoDup l.
Proof. induction l as [|x l IH]; cbn; intros H; [constructor|]. inversion H; subst. constructor; [intros Hx; apply H2; apply in_or_app; auto|auto]. Qed.
Lemma nd_app {A} (l r : list A) : NoDup l -> NoDup r -> (forall x, In x l -> ~ In x r) -> NoDup (l ++ r).
Proof.
  induction l as [|x l IH]; cbn; intros H1 H2 H3; [auto|]. inversion H1; subst. constructor.
  - rewrite in_app_iff. intros [H|H]; [auto|]. apply (H3 x); auto.
  - apply IH; auto.
Qed.
Lemma slice_firstn {A} i j n (v : list A) : j <= n -> slice i j (firstn n v) = slice i j v.
Proof.
  intros H. unfold slice. rewrite skipn_firstn_comm, firstn_firstn. f_equal. lia.
Qed.
(** a too long vector: the call does exactly what it does with the tail cut off, without any error *)
Theorem C12_too_long : forall s a v, reachable s -> a < nobj s -> full_dof_size s a <= length v ->
  set_gfull_x ord fuel s a v = set_gfull_x ord fuel s a (firstn (full_dof_size s a) v).
Proof using.
  intros s a v R Ha Hv. apply reachable_inv in R. unfold set_gfull_x.
  assert (B : forall e, In e (f_idx (full s a)) -> snd (snd e) <= full_dof_size s a).
  { intros [o [i j]] He. rewrite f_idx_eq in He by auto. apply in_combine_r in He. apply blocks_bound in He.
    rewrite full_size_eq by auto. cbn. lia. }
  revert B. generalize (Some (s, @None err)) as r. induction (f_idx (full s a)) as [|e l IH]; intros r B; [reflexivity|].
  cbn [fold_left]. rewrite (slice_firstn _ _ (full_dof_size s a) v) by (apply B; now left). apply IH. intros; apply B; now right.
Qed.

Lemma fold_error {A} (g : A -> st -> @outcome V) l (s0 : st) e : fold_left (fun r x => bindr r (g x)) l (Some (s0, Some e)) = Some (s0, Some e).
Proof using. induction l; cbn; auto. Qed.
Lemma split_blocks : forall (us : list nat) (sz : nat -> nat) n k, n <= k < n + list_sum (map sz us) ->
  exists us1 u us2, us = us1 ++ u :: us2 /\
    n + list_sum (map sz us1) <= k < n + list_sum (map sz us1) + sz u /\
    combine us (blocks n (map sz us)) =
      combine us1 (blocks n (map sz us1)) ++ (u, (n + list_sum (map sz us1), n + list_sum (map sz us1) + sz u))
        :: combine us2 (blocks (n + list_sum (map sz us1) + sz u) (map sz us2)).
Proof.
  clear. induction us as [|x us IH]; intros sz n k H; cbn in H; [lia|].
  destruct (Nat.lt_ge_cases k (n + sz x)) as [Hk|Hk].
  - exists [], x, us. cbn. rewrite Nat.add_0_r. split; [auto|]. split; [lia|auto].
  - destruct (IH sz (n + sz x) k ltac:(fold (list_sum (map sz us)) in H; lia)) as (us1 & u & us2 & -> & H1 & E).
    exists (x :: us1), u, us2. split; [auto|]. cbn [map list_sum fold_right]. fold (list_sum (map sz us1)).
    split; [lia|]. cbn [map blocks combine app]. rewrite E. cbn [app]. now rewrite !Nat.add_assoc.
Qed.

(** a too short vector: the blocks before the one in which it ends are assigned, the others keep their values, and
    DofLengthMismatchError(remaining length, block length) is raised *)
Theorem C12_too_short : forall s a v, reachable s -> a < nobj s -> length v < full_dof_size s a -> nobj s < fuel ->
  exists s' o i j, In (o, (i, j)) (f_idx (full s a)) /\ i <= length v < j /\
    set_gfull_x ord fuel s a v = Some (s', Some (ELenMismatch (length v - i) (j - i))) /\
    get_full_x s' a = firstn i v ++ skipn i (get_full_x s a) /\
    (forall D, ~ uses s a D -> cel s' D = cel s D) /\
    (forall D, D < ncell s -> same_but_x (cel s D) (cel s' D)).
Proof using Hord.
  intros s a v R Ha Hv Hk. assert (I := R). apply reachable_inv in I.
  destruct (gstep_returns ord fuel Hord s (GSetFullX a v) I Ha Logic.I Hk) as (s' & e & E). cbn [gstep] in E.
  pose proof E as E0. unfold set_gfull_x in E. rewrite f_idx_eq in E by auto. rewrite full_size_eq in Hv by auto.
  set (sz := fun o => dofs_len (cel s (dof_of s o))) in *.
  destruct (split_blocks (uniq_of s a) sz 0 (length v) ltac:(lia)) as (us1 & u & us2 & Eu & Hb & Ec). cbn [Nat.add] in *.
  set (i := list_sum (map sz us1)) in *. rewrite Ec in E. rewrite fold_left_app in E.
  match type of E with fold_left ?f _ (fold_left ?f ?l ?r) = _ => destruct (fold_left f l r) as [[s1 e1]|] eqn:E1 end.
  2:{ exfalso. revert E. clear. generalize ((u, (i, i + sz u)) :: combine us2 (blocks (i + sz u) (map sz us2))). intros l.
      assert (K : fold_left (fun (r : @outcome V) (e : nat * (nat * nat)) => bindr r (fun s' => set_local_full_x ord fuel s' (fst e) (slice (fst (snd e)) (snd (snd e)) v))) l None = None)
        by (induction l; cbn; auto). rewrite K. discriminate. }
  assert (Nd := uniq_nd s a I Ha). rewrite Eu in Nd. rewrite map_app in Nd. cbn [map] in Nd.
  assert (Lt : forall o, In o (us1 ++ u :: us2) -> o < nobj s) by (intros o Ho; rewrite <- Eu in Ho; eapply uniq_lt; eauto).
  assert (Nd1 : NoDup (map (dof_of s) us1)) by (eapply nd_left; exact Nd).
  eapply (block_fold (set_local_full_x ord fuel) dofs_len full_x same_but_x true) in E1; auto.
  2:{ intros d d'. apply dofs_len_free. }
  2:{ intros s0 o v0 s0' e0 I0 Ho Hv0 Hw. exact (local_full_x_spec ord fuel Hord s0 o v0 s0' e0 I0 Ho Hv0 Hw). }
  2:{ intros o Ho. apply Lt. apply in_or_app. auto. }
  2:{ cbn. fold sz. fold i. lia. }
  destruct E1 as (-> & SG & Hoth & Hcon & HR & _). cbn [Nat.add] in Hcon. change (list_sum (map (fun o => dofs_len (cel s (dof_of s o))) us1)) with i in Hcon.
  assert (SG0 := SG). destruct SG0 as (F1 & F2 & F3 & F4 & F5 & F6 & F7 & F8 & F9 & F10 & F11 & F12).
  assert (Nu : forall o, In o (u :: us2) -> ~ In (dof_of s o) (map (dof_of s) us1)).
  { intros o Ho Hin. apply (in_map (dof_of s)) in Ho. cbn [map] in Ho. revert Nd Hin Ho. clear. induction (map (dof_of s) us1) as [|x l IH]; cbn; intros Nd Hin Ho; [destruct Hin|destruct Hin as [->|Hin]].
    - inversion Nd; subst. apply H1. apply in_or_app. right. exact Ho.
    - inversion Nd; subst. auto. }
  cbn [fold_left bindr fst snd] in E.
  assert (Ls : length (slice i (i + sz u) v) = length v - i).
  { unfold slice. rewrite firstn_length, skipn_length. lia. }
  assert (Wu : wf (cel s (dof_of s u))) by (apply cell_wf; auto; apply Lt; apply in_or_app; right; now left).
  assert (Eu1 : set_local_full_x ord fuel s1 u (slice i (i + sz u) v) =
     Some (set_cel s1 (fup (cel s1) (dof_of s u) (cel s1 (dof_of s u))), Some (ELenMismatch (length v - i) (sz u)))).
  { unfold set_local_full_x. rewrite F4. unfold set_full_x. rewrite Ls. rewrite Hoth by (apply Nu; now left).
    assert (Lx : length (d_x (cel s (dof_of s u))) = sz u) by (unfold sz, dofs_len; symmetry; apply Wu). rewrite Lx.
    destruct (Nat.eqb_spec (sz u) (length v - i)); [lia|]. reflexivity. }
  rewrite Eu1 in E.
  assert (Ef : Some (s', e) = Some (set_cel s1 (fup (cel s1) (dof_of s u) (cel s1 (dof_of s u))), Some (ELenMismatch (length v - i) (sz u)))).
  { rewrite <- E. apply (fold_error (fun (x : nat * (nat * nat)) s' => set_local_full_x ord fuel s' (fst x) (slice (fst (snd x)) (snd (snd x)) v))). }
  injection Ef as -> ->.
  assert (Hc : forall D, cel (set_cel s1 (fup (cel s1) (dof_of s u) (cel s1 (dof_of s u)))) D = cel s1 D).
  { intros D. cbn. unfold fup. destruct (Nat.eqb_spec D (dof_of s u)) as [->|]; reflexivity. }
  eexists _, u, i, (i + sz u). split.
  { rewrite f_idx_eq by auto. fold sz. rewrite Ec. apply in_elt. }
  split; [lia|]. split; [replace (i + sz u - i) with (sz u) by lia; exact E0|]. split; [|split].
  - assert (G1 : get_full_x (set_cel s1 (fup (cel s1) (dof_of s u) (cel s1 (dof_of s u)))) a =
                 concat (map (fun o => full_x (cel s1 (dof_of s o))) (us1 ++ u :: us2))).
    { unfold get_full_x. f_equal. rewrite <- Eu. unfold uniq_of. cbn [full set_cel dof_of]. rewrite F8, F4. apply map_ext. intros o. now rewrite Hc. }
    rewrite G1. unfold get_full_x. rewrite Eu, !map_app, !concat_app. rewrite Hcon.
    assert (L1 : length (concat (map (fun o => full_x (cel s (dof_of s o))) us1)) = i).
    { rewrite length_concat_map. unfold i. f_equal. apply map_ext_in. intros o Ho. unfold full_x, sz, dofs_len. symmetry.
      apply (cell_wf s o I). apply Lt. apply in_or_app. auto. }
    rewrite skipn_app, L1, skipn_all2 by lia. rewrite Nat.sub_diag. cbn [app skipn]. unfold slice. rewrite Nat.sub_0_r. cbn [skipn]. f_equal.
    f_equal. apply map_ext_in. intros o Ho. rewrite Hoth; auto.
  - intros D HD. rewrite Hc. apply Hoth. intros Hin. apply HD. apply (uniq_uses s a D I Ha). rewrite Eu, map_app. apply in_or_app. auto.
  - intros D HD. rewrite Hc. destruct (in_dec Nat.eq_dec D (map (dof_of s) us1)) as [Hin|Hin].
    + apply in_map_iff in Hin. destruct Hin as (o & <- & Ho). apply (HR o Ho).
    + rewrite Hoth by auto. unfold same_but_x; auto.
Qed.

(** ---- C16 *)
Lemma refresh_shape s a s' e : refresh ord fuel s a = Some (s', e) -> exists f r n, e = None /\ s' = set_newx (set_fre (set_full s f) r) n.
Proof using.
  intros H. unfold refresh in H. destruct (update_full ord fuel s a) as [t1|] eqn:E1; [|discriminate].
  unfold update_full in E1. rewrite visit_trace in E1 by reflexivity.
  destruct (trace ord (chi s) fuel a) as [tr|]; [|discriminate]. injection E1 as <-. cbn [bindo] in H.
  destruct (update_free ord fuel _ a) as [t2|] eqn:E2; [|discriminate].
  unfold update_free in E2. rewrite visit_trace in E2 by reflexivity.
  destruct (trace ord _ fuel a) as [tr2|]; [|discriminate]. injection E2 as <-. cbn [bindo] in H.
  destruct (set_flag ord fuel _ a) as [t3|] eqn:E3; [|discriminate].
  unfold set_flag in E3. rewrite visit_trace in E3 by reflexivity.
  destruct (trace ord _ fuel a) as [tr3|]; [|discriminate]. injection E3 as <-. cbn in H. injection H as <- <-.
  rewrite fold_full, fold_free, fold_flag. do 3 eexists. split; reflexivity.
Qed.
(** popping one occurrence of a parent removes that entry of the parent list and the only child link of that parent,
    whether or not the parent is still listed *)
Theorem C16_pop_drops_the_link : forall s a i l1 p l2 s',
  par s a = l1 ++ p :: l2 -> i = Z.of_nat (length l1) -> pop_parent ord fuel s a i = Some (s', None) ->
  par s' a = l1 ++ l2 /\ (forall b, b <> a -> par s' b = par s b) /\
  (forall b, In b (chi s' p) <-> In b (chi s p) /\ nm s b <> nm s a) /\ (forall q, q <> p -> chi s' q = chi s q).
Proof using.
  intros s a i l1 p l2 s' El -> H. unfold pop_parent in H.
  assert (Hpop : py_pop (Z.of_nat (length l1)) (par s a) = Some (p, l1 ++ l2)).
  { unfold py_pop. cbv zeta. rewrite El, app_length. cbn [length]. destruct (Z.ltb_spec (Z.of_nat (length l1)) 0); [lia|].
    destruct (Z.leb_spec 0 (Z.of_nat (length l1))); [|lia].
    destruct (Z.ltb_spec (Z.of_nat (length l1)) (Z.of_nat (length l1 + S (length l2)))); [|lia]. cbn [andb].
    rewrite Nat2Z.id. rewrite nth_error_app2, Nat.sub_diag by lia. cbn [nth_error]. now rewrite drop_nth. }
  rewrite Hpop in H. unfold drop_child_and_refresh, remove_child in H.
  destruct (memn _ _ _) eqn:M; [|discriminate]. apply refresh_shape in H. destruct H as (f & r & n & _ & ->). cbn.
  rewrite !fup_same. split; [auto|]. split; [intros; now apply fup_other|]. split.
  - intros b. rewrite filter_In. cbn. split; intros [H1 H2]; split; auto.
    + apply negb_true_iff, Nat.eqb_neq in H2. auto.
    + apply negb_true_iff, Nat.eqb_neq. auto.
  - intros q Hq. now apply fup_other.
Qed.
(** and an object is notified of a change of values exactly along child links, starting from the objects registered
    with the DOFs; so after the pop above a change of p no longer reaches a unless another path of links does *)
Theorem C16_notified_along_child_links : forall s p v s',
  set_local_full_x ord fuel s p v = Some (s', None) ->
  forall b, newx s' b = true <-> newx s b = true \/ exists o, In o (dep s (dof_of s p)) /\ desc s o b.
Proof using Hord.
  intros s p v s' H b. unfold set_local_full_x in H. destruct (set_full_x _ _) as [d [e|]]; [discriminate|]. cbn [cell_write] in H.
  apply flag_recompute_spec in H; auto. destruct H as (_ & _ & H & _). rewrite H. cbn. unfold desc. cbn. reflexivity.
Qed.

(** ---- C17 *)
(** the setter of the full lower bounds never stores anything: ValueError unless the length is the number of FREE
    dofs, AttributeError otherwise *)
Theorem C17_full_lower_bounds_always_raise : forall s a v, reachable s -> a < nobj s ->
  exists s' e, set_gfull_lower s a v = Some (s', Some e) /\
    e = (if length v =? dof_size s a then EAttribute else EValue) /\
    (forall D, cel s' D = cel s D) /\ par s' = par s /\ chi s' = chi s /\ newx s' = newx s /\ full s' = full s /\
    fre s' = fre s /\ ext s' = ext s /\ dof_of s' = dof_of s.
Proof using.
  intros s a v R Ha. apply reachable_inv in R. unfold set_gfull_lower. rewrite last_end_eq by auto. rewrite Nat.eqb_sym.
  destruct (Nat.eqb_spec (length v) (dof_size s a)); cbn [negb].
  2:{ exists s, EValue. auto 12. }
  assert (N := uniq_ne s a R Ha). destruct (r_table s a R Ha) as [E _].
  destruct (r_idx (fre s a)) as [|x l]; [cbn in E; congruence|]. cbn [fold_left bindr].
  unfold set_full_lb. cbn [cell_write].
  match goal with |- exists s' e, fold_left _ _ (Some (?S, Some ?x)) = _ /\ _ => exists S; exists x end.
  split; [clear; induction l; cbn [fold_left bindr]; auto|]. split; [auto|]. split; [|cbn; auto 12].
  intros D. cbn. unfold fup. destruct (Nat.eqb_spec D (dof_of s (fst x))) as [->|]; reflexivity.
Qed.

(** ---- C47 *)
(** replace_dofs never touches the external copies: after it the copy of [a] is right exactly when it happened to hold
    the values of the new DOFs already, and the copies of all other objects are as right as before *)
Theorem C47_replace_dofs : forall s a D s' e, replace_dofs ord fuel s a D = Some (s', e) ->
  e = None /\ (forall o, ext s' o = ext s o) /\ (forall D', cel s' D' = cel s D') /\ dof_of s' a = D /\
  (forall o, o <> a -> dof_of s' o = dof_of s o) /\
  (ext s' a = d_x (cel s' (dof_of s' a)) <-> ext s a = d_x (cel s D)).
Proof using.
  intros s a D s' e H. unfold replace_dofs in H. set (s2 := set_dof_of _ _) in H.
  destruct (refresh ord fuel s2 a) as [[s3 e3]|] eqn:E; [|discriminate]. apply refresh_shape in E.
  destruct E as (f & r & n & -> & ->). cbn [bindr] in H. inversion H; subst. clear H.
  assert (A : forall s0 : st, (forall o, ext (add_opt s0 D a) o = ext s0 o) /\ cel (add_opt s0 D a) = cel s0 /\ dof_of (add_opt s0 D a) = dof_of s0).
  { intros s0. unfold add_opt. destruct (memn _ _ _); auto. }
  assert (B : (forall o, ext (remove_opt s (dof_of s a) a) o = ext s o) /\ cel (remove_opt s (dof_of s a) a) = cel s /\ dof_of (remove_opt s (dof_of s a) a) = dof_of s).
  { unfold remove_opt. destruct (find_index _ _); auto. }
  destruct B as (B1 & B2 & B3).
  match goal with |- context [add_opt ?t D a] => set (t0 := t) in * end.
  assert (T1 : forall o, ext t0 o = ext s o) by exact B1.
  assert (T2 : cel t0 = cel s) by exact B2.
  assert (T3 : dof_of t0 = fup (dof_of s) a D) by (rewrite <- B3; reflexivity).
  destruct (A t0) as (A1 & A2 & A3). clearbody t0.
  split; [auto|]. rewrite A2, A3, T2, T3, fup_same.
  split; [intros o; rewrite A1; apply T1|]. split; [auto|]. split; [auto|].
  split; [intros; now apply fup_other|]. rewrite A1, T1. reflexivity.
Qed.
(** the next assignment of values through any object using that DOFs repairs it, whatever the history *)
Theorem C47_repaired_by_assignment : forall s a v s', reachable s -> a < nobj s ->
  set_local_full_x ord fuel s a v = Some (s', None) ->
  forall o, o < nobj s -> dof_of s o = dof_of s a -> setter s o = true -> ext s' o = d_x (cel s' (dof_of s' o)).
Proof using Hord.
  intros s a v s' R Ha H o Ho Hd Hs. apply reachable_inv in R. unfold set_local_full_x in H.
  destruct (set_full_x _ _) as [d [e|]]; [discriminate|]. cbn [cell_write] in H.
  apply flag_recompute_spec in H; auto. destruct H as (_ & Es & _ & H). rewrite H.
  assert (E1 : cel s' = fup (cel s) (dof_of s a) d) by (rewrite Es; reflexivity).
  assert (E2 : dof_of s' = dof_of s) by (rewrite Es; reflexivity). rewrite E1, E2. cbn [dep setter set_cel cel].
  assert (In o (dep s (dof_of s a))).
  { apply (inv_dep s R). - now apply (gi_dof s (inv_g s R)). - auto. }
  rewrite (proj2 (existsb_eqb_In _ _)) by auto. rewrite Hs. cbn [andb]. rewrite Hd, fup_same. reflexivity.
Qed.

(** ---- C19: objects with equal names *)
Lemma memn_in s l a : memn s l a = true <-> In (nm s a) (map (nm s) l).
Proof using.
  unfold memn. rewrite existsb_exists, in_map_iff. split; intros (x & H1 & H2); exists x; rewrite Nat.eqb_eq in *; auto.
Qed.
Lemma dedup_acc_nodup s l : forall acc, NoDup (map (nm s) acc) -> NoDup (map (nm s) (dedup_acc s acc l)).
Proof using.
  induction l as [|x l IH]; intros acc H; cbn; [auto|]. apply IH. destruct (memn s acc x) eqn:E; [auto|].
  rewrite map_app. cbn. apply nd_app; auto.
  - constructor; [intros []|constructor].
  - intros y Hy [<-|[]]. apply memn_in in Hy. congruence.
Qed.
Lemma insert_perm s a l : Permutation (insert_name s a l) (a :: l).
Proof using. induction l as [|b l IH]; cbn; [auto|]. destruct (_ <=? _); auto. rewrite IH. apply perm_swap. Qed.
Lemma sort_perm s l : Permutation (sort_name s l) l.
Proof using. induction l as [|b l IH]; cbn; [auto|]. rewrite insert_perm. now constructor. Qed.
(** in every state, whatever the parents, the ancestors computed for an object have pairwise different names: of several
    ancestors with one name only one is kept, and the others' dofs do not appear *)
Theorem C19_one_ancestor_per_name : forall s a, NoDup (map (nm s) (get_ancestors s a)).
Proof using.
  intros s a. unfold get_ancestors. eapply Permutation_NoDup; [apply Permutation_sym, Permutation_map, sort_perm|].
  apply dedup_acc_nodup. constructor.
Qed.
Theorem C19_full_vector_of_same_named_parents : forall s a n, (forall p, In p (par s a) -> nm s p = n) ->
  (forall p, In p (par s a) -> f_anc (full s p) = []) -> par s a <> [] ->
  exists p, In p (par s a) /\ f_anc (full (full_local s a) a) = [p].
Proof using.
  intros s a n Hn Hf Hne. cbn. rewrite fup_same. cbn [f_anc].
  assert (N := C19_one_ancestor_per_name s a).
  assert (Hin : forall x, In x (get_ancestors s a) -> In x (par s a)).
  { intros x Hx. unfold get_ancestors in Hx. apply (Permutation_in _ (sort_perm s _)) in Hx.
    assert (K : forall l acc, In x (dedup_acc s acc l) -> In x acc \/ In x l).
    { clear. induction l as [|y l IH]; intros acc H; cbn in *; [auto|]. apply IH in H. destruct H as [H|H]; auto.
      destruct (memn s acc y); auto. apply in_app_or in H. cbn in H. tauto. }
    apply K in Hx. destruct Hx as [[]|Hx]. apply in_app_or in Hx. destruct Hx as [Hx|Hx]; [|auto].
    apply in_concat in Hx. destruct Hx as (l & Hl & Hx). apply in_map_iff in Hl. destruct Hl as (p & <- & Hp). rewrite Hf in Hx by auto. destruct Hx. }
  assert (Hex : get_ancestors s a <> []).
  { unfold get_ancestors. intros E. assert (P := sort_perm s (dedup s (concat (map (fun p => f_anc (full s p)) (par s a)) ++ par s a))).
    rewrite E in P. apply Permutation_nil in P. revert P. unfold dedup.
    assert (K : forall l acc, dedup_acc s acc l = [] -> acc = [] /\ l = []).
    { clear. induction l as [|y l IH]; intros acc H; cbn in *; [auto|]. apply IH in H. destruct H as [H _].
      destruct (memn s acc y) eqn:M.
      - subst. discriminate M.
      - destruct acc; discriminate. }
    intros P. apply K in P. destruct P as [_ P]. apply app_eq_nil in P. apply Hne. apply P. }
  destruct (get_ancestors s a) as [|p l]; [congruence|]. exists p. split; [apply Hin; now left|]. destruct l as [|q l]; [auto|]. exfalso.
  cbn in N. inversion N; subst. apply H1. left. rewrite !Hn; auto; apply Hin; cbn; auto.
Qed.
End G.

(** every call of make_optimizable defines its own class, so all the objects it ever returns have the same name *)
Theorem C19_all_names_equal : forall (cname : nat -> String.string) hist, NoDup hist ->
  forall i c, nth_error hist i = Some c -> nth_error (MakeOptModel.names_from cname [] hist) i = Some (MakeOptModel.obj_name (cname c) 1).
Proof.
  intros cname hist N i c H. rewrite (MakeOptModel.names_nth cname hist [] i c H). cbn [count_occ Nat.add]. do 3 f_equal.
  apply count_occ_not_In. intros Hin. apply nth_error_split in H. destruct H as (l1 & l2 & -> & <-).
  rewrite firstn_app, Nat.sub_diag, firstn_all in Hin. cbn [firstn] in Hin. rewrite app_nil_r in Hin.
  apply NoDup_remove_2 in N. apply N. apply in_or_app. auto.
Qed.

(** concrete cases: the history of GraphProps.v (object 3 has six full dofs in its lineage) *)
Example C12_exact_ex : reachable ex_st /\ 3 < nobj ex_st /\ full_dof_size ex_st 3 = 6 /\ length [1; 2; 3; 4]%Z < full_dof_size ex_st 3 /\
  full_dof_size ex_st 3 <= length [1; 2; 3; 4; 5; 6; 7; 8]%Z.
Proof. split; [exact ex_reachable|]. vm_compute. repeat split; repeat constructor. Qed.
Example C16_exact_ex : exists s1 s2, gstep (fun l => l) 10 ex_st (GNew 20 (inl (dz [0]%Z [true] [0])) false false [1; 1]) = Some (s1, None) /\
  par s1 4 = [] ++ 1 :: [1] /\ pop_parent (fun l => l) 10 s1 4 (Z.of_nat 0) = Some (s2, None) /\ In 1 (par s2 4) /\ ~ In 4 (chi s2 1).
Proof.
  do 2 eexists. split; [vm_compute; reflexivity|]. split; [vm_compute; reflexivity|]. split; [vm_compute; reflexivity|].
  split; [vm_compute; auto|]. vm_compute. intuition discriminate.
Qed.
Example C17_exact_ex : reachable ex_st /\ 3 < nobj ex_st /\ dof_size ex_st 3 <> full_dof_size ex_st 3.
Proof. split; [exact ex_reachable|]. vm_compute. split; [repeat constructor|discriminate]. Qed.
Example C47_exact_ex : exists s', replace_dofs (fun l => l) 10 ex_st 0 1 = Some (s', None) /\ setter s' 0 = true.
Proof. eexists. split; vm_compute; reflexivity. Qed.

From Coq Require Import String.
Local Open Scope nat_scope.
Example C19_exact_ex : NoDup [0; 1; 2] /\ MakeOptModel.names_from (fun _ => "TempOptimizable"%string) [] [0; 1; 2] =
  ["TempOptimizable1"; "TempOptimizable1"; "TempOptimizable1"]%string.
Proof. split; [repeat constructor; cbn; intuition discriminate|reflexivity]. Qed.

Print Assumptions C12_too_long.
Print Assumptions C12_too_short.
Print Assumptions C16_pop_drops_the_link.
Print Assumptions C16_notified_along_child_links.
Print Assumptions C17_full_lower_bounds_always_raise.
Print Assumptions C47_replace_dofs.
Print Assumptions C47_repaired_by_assignment.
Print Assumptions C19_one_ancestor_per_name.
Print Assumptions C19_full_vector_of_same_named_parents.
Print Assumptions C19_all_names_equal.
