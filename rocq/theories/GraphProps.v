(** Property theorems C09-C17 and C47 (the dependency graph of Optimizable).
    Vocabulary: [reachable] (GraphSpec.v) is any history of calls from the empty program, with any
    iteration order of the child sets; [Anc s o a] (GraphInv.v) is the transitive closure of the
    parent relation; [uses s a D] (GraphFacts.v): the lineage of [a] uses the DOFs instance D;
    [tiles n l m]: consecutive half open intervals covering [n,m). *)
From Coq Require Import Sorting.Sorted.
From Verif Require Import ListAux DofsModel DofsSpec DofsProofs GraphModel GraphTrace GraphLists GraphInv GraphSpec
  GraphPres GraphPres2 GraphPres3 GraphFacts GraphFacts2 GraphStatus GraphCache GraphTable GraphExec.

Section Statements.
Context {V : Type}.
Notation st := (@st V).
Implicit Types s : st.
Local Notation RI := reachable_inv.

(** C09 *)
Theorem C09_ancestors_are_the_closure s a : reachable s -> a < nobj s ->
  (forall o, In o (ancestors s a) <-> Anc s o a) /\ NoDup (ancestors s a) /\
  StronglySorted (fun x y => nm s x < nm s y) (ancestors s a) /\ ~ Anc s a a.
Proof.
  intros R Ha. apply RI in R. destruct (anc_char s (inv_g _ R) (inv_ac _ R) (inv_full _ R) a Ha) as (N & K & _).
  repeat split; auto; try apply K. - now apply ancestors_sorted. - apply anc_irrefl; auto; apply R.
Qed.

Section WithOrder.
Variables (ord : list nat -> list nat) (fuel : nat).
Hypothesis Hord : any_order ord.

(** add_parent of an object that would not create a cycle returns, inserts the parent at the place
    python's list.insert defines, touches no other parent list, and flags all dependents *)
Theorem C09_add_parent s a i p : reachable s -> a < nobj s -> p < nobj s -> p <> a -> ~ Anc s a p -> nobj s <= fuel ->
  exists s', add_parent ord fuel s a i p = Some (s', None) /\ (forall b, b <> a -> par s' b = par s b) /\
    ((In p (par s a) /\ s' = s) \/
     (~ In p (par s a) /\ (exists l1 l2, par s a = l1 ++ l2 /\ par s' a = l1 ++ p :: l2 /\
        (0 <= i -> length l1 = Nat.min (Z.to_nat i) (length (par s a)))%Z /\
        (i < 0 -> length l1 = Z.to_nat (Z.of_nat (length (par s a)) + i))%Z) /\
      cel s' = cel s /\ dof_of s' = dof_of s /\
      (forall b, b < nobj s -> b = a \/ Anc s' a b -> newx s' b = true))).
Proof.
  intros R Ha Hp Hn Hc Hk. apply RI in R.
  destruct (add_parent_returns ord fuel Hord s a i p R Ha Hp Hn Hc Hk) as (s' & E). exists s'. split; auto.
  destruct (add_parent_effect ord fuel Hord s a i p s' None R Ha Hp E) as (_ & H1 & H2). split; auto.
  destruct H2 as [H2|(H2 & H3 & H4)]; [now left|right]. split; auto. split; auto.
  rewrite H3. unfold py_insert. cbv zeta. set (n := Z.of_nat (length (par s a))).
  set (j := Z.to_nat _). exists (firstn j (par s a)), (skipn j (par s a)).
  rewrite firstn_skipn. repeat split; auto; intros Hi; rewrite firstn_length; subst j;
    destruct (Z.ltb_spec i 0); try lia.
Qed.

(** adding a parent that would close a cycle never returns, whatever the recursion limit *)
Theorem C09_cycle_never_returns s a i p : reachable s -> a < nobj s -> p < nobj s -> ~ In p (par s a) ->
  p = a \/ Anc s a p -> add_parent ord fuel s a i p = None.
Proof. intros R. apply RI in R. now apply add_parent_cycle. Qed.

Theorem C09_pop_parent s a i l1 p l2 : reachable s -> a < nobj s -> nobj s <= fuel ->
  par s a = l1 ++ p :: l2 ->
  (i = Z.of_nat (length l1) \/ i = Z.of_nat (length l1) - Z.of_nat (length (par s a)))%Z ->
  exists s', pop_parent ord fuel s a i = Some (s', None) /\ par s' a = l1 ++ l2 /\
    (forall b, b <> a -> par s' b = par s b) /\ cel s' = cel s /\ dof_of s' = dof_of s.
Proof. intros R. apply RI in R. now apply pop_parent_ok. Qed.

Theorem C09_pop_parent_out_of_range s a i :
  (i < - Z.of_nat (length (par s a)) \/ i >= Z.of_nat (length (par s a)))%Z ->
  pop_parent ord fuel s a i = Some (s, Some EIndex).
Proof. apply pop_parent_bad. Qed.

Theorem C09_remove_parent s a l1 p l2 : reachable s -> a < nobj s -> nobj s <= fuel ->
  par s a = l1 ++ p :: l2 ->
  exists s', remove_parent ord fuel s a p = Some (s', None) /\ par s' a = l1 ++ l2 /\
    (forall b, b <> a -> par s' b = par s b) /\ cel s' = cel s /\ dof_of s' = dof_of s.
Proof. intros R. apply RI in R. now apply remove_parent_ok. Qed.

Theorem C09_remove_parent_absent s a p : reachable s -> a < nobj s -> p < nobj s -> ~ In p (par s a) ->
  remove_parent ord fuel s a p = Some (s, Some EValue).
Proof. intros R. apply RI in R. now apply remove_parent_bad. Qed.

(** no call recurses forever unless it closes a cycle *)
Theorem C09_every_call_returns s o : reachable s -> valid_op s o ->
  match o with GAddParent a _ p | GAppendParent a p => p <> a /\ ~ Anc s a p | _ => True end ->
  nobj s < fuel -> exists s' e, gstep ord fuel s o = Some (s', e).
Proof. intros R. apply RI in R. now apply gstep_returns. Qed.

(** C10 *)
Theorem C10_sizes_count_each_dofs_once s a : reachable s -> a < nobj s ->
  let used := nodup Nat.eq_dec (map (dof_of s) (ancestors s a ++ [a])) in
  dof_size s a = list_sum (map (fun D => length (free_positions (cel s D))) used) /\
  full_dof_size s a = list_sum (map (fun D => length (d_x (cel s D))) used) /\
  length (get_x s a) = dof_size s a /\ length (get_lower s a) = dof_size s a /\
  length (get_upper s a) = dof_size s a /\ length (get_names s a) = dof_size s a /\
  length (get_full_x s a) = full_dof_size s a /\ length (get_status s a) = full_dof_size s a.
Proof.
  intros R Ha used. apply RI in R.
  assert (W : forall D, In D used -> wf (cel s D)).
  { intros D HD. unfold used in HD. rewrite nodup_In, in_map_iff in HD. destruct HD as (o & <- & Ho).
    apply cell_wf; auto. eapply lineage_lt; eauto. }
  destruct (lengths s a R Ha) as (L1 & L2 & L3 & L4 & L5 & L6). repeat split; auto.
  - rewrite dof_size_eq, (sizes_once s a reduced_len) by auto. f_equal. apply map_ext_in. intros D HD.
    now apply reduced_len_spec, W.
  - rewrite full_size_eq, (sizes_once s a dofs_len) by auto. f_equal. apply map_ext_in. intros D HD.
    unfold dofs_len. now destruct (W D HD) as (-> & _).
Qed.

Theorem C10_free_blocks s a : reachable s -> a < nobj s ->
  first_users s (ancestors s a ++ [a]) (map fst (r_idx (fre s a))) /\
  tiles 0 (map snd (r_idx (fre s a))) (dof_size s a) /\
  (forall o i j, In (o, (i, j)) (r_idx (fre s a)) ->
    slice i j (get_x s a) = free_x (cel s (dof_of s o)) /\
    slice i j (get_lower s a) = free_lb (cel s (dof_of s o)) /\
    slice i j (get_upper s a) = free_ub (cel s (dof_of s o)) /\
    slice i j (get_names s a) = map (fun n => (nm s o, n)) (free_names (cel s (dof_of s o)))).
Proof.
  intros R Ha. apply RI in R. destruct (r_table s a R Ha) as [-> T]. split; [|split]; auto.
  - now apply uniq_first. - intros o i j H. now apply r_slices.
Qed.

Theorem C10_full_blocks s a : reachable s -> a < nobj s ->
  first_users s (ancestors s a ++ [a]) (map fst (f_idx (full s a))) /\
  tiles 0 (map snd (f_idx (full s a))) (full_dof_size s a) /\
  (forall o i j, In (o, (i, j)) (f_idx (full s a)) ->
    slice i j (get_full_x s a) = d_x (cel s (dof_of s o)) /\
    slice i j (get_status s a) = d_free (cel s (dof_of s o))).
Proof.
  intros R Ha. apply RI in R. destruct (f_table s a R Ha) as [-> T]. split; [|split]; auto.
  - now apply uniq_first. - intros o i j H. now apply f_slices.
Qed.

(** C11 / C13: the call returns normally, [x] reads back [v], fixed dofs, status, bounds and names are
    unchanged everywhere, DOFs outside the lineage are unchanged, and exactly the objects depending on
    a DOFs used by the lineage of [a] are newly flagged *)
Theorem C11_set_x s a v : reachable s -> a < nobj s -> length v = dof_size s a -> nobj s < fuel ->
  exists s', set_x ord fuel s a v = Some (s', None) /\ get_x s' a = v /\
  same_graph s s' /\
  (forall D, ~ uses s a D -> cel s' D = cel s D) /\
  (forall D, D < ncell s -> same_but_x (cel s D) (cel s' D) /\
     forall i, ~ In i (free_positions (cel s D)) -> nth_error (d_x (cel s' D)) i = nth_error (d_x (cel s D)) i).
Proof.
  intros R Ha Hv Hk. apply RI in R.
  destruct (gstep_returns ord fuel Hord s (GSetX a v) R Ha Logic.I Hk) as (s' & e & E). cbn in E.
  destruct (set_x_effect ord fuel Hord s a v s' e R Ha Hv E) as (-> & H1 & H2 & H3 & H4 & _).
  exists s'. do 4 (split; [assumption|]). intros D HD. destruct (H4 D HD). auto.
Qed.

Theorem C11_wrong_length_rejected s a v : reachable s -> a < nobj s -> length v <> dof_size s a ->
  set_x ord fuel s a v = Some (s, Some EValue).
Proof. intros R Ha Hv. apply RI in R. now apply wrong_length. Qed.

(** C12 *)
Theorem C12_set_full_x s a v : reachable s -> a < nobj s -> length v = full_dof_size s a -> nobj s < fuel ->
  exists s', set_gfull_x ord fuel s a v = Some (s', None) /\ get_full_x s' a = v /\
  same_graph s s' /\
  (forall D, ~ uses s a D -> cel s' D = cel s D) /\
  (forall D, D < ncell s -> same_but_x (cel s D) (cel s' D)).
Proof.
  intros R Ha Hv Hk. apply RI in R.
  destruct (gstep_returns ord fuel Hord s (GSetFullX a v) R Ha Logic.I Hk) as (s' & e & E). cbn in E.
  destruct (set_full_x_effect ord fuel Hord s a v s' e R Ha Hv E) as (-> & H1 & H2 & H3 & H4 & _).
  exists s'. auto 10.
Qed.

(** C13: which objects are flagged, exactly *)
Theorem C13_set_x_flags s a v s' e b : reachable s -> a < nobj s -> length v = dof_size s a ->
  set_x ord fuel s a v = Some (s', e) -> b < nobj s ->
  (newx s' b = true <-> newx s b = true \/ exists o, (b = o \/ Anc s o b) /\ uses s a (dof_of s o)).
Proof.
  intros R Ha Hv H Hb. apply RI in R. now apply (set_x_effect ord fuel Hord s a v s' e R Ha Hv H).
Qed.
Theorem C13_set_full_x_flags s a v s' e b : reachable s -> a < nobj s -> length v = full_dof_size s a ->
  set_gfull_x ord fuel s a v = Some (s', e) -> b < nobj s ->
  (newx s' b = true <-> newx s b = true \/ exists o, (b = o \/ Anc s o b) /\ uses s a (dof_of s o)).
Proof.
  intros R Ha Hv H Hb. apply RI in R. now apply (set_full_x_effect ord fuel Hord s a v s' e R Ha Hv H).
Qed.
Theorem C13_set_flags s a kk i v s' e b : reachable s -> a < nobj s -> denotes (cel s (dof_of s a)) kk i ->
  set_key ord fuel s a kk v = Some (s', e) -> b < nobj s ->
  e = None /\ replaced i v (d_x (cel s (dof_of s a))) (d_x (cel s' (dof_of s a))) /\
  same_but_x (cel s (dof_of s a)) (cel s' (dof_of s a)) /\ (forall D, D <> dof_of s a -> cel s' D = cel s D) /\
  (newx s' b = true <-> newx s b = true \/ exists o, (b = o \/ Anc s o b) /\ dof_of s o = dof_of s a).
Proof.
  intros R Ha Hd H Hb. apply RI in R.
  destruct (set_key_effect ord fuel Hord s a kk i v s' e R Ha Hd H) as (H1 & _ & H3 & H4 & H5 & H6).
  split; [auto|]. split; [auto|]. split; [auto|]. split; [auto|]. now apply H6.
Qed.
(** for every call of the API (also failing ones): an object left unflagged sees exactly the lineage,
    parents and dof values it saw before *)
Theorem C13_unflagged_means_unchanged s o s' e b : reachable s -> valid_op s o -> ~ is_clear o ->
  gstep ord fuel s o = Some (s', e) -> b < nobj s -> newx s' b = false -> newx s b = false /\ view s' b = view s b.
Proof. intros R Hv Hc H. apply RI in R. now apply (gstep_frame ord fuel Hord s o s' e R Hv Hc H). Qed.

(** C15: status changes, with the sizes they entail (sizes of every object are always current: C10) *)
Theorem C15_fix_unfix s b a kk i : reachable s -> a < nobj s -> denotes (cel s (dof_of s a)) kk i -> nobj s < fuel ->
  exists s', set_status_key ord fuel b s a kk = Some (s', None) /\ reachable s' /\
  status_only s s' /\ (forall D, D <> dof_of s a -> cel s' D = cel s D) /\
  replaced i b (d_free (cel s (dof_of s a))) (d_free (cel s' (dof_of s a))) /\
  same_but_free (cel s (dof_of s a)) (cel s' (dof_of s a)).
Proof.
  intros R0 Ha Hd Hk. assert (R := R0). apply RI in R.
  destruct (gstep_returns ord fuel Hord s (GStatus b a kk) R Ha Logic.I Hk) as (s' & e & E). assert (E' := E). cbn in E.
  destruct (set_status_key_effect ord fuel Hord b s a kk i s' e R Ha Hd E) as (-> & H1 & H2 & H3 & H4).
  exists s'. assert (RR : reachable s'); [|auto 10]. eapply (reach_step s s' ord fuel (GStatus b a kk)); eauto.
Qed.
Theorem C15_fix_all_unfix_all s b a : reachable s -> a < nobj s -> nobj s < fuel ->
  exists s', status_all ord fuel b s a = Some (s', None) /\ reachable s' /\ status_only s s' /\
  (forall D, ~ uses s a D -> cel s' D = cel s D) /\
  (forall D, uses s a D -> all_status b (cel s D) (cel s' D)) /\
  (b = false -> dof_size s' a = 0) /\ (b = true -> dof_size s' a = full_dof_size s' a).
Proof.
  intros R0 Ha Hk. assert (R := R0). apply RI in R.
  destruct (gstep_returns ord fuel Hord s (GStatusAll b a) R Ha Logic.I Hk) as (s' & e & E). assert (E' := E). cbn in E.
  destruct (status_all_effect ord fuel Hord b s a s' e R Ha E) as (-> & H1 & H2 & H3).
  assert (R' : reachable s') by (eapply (reach_step s s' ord fuel (GStatusAll b a)); eauto).
  assert (I' := R'). apply RI in I'. assert (N : nobj s' = nobj s) by (rewrite H1; reflexivity).
  assert (Hu : forall o, In o (uniq_of s' a) -> forall f, In f (d_free (cel s' (dof_of s' o))) -> f = b).
  { intros o Ho. assert (Hus : uses s a (dof_of s' o)).
    { replace (uniq_of s' a) with (uniq_of s a) in Ho by (rewrite H1; reflexivity).
      replace (dof_of s' o) with (dof_of s o) by (rewrite H1; reflexivity).
      apply uniq_uses; auto. now apply in_map. }
    apply (H3 _ Hus). }
  exists s'. do 5 (split; [assumption|]). split; intros Eb; subst b.
  - rewrite dof_size_eq by (auto; lia). induction (uniq_of s' a) as [|o us IH]; auto. unfold list_sum in *. cbn [map fold_right].
    rewrite IH by (intros; eapply Hu; eauto; now right).
    assert (Ho := Hu o (or_introl eq_refl)). rewrite count_reduced. clear -Ho.
    induction (d_free (cel s' (dof_of s' o))) as [|f l IH]; auto. unfold count_true in *. cbn.
    rewrite (Ho f) by now left. apply IH. intros; apply Ho; now right.
  - rewrite dof_size_eq, full_size_eq by (auto; lia). f_equal. apply map_ext_in. intros o Ho.
    specialize (Hu o Ho). rewrite count_reduced. unfold dofs_len. clear -Hu.
    induction (d_free (cel s' (dof_of s' o))) as [|f l IH]; auto. unfold count_true in *. cbn.
    rewrite (Hu f) by now left. cbn. f_equal. apply IH. intros; apply Hu; now right.
Qed.
Theorem C15_local_fix_all s b a : reachable s -> a < nobj s -> nobj s < fuel ->
  exists s', local_status_all ord fuel b s a = Some (s', None) /\ reachable s' /\ status_only s s' /\
  (forall D, D <> dof_of s a -> cel s' D = cel s D) /\ all_status b (cel s (dof_of s a)) (cel s' (dof_of s a)).
Proof.
  intros R0 Ha Hk. assert (R := R0). apply RI in R.
  destruct (gstep_returns ord fuel Hord s (GLocalStatusAll b a) R Ha Logic.I Hk) as (s' & e & E). assert (E' := E). cbn in E.
  destruct (local_status_all_effect ord fuel Hord b s a s' e R Ha E) as (-> & H1 & H2 & H3).
  exists s'. assert (RR : reachable s'); [|auto 10]. eapply (reach_step s s' ord fuel (GLocalStatusAll b a)); eauto.
Qed.
(** full_fix(mask): neg = true, full_unfix(mask): neg = false *)
Theorem C15_full_fix_unfix s neg a v : reachable s -> a < nobj s -> length v = full_dof_size s a -> nobj s < fuel ->
  exists s', full_status ord fuel neg s a v = Some (s', None) /\ reachable s' /\ status_only s s' /\
  (forall D, ~ uses s a D -> cel s' D = cel s D) /\
  get_status s' a = (if neg then map negb v else v) /\
  (forall D, D < ncell s -> same_but_free (cel s D) (cel s' D)).
Proof.
  intros R0 Ha Hv Hk. assert (R := R0). apply RI in R.
  destruct (gstep_returns ord fuel Hord s (GFullStatus neg a v) R Ha Logic.I Hk) as (s' & e & E). assert (E' := E). cbn in E.
  destruct (full_status_effect ord fuel Hord neg s a v s' e R Ha Hv E) as (-> & H1 & H2 & H3 & H4).
  exists s'. assert (RR : reachable s'); [|auto 10]. eapply (reach_step s s' ord fuel (GFullStatus neg a v)); eauto.
Qed.
Theorem C15_unknown_key s b a kk s' e : reachable s -> a < nobj s -> (forall i, ~ denotes (cel s (dof_of s a)) kk i) ->
  set_status_key ord fuel b s a kk = Some (s', e) ->
  e <> None /\ status_only s s' /\ (forall D, cel s' D = cel s D) /\ fre s' = fre s.
Proof. intros R. apply RI in R. now apply set_status_key_unknown. Qed.

(** C16, positive part: with parents listed without repetition, popping one keeps all other
    dependencies, and only that one disappears *)
Theorem C16_pop_keeps_others s a i l1 p l2 : reachable s -> a < nobj s -> nobj s <= fuel ->
  par s a = l1 ++ p :: l2 -> i = Z.of_nat (length l1) ->
  exists s', pop_parent ord fuel s a i = Some (s', None) /\
    (forall q, In q (par s' a) <-> In q (par s a) /\ q <> p).
Proof.
  intros R Ha Hk Hp Hi. assert (I := R). apply RI in I.
  destruct (pop_parent_ok ord fuel Hord s a i l1 p l2 I Ha Hk Hp (or_introl Hi)) as (s' & E & E2 & _).
  exists s'. split; auto. intros q. rewrite E2, Hp.
  assert (N := gi_nd s (inv_g s I) a Ha). rewrite Hp in N. apply NoDup_remove_2 in N.
  rewrite in_app_iff in *. cbn. rewrite in_app_iff. cbn. split.
  - intros H. split; [tauto|]. intros ->. tauto.
  - intros [[H|[H|H]] Hne]; auto. congruence.
Qed.

(** C17 *)
Theorem C17_lower_bounds s a v : reachable s -> a < nobj s -> length v = dof_size s a -> nobj s < fuel ->
  exists s', set_lower s a v = Some (s', None) /\ get_lower s' a = v /\ same_graph s s' /\
  (forall D, ~ uses s a D -> cel s' D = cel s D) /\
  (forall D, D < ncell s -> only_free_lb (cel s D) (cel s' D)) /\
  (forall b, newx s' b = newx s b).
Proof.
  intros R Ha Hv Hk. apply RI in R.
  destruct (gstep_returns ord fuel Hord s (GSetLower a v) R Ha Logic.I Hk) as (s' & e & E). cbn in E.
  destruct (set_lower_effect s a v s' e R Ha Hv E) as (-> & H). eauto.
Qed.
Theorem C17_upper_bounds s a v : reachable s -> a < nobj s -> length v = dof_size s a -> nobj s < fuel ->
  exists s', set_upper s a v = Some (s', None) /\ get_upper s' a = v /\ same_graph s s' /\
  (forall D, ~ uses s a D -> cel s' D = cel s D) /\
  (forall D, D < ncell s -> only_free_ub (cel s D) (cel s' D)) /\
  (forall b, newx s' b = newx s b).
Proof.
  intros R Ha Hv Hk. apply RI in R.
  destruct (gstep_returns ord fuel Hord s (GSetUpper a v) R Ha Logic.I Hk) as (s' & e & E). cbn in E.
  destruct (set_upper_effect s a v s' e R Ha Hv E) as (-> & H). eauto.
Qed.
Theorem C17_wrong_length_rejected s a v : reachable s -> a < nobj s -> length v <> dof_size s a ->
  set_lower s a v = Some (s, Some EValue) /\ set_upper s a v = Some (s, Some EValue).
Proof. intros R Ha Hv. apply RI in R. split; now apply (wrong_length ord fuel). Qed.

(** the setter of the full lower bounds fails for every vector on every object *)
Theorem C17_full_lower_bounds_refuted s a v : reachable s -> a < nobj s ->
  exists s' e, set_gfull_lower s a v = Some (s', Some e).
Proof.
  intros R Ha. apply RI in R. unfold set_gfull_lower. destruct (last_end s a =? length v); cbn [negb]; [|eauto].
  assert (N := uniq_ne s a R Ha). destruct (r_table s a R Ha) as [E _].
  destruct (r_idx (fre s a)) as [|x l]; [cbn in E; congruence|]. cbn [fold_left bindr].
  unfold set_full_lb. cbn [cell_write].
  match goal with |- exists s' e, fold_left _ _ (Some (?S, Some ?x)) = _ => exists S; exists x end.
  clear. induction l; cbn [fold_left bindr]; auto.
Qed.

(** C47: external (C++) copies of the dofs follow every call except replace_dofs *)
Theorem C47_external_copies_in_sync s o s' e : reachable s -> valid_op s o -> ~ is_replace o ->
  gstep ord fuel s o = Some (s', e) -> ExtOK s -> ExtOK s'.
Proof. intros R Hv Hr H. apply RI in R. exact (gstep_ext ord fuel Hord s o s' e R Hv Hr H). Qed.
End WithOrder.

(** histories without replace_dofs keep all external copies in sync *)
Inductive reachable_nr : st -> Prop :=
| rnr_init : reachable_nr init_st
| rnr_step s s' ord fuel o e : reachable_nr s -> valid_op s o -> any_order ord -> ~ is_replace o ->
    gstep ord fuel s o = Some (s', e) -> reachable_nr s'.
Theorem C47_history s : reachable_nr s -> forall o, o < nobj s -> setter s o = true -> ext s o = d_x (cel s (dof_of s o)).
Proof.
  assert (K : reachable_nr s -> reachable s /\ ExtOK s).
  { induction 1 as [|s s' ord fuel o e H [R X] Hv Ho Hr Hg].
    - split; [constructor|]. intros o Ho. cbn in Ho. lia.
    - split; [eapply reach_step; eauto|]. eapply C47_external_copies_in_sync; eauto. }
  intros H. apply K in H. apply H.
Qed.
End Statements.

(** C14: [Val] is the value computed from scratch *)
Theorem C14_cached_value_is_current : forall (V W : Type) (F : nat -> list V -> list W -> W) c b fuel c' w,
  creach F c -> b < nobj (fst c) -> eval F fuel c b = Some (c', w) -> Val F (fst c) b w.
Proof. intros V W F c b fuel c' w. apply cached_eval_correct. Qed.
Theorem C14_evaluation_returns : forall (V W : Type) (F : nat -> list V -> list W -> W) c b fuel,
  creach F c -> b < nobj (fst c) -> nobj (fst c) <= fuel -> exists c' w, eval F fuel c b = Some (c', w).
Proof. intros V W F c b fuel H. apply creach_ok in H. apply eval_returns. apply H. Qed.
Theorem C14_value_unique : forall (V W : Type) (F : nat -> list V -> list W -> W) s b w w',
  Val F s b w -> Val F s b w' -> w' = w.
Proof. intros V W F s b w w' H1 H2. eapply Val_fun; eauto. Qed.

(** ** Concrete histories *)
Definition dz (x : list Z) (f : list bool) (n : list nat) : dofs Z :=
  mkDofs x f (map (fun _ => (-100)%Z) x) (map (fun _ => 100%Z) x) n.
(** A = 0, B = 1 (one dof fixed), C = 2 shares A's DOFs and depends on B and A, D = 3 depends on C, A *)
Definition ex_ops : list (@gop Z) :=
  [ GNew 7 (inl (dz [1; 2]%Z [true; true] [0; 1])) true false [];
    GNew 5 (inl (dz [10; 20; 30]%Z [true; false; true] [0; 1; 2])) true false [];
    GNew 6 (inr 0) true false [1; 0];
    GNew 9 (inl (dz [4]%Z [true] [0])) false true [2; 2; 0];
    GSetX 3 [-1; -3; 11; 12; 0]%Z; GClear 3; GClear 1 ].
Definition ex_st : @st Z := match run_ops 10 init_st ex_ops with Some s => s | None => init_st end.
Lemma ex_run : run_ops 10 init_st ex_ops = Some ex_st.
Proof. vm_compute. reflexivity. Qed.
Lemma ex_reachable : reachable ex_st.
Proof. eapply run_ops_reachable; [constructor|exact ex_run]. Qed.
Example C09_nonvacuous : reachable ex_st /\ nobj ex_st = 4 /\ ancestors ex_st 3 = [1; 2; 0] /\ par ex_st 3 = [2; 0] /\ par ex_st 2 = [1; 0]
  /\ add_parent (fun l => l) 1000 ex_st 1 0 3 = None.
Proof. split; [exact ex_reachable|]. vm_compute. auto. Qed.
Example C10_nonvacuous : dof_size ex_st 3 = 5 /\ full_dof_size ex_st 3 = 6 /\
  r_idx (fre ex_st 3) = [(1, (0, 2)); (2, (2, 4)); (3, (4, 5))] /\ get_x ex_st 3 = [-1; -3; 11; 12; 0]%Z /\
  get_full_x ex_st 3 = [-1; 20; -3; 11; 12; 0]%Z.
Proof. vm_compute. auto. Qed.
Example C13_nonvacuous : newx ex_st 3 = false /\ newx ex_st 1 = false /\
  (exists s', set_key (fun l => l) 10 ex_st 1 (KName 1) 77%Z = Some (s', None) /\ newx s' 3 = true /\ newx s' 2 = true /\ get_full_x s' 2 = [-1; 77; -3; 11; 12]%Z) /\
  (exists s', set_key (fun l => l) 10 ex_st 3 (KName 0) 77%Z = Some (s', None) /\ newx s' 3 = true /\ newx s' 1 = false).
Proof.
  split; [reflexivity|]. split; [reflexivity|]. split.
  - eexists. split; [vm_compute; reflexivity|]. vm_compute. auto.
  - eexists. split; [vm_compute; reflexivity|]. vm_compute. auto.
Qed.
Example C15_nonvacuous : exists s', set_status_key (fun l => l) 10 false ex_st 0 (KIdx (-1)) = Some (s', None) /\
  dof_size s' 3 = 4 /\ dof_size s' 2 = 3 /\ dof_size s' 0 = 1 /\ dof_size s' 1 = 2.
Proof. eexists. split; [vm_compute; reflexivity|]. vm_compute. auto. Qed.
(** build the graph, evaluate D, change a fixed dof of B, evaluate D again *)
Definition ex_F (b : nat) (x : list Z) (ws : list Z) : Z := (fold_right Z.add 0 x + 2 * fold_right Z.add 0 ws)%Z.
Definition ex_c0 : @cstate Z Z := (match run_ops 10 init_st (firstn 5 ex_ops) with Some s => s | None => init_st end, fun _ => None).
Definition ex_c1 : @cstate Z Z := match eval ex_F 10 ex_c0 3 with Some (c, _) => c | None => ex_c0 end.
Definition ex_c2 : @cstate Z Z := (match gstep (fun l => l) 10 (fst ex_c1) (GSetKey 1 (KIdx 1) 1020%Z) with Some (s, _) => s | None => fst ex_c1 end, snd ex_c1).
Lemma creach_run (V W : Type) (F : nat -> list V -> list W -> W) k ops : forall s c s',
  forallb (fun o => match o with GClear _ => false | _ => true end) ops = true ->
  creach F (s, c) -> run_ops k s ops = Some s' -> creach F (s', c).
Proof.
  induction ops as [|o ops IH]; intros s c s' Hc R H; cbn in *; [congruence|].
  destruct (valid_opb s o) eqn:E; [|discriminate]. destruct (gstep _ k s o) as [[s1 e]|] eqn:G; [|discriminate].
  apply andb_true_iff in Hc. destruct Hc as [Hc1 Hc2].
  refine (IH s1 c s' Hc2 _ H). eapply creach_mut; [exact R| | | |exact G].
  - now apply valid_opb_ok. - destruct o; cbn; auto; discriminate. - intros l. apply Permutation_refl.
Qed.
Example C14_nonvacuous : creach ex_F ex_c2 /\
  option_map snd (eval ex_F 10 ex_c0 3) = Some 248%Z /\ option_map snd (eval ex_F 10 ex_c1 3) = Some 248%Z /\
  newx (fst ex_c1) 3 = false /\ newx (fst ex_c2) 3 = true /\
  option_map snd (eval ex_F 10 ex_c2 3) = Some 4248%Z.
Proof.
  split.
  - assert (H0 : creach ex_F ex_c0).
    { apply (creach_run Z Z ex_F 10 (firstn 5 ex_ops) init_st); [reflexivity|constructor|vm_compute; reflexivity]. }
    assert (H1 : creach ex_F ex_c1).
    { unfold ex_c1. destruct (eval ex_F 10 ex_c0 3) as [[c w]|] eqn:E; auto.
      eapply creach_eval; eauto. vm_compute. lia. }
    unfold ex_c2. destruct (gstep _ 10 (fst ex_c1) _) as [[s e]|] eqn:E; [|rewrite <- surjective_pairing; auto].
    eapply creach_mut; [rewrite <- surjective_pairing; exact H1| | | |exact E]; try (cbn; tauto).
    + vm_compute. lia. + intros l; apply Permutation_refl.
  - vm_compute. auto 10.
Qed.

(** C12, length contract: a too long vector is accepted and its tail dropped; a too short one raises
    after having changed an ancestor *)
Theorem C12_length_contract_refuted :
  reachable ex_st /\
  (exists s', set_gfull_x (fun l => l) 10 ex_st 3 [1; 2; 3; 4; 5; 6; 7; 8]%Z = Some (s', None) /\
     length [1; 2; 3; 4; 5; 6; 7; 8]%Z <> full_dof_size ex_st 3 /\ get_full_x s' 3 = [1; 2; 3; 4; 5; 6]%Z) /\
  (exists s' e, set_gfull_x (fun l => l) 10 ex_st 3 [1; 2; 3; 4]%Z = Some (s', Some e) /\
     get_full_x s' 3 <> get_full_x ex_st 3).
Proof.
  split; [exact ex_reachable|]. split.
  - eexists. split; [vm_compute; reflexivity|]. split; [vm_compute; discriminate|vm_compute; reflexivity].
  - do 2 eexists. split; [vm_compute; reflexivity|]. vm_compute. discriminate.
Qed.

(** C16: the new object 4 lists object 1 twice as parent; after popping one occurrence it still has 1 as
    parent and ancestor, but a later change of object 1 does not flag it *)
Theorem C16_duplicate_parent_refuted : exists s1 s2 s3 s4 s5,
  gstep (fun l => l) 10 ex_st (GNew 20 (inl (dz [0]%Z [true] [0])) false false [1; 1]) = Some (s1, None) /\
  gstep (fun l => l) 10 s1 (GPopParent 4 0) = Some (s2, None) /\
  par s2 4 = [1] /\ ancestors s2 4 = [1] /\
  gstep (fun l => l) 10 s2 (GClear 4) = Some (s3, None) /\
  gstep (fun l => l) 10 s3 (GSetX 1 [123; 456]%Z) = Some (s4, None) /\
  get_x s4 4 = [123; 456; 0]%Z /\ newx s4 4 = false /\
  (* without the pop the object is flagged *)
  gstep (fun l => l) 10 (match gstep (fun l => l) 10 s1 (GClear 4) with Some (s, _) => s | None => s1 end) (GSetX 1 [123; 456]%Z) = Some (s5, None) /\
  newx s5 4 = true.
Proof.
  do 5 eexists.
  split; [vm_compute; reflexivity|]. split; [vm_compute; reflexivity|]. split; [vm_compute; reflexivity|].
  split; [vm_compute; reflexivity|]. split; [vm_compute; reflexivity|]. split; [vm_compute; reflexivity|].
  split; [vm_compute; reflexivity|]. split; [vm_compute; reflexivity|]. split; [vm_compute; reflexivity|].
  vm_compute; reflexivity.
Qed.

(** C47: replace_dofs does not call the external setter of the object *)
Theorem C47_replace_dofs_refuted : exists s', gstep (fun l => l) 10 ex_st (GReplaceDofs 0 1) = Some (s', None) /\
  ExtOK ex_st /\ setter s' 0 = true /\ ext s' 0 <> d_x (cel s' (dof_of s' 0)).
Proof.
  eexists. split; [vm_compute; reflexivity|]. split; [|split; [reflexivity|vm_compute; discriminate]].
  intros o Ho Hs. change (o < 4) in Ho. do 4 (destruct o as [|o]; [vm_compute in *; congruence|]). lia.
Qed.

Print Assumptions C09_ancestors_are_the_closure.
Print Assumptions C09_add_parent.
Print Assumptions C09_cycle_never_returns.
Print Assumptions C09_every_call_returns.
Print Assumptions C10_sizes_count_each_dofs_once.
Print Assumptions C10_free_blocks.
Print Assumptions C10_full_blocks.
Print Assumptions C11_set_x.
Print Assumptions C12_set_full_x.
Print Assumptions C12_length_contract_refuted.
Print Assumptions C13_set_x_flags.
Print Assumptions C13_unflagged_means_unchanged.
Print Assumptions C14_cached_value_is_current.
Print Assumptions C14_evaluation_returns.
Print Assumptions C15_fix_unfix.
Print Assumptions C15_fix_all_unfix_all.
Print Assumptions C15_full_fix_unfix.
Print Assumptions C16_pop_keeps_others.
Print Assumptions C16_duplicate_parent_refuted.
Print Assumptions C17_lower_bounds.
Print Assumptions C17_upper_bounds.
Print Assumptions C17_full_lower_bounds_refuted.
Print Assumptions C47_history.
Print Assumptions C47_replace_dofs_refuted.
