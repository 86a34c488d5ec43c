(** C20, C21, C30. *)
From Coq Require Import List Arith ZArith Lia Bool Reals Lra.
From Verif Require Import PartitionModel.
Import ListNotations.
Local Open Scope nat_scope.

(** ---------------------------------------------------------------- C20 *)
Lemma raw_steps_nth x a r i xi : nth_error x i = Some xi ->
  nth_error (raw_steps x a r) i = Some (Rmax (Rabs xi * r) a).
Proof.
  unfold raw_steps. revert i. induction x as [|y x IH]; intros [|i] H; cbn in *; try discriminate.
  - now inversion H.
  - now apply IH.
Qed.
Lemma raw_steps_length x a r : length (raw_steps x a r) = length x.
Proof. unfold raw_steps. rewrite map_length, combine_length, map_length, repeat_length. lia. Qed.
Lemma raw_steps_In x a r v : In v (raw_steps x a r) <-> exists xi, In xi x /\ v = Rmax (Rabs xi * r) a.
Proof.
  split.
  - intros H. apply In_nth_error in H. destruct H as [i H].
    destruct (nth_error x i) as [xi|] eqn:E.
    + rewrite (raw_steps_nth _ _ _ _ _ E) in H. inversion H. exists xi. split; [|reflexivity]. now apply nth_error_In in E.
    + apply nth_error_None in E. rewrite <- (raw_steps_length x a r) in E. apply nth_error_None in E. congruence.
  - intros (xi & Hx & ->). apply In_nth_error in Hx. destruct Hx as [i E].
    apply (raw_steps_nth _ a r) in E. now apply nth_error_In in E.
Qed.

Lemma steps_ok x a r s : finite_difference_steps x a r = inr s ->
  (0 <= a)%R /\ (0 <= r)%R /\ s = raw_steps x a r /\ (forall v, In v s -> v <> 0%R).
Proof.
  unfold finite_difference_steps, Rltb.
  destruct (Rlt_dec a 0); [discriminate|]. destruct (Rlt_dec r 0); [discriminate|].
  destruct (existsb _ _) eqn:E; [discriminate|]. intros H; inversion H; subst. repeat split; try lra.
  intros v Hv Hz. apply Bool.not_true_iff_false in E. apply E. apply existsb_exists. exists v. split; [assumption|].
  unfold Reqb. destruct (Req_EM_T v 0); congruence.
Qed.

Theorem C20_steps : forall x abs_step rel_step s,
  finite_difference_steps x abs_step rel_step = inr s ->
  length s = length x /\
  forall i xi, nth_error x i = Some xi -> exists si, nth_error s i = Some si /\
    si = Rmax (Rabs xi * rel_step) abs_step /\ (0 < si)%R /\ (abs_step <= si)%R.
Proof.
  intros x a r s H. apply steps_ok in H. destruct H as (Ha & Hr & -> & Hn). split; [apply raw_steps_length|].
  intros i xi Hi. exists (Rmax (Rabs xi * r) a). pose proof (raw_steps_nth _ a r _ _ Hi) as E.
  repeat split; auto.
  - assert (Rmax (Rabs xi * r) a <> 0)%R by (apply Hn; now apply nth_error_In in E).
    pose proof (Rmax_r (Rabs xi * r) a). lra.
  - apply Rmax_r.
Qed.

(** It raises exactly in the three documented cases. *)
Theorem C20_raises_exactly : forall x abs_step rel_step,
  (exists e, finite_difference_steps x abs_step rel_step = inl e) <->
  ((abs_step < 0)%R \/ (rel_step < 0)%R \/
   (abs_step = 0%R /\ exists xi, In xi x /\ (xi = 0%R \/ rel_step = 0%R))).
Proof.
  intros x a r. unfold finite_difference_steps, Rltb.
  destruct (Rlt_dec a 0) as [Ha|Ha]; [split; [tauto|eauto]|].
  destruct (Rlt_dec r 0) as [Hr|Hr]; [split; [tauto|eauto]|].
  destruct (existsb _ _) eqn:E.
  - split; [|eauto]. intros _. right; right.
    apply existsb_exists in E. destruct E as (v & Hv & Hz). unfold Reqb in Hz.
    destruct (Req_EM_T v 0) as [->|]; [|discriminate].
    apply raw_steps_In in Hv. destruct Hv as (xi & Hxi & Hm).
    assert (a <= 0)%R by (rewrite Hm; apply Rmax_r).
    assert (Rabs xi * r <= 0)%R by (rewrite Hm; apply Rmax_l).
    split; [lra|]. exists xi. split; [assumption|].
    pose proof (Rabs_pos xi). destruct (Req_dec r 0); [now right|left].
    destruct (Req_dec xi 0) as [?|Hx]; [assumption|]. exfalso.
    pose proof (Rabs_pos_lt _ Hx). pose proof (Rmult_lt_0_compat (Rabs xi) r ltac:(assumption) ltac:(lra)). lra.
  - split; [intros [e He]; discriminate|]. intros [?|[?|(Hz & xi & Hxi & Hc)]]; try lra.
    exfalso. apply Bool.not_true_iff_false in E. apply E. apply existsb_exists.
    exists (Rmax (Rabs xi * r) a). split; [apply raw_steps_In; eauto|].
    unfold Reqb. replace (Rabs xi * r)%R with 0%R. { subst a. rewrite Rmax_left by lra. destruct (Req_EM_T 0 0); congruence. }
    destruct Hc as [->| ->]; [rewrite Rabs_R0|]; lra.
Qed.

(** which error: the sign of abs_step is checked first, then the sign of rel_step, then zero steps *)
Theorem C20_which_error : forall x abs_step rel_step e,
  finite_difference_steps x abs_step rel_step = inl e ->
  match e with
  | ErrAbsNegative => (abs_step < 0)%R
  | ErrRelNegative => (0 <= abs_step /\ rel_step < 0)%R
  | ErrZeroStep => abs_step = 0%R /\ (0 <= rel_step)%R
  end.
Proof.
  intros x a r e H. pose proof H as H'. assert (X : exists e, finite_difference_steps x a r = inl e) by eauto.
  apply C20_raises_exactly in X. unfold finite_difference_steps, Rltb in H'.
  destruct (Rlt_dec a 0) as [Ha|Ha]; [injection H' as <-; exact Ha|].
  destruct (Rlt_dec r 0) as [Hr|Hr]; [injection H' as <-; lra|].
  destruct (existsb _ _); [|discriminate]. injection H' as <-. destruct X as [X|[X|[X _]]]; lra.
Qed.
Example C20_ex : exists s, finite_difference_steps [0; -4]%R 1 (1/2) = inr s /\ nth_error s 1 = Some 2%R.
Proof.
  destruct (finite_difference_steps [0; -4]%R 1 (1/2)) as [e|s] eqn:E.
  - exfalso. assert (H: exists e, finite_difference_steps [0; -4]%R 1 (1/2) = inl e) by eauto.
    apply C20_raises_exactly in H. destruct H as [?|[?|[? _]]]; lra.
  - exists s. split; [reflexivity|]. destruct (C20_steps _ _ _ _ E) as [_ H].
    destruct (H 1 (-4)%R eq_refl) as (si & Hs & -> & _). rewrite Hs. f_equal.
    rewrite Rabs_left by lra. rewrite Rmax_left; lra.
Qed.
Print Assumptions C20_steps.
Print Assumptions C20_raises_exactly.

(** ---------------------------------------------------------------- C21 *)
Lemma idxs_nth n size i : i <= size ->
  nth_error (map (fun i => i * n / size) (seq 0 (size + 1))) i = Some (i * n / size).
Proof.
  intros H. rewrite nth_error_map.
  replace (nth_error (seq 0 (size + 1)) i) with (Some i); [reflexivity|].
  symmetry. rewrite (nth_error_nth' _ 0) by (rewrite seq_length; lia). now rewrite seq_nth by lia.
Qed.
Lemma bounds_eq size rank n : 0 < size -> rank < size ->
  parallel_loop_bounds (Some (size, rank)) n = Some (rank * n / size, (rank + 1) * n / size).
Proof.
  intros Hs Hr. unfold parallel_loop_bounds. rewrite !idxs_nth by lia.
  rewrite map_length, seq_length. replace (size + 1 - 1) with size by lia.
  erewrite (nth_error_nth _ 0), (nth_error_nth _ size) by (apply idxs_nth; lia).
  rewrite Nat.mul_comm with (n := size), Nat.div_mul by lia. rewrite Nat.eqb_refl. now rewrite Nat.div_0_l by lia.
Qed.

(** [runs_on size n rank j]: process [rank] handles index [j]. *)
Definition runs_on (size n rank j : nat) : Prop :=
  exists a b, parallel_loop_bounds (Some (size, rank)) n = Some (a, b) /\ a <= j < b.

Lemma tile_find n size j : 0 < size -> j < n -> exists r, r < size /\ r * n / size <= j < (r + 1) * n / size.
Proof.
  intros Hs Hj.
  assert (H: forall k, k <= size -> j < k * n / size -> exists r, r < k /\ r * n / size <= j < (r + 1) * n / size).
  { induction k as [|k IH]; intros Hk Hlt. { rewrite Nat.mul_0_l, Nat.div_0_l in Hlt by lia. lia. }
    destruct (Nat.lt_ge_cases j (k * n / size)) as [H|H].
    - destruct (IH ltac:(lia) H) as (r & Hr & Hx). exists r. split; [lia|assumption].
    - exists k. rewrite Nat.add_1_r. split; [lia|split; assumption]. }
  destruct (H size ltac:(lia)) as (r & Hr & Hx). { rewrite Nat.mul_comm, Nat.div_mul; lia. }
  exists r; split; assumption.
Qed.

Theorem C21_every_index_on_exactly_one_process : forall size n, 0 < size -> forall j, j < n ->
  exists rank, rank < size /\ runs_on size n rank j /\
    forall rank', rank' < size -> runs_on size n rank' j -> rank' = rank.
Proof.
  intros size n Hs j Hj. destruct (tile_find n size j Hs Hj) as (r & Hr & Hx).
  exists r. split; [assumption|]. split. { exists (r*n/size), ((r+1)*n/size). split; [now apply bounds_eq|assumption]. }
  intros r' Hr' (a & b & Hb & Hin). rewrite bounds_eq in Hb by lia. inversion Hb; subst; clear Hb.
  assert (M: forall u v, u <= v -> u * n / size <= v * n / size).
  { intros u v Huv. apply Nat.div_le_mono; [lia|]. apply Nat.mul_le_mono_r; assumption. }
  destruct (lt_eq_lt_dec r' r) as [[H|H]|H]; [|assumption|].
  - specialize (M (r'+1) r ltac:(lia)). lia.
  - specialize (M (r+1) r' ltac:(lia)). lia.
Qed.

Theorem C21_intervals_balanced_and_ordered : forall size n, 0 < size -> forall rank, rank < size ->
  exists a b, parallel_loop_bounds (Some (size, rank)) n = Some (a, b) /\
    a <= b <= n /\ n / size <= b - a <= n / size + 1 /\
    (rank = 0 -> a = 0) /\ (rank = size - 1 -> b = n) /\
    (S rank < size -> exists c, parallel_loop_bounds (Some (size, S rank)) n = Some (b, c)).
Proof.
  intros size n Hs r Hr. exists (r*n/size), ((r+1)*n/size). split; [now apply bounds_eq|].
  assert (E1: r * n / size <= (r+1) * n / size) by (apply Nat.div_le_mono; nia).
  assert (E2: (r+1)*n/size <= n).
  { transitivity (size * n / size). { apply Nat.div_le_mono; nia. } rewrite Nat.mul_comm, Nat.div_mul; lia. }
  repeat split; auto.
  - pose proof (Nat.div_mod n size ltac:(lia)). pose proof (Nat.mod_upper_bound n size ltac:(lia)).
    pose proof (Nat.div_mod (r*n) size ltac:(lia)). pose proof (Nat.mod_upper_bound (r*n) size ltac:(lia)).
    pose proof (Nat.div_mod ((r+1)*n) size ltac:(lia)). pose proof (Nat.mod_upper_bound ((r+1)*n) size ltac:(lia)).
    set (q := n / size) in *. set (u := r*n/size) in *. set (v := (r+1)*n/size) in *.
    assert (size * v + (r+1)*n mod size = size * u + (r*n) mod size + size * q + n mod size) by nia.
    assert (u + q <= v) by nia. lia.
  - pose proof (Nat.div_mod n size ltac:(lia)). pose proof (Nat.mod_upper_bound n size ltac:(lia)).
    pose proof (Nat.div_mod (r*n) size ltac:(lia)). pose proof (Nat.mod_upper_bound (r*n) size ltac:(lia)).
    pose proof (Nat.div_mod ((r+1)*n) size ltac:(lia)). pose proof (Nat.mod_upper_bound ((r+1)*n) size ltac:(lia)).
    set (q := n / size) in *. set (u := r*n/size) in *. set (v := (r+1)*n/size) in *.
    assert (size * v + (r+1)*n mod size = size * u + (r*n) mod size + size * q + n mod size) by nia.
    assert (v <= u + q + 1) by nia. lia.
  - intros ->. now rewrite Nat.div_0_l by lia.
  - intros ->. replace ((size - 1 + 1) * n) with (n * size) by (replace (size - 1 + 1) with size by lia; apply Nat.mul_comm). apply Nat.div_mul. lia.
  - intros H. exists ((r+2)*n/size). rewrite bounds_eq by lia. replace (S r) with (r + 1) by lia. replace (r + 1 + 1) with (r + 2) by lia. reflexivity.
Qed.

Theorem C21_no_communicator : forall n, parallel_loop_bounds None n = Some (0, n).
Proof. reflexivity. Qed.

Example C21_ex : map (fun r => parallel_loop_bounds (Some (3, r)) 8) [0; 1; 2] = [Some (0, 2); Some (2, 5); Some (5, 8)].
Proof. reflexivity. Qed.
Print Assumptions C21_every_index_on_exactly_one_process.
Print Assumptions C21_intervals_balanced_and_ordered.

(** ---------------------------------------------------------------- C30 *)
Ltac cases_ltb := cbv zeta; match goal with |- context [Z.ltb ?a 1] => destruct (Z.ltb_spec a 1) end;
  match goal with |- context [Z.ltb ?a ?b] => destruct (Z.ltb_spec a b) end.
Lemma clamp_spec req n : 1 <= n -> 1 <= clamp_ngroups req n <= n.
Proof.
  intros H. unfold clamp_ngroups. destruct req as [z|].
  - cases_ltb; lia.
  - cases_ltb; lia.
Qed.

Lemma filter_range (a b m s : nat) (f : nat -> bool) :
  s <= a -> a <= b -> b <= s + m -> (forall r, f r = true <-> a <= r < b) -> filter f (seq s m) = seq a (b - a).
Proof.
  intros Hsa Hab Hbm Hf. replace m with ((a - s) + ((b - a) + (s + m - b))) by lia.
  rewrite !seq_app, !filter_app. replace (s + (a - s)) with a by lia. replace (a + (b - a)) with b by lia.
  assert (E: forall l, (forall r, In r l -> f r = false) -> filter f l = []).
  { induction l as [|x l IH]; intros H; cbn; [reflexivity|]. rewrite (H x) by now left. apply IH. intros; apply H; now right. }
  assert (E': forall l, (forall r, In r l -> f r = true) -> filter f l = l).
  { induction l as [|x l IH]; intros H; cbn; [reflexivity|]. rewrite (H x) by now left. f_equal. apply IH. intros; apply H; now right. }
  rewrite (E (seq s _)), (E' (seq a _)), (E (seq b _)); [now rewrite app_nil_r| | |].
  - intros r H. apply in_seq in H. apply Bool.not_true_iff_false. rewrite Hf. lia.
  - intros r H. apply in_seq in H. apply Hf. lia.
  - intros r H. apply in_seq in H. apply Bool.not_true_iff_false. rewrite Hf. lia.
Qed.

Section Groups.
Variables n g : nat.
Hypothesis Hg : 1 <= g <= n.

(** First rank of group [k]. *)
Definition start (k : nat) : nat := (k * n + (g - 1)) / g.

Lemma group_iff r k : group_of n g r = k <-> start k <= r < start (S k).
Proof.
  unfold group_of, start.
  pose proof (Nat.div_mod (r*g) n ltac:(lia)) as A. pose proof (Nat.mod_upper_bound (r*g) n ltac:(lia)) as A'.
  pose proof (Nat.div_mod (k*n+(g-1)) g ltac:(lia)) as B. pose proof (Nat.mod_upper_bound (k*n+(g-1)) g ltac:(lia)) as B'.
  pose proof (Nat.div_mod (S k*n+(g-1)) g ltac:(lia)) as C. pose proof (Nat.mod_upper_bound (S k*n+(g-1)) g ltac:(lia)) as C'.
  set (q := r*g/n) in *. set (u := (k*n+(g-1))/g) in *. set (v := (S k*n+(g-1))/g) in *.
  assert (E1: u <= r <-> k * n <= r * g).
  { split; intros H; [nia|]. assert (g * u < g * (r + 1)) by nia. nia. }
  assert (E2: v <= r <-> S k * n <= r * g).
  { split; intros H; [nia|]. assert (g * v < g * (r + 1)) by nia. nia. }
  split.
  - intros <-. split; [apply E1; nia|]. apply Nat.nle_gt. intros H. apply E2 in H. nia.
  - intros [H1 H2]. apply E1 in H1. assert (r * g < S k * n). { apply Nat.nle_gt. intros H. apply E2 in H. lia. } nia.
Qed.

Lemma start_step k : start k + n / g <= start (S k) <= start k + n / g + 1.
Proof.
  unfold start.
  pose proof (Nat.div_mod n g ltac:(lia)) as A. pose proof (Nat.mod_upper_bound n g ltac:(lia)) as A'.
  pose proof (Nat.div_mod (k*n+(g-1)) g ltac:(lia)) as B. pose proof (Nat.mod_upper_bound (k*n+(g-1)) g ltac:(lia)) as B'.
  pose proof (Nat.div_mod (S k*n+(g-1)) g ltac:(lia)) as C. pose proof (Nat.mod_upper_bound (S k*n+(g-1)) g ltac:(lia)) as C'.
  set (q := n/g) in *. set (u := (k*n+(g-1))/g) in *. set (v := (S k*n+(g-1))/g) in *.
  assert (g * v + (S k*n+(g-1)) mod g = g * u + (k*n+(g-1)) mod g + g * q + n mod g) by nia.
  split; nia.
Qed.
Lemma start_lt k : start k < start (S k).
Proof. pose proof (start_step k). assert (1 <= n / g). { apply Nat.div_le_lower_bound; lia. } lia. Qed.
Lemma start_mono i j : i <= j -> start i <= start j.
Proof. induction 1 as [|j H IH]; [lia|]. pose proof (start_lt j). lia. Qed.
Lemma start_smono i j : i < j -> start i < start j.
Proof. intros H. pose proof (start_lt i). pose proof (start_mono (S i) j H). lia. Qed.
Lemma start_0 : start 0 = 0.
Proof. unfold start. apply Nat.div_small. lia. Qed.
Lemma start_g : start g = n.
Proof. unfold start. symmetry. apply (Nat.div_unique _ _ _ (g-1)); lia. Qed.

Lemma group_members r : r < n -> split_members n (fun q => Some (group_of n g q)) r =
  seq (start (group_of n g r)) (start (S (group_of n g r)) - start (group_of n g r)).
Proof.
  intros Hr. unfold split_members. set (k := group_of n g r).
  assert (K: k < g).
  { unfold k, group_of. apply Nat.div_lt_upper_bound; nia. }
  apply filter_range.
  - lia.
  - apply start_mono; lia.
  - cbn [Nat.add]. transitivity (start g); [apply start_mono; lia|rewrite start_g; lia].
  - intros q. rewrite Nat.eqb_eq. apply group_iff.
Qed.
End Groups.

Lemma position_seq a m x : a <= x < a + m -> position x (seq a m) = x - a.
Proof.
  revert a. induction m as [|m IH]; intros a H; [lia|]. cbn.
  destruct (Nat.eqb_spec a x); [lia|]. rewrite IH by lia. lia.
Qed.
Lemma position_filter (f : nat -> bool) : forall l x, NoDup l -> In x l -> f x = true ->
  position x (filter f l) = length (filter f (firstn (position x l) l)).
Proof.
  induction l as [|y l IH]; intros x Hn Hx Hf; [destruct Hx|]. inversion Hn; subst. cbn [position].
  destruct (Nat.eqb_spec y x) as [->|Hne]. { cbn. rewrite Hf. cbn. now rewrite Nat.eqb_refl. }
  destruct Hx as [?|Hx]; [contradiction|]. cbn [firstn]. cbn [filter]. destruct (f y); cbn.
  - destruct (Nat.eqb_spec y x); [contradiction|]. f_equal. now apply IH.
  - now apply IH.
Qed.

(** What a partition promises, in terms of what the processes observe. *)
Lemma C30_facts req n : 1 <= n ->
  let g := clamp_ngroups req n in
  forall r, r < n -> let p := mpi_partition req n r in
    p_group p = group_of n g r /\ p_group p < g /\
    p_comm_groups p = seq (start n g (p_group p)) (start n g (S (p_group p)) - start n g (p_group p)) /\
    p_rank_groups p = r - start n g (p_group p) /\ start n g (p_group p) <= r < start n g (S (p_group p)) /\
    (p_proc0_groups p = true <-> r = start n g (p_group p)).
Proof.
  intros Hn g r Hr p. assert (Hg: 1 <= g <= n) by (apply clamp_spec; assumption).
  assert (E: p_comm_groups p = seq (start n g (p_group p)) (start n g (S (p_group p)) - start n g (p_group p))).
  { apply group_members; assumption. }
  assert (I: start n g (p_group p) <= r < start n g (S (p_group p))).
  { apply group_iff; [assumption|reflexivity]. }
  assert (RG: p_rank_groups p = r - start n g (p_group p)).
  { change (p_rank_groups p) with (position r (p_comm_groups p)). rewrite E. apply position_seq. lia. }
  repeat split; try assumption; try lia.
  - unfold p, mpi_partition; cbn. fold g. unfold group_of. apply Nat.div_lt_upper_bound; nia.
  - intros H. change (p_proc0_groups p) with (p_rank_groups p =? 0) in H. apply Nat.eqb_eq in H. lia.
  - intros H. change (p_proc0_groups p) with (p_rank_groups p =? 0). apply Nat.eqb_eq. lia.
Qed.

Definition leader req n r := p_proc0_groups (mpi_partition req n r).

Lemma leaders_list req n : 1 <= n -> forall k, k <= clamp_ngroups req n ->
  filter (leader req n) (seq 0 (start n (clamp_ngroups req n) k)) = map (start n (clamp_ngroups req n)) (seq 0 k).
Proof.
  intros Hn. set (g := clamp_ngroups req n). assert (Hg: 1 <= g <= n) by (apply clamp_spec; assumption).
  assert (LD: forall k r, k < g -> start n g k <= r < start n g (S k) -> leader req n r = (r =? start n g k)).
  { intros k r Hk Hr.
    assert (U: start n g (S k) <= n).
    { transitivity (start n g g); [apply start_mono; [exact Hg|exact Hk]|]. rewrite start_g by exact Hg. lia. }
    destruct (C30_facts req n Hn r ltac:(lia)) as (Eg & _ & _ & _ & _ & Hl). fold g in Eg, Hl.
    assert (Ek: group_of n g r = k) by (apply group_iff; assumption).
    rewrite Eg, Ek in Hl. unfold leader. destruct (Nat.eqb_spec r (start n g k)) as [E|E].
    - now apply Hl.
    - apply Bool.not_true_iff_false. intros H. apply Hl in H. contradiction. }
  induction k as [|k IH]; intros Hk. { rewrite (start_0 n g Hg). reflexivity. }
  rewrite seq_S, map_app, <- IH by lia. cbn [map].
  pose proof (start_lt n g Hg k) as L. cbn [Nat.add].
  replace (start n g (S k)) with (start n g k + S (start n g (S k) - S (start n g k))) at 1 by lia.
  rewrite seq_app, filter_app. f_equal. cbn [Nat.add seq filter].
  rewrite (LD k) by lia. rewrite Nat.eqb_refl. f_equal.
  assert (F: forall l, (forall r, In r l -> leader req n r = false) -> filter (leader req n) l = []).
  { induction l as [|x l IHl]; intros H; cbn [filter]; [reflexivity|]. rewrite (H x) by now left. apply IHl. intros; apply H; now right. }
  apply F. intros r Hr. apply in_seq in Hr. rewrite (LD k) by lia. apply Nat.eqb_neq. lia.
Qed.

Lemma position_map (f : nat -> nat) : forall l x, (forall y, In y l -> f y = f x -> y = x) ->
  position (f x) (map f l) = position x l.
Proof.
  induction l as [|y l IH]; intros x H; cbn; [reflexivity|].
  destruct (Nat.eqb_spec (f y) (f x)) as [E|E]; destruct (Nat.eqb_spec y x) as [E'|E']; subst; try reflexivity; try congruence.
  - exfalso. apply E', H; [now left|assumption].
  - f_equal. apply IH. intros; apply H; [now right|assumption].
Qed.

Lemma leaders_comm req n r : 1 <= n -> r < n -> leader req n r = true ->
  p_comm_leaders (mpi_partition req n r) = map (start n (clamp_ngroups req n)) (seq 0 (clamp_ngroups req n)).
Proof.
  intros Hn Hr Hl. rewrite <- leaders_list by lia.
  assert (Hg: 1 <= clamp_ngroups req n <= n) by (apply clamp_spec; assumption).
  rewrite (start_g n _ Hg).
  change (p_comm_leaders (mpi_partition req n r)) with
    (split_members n (fun q => if leader req n q then Some 0 else None) r).
  unfold split_members. rewrite Hl. apply filter_ext. intros q. now destruct (leader req n q).
Qed.

(** Specification: number of processes of group [k], counted over the whole world. *)
Definition group_size req n k := length (filter (fun r => p_group (mpi_partition req n r) =? k) (seq 0 n)).

Lemma group_size_eq req n k : 1 <= n -> k < clamp_ngroups req n ->
  group_size req n k = start n (clamp_ngroups req n) (S k) - start n (clamp_ngroups req n) k.
Proof.
  intros Hn Hk. set (g := clamp_ngroups req n) in *. assert (Hg: 1 <= g <= n) by (apply clamp_spec; assumption).
  unfold group_size. pose proof (start_lt n g Hg k).
  assert (U: start n g (S k) <= n).
  { transitivity (start n g g); [apply start_mono; [exact Hg|exact Hk]|]. rewrite start_g by exact Hg. lia. }
  rewrite (filter_range (start n g k) (start n g (S k)) n 0); try lia.
  - apply seq_length.
  - intros r. rewrite Nat.eqb_eq. apply (group_iff n g Hg).
Qed.

Theorem C30_ngroups_clamped : forall request nprocs rank, 1 <= nprocs ->
  Z.of_nat (p_ngroups (mpi_partition request nprocs rank)) =
  match request with
  | None => Z.of_nat nprocs
  | Some z => Z.max 1 (Z.min z (Z.of_nat nprocs))
  end.
Proof.
  intros req n r Hn. change (p_ngroups (mpi_partition req n r)) with (clamp_ngroups req n). unfold clamp_ngroups.
  destruct req as [z|].
  - cases_ltb; lia.
  - cases_ltb; lia.
Qed.

(** Groups are numbered 0..ngroups-1 in rank order, all non-empty, sizes differing by at most one. *)
Theorem C30_groups_partition_the_processes : forall request nprocs, 1 <= nprocs ->
  let P := mpi_partition request nprocs in
  (forall r, r < nprocs -> p_group (P r) < p_ngroups (P r)) /\
  (forall r r', r <= r' -> r' < nprocs -> p_group (P r) <= p_group (P r')) /\
  (forall k, k < p_ngroups (P 0) -> exists r, r < nprocs /\ p_group (P r) = k) /\
  (forall k, k < p_ngroups (P 0) ->
     nprocs / p_ngroups (P 0) <= group_size request nprocs k <= nprocs / p_ngroups (P 0) + 1) /\
  p_group (P 0) = 0.
Proof.
  intros req n Hn P. set (g := clamp_ngroups req n). assert (Hg: 1 <= g <= n) by (apply clamp_spec; assumption).
  repeat split.
  - intros r Hr. destruct (C30_facts req n Hn r Hr) as (_ & H & _). exact H.
  - intros r r' H H'. unfold P, mpi_partition, p_group, group_of. apply Nat.div_le_mono; [lia|]. now apply Nat.mul_le_mono_r.
  - intros k Hk. change (p_ngroups (P 0)) with g in Hk. pose proof (start_lt n g Hg k). exists (start n g k). split.
    + assert (start n g k < start n g g) by (apply start_smono; assumption). rewrite (start_g n g Hg) in *. lia.
    + apply (group_iff n g Hg). lia.
  - change (p_ngroups (P 0)) with g in *. rewrite group_size_eq by assumption. fold g. pose proof (start_step n g Hg k). lia.
  - change (p_ngroups (P 0)) with g in *. rewrite group_size_eq by assumption. fold g. pose proof (start_step n g Hg k). lia.
  - unfold P, mpi_partition, p_group, group_of. rewrite Nat.mul_0_l. apply Nat.div_0_l. lia.
Qed.

(** The group communicator of a process contains exactly the processes of its group, in rank order, and the
    process's rank in it is the number of lower-ranked members. *)
Theorem C30_group_communicator : forall request nprocs rank, 1 <= nprocs -> rank < nprocs ->
  let P := mpi_partition request nprocs in
  p_comm_groups (P rank) = filter (fun r => p_group (P r) =? p_group (P rank)) (seq 0 nprocs) /\
  p_nprocs_groups (P rank) = group_size request nprocs (p_group (P rank)) /\
  p_rank_groups (P rank) = length (filter (fun r => p_group (P r) =? p_group (P rank)) (seq 0 rank)).
Proof.
  intros req n r Hn Hr P. repeat split.
  change (p_rank_groups (P r)) with (position r (p_comm_groups (P r))).
  change (p_comm_groups (P r)) with (filter (fun q => p_group (P q) =? p_group (P r)) (seq 0 n)).
  rewrite position_filter.
  - rewrite position_seq by lia. rewrite Nat.sub_0_r.
    replace n with (r + (n - r)) by lia. rewrite seq_app, firstn_app, seq_length, Nat.sub_diag. cbn.
    rewrite app_nil_r. rewrite firstn_all2 by (rewrite seq_length; lia). reflexivity.
  - apply seq_NoDup.
  - apply in_seq. lia.
  - apply Nat.eqb_refl.
Qed.

(** Each group has exactly one leader, its lowest rank; rank 0 leads; the rank of a leader among the leaders is
    its group number and the leaders are as many as the groups. *)
Theorem C30_leaders : forall request nprocs rank, 1 <= nprocs -> rank < nprocs ->
  let P := mpi_partition request nprocs in
  (p_proc0_groups (P rank) = true <-> forall r, r < nprocs -> p_group (P r) = p_group (P rank) -> rank <= r) /\
  (p_proc0_groups (P rank) = true ->
     p_rank_leaders (P rank) = Z.of_nat (p_group (P rank)) /\
     p_nprocs_leaders (P rank) = Z.of_nat (p_ngroups (P rank)) /\
     p_comm_leaders (P rank) = filter (fun r => p_proc0_groups (P r)) (seq 0 nprocs)) /\
  (p_proc0_groups (P rank) = false ->
     p_rank_leaders (P rank) = (-1)%Z /\ p_nprocs_leaders (P rank) = (-1)%Z /\ p_comm_leaders (P rank) = []) /\
  (p_proc0_world (P rank) = true <-> rank = 0) /\
  (p_proc0_world (P rank) = true -> p_proc0_groups (P rank) = true).
Proof.
  intros req n r Hn Hr P. set (g := clamp_ngroups req n). assert (Hg: 1 <= g <= n) by (apply clamp_spec; assumption).
  pose proof (C30_facts req n Hn r Hr) as F. cbv zeta in F. fold (P r) in F. fold g in F.
  destruct F as (Eg & Hlt & _ & Erg & Hin & Hl).
  assert (C: p_proc0_groups (P r) = true <-> forall q, q < n -> p_group (P q) = p_group (P r) -> r <= q).
  { rewrite Hl. split.
    - intros E q Hq Eq. rewrite E. assert (X: group_of n g q = p_group (P r)) by exact Eq. apply (group_iff n g Hg) in X. lia.
    - intros H. assert (r <= start n g (p_group (P r))).
      { apply H; [lia|]. assert (X: group_of n g (start n g (p_group (P r))) = p_group (P r)).
        { apply (group_iff n g Hg). pose proof (start_lt n g Hg (p_group (P r))). lia. } exact X. }
      lia. }
  assert (W: p_proc0_world (P r) = true <-> r = 0).
  { unfold P, mpi_partition, p_proc0_world. apply Nat.eqb_eq. }
  split; [exact C|]. split.
  { intros Ht. assert (E: p_comm_leaders (P r) = map (start n g) (seq 0 g)) by (apply leaders_comm; assumption).
    repeat split.
    - transitivity (Z.of_nat (position r (p_comm_leaders (P r)))).
      { change (p_rank_leaders (P r)) with (if p_proc0_groups (P r) then Z.of_nat (position r (p_comm_leaders (P r))) else (-1)%Z).
        now rewrite Ht. }
      f_equal. rewrite E. apply Hl in Ht. rewrite Ht at 1. rewrite position_map.
      + rewrite position_seq; lia.
      + intros y _ H. destruct (lt_eq_lt_dec y (p_group (P r))) as [[L|L]|L]; [|exact L|];
        apply (start_smono n g Hg) in L; lia.
    - transitivity (Z.of_nat (length (p_comm_leaders (P r)))).
      { change (p_nprocs_leaders (P r)) with (if p_proc0_groups (P r) then Z.of_nat (length (p_comm_leaders (P r))) else (-1)%Z).
        now rewrite Ht. }
      rewrite E, map_length, seq_length. reflexivity.
    - rewrite E. rewrite <- (start_g n g Hg) at 2. symmetry. apply (leaders_list req n Hn g). unfold g. lia. }
  split.
  { intros Hf. repeat split.
    - change (p_rank_leaders (P r)) with (if p_proc0_groups (P r) then Z.of_nat (position r (p_comm_leaders (P r))) else (-1)%Z).
      now rewrite Hf.
    - change (p_nprocs_leaders (P r)) with (if p_proc0_groups (P r) then Z.of_nat (length (p_comm_leaders (P r))) else (-1)%Z).
      now rewrite Hf.
    - change (p_comm_leaders (P r)) with (split_members n (fun q => if p_proc0_groups (P q) then Some 0 else None) r).
      unfold split_members. now rewrite Hf. }
  split; [exact W|]. intros H. apply W in H. apply C. intros; lia.
Qed.

Example C30_ex : map (fun r => let p := mpi_partition (Some 3%Z) 7 r in
    (p_group p, p_rank_groups p, p_nprocs_groups p, p_rank_leaders p)) (seq 0 7)
  = [(0,0,3,0%Z); (0,1,3,(-1)%Z); (0,2,3,(-1)%Z); (1,0,2,1%Z); (1,1,2,(-1)%Z); (2,0,2,2%Z); (2,1,2,(-1)%Z)].
Proof. reflexivity. Qed.
Print Assumptions C30_ngroups_clamped.
Print Assumptions C30_groups_partition_the_processes.
Print Assumptions C30_group_communicator.
Print Assumptions C30_leaders.
