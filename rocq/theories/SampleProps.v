(** C135: rejection sampling on curves and surfaces. *)
From Coq Require Import Reals Lra Lia List Bool Arith Permutation Sorting.Sorted.
From Verif Require Import ListAux VecAux BSVjp CurveObjModel SampleModel.
Import ListNotations.
Open Scope R_scope.

(** ** Specification *)
(** The weights (lengths or areas belonging to the quadrature points): not negative, and not all zero. *)
Definition weights_ok (w : list R) : Prop := (forall k, (k < length w)%nat -> 0 <= nth k w 0) /\ exists k, (k < length w)%nat /\ 0 < nth k w 0.
(** What np.random.randint and np.random.uniform may return for one attempt. *)
Definition attempt_ok (w : list R) (a : nat * R) : Prop := (fst a < length w)%nat /\ 0 <= snd a < 1.
Definition total (w : list R) : R := sum_to (length w) (fun k => nth k w 0).

(** ** Lemmas *)
Lemma max_ge w : forall k, (k < length w)%nat -> nth k w 0 <= np_max w.
Proof.
  unfold np_max. generalize (hd 0 w). induction w as [|a r IH]; intros d k K; [cbn in K; lia|]. cbn [fold_right]. destruct k as [|k]; cbn [nth]; [apply Rmax_l|]. eapply Rle_trans; [apply (IH d); cbn in K; lia|apply Rmax_r].
Qed.
Lemma max_in w : w <> [] -> exists k, (k < length w)%nat /\ nth k w 0 = np_max w.
Proof.
  intros H. assert (A : forall l d, fold_right Rmax d l = d \/ exists k, (k < length l)%nat /\ nth k l 0 = fold_right Rmax d l).
  { induction l as [|a r IH]; intros d; [now left|]. cbn [fold_right]. destruct (Rle_dec a (fold_right Rmax d r)) as [L|L].
    - rewrite Rmax_right by exact L. destruct (IH d) as [E|(k & K & E)]; [now left|]. right. exists (S k). split; [cbn; lia|exact E].
    - rewrite Rmax_left by lra. right. exists 0%nat. split; [cbn; lia|reflexivity]. }
  unfold np_max. destruct (A w (hd 0 w)) as [E|E]; [|exact E]. destruct w as [|a r]; [congruence|]. exists 0%nat. split; [cbn; lia|]. rewrite E. reflexivity.
Qed.
Lemma max_pos w : weights_ok w -> 0 < np_max w.
Proof. intros (_ & k & K & P). eapply Rlt_le_trans; [exact P|now apply max_ge]. Qed.
Lemma insert_perm x l : Permutation (x :: l) (insert_nat x l).
Proof. induction l as [|y r IH]; [reflexivity|]. cbn. destruct (x <=? y)%nat; [reflexivity|]. rewrite perm_swap. now apply perm_skip. Qed.
Lemma sort_perm l : Permutation l (np_sort l).
Proof. induction l as [|x r IH]; [reflexivity|]. cbn. rewrite <- insert_perm. now apply perm_skip. Qed.
Lemma insert_sorted x l : StronglySorted le l -> StronglySorted le (insert_nat x l).
Proof.
  induction l as [|y r IH]; intros S; [repeat constructor|]. cbn. inversion S as [|? ? S' F]; subst. destruct (Nat.leb_spec x y).
  - constructor; [exact S|]. constructor; [exact H|]. eapply Forall_impl; [|exact F]. cbn. intros; lia.
  - constructor; [now apply IH|]. eapply Permutation_Forall; [apply insert_perm|]. constructor; [lia|exact F].
Qed.
Lemma sort_sorted l : StronglySorted le (np_sort l).
Proof. induction l as [|x r IH]; [constructor|]. now apply insert_sorted. Qed.

(** ** One attempt *)
(** An attempt that drew point k is accepted exactly when its uniform number is below p k; p k is the weight of k as a
    fraction of the largest weight.  Since all points are drawn equally often, an accepted attempt is at point k with
    probability p k / sum of p = (weight of k) / (total weight). *)
Theorem C135_probability (w : list R) : weights_ok w -> exists p : nat -> R,
  (forall k u, accepted w [(k, u)] = if Rlt_dec u (p k) then [k] else []) /\
  (forall k, (k < length w)%nat -> 0 <= p k <= 1) /\ (exists k, (k < length w)%nat /\ p k = 1) /\
  0 < sum_to (length w) p /\ (forall k, (k < length w)%nat -> p k / sum_to (length w) p = nth k w 0 / total w).
Proof.
  intros OK. pose proof (max_pos w OK) as MP. destruct OK as (NN & k0 & K0 & P0). exists (fun k => nth k w 0 / np_max w).
  assert (T : sum_to (length w) (fun k => nth k w 0 / np_max w) = total w / np_max w).
  { unfold total, Rdiv. rewrite Rmult_comm. unfold sum_to. generalize (seq 0 (length w)) as l. induction l as [|a r IH]; [cbn; ring|]. cbn in *. rewrite IH. ring. }
  assert (TP : 0 < total w).
  { unfold total, sum_to. assert (G : forall l, (forall k, In k l -> (k < length w)%nat) -> 0 <= rsuml (map (fun k => nth k w 0) l) /\ (In k0 l -> 0 < rsuml (map (fun k => nth k w 0) l))).
    { induction l as [|a r IH]; intros A; [cbn; split; [lra|tauto]|]. cbn. destruct (IH (fun k H => A k (or_intror H))) as (I1 & I2). pose proof (NN a (A a (or_introl eq_refl))) as Na. split; [lra|]. intros [->|H]; [lra|specialize (I2 H); lra]. }
    apply G; [intros k H; apply in_seq in H; lia|apply in_seq; lia]. }
  split; [|split; [|split; [|split]]].
  - intros k u. unfold accepted. cbn [filter fst snd]. destruct (Rlt_dec u _); reflexivity.
  - intros k K. pose proof (max_ge w k K). pose proof (NN k K). split; [apply Rmult_le_pos; [assumption|left; now apply Rinv_0_lt_compat]|]. apply (Rmult_le_reg_r (np_max w)); [exact MP|]. unfold Rdiv. rewrite Rmult_assoc, Rinv_l by lra. lra.
  - destruct (max_in w) as (k & K & E); [intros ->; cbn in K0; lia|]. exists k. split; [exact K|]. rewrite E. field. lra.
  - rewrite T. now apply Rdiv_lt_0_compat.
  - intros k K. rewrite T. field. split; lra.
Qed.

(** ** The whole call, on a curve *)
(** Attempts are treated one by one; the first nsamples accepted ones are returned, sorted by index, with the points of the curve at
    these indices.  It fails exactly when at most nsamples attempts are accepted. *)
Lemma accepted_app w a b : accepted w (a ++ b) = accepted w a ++ accepted w b.
Proof. unfold accepted. now rewrite filter_app, map_app. Qed.
Lemma accepted_in w l k : Forall (attempt_ok w) l -> In k (accepted w l) -> (k < length w)%nat.
Proof. intros F H. unfold accepted in H. apply in_map_iff in H. destruct H as (a & <- & H). apply filter_In in H. rewrite Forall_forall in F. exact (proj1 (F a (proj1 H))). Qed.
Theorem C135_curve {P : Type} (alen : list R) (gamma : nat -> P) (nsamples : nat) (attempts : list (nat * R)) : Forall (attempt_ok alen) attempts ->
  (draw_uniform_on_curve alen gamma nsamples attempts = AssertionError <-> (length (flat_map (fun a => accepted alen [a]) attempts) <= nsamples)%nat) /\
  (forall xyz idxs, draw_uniform_on_curve alen gamma nsamples attempts = Points (xyz, idxs) ->
    length idxs = nsamples /\ StronglySorted le idxs /\ xyz = map gamma idxs /\ (forall k, In k idxs -> (k < length alen)%nat) /\
    Permutation idxs (firstn nsamples (flat_map (fun a => accepted alen [a]) attempts))).
Proof.
  intros F. assert (A : flat_map (fun a => accepted alen [a]) attempts = accepted alen attempts).
  { clear F. induction attempts as [|a r IH]; [reflexivity|]. cbn [flat_map]. rewrite IH, <- accepted_app. reflexivity. }
  rewrite A. unfold draw_uniform_on_curve, draw_indices. destruct (Nat.ltb_spec nsamples (length (accepted alen attempts))) as [L|L].
  - split; [split; [discriminate|lia]|]. intros xyz idxs E. injection E as <- <-. split; [|split; [apply sort_sorted|split; [reflexivity|split; [|symmetry; apply sort_perm]]]].
    + rewrite <- (Permutation_length (sort_perm _)), firstn_length. lia.
    + intros k K. apply (Permutation_in _ (Permutation_sym (sort_perm _))) in K. apply (accepted_in alen attempts k F). rewrite <- (firstn_skipn nsamples). apply in_or_app. now left.
  - split; [split; [intros _; exact L|reflexivity]|]. discriminate.
Qed.
(** No sample at all cannot be asked for, and exactly enough accepted attempts are not enough. *)
Theorem C135_edge {P : Type} (alen : list R) (gamma : nat -> P) (nsamples safetyfactor : nat) (attempts : list (nat * R)) : length attempts = nattempts nsamples safetyfactor ->
  (nsamples = 0%nat -> draw_uniform_on_curve alen gamma nsamples attempts = AssertionError) /\
  (length (accepted alen attempts) = nsamples -> draw_uniform_on_curve alen gamma nsamples attempts = AssertionError).
Proof.
  intros L. assert (E : length (accepted alen attempts) = nsamples -> draw_uniform_on_curve alen gamma nsamples attempts = AssertionError).
  { intros E. unfold draw_uniform_on_curve, draw_indices. rewrite E, Nat.ltb_irrefl. reflexivity. }
  split; [|exact E]. intros ->. apply E. unfold nattempts in L. destruct attempts; [reflexivity|discriminate].
Qed.
(** A curve or surface that is moved, or scaled by a factor c, gives the sample at the same indices. *)
Lemma max_scaled c w : 0 < c -> np_max (map (Rmult c) w) = c * np_max w.
Proof.
  intros C. unfold np_max. assert (G : forall l d, fold_right Rmax (c * d) (map (Rmult c) l) = c * fold_right Rmax d l) by (induction l as [|a r IH]; intros d; [reflexivity|]; cbn; rewrite IH; apply RmaxRmult; lra).
  rewrite <- G. f_equal. destruct w; cbn; ring.
Qed.
Theorem C135_scale (w : list R) (c : R) (nsamples : nat) (attempts : list (nat * R)) : 0 < c -> weights_ok w -> draw_indices (map (Rmult c) w) nsamples attempts = draw_indices w nsamples attempts.
Proof.
  intros C OK. pose proof (max_pos w OK) as MP. unfold draw_indices. replace (accepted (map (Rmult c) w) attempts) with (accepted w attempts); [reflexivity|]. unfold accepted. f_equal. apply filter_ext. intros a. rewrite max_scaled by exact C.
  replace (nth (fst a) (map (Rmult c) w) 0) with (c * nth (fst a) w 0) by (rewrite <- (map_nth (Rmult c)), Rmult_0_r; reflexivity). replace (c * nth (fst a) w 0 / (c * np_max w)) with (nth (fst a) w 0 / np_max w) by (field; lra). reflexivity.
Qed.

(** ** Surfaces *)
Lemma flat_nth jac ntheta : forall nphi i j, (i < nphi)%nat -> (j < ntheta)%nat -> nth (i * ntheta + j) (flat_weights jac nphi ntheta) 0 = jac i j.
Proof.
  intros nphi i j I J. unfold flat_weights. assert (G : forall s, (i < nphi)%nat -> nth (i * ntheta + j) (flat_map (fun i => map (jac i) (seq 0 ntheta)) (seq s nphi)) 0 = jac (s + i)%nat j).
  { clear I. revert i. induction nphi as [|n IH]; intros i s I; [lia|]. cbn [seq flat_map]. destruct i as [|i].
    - rewrite app_nth1 by (rewrite map_length, seq_length; lia). rewrite Nat.add_0_r. cbn [Nat.mul Nat.add]. rewrite (nth_indep _ 0 (jac s 0%nat)) by (now rewrite map_length, seq_length). rewrite map_nth, seq_nth by exact J. reflexivity.
    - rewrite app_nth2 by (rewrite map_length, seq_length; cbn [Nat.mul]; lia). rewrite map_length, seq_length. replace (S i * ntheta + j - ntheta)%nat with (i * ntheta + j)%nat by (cbn [Nat.mul]; lia). rewrite IH by lia. f_equal. lia. }
  now apply (G 0%nat).
Qed.
Lemma flat_length jac ntheta nphi : length (flat_weights jac nphi ntheta) = (nphi * ntheta)%nat.
Proof. unfold flat_weights. assert (G : forall n s, length (flat_map (fun i => map (jac i) (seq 0 ntheta)) (seq s n)) = (n * ntheta)%nat) by (induction n as [|n IH]; intros s; [reflexivity|]; cbn [seq flat_map]; rewrite app_length, IH, map_length, seq_length; reflexivity). apply G. Qed.
(** For arrays in C order the returned index pairs are points of the grid, each attempt at a pair (i, j) is accepted according to the area
    element at (i, j), the points are the points of the surface there, and the pairs are in lexicographic order. *)
Theorem C135_surface {P : Type} (nphi ntheta : nat) (jac : nat -> nat -> R) (gamma : nat -> nat -> P) (nsamples : nat) (attempts : list (nat * R)) :
  Forall (attempt_ok (flat_weights jac nphi ntheta)) attempts -> forall xyz ij, draw_uniform_on_surface false nphi ntheta jac gamma nsamples attempts = Points (xyz, ij) ->
  length ij = nsamples /\ xyz = map (fun p => gamma (fst p) (snd p)) ij /\ (forall p, In p ij -> (fst p < nphi)%nat /\ (snd p < ntheta)%nat) /\
  StronglySorted (fun p q => (fst p < fst q \/ (fst p = fst q /\ snd p <= snd q))%nat) ij /\
  (forall k, (k < nphi * ntheta)%nat -> nth k (flat_weights jac nphi ntheta) 0 = jac (fst (unravel false nphi ntheta k)) (snd (unravel false nphi ntheta k))) /\
  (forall p, In p ij -> exists u, 0 <= u < 1 /\ u < jac (fst p) (snd p) / np_max (flat_weights jac nphi ntheta)).
Proof.
  intros F xyz ij E. unfold draw_uniform_on_surface, draw_indices in E. set (w := flat_weights jac nphi ntheta) in *. destruct (Nat.ltb_spec nsamples (length (accepted w attempts))) as [L|L]; [|discriminate]. injection E as <- <-.
  assert (B : forall k, In k (np_sort (firstn nsamples (accepted w attempts))) -> In k (accepted w attempts)) by (intros k K; apply (Permutation_in _ (Permutation_sym (sort_perm _))) in K; rewrite <- (firstn_skipn nsamples); apply in_or_app; now left).
  assert (UN : forall k, (k < nphi * ntheta)%nat -> (fst (unravel false nphi ntheta k) < nphi)%nat /\ (snd (unravel false nphi ntheta k) < ntheta)%nat /\ (fst (unravel false nphi ntheta k) * ntheta + snd (unravel false nphi ntheta k))%nat = k).
  { intros k K. cbn [unravel fst snd]. assert (ntheta <> 0)%nat by (intros ->; lia). split; [apply Nat.div_lt_upper_bound; lia|]. split; [now apply Nat.mod_upper_bound|]. rewrite (Nat.div_mod k ntheta) at 3 by assumption. lia. }
  assert (LT : forall k, In k (accepted w attempts) -> (k < nphi * ntheta)%nat) by (intros k K; rewrite <- (flat_length jac); exact (accepted_in w attempts k F K)).
  assert (W : forall k, (k < nphi * ntheta)%nat -> nth k w 0 = jac (fst (unravel false nphi ntheta k)) (snd (unravel false nphi ntheta k))).
  { intros k K. destruct (UN k K) as (A1 & A2 & A3). rewrite <- (flat_nth jac ntheta nphi _ _ A1 A2), A3. reflexivity. }
  split; [|split; [reflexivity|split; [|split; [|split; [exact W|]]]]].
  - rewrite map_length, <- (Permutation_length (sort_perm _)), firstn_length. lia.
  - intros p H. apply in_map_iff in H. destruct H as (k & <- & K). destruct (UN k (LT k (B k K))) as (A1 & A2 & _). now split.
  - assert (S : StronglySorted le (np_sort (firstn nsamples (accepted w attempts)))) by apply sort_sorted. assert (BB : forall k, In k (np_sort (firstn nsamples (accepted w attempts))) -> (k < nphi * ntheta)%nat) by (intros k K; auto). revert S BB. generalize (np_sort (firstn nsamples (accepted w attempts))) as l.
    induction l as [|a r IH]; intros S BB; [constructor|]. cbn [map]. inversion S as [|? ? S' Fo]; subst. constructor; [apply IH; [exact S'|intros k K; apply BB; now right]|]. apply Forall_forall. intros q Q. apply in_map_iff in Q. destruct Q as (b & <- & Hb). rewrite Forall_forall in Fo. specialize (Fo b Hb).
    destruct (UN a (BB a (or_introl eq_refl))) as (_ & A2 & A3). destruct (UN b (BB b (or_intror Hb))) as (_ & B2 & B3). set (ua := unravel false nphi ntheta a) in *. set (ub := unravel false nphi ntheta b) in *. destruct (lt_eq_lt_dec (fst ua) (fst ub)) as [[Q|Q]|Q]; [left; exact Q|right; split; [exact Q|]|exfalso; nia]. rewrite Q in A3. lia.
  - intros p H. apply in_map_iff in H. destruct H as (k & <- & K). pose proof (B k K) as K2. unfold accepted in K2. apply in_map_iff in K2. destruct K2 as (a & Ea & Ha). apply filter_In in Ha. destruct Ha as (Ha & Hb). destruct (Rlt_dec _ _) as [Q|Q] in Hb; [|discriminate]. rewrite Ea in Q. rewrite W in Q by auto. exists (snd a). rewrite Forall_forall in F. split; [exact (proj2 (F a Ha))|exact Q].
Qed.
(** For Fortran-ordered arrays (np.isfortran(gamma)) the flat index into the C-ordered area elements is unravelled in Fortran order:
    points with zero area element are returned. *)
Theorem C135_fortran_refuted : exists (jac : nat -> nat -> R) (attempts : list (nat * R)) xyz, weights_ok (flat_weights jac 2 3) /\ Forall (attempt_ok (flat_weights jac 2 3)) attempts /\
  draw_uniform_on_surface true 2 3 jac (fun i j => (i, j)) 1 attempts = Points (xyz, [(1, 0)]%nat) /\ jac 1%nat 0%nat = 0.
Proof.
  exists (fun i j => if ((i =? 0) && (j =? 1))%nat then 1 else 0), [(1%nat, 0); (1%nat, 0)], [(1, 0)]%nat.
  split; [|split; [|split; [|reflexivity]]].
  - unfold flat_weights. cbn. split.
    + intros k K. cbn in K. do 6 (destruct k as [|k]; [cbn; lra|]). lia.
    + exists 1%nat. cbn. split; [lia|lra].
  - apply Forall_forall. intros a H. assert (E : a = (1%nat, 0)) by (destruct H as [H|[H|[]]]; now symmetry). subst a. split; cbn; [lia|lra].
  - unfold draw_uniform_on_surface, draw_indices, accepted, flat_weights, np_max. cbn [seq flat_map map app hd fold_right Nat.eqb andb filter fst snd nth].
    assert (M : Rmax 0 (Rmax 1 (Rmax 0 (Rmax 0 (Rmax 0 (Rmax 0 0))))) = 1) by (rewrite !(Rmax_left 0 0) by lra; rewrite (Rmax_left 1 0) by lra; rewrite (Rmax_right 0 1) by lra; reflexivity).
    rewrite M. destruct (Rlt_dec 0 (1 / 1)) as [_|N]; [reflexivity|exfalso; apply N; lra].
Qed.
Example C135_case : weights_ok [1; 2] /\ draw_indices [1; 2] 2 [(0%nat, 3 / 4); (1%nat, 3 / 4); (0%nat, 1 / 4); (0%nat, 0)] = Points [0; 1]%nat.
Proof.
  split; [split; [intros k K; cbn in K; destruct k as [|[|k]]; cbn; [lra|lra|lia]|exists 0%nat; cbn; split; [lia|lra]]|].
  unfold draw_indices, accepted, np_max. cbn [hd fold_right filter fst snd nth]. replace (Rmax 1 (Rmax 2 1)) with 2 by (rewrite (Rmax_left 2 1), Rmax_right by lra; reflexivity).
  destruct (Rlt_dec (3 / 4) (1 / 2)); [lra|]. destruct (Rlt_dec (3 / 4) (2 / 2)); [|lra]. destruct (Rlt_dec (1 / 4) (1 / 2)); [|lra]. destruct (Rlt_dec 0 (1 / 2)); [|lra]. reflexivity.
Qed.
Print Assumptions C135_probability.
Print Assumptions C135_surface.
