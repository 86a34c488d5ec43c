(** C76-C78: the single-curve objectives and the linking number. *)
From Coq Require Import Reals Lra Lia ZArith List Bool Permutation Ranalysis1.
From Verif Require Import ListAux VecAux Vec3 BSModel BSDeriv BSVjp PenaltyModel PointsModel SurfProps SurfDiffProps CurveModel CurveProps CurveDiff CurveDiffProps DistModel DistProps DistGrad CurveObjModel.
Import ListNotations.
Open Scope R_scope.

(** ** Lemmas *)
Lemma sum_to_ext n f g : (forall k, (k < n)%nat -> f k = g k) -> sum_to n f = sum_to n g.
Proof. intros H. apply rsuml_map_ext. intros k Hk. apply in_seq in Hk. apply H. lia. Qed.
Lemma sum_to_D n f f' t : (forall k, (k < n)%nat -> D (f k) t (f' k)) -> D (fun s => sum_to n (fun k => f k s)) t (sum_to n f').
Proof. intros H. apply (D_sum (seq 0 n) (fun k s => f k s)). intros k Hk. apply in_seq in Hk. apply H. lia. Qed.
Lemma mean_D n f f' t : (forall k, (k < n)%nat -> D (f k) t (f' k)) -> D (fun s => mean n (fun k => f k s)) t (mean n f').
Proof. intros H. unfold mean. eapply D_ext; [|eapply D_val; [|apply (D_mul (fun _ => / INR n)); [apply D_const|apply (sum_to_D n f f' t H)]]]; [intros s; unfold Rdiv; cbv beta; ring|unfold Rdiv; cbv beta; ring]. Qed.
Lemma mean_scal n c f : mean n (fun k => c * f k) = c * mean n f.
Proof. unfold mean, sum_to. rewrite rsuml_map_scale. unfold Rdiv. ring. Qed.
Lemma mean_sum n f : mean n f = sum_to n (fun k => 1 / INR n * f k).
Proof. unfold mean, sum_to. rewrite rsuml_map_scale. unfold Rdiv. ring. Qed.
Lemma maxpow x p : (1 <= p)%nat -> Rmax x 0 ^ (S p) = Rmax x 0 ^ 2 * x ^ (p - 1).
Proof.
  intros H. destruct p as [|p]; [lia|]. replace (S p - 1)%nat with p by lia. unfold Rmax. destruct (Rle_dec x 0) as [L|L].
  - cbn [pow]. ring.
  - change (x ^ S (S p)) with (x * (x * x ^ p)). cbn [pow]. ring.
Qed.
Lemma D_near f g t l : (exists del, 0 < del /\ forall s, Rabs (s - t) < del -> f s = g s) -> D f t l -> D g t l.
Proof.
  intros (del & P & E) H eps He. destruct (H eps He) as (d & K). assert (Pm : 0 < Rmin del d) by (apply Rmin_pos; [exact P|apply cond_pos]). exists (mkposreal _ Pm). intros h NZ L. cbn in L.
  rewrite <- !E; [apply K; [exact NZ|]|..].
  - eapply Rlt_le_trans; [exact L|apply Rmin_r].
  - replace (t - t) with 0 by ring. rewrite Rabs_R0. exact P.
  - replace (t + h - t) with h by ring. eapply Rlt_le_trans; [exact L|apply Rmin_l].
Qed.
(** max(x, 0) ** p as jax differentiates it *)
Lemma D_maxpow p x : (2 <= p)%nat \/ (1 <= p)%nat /\ x <> 0 -> D (fun x => Rmax x 0 ^ p) x (INR p * Rmax x 0 ^ (p - 1) * dmax x).
Proof.
  intros H. assert (P1 : (1 <= p)%nat) by lia. destruct p as [|p]; [lia|]. replace (S p - 1)%nat with p by lia. unfold dmax. destruct (Rlt_dec 0 x) as [L|L]; [|destruct (Rlt_dec x 0) as [L'|L']].
  - apply (D_near (fun y => y ^ S p)); [|eapply D_val; [|apply derivable_pt_lim_pow]; rewrite Rmax_left by lra; cbn [Nat.pred]; ring].
    exists x. split; [exact L|]. intros s Hs. apply Rabs_def2 in Hs. rewrite Rmax_left by lra. reflexivity.
  - apply (D_near (fun _ => 0)); [|eapply D_val; [|apply D_const]; ring].
    exists (- x). split; [lra|]. intros s Hs. apply Rabs_def2 in Hs. rewrite Rmax_right by lra. cbn [pow]. ring.
  - assert (x = 0) by lra. subst x. destruct H as [H|[_ H]]; [|now destruct H]. destruct p as [|p]; [lia|].
    eapply D_ext; [intros s; symmetry; apply (maxpow s (S p)); lia|]. replace (S p - 1)%nat with p by lia.
    eapply D_val; [|apply (D_mul (fun s => Rmax s 0 ^ 2)); [apply (D_maxsq (fun s => s)); apply D_id|apply (derivable_pt_lim_pow 0 p)]]. cbv beta. rewrite Rmax_right by lra. cbn [pow]. ring.
Qed.
(** max(|x| - c, 0) ** p, c >= 0 *)
Lemma abs_split x c p : 0 <= c -> (1 <= p)%nat -> Rmax (Rabs x - c) 0 ^ p = Rmax (x - c) 0 ^ p + Rmax (- x - c) 0 ^ p.
Proof.
  intros C P. destruct p as [|p]; [lia|]. destruct (Rle_dec 0 x).
  - rewrite Rabs_right by lra. rewrite (Rmax_right (- x - c)) by lra. cbn [pow]. ring.
  - rewrite Rabs_left by lra. rewrite (Rmax_right (x - c)) by lra. cbn [pow]. ring.
Qed.
Lemma D_abspow p c x : 0 <= c -> (2 <= p)%nat \/ (1 <= p)%nat /\ Rabs x <> c -> D (fun x => Rmax (Rabs x - c) 0 ^ p) x (INR p * Rmax (Rabs x - c) 0 ^ (p - 1) * dmax (Rabs x - c) * dabs x).
Proof.
  intros C H. assert (P1 : (1 <= p)%nat) by lia. eapply D_ext; [intros s; symmetry; apply abs_split; auto|].
  assert (A : x - c = 0 \/ - x - c = 0 -> (2 <= p)%nat). { intros Z. destruct H as [H|[_ H]]; [exact H|]. exfalso. apply H. destruct Z; [rewrite Rabs_right by lra|rewrite Rabs_left1 by lra]; lra. }
  assert (H1 : (2 <= p)%nat \/ (1 <= p)%nat /\ x - c <> 0) by (destruct (Req_EM_T (x - c) 0); [left; auto|right; auto]).
  assert (H2 : (2 <= p)%nat \/ (1 <= p)%nat /\ - x - c <> 0) by (destruct (Req_EM_T (- x - c) 0); [left; auto|right; auto]).
  eapply D_val; [|apply D_add; [apply (derivable_pt_lim_comp (fun x => x - c) (fun y => Rmax y 0 ^ p)); [apply D_sub; [apply D_id|apply D_const]|apply (D_maxpow p _ H1)]|apply (derivable_pt_lim_comp (fun x => - x - c) (fun y => Rmax y 0 ^ p)); [apply D_sub; [apply D_opp, D_id|apply D_const]|apply (D_maxpow p _ H2)]]].
  cbv beta. unfold dabs. destruct p as [|p]; [lia|]. replace (S p - 1)%nat with p by lia.
  destruct (Rlt_dec 0 x) as [L|L]; [|destruct (Rlt_dec x 0) as [L'|L']].
  - rewrite Rabs_right by lra. assert (Z : dmax (- x - c) = 0) by (unfold dmax; destruct (Rlt_dec _ _); [lra|]; destruct (Rlt_dec _ _); lra). rewrite Z. ring.
  - rewrite Rabs_left by lra. assert (Z : dmax (x - c) = 0) by (unfold dmax; destruct (Rlt_dec _ _); [lra|]; destruct (Rlt_dec _ _); lra). rewrite Z. ring.
  - assert (x = 0) by lra. subst x. rewrite Rabs_R0, Ropp_0. ring.
Qed.

(** ** C76 *)
(** J written with sums over the quadrature points, as in the documentation: (1/p) * int max(kappa - kappa0, 0)^p dl *)
Theorem C76_values nq p thr kap d1 l : (0 < nq)%nat ->
  length_J nq l = sum_to nq (fun k => l k * (1 / INR nq)) /\
  lp_J nq p thr kap d1 = 1 / INR p * sum_to nq (fun k => Rmax (kap k - thr) 0 ^ p * norm3 (d1 k) * (1 / INR nq)) /\
  (sum_to nq (fun k => norm3 (d1 k)) <> 0 -> msc_J nq kap d1 = sum_to nq (fun k => kap k ^ 2 * (norm3 (d1 k) * (1 / INR nq))) / length_J nq (fun k => norm3 (d1 k))).
Proof.
  intros N. assert (NZ : INR nq <> 0) by (apply not_0_INR; lia).
  assert (M : forall f, mean nq f = sum_to nq (fun k => f k * (1 / INR nq))) by (intros f; rewrite mean_sum; apply sum_to_ext; intros; ring).
  split; [apply M|split].
  - unfold lp_J. now rewrite M.
  - intros _. unfold msc_J, length_J. f_equal. rewrite M. apply sum_to_ext. intros; ring.
Qed.
Lemma sum_to_ge0 n f : (forall k, (k < n)%nat -> 0 <= f k) -> 0 <= sum_to n f.
Proof. intros H. apply rsuml_ge0. intros x X. apply in_map_iff in X. destruct X as (k & <- & Hk). apply in_seq in Hk. apply H. lia. Qed.
Lemma sum_to_zero n f : (forall k, (k < n)%nat -> 0 <= f k) -> (sum_to n f = 0 <-> forall k, (k < n)%nat -> f k = 0).
Proof.
  intros H. split.
  - intros Z k Hk. apply (rsuml_zero_all (map f (seq 0 n))); [|exact Z|apply in_map_iff; exists k; split; [reflexivity|apply in_seq; lia]]. intros x X. apply in_map_iff in X. destruct X as (j & <- & Hj). apply in_seq in Hj. apply H. lia.
  - intros Z. apply rsuml_map_zero. intros k Hk. apply in_seq in Hk. apply Z. lia.
Qed.
Lemma mean_ge0 n f : (forall k, (k < n)%nat -> 0 <= f k) -> 0 <= mean n f.
Proof.
  intros H. unfold mean. destruct n; [unfold sum_to; cbn; unfold Rdiv; rewrite Rmult_0_l; lra|]. apply Rmult_le_pos; [now apply sum_to_ge0|]. left. apply Rinv_0_lt_compat, lt_0_INR. lia.
Qed.
Lemma mean_zero n f : (0 < n)%nat -> (forall k, (k < n)%nat -> 0 <= f k) -> (mean n f = 0 <-> forall k, (k < n)%nat -> f k = 0).
Proof.
  intros N H. rewrite <- (sum_to_zero n f H). unfold mean. assert (NZ : / INR n <> 0) by (apply Rinv_neq_0_compat, not_0_INR; lia). split; [intros Z; apply Rmult_integral in Z; tauto|]. intros ->. unfold Rdiv. ring.
Qed.
(** the penalties are never negative and vanish exactly when the bound holds at every quadrature point *)
Theorem C76_nonnegative_and_zero nq p thr kap d1 : (0 < nq)%nat -> (0 < p)%nat -> (forall k, (k < nq)%nat -> d1 k <> v0) ->
  0 <= lp_J nq p thr kap d1 /\ (lp_J nq p thr kap d1 = 0 <-> forall k, (k < nq)%nat -> kap k <= thr) /\
  0 <= lpt_J nq p thr kap d1 /\ (lpt_J nq p thr kap d1 = 0 <-> forall k, (k < nq)%nat -> Rabs (kap k) <= thr) /\
  0 <= msc_J nq kap d1 /\ (msc_J nq kap d1 = 0 <-> forall k, (k < nq)%nat -> kap k = 0).
Proof.
  intros N P IM. assert (IP : 0 < 1 / INR p) by (unfold Rdiv; rewrite Rmult_1_l; apply Rinv_0_lt_compat, lt_0_INR; lia).
  assert (NP : forall k, (k < nq)%nat -> 0 < norm3 (d1 k)) by (intros; apply CurveDiffProps.norm_pos; auto).
  assert (G : forall val, (forall k, (k < nq)%nat -> 0 <= Rmax (val k - thr) 0 ^ p * norm3 (d1 k)) /\ 0 <= lp_J nq p thr val d1 /\ (lp_J nq p thr val d1 = 0 <-> forall k, (k < nq)%nat -> val k <= thr)).
  { intros val. assert (PP : forall k, (k < nq)%nat -> 0 <= Rmax (val k - thr) 0 ^ p * norm3 (d1 k)) by (intros k Hk; apply Rmult_le_pos; [apply pow_le, Rmax_r|specialize (NP k Hk); lra]). split; [exact PP|]. unfold lp_J. split; [apply Rmult_le_pos; [lra|now apply mean_ge0]|].
    assert (E : 1 / INR p * mean nq (fun k => Rmax (val k - thr) 0 ^ p * norm3 (d1 k)) = 0 <-> mean nq (fun k => Rmax (val k - thr) 0 ^ p * norm3 (d1 k)) = 0) by (split; [intros Z; apply Rmult_integral in Z; destruct Z; [lra|auto]|intros ->; ring]).
    rewrite E, (mean_zero nq _ N PP). split; intros H k Hk; specialize (H k Hk).
    - destruct (Rle_dec (val k) thr); [auto|]. exfalso. rewrite Rmax_left in H by lra. assert (0 < (val k - thr) ^ p * norm3 (d1 k)) by (apply Rmult_lt_0_compat; [apply pow_lt; lra|auto]). lra.
    - rewrite Rmax_right by lra. destruct p; [lia|]. cbn [pow]. ring. }
  destruct (G kap) as (_ & A & B). destruct (G (fun k => Rabs (kap k))) as (_ & A' & B'). split; [exact A|]. split; [exact B|]. split; [exact A'|]. split; [exact B'|].
  assert (PP : forall k, (k < nq)%nat -> 0 <= kap k ^ 2 * norm3 (d1 k)) by (intros k Hk; apply Rmult_le_pos; [apply pow2_ge_0|specialize (NP k Hk); lra]).
  assert (ML : 0 < mean nq (fun k => norm3 (d1 k))).
  { assert (Q : 0 <= mean nq (fun k => norm3 (d1 k))) by (apply mean_ge0; intros k Hk; specialize (NP k Hk); lra). destruct Q as [Q|Q]; [exact Q|]. exfalso. symmetry in Q. rewrite (mean_zero nq _ N) in Q by (intros k Hk; specialize (NP k Hk); lra). specialize (Q 0%nat N). specialize (NP 0%nat N). lra. }
  unfold msc_J. split; [apply Rmult_le_pos; [now apply mean_ge0|left; now apply Rinv_0_lt_compat]|].
  assert (E : mean nq (fun k => kap k ^ 2 * norm3 (d1 k)) / mean nq (fun k => norm3 (d1 k)) = 0 <-> mean nq (fun k => kap k ^ 2 * norm3 (d1 k)) = 0). { split; [|intros ->; unfold Rdiv; ring]. intros Z. apply Rmult_integral in Z. destruct Z as [Z|Z]; [exact Z|]. exfalso. revert Z. apply Rinv_neq_0_compat. lra. }
  rewrite E, (mean_zero nq _ N PP). split; intros H k Hk; specialize (H k Hk); specialize (NP k Hk).
  - apply Rmult_integral in H. destruct H as [H|H]; [|lra]. destruct (Req_EM_T (kap k) 0); [auto|]. exfalso. revert H. now apply pow_nonzero.
  - rewrite H. ring.
Qed.

(** the gradients with respect to the dofs of the curve *)
Section Dofs.
Variables (n nq : nat) (x : list R) (G1 G2 G3 : list R -> nat -> vec3) (C1 C2 C3 : nat -> nat -> vec3).
Hypotheses (L : length x = n) (NQ : (0 < nq)%nat).
Hypotheses (H1 : forall k, gradient3 n (fun x => G1 x k) x (C1 k)) (H2 : forall k, gradient3 n (fun x => G2 x k) x (C2 k)) (H3 : forall k, gradient3 n (fun x => G3 x k) x (C3 k)).
Notation kap x := (fun k => kappa (G1 x k) (G2 x k)).
Notation tor x := (fun k => torsion (G1 x k) (G2 x k) (G3 x k)).
Lemma dirR_sum_to v (f : nat -> nat -> R) : sum_to nq (fun k => dirR n v (fun m => f k m)) = dirR n v (fun m => sum_to nq (fun k => f k m)).
Proof. unfold sum_to. symmetry. apply (dirR_sum n v f (seq 0 nq)). Qed.
Lemma dirR_scal v c f : dirR n v (fun m => c * f m) = c * dirR n v f.
Proof. unfold dirR. rewrite <- rsuml_map_scale. apply rsuml_map_ext. intros; ring. Qed.
Lemma dirR_plus v f g : dirR n v (fun m => f m + g m) = dirR n v f + dirR n v g.
Proof. unfold dirR. rewrite <- rsuml_map_plus. apply rsuml_map_ext. intros; ring. Qed.
Lemma gradient_value f f' t v : gradient n f x f' -> length v = n -> t = dirR n v f' -> D (fun s => f (move x v s)) 0 t.
Proof. intros H Hv ->. now apply H. Qed.
Lemma norm_gradient k : G1 x k <> v0 -> gradient n (fun x => norm3 (G1 x k)) x (fun m => dincremental_arclength (G1 x k) (C1 k m)).
Proof. intros N. exact (C71_dincremental_arclength n x (fun x => G1 x k) (C1 k) L (H1 k) N). Qed.
Lemma dinc_dot d c : d <> v0 -> dincremental_arclength d c = dot3 (scal3 (1 / norm3 d) d) c.
Proof. intros N. apply CurveDiffProps.norm_pos in N. unfold dincremental_arclength. change (incremental_arclength d) with (norm3 d). unfold dot3. cbn [vx vy vz scal3]. field. lra. Qed.
Theorem C76_length_gradient J0 : (forall k, (k < nq)%nat -> G1 x k <> v0 /\ is_vjp norm3 (G1 x k) (length_grad nq k) (J0 k)) ->
  gradient n (fun x => length_J nq (fun k => incremental_arclength (G1 x k))) x (fun m => nth m (dincremental_vjp n nq C1 J0) 0).
Proof.
  intros HJ v Hv. rewrite (dirR_ext n v _ (fun m => sum_to nq (fun k => length_grad nq k * dincremental_arclength (G1 x k) (C1 k m)))).
  2:{ intros m Hm. apply (C71_dincremental_vjp n nq (fun k => G1 x k) (fun k => G2 x k) (fun k => G3 x k) C1 C2 C3 (length_grad nq) m Hm J0 HJ). }
  rewrite <- dirR_sum_to. unfold length_J. eapply D_val; [|apply (mean_D nq (fun k t => incremental_arclength (G1 (move x v t) k)) (fun k => dirR n v (fun m => dincremental_arclength (G1 x k) (C1 k m))))].
  - rewrite mean_sum. apply sum_to_ext. intros k _. now rewrite dirR_scal.
  - intros k Hk. apply (norm_gradient k); [now apply HJ|exact Hv].
Qed.
(** a weighted sum of functions phi(q_k, |G1_k|) *)
Lemma two_grads (q : list R -> nat -> R) (dq : nat -> nat -> R) (phi dphi : R -> R) (a : R) (dJq : nat -> R) (g0 : nat -> R) (g1 : nat -> vec3) :
  (forall k, (k < nq)%nat -> G1 x k <> v0) -> (forall k, (k < nq)%nat -> gradient n (fun x => q x k) x (dq k)) -> (forall k, (k < nq)%nat -> D phi (q x k) (dphi (q x k))) ->
  (forall m, (m < n)%nat -> dJq m = sum_to nq (fun k => g0 k * dq k m)) ->
  (forall k, (k < nq)%nat -> g0 k = a * (1 / INR nq) * dphi (q x k) * norm3 (G1 x k)) ->
  (forall k, (k < nq)%nat -> g1 k = scal3 (a * (1 / INR nq) * phi (q x k) / norm3 (G1 x k)) (G1 x k)) ->
  gradient n (fun x => a * mean nq (fun k => phi (q x k) * norm3 (G1 x k))) x (fun m => dJq m + nth m (curve_vjp n C1 nq g1) 0).
Proof.
  intros IM GQ DP EQ E0 E1 v Hv.
  rewrite (dirR_ext n v _ (fun m => sum_to nq (fun k => a * (1 / INR nq) * dphi (q x k) * norm3 (G1 x k) * dq k m + a * (1 / INR nq) * phi (q x k) * dincremental_arclength (G1 x k) (C1 k m)))).
  2:{ intros m Hm. rewrite (EQ m Hm), curve_vjp_nth by exact Hm. fold (sum_to nq (fun k => dot3 (g1 k) (C1 k m))). unfold sum_to. rewrite <- rsuml_map_plus. apply rsuml_map_ext. intros k Hk. apply in_seq in Hk. rewrite E0, E1, dinc_dot by (try apply IM; lia). rewrite !dot3_scal_l. unfold Rdiv. ring. }
  rewrite <- dirR_sum_to. assert (Z : move x v 0 = x) by (apply move_0; congruence).
  eapply D_val; [|apply (D_mul (fun _ => a)); [apply D_const|apply (mean_D nq (fun k t => phi (q (move x v t) k) * norm3 (G1 (move x v t) k)) (fun k => dphi (q x k) * dirR n v (dq k) * norm3 (G1 x k) + phi (q x k) * dirR n v (fun m => dincremental_arclength (G1 x k) (C1 k m))))]].
  - cbv beta. rewrite Rmult_0_l, Rplus_0_l, mean_sum. unfold sum_to. rewrite <- rsuml_map_scale. apply rsuml_map_ext. intros k _. rewrite dirR_plus.
    rewrite !dirR_scal. ring.
  - intros k Hk. assert (A := GQ k Hk v Hv). assert (B := norm_gradient k (IM k Hk) v Hv). cbv beta in A, B.
    assert (DPk := DP k Hk). rewrite <- Z in DPk at 1. assert (PC := derivable_pt_lim_comp (fun t => q (move x v t) k) phi 0 _ _ A DPk).
    eapply D_val; [|exact (D_mul (fun t => phi (q (move x v t) k)) (fun t => norm3 (G1 (move x v t) k)) 0 _ _ PC B)]. cbv beta. rewrite Z. ring.
Qed.
Theorem C76_curvature_gradient p thr J0 J1 : (forall k, (k < nq)%nat -> cross (G1 x k) (G2 x k) <> v0 /\ ((2 <= p)%nat \/ (1 <= p)%nat /\ kap x k <> thr) /\
    is_vjp (fun a => kappa a (G2 x k)) (G1 x k) (lp_grad0 nq p thr (kap x) (G1 x) k) (J0 k) /\ is_vjp (fun a => kappa (G1 x k) a) (G2 x k) (lp_grad0 nq p thr (kap x) (G1 x) k) (J1 k)) ->
  gradient n (fun x => lp_J nq p thr (kap x) (G1 x)) x (fun m => nth m (curvature_dJ n nq C1 C2 J0 J1 (lp_grad1 nq p thr (kap x) (G1 x))) 0).
Proof.
  intros HJ. assert (PZ : (1 <= p)%nat) by (destruct (HJ 0%nat NQ) as (_ & X & _); lia).
  assert (T := two_grads (fun x k => kappa (G1 x k) (G2 x k)) (fun k m => dkappa (G1 x k) (G2 x k) (C1 k m) (C2 k m)) (fun y => Rmax (y - thr) 0 ^ p) (fun y => INR p * Rmax (y - thr) 0 ^ (p - 1) * dmax (y - thr)) (1 / INR p)
    (fun m => nth m (dkappa_vjp n nq C1 C2 J0 J1) 0) (lp_grad0 nq p thr (kap x) (G1 x)) (lp_grad1 nq p thr (kap x) (G1 x))).
  intros v Hv. rewrite (dirR_ext n v _ (fun m => nth m (dkappa_vjp n nq C1 C2 J0 J1) 0 + nth m (curve_vjp n C1 nq (lp_grad1 nq p thr (kap x) (G1 x))) 0)).
  2:{ intros m Hm. unfold curvature_dJ. rewrite nth_vmap2; [reflexivity|unfold dkappa_vjp; rewrite vmap2_length, !curve_vjp_length; lia|unfold dkappa_vjp, dtorsion_vjp; rewrite !vmap2_length, !curve_vjp_length; lia]. }
  apply T; auto.
  - intros k Hk. apply (cross_nz _ (G2 x k)). apply HJ, Hk.
  - intros k Hk. exact (C71_dkappa n x (fun x => G1 x k) (fun x => G2 x k) (C1 k) (C2 k) L (H1 k) (H2 k) (proj1 (HJ k Hk))).
  - intros k Hk. destruct (HJ k Hk) as (_ & PP & _). eapply D_val; [|apply (derivable_pt_lim_comp (fun y => y - thr) (fun y => Rmax y 0 ^ p)); [apply D_sub; [apply D_id|apply D_const]|apply D_maxpow; destruct PP as [?|[? ?]]; [left; auto|right; split; [auto|lra]]]]. ring.
  - intros m Hm. apply (C71_dkappa_vjp n nq (fun k => G1 x k) (fun k => G2 x k) (fun k => G3 x k) C1 C2 C3 (lp_grad0 nq p thr (kap x) (G1 x)) m Hm J0 J1). intros k Hk. destruct (HJ k Hk) as (A & _ & B & C). auto.
Qed.
Theorem C76_torsion_gradient p thr J0 J1 J2 : 0 <= thr -> (forall k, (k < nq)%nat -> cross (G1 x k) (G2 x k) <> v0 /\ ((2 <= p)%nat \/ (1 <= p)%nat /\ Rabs (tor x k) <> thr) /\
    is_vjp (fun a => torsion a (G2 x k) (G3 x k)) (G1 x k) (lpt_grad0 nq p thr (tor x) (G1 x) k) (J0 k) /\ is_vjp (fun a => torsion (G1 x k) a (G3 x k)) (G2 x k) (lpt_grad0 nq p thr (tor x) (G1 x) k) (J1 k)
    /\ is_vjp (fun a => torsion (G1 x k) (G2 x k) a) (G3 x k) (lpt_grad0 nq p thr (tor x) (G1 x) k) (J2 k)) ->
  gradient n (fun x => lpt_J nq p thr (tor x) (G1 x)) x (fun m => nth m (torsion_dJ n nq C1 C2 C3 J0 J1 J2 (lpt_grad1 nq p thr (tor x) (G1 x))) 0).
Proof.
  intros TP HJ. assert (PZ : (1 <= p)%nat) by (destruct (HJ 0%nat NQ) as (_ & X & _); lia).
  assert (T := two_grads (fun x k => torsion (G1 x k) (G2 x k) (G3 x k)) (fun k m => dtorsion (G1 x k) (G2 x k) (G3 x k) (C1 k m) (C2 k m) (C3 k m)) (fun y => Rmax (Rabs y - thr) 0 ^ p) (fun y => INR p * Rmax (Rabs y - thr) 0 ^ (p - 1) * dmax (Rabs y - thr) * dabs y) (1 / INR p)
    (fun m => nth m (dtorsion_vjp n nq C1 C2 C3 J0 J1 J2) 0) (lpt_grad0 nq p thr (tor x) (G1 x)) (lpt_grad1 nq p thr (tor x) (G1 x))).
  intros v Hv. rewrite (dirR_ext n v _ (fun m => nth m (dtorsion_vjp n nq C1 C2 C3 J0 J1 J2) 0 + nth m (curve_vjp n C1 nq (lpt_grad1 nq p thr (tor x) (G1 x))) 0)).
  2:{ intros m Hm. unfold torsion_dJ. rewrite nth_vmap2; [reflexivity|unfold dtorsion_vjp; rewrite !vmap2_length, !curve_vjp_length; lia|unfold dkappa_vjp, dtorsion_vjp; rewrite !vmap2_length, !curve_vjp_length; lia]. }
  apply T; auto.
  - intros k Hk. apply (cross_nz _ (G2 x k)). apply HJ, Hk.
  - intros k Hk. exact (C71_dtorsion n x (fun x => G1 x k) (fun x => G2 x k) (fun x => G3 x k) (C1 k) (C2 k) (C3 k) L (H1 k) (H2 k) (H3 k) (proj1 (HJ k Hk))).
  - intros k Hk. destruct (HJ k Hk) as (_ & PP & _). apply D_abspow; auto.
  - intros m Hm. apply (C71_dtorsion_vjp n nq (fun k => G1 x k) (fun k => G2 x k) (fun k => G3 x k) C1 C2 C3 (lpt_grad0 nq p thr (tor x) (G1 x)) m Hm J0 J1 J2). intros k Hk. destruct (HJ k Hk) as (A & _ & B & C). auto.
  - intros k _. unfold lpt_grad0, lp_grad0. ring.
Qed.
Theorem C76_msc_gradient J0 J1 : (forall k, (k < nq)%nat -> cross (G1 x k) (G2 x k) <> v0 /\
    is_vjp (fun a => kappa a (G2 x k)) (G1 x k) (msc_grad0 nq (kap x) (G1 x) k) (J0 k) /\ is_vjp (fun a => kappa (G1 x k) a) (G2 x k) (msc_grad0 nq (kap x) (G1 x) k) (J1 k)) ->
  gradient n (fun x => msc_J nq (kap x) (G1 x)) x (fun m => nth m (curvature_dJ n nq C1 C2 J0 J1 (msc_grad1 nq (kap x) (G1 x))) 0).
Proof.
  intros HJ v Hv. assert (Z : move x v 0 = x) by (apply move_0; congruence).
  assert (IM : forall k, (k < nq)%nat -> G1 x k <> v0) by (intros k Hk; apply (cross_nz _ (G2 x k)); apply HJ, Hk).
  assert (NP : forall k, (k < nq)%nat -> 0 < norm3 (G1 x k)) by (intros; apply CurveDiffProps.norm_pos; auto).
  set (num := mean nq (fun k => kap x k ^ 2 * norm3 (G1 x k))). set (den := mean nq (fun k => norm3 (G1 x k))).
  assert (DEN : 0 < den). { assert (Q : 0 <= den) by (apply mean_ge0; intros k Hk; specialize (NP k Hk); lra). destruct Q as [Q|Q]; [exact Q|]. exfalso. symmetry in Q. unfold den in Q. rewrite (mean_zero nq _ NQ) in Q by (intros k Hk; specialize (NP k Hk); lra). specialize (Q 0%nat NQ). specialize (NP 0%nat NQ). lra. }
  set (nd := fun m => sum_to nq (fun k => 1 / INR nq * (2 * kap x k * dkappa (G1 x k) (G2 x k) (C1 k m) (C2 k m) * norm3 (G1 x k) + kap x k ^ 2 * dincremental_arclength (G1 x k) (C1 k m)))).
  set (dd := fun m => sum_to nq (fun k => 1 / INR nq * dincremental_arclength (G1 x k) (C1 k m))).
  rewrite (dirR_ext n v _ (fun m => / den * nd m + - (num / (den * den)) * dd m)).
  2:{ intros m Hm. unfold curvature_dJ. rewrite nth_vmap2; [|unfold dkappa_vjp; rewrite vmap2_length, !curve_vjp_length; lia|unfold dkappa_vjp, dtorsion_vjp; rewrite !vmap2_length, !curve_vjp_length; lia].
      rewrite (C71_dkappa_vjp n nq (fun k => G1 x k) (fun k => G2 x k) (fun k => G3 x k) C1 C2 C3 (msc_grad0 nq (kap x) (G1 x)) m Hm J0 J1) by (intros k Hk; destruct (HJ k Hk) as (A & B & C); auto). rewrite curve_vjp_nth by exact Hm.
      unfold nd, dd, sum_to. rewrite <- !rsuml_map_scale, <- !rsuml_map_plus. apply rsuml_map_ext. intros k Hk. apply in_seq in Hk. rewrite dinc_dot by (apply IM; lia). unfold msc_grad0, msc_grad1. fold num. fold den. rewrite !dot3_scal_l.
      specialize (NP k ltac:(lia)). field. repeat split; try lra. apply not_0_INR. lia. }
  rewrite dirR_plus, !dirR_scal.
  assert (DN : D (fun t => mean nq (fun k => kap (move x v t) k ^ 2 * norm3 (G1 (move x v t) k))) 0 (dirR n v nd)).
  { eapply D_val; [|apply (mean_D nq (fun k t => kap (move x v t) k ^ 2 * norm3 (G1 (move x v t) k)) (fun k => dirR n v (fun m => 2 * kap x k * dkappa (G1 x k) (G2 x k) (C1 k m) (C2 k m) * norm3 (G1 x k) + kap x k ^ 2 * dincremental_arclength (G1 x k) (C1 k m))))].
    - unfold nd. rewrite <- dirR_sum_to, mean_sum. apply sum_to_ext. intros k _. now rewrite dirR_scal.
    - intros k Hk. assert (A := C71_dkappa n x (fun x => G1 x k) (fun x => G2 x k) (C1 k) (C2 k) L (H1 k) (H2 k) (proj1 (HJ k Hk)) v Hv). assert (B := norm_gradient k (IM k Hk) v Hv). cbv beta in A, B.
      eapply D_val; [|exact (D_mul _ _ _ _ _ (D_pow _ _ _ 1 A) B)]. cbv beta. rewrite Z. rewrite dirR_plus.
      rewrite (dirR_ext n v (fun m => 2 * kappa (G1 x k) (G2 x k) * dkappa (G1 x k) (G2 x k) (C1 k m) (C2 k m) * norm3 (G1 x k)) (fun m => (2 * kappa (G1 x k) (G2 x k) * norm3 (G1 x k)) * dkappa (G1 x k) (G2 x k) (C1 k m) (C2 k m))) by (intros; ring). rewrite !dirR_scal. cbn [INR pow]. ring. }
  assert (DD : D (fun t => mean nq (fun k => norm3 (G1 (move x v t) k))) 0 (dirR n v dd)).
  { eapply D_val; [|apply (mean_D nq (fun k t => norm3 (G1 (move x v t) k)) (fun k => dirR n v (fun m => dincremental_arclength (G1 x k) (C1 k m))))].
    - unfold dd. rewrite <- dirR_sum_to, mean_sum. apply sum_to_ext. intros k _. now rewrite dirR_scal.
    - intros k Hk. apply (norm_gradient k (IM k Hk) v Hv). }
  eapply D_val; [|apply (D_div _ _ _ _ _ DN DD); cbv beta; rewrite Z; fold den; lra]. cbv beta. rewrite Z. fold num. fold den. field. lra.
Qed.
End Dofs.

(** the vector-Jacobian products asked for above exist whenever the curvature does not vanish *)
Lemma vjp_exists f a v g : (forall w, D (fun s => f (add3 a (scal3 s w))) 0 (g w)) -> (exists K, forall w, g w = dot3 K w) -> exists J, is_vjp f a v J.
Proof.
  intros H (K & E). exists (scal3 v K). intros w. eapply D_val; [|apply (D_mul (fun _ => v)); [apply D_const|apply H]]. cbv beta. rewrite E, dot3_scal_l. ring.
Qed.
Lemma linear_dot (g : vec3 -> R) : (forall a b c w, g (V3 a b c) = a * g (V3 1 0 0) + b * g (V3 0 1 0) + c * g (V3 0 0 1) + 0 * g w) -> exists K, forall w, g w = dot3 K w.
Proof. intros H. exists (V3 (g (V3 1 0 0)) (g (V3 0 1 0)) (g (V3 0 0 1))). intros [a b c]. rewrite (H a b c v0). unfold dot3. cbn [vx vy vz]. ring. Qed.
Theorem C76_vjp_met a b c v : cross a b <> v0 ->
  (exists J, is_vjp norm3 a v J) /\ (exists J, is_vjp (fun a => kappa a b) a v J) /\ (exists J, is_vjp (fun b => kappa a b) b v J) /\
  (exists J, is_vjp (fun a => torsion a b c) a v J) /\ (exists J, is_vjp (fun b => torsion a b c) b v J) /\ (exists J, is_vjp (fun c => torsion a b c) c v J).
Proof.
  intros N. assert (NZ := cross_nz _ _ N). repeat match goal with |- _ /\ _ => split end.
  - apply (vjp_exists _ _ _ (dincremental_arclength a)).
    + intros w. assert (X := D_inc (fun s => add3 a (scal3 s w)) 0 w (D3_line _ _)). cbv beta in X. rewrite line0 in X. exact (X NZ).
    + apply linear_dot. intros. unfold dincremental_arclength, dot3, Rdiv. cbn [vx vy vz]. ring.
  - apply (vjp_exists _ _ _ (fun w => dkappa a b w v0)).
    + intros w. assert (X := D_kappa (fun s => add3 a (scal3 s w)) (fun _ => b) 0 w v0 (D3_line _ _) (D3_const _ _)). cbv beta in X. rewrite line0 in X. exact (X N).
    + apply linear_dot. intros. unfold dkappa, dot3, Rdiv. cbv zeta. cbn [vx vy vz add3 cross v0]. ring.
  - apply (vjp_exists _ _ _ (fun w => dkappa a b v0 w)).
    + intros w. assert (X := D_kappa (fun _ => a) (fun s => add3 b (scal3 s w)) 0 v0 w (D3_const _ _) (D3_line _ _)). cbv beta in X. rewrite line0 in X. exact (X N).
    + apply linear_dot. intros. unfold dkappa, dot3, Rdiv. cbv zeta. cbn [vx vy vz add3 cross v0]. ring.
  - apply (vjp_exists _ _ _ (fun w => dtorsion a b c w v0 v0)).
    + intros w. assert (X := D_torsion (fun s => add3 a (scal3 s w)) (fun _ => b) (fun _ => c) 0 w v0 v0 (D3_line _ _) (D3_const _ _) (D3_const _ _)). cbv beta in X. rewrite line0 in X. exact (X N).
    + apply linear_dot. intros. unfold dtorsion, Rdiv. generalize (/ dot3 (cross a b) (cross a b)) (/ (dot3 (cross a b) (cross a b) ^ 2)). intros. unfold dot3. cbn [vx vy vz add3 scal3 cross v0]. ring.
  - apply (vjp_exists _ _ _ (fun w => dtorsion a b c v0 w v0)).
    + intros w. assert (X := D_torsion (fun _ => a) (fun s => add3 b (scal3 s w)) (fun _ => c) 0 v0 w v0 (D3_const _ _) (D3_line _ _) (D3_const _ _)). cbv beta in X. rewrite line0 in X. exact (X N).
    + apply linear_dot. intros. unfold dtorsion, Rdiv. generalize (/ dot3 (cross a b) (cross a b)) (/ (dot3 (cross a b) (cross a b) ^ 2)). intros. unfold dot3. cbn [vx vy vz add3 scal3 cross v0]. ring.
  - apply (vjp_exists _ _ _ (fun w => dtorsion a b c v0 v0 w)).
    + intros w. assert (X := D_torsion (fun _ => a) (fun _ => b) (fun s => add3 c (scal3 s w)) 0 v0 v0 w (D3_const _ _) (D3_const _ _) (D3_line _ _)). cbv beta in X. rewrite line0 in X. exact (X N).
    + apply linear_dot. intros. unfold dtorsion, Rdiv. generalize (/ dot3 (cross a b) (cross a b)) (/ (dot3 (cross a b) (cross a b) ^ 2)). intros. unfold dot3. cbn [vx vy vz add3 scal3 cross v0]. ring.
Qed.

(** ** C77 *)
(** the constructor *)
Theorem C77_arguments a c nq : (0 < nq)%nat ->
  (nintervals a c nq = inr AssertionError <-> a = Other_string \/ exists z, a = Int z /\ ~ (0 < z <= Z.of_nat nq)%Z) /\
  (nintervals a c nq = inr RuntimeError <-> a = Partial /\ c = OtherCurve) /\
  (forall k, nintervals a c nq = inl k -> a <> Partial -> (1 <= k <= nq)%nat) /\
  (forall k, nintervals a c nq = inl k -> (a = Full -> k = nq) /\ (forall z, a = Int z -> Z.of_nat k = z) /\ (forall o, a = Partial -> c = XYZ o -> k = (2 * o)%nat)).
Proof.
  intros N. destruct a as [| | |z]; cbn [nintervals].
  - split; [split; [discriminate|intros [|(z & E & _)]; discriminate]|]. split; [split; [discriminate|intros (E & _); discriminate]|]. split; [intros k [= <-] _; lia|]. intros k [= <-]. split; [auto|]. split; intros; discriminate.
  - destruct c as [o|].
    + split; [split; [discriminate|intros [|(z & E & _)]; discriminate]|]. split; [split; [discriminate|intros (_ & E); discriminate]|]. split; [intros k _ H; now destruct H|]. intros k [= <-]. split; [discriminate|]. split; [intros; discriminate|]. intros o' _ [= ->]. lia.
    + split; [split; [discriminate|intros [|(z & E & _)]; discriminate]|]. split; [split; auto|]. split; intros; discriminate.
  - split; [split; auto|]. split; [split; [discriminate|intros (E & _); discriminate]|]. split; intros; discriminate.
  - destruct ((0 <? z)%Z && (z <=? Z.of_nat nq)%Z)%bool eqn:E.
    + split; [split; [discriminate|intros [|(z' & [= <-] & H)]; [discriminate|lia]]|]. split; [split; [discriminate|intros (K & _); discriminate]|]. split; [intros k [= <-] _; lia|]. intros k [= <-]. split; [discriminate|]. split; [intros z' [= <-]; lia|intros; discriminate].
    + split; [split; [intros _; right; exists z; split; [reflexivity|lia]|auto]|]. split; [split; [discriminate|intros (K & _); discriminate]|]. split; intros; discriminate.
Qed.
(** consecutive nonempty blocks that exhaust the quadrature points *)
Definition partition (idx : nat -> nat) (nq nint : nat) : Prop := idx 0%nat = 0%nat /\ idx nint = nq /\ forall i, (i < nint)%nat -> (idx i < idx (S i))%nat.
Theorem C77_index_partition nq nint : (0 < nint)%nat -> (partition (index nq nint) nq nint <-> (nint <= nq)%nat).
Proof.
  intros N. unfold partition, index. split.
  - intros (A & B & H). assert (M : forall i, (i <= nint)%nat -> (i <= i * nq / nint)%nat). { induction i; intros Hi; [lia|]. specialize (H i ltac:(lia)). specialize (IHi ltac:(lia)). lia. } specialize (M nint ltac:(lia)). lia.
  - intros L. split; [now apply Nat.div_small|]. split; [rewrite Nat.mul_comm; apply Nat.div_mul; lia|]. intros i Hi. apply Nat.lt_le_trans with ((i * nq + 1 * nint) / nint)%nat; [rewrite Nat.div_add by lia; lia|apply Nat.div_le_mono; lia].
Qed.
Lemma part_mono idx nq nint i j : partition idx nq nint -> (i <= j <= nint)%nat -> (idx i <= idx j)%nat.
Proof. intros (_ & _ & H) L. induction j; [replace i with 0%nat by lia; lia|]. destruct (Nat.eq_dec i (S j)); [subst; lia|]. specialize (IHj ltac:(lia)). specialize (H j ltac:(lia)). lia. Qed.
Lemma part_full idx nq : partition idx nq nq -> forall i, (i <= nq)%nat -> idx i = i.
Proof.
  intros P. assert (A : forall i, (i <= nq)%nat -> (i <= idx i)%nat). { induction i; intros Hi; [lia|]. destruct P as (_ & _ & H). specialize (H i ltac:(lia)). specialize (IHi ltac:(lia)). lia. }
  assert (B : forall j, (j <= nq)%nat -> (idx (nq - j) <= nq - j)%nat). { induction j; intros Hj; [replace (nq - 0)%nat with nq by lia; destruct P as (_ & E & _); lia|]. specialize (IHj ltac:(lia)). destruct P as (_ & _ & H). specialize (H (nq - S j)%nat ltac:(lia)). replace (S (nq - S j)) with (nq - j)%nat in H by lia. lia. }
  intros i Hi. specialize (A i Hi). specialize (B (nq - i)%nat ltac:(lia)). replace (nq - (nq - i))%nat with i in B by lia. lia.
Qed.
Lemma sum_range nq a b (f : nat -> R) : (a <= b <= nq)%nat -> sum_to nq (fun k => if ((a <=? k) && (k <? b))%nat then f k else 0) = rsuml (map f (seq a (b - a))).
Proof.
  intros H. unfold sum_to. replace nq with (a + (b - a) + (nq - b))%nat by lia. rewrite !seq_app, !map_app, !rsuml_app, Nat.add_0_l.
  rewrite (rsuml_map_zero _ (seq 0 a)), (rsuml_map_zero _ (seq (a + (b - a)) _)).
  - rewrite Rplus_0_l, Rplus_0_r. apply rsuml_map_ext. intros k Hk. apply in_seq in Hk. replace (_ && _)%bool with true by lia. reflexivity.
  - intros k Hk. apply in_seq in Hk. replace (_ && _)%bool with false by lia. reflexivity.
  - intros k Hk. apply in_seq in Hk. replace (_ && _)%bool with false by lia. reflexivity.
Qed.
Lemma block_range idx nq l i : (idx i <= idx (S i) <= nq)%nat -> block idx nq l i = rsuml (map l (seq (idx i) (idx (S i) - idx i))) * (1 / INR (idx (S i) - idx i)).
Proof.
  intros H. unfold block. rewrite (sum_to_ext nq _ (fun k => if ((idx i <=? k) && (k <? idx (S i)))%nat then l k * (1 / INR (idx (S i) - idx i)) else 0)).
  - rewrite (sum_range nq (idx i) (idx (S i)) (fun k => l k * (1 / INR (idx (S i) - idx i))) H). rewrite (rsuml_map_ext _ (fun k => 1 / INR (idx (S i) - idx i) * l k)) by (intros; ring). rewrite rsuml_map_scale. ring.
  - intros k _. unfold mat. destruct (_ && _)%bool; ring.
Qed.
(** the entries of mat @ l are the averages over the blocks, and J is their variance *)
Theorem C77_value idx nq nint l : partition idx nq nint -> (0 < nint)%nat ->
  (forall i, (i < nint)%nat -> block idx nq l i = rsuml (map l (seq (idx i) (idx (S i) - idx i))) / INR (idx (S i) - idx i)) /\
  exists mu, mu * INR nint = sum_to nint (block idx nq l) /\ av_J idx nq nint l = Some (sum_to nint (fun i => (block idx nq l i - mu) ^ 2) / INR nint).
Proof.
  intros P N. assert (NZ : INR nint <> 0) by (apply not_0_INR; lia). split.
  - intros i Hi. rewrite block_range; [unfold Rdiv; ring|]. destruct P as (A & B & H). assert (M := part_mono idx nq nint (S i) nint (conj A (conj B H)) ltac:(lia)). specialize (H i Hi). lia.
  - exists (mean nint (block idx nq l)). split; [unfold mean; field; exact NZ|]. unfold av_J. destruct nint; [lia|]. reflexivity.
Qed.
Lemma var_zero n y : (0 < n)%nat -> 0 <= var n y /\ (var n y = 0 <-> forall i j, (i < n)%nat -> (j < n)%nat -> y i = y j).
Proof.
  intros N. assert (NZ : INR n <> 0) by (apply not_0_INR; lia). unfold var. split; [apply mean_ge0; intros; apply pow2_ge_0|]. rewrite mean_zero by (auto; intros; apply pow2_ge_0). split.
  - intros H i j Hi Hj. assert (A : forall i, (i < n)%nat -> y i = mean n y). { intros k Hk. specialize (H k Hk). destruct (Req_EM_T (y k - mean n y) 0); [lra|]. exfalso. revert H. now apply pow_nonzero. } rewrite (A i Hi). symmetry. now apply A.
  - intros H k Hk. assert (E : mean n y = y k). { unfold mean. rewrite (sum_to_ext n y (fun _ => y k * 1)) by (intros j Hj; rewrite (H j k Hj Hk); ring). unfold sum_to. rewrite rsuml_map_scale. assert (S1 : forall m a, rsuml (map (fun _ : nat => 1) (seq a m)) = INR m) by (induction m; intros a; [reflexivity|]; cbn [seq map rsuml]; rewrite IHm, S_INR; ring). rewrite S1. field. exact NZ. } rewrite E. ring.
Qed.
Lemma const_sum c a m : rsuml (map (fun _ : nat => c) (seq a m)) = INR m * c.
Proof. revert a. induction m; intros a; [cbn; ring|]. cbn [seq map rsuml]. rewrite IHm, S_INR. ring. Qed.
(** never negative; zero exactly when all block averages agree; for 'full' exactly when the arclength is the same at every point *)
Theorem C77_nonnegative_and_zero idx nq nint l J : partition idx nq nint -> (0 < nint)%nat -> av_J idx nq nint l = Some J ->
  0 <= J /\ (J = 0 <-> forall i j, (i < nint)%nat -> (j < nint)%nat -> block idx nq l i = block idx nq l j) /\
  ((forall k, (k < nq)%nat -> l k = l 0%nat) -> J = 0) /\
  (nint = nq -> J = 0 -> forall k, (k < nq)%nat -> l k = l 0%nat).
Proof.
  intros P N E. unfold av_J in E. destruct nint as [|n']; [lia|]. set (nint := S n') in *. injection E as <-. destruct (var_zero nint (block idx nq l) N) as (A & B). split; [exact A|]. split; [exact B|]. destruct (C77_value idx nq nint l P N) as (V & _). split.
  - intros H. apply B. assert (C : forall i, (i < nint)%nat -> block idx nq l i = l 0%nat).
    { intros i Hi. rewrite (V i Hi). assert (M := part_mono idx nq nint (S i) nint P ltac:(lia)). destruct P as (_ & PE & PI). specialize (PI i Hi). rewrite PE in M. rewrite (rsuml_map_ext l (fun _ => l 0%nat)) by (intros k Hk; apply in_seq in Hk; apply H; lia). rewrite const_sum. field. apply not_0_INR. lia. }
    intros i j Hi Hj. now rewrite !C.
  - intros EN Z k Hk. assert (F := part_full idx nq ltac:(rewrite EN in P; exact P)). assert (C : forall i, (i < nint)%nat -> block idx nq l i = l i).
    { intros i Hi. rewrite (V i Hi), !F by lia. replace (S i - i)%nat with 1%nat by lia. cbn. field. }
    rewrite <- (C k), <- (C 0%nat) by lia. apply B; [exact Z|lia|lia].
Qed.
(** with more intervals than quadrature points ('partial' of a curve with 2 * order > nq), some blocks are empty and count as zero *)
Theorem C77_too_many_intervals nq nint c J : (0 < nq)%nat -> (nq < nint)%nat -> c <> 0 -> av_J (index nq nint) nq nint (fun _ => c) = Some J -> 0 < J.
Proof.
  intros NQ LT C E. unfold av_J in E. destruct nint as [|n']; [lia|]. set (nint := S n') in *. injection E as <-. destruct (var_zero nint (block (index nq nint) nq (fun _ => c)) ltac:(lia)) as (A & B). destruct A as [A|A]; [exact A|]. exfalso. symmetry in A. assert (H := proj1 B A). clear A B.
  assert (LAST : index nq nint nint = nq) by (unfold index; rewrite Nat.mul_comm; apply Nat.div_mul; lia).
  assert (MON : forall i, (index nq nint i <= index nq nint (S i))%nat) by (intros i; unfold index; apply Nat.div_le_mono; lia).
  assert (MON' : forall d i, (index nq nint i <= index nq nint (d + i))%nat) by (induction d; intros i; [apply le_n|]; specialize (IHd i); specialize (MON (d + i)%nat); cbn [Nat.add]; lia).
  assert (UB : forall i, (i <= nint)%nat -> (index nq nint i <= nq)%nat) by (intros i Hi; rewrite <- LAST at 2; replace nint with ((nint - i) + i)%nat at 3 by lia; apply MON').
  assert (V : forall i, (i < nint)%nat -> block (index nq nint) nq (fun _ => c) i = if (index nq nint i <? index nq nint (S i))%nat then c else 0).
  { intros i Hi. rewrite block_range by (split; [apply MON|apply UB; lia]). rewrite const_sum. destruct (_ <? _)%nat eqn:L; [field; apply not_0_INR; lia|]. replace (index nq nint (S i) - index nq nint i)%nat with 0%nat by lia. cbn [INR]. ring. }
  assert (EMPTY : exists i, (i < nint)%nat /\ ~ (index nq nint i < index nq nint (S i))%nat).
  { destruct (existsb (fun i => negb (index nq nint i <? index nq nint (S i))%nat) (seq 0 nint)) eqn:X.
    - apply existsb_exists in X. destruct X as (i & Hi & X). apply in_seq in Hi. exists i. split; [lia|]. lia.
    - exfalso. assert (Q := proj2 (C77_index_partition nq nint ltac:(lia))). assert (P : partition (index nq nint) nq nint).
      { split; [unfold index; now apply Nat.div_small; lia|]. split; [exact LAST|]. intros i Hi. assert (Y : (negb (index nq nint i <? index nq nint (S i))%nat) = false). { destruct (negb _) eqn:Y; [|reflexivity]. rewrite <- X. symmetry. apply existsb_exists. exists i. split; [apply in_seq; lia|exact Y]. } lia. }
      apply (C77_index_partition nq nint) in P; lia. }
  assert (FULL : exists i, (i < nint)%nat /\ (index nq nint i < index nq nint (S i))%nat).
  { destruct (existsb (fun i => (index nq nint i <? index nq nint (S i))%nat) (seq 0 nint)) eqn:X.
    - apply existsb_exists in X. destruct X as (i & Hi & X). apply in_seq in Hi. exists i. split; lia.
    - exfalso. assert (Y : forall i, (i <= nint)%nat -> index nq nint i = 0%nat). { induction i; intros Hi; [unfold index; apply Nat.div_small; lia|]. specialize (IHi ltac:(lia)). destruct (index nq nint i <? index nq nint (S i))%nat eqn:Z; [|specialize (MON i); lia]. assert (W : existsb (fun i => (index nq nint i <? index nq nint (S i))%nat) (seq 0 nint) = true) by (apply existsb_exists; exists i; split; [apply in_seq; lia|exact Z]). congruence. }
      specialize (Y nint ltac:(lia)). lia. }
  destruct EMPTY as (i & Hi & Ei). destruct FULL as (j & Hj & Ej). specialize (H i j Hi Hj). rewrite !V in H by assumption. replace (index nq nint i <? index nq nint (S i))%nat with false in H by lia. replace (index nq nint j <? index nq nint (S j))%nat with true in H by lia. congruence.
Qed.
Lemma sum_to_swap a b f : sum_to a (fun i => sum_to b (fun k => f i k)) = sum_to b (fun k => sum_to a (fun i => f i k)).
Proof. unfold sum_to. apply rsuml_swap. Qed.
Lemma sum_to_scal n c f : sum_to n (fun k => c * f k) = c * sum_to n f. Proof. apply rsuml_map_scale. Qed.
Lemma sum_to_plus n f g : sum_to n (fun k => f k + g k) = sum_to n f + sum_to n g. Proof. apply rsuml_map_plus. Qed.
(** dJ is the gradient with respect to the dofs, whatever the partition *)
Theorem C77_gradient n nq nint idx x G1 C1 J0 : length x = n -> (0 < nint)%nat -> (forall k, gradient3 n (fun x => G1 x k) x (C1 k)) ->
  (forall k, (k < nq)%nat -> G1 x k <> v0 /\ is_vjp norm3 (G1 x k) (av_grad idx nq nint (fun k => norm3 (G1 x k)) k) (J0 k)) ->
  gradient n (fun x => var nint (block idx nq (fun k => incremental_arclength (G1 x k)))) x (fun m => nth m (dincremental_vjp n nq C1 J0) 0).
Proof.
  intros L N H1 HJ v Hv. assert (NZ : INR nint <> 0) by (apply not_0_INR; lia). assert (Z : move x v 0 = x) by (apply move_0; congruence).
  set (y := block idx nq (fun k => norm3 (G1 x k))). set (mu := mean nint y). set (dl := fun k => dirR n v (fun m => dincremental_arclength (G1 x k) (C1 k m))). set (dy := block idx nq dl).
  assert (DL : forall k, (k < nq)%nat -> D (fun t => incremental_arclength (G1 (move x v t) k)) 0 (dl k)) by (intros k Hk; apply (C71_dincremental_arclength n x (fun x => G1 x k) (C1 k) L (H1 k)); [now apply HJ|exact Hv]).
  assert (DY : forall i, (i < nint)%nat -> D (fun t => block idx nq (fun k => incremental_arclength (G1 (move x v t) k)) i) 0 (dy i)).
  { intros i _. apply (sum_to_D nq (fun k t => mat idx i k * incremental_arclength (G1 (move x v t) k)) (fun k => mat idx i k * dl k)). intros k Hk. eapply D_val; [|apply (D_mul (fun _ => mat idx i k)); [apply D_const|apply (DL k Hk)]]. cbv beta. ring. }
  assert (DM := mean_D nint (fun i t => block idx nq (fun k => incremental_arclength (G1 (move x v t) k)) i) dy 0 DY). cbv beta in DM.
  rewrite (dirR_ext n v _ (fun m => sum_to nq (fun k => av_grad idx nq nint (fun k => norm3 (G1 x k)) k * dincremental_arclength (G1 x k) (C1 k m)))).
  2:{ intros m Hm. apply (C71_dincremental_vjp n nq (fun k => G1 x k) (fun _ => v0) (fun _ => v0) C1 C1 C1 _ m Hm J0 HJ). }
  unfold sum_to at 1. rewrite (dirR_sum n v (fun k m => av_grad idx nq nint (fun k => norm3 (G1 x k)) k * dincremental_arclength (G1 x k) (C1 k m)) (seq 0 nq)). fold (sum_to nq (fun k => dirR n v (fun m => av_grad idx nq nint (fun k => norm3 (G1 x k)) k * dincremental_arclength (G1 x k) (C1 k m)))).
  eapply D_val; [|unfold var; apply (mean_D nint (fun i t => (block idx nq (fun k => incremental_arclength (G1 (move x v t) k)) i - mean nint (block idx nq (fun k => incremental_arclength (G1 (move x v t) k)))) ^ 2) (fun i => 2 * (y i - mu) * (dy i - mean nint dy)))].
  - rewrite (sum_to_ext nq _ (fun k => sum_to nint (fun i => 2 / INR nint * (y i - mu) * (mat idx i k * dl k)))).
    2:{ intros k _. change (fun m => av_grad idx nq nint (fun k => norm3 (G1 x k)) k * dincremental_arclength (G1 x k) (C1 k m)) with (fun m => av_grad idx nq nint (fun k => norm3 (G1 x k)) k * (fun m => dincremental_arclength (G1 x k) (C1 k m)) m). rewrite (dirR_scal n). fold (dl k). unfold av_grad. fold y mu. rewrite Rmult_comm, <- sum_to_scal. apply sum_to_ext. intros i _. ring. }
    rewrite sum_to_swap. rewrite (sum_to_ext nint _ (fun i => 2 / INR nint * (y i - mu) * dy i)) by (intros i _; unfold dy, block; rewrite <- sum_to_scal; reflexivity).
    rewrite mean_sum. transitivity (sum_to nint (fun i => 2 / INR nint * (y i - mu) * dy i) + - (2 / INR nint * mean nint dy) * (sum_to nint y - INR nint * mu)).
    + assert (E : sum_to nint y - INR nint * mu = sum_to nint (fun i => y i + -1 * mu)) by (rewrite (sum_to_plus nint y (fun _ => -1 * mu)), (sum_to_scal nint (-1) (fun _ => mu)); unfold sum_to at 3; rewrite const_sum; ring).
      rewrite E, <- sum_to_scal, <- sum_to_plus. apply sum_to_ext. intros i _. field. exact NZ.
    + assert (E : sum_to nint y - INR nint * mu = 0) by (unfold mu, mean; field; exact NZ). rewrite E. ring.
  - intros i Hi. assert (X := D_pow _ _ _ 1 (D_sub _ _ _ _ _ (DY i Hi) DM)). cbv beta in X. eapply D_val; [|exact X]. rewrite Z. change (fun k : nat => incremental_arclength (G1 x k)) with (fun k : nat => norm3 (G1 x k)). fold y. change (mean nint (fun i => y i)) with mu. cbn [INR pow]. ring.
Qed.
(** the partition hypothesis is met *)
Example C77_case : partition (index 7 3) 7 3 /\ map (index 7 3) (seq 0 4) = [0; 2; 4; 7]%nat /\ av_J (index 2 2) 2 2 (fun k => if (k =? 0)%nat then 1 else 3) = Some 1.
Proof.
  split; [apply C77_index_partition; lia|]. split; [reflexivity|]. unfold av_J, var, mean, block, mat, index, sum_to. cbn -[INR Rmult Rplus Rminus Rdiv]. cbn [INR]. f_equal. change (0 <? 1)%nat with true; change (1 <? 1)%nat with false; change (1 <? 2)%nat with true. cbv iota. field.
Qed.
