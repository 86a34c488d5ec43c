(** C83, C84: the convex permanent-magnet solver MwPGP. *)
From Coq Require Import Reals Lra Lia List Bool Psatz.
From Verif Require Import ListAux VecAux Vec3 BSDeriv CurveModel CurveDiff CurveDiffProps CurveObjModel CurveObjProps PMModel.
Import ListNotations.
Open Scope R_scope.

Lemma sq0 a c e : a * a + c * c + e * e <= 0 -> a = 0 /\ c = 0 /\ e = 0.
Proof. intros H. assert (0 <= a * a) by nra. assert (0 <= c * c) by nra. assert (0 <= e * e) by nra. split; [|split]; apply Rsqr_0_uniq; unfold Rsqr; lra. Qed.
(** ** The ball *)
Definition ball (m : R) (v : vec3) : Prop := dot3 v v <= m * m.
Lemma ball_norm m v : 0 < m -> (ball m v <-> norm3 v <= m).
Proof.
  intros M. unfold ball. rewrite <- norm_sq. assert (P : 0 <= norm3 v) by apply sqrt_pos. split; intros H; nra.
Qed.
Lemma cauchy a c : dot3 a c * dot3 a c <= dot3 a a * dot3 c c.
Proof. assert (L := lagrange a c). assert (0 <= dot3 (cross a c) (cross a c)) by (unfold dot3; nra). lra. Qed.
Lemma cauchy_norm a c : dot3 a c <= norm3 a * norm3 c.
Proof.
  assert (C := cauchy a c). rewrite <- (norm_sq a), <- (norm_sq c) in C. assert (0 <= norm3 a) by apply sqrt_pos. assert (0 <= norm3 c) by apply sqrt_pos.
  destruct (Rle_dec (dot3 a c) 0) as [L|G]; [nra|]. apply Rnot_le_lt in G. apply Rsqr_incr_0_var; [unfold Rsqr; nra|nra].
Qed.
Lemma proj_cases m v : 0 < m -> (ball m v /\ proj m v = v) \/ (m < norm3 v /\ proj m v = scal3 (m / norm3 v) v).
Proof.
  intros M. assert (P : 0 <= norm3 v) by apply sqrt_pos. unfold proj. change (sqrt (dot3 v v)) with (norm3 v). cbv zeta. destruct (Rle_dec (norm3 v) m) as [L|G].
  - left. split; [now apply ball_norm|]. rewrite Rmax_left by (apply (Rmult_le_reg_r m); [lra|]; unfold Rdiv; rewrite Rmult_assoc, Rinv_l by lra; lra). apply v3_eq; cbn [vx vy vz]; field.
  - right. apply Rnot_le_lt in G. split; [exact G|]. rewrite Rmax_right by (apply (Rmult_le_reg_r m); [lra|]; unfold Rdiv; rewrite Rmult_assoc, Rinv_l by lra; lra). apply v3_eq; cbn [vx vy vz scal3]; field; lra.
Qed.
(** variational characterisation *)
Lemma proj_vi m v z : 0 < m -> ball m z -> dot3 (sub3 v (proj m v)) (sub3 z (proj m v)) <= 0.
Proof.
  intros M Z. destruct (proj_cases m v M) as [(B & ->)|(G & ->)].
  - unfold dot3; cbn [vx vy vz sub3]. lra.
  - set (n := norm3 v) in *. assert (Q := norm_sq v). fold n in Q. assert (C := cauchy_norm v z). fold n in C. apply (ball_norm m z M) in Z. assert (0 <= norm3 z) by apply sqrt_pos.
    assert (E : dot3 (sub3 v (scal3 (m / n) v)) (sub3 z (scal3 (m / n) v)) = (1 - m / n) * (dot3 v z - m / n * dot3 v v)) by (unfold dot3; cbn [vx vy vz sub3 scal3]; ring).
    rewrite E, <- Q. replace (m / n * (n * n)) with (m * n) by (field; lra). assert (0 < 1 - m / n). { apply (Rmult_lt_reg_r n); [lra|]. unfold Rdiv. rewrite Rmult_0_l, Rmult_minus_distr_r, Rmult_assoc, Rinv_l by lra. lra. }
    assert (dot3 v z - m * n <= 0) by nra. nra.
Qed.
Lemma proj_ball m v : 0 < m -> ball m (proj m v).
Proof.
  intros M. destruct (proj_cases m v M) as [(B & ->)|(G & ->)]; [exact B|]. unfold ball. assert (Q := norm_sq v). set (n := norm3 v) in *.
  assert (E : dot3 (scal3 (m / n) v) (scal3 (m / n) v) = (m / n) * (m / n) * dot3 v v) by (unfold dot3; cbn [vx vy vz scal3]; ring). rewrite E, <- Q. right. field. lra.
Qed.
(** projection_L2_balls: the unique nearest point of the ball, the identity on it, and not expansive *)
Theorem C83_projection m v : 0 < m -> norm3 (proj m v) <= m /\ (forall z, norm3 z <= m -> norm3 (sub3 v (proj m v)) <= norm3 (sub3 v z)) /\
  (forall z, norm3 z <= m -> norm3 (sub3 v z) <= norm3 (sub3 v (proj m v)) -> z = proj m v) /\ (norm3 v <= m -> proj m v = v) /\
  (forall u, norm3 (sub3 (proj m u) (proj m v)) <= norm3 (sub3 u v)).
Proof.
  intros M. split; [apply ball_norm, proj_ball; exact M|].
  assert (K : forall z, norm3 z <= m -> dot3 (sub3 v (proj m v)) (sub3 v (proj m v)) + dot3 (sub3 z (proj m v)) (sub3 z (proj m v)) <= dot3 (sub3 v z) (sub3 v z)).
  { intros z Z. apply ball_norm in Z; [|exact M]. assert (V := proj_vi m v z M Z). unfold dot3 in *. cbn [vx vy vz sub3] in *. lra. }
  assert (PP : forall a : vec3, 0 <= dot3 a a) by (intros; unfold dot3; nra).
  split; [intros z Z; apply sqrt_le_1_alt; specialize (K z Z); specialize (PP (sub3 z (proj m v))); lra|]. split; [|split].
  - intros z Z L. specialize (K z Z). assert (L2 : dot3 (sub3 v z) (sub3 v z) <= dot3 (sub3 v (proj m v)) (sub3 v (proj m v))). { rewrite <- !norm_sq. assert (0 <= norm3 (sub3 v z)) by apply sqrt_pos. nra. }
    assert (Z0 : dot3 (sub3 z (proj m v)) (sub3 z (proj m v)) <= 0) by lra. set (e := proj m v) in *. clearbody e. unfold dot3 in Z0. cbn [vx vy vz sub3] in Z0. apply sq0 in Z0. destruct Z0 as (Za & Zb & Zc). apply v3_eq; lra.
  - intros L. destruct (proj_cases m v M) as [(_ & E)|(G & _)]; [exact E|lra].
  - intros u. apply sqrt_le_1_alt. assert (V1 := proj_vi m v (proj m u) M (proj_ball m u M)). assert (V2 := proj_vi m u (proj m v) M (proj_ball m v M)). set (e := proj m v) in *. set (f := proj m u) in *. clearbody e f.
    assert (S1 : dot3 (sub3 f e) (sub3 f e) <= dot3 (sub3 u v) (sub3 f e)) by (assert (Q : dot3 (sub3 f e) (sub3 f e) - dot3 (sub3 u v) (sub3 f e) = dot3 (sub3 v e) (sub3 f e) + dot3 (sub3 u f) (sub3 e f)) by (unfold dot3; cbn [vx vy vz sub3]; ring); lra). assert (C := cauchy (sub3 u v) (sub3 f e)). specialize (PP (sub3 u v)) as P1. specialize (PP (sub3 f e)) as P2.
    set (a := dot3 (sub3 f e) (sub3 f e)) in *. set (c := dot3 (sub3 u v) (sub3 u v)) in *. set (d := dot3 (sub3 u v) (sub3 f e)) in *. clearbody a c d. destruct (Rle_dec a c); [assumption|]. exfalso. assert (c < a) by lra. assert (0 < d) by lra. assert (a * a <= d * d) by nra. nra.
Qed.
(** find_max_alphaf: the largest step that stays in the ball (for |p|^2 > 1e-20) *)
Lemma max_alpha_spec m x p : ball m x -> e20 < dot3 p p -> 0 <= max_alpha m x p /\ (forall t, 0 <= t <= max_alpha m x p -> ball m (sub3 x (scal3 t p))) /\ (forall t, max_alpha m x p < t -> ~ ball m (sub3 x (scal3 t p))).
Proof.
  intros B P. unfold max_alpha. destruct (Rlt_dec e20 (dot3 p p)) as [_|N]; [|lra]. assert (E0 : 0 < e20) by (unfold e20; apply Rinv_0_lt_compat; apply pow_lt; lra). unfold ball in *.
  assert (E : forall t, dot3 (sub3 x (scal3 t p)) (sub3 x (scal3 t p)) = dot3 x x - 2 * t * dot3 x p + t * t * dot3 p p) by (intros; unfold dot3; cbn [vx vy vz sub3 scal3]; ring).
  set (a := dot3 p p) in *. set (h := dot3 x p) in *. set (xx := dot3 x x) in *. clearbody a h xx. set (D0 := (-2 * h) * (-2 * h) - 4 * a * (xx - m * m)). assert (DP : (2 * h) * (2 * h) <= D0) by (unfold D0; nra).
  set (s := sqrt D0). assert (SS : s * s = D0) by (apply sqrt_sqrt; nra). assert (SP : 0 <= s) by apply sqrt_pos. assert (SH : 2 * h <= s /\ - s <= 2 * h) by (split; nra).
  replace (- (-2 * h)) with (2 * h) by ring. set (r := (2 * h + s) / (2 * a)). assert (R2a : 2 * a * r = 2 * h + s) by (unfold r; field; lra).
  split; [apply (Rmult_le_reg_l (2 * a)); lra|]. unfold D0 in SS. split.
  - intros t (T1 & T2). rewrite E. assert (F1 : 2 * a * t - 2 * h - s <= 0) by nra. assert (F2 : 0 <= 2 * a * t - 2 * h + s) by nra. assert (F : (2 * a * t - 2 * h - s) * (2 * a * t - 2 * h + s) <= 0) by nra. assert (4 * a * (xx - 2 * t * h + t * t * a - m * m) <= 0) by nra. nra.
  - intros t T. rewrite E. assert (F1 : 0 < 2 * a * t - 2 * h - s) by nra. assert (F2 : 0 < 2 * a * t - 2 * h + s) by lra. assert (F : 0 < (2 * a * t - 2 * h - s) * (2 * a * t - 2 * h + s)) by nra. assert (0 < 4 * a * (xx - 2 * t * h + t * t * a - m * m)) by nra. nra.
Qed.
Theorem C83_largest_step m x p : 0 < m -> norm3 x <= m -> e20 < dot3 p p -> 0 <= max_alpha m x p /\ forall t, 0 <= t -> (norm3 (sub3 x (scal3 t p)) <= m <-> t <= max_alpha m x p).
Proof.
  intros M X P. apply ball_norm in X; [|exact M]. destruct (max_alpha_spec m x p X P) as (A1 & A2 & A3). split; [exact A1|]. intros t T. rewrite <- ball_norm by exact M. split; intros H.
  - destruct (Rle_dec t (max_alpha m x p)); [assumption|]. exfalso. apply (A3 t); [lra|exact H].
  - apply A2. lra.
Qed.

(** ** The quadratic *)
Lemma minf_le n f j : (j <= n)%nat -> minf n f <= f j.
Proof. induction n as [|n IH]; intros H; cbn [minf]; [replace j with O by lia; lra|]. destruct (Nat.eq_dec j (S n)) as [->|NE]; [apply Rmin_r|]. eapply Rle_trans; [apply Rmin_l|]. apply IH. lia. Qed.
Lemma minf_in n f : exists j, (j <= n)%nat /\ minf n f = f j.
Proof. induction n as [|n (j & L & E)]; [exists O; split; [lia|reflexivity]|]. cbn [minf]. unfold Rmin. destruct (Rle_dec _ _); [exists j|exists (S n)]; split; try lia; auto. Qed.

Section Quad.
Variables (ng N : nat) (A : nat -> nat -> vec3) (b : nat -> R) (ATb w : nat -> vec3) (m : nat -> R) (alpha nu l2 : R).
Hypothesis HATb : forall j, (j < N)%nat -> ATb j = ATop ng A b j.
Hypothesis Hnu : nu <> 0.
Notation Aop := (Aop N A).
Notation ATop := (ATop ng A).
Notation Hess := (Hess ng N A nu l2).
Notation grad := (grad ng N A ATb w nu l2).
Notation cost := (cost ng N A b w nu l2).
Notation inner := (inner N).
Notation norm2 := (norm2 N).
Lemma dot_ATop r j d : dot3 (ATop r j) d = sum_to ng (fun i => r i * dot3 (A i j) d).
Proof.
  unfold PMModel.ATop, dot3 at 1. cbn [vx vy vz]. rewrite !(Rmult_comm (sum_to ng _)), <- !sum_to_scal, <- !sum_to_plus. apply sum_to_ext. intros i _. unfold dot3. ring.
Qed.
Lemma adjoint r d : inner (ATop r) d = sum_to ng (fun i => r i * Aop d i).
Proof.
  unfold PMModel.inner. rewrite (sum_to_ext N _ (fun j => sum_to ng (fun i => r i * dot3 (A i j) (d j)))) by (intros; apply dot_ATop). rewrite sum_to_swap. apply sum_to_ext. intros i _. unfold PMModel.Aop. now rewrite <- sum_to_scal.
Qed.
Lemma Aop_lin x d t i : Aop (fun j => add3 (x j) (scal3 t (d j))) i = Aop x i + t * Aop d i.
Proof. unfold PMModel.Aop. rewrite <- sum_to_scal, <- sum_to_plus. apply sum_to_ext. intros j _. unfold dot3. cbn [vx vy vz add3 scal3]. ring. Qed.
Lemma Aop_ext x y i : (forall j, (j < N)%nat -> x j = y j) -> Aop x i = Aop y i.
Proof. intros H. apply sum_to_ext. intros j Hj. now rewrite H. Qed.
Lemma ATop_ext r r' j : (forall i, (i < ng)%nat -> r i = r' i) -> ATop r j = ATop r' j.
Proof. intros H. unfold PMModel.ATop. f_equal; apply sum_to_ext; intros i Hi; now rewrite H. Qed.
Lemma Hess_ext x y j : (forall k, (k < N)%nat -> x k = y k) -> (j < N)%nat -> Hess x j = Hess y j.
Proof. intros H Hj. unfold PMModel.Hess. rewrite H by exact Hj. f_equal. apply ATop_ext. intros. now apply Aop_ext. Qed.
Lemma grad_ext x y j : (forall k, (k < N)%nat -> x k = y k) -> (j < N)%nat -> grad x j = grad y j.
Proof. intros H Hj. unfold PMModel.grad. f_equal. now apply Hess_ext. Qed.
Lemma inner_ext u u' v v' : (forall j, (j < N)%nat -> u j = u' j) -> (forall j, (j < N)%nat -> v j = v' j) -> inner u v = inner u' v'.
Proof. intros H1 H2. apply sum_to_ext. intros j Hj. now rewrite H1, H2. Qed.
Lemma cost_ext x y : (forall k, (k < N)%nat -> x k = y k) -> cost x = cost y.
Proof.
  intros H. unfold PMModel.cost, R2. f_equal; [f_equal|].
  - f_equal. apply sum_to_ext. intros i _. now rewrite (Aop_ext x y i H).
  - f_equal. f_equal. apply sum_to_ext. intros j Hj. now rewrite H.
  - f_equal. apply sum_to_ext. intros j Hj. now rewrite H.
Qed.
Definition line (x d : nat -> vec3) (t : R) (j : nat) : vec3 := sub3 (x j) (scal3 t (d j)).
Lemma line_add x d t j : line x d t j = add3 (x j) (scal3 (- t) (d j)).
Proof. apply v3_eq; cbn [vx vy vz add3 sub3 scal3 line]; unfold line; cbn [vx vy vz sub3 scal3]; ring. Qed.
Lemma ATop_lin r q t j : ATop (fun i => r i + t * q i) j = add3 (ATop r j) (scal3 t (ATop q j)).
Proof.
  apply v3_eq; unfold PMModel.ATop; cbn [vx vy vz add3 scal3]; rewrite <- sum_to_scal, <- sum_to_plus; apply sum_to_ext; intros; ring.
Qed.
Lemma Hess_line x d t j : Hess (line x d t) j = sub3 (Hess x j) (scal3 t (Hess d j)).
Proof.
  unfold PMModel.Hess. rewrite (ATop_ext _ (fun i => Aop x i + (- t) * Aop d i)) by (intros; rewrite <- Aop_lin; apply Aop_ext; intros; apply line_add). rewrite ATop_lin, line_add. apply v3_eq; cbn [vx vy vz add3 sub3 scal3]; ring.
Qed.
Lemma grad_line x d t j : grad (line x d t) j = sub3 (grad x j) (scal3 t (Hess d j)).
Proof. unfold PMModel.grad. rewrite Hess_line. apply v3_eq; cbn [vx vy vz sub3 scal3]; ring. Qed.
Lemma inner_Hess d : inner d (Hess d) = sum_to ng (fun i => Aop d i * Aop d i) + 2 * (l2 + 1 / (2 * nu)) * norm2 d.
Proof.
  rewrite <- (adjoint (Aop d) d). unfold PMModel.inner, PMModel.norm2. rewrite <- sum_to_scal, <- sum_to_plus. apply sum_to_ext. intros j _. unfold PMModel.Hess, dot3. cbn [vx vy vz add3 scal3]. ring.
Qed.
Lemma norm2_ge0 d : 0 <= norm2 d. Proof. apply sum_to_ge0. intros. unfold dot3. nra. Qed.
Lemma norm2_zero d : norm2 d = 0 <-> forall j, (j < N)%nat -> d j = v0.
Proof.
  unfold PMModel.norm2. rewrite sum_to_zero by (intros; unfold dot3; nra). split; intros H j Hj; specialize (H j Hj).
  - destruct (d j) as [a c e]. unfold dot3 in H. cbn in H. destruct (sq0 a c e) as (-> & -> & ->); [lra|reflexivity].
  - rewrite H. unfold dot3, v0. cbn. ring.
Qed.
(** second-order expansion of the cost *)
Lemma expand x d t : cost (line x d t) = cost x - t * inner (grad x) d + t * t / 2 * inner d (Hess d).
Proof.
  rewrite inner_Hess. assert (G : inner (grad x) d = sum_to ng (fun i => (Aop x i - b i) * Aop d i) + (2 * (l2 + 1 / (2 * nu))) * inner x d - 1 / nu * inner w d).
  { transitivity (inner (ATop (Aop x)) d - inner (ATop b) d + (2 * (l2 + 1 / (2 * nu))) * inner x d - 1 / nu * inner w d).
    - unfold PMModel.inner. unfold Rminus at 1 2. rewrite <- !Ropp_mult_distr_l_reverse. replace (- sum_to N (fun j => dot3 (ATop b j) (d j))) with ((-1) * sum_to N (fun j => dot3 (ATop b j) (d j))) by ring. rewrite <- !sum_to_scal, <- !sum_to_plus. apply sum_to_ext. intros j Hj. unfold PMModel.grad, PMModel.Hess, ATb_rs. rewrite (HATb j Hj). unfold dot3. cbn [vx vy vz add3 sub3 scal3]. ring.
    - rewrite !adjoint. f_equal. f_equal. unfold Rminus. replace (- sum_to ng (fun i => b i * Aop d i)) with ((-1) * sum_to ng (fun i => b i * Aop d i)) by ring. rewrite <- sum_to_scal, <- sum_to_plus. apply sum_to_ext. intros. ring. }
  rewrite G. unfold PMModel.cost, R2.
  assert (E1 : sum_to ng (fun i => (Aop (line x d t) i - b i) * (Aop (line x d t) i - b i)) = sum_to ng (fun i => (Aop x i - b i) * (Aop x i - b i)) + (- 2 * t) * sum_to ng (fun i => (Aop x i - b i) * Aop d i) + (t * t) * sum_to ng (fun i => Aop d i * Aop d i)).
  { rewrite <- !sum_to_scal, <- !sum_to_plus. apply sum_to_ext. intros i _. assert (AL : Aop (line x d t) i = Aop x i + (- t) * Aop d i) by (rewrite <- Aop_lin; apply Aop_ext; intros; apply line_add). rewrite AL. ring. }
  assert (E2 : norm2 (fun j => sub3 (line x d t j) (w j)) = norm2 (fun j => sub3 (x j) (w j)) + (- 2 * t) * (inner x d + (-1) * inner w d) + (t * t) * norm2 d).
  { unfold PMModel.norm2, PMModel.inner. rewrite <- !sum_to_scal, <- !sum_to_plus, <- !sum_to_scal, <- !sum_to_plus. apply sum_to_ext. intros j _. unfold line, dot3. cbn [vx vy vz sub3 scal3]. ring. }
  assert (E3 : norm2 (line x d t) = norm2 x + (- 2 * t) * inner x d + (t * t) * norm2 d).
  { unfold PMModel.norm2, PMModel.inner. rewrite <- !sum_to_scal, <- !sum_to_plus. apply sum_to_ext. intros j _. unfold line, dot3. cbn [vx vy vz sub3 scal3]. ring. }
  rewrite E1, E2, E3. field. exact Hnu.
Qed.
End Quad.

(** ** The iteration *)
Section Iter.
Variables (ng N : nat) (A : nat -> nat -> vec3) (b : nat -> R) (ATb w : nat -> vec3) (m : nat -> R) (alpha nu l2 : R).
Hypothesis HATb : forall j, (j < N)%nat -> ATb j = ATop ng A b j.
Hypothesis Hm : forall j, (j < N)%nat -> 0 < m j.
Hypothesis Hal : 0 < alpha.
Hypothesis Hnu : 0 < nu.
Hypothesis Hl2 : 0 <= l2.
Notation Hess := (Hess ng N A nu l2).
Notation grad := (grad ng N A ATb w nu l2).
Notation cost := (cost ng N A b w nu l2).
Notation inner := (inner N).
Notation norm2 := (norm2 N).
Notation step := (mw_step ng N A ATb w m alpha nu l2).
Notation init := (pinit ng N A ATb w m nu l2).
Definition feas (x : nat -> vec3) : Prop := forall j, (j < N)%nat -> ball (m j) (x j).
(** what the state satisfies in every iteration *)
Definition inv (s : pstate) : Prop := (forall j, (j < N)%nat -> sg s j = grad (sx s) j) /\ inner (sg s) (sp s) = norm2 (fun j => phi (m j) (sx s j) (sg s j)).
(** no direction that find_max_alphaf ignores *)
Definition no_tiny (s : pstate) : Prop := forall j, (j < N)%nat -> sp s j = v0 \/ e20 < dot3 (sp s j) (sp s j).
(** the step size is at most 2 / (largest eigenvalue) *)
Definition stable : Prop := forall v, inner v (Hess v) <= 2 / alpha * norm2 v.
Lemma nu_nz : nu <> 0. Proof using Hnu. lra. Qed.
Lemma Hess_pos d : 0 <= inner d (Hess d) /\ (inner d (Hess d) = 0 -> forall j, (j < N)%nat -> d j = v0).
Proof.
  rewrite inner_Hess. set (S0 := sum_to ng _). assert (0 <= S0) by (apply sum_to_ge0; intros; nra). assert (Q := norm2_ge0 N d). assert (P : 0 < 1 / (2 * nu)) by (apply Rdiv_lt_0_compat; lra). split; [nra|]. intros E. apply (norm2_zero N). nra.
Qed.
Lemma phi_dot M x g : dot3 g (phi M x g) = dot3 (phi M x g) (phi M x g).
Proof. unfold phi. destruct (Rlt_dec _ _); [reflexivity|]. unfold dot3, v0. cbn. ring. Qed.
Lemma inv_fresh x : inv (PS x (grad x) (fun j => phi (m j) (x j) (grad x j))).
Proof. split; [reflexivity|]. cbn [sx sg sp]. apply sum_to_ext. intros. apply phi_dot. Qed.
Lemma gp_ge0 s : inv s -> 0 <= inner (sg s) (sp s). Proof. intros (_ & ->). apply norm2_ge0. Qed.
Lemma af_ge0 s : (0 < N)%nat -> feas (sx s) -> 0 <= alpha_f N m s.
Proof.
  intros NP F. unfold alpha_f. destruct (minf_in (pred N) (fun j => max_alpha (m j) (sx s j) (sp s j))) as (j & L & ->). destruct (Rlt_dec e20 (dot3 (sp s j) (sp s j))) as [G|G].
  - apply max_alpha_spec; [apply F; lia|exact G].
  - unfold max_alpha. destruct (Rlt_dec _ _); [contradiction|]. apply pow_le. lra.
Qed.
Lemma along s t : (0 < N)%nat -> feas (sx s) -> no_tiny s -> 0 <= t <= alpha_f N m s -> feas (line (sx s) (sp s) t).
Proof.
  intros NP F NT T j Hj. unfold line. destruct (NT j Hj) as [->|G].
  - assert (E : sub3 (sx s j) (scal3 t v0) = sx s j) by (apply v3_eq; cbn [vx vy vz sub3 scal3 add3 v0]; ring). rewrite E. now apply F.
  - apply max_alpha_spec; [now apply F|exact G|]. split; [lra|]. eapply Rle_trans; [apply T|]. unfold alpha_f. apply (minf_le (pred N) (fun j => max_alpha (m j) (sx s j) (sp s j))). lia.
Qed.
Lemma cost_line s t : inv s -> cost (line (sx s) (sp s) t) = cost (sx s) - t * inner (sg s) (sp s) + t * t / 2 * inner (sp s) (Hess (sp s)).
Proof.
  intros (G & _). rewrite (expand ng N A b ATb w nu l2 HATb nu_nz). do 2 f_equal. f_equal. apply inner_ext; [|reflexivity]. intros; symmetry; auto.
Qed.
Lemma inner_sub u f p c : inner u (fun j => sub3 (f j) (scal3 c (p j))) = inner u f + (- c) * inner u p.
Proof. unfold PMModel.inner. rewrite <- sum_to_scal, <- sum_to_plus. apply sum_to_ext. intros. unfold dot3. cbn [vx vy vz sub3 scal3]. ring. Qed.
Lemma cg_inv s : inv s -> inner (sp s) (Hess (sp s)) <> 0 -> inv (cg_step ng N A m nu l2 s).
Proof.
  intros (G & P) NZ. unfold cg_step. cbv zeta. set (a := alpha_cg ng N A nu l2 s). set (H := Hess (sp s)) in *. set (g' := fun j => sub3 (sg s j) (scal3 a (H j))). set (x' := fun j => sub3 (sx s j) (scal3 a (sp s j))). set (f := fun j => phi (m j) (x' j) (g' j)). set (gam := inner f H / inner (sp s) H).
  split; cbn [sx sg sp].
  - intros j Hj. change x' with (line (sx s) (sp s) a). rewrite grad_line, <- G by exact Hj. reflexivity.
  - assert (Z : inner g' (sp s) = 0).
    { transitivity (inner (sg s) (sp s) + (- a) * inner (sp s) H). { unfold PMModel.inner. rewrite <- sum_to_scal, <- sum_to_plus. apply sum_to_ext. intros. unfold g', dot3. cbn [vx vy vz sub3 scal3]. ring. } unfold a, alpha_cg. fold H. field. exact NZ. }
    change (inner g' (fun j => sub3 (f j) (scal3 gam (sp s j))) = norm2 f). rewrite inner_sub, Z, Rmult_0_r, Rplus_0_r. apply sum_to_ext. intros. apply phi_dot.
Qed.
Lemma cg_ok_true s : cg_ok ng N A m nu l2 s = true -> inner (sp s) (Hess (sp s)) <> 0 /\ alpha_cg ng N A nu l2 s < alpha_f N m s.
Proof. unfold cg_ok. destruct (Req_EM_T _ _); [discriminate|]. destruct (Rlt_dec _ _); [auto|discriminate]. Qed.
Lemma cg_ok_false s : cg_ok ng N A m nu l2 s = false -> inner (sp s) (Hess (sp s)) = 0 \/ inner (sp s) (Hess (sp s)) <> 0 /\ alpha_f N m s <= alpha_cg ng N A nu l2 s.
Proof. unfold cg_ok. destruct (Req_EM_T _ _); [auto|]. destruct (Rlt_dec _ _); [discriminate|]. intros _. right. split; [assumption|lra]. Qed.
Lemma acg_ge0 s : inv s -> inner (sp s) (Hess (sp s)) <> 0 -> 0 <= alpha_cg ng N A nu l2 s.
Proof. intros I NZ. assert (G := gp_ge0 s I). destruct (Hess_pos (sp s)) as (P & _). unfold alpha_cg. apply Rmult_le_pos; [exact G|]. left. apply Rinv_0_lt_compat. lra. Qed.
(** one projected gradient step *)
Definition pgrad (x : nat -> vec3) (j : nat) : vec3 := proj (m j) (sub3 (x j) (scal3 alpha (grad x j))).
Lemma pg_descent x : stable -> feas x -> cost (pgrad x) <= cost x.
Proof.
  intros ST F. set (d := fun j => sub3 (x j) (pgrad x j)). rewrite (cost_ext ng N A b w nu l2 (pgrad x) (line x d 1)) by (intros j _; apply v3_eq; unfold line, d; cbn [vx vy vz sub3 scal3]; ring).
  rewrite (expand ng N A b ATb w nu l2 HATb nu_nz). assert (S1 := ST d). assert (V : norm2 d <= alpha * inner (grad x) d).
  { unfold PMModel.norm2, PMModel.inner. assert (K : 0 <= sum_to N (fun j => alpha * dot3 (grad x j) (d j) + (-1) * dot3 (d j) (d j))). { apply sum_to_ge0. intros j Hj. assert (Q := proj_vi (m j) (sub3 (x j) (scal3 alpha (grad x j))) (x j) (Hm j Hj) (F j Hj)). fold (pgrad x j) in Q. assert (QE : alpha * dot3 (grad x j) (d j) + (-1) * dot3 (d j) (d j) = - dot3 (sub3 (sub3 (x j) (scal3 alpha (grad x j))) (pgrad x j)) (sub3 (x j) (pgrad x j))) by (unfold d, dot3; cbn [vx vy vz sub3 scal3]; ring). lra. } rewrite sum_to_plus, !sum_to_scal in K. lra. }
  assert (T : 2 / alpha * norm2 d <= 2 * inner (grad x) d). { apply (Rmult_le_reg_l alpha); [exact Hal|]. replace (alpha * (2 / alpha * norm2 d)) with (2 * norm2 d) by (field; lra). lra. } lra.
Qed.
Lemma mpg_line s j : inv s -> (j < N)%nat -> sx (mpg_step ng N A ATb w m alpha nu l2 s) j = pgrad (line (sx s) (sp s) (alpha_f N m s)) j.
Proof. intros (G & _) Hj. unfold mpg_step. cbv zeta. cbn [sx]. unfold pgrad. rewrite grad_line, <- G by exact Hj. reflexivity. Qed.
Lemma pg_line s j : inv s -> (j < N)%nat -> sx (pg_step ng N A ATb w m alpha nu l2 s) j = pgrad (sx s) j.
Proof. intros (G & _) Hj. unfold pg_step. cbv zeta. cbn [sx]. unfold pgrad. now rewrite <- G. Qed.
Lemma pgrad_ext x y j : (forall k, (k < N)%nat -> x k = y k) -> (j < N)%nat -> pgrad x j = pgrad y j.
Proof. intros H Hj. unfold pgrad. now rewrite H, (grad_ext ng N A ATb w nu l2 x y). Qed.
(** the half step of the mixed step *)
Lemma half s : (0 < N)%nat -> feas (sx s) -> no_tiny s -> inv s -> cg_ok ng N A m nu l2 s = false -> let h := line (sx s) (sp s) (alpha_f N m s) in
  feas h /\ cost h <= cost (sx s) /\ (cost h = cost (sx s) -> forall j, (j < N)%nat -> h j = sx s j).
Proof.
  intros NP F NT I O h. assert (A0 := af_ge0 s NP F). split; [apply along; auto; lra|]. unfold h. rewrite (cost_line s _ I). assert (G := gp_ge0 s I). destruct (Hess_pos (sp s)) as (HP & HZ). set (af := alpha_f N m s) in *. destruct (cg_ok_false s O) as [Z|(NZ & L)].
  - specialize (HZ Z). assert (GZ : inner (sg s) (sp s) = 0). { unfold PMModel.inner. rewrite (sum_to_ext N _ (fun _ => 0 * 0)); [rewrite sum_to_scal; ring|]. intros j Hj. rewrite (HZ j Hj). unfold dot3, v0. cbn. ring. } rewrite Z, GZ. split; [lra|]. intros _ j Hj. unfold line. rewrite (HZ j Hj). apply v3_eq; cbn [vx vy vz sub3 scal3 add3 v0]; ring.
  - fold af in L. unfold alpha_cg in L. set (gp := inner (sg s) (sp s)) in *. set (H := inner (sp s) (Hess (sp s))) in *. assert (HPos : 0 < H) by lra. assert (L2 : af * H <= gp). { replace gp with (gp / H * H) by (field; lra). apply Rmult_le_compat_r; lra. }
    assert (K : af * (af * H) <= af * gp) by (apply Rmult_le_compat_l; lra). split; [nra|]. intros E. assert (Z : af * gp <= 0) by nra. assert (AZ : af = 0). { destruct (Rle_dec af 0); [lra|]. exfalso. assert (0 < af) by lra. assert (0 < af * H) by (apply Rmult_lt_0_compat; lra). assert (0 < gp) by lra. nra. }
    intros j Hj. unfold line. rewrite AZ. apply v3_eq; cbn [vx vy vz sub3 scal3]; ring.
Qed.
(** one iteration keeps the invariant, stays feasible and does not increase the cost *)
Lemma step_inv s : inv s -> inv (step s).
Proof.
  intros I. unfold mw_step. destruct (Rle_dec _ _); [|apply inv_fresh]. destruct (cg_ok ng N A m nu l2 s) eqn:O; [|apply inv_fresh]. apply cg_inv; [exact I|]. now apply cg_ok_true.
Qed.
Lemma step_feas s : (0 < N)%nat -> inv s -> no_tiny s -> feas (sx s) -> feas (sx (step s)).
Proof.
  intros NP I NT F. unfold mw_step. destruct (Rle_dec _ _); [destruct (cg_ok ng N A m nu l2 s) eqn:O|].
  - destruct (cg_ok_true s O) as (NZ & L). assert (A0 := acg_ge0 s I NZ). change (feas (line (sx s) (sp s) (alpha_cg ng N A nu l2 s))). apply along; auto. lra.
  - intros j Hj. apply proj_ball. now apply Hm.
  - intros j Hj. apply proj_ball. now apply Hm.
Qed.
Lemma step_cost s : (0 < N)%nat -> stable -> inv s -> no_tiny s -> feas (sx s) -> cost (sx (step s)) <= cost (sx s).
Proof.
  intros NP ST I NT F. unfold mw_step. destruct (Rle_dec _ _); [destruct (cg_ok ng N A m nu l2 s) eqn:O|].
  - destruct (cg_ok_true s O) as (NZ & L). change (cost (line (sx s) (sp s) (alpha_cg ng N A nu l2 s)) <= cost (sx s)). rewrite (cost_line s _ I). destruct (Hess_pos (sp s)) as (HP & _). unfold alpha_cg. set (gp := inner (sg s) (sp s)). set (H := inner (sp s) (Hess (sp s))) in *. assert (0 < H) by lra.
    replace (cost (sx s) - gp / H * gp + gp / H * (gp / H) / 2 * H) with (cost (sx s) - / 2 * (gp * gp * / H)) by (field; lra). assert (0 <= gp * gp * / H) by (apply Rmult_le_pos; [nra|]; left; now apply Rinv_0_lt_compat). lra.
  - destruct (half s NP F NT I O) as (HF & HC & _). rewrite (cost_ext ng N A b w nu l2 _ _ (fun j Hj => mpg_line s j I Hj)). eapply Rle_trans; [apply pg_descent; assumption|exact HC].
  - rewrite (cost_ext ng N A b w nu l2 _ _ (fun j Hj => pg_line s j I Hj)). now apply pg_descent.
Qed.
(** first-order optimality *)
Definition stationary (x : nat -> vec3) : Prop := forall j, (j < N)%nat -> forall z, ball (m j) z -> 0 <= dot3 (grad x j) (sub3 z (x j)).
Lemma stationary_min x z : stationary x -> feas z -> cost x <= cost z.
Proof.
  intros SX F. set (d := fun j => sub3 (x j) (z j)). rewrite (cost_ext ng N A b w nu l2 z (line x d 1)) by (intros j _; apply v3_eq; unfold line, d; cbn [vx vy vz sub3 scal3]; ring). rewrite (expand ng N A b ATb w nu l2 HATb nu_nz). destruct (Hess_pos d) as (HP & _).
  assert (K : 0 <= sum_to N (fun j => (-1) * dot3 (grad x j) (d j))). { apply sum_to_ge0. intros j Hj. specialize (SX j Hj (z j) (F j Hj)). assert (QE : -1 * dot3 (grad x j) (d j) = dot3 (grad x j) (sub3 (z j) (x j))) by (unfold d, dot3; cbn [vx vy vz sub3 scal3]; ring). lra. } rewrite sum_to_scal in K. fold (inner (grad x) d) in K. lra.
Qed.
Lemma fixed_vi M x g : 0 < M -> proj M (sub3 x (scal3 alpha g)) = x -> forall z, ball M z -> 0 <= dot3 g (sub3 z x).
Proof. intros MP E z Z. assert (Q := proj_vi M (sub3 x (scal3 alpha g)) z MP Z). rewrite E in Q. apply (Rmult_le_reg_l alpha); [exact Hal|]. assert (QE : alpha * dot3 g (sub3 z x) = - dot3 (sub3 (sub3 x (scal3 alpha g)) x) (sub3 z x)) by (unfold dot3; cbn [vx vy vz sub3 scal3]; ring). lra. Qed.
Lemma fixed_stationary x : (forall j, (j < N)%nat -> pgrad x j = x j) -> stationary x.
Proof. intros H j Hj z Z. apply (fixed_vi (m j)); [now apply Hm| |exact Z]. now apply H. Qed.
Lemma red_grad_zero M x g : red_grad alpha M x g = v0 -> proj M (sub3 x (scal3 alpha g)) = x.
Proof.
  unfold red_grad. cbv zeta. set (q := proj M _). clearbody q. intros E. assert (E1 := f_equal vx E). assert (E2 := f_equal vy E). assert (E3 := f_equal vz E). cbn [vx vy vz v0] in *.
  assert (K : forall c, c / alpha = 0 -> c = 0) by (intros c Hc; replace c with (c / alpha * alpha) by (field; lra); rewrite Hc; ring). apply K in E1, E2, E3. apply v3_eq; lra.
Qed.
(** an iteration that does not move the dipoles has found a minimiser *)
Lemma step_fixed s : (0 < N)%nat -> stable -> inv s -> no_tiny s -> feas (sx s) -> (forall j, (j < N)%nat -> Rabs (dot3 (sx s j) (sx s j) - m j * m j) <> e8 + e5 * m j * m j) ->
  (forall j, (j < N)%nat -> sx (step s) j = sx s j) -> stationary (sx s).
Proof.
  intros NP ST I NT F NB E. unfold mw_step in E. destruct (Rle_dec _ _) as [L|L]; [destruct (cg_ok ng N A m nu l2 s) eqn:O|].
  - destruct (cg_ok_true s O) as (NZ & _). assert (EA : forall j, (j < N)%nat -> scal3 (alpha_cg ng N A nu l2 s) (sp s j) = v0). { intros j Hj. specialize (E j Hj). unfold cg_step in E. cbv zeta in E. cbn [sx] in E. assert (E1 := f_equal vx E). assert (E2 := f_equal vy E). assert (E3 := f_equal vz E). cbn [vx vy vz sub3 scal3] in *. apply v3_eq; cbn [vx vy vz sub3 scal3 add3 v0]; lra. }
    assert (AZ : alpha_cg ng N A nu l2 s = 0). { destruct (Req_EM_T (alpha_cg ng N A nu l2 s) 0) as [|NA]; [assumption|]. exfalso. apply NZ. unfold PMModel.inner. rewrite (sum_to_ext N _ (fun _ => 0 * 0)); [rewrite sum_to_scal; ring|]. intros j Hj. specialize (EA j Hj). assert (PZ : sp s j = v0). { assert (E1 := f_equal vx EA). assert (E2 := f_equal vy EA). assert (E3 := f_equal vz EA). cbn [vx vy vz scal3 v0] in *. apply v3_eq; cbn; [apply Rmult_integral in E1|apply Rmult_integral in E2|apply Rmult_integral in E3]; tauto. } rewrite PZ. unfold dot3, v0. cbn. ring. }
    assert (GP : inner (sg s) (sp s) = 0). { unfold alpha_cg in AZ. apply Rmult_integral in AZ. destruct AZ as [Z|Z]; [exact Z|]. exfalso. revert Z. now apply Rinv_neq_0_compat. }
    destruct I as (G & P). rewrite P in GP. assert (RZ : norm2 (fun j => red_proj_grad alpha (m j) (sx s j) (sg s j)) = 0) by (assert (Q := norm2_ge0 N (fun j => red_proj_grad alpha (m j) (sx s j) (sg s j))); lra).
    rewrite norm2_zero in GP, RZ. intros j Hj z Z. rewrite <- G by exact Hj. specialize (GP j Hj). specialize (RZ j Hj). cbv beta in GP, RZ. unfold red_proj_grad in RZ. rewrite GP in RZ. assert (BZ : beta alpha (m j) (sx s j) (sg s j) = v0) by (rewrite <- RZ; now rewrite add3_0_l).
    assert (GZ : sg s j = v0 -> 0 <= dot3 (sg s j) (sub3 z (sx s j))) by (intros ->; unfold dot3, v0; cbn; lra).
    unfold phi in GP. destruct (Rlt_dec _ _) as [|B1]; [auto|]. unfold beta in BZ. destruct (Rlt_dec (Rabs _) _) as [B2|B2].
    + destruct (Rlt_dec 0 _); [auto|]. apply (fixed_vi (m j)); [now apply Hm| |exact Z]. now apply red_grad_zero.
    + exfalso. apply (NB j Hj). assert (e5 * m j * m j = e5 * (m j * m j)) by ring. lra.
  - destruct (half s NP F NT I O) as (HF & HC & HE). assert (E' : forall j, (j < N)%nat -> pgrad (line (sx s) (sp s) (alpha_f N m s)) j = sx s j) by (intros j Hj; rewrite <- mpg_line by assumption; now apply E).
    assert (C1 : cost (sx s) <= cost (line (sx s) (sp s) (alpha_f N m s))) by (rewrite <- (cost_ext ng N A b w nu l2 _ _ E'); now apply pg_descent). assert (EQ := HE ltac:(lra)). apply fixed_stationary. intros j Hj. rewrite <- (pgrad_ext _ _ j EQ Hj). now apply E'.
  - apply fixed_stationary. intros j Hj. rewrite <- pg_line by assumption. now apply E.
Qed.

(** ** C83, C84 over whole runs *)
Definition it (m0 : nat -> vec3) (n : nat) : pstate := Nat.iter n step (init m0).
Lemma it_inv m0 n : inv (it m0 n).
Proof. induction n as [|n IH]; [apply inv_fresh|]. cbn [it Nat.iter]. now apply step_inv. Qed.
Lemma it_feas m0 n : (0 < N)%nat -> feas m0 -> (forall k, (k < n)%nat -> no_tiny (it m0 k)) -> feas (sx (it m0 n)).
Proof. intros NP F. induction n as [|n IH]; intros NT; [exact F|]. change (it m0 (S n)) with (step (it m0 n)). apply step_feas; [exact NP|apply it_inv|apply NT; lia|]. apply IH. intros; apply NT; lia. Qed.
Lemma it_cost m0 n k : (0 < N)%nat -> stable -> feas m0 -> (forall k, (k < n)%nat -> no_tiny (it m0 k)) -> (k <= n)%nat -> cost (sx (it m0 n)) <= cost (sx (it m0 k)).
Proof.
  intros NP ST F. induction n as [|n IH]; intros NT L; [replace k with O by lia; lra|]. destruct (Nat.eq_dec k (S n)) as [->|NE]; [lra|]. eapply Rle_trans; [|apply IH; [intros; apply NT; lia|lia]]. change (it m0 (S n)) with (step (it m0 n)). apply step_cost; auto; [apply it_inv|apply it_feas; auto].
Qed.
(** the result and the recorded costs come from the iterates *)
Lemma loop_iter verbose eps fb max_iter m0 : forall fuel k h x, mw_loop ng N A b ATb w m alpha nu l2 verbose eps fb max_iter fuel k (it m0 k) = Some (h, x) ->
  exists n ks, (k <= n <= k + fuel)%nat /\ x = sx (it m0 n) /\ h = map (fun i => cost (sx (it m0 i))) ks /\ (forall i, In i ks -> (k < i <= n)%nat) /\ (forall a c, (a < c < length ks)%nat -> (nth a ks O < nth c ks O)%nat).
Proof.
  induction fuel as [|fuel IH]; intros k h x E; cbn [mw_loop] in E.
  { injection E as <- <-. exists k, []. repeat split; try lia; try reflexivity; try (destruct H). intros a c L. cbn in L. lia. }
  change (step (it m0 k)) with (it m0 (S k)) in E. cbv zeta in E.
  assert (REST : forall h x, (if Rlt_dec (moved N (sx (it m0 (S k))) (sx (it m0 k))) eps then Some ([], sx (it m0 (S k))) else mw_loop ng N A b ATb w m alpha nu l2 verbose eps fb max_iter fuel (S k) (it m0 (S k))) = Some (h, x) ->
    exists n ks, (S k <= n <= k + S fuel)%nat /\ x = sx (it m0 n) /\ h = map (fun i => cost (sx (it m0 i))) ks /\ (forall i, In i ks -> (S k < i <= n)%nat) /\ (forall a c, (a < c < length ks)%nat -> (nth a ks O < nth c ks O)%nat)).
  { intros h' x' E'. destruct (Rlt_dec (moved N (sx (it m0 (S k))) (sx (it m0 k))) eps).
    - injection E' as <- <-. exists (S k), []. repeat split; try lia; try reflexivity; try (destruct H). intros a c L. cbn in L. lia.
    - destruct (IH _ _ _ E') as (n' & ks & L & X & HH & B & SS). exists n', ks. repeat split; auto; try lia; apply B in H; lia. }
  set (rest := if Rlt_dec (moved N (sx (it m0 (S k))) (sx (it m0 k))) eps then _ else _) in *.
  assert (WK : (exists n ks, (S k <= n <= k + S fuel)%nat /\ x = sx (it m0 n) /\ h = map (fun i => cost (sx (it m0 i))) ks /\ (forall i, In i ks -> (S k < i <= n)%nat) /\ (forall a c, (a < c < length ks)%nat -> (nth a ks O < nth c ks O)%nat)) -> exists n ks, (k <= n <= k + S fuel)%nat /\ x = sx (it m0 n) /\ h = map (fun i => cost (sx (it m0 i))) ks /\ (forall i, In i ks -> (k < i <= n)%nat) /\ (forall a c, (a < c < length ks)%nat -> (nth a ks O < nth c ks O)%nat)).
  { intros (n & ks & L & X & HH & B & SS). exists n, ks. repeat split; auto; try lia; apply B in H; lia. }
  destruct verbose; [|now apply WK, REST]. destruct (prints max_iter k) as [[|]|]; [|now apply WK, REST|discriminate]. destruct (Rlt_dec (R2 ng N A b (sx (it m0 (S k)))) fb).
  - injection E as <- <-. exists (S k), [S k]. repeat split; try lia; try reflexivity; try (destruct H as [<-|[]]; lia). intros a c L. cbn in L. lia.
  - destruct rest as [[h' x']|] eqn:RE; [|discriminate]. injection E as <- <-. destruct (REST h' x' eq_refl) as (n' & ks & L & X & HH & B & SS). exists n', (S k :: ks). repeat split; auto; try lia.
    + cbn [map]. now rewrite HH.
    + destruct H as [<-|H]; [lia|apply B in H; lia].
    + destruct H as [<-|H]; [lia|apply B in H; lia].
    + intros [|a] [|c] LL; cbn [nth length] in *; try lia; [specialize (B (nth c ks O) ltac:(apply nth_In; lia)); lia|apply SS; lia].
Qed.
(** MwPGP: started in the feasible set with a stable step size, it returns a feasible point, the recorded costs never increase, and the
    result is at least as good as the start and as every recorded cost *)
Theorem C84_descent verbose eps fb max_iter m0 h x : (0 < N)%nat -> stable -> (forall j, (j < N)%nat -> norm3 (m0 j) <= m j) -> (forall k, (k < max_iter)%nat -> no_tiny (it m0 k)) ->
  MwPGP ng N A b ATb w m alpha nu l2 verbose eps fb max_iter m0 = Some (h, x) ->
  (forall j, (j < N)%nat -> norm3 (x j) <= m j) /\ cost x <= cost m0 /\ (forall c, In c h -> cost x <= c <= cost m0) /\ (forall a c, (a < c < length h)%nat -> nth c h 0 <= nth a h 0).
Proof.
  intros NP ST F0 NT E. assert (F : feas m0) by (intros j Hj; apply ball_norm; auto). destruct (loop_iter verbose eps fb max_iter m0 max_iter 0 h x E) as (n & ks & L & -> & -> & B & SS).
  assert (C := fun a c L1 L2 => it_cost m0 c a NP ST F (fun k Hk => NT k (Nat.lt_le_trans k c max_iter Hk L2)) L1). split; [|split; [|split]].
  - intros j Hj. apply ball_norm; [now apply Hm|]. apply it_feas; auto. intros; apply NT; lia.
  - apply (C O n); lia.
  - intros c I. apply in_map_iff in I. destruct I as (i & <- & I). specialize (B i I). split; [apply C; lia|apply (C O i); lia].
  - intros a c LL. rewrite map_length in LL. assert (NM : forall q, (q < length ks)%nat -> nth q (map (fun i => cost (sx (it m0 i))) ks) 0 = cost (sx (it m0 (nth q ks O)))) by (intros q Hq; rewrite (nth_indep _ 0 (cost (sx (it m0 O)))) by (rewrite map_length; lia); exact (map_nth (fun i => cost (sx (it m0 i))) ks O q)).
    rewrite !NM by lia. apply C; [specialize (SS a c LL); lia|]. specialize (B (nth c ks O) ltac:(apply nth_In; lia)). lia.
Qed.
(** an iteration that leaves the dipoles where they are has found a global minimiser over the feasible set *)
Theorem C84_fixed_point m0 n : (0 < N)%nat -> stable -> (forall j, (j < N)%nat -> norm3 (m0 j) <= m j) -> (forall k, (k <= n)%nat -> no_tiny (it m0 k)) ->
  let x := sx (it m0 n) in (forall j, (j < N)%nat -> Rabs (dot3 (x j) (x j) - m j * m j) <> e8 + e5 * m j * m j) -> moved N (sx (it m0 (S n))) x = 0 ->
  forall z, (forall j, (j < N)%nat -> norm3 (z j) <= m j) -> cost x <= cost z.
Proof.
  intros NP ST F0 NT x NB MV z Z. assert (F : feas m0) by (intros j Hj; apply ball_norm; auto). apply stationary_min; [|intros j Hj; apply ball_norm; auto]. apply step_fixed; auto; [apply it_inv|apply it_feas; auto; intros; apply NT; lia|].
  intros j Hj. change (step (it m0 n)) with (it m0 (S n)). unfold moved in MV. rewrite sum_to_zero in MV by (intros; assert (K := Rabs_pos); pose proof (K (vx (sx (it m0 (S n)) k) - vx (x k))); pose proof (K (vy (sx (it m0 (S n)) k) - vy (x k))); pose proof (K (vz (sx (it m0 (S n)) k) - vz (x k))); lra).
  specialize (MV j Hj). cbv beta in MV. set (y := sx (it m0 (S n)) j) in *. fold x. set (xj := x j) in *. clearbody y xj. pose proof (Rabs_pos (vx y - vx xj)). pose proof (Rabs_pos (vy y - vy xj)). pose proof (Rabs_pos (vz y - vz xj)).
  assert (K : forall a, Rabs a = 0 -> a = 0) by (intros a Ha; destruct (Req_dec a 0) as [|NE]; [assumption|]; exfalso; now apply (Rabs_no_R0 a NE)).
  assert (K1 := K _ (ltac:(lra) : Rabs (vx y - vx xj) = 0)). assert (K2 := K _ (ltac:(lra) : Rabs (vy y - vy xj) = 0)). assert (K3 := K _ (ltac:(lra) : Rabs (vz y - vz xj) = 0)). apply v3_eq; lra.
Qed.
(** without the hypothesis on tiny directions one conjugate-gradient step can leave the ball by at most 1e-10 times the step length *)
Theorem C83_overshoot_bound s j : (0 < N)%nat -> inv s -> cg_ok ng N A m nu l2 s = true -> feas (sx s) -> (j < N)%nat -> norm3 (sx (cg_step ng N A m nu l2 s) j) <= m j + alpha_cg ng N A nu l2 s * sqrt e20.
Proof.
  intros NP I O F Hj. destruct (cg_ok_true s O) as (NZ & L). assert (A0 := acg_ge0 s I NZ). assert (E0 : 0 <= sqrt e20) by apply sqrt_pos. unfold cg_step. cbv zeta. cbn [sx]. set (a := alpha_cg ng N A nu l2 s) in *. specialize (F j Hj). specialize (Hm j Hj).
  destruct (Rlt_dec e20 (dot3 (sp s j) (sp s j))) as [G|G].
  - apply Rle_trans with (m j); [|nra]. apply ball_norm; [exact Hm|]. apply max_alpha_spec; [exact F|exact G|]. split; [exact A0|]. eapply Rle_trans; [left; exact L|]. apply (minf_le (pred N) (fun j => max_alpha (m j) (sx s j) (sp s j))). lia.
  - apply Rnot_lt_le in G. apply ball_norm in F; [|exact Hm]. set (x := sx s j) in *. set (p := sp s j) in *. assert (NP2 : norm3 p <= sqrt e20) by (apply sqrt_le_1_alt; exact G). assert (N0 : 0 <= norm3 x) by apply sqrt_pos. assert (N1 : 0 <= norm3 p) by apply sqrt_pos.
    assert (T : norm3 (sub3 x (scal3 a p)) <= norm3 x + a * norm3 p). { apply Rsqr_incr_0_var; [|nra]. unfold Rsqr. rewrite norm_sq. assert (C := cauchy_norm (scal3 (-1) x) p). assert (NN : norm3 (scal3 (-1) x) = norm3 x) by (unfold norm3; f_equal; unfold dot3; cbn [vx vy vz scal3]; ring). rewrite NN in C.
      assert (E : dot3 (sub3 x (scal3 a p)) (sub3 x (scal3 a p)) = dot3 x x + 2 * a * dot3 (scal3 (-1) x) p + a * a * dot3 p p) by (unfold dot3; cbn [vx vy vz sub3 scal3]; ring). rewrite E, <- (norm_sq x), <- (norm_sq p). nra. }
    nra.
Qed.
End Iter.
