(** C133: regularised self field, coil forces and the force objectives. *)
From Coq Require Import Reals Lra Lia List Bool Arith Classical.
From Verif Require Import ListAux Vec3 BSModel BSDeriv BSVjp CurveDiff CurveDiffProps CurveObjModel CurveObjProps CoilProps BoozSurf BoozProps BoozThms QsrThms DistProps ForceModel.
Import ListNotations.
Open Scope R_scope.

(** ** Specification *)
(** a rotation: linear, keeps the scalar and the vector product *)
Definition rotation (T : vec3 -> vec3) : Prop := (forall a b, T (add3 a b) = add3 (T a) (T b)) /\ (forall s a, T (scal3 s a) = scal3 s (T a)) /\
  (forall a b, dot3 (T a) (T b) = dot3 a b) /\ (forall a b, cross (T a) (T b) = T (cross a b)).
(** a coil moved as a rigid body *)
Definition moved (T : vec3 -> vec3) (w : vec3) (c : fcoil) : fcoil := FC (fc_id c) (fc_I c) (fc_n c) (fun i => add3 (T (fc_g c i)) w) (fun i => T (fc_g1 c i)) (fun i => T (fc_g2 c i)) (fc_q c).
(** a circle of radius R0 about the z axis, parametrised by t in [0, 1), with its derivatives *)
Definition circle (id : nat) (I R0 : R) (n : nat) (q : nat -> R) : fcoil := FC id I n
  (fun i => V3 (R0 * cos (2 * PI * q i)) (R0 * sin (2 * PI * q i)) 0) (fun i => V3 (- (2 * PI * R0) * sin (2 * PI * q i)) (2 * PI * R0 * cos (2 * PI * q i)) 0)
  (fun i => V3 (- (4 * PI ^ 2 * R0) * cos (2 * PI * q i)) (- (4 * PI ^ 2 * R0) * sin (2 * PI * q i)) 0) q.

(** ** the circle *)
Section WithMu.
Variable mu_0 : R.
Lemma circle_field id I R0 n q reg i : 0 < R0 -> 0 < reg -> B_regularized mu_0 (circle id I R0 n q) reg i = V3 0 0 (mu_0 * I / (4 * PI * R0) * (ln (8 * R0 / sqrt reg) - 1)).
Proof.
  intros HR HP. pose proof PI_RGT_0 as PP. unfold B_regularized, B_regularized_pure, circle. cbn [fc_n fc_g fc_g1 fc_g2 fc_q fc_I].
  assert (CS : forall x, sin x * sin x = 1 - cos x * cos x) by (intros x; pose proof (sin2_cos2 x) as H; unfold Rsqr in H; lra).
  assert (P1 : forall k, scal3 (1 / 2 / PI) (V3 (- (2 * PI * R0) * sin (2 * PI * q k)) (2 * PI * R0 * cos (2 * PI * q k)) 0) = V3 (- R0 * sin (2 * PI * q k)) (R0 * cos (2 * PI * q k)) 0) by (intros k; apply v3_eq; unfold scal3; cbn [vx vy vz]; field; lra).
  assert (P2 : forall k, scal3 (1 / 4 / PI ^ 2) (V3 (- (4 * PI ^ 2 * R0) * cos (2 * PI * q k)) (- (4 * PI ^ 2 * R0) * sin (2 * PI * q k)) 0) = V3 (- R0 * cos (2 * PI * q k)) (- R0 * sin (2 * PI * q k)) 0) by (intros k; apply v3_eq; unfold scal3; cbn [vx vy vz]; field; lra).
  rewrite sumv_v0.
  2:{ intros j _. rewrite !P1, !P2. set (a := 2 * PI * q i). set (b := 2 * PI * q j). replace (q j * 2 * PI - q i * 2 * PI) with (b - a) by (unfold a, b; ring). rewrite cos_minus.
    assert (E1 : dot3 (sub3 (V3 (R0 * cos a) (R0 * sin a) 0) (V3 (R0 * cos b) (R0 * sin b) 0)) (sub3 (V3 (R0 * cos a) (R0 * sin a) 0) (V3 (R0 * cos b) (R0 * sin b) 0)) = (2 - 2 * (cos b * cos a + sin b * sin a)) * (R0 * R0)).
    { unfold dot3, sub3. cbn [vx vy vz]. pose proof (CS a). pose proof (CS b). nra. }
    assert (E2 : dot3 (V3 (- R0 * sin a) (R0 * cos a) 0) (V3 (- R0 * sin a) (R0 * cos a) 0) = R0 * R0) by (unfold dot3; cbn [vx vy vz]; pose proof (CS a); nra).
    rewrite E1, E2. set (cf := 2 - 2 * (cos b * cos a + sin b * sin a)). generalize (pw (cf * (R0 * R0) + reg) (3 / 2)). intros P.
    apply v3_eq; unfold add3, scal3, cross, sub3, v0; cbn [vx vy vz]; [unfold Rdiv; ring|unfold Rdiv; ring|]. unfold cf. pose proof (CS a) as A. pose proof (CS b) as B. unfold Rdiv.
    transitivity (/ P * (R0 * R0 * (sin b * sin b + cos b * cos b - (cos b * cos a + sin b * sin a)) - 1 * / 2 * (2 - 2 * (cos b * cos a + sin b * sin a)) * (R0 * R0) * (sin a * sin a + cos a * cos a))); [ring|]. rewrite A, B. replace (_ - _) with 0 by field. ring. }
  rewrite P1, P2. unfold singularity_term. rewrite (norm_unique R0); [|lra|unfold dot3; cbn [vx vy vz]; pose proof (CS (2 * PI * q i)); nra].
  replace (64 * R0 * R0 / reg) with ((8 * R0 / sqrt reg) * (8 * R0 / sqrt reg)) by (rewrite <- (sqrt_sqrt reg) at 3 by lra; field; apply Rgt_not_eq, sqrt_lt_R0; lra).
  pose proof (sqrt_lt_R0 reg HP) as SP. rewrite ln_mult by (apply Rmult_lt_0_compat; [lra|now apply Rinv_0_lt_compat]). set (L := ln (8 * R0 / sqrt reg)).
  pose proof (CS (2 * PI * q i)) as A. unfold Biot_savart_prefactor. apply v3_eq; unfold add3, scal3, cross, v0; cbn [vx vy vz]; [unfold Rdiv; ring|unfold Rdiv; ring|].
  transitivity (I * (mu_0 / (4 * PI)) * (1 / 2 * (-2 + (L + L)) / R0 ^ 3 * (R0 * R0 * (sin (2 * PI * q i) * sin (2 * PI * q i) + cos (2 * PI * q i) * cos (2 * PI * q i))))); [ring|]. rewrite A. field. lra.
Qed.
Theorem C133_circle_circ (id : nat) (I R0 a : R) (n : nat) (q : nat -> R) (i : nat) : 0 < R0 -> 0 < a ->
  B_regularized mu_0 (circle id I R0 n q) (regularization_circ a) i = V3 0 0 (mu_0 * I / (4 * PI * R0) * (ln (8 * R0 / a) - 3 / 4)).
Proof.
  intros HR HA. assert (E : 0 < exp 1) by apply exp_pos. pose proof (sqrt_lt_R0 _ E) as SE. rewrite circle_field; [|exact HR|unfold regularization_circ; apply Rmult_lt_0_compat; [nra|now apply Rinv_0_lt_compat]].
  apply v3_eq; cbn [vx vy vz]; try reflexivity. f_equal. unfold regularization_circ.
  assert (S4 : sqrt (a ^ 2 / sqrt (exp 1)) = a / exp (/ 4)).
  { apply sqrt_lem_1; [left; apply Rmult_lt_0_compat; [nra|now apply Rinv_0_lt_compat]|left; apply Rmult_lt_0_compat; [exact HA|apply Rinv_0_lt_compat, exp_pos]|].
    assert (Q : sqrt (exp 1) = exp (/ 2)) by (apply sqrt_lem_1; [left; exact E|left; apply exp_pos|rewrite <- exp_plus; f_equal; field]). rewrite Q. replace (exp (/ 2)) with (exp (/ 4) * exp (/ 4)) by (rewrite <- exp_plus; f_equal; field).
    field. apply Rgt_not_eq, exp_pos. }
  rewrite S4. replace (8 * R0 / (a / exp (/ 4))) with (8 * R0 / a * exp (/ 4)) by (field; split; [apply Rgt_not_eq, exp_pos|lra]). rewrite ln_mult; [|apply Rmult_lt_0_compat; [lra|now apply Rinv_0_lt_compat]|apply exp_pos]. rewrite ln_exp. field.
Qed.
Theorem C133_circle_rect (id : nat) (I R0 a b : R) (n : nat) (q : nat -> R) (i : nat) : 0 < R0 -> 0 < a -> 0 < b ->
  B_regularized mu_0 (circle id I R0 n q) (regularization_rect a b) i = V3 0 0 (mu_0 * I / (4 * PI * R0) * (ln (8 * R0 / sqrt (a * b)) + 13 / 12 - rectangular_xsection_k a b / 2)).
Proof.
  intros HR HA HB. assert (AB : 0 < a * b) by nra. pose proof (sqrt_lt_R0 _ AB) as SAB. rewrite circle_field; [|exact HR|unfold regularization_rect, rectangular_xsection_delta; apply Rmult_lt_0_compat; [exact AB|apply exp_pos]].
  apply v3_eq; cbn [vx vy vz]; try reflexivity. f_equal. unfold regularization_rect, rectangular_xsection_delta. set (K := rectangular_xsection_k a b). rewrite sqrt_mult; [|lra|left; apply exp_pos].
  assert (Q : sqrt (exp (- (25) / 6 + K)) = exp ((- (25) / 6 + K) / 2)) by (apply sqrt_lem_1; [left; apply exp_pos|left; apply exp_pos|rewrite <- exp_plus; f_equal; field]). rewrite Q.
  replace (8 * R0 / (sqrt (a * b) * exp ((- (25) / 6 + K) / 2))) with (8 * R0 / sqrt (a * b) * exp (- ((- (25) / 6 + K) / 2))) by (rewrite exp_Ropp; field; split; [apply Rgt_not_eq, exp_pos|lra]).
  rewrite ln_mult; [|apply Rmult_lt_0_compat; [lra|now apply Rinv_0_lt_compat]|apply exp_pos]. rewrite ln_exp. field.
Qed.
(** the self force on a circle points outwards *)
Theorem C133_circle_force (id : nat) (I R0 reg : R) (n : nat) (q : nat -> R) (i : nat) : 0 < R0 -> 0 < reg ->
  self_force mu_0 (circle id I R0 n q) reg i = scal3 (mu_0 * I ^ 2 / (4 * PI * R0) * (ln (8 * R0 / sqrt reg) - 1)) (V3 (cos (2 * PI * q i)) (sin (2 * PI * q i)) 0).
Proof.
  intros HR HP. pose proof PI_RGT_0 as PP. unfold self_force, coil_force_pure. rewrite circle_field by assumption. cbn [fc_I fc_g1 circle].
  assert (CS : sin (2 * PI * q i) * sin (2 * PI * q i) = 1 - cos (2 * PI * q i) * cos (2 * PI * q i)) by (pose proof (sin2_cos2 (2 * PI * q i)) as H; unfold Rsqr in H; lra).
  rewrite (norm_unique (2 * PI * R0)); [|nra|unfold dot3; cbn [vx vy vz]; transitivity (4 * PI * PI * R0 * R0 * (sin (2 * PI * q i) * sin (2 * PI * q i) + cos (2 * PI * q i) * cos (2 * PI * q i))); [rewrite CS; ring|ring]].
  apply v3_eq; unfold cross, scal3; cbn [vx vy vz]; field; lra.
Qed.
(** rectangular cross sections: the two sides play the same role; lengths enter as lengths *)
Lemma k_sym a b : rectangular_xsection_k a b = rectangular_xsection_k b a.
Proof. unfold rectangular_xsection_k. rewrite (Rplus_comm (a / b)). unfold Rdiv. rewrite !Rinv_mult. ring. Qed.
Theorem C133_rect_symmetric (a b : R) : regularization_rect a b = regularization_rect b a.
Proof. unfold regularization_rect, rectangular_xsection_delta. rewrite k_sym. ring. Qed.
Theorem C133_regularization_scale (l a b : R) : 0 < l -> 0 < a -> 0 < b -> regularization_circ (l * a) = l ^ 2 * regularization_circ a /\ regularization_rect (l * a) (l * b) = l ^ 2 * regularization_rect a b /\
  0 < regularization_circ a /\ 0 < regularization_rect a b.
Proof.
  intros HL HA HB. assert (E : 0 < sqrt (exp 1)) by (apply sqrt_lt_R0, exp_pos). unfold regularization_circ, regularization_rect, rectangular_xsection_delta.
  split; [field; lra|]. split.
  - assert (K : rectangular_xsection_k (l * a) (l * b) = rectangular_xsection_k a b).
    { unfold rectangular_xsection_k. replace (l * a / (l * b)) with (a / b) by (field; lra). replace (l * b / (l * a)) with (b / a) by (field; lra). generalize (atan (a / b)) (atan (b / a)) (ln (b / a)) (ln (a / b)) (ln (a / b + b / a)). intros. field. lra. }
    rewrite K. ring.
  - split; [apply Rmult_lt_0_compat; [nra|now apply Rinv_0_lt_compat]|apply Rmult_lt_0_compat; [nra|apply exp_pos]].
Qed.
(** ** scaling *)
Lemma pw_scale l x : 0 < l -> 0 < x -> pw (l ^ 2 * x) (3 / 2) = l ^ 3 * pw x (3 / 2).
Proof.
  intros L X. unfold pw. assert (0 < l ^ 2) by nra. destruct (Rlt_dec 0 (l ^ 2 * x)) as [_|N]; [|exfalso; apply N; nra]. destruct (Rlt_dec 0 x); [|lra].
  rewrite <- (Rpower_mult_distr (l ^ 2) x) by assumption. f_equal. rewrite <- (Rpower_pow 2 l L), <- (Rpower_pow 3 l L), Rpower_mult. f_equal. cbn [INR]. field.
Qed.
Lemma pw_pos x p : 0 < x -> 0 < pw x p.
Proof. intros X. unfold pw. destruct (Rlt_dec 0 x); [|lra]. apply exp_pos. Qed.
Lemma sq_ge a : 0 <= dot3 a a.
Proof. unfold dot3. assert (A := Rle_0_sqr (vx a)). assert (B := Rle_0_sqr (vy a)). assert (C := Rle_0_sqr (vz a)). unfold Rsqr in *. lra. Qed.
(** B is proportional to the current *)
Theorem C133_current (n : nat) (g g1 g2 : nat -> vec3) (q : nat -> R) (I k reg : R) (i : nat) : B_regularized_pure mu_0 n g g1 g2 q (k * I) reg i = scal3 k (B_regularized_pure mu_0 n g g1 g2 q I reg i).
Proof. unfold B_regularized_pure. cbv zeta. rewrite scal3_scal. f_equal. unfold Rdiv. ring. Qed.
(** a coil l times as large, with a conductor l times as thick: B is divided by l *)
Lemma sumv_scal k n f : scal3 k (sumv n f) = sumv n (fun j => scal3 k (f j)).
Proof. induction n as [|n IH]; [unfold sumv, sum_to, scal3; cbn; apply v3_eq; cbn; ring|]. rewrite !sumv_S, <- IH. apply scal3_add. Qed.
(** the regularised Biot-Savart integral at point i by the trapezoidal rule: (mu0 I / 4 pi) * average of r'_j x (r_i - r_j) / (|r_i - r_j|^2 + reg)^(3/2) *)
Definition regularised_biot_savart (n : nat) (g g1 : nat -> vec3) (I reg : R) (i : nat) : vec3 :=
  scal3 (mu_0 * I / (4 * PI) * / INR n) (sumv n (fun j => scal3 (/ Rpower (dot3 (sub3 (g i) (g j)) (sub3 (g i) (g j)) + reg) (3 / 2)) (cross (g1 j) (sub3 (g i) (g j))))).
(** B_regularized is that sum plus a correction that depends on the shape of the curve through its first two derivatives at the point only *)
Theorem C133_biot_savart (n : nat) (q : nat -> R) (I reg : R) (i : nat) : 0 < reg -> exists correction : vec3 -> vec3 -> vec3, forall g g1 g2,
  B_regularized_pure mu_0 n g g1 g2 q I reg i = add3 (regularised_biot_savart n g g1 I reg i) (correction (g1 i) (g2 i)).
Proof.
  intros HP. pose proof PI_RGT_0 as PP.
  exists (fun a b => let rcp := scal3 (1 / 2 / PI) a in let rcpp := scal3 (1 / 4 / PI ^ 2) b in scal3 (I * Biot_savart_prefactor mu_0) (add3 (singularity_term rcp rcpp reg)
    (scal3 (2 * PI / INR n) (sumv n (fun j => scal3 (1 / 2 * (2 - 2 * cos (q j * 2 * PI - q i * 2 * PI)) / pw ((2 - 2 * cos (q j * 2 * PI - q i * 2 * PI)) * dot3 rcp rcp + reg) (3 / 2)) (cross rcpp rcp)))))).
  intros g g1 g2. unfold B_regularized_pure, regularised_biot_savart. cbv zeta. rewrite <- sumv_add, scal3_add.
  set (S2 := scal3 (2 * PI / INR n) (sumv n (fun j => scal3 _ (cross _ _)))).
  rewrite (sumv_ext n (fun j => scal3 (/ pw _ _) _) (fun j => scal3 (1 / 2 / PI) (scal3 (/ Rpower (dot3 (sub3 (g i) (g j)) (sub3 (g i) (g j)) + reg) (3 / 2)) (cross (g1 j) (sub3 (g i) (g j)))))).
  - rewrite <- sumv_scal. set (S1 := sumv n _). rewrite !scal3_add, !scal3_scal. unfold Biot_savart_prefactor.
    replace (I * (mu_0 / (4 * PI)) * (2 * PI / INR n) * (1 / 2 / PI)) with (mu_0 * I / (4 * PI) * / INR n) by (unfold Rdiv; generalize (/ INR n); intros; field; lra).
    unfold S2. rewrite !scal3_scal. apply v3_eq; unfold add3; cbn [vx vy vz]; ring.
  - intros j _. unfold pw. assert (Q : 0 <= dot3 (sub3 (g i) (g j)) (sub3 (g i) (g j))) by (unfold dot3; nra). destruct (Rlt_dec 0 _) as [_|N]; [|lra]. apply v3_eq; unfold scal3, cross; cbn [vx vy vz]; ring.
Qed.
Theorem C133_size (n : nat) (g g1 g2 : nat -> vec3) (q : nat -> R) (I l reg : R) (i : nat) : 0 < l -> 0 < reg -> g1 i <> v0 ->
  scal3 l (B_regularized_pure mu_0 n (fun j => scal3 l (g j)) (fun j => scal3 l (g1 j)) (fun j => scal3 l (g2 j)) q I (l ^ 2 * reg) i) = B_regularized_pure mu_0 n g g1 g2 q I reg i.
Proof.
  intros L P NZ. pose proof PI_RGT_0 as PP. unfold B_regularized_pure. cbv zeta. rewrite (scal3_scal l), (Rmult_comm l), <- scal3_scal. f_equal. rewrite scal3_add. f_equal.
  - unfold singularity_term. replace (scal3 (1 / 2 / PI) (scal3 l (g1 i))) with (scal3 l (scal3 (1 / 2 / PI) (g1 i))) by (rewrite !scal3_scal; f_equal; ring). replace (scal3 (1 / 4 / PI ^ 2) (scal3 l (g2 i))) with (scal3 l (scal3 (1 / 4 / PI ^ 2) (g2 i))) by (rewrite !scal3_scal; f_equal; ring).
    set (a := scal3 (1 / 2 / PI) (g1 i)). set (b := scal3 (1 / 4 / PI ^ 2) (g2 i)). assert (NP : 0 < norm3 a).
    { apply norm3_pos. intros E. apply NZ. unfold a in E. assert (Z : forall k x, k <> 0 -> k * x = 0 -> x = 0) by (intros k x K KX; destruct (Rmult_integral _ _ KX); [contradiction|assumption]).
      assert (K : 1 / 2 / PI <> 0) by (apply Rgt_not_eq; apply Rmult_lt_0_compat; [lra|now apply Rinv_0_lt_compat]). apply v3_eq; apply (Z _ _ K); [exact (f_equal vx E)|exact (f_equal vy E)|exact (f_equal vz E)]. }
    rewrite (CurveDiffProps.norm_scal l) by lra. set (N := norm3 a) in *. replace (64 * (l * N) * (l * N) / (l ^ 2 * reg)) with (64 * N * N / reg) by (field; lra).
    replace (cross (scal3 l a) (scal3 l b)) with (scal3 (l * l) (cross a b)) by (v3; ring). rewrite !scal3_scal. f_equal. field. lra.
  - rewrite scal3_scal, (Rmult_comm l), <- scal3_scal. f_equal. rewrite sumv_scal. apply sumv_ext. intros j _. rewrite scal3_add.
    assert (H0 : 0 < dot3 (sub3 (g i) (g j)) (sub3 (g i) (g j)) + reg) by (pose proof (sq_ge (sub3 (g i) (g j))); lra).
    f_equal.
    + replace (dot3 (sub3 (scal3 l (g i)) (scal3 l (g j))) (sub3 (scal3 l (g i)) (scal3 l (g j))) + l ^ 2 * reg) with (l ^ 2 * (dot3 (sub3 (g i) (g j)) (sub3 (g i) (g j)) + reg)) by (unfold dot3, sub3, scal3; cbn [vx vy vz]; ring).
      rewrite (pw_scale l _ L H0). pose proof (pw_pos _ (3 / 2) H0) as W. replace (cross (scal3 (1 / 2 / PI) (scal3 l (g1 j))) (sub3 (scal3 l (g i)) (scal3 l (g j)))) with (scal3 (l * l) (cross (scal3 (1 / 2 / PI) (g1 j)) (sub3 (g i) (g j)))).
      * rewrite !scal3_scal. f_equal. field. lra.
      * generalize (1 / 2 / PI) (g1 j) (g i) (g j). intros. v3; ring.
    + set (cf := 2 - 2 * cos (q j * 2 * PI - q i * 2 * PI)). assert (CF : 0 <= cf) by (unfold cf; pose proof (COS_bound (q j * 2 * PI - q i * 2 * PI)); lra).
      assert (H1 : 0 < cf * dot3 (scal3 (1 / 2 / PI) (g1 i)) (scal3 (1 / 2 / PI) (g1 i)) + reg) by (pose proof (Rmult_le_pos _ _ CF (sq_ge (scal3 (1 / 2 / PI) (g1 i)))); lra).
      replace (cf * dot3 (scal3 (1 / 2 / PI) (scal3 l (g1 i))) (scal3 (1 / 2 / PI) (scal3 l (g1 i))) + l ^ 2 * reg) with (l ^ 2 * (cf * dot3 (scal3 (1 / 2 / PI) (g1 i)) (scal3 (1 / 2 / PI) (g1 i)) + reg)) by (unfold dot3, scal3; cbn [vx vy vz]; ring).
      rewrite (pw_scale l _ L H1). pose proof (pw_pos _ (3 / 2) H1) as W. replace (cross (scal3 (1 / 4 / PI ^ 2) (scal3 l (g2 i))) (scal3 (1 / 2 / PI) (scal3 l (g1 i)))) with (scal3 (l * l) (cross (scal3 (1 / 4 / PI ^ 2) (g2 i)) (scal3 (1 / 2 / PI) (g1 i)))).
      * rewrite !scal3_scal. f_equal. field. lra.
      * generalize (1 / 2 / PI) (1 / 4 / PI ^ 2) (g1 i) (g2 i). intros. v3; ring.
Qed.
(** the force is perpendicular to the conductor, and is I t x (B_self + B_others) *)
Theorem C133_force (c : fcoil) (allcoils : list fcoil) (reg : R) (i : nat) :
  coil_force mu_0 c allcoils reg i = cross (scal3 (fc_I c / norm3 (fc_g1 c i)) (fc_g1 c i)) (add3 (B_regularized mu_0 c reg i) (mutual_field c allcoils i)) /\
  dot3 (coil_force mu_0 c allcoils reg i) (fc_g1 c i) = 0.
Proof.
  assert (E : coil_force mu_0 c allcoils reg i = cross (scal3 (fc_I c / norm3 (fc_g1 c i)) (fc_g1 c i)) (add3 (B_regularized mu_0 c reg i) (mutual_field c allcoils i))).
  { unfold coil_force, self_force, coil_force_pure. cbv zeta. rewrite scal3_scal. unfold Rdiv. generalize (fc_I c * / norm3 (fc_g1 c i)) (fc_g1 c i) (B_regularized mu_0 c reg i) (mutual_field c allcoils i). intros. v3; ring. }
  split; [exact E|]. rewrite E. generalize (fc_I c / norm3 (fc_g1 c i)) (fc_g1 c i) (add3 (B_regularized mu_0 c reg i) (mutual_field c allcoils i)). intros k [] []. unfold dot3; cbn. ring.
Qed.
(** ** rigid motions *)
Section Rigid.
Variable T : vec3 -> vec3.
Hypothesis RT : rotation T.
Lemma T_add a b : T (add3 a b) = add3 (T a) (T b). Proof using RT. apply RT. Qed.
Lemma T_scal s a : T (scal3 s a) = scal3 s (T a). Proof using RT. apply RT. Qed.
Lemma T_dot a b : dot3 (T a) (T b) = dot3 a b. Proof using RT. apply RT. Qed.
Lemma T_cross a b : cross (T a) (T b) = T (cross a b). Proof using RT. apply RT. Qed.
Lemma T_v0 : T v0 = v0.
Proof using RT. replace v0 with (scal3 0 v0) at 1 by (v3; ring). rewrite T_scal. generalize (T v0). intros. v3; ring. Qed.
Lemma T_sub a b : T (sub3 a b) = sub3 (T a) (T b).
Proof using RT. replace (sub3 a b) with (add3 a (scal3 (-1) b)) by (v3; ring). rewrite T_add, T_scal. generalize (T a) (T b). intros. v3; ring. Qed.
Lemma T_norm a : norm3 (T a) = norm3 a. Proof using RT. unfold norm3. now rewrite T_dot. Qed.
Lemma T_sumv n f : T (sumv n f) = sumv n (fun j => T (f j)).
Proof using RT. induction n as [|n IH]; [exact T_v0|]. now rewrite !sumv_S, T_add, IH. Qed.
Lemma T_sum3 l : T (sum3 l) = sum3 (map T l).
Proof using RT. induction l as [|a l IH]; cbn [sum3 map]; [exact T_v0|]. now rewrite T_add, IH. Qed.
Lemma shift_sub w a b : sub3 (add3 (T a) w) (add3 (T b) w) = T (sub3 a b).
Proof using RT. rewrite T_sub. generalize (T a) (T b). intros. v3; ring. Qed.
Lemma B_reg_moved w c reg i : B_regularized mu_0 (moved T w c) reg i = T (B_regularized mu_0 c reg i).
Proof using RT.
  unfold B_regularized, B_regularized_pure, moved. cbn [fc_n fc_g fc_g1 fc_g2 fc_q fc_I]. cbv zeta. rewrite T_scal, T_add, T_scal, T_sumv. f_equal. f_equal.
  - unfold singularity_term. rewrite <- !T_scal, T_norm, T_cross, <- T_scal. reflexivity.
  - f_equal. apply sumv_ext. intros j _. rewrite T_add, shift_sub, <- !T_scal, !T_dot, !T_cross, <- !T_scal. reflexivity.
Qed.
Lemma coil_field_moved w x d : coil_field kB (snd (bs_data (moved T w d))) (add3 (T x) w) = T (coil_field kB (snd (bs_data d)) x).
Proof using RT.
  unfold coil_field, bs_data, moved. cbn [snd fc_n fc_g fc_g1]. rewrite T_scal, T_sum3, !map_map, !map_length. f_equal. f_equal. apply map_ext. intros j. unfold kB. cbn [fst snd].
  rewrite shift_sub, T_cross. unfold normsq. rewrite T_dot, T_scal. reflexivity.
Qed.
Lemma others_moved w c l : others (moved T w c) (map (moved T w) l) = map (moved T w) (others c l).
Proof using. unfold others. induction l as [|d l IH]; [reflexivity|]. cbn [map filter]. cbn [moved fc_id]. destruct (negb (fc_id d =? fc_id c)); cbn [map]; now rewrite <- IH. Qed.
Lemma mutual_moved w c l i : mutual_field (moved T w c) (map (moved T w) l) i = T (mutual_field c l i).
Proof using RT.
  unfold mutual_field. rewrite others_moved. unfold coils_field. rewrite T_sum3, !map_map. f_equal. apply map_ext. intros d. rewrite T_scal, <- (coil_field_moved w). reflexivity.
Qed.
(** moving all the coils as one rigid body turns the fields and the forces with them *)
Theorem C133_rigid (w : vec3) (c : fcoil) (allcoils : list fcoil) (reg : R) (i : nat) :
  B_regularized mu_0 (moved T w c) reg i = T (B_regularized mu_0 c reg i) /\ coil_force mu_0 (moved T w c) (map (moved T w) allcoils) reg i = T (coil_force mu_0 c allcoils reg i).
Proof using RT.
  split; [apply B_reg_moved|]. rewrite !(proj1 (C133_force _ _ _ _)), B_reg_moved, mutual_moved. cbn [moved fc_I fc_g1]. rewrite T_norm, <- T_scal, <- T_add, T_cross. reflexivity.
Qed.
Theorem C133_objectives_invariant (w : vec3) (c : fcoil) (allcoils : list fcoil) (reg p threshold : R) :
  lp_J mu_0 (moved T w c) (map (moved T w) allcoils) reg p threshold = lp_J mu_0 c allcoils reg p threshold /\ msf_J mu_0 (moved T w c) (map (moved T w) allcoils) reg = msf_J mu_0 c allcoils reg.
Proof using RT.
  assert (F : forall i, norm3 (cross (scal3 (fc_I c) (scal3 (/ norm3 (T (fc_g1 c i))) (T (fc_g1 c i)))) (add3 (B_regularized mu_0 (moved T w c) reg i) (mutual_field (moved T w c) (map (moved T w) allcoils) i)))
    = norm3 (cross (scal3 (fc_I c) (scal3 (/ norm3 (fc_g1 c i)) (fc_g1 c i))) (add3 (B_regularized mu_0 c reg i) (mutual_field c allcoils i)))).
  { intros i. rewrite B_reg_moved, mutual_moved, T_norm, <- !T_scal, <- T_add, T_cross, T_norm. reflexivity. }
  split.
  - unfold lp_J, lp_force_pure. cbv zeta. f_equal. apply sum_to_ext. intros i _. specialize (F i). unfold B_regularized in F. cbn [moved fc_n fc_g fc_g1 fc_g2 fc_q fc_I] in *. rewrite F, T_norm. reflexivity.
  - unfold msf_J, mean_squared_force_pure. cbv zeta. f_equal; apply sum_to_ext; intros i _; cbn [moved fc_g1]; [|apply T_norm]. specialize (F i). unfold B_regularized in F. cbn [moved fc_n fc_g fc_g1 fc_g2 fc_q fc_I] in *. rewrite F, T_norm. reflexivity.
Qed.
End Rigid.
Example rotz_rotation a : rotation (rotz a).
Proof.
  assert (E : sin a * sin a = 1 - cos a * cos a) by (pose proof (sin2_cos2 a) as H; unfold Rsqr in H; lra).
  repeat split; intros; unfold rotz, dot3, cross, add3, scal3; cbn [vx vy vz]; [apply v3_eq; cbn; ring|apply v3_eq; cbn; ring| |apply v3_eq; cbn; try ring].
  - transitivity ((sin a * sin a + cos a * cos a) * (vx a0 * vx b + vy a0 * vy b) + vz a0 * vz b); [ring|rewrite E; ring].
  - transitivity ((sin a * sin a + cos a * cos a) * (vx a0 * vy b - vy a0 * vx b)); [ring|rewrite E; ring].
Qed.
(** ** the objectives *)
(** the documented integral over the closed curve, at n uniformly spaced points: an average over t in [0, 1) *)
Definition documented_lp (c : fcoil) (allcoils : list fcoil) (reg p threshold : R) : R :=
  1 / p * mean (fc_n c) (fun i => pw (Rmax (norm3 (coil_force mu_0 c allcoils reg i) - threshold) 0) p * norm3 (fc_g1 c i)).
Lemma force_in c allcoils reg i : cross (scal3 (fc_I c) (scal3 (/ norm3 (fc_g1 c i)) (fc_g1 c i))) (add3 (B_regularized_pure mu_0 (fc_n c) (fc_g c) (fc_g1 c) (fc_g2 c) (fc_q c) (fc_I c) reg i) (mutual_field c allcoils i)) = coil_force mu_0 c allcoils reg i.
Proof. rewrite (proj1 (C133_force _ _ _ _)), scal3_scal. reflexivity. Qed.
(** J is n times the documented integral, where n is the number of quadrature points *)
Theorem C133_lp_value (c : fcoil) (allcoils : list fcoil) (reg p threshold : R) : (0 < fc_n c)%nat -> lp_J mu_0 c allcoils reg p threshold = INR (fc_n c) * documented_lp c allcoils reg p threshold.
Proof.
  intros N. assert (0 < INR (fc_n c)) by now apply lt_0_INR. unfold lp_J, lp_force_pure, documented_lp, mean. cbv zeta.
  rewrite (sum_to_ext _ _ (fun i => pw (Rmax (norm3 (coil_force mu_0 c allcoils reg i) - threshold) 0) p * norm3 (fc_g1 c i))) by (intros i _; now rewrite force_in).
  generalize (sum_to (fc_n c) (fun i => pw (Rmax (norm3 (coil_force mu_0 c allcoils reg i) - threshold) 0) p * norm3 (fc_g1 c i))) (1 / p). intros s k. field. lra.
Qed.
(** so for a circular coil alone it grows in proportion to the number of quadrature points *)
Lemma sum_to_const n k : sum_to n (fun _ => k) = INR n * k.
Proof. induction n as [|n IH]; [unfold sum_to; cbn; ring|]. rewrite sum_to_S', IH, S_INR. ring. Qed.
Theorem C133_lp_circle (id : nat) (I R0 reg p threshold : R) (n : nat) (q : nat -> R) : 0 < R0 -> 0 < reg -> 
  lp_J mu_0 (circle id I R0 n q) [circle id I R0 n q] reg p threshold = INR n * (1 / p * pw (Rmax (Rabs (mu_0 * I ^ 2 / (4 * PI * R0) * (ln (8 * R0 / sqrt reg) - 1)) - threshold) 0) p * (2 * PI * R0)).
Proof.
  intros HR HP. pose proof PI_RGT_0 as PP. unfold lp_J, lp_force_pure. cbv zeta.
  assert (CS : forall x, sin x * sin x = 1 - cos x * cos x) by (intros x; pose proof (sin2_cos2 x) as H; unfold Rsqr in H; lra).
  rewrite (sum_to_ext _ _ (fun i => pw (Rmax (Rabs (mu_0 * I ^ 2 / (4 * PI * R0) * (ln (8 * R0 / sqrt reg) - 1)) - threshold) 0) p * (2 * PI * R0))).
  - rewrite sum_to_const. cbn [circle fc_n]. ring.
  - intros i _. rewrite force_in. assert (E : norm3 (fc_g1 (circle id I R0 n q) i) = 2 * PI * R0).
    { apply norm_unique; [nra|]. cbn [circle fc_g1]. unfold dot3; cbn [vx vy vz]. transitivity (4 * PI * PI * R0 * R0 * (sin (2 * PI * q i) * sin (2 * PI * q i) + cos (2 * PI * q i) * cos (2 * PI * q i))); [rewrite CS; ring|ring]. }
    rewrite E. assert (M : mutual_field (circle id I R0 n q) [circle id I R0 n q] i = v0) by (unfold mutual_field, others; cbn [filter circle fc_id]; rewrite Nat.eqb_refl; reflexivity).
    unfold coil_force. cbv zeta. rewrite M, C133_circle_force by assumption. replace (cross _ v0) with v0 by (match goal with |- _ = cross ?a _ => generalize a end; intros; v3; ring).
    replace (add3 _ v0) with (scal3 (mu_0 * I ^ 2 / (4 * PI * R0) * (ln (8 * R0 / sqrt reg) - 1)) (V3 (cos (2 * PI * q i)) (sin (2 * PI * q i)) 0)) by (match goal with |- ?a = add3 ?a _ => generalize a end; intros; v3; ring).
    rewrite QsrThms.norm_scal. rewrite (norm_unique 1); [now rewrite Rmult_1_r|lra|unfold dot3; cbn [vx vy vz]; rewrite CS; ring].
Qed.
Lemma norm3_ge a : 0 <= norm3 a. Proof. apply sqrt_pos. Qed.
(** J is not negative, and zero exactly if the force stays below the threshold at every quadrature point *)
Theorem C133_lp_zero (c : fcoil) (allcoils : list fcoil) (reg p threshold : R) : 0 < p -> (forall i, (i < fc_n c)%nat -> fc_g1 c i <> v0) ->
  0 <= lp_J mu_0 c allcoils reg p threshold /\ (lp_J mu_0 c allcoils reg p threshold = 0 <-> forall i, (i < fc_n c)%nat -> norm3 (coil_force mu_0 c allcoils reg i) <= threshold).
Proof.
  intros P NZ. unfold lp_J, lp_force_pure. cbv zeta.
  rewrite (sum_to_ext _ _ (fun i => pw (Rmax (norm3 (coil_force mu_0 c allcoils reg i) - threshold) 0) p * norm3 (fc_g1 c i))) by (intros i _; now rewrite force_in).
  assert (PG : forall x, 0 <= pw x p) by (intros x; unfold pw; destruct (Rlt_dec 0 x); [left; apply exp_pos|lra]). assert (IP : 0 < 1 / p) by (unfold Rdiv; rewrite Rmult_1_l; now apply Rinv_0_lt_compat).
  assert (G : forall i, (i < fc_n c)%nat -> 0 <= pw (Rmax (norm3 (coil_force mu_0 c allcoils reg i) - threshold) 0) p * norm3 (fc_g1 c i)) by (intros i _; apply Rmult_le_pos; [apply PG|apply norm3_ge]).
  split; [apply Rmult_le_pos; [now apply sum_to_ge0|lra]|]. transitivity (sum_to (fc_n c) (fun i => pw (Rmax (norm3 (coil_force mu_0 c allcoils reg i) - threshold) 0) p * norm3 (fc_g1 c i)) = 0).
  - split; [intros H; destruct (Rmult_integral _ _ H); [assumption|lra]|intros ->; ring].
  - rewrite (sum_to_zero _ _ G). split; intros H i Hi; specialize (H i Hi); pose proof (norm3_pos _ (NZ i Hi)) as N.
    + destruct (Rmult_integral _ _ H) as [Z|Z]; [|lra]. unfold pw in Z. destruct (Rlt_dec 0 (Rmax (norm3 (coil_force mu_0 c allcoils reg i) - threshold) 0)) as [L|L]; [unfold Rpower in Z; pose proof (exp_pos (p * ln (Rmax (norm3 (coil_force mu_0 c allcoils reg i) - threshold) 0))); lra|].
      pose proof (Rmax_l (norm3 (coil_force mu_0 c allcoils reg i) - threshold) 0). lra.
    + rewrite Rmax_right by lra. unfold pw. destruct (Rlt_dec 0 0); [lra|ring].
Qed.
(** MeanSquaredForce: the average of |F|^2 over the arclength; between its smallest and largest value *)
Theorem C133_msf (c : fcoil) (allcoils : list fcoil) (reg : R) : (0 < fc_n c)%nat -> (forall i, (i < fc_n c)%nat -> fc_g1 c i <> v0) -> let J := msf_J mu_0 c allcoils reg in let F2 i := norm3 (coil_force mu_0 c allcoils reg i) ^ 2 in
  J * mean (fc_n c) (fun i => norm3 (fc_g1 c i)) = mean (fc_n c) (fun i => F2 i * norm3 (fc_g1 c i)) /\ (forall m, (forall i, (i < fc_n c)%nat -> m <= F2 i) -> m <= J) /\ (forall M, (forall i, (i < fc_n c)%nat -> F2 i <= M) -> J <= M) /\
  (J = 0 <-> forall i, (i < fc_n c)%nat -> coil_force mu_0 c allcoils reg i = v0).
Proof.
  intros N NZ J F2. assert (NN : 0 < INR (fc_n c)) by now apply lt_0_INR. set (n := fc_n c) in *. set (w := fun i => norm3 (fc_g1 c i)).
  assert (WP : forall i, (i < n)%nat -> 0 < w i) by (intros i Hi; apply norm3_pos; auto).
  assert (SP : 0 < sum_to n w). { assert (G : 0 <= sum_to n w) by (apply sum_to_ge0; intros i Hi; left; auto). destruct (Req_dec (sum_to n w) 0) as [Z|Z]; [|lra]. apply (sum_to_zero n w (fun i Hi => Rlt_le _ _ (WP i Hi))) with (k := 0%nat) in Z; [|exact N]. specialize (WP 0%nat N). lra. }
  assert (E : J = sum_to n (fun i => w i * F2 i) / sum_to n w).
  { unfold J, msf_J, mean_squared_force_pure. cbv zeta. fold n. f_equal. apply sum_to_ext. intros i _. unfold n. rewrite force_in. reflexivity. }
  assert (MJ : J * sum_to n w = sum_to n (fun i => w i * F2 i)) by (rewrite E; field; lra).
  assert (BND : forall m, (forall i, (i < n)%nat -> 0 <= (F2 i - m)) -> m <= J).
  { intros m H. assert (G : 0 <= sum_to n (fun i => w i * (F2 i - m))) by (apply sum_to_ge0; intros i Hi; apply Rmult_le_pos; [left; auto|auto]).
    rewrite (sum_to_ext _ _ (fun i => w i * F2 i + (- m) * w i)) in G by (intros; ring). rewrite sum_to_plus, sum_to_scal, <- MJ in G. assert (0 <= (J - m) * sum_to n w) by lra. nra. }
  assert (BND' : forall m, (forall i, (i < n)%nat -> 0 <= (m - F2 i)) -> J <= m).
  { intros m H. assert (G : 0 <= sum_to n (fun i => w i * (m - F2 i))) by (apply sum_to_ge0; intros i Hi; apply Rmult_le_pos; [left; auto|auto]).
    rewrite (sum_to_ext _ _ (fun i => m * w i + (-1) * (w i * F2 i))) in G by (intros; ring). rewrite sum_to_plus, !sum_to_scal, <- MJ in G. assert (0 <= (m - J) * sum_to n w) by lra. nra. }
  assert (G2 : forall i, 0 <= F2 i) by (intros i; apply pow2_ge_0).
  split; [unfold mean; fold w; rewrite (sum_to_ext _ (fun i => F2 i * _) (fun i => w i * F2 i)) by (intros i _; unfold w; ring); rewrite <- MJ; unfold Rdiv; ring|].
  split; [intros m H; apply BND; intros i Hi; specialize (H i Hi); lra|]. split; [intros m H; apply BND'; intros i Hi; specialize (H i Hi); lra|]. split.
  - intros Z. rewrite Z, Rmult_0_l in MJ. symmetry in MJ. intros i Hi. apply (proj1 (sum_to_zero n (fun i => w i * F2 i) (fun i Hi => Rmult_le_pos _ _ (Rlt_le _ _ (WP i Hi)) (G2 i)))) with (k := i) in MJ; [|exact Hi]. specialize (WP i Hi). destruct (Rmult_integral _ _ MJ) as [A|A]; [lra|].
    unfold F2 in A. assert (A' : norm3 (coil_force mu_0 c allcoils reg i) = 0) by (destruct (Rmult_integral _ _ A) as [B|B]; [exact B|lra]). destruct (classic (coil_force mu_0 c allcoils reg i = v0)) as [Y|Y]; [exact Y|]. pose proof (norm3_pos _ Y). lra.
  - intros Z. rewrite E. rewrite (sum_to_ext _ _ (fun _ => 0)); [rewrite sum_to_const; unfold Rdiv; ring|]. intros i Hi. unfold F2. rewrite (Z i Hi). unfold norm3, dot3, v0. cbn [vx vy vz]. replace (0 * 0 + 0 * 0 + 0 * 0) with 0 by ring. rewrite sqrt_0. ring.
Qed.
End WithMu.
(** ** the gradient *)
(** [F] (J_jax) has partial derivatives gG, gG1, gG2, gI, gB (what jax's grad returns) at a point: the chain rule holds along every path through it *)
Definition partials (n : nat) (F : (nat -> vec3) -> (nat -> vec3) -> (nat -> vec3) -> R -> (nat -> vec3) -> R) (g g1 g2 : nat -> vec3) (I : R) (B : nat -> vec3) (gG gG1 gG2 : nat -> vec3) (gI : R) (gB : nat -> vec3) : Prop :=
  forall (pg p1 p2 : R -> nat -> vec3) (pI : R -> R) (pB : R -> nat -> vec3) (t : R) (dg d1 d2 : nat -> vec3) (dI : R) (dB : nat -> vec3), pg t = g -> p1 t = g1 -> p2 t = g2 -> pI t = I -> pB t = B ->
  (forall i, (i < n)%nat -> D3 (fun s => pg s i) t (dg i) /\ D3 (fun s => p1 s i) t (d1 i) /\ D3 (fun s => p2 s i) t (d2 i) /\ D3 (fun s => pB s i) t (dB i)) -> D pI t dI ->
  D (fun s => F (pg s) (p1 s) (p2 s) (pI s) (pB s)) t (sum_to n (fun i => dot3 (gG i) (dg i)) + sum_to n (fun i => dot3 (gG1 i) (d1 i)) + sum_to n (fun i => dot3 (gG2 i) (d2 i)) + gI * dI + sum_to n (fun i => dot3 (gB i) (dB i))).
(** the field at a moving point of moving coils *)
Lemma kB_move px pg ph t x' g' h' : D3 px t x' -> D3 pg t g' -> D3 ph t h' -> px t <> pg t -> exists f,
  D3 (fun s => kB (px t) (pg s, ph s)) t f /\ D3 (fun s => kB (px s) (pg s, ph s)) t (add3 f (vecmat x' (M3 (kdB 0 (px t) (pg t, ph t)) (kdB 1 (px t) (pg t, ph t)) (kdB 2 (px t) (pg t, ph t))))).
Proof.
  intros HX HG HH OF. eexists. split; [apply (kB_path (fun _ => px t) pg ph t v0 g' h' (D3_const _ _) HG HH OF)|]. eapply D3_val; [|apply (kB_path px pg ph t x' g' h' HX HG HH OF)]. cbv beta.
  pose proof (kdB_simpl (fun _ => px t) pg ph t OF) as E. cbv beta in E. rewrite !E. unfold vecmat. cbn [row0 row1 row2]. set (i := rsqrt _). clearbody i. generalize (px t) (pg t) (ph t). intros x g h. destruct x, g, h, x', g', h'. apply v3_eq; cbn; unfold dot3; cbn; ring.
Qed.
Lemma all_ex {A B} (l : list A) (P : A -> B -> Prop) (d : B) : (forall a, In a l -> exists b, P a b) -> exists m : list B, length m = length l /\ forall k a, nth_error l k = Some a -> P a (nth k m d).
Proof.
  induction l as [|a l IH]; intros H; [exists []; split; [reflexivity|intros [|k] a; discriminate]|]. destruct (H a (or_introl eq_refl)) as (b & HB). destruct IH as (m & L & K); [intros; apply H; now right|].
  exists (b :: m). split; [cbn; now rewrite L|]. intros [|k] x E; cbn in *; [now injection E as <-|now apply K].
Qed.
Lemma sum3_ex {A} (l : list A) (f g : A -> R -> vec3) (h : A -> vec3) t : (forall a, In a l -> exists d, D3 (f a) t d /\ D3 (g a) t (add3 d (h a))) ->
  exists d, D3 (fun s => sum3 (map (fun a => f a s) l)) t d /\ D3 (fun s => sum3 (map (fun a => g a s) l)) t (add3 d (sum3 (map h l))).
Proof.
  induction l as [|a l IH]; intros H; cbn [map sum3].
  - exists v0. split; [apply D3_const|]. eapply D3_val; [|apply D3_const]. v3; ring.
  - destruct (H a (or_introl eq_refl)) as (d & A1 & A2). destruct IH as (e & B1 & B2); [intros; apply H; now right|]. exists (add3 d e). split; [now apply D3_add|]. eapply D3_val; [|apply D3_add; [exact A2|exact B2]]. generalize (sum3 (map h l)) (h a). intros. v3; ring.
Qed.
Lemma field_move (cs : list mcoil) px x' t : Forall (moves t) cs -> D3 px t x' -> off_all (px t) (map (at_time t) cs) -> exists f,
  D3 (fun s => coils_field kB (map (at_time s) cs) (px t)) t f /\ D3 (fun s => coils_field kB (map (at_time s) cs) (px s)) t (add3 f (vecmat x' (coilsdB (map (at_time t) cs) (px t)))).
Proof.
  intros HM HX OFF. rewrite Forall_forall in HM. unfold coils_field at 1 2.
  assert (C : forall c, In c cs -> exists d, D3 (fun s => scal3 (mc_I c s) (coil_field kB (snd (at_time s c)) (px t))) t d /\
     D3 (fun s => scal3 (mc_I c s) (coil_field kB (snd (at_time s c)) (px s))) t (add3 d (scal3 (mc_I c t) (coil_field (fun y q => vecmat x' (M3 (kdB 0 y q) (kdB 1 y q) (kdB 2 y q))) (snd (at_time t c)) (px t))))).
  { intros c Ic. destruct (HM c Ic) as (HI & HQ). assert (OC : off (px t) (snd (at_time t c))) by (apply OFF; apply in_map_iff; eauto).
    destruct (sum3_ex (mc_q c) (fun q s => kB (px t) (mq_g q s, mq_h q s)) (fun q s => kB (px s) (mq_g q s, mq_h q s)) (fun q => vecmat x' (M3 (kdB 0 (px t) (mq_g q t, mq_h q t)) (kdB 1 (px t) (mq_g q t, mq_h q t)) (kdB 2 (px t) (mq_g q t, mq_h q t)))) t) as (d & A1 & A2).
    { intros q Iq. destruct (HQ q Iq) as (G & H). apply kB_move with (g' := mq_g' q) (h' := mq_h' q); try assumption. specialize (OC (mq_g q t, mq_h q t)). apply OC. unfold at_time. cbn [snd]. apply in_map_iff. eauto. }
    pose proof (D3_scalc (/ 10 ^ 7 / INR (length (mc_q c))) _ _ _ A1) as S1. pose proof (D3_scalc (/ 10 ^ 7 / INR (length (mc_q c))) _ _ _ A2) as S2.
    eexists. split.
    - eapply D3_ext; [|apply (D3_scal (mc_I c) (fun s => scal3 (/ 10 ^ 7 / INR (length (mc_q c))) (sum3 (map (fun q => kB (px t) (mq_g q s, mq_h q s)) (mc_q c)))) t _ _ HI S1)]. intros s. unfold coil_field, at_time. cbn [snd]. rewrite map_length, map_map. reflexivity.
    - eapply D3_ext; [|eapply D3_val; [|apply (D3_scal (mc_I c) (fun s => scal3 (/ 10 ^ 7 / INR (length (mc_q c))) (sum3 (map (fun q => kB (px s) (mq_g q s, mq_h q s)) (mc_q c)))) t _ _ HI S2)]].
      + intros s. unfold coil_field, at_time. cbn [snd]. rewrite map_length, map_map. reflexivity.
      + cbv beta. unfold coil_field, at_time. cbn [snd]. rewrite map_length, map_map. match goal with |- context [sum3 (map (fun q => vecmat x' (M3 (kdB 0 (px t) (mq_g q t, mq_h q t)) _ _)) (mc_q c))] => generalize (sum3 (map (fun q => vecmat x' (M3 (kdB 0 (px t) (mq_g q t, mq_h q t)) (kdB 1 (px t) (mq_g q t, mq_h q t)) (kdB 2 (px t) (mq_g q t, mq_h q t)))) (mc_q c))) end.
        intros u. generalize (sum3 (map (fun q => kB (px t) (mq_g q t, mq_h q t)) (mc_q c))) (/ 10 ^ 7 / INR (length (mc_q c))) (mc_I c t). intros. v3; ring. }
  destruct (sum3_ex cs (fun c s => scal3 (mc_I c s) (coil_field kB (snd (at_time s c)) (px t))) (fun c s => scal3 (mc_I c s) (coil_field kB (snd (at_time s c)) (px s))) _ t C) as (f & F1 & F2).
  exists f. split.
  - eapply D3_ext; [|exact F1]. intros s. cbv beta. now rewrite map_map.
  - eapply D3_ext; [|eapply D3_val; [|exact F2]]; [intros s; cbv beta; now rewrite map_map|]. f_equal. unfold coilsdB. rewrite <- (coils_lin _ _ (kdB 0) (kdB 1) (kdB 2)). unfold coils_field. rewrite map_map. reflexivity.
Qed.
(** dJ pairs with every variation of the curve, the current and the other coils to the derivative of J: the four cotangents handed to the curve and the current, and BiotSavart.B_vjp(dJ_dB) (C57) *)
Theorem C133_gradient n F (pg p1 p2 : R -> nat -> vec3) (pI : R -> R) (cs : list mcoil) t dg d1 d2 dI gG gG1 gG2 gI gB : let mutual s i := coils_field kB (map (at_time s) cs) (pg s i) in
  (forall i, (i < n)%nat -> D3 (fun s => pg s i) t (dg i) /\ D3 (fun s => p1 s i) t (d1 i) /\ D3 (fun s => p2 s i) t (d2 i)) -> D pI t dI -> Forall (moves t) cs -> (forall i, (i < n)%nat -> off_all (pg t i) (map (at_time t) cs)) ->
  partials n F (pg t) (p1 t) (p2 t) (pI t) (mutual t) gG gG1 gG2 gI gB -> let points := map (fun i => (pg t i, gB i)) (seq 0 n) in
  D (fun s => F (pg s) (p1 s) (p2 s) (pI s) (mutual s)) t
    (sum_to n (fun i => dot3 (add3 (gG i) (dJ_dX (gB i) (fun k => coils_field (kdB k) (map (at_time t) cs) (pg t i)))) (dg i)) + sum_to n (fun i => dot3 (gG1 i) (d1 i)) + sum_to n (fun i => dot3 (gG2 i) (d2 i)) + gI * dI
     + rsuml (map (fun c => pair3 (vjp_arr vjp_gamma points (at_time t c)) (map mq_g' (mc_q c)) + pair3 (vjp_arr vjp_dgamma points (at_time t c)) (map mq_h' (mc_q c)) + vjp_cur kB points (at_time t c) * mc_I' c) cs)).
Proof.
  intros mutual HP HI HM OFF HF points.
  assert (EX : exists f : nat -> vec3, forall i, (i < n)%nat -> D3 (fun s => coils_field kB (map (at_time s) cs) (pg t i)) t (f i) /\ D3 (fun s => mutual s i) t (add3 (f i) (vecmat (dg i) (coilsdB (map (at_time t) cs) (pg t i))))).
  { destruct (all_ex (seq 0 n) (fun i f => D3 (fun s => coils_field kB (map (at_time s) cs) (pg t i)) t f /\ D3 (fun s => mutual s i) t (add3 f (vecmat (dg i) (coilsdB (map (at_time t) cs) (pg t i))))) v0) as (m & _ & K).
    - intros i Hi. apply in_seq in Hi. apply (field_move cs (fun s => pg s i) (dg i) t HM); [apply HP; lia|apply OFF; lia].
    - exists (fun i => nth i m v0). intros i Hi. apply K. rewrite (nth_error_nth' _ 0%nat) by (rewrite seq_length; lia). now rewrite seq_nth by lia. }
  destruct EX as (f & HFf).
  assert (V : sum_to n (fun i => dot3 (gB i) (f i)) = rsuml (map (fun c => pair3 (vjp_arr vjp_gamma points (at_time t c)) (map mq_g' (mc_q c)) + pair3 (vjp_arr vjp_dgamma points (at_time t c)) (map mq_h' (mc_q c)) + vjp_cur kB points (at_time t c) * mc_I' c) cs)).
  { apply (uniqueness_limite (fun s => probe kB points (map (at_time s) cs)) t).
    - unfold probe, points. eapply D_ext; [intros s; rewrite map_map; reflexivity|]. apply (D_sum (seq 0 n) (fun i s => dot3 (gB i) (coils_field kB (map (at_time s) cs) (pg t i))) (fun i => dot3 (gB i) (f i))). intros i Hi. apply in_seq in Hi. destruct (HFf i ltac:(lia)) as (K & _).
      eapply D_val; [|apply D_dot; [apply D3_const|exact K]]. cbv beta. unfold dot3, v0. cbn [vx vy vz]. ring.
    - apply C57_B_vjp; [exact HM|]. intros xv Hx. unfold points in Hx. apply in_map_iff in Hx. destruct Hx as (i & <- & Hi). apply in_seq in Hi. cbn [fst]. apply OFF. lia. }
  rewrite <- V. eapply D_val; [|apply (HF pg p1 p2 pI mutual t dg d1 d2 dI (fun i => add3 (f i) (vecmat (dg i) (coilsdB (map (at_time t) cs) (pg t i))))); try reflexivity; [|exact HI]].
  2:{ intros i Hi. destruct (HP i Hi) as (A & B & C). destruct (HFf i Hi) as (_ & K). repeat split; try apply A; try apply B; try apply C; apply K. }
  cbv beta. rewrite (sum_to_ext n (fun i => dot3 (gB i) (add3 (f i) (vecmat (dg i) (coilsdB (map (at_time t) cs) (pg t i))))) (fun i => dot3 (gB i) (f i) + dot3 (dJ_dX (gB i) (fun k => coils_field (kdB k) (map (at_time t) cs) (pg t i))) (dg i))).
  2:{ intros i _. unfold dJ_dX, coilsdB, vecmat. cbn [row0 row1 row2]. unfold dot3, add3, scal3. cbn [vx vy vz]. ring. }
  rewrite sum_to_plus. rewrite (sum_to_ext n (fun i => dot3 (add3 (gG i) _) (dg i)) (fun i => dot3 (gG i) (dg i) + dot3 (dJ_dX (gB i) (fun k => coils_field (kdB k) (map (at_time t) cs) (pg t i))) (dg i))) by (intros i _; unfold dot3, add3; cbn [vx vy vz]; ring). rewrite sum_to_plus. ring.
Qed.
(** the hypotheses are met: F = current * sum B_i . gamma_i, and the moving coil of C57 *)
Example partials_met n (g g1 g2 : nat -> vec3) I B : partials n (fun g _ _ I B => I * sum_to n (fun i => dot3 (B i) (g i))) g g1 g2 I B (fun i => scal3 I (B i)) (fun _ => v0) (fun _ => v0) (sum_to n (fun i => dot3 (B i) (g i))) (fun i => scal3 I (g i)).
Proof.
  intros pg p1 p2 pI pB t dg d1 d2 dI dB <- <- <- <- <- H HI. eapply D_val; [|apply (D_mul pI (fun s => sum_to n (fun i => dot3 (pB s i) (pg s i)))); [exact HI|apply (sum_to_D n (fun i s => dot3 (pB s i) (pg s i)) (fun i => dot3 (pB t i) (dg i) + dot3 (dB i) (pg t i)))]].
  2:{ intros i Hi. destruct (H i Hi) as (A & _ & _ & K). eapply D_val; [|apply D_dot; [exact K|exact A]]. cbv beta. unfold dot3. ring. }
  cbv beta. rewrite !sum_to_plus. rewrite (sum_to_ext n (fun i => dot3 v0 (d1 i)) (fun _ => 0)) by (intros; unfold dot3, v0; cbn; ring). rewrite (sum_to_ext n (fun i => dot3 v0 (d2 i)) (fun _ => 0)) by (intros; unfold dot3, v0; cbn; ring). rewrite !sum_to_const.
  rewrite (sum_to_ext n (fun i => dot3 (scal3 (pI t) (pB t i)) (dg i)) (fun i => pI t * dot3 (pB t i) (dg i))) by (intros; unfold dot3, scal3; cbn; ring). rewrite (sum_to_ext n (fun i => dot3 (scal3 (pI t) (pg t i)) (dB i)) (fun i => pI t * dot3 (dB i) (pg t i))) by (intros; unfold dot3, scal3; cbn; ring). rewrite !sum_to_scal. ring.
Qed.
