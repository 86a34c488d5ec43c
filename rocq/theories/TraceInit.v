(** Starting full orbits from guiding centres: gc_to_fullorbit_initial_guesses (src/simsopt/field/tracing.py:32-71), one particle. *)
From Coq Require Import Reals Lra.
From Verif Require Import Vec3.
Open Scope R_scope.

(** tracing.py:32-38 compute_gc_radius *)
Definition gc_radius (m vperp q absb : R) : R := m * vperp / (Rabs q * absb).
Definition norm (a : vec3) : R := sqrt (vx a * vx a + vy a * vy a + vz a * vz a).
Definition unitize (a : vec3) : vec3 := scal3 (/ norm a) a.
(** tracing.py:57-65: the frame q1, q2, q3 built from eB *)
Definition frame (eB : vec3) : vec3 * vec3 * vec3 :=
  let p1 := eB in let p2 := V3 0 0 1 in
  let p3 := scal3 (-1) (cross p1 p2) in
  let p3 := scal3 (1 / norm p3) p3 in
  let q1 := p1 in
  let q2 := sub3 p2 (scal3 (dot3 q1 p2) q1) in
  let q2 := unitize q2 in
  let q3 := sub3 (sub3 p3 (scal3 (dot3 q1 p3) q1)) (scal3 (dot3 q2 p3) q2) in
  let q3 := unitize q3 in
  (q1, q2, q3).
(** tracing.py:51-71, one particle: the position, the velocity and the gyroradius *)
Definition fullorbit_guess (B : vec3) (AbsB : R) (xyz : vec3) (speed_par speed_total m q eta : R) : vec3 * vec3 * R :=
  let eB := scal3 (/ AbsB) B in
  let '(q1, q2, q3) := frame eB in
  let speed_perp := sqrt (speed_total ^ 2 - speed_par ^ 2) in
  let rg := gc_radius m speed_perp q AbsB in
  let x := add3 (add3 xyz (scal3 (rg * sin eta) q2)) (scal3 (rg * cos eta) q3) in
  let vperp := add3 (scal3 (- speed_perp * cos eta) q2) (scal3 (speed_perp * sin eta) q3) in
  (x, add3 (scal3 speed_par q1) vperp, rg).

(** ** Specification: the guiding centre of a particle at x with velocity v in the field B, x + m/(q |B|^2) v x B *)
Definition guiding_centre (B x v : vec3) (m q : R) : vec3 := add3 x (scal3 (m / (q * normsq B)) (cross v B)).

(** ** Proofs *)
Section Frame.
Variables (a b c h : R).
Hypothesis (unit_ : a * a + b * b + c * c = 1) (hpos : 0 < h) (h2 : h * h = a * a + b * b).
Lemma c_h : c * c = 1 - h * h. Proof. lra. Qed.
Lemma frame_eq : frame (V3 a b c) = (V3 a b c, V3 (- (a * c) / h) (- (b * c) / h) h, V3 (- b / h) (a / h) 0).
Proof.
  assert (N1 : norm (scal3 (-1) (cross (V3 a b c) (V3 0 0 1))) = h).
  { unfold norm, cross, scal3. cbn [vx vy vz]. replace (_ + _ + _) with (h * h) by (rewrite h2; ring). apply sqrt_square. lra. }
  assert (E3 : scal3 (1 / h) (scal3 (-1) (cross (V3 a b c) (V3 0 0 1))) = V3 (- b / h) (a / h) 0).
  { unfold cross, scal3. apply v3_eq; cbn [vx vy vz]; field; lra. }
  assert (E2 : sub3 (V3 0 0 1) (scal3 (dot3 (V3 a b c) (V3 0 0 1)) (V3 a b c)) = V3 (- (a * c)) (- (b * c)) (h * h)).
  { unfold sub3, scal3, dot3. apply v3_eq; cbn [vx vy vz]; nra. }
  assert (N2 : norm (V3 (- (a * c)) (- (b * c)) (h * h)) = h).
  { unfold norm. cbn [vx vy vz]. replace (_ + _ + _) with (h * h). { apply sqrt_square. lra. }
    transitivity ((c * c) * (a * a + b * b) + h * h * (h * h)); [rewrite <- h2, c_h; ring|ring]. }
  unfold frame. cbv zeta. rewrite N1, E3, E2.
  assert (Q2 : scal3 (/ h) (V3 (- (a * c)) (- (b * c)) (h * h)) = V3 (- (a * c) / h) (- (b * c) / h) h).
  { unfold scal3. apply v3_eq; cbn [vx vy vz]; field; lra. }
  assert (U2 : unitize (V3 (- (a * c)) (- (b * c)) (h * h)) = V3 (- (a * c) / h) (- (b * c) / h) h) by (unfold unitize; rewrite N2; exact Q2). rewrite U2.
  assert (E4 : sub3 (sub3 (V3 (- b / h) (a / h) 0) (scal3 (dot3 (V3 a b c) (V3 (- b / h) (a / h) 0)) (V3 a b c))) (scal3 (dot3 (V3 (- (a * c) / h) (- (b * c) / h) h) (V3 (- b / h) (a / h) 0)) (V3 (- (a * c) / h) (- (b * c) / h) h)) = V3 (- b / h) (a / h) 0).
  { unfold sub3, scal3, dot3. apply v3_eq; cbn [vx vy vz]; field; lra. }
  unfold unitize. rewrite E4.
  assert (N4 : norm (V3 (- b / h) (a / h) 0) = 1).
  { unfold norm. cbn [vx vy vz]. replace (_ + _ + _) with 1; [apply sqrt_1|]. apply Rmult_eq_reg_r with (h * h); [|nra].
    transitivity (a * a + b * b); [lra|field; lra]. }
  rewrite N4. f_equal. unfold scal3. apply v3_eq; cbn [vx vy vz]; field; lra.
Qed.
Lemma frame_orthonormal : let '(q1, q2, q3) := frame (V3 a b c) in
  dot3 q1 q1 = 1 /\ dot3 q2 q2 = 1 /\ dot3 q3 q3 = 1 /\ dot3 q1 q2 = 0 /\ dot3 q1 q3 = 0 /\ dot3 q2 q3 = 0 /\ cross q2 q1 = q3 /\ cross q3 q1 = scal3 (-1) q2.
Proof.
  rewrite frame_eq. unfold dot3, cross, scal3. cbn [vx vy vz]. assert (h <> 0) by lra. assert (CH := c_h).
  split; [lra|]. split. { apply Rmult_eq_reg_r with (h * h); [|nra]. transitivity (c * c * (a * a + b * b) + h * h * (h * h)); [field; lra|]. rewrite <- h2, c_h. ring. }
  split. { apply Rmult_eq_reg_r with (h * h); [|nra]. transitivity (a * a + b * b); [field; lra|lra]. }
  split. { apply Rmult_eq_reg_r with h; [|lra]. transitivity (c * (h * h - (a * a + b * b))); [field; lra|]. rewrite h2. ring. }
  split; [field; lra|]. split; [field; lra|].
  split; apply v3_eq; cbn [vx vy vz].
  - apply Rmult_eq_reg_r with h; [|lra]. transitivity (- b * (c * c + h * h)); [field; lra|]. rewrite c_h. field. lra.
  - apply Rmult_eq_reg_r with h; [|lra]. transitivity (a * (c * c + h * h)); [field; lra|]. rewrite c_h. field. lra.
  - field. lra.
  - field. lra.
  - field. lra.
  - apply Rmult_eq_reg_r with h; [|lra]. transitivity (- (a * a + b * b)); [field; lra|]. rewrite <- h2. ring.
Qed.
End Frame.

Lemma frame_props eB : normsq eB = 1 -> (vx eB <> 0 \/ vy eB <> 0) -> let '(q1, q2, q3) := frame eB in
  q1 = eB /\ dot3 q1 q1 = 1 /\ dot3 q2 q2 = 1 /\ dot3 q3 q3 = 1 /\ dot3 q1 q2 = 0 /\ dot3 q1 q3 = 0 /\ dot3 q2 q3 = 0 /\ cross q2 q1 = q3 /\ cross q3 q1 = scal3 (-1) q2.
Proof.
  intros U N. destruct eB as [a b c]. unfold normsq, dot3 in U. cbn [vx vy vz] in *.
  assert (P : 0 < a * a + b * b). { destruct N; [assert (0 < a * a) by nra; nra|assert (0 < b * b) by nra; nra]. }
  assert (H1 : 0 < sqrt (a * a + b * b)) by now apply sqrt_lt_R0. assert (H2 : sqrt (a * a + b * b) * sqrt (a * a + b * b) = a * a + b * b) by (apply sqrt_sqrt; lra).
  pose proof (frame_orthonormal a b c _ U H1 H2) as F. pose proof (frame_eq a b c _ U H1 H2) as E. rewrite E in *. split; [reflexivity|exact F].
Qed.

(** ** C106 *)
(** the velocity has the requested total speed and the requested component along B; the particle sits one gyroradius
    away from the requested guiding centre, perpendicular to B; for a positive charge its guiding centre is exactly the requested one *)
Theorem C106_full_orbit_start B xyz vp vt m q eta : (vx B <> 0 \/ vy B <> 0) -> 0 < m -> q <> 0 -> 0 <= vt -> Rabs vp <= vt ->
  let b := scal3 (/ norm B) B in
  let '(x, v, rg) := fullorbit_guess B (norm B) xyz vp vt m q eta in
  normsq v = vt ^ 2 /\ dot3 v b = vp /\
  rg = m * sqrt (vt ^ 2 - vp ^ 2) / (Rabs q * norm B) /\
  normsq (sub3 x xyz) = rg ^ 2 /\ dot3 (sub3 x xyz) b = 0 /\
  (0 < q -> guiding_centre B x v m q = xyz) /\
  (q < 0 -> guiding_centre B x v m q = add3 xyz (scal3 2 (sub3 x xyz))).
Proof.
  intros NZ Hm Hq Hvt Hvp b.
  assert (NB2 : 0 < vx B * vx B + vy B * vy B + vz B * vz B). { destruct NZ; [assert (0 < vx B * vx B) by nra; nra|assert (0 < vy B * vy B) by nra; nra]. }
  assert (NB : 0 < norm B) by (apply sqrt_lt_R0; exact NB2).
  assert (NN : norm B * norm B = normsq B) by (unfold norm; rewrite sqrt_sqrt by lra; reflexivity).
  assert (U : normsq b = 1). { unfold b, normsq, dot3, scal3. cbn [vx vy vz]. unfold normsq, dot3 in NN. apply Rmult_eq_reg_r with (norm B * norm B); [|nra]. transitivity (vx B * vx B + vy B * vy B + vz B * vz B); [field; lra|lra]. }
  assert (N' : vx b <> 0 \/ vy b <> 0). { unfold b, scal3. cbn [vx vy vz]. destruct NZ; [left|right]; apply Rmult_integral_contrapositive_currified; auto; apply Rinv_neq_0_compat; lra. }
  pose proof (frame_props b U N') as FP. unfold fullorbit_guess. fold b. destruct (frame b) as [[q1 q2] q3].
  destruct FP as (E1 & F11 & F22 & F33 & F12 & F13 & F23 & X21 & X31). subst q1.
  set (w := sqrt (vt ^ 2 - vp ^ 2)).
  assert (W : w * w = vt ^ 2 - vp ^ 2). { unfold w. apply sqrt_sqrt. assert (vp ^ 2 <= vt ^ 2); [|lra]. rewrite <- (pow2_abs vp). pose proof (Rabs_pos vp). nra. }
  set (rg := gc_radius m w q (norm B)).
  pose proof (sin2_cos2 eta) as SC. unfold Rsqr in SC.
  assert (D31 : dot3 q3 b = 0) by (rewrite <- F13; unfold dot3; ring). assert (D21 : dot3 q2 b = 0) by (rewrite <- F12; unfold dot3; ring).
  assert (DX : sub3 (add3 (add3 xyz (scal3 (rg * sin eta) q2)) (scal3 (rg * cos eta) q3)) xyz = add3 (scal3 (rg * sin eta) q2) (scal3 (rg * cos eta) q3)) by (unfold sub3, add3; apply v3_eq; cbn [vx vy vz]; ring).
  assert (EB : B = scal3 (norm B) b). { unfold b. rewrite scal3_scal. rewrite Rinv_r by lra. now rewrite scal3_1. }
  assert (CX : cross (add3 (scal3 vp b) (add3 (scal3 (- w * cos eta) q2) (scal3 (w * sin eta) q3))) B = scal3 (norm B * - w) (add3 (scal3 (sin eta) q2) (scal3 (cos eta) q3))).
  { rewrite EB at 1. transitivity (scal3 (norm B) (add3 (scal3 (- w * cos eta) (cross q2 b)) (scal3 (w * sin eta) (cross q3 b)))).
    - unfold cross, add3, scal3. apply v3_eq; cbn [vx vy vz]; ring.
    - rewrite X21, X31. unfold add3, scal3. apply v3_eq; cbn [vx vy vz]; ring. }
  split; [|split; [|split; [|split; [|split; [|split]]]]].
  - transitivity (vp * vp * dot3 b b + w * w * (cos eta * cos eta * dot3 q2 q2 + sin eta * sin eta * dot3 q3 q3)
      - 2 * vp * w * cos eta * dot3 b q2 + 2 * vp * w * sin eta * dot3 b q3 - 2 * w * w * sin eta * cos eta * dot3 q2 q3).
    { unfold normsq, dot3, add3, scal3. cbn [vx vy vz]. ring. }
    rewrite F11, F22, F33, F12, F13, F23, W. transitivity (vp * vp + (vt ^ 2 - vp ^ 2) * (sin eta * sin eta + cos eta * cos eta)); [ring|rewrite SC; ring].
  - transitivity (vp * dot3 b b - w * cos eta * dot3 q2 b + w * sin eta * dot3 q3 b). { unfold dot3, add3, scal3. cbn [vx vy vz]. ring. } rewrite F11, D21, D31. ring.
  - reflexivity.
  - rewrite DX. transitivity (rg * rg * (sin eta * sin eta * dot3 q2 q2 + cos eta * cos eta * dot3 q3 q3 + 2 * sin eta * cos eta * dot3 q2 q3)). { unfold normsq, dot3, add3, scal3. cbn [vx vy vz]. ring. }
    rewrite F22, F33, F23. transitivity (rg * rg * (sin eta * sin eta + cos eta * cos eta)); [ring|rewrite SC; ring].
  - rewrite DX. transitivity (rg * sin eta * dot3 q2 b + rg * cos eta * dot3 q3 b). { unfold dot3, add3, scal3. cbn [vx vy vz]. ring. } rewrite D21, D31. ring.
  - intros Q. unfold guiding_centre. rewrite CX. assert (ER : rg = m * w / (q * norm B)) by (unfold rg, gc_radius; rewrite Rabs_right by lra; reflexivity).
    assert (EC : m / (q * normsq B) * (norm B * - w) = - rg) by (rewrite ER, <- NN; field; split; lra).
    rewrite scal3_scal, EC. unfold add3, scal3. apply v3_eq; cbn [vx vy vz]; ring.
  - intros Q. rewrite DX. unfold guiding_centre. rewrite CX. assert (ER : rg = m * w / (- q * norm B)) by (unfold rg, gc_radius; rewrite Rabs_left by lra; reflexivity).
    assert (EC : m / (q * normsq B) * (norm B * - w) = rg) by (rewrite ER, <- NN; field; split; lra).
    rewrite scal3_scal, EC. unfold add3, scal3. apply v3_eq; cbn [vx vy vz]; ring.
Qed.
(** so for a negative charge (electrons) the orbit gyrates about a point two gyroradii away from the requested one *)
Theorem C106_negative_charge_refuted B xyz vp vt m q eta : (vx B <> 0 \/ vy B <> 0) -> 0 < m -> q < 0 -> 0 <= vt -> Rabs vp < vt ->
  let '(x, v, rg) := fullorbit_guess B (norm B) xyz vp vt m q eta in
  0 < rg /\ normsq (sub3 (guiding_centre B x v m q) xyz) = (2 * rg) ^ 2.
Proof.
  intros NZ Hm Hq Hvt Hvp. pose proof (C106_full_orbit_start B xyz vp vt m q eta NZ Hm ltac:(lra) Hvt ltac:(lra)) as T. cbv zeta in T.
  destruct (fullorbit_guess B (norm B) xyz vp vt m q eta) as [[x v] rg]. destruct T as (_ & _ & R & N & _ & _ & G). rewrite (G Hq).
  assert (NB : 0 < norm B). { apply sqrt_lt_R0. destruct NZ; [assert (0 < vx B * vx B) by nra; nra|assert (0 < vy B * vy B) by nra; nra]. }
  split.
  - rewrite R. apply Rmult_lt_0_compat; [apply Rmult_lt_0_compat; [exact Hm|]|apply Rinv_0_lt_compat, Rmult_lt_0_compat; [apply Rabs_pos_lt; lra|exact NB]].
    apply sqrt_lt_R0. assert (vp ^ 2 < vt ^ 2); [|lra]. rewrite <- (pow2_abs vp). pose proof (Rabs_pos vp). nra.
  - transitivity (4 * normsq (sub3 x xyz)); [|rewrite N; ring]. unfold normsq, dot3, sub3, add3, scal3. cbn [vx vy vz]. ring.
Qed.
Example C106_case : let '(x, v, rg) := fullorbit_guess (V3 0 2 0) 2 (V3 1 0 0) 3 5 2 1 0 in x = V3 (1 - 4) 0 0 /\ v = V3 0 3 (-4) /\ rg = 4.
Proof.
  unfold fullorbit_guess. replace (scal3 (/ 2) (V3 0 2 0)) with (V3 0 1 0) by (apply v3_eq; cbn; lra).
  rewrite (frame_eq 0 1 0 1) by lra. replace (5 ^ 2 - 3 ^ 2) with (4 * 4) by lra. rewrite sqrt_square by lra. unfold gc_radius. rewrite Rabs_R1, sin_0, cos_0.
  unfold add3, scal3. cbn [vx vy vz]. split; [|split; [|lra]]; apply v3_eq; cbn [vx vy vz]; lra.
Qed.
