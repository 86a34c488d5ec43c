(** C130: compute_on_axis_iota integrates the linearised field line equation about the axis; its result is the rotation number of the linear return map. *)
From Coq Require Import Reals Lra Lia List.
From Verif Require CoilProps.
From Verif Require Import Vec3 BSModel BSDeriv SurfGeomProps SurfDiffProps CurveDiffProps PointsModel FieldAProps AxisModel.
Open Scope R_scope.

(** the field lines in cylindrical coordinates: (dR/dphi, dZ/dphi) at the angle a *)
Definition field_line_slope (F : vec3 -> vec3) (a r z : R) : R * R :=
  let b := F (V3 (r * cos a) (r * sin a) z) in let b_R := vx b * cos a + vy b * sin a in let b_phi := vy b * cos a - vx b * sin a in (r * b_R / b_phi, r * vz b / b_phi).
(** F has the Jacobian G at p (G j l = d_j F_l): the chain rule holds along every path *)
Definition jacobian (F : vec3 -> vec3) (p : vec3) (G : nat -> nat -> R) : Prop := forall c t c', c t = p -> D3 c t c' -> forall l, (l < 3)%nat ->
  D (fun s => coord (F (c s)) l) t (vx c' * G 0%nat l + vy c' * G 1%nat l + vz c' * G 2%nat l).
Definition curl (G : nat -> nat -> R) : vec3 := V3 (G 1%nat 2%nat - G 2%nat 1%nat) (G 2%nat 0%nat - G 0%nat 2%nat) (G 0%nat 1%nat - G 1%nat 0%nat).

Lemma jac_grad F p G : jacobian F p G -> is_gradient F p G.
Proof.
  intros H j l J L. assert (L3 : D3 (along p j) 0 (unit3 j)) by exact (D3_line p (unit3 j)).
  assert (E : along p j 0 = p) by (unfold along; destruct p as [p1 p2 p3]; apply v3_eq; cbn [vx vy vz add3 scal3]; ring). refine (D_val _ _ _ _ _ (H _ _ _ E L3 l L)). cases3 j J; unfold unit3; cbn [vx vy vz]; ring.
Qed.
Section Point.
Variables (F : vec3 -> vec3) (G : nat -> nat -> R) (phi r z : R).
Let a := 2 * PI * phi.
Let p := V3 (r * cos a) (r * sin a) z.
Let b := F p.
Let b_R := vx b * cos a + vy b * sin a.
Let b_phi := vy b * cos a - vx b * sin a.
Lemma cs1 : cos a * cos a + sin a * sin a = 1.
Proof. pose proof (sin2_cos2 a) as Q. unfold Rsqr in Q. lra. Qed.
Lemma rad_r : 0 < r -> sqrt (vx p ^ 2 + vy p ^ 2) = r.
Proof. intros P. unfold p. cbn [vx vy]. replace ((r * cos a) ^ 2 + (r * sin a) ^ 2) with (r * r * (cos a * cos a + sin a * sin a)) by ring. rewrite cs1, Rmult_1_r. apply sqrt_square. lra. Qed.
Hypothesis J : jacobian F p G.
Lemma path_r : D3 (fun s => V3 (s * cos a) (s * sin a) z) r (V3 (cos a) (sin a) 0).
Proof. unfold D3. cbn [vx vy vz]. repeat split; [eapply D_val; [|apply (D_mul (fun s => s)); [apply D_id|apply D_const]]; cbv beta; ring|eapply D_val; [|apply (D_mul (fun s => s)); [apply D_id|apply D_const]]; cbv beta; ring|apply D_const]. Qed.
Lemma path_z : D3 (fun s => V3 (r * cos a) (r * sin a) s) z (V3 0 0 1).
Proof. unfold D3. cbn [vx vy vz]. repeat split; [apply D_const|apply D_const|apply D_id]. Qed.
(** the matrix of the code, given dB_by_dX[j, l] = d_j B_l, is the Jacobian of the slope, up to terms with the curl of the field *)
Theorem C130_linearised : 0 < r -> b_phi <> 0 ->
  let A := tangent_A phi p b G in let c := curl G in let c_R := vx c * cos a + vy c * sin a in let c_phi := vy c * cos a - vx c * sin a in
  D (fun s => fst (field_line_slope F a s z)) r (m11 A - r * b_R / b_phi ^ 2 * vz c) /\
  D (fun s => fst (field_line_slope F a r s)) z (m12 A + r / b_phi * c_phi + r * b_R / b_phi ^ 2 * c_R) /\
  D (fun s => snd (field_line_slope F a s z)) r (m21 A - r / b_phi * c_phi - r * vz b / b_phi ^ 2 * vz c) /\
  D (fun s => snd (field_line_slope F a r s)) z (m22 A + r * vz b / b_phi ^ 2 * c_R).
Proof using J.
  intros P N. cbv zeta. pose proof cs1 as Q.
  pose proof (fun l L => J _ _ _ eq_refl path_r l L) as DR. pose proof (fun l L => J _ _ _ eq_refl path_z l L) as DZ. cbn [vx vy vz] in DR, DZ.
  assert (R0 := DR 0%nat ltac:(lia)). assert (R1 := DR 1%nat ltac:(lia)). assert (R2 := DR 2%nat ltac:(lia)). assert (Z0 := DZ 0%nat ltac:(lia)). assert (Z1 := DZ 1%nat ltac:(lia)). assert (Z2 := DZ 2%nat ltac:(lia)). cbn [coord] in R0, R1, R2, Z0, Z1, Z2.
  unfold field_line_slope, tangent_A, curl. cbv zeta. rewrite (rad_r P). fold a. fold p b. unfold b_R, b_phi in *. clear DR DZ.
  split; [|split; [|split]]; cbn [fst snd m11 m12 m21 m22 vx vy vz];
    (eapply D_val; [|dd]); cbv beta; fold p; fold b; try exact N; cbn [coord]; clearbody b; revert N Q; generalize (cos a) (sin a); intros c s N Q.
  - replace (G 0%nat 1%nat - G 1%nat 0%nat) with ((G 0%nat 1%nat - G 1%nat 0%nat) * (c * c + s * s)) by (rewrite Q; ring). field. repeat split; lra.
  - field. repeat split; lra.
  - replace (G 0%nat 1%nat - G 1%nat 0%nat) with ((G 0%nat 1%nat - G 1%nat 0%nat) * (c * c + s * s)) by (rewrite Q; ring). field. repeat split; lra.
  - field. repeat split; lra.
Qed.
End Point.

Section Axis.
Variables (F : vec3 -> vec3) (G : R -> nat -> nat -> R) (r z r' z' : R -> R).
Definition axis_point (r z : R -> R) (t : R) : vec3 := V3 (r t * cos (2 * PI * t)) (r t * sin (2 * PI * t)) (z t).
Definition b_phi_at (t : R) : R := let b := F (axis_point r z t) in vy b * cos (2 * PI * t) - vx b * sin (2 * PI * t).
(** a smooth curve with r > 0 that is a field line of a field without currents and with non-zero B_phi on it *)
Definition vacuum_axis : Prop := (forall t, D r t (r' t) /\ D z t (z' t) /\ 0 < r t) /\
  (forall t, jacobian F (axis_point r z t) (G t) /\ curl (G t) = v0 /\ G t 0%nat 0%nat + G t 1%nat 1%nat + G t 2%nat 2%nat = 0 /\ b_phi_at t <> 0) /\
  (forall t, r' t = 2 * PI * fst (field_line_slope F (2 * PI * t) (r t) (z t)) /\ z' t = 2 * PI * snd (field_line_slope F (2 * PI * t) (r t) (z t))).
Definition A_at (t : R) : mat2 := tangent_A t (axis_point r z t) (F (axis_point r z t)) (G t).
(** the displacement u of a neighbouring field line to first order *)
Definition neighbour (u : R -> R * R) : Prop := forall t, exists J, D (fun s => fst (field_line_slope F (2 * PI * t) s (z t))) (r t) (m11 J) /\ D (fun s => fst (field_line_slope F (2 * PI * t) (r t) s)) (z t) (m12 J) /\
  D (fun s => snd (field_line_slope F (2 * PI * t) s (z t))) (r t) (m21 J) /\ D (fun s => snd (field_line_slope F (2 * PI * t) (r t) s)) (z t) (m22 J) /\
  D (fun s => fst (u s)) t (2 * PI * fst (mat_vec J (u t))) /\ D (fun s => snd (u s)) t (2 * PI * snd (mat_vec J (u t))).
Hypothesis V : vacuum_axis.
Lemma A_jac t J : D (fun s => fst (field_line_slope F (2 * PI * t) s (z t))) (r t) (m11 J) -> D (fun s => fst (field_line_slope F (2 * PI * t) (r t) s)) (z t) (m12 J) ->
  D (fun s => snd (field_line_slope F (2 * PI * t) s (z t))) (r t) (m21 J) -> D (fun s => snd (field_line_slope F (2 * PI * t) (r t) s)) (z t) (m22 J) -> J = A_at t.
Proof using V.
  intros D1 D2 D3' D4. destruct V as (V1 & V2 & V3'). destruct (V1 t) as (_ & _ & P). destruct (V2 t) as (JF & C & _ & N).
  pose proof (C130_linearised F (G t) t (r t) (z t) JF P N) as (E1 & E2 & E3 & E4). rewrite C in E1, E2, E3, E4. unfold v0 in E1, E2, E3, E4. cbn [vx vy vz] in E1, E2, E3, E4.
  pose proof (uniqueness_limite _ _ _ _ D1 E1) as K1. pose proof (uniqueness_limite _ _ _ _ D2 E2) as K2. pose proof (uniqueness_limite _ _ _ _ D3' E3) as K3. pose proof (uniqueness_limite _ _ _ _ D4 E4) as K4.
  unfold A_at. fold (axis_point r z t) in *. change (V3 (r t * cos (2 * PI * t)) (r t * sin (2 * PI * t)) (z t)) with (axis_point r z t) in *. destruct J as [j1 j2 j3 j4]. cbn [m11 m12 m21 m22] in *. destruct (tangent_A t (axis_point r z t) (F (axis_point r z t)) (G t)) as [a1 a2 a3 a4]. cbn [m11 m12 m21 m22] in *. f_equal; lra.
Qed.
Definition linear_solution (u : R -> R * R) : Prop := forall t, D (fun s => fst (u s)) t (2 * PI * fst (mat_vec (A_at t) (u t))) /\ D (fun s => snd (u s)) t (2 * PI * snd (mat_vec (A_at t) (u t))).
Lemma neighbour_linear u : neighbour u <-> linear_solution u.
Proof using V.
  split.
  - intros H t. destruct (H t) as (J & D1 & D2 & D3' & D4 & U1 & U2). rewrite <- (A_jac t J D1 D2 D3' D4). auto.
  - intros H t. exists (A_at t). destruct V as (V1 & V2 & V3'). destruct (V1 t) as (_ & _ & P). destruct (V2 t) as (JF & C & _ & N).
    pose proof (C130_linearised F (G t) t (r t) (z t) JF P N) as (E1 & E2 & E3 & E4). rewrite C in E1, E2, E3, E4. unfold v0 in E1, E2, E3, E4. cbn [vx vy vz] in E1, E2, E3, E4.
    change (V3 (r t * cos (2 * PI * t)) (r t * sin (2 * PI * t)) (z t)) with (axis_point r z t) in *. fold (A_at t) in *. destruct (H t) as (U1 & U2).
    repeat split; [eapply D_val; [|exact E1]|eapply D_val; [|exact E2]|eapply D_val; [|exact E3]|eapply D_val; [|exact E4]| |]; cbv beta; try assumption; ring.
Qed.
Lemma D_bphi t : D b_phi_at t (- (2 * PI * (m11 (A_at t) + m22 (A_at t))) * b_phi_at t).
Proof using V.
  destruct V as (V1 & V2 & V3'). destruct (V1 t) as (Dr & Dz & P). destruct (V2 t) as (JF & C & T & N). destruct (V3' t) as (Er & Ez). assert (Q := cs1 t).
  assert (Da : D (fun s => 2 * PI * s) t (2 * PI)) by (eapply D_val; [|apply (D_mul (fun _ => 2 * PI)); [apply D_const|apply D_id]]; cbv beta; ring).
  assert (Dc := D_cos _ _ _ Da). assert (Ds := D_sin _ _ _ Da). cbv beta in Dc, Ds.
  set (v := V3 (r' t * cos (2 * PI * t) - r t * (2 * PI * sin (2 * PI * t))) (r' t * sin (2 * PI * t) + r t * (2 * PI * cos (2 * PI * t))) (z' t)).
  assert (PA : D3 (axis_point r z) t v).
  { unfold D3, axis_point, v. cbn [vx vy vz]. repeat split; [eapply D_val; [|apply (D_mul r); eassumption]; cbv beta; ring|eapply D_val; [|apply (D_mul r); eassumption]; cbv beta; ring|exact Dz]. }
  assert (D0 := JF _ _ _ eq_refl PA 0%nat ltac:(lia)). assert (D1 := JF _ _ _ eq_refl PA 1%nat ltac:(lia)). cbn [coord] in D0, D1.
  unfold b_phi_at at 1. cbv zeta. eapply D_val; [|apply D_sub; [apply (D_mul (fun s => vy (F (axis_point r z s)))); [exact D1|exact Dc]|apply (D_mul (fun s => vx (F (axis_point r z s)))); [exact D0|exact Ds]]]. cbv beta.
  unfold v. cbn [vx vy vz]. rewrite Er, Ez. clear Dc Ds Da D0 D1 PA Dr Dz Er Ez v. unfold curl, v0 in C. injection C as C1 C2 C3.
  unfold A_at, tangent_A, field_line_slope, b_phi_at in *. cbv zeta in *. cbn [m11 m22 fst snd]. change (V3 (r t * cos (2 * PI * t)) (r t * sin (2 * PI * t)) (z t)) with (axis_point r z t).
  assert (RR : sqrt (vx (axis_point r z t) ^ 2 + vy (axis_point r z t) ^ 2) = r t) by exact (rad_r t (r t) (z t) P). rewrite !RR. clear RR JF. generalize dependent (F (axis_point r z t)). intros b N. clear V V1 V2 V3'. revert P Q N. generalize (cos (2 * PI * t)) (sin (2 * PI * t)). intros c s P Q N.
  replace (G t 1%nat 2%nat) with (G t 2%nat 1%nat) by lra. replace (G t 2%nat 0%nat) with (G t 0%nat 2%nat) by lra. replace (G t 0%nat 1%nat) with (G t 1%nat 0%nat) by lra.
  replace (G t 2%nat 2%nat) with (- (G t 0%nat 0%nat + G t 1%nat 1%nat) * (c * c + s * s)) by (rewrite Q; lra).
  replace (- s * vx b + c * vy b) with (vy b * c - vx b * s) by ring. replace (c * vx b + s * vy b) with (vx b * c + vy b * s) by ring.
  assert (X : forall u v, u + vy b * - (2 * PI * s) - (v + vx b * (2 * PI * c)) = u - v - 2 * PI * (vx b * c + vy b * s)) by (intros; ring). rewrite X. clear X C1 C2 C3 T Q.
  revert N. generalize (vy b * c - vx b * s) (vx b * c + vy b * s) (vz b). intros bp br bz N. field. split; lra.
Qed.
Lemma constant_of (f : R -> R) : (forall t, D f t 0) -> forall t, f t = f 0.
Proof.
  intros H t. assert (K : forall a b, a < b -> f a = f b) by (intros a b L; destruct (MVT_cor2 f (fun _ => 0) a b L) as (c & E & _); [intros c _; exact (H c)|lra]).
  destruct (Rtotal_order t 0) as [L|[->|L]]; [now apply K|reflexivity|symmetry; now apply K].
Qed.
(** two neighbouring field lines: the flux between them is conserved *)
Lemma flux_conserved u v : linear_solution u -> linear_solution v -> forall t, (fst (u t) * snd (v t) - snd (u t) * fst (v t)) * b_phi_at t = (fst (u 0) * snd (v 0) - snd (u 0) * fst (v 0)) * b_phi_at 0.
Proof using V.
  intros U W t. apply (constant_of (fun t => (fst (u t) * snd (v t) - snd (u t) * fst (v t)) * b_phi_at t)). clear t. intros t. destruct (U t) as (U1 & U2). destruct (W t) as (W1 & W2). pose proof (D_bphi t) as DB.
  eapply D_val; [|apply (D_mul (fun s => fst (u s) * snd (v s) - snd (u s) * fst (v s))); [apply D_sub; [apply (D_mul (fun s => fst (u s))); [exact U1|exact W2]|apply (D_mul (fun s => snd (u s))); [exact U2|exact W1]]|exact DB]]. cbv beta. unfold mat_vec. cbn [fst snd]. ring.
Qed.
End Axis.
(** the state integrated by the code *)
Definition integrated (F : vec3 -> vec3) (G : R -> nat -> nat -> R) (r z : R -> R) (y : R -> (R * R) * (R * R)) : Prop := y 0 = start /\ forall t,
  let rhs := tangent_map t (axis_point r z t) (F (axis_point r z t)) (G t) (y t) in
  D (fun s => fst (fst (y s))) t (fst (fst rhs)) /\ D (fun s => snd (fst (y s))) t (snd (fst rhs)) /\ D (fun s => fst (snd (y s))) t (fst (snd rhs)) /\ D (fun s => snd (snd (y s))) t (snd (snd rhs)).
Definition transpose (m : mat2) : mat2 := M2 (m11 m) (m21 m) (m12 m) (m22 m).
Definition det2 (m : mat2) : R := m11 m * m22 m - m12 m * m21 m.
Definition tr2 (m : mat2) : R := m11 m + m22 m.
(** the (transposed) matrix takes the displacement of every neighbouring field line at t = 0 to the one at t = 1/nfp, and preserves area *)
Theorem C130_return_map F G r z r' z' y (T : R) : vacuum_axis F G r z r' z' -> integrated F G r z y -> b_phi_at F r z T = b_phi_at F r z 0 ->
  (forall u, neighbour F r z u -> u T = mat_vec (transpose (final_matrix (y T))) (u 0)) /\ det2 (final_matrix (y T)) = 1.
Proof.
  intros V (Y0 & Y) BP. assert (S1 : linear_solution F G r z (fun t => fst (y t))) by (intros t; destruct (Y t) as (A & B & _ & _); split; assumption). assert (S2 : linear_solution F G r z (fun t => snd (y t))) by (intros t; destruct (Y t) as (_ & _ & A & B); split; assumption).
  assert (N : b_phi_at F r z 0 <> 0) by (destruct V as (_ & V2 & _); apply V2). pose proof (flux_conserved _ _ _ _ _ _ V _ _ S1 S2 T) as W. cbv beta in W. rewrite Y0, BP in W. unfold start in W. cbn [fst snd] in W.
  apply Rmult_eq_reg_r in W; [|exact N]. split; [|unfold det2, final_matrix; cbn [m11 m12 m21 m22]; lra].
  intros u HU. apply (neighbour_linear _ _ _ _ _ _ V) in HU. pose proof (flux_conserved _ _ _ _ _ _ V _ _ HU S2 T) as W1. pose proof (flux_conserved _ _ _ _ _ _ V _ _ S1 HU T) as W2. cbv beta in W1, W2. rewrite Y0, BP in W1, W2. unfold start in W1, W2. cbn [fst snd] in W1, W2.
  apply Rmult_eq_reg_r in W1; [|exact N]. apply Rmult_eq_reg_r in W2; [|exact N]. unfold mat_vec, transpose, final_matrix. cbn [m11 m12 m21 m22]. destruct (u T) as [uT1 uT2], (u 0) as [a b], (y T) as [[y1 y2] [y3 y4]]. cbn [fst snd] in *.
  assert (K1 : uT1 * (y1 * y4 - y2 * y3) = uT1) by (rewrite W; ring). assert (K2 : uT2 * (y1 * y4 - y2 * y3) = uT2) by (rewrite W; ring).
  f_equal; [rewrite <- K1|rewrite <- K2].
  - transitivity (y1 * (uT1 * y4 - uT2 * y3) + y3 * (y1 * uT2 - y2 * uT1)); [ring|]. rewrite W1, W2. ring.
  - transitivity (y2 * (uT1 * y4 - uT2 * y3) + y4 * (y1 * uT2 - y2 * uT1)); [ring|]. rewrite W1, W2. ring.
Qed.

(** ** the eigenvalue *)
(** re + i im is an eigenvalue of m, with eigenvector (w1 + i v1, w2 + i v2) *)
Definition is_eigenvalue (m : mat2) (re im : R) : Prop := exists w1 w2 v1 v2, ~ (w1 = 0 /\ w2 = 0 /\ v1 = 0 /\ v2 = 0) /\
  mat_vec m (w1, w2) = (re * w1 - im * v1, re * w2 - im * v2) /\ mat_vec m (v1, v2) = (re * v1 + im * w1, re * v2 + im * w2).
Lemma char_poly m re im : is_eigenvalue m re im -> re * re - im * im - tr2 m * re + det2 m = 0 /\ im * (2 * re - tr2 m) = 0.
Proof.
  intros (w1 & w2 & v1 & v2 & NZ & E1 & E2). destruct m as [a b c d]. unfold mat_vec, tr2, det2 in *. cbn [m11 m12 m21 m22 fst snd] in *. injection E1 as A1 A2. injection E2 as B1 B2.
  set (P := re * re - im * im - (a + d) * re + (a * d - b * c)). set (Q := im * (2 * re - (a + d))).
  assert (X1 : P * w1 - Q * v1 = 0).
  { transitivity ((re - d) * (re * w1 - im * v1 - (a * w1 + b * w2)) - im * (re * v1 + im * w1 - (a * v1 + b * v2)) + b * (re * w2 - im * v2 - (c * w1 + d * w2))); [unfold P, Q; ring|]. rewrite <- A1, <- A2, <- B1. ring. }
  assert (X2 : P * v1 + Q * w1 = 0).
  { transitivity ((re - d) * (re * v1 + im * w1 - (a * v1 + b * v2)) + im * (re * w1 - im * v1 - (a * w1 + b * w2)) + b * (re * v2 + im * w2 - (c * v1 + d * v2))); [unfold P, Q; ring|]. rewrite <- A1, <- B1, <- B2. ring. }
  assert (X3 : P * w2 - Q * v2 = 0).
  { transitivity ((re - a) * (re * w2 - im * v2 - (c * w1 + d * w2)) - im * (re * v2 + im * w2 - (c * v1 + d * v2)) + c * (re * w1 - im * v1 - (a * w1 + b * w2))); [unfold P, Q; ring|]. rewrite <- A1, <- A2, <- B2. ring. }
  assert (X4 : P * v2 + Q * w2 = 0).
  { transitivity ((re - a) * (re * v2 + im * w2 - (c * v1 + d * v2)) + im * (re * w2 - im * v2 - (c * w1 + d * w2)) + c * (re * v1 + im * w1 - (a * v1 + b * v2))); [unfold P, Q; ring|]. rewrite <- A2, <- B1, <- B2. ring. }
  clearbody P Q. clear A1 A2 B1 B2. assert (Z : P * P + Q * Q = 0 \/ 0 < P * P + Q * Q) by (pose proof (Rle_0_sqr P) as K1; pose proof (Rle_0_sqr Q) as K2; unfold Rsqr in *; lra).
  destruct Z as [Z|Z]; [pose proof (Rle_0_sqr P) as K1; pose proof (Rle_0_sqr Q) as K2; unfold Rsqr in *; split; nra|]. exfalso. apply NZ.
  assert (K : forall w, (P * P + Q * Q) * w = 0 -> w = 0) by (intros w E; apply Rmult_integral in E; lra).
  repeat split; apply K.
  - transitivity (P * (P * w1 - Q * v1) + Q * (P * v1 + Q * w1)); [ring|]. rewrite X1, X2. ring.
  - transitivity (P * (P * w2 - Q * v2) + Q * (P * v2 + Q * w2)); [ring|]. rewrite X3, X4. ring.
  - transitivity (P * (P * v1 + Q * w1) - Q * (P * w1 - Q * v1)); [ring|]. rewrite X1, X2. ring.
  - transitivity (P * (P * v2 + Q * w2) - Q * (P * w2 - Q * v2)); [ring|]. rewrite X3, X4. ring.
Qed.
Lemma sq_pos x : x <> 0 -> 0 < x * x. Proof. intros H. pose proof (Rsqr_pos_lt x H) as P. exact P. Qed.
Definition turn (a : R) (x : R * R) : R * R := (cos a * fst x - sin a * snd x, sin a * fst x + cos a * snd x).
Theorem C130_eigenvalue (nfp : nat) (m : mat2) (re im : R) : (0 < nfp)%nat -> det2 m = 1 -> is_eigenvalue m re im ->
  let iota := iota_of nfp re im in
  - INR nfp / 2 < iota <= INR nfp / 2 /\
  (Rabs (tr2 m) < 2 -> exists P, det2 P <> 0 /\ forall x, mat_vec (transpose m) (mat_vec P x) = mat_vec P (turn (2 * PI * iota / INR nfp) x)) /\
  (2 <= tr2 m -> iota = 0) /\ (tr2 m <= -2 -> iota = INR nfp / 2).
Proof.
  intros NP DT EV. cbv zeta. destruct (char_poly m re im EV) as (C1 & C2). rewrite DT in C1. assert (NN : 0 < INR nfp) by (apply lt_0_INR; exact NP). pose proof PI_RGT_0 as PP. destruct (atan2_range re im) as [L U].
  assert (AG : 2 * PI * iota_of nfp re im / INR nfp = atan2 im re) by (unfold iota_of; field; split; lra).
  assert (IO : iota_of nfp re im = atan2 im re / PI * (INR nfp / 2)) by (unfold iota_of; field; lra).
  assert (REAL : 2 <= Rabs (tr2 m) -> im = 0).
  { intros H. destruct (Req_dec im 0) as [E|E]; [exact E|exfalso]. apply Rmult_integral in C2. destruct C2 as [C2|C2]; [lra|]. replace (tr2 m) with (2 * re) in * by lra. pose proof (sq_pos im ltac:(assumption)) as IP. rewrite Rabs_mult, (Rabs_right 2) in H by lra. assert (1 <= Rabs re) by lra. assert (Rabs re * Rabs re = re * re) by (rewrite <- Rabs_mult; apply Rabs_right, Rle_ge, Rle_0_sqr). nra. }
  split; [|split; [|split]].
  - rewrite IO. assert (-1 < atan2 im re / PI <= 1) by (split; [apply (Rmult_lt_reg_r PI); [lra|]|apply (Rmult_le_reg_r PI); [lra|]]; replace (atan2 im re / PI * PI) with (atan2 im re) by (field; lra); lra). nra.
  - intros H. rewrite AG. destruct (Req_dec im 0) as [Z|Z].
    { exfalso. subst im. assert (K : re * re - tr2 m * re + 1 = 0) by lra. apply Rabs_def2 in H. assert ((re - tr2 m / 2) * (re - tr2 m / 2) = (tr2 m / 2) * (tr2 m / 2) - 1) by nra. pose proof (Rle_0_sqr (re - tr2 m / 2)) as S. unfold Rsqr in S. nra. }
    assert (RE : 2 * re = tr2 m) by (apply Rmult_integral in C2; lra). assert (ON : re * re + im * im = 1) by nra.
    destruct (atan2_polar re im) as [X Y]. rewrite ON, sqrt_1, Rmult_1_l in X, Y. destruct m as [a c b d]. unfold det2, tr2, transpose in *. cbn [m11 m12 m21 m22] in *.
    exists (M2 b 0 (re - a) (- im)). cbn [m11 m12 m21 m22]. split.
    + intros E. assert (b = 0) as -> by nra. assert (H0 : a * d = 1) by lra. assert ((a - d) * (a - d) = 4 * (re * re) - 4) by (transitivity ((a + d) * (a + d) - 4 * (a * d)); [ring|rewrite <- RE, H0; ring]). pose proof (sq_pos im ltac:(assumption)) as IP. pose proof (Rle_0_sqr (a - d)) as SQ. unfold Rsqr in SQ. lra.
    + intros [x1 x2]. unfold mat_vec, turn. cbn [m11 m12 m21 m22 fst snd]. rewrite X, Y. replace d with (2 * re - a) in * by lra. f_equal; [ring|].
      transitivity ((c * b + (2 * re - a) * (re - a)) * x1 - (2 * re - a) * im * x2); [ring|]. replace (c * b) with (a * (2 * re - a) - (re * re + im * im)) by (rewrite ON; lra). ring.
  - intros H. assert (im = 0) as -> by (apply REAL; rewrite Rabs_right; lra). rewrite IO. assert (0 < re) by nra. destruct (atan2_polar re 0) as [X Y]. replace (re * re + 0 * 0) with (re * re) in * by ring. rewrite sqrt_square in * by lra.
    assert (atan2 0 re = 0) as ->; [|lra]. unfold atan2. destruct (Rlt_dec 0 re); [|lra]. unfold Rdiv. rewrite Rmult_0_l. apply atan_0.
  - intros H. assert (im = 0) as -> by (apply REAL; rewrite Rabs_left1; lra). rewrite IO. assert (re < 0) by nra.
    assert (atan2 0 re = PI) as ->; [|field; lra]. unfold atan2. destruct (Rlt_dec 0 re); [lra|]. destruct (Rlt_dec re 0); [|lra]. destruct (Rle_dec 0 0); [|lra]. unfold Rdiv. rewrite Rmult_0_l, atan_0. ring.
Qed.
Lemma atan2_opp y x : y <> 0 -> atan2 (- y) x = - atan2 y x.
Proof.
  intros N. unfold atan2. replace (- y / x) with (- (y / x)) by (unfold Rdiv; ring). rewrite atan_opp.
  destruct (Rlt_dec 0 x); [reflexivity|]. destruct (Rlt_dec x 0).
  - destruct (Rle_dec 0 (- y)), (Rle_dec 0 y); try lra.
  - destruct (Rlt_dec 0 (- y)), (Rlt_dec 0 y), (Rlt_dec (- y) 0), (Rlt_dec y 0); try lra.
Qed.
(** the sign of the result depends on the order in which the eigenvalues come *)
Theorem C130_sign (nfp : nat) (m : mat2) (re im : R) : is_eigenvalue m re im -> is_eigenvalue m re (- im) /\ (im <> 0 -> iota_of nfp re (- im) = - iota_of nfp re im).
Proof.
  intros (w1 & w2 & v1 & v2 & NZ & E1 & E2). split.
  - exists w1, w2, (- v1), (- v2). split; [intros (A & B & C & E); apply NZ; repeat split; lra|]. unfold mat_vec in *. cbn [fst snd] in *. injection E1 as A1 A2. injection E2 as B1 B2. split; f_equal; lra.
  - intros N. unfold iota_of. rewrite atan2_opp by exact N. unfold Rdiv. ring.
Qed.
(** the whole: axis and field with nfp field periods *)
Theorem C130_on_axis_iota F G r z r' z' y (nfp : nat) (re im : R) : (0 < nfp)%nat -> vacuum_axis F G r z r' z' -> integrated F G r z y ->
  (forall x, F (CoilProps.rotz (2 * PI / INR nfp) x) = CoilProps.rotz (2 * PI / INR nfp) (F x)) -> r (1 / INR nfp) = r 0 -> z (1 / INR nfp) = z 0 ->
  is_eigenvalue (final_matrix (y (1 / INR nfp))) re im ->
  let iota := iota_of nfp re im in
  - INR nfp / 2 < iota <= INR nfp / 2 /\
  (Rabs (tr2 (final_matrix (y (1 / INR nfp)))) < 2 -> exists P, det2 P <> 0 /\ forall u x, neighbour F r z u -> u 0 = mat_vec P x -> u (1 / INR nfp) = mat_vec P (turn (2 * PI * iota / INR nfp) x)) /\
  (2 <= Rabs (tr2 (final_matrix (y (1 / INR nfp)))) -> iota = 0 \/ iota = INR nfp / 2).
Proof.
  intros NP V I SY PR PZ EV. cbv zeta. assert (NN : 0 < INR nfp) by (apply lt_0_INR; exact NP). set (T := 1 / INR nfp) in *.
  assert (BP : b_phi_at F r z T = b_phi_at F r z 0).
  { unfold b_phi_at. assert (AT : 2 * PI * T = 2 * PI / INR nfp) by (unfold T; field; lra).
    assert (PT : axis_point r z T = CoilProps.rotz (2 * PI / INR nfp) (axis_point r z 0)).
    { unfold axis_point, CoilProps.rotz. cbn [vx vy vz]. rewrite PR, PZ, AT, Rmult_0_r, cos_0, sin_0. f_equal; ring. }
    rewrite PT, SY. cbv zeta. unfold CoilProps.rotz at 1 2. cbn [vx vy]. rewrite AT, Rmult_0_r, cos_0, sin_0. pose proof (sin2_cos2 (2 * PI / INR nfp)) as Q. unfold Rsqr in Q. set (b := F (axis_point r z 0)). clearbody b.
    transitivity (vy b * (sin (2 * PI / INR nfp) * sin (2 * PI / INR nfp) + cos (2 * PI / INR nfp) * cos (2 * PI / INR nfp))); [ring|]. rewrite Q. ring. }
  destruct (C130_return_map F G r z r' z' y T V I BP) as (RM & DT). destruct (C130_eigenvalue nfp _ re im NP DT EV) as (E1 & E2 & E3 & E4). split; [exact E1|]. split.
  - intros H. destruct (E2 H) as (P & DP & HP). exists P. split; [exact DP|]. intros u x U X. rewrite (RM u U), X. apply HP.
  - intros H. destruct (Rle_lt_dec 0 (tr2 (final_matrix (y T)))) as [K|K]; [left; apply E3; rewrite Rabs_right in H; lra|right; apply E4; rewrite Rabs_left in H; lra].
Qed.

(** the vacuum toroidal field with its circle is such an axis; a quarter turn has the eigenvalue i and iota = nfp/4 *)
Definition tor (p : vec3) : vec3 := V3 (- vy p / (vx p * vx p + vy p * vy p)) (vx p / (vx p * vx p + vy p * vy p)) 0.
Definition tor_G (p : vec3) (j l : nat) : R := let n := vx p * vx p + vy p * vy p in nth l (nth j (cons (cons (2 * vx p * vy p / (n * n)) (cons ((vy p * vy p - vx p * vx p) / (n * n)) (cons 0 nil)))
  (cons (cons ((vy p * vy p - vx p * vx p) / (n * n)) (cons (-2 * vx p * vy p / (n * n)) (cons 0 nil))) (cons (cons 0 (cons 0 (cons 0 nil))) nil))) nil) 0.
Example C130_ex : vacuum_axis tor (fun t => tor_G (axis_point (fun _ => 1) (fun _ => 0) t)) (fun _ => 1) (fun _ => 0) (fun _ => 0) (fun _ => 0) /\ is_eigenvalue (M2 0 (-1) 1 0) 0 1 /\ iota_of 4 0 1 = 1.
Proof.
  assert (Q : forall t, 1 * cos (2 * PI * t) * (1 * cos (2 * PI * t)) + 1 * sin (2 * PI * t) * (1 * sin (2 * PI * t)) = 1) by (intros t; pose proof (sin2_cos2 (2 * PI * t)) as Q; unfold Rsqr in Q; lra).
  split; [|split].
  - split; [|split].
    + intros t. repeat split; try apply D_const. lra.
    + intros t. split; [|split; [|split]].
      * intros c s c' E (C1 & C2 & C3) l L. assert (N : vx (c s) * vx (c s) + vy (c s) * vy (c s) <> 0) by (rewrite E; unfold axis_point; cbn [vx vy]; rewrite (Q t); lra). rewrite <- E. set (x := vx (c s)) in *. set (w := vy (c s)) in *.
        cases3 l L; unfold tor, tor_G; cbn [coord vx vy vz nth]; (eapply D_val; [|dd]); cbv beta; fold x w; try exact N; try (field; exact N); ring.
      * unfold curl, tor_G, v0. cbn [nth]. f_equal; ring.
      * unfold tor_G. cbn [nth]. unfold Rdiv. ring.
      * unfold b_phi_at, tor, axis_point. cbn [vx vy vz]. rewrite (Q t). pose proof (Q t). lra.
    + intros t. unfold field_line_slope, tor. cbn [vx vy vz fst snd]. rewrite (Q t). unfold Rdiv. split; ring.
  - exists 1, 0, 0, (-1). split; [intros (A & _); lra|]. unfold mat_vec. cbn [m11 m12 m21 m22 fst snd]. split; f_equal; ring.
  - unfold iota_of, atan2. destruct (Rlt_dec 0 0); [lra|]. destruct (Rlt_dec 0 1); [|lra]. cbn [INR]. field. apply PI_neq0.
Qed.
Print Assumptions C130_on_axis_iota.
