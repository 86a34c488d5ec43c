(** C70: CurvePlanarFourier. *)
From Coq Require Import Reals Lra Lia List.
From Verif Require Import ListAux VecAux Vec3 BSModel BSDeriv BSVjp SurfProps SurfGeomProps SurfDiff SurfDiffProps CurveModel CurveProps PlanarModel.
Import ListNotations.
Open Scope R_scope.

(** ** Specification *)
(** rotation of v by the angle th about the unit vector u (Rodrigues) *)
Definition rodrigues (u : vec3) (th : R) (v : vec3) : vec3 :=
  add3 (add3 (scal3 (cos th) v) (scal3 (sin th) (cross u v))) (scal3 ((1 - cos th) * dot3 u v) u).
Definition nonzero (q : quat) : Prop := q <> Q4 0 0 0 0.
Definition quat_of (len th : R) (u : vec3) : quat := Q4 (len * cos (th / 2)) (len * (vx u * sin (th / 2))) (len * (vy u * sin (th / 2))) (len * (vz u * sin (th / 2))).
(** the polar radius *)
Definition polar_radius (o : nat) (p : planar) (phi : R) : R :=
  rsuml (map (fun m => nth m (prc p) 0 * cos (INR m * phi)) (seq 0 (o + 1))) + rsuml (map (fun m => nth (m - 1) (prs p) 0 * sin (INR m * phi)) (seq 1 o)).
Definition pl_wf (o : nat) (p : planar) : Prop := length (prc p) = (o + 1)%nat /\ length (prs p) = o.

(** ** The rotation *)
Definition mag2 (q : quat) : R := q0 q * q0 q + q1 q * q1 q + q2 q * q2 q + q3 q * q3 q.
Lemma mag2_pos q : nonzero q -> 0 < mag2 q.
Proof.
  intros H. unfold mag2. destruct q as [a b c d]. cbn. pose proof (Rle_0_sqr a) as A. pose proof (Rle_0_sqr b) as B. pose proof (Rle_0_sqr c) as C. pose proof (Rle_0_sqr d) as E. unfold Rsqr in *.
  destruct (Req_dec a 0) as [Ha|Ha]; [destruct (Req_dec b 0) as [Hb|Hb]; [destruct (Req_dec c 0) as [Hc|Hc]; [destruct (Req_dec d 0) as [Hd|Hd]|]|]|].
  - exfalso. apply H. now subst.
  - assert (0 < d * d) by nra. lra.
  - assert (0 < c * c) by nra. lra.
  - assert (0 < b * b) by nra. lra.
  - assert (0 < a * a) by nra. lra.
Qed.
Lemma inv_pos q : nonzero q -> inv_magnitude q = 1 / sqrt (mag2 q).
Proof. intros H. unfold inv_magnitude. fold (mag2 q). apply mag2_pos in H. destruct (Req_EM_T (mag2 q) 0); [lra|reflexivity]. Qed.
Lemma inv_sq q : nonzero q -> inv_magnitude q * inv_magnitude q * mag2 q = 1.
Proof. intros H. rewrite inv_pos by auto. apply mag2_pos in H. assert (sqrt (mag2 q) <> 0) by (apply Rgt_not_eq, sqrt_lt_R0; auto). rewrite <- (sqrt_sqrt (mag2 q)) at 3 by lra. field. auto. Qed.
Lemma norm_unit q : nonzero q -> mag2 (q_norm q) = 1.
Proof. intros H. rewrite <- (inv_sq q H). unfold mag2, q_norm. cbn [q0 q1 q2 q3]. ring. Qed.
Lemma rot_lin1 n a b : rot n (add3 a b) = add3 (rot n a) (rot n b). Proof. apply v3_eq; cbn [vx vy vz rot add3]; ring. Qed.
Lemma rot_lin2 n c a : rot n (scal3 c a) = scal3 c (rot n a). Proof. apply v3_eq; cbn [vx vy vz rot scal3]; ring. Qed.
Lemma rot_v0 n : rot n v0 = v0. Proof. apply v3_eq; cbn [vx vy vz rot v0]; ring. Qed.
Lemma rot_sum n l : rot n (sum3 l) = sum3 (map (rot n) l).
Proof. induction l as [|a l IH]; cbn [sum3 map]; [apply rot_v0|]. now rewrite rot_lin1, IH. Qed.
(** a rotation preserves scalar products *)
Lemma rot_dot n a b : mag2 n = 1 -> dot3 (rot n a) (rot n b) = dot3 a b.
Proof.
  intros H. assert (E : q0 n * q0 n = 1 - q1 n * q1 n - q2 n * q2 n - q3 n * q3 n) by (unfold mag2 in H; lra). unfold dot3, rot. cbn [vx vy vz].
  destruct n as [w x y z], a as [a1 a2 a3], b as [b1 b2 b3]; cbn [q0 q1 q2 q3 vx vy vz] in *.
  ring_simplify. replace (w ^ 2) with (1 - x * x - y * y - z * z) by lra. ring.
Qed.
Theorem C70_rotation len th u v : 0 < len -> normsq u = 1 -> rot (q_norm (quat_of len th u)) v = rodrigues u th v.
Proof.
  intros Hl Hu. set (C := cos (th / 2)). set (S := sin (th / 2)). assert (SC : S * S + C * C = 1) by (unfold S, C; pose proof (sin2_cos2 (th / 2)); unfold Rsqr in *; lra).
  assert (M : mag2 (quat_of len th u) = len * len).
  { unfold mag2, quat_of. cbn [q0 q1 q2 q3]. fold C S. unfold normsq, dot3 in Hu. transitivity (len * len * (C * C + S * S * (vx u * vx u + vy u * vy u + vz u * vz u))); [ring|]. rewrite Hu. transitivity (len * len * (S * S + C * C)); [ring|]. rewrite SC. ring. }
  assert (NZ : nonzero (quat_of len th u)). { intros E. rewrite E in M. unfold mag2 in M. cbn in M. nra. }
  assert (I : inv_magnitude (quat_of len th u) = / len). { rewrite inv_pos, M, sqrt_square by (auto; lra). unfold Rdiv. ring. }
  assert (Q : q_norm (quat_of len th u) = Q4 C (vx u * S) (vy u * S) (vz u * S)).
  { unfold q_norm. rewrite I. unfold quat_of. cbn [q0 q1 q2 q3]. fold C S. f_equal; field; lra. }
  assert (Ct : cos th = 1 - 2 * (S * S)) by (replace th with (2 * (th / 2)) by field; unfold S; rewrite cos_2a_sin; ring).
  assert (St : sin th = 2 * S * C) by (replace th with (2 * (th / 2)) by field; unfold S, C; rewrite sin_2a; ring).
  rewrite Q. unfold rodrigues. rewrite Ct, St. clearbody S C. clear Q I NZ M Ct St Hl. destruct u as [u1 u2 u3], v as [a b c]. unfold normsq, dot3 in Hu. cbn [vx vy vz] in Hu.
  assert (E1 : u1 * u1 = 1 - u2 * u2 - u3 * u3) by lra. 
  apply v3_eq; cbn [rot cross dot3 add3 scal3 q0 q1 q2 q3 vx vy vz]; unfold dot3; cbn [vx vy vz].
  - replace ((1 - (1 - 2 * (S * S))) * (u1 * a + u2 * b + u3 * c) * u1) with (2 * (S * S) * ((u1 * u1) * a + (u2 * b + u3 * c) * u1)) by ring. rewrite E1. ring.
  - assert (E2 : u2 * u2 = 1 - u1 * u1 - u3 * u3) by lra. replace ((1 - (1 - 2 * (S * S))) * (u1 * a + u2 * b + u3 * c) * u2) with (2 * (S * S) * ((u2 * u2) * b + (u1 * a + u3 * c) * u2)) by ring. rewrite E2. ring.
  - assert (E3 : u3 * u3 = 1 - u1 * u1 - u2 * u2) by lra. replace ((1 - (1 - 2 * (S * S))) * (u1 * a + u2 * b + u3 * c) * u3) with (2 * (S * S) * ((u3 * u3) * c + (u1 * a + u2 * b) * u3)) by ring. rewrite E3. ring.
Qed.
Theorem C70_zero_quaternion_is_no_rotation v : rot (q_norm (Q4 0 0 0 0)) v = v.
Proof. unfold q_norm. cbn [q0 q1 q2 q3]. rewrite !Rmult_0_l. apply v3_eq; cbn [rot q0 q1 q2 q3 vx vy vz]; ring. Qed.
(** only the direction of the quaternion matters *)
Theorem C70_scaling_the_quaternion c q v : c <> 0 -> rot (q_norm (Q4 (c * q0 q) (c * q1 q) (c * q2 q) (c * q3 q))) v = rot (q_norm q) v.
Proof.
  intros Hc. set (q' := Q4 _ _ _ _). destruct (Req_dec (mag2 q) 0) as [Z|NZ].
  - assert (q = Q4 0 0 0 0). { destruct q as [a b d e]. unfold mag2 in Z. cbn in Z. assert (a = 0 /\ b = 0 /\ d = 0 /\ e = 0) by (repeat split; nra). destruct H as (-> & -> & -> & ->). reflexivity. }
    subst q. unfold q'. cbn [q0 q1 q2 q3]. now rewrite !Rmult_0_r.
  - assert (N : nonzero q) by (intros ->; apply NZ; unfold mag2; cbn; ring).
    assert (M : mag2 q' = c * c * mag2 q) by (unfold mag2, q'; cbn [q0 q1 q2 q3]; ring).
    assert (N' : nonzero q'). { intros E. rewrite E in M. apply mag2_pos in N. assert (0 < c * c * mag2 q) by (apply Rmult_lt_0_compat; [nra|lra]). assert (mag2 (Q4 0 0 0 0) = 0) by (unfold mag2; cbn [q0 q1 q2 q3]; ring). lra. }
    assert (I : inv_magnitude q' * inv_magnitude q' * (c * c) = inv_magnitude q * inv_magnitude q).
    { pose proof (inv_sq q N) as E1. pose proof (inv_sq q' N') as E2. rewrite M in E2. apply mag2_pos in N. apply Rmult_eq_reg_r with (mag2 q); [|lra]. transitivity 1; [rewrite <- E2; ring|symmetry; exact E1]. }
    unfold q_norm. cbn [q0 q1 q2 q3 q']. unfold q'. cbn [q0 q1 q2 q3]. fold q'. set (n' := inv_magnitude q') in *. set (n := inv_magnitude q) in *. clearbody n n'.
    assert (P : forall a b, c * a * n' * (c * b * n') = a * n * (b * n)). { intros a b. transitivity (a * b * (n' * n' * (c * c))); [ring|]. rewrite I. ring. }
    apply v3_eq; cbn [rot q0 q1 q2 q3 vx vy vz]; rewrite !P; ring.
Qed.

Ltac dgo := lazymatch goal with
  | |- D (fun _ => ?c) _ _ => apply (D_const c)
  | |- D (fun s => s) _ _ => apply D_id
  | |- D (fun s => @?f s + @?g s) _ _ => apply (D_add f g); dgo
  | |- D (fun s => @?f s - @?g s) _ _ => apply (D_sub f g); dgo
  | |- D (fun s => @?f s * @?g s) _ _ => apply (D_mul f g); dgo
  | |- D (fun s => - @?f s) _ _ => apply (D_opp f); dgo
  | |- _ => eassumption
  end.
(** ** The shape *)
Section Shape.
Variable o : nat.
Lemma plane_sum first c s p : first = c 0%nat -> plane o first c s p =
  add3 (sum3 (map (fun i => scal3 (nth i (prc p) 0) (c i)) (seq 0 (o + 1)))) (sum3 (map (fun i => scal3 (nth (i - 1) (prs p) 0) (s i)) (seq 1 o))).
Proof.
  intros ->. unfold plane. rewrite accum_sum, sum3_map_add. replace (o + 1)%nat with (1 + o)%nat by lia. rewrite seq_app. cbn [seq map app sum3]. cbn [Nat.add]. rewrite <- add3_assoc. reflexivity.
Qed.
Lemma f0c phi : f0 phi = c0 phi 0. Proof. unfold f0, c0. cbn [INR]. rewrite Rmult_0_l, cos_0. apply v3_eq; cbn; ring. Qed.
Lemma f1c phi : f1 phi = c1 phi 0. Proof. unfold f1, c1. cbn [INR]. rewrite Rmult_0_l, cos_0, sin_0. apply v3_eq; cbn; ring. Qed.
Lemma f2c phi : f2 phi = c2 phi 0. Proof. unfold f2, c2. cbn [INR]. rewrite Rmult_0_l, cos_0, sin_0. apply v3_eq; cbn; ring. Qed.
Lemma f3c phi : f3 phi = c3 phi 0. Proof. unfold f3, c3. cbn [INR]. rewrite Rmult_0_l, cos_0, sin_0. apply v3_eq; cbn; ring. Qed.
Lemma sum3_dir {A} (f : A -> R) (l : list A) e : sum3 (map (fun a => scal3 (f a) e) l) = scal3 (rsuml (map f l)) e.
Proof. induction l as [|a l IH]; cbn [map sum3 rsuml]; [apply v3_eq; cbn; ring|]. rewrite IH. apply v3_eq; cbn [vx vy vz add3 scal3]; ring. Qed.
Lemma plane_polar p phi : plane o (f0 phi) (c0 phi) (s0 phi) p = scal3 (polar_radius o p phi) (V3 (cos phi) (sin phi) 0).
Proof.
  rewrite plane_sum by apply f0c. unfold polar_radius.
  rewrite (sum3_ext _ (fun i => scal3 (nth i (prc p) 0 * cos (INR i * phi)) (V3 (cos phi) (sin phi) 0))) by (intros i _; apply v3_eq; cbn [c0 vx vy vz scal3]; ring).
  rewrite (sum3_ext (fun i => scal3 (nth (i - 1) (prs p) 0) (s0 phi i)) (fun i => scal3 (nth (i - 1) (prs p) 0 * sin (INR i * phi)) (V3 (cos phi) (sin phi) 0))) by (intros i _; apply v3_eq; cbn [s0 vx vy vz scal3]; ring).
  rewrite !sum3_dir. apply v3_eq; cbn [vx vy vz add3 scal3]; ring.
Qed.
(** the documented curve: the polar curve, rotated, then moved to the center *)
Theorem C70_gamma_is_the_documented_curve p t : let phi := 2 * PI * t in
  pl_gamma o p t = add3 (pcenter p) (rot (q_norm (pq p)) (V3 (polar_radius o p phi * cos phi) (polar_radius o p phi * sin phi) 0)).
Proof. cbv zeta. unfold pl_gamma. rewrite plane_polar, add3_comm. f_equal. f_equal. apply v3_eq; cbn [vx vy vz scal3]; ring. Qed.
Lemma q_norm_cases q : mag2 (q_norm q) = 1 \/ q = Q4 0 0 0 0.
Proof.
  destruct (Req_dec (mag2 q) 0) as [Z|NZ].
  - right. destruct q as [a b d e]. unfold mag2 in Z. cbn in Z. assert (a = 0 /\ b = 0 /\ d = 0 /\ e = 0) by (repeat split; nra). destruct H as (-> & -> & -> & ->). reflexivity.
  - left. apply norm_unit. intros ->. apply NZ. unfold mag2. cbn. ring.
Qed.
(** the curve lies in the plane through the center whose normal is the rotated z axis, and its distance to the center is |r| *)
Theorem C70_planar p t : let n := rot (q_norm (pq p)) (V3 0 0 1) in
  normsq n = 1 /\ dot3 n (sub3 (pl_gamma o p t) (pcenter p)) = 0 /\ normsq (sub3 (pl_gamma o p t) (pcenter p)) = polar_radius o p (2 * PI * t) * polar_radius o p (2 * PI * t).
Proof.
  cbv zeta. rewrite C70_gamma_is_the_documented_curve. set (r := polar_radius _ _ _). set (phi := 2 * PI * t). set (w := V3 (r * cos phi) (r * sin phi) 0).
  assert (E : sub3 (add3 (pcenter p) (rot (q_norm (pq p)) w)) (pcenter p) = rot (q_norm (pq p)) w) by (apply v3_eq; cbn [vx vy vz add3 sub3]; ring). rewrite E.
  assert (RD : forall a b, dot3 (rot (q_norm (pq p)) a) (rot (q_norm (pq p)) b) = dot3 a b).
  { intros a b. destruct (q_norm_cases (pq p)) as [U| ->]; [now apply rot_dot|]. now rewrite !C70_zero_quaternion_is_no_rotation. }
  unfold normsq. rewrite !RD. unfold w, dot3. cbn [vx vy vz]. pose proof (sin2_cos2 phi) as SC. unfold Rsqr in SC. repeat split; [ring|ring|].
  transitivity (r * r * (sin phi * sin phi + cos phi * cos phi)); [ring|]. rewrite SC. ring.
Qed.

(** ** dofs *)
Theorem C70_set_then_get x : length x = pl_num_dofs o -> pl_get_dofs o (pl_set_dofs o x) = x /\ pl_wf o (pl_set_dofs o x).
Proof.
  intros L. unfold pl_num_dofs in L. split; [|unfold pl_wf, pl_set_dofs; cbn [prc prs]; rewrite !slice_length; auto]. unfold pl_get_dofs, pl_set_dofs. cbn [prc prs pq pcenter q0 q1 q2 q3 vx vy vz].
  rewrite !all_nth by apply slice_length. transitivity (slice x 0 (o + 1) ++ slice x (o + 1) o ++ slice x (o + 1 + o) 7).
  - f_equal. f_equal. unfold slice. cbn [seq map]. rewrite Nat.add_0_r. reflexivity.
  - rewrite slice_app, (slice_app x 0 (o + 1) _ : slice x 0 (o + 1) ++ slice x (o + 1) _ = _). replace (o + 1 + (o + 7))%nat with (length x) by lia. apply slice_all.
Qed.
Theorem C70_get_then_set p : pl_wf o p -> pl_set_dofs o (pl_get_dofs o p) = p.
Proof.
  intros [A B]. unfold pl_get_dofs. rewrite !all_nth by auto. destruct p as [rc rs q c]. cbn [prc prs pq pcenter] in *. unfold pl_set_dofs.
  assert (N : forall k, nth (o + 1 + o + k) (rc ++ rs ++ [q0 q; q1 q; q2 q; q3 q] ++ [vx c; vy c; vz c]) 0 = nth k [q0 q; q1 q; q2 q; q3 q; vx c; vy c; vz c] 0).
  { intros k. rewrite app_nth2 by lia. rewrite app_nth2 by lia. cbn [app]. f_equal. lia. }
  assert (N0 := N 0%nat). rewrite Nat.add_0_r in N0. rewrite N0, !N. cbn [nth]. f_equal; [| |destruct q; reflexivity|destruct c; reflexivity].
  - unfold slice. apply (nth_ext _ _ 0 0); [now rewrite map_length, seq_length|]. intros m Hm. rewrite map_length, seq_length in Hm. rewrite nth_map_seq by auto. cbn [Nat.add]. rewrite app_nth1 by lia. reflexivity.
  - unfold slice. apply (nth_ext _ _ 0 0); [now rewrite map_length, seq_length|]. intros m Hm. rewrite map_length, seq_length in Hm. rewrite nth_map_seq by auto. rewrite app_nth2 by lia. rewrite app_nth1 by lia. f_equal. lia.
Qed.

(** ** Derivatives along the curve *)
Lemma D3_rot n f t f' : D3 f t f' -> D3 (fun t => rot n (f t)) t (rot n f').
Proof.
  intros (A & B & C). split; [|split]; cbn [rot vx vy vz]; (eapply D_val; [|dgo]); cbv beta; ring.
Qed.
Lemma D_plane c s c' s' p t : (forall i, D3 (fun t => c (2 * PI * t) i) t (scal3 (2 * PI) (c' (2 * PI * t) i))) -> (forall i, D3 (fun t => s (2 * PI * t) i) t (scal3 (2 * PI) (s' (2 * PI * t) i))) ->
  forall first first', (forall phi, first phi = c phi 0%nat) -> (forall phi, first' phi = c' phi 0%nat) ->
  D3 (fun t => plane o (first (2 * PI * t)) (c (2 * PI * t)) (s (2 * PI * t)) p) t (scal3 (2 * PI) (plane o (first' (2 * PI * t)) (c' (2 * PI * t)) (s' (2 * PI * t)) p)).
Proof.
  intros Hc Hs first first' E E'. eapply D3_ext; [intros u; symmetry; apply plane_sum, E|]. rewrite plane_sum by apply E'. rewrite scal3_add, <- !sum3_scal, !map_map. apply D3_add.
  - apply (D3_sum (seq 0 (o + 1)) (fun i t => scal3 (nth i (prc p) 0) (c (2 * PI * t) i)) (fun i => scal3 (2 * PI) (scal3 (nth i (prc p) 0) (c' (2 * PI * t) i)))). intros i _.
    rewrite scal3_scal, (Rmult_comm (2 * PI)), <- scal3_scal. apply D3_scalc. apply Hc.
  - apply (D3_sum (seq 1 o) (fun i t => scal3 (nth (i - 1) (prs p) 0) (s (2 * PI * t) i)) (fun i => scal3 (2 * PI) (scal3 (nth (i - 1) (prs p) 0) (s' (2 * PI * t) i)))). intros i _.
    rewrite scal3_scal, (Rmult_comm (2 * PI)), <- scal3_scal. apply D3_scalc. apply Hs.
Qed.
Ltac dd := lazymatch goal with
  | |- D (fun t => cos (?a * (2 * PI * t))) _ _ => apply D_cosw
  | |- D (fun t => sin (?a * (2 * PI * t))) _ _ => apply D_sinw
  | |- D (fun t => cos (2 * PI * t)) _ _ => apply D_cosp
  | |- D (fun t => sin (2 * PI * t)) _ _ => apply D_sinp
  | |- D (fun t => @?f t + @?g t) _ _ => apply (D_add f g); dd
  | |- D (fun t => @?f t - @?g t) _ _ => apply (D_sub f g); dd
  | |- D (fun t => @?f t * @?g t) _ _ => apply (D_mul f g); dd
  | |- D (fun t => - @?f t) _ _ => apply (D_opp f); dd
  | |- D (fun _ => ?c) _ _ => apply (D_const c)
  end.
Ltac db := intros i; (split; [|split]); unfold c0, c1, c2, c3, s0, s1, s2, s3; cbn [vx vy vz scal3]; (eapply D_val; [|dd]); cbv beta; ring.
Theorem C70_derivatives_along_the_curve p t :
  D3 (pl_gamma o p) t (pl_gammadash o p t) /\ D3 (pl_gammadash o p) t (pl_gammadashdash o p t) /\ D3 (pl_gammadashdash o p) t (pl_gammadashdashdash o p t).
Proof.
  unfold pl_gamma, pl_gammadash, pl_gammadashdash, pl_gammadashdashdash. cbv zeta. split; [|split].
  - eapply D3_val; [|apply D3_add; [apply D3_rot, (D_plane c0 s0 c1 s1) with (first' := f1); [db|db|apply f0c|apply f1c]|apply D3_const]]. apply add3_0_r.
  - eapply D3_val; [|apply D3_rot, D3_scalc, (D_plane c1 s1 c2 s2) with (first' := f2); [db|db|apply f1c|apply f2c]]. rewrite scal3_scal. do 2 f_equal. ring.
  - eapply D3_val; [|apply D3_rot, D3_scalc, (D_plane c2 s2 c3 s3) with (first' := f3); [db|db|apply f2c|apply f3c]]. rewrite scal3_scal. do 2 f_equal. ring.
Qed.

(** ** Derivatives by the dofs *)
Lemma q_norm_eq q : let r := 1 / sqrt (mag2 q) in q_norm q = Q4 (q0 q * r) (q1 q * r) (q2 q * r) (q3 q * r).
Proof.
  cbv zeta. unfold q_norm, inv_magnitude. fold (mag2 q). destruct (Req_EM_T (mag2 q) 0) as [Z|NZ]; [|reflexivity].
  assert (q = Q4 0 0 0 0). { destruct q as [a b d e]. unfold mag2 in Z. cbn in Z. assert (a = 0 /\ b = 0 /\ d = 0 /\ e = 0) by (repeat split; nra). destruct H as (-> & -> & -> & ->). reflexivity. }
  subst q. cbn [q0 q1 q2 q3]. now rewrite !Rmult_0_l.
Qed.
Definition qline (a w : quat) (s : R) : quat := Q4 (q0 a + s * q0 w) (q1 a + s * q1 w) (q2 a + s * q2 w) (q3 a + s * q3 w).
Definition dnorm (a w : quat) (l : nat) : R := rsuml (map (fun c => qn w c * factor a l c) (seq 0 4)).
Lemma qline0 a w : qline a w 0 = a. Proof. destruct a as [a b c d]. unfold qline. cbn [q0 q1 q2 q3]. f_equal; ring. Qed.
Lemma D_q_norm a w l : (l < 4)%nat -> nonzero a -> D (fun s => qn (q_norm (qline a w s)) l) 0 (dnorm a w l).
Proof.
  intros Hl N. assert (P := mag2_pos a N). assert (R0 : sqrt (mag2 a) <> 0) by (apply Rgt_not_eq, sqrt_lt_R0; auto).
  assert (DM : D (fun s => mag2 (qline a w s)) 0 (2 * (q0 a * q0 w + q1 a * q1 w + q2 a * q2 w + q3 a * q3 w))).
  { unfold mag2, qline. cbn [q0 q1 q2 q3]. eapply D_val; [|dgo]. cbv beta. ring. }
  assert (DR := D_div (fun _ => 1) _ 0 _ _ (D_const 1 0) (D_sqrt _ 0 _ DM (eq_ind_r (fun z => 0 < mag2 z) P (qline0 a w)))). cbv beta in DR. rewrite !qline0 in DR. specialize (DR R0).
  assert (I3 : inv_magnitude a = / sqrt (mag2 a)) by (rewrite inv_pos by auto; unfold Rdiv; ring).
  assert (DQ : forall x y, D (fun s => (x + s * y) * (1 / sqrt (mag2 (qline a w s)))) 0 (y * / sqrt (mag2 a) - x * (q0 a * q0 w + q1 a * q1 w + q2 a * q2 w + q3 a * q3 w) * (/ sqrt (mag2 a) * / sqrt (mag2 a) * / sqrt (mag2 a)))).
  { intros x y. eapply D_val; [|apply (D_mul (fun s => x + s * y)); [dgo|exact DR]]. cbv beta. rewrite !qline0. field. auto. }
  assert (EQ : forall s, q_norm (qline a w s) = let r := 1 / sqrt (mag2 (qline a w s)) in Q4 ((q0 a + s * q0 w) * r) ((q1 a + s * q1 w) * r) ((q2 a + s * q2 w) * r) ((q3 a + s * q3 w) * r)) by (intros s; apply q_norm_eq).
  destruct l as [|[|[|[|l]]]]; [| | | |lia]; (eapply D_ext; [intros s; rewrite EQ; cbv zeta; cbn [qn q0 q1 q2 q3]; reflexivity|]; (eapply D_val; [|apply DQ]));
    unfold dnorm, factor; change (seq 0 4) with [0; 1; 2; 3]%nat; cbn [map rsuml qn Nat.eqb]; rewrite I3; ring.
Qed.
Lemma dnorm_tangent a w : nonzero a -> qn (q_norm a) 0 * dnorm a w 0 + qn (q_norm a) 1 * dnorm a w 1 + qn (q_norm a) 2 * dnorm a w 2 + qn (q_norm a) 3 * dnorm a w 3 = 0.
Proof.
  intros N. pose proof (inv_sq a N) as E. unfold dnorm, factor, q_norm. change (seq 0 4) with [0; 1; 2; 3]%nat. cbn [map rsuml qn Nat.eqb q0 q1 q2 q3]. unfold mag2 in E. set (r := inv_magnitude a) in *. clearbody r. clear N.
  destruct a as [a b c d], w as [x y z u]. cbn [q0 q1 q2 q3] in *.
  transitivity (r * r * (a * x + b * y + c * z + d * u) * (1 - r * r * (a * a + b * b + c * c + d * d))); [ring|]. rewrite E. ring.
Qed.
(** the derivative of the rotation by its quaternion; k is the common multiple of the components in [part] *)
Definition drot (n : quat) (i j : R) (l : nat) : vec3 := match l with
  | 0%nat => V3 (- 2 * q3 n * j) (2 * q3 n * i) (- 2 * q2 n * i + 2 * q1 n * j)
  | 1%nat => V3 (2 * q2 n * j) (2 * q2 n * i - 4 * q1 n * j) (2 * q3 n * i + 2 * q0 n * j)
  | 2%nat => V3 (- 4 * q2 n * i + 2 * q1 n * j) (2 * q1 n * i) (- 2 * q0 n * i + 2 * q3 n * j)
  | _ => V3 (- 4 * q3 n * i - 2 * q0 n * j) (2 * q0 n * i - 4 * q3 n * j) (2 * q1 n * i + 2 * q2 n * j) end.
Definition kk (n : quat) (i j : R) : vec3 :=
  V3 (4 * i * (q2 n * q2 n + q3 n * q3 n) - 4 * j * (q1 n * q2 n - q0 n * q3 n)) (- 4 * i * (q1 n * q2 n + q3 n * q0 n) + 4 * j * (q1 n * q1 n + q3 n * q3 n)) (- 4 * i * (q1 n * q3 n - q2 n * q0 n) - 4 * j * (q1 n * q0 n + q2 n * q3 n)).
Lemma part_drot n i j l : (l < 4)%nat -> mag2 n = 1 -> part n i j l = add3 (drot n i j l) (scal3 (qn n l) (kk n i j)).
Proof.
  intros Hl M. destruct n as [a b c d]. unfold mag2 in M. cbn [q0 q1 q2 q3] in M. assert (E : a * a + b * b = 1 - c * c - d * d) by lra. assert (E' : b * b + a * a = 1 - c * c - d * d) by lra.
  destruct l as [|[|[|[|l]]]]; [| | | |lia]; unfold part, drot, kk; cbn [q0 q1 q2 q3 qn]; apply v3_eq; cbn [add3 scal3 vx vy vz]; rewrite ?E, ?E'; ring.
Qed.
Lemma D3_rotq a w p p' : nonzero a -> D3 p 0 p' -> (forall s, vz (p s) = 0) ->
  D3 (fun s => rot (q_norm (qline a w s)) (p s)) 0 (add3 (rot (q_norm a) p') (sum3 (map (fun c => scal3 (qn w c) (quat_column a (p 0) c)) (seq 0 4)))).
Proof.
  intros N (A & B & C) Z.
  assert (E : sum3 (map (fun c => scal3 (qn w c) (quat_column a (p 0) c)) (seq 0 4)) =
    add3 (add3 (scal3 (dnorm a w 0) (drot (q_norm a) (vx (p 0)) (vy (p 0)) 0)) (scal3 (dnorm a w 1) (drot (q_norm a) (vx (p 0)) (vy (p 0)) 1)))
         (add3 (scal3 (dnorm a w 2) (drot (q_norm a) (vx (p 0)) (vy (p 0)) 2)) (scal3 (dnorm a w 3) (drot (q_norm a) (vx (p 0)) (vy (p 0)) 3)))).
  { transitivity (add3 (add3 (scal3 (dnorm a w 0) (part (q_norm a) (vx (p 0)) (vy (p 0)) 0)) (scal3 (dnorm a w 1) (part (q_norm a) (vx (p 0)) (vy (p 0)) 1)))
         (add3 (scal3 (dnorm a w 2) (part (q_norm a) (vx (p 0)) (vy (p 0)) 2)) (scal3 (dnorm a w 3) (part (q_norm a) (vx (p 0)) (vy (p 0)) 3)))).
    - unfold quat_column, dnorm. change (seq 0 4) with [0; 1; 2; 3]%nat. cbn [map rsuml sum3]. generalize (part (q_norm a) (vx (p 0)) (vy (p 0))) (factor a). intros P F. apply v3_eq; cbn [add3 scal3 vx vy vz v0]; ring.
    - rewrite !part_drot by (auto; try lia; now apply norm_unit). pose proof (dnorm_tangent a w N) as T. set (K := kk _ _ _). generalize (drot (q_norm a) (vx (p 0)) (vy (p 0))) . intros d.
      revert T. generalize (dnorm a w) (qn (q_norm a)). intros e n T.
      transitivity (add3 (add3 (add3 (scal3 (e 0%nat) (d 0%nat)) (scal3 (e 1%nat) (d 1%nat))) (add3 (scal3 (e 2%nat) (d 2%nat)) (scal3 (e 3%nat) (d 3%nat)))) (scal3 (n 0%nat * e 0%nat + n 1%nat * e 1%nat + n 2%nat * e 2%nat + n 3%nat * e 3%nat) K)); [apply v3_eq; cbn [add3 scal3 vx vy vz]; ring|].
      rewrite T. apply v3_eq; cbn [add3 scal3 vx vy vz]; ring. }
  rewrite E. clear E.
  assert (Q0 := D_q_norm a w 0 ltac:(lia) N). assert (Q1 := D_q_norm a w 1 ltac:(lia) N). assert (Q2 := D_q_norm a w 2 ltac:(lia) N). assert (Q3 := D_q_norm a w 3 ltac:(lia) N). cbn [qn] in Q0, Q1, Q2, Q3.
  assert (Z' : vz p' = 0). { apply (uniqueness_limite (fun s => vz (p s)) 0); [exact C|]. eapply D_ext; [intros s; symmetry; apply Z|]. apply D_const. }
  generalize dependent (dnorm a w). intros e Q0 Q1 Q2 Q3. assert (Z0 := Z 0).
  split; [|split]; unfold rot; cbn [vx vy vz]; (eapply D_val; [|dgo]); cbv beta; rewrite ?qline0, Z0; cbn [add3 scal3 drot vx vy vz]; rewrite ?Z'; ring.
Qed.
Lemma plane_z first c s p : vz first = 0 -> (forall i, vz (c i) = 0) -> (forall i, vz (s i) = 0) -> vz (plane o first c s p) = 0.
Proof.
  intros F C S. unfold plane. rewrite accum_sum. cbn [add3 vz scal3]. rewrite F. induction (seq 1 o) as [|i l IH]; cbn [map sum3 add3 scal3 vz v0]; [ring|]. rewrite C, S. lra.
Qed.
(** contraction of the numbers from position a with a list of columns *)
Definition dirs (a : nat) (v : list R) (L : list vec3) : vec3 := sum3 (map (fun m => scal3 (nth (a + m) v 0) (nth m L v0)) (seq 0 (length L))).
Lemma dirs_app a v L M : dirs a v (L ++ M) = add3 (dirs a v L) (dirs (a + length L) v M).
Proof.
  unfold dirs. rewrite app_length, seq_app, map_app, sum3_app. f_equal.
  - apply sum3_ext. intros m Hm. apply in_seq in Hm. rewrite app_nth1 by lia. reflexivity.
  - cbn [Nat.add]. replace (seq (length L) (length M)) with (map (fun q => (length L + q)%nat) (seq 0 (length M))) by (rewrite seq_map_add; f_equal; lia). rewrite map_map. apply sum3_ext. intros m _. rewrite app_nth2 by lia. do 2 f_equal; [|f_equal]; lia.
Qed.
Lemma dirs_map a v (f : nat -> vec3) b n : dirs a v (map f (seq b n)) = sum3 (map (fun i => scal3 (nth (a + (i - b)) v 0) (f i)) (seq b n)).
Proof.
  unfold dirs. rewrite map_length, seq_length. transitivity (sum3 (map (fun m => scal3 (nth (a + m) v 0) (f (b + m)%nat)) (seq 0 n))).
  - apply sum3_ext. intros m Hm. apply in_seq in Hm. f_equal. rewrite (nth_indep _ v0 (f 0%nat)) by (rewrite map_length, seq_length; lia). rewrite map_nth, seq_nth by lia. reflexivity.
  - replace (seq b n) with (map (fun q => (b + q)%nat) (seq 0 n)) by (rewrite seq_map_add; f_equal; lia). rewrite map_map. apply sum3_ext. intros m Hm. replace (b + m - b)%nat with m by lia. reflexivity.
Qed.
Let N := pl_num_dofs o.
Lemma pl_gradient k first c s e x (G : planar -> vec3) (H : vec3 -> vec3) : length x = N -> nonzero (pq (pl_set_dofs o x)) -> first = c 0%nat -> (forall i, vz (c i) = 0) -> (forall i, vz (s i) = 0) -> length e = 3%nat ->
  (forall p, G p = add3 (rot (q_norm (pq p)) (scal3 k (plane o first c s p))) (H (pcenter p))) ->
  (forall a w, D3 (fun t => H (add3 a (scal3 t w))) 0 (sum3 [scal3 (vx w) (nth 0 e v0); scal3 (vy w) (nth 1 e v0); scal3 (vz w) (nth 2 e v0)])) ->
  gradient3 N (fun x => G (pl_set_dofs o x)) x (fun m => nth m (pl_columns o k first c s e (pl_set_dofs o x)) v0).
Proof.
  intros L NZ F Zc Zs Le EG HH v Lv. set (p := pl_set_dofs o x) in *. set (w := pl_set_dofs o v).
  assert (EM : forall t, pl_set_dofs o (move x v t) = PL (slice (move x v t) 0 (o + 1)) (slice (move x v t) (o + 1) o) (qline (pq p) (pq w) t) (add3 (pcenter p) (scal3 t (pcenter w)))).
  { intros t. unfold p, w, pl_set_dofs at 1. cbv zeta. rewrite !move_nth by (unfold N in *; congruence). f_equal. }
  assert (SL : dir N v (fun m => nth m (pl_columns o k first c s e p) v0) = dirs 0 v (pl_columns o k first c s e p)).
  { unfold dir, dirs. f_equal. f_equal. f_equal. unfold pl_columns. rewrite !app_length, !map_length, !seq_length. rewrite Le. unfold N, pl_num_dofs. lia. }
  rewrite SL. clear SL. unfold pl_columns. cbv zeta. rewrite !dirs_app, !dirs_map, !map_length, !seq_length. cbn [Nat.add].
  apply (D3_ext (fun t => add3 (rot (q_norm (qline (pq p) (pq w) t)) (scal3 k (plane o first c s (PL (slice (move x v t) 0 (o + 1)) (slice (move x v t) (o + 1) o) (qline (pq p) (pq w) t) (add3 (pcenter p) (scal3 t (pcenter w))))))) (H (add3 (pcenter p) (scal3 t (pcenter w)))))); [intros t; now rewrite EG, EM|].
  eapply D3_val; [|apply D3_add; [apply (D3_rotq (pq p) (pq w) (fun t => scal3 k (plane o first c s (PL (slice (move x v t) 0 (o + 1)) (slice (move x v t) (o + 1) o) (qline (pq p) (pq w) t) (add3 (pcenter p) (scal3 t (pcenter w)))))));
    [exact NZ| |intros t; cbn [vz scal3]; rewrite plane_z by (try rewrite F; auto); ring]|apply HH]].
  2:{ apply D3_scalc. eapply D3_ext; [intros t; symmetry; apply plane_sum; exact F|]. cbn [prc prs]. apply D3_add.
      - apply (D3_sum (seq 0 (o + 1)) (fun i t => scal3 (nth i (slice (move x v t) 0 (o + 1)) 0) (c i)) (fun i => scal3 (nth i v 0) (c i))). intros i Hi. apply in_seq in Hi.
        assert (EN : forall t, nth i (slice (move x v t) 0 (o + 1)) 0 = nth i x 0 + t * nth i v 0) by (intros t; unfold slice; rewrite nth_map_seq by lia; cbn [Nat.add]; apply move_nth; unfold N in *; congruence).
        eapply D3_ext; [intros t; rewrite EN; reflexivity|].
        eapply D3_val; [|apply (D3_scal (fun t => nth i x 0 + t * nth i v 0)); [dgo|apply D3_const]]. apply v3_eq; cbn [vx vy vz add3 scal3 v0]; ring.
      - apply (D3_sum (seq 1 o) (fun i t => scal3 (nth (i - 1) (slice (move x v t) (o + 1) o) 0) (s i)) (fun i => scal3 (nth (o + 1 + (i - 1)) v 0) (s i))). intros i Hi. apply in_seq in Hi.
        assert (EN : forall t, nth (i - 1) (slice (move x v t) (o + 1) o) 0 = nth (o + 1 + (i - 1)) x 0 + t * nth (o + 1 + (i - 1)) v 0) by (intros t; unfold slice; rewrite nth_map_seq by lia; apply move_nth; unfold N in *; congruence).
        eapply D3_ext; [intros t; rewrite EN; reflexivity|].
        eapply D3_val; [|apply (D3_scal (fun t => nth (o + 1 + (i - 1)) x 0 + t * nth (o + 1 + (i - 1)) v 0)); [dgo|apply D3_const]]. apply v3_eq; cbn [vx vy vz add3 scal3 v0]; ring. }
  cbv beta.
  assert (P0 : plane o first c s (PL (slice (move x v 0) 0 (o + 1)) (slice (move x v 0) (o + 1) o) (qline (pq p) (pq w) 0) (add3 (pcenter p) (scal3 0 (pcenter w)))) = plane o first c s p).
  { rewrite <- EM. f_equal. unfold p. f_equal. unfold move. assert (LL : length x = length v) by (unfold N in *; congruence). clear - LL. revert v LL. induction x as [|a x IH]; intros [|b v] LL; try discriminate; [reflexivity|]. cbn [vmap2]. rewrite IH by (cbn in LL; lia). f_equal. ring. }
  rewrite P0. rewrite scal3_add, rot_lin1, <- !sum3_scal, !rot_sum, !map_map. rewrite <- !add3_assoc. f_equal; [|f_equal; [|f_equal]].
  - apply sum3_ext. intros i Hi. rewrite !rot_lin2, !scal3_scal, Nat.sub_0_r. f_equal. ring.
  - apply sum3_ext. intros i Hi. rewrite !rot_lin2, !scal3_scal. f_equal. ring.
  - apply sum3_ext. intros i Hi. apply in_seq in Hi. f_equal. unfold w, pl_set_dofs. cbn [pq]. destruct i as [|[|[|[|i]]]]; [| | | |lia]; cbn [qn q0 q1 q2 q3]; f_equal; lia.
  - unfold dirs. rewrite Le. change (seq 0 3) with [0; 1; 2]%nat. cbn [map]. unfold w, pl_set_dofs. cbn [pcenter vx vy vz sum3]. f_equal; [|f_equal; [|f_equal]]; f_equal; f_equal; lia.
Qed.
Theorem C70_derivatives_by_dofs x t : length x = N -> nonzero (pq (pl_set_dofs o x)) ->
  gradient3 N (fun x => pl_gamma o (pl_set_dofs o x) t) x (fun m => nth m (pl_dgamma o (pl_set_dofs o x) t) v0) /\
  gradient3 N (fun x => pl_gammadash o (pl_set_dofs o x) t) x (fun m => nth m (pl_dgammadash o (pl_set_dofs o x) t) v0) /\
  gradient3 N (fun x => pl_gammadashdash o (pl_set_dofs o x) t) x (fun m => nth m (pl_dgammadashdash o (pl_set_dofs o x) t) v0) /\
  gradient3 N (fun x => pl_gammadashdashdash o (pl_set_dofs o x) t) x (fun m => nth m (pl_dgammadashdashdash o (pl_set_dofs o x) t) v0).
Proof.
  intros L NZ. assert (H0 : forall a w : vec3, D3 (fun t => (fun _ => v0) (add3 a (scal3 t w))) 0 (sum3 [scal3 (vx w) (nth 0 [v0; v0; v0] v0); scal3 (vy w) (nth 1 [v0; v0; v0] v0); scal3 (vz w) (nth 2 [v0; v0; v0] v0)])).
  { intros a w. eapply D3_val; [|apply D3_const]. apply v3_eq; cbn; ring. }
  split; [|split; [|split]].
  - apply (pl_gradient 1 (f0 (2 * PI * t)) (c0 (2 * PI * t)) (s0 (2 * PI * t)) (map unit3 (seq 0 3)) x (fun p => pl_gamma o p t) (fun c => c)); auto; [apply f0c| |].
    + intros p. unfold pl_gamma. cbv zeta. f_equal. f_equal. apply v3_eq; cbn [vx vy vz scal3]; ring.
    + intros a w. eapply D3_val; [|apply D3_add; [apply D3_const|apply (D3_scal (fun t => t)); [dgo|apply D3_const]]]. apply v3_eq; cbn; ring.
  - apply (pl_gradient (2 * PI) (f1 (2 * PI * t)) (c1 (2 * PI * t)) (s1 (2 * PI * t)) [v0; v0; v0] x (fun p => pl_gammadash o p t) (fun _ => v0)); auto; [apply f1c|intros p; symmetry; apply add3_0_r].
  - apply (pl_gradient (2 * PI * 2 * PI) (f2 (2 * PI * t)) (c2 (2 * PI * t)) (s2 (2 * PI * t)) [v0; v0; v0] x (fun p => pl_gammadashdash o p t) (fun _ => v0)); auto; [apply f2c|intros p; symmetry; apply add3_0_r].
  - apply (pl_gradient (2 * PI * 2 * PI * 2 * PI) (f3 (2 * PI * t)) (c3 (2 * PI * t)) (s3 (2 * PI * t)) [v0; v0; v0] x (fun p => pl_gammadashdashdash o p t) (fun _ => v0)); auto; [apply f3c|intros p; symmetry; apply add3_0_r].
Qed.

(** at the zero quaternion (the state of a fresh curve) the curve is not a differentiable function of the dofs *)
Lemma jump_not_D (F : R -> R) m l : 0 < m -> F 0 = m -> (forall s, s <> 0 -> F s = - m) -> ~ D F 0 l.
Proof.
  intros Hm F0 F1 HD. destruct (HD m Hm) as [d Hd]. pose (h := Rmin (d / 2) 1). assert (P : 0 < h <= 1) by (unfold h; destruct d as [d P]; cbn; unfold Rmin; destruct (Rle_dec _ _); lra).
  assert (Q : h < d) by (unfold h; destruct d as [d P']; cbn; unfold Rmin; destruct (Rle_dec _ _); lra).
  assert (A := Hd h ltac:(lra) ltac:(rewrite Rabs_pos_eq; lra)). assert (B := Hd (- h) ltac:(lra) ltac:(rewrite Rabs_Ropp, Rabs_pos_eq; lra)).
  rewrite !Rplus_0_l, F0, F1 in A by lra. rewrite !Rplus_0_l, F0, F1 in B by lra.
  replace ((- m - m) / h) with (- (2 * m * / h)) in A by (field; lra). replace ((- m - m) / - h) with (2 * m * / h) in B by (field; lra).
  assert (1 <= / h) by (rewrite <- Rinv_1; apply Rinv_le_contravar; lra). assert (m <= m * / h) by nra. apply Rabs_def2 in A. apply Rabs_def2 in B. lra.
Qed.
Definition e_q3 : list R := repeat 0 (2 * o + 4) ++ [1; 0; 0; 0].
Theorem C70_zero_quaternion_not_differentiable x t : length x = N -> pq (pl_set_dofs o x) = Q4 0 0 0 0 -> polar_radius o (pl_set_dofs o x) (2 * PI * t) <> 0 ->
  ~ exists C, gradient3 N (fun x => pl_gamma o (pl_set_dofs o x) t) x C.
Proof.
  intros L Z NZ [C G]. assert (LE : length e_q3 = N) by (unfold e_q3, N, pl_num_dofs; rewrite app_length, repeat_length; cbn [length]; lia). specialize (G e_q3 LE).
  assert (NE : forall m, nth m e_q3 0 = if (m =? 2 * o + 4)%nat then 1 else 0).
  { intros m. unfold e_q3. destruct (Nat.eqb_spec m (2 * o + 4)) as [->|H].
    - rewrite app_nth2, repeat_length, Nat.sub_diag by (rewrite repeat_length; lia). reflexivity.
    - destruct (Nat.lt_ge_cases m (2 * o + 4)); [rewrite app_nth1 by (rewrite repeat_length; lia); now rewrite nth_repeat|]. rewrite app_nth2, repeat_length by (rewrite repeat_length; lia).
      destruct (m - (2 * o + 4))%nat as [|[|[|[|k]]]] eqn:E; [lia|reflexivity..|]. cbn. destruct k; reflexivity. }
  assert (MV : forall s m, nth m (move x e_q3 s) 0 = nth m x 0 + (if (m =? 2 * o + 4)%nat then s else 0)).
  { intros s m. rewrite move_nth by congruence. rewrite NE. destruct (m =? 2 * o + 4)%nat; ring. }
  set (p := pl_set_dofs o x) in *.
  assert (SET : forall s, pl_set_dofs o (move x e_q3 s) = PL (prc p) (prs p) (Q4 0 0 0 s) (pcenter p)).
  { intros s. unfold pl_set_dofs. cbv zeta. rewrite !MV. 
    replace (o + 1 + o =? 2 * o + 4)%nat with false by (symmetry; apply Nat.eqb_neq; lia). replace (o + 1 + o + 1 =? 2 * o + 4)%nat with false by (symmetry; apply Nat.eqb_neq; lia).
    replace (o + 1 + o + 2 =? 2 * o + 4)%nat with false by (symmetry; apply Nat.eqb_neq; lia). replace (o + 1 + o + 3 =? 2 * o + 4)%nat with true by (symmetry; apply Nat.eqb_eq; lia).
    replace (o + 1 + o + 4 =? 2 * o + 4)%nat with false by (symmetry; apply Nat.eqb_neq; lia). replace (o + 1 + o + 5 =? 2 * o + 4)%nat with false by (symmetry; apply Nat.eqb_neq; lia). replace (o + 1 + o + 6 =? 2 * o + 4)%nat with false by (symmetry; apply Nat.eqb_neq; lia).
    rewrite !Rplus_0_r. pose proof (f_equal q0 Z) as Z0. pose proof (f_equal q1 Z) as Z1. pose proof (f_equal q2 Z) as Z2. pose proof (f_equal q3 Z) as Z3. unfold p, pl_set_dofs in Z0, Z1, Z2, Z3. cbn [pq q0 q1 q2 q3] in Z0, Z1, Z2, Z3. rewrite Z0, Z1, Z2, Z3, Rplus_0_l.
    unfold p, pl_set_dofs. cbn [prc prs pcenter]. f_equal; unfold slice; apply map_ext_in; intros i Hi; apply in_seq in Hi; rewrite MV; replace (_ =? 2 * o + 4)%nat with false by (symmetry; apply Nat.eqb_neq; lia); ring. }
  set (r := polar_radius o p (2 * PI * t)) in *. set (w := V3 (r * cos (2 * PI * t)) (r * sin (2 * PI * t)) 0).
  assert (V : forall s, pl_gamma o (pl_set_dofs o (move x e_q3 s)) t = add3 (pcenter p) (rot (q_norm (Q4 0 0 0 s)) w)) by (intros s; rewrite SET, C70_gamma_is_the_documented_curve; reflexivity).
  assert (W : normsq w = r * r). { unfold normsq, dot3, w. cbn [vx vy vz]. pose proof (sin2_cos2 (2 * PI * t)) as SC. unfold Rsqr in SC. transitivity (r * r * (sin (2 * PI * t) * sin (2 * PI * t) + cos (2 * PI * t) * cos (2 * PI * t))); [ring|]. rewrite SC. ring. }
  assert (G2 := D_dot _ (fun _ => w) 0 _ _ (D3_sub _ (fun _ => pcenter p) 0 _ _ G (D3_const _ 0)) (D3_const w 0)). cbv beta in G2.
  revert G2. apply (jump_not_D _ (r * r)); [nra| |].
  - rewrite V, C70_zero_quaternion_is_no_rotation. rewrite <- W. unfold normsq, dot3. cbn [vx vy vz add3 sub3]. ring.
  - intros s Hs. rewrite V. assert (NS : nonzero (Q4 0 0 0 s)) by (intros E; apply Hs, (f_equal q3 E)). pose proof (inv_sq _ NS) as I. unfold mag2 in I. cbn [q0 q1 q2 q3] in I.
    rewrite <- W. unfold normsq, dot3, rot, q_norm. cbn [vx vy vz add3 sub3 q0 q1 q2 q3]. unfold w. cbn [vx vy vz]. set (n := inv_magnitude _) in *. clearbody n. assert (I' : s * n * (s * n) = 1) by lra.
    rewrite !Rmult_0_l, !I'. ring.
Qed.
End Shape.

(** ** The hypotheses are satisfiable: an ellipse-like curve of order 1, rotated, and a fresh circle *)
Example C70_case_rotated : let x := [1; 1 / 4; 0; 1; 0; 0; 1; 2; 3; 4] in length x = pl_num_dofs 1 /\ nonzero (pq (pl_set_dofs 1 x)).
Proof. split; [reflexivity|]. intros E. apply (f_equal q0) in E. cbn in E. lra. Qed.
Example C70_case_fresh : let x := [1; 0; 0; 0; 0; 0; 0; 0; 0; 0] in length x = pl_num_dofs 1 /\ pq (pl_set_dofs 1 x) = Q4 0 0 0 0 /\ polar_radius 1 (pl_set_dofs 1 x) (2 * PI * 0) <> 0.
Proof. split; [reflexivity|split; [reflexivity|]]. unfold polar_radius. cbn. rewrite ?Rmult_0_r, ?Rmult_0_l, ?cos_0, ?Rmult_0_r. lra. Qed.
