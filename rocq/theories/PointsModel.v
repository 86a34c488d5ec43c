(** Evaluation points of a magnetic field in cartesian and cylindrical coordinates
    (src/simsoptpp/magneticfield.h:44-73, 168-193) over the reals.  A cylindrical point (r, phi, z) is stored in
    a [vec3] in that order. *)
From Verif Require Import Vec3.
From Coq Require Import Lra Lia ZArith Ratan.
Open Scope R_scope.

(** C's atan2 (for finite arguments; signed zeros are not modelled: x = 0, y = 0 gives 0) *)
Definition atan2 (y x : R) : R :=
  if Rlt_dec 0 x then atan (y / x)
  else if Rlt_dec x 0 then (if Rle_dec 0 y then atan (y / x) + PI else atan (y / x) - PI)
  else if Rlt_dec 0 y then PI / 2 else if Rlt_dec y 0 then - (PI / 2) else 0.
(** C's fmod: a - trunc(a/b)*b *)
Definition rtrunc (x : R) : Z := if Rle_dec 0 x then Int_part x else (- Int_part (- x))%Z.
Definition fmod (a b : R) : R := a - IZR (rtrunc (a / b)) * b.

(** magneticfield.h:44-60 get_points_cyl_impl, one row *)
Definition to_cyl (p : vec3) : vec3 :=
  let phi := atan2 (vy p) (vx p) in
  V3 (sqrt (vx p * vx p + vy p * vy p)) (if Rlt_dec phi 0 then phi + 2 * PI else phi) (vz p).
(** magneticfield.h:62-74 get_points_cart_impl, one row *)
Definition to_cart (p : vec3) : vec3 := V3 (vx p * cos (vy p)) (vx p * sin (vy p)) (vz p).
(** magneticfield.h:173-176 set_points_cyl: the angle is reduced by fmod *)
Definition wrap_cyl (p : vec3) : vec3 := V3 (vx p) (fmod (vy p) (2 * PI)) (vz p).

(** ** Lemmas *)
Lemma Int_part_bounds x : IZR (Int_part x) <= x < IZR (Int_part x) + 1.
Proof. destruct (base_Int_part x). split; lra. Qed.
Lemma fmod_nonneg a b : 0 <= a -> 0 < b -> 0 <= fmod a b < b.
Proof.
  intros Ha Hb. unfold fmod, rtrunc. assert (0 <= a / b) by (apply Rmult_le_pos; [lra|]; left; now apply Rinv_0_lt_compat).
  destruct (Rle_dec 0 (a / b)); [|lra]. destruct (Int_part_bounds (a / b)) as [L U].
  assert (a = a / b * b) by (field; lra).
  split.
  - apply Rmult_le_compat_r with (r := b) in L; lra.
  - apply Rmult_lt_compat_r with (r := b) in U; lra.
Qed.
Lemma fmod_neg a b : a < 0 -> 0 < b -> - b < fmod a b <= 0.
Proof.
  intros Ha Hb. unfold fmod, rtrunc. assert (a / b < 0).
  { unfold Rdiv. rewrite <- (Rmult_0_l (/ b)). apply Rmult_lt_compat_r; [now apply Rinv_0_lt_compat|auto]. }
  destruct (Rle_dec 0 (a / b)); [lra|]. destruct (Int_part_bounds (- (a / b))) as [L U].
  assert (a = a / b * b) by (field; lra). rewrite opp_IZR.
  split.
  - apply Rmult_lt_compat_r with (r := b) in U; lra.
  - apply Rmult_le_compat_r with (r := b) in L; lra.
Qed.
Lemma fmod_eq a b : exists k : Z, fmod a b = a + IZR k * b.
Proof. exists (- rtrunc (a / b))%Z. unfold fmod. rewrite opp_IZR. ring. Qed.
Lemma cos_2PIk x (k : Z) : cos (x + IZR k * (2 * PI)) = cos x.
Proof.
  destruct (Z_le_gt_dec 0 k).
  - rewrite <- (Z2Nat.id k) by auto. rewrite <- INR_IZR_INZ. replace (INR (Z.to_nat k) * (2 * PI)) with (2 * INR (Z.to_nat k) * PI) by ring. apply cos_period.
  - rewrite <- (cos_period _ (Z.to_nat (- k))). f_equal. rewrite INR_IZR_INZ, Z2Nat.id, opp_IZR by lia. ring.
Qed.
Lemma sin_2PIk x (k : Z) : sin (x + IZR k * (2 * PI)) = sin x.
Proof.
  destruct (Z_le_gt_dec 0 k).
  - rewrite <- (Z2Nat.id k) by auto. rewrite <- INR_IZR_INZ. replace (INR (Z.to_nat k) * (2 * PI)) with (2 * INR (Z.to_nat k) * PI) by ring. apply sin_period.
  - rewrite <- (sin_period _ (Z.to_nat (- k))). f_equal. rewrite INR_IZR_INZ, Z2Nat.id, opp_IZR by lia. ring.
Qed.
Lemma to_cart_wrap p : to_cart (wrap_cyl p) = to_cart p.
Proof. unfold to_cart, wrap_cyl; cbn. destruct (fmod_eq (vy p) (2 * PI)) as [k ->]. now rewrite cos_2PIk, sin_2PIk. Qed.

Lemma cos_atan_pos t : cos (atan t) = / sqrt (1 + t * t).
Proof. rewrite cos_atan. unfold Rsqr. field. apply Rgt_not_eq, sqrt_lt_R0. nra. Qed.
Lemma sin_atan_pos t : sin (atan t) = t * / sqrt (1 + t * t).
Proof. rewrite sin_atan. unfold Rsqr, Rdiv. reflexivity. Qed.
Lemma sqrt_fac x y : x <> 0 -> sqrt (x * x + y * y) = Rabs x * sqrt (1 + y / x * (y / x)).
Proof.
  intros Hx. replace (x * x + y * y) with (Rsqr x * (1 + y / x * (y / x))) by (unfold Rsqr; field; auto).
  rewrite sqrt_mult_alt by apply Rle_0_sqr. now rewrite sqrt_Rsqr_abs.
Qed.
Lemma atan2_polar x y : sqrt (x * x + y * y) * cos (atan2 y x) = x /\ sqrt (x * x + y * y) * sin (atan2 y x) = y.
Proof.
  assert (Q : forall t, sqrt (1 + t * t) <> 0) by (intros t; apply Rgt_not_eq, sqrt_lt_R0; nra).
  unfold atan2. destruct (Rlt_dec 0 x) as [Hx|Hx].
  - rewrite sqrt_fac, cos_atan_pos, sin_atan_pos, Rabs_right by lra. specialize (Q (y / x)). split; field; try split; auto; lra.
  - destruct (Rlt_dec x 0) as [Hn|Hn].
    + assert (E : sqrt (x * x + y * y) * cos (atan (y / x)) = - x /\ sqrt (x * x + y * y) * sin (atan (y / x)) = - y).
      { rewrite sqrt_fac, cos_atan_pos, sin_atan_pos, Rabs_left by lra. specialize (Q (y / x)). split; field; try split; auto; lra. }
      destruct E as [E1 E2].
      destruct (Rle_dec 0 y).
      * rewrite neg_cos, neg_sin. split; lra.
      * replace (atan (y / x) - PI) with (atan (y / x) + PI + IZR (-1) * (2 * PI)) by (cbn; ring).
        rewrite cos_2PIk, sin_2PIk, neg_cos, neg_sin. split; lra.
    + assert (x = 0) by lra. subst x. replace (0 * 0 + y * y) with (Rsqr y) by (unfold Rsqr; ring). rewrite sqrt_Rsqr_abs.
      destruct (Rlt_dec 0 y).
      * rewrite cos_PI2, sin_PI2, Rabs_right by lra. split; ring.
      * destruct (Rlt_dec y 0).
        -- rewrite cos_neg, sin_neg, cos_PI2, sin_PI2, Rabs_left by lra. split; ring.
        -- assert (y = 0) by lra. subst. rewrite Rabs_R0. split; ring.
Qed.
Lemma atan2_range x y : - PI < atan2 y x <= PI.
Proof.
  pose proof PI_RGT_0 as P. unfold atan2. pose proof (atan_bound (y / x)) as B.
  destruct (Rlt_dec 0 x); [lra|]. destruct (Rlt_dec x 0) as [Hn|Hn].
  - destruct (Rle_dec 0 y).
    + assert (y / x <= 0). { unfold Rdiv. assert (/ x < 0) by (now apply Rinv_lt_0_compat). nra. }
      assert (atan (y / x) <= 0). { destruct (Req_dec (y / x) 0) as [->|]; [rewrite atan_0; lra|]. left. rewrite <- atan_0. apply atan_increasing. lra. }
      lra.
    + assert (y / x > 0). { unfold Rdiv. assert (/ x < 0) by (now apply Rinv_lt_0_compat). nra. }
      assert (atan (y / x) > 0). { rewrite <- atan_0. apply atan_increasing. lra. }
      lra.
  - destruct (Rlt_dec 0 y); [lra|]. destruct (Rlt_dec y 0); lra.
Qed.
Lemma sqrt_zero x y : sqrt (x * x + y * y) = 0 -> x = 0 /\ y = 0.
Proof. intros H. apply sqrt_eq_0 in H; [|nra]. split; nra. Qed.

(** ** C61: cartesian and cylindrical points *)
(** set_points_cart then get_points_cyl: radius >= 0, angle in [0, 2 pi), and the same physical point *)
Theorem C61_cart_to_cyl p : 0 <= vx (to_cyl p) /\ 0 <= vy (to_cyl p) < 2 * PI /\ to_cart (to_cyl p) = p.
Proof.
  pose proof PI_RGT_0 as P. unfold to_cyl, to_cart; cbn. pose proof (atan2_range (vx p) (vy p)) as B. destruct (atan2_polar (vx p) (vy p)) as [E1 E2].
  split; [apply sqrt_pos|]. destruct (Rlt_dec (atan2 (vy p) (vx p)) 0).
  - split; [lra|]. replace (atan2 (vy p) (vx p) + 2 * PI) with (atan2 (vy p) (vx p) + IZR 1 * (2 * PI)) by ring.
    rewrite cos_2PIk, sin_2PIk. destruct p; cbn in *. now rewrite E1, E2.
  - split; [lra|]. destruct p; cbn in *. now rewrite E1, E2.
Qed.
(** set_points_cyl then get_points_cart: the point with those cylindrical coordinates, for every angle *)
Theorem C61_cyl_to_cart p : to_cart (wrap_cyl p) = V3 (vx p * cos (vy p)) (vx p * sin (vy p)) (vz p).
Proof. apply to_cart_wrap. Qed.
(** the angle in [0, 2 pi) is unique: cylindrical -> cartesian -> cylindrical is the identity off the axis *)
Lemma polar_unique r f s g : 0 < r -> 0 <= s -> 0 <= f < 2 * PI -> 0 <= g < 2 * PI ->
  r * cos f = s * cos g -> r * sin f = s * sin g -> r = s /\ f = g.
Proof.
  intros Hr Hs Hf Hg E1 E2. pose proof PI_RGT_0 as P.
  assert (R2 : r * r = s * s).
  { pose proof (sin2_cos2 f) as A. pose proof (sin2_cos2 g) as B. unfold Rsqr in *.
    replace (r * r) with ((r * cos f) * (r * cos f) + (r * sin f) * (r * sin f)) by (transitivity (r * r * (sin f * sin f + cos f * cos f)); [ring|rewrite A; ring]).
    rewrite E1, E2. transitivity (s * s * (sin g * sin g + cos g * cos g)); [ring|rewrite B; ring]. }
  assert (r = s). { assert ((r - s) * (r + s) = 0) by lra. apply Rmult_integral in H as [H|H]; lra. } subst s.
  split; auto. apply Rmult_eq_reg_l in E1; [|lra]. apply Rmult_eq_reg_l in E2; [|lra].
  assert (C : cos (f - g) = 1). { rewrite cos_minus, E1, E2. pose proof (sin2_cos2 g) as B. unfold Rsqr in B. lra. }
  assert (S : sin (f - g) = 0). { rewrite sin_minus, E1, E2. ring. }
  destruct (Rtotal_order f g) as [L|[L|L]]; auto; exfalso.
  - assert (cos (g - f) = 1). { rewrite <- cos_neg. now replace (- (g - f)) with (f - g) by ring. }
    assert (sin (g - f) = 0). { replace (g - f) with (- (f - g)) by ring. rewrite sin_neg, S. ring. }
    destruct (Rtotal_order (g - f) PI) as [M|[M|M]].
    + assert (0 < sin (g - f)) by (apply sin_gt_0; lra). lra.
    + rewrite M, cos_PI in H. lra.
    + assert (sin (g - f) < 0) by (apply sin_lt_0; lra). lra.
  - destruct (Rtotal_order (f - g) PI) as [M|[M|M]].
    + assert (0 < sin (f - g)) by (apply sin_gt_0; lra). lra.
    + rewrite M, cos_PI in C. lra.
    + assert (sin (f - g) < 0) by (apply sin_lt_0; lra). lra.
Qed.
Theorem C61_cyl_round_trip p : 0 < vx p -> 0 <= vy p < 2 * PI -> to_cyl (to_cart p) = p.
Proof.
  intros Hr Hf. destruct (C61_cart_to_cyl (to_cart p)) as (A & B & E).
  assert (X := f_equal vx E). assert (Y := f_equal vy E). assert (Z := f_equal vz E). cbn [to_cart vx vy vz] in X, Y, Z.
  symmetry in X, Y. destruct (polar_unique _ _ _ _ Hr A Hf B X Y) as [E1 E2].
  apply v3_eq; auto.
Qed.
(** get_points_cyl after set_points_cyl: the angles given are returned unchanged exactly when they are in
    (-2 pi, 2 pi); they are congruent mod 2 pi always, and in [0, 2 pi) exactly when the given angle is
    nonnegative or a negative multiple of 2 pi *)
Theorem C61_set_cyl_get_cyl p :
  vx (wrap_cyl p) = vx p /\ vz (wrap_cyl p) = vz p /\ (exists k : Z, vy (wrap_cyl p) = vy p + IZR k * (2 * PI)) /\
  - (2 * PI) < vy (wrap_cyl p) < 2 * PI /\ (0 <= vy p -> 0 <= vy (wrap_cyl p)) /\ (vy p < 0 -> vy (wrap_cyl p) <= 0) /\
  (vy (wrap_cyl p) = vy p <-> - (2 * PI) < vy p < 2 * PI).
Proof.
  pose proof PI_RGT_0 as P. cbn. split; [reflexivity|]. split; [reflexivity|]. split; [apply fmod_eq|].
  destruct (Rle_dec 0 (vy p)) as [H|H].
  - pose proof (fmod_nonneg (vy p) (2 * PI) H ltac:(lra)). split; [lra|]. split; [lra|]. split; [lra|].
    split; [intros E; lra|]. intros L. destruct (fmod_eq (vy p) (2 * PI)) as [k Ek]. rewrite Ek in *.
    assert (k = 0)%Z; [|subst; ring].
    destruct (Z_lt_le_dec k 0); [apply (IZR_le _ (-1)) in l || idtac|].
    + assert (k <= -1)%Z as Hk by lia. apply IZR_le in Hk. nra.
    + destruct (Z.eq_dec k 0); auto. assert (1 <= k)%Z as Hk by lia. apply IZR_le in Hk. nra.
  - pose proof (fmod_neg (vy p) (2 * PI) ltac:(lra) ltac:(lra)). split; [lra|]. split; [lra|]. split; [lra|].
    split; [intros E; lra|]. intros L. destruct (fmod_eq (vy p) (2 * PI)) as [k Ek]. rewrite Ek in *.
    assert (k = 0)%Z; [|subst; ring].
    destruct (Z_lt_le_dec k 0).
    + assert (k <= -1)%Z as Hk by lia. apply IZR_le in Hk. nra.
    + destruct (Z.eq_dec k 0); auto. assert (1 <= k)%Z as Hk by lia. apply IZR_le in Hk. nra.
Qed.
(** so for a negative angle get_points_cyl does not return the representative in [0, 2 pi) that it returns for
    the same physical point given in cartesian coordinates *)
Theorem C61_negative_angle_not_normalised r phi z : 0 < r -> - (2 * PI) < phi < 0 ->
  vy (wrap_cyl (V3 r phi z)) = phi /\ vy (to_cyl (to_cart (V3 r phi z))) = phi + 2 * PI.
Proof.
  intros Hr Hp. pose proof PI_RGT_0 as P. split.
  - apply C61_set_cyl_get_cyl. cbn. lra.
  - replace (to_cart (V3 r phi z)) with (to_cart (V3 r (phi + 2 * PI) z)).
    + rewrite C61_cyl_round_trip; cbn; auto; lra.
    + unfold to_cart; cbn. replace (phi + 2 * PI) with (phi + IZR 1 * (2 * PI)) by ring. now rewrite cos_2PIk, sin_2PIk.
Qed.
Example C61_case : to_cyl (V3 0 (-2) 5) = V3 2 (PI * 3 / 2) 5 /\ to_cart (V3 2 (PI * 3 / 2) 5) = V3 0 (-2) 5.
Proof.
  pose proof PI_RGT_0 as P.
  assert (E : to_cart (V3 2 (PI * 3 / 2) 5) = V3 0 (-2) 5).
  { unfold to_cart; cbn. replace (PI * 3 / 2) with (3 * (PI / 2)) by field. rewrite cos_3PI2, sin_3PI2. apply v3_eq; cbn; ring. }
  split; auto. rewrite <- E. apply C61_cyl_round_trip; cbn; lra.
Qed.
