(** Symmetry reduction of the evaluation points of an InterpolatedField
    (src/simsoptpp/magneticfield_interpolated.h:26-136) over the reals.  C43. *)
From Verif Require Import Vec3 BSModel BSDeriv PointsModel FieldModel FieldProps CoilModel CoilProps.
From Coq Require Import ZArith Lra Lia.
Open Scope R_scope.

(** 90-118 exploit_symmetries_points, one row (r, phi, z); int(...) truncates *)
Definition sym_point (nfp : nat) (ss : bool) (p : vec3) : vec3 * bool :=
  let period := 2 * PI / INR nfp in
  if (if Rlt_dec (vz p) 0 then ss else false) then
    let phi := 2 * PI - vy p in
    (V3 (vx p) (phi - IZR (rtrunc (phi / period)) * period) (- vz p), true)
  else (V3 (vx p) (vy p - IZR (rtrunc (vy p / period)) * period) (vz p), false).
(** 120-126 apply_symmetries_to_B_cyl, 128-136 apply_symmetries_to_GradAbsB_cyl *)
Definition sym_B (flag : bool) (b : vec3) : vec3 := if flag then V3 (- vx b) (vy b) (vz b) else b.
Definition sym_G (flag : bool) (b : vec3) : vec3 := if flag then V3 (vx b) (- vy b) (- vz b) else b.
(** 35-43, 55-63: evaluation of an interpolant [f] (in cylindrical coordinates) at the reduced point; the
    reduction is skipped for nfp = 1 without stellarator symmetry *)
Definition eval_sym (fix_ : bool -> vec3 -> vec3) (nfp : nat) (ss : bool) (f : vec3 -> vec3) (p : vec3) : vec3 :=
  if (1 <? nfp)%nat || ss then let '(q, flag) := sym_point nfp ss p in fix_ flag (f q) else f p.

Lemma sym_fmod nfp phi : phi - IZR (rtrunc (phi / (2 * PI / INR nfp))) * (2 * PI / INR nfp) = fmod phi (2 * PI / INR nfp).
Proof. reflexivity. Qed.
Lemma period_pos nfp : (0 < nfp)%nat -> 0 < 2 * PI / INR nfp.
Proof. intros H. pose proof PI_RGT_0. apply Rdiv_lt_0_compat; [lra|]. apply lt_0_INR; auto. Qed.

(** for the angles that set_points_cart produces, the reduced point lies in [0, 2 pi/nfp), and in z >= 0 with
    stellarator symmetry; the radius is unchanged *)
Theorem C43_reduced_point_in_domain nfp ss p : (0 < nfp)%nat -> 0 <= vy p < 2 * PI ->
  let q := fst (sym_point nfp ss p) in
  vx q = vx p /\ 0 <= vy q < 2 * PI / INR nfp /\ (ss = true -> 0 <= vz q) /\ (ss = false -> vz q = vz p) /\ Rabs (vz q) = Rabs (vz p).
Proof.
  intros Hn Hp. pose proof (period_pos nfp Hn) as P. pose proof PI_RGT_0. unfold sym_point.
  destruct (Rlt_dec (vz p) 0) as [Z|Z]; [destruct ss|]; cbn [fst snd vx vy vz]; rewrite sym_fmod; split; auto; (split; [apply fmod_nonneg; lra|]);
    (split; [intros; try lra; try discriminate|]); (split; [intros; try discriminate; auto|]); auto using Rabs_Ropp.
Qed.
(** set_points_cyl keeps negative angles, and then the reduced angle is outside [0, 2 pi/nfp): it is <= 0, and
    it is 0 only for a multiple of the period (points below the midplane of a stellarator symmetric field excepted) *)
Theorem C43_negative_angle_leaves_domain nfp ss p : (0 < nfp)%nat -> - (2 * PI) < vy p < 0 -> ~ (vz p < 0 /\ ss = true) ->
  let q := fst (sym_point nfp ss p) in
  vy q <= 0 /\ (vy q = 0 <-> exists k : Z, vy p = IZR k * (2 * PI / INR nfp)).
Proof.
  intros Hn Hp NZ. pose proof (period_pos nfp Hn) as P.
  assert (E : vy (fst (sym_point nfp ss p)) = fmod (vy p) (2 * PI / INR nfp)).
  { unfold sym_point. destruct (Rlt_dec (vz p) 0); [destruct ss|]; cbn [fst vy]; auto. exfalso. tauto. }
  cbn. rewrite E. pose proof (fmod_neg (vy p) (2 * PI / INR nfp) ltac:(lra) P) as B. split; [lra|].
  destruct (fmod_eq (vy p) (2 * PI / INR nfp)) as [k Ek]. split.
  - intros Z. exists (- k)%Z. rewrite opp_IZR. lra.
  - intros [m Em]. rewrite Em in Ek at 2. set (w := 2 * PI / INR nfp) in *.
    assert (Q : fmod (vy p) w = IZR (m + k) * w) by (rewrite plus_IZR; lra). rewrite Q in *.
    assert (m + k = 0)%Z as ->; [|cbn; ring].
    destruct (Z_lt_le_dec (m + k) 0).
    + assert (m + k <= -1)%Z as L by lia. apply IZR_le in L. nra.
    + destruct (Z.eq_dec (m + k) 0); auto. assert (1 <= m + k)%Z as L by lia. apply IZR_le in L. nra.
Qed.
Theorem C43_negative_angle_refuted : exists nfp ss p, (0 < nfp)%nat /\ ss = true /\ - (2 * PI) < vy p < 0 /\ vy (wrap_cyl p) = vy p /\
  ~ (0 <= vy (fst (sym_point nfp ss p)) < 2 * PI / INR nfp).
Proof.
  pose proof PI_RGT_0 as P. exists 2%nat, true, (V3 1 (- (PI / 2)) 1). cbn [vy]. split; [lia|]. split; auto. split; [lra|].
  split; [apply (C61_set_cyl_get_cyl (V3 1 (- (PI / 2)) 1)); cbn; lra|].
  intros [H _]. destruct (C43_negative_angle_leaves_domain 2 true (V3 1 (- (PI / 2)) 1)) as [L E]; cbn [vy vz] in *; try lia; try lra.
  destruct E as [E _]. destruct E as [k Ek]; [lra|]. cbn in Ek.
  assert (IZR k * 2 = -1) by (assert (PI * (IZR k * 2 + 1) = 0) by lra; apply Rmult_integral in H0 as [?|?]; lra).
  assert (C : (k * 2 = -1)%Z) by (apply eq_IZR; rewrite mult_IZR; lra). lia.
Qed.

(** ** If the field has the symmetries, reducing the point does not change the value *)
Definition cyl_periodic (nfp : nat) (f : vec3 -> vec3) : Prop := forall p, f (V3 (vx p) (vy p + 2 * PI / INR nfp) (vz p)) = f p.
Definition cyl_stellsym (f : vec3 -> vec3) (fix_ : bool -> vec3 -> vec3) : Prop := forall p, f (V3 (vx p) (- vy p) (- vz p)) = fix_ true (f p).
Lemma periodic_shift nfp f : cyl_periodic nfp f -> forall (k : Z) r phi z, f (V3 r (phi + IZR k * (2 * PI / INR nfp)) z) = f (V3 r phi z).
Proof.
  intros H. assert (N : forall n r phi z, f (V3 r (phi + INR n * (2 * PI / INR nfp)) z) = f (V3 r phi z)).
  { induction n as [|n IH]; intros r phi z; [cbn; do 2 f_equal; ring|]. rewrite S_INR. rewrite <- (IH r phi z).
    replace (phi + (INR n + 1) * (2 * PI / INR nfp)) with (phi + INR n * (2 * PI / INR nfp) + 2 * PI / INR nfp) by ring.
    apply (H (V3 r (phi + INR n * (2 * PI / INR nfp)) z)). }
  intros k r phi z. destruct (Z_le_gt_dec 0 k).
  - rewrite <- (Z2Nat.id k) by auto. rewrite <- (INR_IZR_INZ (Z.to_nat k)). apply N.
  - rewrite <- (N (Z.to_nat (- k)) r (phi + IZR k * (2 * PI / INR nfp)) z). do 2 f_equal. rewrite (INR_IZR_INZ (Z.to_nat (- k))), Z2Nat.id, opp_IZR by lia. ring.
Qed.
Lemma full_turn nfp f : (0 < nfp)%nat -> cyl_periodic nfp f -> forall r phi z, f (V3 r (phi + 2 * PI) z) = f (V3 r phi z).
Proof.
  intros Hn H r phi z. rewrite <- (periodic_shift nfp f H (Z.of_nat nfp) r phi z). do 2 f_equal. rewrite <- INR_IZR_INZ.
  field. apply not_0_INR. lia.
Qed.
Theorem C43_symmetric_evaluation_exact fix_ nfp ss f p : (forall b v, fix_ b (fix_ b v) = v) -> (forall v, fix_ false v = v) ->
  (0 < nfp)%nat -> cyl_periodic nfp f -> (ss = true -> cyl_stellsym f fix_) -> eval_sym fix_ nfp ss f p = f p.
Proof.
  intros Inv Id Hn Pf Sf. unfold eval_sym. destruct ((1 <? nfp)%nat || ss) eqn:C; auto.
  unfold sym_point. destruct (if Rlt_dec (vz p) 0 then ss else false) eqn:S.
  - assert (ss = true) by (destruct (Rlt_dec (vz p) 0); congruence). specialize (Sf H).
    replace (2 * PI - vy p - IZR (rtrunc ((2 * PI - vy p) / (2 * PI / INR nfp))) * (2 * PI / INR nfp))
      with (2 * PI - vy p + IZR (- rtrunc ((2 * PI - vy p) / (2 * PI / INR nfp))) * (2 * PI / INR nfp)) by (rewrite opp_IZR; ring).
    rewrite periodic_shift by auto. replace (2 * PI - vy p) with (- vy p + 2 * PI) by ring. rewrite (full_turn nfp f) by auto.
    rewrite (Sf p). apply Inv.
  - rewrite Id. replace (vy p - IZR (rtrunc (vy p / (2 * PI / INR nfp))) * (2 * PI / INR nfp))
      with (vy p + IZR (- rtrunc (vy p / (2 * PI / INR nfp))) * (2 * PI / INR nfp)) by (rewrite opp_IZR; ring).
    rewrite periodic_shift by auto. now destruct p.
Qed.
Lemma sym_B_inv b v : sym_B b (sym_B b v) = v. Proof. destruct b; cbn; auto. v3; ring. Qed.
Lemma sym_G_inv b v : sym_G b (sym_G b v) = v. Proof. destruct b; cbn; auto. v3; ring. Qed.

(** ** The field of a coil set made by coils_via_symmetries has them: B_cyl of the coils, and the reduced
    evaluation gives the same B_cyl at every point *)
Definition Bcyl_at (cs : list (R * list qpt)) (p : vec3) : vec3 := nth 0 (fresh QBcyl cs (to_cart p) p) v0.
Lemma Bcyl_rot cs (p : vec3) : Bcyl_at cs p = rotz (- vy p) (coils_field kB cs (to_cart p)).
Proof.
  unfold Bcyl_at, rotz. cbn [fresh nth]. rewrite cos_neg, sin_neg. apply v3_eq; cbn [vx vy vz]; ring.
Qed.
Lemma rotz_rotz a b v : rotz a (rotz b v) = rotz (a + b) v.
Proof. unfold rotz. destruct v; apply v3_eq; cbn; rewrite ?cos_plus, ?sin_plus; ring. Qed.

Section Coils.
Variables (ce : nat -> list qpt) (ie : nat -> R) (cs : list curve) (is : list current) (nfp : nat) (ss : bool) (coils : list (curve * current)).
Hypothesis HC : coils_via_symmetries cs is nfp ss = Some coils.
Hypothesis Hn : (0 < nfp)%nat.
Notation data := (map (coil_data ce ie) coils).
Lemma Bcyl_periodic : cyl_periodic nfp (Bcyl_at data).
Proof using HC Hn.
  intros p. rewrite !Bcyl_rot. cbn [vx vy vz].
  replace (to_cart (V3 (vx p) (vy p + 2 * PI / INR nfp) (vz p))) with (rotz (2 * PI * INR 1 / INR nfp) (to_cart p)).
  - destruct (C55_field_has_field_period ce ie cs is nfp ss coils HC Hn 1 (to_cart p)) as [-> _]. rewrite rotz_rotz. f_equal. change (INR 1) with 1. field. apply not_0_INR. lia.
  - change (INR 1) with 1. unfold to_cart, rotz. apply v3_eq; cbn [vx vy vz]; rewrite ?Rmult_1_r, ?cos_plus, ?sin_plus; ring.
Qed.
Lemma Bcyl_stellsym : ss = true -> cyl_stellsym (Bcyl_at data) sym_B.
Proof using HC.
  intros E p. rewrite !Bcyl_rot. cbn [vx vy vz].
  replace (to_cart (V3 (vx p) (- vy p) (- vz p))) with (reflect (to_cart p)).
  - destruct (C55_field_is_stellarator_symmetric ce ie cs is nfp ss coils HC E (to_cart p)) as [-> _]. set (b := coils_field kB _ _).
    unfold sym_B, rotz, reflect, scal3. apply v3_eq; cbn [vx vy vz]; rewrite ?Ropp_involutive, ?cos_neg, ?sin_neg; ring.
  - unfold to_cart, reflect. apply v3_eq; cbn [vx vy vz]; rewrite ?cos_neg, ?sin_neg; ring.
Qed.
(** evaluating B_cyl of the coils at the reduced point and undoing the symmetry gives B_cyl at the point,
    for every point (in the domain of interpolation or not) *)
Theorem C43_coils_symmetric_evaluation p : eval_sym sym_B nfp ss (Bcyl_at data) p = Bcyl_at data p.
Proof using HC Hn. apply C43_symmetric_evaluation_exact; auto using sym_B_inv, Bcyl_periodic, Bcyl_stellsym. Qed.
End Coils.
(** the hypotheses of the gradient version: |B| is even under (r, phi, z) -> (r, -phi, -z), so its r derivative
    is even and its phi and z derivatives are odd *)
Theorem C43_gradient_signs (F : vec3 -> R) (G : vec3 -> vec3) :
  (forall p, F (V3 (vx p) (- vy p) (- vz p)) = F p) ->
  (forall p, D (fun s => F (V3 (vx p + s) (vy p) (vz p))) 0 (vx (G p)) /\ D (fun s => F (V3 (vx p) (vy p + s) (vz p))) 0 (vx p * vy (G p)) /\
             D (fun s => F (V3 (vx p) (vy p) (vz p + s))) 0 (vz (G p))) ->
  forall p, vx p <> 0 -> G (V3 (vx p) (- vy p) (- vz p)) = sym_G true (G p).
Proof.
  intros E H p NZ. destruct (H p) as (A & B & C). destruct (H (V3 (vx p) (- vy p) (- vz p))) as (A' & B' & C'). cbn [vx vy vz] in *.
  assert (NEG : forall f l, D f 0 l -> D (fun s => f (- s)) 0 (- l)).
  { intros f l Hf. eapply D_val; [|apply (derivable_pt_lim_comp Ropp f 0 (-1) l)]; [ring| |rewrite Ropp_0; exact Hf].
    eapply D_val; [|apply D_opp, D_id]. reflexivity. }
  apply v3_eq; cbn [sym_G vx vy vz].
  - eapply uniqueness_limite; [exact A'|]. eapply D_ext; [|exact A]. intros s. cbn. symmetry. apply (E (V3 (vx p + s) (vy p) (vz p))).
  - apply (Rmult_eq_reg_l (vx p)); auto. eapply uniqueness_limite; [exact B'|]. eapply D_val; [|eapply D_ext; [|exact (NEG _ _ B)]]; [ring|].
    intros s. cbn. rewrite <- (E (V3 (vx p) (vy p + - s) (vz p))). cbn [vx vy vz]. f_equal. f_equal. ring.
  - eapply uniqueness_limite; [exact C'|]. eapply D_ext; [|exact (NEG _ _ C)].
    intros s. cbn. rewrite <- (E (V3 (vx p) (vy p) (vz p + - s))). cbn [vx vy vz]. f_equal. f_equal. ring.
Qed.
Example C43_case : fst (sym_point 2 true (V3 1 (PI / 2) (-3))) = V3 1 (PI / 2) 3 /\ snd (sym_point 2 true (V3 1 (PI / 2) (-3))) = true.
Proof.
  pose proof PI_RGT_0 as P. unfold sym_point. cbn [vx vy vz]. destruct (Rlt_dec (-3) 0); [|lra]. cbn [fst snd]. split; auto.
  replace (rtrunc ((2 * PI - PI / 2) / (2 * PI / INR 2))) with 1%Z.
  - apply v3_eq; cbn [vx vy vz]; cbn; field.
  - unfold rtrunc. replace ((2 * PI - PI / 2) / (2 * PI / INR 2)) with (3 / 2) by (cbn; field; lra).
    destruct (Rle_dec 0 (3 / 2)); [|lra]. pose proof (Int_part_bounds (3 / 2)) as [L U].
    assert (Int_part (3 / 2) < 2)%Z by (apply lt_IZR; lra). assert (0 < Int_part (3 / 2))%Z by (apply lt_IZR; lra). lia.
Qed.
