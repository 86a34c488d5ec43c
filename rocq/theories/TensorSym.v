(** C112: symmetries of SurfaceXYZTensorFourier, clamping, and where it goes wrong. *)
From Coq Require Import Reals Lra Lia List Bool ZArith.
From Verif Require Import VecAux Vec3 BSModel BSDeriv BSVjp SurfGeomProps CurveObjModel CurveObjProps BoozSurf BoozProps TensorModel TensorProps TensorThms.
Import ListNotations.
Open Scope R_scope.

Section Sym.
Variable s : tsurf.
(** ** Stellarator symmetry *)
Definition sg (n k : nat) : R := if (n <=? k)%nat then 1 else -1.
Lemma v_neg n p : v s n (- p) = sg n (ntor s) * v s n p.
Proof. unfold v, sg. destruct (n <=? ntor s)%nat; rewrite <- Ropp_mult_distr_r; [rewrite cos_neg|rewrite sin_neg]; ring. Qed.
Lemma w_neg m t : w s m (- t) = sg m (mpol s) * w s m t.
Proof. unfold w, sg. destruct (m <=? mpol s)%nat; rewrite <- Ropp_mult_distr_r; [rewrite cos_neg|rewrite sin_neg]; ring. Qed.
Lemma e0_neg p t : e0 s (- p) (- t) = e0 s p t.
Proof.
  unfold e0. replace (INR (nfp s) * - p / 2) with (- (INR (nfp s) * p / 2)) by field. replace (- t / 2) with (- (t / 2)) by field. rewrite !sin_neg. ring.
Qed.
Lemma cb_neg d n m p t : cb s d n m (- p) (- t) = sg n (ntor s) * sg m (mpol s) * cb s d n m p t.
Proof. unfold cb. rewrite v_neg, w_neg, e0_neg. destruct (enforced s d n m); ring. Qed.
Lemma hat_neg d p t : stellsym s = true -> hat s (cb s) d (- p) (- t) = (match d with 0%nat => 1 | _ => -1 end) * hat s (cb s) d p t.
Proof.
  intros S. unfold hat. rewrite <- sum_to_scal. apply sum_to_ext. intros m _. rewrite <- sum_to_scal. apply sum_to_ext. intros n _. rewrite cb_neg. unfold get_coeff, skip, sg. rewrite S.
  rewrite (Nat.leb_antisym (ntor s) n), (Nat.leb_antisym (mpol s) m). destruct d, (ntor s <? n)%nat, (mpol s <? m)%nat; cbn [negb andb orb]; ring.
Qed.
Lemma ang_neg q : ang (- q) = - ang q. Proof. unfold ang. ring. Qed.
Theorem C112_stellsym (q1 q2 : R) : stellsym s = true ->
  gamma s (- q1) (- q2) = V3 (vx (gamma s q1 q2)) (- vy (gamma s q1 q2)) (- vz (gamma s q1 q2)).
Proof. intros S. unfold gamma, gamma_impl. rewrite !ang_neg, !hat_neg, cos_neg, sin_neg by exact S. apply v3_eq; cbn [vx vy vz]; ring. Qed.

(** ** Periods *)
Lemma trig_nat x k : sin (x + 2 * INR k * PI) = sin x /\ cos (x + 2 * INR k * PI) = cos x.
Proof. split; [apply sin_period|apply cos_period]. Qed.
Lemma v_per n p : (0 < nfp s)%nat -> v s n (p + 2 * PI / INR (nfp s)) = v s n p.
Proof.
  intros P. assert (Hr : INR (nfp s) <> 0) by (apply not_0_INR; lia). unfold v. rewrite !mult_INR.
  destruct (n <=? ntor s)%nat.
  - replace (INR (nfp s) * INR n * (p + 2 * PI / INR (nfp s))) with (INR (nfp s) * INR n * p + 2 * INR n * PI) by (field; exact Hr). apply trig_nat.
  - replace (INR (nfp s) * INR (n - ntor s) * (p + 2 * PI / INR (nfp s))) with (INR (nfp s) * INR (n - ntor s) * p + 2 * INR (n - ntor s) * PI) by (field; exact Hr). apply trig_nat.
Qed.
Lemma w_per m t : w s m (t + 2 * PI) = w s m t.
Proof.
  unfold w. destruct (m <=? mpol s)%nat.
  - replace (INR m * (t + 2 * PI)) with (INR m * t + 2 * INR m * PI) by ring. apply trig_nat.
  - replace (INR (m - mpol s) * (t + 2 * PI)) with (INR (m - mpol s) * t + 2 * INR (m - mpol s) * PI) by ring. apply trig_nat.
Qed.
Lemma e0_per_p p t : (0 < nfp s)%nat -> e0 s (p + 2 * PI / INR (nfp s)) t = e0 s p t.
Proof.
  intros P. assert (Hr : INR (nfp s) <> 0) by (apply not_0_INR; lia). unfold e0.
  replace (INR (nfp s) * (p + 2 * PI / INR (nfp s)) / 2) with (INR (nfp s) * p / 2 + PI) by (field; exact Hr). rewrite neg_sin. ring.
Qed.
Lemma e0_per_t p t : e0 s p (t + 2 * PI) = e0 s p t.
Proof. unfold e0. replace ((t + 2 * PI) / 2) with (t / 2 + PI) by field. rewrite neg_sin. ring. Qed.
Theorem C112_field_period (q1 q2 : R) : (0 < nfp s)%nat ->
  gamma s (q1 + / INR (nfp s)) q2 = rot_z (2 * PI / INR (nfp s)) (gamma s q1 q2) /\ gamma s q1 (q2 + 1) = gamma s q1 q2.
Proof.
  intros P. assert (Hr : INR (nfp s) <> 0) by (apply not_0_INR; lia). unfold gamma, gamma_impl. split.
  - replace (ang (q1 + / INR (nfp s))) with (ang q1 + 2 * PI / INR (nfp s)) by (unfold ang; field; exact Hr).
    assert (H : forall d, hat s (cb s) d (ang q1 + 2 * PI / INR (nfp s)) (ang q2) = hat s (cb s) d (ang q1) (ang q2)).
    { intros d. unfold hat. apply sum_to_ext. intros m _. apply sum_to_ext. intros n _. unfold cb. rewrite v_per, e0_per_p by exact P. reflexivity. }
    rewrite !H, cos_plus, sin_plus. unfold rot_z. apply v3_eq; cbn [vx vy vz]; ring.
  - replace (ang (q2 + 1)) with (ang q2 + 2 * PI) by (unfold ang; ring).
    assert (H : forall d, hat s (cb s) d (ang q1) (ang q2 + 2 * PI) = hat s (cb s) d (ang q1) (ang q2)).
    { intros d. unfold hat. apply sum_to_ext. intros m _. apply sum_to_ext. intros n _. unfold cb. rewrite w_per, e0_per_t. reflexivity. }
    now rewrite !H.
Qed.

(** ** Clamping: whatever the dofs, the clamped coordinate of the surface is 0 at phi = theta = 0 *)
Lemma hat_clamped d : clamped s d = true -> hat s (cb s) d 0 0 = 0.
Proof.
  intros C. unfold hat. rewrite (sum_to_ext _ _ (fun m => 0 * 0)); [rewrite sum_to_scal; ring|]. intros m _. rewrite (sum_to_ext _ _ (fun n => 0 * 0)); [rewrite sum_to_scal; ring|]. intros n _.
  unfold cb, enforced, e0, v, w. rewrite C. destruct (n <=? ntor s)%nat, (m <=? mpol s)%nat; cbn [andb]; rewrite ?Rmult_0_r; unfold Rdiv; rewrite ?Rmult_0_l, ?sin_0; ring.
Qed.
Lemma gamma_clamped :
  (clamped s 0 = true -> vx (gamma s 0 0) = 0) /\ (clamped s 1 = true -> vy (gamma s 0 0) = 0) /\ (clamped s 2 = true -> vz (gamma s 0 0) = 0).
Proof.
  unfold gamma, gamma_impl. assert (A : ang 0 = 0) by (unfold ang; ring). rewrite A, cos_0, sin_0. cbn [vx vy vz].
  split; [|split]; intros C; rewrite (hat_clamped _ C); ring.
Qed.
End Sym.
Theorem C112_clamped (s : tsurf) (x : list R) :
  (clamped s 0 = true -> vx (gamma (set_dofs s x) 0 0) = 0) /\ (clamped s 1 = true -> vy (gamma (set_dofs s x) 0 0) = 0) /\ (clamped s 2 = true -> vz (gamma (set_dofs s x) 0 0) = 0).
Proof. exact (gamma_clamped (set_dofs s x)). Qed.

(** ** The series of the documentation: cosine-cosine (clamped or not), sine-cosine, cosine-sine and sine-sine modes *)
Section Closed.
Variable s : tsurf.
Definition cc (d : nat) (phi theta : R) : R :=
  sum_to (mpol s + 1) (fun a => sum_to (ntor s + 1) (fun b => coef s d a b * (cos (INR a * theta) * cos (INR (nfp s) * INR b * phi)))) * (if clamped s d then sin (INR (nfp s) * phi / 2) ^ 2 + sin (theta / 2) ^ 2 else 1).
Definition ss (d : nat) (phi theta : R) : R :=
  sum_to (mpol s) (fun a => sum_to (ntor s) (fun b => coef s d (mpol s + 1 + a) (ntor s + 1 + b) * (sin (INR (a + 1) * theta) * sin (INR (nfp s) * INR (b + 1) * phi)))).
Definition sc (d : nat) (phi theta : R) : R :=
  sum_to (mpol s) (fun a => sum_to (ntor s + 1) (fun b => coef s d (mpol s + 1 + a) b * (sin (INR (a + 1) * theta) * cos (INR (nfp s) * INR b * phi)))).
Definition cs (d : nat) (phi theta : R) : R :=
  sum_to (mpol s + 1) (fun a => sum_to (ntor s) (fun b => coef s d a (ntor s + 1 + b) * (cos (INR a * theta) * sin (INR (nfp s) * INR (b + 1) * phi)))).
(** x has the even modes, y and z the odd ones; without stellarator symmetry all have all *)
Definition series_of (d : nat) (phi theta : R) : R :=
  match d with 0%nat => cc d phi theta + ss d phi theta + (if stellsym s then 0 else sc d phi theta + cs d phi theta)
  | _ => sc d phi theta + cs d phi theta + (if stellsym s then 0 else cc d phi theta + ss d phi theta) end.
Lemma sum_split M f : sum_to (2 * M + 1) f = sum_to (M + 1) f + sum_to M (fun a => f (M + 1 + a)%nat).
Proof.
  unfold sum_to. replace (2 * M + 1)%nat with ((M + 1) + M)%nat by lia. rewrite seq_app, map_app, rsuml_app. f_equal. rewrite Nat.add_0_l, <- (Nat.add_0_r (M + 1)) at 1.
  generalize (M + 1)%nat as k. intros k. f_equal. clear. generalize 0%nat as a. induction M as [|M IH]; intros a; [reflexivity|]. cbn [seq map]. f_equal. rewrite <- (IH (S a)). now rewrite Nat.add_succ_r.
Qed.
Lemma sum_0 n f : (forall k, (k < n)%nat -> f k = 0) -> sum_to n f = 0.
Proof. intros H. rewrite (sum_to_ext n f (fun _ => 0 * 0)); [rewrite sum_to_scal; ring|]. intros k L. rewrite H by exact L. ring. Qed.
Lemma sum_mulr n f c : sum_to n f * c = sum_to n (fun k => f k * c).
Proof. rewrite Rmult_comm, <- sum_to_scal. apply sum_to_ext. intros; ring. Qed.
Lemma leb_hi N b : (N + 1 + b <=? N)%nat = false. Proof. apply Nat.leb_gt. lia. Qed.
Lemma leb_lo N b : (b < N + 1)%nat -> (b <=? N)%nat = true. Proof. intros H. apply Nat.leb_le. lia. Qed.
Lemma hat_series d p t : hat s (cb s) d p t = series_of d p t.
Proof.
  unfold hat. rewrite sum_split. rewrite !(sum_to_ext _ (fun m => sum_to (2 * ntor s + 1) _) (fun m => sum_to (ntor s + 1) (fun n => get_coeff s d m n * cb s d n m p t) + sum_to (ntor s) (fun b => get_coeff s d m (ntor s + 1 + b) * cb s d (ntor s + 1 + b) m p t))) by (intros; apply sum_split).
  rewrite (sum_to_ext (mpol s) (fun a => sum_to (2 * ntor s + 1) _) (fun a => sum_to (ntor s + 1) (fun n => get_coeff s d (mpol s + 1 + a) n * cb s d n (mpol s + 1 + a) p t) + sum_to (ntor s) (fun b => get_coeff s d (mpol s + 1 + a) (ntor s + 1 + b) * cb s d (ntor s + 1 + b) (mpol s + 1 + a) p t))) by (intros; apply sum_split).
  rewrite !sum_to_plus.
  set (k := fun even : bool => if stellsym s then (match d with 0%nat => if even then 1 else 0 | _ => if even then 0 else 1 end) else 1).
  assert (E1 : sum_to (mpol s + 1) (fun m => sum_to (ntor s + 1) (fun n => get_coeff s d m n * cb s d n m p t)) = k true * cc d p t).
  { unfold cc. rewrite sum_mulr, <- sum_to_scal. apply sum_to_ext. intros a Ha. rewrite sum_mulr, <- sum_to_scal. apply sum_to_ext. intros b Hb. unfold get_coeff, skip, cb, enforced, v, w, e0, k.
    rewrite (Nat.ltb_antisym a (mpol s)), (Nat.ltb_antisym b (ntor s)), (leb_lo _ _ Ha), (leb_lo _ _ Hb), mult_INR. destruct (stellsym s), d, (clamped s _); cbn [negb andb orb]; ring. }
  assert (E2 : sum_to (mpol s + 1) (fun m => sum_to (ntor s) (fun b => get_coeff s d m (ntor s + 1 + b) * cb s d (ntor s + 1 + b) m p t)) = k false * cs d p t).
  { unfold cs. rewrite <- sum_to_scal. apply sum_to_ext. intros a Ha. rewrite <- sum_to_scal. apply sum_to_ext. intros b Hb. unfold get_coeff, skip, cb, enforced, v, w, k.
    rewrite (Nat.ltb_antisym a (mpol s)), (Nat.ltb_antisym _ (ntor s)), (leb_lo _ _ Ha), leb_hi, mult_INR. replace (ntor s + 1 + b - ntor s)%nat with (b + 1)%nat by lia. destruct (stellsym s), d, (clamped s _); cbn [negb andb orb]; ring. }
  assert (E3 : sum_to (mpol s) (fun a => sum_to (ntor s + 1) (fun n => get_coeff s d (mpol s + 1 + a) n * cb s d n (mpol s + 1 + a) p t)) = k false * sc d p t).
  { unfold sc. rewrite <- sum_to_scal. apply sum_to_ext. intros a Ha. rewrite <- sum_to_scal. apply sum_to_ext. intros b Hb. unfold get_coeff, skip, cb, enforced, v, w, k.
    rewrite (Nat.ltb_antisym _ (mpol s)), (Nat.ltb_antisym b (ntor s)), (leb_lo _ _ Hb), leb_hi, mult_INR. replace (mpol s + 1 + a - mpol s)%nat with (a + 1)%nat by lia. destruct (stellsym s), d, (clamped s _); cbn [negb andb orb]; ring. }
  assert (E4 : sum_to (mpol s) (fun a => sum_to (ntor s) (fun b => get_coeff s d (mpol s + 1 + a) (ntor s + 1 + b) * cb s d (ntor s + 1 + b) (mpol s + 1 + a) p t)) = k true * ss d p t).
  { unfold ss. rewrite <- sum_to_scal. apply sum_to_ext. intros a Ha. rewrite <- sum_to_scal. apply sum_to_ext. intros b Hb. unfold get_coeff, skip, cb, enforced, v, w, k.
    rewrite !(Nat.ltb_antisym _ _), !leb_hi, mult_INR. replace (mpol s + 1 + a - mpol s)%nat with (a + 1)%nat by lia. replace (ntor s + 1 + b - ntor s)%nat with (b + 1)%nat by lia. destruct (stellsym s), d, (clamped s _); cbn [negb andb orb]; ring. }
  rewrite E1, E2, E3, E4. unfold k, series_of. destruct (stellsym s), d; ring.
Qed.
Theorem C112_series (q1 q2 : R) : gamma s q1 q2 = rot_z (2 * PI * q1) (V3 (series_of 0 (2 * PI * q1) (2 * PI * q2)) (series_of 1 (2 * PI * q1) (2 * PI * q2)) (series_of 2 (2 * PI * q1) (2 * PI * q2))).
Proof. unfold gamma, gamma_impl. rewrite !hat_series. unfold rot_z, ang. apply v3_eq; cbn [vx vy vz]; ring. Qed.
End Closed.
(** ** Defects *)
(** one clamped z mode; nfp is a parameter *)
Definition one_z (k : nat) : tsurf := TS 0 0 k false (fun d => (d =? 2)%nat) (fun d _ _ => if (d =? 2)%nat then 1 else 0).
Lemma hat_one b k p t : hat (one_z k) b 2 p t = b 2%nat 0%nat 0%nat p t.
Proof. unfold hat, sum_to, get_coeff, skip, one_z. cbn. ring. Qed.
Lemma one_v k p t : v (one_z k) 0 p = 1 /\ v1 (one_z k) 0 p = 0 /\ v2 (one_z k) 0 p = 0 /\ w (one_z k) 0 t = 1 /\ w1 (one_z k) 0 t = 0 /\ w2 (one_z k) 0 t = 0.
Proof. unfold v, v1, v2, w, w1, w2, one_z. cbn [ntor mpol nfp Nat.leb]. rewrite Nat.mul_0_r. cbn [INR]. rewrite ?Rmult_0_l, ?cos_0, ?sin_0. repeat split; ring. Qed.
Lemma one_1 k q1 q2 : vz (gammadash1 (one_z k) q1 q2) = 2 * PI * e_p (one_z k) (ang q1).
Proof. unfold gammadash1. cbn [vz]. rewrite hat_one. unfold cb_p. destruct (one_v k (ang q1) (ang q2)) as (V0 & V1 & V2 & W0 & W1 & W2). rewrite ?V0, ?V1, ?V2, ?W0, ?W1, ?W2. cbn [enforced one_z clamped ntor mpol Nat.eqb Nat.leb andb]. ring. Qed.
Lemma one_11 k q1 q2 : vz (gammadash1dash1 (one_z k) q1 q2) = 4 * PI * PI * e_pp_cached (one_z k) (ang q1).
Proof. unfold gammadash1dash1. cbn [vz]. rewrite hat_one. unfold cb_pp. destruct (one_v k (ang q1) (ang q2)) as (V0 & V1 & V2 & W0 & W1 & W2). rewrite ?V0, ?V1, ?V2, ?W0, ?W1, ?W2. cbn [enforced one_z clamped ntor mpol Nat.eqb Nat.leb andb]. ring. Qed.
Lemma one_2 k q1 q2 : vz (gammadash2 (one_z k) q1 q2) = 2 * PI * e_t (ang q2).
Proof. unfold gammadash2. cbn [vz]. rewrite hat_one. unfold cb_t. destruct (one_v k (ang q1) (ang q2)) as (V0 & V1 & V2 & W0 & W1 & W2). rewrite ?V0, ?V1, ?V2, ?W0, ?W1, ?W2. cbn [enforced one_z clamped ntor mpol Nat.eqb Nat.leb andb]. ring. Qed.
Lemma one_22 k q1 q2 : vz (gammadash2dash2 (one_z k) q1 q2) = 0.
Proof. unfold gammadash2dash2. cbn [vz]. rewrite hat_one. unfold cb_tt. destruct (one_v k (ang q1) (ang q2)) as (V0 & V1 & V2 & W0 & W1 & W2). rewrite ?V0, ?V1, ?V2, ?W0, ?W1, ?W2. cbn [enforced one_z clamped ntor mpol Nat.eqb Nat.leb andb]. unfold e_tt. change (1 / 2)%nat with 0%nat. cbn [INR]. ring. Qed.
Lemma D_unique f t a b : D f t a -> D f t b -> a = b. Proof. apply uniqueness_limite. Qed.
Lemma De_t q : D (fun q => 2 * PI * e_t (ang q)) q (2 * PI * PI * (cos (ang q / 2) ^ 2 - sin (ang q / 2) ^ 2)).
Proof. unfold e_t. eapply D_val; [|apply D_mul; [apply D_const|apply D_mul; [apply D_cos; apply Dang0|apply D_sin; apply Dang0]]]. cbv beta. ring. Qed.
Lemma De_p' s q : D (fun q => 2 * PI * e_p s (ang q)) q (2 * PI * PI * INR (nfp s) * INR (nfp s) * (cos (INR (nfp s) * ang q / 2) ^ 2 - sin (INR (nfp s) * ang q / 2) ^ 2)).
Proof. unfold e_p. eapply D_val; [|apply D_mul; [apply D_const|apply D_mul; [apply D_mul; [apply D_const|apply D_cos; apply Dang2]|apply D_sin; apply Dang2]]]. cbv beta. ring. Qed.
(** with a clamped dimension the second derivative in theta loses the term with the factor 1/2 (an integer division), for every nfp;
    the one in phi is wrong for every odd nfp (nfp/2 is an integer division), and differs from what its own Jacobian gives *)
Theorem C112_clamped_theta_refuted (k : nat) : ~ D3 (fun u => gammadash2 (one_z k) 0 u) 0 (gammadash2dash2 (one_z k) 0 0).
Proof.
  intros (_ & _ & H). rewrite one_22 in H. apply (D_ext _ (fun q => 2 * PI * e_t (ang q))) in H; [|intros; apply one_2].
  pose proof (D_unique _ _ _ _ H (De_t 0)) as E. assert (A : ang 0 / 2 = 0) by (unfold ang; field). rewrite A, cos_0, sin_0 in E. pose proof PI_RGT_0. nra.
Qed.
Lemma odd_half k : Nat.Odd k -> INR (k * (k / 2)) = INR k * (INR k - 1) / 2 /\ INR (k * k / 2) = (INR k * INR k - 1) / 2.
Proof.
  intros [j ->]. assert (E : ((2 * j + 1) / 2 = j)%nat) by (symmetry; apply (Nat.div_unique _ 2 j 1); lia). rewrite E.
  assert (E2 : ((2 * j + 1) * (2 * j + 1) / 2 = 2 * j * j + 2 * j)%nat) by (symmetry; apply (Nat.div_unique _ 2 (2 * j * j + 2 * j) 1); lia). rewrite E2.
  rewrite ?mult_INR, ?plus_INR, ?mult_INR. cbn [INR]. lra.
Qed.
Theorem C112_clamped_phi_refuted (k : nat) : Nat.Odd k -> (1 < k)%nat ->
  ~ D3 (fun u => gammadash1 (one_z k) u 0) 0 (gammadash1dash1 (one_z k) 0 0) /\
  gammadash1dash1 (one_z k) 0 0 <> contract (get_dofs (one_z k)) (dgammadash1dash1_by_dcoeff (one_z k) 0 0).
Proof.
  intros O K. pose proof PI_RGT_0 as HP. assert (1 < INR k) by (apply (lt_INR 1); exact K). assert (A : ang 0 = 0) by (unfold ang; ring).
  destruct (odd_half k O) as [H1 H2]. split.
  - intros (_ & _ & H0). rewrite one_11 in H0. apply (D_ext _ (fun q => 2 * PI * e_p (one_z k) (ang q))) in H0; [|intros; apply one_1].
    pose proof (D_unique _ _ _ _ H0 (De_p' (one_z k) 0)) as E. unfold e_pp_cached in E. cbn [nfp one_z] in E. rewrite A, H1 in E.
    replace (INR k * 0 / 2) with 0 in E by field. rewrite cos_0, sin_0 in E. assert (HA : PI * PI * INR k = 0) by (apply Rminus_diag_eq in E; apply (Rmult_eq_reg_l (-2)); [|apply Rlt_not_eq; clear; lra]; rewrite Rmult_0_r, <- E; field). assert (HB : 0 < PI * PI * INR k) by (apply Rmult_lt_0_compat; [apply Rmult_lt_0_compat|]; lra). rewrite HA in HB. exact (Rlt_irrefl _ HB).
  - intros E. apply (f_equal vz) in E. rewrite one_11 in E. unfold dgammadash1dash1_by_dcoeff in E. rewrite contract_slots in E. cbn [vz c_11] in E.
    rewrite slot_sum_pick, hat_one in E by lia. unfold nb_pp in E. destruct (one_v k (ang 0) (ang 0)) as (V0 & V1 & V2 & W0 & _). rewrite V0, V1, V2, W0 in E.
    cbn [on enforced one_z clamped ntor mpol Nat.eqb Nat.leb andb] in E. unfold e_pp_cached, e_pp_direct in E. cbn [nfp one_z] in E. rewrite A, H1, H2 in E.
    replace (INR k * 0 / 2) with 0 in E by field. rewrite cos_0, sin_0 in E. assert (HA : PI * PI * (INR k - 1) = 0) by (apply Rminus_diag_eq in E; apply (Rmult_eq_reg_l (-2)); [|apply Rlt_not_eq; clear; lra]; rewrite Rmult_0_r, <- E; field). assert (HB : 0 < PI * PI * (INR k - 1)) by (apply Rmult_lt_0_compat; [apply Rmult_lt_0_compat|]; lra). rewrite HA in HB. exact (Rlt_irrefl _ HB).
Qed.
(** gamma_impl takes quadpoints but reads the basis functions cached at the surface's own: at other points it is not the surface *)
Theorem C112_gamma_impl (s : tsurf) (q1 q2 : R) : gamma_impl s q1 q2 q1 = gamma_lin s q1 q2.
Proof. apply gamma_is_lin. Qed.
Definition one_cos : tsurf := TS 0 1 1 false (fun _ => false) (fun d m n => if ((d =? 2) && (n =? 1))%nat then 1 else 0).
Theorem C112_gamma_impl_refuted : exists (s : tsurf) (o1 o2 q1 q2 : R), gamma_impl s o1 o2 q1 <> gamma_lin s q1 q2.
Proof.
  exists one_cos, 0, 0, (1 / 4), 0. intros E. apply (f_equal vz) in E. unfold gamma_impl, gamma_lin in E. cbn [vz] in E. unfold hat, sum_to, get_coeff, skip, one_cos in E. cbn in E.
  unfold cb, nb, on, enforced, v, w, ang in E. cbn in E. replace (2 * PI * (1 / 4)) with (PI / 2) in E by field. rewrite ?Rmult_0_l, ?Rmult_0_r, ?Rmult_1_l, ?cos_0, cos_PI2 in E. lra.
Qed.
(** coefficients that stellarator symmetry excludes are neither written by set_dofs nor seen by any evaluation *)
Theorem C112_excluded (s : tsurf) (x : list R) (d m n : nat) : skip s d m n = true ->
  coef (set_dofs s x) d m n = coef s d m n /\
  forall (a q1 q2 : R), let s' := TS (mpol s) (ntor s) (nfp s) (stellsym s) (clamped s) (put (coef s) (d, m, n) a) in get_dofs s' = get_dofs s /\ gamma s' q1 q2 = gamma s q1 q2.
Proof.
  intros K. assert (NI : ~ In (d, m, n) (slots s)) by (rewrite in_slots; unfold is_slot; intros (_ & _ & _ & F); congruence). split.
  - exact (set_loop_other x (slots s) (d, m, n) NI 0 (coef s)).
  - intros a q1 q2 s'. assert (G : get_dofs s' = get_dofs s).
    { unfold get_dofs. change (slots s') with (slots s). apply map_ext_in. intros y Hy. change (at3 (coef s') y = at3 (coef s) y). cbn [coef s']. apply put_other. intros Q. apply NI. rewrite Q. exact Hy. }
    split; [exact G|]. rewrite !gamma_is_lin, !jac_gamma, G. reflexivity.
Qed.
(** ** A concrete surface *)
Definition ex_s : tsurf := TS 1 1 2 true (fun d => (d =? 2)%nat) (fun d m n => INR (d + m + n)).
Example C112_ex : num_dofs ex_s = 13%nat /\ even_or_free ex_s /\ stellsym ex_s = true /\ clamped ex_s 2 = true /\ skip ex_s 0 0 2 = true /\ Nat.Odd 3.
Proof. split; [reflexivity|]. split; [right; exists 1%nat; reflexivity|]. repeat split; try reflexivity. exists 1%nat; reflexivity. Qed.
Print Assumptions C112_jacobians.
Print Assumptions C112_clamped_phi_refuted.
