(** C134: Fourier interpolation is exact for trigonometric polynomials, and is the interpolating
    trigonometric polynomial for every data. *)
From Coq Require Import ZArith Reals Lra Lia List Bool Arith.
From Verif Require Import ListAux VecAux BSVjp CurveObjModel CurveObjProps BoozProps FourProps FourVals FintModel.
Import ListNotations.
Open Scope R_scope.

(** ** Specification: trigonometric polynomials of degree M *)
Definition trig_poly (M : nat) (a b : nat -> R) (x : R) : R :=
  a 0%nat + sum_to M (fun m => a (S m) * cos (INR (S m) * x) + b (S m) * sin (INR (S m) * x)).
(** The sample points. *)
Definition grid_point (N k : nat) : R := 2 * PI * INR k / INR N.

(** ** Sums over the grid *)
Definition dv (N : nat) (p : Z) : R := if (p mod Z.of_nat N =? 0)%Z then INR N else 0.
Lemma xk_eq N k : fi_xk N k = grid_point N k. Proof. unfold fi_xk, grid_point. f_equal. ring. Qed.
Lemma grid_sums N p : (0 < N)%nat -> sum_to N (fun k => cos (IZR p * grid_point N k)) = dv N p /\ sum_to N (fun k => sin (IZR p * grid_point N k)) = 0.
Proof.
  intros HN. pose proof (lt_0_INR N HN) as PN. assert (E : forall k, IZR p * grid_point N k = 2 * PI * (IZR p / INR N) * INR k) by (intros; unfold grid_point; field; lra). split.
  - rewrite (sum_to_ext N _ (fun k => cos (2 * PI * (IZR p / INR N) * INR k))) by (intros; now rewrite E). unfold dv. destruct (Z.eqb_spec (p mod Z.of_nat N) 0) as [D|D].
    + apply Z.mod_divide in D; [|lia]. destruct D as (q & ->). rewrite (sum_to_ext N _ (fun _ => 1)); [apply sum_one|]. intros k _. rewrite <- cos_0, <- (cos_2PIk 0 (q * Z.of_nat k)). f_equal. rewrite !mult_IZR, <- !INR_IZR_INZ. field. lra.
    + apply cos_sum0; [exact HN|]. intros H. apply D. apply Z.mod_divide; [lia|exact H].
  - rewrite (sum_to_ext N _ (fun k => sin (2 * PI * (IZR p / INR N) * INR k))) by (intros; now rewrite E). now apply sin_sum0.
Qed.
Lemma cos_shift N p a : (0 < N)%nat -> sum_to N (fun k => cos (a - IZR p * grid_point N k)) = cos a * dv N p.
Proof. intros HN. destruct (grid_sums N p HN) as (C & S). rewrite (sum_to_ext N _ (fun k => cos a * cos (IZR p * grid_point N k) + sin a * sin (IZR p * grid_point N k))) by (intros; apply cos_minus). rewrite sum_to_plus, !sum_to_scal, C, S. ring. Qed.
Lemma sin_shift N p a : (0 < N)%nat -> sum_to N (fun k => sin (a - IZR p * grid_point N k)) = sin a * dv N p.
Proof. intros HN. destruct (grid_sums N p HN) as (C & S). rewrite (sum_to_ext N _ (fun k => sin a * cos (IZR p * grid_point N k) + (- cos a) * sin (IZR p * grid_point N k))) by (intros; rewrite sin_minus; ring). rewrite sum_to_plus, !sum_to_scal, C, S. ring. Qed.

(** ** The kernel reproduces the modes *)
Lemma dv_0 N : (0 < N)%nat -> dv N 0 = INR N. Proof. intros. unfold dv. now rewrite Z.mod_0_l by lia. Qed.
Lemma dv_small N p : (0 < Z.abs p < Z.of_nat N)%Z -> dv N p = 0.
Proof. intros H. unfold dv. destruct (Z.eqb_spec (p mod Z.of_nat N) 0) as [E|E]; [|reflexivity]. apply Z.mod_divide in E; [|lia]. destruct E as (q & ->). exfalso. rewrite Z.abs_mul, (Z.abs_eq (Z.of_nat N)) in H by lia. destruct (Z.eq_dec q 0) as [->|Q]; [lia|]. assert (1 <= Z.abs q)%Z by lia. nia. Qed.
Lemma dv_full N : (0 < N)%nat -> dv N (Z.of_nat N) = INR N.
Proof. intros. unfold dv. now rewrite Z.mod_same by lia. Qed.
Definition halves (N M : nat) : Prop := (N = 2 * M + 1 \/ N = 2 * M)%nat.
Lemma sum_kdelta M m (g : nat -> R) : sum_to M (fun j => if (S j =? m)%nat then g j else 0) = if ((0 <? m) && (m <=? M))%nat then g (m - 1)%nat else 0.
Proof.
  induction M as [|M IH]; [destruct m; reflexivity|]. rewrite sum_to_S', IH. destruct (Nat.eqb_spec (S M) m) as [<-|E].
  - replace (0 <? S M)%nat with true by reflexivity. replace (S M <=? M)%nat with false by (symmetry; apply Nat.leb_gt; lia). rewrite Nat.leb_refl. cbn [andb]. replace (S M - 1)%nat with M by lia. ring.
  - destruct (Nat.ltb_spec 0 m), (Nat.leb_spec m M), (Nat.leb_spec m (S M)); cbn [andb]; try lia; ring.
Qed.
Lemma weight_c N M j m : (0 < N)%nat -> halves N M -> (j < M)%nat -> (m <= M)%nat -> wN N (Z.of_nat j + 1) * (dv N (Z.of_nat (S j) - Z.of_nat m) + dv N (Z.of_nat (S j) + Z.of_nat m)) = if (S j =? m)%nat then INR N else 0.
Proof.
  intros HN H J L. destruct (Nat.eqb_spec (S j) m) as [<-|E].
  - rewrite Z.sub_diag, (dv_0 N HN). destruct H as [->| ->].
    + rewrite wN_odd, dv_small by lia. ring.
    + rewrite wN_even. destruct (Z.eqb_spec (Z.abs (Z.of_nat j + 1)) (Z.of_nat M)) as [Q|Q].
      * replace (Z.of_nat (S j) + Z.of_nat (S j))%Z with (Z.of_nat (2 * M)) by lia. rewrite dv_full by lia. lra.
      * rewrite dv_small by lia. lra.
  - rewrite !dv_small by (destruct H; lia). ring.
Qed.
Lemma weight_s N M j m : (0 < N)%nat -> halves N M -> (j < M)%nat -> (2 * m < N)%nat -> wN N (Z.of_nat j + 1) * (dv N (Z.of_nat (S j) - Z.of_nat m) - dv N (Z.of_nat (S j) + Z.of_nat m)) = if (S j =? m)%nat then INR N else 0.
Proof.
  intros HN H J L. destruct (Nat.eqb_spec (S j) m) as [<-|E].
  - rewrite Z.sub_diag, (dv_0 N HN), (dv_small N (_ + _)) by lia. destruct H as [->| ->]; [rewrite wN_odd; ring|]. rewrite wN_even. destruct (Z.eqb_spec (Z.abs (Z.of_nat j + 1)) (Z.of_nat M)); [lia|ring].
  - destruct (Nat.eq_dec m 0) as [->|P]; [rewrite Z.sub_0_r, Z.add_0_r; ring|]. rewrite !dv_small by (destruct H; lia). ring.
Qed.
Lemma DK_eq N M b : DK N M b = 1 + 2 * sum_to M (fun j => wN N (Z.of_nat j + 1) * cos (INR (S j) * b)).
Proof. unfold DK. do 2 f_equal. apply sum_to_ext. intros j _. rewrite S_INR. do 2 f_equal. ring. Qed.

Section Kernel.
Variables (N M : nat).
Hypotheses (HN : (0 < N)%nat) (H : halves N M).
Let PN : 0 < INR N. Proof. now apply lt_0_INR. Qed.
Lemma kernel_cos m x : (m <= M)%nat -> sum_to N (fun k => DK N M (x - grid_point N k) * cos (INR m * grid_point N k)) = INR N * cos (INR m * x).
Proof using HN H.
  intros L. rewrite (sum_to_ext N _ (fun k => cos (0 - IZR (- Z.of_nat m) * grid_point N k) + sum_to M (fun j => wN N (Z.of_nat j + 1) * (cos (INR (S j) * x - IZR (Z.of_nat (S j) - Z.of_nat m) * grid_point N k) + cos (INR (S j) * x - IZR (Z.of_nat (S j) + Z.of_nat m) * grid_point N k))))).
  - rewrite sum_to_plus, sum_to_swap, cos_shift by exact HN. rewrite (sum_to_ext M _ (fun j => if (S j =? m)%nat then INR N * cos (INR (S j) * x) else 0)).
    + rewrite sum_kdelta, cos_0. destruct (Nat.eq_dec m 0) as [->|P].
      * replace ((0 <? 0) && (0 <=? M))%nat with false by reflexivity. cbn [Z.of_nat Z.opp]. change (INR 0) with 0. rewrite (dv_0 N HN), Rmult_0_l, cos_0. ring.
      * replace ((0 <? m) && (m <=? M))%nat with true by (symmetry; apply andb_true_intro; split; [apply Nat.ltb_lt; lia|apply Nat.leb_le; lia]). rewrite dv_small by (destruct H; lia). replace (S (m - 1)) with m by lia. ring.
    + intros j J. rewrite sum_to_scal, sum_to_plus, !cos_shift by exact HN. rewrite <- Rmult_plus_distr_l. rewrite (Rmult_comm (cos _)), <- Rmult_assoc, (weight_c N M j m) by assumption. destruct (S j =? m)%nat; ring.
  - intros k _. rewrite DK_eq. rewrite opp_IZR, <- INR_IZR_INZ. replace (0 - - INR m * grid_point N k) with (INR m * grid_point N k) by ring. rewrite Rmult_plus_distr_r, Rmult_1_l. f_equal.
    rewrite <- sum_to_scal, Rmult_comm, <- sum_to_scal. apply sum_to_ext. intros j _. rewrite minus_IZR, plus_IZR, <- !INR_IZR_INZ.
    replace (INR (S j) * x - (INR (S j) - INR m) * grid_point N k) with (INR (S j) * (x - grid_point N k) + INR m * grid_point N k) by ring. replace (INR (S j) * x - (INR (S j) + INR m) * grid_point N k) with (INR (S j) * (x - grid_point N k) - INR m * grid_point N k) by ring. rewrite cos_plus, cos_minus. ring.
Qed.
Lemma kernel_sin m x : (2 * m < N)%nat -> sum_to N (fun k => DK N M (x - grid_point N k) * sin (INR m * grid_point N k)) = INR N * sin (INR m * x).
Proof using HN H.
  intros L. assert (LM : (m <= M)%nat) by (destruct H; lia). rewrite (sum_to_ext N _ (fun k => - sin (0 - IZR (Z.of_nat m) * grid_point N k) + sum_to M (fun j => wN N (Z.of_nat j + 1) * (sin (INR (S j) * x - IZR (Z.of_nat (S j) - Z.of_nat m) * grid_point N k) - sin (INR (S j) * x - IZR (Z.of_nat (S j) + Z.of_nat m) * grid_point N k))))).
  - rewrite sum_to_plus, sum_to_swap. rewrite (sum_to_ext N (fun k => - sin _) (fun k => (-1) * sin (0 - IZR (Z.of_nat m) * grid_point N k))) by (intros; ring). rewrite sum_to_scal, sin_shift, sin_0 by exact HN. rewrite (sum_to_ext M _ (fun j => if (S j =? m)%nat then INR N * sin (INR (S j) * x) else 0)).
    + rewrite sum_kdelta. destruct (Nat.eq_dec m 0) as [->|P].
      * replace ((0 <? 0) && (0 <=? M))%nat with false by reflexivity. change (INR 0) with 0. rewrite !Rmult_0_l, sin_0. ring.
      * replace ((0 <? m) && (m <=? M))%nat with true by (symmetry; apply andb_true_intro; split; [apply Nat.ltb_lt; lia|apply Nat.leb_le; lia]). replace (S (m - 1)) with m by lia. ring.
    + intros j J. rewrite sum_to_scal. rewrite (sum_to_ext N _ (fun k => sin (INR (S j) * x - IZR (Z.of_nat (S j) - Z.of_nat m) * grid_point N k) + (-1) * sin (INR (S j) * x - IZR (Z.of_nat (S j) + Z.of_nat m) * grid_point N k))) by (intros; ring). rewrite sum_to_plus, sum_to_scal, !sin_shift by exact HN. pose proof (weight_s N M j m HN H J L) as W. destruct (S j =? m)%nat.
      * transitivity (sin (INR (S j) * x) * INR N); [|ring]. rewrite <- W. ring.
      * transitivity (sin (INR (S j) * x) * 0); [|ring]. rewrite <- W. ring.
  - intros k _. rewrite DK_eq, <- INR_IZR_INZ. replace (0 - INR m * grid_point N k) with (- (INR m * grid_point N k)) by ring. rewrite sin_neg, Ropp_involutive, Rmult_plus_distr_r, Rmult_1_l. f_equal.
    rewrite <- sum_to_scal, Rmult_comm, <- sum_to_scal. apply sum_to_ext. intros j _. rewrite minus_IZR, plus_IZR, <- !INR_IZR_INZ.
    replace (INR (S j) * x - (INR (S j) - INR m) * grid_point N k) with (INR (S j) * (x - grid_point N k) + INR m * grid_point N k) by ring. replace (INR (S j) * x - (INR (S j) + INR m) * grid_point N k) with (INR (S j) * (x - grid_point N k) - INR m * grid_point N k) by ring. rewrite sin_plus, sin_minus. ring.
Qed.
End Kernel.

(** ** The code's quotient is the kernel *)
Definition off_grid (N : nat) (x : R) : Prop := forall j : Z, x <> 2 * PI * IZR j / INR N.
Lemma halves_div2 N : halves N (Nat.div2 N).
Proof. unfold halves. pose proof (Nat.div2_odd N) as E. destruct (Nat.odd N); cbn [Nat.b2n] in E; lia. Qed.
Lemma kernel_closed N M b : (0 < N)%nat -> halves N M -> sin (b / 2) * DK N M b = (if Nat.even N then cos (b / 2) else 1) * sin (INR N * (b / 2)).
Proof.
  intros HN [->| ->].
  - replace (Nat.even (2 * M + 1)) with false by (symmetry; rewrite Nat.even_add, Nat.even_mul; reflexivity). unfold DK. rewrite (sum_to_ext M _ (fun k => cos (b + b * INR k))) by (intros; rewrite wN_odd; ring).
    pose proof (telescope_cos b b M) as T. replace (b + b * (INR M - / 2)) with (INR (2 * M + 1) * (b / 2)) in T by (rewrite plus_INR, mult_INR; cbn [INR]; field). replace (b - b / 2) with (b / 2) in T by field. rewrite Rmult_plus_distr_l, <- Rmult_assoc, (Rmult_comm (sin (b / 2)) 2), T. ring.
  - destruct M as [|M]; [lia|]. replace (Nat.even (2 * S M)) with true by (symmetry; now rewrite Nat.even_mul). unfold DK. rewrite sum_even.
    pose proof (telescope_cos b b (S M)) as T. replace (b + b * (INR (S M) - / 2)) with (INR (2 * S M) * (b / 2) + b / 2) in T by (rewrite mult_INR, (S_INR M); change (INR 2) with (1 + 1); field). replace (b - b / 2) with (b / 2) in T by field. rewrite sin_plus in T. replace (b + b * INR M) with (INR (2 * S M) * (b / 2)) by (rewrite mult_INR, (S_INR M); change (INR 2) with (1 + 1); field).
    match goal with |- ?s * (1 + 2 * (?t - / 2 * ?c)) = _ => transitivity (s + 2 * s * t - s * c); [field|] end. rewrite T. ring.
Qed.
Lemma alt_sin k y : sin (y - INR k * PI) = (-1) ^ k * sin y.
Proof.
  induction k as [|k IH]; [cbn [pow INR]; rewrite Rmult_1_l; f_equal; ring|].
  rewrite S_INR. replace (y - (INR k + 1) * PI) with ((y - INR k * PI) - PI) by ring. rewrite sin_minus, cos_PI, sin_PI, IH. cbn [pow]. ring.
Qed.
Lemma alt_sq k : (-1) ^ k * (-1) ^ k = 1.
Proof. rewrite <- Rpow_mult_distr. replace (-1 * -1) with 1 by ring. apply pow1. Qed.
Section Off.
Variables (N : nat) (x : R).
Hypotheses (HN : (0 < N)%nat) (HX : off_grid N x).
Let PN : 0 < INR N. Proof. now apply lt_0_INR. Qed.
Lemma off_half k : sin ((x - grid_point N k) / 2) <> 0.
Proof using HN HX. intros E. apply sin_eq_0_0 in E. destruct E as (j & E). apply (HX (j * Z.of_nat N + Z.of_nat k)%Z). rewrite plus_IZR, mult_IZR, <- !INR_IZR_INZ. unfold grid_point in E. assert (E2 : x = 2 * (IZR j * PI) + 2 * PI * INR k / INR N) by lra. rewrite E2. field. lra. Qed.
Lemma off_full : sin (INR N * (x / 2)) <> 0.
Proof using HN HX. intros E. apply sin_eq_0_0 in E. destruct E as (j & E). apply (HX j). apply (Rmult_eq_reg_l (INR N)); [|lra]. transitivity (2 * (IZR j * PI)); [lra|field; lra]. Qed.
Lemma half_k k : sin (INR N * ((x - grid_point N k) / 2)) = (-1) ^ k * sin (INR N * (x / 2)).
Proof using HN. rewrite <- alt_sin. f_equal. unfold grid_point. field. lra. Qed.
Lemma D_kernel eps k : fi_D eps N x k * fi_w k = DK N (Nat.div2 N) (x - grid_point N k) / sin (INR N * (x / 2)).
Proof using HN HX.
  pose proof (off_half k) as A. pose proof off_full as B. pose proof (kernel_closed N (Nat.div2 N) (x - grid_point N k) HN (halves_div2 N)) as K. rewrite half_k in K.
  unfold fi_D, fi_w. rewrite xk_eq. replace (1 / 2 * (x - grid_point N k)) with ((x - grid_point N k) / 2) by field. destruct (Req_EM_T ((x - grid_point N k) / 2) 0) as [Z|Z]; [exfalso; apply A; rewrite Z; apply sin_0|]. rewrite Rmult_0_r, Rplus_0_r.
  apply (Rmult_eq_reg_l (sin ((x - grid_point N k) / 2) * sin (INR N * (x / 2)))); [|now apply Rmult_integral_contrapositive]. transitivity (sin ((x - grid_point N k) / 2) * DK N (Nat.div2 N) (x - grid_point N k)); [|field; assumption]. rewrite K.
  destruct (Nat.even N); unfold inv_tan; field; assumption.
Qed.
Lemma kernel_one : sum_to N (fun k => DK N (Nat.div2 N) (x - grid_point N k)) = INR N.
Proof using HN.
  transitivity (INR N * cos (INR 0 * x)); [|cbn [INR]; rewrite Rmult_0_l, cos_0; ring]. rewrite <- (kernel_cos N (Nat.div2 N) HN (halves_div2 N) 0 x) by lia. apply sum_to_ext. intros k _. cbn [INR]. rewrite Rmult_0_l, cos_0. ring.
Qed.
End Off.
Lemma interp_kernel eps fk x : fk <> [] -> off_grid (length fk) x -> fourier_interp eps fk x = sum_to (length fk) (fun k => DK (length fk) (Nat.div2 (length fk)) (x - grid_point (length fk) k) * nth k fk 0) / INR (length fk).
Proof.
  intros HF HX. assert (HN : (0 < length fk)%nat) by (destruct fk; [congruence|cbn; lia]). pose proof (lt_0_INR _ HN) as PN. unfold fourier_interp. set (N := length fk) in *. pose proof (off_full N x HN HX) as B.
  rewrite (sum_to_ext N (fun k => _ * (_ * _)) (fun k => / sin (INR N * (x / 2)) * (DK N (Nat.div2 N) (x - grid_point N k) * nth k fk 0))) by (intros; rewrite <- Rmult_assoc, D_kernel by assumption; unfold Rdiv; ring).
  rewrite (sum_to_ext N (fun k => _ * fi_w k) (fun k => / sin (INR N * (x / 2)) * DK N (Nat.div2 N) (x - grid_point N k))) by (intros; rewrite D_kernel by assumption; unfold Rdiv; ring).
  rewrite !sum_to_scal, kernel_one by exact HN. field. split; lra.
Qed.

(** ** Exactness: samples of a trigonometric polynomial *)
(** For N samples of a trigonometric polynomial of degree at most N/2 (no sine of the highest mode when N is even),
    the interpolant is that polynomial, at every point that is not a sample point modulo 2 pi. *)
Theorem C134_exact (eps : R) (fk : list R) (M : nat) (a b : nat -> R) : fk <> [] -> (2 * M <= length fk)%nat -> ((2 * M)%nat = length fk -> b M = 0) ->
  (forall k, (k < length fk)%nat -> nth k fk 0 = trig_poly M a b (grid_point (length fk) k)) ->
  forall x, off_grid (length fk) x -> fourier_interp eps fk x = trig_poly M a b x.
Proof.
  intros HF HM HB F x HX. assert (HN : (0 < length fk)%nat) by (destruct fk; [congruence|cbn; lia]). pose proof (lt_0_INR _ HN) as PN. rewrite interp_kernel by assumption. set (N := length fk) in *.
  pose proof (halves_div2 N) as HH. assert (LM : (M <= Nat.div2 N)%nat) by (destruct HH; lia).
  rewrite (sum_to_ext N _ (fun k => a 0%nat * DK N (Nat.div2 N) (x - grid_point N k) + sum_to M (fun m => a (S m) * (DK N (Nat.div2 N) (x - grid_point N k) * cos (INR (S m) * grid_point N k)) + b (S m) * (DK N (Nat.div2 N) (x - grid_point N k) * sin (INR (S m) * grid_point N k))))).
  - rewrite sum_to_plus, sum_to_scal, (kernel_one N x HN), sum_to_swap. rewrite (sum_to_ext M _ (fun m => INR N * (a (S m) * cos (INR (S m) * x) + b (S m) * sin (INR (S m) * x)))).
    + rewrite sum_to_scal. unfold trig_poly. field. lra.
    + intros m Hm. rewrite sum_to_plus, !sum_to_scal, (kernel_cos N (Nat.div2 N) HN HH) by lia. destruct (Nat.eq_dec (2 * S m) N) as [E|E].
      * assert (m = M - 1)%nat by lia. replace (S m) with M by lia. rewrite HB by lia. ring.
      * rewrite (kernel_sin N (Nat.div2 N) HN HH) by lia. ring.
  - intros k K. rewrite F by exact K. unfold trig_poly. rewrite Rmult_plus_distr_l, <- sum_to_scal. f_equal; [ring|]. apply sum_to_ext. intros m _. ring.
Qed.

(** ** For every data: the interpolating trigonometric polynomial *)
Theorem C134_interpolates (fk : list R) : fk <> [] -> exists a b, (Nat.even (length fk) = true -> b (Nat.div2 (length fk)) = 0) /\
  (forall k, (k < length fk)%nat -> trig_poly (Nat.div2 (length fk)) a b (grid_point (length fk) k) = nth k fk 0) /\
  (forall eps x, off_grid (length fk) x -> fourier_interp eps fk x = trig_poly (Nat.div2 (length fk)) a b x).
Proof.
  intros HF. assert (HN : (0 < length fk)%nat) by (destruct fk; [congruence|cbn; lia]). pose proof (lt_0_INR _ HN) as PN. set (N := length fk) in *. set (M := Nat.div2 N).
  exists (fun m => (if (m =? 0)%nat then 1 else 2 * wN N (Z.of_nat m)) * sum_to N (fun k => cos (INR m * grid_point N k) * nth k fk 0) / INR N), (fun m => 2 * wN N (Z.of_nat m) * sum_to N (fun k => sin (INR m * grid_point N k) * nth k fk 0) / INR N).
  pose proof (halves_div2 N) as HH. fold M in HH.
  assert (P : forall x, trig_poly M (fun m => (if (m =? 0)%nat then 1 else 2 * wN N (Z.of_nat m)) * sum_to N (fun k => cos (INR m * grid_point N k) * nth k fk 0) / INR N) (fun m => 2 * wN N (Z.of_nat m) * sum_to N (fun k => sin (INR m * grid_point N k) * nth k fk 0) / INR N) x = sum_to N (fun k => DK N M (x - grid_point N k) * nth k fk 0) / INR N).
  { intros x. unfold trig_poly. rewrite (sum_to_ext M _ (fun m => / INR N * sum_to N (fun k => 2 * (wN N (Z.of_nat m + 1) * cos (INR (S m) * (x - grid_point N k))) * nth k fk 0))).
    - rewrite sum_to_scal, sum_to_swap. change (INR 0) with 0. change (0 =? 0)%nat with true. cbv iota. transitivity (/ INR N * (sum_to N (fun k => cos (0 * grid_point N k) * nth k fk 0) + sum_to N (fun k => sum_to M (fun m => 2 * (wN N (Z.of_nat m + 1) * cos (INR (S m) * (x - grid_point N k))) * nth k fk 0)))); [field; lra|]. rewrite <- sum_to_plus. unfold Rdiv. rewrite Rmult_comm. f_equal. apply sum_to_ext. intros k _. rewrite DK_eq, Rmult_0_l, cos_0, Rmult_plus_distr_r. f_equal.
      rewrite (sum_to_ext M _ (fun m => nth k fk 0 * (2 * (wN N (Z.of_nat m + 1) * cos (INR (S m) * (x - grid_point N k)))))) by (intros; ring). rewrite !sum_to_scal. ring.
    - intros m _. cbn [Nat.eqb]. replace (Z.of_nat (S m)) with (Z.of_nat m + 1)%Z by lia. transitivity (/ INR N * ((2 * wN N (Z.of_nat m + 1) * cos (INR (S m) * x)) * sum_to N (fun k => cos (INR (S m) * grid_point N k) * nth k fk 0) + (2 * wN N (Z.of_nat m + 1) * sin (INR (S m) * x)) * sum_to N (fun k => sin (INR (S m) * grid_point N k) * nth k fk 0))); [field; lra|]. f_equal. rewrite <- !sum_to_scal, <- sum_to_plus. apply sum_to_ext. intros k _. rewrite Rmult_minus_distr_l, cos_minus. ring. }
  split; [|split].
  - intros E. assert (NE : N = (2 * M)%nat). { destruct HH as [E2|E2]; [|exact E2]. rewrite E2, Nat.even_add, Nat.even_mul in E. discriminate. } rewrite (sum_to_ext N _ (fun _ => 0 * 1)).
    + rewrite sum_to_scal. unfold Rdiv. ring.
    + intros k _. replace (INR M * grid_point N k) with (IZR (Z.of_nat k) * PI).
      * rewrite sin_kPI. ring.
      * unfold grid_point. rewrite <- INR_IZR_INZ. assert (INR N = 2 * INR M) as EN by (rewrite NE, mult_INR; cbn [INR]; ring). rewrite EN. field. lra.
  - intros j J. rewrite P. rewrite (sum_to_ext N _ (fun k => if (S k =? S j)%nat then INR N * nth j fk 0 else 0)).
    + rewrite sum_kdelta. replace ((0 <? S j) && (S j <=? N))%nat with true by (symmetry; apply andb_true_intro; split; [apply Nat.ltb_lt; lia|apply Nat.leb_le; lia]). field. lra.
    + intros k K. replace (grid_point N j - grid_point N k) with (2 * PI * (IZR (Z.of_nat j - Z.of_nat k) / INR N)) by (unfold grid_point; rewrite minus_IZR, <- !INR_IZR_INZ; field; lra). rewrite (DK_delta N M) by assumption. destruct (Nat.eqb_spec (S k) (S j)) as [E|E].
      * replace k with j by lia. rewrite Z.sub_diag, Z.mod_0_l by lia. reflexivity.
      * fold (dv N (Z.of_nat j - Z.of_nat k)). rewrite dv_small by lia. ring.
  - intros eps x HX. rewrite P. now apply interp_kernel.
Qed.

(** ** At the sample points: the value tends to the datum, with an error of the order of eps *)
Lemma cos_small e : 0 < e <= 1 -> 1 / 2 <= cos e.
Proof. intros He. rewrite <- cos_PI3. pose proof PI2_3_2 as Q. apply cos_decr_1; lra. Qed.
Lemma sum_pick N j (g : nat -> R) : (j < N)%nat -> sum_to N g = g j + sum_to N (fun k => if (S k =? S j)%nat then 0 else g k).
Proof.
  intros J. transitivity (sum_to N (fun k => (if (S k =? S j)%nat then g k else 0) + (if (S k =? S j)%nat then 0 else g k))); [apply sum_to_ext; intros k _; destruct (S k =? S j)%nat; ring|]. rewrite sum_to_plus. f_equal. rewrite sum_kdelta.
  replace ((0 <? S j) && (S j <=? N))%nat with true by (symmetry; apply andb_true_intro; split; [apply Nat.ltb_lt; lia|apply Nat.leb_le; lia]). f_equal. lia.
Qed.
Lemma quotient_bound w c f s0 s1 h : w * w = 1 -> c * h = 1 -> Rabs (h * s0) <= 1 / 2 -> Rabs ((c * (w * f) + s1) / (c * w + s0) - f) <= 2 * Rabs (h * (s1 - f * s0)).
Proof.
  intros W C B. assert (HW : Rabs w = 1) by (apply Rsqr_inj; [apply Rabs_pos|lra|]; rewrite <- Rsqr_abs; unfold Rsqr; lra). assert (HN : h <> 0) by (intros ->; lra). assert (CN : c <> 0) by (intros ->; lra).
  assert (L : 1 / 2 <= Rabs (w + h * s0)). { pose proof (Rabs_triang (w + h * s0) (- (h * s0))) as T. rewrite Rabs_Ropp in T. replace (w + h * s0 + - (h * s0)) with w in T by ring. lra. }
  assert (NZ : w + h * s0 <> 0). { intros E. rewrite E, Rabs_R0 in L. lra. }
  assert (NZ2 : c * w + s0 <> 0). { intros E. apply NZ. replace (w + h * s0) with ((c * h) * w + h * s0) by (rewrite C; ring). transitivity (h * (c * w + s0)); [ring|rewrite E; ring]. }
  replace ((c * (w * f) + s1) / (c * w + s0) - f) with (h * (s1 - f * s0) * / (w + h * s0)).
  - rewrite Rabs_mult, Rabs_inv. pose proof (Rabs_pos (h * (s1 - f * s0))). assert (/ Rabs (w + h * s0) <= 2) by (apply (Rmult_le_reg_l (Rabs (w + h * s0))); [lra|]; rewrite Rinv_r by lra; lra). nra.
  - assert (E : w + h * s0 = h * (c * w + s0)) by (rewrite Rmult_plus_distr_l, <- Rmult_assoc, (Rmult_comm h c), C; ring). rewrite E. field. auto.
Qed.
Theorem C134_at_samples (fk : list R) (j : nat) : (j < length fk)%nat -> exists C e0, 0 < e0 /\ forall eps, 0 < eps <= e0 ->
  Rabs (fourier_interp eps fk (grid_point (length fk) j) - nth j fk 0) <= C * eps.
Proof.
  intros J. unfold fourier_interp. set (N := length fk) in *. assert (HN : (0 < N)%nat) by lia. pose proof (lt_0_INR _ HN) as PN. set (x := grid_point N j).
  assert (D0 : 1 / 2 * (x - fi_xk N j) = 0) by (rewrite xk_eq; unfold x; ring).
  assert (DN : forall eps k, (k < N)%nat -> k <> j -> fi_D eps N x k = fi_D 0 N x k).
  { intros eps k K E. assert (Z : 1 / 2 * (x - fi_xk N k) <> 0). { rewrite xk_eq. unfold x, grid_point. intros Z. apply E. apply INR_eq. assert (Z2 : PI * (INR j - INR k) / INR N = 0) by (rewrite <- Z; field; lra). pose proof PI_RGT_0. apply Rmult_eq_reg_l with (PI / INR N); [|apply Rgt_not_eq; apply Rdiv_lt_0_compat; lra]. unfold Rdiv in *. lra. }
    unfold fi_D. destruct (Req_EM_T (1 / 2 * (x - fi_xk N k)) 0) as [Q|Q]; [contradiction|]. now rewrite !Rmult_0_r. }
  set (s1 := sum_to N (fun k => if (S k =? S j)%nat then 0 else fi_D 0 N x k * (fi_w k * nth k fk 0))). set (s0 := sum_to N (fun k => if (S k =? S j)%nat then 0 else fi_D 0 N x k * fi_w k)).
  exists (4 * Rabs (s1 - nth j fk 0 * s0)), (/ (4 * (1 + Rabs s0))). pose proof (Rabs_pos s0) as P0. pose proof (Rabs_pos (s1 - nth j fk 0 * s0)) as P1.
  assert (IP : 0 < / (4 * (1 + Rabs s0)) <= 1 / 4). { split; [apply Rinv_0_lt_compat; lra|]. apply (Rmult_le_reg_l (4 * (1 + Rabs s0))); [lra|]. rewrite Rinv_r by lra. lra. }
  split; [apply IP|]. intros eps (E0 & E1). assert (E2 : eps <= 1) by lra. pose proof (cos_small eps (conj E0 E2)) as CP. pose proof (COS_bound eps) as CB. assert (SP : 0 < sin eps) by (apply sin_gt_0; [lra|]; pose proof PI2_3_2; lra). assert (SE : sin eps < eps) by (apply sin_lt_x; lra).
  set (c := fi_D eps N x j). assert (H : exists h, c * h = 1 /\ 0 < h /\ h <= 2 * eps).
  { unfold c, fi_D. rewrite D0. destruct (Req_EM_T 0 0) as [_|Q]; [|lra]. rewrite Rmult_1_r, Rplus_0_l. destruct (Nat.even N).
    - exists (sin eps / cos eps). unfold inv_tan. split; [field; lra|]. split; [apply Rdiv_lt_0_compat; lra|]. apply (Rmult_le_reg_r (cos eps)); [lra|]. unfold Rdiv. rewrite Rmult_assoc, Rinv_l by lra. nra.
    - exists (sin eps). split; [field; lra|lra]. }
  destruct H as (h & CH & H0 & H2). rewrite (sum_pick N j (fun k => fi_D eps N x k * (fi_w k * nth k fk 0)) J), (sum_pick N j (fun k => fi_D eps N x k * fi_w k) J). fold c.
  rewrite (sum_to_ext N (fun k => if (S k =? S j)%nat then 0 else fi_D eps N x k * (fi_w k * nth k fk 0)) (fun k => if (S k =? S j)%nat then 0 else fi_D 0 N x k * (fi_w k * nth k fk 0))) by (intros k K; destruct (Nat.eqb_spec (S k) (S j)); [reflexivity|rewrite DN by (assumption || lia); reflexivity]).
  rewrite (sum_to_ext N (fun k => if (S k =? S j)%nat then 0 else fi_D eps N x k * fi_w k) (fun k => if (S k =? S j)%nat then 0 else fi_D 0 N x k * fi_w k)) by (intros k K; destruct (Nat.eqb_spec (S k) (S j)); [reflexivity|rewrite DN by (assumption || lia); reflexivity]).
  fold s0 s1. eapply Rle_trans.
  - apply (quotient_bound (fi_w j) c (nth j fk 0) s0 s1 h); [apply alt_sq|exact CH|]. rewrite Rabs_mult, (Rabs_pos_eq h) by lra. assert (h * Rabs s0 <= 2 * eps * Rabs s0) by nra. assert (eps * (4 * (1 + Rabs s0)) <= 1). { apply Rle_trans with (/ (4 * (1 + Rabs s0)) * (4 * (1 + Rabs s0))); [apply Rmult_le_compat_r; lra|rewrite Rinv_l; lra]. } nra.
  - rewrite Rabs_mult, (Rabs_pos_eq h) by lra. nra.
Qed.

(** ** Consequences a user relies on *)
(** One value per point, linear in the data, exact for constants, periodic. *)
Theorem C134_laws (eps : R) (fk gk : list R) (c d : R) : fk <> [] -> length gk = length fk ->
  (forall xs, length (fourier_interpolation eps fk xs) = length xs /\ forall i, (i < length xs)%nat -> nth i (fourier_interpolation eps fk xs) 0 = fourier_interp eps fk (nth i xs 0)) /\
  (forall x, fourier_interp eps (map (fun p => c * fst p + d * snd p) (combine fk gk)) x = c * fourier_interp eps fk x + d * fourier_interp eps gk x) /\
  (forall x, off_grid (length fk) x -> (forall k, (k < length fk)%nat -> nth k fk 0 = c) -> fourier_interp eps fk x = c) /\
  (forall x, off_grid (length fk) x -> fourier_interp eps fk (x + 2 * PI) = fourier_interp eps fk x).
Proof.
  intros HF HG. assert (HN : (0 < length fk)%nat) by (destruct fk; [congruence|cbn; lia]). pose proof (lt_0_INR _ HN) as PN. split; [|split; [|split]].
  - intros xs. split; [apply map_length|]. intros i Hi. unfold fourier_interpolation. rewrite (nth_indep _ 0 (fourier_interp eps fk 0)) by (now rewrite map_length). apply map_nth.
  - intros x. unfold fourier_interp. rewrite map_length, combine_length, HG, Nat.min_id. set (N := length fk) in *.
    rewrite (sum_to_ext N (fun k => fi_D eps N x k * (fi_w k * nth k (map _ _) 0)) (fun k => c * (fi_D eps N x k * (fi_w k * nth k fk 0)) + d * (fi_D eps N x k * (fi_w k * nth k gk 0)))).
    + rewrite sum_to_plus, !sum_to_scal. unfold Rdiv. ring.
    + intros k K. rewrite (nth_indep _ 0 ((fun p => c * fst p + d * snd p) (0, 0))) by (rewrite map_length, combine_length, HG; fold N; lia). rewrite (map_nth (fun p => c * fst p + d * snd p)), combine_nth by (now symmetry). cbn [fst snd]. ring.
  - intros x HX HC. rewrite (C134_exact eps fk 0 (fun _ => c) (fun _ => 0) HF); [unfold trig_poly, sum_to; cbn; ring|lia|reflexivity| |exact HX]. intros k K. rewrite HC by exact K. unfold trig_poly, sum_to. cbn. ring.
  - intros x HX. destruct (C134_interpolates fk HF) as (a & b & _ & _ & P). rewrite !P; [| |]; try exact HX.
    + unfold trig_poly. f_equal. apply sum_to_ext. intros m _. replace (INR (S m) * (x + 2 * PI)) with (INR (S m) * x + 2 * PI * IZR (Z.of_nat (S m))) by (rewrite <- INR_IZR_INZ; ring). rewrite cos_2PIk. replace (2 * PI * IZR (Z.of_nat (S m))) with (2 * (IZR (Z.of_nat (S m)) * PI)) by ring. now rewrite sin_2kPI.
    + intros q E. apply (HX (q - Z.of_nat (length fk))%Z). rewrite minus_IZR, <- INR_IZR_INZ. assert (E2 : x = 2 * PI * IZR q / INR (length fk) - 2 * PI) by lra. rewrite E2. field. lra.
Qed.

(** Sampled at other points of a uniform grid shifted by s, a trigonometric polynomial is recovered everywhere. *)
Example C134_case : fourier_interp (1 / 1000) [3; 1; -1; 1] (PI / 4) = 1 + 2 * cos (PI / 4) /\ off_grid 4 (PI / 4).
Proof.
  assert (O : off_grid 4 (PI / 4)).
  { intros j E. pose proof PI_RGT_0. assert (E2 : PI * IZR 1 = PI * IZR (2 * j)) by (rewrite mult_IZR; cbn [INR] in E; lra). apply Rmult_eq_reg_l in E2; [|lra]. apply eq_IZR in E2. lia. }
  split; [|exact O]. rewrite (C134_exact _ _ 1 (fun m => match m with 0%nat => 1 | _ => 2 end) (fun _ => 0)); [unfold trig_poly, sum_to; cbn; rewrite Rmult_1_l; ring|discriminate|cbn; lia|reflexivity| |exact O].
  intros k K. unfold trig_poly, sum_to, grid_point. cbn [length] in *. cbn [seq map rsuml fold_right]. change (INR 1) with 1. replace (INR 4) with 4 by (cbn; ring).
  destruct k as [|[|[|[|k]]]]; cbn [nth]; [| | | |lia].
  - change (INR 0) with 0. replace (1 * (2 * PI * 0 / 4)) with 0 by field. rewrite cos_0, sin_0. ring.
  - change (INR 1) with 1. replace (1 * (2 * PI * 1 / 4)) with (PI / 2) by field. rewrite cos_PI2, sin_PI2. ring.
  - change (INR 2) with (1 + 1). replace (1 * (2 * PI * (1 + 1) / 4)) with PI by field. rewrite cos_PI, sin_PI. ring.
  - change (INR 3) with (1 + 1 + 1). replace (1 * (2 * PI * (1 + 1 + 1) / 4)) with (3 * (PI / 2)) by field. rewrite cos_3PI2, sin_3PI2. ring.
Qed.
Print Assumptions C134_exact.
Print Assumptions C134_interpolates.
Print Assumptions C134_at_samples.
Print Assumptions C134_laws.
