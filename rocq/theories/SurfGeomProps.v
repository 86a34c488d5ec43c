(** C65: position and derivatives of SurfaceRZFourier. *)
From Coq Require Import Reals Lra Lia ZArith.
From Verif Require Import ListAux VecAux Vec3 BSModel BSDeriv BSVjp SurfModel SurfProps SurfGeom.
Open Scope R_scope.

(** ** Specification: the Fourier series of the documentation *)
Definition series (s : surf) (term : nat -> Z -> R) : R :=
  rsuml (map (fun m => rsuml (map (fun j => term m (Z.of_nat j - Z.of_nat (ntor s))%Z) (seq 0 (2 * ntor s + 1)))) (seq 0 (mpol s + 1))).
Definition arg (nfp m : nat) (n : Z) (theta phi : R) : R := INR m * theta - IZR n * INR nfp * phi.
Definition major (s : surf) (nfp : nat) (theta phi : R) : R :=
  series s (fun m n => coef s RC m n * cos (arg nfp m n theta phi) + (if stellsym s then 0 else coef s RS m n * sin (arg nfp m n theta phi))).
Definition height (s : surf) (nfp : nat) (theta phi : R) : R :=
  series s (fun m n => (if stellsym s then 0 else coef s ZC m n * cos (arg nfp m n theta phi)) + coef s ZS m n * sin (arg nfp m n theta phi)).
Definition point (s : surf) (nfp : nat) (theta phi : R) : vec3 :=
  V3 (major s nfp theta phi * cos phi) (major s nfp theta phi * sin phi) (height s nfp theta phi).

(** ** Sums of vectors *)
Lemma sum3_ext {A} (f g : A -> vec3) l : (forall a, In a l -> f a = g a) -> sum3 (map f l) = sum3 (map g l).
Proof. induction l as [|a l IH]; intros H; cbn; auto. rewrite H, IH; auto; [intros; apply H; now right|now left]. Qed.
Lemma sum3_zero {A} (f : A -> vec3) l : (forall a, In a l -> f a = v0) -> sum3 (map f l) = v0.
Proof. induction l as [|a l IH]; intros H; cbn; auto. rewrite H, IH; [apply add3_0_l|intros; apply H; now right|now left]. Qed.
Lemma sum3_swap {A B} (f : A -> B -> vec3) l m : sum3 (map (fun a => sum3 (map (f a) m)) l) = sum3 (map (fun b => sum3 (map (fun a => f a b) l)) m).
Proof.
  induction l as [|a l IH]; cbn [map sum3]; [symmetry; now apply sum3_zero|]. rewrite IH, <- sum3_map_add. reflexivity.
Qed.
Lemma sum3_flat {A} (f : A -> list vec3) l : sum3 (flat_map f l) = sum3 (map (fun a => sum3 (f a)) l).
Proof. induction l as [|a l IH]; cbn; auto. now rewrite sum3_app, IH. Qed.
Lemma vx_sum3 l : vx (sum3 l) = rsuml (map vx l). Proof. induction l as [|a l IH]; cbn; auto. now rewrite IH. Qed.
Lemma vy_sum3 l : vy (sum3 l) = rsuml (map vy l). Proof. induction l as [|a l IH]; cbn; auto. now rewrite IH. Qed.
Lemma vz_sum3 l : vz (sum3 l) = rsuml (map vz l). Proof. induction l as [|a l IH]; cbn; auto. now rewrite IH. Qed.

(** ** The loops *)
Section Loop.
Variables (s : surf) (nfp : nat).
Definition exact (thetas : list R) (phi : R) (m i : nat) : list (R * R) := map (fun t => (sin (ang s nfp m i t phi), cos (ang s nfp m i t phi))) thetas.
Lemma ang_S m i t phi : ang s nfp m (S i) t phi = ang s nfp m i t phi + - INR nfp * phi.
Proof. unfold ang, nn. rewrite S_INR. ring. Qed.
Lemma refresh_exact always thetas phi m i sc : (i mod 5 = 0)%nat \/ sc = exact thetas phi m i -> refresh s nfp always thetas phi m i sc = exact thetas phi m i.
Proof.
  unfold refresh. destruct (Nat.eqb_spec (i mod 5) 0) as [E|E]; auto. intros [?| ->]; [contradiction|]. destruct always; auto.
  unfold exact. induction thetas as [|t l IH]; cbn; auto. now rewrite IH.
Qed.
Lemma rotate_exact thetas phi m i : (S i mod 5 = 0)%nat \/ rotate nfp phi i (exact thetas phi m i) = exact thetas phi m (S i).
Proof.
  unfold rotate. destruct (Nat.eqb_spec (i mod 5) 4) as [E|E].
  - left. replace (S i) with (i + 1)%nat by lia. rewrite Nat.add_mod, E by lia. reflexivity.
  - right. unfold exact. rewrite map_map. apply map_ext. intros t. cbn [fst snd]. rewrite ang_S, sin_plus, cos_plus. f_equal; ring.
Qed.
Lemma vloop_exact {A} always junk thetas phi (body : nat -> nat -> list (R * R) -> A -> A) a :
  vloop s nfp always junk thetas phi body a =
  fold_left (fun a m => fold_left (fun a i => body m i (exact thetas phi m i) a) (seq 0 (width s)) a) (seq 0 (mpol s + 1)) a.
Proof.
  unfold vloop. revert a. induction (seq 0 (mpol s + 1)) as [|m l IH]; intros a; cbn [fold_left]; auto. rewrite IH. f_equal. clear IH.
  assert (H : forall n i sc a, (i mod 5 = 0)%nat \/ sc = exact thetas phi m i ->
    snd (fold_left (fun st i => let sc := refresh s nfp always thetas phi m i (fst st) in (rotate nfp phi i sc, body m i sc (snd st))) (seq i n) (sc, a)) =
    fold_left (fun a i => body m i (exact thetas phi m i) a) (seq i n) a).
  { induction n as [|n IH]; intros i sc b H; cbn [seq fold_left]; auto. cbn [fst snd]. rewrite refresh_exact by auto. apply IH. apply rotate_exact. }
  apply H. now left.
Qed.
Lemma loop_exact {A} junk theta phi (body : nat -> nat -> R -> R -> A -> A) a : loop s nfp junk theta phi body a = plain_mi s nfp theta phi body a.
Proof. unfold loop. rewrite vloop_exact. reflexivity. Qed.

(** ** Linear combinations of the columns *)
Definition term (d : column) (theta phi : R) (m i : nat) : vec3 := sum3 (map (fun k => scal3 (ent s k m i) (d k m i theta phi)) (order s)).
Definition lin (d : column) (theta phi : R) : vec3 :=
  sum3 (map (fun m => sum3 (map (fun i => term d theta phi m i) (seq 0 (width s)))) (seq 0 (mpol s + 1))).
Lemma fold_fin {A B} (body : B -> A -> A) (fin : A -> vec3) (c : B -> vec3) l : (forall b a, fin (body b a) = add3 (fin a) (c b)) ->
  forall a, fin (fold_left (fun a b => body b a) l a) = add3 (fin a) (sum3 (map c l)).
Proof.
  intros H. induction l as [|b l IH]; intros a; cbn [fold_left map sum3]; [symmetry; apply add3_0_r|]. now rewrite IH, H, add3_assoc.
Qed.
Lemma plain_mi_fin {A} theta phi (body : nat -> nat -> R -> R -> A -> A) (fin : A -> vec3) d a :
  (forall m i a, fin (body m i (sin (ang s nfp m i theta phi)) (cos (ang s nfp m i theta phi)) a) = add3 (fin a) (term d theta phi m i)) ->
  fin a = v0 -> fin (plain_mi s nfp theta phi body a) = lin d theta phi.
Proof.
  intros H H0. unfold plain_mi, lin.
  rewrite (fold_fin (fun m a => fold_left (fun a i => body m i (sin (ang s nfp m i theta phi)) (cos (ang s nfp m i theta phi)) a) (seq 0 (width s)) a) fin
            (fun m => sum3 (map (fun i => term d theta phi m i) (seq 0 (width s))))); [rewrite H0; apply add3_0_l|].
  intros m b. exact (fold_fin (fun i a => body m i _ _ a) fin (fun i => term d theta phi m i) (seq 0 (width s)) (fun i a => H m i a) b).
Qed.
Lemma plain_im_fin {A} theta phi (body : nat -> nat -> R -> R -> A -> A) (fin : A -> vec3) d a :
  (forall m i a, fin (body m i (sin (ang s nfp m i theta phi)) (cos (ang s nfp m i theta phi)) a) = add3 (fin a) (term d theta phi m i)) ->
  fin a = v0 -> fin (plain_im s nfp theta phi body a) = lin d theta phi.
Proof.
  intros H H0. unfold plain_im, lin. rewrite sum3_swap.
  rewrite (fold_fin (fun i a => fold_left (fun a m => body m i (sin (ang s nfp m i theta phi)) (cos (ang s nfp m i theta phi)) a) (seq 0 (mpol s + 1)) a) fin
            (fun i => sum3 (map (fun m => term d theta phi m i) (seq 0 (mpol s + 1))))); [rewrite H0; apply add3_0_l|].
  intros i b. exact (fold_fin (fun m a => body m i _ _ a) fin (fun m => term d theta phi m i) (seq 0 (mpol s + 1)) (fun m a => H m i a) b).
Qed.
Ltac fin := intros; repeat match goal with p : (_ * _)%type |- _ => destruct p end; cbv beta iota zeta delta [gamma_body]; unfold term, order; destruct (stellsym s); cbn [map sum3 d0 d1 d2 d11 d12 d22]; v3; unfold N; ring.
Ltac fin0 := cbv beta iota zeta; v3; ring.
Lemma gamma_lin_eq qphi qtheta : gamma_lin_at s nfp qphi qtheta = lin (d0 s nfp) (2 * PI * qtheta) (2 * PI * qphi).
Proof.
  unfold gamma_lin_at. set (phi := 2 * PI * qphi).
  apply (plain_mi_fin _ phi _ (fun a => let '(r, z) := a in V3 (r * cos phi) (r * sin phi) z)); [fin|fin0].
Qed.
Lemma gamma_eq junk qphi qtheta : gamma_at s nfp junk qphi qtheta = lin (d0 s nfp) (2 * PI * qtheta) (2 * PI * qphi).
Proof. rewrite <- gamma_lin_eq. unfold gamma_at, gamma_lin_at. now rewrite loop_exact. Qed.
Lemma gammadash1_eq junk qphi qtheta : gammadash1_at s nfp junk qphi qtheta = lin (d1 s nfp) (2 * PI * qtheta) (2 * PI * qphi).
Proof.
  unfold gammadash1_at. rewrite loop_exact. set (phi := 2 * PI * qphi).
  apply (plain_mi_fin _ phi _ (fun a => let '(r, rd, zd) := a in V3 (2 * PI * (rd * cos phi - r * sin phi)) (2 * PI * (rd * sin phi + r * cos phi)) (zd * (2 * PI)))); [fin|fin0].
Qed.
Lemma gammadash2_eq junk qphi qtheta : gammadash2_at s nfp junk qphi qtheta = lin (d2 s nfp) (2 * PI * qtheta) (2 * PI * qphi).
Proof.
  unfold gammadash2_at. rewrite loop_exact. set (phi := 2 * PI * qphi).
  apply (plain_mi_fin _ phi _ (fun a => let '(rd, zd) := a in V3 (2 * PI * rd * cos phi) (2 * PI * rd * sin phi) (zd * (2 * PI)))); [fin|fin0].
Qed.
Lemma gammadash1dash1_eq qphi qtheta : gammadash1dash1_at s nfp qphi qtheta = lin (d11 s nfp) (2 * PI * qtheta) (2 * PI * qphi).
Proof.
  unfold gammadash1dash1_at. set (phi := 2 * PI * qphi).
  apply (plain_im_fin _ phi _ (fun a => let '(r, rd, rdd, zdd) := a in V3 (4 * PI * PI * (rdd * cos phi - 2 * rd * sin phi - r * cos phi))
     (4 * PI * PI * (rdd * sin phi + 2 * rd * cos phi - r * sin phi)) (4 * PI * PI * zdd))); [fin|fin0].
Qed.
Lemma gammadash1dash2_eq qphi qtheta : gammadash1dash2_at s nfp qphi qtheta = lin (d12 s nfp) (2 * PI * qtheta) (2 * PI * qphi).
Proof.
  unfold gammadash1dash2_at. set (phi := 2 * PI * qphi).
  apply (plain_im_fin _ phi _ (fun a => let '(rd2, rd1d2, zd1d2) := a in
     V3 (4 * PI * PI * (rd1d2 * cos phi - rd2 * sin phi)) (4 * PI * PI * (rd1d2 * sin phi + rd2 * cos phi)) (4 * PI * PI * zd1d2))); [fin|fin0].
Qed.
Lemma gammadash2dash2_eq qphi qtheta : gammadash2dash2_at s nfp qphi qtheta = lin (d22 s nfp) (2 * PI * qtheta) (2 * PI * qphi).
Proof.
  unfold gammadash2dash2_at. set (phi := 2 * PI * qphi).
  apply (plain_im_fin _ phi _ (fun a => let '(rdd, zdd) := a in V3 (4 * PI * PI * rdd * cos phi) (4 * PI * PI * rdd * sin phi) (4 * PI * PI * zdd))); [fin|fin0].
Qed.
Lemma D3_lin (d d' : column) (th ph : R -> R) t : (forall k m i, D3 (fun u => d k m i (th u) (ph u)) t (d' k m i (th t) (ph t))) ->
  D3 (fun u => lin d (th u) (ph u)) t (lin d' (th t) (ph t)).
Proof.
  intros H. unfold lin. apply D3_sum. intros m _. apply D3_sum. intros i _. unfold term. apply D3_sum. intros k _. apply D3_scalc. apply H.
Qed.
End Loop.

(** ** Derivatives *)
Lemma D_sin f t a : D f t a -> D (fun u => sin (f u)) t (a * cos (f t)).
Proof. intros H. rewrite Rmult_comm. apply (derivable_pt_lim_comp f sin); auto. apply derivable_pt_lim_sin. Qed.
Lemma D_cos f t a : D f t a -> D (fun u => cos (f u)) t (- (a * sin (f t))).
Proof. intros H. replace (- (a * sin (f t))) with (- sin (f t) * a) by ring. apply (derivable_pt_lim_comp f cos); auto. apply derivable_pt_lim_cos. Qed.
Ltac dtac := repeat first [apply D_const | apply D_id | eapply D_add | eapply D_sub | eapply D_opp | eapply D_mul | eapply D_sin | eapply D_cos].
Ltac d3 := split; [|split]; cbn [vx vy vz d0 d1 d2 d11 d12 d22]; (eapply D_val; [|dtac]); cbn [vx vy vz d0 d1 d2 d11 d12 d22]; unfold N; ring.
Section Derivs.
Variables (s : surf) (nfp : nat).
Lemma d0_phi k m i qphi qtheta : D3 (fun u => d0 s nfp k m i (2 * PI * qtheta) (2 * PI * u)) qphi (d1 s nfp k m i (2 * PI * qtheta) (2 * PI * qphi)).
Proof. unfold d0, d1, ang. destruct k; d3. Qed.
Lemma d0_theta k m i qphi qtheta : D3 (fun u => d0 s nfp k m i (2 * PI * u) (2 * PI * qphi)) qtheta (d2 s nfp k m i (2 * PI * qtheta) (2 * PI * qphi)).
Proof. unfold d0, d2, ang. destruct k; d3. Qed.
Lemma d1_phi k m i qphi qtheta : D3 (fun u => d1 s nfp k m i (2 * PI * qtheta) (2 * PI * u)) qphi (d11 s nfp k m i (2 * PI * qtheta) (2 * PI * qphi)).
Proof. unfold d1, d11, ang. destruct k; d3. Qed.
Lemma d1_theta k m i qphi qtheta : D3 (fun u => d1 s nfp k m i (2 * PI * u) (2 * PI * qphi)) qtheta (d12 s nfp k m i (2 * PI * qtheta) (2 * PI * qphi)).
Proof. unfold d1, d12, ang. destruct k; d3. Qed.
Lemma d2_phi k m i qphi qtheta : D3 (fun u => d2 s nfp k m i (2 * PI * qtheta) (2 * PI * u)) qphi (d12 s nfp k m i (2 * PI * qtheta) (2 * PI * qphi)).
Proof. unfold d2, d12, ang. destruct k; d3. Qed.
Lemma d2_theta k m i qphi qtheta : D3 (fun u => d2 s nfp k m i (2 * PI * u) (2 * PI * qphi)) qtheta (d22 s nfp k m i (2 * PI * qtheta) (2 * PI * qphi)).
Proof. unfold d2, d22, ang. destruct k; d3. Qed.

Variable junk : list (R * R).
(** gammadash1 and gammadash2 are the derivatives of gamma with respect to the quadrature points phi and theta (in [0,1)) *)
Theorem C65_gammadash1 qphi qtheta : D3 (fun u => gamma_at s nfp junk u qtheta) qphi (gammadash1_at s nfp junk qphi qtheta).
Proof.
  rewrite gammadash1_eq. apply (D3_ext (fun u => lin s (d0 s nfp) (2 * PI * qtheta) (2 * PI * u))); [intros; symmetry; apply gamma_eq|].
  apply (D3_lin s (d0 s nfp) (d1 s nfp) (fun _ => 2 * PI * qtheta) (fun u => 2 * PI * u)). intros. apply d0_phi.
Qed.
Theorem C65_gammadash2 qphi qtheta : D3 (fun u => gamma_at s nfp junk qphi u) qtheta (gammadash2_at s nfp junk qphi qtheta).
Proof.
  rewrite gammadash2_eq. apply (D3_ext (fun u => lin s (d0 s nfp) (2 * PI * u) (2 * PI * qphi))); [intros; symmetry; apply gamma_eq|].
  apply (D3_lin s (d0 s nfp) (d2 s nfp) (fun u => 2 * PI * u) (fun _ => 2 * PI * qphi)). intros. apply d0_theta.
Qed.
Theorem C65_gammadash1dash1 qphi qtheta : D3 (fun u => gammadash1_at s nfp junk u qtheta) qphi (gammadash1dash1_at s nfp qphi qtheta).
Proof.
  rewrite gammadash1dash1_eq. apply (D3_ext (fun u => lin s (d1 s nfp) (2 * PI * qtheta) (2 * PI * u))); [intros; symmetry; apply gammadash1_eq|].
  apply (D3_lin s (d1 s nfp) (d11 s nfp) (fun _ => 2 * PI * qtheta) (fun u => 2 * PI * u)). intros. apply d1_phi.
Qed.
Theorem C65_gammadash1dash2 qphi qtheta :
  D3 (fun u => gammadash1_at s nfp junk qphi u) qtheta (gammadash1dash2_at s nfp qphi qtheta) /\
  D3 (fun u => gammadash2_at s nfp junk u qtheta) qphi (gammadash1dash2_at s nfp qphi qtheta).
Proof.
  rewrite gammadash1dash2_eq. split.
  - apply (D3_ext (fun u => lin s (d1 s nfp) (2 * PI * u) (2 * PI * qphi))); [intros; symmetry; apply gammadash1_eq|].
    apply (D3_lin s (d1 s nfp) (d12 s nfp) (fun u => 2 * PI * u) (fun _ => 2 * PI * qphi)). intros. apply d1_theta.
  - apply (D3_ext (fun u => lin s (d2 s nfp) (2 * PI * qtheta) (2 * PI * u))); [intros; symmetry; apply gammadash2_eq|].
    apply (D3_lin s (d2 s nfp) (d12 s nfp) (fun _ => 2 * PI * qtheta) (fun u => 2 * PI * u)). intros. apply d2_phi.
Qed.
Theorem C65_gammadash2dash2 qphi qtheta : D3 (fun u => gammadash2_at s nfp junk qphi u) qtheta (gammadash2dash2_at s nfp qphi qtheta).
Proof.
  rewrite gammadash2dash2_eq. apply (D3_ext (fun u => lin s (d2 s nfp) (2 * PI * u) (2 * PI * qphi))); [intros; symmetry; apply gammadash2_eq|].
  apply (D3_lin s (d2 s nfp) (d22 s nfp) (fun u => 2 * PI * u) (fun _ => 2 * PI * qphi)). intros. apply d2_theta.
Qed.

(** ** The closed form *)
Lemma ang_arg m i theta phi : ang s nfp m i theta phi = arg nfp m (Z.of_nat i - Z.of_nat (ntor s)) theta phi.
Proof. unfold ang, arg, nn. now rewrite minus_IZR, <- !INR_IZR_INZ. Qed.
Lemma ent_coef k m i : ent s k m i = coef s k m (Z.of_nat i - Z.of_nat (ntor s)).
Proof. unfold ent, coef. f_equal. lia. Qed.
Lemma rsuml_map_mul {A} (f : A -> R) c l : rsuml (map (fun a => f a * c) l) = rsuml (map f l) * c.
Proof. induction l as [|a l IH]; cbn; [ring|rewrite IH; ring]. Qed.
Lemma series_eq (f : nat -> nat -> vec3) (g : vec3 -> R) (t : nat -> Z -> R) c :
  (forall l, g (sum3 l) = rsuml (map g l)) -> (forall m i, g (f m i) = t m (Z.of_nat i - Z.of_nat (ntor s))%Z * c) ->
  g (sum3 (map (fun m => sum3 (map (fun i => f m i) (seq 0 (width s)))) (seq 0 (mpol s + 1)))) = series s t * c.
Proof.
  intros G F. rewrite G, map_map. unfold series. rewrite <- rsuml_map_mul. apply rsuml_map_ext. intros m _.
  rewrite G, map_map, <- rsuml_map_mul. apply rsuml_map_ext. intros i _. apply F.
Qed.
Lemma lin_point theta phi : lin s (d0 s nfp) theta phi = point s nfp theta phi.
Proof.
  unfold lin, point. apply v3_eq.
  - unfold major. apply (series_eq (term s (d0 s nfp) theta phi) vx); [apply vx_sum3|]. intros m i. unfold term, order. rewrite <- ang_arg, <- !ent_coef. destruct (stellsym s); cbn; ring.
  - unfold major. apply (series_eq (term s (d0 s nfp) theta phi) vy); [apply vy_sum3|]. intros m i. unfold term, order. rewrite <- ang_arg, <- !ent_coef. destruct (stellsym s); cbn; ring.
  - unfold height. cbn [vz]. rewrite <- (Rmult_1_r (series _ _)). apply (series_eq (term s (d0 s nfp) theta phi) vz); [apply vz_sum3|]. intros m i. unfold term, order. rewrite <- ang_arg, <- !ent_coef. destruct (stellsym s); cbn; ring.
Qed.
(** gamma is the Fourier series of the documentation, whatever the uninitialised variables held *)
Theorem C65_gamma_closed_form qphi qtheta :
  gamma_at s nfp junk qphi qtheta = point s nfp (2 * PI * qtheta) (2 * PI * qphi) /\
  gamma_lin_at s nfp qphi qtheta = point s nfp (2 * PI * qtheta) (2 * PI * qphi).
Proof. now rewrite gamma_eq, gamma_lin_eq, lin_point. Qed.

(** ** Symmetries *)
Lemma series_ext t t' : (forall m n, t m n = t' m n) -> series s t = series s t'.
Proof. intros H. unfold series. apply rsuml_map_ext. intros. apply rsuml_map_ext. intros. apply H. Qed.
Lemma trig_Z x n : sin (x + 2 * IZR n * PI) = sin x /\ cos (x + 2 * IZR n * PI) = cos x.
Proof.
  destruct (Z_le_gt_dec 0 n) as [H|H].
  - replace (IZR n) with (INR (Z.to_nat n)) by (rewrite INR_IZR_INZ, Z2Nat.id; auto). split; [apply sin_period|apply cos_period].
  - set (y := x + 2 * IZR n * PI). assert (E : x = y + 2 * INR (Z.to_nat (- n)) * PI).
    { unfold y. rewrite INR_IZR_INZ, Z2Nat.id, opp_IZR by lia. ring. }
    rewrite E, sin_period, cos_period. auto.
Qed.
Definition rot_z (alpha : R) (v : vec3) : vec3 := V3 (cos alpha * vx v - sin alpha * vy v) (sin alpha * vx v + cos alpha * vy v) (vz v).
(** moving by one field period rotates the point about the z axis by that angle; moving by 1 in theta changes nothing *)
Theorem C65_field_period qphi qtheta : (0 < nfp)%nat ->
  gamma_at s nfp junk (qphi + / INR nfp) qtheta = rot_z (2 * PI / INR nfp) (gamma_at s nfp junk qphi qtheta) /\
  gamma_at s nfp junk qphi (qtheta + 1) = gamma_at s nfp junk qphi qtheta.
Proof.
  intros Hn. assert (Hr : INR nfp <> 0) by (apply not_0_INR; lia). rewrite !(proj1 (C65_gamma_closed_form _ _)). split.
  - set (th := 2 * PI * qtheta). set (ph := 2 * PI * qphi). replace (2 * PI * (qphi + / INR nfp)) with (ph + 2 * PI / INR nfp) by (unfold ph; field; auto).
    assert (T : forall m n, sin (arg nfp m n th (ph + 2 * PI / INR nfp)) = sin (arg nfp m n th ph) /\ cos (arg nfp m n th (ph + 2 * PI / INR nfp)) = cos (arg nfp m n th ph)).
    { intros m n. replace (arg nfp m n th (ph + 2 * PI / INR nfp)) with (arg nfp m n th ph + 2 * IZR (- n) * PI) by (unfold arg; rewrite opp_IZR; field; auto). apply trig_Z. }
    assert (A : major s nfp th (ph + 2 * PI / INR nfp) = major s nfp th ph) by (apply series_ext; intros m n; destruct (T m n) as [-> ->]; reflexivity).
    assert (B : height s nfp th (ph + 2 * PI / INR nfp) = height s nfp th ph) by (apply series_ext; intros m n; destruct (T m n) as [-> ->]; reflexivity).
    unfold point, rot_z. rewrite A, B, cos_plus, sin_plus. apply v3_eq; cbn [vx vy vz]; ring.
  - set (th := 2 * PI * qtheta). set (ph := 2 * PI * qphi). replace (2 * PI * (qtheta + 1)) with (th + 2 * PI) by (unfold th; ring).
    assert (T : forall m n, sin (arg nfp m n (th + 2 * PI) ph) = sin (arg nfp m n th ph) /\ cos (arg nfp m n (th + 2 * PI) ph) = cos (arg nfp m n th ph)).
    { intros m n. replace (arg nfp m n (th + 2 * PI) ph) with (arg nfp m n th ph + 2 * IZR (Z.of_nat m) * PI) by (unfold arg; rewrite <- INR_IZR_INZ; ring). apply trig_Z. }
    assert (A : major s nfp (th + 2 * PI) ph = major s nfp th ph) by (apply series_ext; intros m n; destruct (T m n) as [-> ->]; reflexivity).
    assert (B : height s nfp (th + 2 * PI) ph = height s nfp th ph) by (apply series_ext; intros m n; destruct (T m n) as [-> ->]; reflexivity).
    unfold point. now rewrite A, B.
Qed.
Lemma rsuml_map_opp {A} (f : A -> R) l : rsuml (map (fun a => - f a) l) = - rsuml (map f l).
Proof. induction l as [|a l IH]; cbn; [ring|rewrite IH; ring]. Qed.
Lemma series_opp t : series s (fun m n => - t m n) = - series s t.
Proof. unfold series. rewrite <- rsuml_map_opp. apply rsuml_map_ext. intros m _. now rewrite rsuml_map_opp. Qed.
(** stellarator symmetry *)
Theorem C65_stellsym qphi qtheta : stellsym s = true ->
  gamma_at s nfp junk (- qphi) (- qtheta) = V3 (vx (gamma_at s nfp junk qphi qtheta)) (- vy (gamma_at s nfp junk qphi qtheta)) (- vz (gamma_at s nfp junk qphi qtheta)).
Proof.
  intros S. rewrite !(proj1 (C65_gamma_closed_form _ _)). set (th := 2 * PI * qtheta). set (ph := 2 * PI * qphi).
  replace (2 * PI * - qphi) with (- ph) by (unfold ph; ring). replace (2 * PI * - qtheta) with (- th) by (unfold th; ring).
  assert (T : forall m n, arg nfp m n (- th) (- ph) = - arg nfp m n th ph) by (intros; unfold arg; ring).
  assert (A : major s nfp (- th) (- ph) = major s nfp th ph) by (apply series_ext; intros; rewrite S, T, cos_neg; reflexivity).
  assert (B : height s nfp (- th) (- ph) = - height s nfp th ph) by (unfold height; rewrite <- series_opp; apply series_ext; intros; rewrite S, T, sin_neg; ring).
  unfold point. rewrite A, B, cos_neg, sin_neg. apply v3_eq; cbn [vx vy vz]; ring.
Qed.
End Derivs.

(** ** SIMD: every point of the row is computed, once, in order, whatever the register width *)
Lemma starts_rows {A} (f : nat -> A) sz : (0 < sz)%nat -> forall c n0 n, ((n - n0 + sz - 1) / sz <= c)%nat -> (n0 <= n)%nat ->
  flat_map (fun k2 => map (fun l => f (k2 + l)%nat) (filter (fun l => (k2 + l <? n)%nat) (seq 0 sz))) (map (fun c => (n0 + c * sz)%nat) (seq 0 c)) = map f (seq n0 (n - n0)).
Proof.
  intros Hs. induction c as [|c IH]; intros n0 n Hc Hn.
  - cbn. assert (n - n0 = 0)%nat. { apply Nat.le_0_r in Hc. apply Nat.div_small_iff in Hc; lia. } now rewrite H.
  - cbn [seq map flat_map]. replace (n0 + 0 * sz)%nat with n0 by lia. rewrite <- seq_shift, map_map.
    assert (F : forall k w, filter (fun l => (n0 + l <? n)%nat) (seq k w) = seq k (Nat.min w (n - n0 - k))).
    { intros k w. revert k. induction w as [|w IHw]; intros k; cbn [seq filter]; auto. destruct (Nat.ltb_spec (n0 + k) n).
      - rewrite IHw. replace (Nat.min (S w) (n - n0 - k)) with (S (Nat.min w (n - n0 - S k))) by lia. reflexivity.
      - rewrite IHw. replace (Nat.min (S w) (n - n0 - k)) with 0%nat by lia. replace (Nat.min w (n - n0 - S k)) with 0%nat by lia. reflexivity. }
    rewrite F, Nat.sub_0_r. destruct (Nat.le_gt_cases (n0 + sz) n) as [L|L].
    + rewrite Nat.min_l by lia.
      rewrite (map_ext (fun x => (n0 + S x * sz)%nat) (fun x => (n0 + sz + x * sz)%nat)) by (intros; lia).
      rewrite (IH (n0 + sz)%nat n); [|revert Hc; replace (n - n0 + sz - 1)%nat with ((n - (n0 + sz) + sz - 1) + 1 * sz)%nat by lia; rewrite Nat.div_add by lia; lia|lia].
      replace (n - n0)%nat with (sz + (n - (n0 + sz)))%nat by lia. rewrite seq_app, map_app. f_equal. rewrite (map_seq_shift f n0). reflexivity.
    + rewrite Nat.min_r by lia. rewrite <- (map_seq_shift f n0).
      match goal with |- ?a ++ ?b = _ => replace b with (@nil A) end; [apply app_nil_r|]. clear IH Hc F. symmetry.
      induction (seq 0 c) as [|x l IHl]; cbn [map flat_map]; auto. rewrite IHl, app_nil_r.
      assert (G : forall k w, filter (fun l => (n0 + S x * sz + l <? n)%nat) (seq k w) = []).
      { intros k w. revert k. induction w; intros k; cbn [seq filter]; auto. destruct (Nat.ltb_spec (n0 + S x * sz + k) n); [nia|]. apply IHw. }
      now rewrite G.
Qed.
Theorem C65_simd_rows sz f qthetas : (0 < sz)%nat -> simd_row sz f qthetas = map f qthetas.
Proof.
  intros Hs. unfold simd_row, starts. rewrite (map_ext (fun c => (c * sz)%nat) (fun c => (0 + c * sz)%nat)) by auto.
  rewrite (starts_rows (fun j => f (nth j qthetas 0)) sz Hs ((length qthetas + sz - 1) / sz) 0 (length qthetas)); [|rewrite Nat.sub_0_r; lia|lia].
  rewrite Nat.sub_0_r. rewrite <- (map_map (fun j => nth j qthetas 0) f). f_equal.
  apply (nth_ext _ _ 0 0); [now rewrite map_length, seq_length|]. intros j Hj. rewrite map_length, seq_length in Hj. now rewrite nth_map_seq.
Qed.
(** example: a circular torus, R = 1 + cos(theta)/2, Z = sin(theta)/2 *)
Definition torus : surf := Surf 1 0 true (fun k => match k with RC => [1; /2] | ZS => [0; /2] | _ => [0; 0] end).
Example C65_example : wf torus /\ gamma_at torus 3 [] 0 0 = V3 (3 / 2) 0 0.
Proof.
  split; [intros []; reflexivity|]. rewrite (proj1 (C65_gamma_closed_form _ _ _ _ _)). unfold point, major, height, series, arg. cbn. rewrite !Rmult_0_r, !Rmult_0_l, !Rminus_0_r, ?Rmult_0_r, cos_0, sin_0. apply v3_eq; cbn; field.
Qed.
