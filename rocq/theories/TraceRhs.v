(** The equations of motion of the tracing routines (src/simsoptpp/tracing.cpp:25-310, 423-525) over the reals:
    right-hand sides, magnetic moment and initial states.  The field classes are arbitrary functions. *)
From Coq Require Import Reals Lra List Ranalysis1.
From Verif Require Import Vec3 BSDeriv PointsModel.
Open Scope R_scope.

(** state of a guiding centre: three coordinates and the parallel speed *)
Record st4 := S4 { c1 : R; c2 : R; c3 : R; vpar : R }.

(** ** Cartesian modes.  The right-hand sides convert the position to (r, phi, z) with phi in [0, 2 pi) and call
    field->set_points_cyl; the field evaluates at the cartesian point it derives from that (magneticfield.h:62-74,173-176).
    tracing.cpp:57-63, 283-287, 318-322 *)
Definition seen_at (p : vec3) : vec3 := to_cart (wrap_cyl (to_cyl p)).
(** tracing.cpp:50-77 GuidingCenterVacuumRHS *)
Definition rhs_vac (B gradAbsB : vec3 -> vec3) (AbsB : vec3 -> R) (m q mu : R) (y : st4) : st4 :=
  let p := seen_at (V3 (c1 y) (c2 y) (c3 y)) in let v := vpar y in
  let b := B p in let g := gradAbsB p in let a := AbsB p in
  let bxg := V3 (vy b * vz g - vz b * vy g) (vz b * vx g - vx b * vz g) (vx b * vy g - vy b * vx g) in
  let v_perp2 := 2 * mu * a in
  let fak1 := v / a in
  let fak2 := (m / (q * a ^ 3)) * (0.5 * v_perp2 + v * v) in
  S4 (fak1 * vx b + fak2 * vx bxg) (fak1 * vy b + fak2 * vy bxg) (fak1 * vz b + fak2 * vz bxg)
     (- mu * (vx b * vx g + vy b * vy g + vz b * vz g) / a).
(** tracing.cpp:270-303 FullorbitRHS: position and velocity *)
Definition rhs_full (B : vec3 -> vec3) (m q : R) (y : vec3 * vec3) : vec3 * vec3 :=
  let b := B (seen_at (fst y)) in let v := snd y in let qoverm := q / m in
  (v, V3 (qoverm * (vy v * vz b - vz v * vy b)) (qoverm * (vz v * vx b - vx v * vz b)) (qoverm * (vx v * vy b - vy v * vx b))).
(** tracing.cpp:305-330 FieldlineRHS *)
Definition rhs_line (B : vec3 -> vec3) (y : vec3) : vec3 := B (seen_at y).

(** ** Boozer modes: what the field object returns at a point (s, theta, zeta) *)
Record bfield := BF { psi0 : R;
  Bm : R -> R -> R -> R; Bs : R -> R -> R -> R; Bt : R -> R -> R -> R; Bz : R -> R -> R -> R;
  Km : R -> R -> R -> R; Kt : R -> R -> R -> R; Kz : R -> R -> R -> R;
  Gm : R -> R; dG : R -> R; Im : R -> R; dI : R -> R; io : R -> R }.
(** tracing.cpp:104-128 GuidingCenterVacuumBoozerRHS *)
Definition rhs_bvac (f : bfield) (m q mu : R) (y : st4) : st4 :=
  let s := c1 y in let th := c2 y in let ze := c3 y in let v := vpar y in
  let modB := Bm f s th ze in let G := Gm f s in let iota := io f s in
  let fak1 := m * v * v / modB + m * mu in
  S4 (- Bt f s th ze * fak1 / (q * psi0 f))
     (Bs f s th ze * fak1 / (q * psi0 f) + iota * v * modB / G)
     (v * modB / G)
     (- (iota * Bt f s th ze + Bz f s th ze) * mu * modB / G).
(** tracing.cpp:160-191 GuidingCenterNoKBoozerRHS *)
Definition rhs_bnok (f : bfield) (m q mu : R) (y : st4) : st4 :=
  let s := c1 y in let th := c2 y in let ze := c3 y in let v := vpar y in
  let modB := Bm f s th ze in let G := Gm f s in let I := Im f s in let iota := io f s in
  let dGdpsi := dG f s / psi0 f in let dIdpsi := dI f s / psi0 f in
  let dBp := Bs f s th ze / psi0 f in let dBt := Bt f s th ze in let dBz := Bz f s th ze in
  let fak1 := m * v * v / modB + m * mu in
  let D := ((q + m * v * dIdpsi / modB) * G - (- q * iota + m * v * dGdpsi / modB) * I) / iota in
  let d0 := (I * dBz - G * dBt) * fak1 / (D * iota * psi0 f) in
  let d1 := (G * dBp * fak1 - (- q * iota + m * v * dGdpsi / modB) * v * modB) / (D * iota) in
  let d2 := ((q + m * v * dIdpsi / modB) * v * modB - dBp * fak1 * I) / (D * iota) in
  S4 d0 d1 d2 (- (mu / v) * (dBp * d0 * psi0 f + dBt * d1 + dBz * d2)).
(** tracing.cpp:222-260 GuidingCenterBoozerRHS *)
Definition rhs_bgc (f : bfield) (m q mu : R) (y : st4) : st4 :=
  let s := c1 y in let th := c2 y in let ze := c3 y in let v := vpar y in
  let modB := Bm f s th ze in let K := Km f s th ze in let dKt := Kt f s th ze in let dKz := Kz f s th ze in
  let G := Gm f s in let I := Im f s in let iota := io f s in
  let dGdpsi := dG f s / psi0 f in let dIdpsi := dI f s / psi0 f in
  let dBp := Bs f s th ze / psi0 f in let dBt := Bt f s th ze in let dBz := Bz f s th ze in
  let fak1 := m * v * v / modB + m * mu in
  let C := - m * v * (dKz - dGdpsi) / modB - q * iota in
  let F := - m * v * (dKt - dIdpsi) / modB + q in
  let D := (F * G - C * I) / iota in
  let d0 := (I * dBz - G * dBt) * fak1 / (D * iota * psi0 f) in
  let d1 := (G * dBp * fak1 - C * v * modB - K * fak1 * dBz) / (D * iota) in
  let d2 := (F * v * modB - dBp * fak1 * I + K * fak1 * dBt) / (D * iota) in
  S4 d0 d1 d2 (- (mu / v) * (dBp * d0 * psi0 f + dBt * d1 + dBz * d2)).

(** tracing.cpp:430-432, 461-463 *)
Definition mu_init (AbsB vtotal vtang : R) : R := (vtotal * vtotal - vtang * vtang) / (2 * AbsB).
(** tracing.py:175, 283 speed_total = sqrt(2*Ekin/m) *)
Definition speed_total (Ekin m : R) : R := sqrt (2 * Ekin / m).

(** ** Specification *)
(** y has the derivative y' at t, componentwise *)
Definition D4 (y : R -> st4) (t : R) (y' : st4) : Prop :=
  D (fun s => c1 (y s)) t (c1 y') /\ D (fun s => c2 (y s)) t (c2 y') /\ D (fun s => c3 (y s)) t (c3 y') /\ D (fun s => vpar (y s)) t (vpar y').
(** y solves the equation on the open interval (a, b) *)
Definition solves4 (rhs : st4 -> st4) (a b : R) (y : R -> st4) : Prop := forall t, a < t < b -> D4 y t (rhs (y t)).
(** g is the gradient of f *)
Definition is_grad (f : vec3 -> R) (g : vec3 -> vec3) : Prop := forall p p' t, D3 p t p' -> D (fun s => f (p s)) t (dot3 (g (p t)) p').
(** the functions of the field are what their names say: |B| and K have the given partial derivatives, G and I the
    given ones; Ks is the radial derivative of K and psip the poloidal flux, which the code does not use *)
Definition is_grad3 (f fs ft fz : R -> R -> R -> R) : Prop :=
  forall s th ze s' th' ze' t, D s t s' -> D th t th' -> D ze t ze' ->
    D (fun u => f (s u) (th u) (ze u)) t (fs (s t) (th t) (ze t) * s' + ft (s t) (th t) (ze t) * th' + fz (s t) (th t) (ze t) * ze').
Definition along1 (f f' : R -> R) : Prop := forall s s' t, D s t s' -> D (fun u => f (s u)) t (f' (s t) * s').
Record boozer_field (f : bfield) (Ks : R -> R -> R -> R) (psip : R -> R) : Prop := {
  bf_B : is_grad3 (Bm f) (Bs f) (Bt f) (Bz f);
  bf_K : is_grad3 (Km f) Ks (Kt f) (Kz f);
  bf_G : along1 (Gm f) (dG f); bf_I : along1 (Im f) (dI f);
  bf_psip : along1 psip (fun s => psi0 f * io f s);
  bf_psi0 : psi0 f <> 0 }.
(** Littlejohn's guiding-centre Lagrangian in Boozer coordinates: with A = psi grad theta - psi_p grad zeta and
    B = G grad zeta + I grad theta + K grad psi,
    L = (q A + m v B/|B|) . xdot - m v^2/2 - m mu |B|; the coefficients of theta', zeta' and s' *)
Definition p_theta (f : bfield) (m q : R) (y : st4) : R := q * (psi0 f * c1 y) + m * vpar y * Im f (c1 y) / Bm f (c1 y) (c2 y) (c3 y).
Definition p_zeta (f : bfield) (psip : R -> R) (m q : R) (y : st4) : R := - q * psip (c1 y) + m * vpar y * Gm f (c1 y) / Bm f (c1 y) (c2 y) (c3 y).
Definition p_s (f : bfield) (m : R) (y : st4) : R := m * vpar y * (Km f (c1 y) (c2 y) (c3 y) * psi0 f) / Bm f (c1 y) (c2 y) (c3 y).
(** partial derivatives of L for fixed velocities y': with a = 1/|B|,
    dL/dtheta = m v ((I theta' + G zeta' + K psi0 s') (-B_theta/B^2) + (K_theta psi0 s')/B) - m mu B_theta *)
Definition L_theta (f : bfield) (m mu : R) (y y' : st4) : R :=
  let s := c1 y in let th := c2 y in let ze := c3 y in let B := Bm f s th ze in
  m * vpar y * ((Im f s * c2 y' + Gm f s * c3 y' + Km f s th ze * psi0 f * c1 y') * (- Bt f s th ze / (B * B)) + Kt f s th ze * psi0 f * c1 y' / B)
  - m * mu * Bt f s th ze.
Definition L_zeta (f : bfield) (m mu : R) (y y' : st4) : R :=
  let s := c1 y in let th := c2 y in let ze := c3 y in let B := Bm f s th ze in
  m * vpar y * ((Im f s * c2 y' + Gm f s * c3 y' + Km f s th ze * psi0 f * c1 y') * (- Bz f s th ze / (B * B)) + Kz f s th ze * psi0 f * c1 y' / B)
  - m * mu * Bz f s th ze.
Definition L_s (f : bfield) (Ks : R -> R -> R -> R) (m q mu : R) (y y' : st4) : R :=
  let s := c1 y in let th := c2 y in let ze := c3 y in let B := Bm f s th ze in
  q * psi0 f * c2 y' - q * (psi0 f * io f s) * c3 y'
  + m * vpar y * ((Im f s * c2 y' + Gm f s * c3 y' + Km f s th ze * psi0 f * c1 y') * (- Bs f s th ze / (B * B))
                  + (dI f s * c2 y' + dG f s * c3 y' + Ks s th ze * psi0 f * c1 y') / B)
  - m * mu * Bs f s th ze.
(** dL/dv = m ((I theta' + G zeta' + K psi') / |B| - v) *)
Definition L_v (f : bfield) (m : R) (y y' : st4) : R :=
  m * ((Im f (c1 y) * c2 y' + Gm f (c1 y) * c3 y' + Km f (c1 y) (c2 y) (c3 y) * psi0 f * c1 y') / Bm f (c1 y) (c2 y) (c3 y) - vpar y).
(** the Euler-Lagrange equations at time t *)
Definition euler_lagrange (f : bfield) (Ks : R -> R -> R -> R) (psip : R -> R) (m q mu : R) (y : R -> st4) (t : R) (y' : st4) : Prop :=
  D (fun u => p_theta f m q (y u)) t (L_theta f m mu (y t) y') /\
  D (fun u => p_zeta f psip m q (y u)) t (L_zeta f m mu (y t) y') /\
  D (fun u => p_s f m (y u)) t (L_s f Ks m q mu (y t) y') /\
  L_v f m (y t) y' = 0.

(** ** Lemmas *)
Lemma seen_at_id p : seen_at p = p.
Proof. unfold seen_at. rewrite to_cart_wrap. apply C61_cart_to_cyl. Qed.
Lemma D_const_on (f : R -> R) a b : (forall t, a < t < b -> D f t 0) -> forall s t, a < s < b -> a < t < b -> f s = f t.
Proof.
  intros H.
  assert (G : forall s t, a < s -> s < t -> t < b -> f s = f t).
  { intros s t A L B. destruct (MVT_cor2 f (fun _ => 0) s t L) as (c & E & _). { intros c [? ?]. apply H. lra. } lra. }
  intros s t [? ?] [? ?]. destruct (Rtotal_order s t) as [L|[->|L]]; auto. symmetry. auto.
Qed.
Lemma D_quot f g t a b : D f t a -> D g t b -> g t <> 0 -> D (fun s => f s / g s) t ((a * g t - b * f t) / (g t * g t)).
Proof. intros F G N. eapply D_val; [|apply (derivable_pt_lim_div f g t a b F G N)]. reflexivity. Qed.

(** ** C105 *)
(** the cartesian guiding-centre equations conserve v_par^2/2 + mu |B| *)
Theorem C105_energy_cartesian B AbsB gradAbsB m q mu a b y : is_grad AbsB gradAbsB -> q <> 0 ->
  (forall t, a < t < b -> AbsB (V3 (c1 (y t)) (c2 (y t)) (c3 (y t))) <> 0) ->
  solves4 (rhs_vac B gradAbsB AbsB m q mu) a b y ->
  forall s t, a < s < b -> a < t < b ->
    vpar (y s) ^ 2 / 2 + mu * AbsB (V3 (c1 (y s)) (c2 (y s)) (c3 (y s))) = vpar (y t) ^ 2 / 2 + mu * AbsB (V3 (c1 (y t)) (c2 (y t)) (c3 (y t))).
Proof.
  intros Hg Hq NZ Hs. apply (D_const_on (fun s => vpar (y s) ^ 2 / 2 + mu * AbsB (V3 (c1 (y s)) (c2 (y s)) (c3 (y s)))) a b).
  intros t Ht. destruct (Hs t Ht) as (E1 & E2 & E3 & E4). specialize (NZ t Ht).
  assert (P : D3 (fun u => V3 (c1 (y u)) (c2 (y u)) (c3 (y u))) t (V3 (c1 (rhs_vac B gradAbsB AbsB m q mu (y t))) (c2 (rhs_vac B gradAbsB AbsB m q mu (y t))) (c3 (rhs_vac B gradAbsB AbsB m q mu (y t))))) by (split; [|split]; cbn [vx vy vz]; assumption).
  pose proof (Hg _ _ _ P) as G. cbv beta in G.
  apply D_ext with (f := fun s => / 2 * (vpar (y s) * vpar (y s)) + mu * AbsB (V3 (c1 (y s)) (c2 (y s)) (c3 (y s)))). { intros s. field. }
  eapply D_val; [|apply D_add; [apply D_mul; [apply D_const|apply D_mul; [exact E4|exact E4]]|apply D_mul; [apply D_const|exact G]]].
  cbv beta. unfold rhs_vac. rewrite !seen_at_id. cbn [c1 c2 c3 vpar].
  set (x := V3 (c1 (y t)) (c2 (y t)) (c3 (y t))) in *. destruct (gradAbsB x) as [g1 g2 g3]. destruct (B x) as [b1 b2 b3]. unfold dot3. cbn [vx vy vz].
  replace 0.5 with (/ 2) by lra. field. split; auto.
Qed.
(** ... and conserve the kinetic energy m (v_par^2 + v_perp^2)/2 the particle was started with *)
Theorem C105_kinetic_energy AbsB0 Ekin m vtang : 0 < m -> 0 <= Ekin -> AbsB0 <> 0 ->
  m * (vtang ^ 2 / 2 + mu_init AbsB0 (speed_total Ekin m) vtang * AbsB0) = Ekin.
Proof.
  intros Hm HE HB. unfold mu_init, speed_total. rewrite sqrt_sqrt. 2:{ apply Rmult_le_pos; [lra|]. left. now apply Rinv_0_lt_compat. }
  field. split; lra.
Qed.
(** full orbits: x' = v, m v' = q v x B, and the speed is constant *)
Theorem C105_full_orbit B m q y : m <> 0 ->
  let r := rhs_full B m q y in
  fst r = snd y /\ scal3 m (snd r) = scal3 q (cross (snd y) (B (fst y))) /\ dot3 (snd y) (snd r) = 0.
Proof.
  intros Hm r. unfold r, rhs_full. rewrite seen_at_id. destruct y as [x v]. cbn [fst snd]. destruct (B x) as [b1 b2 b3], v as [v1 v2 v3']. unfold cross, scal3, dot3. cbn [vx vy vz].
  split; [reflexivity|]. split; [|field; auto]. apply v3_eq; cbn [vx vy vz]; field; auto.
Qed.
Theorem C105_full_orbit_speed B m q a b x v : m <> 0 ->
  (forall t, a < t < b -> D3 x t (fst (rhs_full B m q (x t, v t))) /\ D3 v t (snd (rhs_full B m q (x t, v t)))) ->
  forall s t, a < s < b -> a < t < b -> normsq (v s) = normsq (v t).
Proof.
  intros Hm H. apply (D_const_on (fun s => normsq (v s)) a b). intros t Ht. destruct (H t Ht) as [_ V].
  eapply D_val; [|apply (D_dot v v t _ _ V V)]. destruct (C105_full_orbit B m q (x t, v t) Hm) as (_ & _ & E). cbn [fst snd] in E.
  transitivity (2 * dot3 (v t) (snd (rhs_full B m q (x t, v t)))); [unfold dot3; ring|]. rewrite E. ring.
Qed.
(** field lines follow the field at the point itself, for every point (the conversion to cylindrical coordinates is harmless) *)
Theorem C105_field_line B p : rhs_line B p = B p.
Proof. unfold rhs_line. now rewrite seen_at_id. Qed.
(** the documented form of the cartesian guiding-centre equations (tracing.py:227-231), except that the code divides
    the parallel acceleration by |B| *)
Theorem C105_cartesian_equations B AbsB g m q mu y : let p := V3 (c1 y) (c2 y) (c3 y) in let r := rhs_vac B g AbsB m q mu y in
  AbsB p <> 0 -> q <> 0 ->
  V3 (c1 r) (c2 r) (c3 r) = add3 (scal3 (vpar y / AbsB p) (B p)) (scal3 (m / (q * AbsB p ^ 3) * ((2 * mu * AbsB p) / 2 + vpar y ^ 2)) (cross (B p) (g p))) /\
  vpar r = - mu * dot3 (scal3 (1 / AbsB p) (B p)) (g p).
Proof.
  intros p r HB Hq. unfold r, rhs_vac. rewrite seen_at_id. fold p. cbn [c1 c2 c3 vpar]. destruct (B p) as [b1 b2 b3], (g p) as [g1 g2 g3].
  unfold add3, scal3, cross, dot3. cbn [vx vy vz]. replace 0.5 with (/ 2) by lra. split; [apply v3_eq; cbn [vx vy vz]; field; auto|field; auto].
Qed.

(** ** Boozer coordinates *)
Section Boozer.
Variables (f : bfield) (Ks : R -> R -> R -> R) (psip : R -> R) (m q mu : R).
Definition regular (y : st4) : Prop := Bm f (c1 y) (c2 y) (c3 y) <> 0 /\ io f (c1 y) <> 0.
(** the determinant the equations divide by (q, up to corrections of the order of the gyroradius, times G + iota I) *)
Definition det (Kth Kze : R) (y : st4) : R :=
  let B := Bm f (c1 y) (c2 y) (c3 y) in
  (- m * vpar y * (Kth - dI f (c1 y) / psi0 f) / B + q) * Gm f (c1 y) - (- m * vpar y * (Kze - dG f (c1 y) / psi0 f) / B - q * io f (c1 y)) * Im f (c1 y).

Lemma el_of y t y' : boozer_field f Ks psip -> Bm f (c1 (y t)) (c2 (y t)) (c3 (y t)) <> 0 -> D4 y t y' ->
  let s := c1 (y t) in let th := c2 (y t) in let ze := c3 (y t) in let v := vpar (y t) in let B := Bm f s th ze in
  let dB := Bs f s th ze * c1 y' + Bt f s th ze * c2 y' + Bz f s th ze * c3 y' in
  let dK := Ks s th ze * c1 y' + Kt f s th ze * c2 y' + Kz f s th ze * c3 y' in
  D (fun u => p_theta f m q (y u)) t (q * psi0 f * c1 y' + m * ((vpar y' * Im f s + v * (dI f s * c1 y')) / B - v * Im f s * dB / (B * B))) /\
  D (fun u => p_zeta f psip m q (y u)) t (- q * (psi0 f * io f s) * c1 y' + m * ((vpar y' * Gm f s + v * (dG f s * c1 y')) / B - v * Gm f s * dB / (B * B))) /\
  D (fun u => p_s f m (y u)) t (m * psi0 f * ((vpar y' * Km f s th ze + v * dK) / B - v * Km f s th ze * dB / (B * B))) /\
  D (fun u => vpar (y u) ^ 2 / 2 + mu * Bm f (c1 (y u)) (c2 (y u)) (c3 (y u))) t (v * vpar y' + mu * dB).
Proof.
  intros BF NB (E1 & E2 & E3 & E4). cbv zeta. pose proof (bf_B _ _ _ BF _ _ _ _ _ _ t E1 E2 E3) as DB. pose proof (bf_K _ _ _ BF _ _ _ _ _ _ t E1 E2 E3) as DK.
  pose proof (bf_G _ _ _ BF _ _ t E1) as DG. pose proof (bf_I _ _ _ BF _ _ t E1) as DI. pose proof (bf_psip _ _ _ BF _ _ t E1) as DP. cbv beta in *.
  unfold p_theta, p_zeta, p_s. split; [|split; [|split]].
  - eapply D_val; [|apply D_add; [apply D_mul; [apply D_const|apply D_mul; [apply D_const|exact E1]]|apply D_quot; [apply D_mul; [apply D_mul; [apply D_const|exact E4]|exact DI]|exact DB|exact NB]]]. cbv beta. field. exact NB.
  - eapply D_val; [|apply D_add; [apply D_mul; [apply D_const|exact DP]|apply D_quot; [apply D_mul; [apply D_mul; [apply D_const|exact E4]|exact DG]|exact DB|exact NB]]]. cbv beta. field. exact NB.
  - eapply D_val; [|apply D_quot; [apply D_mul; [apply D_mul; [apply D_const|exact E4]|apply D_mul; [exact DK|apply D_const]]|exact DB|exact NB]]. cbv beta. field. exact NB.
  - apply D_ext with (f := fun u => / 2 * (vpar (y u) * vpar (y u)) + mu * Bm f (c1 (y u)) (c2 (y u)) (c3 (y u))). { intros u. field. }
    eapply D_val; [|apply D_add; [apply D_mul; [apply D_const|apply D_mul; [exact E4|exact E4]]|apply D_mul; [apply D_const|exact DB]]]. cbv beta. field.
Qed.

(** the most general mode ('gc') *)
Lemma gc_algebra y : psi0 f <> 0 -> regular y -> vpar y <> 0 -> det (Kt f (c1 y) (c2 y) (c3 y)) (Kz f (c1 y) (c2 y) (c3 y)) y <> 0 ->
  let y' := rhs_bgc f m q mu y in
  let s := c1 y in let th := c2 y in let ze := c3 y in let v := vpar y in let B := Bm f s th ze in
  let dB := Bs f s th ze * c1 y' + Bt f s th ze * c2 y' + Bz f s th ze * c3 y' in
  let dK := Ks s th ze * c1 y' + Kt f s th ze * c2 y' + Kz f s th ze * c3 y' in
  (q * psi0 f * c1 y' + m * ((vpar y' * Im f s + v * (dI f s * c1 y')) / B - v * Im f s * dB / (B * B)) = L_theta f m mu y y') /\
  (- q * (psi0 f * io f s) * c1 y' + m * ((vpar y' * Gm f s + v * (dG f s * c1 y')) / B - v * Gm f s * dB / (B * B)) = L_zeta f m mu y y') /\
  (m * psi0 f * ((vpar y' * Km f s th ze + v * dK) / B - v * Km f s th ze * dB / (B * B)) = L_s f Ks m q mu y y') /\
  L_v f m y y' = 0 /\ v * vpar y' + mu * dB = 0.
Proof.
  intros HP [HB HI] HV HD. cbv zeta. unfold L_theta, L_zeta, L_s, L_v, rhs_bgc, det in *. cbn [c1 c2 c3 vpar] in *. cbv zeta in *. 
  generalize dependent (Bm f (c1 y) (c2 y) (c3 y)). generalize dependent (io f (c1 y)). generalize dependent (vpar y). generalize dependent (psi0 f).
  generalize (Bs f (c1 y) (c2 y) (c3 y)) (Bt f (c1 y) (c2 y) (c3 y)) (Bz f (c1 y) (c2 y) (c3 y)) (Km f (c1 y) (c2 y) (c3 y)) (Kt f (c1 y) (c2 y) (c3 y)) (Kz f (c1 y) (c2 y) (c3 y)) (Ks (c1 y) (c2 y) (c3 y)) (Gm f (c1 y)) (Im f (c1 y)) (dG f (c1 y)) (dI f (c1 y)).
  intros bs bt bz k kt kz ks g i g' i' p HP v HV io HI b HB HD.
  set (C := - m * v * (kz - g' / p) / b - q * io) in *. set (F := - m * v * (kt - i' / p) / b + q) in *.
  assert (ED : (F * g - C * i) / io * io = F * g - C * i) by (field; auto).
  rewrite !ED. set (De := F * g - C * i) in *.
  assert (EV : - (mu / v) * (bs / p * ((i * bz - g * bt) * (m * v * v / b + m * mu) / (De * p)) * p + bt * ((g * (bs / p) * (m * v * v / b + m * mu) - C * v * b - k * (m * v * v / b + m * mu) * bz) / De) + bz * ((F * v * b - bs / p * (m * v * v / b + m * mu) * i + k * (m * v * v / b + m * mu) * bt) / De))
     = mu * b * (C * bt - F * bz) / De) by (field; auto).
  rewrite !EV.
  assert (ND : (- m * v * (kt * p - i') + q * (p * b)) * g - (- m * v * (kz * p - g') - q * io * (p * b)) * i <> 0).
  { replace ((- m * v * (kt * p - i') + q * (p * b)) * g - (- m * v * (kz * p - g') - q * io * (p * b)) * i) with (De * (p * b)) by (unfold De, C, F; field; auto).
    apply Rmult_integral_contrapositive_currified; [exact HD|]. now apply Rmult_integral_contrapositive_currified. }
  split; [|split; [|split; [|split]]]; unfold De, C, F; field; auto.
Qed.
Lemma vac_algebra y : psi0 f <> 0 -> Bm f (c1 y) (c2 y) (c3 y) <> 0 -> q <> 0 -> Gm f (c1 y) <> 0 -> Im f (c1 y) = 0 -> dI f (c1 y) = 0 -> dG f (c1 y) = 0 ->
  (forall s th ze, Km f s th ze = 0 /\ Kt f s th ze = 0 /\ Kz f s th ze = 0 /\ Ks s th ze = 0) ->
  let y' := rhs_bvac f m q mu y in
  let s := c1 y in let th := c2 y in let ze := c3 y in let v := vpar y in let B := Bm f s th ze in
  let dB := Bs f s th ze * c1 y' + Bt f s th ze * c2 y' + Bz f s th ze * c3 y' in
  let dK := Ks s th ze * c1 y' + Kt f s th ze * c2 y' + Kz f s th ze * c3 y' in
  (q * psi0 f * c1 y' + m * ((vpar y' * Im f s + v * (dI f s * c1 y')) / B - v * Im f s * dB / (B * B)) = L_theta f m mu y y') /\
  (- q * (psi0 f * io f s) * c1 y' + m * ((vpar y' * Gm f s + v * (dG f s * c1 y')) / B - v * Gm f s * dB / (B * B)) = L_zeta f m mu y y') /\
  (m * psi0 f * ((vpar y' * Km f s th ze + v * dK) / B - v * Km f s th ze * dB / (B * B)) = L_s f Ks m q mu y y') /\
  L_v f m y y' = 0 /\ v * vpar y' + mu * dB = 0.
Proof.
  intros HP HB Hq HG HI HdI HdG HK. cbv zeta. destruct (HK (c1 y) (c2 y) (c3 y)) as (K1 & K2 & K3 & K4).
  unfold L_theta, L_zeta, L_s, L_v, rhs_bvac. cbn [c1 c2 c3 vpar]. cbv zeta. rewrite K1, K2, K3, K4, HI, HdI, HdG.
  split; [|split; [|split; [|split]]]; field; auto.
Qed.
End Boozer.

(** in mode 'gc' the code integrates the Euler-Lagrange equations of the guiding-centre Lagrangian (away from
    v_par = 0, where the code divides by zero), and v_par^2/2 + mu |B| is constant *)
Theorem C105_boozer_general f Ks psip m q mu a b y : boozer_field f Ks psip ->
  (forall t, a < t < b -> regular f (y t) /\ vpar (y t) <> 0 /\ det f m q (Kt f (c1 (y t)) (c2 (y t)) (c3 (y t))) (Kz f (c1 (y t)) (c2 (y t)) (c3 (y t))) (y t) <> 0) ->
  solves4 (rhs_bgc f m q mu) a b y ->
  (forall t, a < t < b -> euler_lagrange f Ks psip m q mu y t (rhs_bgc f m q mu (y t))) /\
  (forall s t, a < s < b -> a < t < b ->
    vpar (y s) ^ 2 / 2 + mu * Bm f (c1 (y s)) (c2 (y s)) (c3 (y s)) = vpar (y t) ^ 2 / 2 + mu * Bm f (c1 (y t)) (c2 (y t)) (c3 (y t))).
Proof.
  intros BF R S.
  assert (G : forall t, a < t < b -> euler_lagrange f Ks psip m q mu y t (rhs_bgc f m q mu (y t)) /\ D (fun u => vpar (y u) ^ 2 / 2 + mu * Bm f (c1 (y u)) (c2 (y u)) (c3 (y u))) t 0).
  { intros t Ht. destruct (R t Ht) as (Rg & V & Dt). destruct (el_of f Ks psip m q mu y t _ BF (proj1 Rg) (S t Ht)) as (A1 & A2 & A3 & A4).
    destruct (gc_algebra f Ks m q mu (y t) (bf_psi0 _ _ _ BF) Rg V Dt) as (E1 & E2 & E3 & E4 & E5). cbv zeta in *.
    rewrite E1 in A1. rewrite E2 in A2. rewrite E3 in A3. rewrite E5 in A4. split; [|exact A4]. unfold euler_lagrange. auto. }
  split; [intros t Ht; now apply G|]. intros s t Hs Ht. apply (D_const_on (fun u => vpar (y u) ^ 2 / 2 + mu * Bm f (c1 (y u)) (c2 (y u)) (c3 (y u))) a b); auto. intros u Hu. now apply G.
Qed.
(** mode 'gc_nok' is mode 'gc' for the same field with K = 0 *)
Definition drop_K (f : bfield) : bfield := BF (psi0 f) (Bm f) (Bs f) (Bt f) (Bz f) (fun _ _ _ => 0) (fun _ _ _ => 0) (fun _ _ _ => 0) (Gm f) (dG f) (Im f) (dI f) (io f).
Theorem C105_boozer_noK f m q mu y : psi0 f <> 0 -> regular f y -> rhs_bnok f m q mu y = rhs_bgc (drop_K f) m q mu y.
Proof.
  intros HP [HB HI]. unfold rhs_bnok, rhs_bgc, drop_K. cbn [psi0 Bm Bs Bt Bz Km Kt Kz Gm dG Im dI io c1 c2 c3 vpar]. cbv zeta.
  set (g' := dG f (c1 y) / psi0 f). set (i' := dI f (c1 y) / psi0 f). set (B := Bm f (c1 y) (c2 y) (c3 y)) in *.
  replace (- m * vpar y * (0 - g') / B - q * io f (c1 y)) with (- q * io f (c1 y) + m * vpar y * g' / B) by (field; auto).
  replace (- m * vpar y * (0 - i') / B + q) with (q + m * vpar y * i' / B) by (field; auto).
  f_equal; repeat (f_equal; try ring).
Qed.
(** mode 'gc_vac', for every v_par, in a field with constant G, I = 0 and K = 0 *)
Theorem C105_boozer_vacuum f Ks psip m q mu a b y : boozer_field f Ks psip -> q <> 0 ->
  (forall s, Gm f s <> 0 /\ Im f s = 0 /\ dI f s = 0 /\ dG f s = 0) ->
  (forall s th ze, Km f s th ze = 0 /\ Kt f s th ze = 0 /\ Kz f s th ze = 0 /\ Ks s th ze = 0) ->
  (forall t, a < t < b -> Bm f (c1 (y t)) (c2 (y t)) (c3 (y t)) <> 0) ->
  solves4 (rhs_bvac f m q mu) a b y ->
  (forall t, a < t < b -> euler_lagrange f Ks psip m q mu y t (rhs_bvac f m q mu (y t))) /\
  (forall s t, a < s < b -> a < t < b ->
    vpar (y s) ^ 2 / 2 + mu * Bm f (c1 (y s)) (c2 (y s)) (c3 (y s)) = vpar (y t) ^ 2 / 2 + mu * Bm f (c1 (y t)) (c2 (y t)) (c3 (y t))).
Proof.
  intros BF Hq HG HK NB S.
  assert (G : forall t, a < t < b -> euler_lagrange f Ks psip m q mu y t (rhs_bvac f m q mu (y t)) /\ D (fun u => vpar (y u) ^ 2 / 2 + mu * Bm f (c1 (y u)) (c2 (y u)) (c3 (y u))) t 0).
  { intros t Ht. destruct (HG (c1 (y t))) as (G1 & G2 & G3 & G4). destruct (el_of f Ks psip m q mu y t _ BF (NB t Ht) (S t Ht)) as (A1 & A2 & A3 & A4).
    destruct (vac_algebra f Ks m q mu (y t) (bf_psi0 _ _ _ BF) (NB t Ht) Hq G1 G2 G3 G4 HK) as (E1 & E2 & E3 & E4 & E5). cbv zeta in *.
    rewrite E1 in A1. rewrite E2 in A2. rewrite E3 in A3. rewrite E5 in A4. split; [|exact A4]. unfold euler_lagrange. auto. }
  split; [intros t Ht; now apply G|]. intros s t Hs Ht. apply (D_const_on (fun u => vpar (y u) ^ 2 / 2 + mu * Bm f (c1 (y u)) (c2 (y u)) (c3 (y u))) a b); auto. intros u Hu. now apply G.
Qed.
(** consequence: in a field with a symmetry direction (N in theta, M in zeta: quasisymmetry) the canonical momentum is conserved *)
Theorem C105_quasisymmetry f Ks psip m q mu a b y (N M : R) (rhs : st4 -> st4) :
  (forall s th ze, N * Bt f s th ze + M * Bz f s th ze = 0 /\ N * Kt f s th ze + M * Kz f s th ze = 0) ->
  (forall t, a < t < b -> euler_lagrange f Ks psip m q mu y t (rhs (y t))) ->
  forall s t, a < s < b -> a < t < b ->
    N * p_theta f m q (y s) + M * p_zeta f psip m q (y s) = N * p_theta f m q (y t) + M * p_zeta f psip m q (y t).
Proof.
  intros Sy EL. apply (D_const_on (fun u => N * p_theta f m q (y u) + M * p_zeta f psip m q (y u)) a b). intros t Ht. destruct (EL t Ht) as (A1 & A2 & _).
  eapply D_val; [|apply D_add; [apply D_mul; [apply D_const|exact A1]|apply D_mul; [apply D_const|exact A2]]]. cbv beta.
  destruct (Sy (c1 (y t)) (c2 (y t)) (c3 (y t))) as [S1 S2]. unfold L_theta, L_zeta. cbv zeta.
  set (y' := rhs (y t)). set (B := Bm f _ _ _). set (bt := Bt f _ _ _) in *. set (bz := Bz f _ _ _) in *. set (kt := Kt f _ _ _) in *. set (kz := Kz f _ _ _) in *.
  set (X := Im f (c1 (y t)) * c2 y' + Gm f (c1 (y t)) * c3 y' + Km f (c1 (y t)) (c2 (y t)) (c3 (y t)) * psi0 f * c1 y').
  transitivity (- (N * bt + M * bz) * (m * vpar (y t) * X * (/ (B * B)) + m * mu) + (N * kt + M * kz) * (m * vpar (y t) * psi0 f * c1 y' * / B)); [unfold Rdiv; ring|]. rewrite S1, S2. ring.
Qed.

(** ** non-vacuity *)
(** a drifting particle in B = (0, 0, x^2 + 1): it stays at x0, drifts in y and streams in z *)
Example C105_drift x0 m q mu v : q <> 0 -> let A := x0 * x0 + 1 in
  is_grad (fun p => vx p * vx p + 1) (fun p => V3 (2 * vx p) 0 0) /\
  solves4 (rhs_vac (fun p => V3 0 0 (vx p * vx p + 1)) (fun p => V3 (2 * vx p) 0 0) (fun p => vx p * vx p + 1) m q mu) 0 1
    (fun t => S4 x0 (m / (q * A ^ 3) * (mu * A + v * v) * (A * (2 * x0)) * t) (v * t) v).
Proof.
  intros Hq A. assert (HA : A <> 0) by (unfold A; nra). split.
  - intros p p' t (P1 & P2 & P3). eapply D_val; [|apply D_add; [apply D_mul; [exact P1|exact P1]|apply D_const]]. unfold dot3. cbn [vx vy vz]. ring.
  - intros t _. unfold D4, rhs_vac. rewrite seen_at_id. cbn [c1 c2 c3 vpar vx vy vz]. replace 0.5 with (/ 2) by lra. fold A. split; [|split; [|split]].
    + eapply D_val; [|apply D_const]. field. auto.
    + eapply D_val; [|apply D_mul; [apply D_const|apply D_id]]. cbv beta. field. auto.
    + eapply D_val; [|apply D_mul; [apply D_const|apply D_id]]. cbv beta. field. auto.
    + eapply D_val; [|apply D_const]. field. auto.
Qed.
(** Boozer coordinates: |B| = 1 + s, G = 2, I = s, K = 0: the particle stays on its surface and precesses *)
Definition demo_field : bfield := BF 1 (fun s _ _ => 1 + s) (fun _ _ _ => 1) (fun _ _ _ => 0) (fun _ _ _ => 0) (fun _ _ _ => 0) (fun _ _ _ => 0) (fun _ _ _ => 0)
  (fun _ => 2) (fun _ => 0) (fun s => s) (fun _ => 1) (fun _ => 1).
Example C105_boozer_case : boozer_field demo_field (fun _ _ _ => 0) (fun s => s) /\
  exists a1 a2, solves4 (rhs_bgc demo_field 1 1 1) 0 1 (fun t => S4 1 (a1 * t) (a2 * t) 1) /\ a1 <> 0 /\
  forall t, regular demo_field (S4 1 (a1 * t) (a2 * t) 1) /\ det demo_field 1 1 0 0 (S4 1 (a1 * t) (a2 * t) 1) <> 0.
Proof.
  split.
  - split; unfold demo_field; cbn [psi0 Bm Bs Bt Bz Km Kt Kz Gm dG Im dI io].
    + intros s th ze s' th' ze' t A B C. eapply D_val; [|apply D_add; [apply D_const|exact A]]. ring.
    + intros s th ze s' th' ze' t A B C. eapply D_val; [|apply D_const]. ring.
    + intros s s' t A. eapply D_val; [|apply D_const]. ring.
    + intros s s' t A. eapply D_val; [|exact A]. ring.
    + intros s s' t A. eapply D_val; [|exact A]. ring.
    + lra.
  - exists (5 / 4), (3 / 8). split; [|split; [lra|]].
    + intros t _. unfold D4, rhs_bgc, demo_field. cbn [psi0 Bm Bs Bt Bz Km Kt Kz Gm dG Im dI io c1 c2 c3 vpar]. split; [|split; [|split]].
      * eapply D_val; [|apply D_const]. field.
      * eapply D_val; [|apply D_mul; [apply D_const|apply D_id]]. cbv beta. field.
      * eapply D_val; [|apply D_mul; [apply D_const|apply D_id]]. cbv beta. field.
      * eapply D_val; [|apply D_const]. field.
    + intros t. unfold regular, det, demo_field. cbn [psi0 Bm Bs Bt Bz Km Kt Kz Gm dG Im dI io c1 c2 c3 vpar]. split; [split; lra|]. lra.
Qed.
Print Assumptions C105_boozer_general.
