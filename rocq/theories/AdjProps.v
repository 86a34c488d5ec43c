(** C116: boozer_surface_residual_dB gives the derivatives of the residual and of its Jacobian with respect to the field and to the
    gradient of the field, also when the surface moves with the coils. *)
From Coq Require Import Reals Lra Lia List Bool.
From Verif Require Import VecAux Vec3 BSModel BSDeriv SurfDiffProps CurveObjModel CurveObjProps BoozSurf BoozProps BoozThms TensorSym MaskProps AdjLin AdjModel.
Import ListNotations.
Open Scope R_scope.

(** ** Specification *)
Definition matvec (m : mat3) (u : vec3) : vec3 := V3 (dot3 (row0 m) u) (dot3 (row1 m) u) (dot3 (row2 m) u).
Definition frob (a b : mat3) : R := dot3 (row0 a) (row0 b) + dot3 (row1 a) (row1 b) + dot3 (row2 a) (row2 b).
Definition tens (f : nat -> mat3) (g : mat3) : vec3 := V3 (frob (f 0%nat) g) (frob (f 1%nat) g) (frob (f 2%nat) g).
(** the fields B s, s near t0, change with the coils: at t0 the field at a fixed point changes at the rate Bc, its gradient at the
    rate dBc; the combined chain rule holds for moving points *)
Definition family_ok (Dom : vec3 -> Prop) (t0 : R) (B : R -> vec3 -> vec3) (dB : R -> vec3 -> mat3) (d2B : vec3 -> nat -> mat3) (Bc : vec3 -> vec3) (dBc : vec3 -> mat3) : Prop :=
  forall p p', D3 p t0 p' -> Dom (p t0) ->
    D3 (fun s => B s (p s)) t0 (add3 (vecmat p' (dB t0 (p t0))) (Bc (p t0))) /\
    D3 (fun s => row0 (dB s (p s))) t0 (add3 (vecmat p' (d2B (p t0) 0%nat)) (row0 (dBc (p t0)))) /\
    D3 (fun s => row1 (dB s (p s))) t0 (add3 (vecmat p' (d2B (p t0) 1%nat)) (row1 (dBc (p t0)))) /\
    D3 (fun s => row2 (dB s (p s))) t0 (add3 (vecmat p' (d2B (p t0) 2%nat)) (row2 (dBc (p t0)))).

(** ** One point *)
Section Pt.
Variables (weight : bool) (G : R) (b dbm dxm tg dtm xt c : vec3) (Dc : mat3).
Hypothesis P : 0 < normsq b.
Lemma sqp : 0 < sqrt (normsq b). Proof using P. now apply sqrt_lt_R0. Qed.
Lemma sqq : normsq b = sqrt (normsq b) * sqrt (normsq b). Proof using P. rewrite sqrt_sqrt; lra. Qed.
Lemma dw_dB_dot u : dot3 (dw_dB b) u = - (dot3 b u) / (sqrt (normsq b) * sqrt (normsq b) * sqrt (normsq b)).
Proof using P.
  unfold dw_dB, pow15. pose proof sqp. pose proof sqq as E. set (s := sqrt (normsq b)) in *. rewrite E. unfold dot3, scal3. cbn [vx vy vz]. field. lra.
Qed.
Lemma py_dw_val u : py_dw true b u = dot3 (dw_dB b) u.
Proof using P. rewrite dw_dB_dot. unfold py_dw, py_dmodB, py_dB2, half. pose proof sqp. field. lra. Qed.
Lemma dw_dc_val u : dw_dc b u = dot3 (dw_dB b) u.
Proof using P. rewrite dw_dB_dot. unfold dw_dc, py_dB2, half. pose proof sqp. pose proof sqq as E. set (s := sqrt (normsq b)) in *. rewrite E. field. lra. Qed.
Lemma d2w_val u du : py_d2w true b dbm u du = dot3 (d2w_dcdB b dbm) u + dot3 (dw_dB b) du.
Proof using P.
  rewrite dw_dB_dot. unfold py_d2w, py_d2modB, py_d2B2, py_dmodB, py_dB2, d2w_dcdB, pow15, half. pose proof sqp. pose proof sqq as E. set (s := sqrt (normsq b)) in *. rewrite E. unfold py_dB2.
  replace (dot3 (scal3 (- / (s * s) ^ 3) (sub3 (scal3 (s * s * s) dbm) (scal3 (3 / 2 * (2 * dot3 b dbm) * s) b))) u) with ((- / (s * s) ^ 3) * (s * s * s * dot3 dbm u - 3 * dot3 b dbm * s * dot3 b u)).
  - replace (dot3 du b) with (dot3 b du) by (unfold dot3; ring). field. lra.
  - generalize (dot3 b dbm) (- / (s * s) ^ 3). intros q k. unfold dot3, sub3, scal3. cbn [vx vy vz]. field.
Qed.
Lemma dres_rows u : matvec (dresidual_dB G b tg) u = py_dres G b u tg v0.
Proof. unfold matvec, dresidual_dB, mkrows, py_dres, unit3, coord. cbn [row0 row1 row2]. apply v3_eq; vu; ring. Qed.
Lemma drtil_rows : matvec (drtil_dB weight G b tg) c = py_drtil weight G b c tg v0.
Proof using P.
  unfold py_drtil. rewrite <- dres_rows. unfold drtil_dB. destruct weight.
  - rewrite py_dw_val. unfold py_w. unfold matvec, mkrows, rowk. cbn [row0 row1 row2]. generalize (residual G b tg) (dresidual_dB G b tg) (dw_dB b) (1 / sqrt (normsq b)). intros [] [r0 r1 r2] q w. apply v3_eq; unfold coord; vu; cbn [row0 row1 row2]; ring.
  - unfold py_dw, py_w, matvec, mkrows, rowk. cbn [row0 row1 row2]. generalize (residual G b tg) (dresidual_dB G b tg). intros ? [r0 r1 r2]. apply v3_eq; vu; cbn [row0 row1 row2]; ring.
Qed.
Lemma b_drtil : b_drtil_dc weight G b dbm tg dtm = py_drtil weight G b dbm tg dtm.
Proof using P.
  unfold b_drtil_dc, py_drtil, py_w. destruct weight; [rewrite dw_dc_val, py_dw_val|unfold py_dw]; generalize (residual G b tg) (py_dres G b dbm tg dtm); intros; apply v3_eq; vu; ring.
Qed.
Lemma d2res_rows : add3 (matvec (d2residual_dcdB b dbm tg dtm) c) (tens (d2residual_dcdgradB G b dxm tg) Dc) = py_d2res G b dbm c (vecmat dxm Dc) tg dtm v0.
Proof.
  destruct Dc as [r0 r1 r2]. unfold matvec, tens, frob, d2residual_dcdB, d2residual_dcdgradB, mkrows, py_d2res, py_dB2, py_d2B2, vecmat, unit3, coord. cbn [row0 row1 row2]. apply v3_eq; vu; ring.
Qed.
Lemma d2rtil_rows : add3 (matvec (d2rtil_dcdB weight G b dbm tg dtm) c) (tens (d2rtil_dcdgradB weight G b dxm tg) Dc) = py_d2rtil weight G b dbm c (vecmat dxm Dc) tg dtm v0.
Proof using P.
  unfold py_d2rtil. rewrite <- d2res_rows, <- dres_rows. unfold d2rtil_dcdB, d2rtil_dcdgradB. destruct weight.
  - rewrite d2w_val, !py_dw_val, dw_dc_val. unfold py_w.
    assert (E : dot3 (dw_dB b) (vecmat dxm Dc) = frob (d2w_dcdgradB b dxm) Dc).
    { unfold d2w_dcdgradB, frob, mkrows, vecmat, coord. cbn [row0 row1 row2]. generalize (dw_dB b). intros q. destruct Dc as [r0 r1 r2]. cbn [row0 row1 row2]. vu. ring. }
    rewrite E. unfold matvec, tens, frob, mkrows, rowk. cbn [row0 row1 row2].
    generalize (residual G b tg) (dresidual_dB G b tg) (dw_dB b) (1 / sqrt (normsq b)) (d2w_dcdB b dbm) (d2residual_dcdB b dbm tg dtm) (py_dres G b dbm tg dtm) (d2w_dcdgradB b dxm) (d2residual_dcdgradB G b dxm tg).
    intros rs [r0 r1 r2] q w w2 [d0 d1 d2] ds [e0 e1 e2] f. destruct (f 0%nat) as [f00 f01 f02], (f 1%nat) as [f10 f11 f12], (f 2%nat) as [f20 f21 f22], Dc as [g0 g1 g2].
    apply v3_eq; unfold coord; vu; cbn [row0 row1 row2 vx vy vz]; ring.
  - unfold py_d2w, py_dw, py_w, matvec, tens, frob, mkrows, rowk. cbn [row0 row1 row2]. generalize (residual G b tg) (d2residual_dcdB b dbm tg dtm) (d2residual_dcdgradB G b dxm tg) (dresidual_dB G b tg) (py_dres G b dbm tg dtm).
    intros rs [d0 d1 d2] f [r0 r1 r2] ds. destruct (f 0%nat) as [f00 f01 f02], (f 1%nat) as [f10 f11 f12], (f 2%nat) as [f20 f21 f22], Dc as [g0 g1 g2].
    apply v3_eq; vu; cbn [row0 row1 row2 vx vy vz]; ring.
Qed.
Lemma diota_rows : matvec (d2rtil_diotadB weight b xt) c = py_d2rtil_iota weight b c xt v0.
Proof using P.
  unfold py_d2rtil_iota, d2rtil_diotadB, d2res_iota, py_w. destruct weight; [rewrite py_dw_val|unfold py_dw]; unfold matvec, mkrows, rowk, d2residual_diotadB, dres_iota, py_dB2; cbn [mkrows row0 row1 row2];
    try (generalize (dw_dB b) (1 / sqrt (normsq b)); intros); apply v3_eq; unfold coord; vu; ring.
Qed.
Lemma dG_rows : matvec (d2rtil_dGdB weight b) c = py_d2rtil_G weight b c.
Proof using P.
  unfold py_d2rtil_G, d2rtil_dGdB, py_w. destruct weight; [rewrite py_dw_val|unfold py_dw]; unfold matvec, mkrows, unit3; cbn [row0 row1 row2];
    try (generalize (dw_dB b) (1 / sqrt (normsq b)); intros); apply v3_eq; unfold coord; vu; ring.
Qed.
End Pt.

(** ** Moving surface and moving coils *)
Section Family.
Variables (n : nat) (dx dxp dxt : nat -> nat -> vec3) (t0 : R) (B : R -> vec3 -> vec3) (dB : R -> vec3 -> mat3) (d2B : vec3 -> nat -> mat3) (Bc : vec3 -> vec3) (dBc : vec3 -> mat3).
Variables (currents : list R) (optG weight : bool) (Dom : vec3 -> Prop).
Hypothesis HF : field_ok Dom (B t0) (dB t0) d2B.
Hypothesis HV : family_ok Dom t0 B dB d2B Bc dBc.
Notation NN := (N n optG). Notation XX := (X n dx).
Variables (p : nat) (x : R -> nat -> R) (v : nat -> R).
Hypothesis Hx : forall m, (m < NN)%nat -> D (fun s => x s m) t0 (v m).
Hypothesis OK : at_ok n dx (B t0) Dom p (x t0).
Notation rr s := (r n dx dxp dxt (B s) currents optG weight p). Notation JJ s := (J n dx dxp dxt (B s) (dB s) currents optG weight p).
Notation HH := (H n dx dxp dxt (B t0) (dB t0) d2B currents optG weight p).
Notation b0 := (bx n dx (B t0) p (x t0)). Notation tg0 := (BoozSurf.tang n dxp dxt p (x t0)). Notation G0 := (G_of n currents optG (x t0)).
Notation cb := (Bc (XX p (x t0))). Notation cd := (dBc (XX p (x t0))).
Notation bp := (b' n dx (dB t0) p x t0 v). Notation tp := (tg' n dxp dxt p x t0 v). Notation Gp := (G' n optG v).
Lemma Fb : D3 (fun s => bx n dx (B s) p (x s)) t0 (add3 bp cb).
Proof. unfold bx. rewrite <- (bd_eq n dx (dB t0) p x t0 v). apply (HV (fun s => XX p (x s)) (X' n dx p v)); [apply (HX n dx dxp dxt optG p x t0 v Hx)|apply OK]. Qed.
Lemma Fbm m : D3 (fun s => bm n dx (dB s) p (x s) m) t0 (add3 (sumv n (fun k => scal3 (v k) (bmn n dx d2B p (x t0) m k))) (vecmat (dx p m) cd)).
Proof.
  unfold bmn. rewrite <- (sumv_lin1 (fun u => d2dir d2B (XX p (x t0)) (dx p m) u)); [|intros; apply d2dir_add|intros; apply d2dir_scal].
  destruct (HV (fun s => XX p (x s)) (X' n dx p v) (HX n dx dxp dxt optG p x t0 v Hx) (proj1 OK)) as (_ & D0 & D1 & D2). unfold bm, vecmat, d2dir.
  eapply D3_val; [|apply D3_add; [apply D3_scal; [apply D_const|exact D0]|apply D3_add; [apply D3_scal; [apply D_const|exact D1]|apply D3_scal; [apply D_const|exact D2]]]].
  unfold X'. generalize (vecmat (sumv n (fun m0 : nat => scal3 (v m0) (dx p m0))) (d2B (XX p (x t0)) 0%nat)) (vecmat (sumv n (fun m0 : nat => scal3 (v m0) (dx p m0))) (d2B (XX p (x t0)) 1%nat)) (vecmat (sumv n (fun m0 : nat => scal3 (v m0) (dx p m0))) (d2B (XX p (x t0)) 2%nat)).
  generalize (dBc (XX p (x t0))). intros [q0 q1 q2] u0 u1 u2. cbn [row0 row1 row2]. apply v3_eq; vu; ring.
Qed.
(** the residual *)
Lemma C116_r : D3 (fun s => rr s (x s)) t0 (add3 (sumv NN (fun m => scal3 (v m) (JJ t0 (x t0) m))) (matvec (o_dB n dx dxp dxt (B t0) currents optG weight p (x t0)) cb)).
Proof.
  pose proof (bpos n dx (B t0) Dom p x t0 OK) as BP. pose proof (Htg n dxp dxt optG p x t0 v Hx) as HT. pose proof (HG n dxp dxt currents optG p x t0 v Hx) as HGG.
  pose proof (r_along n dx dxp dxt (B t0) (dB t0) d2B currents optG weight Dom HF p x t0 v Hx OK) as A.
  pose proof (D_r weight t0 (fun s => bx n dx (B t0) p (x s)) (fun s => BoozSurf.tang n dxp dxt p (x s)) (fun s => G_of n currents optG (x s)) _ _ _ (Hb n dx dxp dxt (B t0) (dB t0) d2B optG Dom HF p x t0 v Hx OK) HT HGG BP) as A'.
  pose proof (D3_unique _ _ _ _ A A') as E. rewrite E. unfold o_dB. rewrite drtil_rows by exact BP.
  eapply D3_val; [|apply (D_r weight t0 (fun s => bx n dx (B s) p (x s)) (fun s => BoozSurf.tang n dxp dxt p (x s)) (fun s => G_of n currents optG (x s)) _ _ _ Fb HT HGG BP)].
  cbv beta. replace tp with (add3 tp v0) at 1 by apply add3_0_r. rewrite drtil_lin.
  generalize (py_drtil weight G0 b0 bp tg0 tp) (py_drtil weight G0 b0 cb tg0 v0) (scal3 Gp (scal3 (py_w weight b0) b0)). intros. apply v3_eq; vu; ring.
Qed.
(** its Jacobian in the unknowns *)
Lemma C116_J m : (m < NN)%nat -> D3 (fun s => JJ s (x s) m) t0 (add3 (sumv NN (fun k => scal3 (v k) (HH (x t0) m k)))
  (add3 (matvec (o_dsdB n dx dxp dxt (B t0) (dB t0) currents optG weight p (x t0) m) cb) (tens (o_dsdgradB n dx dxp dxt (B t0) currents optG weight p (x t0) m) cd))).
Proof.
  intros L. pose proof (bpos n dx (B t0) Dom p x t0 OK) as BP. pose proof (Htg n dxp dxt optG p x t0 v Hx) as HT. pose proof (HG n dxp dxt currents optG p x t0 v Hx) as HGG.
  pose proof (Hb n dx dxp dxt (B t0) (dB t0) d2B optG Dom HF p x t0 v Hx OK) as HB0. pose proof (Hbm n dx dxp dxt (B t0) (dB t0) d2B optG Dom HF p x t0 v Hx OK m) as HBM0.
  pose proof (J_along n dx dxp dxt (B t0) (dB t0) d2B currents optG weight Dom HF p x t0 v Hx OK m L) as A. revert A. unfold J, o_dsdB, o_dsdgradB. destruct (m <? n)%nat eqn:E1.
  - intros A. assert (HD : D3 (fun s => dtang n dxp dxt p (x s) m) t0 (scal3 (v n) (dxt p m))).
    { unfold dtang. eapply D3_val; [|apply D3_add; [apply D3_const|apply D3_scal; [apply (Hn n dxp dxt optG p x t0 v Hx)|apply D3_const]]]. apply v3_eq; vu; ring. }
    pose proof (D_drtil weight t0 (fun s => bx n dx (B t0) p (x s)) (fun s => bm n dx (dB t0) p (x s) m) (fun s => BoozSurf.tang n dxp dxt p (x s)) (fun s => dtang n dxp dxt p (x s) m) (fun s => G_of n currents optG (x s)) _ _ _ _ _ HB0 HBM0 HT HD HGG BP) as A'.
    pose proof (D3_unique _ _ _ _ A A') as E. rewrite E. rewrite d2rtil_rows by exact BP.
    eapply D3_val; [|apply (D_drtil weight t0 (fun s => bx n dx (B s) p (x s)) (fun s => bm n dx (dB s) p (x s) m) (fun s => BoozSurf.tang n dxp dxt p (x s)) (fun s => dtang n dxp dxt p (x s) m) (fun s => G_of n currents optG (x s)) _ _ _ _ _ Fb (Fbm m) HT HD HGG BP)].
    cbv beta. replace tp with (add3 tp v0) at 1 by apply add3_0_r. rewrite d2rtil_lin.
    set (u1 := py_d2rtil _ _ _ _ bp _ _ _ _). set (u2 := py_d2rtil _ _ _ _ cb _ _ _ _). generalize u1 u2 (scal3 Gp (py_d2rtil_G weight b0 (bm n dx (dB t0) p (x t0) m))) (scal3 (- (py_w weight b0 * normsq b0)) (scal3 (v n) (dxt p m))). clear. intros. apply v3_eq; vu; ring.
  - destruct (m =? n)%nat eqn:E2; intros A.
    + assert (HXT : D3 (fun s => Xt n dxt p (x s)) t0 (sumv n (fun k => scal3 (v k) (dxt p k)))) by (apply (D_lin n dxp dxt optG x t0 v Hx)).
      pose proof (D_iota_col weight t0 (fun s => bx n dx (B t0) p (x s)) _ HB0 BP (fun s => Xt n dxt p (x s)) _ HXT) as A'. pose proof (D3_unique _ _ _ _ A A') as E. rewrite E. rewrite diota_rows by exact BP.
      eapply D3_val; [|apply (D_iota_col weight t0 (fun s => bx n dx (B s) p (x s)) _ Fb BP (fun s => Xt n dxt p (x s)) _ HXT)]. cbv beta.
      replace (sumv n (fun k => scal3 (v k) (dxt p k))) with (add3 (sumv n (fun k => scal3 (v k) (dxt p k))) v0) at 1 by apply add3_0_r. rewrite d2iota_lin.
      replace (tens (fun _ => mat0) cd) with v0; [rewrite add3_0_r; reflexivity|]. unfold tens, frob, mat0, v0, dot3. cbn [row0 row1 row2 vx vy vz]. apply v3_eq; cbn [vx vy vz]; ring.
    + pose proof (D_G_col weight t0 (fun s => bx n dx (B t0) p (x s)) _ HB0 BP) as A'. pose proof (D3_unique _ _ _ _ A A') as E. rewrite E. rewrite dG_rows by exact BP.
      eapply D3_val; [|apply (D_G_col weight t0 (fun s => bx n dx (B s) p (x s)) _ Fb BP)]. cbv beta. rewrite d2G_lin.
      replace (tens (fun _ => mat0) cd) with v0; [rewrite add3_0_r; reflexivity|]. unfold tens, frob, mat0, v0, dot3. cbn [row0 row1 row2 vx vy vz]. apply v3_eq; cbn [vx vy vz]; ring.
Qed.
End Family.
