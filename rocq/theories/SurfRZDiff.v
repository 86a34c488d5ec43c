(** C67 for SurfaceRZFourier: the model of SurfGeom.v as a subclass of the base class of SurfDiff.v. *)
From Coq Require Import Reals Lra Lia ZArith List.
From Verif Require Import ListAux VecAux Vec3 BSModel BSDeriv BSVjp SurfModel SurfProps SurfGeom SurfGeomProps SurfGeomJac SurfDiff SurfDiffProps.
Open Scope R_scope.

(** SurfaceRZFourier with quadrature points qphis, qthetas; [s] gives the resolution and the entries that are no dofs.
    [junk], [always], [sz]: see SurfGeom.v.  surfacerzfourier.cpp, surfacerzfourier.h *)
Definition rz (s : surf) (nfp : nat) (junk : list (R * R)) (always : bool) (sz : nat) (qphis qthetas : list R) : surface :=
  let P i := nth i qphis 0 in let T j := nth j qthetas 0 in
  {| ndofs := num_dofs s; nphi := length qphis; ntheta := length qthetas;
     gamma := fun x i j => gamma_at (set_dofs s x) nfp junk (P i) (T j);
     gammadash1 := fun x i j => gammadash1_at (set_dofs s x) nfp junk (P i) (T j);
     gammadash2 := fun x i j => gammadash2_at (set_dofs s x) nfp junk (P i) (T j);
     gammadash1dash1 := fun x i j => gammadash1dash1_at (set_dofs s x) nfp (P i) (T j);
     gammadash1dash2 := fun x i j => gammadash1dash2_at (set_dofs s x) nfp (P i) (T j);
     gammadash2dash2 := fun x i j => gammadash2dash2_at (set_dofs s x) nfp (P i) (T j);
     dgamma := fun x i j m => nth m (dcoeff (set_dofs s x) (d0 (set_dofs s x) nfp) (P i) (T j)) v0;
     dgammadash1 := fun x i j m => nth m (dcoeff (set_dofs s x) (d1 (set_dofs s x) nfp) (P i) (T j)) v0;
     dgammadash2 := fun x i j m => nth m (dcoeff (set_dofs s x) (d2 (set_dofs s x) nfp) (P i) (T j)) v0;
     dgammadash1dash1 := fun x i j m => nth m (dcoeff (set_dofs s x) (d11 (set_dofs s x) nfp) (P i) (T j)) v0;
     dgammadash1dash2 := fun x i j m => nth m (dcoeff (set_dofs s x) (d12 (set_dofs s x) nfp) (P i) (T j)) v0;
     dgammadash2dash2 := fun x i j m => nth m (dcoeff (set_dofs s x) (d22 (set_dofs s x) nfp) (P i) (T j)) v0;
     dgamma_vjp := fun x v => vjp (set_dofs s x) nfp always sz junk b0 1 qphis qthetas v;
     dgammadash1_vjp := fun x v => vjp (set_dofs s x) nfp always sz junk (b1 (set_dofs s x) nfp) (2 * PI) qphis qthetas v;
     dgammadash2_vjp := fun x v => vjp (set_dofs s x) nfp always sz junk b2 (2 * PI) qphis qthetas v |}.

Lemma set_shape s x : same_shape s (set_dofs s x).
Proof. destruct (set_dofs_eq s x) as (A & B & C & _). repeat split; auto. Qed.
Lemma num_dofs_shape s s' : same_shape s s' -> num_dofs s' = num_dofs s.
Proof. intros (A & B & C). unfold num_dofs. rewrite A, B, C. reflexivity. Qed.
Lemma sum_cols (x y : list R) (l : list vec3) : length x = length l -> length y = length l ->
  sum3 (vmap2 scal3 (vsub x y) l) = sum3 (map (fun m => scal3 (nth m x 0 - nth m y 0) (nth m l v0)) (seq 0 (length l))).
Proof.
  unfold vsub. revert x y. induction l as [|c l IH]; intros [|a x] [|b y] Hx Hy; cbn in *; try discriminate; auto. f_equal. rewrite IH by lia.
  rewrite <- seq_shift, map_map. reflexivity.
Qed.
Lemma rz_affine (G : surf -> R -> R -> vec3) (d : surf -> column) s qphi qtheta : wf s -> exact_jacobian G d -> (forall s', same_shape s s' -> d s' = d s) ->
  forall x y, length x = num_dofs s -> length y = num_dofs s ->
  (forall m, nth m (dcoeff (set_dofs s x) (d (set_dofs s x)) qphi qtheta) v0 = nth m (dcoeff (set_dofs s y) (d (set_dofs s y)) qphi qtheta) v0) /\
  sub3 (G (set_dofs s x) qphi qtheta) (G (set_dofs s y) qphi qtheta) =
  sum3 (map (fun m => scal3 (nth m x 0 - nth m y 0) (nth m (dcoeff (set_dofs s x) (d (set_dofs s x)) qphi qtheta) v0)) (seq 0 (num_dofs s))).
Proof.
  intros WF HJ HD x y Lx Ly. rewrite (HD (set_dofs s x)), (HD (set_dofs s y)) by apply set_shape. rewrite !(dcoeff_shape s (set_dofs s x)), !(dcoeff_shape s (set_dofs s y)) by apply set_shape. split; auto.
  rewrite (HJ s x y qphi qtheta WF Lx Ly). rewrite sum_cols by (rewrite C66_length; auto). now rewrite C66_length.
Qed.
Theorem C67_rz_linear s nfp junk always sz qphis qthetas : wf s -> (0 < sz)%nat -> linear (rz s nfp junk always sz qphis qthetas).
Proof.
  intros WF Hs. constructor; cbn [rz ndofs nphi ntheta gamma gammadash1 gammadash2 gammadash1dash1 gammadash1dash2 gammadash2dash2 dgamma dgammadash1 dgammadash2 dgammadash1dash1 dgammadash1dash2 dgammadash2dash2 dgamma_vjp dgammadash1_vjp dgammadash2_vjp].
  - intros x y i j Lx Ly. apply (rz_affine (fun s => gamma_at s nfp junk) (fun s => d0 s nfp)); auto; [apply C66_dgamma_by_dcoeff|intros; now apply col_shape].
  - intros x y i j Lx Ly. apply (rz_affine (fun s => gammadash1_at s nfp junk) (fun s => d1 s nfp)); auto; [apply C66_dgammadash1_by_dcoeff|intros; now apply col_shape].
  - intros x y i j Lx Ly. apply (rz_affine (fun s => gammadash2_at s nfp junk) (fun s => d2 s nfp)); auto; [apply C66_dgammadash2_by_dcoeff|intros; now apply col_shape].
  - intros x y i j Lx Ly. apply (rz_affine (fun s => gammadash1dash1_at s nfp) (fun s => d11 s nfp)); auto; [apply C66_dgammadash1dash1_by_dcoeff|intros; now apply col_shape].
  - intros x y i j Lx Ly. apply (rz_affine (fun s => gammadash1dash2_at s nfp) (fun s => d12 s nfp)); auto; [apply C66_dgammadash1dash2_by_dcoeff|intros; now apply col_shape].
  - intros x y i j Lx Ly. apply (rz_affine (fun s => gammadash2dash2_at s nfp) (fun s => d22 s nfp)); auto; [apply C66_dgammadash2dash2_by_dcoeff|intros; now apply col_shape].
  - intros x w Lx. cbn [rz ndofs dgamma_vjp]. assert (E := num_dofs_shape _ _ (set_shape s x)). split; [now rewrite C66_vjp_length|]. intros m Hm. rewrite C66_dgamma_vjp by (auto; congruence). reflexivity.
  - intros x w Lx. cbn [rz ndofs dgammadash1_vjp]. assert (E := num_dofs_shape _ _ (set_shape s x)). split; [now rewrite C66_vjp_length|]. intros m Hm. rewrite C66_dgammadash1_vjp by (auto; congruence). reflexivity.
  - intros x w Lx. cbn [rz ndofs dgammadash2_vjp]. assert (E := num_dofs_shape _ _ (set_shape s x)). split; [now rewrite C66_vjp_length|]. intros m Hm. rewrite C66_dgammadash2_vjp by (auto; congruence). reflexivity.
Qed.

(** the area and volume of SurfaceRZFourier *)
Section RZ.
Variables (s : surf) (nfp : nat) (junk : list (R * R)) (always : bool) (sz : nat) (qphis qthetas x : list R).
Hypothesis WF : wf s.
Hypothesis HS : (0 < sz)%nat.
Hypothesis LX : length x = num_dofs s.
Notation RZ := (rz s nfp junk always sz qphis qthetas).
Theorem C67_rz_area : regular RZ x -> gradient (num_dofs s) (area RZ) x (fun m => nth m (darea_by_dcoeff RZ x) 0).
Proof. intros REG. apply (C67_darea_by_dcoeff RZ); auto. now apply C67_rz_linear. Qed.
Theorem C67_rz_volume : gradient (num_dofs s) (volume RZ) x (fun m => nth m (dvolume_by_dcoeff RZ x) 0).
Proof. apply (C67_dvolume_by_dcoeff RZ); auto. now apply C67_rz_linear. Qed.
Theorem C67_rz_d2area m : regular RZ x -> (m < num_dofs s)%nat -> gradient (num_dofs s) (fun y => nth m (darea_by_dcoeff RZ y) 0) x (d2area_by_dcoeffdcoeff RZ x m).
Proof. intros REG Hm. apply (C67_d2area_by_dcoeffdcoeff RZ); auto. now apply C67_rz_linear. Qed.
Theorem C67_rz_d2volume m : (m < num_dofs s)%nat -> gradient (num_dofs s) (fun y => nth m (dvolume_by_dcoeff RZ y) 0) x (d2volume_by_dcoeffdcoeff RZ x m).
Proof. intros Hm. apply (C67_d2volume_by_dcoeffdcoeff RZ); auto. now apply C67_rz_linear. Qed.
End RZ.

(** a circular torus with major radius A and minor radius a < A is regular everywhere *)
Definition circ : surf := allocate 1 0 true.
Theorem C67_torus_regular nfp junk always sz qphis qthetas A a : 0 < a < A -> regular (rz circ nfp junk always sz qphis qthetas) [A; a; a].
Proof.
  intros H i j _ _ E. cbn [rz gammadash1 gammadash2] in E. rewrite gammadash1_eq, gammadash2_eq in E. revert E.
  set (p := 2 * PI * nth i qphis 0). set (t := 2 * PI * nth j qthetas 0). clearbody p t.
  assert (E1 : lin (set_dofs circ [A; a; a]) (d1 (set_dofs circ [A; a; a]) nfp) t p = scal3 (2 * PI) (V3 (- (A + a * cos t) * sin p) ((A + a * cos t) * cos p) 0)).
  { lazy -[Rplus Rmult Ropp Rminus cos sin PI IZR INR]. change (INR 0) with 0. change (INR 1) with 1.
    replace (0 * t - (0 - 0) * INR nfp * p) with 0 by ring. replace (1 * t - (0 - 0) * INR nfp * p) with t by ring. rewrite cos_0, sin_0. apply v3_eq; cbn [vx vy vz]; ring. }
  assert (E2 : lin (set_dofs circ [A; a; a]) (d2 (set_dofs circ [A; a; a]) nfp) t p = scal3 (2 * PI) (V3 (- a * sin t * cos p) (- a * sin t * sin p) (a * cos t))).
  { lazy -[Rplus Rmult Ropp Rminus cos sin PI IZR INR]. change (INR 0) with 0. change (INR 1) with 1.
    replace (0 * t - (0 - 0) * INR nfp * p) with 0 by ring. replace (1 * t - (0 - 0) * INR nfp * p) with t by ring. rewrite cos_0, sin_0. apply v3_eq; cbn [vx vy vz]; ring. }
  rewrite E1, E2. intros E.
  assert (Q : normsq (cross (scal3 (2 * PI) (V3 (- (A + a * cos t) * sin p) ((A + a * cos t) * cos p) 0)) (scal3 (2 * PI) (V3 (- a * sin t * cos p) (- a * sin t * sin p) (a * cos t)))) = 0) by (rewrite E; unfold normsq, dot3; cbn; ring).
  assert (K : normsq (cross (scal3 (2 * PI) (V3 (- (A + a * cos t) * sin p) ((A + a * cos t) * cos p) 0)) (scal3 (2 * PI) (V3 (- a * sin t * cos p) (- a * sin t * sin p) (a * cos t)))) =
     (2 * PI) ^ 4 * ((A + a * cos t) * (A + a * cos t)) * (a * a) * (((sin p)² + (cos p)²) * (cos t)² + ((sin p)² + (cos p)²) * ((sin p)² + (cos p)²) * (sin t)²)).
  { unfold normsq, dot3, Rsqr. cbn [vx vy vz cross scal3]. ring. }
  rewrite K, sin2_cos2 in Q. replace (1 * (cos t)² + 1 * 1 * (sin t)²) with ((sin t)² + (cos t)²) in Q by ring. rewrite sin2_cos2 in Q.
  assert (P := PI_RGT_0). destruct (COS_bound t) as (C1 & C2). assert (0 < A + a * cos t) by nra.
  assert (0 < (2 * PI) ^ 4) by (apply pow_lt; lra). assert (0 < (A + a * cos t) * (A + a * cos t)) by nra. assert (0 < a * a) by nra.
  assert (0 < (2 * PI) ^ 4 * ((A + a * cos t) * (A + a * cos t)) * (a * a) * 1). { rewrite Rmult_1_r. apply Rmult_lt_0_compat; [apply Rmult_lt_0_compat|]; assumption. } lra.
Qed.
Example circ_wf : wf circ /\ num_dofs circ = 3%nat. Proof. split; [intros []; reflexivity|reflexivity]. Qed.
