(** C125: the frames of finite build coils. *)
From Coq Require Import Reals Lra Lia List Bool Arith.
From Verif Require CoilProps TensorProps EqProps.
From Verif Require Import ListAux VecAux Vec3 BSModel BSDeriv BSVjp SurfProps SurfGeomProps SurfDiff SurfDiffProps CurveModel CurveProps CurveDiff CurveDiffProps CurveObjModel CurveObjProps BoozSurf BoozProps MaskProps TensorSym WFGeom FourProps FrameModel.
Import ListNotations.
Open Scope R_scope.

(** ** Specification *)
(** t, n, b is a right-handed orthonormal frame *)
Definition orthonormal (f : frame) : Prop := dot3 (ft f) (ft f) = 1 /\ dot3 (fn f) (fn f) = 1 /\ dot3 (fb f) (fb f) = 1 /\ dot3 (ft f) (fn f) = 0 /\ dot3 (fn f) (fb f) = 0 /\ dot3 (fb f) (ft f) = 0 /\ fb f = cross (ft f) (fn f).

(** ** rotating a frame *)
Lemma rotate_orthonormal a t n : dot3 t t = 1 -> dot3 n n = 1 -> dot3 t n = 0 -> orthonormal (rotate a t n).
Proof.
  intros T N O. set (b := cross t n). assert (B : dot3 b b = 1) by (unfold b; rewrite lagrange, T, N, O; ring). assert (TB : dot3 t b = 0) by (unfold b, dot3; cbn [cross vx vy vz]; ring). assert (NB : dot3 n b = 0) by (unfold b, dot3; cbn [cross vx vy vz]; ring).
  pose proof (sin2_cos2 a) as SC. unfold Rsqr in SC. unfold rotate, orthonormal. cbn [ft fn fb]. fold b.
  assert (X : forall p q r s, dot3 (add3 (scal3 p n) (scal3 q b)) (add3 (scal3 r n) (scal3 s b)) = p * r * dot3 n n + (p * s + q * r) * dot3 n b + q * s * dot3 b b) by (intros; unfold dot3; cbn [vx vy vz add3 scal3]; ring).
  assert (E : sub3 (scal3 (cos a) n) (scal3 (sin a) b) = add3 (scal3 (cos a) n) (scal3 (- sin a) b)) by (apply v3_eq; cbn [vx vy vz add3 sub3 scal3]; ring). rewrite E.
  split; [exact T|]. split; [rewrite X, N, NB, B; lra|]. split; [rewrite X, N, NB, B; lra|].
  split. { replace (dot3 t _) with (cos a * dot3 t n - sin a * dot3 t b) by (unfold dot3; cbn [vx vy vz add3 scal3]; ring). rewrite O, TB. ring. }
  split; [rewrite X, N, NB, B; ring|].
  split. { replace (dot3 _ t) with (sin a * dot3 t n + cos a * dot3 t b) by (unfold dot3; cbn [vx vy vz add3 scal3]; ring). rewrite O, TB. ring. }
  assert (TXB : cross t b = scal3 (-1) n). { unfold b. transitivity (sub3 (scal3 (dot3 t n) t) (scal3 (dot3 t t) n)); [unfold dot3; apply v3_eq; cbn [vx vy vz cross sub3 scal3]; ring|]. rewrite O, T. apply v3_eq; cbn [vx vy vz sub3 scal3]; ring. }
  transitivity (add3 (scal3 (cos a) b) (scal3 (- sin a) (cross t b))); [rewrite TXB; apply v3_eq; cbn [vx vy vz add3 scal3]; ring|]. unfold b at 1. apply v3_eq; cbn [vx vy vz add3 scal3 cross]; ring.
Qed.
(** its derivative *)
Definition rotate_dash (a ad : R) (t n t' n' : vec3) : frame := let b := cross t n in let b' := add3 (cross t' n) (cross t n') in
  Frame t' (sub3 (sub3 (scal3 (cos a) n') (scal3 (sin a) b')) (scal3 ad (add3 (scal3 (sin a) n) (scal3 (cos a) b))))
    (add3 (add3 (scal3 (sin a) n') (scal3 (cos a) b')) (scal3 ad (sub3 (scal3 (cos a) n) (scal3 (sin a) b)))).
Lemma D_cos_path f s d : D f s d -> D (fun e => cos (f e)) s (- sin (f s) * d).
Proof. intros H. exact (derivable_pt_lim_comp f cos s d (- sin (f s)) H (derivable_pt_lim_cos (f s))). Qed.
Lemma D_sin_path f s d : D f s d -> D (fun e => sin (f e)) s (cos (f s) * d).
Proof. intros H. exact (derivable_pt_lim_comp f sin s d (cos (f s)) H (derivable_pt_lim_sin (f s))). Qed.
Lemma D_rotate (al : R -> R) (T N : R -> vec3) s ad t' n' : D al s ad -> D3 T s t' -> D3 N s n' -> D_frame (fun e => rotate (al e) (T e) (N e)) s (rotate_dash (al s) ad (T s) (N s) t' n').
Proof.
  intros A HT HN. pose proof (D3_cross _ _ _ _ _ HT HN) as HB. unfold D_frame, rotate, rotate_dash. cbn [ft fn fb]. split; [exact HT|]. split.
  - eapply D3_val; [|apply D3_sub; [apply (D3_scal (fun e => cos (al e)) N); [apply D_cos_path, A|exact HN]|apply (D3_scal (fun e => sin (al e)) (fun e => cross (T e) (N e))); [apply D_sin_path, A|exact HB]]]. apply v3_eq; cbn [vx vy vz add3 sub3 scal3 cross]; ring.
  - eapply D3_val; [|apply D3_add; [apply (D3_scal (fun e => sin (al e)) N); [apply D_sin_path, A|exact HN]|apply (D3_scal (fun e => cos (al e)) (fun e => cross (T e) (N e))); [apply D_cos_path, A|exact HB]]]. apply v3_eq; cbn [vx vy vz add3 sub3 scal3 cross]; ring.
Qed.
Lemma D_frame_unique F s f g : D_frame F s f -> D_frame F s g -> f = g.
Proof. intros (A & B & C) (A' & B' & C'). destruct f as [f1 f2 f3], g as [g1 g2 g3]. cbn [ft fn fb] in *. f_equal; eapply D3_unique; eauto. Qed.
Lemma rotate_torsion a ad t n t' n' : dot3 t t = 1 -> dot3 n n = 1 -> dot3 t n = 0 -> dot3 t' t = 0 -> dot3 n' n = 0 ->
  dot3 (fn (rotate_dash a ad t n t' n')) (fb (rotate a t n)) = dot3 n' (cross t n) - ad.
Proof.
  intros T N O T' N'. unfold rotate_dash, rotate. cbn [fn fb]. set (b := cross t n). set (b' := add3 (cross t' n) (cross t n')). pose proof (sin2_cos2 a) as SC. unfold Rsqr in SC.
  assert (B : dot3 b b = 1) by (unfold b; rewrite lagrange, T, N, O; ring). assert (NB : dot3 n b = 0) by (unfold b, dot3; cbn [cross vx vy vz]; ring).
  assert (BN : dot3 b' n = - dot3 n' b) by (unfold b', b, dot3; cbn [cross add3 vx vy vz]; ring).
  assert (BB : dot3 b' b = 0). { transitivity (dot3 t' t * dot3 n n - dot3 t' n * dot3 t n + (dot3 t t * dot3 n' n - dot3 t n * dot3 t n')); [unfold b', b, dot3; cbn [cross add3 vx vy vz]; ring|]. rewrite T', O, N'. ring. }
  transitivity (cos a * sin a * dot3 n' n + cos a * cos a * dot3 n' b - sin a * sin a * dot3 b' n - sin a * cos a * dot3 b' b - ad * (sin a * sin a * dot3 n n + 2 * (sin a * cos a) * dot3 n b + cos a * cos a * dot3 b b)).
  - clearbody b b'. unfold dot3. cbn [vx vy vz add3 sub3 scal3]. ring.
  - rewrite N', BN, BB, N, NB, B. replace (dot3 n' b) with ((sin a * sin a + cos a * cos a) * dot3 n' b) at 3 by (rewrite SC; ring). replace ad with (ad * (sin a * sin a + cos a * cos a)) at 2 by (rewrite SC; ring). ring.
Qed.
Lemma rotate_curvature a ad t n t' n' : dot3 (ft (rotate_dash a ad t n t' n')) (fb (rotate a t n)) = sin a * dot3 t' n + cos a * dot3 t' (cross t n).
Proof. unfold rotate_dash, rotate. cbn [ft fb]. unfold dot3. cbn [vx vy vz add3 scal3 cross]. ring. Qed.

(** ** the two kinds of frames along any path of their arguments *)
Lemma frenet_is d1 d2 a : frenet_frame d1 d2 a = rotate a (frenet_t d1) (frenet_n d1 d2). Proof. reflexivity. Qed.
Lemma frenet_path (p1 p2 : R -> vec3) (al : R -> R) s e1 e2 ad : D3 p1 s e1 -> D3 p2 s e2 -> D al s ad -> cross (p1 s) (p2 s) <> v0 ->
  D_frame (fun e => frenet_frame (p1 e) (p2 e) (al e)) s (rotate_dash (al s) ad (frenet_t (p1 s)) (frenet_n (p1 s) (p2 s)) (dfrenet_t (p1 s) e1) (dfrenet_n (p1 s) (p2 s) e1 e2)).
Proof.
  intros H1 H2 A N. apply (D_rotate al (fun e => frenet_t (p1 e)) (fun e => frenet_n (p1 e) (p2 e))); [exact A|apply D3_t; [exact H1|exact (cross_nz _ _ N)]|now apply D3_n].
Qed.
Lemma D3_line x v s : D3 (line x v) s v.
Proof. unfold line. eapply D3_val; [|apply D3_add; [apply (D3_const x)|apply (D3_scal (fun e => e) (fun _ => v)); [apply D_id|apply D3_const]]]. apply v3_eq; cbn [vx vy vz add3 scal3 v0]; ring. Qed.
Lemma line_0 x v : line x v 0 = x. Proof. unfold line. apply v3_eq; cbn [vx vy vz add3 scal3]; ring. Qed.
Lemma D_al a ad : D (fun e => a + e * ad) 0 ad.
Proof. eapply D_val; [|apply (D_add (fun _ => a) (fun e => e * ad)); [exact (D_const a 0)|apply (D_mul (fun e => e) (fun _ => ad)); [apply D_id|exact (D_const ad 0)]]]. cbv beta. ring. Qed.
Lemma dash_frenet d1 d2 d3 a ad f' : cross d1 d2 <> v0 -> is_frenet_dash d1 d2 d3 a ad f' -> f' = rotate_dash a ad (frenet_t d1) (frenet_n d1 d2) (dfrenet_t d1 d2) (dfrenet_n d1 d2 d2 d3).
Proof.
  intros N H. refine (D_frame_unique _ _ _ _ H _). pose proof (frenet_path (line d1 d2) (line d2 d3) (fun e => a + e * ad) 0 d2 d3 ad (D3_line _ _ _) (D3_line _ _ _) (D_al a ad)) as X. cbv beta in X. rewrite !line_0, Rmult_0_l, Rplus_0_r in X. exact (X N).
Qed.

(** ** The Frenet frame *)
Section Frenet.
Variables (p1 p2 p3 : R -> vec3) (al ald : R -> R).
Hypotheses (P1 : forall t, D3 p1 t (p2 t)) (P2 : forall t, D3 p2 t (p3 t)) (AL : forall t, D al t (ald t)).
Theorem C125_frenet_orthonormal t : cross (p1 t) (p2 t) <> v0 -> let f := frenet_frame (p1 t) (p2 t) (al t) in orthonormal f /\ p1 t = scal3 (norm3 (p1 t)) (ft f).
Proof.
  intros N. cbv zeta. destruct (C71_frenet_frame_is_orthonormal p1 p2 t N) as (TT & NN & _ & TN & _ & _ & _ & L). cbv zeta in *. split; [rewrite frenet_is; now apply rotate_orthonormal|exact L].
Qed.
(** what rotated_frame_dash returns is the derivative of rotated_frame along the curve *)
Theorem C125_frenet_dash t f' : cross (p1 t) (p2 t) <> v0 -> is_frenet_dash (p1 t) (p2 t) (p3 t) (al t) (ald t) f' -> D_frame (fun t => frenet_frame (p1 t) (p2 t) (al t)) t f'.
Proof. intros N H. rewrite (dash_frenet _ _ _ _ _ _ N H). now apply frenet_path. Qed.
(** frame torsion = torsion of the curve - (d alpha / d l); binormal curvature = curvature of the curve times sin alpha *)
Theorem C125_frenet_torsion t f' : cross (p1 t) (p2 t) <> v0 -> is_frenet_dash (p1 t) (p2 t) (p3 t) (al t) (ald t) f' -> let f := frenet_frame (p1 t) (p2 t) (al t) in
  frame_torsion (p1 t) f f' = torsion (p1 t) (p2 t) (p3 t) - ald t / norm3 (p1 t) /\ frame_binormal_curvature (p1 t) f f' = kappa (p1 t) (p2 t) * sin (al t).
Proof.
  intros N H. cbv zeta. rewrite (dash_frenet _ _ _ _ _ _ N H). destruct (C71_frenet_frame_is_orthonormal p1 p2 t N) as (TT & NN & BB & TN & NB & BT & EB & _). destruct (C71_frenet_serret p1 p2 p3 P1 P2 t N) as (DT & DN & _). cbv zeta in *.
  assert (N1 := cross_nz _ _ N). assert (L := norm_pos _ N1). change (incremental_arclength (p1 t)) with (norm3 (p1 t)) in *.
  pose proof (D3_unique _ _ _ _ (D3_t p1 t _ (P1 t) N1) DT) as ET. pose proof (D3_unique _ _ _ _ (D3_n p1 p2 t _ _ (P1 t) (P2 t) N) DN) as EN. rewrite ET, EN. rewrite frenet_is. set (T := frenet_t (p1 t)) in *. set (Nn := frenet_n (p1 t) (p2 t)) in *. set (B := frenet_b (p1 t) (p2 t)) in *.
  set (l := norm3 (p1 t)) in *. set (k := kappa (p1 t) (p2 t)) in *. set (tau := torsion (p1 t) (p2 t) (p3 t)) in *.
  unfold frame_torsion, frame_binormal_curvature. fold l.
  assert (SC : forall c u v, dot3 (scal3 c u) v = c * dot3 u v) by (intros; unfold dot3; cbn [vx vy vz scal3]; ring). rewrite !SC.
  assert (BN : dot3 B Nn = 0) by (rewrite <- NB; unfold dot3; ring). assert (NT : dot3 Nn T = 0) by (rewrite <- TN; unfold dot3; ring). assert (TB : dot3 T B = 0) by (rewrite <- BT; unfold dot3; ring). clear DT DN ET EN.
  split.
  - rewrite rotate_torsion; auto.
    + rewrite <- EB. replace (dot3 _ B) with (- (l * k) * dot3 T B + l * tau * dot3 B B) by (unfold dot3; cbn [vx vy vz add3 scal3]; ring). rewrite TB, BB. field. lra.
    + rewrite SC, NT. ring.
    + replace (dot3 _ Nn) with (- (l * k) * dot3 T Nn + l * tau * dot3 B Nn) by (unfold dot3; cbn [vx vy vz add3 scal3]; ring). rewrite TN, BN. ring.
  - rewrite rotate_curvature, !SC, NN, <- EB, NB. field. lra.
Qed.
End Frenet.

(** ** The centroid frame *)
(** with centroid R, at a point g with tangent vector d1 *)
Definition about (R : vec3) (g d1 : vec3) (a : Rdefinitions.R) : frame := let t := scal3 (1 / norm3 d1) d1 in let n0 := cent_n0 (sub3 g R) t in rotate a t (scal3 (1 / norm3 n0) n0).
Definition offset (R g d1 : vec3) : vec3 := cent_n0 (sub3 g R) (frenet_t d1).
Lemma T_unit d1 : d1 <> v0 -> dot3 (frenet_t d1) (frenet_t d1) = 1.
Proof. intros N. pose proof (norm_pos _ N). unfold frenet_t. change (incremental_arclength d1) with (norm3 d1). replace (dot3 _ _) with (1 / norm3 d1 * (1 / norm3 d1) * dot3 d1 d1) by (unfold dot3; cbn [vx vy vz scal3]; ring). rewrite <- norm_sq. field. lra. Qed.
Lemma unit_of n : n <> v0 -> dot3 (scal3 (1 / norm3 n) n) (scal3 (1 / norm3 n) n) = 1.
Proof. intros N. exact (T_unit n N). Qed.
Lemma sc_l c u v : dot3 (scal3 c u) v = c * dot3 u v. Proof. unfold dot3; cbn [vx vy vz scal3]; ring. Qed.
Lemma sc_r c u v : dot3 u (scal3 c v) = c * dot3 u v. Proof. unfold dot3; cbn [vx vy vz scal3]; ring. Qed.
Lemma offset_T R g d1 : d1 <> v0 -> dot3 (offset R g d1) (frenet_t d1) = 0.
Proof. intros N. unfold offset, cent_n0. set (T := frenet_t d1). replace (dot3 _ T) with (dot3 (sub3 g R) T - dot3 (sub3 g R) T * dot3 T T) by (unfold dot3; cbn [vx vy vz sub3 scal3]; ring). unfold T at 3 4. rewrite T_unit by exact N. ring. Qed.
Theorem C125_centroid_orthonormal (nq : nat) (g : nat -> vec3) (k : nat) (d1 : vec3) (a : R) : d1 <> v0 -> offset (mean3 nq g) (g k) d1 <> v0 -> let f := centroid_frame nq g k d1 a in
  orthonormal f /\ d1 = scal3 (norm3 d1) (ft f) /\ (a = 0 -> exists u v, sub3 (g k) (mean3 nq g) = add3 (scal3 u (ft f)) (scal3 v (fn f)) /\ 0 < v).
Proof.
  intros N NO. cbv zeta. assert (L := norm_pos _ N). assert (M := norm_pos _ NO). unfold centroid_frame. change (scal3 (1 / norm3 d1) d1) with (frenet_t d1). fold (offset (mean3 nq g) (g k) d1). set (n0 := offset (mean3 nq g) (g k) d1) in *. split; [|split].
  - apply rotate_orthonormal; [now apply T_unit|now apply unit_of|]. rewrite sc_r. replace (dot3 (frenet_t d1) n0) with (dot3 n0 (frenet_t d1)) by (unfold dot3; ring). unfold n0. rewrite offset_T by exact N. ring.
  - cbn [rotate ft]. unfold frenet_t. change (incremental_arclength d1) with (norm3 d1). rewrite scal3_scal. replace (norm3 d1 * (1 / norm3 d1)) with 1 by (field; lra). symmetry. apply scal3_1.
  - intros ->. exists (dot3 (sub3 (g k) (mean3 nq g)) (frenet_t d1)), (norm3 n0). split; [|exact M]. cbn [rotate ft fn]. rewrite cos_0, sin_0. transitivity (add3 (scal3 (dot3 (sub3 (g k) (mean3 nq g)) (frenet_t d1)) (frenet_t d1)) n0); [unfold n0, offset, cent_n0; apply v3_eq; cbn [vx vy vz add3 sub3 scal3]; ring|].
    f_equal. clearbody n0. apply v3_eq; cbn [vx vy vz sub3 scal3]; field; lra.
Qed.
Definition dcent_n0 (delta t delta' t' : vec3) : vec3 := sub3 (sub3 delta' (scal3 (dot3 delta' t + dot3 delta t') t)) (scal3 (dot3 delta t) t').
Definition dunit (n n' : vec3) : vec3 := sub3 (scal3 (1 / norm3 n) n') (scal3 (dot3 n n' / (norm3 n * norm3 n * norm3 n)) n).
Lemma D3_unit p s e : D3 p s e -> p s <> v0 -> D3 (fun t => scal3 (1 / norm3 (p t)) (p t)) s (dunit (p s) e).
Proof.
  intros H N. assert (L := norm_pos _ N). eapply D3_val; [|apply (D3_scal (fun t => 1 / norm3 (p t)) p); [apply D_inv; [apply D_norm; [exact H|exact N]|lra]|exact H]]. cbv beta. unfold dunit. generalize (dot3 (p s) e). intros x. set (m := norm3 (p s)) in *. clearbody m. apply v3_eq; cbn [vx vy vz add3 sub3 scal3]; field; lra.
Qed.
Lemma D3_cent (de T : R -> vec3) s e t' : D3 de s e -> D3 T s t' -> D3 (fun x => cent_n0 (de x) (T x)) s (dcent_n0 (de s) (T s) e t').
Proof.
  intros H1 H2. unfold cent_n0. eapply D3_val; [|apply D3_sub; [exact H1|apply (D3_scal (fun x => dot3 (de x) (T x)) T); [apply D_dot; [exact H1|exact H2]|exact H2]]]. unfold dcent_n0. apply v3_eq; cbn [vx vy vz add3 sub3 scal3]; ring.
Qed.
Definition about_dash (R g d1 : vec3) (R' g' d1' : vec3) (a ad : Rdefinitions.R) : frame := let t := frenet_t d1 in let t' := dfrenet_t d1 d1' in let n0 := offset R g d1 in
  rotate_dash a ad t (scal3 (1 / norm3 n0) n0) t' (dunit n0 (dcent_n0 (sub3 g R) t (sub3 g' R') t')).
Lemma about_path (pR pg p1 : R -> vec3) (al : R -> R) s R' g' d1' ad : D3 pR s R' -> D3 pg s g' -> D3 p1 s d1' -> D al s ad -> p1 s <> v0 -> offset (pR s) (pg s) (p1 s) <> v0 ->
  D_frame (fun e => about (pR e) (pg e) (p1 e) (al e)) s (about_dash (pR s) (pg s) (p1 s) R' g' d1' (al s) ad).
Proof.
  intros HR HG H1 A N NO. pose proof (D3_t p1 s d1' H1 N) as HT. pose proof (D3_cent _ _ _ _ _ (D3_sub _ _ _ _ _ HG HR) HT) as H0.
  apply (D_rotate al (fun e => frenet_t (p1 e)) (fun e => scal3 (1 / norm3 (cent_n0 (sub3 (pg e) (pR e)) (frenet_t (p1 e)))) (cent_n0 (sub3 (pg e) (pR e)) (frenet_t (p1 e))))); [exact A|exact HT|]. apply (D3_unit (fun e => cent_n0 (sub3 (pg e) (pR e)) (frenet_t (p1 e)))); [exact H0|exact NO].
Qed.
Lemma mean_line nq (g d : nat -> vec3) e : mean3 nq (fun j => line (g j) (d j) e) = line (mean3 nq g) (mean3 nq d) e.
Proof.
  unfold mean3, line. assert (E : sumv nq (fun j => add3 (g j) (scal3 e (d j))) = add3 (sumv nq g) (scal3 e (sumv nq d))).
  { unfold sumv. apply v3_eq; cbn [vx vy vz add3 scal3]; rewrite sum_to_plus, sum_to_scal; reflexivity. }
  rewrite E. apply v3_eq; cbn [vx vy vz add3 scal3]; ring.
Qed.
Lemma dash_centroid nq g d1 k d2 a ad f' : d1 k <> v0 -> offset (mean3 nq g) (g k) (d1 k) <> v0 -> is_centroid_dash nq g d1 k d2 a ad f' ->
  f' = about_dash (mean3 nq g) (g k) (d1 k) (mean3 nq d1) (d1 k) d2 a ad.
Proof.
  intros N NO H. refine (D_frame_unique _ _ _ _ H _). pose proof (about_path (line (mean3 nq g) (mean3 nq d1)) (line (g k) (d1 k)) (line (d1 k) d2) (fun e => a + e * ad) 0 _ _ _ _ (D3_line _ _ _) (D3_line _ _ _) (D3_line _ _ _) (D_al a ad)) as X. cbv beta in X.
  rewrite !line_0, Rmult_0_l, Rplus_0_r in X. specialize (X N NO). destruct X as (X1 & X2 & X3). unfold D_frame, centroid_frame. split; [|split].
  - eapply D3_ext; [|exact X1]. intros e. unfold about. rewrite <- mean_line. reflexivity.
  - eapply D3_ext; [|exact X2]. intros e. unfold about. rewrite <- mean_line. reflexivity.
  - eapply D3_ext; [|exact X3]. intros e. unfold about. rewrite <- mean_line. reflexivity.
Qed.
Section Centroid.
Variables (nq : nat) (p p1 p2 : R -> vec3) (al ald : R -> R) (qs : nat -> R).
Hypotheses (P0 : forall t, D3 p t (p1 t)) (P1 : forall t, D3 p1 t (p2 t)) (AL : forall t, D al t (ald t)).
Notation g := (fun j => p (qs j)). Notation d1 := (fun j => p1 (qs j)). Notation Rc := (mean3 nq g). Notation M := (mean3 nq d1).
(** the centroid does not move along the curve: this is the frame as a function of the curve parameter *)
Notation along := (fun t => about Rc (p t) (p1 t) (al t)).
Theorem C125_centroid_dash k f' : p1 (qs k) <> v0 -> offset Rc (p (qs k)) (p1 (qs k)) <> v0 -> is_centroid_dash nq g d1 k (p2 (qs k)) (al (qs k)) (ald (qs k)) f' -> M = v0 ->
  centroid_frame nq g k (p1 (qs k)) (al (qs k)) = along (qs k) /\ D_frame along (qs k) f'.
Proof.
  intros N NO H Z. split; [reflexivity|]. rewrite (dash_centroid _ _ _ _ _ _ _ _ N NO H), Z. apply (about_path (fun _ => Rc) p p1 al); auto using D3_const.
Qed.
(** In general the mean of gammadash over the quadrature points is subtracted from the velocity: the frame torsion is off by its binormal component
    over |gammadash| times the distance from the tangent line to the centroid; the binormal curvature is right *)
Theorem C125_centroid_torsion k f' ft' : p1 (qs k) <> v0 -> offset Rc (p (qs k)) (p1 (qs k)) <> v0 -> is_centroid_dash nq g d1 k (p2 (qs k)) (al (qs k)) (ald (qs k)) f' -> D_frame along (qs k) ft' ->
  let f := along (qs k) in let b0 := fb (about Rc (p (qs k)) (p1 (qs k)) 0) in
  frame_torsion (p1 (qs k)) f f' = frame_torsion (p1 (qs k)) f ft' - dot3 M b0 / (norm3 (p1 (qs k)) * norm3 (offset Rc (p (qs k)) (p1 (qs k)))) /\
  frame_binormal_curvature (p1 (qs k)) f f' = frame_binormal_curvature (p1 (qs k)) f ft' /\
  frame_binormal_curvature (p1 (qs k)) f f' = dot3 (p2 (qs k)) (fb f) / (norm3 (p1 (qs k)) * norm3 (p1 (qs k))) /\
  frame_torsion (p1 (qs k)) f ft' = - dot3 (sub3 (p (qs k)) Rc) (p1 (qs k)) * dot3 (p2 (qs k)) b0 / (norm3 (p1 (qs k)) * norm3 (p1 (qs k)) * norm3 (p1 (qs k)) * norm3 (offset Rc (p (qs k)) (p1 (qs k)))) - ald (qs k) / norm3 (p1 (qs k)).
Proof.
  intros N NO H HT. cbv zeta. rewrite (dash_centroid _ _ _ _ _ _ _ _ N NO H). assert (E : ft' = about_dash Rc (p (qs k)) (p1 (qs k)) v0 (p1 (qs k)) (p2 (qs k)) (al (qs k)) (ald (qs k))).
  { refine (D_frame_unique _ _ _ _ HT _). apply (about_path (fun _ => Rc) p p1 al); auto using D3_const. }
  rewrite E. clear E H HT. set (t0 := qs k) in *. set (Mv := M). clearbody Mv. set (R0 := Rc) in *. clearbody R0. set (G := p t0) in *. set (d := p1 t0) in *. set (dd := p2 t0). clearbody G d dd. clear P0 P1 AL.
  assert (L := norm_pos _ N). assert (LO := norm_pos _ NO). assert (TT := T_unit _ N). set (a := al t0). set (ad := ald t0). clearbody a ad.
  unfold frame_torsion, frame_binormal_curvature, about, about_dash. change (scal3 (1 / norm3 d) d) with (frenet_t d). fold (offset R0 G d). set (T := frenet_t d) in *. set (n0 := offset R0 G d) in *. set (n := scal3 (1 / norm3 n0) n0). set (T' := dfrenet_t d dd).
  assert (NN : dot3 n n = 1) by now apply unit_of. assert (OT : dot3 n0 T = 0) by now apply offset_T. assert (TN : dot3 T n = 0) by (unfold n; rewrite sc_r; replace (dot3 T n0) with (dot3 n0 T) by (unfold dot3; ring); rewrite OT; ring).
  assert (T'v : forall v, dot3 T v = 0 -> dot3 T' v = dot3 dd v / norm3 d).
  { intros v V. unfold T, frenet_t in V. rewrite sc_l in V. change (incremental_arclength d) with (norm3 d) in V. assert (V' : dot3 d v = 0) by (apply (Rmult_eq_reg_l (1 / norm3 d)); [lra|apply Rgt_not_eq; apply Rdiv_lt_0_compat; lra]). unfold T', dfrenet_t. cbv zeta. change (incremental_arclength d) with (norm3 d).
    replace (dot3 (add3 _ _) v) with (- (dincremental_arclength d dd / norm3 d ^ 2) * dot3 d v + / norm3 d * dot3 dd v) by (unfold dot3; cbn [vx vy vz add3 scal3]; ring). rewrite V'. unfold Rdiv. ring. }
  assert (T'T : dot3 T' T = 0). { unfold T', T, dfrenet_t, frenet_t. cbv zeta. rewrite sc_r. replace (dot3 (add3 _ _) d) with (- (dincremental_arclength d dd / incremental_arclength d ^ 2) * dot3 d d + / incremental_arclength d * dot3 d dd) by (unfold dot3; cbn [vx vy vz add3 scal3]; ring).
    unfold dincremental_arclength. fold (dot3 d dd). change (incremental_arclength d) with (norm3 d). rewrite <- norm_sq. field. lra. }
  assert (OB : dot3 T (fb (rotate a T n)) = 0). { destruct (rotate_orthonormal a T n TT NN TN) as (_ & _ & _ & _ & _ & O & _). rewrite <- O. cbn [rotate ft fb]. unfold dot3. ring. }
  assert (NB0 : dot3 n0 (cross T n) = 0) by (unfold n, dot3; cbn [cross scal3 vx vy vz]; ring). assert (TB0 : dot3 T (cross T n) = 0) by (unfold dot3; cbn [cross vx vy vz]; ring).
  assert (FB0 : fb (rotate 0 T n) = cross T n) by (cbn [rotate fb]; rewrite sin_0, cos_0; apply v3_eq; cbn [vx vy vz add3 scal3]; ring). rewrite FB0.
  assert (DU : forall n0', dot3 (dunit n0 n0') n = 0). { intros n0'. unfold dunit, n. rewrite sc_r. replace (dot3 (sub3 _ _) n0) with (1 / norm3 n0 * dot3 n0 n0' - dot3 n0 n0' / (norm3 n0 * norm3 n0 * norm3 n0) * dot3 n0 n0) by (unfold dot3; cbn [vx vy vz sub3 scal3]; ring). rewrite <- norm_sq. field. lra. }
  assert (DB : forall n0', dot3 (dunit n0 n0') (cross T n) = dot3 n0' (cross T n) / norm3 n0). { intros n0'. unfold dunit. replace (dot3 (sub3 _ _) (cross T n)) with (1 / norm3 n0 * dot3 n0' (cross T n) - dot3 n0 n0' / (norm3 n0 * norm3 n0 * norm3 n0) * dot3 n0 (cross T n)) by (generalize (cross T n); intros; unfold dot3; cbn [vx vy vz sub3 scal3]; ring). rewrite NB0. unfold Rdiv. ring. }
  assert (DC : forall R', dot3 (dcent_n0 (sub3 G R0) T (sub3 d R') T') (cross T n) = - dot3 R' (cross T n) - dot3 (sub3 G R0) T * (dot3 dd (cross T n) / norm3 d)).
  { intros R'. rewrite <- (T'v _ TB0). assert (DT0 : dot3 d (cross T n) = 0). { replace d with (scal3 (norm3 d) T); [rewrite sc_l, TB0; ring|]. unfold T, frenet_t. change (incremental_arclength d) with (norm3 d). rewrite scal3_scal. replace (norm3 d * (1 / norm3 d)) with 1 by (field; lra). apply scal3_1. }
    unfold dcent_n0. replace (dot3 (sub3 _ _) (cross T n)) with (dot3 d (cross T n) - dot3 R' (cross T n) - (dot3 (sub3 d R') T + dot3 (sub3 G R0) T') * dot3 T (cross T n) - dot3 (sub3 G R0) T * dot3 T' (cross T n)) by (generalize (cross T n); intros; unfold dot3; cbn [vx vy vz sub3 scal3]; ring). rewrite DT0, TB0. ring. }
  assert (GT : dot3 (sub3 G R0) T = dot3 (sub3 G R0) d / norm3 d) by (unfold T, frenet_t; rewrite sc_r; change (incremental_arclength d) with (norm3 d); unfold Rdiv; ring).
  assert (Z0 : dot3 v0 (cross T n) = 0) by (unfold dot3; cbn [vx vy vz v0]; ring).
  rewrite !sc_l, !rotate_torsion, !DB, !DC, Z0 by auto. split; [|split; [|split]].
  - field. split; lra.
  - reflexivity.
  - unfold rotate_dash at 1. cbn [ft]. rewrite (T'v _ OB). field. lra.
  - rewrite GT. field. split; lra.
Qed.
End Centroid.

(** the mean of gammadash vanishes for a CurveXYZFourier at more equally spaced points than its order; not at fewer *)
Lemma fold_sum (f : nat -> R) l a : fold_left (fun a j => a + f j) l a = a + rsuml (map f l).
Proof. revert a. induction l as [|x l IH]; intros a; cbn [fold_left map rsuml]; [ring|]. rewrite IH. ring. Qed.
Lemma fold_left_ext_R (f g : R -> nat -> R) : (forall a j, f a j = g a j) -> forall l a, fold_left f l a = fold_left g l a.
Proof. intros E. induction l as [|x l IH]; intros a; cbn [fold_left]; [reflexivity|]. now rewrite E, IH. Qed.
Theorem C125_mean_gammadash_vanishes (order nq : nat) (d : table) : (order < nq)%nat -> mean3 nq (fun k => xyz_gammadash order d (INR k / INR nq)) = v0.
Proof.
  intros H. assert (HN : (0 < nq)%nat) by lia. pose proof (lt_0_INR nq HN).
  assert (E : forall i, sum_to nq (fun k => fold_left (fun a j => a + d i (2 * j - 1)%nat * 2 * PI * INR j * cos (w j * (INR k / INR nq)) + - d i (2 * j)%nat * 2 * PI * INR j * sin (w j * (INR k / INR nq))) (seq 1 order) 0) = 0).
  { intros i. rewrite (sum_to_ext nq _ (fun k => sum_to order (fun j => d i (2 * S j - 1)%nat * 2 * PI * INR (S j) * cos (2 * PI * (IZR (Z.of_nat (S j)) / INR nq) * INR k) + - d i (2 * S j)%nat * 2 * PI * INR (S j) * sin (2 * PI * (IZR (Z.of_nat (S j)) / INR nq) * INR k)))).
    - rewrite sum_to_swap. apply sum_0. intros j J. rewrite sum_to_plus, !sum_to_scal, sin_sum0, cos_sum0 by (auto; intros DV; apply Z.divide_pos_le in DV; lia). ring.
    - intros k _. rewrite (fold_left_ext_R _ (fun a j => a + (d i (2 * j - 1)%nat * 2 * PI * INR j * cos (w j * (INR k / INR nq)) + - d i (2 * j)%nat * 2 * PI * INR j * sin (w j * (INR k / INR nq))))) by (intros; ring). rewrite fold_sum. rewrite Rplus_0_l. unfold sum_to. rewrite <- seq_shift, map_map. apply rsuml_map_ext. intros j _. unfold w. rewrite <- INR_IZR_INZ.
      replace (2 * PI * INR (S j) * (INR k / INR nq)) with (2 * PI * (INR (S j) / INR nq) * INR k) by (field; lra). reflexivity. }
  unfold mean3, sumv, xyz_gammadash, comps. cbn [vx vy vz]. rewrite !E. apply v3_eq; cbn [vx vy vz scal3 v0]; ring.
Qed.

(** ** The rotation angle *)
Theorem C125_rotation (scale : R) (order : nat) (x : list R) (t : R) : length x = (2 * order + 1)%nat ->
  D (rotation_alpha scale order x) t (rotation_alphadash scale order x t) /\
  rotation_alpha scale order x t = scale * sum_to (length x) (fun m => nth m x 0 * rotation_jac t m) /\ rotation_alphadash scale order x t = scale * sum_to (length x) (fun m => nth m x 0 * rotation_jacdash t m) /\
  rotation_alpha scale order x (t + 1) = rotation_alpha scale order x t.
Proof.
  intros L. assert (ODD : forall j, (2 * S j - 1 = 2 * j + 1)%nat) by lia.
  assert (DV1 : forall j, Nat.div2 (S (2 * j + 1)) = S j) by (intros j; replace (S (2 * j + 1)) with (2 * S j)%nat by lia; apply Nat.div2_double).
  assert (O1 : forall j, Nat.odd (2 * j + 1) = true) by (intros j; apply Nat.odd_spec; now exists j). assert (O2 : forall j, Nat.odd (2 * j) = false) by (intros j; rewrite Nat.odd_mul; reflexivity).
  assert (SPL : forall F : nat -> R, sum_to (length x) F = F 0%nat + sum_to order (fun j => F (2 * S j - 1)%nat + F (2 * S j)%nat)).
  { intros F. rewrite L. replace (2 * order + 1)%nat with (S (2 * order)) by lia. rewrite sum_to_first, sum_to_pairs. f_equal. apply sum_to_ext. intros j _. f_equal; f_equal; lia. }
  split; [|split; [|split]].
  - unfold rotation_alpha, rotation_alphadash. set (F := fun (m : nat) s => nth (2 * S m - 1) x 0 * sin (2 * PI * INR (S m) * s) + nth (2 * S m) x 0 * cos (2 * PI * INR (S m) * s)).
    eapply D_val; [|apply (D_mul (fun _ => scale) (fun s => nth 0 x 0 + sum_to order (fun m => F m s))); [exact (D_const scale t)|apply (D_add (fun _ => nth 0 x 0) (fun s => sum_to order (fun m => F m s))); [exact (D_const _ t)|apply (sum_to_D order F (fun j => nth (2 * S j - 1) x 0 * 2 * PI * INR (S j) * cos (2 * PI * INR (S j) * t) - nth (2 * S j) x 0 * 2 * PI * INR (S j) * sin (2 * PI * INR (S j) * t)))]]].
    + cbv beta. ring.
    + intros m _. unfold F. eapply D_val; [|apply (D_add (fun s => nth (2 * S m - 1) x 0 * sin (2 * PI * INR (S m) * s)) (fun s => nth (2 * S m) x 0 * cos (2 * PI * INR (S m) * s))); [apply (D_mul (fun _ => nth (2 * S m - 1) x 0)); [exact (D_const _ t)|apply (D_sin_path (fun s => 2 * PI * INR (S m) * s))]|apply (D_mul (fun _ => nth (2 * S m) x 0)); [exact (D_const _ t)|apply (D_cos_path (fun s => 2 * PI * INR (S m) * s))]]].
      * cbv beta. instantiate (1 := 2 * PI * INR (S m)). instantiate (1 := 2 * PI * INR (S m)). ring.
      * eapply D_val; [|apply (D_mul (fun _ => 2 * PI * INR (S m)) (fun s => s)); [exact (D_const _ t)|apply D_id]]. cbv beta. ring.
      * eapply D_val; [|apply (D_mul (fun _ => 2 * PI * INR (S m)) (fun s => s)); [exact (D_const _ t)|apply D_id]]. cbv beta. ring.
  - unfold rotation_alpha. rewrite SPL. f_equal. f_equal; [unfold rotation_jac; cbn [Nat.eqb]; ring|]. apply sum_to_ext. intros j _. unfold rotation_jac. rewrite ODD. replace (2 * j + 1 =? 0)%nat with false by (symmetry; apply Nat.eqb_neq; lia). replace (2 * S j =? 0)%nat with false by (symmetry; apply Nat.eqb_neq; lia). now rewrite O1, O2, DV1, Nat.div2_double.
  - unfold rotation_alphadash. rewrite SPL. f_equal. rewrite <- (Rplus_0_l (sum_to order (fun j => nth (2 * S j - 1) x 0 * 2 * _ * _ * _ - _))). f_equal; [unfold rotation_jacdash; cbn [Nat.eqb]; ring|]. apply sum_to_ext. intros j _. unfold rotation_jacdash. rewrite ODD. replace (2 * j + 1 =? 0)%nat with false by (symmetry; apply Nat.eqb_neq; lia). replace (2 * S j =? 0)%nat with false by (symmetry; apply Nat.eqb_neq; lia). rewrite O1, O2, DV1, Nat.div2_double. ring.
  - unfold rotation_alpha. f_equal. f_equal. apply sum_to_ext. intros j _. replace (2 * PI * INR (S j) * (t + 1)) with (2 * PI * INR (S j) * t + 2 * INR (S j) * PI) by ring. now rewrite sin_period, cos_period.
Qed.

(** ** Filaments *)
(** a filament is at signed distances dn, db from the coil in the plane spanned by the two frame vectors, and its gammadash is the velocity of its
    gamma wherever frame_dash is the derivative of the frame *)
Theorem C125_filament (dn db : R) (G : R -> vec3) (F : R -> frame) (t : R) (d1 : vec3) (f' : frame) : D3 G t d1 -> D_frame F t f' -> orthonormal (F t) ->
  D3 (fun t => filament_gamma dn db (G t) (F t)) t (filament_gammadash dn db d1 f') /\
  (let v := sub3 (filament_gamma dn db (G t) (F t)) (G t) in dot3 v (fn (F t)) = dn /\ dot3 v (fb (F t)) = db /\ dot3 v (ft (F t)) = 0 /\ dot3 v v = dn * dn + db * db).
Proof.
  intros HG (_ & HN & HB) (TT & NN & BB & TN & NB & BT & _). split.
  - unfold filament_gamma, filament_gammadash. eapply D3_val; [|apply D3_add; [apply D3_add; [exact HG|apply (D3_scal (fun _ => dn)); [exact (D_const dn t)|exact HN]]|apply (D3_scal (fun _ => db)); [exact (D_const db t)|exact HB]]]. apply v3_eq; cbn [vx vy vz add3 scal3]; ring.
  - cbv zeta. destruct (F t) as [T N B]. cbn [ft fn fb] in *. unfold filament_gamma. cbn [fn fb]. set (g := G t). clearbody g.
    assert (E : sub3 (add3 (add3 g (scal3 dn N)) (scal3 db B)) g = add3 (scal3 dn N) (scal3 db B)) by (apply v3_eq; cbn [vx vy vz add3 sub3 scal3]; ring). rewrite E.
    assert (X : forall u, dot3 (add3 (scal3 dn N) (scal3 db B)) u = dn * dot3 N u + db * dot3 B u) by (intros; unfold dot3; cbn [vx vy vz add3 scal3]; ring).
    assert (BN : dot3 B N = 0) by (rewrite <- NB; unfold dot3; ring). assert (NT : dot3 N T = 0) by (rewrite <- TN; unfold dot3; ring).
    split; [rewrite X, NN, BN; ring|]. split; [rewrite X, NB, BB; ring|]. split; [rewrite X, NT, BT; ring|]. rewrite X. replace (dot3 N (add3 (scal3 dn N) (scal3 db B))) with (dn * dot3 N N + db * dot3 N B) by (unfold dot3; cbn [vx vy vz add3 scal3]; ring). replace (dot3 B (add3 (scal3 dn N) (scal3 db B))) with (dn * dot3 B N + db * dot3 B B) by (unfold dot3; cbn [vx vy vz add3 scal3]; ring). rewrite NN, NB, BN, BB. ring.
Qed.
(** the filaments: num equally spaced shifts, symmetric about the coil, the coil itself among them exactly for odd num; all pairs, each once *)
Lemma shift_is num gap i : shift num gap i = (INR i - (INR num - 1) / 2) * gap.
Proof.
  unfold shift. f_equal. destruct (Nat.odd num) eqn:E.
  - apply Nat.odd_spec in E as (k & ->). assert (Q : ((2 * k + 1) / 2 = k)%nat) by (symmetry; apply (Nat.div_unique _ _ _ 1); lia). rewrite Q, plus_INR, mult_INR. cbn [INR]. field.
  - field.
Qed.
Theorem C125_grid (nn nb : nat) (gn gb : R) : length (filament_shifts nn nb gn gb) = (nn * nb)%nat /\
  (forall p, In p (filament_shifts nn nb gn gb) <-> exists i j, (i < nn)%nat /\ (j < nb)%nat /\ p = ((INR i - (INR nn - 1) / 2) * gn, (INR j - (INR nb - 1) / 2) * gb)) /\
  (gn <> 0 -> gb <> 0 -> NoDup (filament_shifts nn nb gn gb)) /\
  rsuml (map fst (filament_shifts nn nb gn gb)) = 0 /\ rsuml (map snd (filament_shifts nn nb gn gb)) = 0 /\
  (forall i, shift nn gn (S i) - shift nn gn i = gn) /\ (forall p, In p (filament_shifts nn nb gn gb) -> In (- fst p, snd p) (filament_shifts nn nb gn gb) /\ In (fst p, - snd p) (filament_shifts nn nb gn gb)).
Proof.
  assert (IN : forall p, In p (filament_shifts nn nb gn gb) <-> exists i j, (i < nn)%nat /\ (j < nb)%nat /\ p = ((INR i - (INR nn - 1) / 2) * gn, (INR j - (INR nb - 1) / 2) * gb)).
  { intros p. unfold filament_shifts. rewrite in_flat_map. split.
    - intros (i & I & H). apply in_map_iff in H as (j & <- & J). apply in_seq in I, J. exists i, j. rewrite !shift_is. repeat split; lia.
    - intros (i & j & I & J & ->). exists i. split; [apply in_seq; lia|]. apply in_map_iff. exists j. rewrite !shift_is. split; [reflexivity|apply in_seq; lia]. }
  assert (SUM : forall (n : nat) (g : R), sum_to n (shift n g) = 0).
  { intros n g. destruct n as [|n]; [reflexivity|]. rewrite (sum_to_ext (S n) _ (fun i => g * INR i - g * (INR (S n) - 1) / 2)) by (intros; rewrite shift_is; field).
    assert (G : forall k c, sum_to k (fun i => g * INR i - c) = g * (INR k * (INR k - 1) / 2) - INR k * c). { intros k c. induction k as [|k IH]; [unfold sum_to; cbn; field|]. rewrite sum_to_S', IH, S_INR. field. }
    rewrite G. field. }
  assert (CST : forall c, rsuml (map (fun _ : nat => c) (seq 0 nb)) = INR nb * c).
  { intros c. rewrite <- (seq_length nb 0) at 2. clear. induction (seq 0 nb) as [|j m IM]; [cbn; ring|]. cbn [length map rsuml]. rewrite S_INR, IM. ring. }
  split; [|split; [exact IN|split; [|split; [|split; [|split]]]]].
  - unfold filament_shifts. rewrite (CoilProps.flat_map_len _ _ nb) by (intros; now rewrite map_length, seq_length). now rewrite seq_length.
  - intros GN GB. unfold filament_shifts. apply TensorProps.NoDup_flat_map.
    + apply seq_NoDup.
    + intros i _. apply EqProps.NoDup_map_on; [|apply seq_NoDup]. intros a b _ _ E. injection E as E. rewrite !shift_is in E. apply INR_eq. apply Rmult_eq_reg_r in E; [lra|exact GB].
    + intros i i' p _ _ A B. apply in_map_iff in A as (j & <- & _). apply in_map_iff in B as (j' & E & _). injection E as E _. symmetry. rewrite !shift_is in E. apply INR_eq. apply Rmult_eq_reg_r in E; [lra|exact GN].
  - unfold filament_shifts. rewrite <- (Rmult_0_r (INR nb)). rewrite <- (SUM nn gn). unfold sum_to. generalize (seq 0 nn). intros l. induction l as [|i l IH]; cbn [flat_map map rsuml]; [ring|]. rewrite map_app, rsuml_app, IH, map_map. cbn [fst]. rewrite CST. ring.
  - unfold filament_shifts. induction (seq 0 nn) as [|i l IH]; cbn [flat_map map rsuml]; [reflexivity|]. rewrite map_app, rsuml_app, IH, map_map. cbn [snd]. change (rsuml (map (fun x => shift nb gb x) (seq 0 nb))) with (sum_to nb (shift nb gb)). rewrite SUM. ring.
  - intros i. rewrite !shift_is, S_INR. ring.
  - intros p H. apply IN in H as (i & j & I & J & ->). cbn [fst snd]. split; apply IN.
    + exists (nn - 1 - i)%nat, j. split; [lia|]. split; [exact J|]. f_equal. rewrite !minus_INR by lia. cbn [INR]. field.
    + exists i, (nb - 1 - j)%nat. split; [exact I|]. split; [lia|]. f_equal. rewrite !minus_INR by lia. cbn [INR]. field.
Qed.

(** ** Tape strains *)
Theorem C125_strain (p1 p2 p3 : R -> vec3) (al ald : R -> R) (t width : R) (f' : frame) : (forall t, D3 p1 t (p2 t)) -> (forall t, D3 p2 t (p3 t)) -> cross (p1 t) (p2 t) <> v0 -> is_frenet_dash (p1 t) (p2 t) (p3 t) (al t) (ald t) f' ->
  let f := frenet_frame (p1 t) (p2 t) (al t) in
  torstrain (frame_torsion (p1 t) f f') width = (torsion (p1 t) (p2 t) (p3 t) - ald t / norm3 (p1 t)) ^ 2 * width ^ 2 / 12 /\
  (0 <= width -> binormstrain (frame_binormal_curvature (p1 t) f f') width = width * kappa (p1 t) (p2 t) * Rabs (sin (al t)) / 2) /\
  (al t = 0 -> binormstrain (frame_binormal_curvature (p1 t) f f') width = 0) /\
  (torstrain (frame_torsion (p1 t) f f') width = 0 <-> width = 0 \/ ald t = torsion (p1 t) (p2 t) (p3 t) * norm3 (p1 t)).
Proof.
  intros P1 P2 N H. cbv zeta. destruct (C125_frenet_torsion p1 p2 p3 al ald P1 P2 t f' N H) as (E1 & E2). cbv zeta in E1, E2. rewrite E1, E2. unfold torstrain, binormstrain. assert (L := norm_pos _ (cross_nz _ _ N)).
  assert (K : 0 <= kappa (p1 t) (p2 t)) by (unfold kappa; apply Rmult_le_pos; [apply sqrt_pos|left; apply Rinv_0_lt_compat, pow_lt, L]).
  split; [reflexivity|]. split; [|split].
  - intros _. rewrite Rabs_mult, (Rabs_right _ (Rle_ge _ _ K)). field.
  - intros ->. rewrite sin_0, Rmult_0_r, Rabs_R0. ring.
  - split.
    + intros Q. destruct (Req_dec width 0) as [->|W]; [now left|right]. assert (Z : (torsion (p1 t) (p2 t) (p3 t) - ald t / norm3 (p1 t)) ^ 2 = 0). { apply (Rmult_eq_reg_r (width ^ 2 / 12)); [lra|]. apply Rmult_integral_contrapositive_currified; [now apply pow_nonzero|lra]. }
      assert (Z' : torsion (p1 t) (p2 t) (p3 t) - ald t / norm3 (p1 t) = 0) by (destruct (Req_dec (torsion (p1 t) (p2 t) (p3 t) - ald t / norm3 (p1 t)) 0) as [Q0|Q0]; [exact Q0|now apply (pow_nonzero _ 2) in Q0]).
      replace (torsion (p1 t) (p2 t) (p3 t)) with (ald t / norm3 (p1 t)) by lra. field. lra.
    + intros [->| ->]; [field; lra|]. field. lra.
Qed.
(** four filaments; a circle's Frenet frame *)
Example C125_ex : filament_shifts 2 1 4 1 = [(-2, 0); (2, 0)] /\ (let f := frenet_frame (V3 0 2 0) (V3 (-3) 0 0) 0 in f = Frame (V3 0 1 0) (V3 (-1) 0 0) (V3 0 0 1)).
Proof.
  split.
  - unfold filament_shifts. cbn [seq flat_map map app]. rewrite !shift_is. cbn [INR]. f_equal; [|f_equal]; f_equal; field.
  - cbv zeta. assert (N1 : norm3 (V3 0 2 0) = 2) by (apply norm_unique; [lra|unfold dot3; cbn [vx vy vz]; ring]). unfold frenet_frame. rewrite N1. assert (T : tdash (V3 0 2 0) (V3 (-3) 0 0) = V3 (- 3 / 2) 0 0).
    { unfold tdash. cbv zeta. change (incremental_arclength (V3 0 2 0)) with (norm3 (V3 0 2 0)). rewrite N1. unfold dot3. apply v3_eq; cbn [vx vy vz scal3 sub3]; field. }
    rewrite T. assert (N2 : norm3 (V3 (- 3 / 2) 0 0) = 3 / 2) by (apply norm_unique; [lra|unfold dot3; cbn [vx vy vz]; field]). rewrite N2. unfold rotate. rewrite cos_0, sin_0. f_equal; apply v3_eq; cbn [vx vy vz scal3 sub3 add3 cross]; field.
Qed.
(** order 2 at two points: the centroid frame's mean gammadash does not vanish and has a component along the binormal *)
Example C125_ex_coarse : let g := fun k : nat => if (k =? 0)%nat then V3 1 0 0 else V3 (-1) 0 0 in let d1 := fun k : nat => if (k =? 0)%nat then V3 0 1 2 else V3 0 (-1) 2 in
  mean3 2 d1 = V3 0 0 2 /\ offset (mean3 2 g) (g 0%nat) (d1 0%nat) = V3 1 0 0 /\ dot3 (mean3 2 d1) (fb (about (mean3 2 g) (g 0%nat) (d1 0%nat) 0)) <> 0.
Proof.
  cbv zeta. set (g := fun k : nat => if (k =? 0)%nat then V3 1 0 0 else V3 (-1) 0 0). set (d1 := fun k : nat => if (k =? 0)%nat then V3 0 1 2 else V3 0 (-1) 2).
  assert (M1 : mean3 2 d1 = V3 0 0 2) by (unfold mean3, sumv, sum_to, d1; cbn [seq map rsuml Nat.eqb vx vy vz scal3 INR]; apply v3_eq; cbn [vx vy vz v0 scal3]; field).
  assert (M0 : mean3 2 g = v0) by (unfold mean3, sumv, sum_to, g; cbn [seq map rsuml Nat.eqb vx vy vz scal3 INR]; apply v3_eq; cbn [vx vy vz v0 scal3]; field).
  assert (O : offset (mean3 2 g) (g 0%nat) (d1 0%nat) = V3 1 0 0). { rewrite M0. unfold offset, cent_n0. cbn [g d1 Nat.eqb]. replace (dot3 (sub3 (V3 1 0 0) v0) (frenet_t (V3 0 1 2))) with 0 by (unfold dot3, frenet_t; cbn [vx vy vz sub3 scal3 v0]; ring). apply v3_eq; cbn [vx vy vz sub3 scal3 v0]; ring. }
  split; [exact M1|]. split; [exact O|]. rewrite M1. unfold about. change (scal3 (1 / norm3 (d1 0%nat)) (d1 0%nat)) with (frenet_t (d1 0%nat)). fold (offset (mean3 2 g) (g 0%nat) (d1 0%nat)). rewrite O. cbn [d1 Nat.eqb].
  assert (L : 0 < norm3 (V3 0 1 2)) by (apply norm_pos; intros Q; injection Q; lra). assert (N1 : norm3 (V3 1 0 0) = 1) by (apply norm_unique; [lra|unfold dot3; cbn [vx vy vz]; ring]). rewrite N1.
  unfold rotate, frenet_t. cbn [fb]. change (incremental_arclength (V3 0 1 2)) with (norm3 (V3 0 1 2)). rewrite sin_0, cos_0. set (l := norm3 (V3 0 1 2)) in *. clearbody l. unfold dot3. cbn [vx vy vz scal3 add3 cross].
  apply Rlt_not_eq. apply (Rmult_lt_reg_r l); [exact L|]. field_simplify; lra.
Qed.
