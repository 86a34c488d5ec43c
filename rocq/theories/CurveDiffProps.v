(** C71: arclength, curvature, torsion and Frenet frame of a curve, and their derivatives. *)
From Coq Require Import Reals Lra Lia List.
From Verif Require Import ListAux VecAux Vec3 BSModel BSDeriv BSVjp SurfProps SurfGeomProps SurfDiff SurfDiffProps CurveModel CurveProps PlanarModel PlanarProps CoilModel CoilProps CurveDiff.
Import ListNotations.
Open Scope R_scope.

(** ** Lemmas on one point *)
Lemma inc_norm d1 : incremental_arclength d1 = norm3 d1. Proof. reflexivity. Qed.
Lemma dot_nz a : a <> v0 -> 0 < dot3 a a.
Proof.
  intros H. destruct a as [x y z]. unfold dot3. cbn [vx vy vz]. pose proof (Rle_0_sqr x). pose proof (Rle_0_sqr y). pose proof (Rle_0_sqr z). unfold Rsqr in *.
  destruct (Req_dec x 0) as [->|]; [destruct (Req_dec y 0) as [->|]; [destruct (Req_dec z 0) as [->|]|]|]; [now destruct H|nra..].
Qed.
Lemma norm_pos a : a <> v0 -> 0 < norm3 a. Proof. intros H. apply sqrt_lt_R0, dot_nz, H. Qed.
Lemma norm_sq a : norm3 a * norm3 a = dot3 a a.
Proof. apply sqrt_sqrt. destruct a as [x y z]. unfold dot3. cbn. pose proof (Rle_0_sqr x). pose proof (Rle_0_sqr y). pose proof (Rle_0_sqr z). unfold Rsqr in *. lra. Qed.
Lemma cross_nz d1 d2 : cross d1 d2 <> v0 -> d1 <> v0.
Proof. intros H ->. apply H. apply v3_eq; cbn [cross vx vy vz v0]; ring. Qed.
Lemma norm_scal c a : 0 <= c -> norm3 (scal3 c a) = c * norm3 a.
Proof. intros H. unfold norm3. replace (dot3 (scal3 c a) (scal3 c a)) with (c * c * dot3 a a) by (unfold dot3; cbn [vx vy vz scal3]; ring). rewrite sqrt_mult_alt by nra. now rewrite sqrt_square. Qed.
Lemma norm_unique c a : 0 <= c -> c * c = dot3 a a -> norm3 a = c.
Proof. intros H E. unfold norm3. rewrite <- E. now apply sqrt_square. Qed.

Section Point.
(** d1 d2 d3 move along any smooth path *)
Variables (p1 p2 p3 : R -> vec3) (s : R) (e1 e2 e3 : vec3).
Hypotheses (P1 : D3 p1 s e1) (P2 : D3 p2 s e2) (P3 : D3 p3 s e3).
Notation d1 := (p1 s). Notation d2 := (p2 s). Notation d3 := (p3 s).
Lemma D_norm p e : D3 p s e -> p s <> v0 -> D (fun t => norm3 (p t)) s (dot3 (p s) e / norm3 (p s)).
Proof.
  intros H N. assert (0 < norm3 (p s)) by now apply norm_pos. eapply D_val; [|apply (D_sqrt (fun t => dot3 (p t) (p t))); [apply D_dot; exact H|now apply dot_nz]]. cbv beta. fold (norm3 (p s)).
  replace (dot3 e (p s)) with (dot3 (p s) e) by (unfold dot3; ring). field. lra.
Qed.
Lemma D_pow f t a k : D f t a -> D (fun s => f s ^ Datatypes.S k) t (INR (Datatypes.S k) * f t ^ k * a).
Proof. intros H. pose proof (derivable_pt_lim_comp f (fun x => x ^ Datatypes.S k) t a (INR (Datatypes.S k) * f t ^ k) H (derivable_pt_lim_pow (f t) (Datatypes.S k))) as X. exact X. Qed.
Lemma D_inc : d1 <> v0 -> D (fun t => incremental_arclength (p1 t)) s (dincremental_arclength d1 e1).
Proof. intros N. eapply D_val; [|apply D_norm; [exact P1|exact N]]. unfold dincremental_arclength. change (incremental_arclength d1) with (norm3 d1). apply norm_pos in N. unfold dot3 at 1. field. lra. Qed.
Lemma D_kappa : cross d1 d2 <> v0 -> D (fun t => kappa (p1 t) (p2 t)) s (dkappa d1 d2 e1 e2).
Proof.
  intros N. assert (N1 := cross_nz _ _ N). unfold kappa.
  assert (A := D_norm (fun t => cross (p1 t) (p2 t)) _ (D3_cross _ _ _ _ _ P1 P2) N). assert (B := D_pow _ _ _ 2 (D_norm _ _ P1 N1)). cbv beta in A, B.
  apply norm_pos in N1. assert (N' := norm_pos _ N). assert (NZ : norm3 d1 ^ 3 <> 0) by (apply pow_nonzero; lra).
  eapply D_val; [|exact (D_div _ _ _ _ _ A B NZ)]. cbv beta. unfold dkappa. cbv zeta. change (incremental_arclength d1) with (norm3 d1). cbn [INR]. field. split; lra.
Qed.
Lemma D_torsion : cross d1 d2 <> v0 -> D (fun t => torsion (p1 t) (p2 t) (p3 t)) s (dtorsion d1 d2 d3 e1 e2 e3).
Proof.
  intros N. assert (N' := dot_nz _ N). assert (X := D3_cross _ _ _ _ _ P1 P2). unfold torsion.
  eapply D_val; [|apply (D_div (fun t => dot3 (cross (p1 t) (p2 t)) (p3 t)) (fun t => dot3 (cross (p1 t) (p2 t)) (cross (p1 t) (p2 t)))); [apply D_dot; [exact X|exact P3]|apply D_dot; exact X|lra]].
  cbv beta. unfold dtorsion. set (m := dot3 (cross d1 d2) (cross d1 d2)) in *. set (w := add3 (cross e1 d2) (cross d1 e2)).
  replace (dot3 w (cross d1 d2) + dot3 (cross d1 d2) w) with (dot3 (scal3 2 (cross d1 d2)) w) by (unfold dot3; cbn [vx vy vz scal3]; ring). field. lra.
Qed.
Lemma D3_scald f p t a b : D f t a -> D3 p t b -> D3 (fun s => scal3 (f s) (p s)) t (add3 (scal3 a (p t)) (scal3 (f t) b)).
Proof. apply D3_scal. Qed.
Lemma D_inv f t a : D f t a -> f t <> 0 -> D (fun s => 1 / f s) t (- a / (f t * f t)).
Proof. intros H N. eapply D_val; [|apply (D_div (fun _ => 1) f t 0 a); [apply D_const|exact H|exact N]]. cbv beta. field. exact N. Qed.
Lemma D3_t : d1 <> v0 -> D3 (fun t => frenet_t (p1 t)) s (dfrenet_t d1 e1).
Proof.
  intros N. assert (I := D_inc N). assert (L := norm_pos _ N). change (norm3 d1) with (incremental_arclength d1) in L. unfold frenet_t.
  eapply D3_val; [|apply (D3_scal (fun t => 1 / incremental_arclength (p1 t))); [apply D_inv; [exact I|lra]|exact P1]]. cbv beta. unfold dfrenet_t. cbv zeta.
  set (l := incremental_arclength d1) in *. set (dl := dincremental_arclength d1 e1). clearbody l dl. apply v3_eq; cbn [vx vy vz add3 scal3]; field; lra.
Qed.
Lemma D3_tdash : d1 <> v0 -> D3 (fun t => tdash (p1 t) (p2 t)) s (dtdash d1 d2 e1 e2).
Proof.
  intros N. assert (I := D_inc N). assert (L := norm_pos _ N). change (norm3 d1) with (incremental_arclength d1) in L. unfold tdash.
  eapply D3_val; [|apply (D3_scal (fun t => (1 / incremental_arclength (p1 t)) ^ 2)); [apply D_pow, D_inv; [exact I|lra]|
    apply (D3_sub (fun t => scal3 (incremental_arclength (p1 t)) (p2 t)) (fun t => scal3 (dot3 (p1 t) (p2 t) / incremental_arclength (p1 t)) (p1 t)));
     [apply D3_scal; [exact I|exact P2]|apply (D3_scal (fun t => dot3 (p1 t) (p2 t) / incremental_arclength (p1 t))); [apply (D_div (fun t => dot3 (p1 t) (p2 t))); [apply D_dot; [exact P1|exact P2]|exact I|lra]|exact P1]]]].
  cbv beta. unfold dtdash. cbv zeta. set (l := incremental_arclength d1) in *. set (dl := dincremental_arclength d1 e1). generalize (dot3 d1 d2) (dot3 e1 d2) (dot3 d1 e2). intros x y z. clearbody l dl. cbn [INR pow].
  apply v3_eq; cbn [vx vy vz add3 sub3 scal3]; field; lra.
Qed.
Lemma lagrange a b : dot3 (cross a b) (cross a b) = dot3 a a * dot3 b b - dot3 a b * dot3 a b.
Proof. unfold dot3. cbn [cross vx vy vz]. ring. Qed.
(** |tdash| = |d1 x d2| / l^2 *)
Lemma tdash_norm a b : a <> v0 -> norm3 (tdash a b) = norm3 (cross a b) / norm3 a ^ 2.
Proof.
  intros N. assert (L := norm_pos _ N). assert (Q := norm_sq a). apply norm_unique.
  - unfold Rdiv. apply Rmult_le_pos; [apply sqrt_pos|]. left. apply Rinv_0_lt_compat, pow_lt, L.
  - transitivity (norm3 (cross a b) * norm3 (cross a b) / (norm3 a ^ 4)); [field; lra|]. rewrite norm_sq, lagrange. unfold tdash. cbv zeta. change (incremental_arclength a) with (norm3 a).
    set (l := norm3 a) in *. clearbody l.
    assert (X : forall c k, dot3 (scal3 c (sub3 (scal3 l b) (scal3 k a))) (scal3 c (sub3 (scal3 l b) (scal3 k a))) = c * c * (l * l * dot3 b b - 2 * l * k * dot3 a b + k * k * dot3 a a)) by (intros; unfold dot3; cbn [vx vy vz scal3 sub3]; ring).
    rewrite X. generalize (dot3 a b) (dot3 b b). intros x y. rewrite <- Q. field. lra.
Qed.
Lemma tdash_nz a b : cross a b <> v0 -> tdash a b <> v0.
Proof.
  intros N E. assert (N1 := cross_nz _ _ N). assert (T := tdash_norm a b N1). rewrite E in T. apply norm_pos in N. assert (L := norm_pos _ N1).
  assert (norm3 v0 = 0) by (apply norm_unique; [lra|unfold dot3; cbn [vx vy vz v0]; ring]). assert (0 < norm3 (cross a b) / norm3 a ^ 2) by (apply Rdiv_lt_0_compat; [auto|apply pow_lt, L]). lra.
Qed.
Lemma D3_n : cross d1 d2 <> v0 -> D3 (fun t => frenet_n (p1 t) (p2 t)) s (dfrenet_n d1 d2 e1 e2).
Proof.
  intros N. assert (N1 := cross_nz _ _ N). assert (T := D3_tdash N1). assert (NT := tdash_nz _ _ N). assert (L := norm_pos _ NT). unfold frenet_n.
  eapply D3_val; [|apply (D3_scal (fun t => 1 / norm3 (tdash (p1 t) (p2 t)))); [apply D_inv; [apply D_norm; [exact T|exact NT]|lra]|exact T]]. cbv beta. unfold dfrenet_n. cbv zeta.
  set (td := tdash d1 d2) in *. set (dtd := dtdash d1 d2 e1 e2). fold (norm3 td). rewrite <- (norm_sq td). generalize (dot3 td dtd). intros x. set (m := norm3 td) in *. clearbody m dtd.
  apply v3_eq; cbn [vx vy vz add3 sub3 scal3]; field; lra.
Qed.
Lemma D3_b : cross d1 d2 <> v0 -> D3 (fun t => frenet_b (p1 t) (p2 t)) s (dfrenet_b d1 d2 e1 e2).
Proof. intros N. unfold frenet_b. eapply D3_val; [|apply D3_cross; [apply D3_t, cross_nz with d2, N|apply D3_n, N]]. reflexivity. Qed.
Lemma D_kappadash : cross d1 d2 <> v0 -> D (fun t => kappadash (p1 t) (p2 t) (p3 t)) s (dkappadash d1 d2 d3 e1 e2 e3).
Proof.
  intros N. assert (N1 := cross_nz _ _ N). assert (X := D3_cross _ _ _ _ _ P1 P2). assert (Y := D3_cross _ _ _ _ _ P1 P3).
  assert (A := D_norm (fun t => cross (p1 t) (p2 t)) _ X N). assert (B := D_norm _ _ P1 N1). cbv beta in A. apply norm_pos in N1. assert (N' := norm_pos _ N). unfold kappadash.
  assert (Z3 : norm3 (cross d1 d2) * norm3 d1 ^ 3 <> 0) by (apply Rmult_integral_contrapositive; split; [lra|apply pow_nonzero; lra]). assert (Z5 : norm3 d1 ^ 5 <> 0) by (apply pow_nonzero; lra).
  eapply D_val; [|apply (D_sub (fun t => dot3 (cross (p1 t) (p2 t)) (cross (p1 t) (p3 t)) / (norm3 (cross (p1 t) (p2 t)) * norm3 (p1 t) ^ 3)) (fun t => 3 * dot3 (p1 t) (p2 t) * norm3 (cross (p1 t) (p2 t)) / norm3 (p1 t) ^ 5));
    [apply (D_div (fun t => dot3 (cross (p1 t) (p2 t)) (cross (p1 t) (p3 t)))); [apply D_dot; [exact X|exact Y]|apply (D_mul (fun t => norm3 (cross (p1 t) (p2 t)))); [exact A|apply D_pow; exact B]|exact Z3]
    |apply (D_div (fun t => 3 * dot3 (p1 t) (p2 t) * norm3 (cross (p1 t) (p2 t)))); [apply (D_mul (fun t => 3 * dot3 (p1 t) (p2 t))); [apply (D_mul (fun _ => 3)); [apply D_const|apply D_dot; [exact P1|exact P2]]|exact A]|apply D_pow; exact B|exact Z5]]].
  cbv beta. unfold dkappadash. cbv zeta. set (w := add3 (cross e1 d2) (cross d1 e2)). set (u := add3 (cross e1 d3) (cross d1 e3)).
  replace (dot3 w (cross d1 d2)) with (dot3 (cross d1 d2) w) by (unfold dot3; ring). 
  set (m := norm3 (cross d1 d2)) in *. set (l := norm3 d1) in *. clearbody m l. generalize (dot3 (cross d1 d2) w) (dot3 w (cross d1 d3)) (dot3 (cross d1 d2) u) (dot3 (cross d1 d2) (cross d1 d3)) (dot3 d1 e1) (dot3 d1 d2) (dot3 e1 d2) (dot3 d1 e2). intros. cbn [INR pow].
  field. split; lra.
Qed.
End Point.

(** ** Specification *)
(** a curve at one quadrature point as a function of the dofs: three functions with their partial derivatives *)
Section Dofs.
Variables (n : nat) (x : list R) (G1 G2 G3 : list R -> vec3) (C1 C2 C3 : nat -> vec3).
Hypotheses (L : length x = n) (H1 : gradient3 n G1 x C1) (H2 : gradient3 n G2 x C2) (H3 : gradient3 n G3 x C3).
Lemma dir_R3 (F : vec3 -> vec3 -> vec3 -> R) v A B C : (forall a b c a' b' c', F (add3 a a') (add3 b b') (add3 c c') = F a b c + F a' b' c') -> (forall k a b c, F (scal3 k a) (scal3 k b) (scal3 k c) = k * F a b c) ->
  F (dir n v A) (dir n v B) (dir n v C) = dirR n v (fun m => F (A m) (B m) (C m)).
Proof.
  intros X Y. unfold dir, dirR. induction (seq 0 n) as [|m l IH]; cbn [map sum3 rsuml].
  - transitivity (0 * F v0 v0 v0); [rewrite <- Y; f_equal; v3; ring|ring].
  - now rewrite X, Y, IH.
Qed.
Theorem C71_dincremental_arclength : G1 x <> v0 -> gradient n (fun x => incremental_arclength (G1 x)) x (fun m => dincremental_arclength (G1 x) (C1 m)).
Proof.
  intros N v Hv. assert (Z : move x v 0 = x) by (apply move_0; congruence). eapply D_val; [|apply (D_inc (fun t => G1 (move x v t)) 0 _ (H1 v Hv)); now rewrite Z]. cbv beta. rewrite Z.
  apply dir_R1; intros; unfold dincremental_arclength; cbn [vx vy vz add3 scal3]; ring.
Qed.
Theorem C71_dkappa : cross (G1 x) (G2 x) <> v0 -> gradient n (fun x => kappa (G1 x) (G2 x)) x (fun m => dkappa (G1 x) (G2 x) (C1 m) (C2 m)).
Proof.
  intros N v Hv. assert (Z : move x v 0 = x) by (apply move_0; congruence). eapply D_val; [|apply (D_kappa (fun t => G1 (move x v t)) (fun t => G2 (move x v t)) 0 _ _ (H1 v Hv) (H2 v Hv)); now rewrite Z]. cbv beta. rewrite Z.
  apply dir_R2; intros; unfold dkappa, dot3, Rdiv; cbv zeta; cbn [vx vy vz add3 scal3 cross]; ring.
Qed.
Theorem C71_dtorsion : cross (G1 x) (G2 x) <> v0 -> gradient n (fun x => torsion (G1 x) (G2 x) (G3 x)) x (fun m => dtorsion (G1 x) (G2 x) (G3 x) (C1 m) (C2 m) (C3 m)).
Proof.
  intros N v Hv. assert (Z : move x v 0 = x) by (apply move_0; congruence). eapply D_val; [|apply (D_torsion (fun t => G1 (move x v t)) (fun t => G2 (move x v t)) (fun t => G3 (move x v t)) 0 _ _ _ (H1 v Hv) (H2 v Hv) (H3 v Hv)); now rewrite Z]. cbv beta. rewrite Z.
  apply (dir_R3 (dtorsion (G1 x) (G2 x) (G3 x))); intros; unfold dtorsion, Rdiv; generalize (/ dot3 (cross (G1 x) (G2 x)) (cross (G1 x) (G2 x))) (/ (dot3 (cross (G1 x) (G2 x)) (cross (G1 x) (G2 x)) ^ 2)); intros; unfold dot3; cbn [vx vy vz add3 scal3 cross]; ring.
Qed.
Theorem C71_dkappadash : cross (G1 x) (G2 x) <> v0 -> gradient n (fun x => kappadash (G1 x) (G2 x) (G3 x)) x (fun m => dkappadash (G1 x) (G2 x) (G3 x) (C1 m) (C2 m) (C3 m)).
Proof.
  intros N v Hv. assert (Z : move x v 0 = x) by (apply move_0; congruence). eapply D_val; [|apply (D_kappadash (fun t => G1 (move x v t)) (fun t => G2 (move x v t)) (fun t => G3 (move x v t)) 0 _ _ _ (H1 v Hv) (H2 v Hv) (H3 v Hv)); now rewrite Z]. cbv beta. rewrite Z.
  apply (dir_R3 (dkappadash (G1 x) (G2 x) (G3 x))); intros; unfold dkappadash, Rdiv; cbv zeta; generalize (norm3 (cross (G1 x) (G2 x))) (norm3 (G1 x)); intros; unfold dot3; cbn [vx vy vz add3 scal3 cross]; ring.
Qed.
Theorem C71_dfrenet_frame : cross (G1 x) (G2 x) <> v0 ->
  gradient3 n (fun x => frenet_t (G1 x)) x (fun m => dfrenet_t (G1 x) (C1 m)) /\
  gradient3 n (fun x => frenet_n (G1 x) (G2 x)) x (fun m => dfrenet_n (G1 x) (G2 x) (C1 m) (C2 m)) /\
  gradient3 n (fun x => frenet_b (G1 x) (G2 x)) x (fun m => dfrenet_b (G1 x) (G2 x) (C1 m) (C2 m)).
Proof.
  intros N. assert (N1 := cross_nz _ _ N).
  assert (Lt : (forall a b, dfrenet_t (G1 x) (add3 a b) = add3 (dfrenet_t (G1 x) a) (dfrenet_t (G1 x) b)) /\ (forall c a, dfrenet_t (G1 x) (scal3 c a) = scal3 c (dfrenet_t (G1 x) a))).
  { split; intros; unfold dfrenet_t, dincremental_arclength, Rdiv; cbv zeta; generalize (incremental_arclength (G1 x)); intros; apply v3_eq; cbn [vx vy vz add3 scal3]; ring. }
  assert (Ld : (forall a b a' b', dtdash (G1 x) (G2 x) (add3 a b) (add3 a' b') = add3 (dtdash (G1 x) (G2 x) a a') (dtdash (G1 x) (G2 x) b b')) /\ (forall c a a', dtdash (G1 x) (G2 x) (scal3 c a) (scal3 c a') = scal3 c (dtdash (G1 x) (G2 x) a a'))).
  { split; intros; unfold dtdash, dincremental_arclength, Rdiv; cbv zeta; generalize (incremental_arclength (G1 x)); intros; unfold dot3; apply v3_eq; cbn [vx vy vz add3 sub3 scal3]; ring. }
  destruct Ld as (D1 & D2).
  assert (Ln : (forall a b a' b', dfrenet_n (G1 x) (G2 x) (add3 a b) (add3 a' b') = add3 (dfrenet_n (G1 x) (G2 x) a a') (dfrenet_n (G1 x) (G2 x) b b')) /\ (forall c a a', dfrenet_n (G1 x) (G2 x) (scal3 c a) (scal3 c a') = scal3 c (dfrenet_n (G1 x) (G2 x) a a'))).
  { split; intros; unfold dfrenet_n; cbv zeta; rewrite ?D1, ?D2; unfold Rdiv; generalize (/ norm3 (tdash (G1 x) (G2 x))) (/ (dot3 (tdash (G1 x) (G2 x)) (tdash (G1 x) (G2 x)) * sqrt (dot3 (tdash (G1 x) (G2 x)) (tdash (G1 x) (G2 x))))); intros;
      unfold dot3; apply v3_eq; cbn [vx vy vz add3 sub3 scal3]; ring. }
  destruct Lt as (T1 & T2), Ln as (N1' & N2').
  split; [|split]; intros v Hv; assert (Z : move x v 0 = x) by (apply move_0; congruence).
  - eapply D3_val; [|apply (D3_t (fun t => G1 (move x v t)) 0 _ (H1 v Hv)); now rewrite Z]. cbv beta. rewrite Z. now apply dir_L1.
  - eapply D3_val; [|apply (D3_n (fun t => G1 (move x v t)) (fun t => G2 (move x v t)) 0 _ _ (H1 v Hv) (H2 v Hv)); now rewrite Z]. cbv beta. rewrite Z. now apply dir_L2.
  - eapply D3_val; [|apply (D3_b (fun t => G1 (move x v t)) (fun t => G2 (move x v t)) 0 _ _ (H1 v Hv) (H2 v Hv)); now rewrite Z]. cbv beta. rewrite Z. apply dir_L2; intros; unfold dfrenet_b; rewrite ?T1, ?T2, ?N1', ?N2'; apply v3_eq; cbn [vx vy vz add3 scal3 cross]; ring.
Qed.
End Dofs.

(** ** Along the curve *)
Section Along.
Variables (p1 p2 p3 : R -> vec3).
Hypotheses (P1 : forall t, D3 p1 t (p2 t)) (P2 : forall t, D3 p2 t (p3 t)).
Theorem C71_kappadash t : cross (p1 t) (p2 t) <> v0 -> D (fun t => kappa (p1 t) (p2 t)) t (kappadash (p1 t) (p2 t) (p3 t)).
Proof.
  intros N. eapply D_val; [|apply (D_kappa p1 p2 t _ _ (P1 t) (P2 t) N)]. assert (N1 := cross_nz _ _ N). apply norm_pos in N, N1. unfold dkappa, kappadash. cbv zeta. change (incremental_arclength (p1 t)) with (norm3 (p1 t)).
  replace (add3 (cross (p2 t) (p2 t)) (cross (p1 t) (p3 t))) with (cross (p1 t) (p3 t)) by (apply v3_eq; cbn [vx vy vz add3 cross]; ring). field. split; lra.
Qed.
Lemma zero_or_norm a b : cross a b = v0 \/ norm3 (cross a b) <> 0.
Proof.
  destruct (Req_dec (norm3 (cross a b)) 0) as [E|E]; [left|now right]. pose proof (norm_sq (cross a b)) as Q. rewrite E in Q.
  assert (Z : dot3 (cross a b) (cross a b) = 0) by lra. set (c := cross a b) in *. clearbody c. destruct c as [x y z]. unfold dot3 in Z. cbn [vx vy vz] in Z. assert (x = 0 /\ y = 0 /\ z = 0) as (-> & -> & ->) by (repeat split; nra). reflexivity.
Qed.
(** b is the normalised gamma' x gamma'', n = b x t *)
Lemma tdash_cross a b : a <> v0 -> tdash a b = scal3 (1 / norm3 a ^ 3) (cross (cross a b) a).
Proof.
  intros N. assert (L := norm_pos _ N). assert (Q := norm_sq a). unfold tdash. cbv zeta. change (incremental_arclength a) with (norm3 a). set (l := norm3 a) in *. clearbody l.
  assert (E : cross (cross a b) a = sub3 (scal3 (l * l) b) (scal3 (dot3 a b) a)) by (rewrite Q; unfold dot3; apply v3_eq; cbn [vx vy vz cross sub3 scal3]; ring). rewrite E.
  apply v3_eq; cbn [vx vy vz sub3 scal3]; field; lra.
Qed.
Lemma n_formula a b : a <> v0 -> cross a b <> v0 -> frenet_n a b = scal3 (1 / (norm3 (cross a b) * norm3 a)) (cross (cross a b) a).
Proof.
  intros N M. assert (L := norm_pos _ N). assert (L' := norm_pos _ M). unfold frenet_n. rewrite tdash_norm, tdash_cross, scal3_scal by auto. f_equal. field. split; lra.
Qed.
Lemma b_formula a b : frenet_b a b = scal3 (1 / norm3 (cross a b)) (cross a b).
Proof.
  destruct (zero_or_norm a b) as [Z|NZ].
  - rewrite Z, scal3_0. unfold frenet_b. assert (E : frenet_n a b = v0).
    { unfold frenet_n. assert (tdash a b = v0) as ->; [|apply scal3_0].
      destruct (Req_dec (norm3 a) 0) as [A|A].
      - unfold tdash. cbv zeta. change (incremental_arclength a) with (norm3 a). rewrite A. assert (Ea : a = v0). { pose proof (norm_sq a) as Q. rewrite A in Q. destruct a as [u v w]. unfold dot3 in Q. cbn [vx vy vz] in Q. assert (u = 0 /\ v = 0 /\ w = 0) as (-> & -> & ->) by (repeat split; nra). reflexivity. }
        subst a. apply v3_eq; cbn [vx vy vz scal3 sub3 v0]; ring.
      - rewrite tdash_cross, Z by (intros ->; apply A, norm_unique; [lra|unfold dot3; cbn [vx vy vz v0]; ring]). apply v3_eq; cbn [vx vy vz scal3 cross v0]; ring. }
    rewrite E. apply v3_eq; cbn [vx vy vz cross v0]; ring.
  - assert (M : cross a b <> v0) by (intros E; apply NZ; rewrite E; apply norm_unique; [lra|unfold dot3; cbn [vx vy vz v0]; ring]). assert (N := cross_nz _ _ M).
    assert (L := norm_pos _ N). assert (L' := norm_pos _ M). assert (Q := norm_sq a). unfold frenet_b, frenet_t. change (incremental_arclength a) with (norm3 a). rewrite n_formula by auto.
    set (l := norm3 a) in *. set (m := norm3 (cross a b)) in *. clearbody l m.
    assert (E : cross a (cross (cross a b) a) = scal3 (l * l) (cross a b)) by (rewrite Q; unfold dot3; apply v3_eq; cbn [vx vy vz cross scal3]; ring).
    transitivity (scal3 (1 / l * (1 / (m * l))) (cross a (cross (cross a b) a))); [apply v3_eq; cbn [vx vy vz cross scal3]; ring|]. rewrite E, scal3_scal. f_equal. field. split; lra.
Qed.
Theorem C71_frenet_frame_is_orthonormal t : cross (p1 t) (p2 t) <> v0 ->
  let T := frenet_t (p1 t) in let N := frenet_n (p1 t) (p2 t) in let B := frenet_b (p1 t) (p2 t) in
  dot3 T T = 1 /\ dot3 N N = 1 /\ dot3 B B = 1 /\ dot3 T N = 0 /\ dot3 N B = 0 /\ dot3 B T = 0 /\ B = cross T N /\ p1 t = scal3 (incremental_arclength (p1 t)) T.
Proof.
  intros M. cbv zeta. assert (Nz := cross_nz _ _ M). assert (L := norm_pos _ Nz). assert (L' := norm_pos _ M). assert (Q := norm_sq (p1 t)). assert (Q' := norm_sq (cross (p1 t) (p2 t))).
  assert (TT : dot3 (frenet_t (p1 t)) (frenet_t (p1 t)) = 1).
  { unfold frenet_t. change (incremental_arclength (p1 t)) with (norm3 (p1 t)). replace (dot3 _ _) with (1 / norm3 (p1 t) * (1 / norm3 (p1 t)) * dot3 (p1 t) (p1 t)) by (unfold dot3; cbn [vx vy vz scal3]; ring). rewrite <- Q. field. lra. }
  assert (NN : dot3 (frenet_n (p1 t) (p2 t)) (frenet_n (p1 t) (p2 t)) = 1).
  { unfold frenet_n. set (td := tdash (p1 t) (p2 t)). assert (T : td <> v0) by now apply tdash_nz. apply norm_pos in T. replace (dot3 _ _) with (1 / norm3 td * (1 / norm3 td) * dot3 td td) by (unfold dot3; cbn [vx vy vz scal3]; ring). rewrite <- norm_sq. field. lra. }
  assert (TN : dot3 (frenet_t (p1 t)) (frenet_n (p1 t) (p2 t)) = 0).
  { rewrite n_formula by auto. unfold frenet_t, dot3. cbn [vx vy vz scal3 cross]. ring. }
  split; [exact TT|split; [exact NN|split; [|split; [exact TN|split; [|split; [|split]]]]]].
  - unfold frenet_b. rewrite lagrange, TT, NN, TN. ring.
  - unfold frenet_b, dot3. cbn [vx vy vz cross]. ring.
  - unfold frenet_b, dot3. cbn [vx vy vz cross]. ring.
  - reflexivity.
  - unfold frenet_t. change (incremental_arclength (p1 t)) with (norm3 (p1 t)). rewrite scal3_scal. replace (norm3 (p1 t) * (1 / norm3 (p1 t))) with 1 by (field; lra). symmetry. apply scal3_1.
Qed.
(** the Frenet-Serret equations: kappa and torsion are the curvature and torsion of the curve *)
Theorem C71_frenet_serret t : cross (p1 t) (p2 t) <> v0 ->
  let l := incremental_arclength (p1 t) in let k := kappa (p1 t) (p2 t) in let tau := torsion (p1 t) (p2 t) (p3 t) in
  let T := frenet_t (p1 t) in let N := frenet_n (p1 t) (p2 t) in let B := frenet_b (p1 t) (p2 t) in
  D3 (fun t => frenet_t (p1 t)) t (scal3 (l * k) N) /\
  D3 (fun t => frenet_n (p1 t) (p2 t)) t (add3 (scal3 (- (l * k)) T) (scal3 (l * tau) B)) /\
  D3 (fun t => frenet_b (p1 t) (p2 t)) t (scal3 (- (l * tau)) N).
Proof.
  intros M. cbv zeta. assert (Nz := cross_nz _ _ M). assert (L := norm_pos _ Nz). assert (L' := norm_pos _ M). assert (Q := norm_sq (p1 t)). assert (Q' := norm_sq (cross (p1 t) (p2 t))).
  assert (ET : dfrenet_t (p1 t) (p2 t) = tdash (p1 t) (p2 t)).
  { unfold dfrenet_t, tdash, dincremental_arclength. cbv zeta. fold (dot3 (p1 t) (p2 t)). change (incremental_arclength (p1 t)) with (norm3 (p1 t)). generalize (dot3 (p1 t) (p2 t)). intros u. apply v3_eq; cbn [vx vy vz add3 sub3 scal3]; field; lra. }
  assert (DT : D3 (fun t => frenet_t (p1 t)) t (scal3 (incremental_arclength (p1 t) * kappa (p1 t) (p2 t)) (frenet_n (p1 t) (p2 t)))).
  { eapply D3_val; [|apply (D3_t p1 t _ (P1 t) Nz)]. rewrite ET. unfold frenet_n, kappa. rewrite tdash_norm, scal3_scal by auto. change (incremental_arclength (p1 t)) with (norm3 (p1 t)).
    replace (_ * _) with 1 by (field; split; lra). symmetry. apply scal3_1. }
  assert (DB : D3 (fun t => frenet_b (p1 t) (p2 t)) t (scal3 (- (incremental_arclength (p1 t) * torsion (p1 t) (p2 t) (p3 t))) (frenet_n (p1 t) (p2 t)))).
  { eapply D3_ext; [intros s; symmetry; apply b_formula|]. assert (X := D3_cross _ _ _ _ _ (P1 t) (P2 t)). assert (A := D_norm t (fun t => cross (p1 t) (p2 t)) _ X M). cbv beta in A.
    eapply D3_val; [|apply (D3_scal (fun t => 1 / norm3 (cross (p1 t) (p2 t))) (fun t => cross (p1 t) (p2 t))); [apply D_inv; [exact A|lra]|exact X]]. cbv beta. rewrite n_formula by auto. unfold torsion. rewrite <- Q'.
    change (incremental_arclength (p1 t)) with (norm3 (p1 t)). set (l := norm3 (p1 t)) in *. set (m := norm3 (cross (p1 t) (p2 t))) in *. clearbody l m.
    replace (add3 (cross (p2 t) (p2 t)) (cross (p1 t) (p3 t))) with (cross (p1 t) (p3 t)) by (apply v3_eq; cbn [vx vy vz add3 cross]; ring).
    assert (E : sub3 (scal3 (m * m) (cross (p1 t) (p3 t))) (scal3 (dot3 (cross (p1 t) (p2 t)) (cross (p1 t) (p3 t))) (cross (p1 t) (p2 t))) = scal3 (- dot3 (cross (p1 t) (p2 t)) (p3 t)) (cross (cross (p1 t) (p2 t)) (p1 t))).
    { rewrite Q'. unfold dot3. apply v3_eq; cbn [vx vy vz sub3 scal3 cross]; ring. }
    transitivity (scal3 (1 / (m * m * m)) (sub3 (scal3 (m * m) (cross (p1 t) (p3 t))) (scal3 (dot3 (cross (p1 t) (p2 t)) (cross (p1 t) (p3 t))) (cross (p1 t) (p2 t))))).
    - generalize (dot3 (cross (p1 t) (p2 t)) (cross (p1 t) (p3 t))). intros u. apply v3_eq; cbn [vx vy vz add3 sub3 scal3]; field; lra.
    - rewrite E, !scal3_scal. f_equal. field. split; lra. }
  split; [exact DT|split; [|exact DB]].
  assert (NE : forall a b, frenet_n a b = cross (frenet_b a b) (frenet_t a)).
  { intros a b. rewrite b_formula. destruct (zero_or_norm a b) as [Z|NZ].
    - rewrite Z. transitivity v0; [|apply v3_eq; cbn [vx vy vz cross scal3 v0]; ring]. unfold frenet_n. destruct (Req_dec (norm3 a) 0) as [A|A].
      + assert (Ea : a = v0). { pose proof (norm_sq a) as Qa. rewrite A in Qa. destruct a as [u v w]. unfold dot3 in Qa. cbn [vx vy vz] in Qa. assert (u = 0 /\ v = 0 /\ w = 0) as (-> & -> & ->) by (repeat split; nra). reflexivity. }
        assert (TZ : tdash a b = v0); [|rewrite TZ; apply scal3_0]. unfold tdash. cbv zeta. change (incremental_arclength a) with (norm3 a). rewrite A. subst a. apply v3_eq; cbn [vx vy vz scal3 sub3 v0]; ring.
      + rewrite tdash_cross, Z by (intros ->; apply A, norm_unique; [lra|unfold dot3; cbn [vx vy vz v0]; ring]). apply v3_eq; cbn [vx vy vz scal3 cross v0]; ring.
    - assert (M' : cross a b <> v0) by (intros E; apply NZ; rewrite E; apply norm_unique; [lra|unfold dot3; cbn [vx vy vz v0]; ring]). assert (N' := cross_nz _ _ M'). assert (La := norm_pos _ N').
      rewrite n_formula by auto. unfold frenet_t. change (incremental_arclength a) with (norm3 a). transitivity (scal3 (1 / norm3 (cross a b) * (1 / norm3 a)) (cross (cross a b) a)); [f_equal; field; split; lra|apply v3_eq; cbn [vx vy vz cross scal3]; ring]. }
  eapply D3_ext; [intros s; symmetry; apply NE|]. eapply D3_val; [|apply (D3_cross _ _ _ _ _ DB DT)]. cbv beta.
  destruct (C71_frenet_frame_is_orthonormal t M) as (TT & NN & BB & TN & NB & BT & _ & _). cbv zeta in *. set (T := frenet_t (p1 t)) in *. set (N := frenet_n (p1 t) (p2 t)) in *. set (B := frenet_b (p1 t) (p2 t)) in *.
  assert (EB : B = cross T N) by reflexivity. assert (BN : cross B N = scal3 (-1) T).
  { rewrite EB. transitivity (sub3 (scal3 (dot3 T N) N) (scal3 (dot3 N N) T)); [unfold dot3; apply v3_eq; cbn [vx vy vz cross sub3 scal3]; ring|]. rewrite TN, NN. apply v3_eq; cbn [vx vy vz sub3 scal3]; ring. }
  transitivity (add3 (scal3 (incremental_arclength (p1 t) * torsion (p1 t) (p2 t) (p3 t)) (cross T N)) (scal3 (incremental_arclength (p1 t) * kappa (p1 t) (p2 t)) (cross B N))).
  - apply v3_eq; cbn [vx vy vz add3 scal3 cross]; ring.
  - rewrite BN, <- EB. clearbody T N B. apply v3_eq; cbn [vx vy vz add3 scal3]; ring.
Qed.
End Along.

(** ** The vector-Jacobian products built with jax *)
(** J is the vjp of f at a with cotangent v: the gradient of v * f *)
Definition is_vjp (f : vec3 -> R) (a : vec3) (v : R) (J : vec3) : Prop := forall w, D (fun s => v * f (add3 a (scal3 s w))) 0 (dot3 J w).
Lemma is_vjp_unique f a v J g : is_vjp f a v J -> (forall w, D (fun s => f (add3 a (scal3 s w))) 0 (g w)) -> forall w, dot3 J w = v * g w.
Proof.
  intros H G w. apply (uniqueness_limite (fun s => v * f (add3 a (scal3 s w))) 0); [apply H|]. eapply D_val; [|apply (D_mul (fun _ => v)); [apply D_const|apply G]]. cbv beta. ring.
Qed.
Lemma D3_line a w : D3 (fun s => add3 a (scal3 s w)) 0 w.
Proof. eapply D3_val; [|apply D3_add; [apply D3_const|apply (D3_scal (fun s => s)); [apply D_id|apply D3_const]]]. apply v3_eq; cbn [vx vy vz add3 scal3 v0]; ring. Qed.
Lemma line0 a w : add3 a (scal3 0 w) = a. Proof. apply v3_eq; cbn [vx vy vz add3 scal3]; ring. Qed.
Lemma curve_vjp_nth n C nq J m : (m < n)%nat -> nth m (curve_vjp n C nq J) 0 = rsuml (map (fun k => dot3 (J k) (C k m)) (seq 0 nq)).
Proof. intros H. unfold curve_vjp. now rewrite nth_map_seq. Qed.
Lemma curve_vjp_length n C nq J : length (curve_vjp n C nq J) = n. Proof. unfold curve_vjp. now rewrite map_length, seq_length. Qed.
Section Vjp.
Variables (n nq : nat) (d1 d2 d3 : nat -> vec3) (C1 C2 C3 : nat -> nat -> vec3) (v : nat -> R) (m : nat).
Hypothesis Hm : (m < n)%nat.
Theorem C71_dincremental_vjp J0 : (forall k, (k < nq)%nat -> d1 k <> v0 /\ is_vjp norm3 (d1 k) (v k) (J0 k)) ->
  nth m (dincremental_vjp n nq C1 J0) 0 = rsuml (map (fun k => v k * dincremental_arclength (d1 k) (C1 k m)) (seq 0 nq)).
Proof.
  intros H. unfold dincremental_vjp. rewrite curve_vjp_nth by auto. apply rsuml_map_ext. intros k Hk. apply in_seq in Hk. destruct (H k ltac:(lia)) as (N & J).
  apply (is_vjp_unique norm3 (d1 k) (v k) (J0 k) (dincremental_arclength (d1 k)) J). intros w. assert (X := D_inc (fun s => add3 (d1 k) (scal3 s w)) 0 w (D3_line _ _)). cbv beta in X. rewrite line0 in X. exact (X N).
Qed.
Theorem C71_dkappa_vjp J0 J1 : (forall k, (k < nq)%nat -> cross (d1 k) (d2 k) <> v0 /\ is_vjp (fun a => kappa a (d2 k)) (d1 k) (v k) (J0 k) /\ is_vjp (fun a => kappa (d1 k) a) (d2 k) (v k) (J1 k)) ->
  nth m (dkappa_vjp n nq C1 C2 J0 J1) 0 = rsuml (map (fun k => v k * dkappa (d1 k) (d2 k) (C1 k m) (C2 k m)) (seq 0 nq)).
Proof.
  intros H. unfold dkappa_vjp. rewrite nth_vmap2, !curve_vjp_nth by (rewrite ?curve_vjp_length; auto). rewrite <- rsuml_map_plus. apply rsuml_map_ext. intros k Hk. apply in_seq in Hk. destruct (H k ltac:(lia)) as (N & J & J').
  assert (A : dot3 (J0 k) (C1 k m) = v k * dkappa (d1 k) (d2 k) (C1 k m) v0).
  { apply (is_vjp_unique (fun a => kappa a (d2 k)) (d1 k) (v k) (J0 k) (fun w => dkappa (d1 k) (d2 k) w v0) J). intros w. assert (X := D_kappa (fun s => add3 (d1 k) (scal3 s w)) (fun _ => d2 k) 0 w v0 (D3_line _ _) (D3_const _ _)). cbv beta in X. rewrite line0 in X. exact (X N). }
  assert (B : dot3 (J1 k) (C2 k m) = v k * dkappa (d1 k) (d2 k) v0 (C2 k m)).
  { apply (is_vjp_unique (fun a => kappa (d1 k) a) (d2 k) (v k) (J1 k) (fun w => dkappa (d1 k) (d2 k) v0 w) J'). intros w. assert (X := D_kappa (fun _ => d1 k) (fun s => add3 (d2 k) (scal3 s w)) 0 v0 w (D3_const _ _) (D3_line _ _)). cbv beta in X. rewrite line0 in X. exact (X N). }
  rewrite A, B. unfold dkappa, dot3, Rdiv. cbv zeta. cbn [vx vy vz add3 cross v0]. ring.
Qed.
Theorem C71_dtorsion_vjp J0 J1 J2 : (forall k, (k < nq)%nat -> cross (d1 k) (d2 k) <> v0 /\ is_vjp (fun a => torsion a (d2 k) (d3 k)) (d1 k) (v k) (J0 k) /\ is_vjp (fun a => torsion (d1 k) a (d3 k)) (d2 k) (v k) (J1 k) /\ is_vjp (fun a => torsion (d1 k) (d2 k) a) (d3 k) (v k) (J2 k)) ->
  nth m (dtorsion_vjp n nq C1 C2 C3 J0 J1 J2) 0 = rsuml (map (fun k => v k * dtorsion (d1 k) (d2 k) (d3 k) (C1 k m) (C2 k m) (C3 k m)) (seq 0 nq)).
Proof.
  intros H. unfold dtorsion_vjp. assert (LV : forall a b : list R, length a = n -> length b = n -> length (vmap2 Rplus a b) = n) by (intros a b Ha Hb; rewrite vmap2_length; lia).
  rewrite !nth_vmap2, !curve_vjp_nth by (rewrite ?LV, ?curve_vjp_length; auto using curve_vjp_length). rewrite <- !rsuml_map_plus. apply rsuml_map_ext. intros k Hk. apply in_seq in Hk. destruct (H k ltac:(lia)) as (N & J & J' & J'').
  assert (A : dot3 (J0 k) (C1 k m) = v k * dtorsion (d1 k) (d2 k) (d3 k) (C1 k m) v0 v0).
  { apply (is_vjp_unique (fun a => torsion a (d2 k) (d3 k)) (d1 k) (v k) (J0 k) (fun w => dtorsion (d1 k) (d2 k) (d3 k) w v0 v0) J). intros w. assert (X := D_torsion (fun s => add3 (d1 k) (scal3 s w)) (fun _ => d2 k) (fun _ => d3 k) 0 w v0 v0 (D3_line _ _) (D3_const _ _) (D3_const _ _)). cbv beta in X. rewrite line0 in X. exact (X N). }
  assert (B : dot3 (J1 k) (C2 k m) = v k * dtorsion (d1 k) (d2 k) (d3 k) v0 (C2 k m) v0).
  { apply (is_vjp_unique (fun a => torsion (d1 k) a (d3 k)) (d2 k) (v k) (J1 k) (fun w => dtorsion (d1 k) (d2 k) (d3 k) v0 w v0) J'). intros w. assert (X := D_torsion (fun _ => d1 k) (fun s => add3 (d2 k) (scal3 s w)) (fun _ => d3 k) 0 v0 w v0 (D3_const _ _) (D3_line _ _) (D3_const _ _)). cbv beta in X. rewrite line0 in X. exact (X N). }
  assert (E : dot3 (J2 k) (C3 k m) = v k * dtorsion (d1 k) (d2 k) (d3 k) v0 v0 (C3 k m)).
  { apply (is_vjp_unique (fun a => torsion (d1 k) (d2 k) a) (d3 k) (v k) (J2 k) (fun w => dtorsion (d1 k) (d2 k) (d3 k) v0 v0 w) J''). intros w. assert (X := D_torsion (fun _ => d1 k) (fun _ => d2 k) (fun s => add3 (d3 k) (scal3 s w)) 0 v0 v0 w (D3_const _ _) (D3_const _ _) (D3_line _ _)). cbv beta in X. rewrite line0 in X. exact (X N). }
  rewrite A, B, E. unfold dtorsion, Rdiv. generalize (/ dot3 (cross (d1 k) (d2 k)) (cross (d1 k) (d2 k))) (/ (dot3 (cross (d1 k) (d2 k)) (cross (d1 k) (d2 k)) ^ 2)). intros. unfold dot3. cbn [vx vy vz add3 scal3 cross v0]. ring.
Qed.
End Vjp.

(** ** Rotated and flipped curves: same arclength, curvature, torsion; the frame turns along *)
Theorem C71_rotated_curve phi flip d1 d2 d3 : let r a := vecmat a (rotmat phi flip) in
  incremental_arclength (r d1) = incremental_arclength d1 /\ kappa (r d1) (r d2) = kappa d1 d2 /\ torsion (r d1) (r d2) (r d3) = torsion d1 d2 d3 /\
  kappadash (r d1) (r d2) (r d3) = kappadash d1 d2 d3 /\ frenet_t (r d1) = r (frenet_t d1) /\ frenet_n (r d1) (r d2) = r (frenet_n d1 d2) /\ frenet_b (r d1) (r d2) = r (frenet_b d1 d2).
Proof.
  cbv zeta. set (r := fun a => vecmat a (rotmat phi flip)). assert (RD : forall a b, dot3 (r a) (r b) = dot3 a b) by (intros; apply C59_rotation_preserves_geometry). assert (RC : forall a b, cross (r a) (r b) = r (cross a b)) by (intros; apply C59_rotation_preserves_geometry).
  assert (RS : forall c a, scal3 c (r a) = r (scal3 c a)) by (intros; symmetry; apply vecmat_scal). assert (RM : forall a b, sub3 (r a) (r b) = r (sub3 a b)) by (intros; symmetry; apply vecmat_sub).
  repeat change (vecmat ?a (rotmat phi flip)) with (r a). clearbody r.
  assert (RN : forall a, norm3 (r a) = norm3 a) by (intros; unfold norm3; now rewrite RD).
  assert (RT : forall a b, tdash (r a) (r b) = r (tdash a b)) by (intros a b; unfold tdash; cbv zeta; change (incremental_arclength (r a)) with (norm3 (r a)); change (incremental_arclength a) with (norm3 a); now rewrite RN, RD, !RS, RM, RS).
  assert (T : frenet_t (r d1) = r (frenet_t d1)) by (unfold frenet_t; change (incremental_arclength (r d1)) with (norm3 (r d1)); now rewrite RN, RS).
  assert (N : frenet_n (r d1) (r d2) = r (frenet_n d1 d2)) by (unfold frenet_n; now rewrite RT, RN, RS).
  split; [exact (RN d1)|split; [unfold kappa; now rewrite RC, !RN|split; [unfold torsion; now rewrite RC, !RD|split; [unfold kappadash; now rewrite !RC, !RD, !RN|split; [exact T|split; [exact N|unfold frenet_b; now rewrite T, N, RC]]]]]].
Qed.
(** a circle of radius 2 at angle 0: nonzero curvature *)
Example C71_case : cross (V3 0 2 0) (V3 (-2) 0 0) <> v0 /\ kappa (V3 0 2 0) (V3 (-2) 0 0) = 1 / 2.
Proof.
  split; [intros E; apply (f_equal vz) in E; cbn in E; lra|]. unfold kappa. rewrite (norm_unique 4) by (try lra; unfold dot3; cbn; ring). rewrite (norm_unique 2) by (try lra; unfold dot3; cbn; ring). lra.
Qed.
