(** C119: QfmResidual. *)
From Coq Require Import Reals Lra Lia List Bool.
From Verif Require Import VecAux Vec3 BSModel BSDeriv SurfDiffProps CurveDiff CurveDiffProps CurveObjModel CurveObjProps BoozSurf BoozProps BoozThms TensorSym AdjLin AdjModel AdjProps AdjThms QsrModel QsrProps QsrThms.
Import ListNotations.
Open Scope R_scope.

Lemma cauchy a b : dot3 a b ^ 2 <= dot3 a a * dot3 b b.
Proof.
  assert (E : dot3 a a * dot3 b b - dot3 a b ^ 2 = dot3 (cross a b) (cross a b)) by (unfold cross; vu; ring). assert (0 <= dot3 (cross a b) (cross a b)) by (unfold dot3; nra). lra.
Qed.
Section Value.
Variables (np : nat) (B nor : nat -> vec3).
Hypothesis NP : (0 < np)%nat.
Hypothesis HB : forall k, (k < np)%nat -> B k <> v0.
Hypothesis HN : forall k, (k < np)%nat -> nor k <> v0.
Notation nn k := (norm3 (nor k)).
Lemma nn_pos k : (k < np)%nat -> 0 < nn k. Proof. intros L. apply norm_pos, HN, L. Qed.
Lemma J_eq : qfm_J np B nor = qfm_J1 np B nor / qfm_J2 np B nor.
Proof.
  unfold qfm_J, qfm_J1, qfm_J2.
  assert (Q : forall a b c d : R, a = c -> b = d -> a / b = c / d) by (intros; subst; reflexivity).
  apply Q; apply sum_to_ext; intros k L; pose proof (nn_pos k L).
  - assert (E : dot3 (B k) (scal3 (/ nn k) (nor k)) = dot3 (B k) (nor k) / nn k) by (unfold Rdiv; vu; ring). rewrite E. field. lra.
  - replace (norm3 (B k) ^ 2) with (dot3 (B k) (B k)) by (rewrite <- norm_sq; ring). unfold dot3. ring.
Qed.
Lemma J2_eq : qfm_J2 np B nor = sum_to np (fun k => dot3 (B k) (B k) * nn k).
Proof. apply sum_to_ext. intros k _. unfold dot3. ring. Qed.
Lemma J2_pos : 0 < qfm_J2 np B nor.
Proof.
  rewrite J2_eq. assert (P : forall k, (k < np)%nat -> 0 < dot3 (B k) (B k) * nn k) by (intros k L; apply Rmult_lt_0_compat; [apply dot_nz, HB, L|apply nn_pos, L]).
  assert (GE : 0 <= sum_to np (fun k => dot3 (B k) (B k) * nn k)) by (apply sum_to_ge0; intros; left; auto). destruct GE as [G|E]; [exact G|exfalso]. symmetry in E.
  rewrite sum_to_zero in E by (intros; left; auto). specialize (E 0%nat NP). specialize (P 0%nat NP). lra.
Qed.
Lemma J1_ge0 : 0 <= qfm_J1 np B nor.
Proof. apply sum_to_ge0. intros k L. apply Rmult_le_pos; [apply pow2_ge_0|left; apply Rinv_0_lt_compat, nn_pos, L]. Qed.
(** 0 <= J <= 1; J = 0 exactly if B . n = 0 at all points, J = 1 exactly if B is parallel to n at all points *)
Theorem C119_range : 0 <= qfm_J np B nor <= 1 /\ (qfm_J np B nor = 0 <-> forall k, (k < np)%nat -> dot3 (B k) (nor k) = 0) /\
  (qfm_J np B nor = 1 <-> forall k, (k < np)%nat -> cross (B k) (nor k) = v0).
Proof.
  rewrite J_eq. pose proof J2_pos as P2. pose proof J1_ge0 as P1.
  set (gap := fun k => dot3 (cross (B k) (nor k)) (cross (B k) (nor k)) / nn k).
  assert (GG : forall k, (k < np)%nat -> 0 <= gap k) by (intros k L; apply Rmult_le_pos; [unfold dot3; nra|left; apply Rinv_0_lt_compat, nn_pos, L]).
  assert (EG : qfm_J2 np B nor - qfm_J1 np B nor = sum_to np gap).
  { rewrite J2_eq. unfold qfm_J1. unfold Rminus. replace (- sum_to np (fun k => dot3 (B k) (nor k) ^ 2 / nn k)) with (-1 * sum_to np (fun k => dot3 (B k) (nor k) ^ 2 / nn k)) by ring. rewrite <- sum_to_scal, <- sum_to_plus. apply sum_to_ext. intros k L. pose proof (nn_pos k L).
    unfold gap. replace (dot3 (cross (B k) (nor k)) (cross (B k) (nor k))) with (dot3 (B k) (B k) * (nn k * nn k) - dot3 (B k) (nor k) ^ 2) by (rewrite norm_sq; unfold cross; vu; ring). field. lra. }
  assert (G0 : 0 <= sum_to np gap) by (apply sum_to_ge0; exact GG).
  split; [split; [apply Rmult_le_pos; [exact P1|left; apply Rinv_0_lt_compat, P2]|apply (Rmult_le_reg_r (qfm_J2 np B nor)); [exact P2|]; unfold Rdiv; rewrite Rmult_assoc, Rinv_l by lra; lra]|]. split.
  - split.
    + intros E k L. assert (Z : qfm_J1 np B nor = 0) by (apply (Rmult_eq_reg_r (/ qfm_J2 np B nor)); [rewrite Rmult_0_l; exact E|apply Rinv_neq_0_compat; lra]). unfold qfm_J1 in Z.
      rewrite sum_to_zero in Z by (intros k0 L0; apply Rmult_le_pos; [apply pow2_ge_0|left; apply Rinv_0_lt_compat, nn_pos, L0]). specialize (Z k L). pose proof (nn_pos k L) as PN. pose proof (Rinv_0_lt_compat _ PN).
      apply Rmult_integral in Z. destruct Z as [Z|Z]; [|lra]. apply Rsqr_0_uniq. rewrite Rsqr_pow2. exact Z.
    + intros H. replace (qfm_J1 np B nor) with 0; [unfold Rdiv; ring|]. symmetry. apply sum_0. intros k L. rewrite (H k L). unfold Rdiv. ring.
  - split.
    + intros E k L. assert (Z : sum_to np gap = 0). { rewrite <- EG. assert (qfm_J1 np B nor = qfm_J2 np B nor); [|lra]. rewrite <- (Rmult_1_l (qfm_J2 np B nor)), <- E. field. lra. }
      rewrite sum_to_zero in Z by exact GG. specialize (Z k L). unfold gap in Z. pose proof (nn_pos k L) as PN. pose proof (Rinv_0_lt_compat _ PN). apply Rmult_integral in Z. destruct Z as [Z|Z]; [|lra].
      destruct (cross (B k) (nor k)) as [cx cy cz]. unfold dot3 in Z. cbn [vx vy vz] in Z. apply v3_eq; cbn [vx vy vz v0]; nra.
    + intros H. assert (Z : sum_to np gap = 0) by (apply sum_0; intros k L; unfold gap; rewrite (H k L); unfold dot3, v0; cbn [vx vy vz]; unfold Rdiv; ring). rewrite Z in EG. replace (qfm_J1 np B nor) with (qfm_J2 np B nor) by lra. field. lra.
Qed.
End Value.
Theorem C119_scale_invariant (np : nat) (B nor : nat -> vec3) (l k : R) : (forall p, (p < np)%nat -> nor p <> v0) -> l <> 0 -> k <> 0 -> qfm_J np (fun p => scal3 l (B p)) (fun p => scal3 k (nor p)) = qfm_J np B nor.
Proof.
  intros HN NL NK. assert (AK : 0 < Rabs k) by (apply Rabs_pos_lt, NK). unfold qfm_J.
  rewrite (sum_to_ext np (fun p => dot3 (scal3 l (B p)) (scal3 (/ norm3 (scal3 k (nor p))) (scal3 k (nor p))) ^ 2 * norm3 (scal3 k (nor p))) (fun p => (l ^ 2 * Rabs k) * (dot3 (B p) (scal3 (/ norm3 (nor p)) (nor p)) ^ 2 * norm3 (nor p)))).
  2:{ intros p L. pose proof (norm_pos _ (HN p L)). rewrite norm_scal. assert (K2 : Rabs k * Rabs k = k * k) by (rewrite <- Rabs_mult; apply Rabs_pos_eq; nra).
      assert (E : dot3 (scal3 l (B p)) (scal3 (/ (Rabs k * norm3 (nor p))) (scal3 k (nor p))) = l * k / Rabs k * dot3 (B p) (scal3 (/ norm3 (nor p)) (nor p))) by (unfold dot3; cbn [vx vy vz scal3]; field; lra). rewrite E.
      set (d := dot3 (B p) (scal3 (/ norm3 (nor p)) (nor p))). replace ((l * k / Rabs k * d) ^ 2) with (l * l * (k * k) * d * d / (Rabs k * Rabs k)) by (field; lra). rewrite <- K2. field. lra. }
  rewrite (sum_to_ext np (fun p => norm3 (scal3 l (B p)) ^ 2 * norm3 (scal3 k (nor p))) (fun p => (l ^ 2 * Rabs k) * (norm3 (B p) ^ 2 * norm3 (nor p)))).
  2:{ intros p L. rewrite !norm_scal. replace (l ^ 2) with (Rabs l * Rabs l) by (rewrite <- Rabs_mult, Rabs_pos_eq by nra; ring). ring. }
  rewrite !sum_to_scal. set (a := sum_to np _). set (c := sum_to np _). assert (l ^ 2 * Rabs k <> 0) by (apply Rmult_integral_contrapositive; split; [apply pow_nonzero, NL|lra]).
  destruct (Req_dec c 0) as [E|NE]; [rewrite E, Rmult_0_r; unfold Rdiv; rewrite Rinv_0; ring|field; repeat split; [exact NE|lra|exact NL]].
Qed.

(** ** The gradient in the surface coefficients *)
Section Grad.
Variables (np n0 : nat) (Dom : vec3 -> Prop) (B : vec3 -> vec3) (dB : vec3 -> mat3) (d2B : vec3 -> nat -> mat3).
Hypothesis HF : field_ok Dom B dB d2B.
Variables (X nor : R -> nat -> vec3) (t : R) (v : nat -> R) (dx dnor : nat -> nat -> vec3).   (* dgamma_by_dcoeff, dnormal_by_dcoeff: coefficient, point *)
Hypothesis HX : forall k, (k < np)%nat -> D3 (fun s => X s k) t (sumv n0 (fun m => scal3 (v m) (dx m k))).
Hypothesis HN : forall k, (k < np)%nat -> D3 (fun s => nor s k) t (sumv n0 (fun m => scal3 (v m) (dnor m k))).
Hypothesis NP : (0 < np)%nat.
Hypothesis OK : forall k, (k < np)%nat -> Dom (X t k) /\ B (X t k) <> v0 /\ nor t k <> v0.
Notation b s := (fun k => B (X s k)).
Lemma dot_mat_dot m u w : dot3 (mat_dot m u) w = dot3 u (vecmat w m).
Proof. unfold mat_dot, vecmat. destruct m as [r0 r1 r2]. cbn [row0 row1 row2]. vu. ring. Qed.
Theorem C119_gradient : D (fun s => qfm_J np (b s) (nor s)) t (sum_to n0 (fun m => v m * qfm_dc np (b t) (nor t) (fun k => dB (X t k)) (dx m) (dnor m))).
Proof.
  set (X' := fun k => sumv n0 (fun m => scal3 (v m) (dx m k))). set (N' := fun k => sumv n0 (fun m => scal3 (v m) (dnor m k))).
  assert (NN : forall k, (k < np)%nat -> nor t k <> v0) by (intros k L; apply (OK k L)). assert (BN : forall k, (k < np)%nat -> B (X t k) <> v0) by (intros k L; apply (OK k L)).
  assert (DB : forall k, (k < np)%nat -> D3 (fun s => B (X s k)) t (vecmat (X' k) (dB (X t k)))) by (intros k L; apply (HF _ _ _ (HX k L) (proj1 (OK k L)))).
  assert (DN : forall k, (k < np)%nat -> D (fun s => norm3 (nor s k)) t (dot3 (nor t k) (N' k) / norm3 (nor t k))) by (intros k L; apply CurveDiffProps.D_norm; [apply HN, L|apply NN, L]).
  pose proof (J2_pos np (b t) (nor t) NP BN NN) as P2. rewrite J2_eq in P2.
  (* numerator and denominator as in J *)
  set (f1 := fun s k => dot3 (B (X s k)) (scal3 (/ norm3 (nor s k)) (nor s k)) ^ 2 * norm3 (nor s k)). set (f2 := fun s k => norm3 (B (X s k)) ^ 2 * norm3 (nor s k)).
  set (f1' := fun k => dot3 (dJ1dN (B (X t k)) (nor t k)) (N' k) + dot3 (dJ1dx (B (X t k)) (nor t k) (dB (X t k))) (X' k)). set (f2' := fun k => dot3 (dJ2dN (B (X t k)) (nor t k)) (N' k) + dot3 (dJ2dx (B (X t k)) (nor t k) (dB (X t k))) (X' k)).
  assert (D1 : forall k, (k < np)%nat -> D (fun s => f1 s k) t (f1' k)).
  { intros k L. pose proof (norm_pos _ (NN k L)) as PN. pose proof (D_dot _ _ _ _ _ (DB k L) (HN k L)) as E1. fold (N' k) in E1.
    assert (E2 : D (fun s => / norm3 (nor s k)) t (- (dot3 (nor t k) (N' k) / norm3 (nor t k)) / (norm3 (nor t k) * norm3 (nor t k)))).
    { apply (D_ext (fun s => 1 / norm3 (nor s k))); [intros; unfold Rdiv; ring|]. eapply D_val; [|apply D_div; [apply (D_const 1)|apply (DN k L)|lra]]. cbv beta. field. lra. }
    assert (E3 : D (fun s => dot3 (B (X s k)) (nor s k) * / norm3 (nor s k)) t ((dot3 (vecmat (X' k) (dB (X t k))) (nor t k) + dot3 (B (X t k)) (N' k)) * / norm3 (nor t k) + dot3 (B (X t k)) (nor t k) * (- (dot3 (nor t k) (N' k) / norm3 (nor t k)) / (norm3 (nor t k) * norm3 (nor t k))))) by (eapply D_val; [|apply (D_mul _ _ _ _ _ E1 E2)]; cbv beta; ring).
    apply (D_ext (fun s => (dot3 (B (X s k)) (nor s k) * / norm3 (nor s k)) * (dot3 (B (X s k)) (nor s k) * / norm3 (nor s k)) * norm3 (nor s k))).
    { intros s. unfold f1. assert (E : dot3 (B (X s k)) (scal3 (/ norm3 (nor s k)) (nor s k)) = dot3 (B (X s k)) (nor s k) * / norm3 (nor s k)) by (vu; ring). rewrite E. ring. }
    eapply D_val; [|apply (D_mul _ _ _ _ _ (D_mul _ _ _ _ _ E3 E3) (DN k L))]. cbv beta. unfold f1', dJ1dN, dJ1dx.
    replace (dot3 (scal3 (2 * dot3 (B (X t k)) (nor t k) / norm3 (nor t k)) (mat_dot (dB (X t k)) (nor t k))) (X' k)) with (2 * dot3 (B (X t k)) (nor t k) / norm3 (nor t k) * dot3 (mat_dot (dB (X t k)) (nor t k)) (X' k)) by (vu; ring).
    rewrite dot_mat_dot, (dot_comm3 (vecmat (X' k) (dB (X t k))) (nor t k)).
    replace (dot3 (sub3 (scal3 (2 * dot3 (B (X t k)) (nor t k) / norm3 (nor t k)) (B (X t k))) (scal3 (dot3 (B (X t k)) (nor t k) ^ 2 / norm3 (nor t k) ^ 3) (nor t k))) (N' k))
      with (2 * dot3 (B (X t k)) (nor t k) / norm3 (nor t k) * dot3 (B (X t k)) (N' k) - dot3 (B (X t k)) (nor t k) ^ 2 / norm3 (nor t k) ^ 3 * dot3 (nor t k) (N' k)) by (vu; ring).
    revert PN. generalize (norm3 (nor t k)). intros w PN. generalize (dot3 (B (X t k)) (nor t k)) (dot3 (B (X t k)) (N' k)) (dot3 (nor t k) (N' k)) (dot3 (nor t k) (vecmat (X' k) (dB (X t k)))). intros. field. lra. }
  assert (D2 : forall k, (k < np)%nat -> D (fun s => f2 s k) t (f2' k)).
  { intros k L. pose proof (norm_pos _ (NN k L)) as PN. apply (D_ext (fun s => dot3 (B (X s k)) (B (X s k)) * norm3 (nor s k))); [intros s; unfold f2; rewrite <- norm_sq; ring|].
    eapply D_val; [|apply (D_mul _ _ _ _ _ (D_dot _ _ _ _ _ (DB k L) (DB k L)) (DN k L))]. cbv beta. unfold f2', dJ2dN, dJ2dx.
    replace (dot3 (scal3 (norm3 (nor t k)) (scal3 2 (mat_dot (dB (X t k)) (B (X t k))))) (X' k)) with (2 * norm3 (nor t k) * dot3 (mat_dot (dB (X t k)) (B (X t k))) (X' k)) by (vu; ring).
    replace (dot3 (scal3 (dot3 (B (X t k)) (B (X t k)) / norm3 (nor t k)) (nor t k)) (N' k)) with (dot3 (B (X t k)) (B (X t k)) / norm3 (nor t k) * dot3 (nor t k) (N' k)) by (vu; ring).
    rewrite dot_mat_dot, (dot_comm3 (vecmat (X' k) (dB (X t k))) (B (X t k))). field. lra. }
  assert (S2 : sum_to np (fun k => f2 t k) = qfm_J2 np (b t) (nor t)) by (rewrite J2_eq; apply sum_to_ext; intros k _; unfold f2; rewrite <- norm_sq; ring).
  assert (S1 : sum_to np (fun k => f1 t k) = qfm_J1 np (b t) (nor t)).
  { apply sum_to_ext. intros k L. pose proof (norm_pos _ (NN k L)). unfold f1. assert (E : dot3 (B (X t k)) (scal3 (/ norm3 (nor t k)) (nor t k)) = dot3 (B (X t k)) (nor t k) / norm3 (nor t k)) by (unfold Rdiv; vu; ring). rewrite E. field. lra. }
  rewrite <- J2_eq in P2. unfold qfm_J. eapply D_val; [|apply (D_div (fun s => sum_to np (fun k => f1 s k)) (fun s => sum_to np (fun k => f2 s k)) t (sum_to np f1') (sum_to np f2'))];
    [|apply (sum_to_D np (fun k s => f1 s k)); exact D1|apply (sum_to_D np (fun k s => f2 s k)); exact D2|rewrite S2; lra].
  cbv beta. rewrite S1, S2. set (a1 := qfm_J1 np (b t) (nor t)) in *. set (a2 := qfm_J2 np (b t) (nor t)) in *.
  transitivity (sum_to np (fun k => / a2 * f1' k + (- (a1 / (a2 * a2))) * f2' k)); [rewrite sum_to_plus, !sum_to_scal; field; lra|].
  unfold qfm_dc. rewrite (sum_to_ext n0 _ (fun m => v m * sum_to np (fun k => dot3 (qfm_vN np (b t) (nor t) k) (dnor m k) + dot3 (qfm_vx np (b t) (nor t) (fun k => dB (X t k)) k) (dx m k)))) by (intros m _; now rewrite sum_to_plus).
  rewrite <- (sum_swap_lin n0 np v (fun k m => dot3 (qfm_vN np (b t) (nor t) k) (dnor m k) + dot3 (qfm_vx np (b t) (nor t) (fun k => dB (X t k)) k) (dx m k))). apply sum_to_ext. intros k L.
  rewrite (sum_to_ext n0 _ (fun m => v m * (1 * dot3 (qfm_vN np (b t) (nor t) k) (dnor m k) + 1 * dot3 (qfm_vx np (b t) (nor t) (fun k => dB (X t k)) k) (dx m k)))) by (intros; ring).
  rewrite <- sum_lin2, <- !dot_sumv. fold (N' k) (X' k). unfold f1', f2', qfm_vN, qfm_vx. fold a1 a2. unfold Rdiv. vu. ring.
Qed.
End Grad.
(** ** A concrete case *)
Example C119_ex : qfm_J 1 (fun _ => V3 3 0 4) (fun _ => V3 0 0 2) = 16 / 25 /\ (V3 3 0 4 <> v0) /\ (V3 0 0 2 <> v0).
Proof.
  split; [|split; intros E; inversion E; lra]. unfold qfm_J, sum_to. cbn [seq map rsuml fold_right].
  assert (N2 : norm3 (V3 0 0 2) = 2) by (unfold norm3, dot3; cbn [vx vy vz]; transitivity (sqrt (2 * 2)); [f_equal; ring|apply sqrt_square; lra]).
  assert (N5 : norm3 (V3 3 0 4) = 5) by (unfold norm3, dot3; cbn [vx vy vz]; transitivity (sqrt (5 * 5)); [f_equal; ring|apply sqrt_square; lra]).
  rewrite N2, N5. unfold dot3. cbn [vx vy vz scal3]. field.
Qed.
