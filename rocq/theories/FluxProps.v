(** C79, C80: the SquaredFlux objective. *)
From Coq Require Import Reals Lra Lia List Bool.
From Verif Require Import ListAux VecAux Vec3 BSModel BSDeriv BSVjp SurfProps SurfDiffProps CurveModel CurveProps CurveDiff CurveDiffProps CurveObjModel CurveObjProps FluxModel.
Import ListNotations.
Open Scope R_scope.

Lemma normN_norm n : normN n = norm3 n. Proof. reflexivity. Qed.
Lemma modB2_dot B : modB2 B = dot3 B B. Proof. reflexivity. Qed.
Lemma BdotN_dot B n : BdotN B n = dot3 B (unitn n).
Proof. unfold BdotN, unitn, dot3. rewrite normN_norm. cbn [vx vy vz scal3]. unfold Rdiv. ring. Qed.
Lemma resid_B_n B n t : resid B n t = B_n B n t.
Proof. unfold resid, B_n. now rewrite BdotN_dot. Qed.
(** ** C79 *)
(** the documented surface integrals: u is the unit normal, dS the area element (1/np)|n| *)
Theorem C79_value np B n T u dS : (0 < np)%nat -> (forall k, (k < np)%nat -> n k <> v0 /\ n k = scal3 (norm3 (n k)) (u k) /\ dS k = norm3 (n k) / INR np) ->
  flux_J Quadratic np B n T = 1 / 2 * sum_to np (fun k => (dot3 (B k) (u k) - T k) ^ 2 * dS k) /\
  flux_J Normalized np B n T = 1 / 2 * (sum_to np (fun k => (dot3 (B k) (u k) - T k) ^ 2 * dS k) / sum_to np (fun k => norm3 (B k) ^ 2 * dS k)) /\
  flux_J Local np B n T = 1 / 2 * sum_to np (fun k => (dot3 (B k) (u k) - T k) ^ 2 / norm3 (B k) ^ 2 * dS k).
Proof.
  intros N H. assert (NZ : INR np <> 0) by (apply not_0_INR; lia).
  assert (R0 : forall k, (k < np)%nat -> resid (B k) (n k) (T k) = dot3 (B k) (u k) - T k).
  { intros k Hk. destruct (H k Hk) as (A & E & _). rewrite resid_B_n. unfold B_n, unitn. f_equal. assert (P := CurveDiffProps.norm_pos _ A). rewrite E at 2. unfold dot3. cbn [vx vy vz scal3]. field. lra. }
  assert (Q : forall k, norm3 (B k) ^ 2 = modB2 (B k)) by (intros k; rewrite modB2_dot, <- norm_sq; ring).
  assert (S1 : sum_to np (fun k => (dot3 (B k) (u k) - T k) ^ 2 * dS k) = / INR np * sum_to np (fun k => resid (B k) (n k) (T k) * resid (B k) (n k) (T k) * normN (n k))).
  { rewrite <- sum_to_scal. apply sum_to_ext. intros k Hk. destruct (H k Hk) as (_ & _ & ->). rewrite R0 by assumption. change (normN (n k)) with (norm3 (n k)). unfold Rdiv. ring. }
  assert (S2 : sum_to np (fun k => norm3 (B k) ^ 2 * dS k) = / INR np * sum_to np (fun k => modB2 (B k) * normN (n k))).
  { rewrite <- sum_to_scal. apply sum_to_ext. intros k Hk. destruct (H k Hk) as (_ & _ & ->). rewrite Q. change (normN (n k)) with (norm3 (n k)). unfold Rdiv. ring. }
  split; [|split]; unfold flux_J.
  - rewrite S1. unfold Rdiv. ring.
  - rewrite S1, S2. set (a := sum_to _ _). set (b := sum_to _ _). clearbody a b. unfold Rdiv. rewrite Rinv_mult, Rinv_inv. transitivity (1 * / 2 * a * / b * (/ INR np * INR np)); [|ring]. rewrite (Rinv_l (INR np) NZ). ring.
  - unfold Rdiv at 1. rewrite (Rmult_assoc (1 / 2)). f_equal. rewrite Rmult_comm, <- sum_to_scal. apply sum_to_ext. intros k Hk. destruct (H k Hk) as (_ & _ & ->). rewrite R0, Q by assumption. change (normN (n k)) with (norm3 (n k)). unfold Rdiv. ring.
Qed.
(** never negative; zero exactly when the normal component of the field equals the target at every quadrature point *)
Theorem C79_nonnegative_and_zero d np B n T : (0 < np)%nat -> (forall k, (k < np)%nat -> n k <> v0) -> (d <> Quadratic -> forall k, (k < np)%nat -> B k <> v0) ->
  0 <= flux_J d np B n T /\ (flux_J d np B n T = 0 <-> forall k, (k < np)%nat -> dot3 (B k) (n k) = T k * norm3 (n k)).
Proof.
  intros N NN BN. assert (PN : 0 < INR np) by (apply lt_0_INR; lia). assert (NP : forall k, (k < np)%nat -> 0 < norm3 (n k)) by (intros; apply CurveDiffProps.norm_pos; auto).
  assert (RZ : forall k, (k < np)%nat -> resid (B k) (n k) (T k) = 0 <-> dot3 (B k) (n k) = T k * norm3 (n k)).
  { intros k Hk. specialize (NP k Hk). rewrite resid_B_n. unfold B_n, unitn. assert (E : dot3 (B k) (scal3 (1 / norm3 (n k)) (n k)) = dot3 (B k) (n k) / norm3 (n k)) by (unfold dot3, Rdiv; cbn [vx vy vz scal3]; ring). rewrite E. split; intros X.
    - assert (Y : dot3 (B k) (n k) / norm3 (n k) = T k) by lra. rewrite <- Y. field. lra.
    - rewrite X. field. lra. }
  assert (G : forall w, (forall k, (k < np)%nat -> 0 < w k) -> 0 <= sum_to np (fun k => resid (B k) (n k) (T k) * resid (B k) (n k) (T k) * w k) /\ (sum_to np (fun k => resid (B k) (n k) (T k) * resid (B k) (n k) (T k) * w k) = 0 <-> forall k, (k < np)%nat -> dot3 (B k) (n k) = T k * norm3 (n k))).
  { intros w W. assert (PP : forall k, (k < np)%nat -> 0 <= resid (B k) (n k) (T k) * resid (B k) (n k) (T k) * w k) by (intros k Hk; specialize (W k Hk); apply Rmult_le_pos; [apply Rle_0_sqr|lra]). split; [now apply sum_to_ge0|]. rewrite sum_to_zero by assumption. split; intros Z k Hk; specialize (Z k Hk); specialize (W k Hk).
    - apply RZ; [exact Hk|]. apply Rmult_integral in Z. destruct Z as [Z|Z]; [|lra]. apply Rmult_integral in Z. tauto.
    - apply RZ in Z; [|exact Hk]. rewrite Z. ring. }
  assert (F : forall S c, 0 < c -> 0 <= S -> 0 <= 1 / 2 * S / c /\ (1 / 2 * S / c = 0 <-> S = 0)).
  { intros S c C P. split; [apply Rmult_le_pos; [lra|]; left; now apply Rinv_0_lt_compat|]. split; [|intros ->; unfold Rdiv; ring]. intros E. apply Rmult_integral in E. destruct E as [E|E]; [lra|]. exfalso. revert E. apply Rinv_neq_0_compat. lra. }
  destruct d; unfold flux_J.
  - destruct (G (fun k => normN (n k)) NP) as (A & Z). destruct (F _ _ PN A) as (U & V). split; [exact U|]. now rewrite V.
  - specialize (BN ltac:(discriminate)). assert (MP : forall k, (k < np)%nat -> 0 < modB2 (B k) * normN (n k)) by (intros k Hk; apply Rmult_lt_0_compat; [rewrite modB2_dot, <- norm_sq; assert (X := CurveDiffProps.norm_pos _ (BN k Hk)); nra|apply NP, Hk]).
    assert (DP : 0 < sum_to np (fun k => modB2 (B k) * normN (n k))).
    { assert (X : 0 <= sum_to np (fun k => modB2 (B k) * normN (n k))) by (apply sum_to_ge0; intros k Hk; specialize (MP k Hk); lra). destruct X as [X|X]; [exact X|]. exfalso. symmetry in X. rewrite sum_to_zero in X by (intros k Hk; specialize (MP k Hk); lra). specialize (X 0%nat N). specialize (MP 0%nat N). lra. }
    destruct (G (fun k => normN (n k)) NP) as (A & Z). destruct (F _ _ DP A) as (U & V). split; [exact U|]. now rewrite V.
  - specialize (BN ltac:(discriminate)). assert (MP : forall k, (k < np)%nat -> 0 < / modB2 (B k) * normN (n k)) by (intros k Hk; apply Rmult_lt_0_compat; [apply Rinv_0_lt_compat; rewrite modB2_dot, <- norm_sq; assert (X := CurveDiffProps.norm_pos _ (BN k Hk)); nra|apply NP, Hk]).
    destruct (G (fun k => / modB2 (B k) * normN (n k)) MP) as (A & Z).
    assert (E : sum_to np (fun k => resid (B k) (n k) (T k) * resid (B k) (n k) (T k) / modB2 (B k) * normN (n k)) = sum_to np (fun k => resid (B k) (n k) (T k) * resid (B k) (n k) (T k) * (/ modB2 (B k) * normN (n k)))) by (apply sum_to_ext; intros; unfold Rdiv; ring).
    rewrite E. destruct (F _ _ PN A) as (U & V). split; [exact U|]. now rewrite V.
Qed.
(** scaling field and target by c: the plain definition scales with c^2, the two others do not change ("close this loophole") *)
Theorem C79_scaling c np B n T : c <> 0 -> let cB k := scal3 c (B k) in let cT k := c * T k in
  flux_J Quadratic np cB n cT = c ^ 2 * flux_J Quadratic np B n T /\ flux_J Normalized np cB n cT = flux_J Normalized np B n T /\ flux_J Local np cB n cT = flux_J Local np B n T.
Proof.
  intros C cB cT. assert (RS : forall k, resid (cB k) (n k) (cT k) = c * resid (B k) (n k) (T k)) by (intros k; rewrite !resid_B_n; unfold B_n, cB, cT, dot3; cbn [vx vy vz scal3]; ring).
  assert (MS : forall k, modB2 (cB k) = c ^ 2 * modB2 (B k)) by (intros k; unfold modB2, cB; cbn [vx vy vz scal3]; ring).
  assert (C2 : c ^ 2 <> 0) by now apply pow_nonzero.
  assert (E1 : sum_to np (fun k => resid (cB k) (n k) (cT k) * resid (cB k) (n k) (cT k) * normN (n k)) = c ^ 2 * sum_to np (fun k => resid (B k) (n k) (T k) * resid (B k) (n k) (T k) * normN (n k))) by (rewrite <- sum_to_scal; apply sum_to_ext; intros k _; rewrite RS; ring).
  assert (E2 : sum_to np (fun k => modB2 (cB k) * normN (n k)) = c ^ 2 * sum_to np (fun k => modB2 (B k) * normN (n k))) by (rewrite <- sum_to_scal; apply sum_to_ext; intros k _; rewrite MS; ring).
  split; [|split]; unfold flux_J.
  - rewrite E1. unfold Rdiv. ring.
  - rewrite E1, E2. unfold Rdiv. rewrite Rinv_mult. set (a := sum_to _ _). set (b := / sum_to _ _). transitivity (1 * / 2 * a * b * (c ^ 2 * / c ^ 2)); [ring|]. rewrite Rinv_r by exact C2. ring.
  - f_equal. f_equal. apply sum_to_ext. intros k _. rewrite RS, MS. unfold Rdiv. rewrite Rinv_mult. set (a := resid _ _ _). set (b := / modB2 _). transitivity (a * a * b * normN (n k) * (c ^ 2 * / c ^ 2)); [ring|]. rewrite Rinv_r by exact C2. ring.
Qed.
(** the orientation of the normals does not matter if the target changes sign with it *)
Theorem C79_orientation d np B n T : flux_J d np B (fun k => scal3 (-1) (n k)) (fun k => - T k) = flux_J d np B n T.
Proof.
  assert (NE : forall a, normN (scal3 (-1) a) = normN a) by (intros; unfold normN; f_equal; cbn [vx vy vz scal3]; ring).
  assert (RS : forall k, resid (B k) (scal3 (-1) (n k)) (- T k) = - resid (B k) (n k) (T k)) by (intros k; unfold resid, BdotN; rewrite NE; cbn [vx vy vz scal3]; unfold Rdiv; ring).
  assert (E1 : sum_to np (fun k => resid (B k) (scal3 (-1) (n k)) (- T k) * resid (B k) (scal3 (-1) (n k)) (- T k) * normN (scal3 (-1) (n k))) = sum_to np (fun k => resid (B k) (n k) (T k) * resid (B k) (n k) (T k) * normN (n k))) by (apply sum_to_ext; intros k _; rewrite RS, NE; ring).
  assert (E2 : sum_to np (fun k => modB2 (B k) * normN (scal3 (-1) (n k))) = sum_to np (fun k => modB2 (B k) * normN (n k))) by (apply sum_to_ext; intros k _; rewrite NE; ring).
  destruct d; unfold flux_J; rewrite ?E1, ?E2; [reflexivity|reflexivity|]. f_equal. f_equal. apply sum_to_ext. intros k _. rewrite RS, NE. unfold Rdiv. ring.
Qed.
(** dJ *)
Lemma pull nd np C J v : dirR nd v (fun m => nth m (curve_vjp nd C np J) 0) = sum_to np (fun k => dot3 (J k) (dir nd v (C k))).
Proof.
  rewrite (dirR_ext nd v _ (fun m => rsuml (map (fun k => dot3 (J k) (C k m)) (seq 0 np)))) by (intros m Hm; now apply curve_vjp_nth).
  rewrite (dirR_sum nd v (fun k m => dot3 (J k) (C k m))). unfold sum_to. apply rsuml_map_ext. intros k _. symmetry. apply (dir_R1 (fun a => dot3 (J k) a)); intros; unfold dot3; cbn [vx vy vz add3 scal3]; ring.
Qed.
Lemma D_resid b b' n t : D3 b 0 b' -> D (fun s => resid (b s) n t) 0 (dot3 b' (unitn n)).
Proof.
  intros H. eapply D_ext; [intros s; symmetry; apply resid_B_n|]. unfold B_n. eapply D_val; [|apply D_sub; [apply (D_dot _ _ _ _ _ H (D3_const (unitn n) 0))|apply D_const]]. cbv beta. unfold dot3. cbn [vx vy vz v0]. ring.
Qed.
Lemma D_mod b b' : D3 b 0 b' -> D (fun s => modB2 (b s)) 0 (2 * dot3 (b 0) b').
Proof. intros H. eapply D_ext; [intros s; symmetry; apply modB2_dot|]. eapply D_val; [|apply (D_dot _ _ _ _ _ H H)]. unfold dot3. ring. Qed.
Lemma flux_D d np b b' n T : (0 < np)%nat -> (forall k, (k < np)%nat -> n k <> v0) -> (d <> Quadratic -> forall k, (k < np)%nat -> b k 0 <> v0) -> (forall k, (k < np)%nat -> D3 (b k) 0 (b' k)) ->
  D (fun s => flux_J d np (fun k => b k s) n T) 0 (sum_to np (fun k => dot3 (dJdB d np (fun k => b k 0) n T k) (b' k))).
Proof.
  intros N NN BN DB. assert (NZ : INR np <> 0) by (apply not_0_INR; lia). assert (PN : 0 < INR np) by (apply lt_0_INR; lia). assert (NP : forall k, (k < np)%nat -> 0 < norm3 (n k)) by (intros; apply CurveDiffProps.norm_pos; auto).
  assert (D1 : D (fun s => sum_to np (fun k => resid (b k s) (n k) (T k) * resid (b k s) (n k) (T k) * normN (n k))) 0 (sum_to np (fun k => 2 * B_n (b k 0) (n k) (T k) * dot3 (b' k) (unitn (n k)) * norm3 (n k)))).
  { apply (sum_to_D np (fun k s => resid (b k s) (n k) (T k) * resid (b k s) (n k) (T k) * normN (n k))). intros k Hk. assert (R := D_resid (b k) (b' k) (n k) (T k) (DB k Hk)). eapply D_val; [|apply (D_mul _ (fun _ => normN (n k)) _ _ _ (D_mul _ _ _ _ _ R R) (D_const _ _))]. cbv beta. rewrite !resid_B_n. change (normN (n k)) with (norm3 (n k)). ring. }
  assert (D2 : D (fun s => sum_to np (fun k => modB2 (b k s) * normN (n k))) 0 (sum_to np (fun k => 2 * dot3 (b k 0) (b' k) * norm3 (n k)))).
  { apply (sum_to_D np (fun k s => modB2 (b k s) * normN (n k))). intros k Hk. eapply D_val; [|apply (D_mul _ (fun _ => normN (n k)) _ _ _ (D_mod _ _ (DB k Hk)) (D_const _ _))]. cbv beta. change (normN (n k)) with (norm3 (n k)). ring. }
  destruct d; unfold flux_J.
  - eapply D_ext; [|eapply D_val; [|apply (D_mul (fun _ => 1 / 2 / INR np) _ _ _ _ (D_const _ _) D1)]]; [intros s; cbv beta; unfold Rdiv; ring|]. cbv beta. rewrite Rmult_0_l, Rplus_0_l, <- sum_to_scal. apply sum_to_ext. intros k Hk. unfold dJdB. unfold dot3. cbn [vx vy vz scal3]. field. exact NZ.
  - specialize (BN ltac:(discriminate)). set (S2 := fun s => sum_to np (fun k => modB2 (b k s) * normN (n k))) in *.
    assert (MP : forall k, (k < np)%nat -> 0 < modB2 (b k 0) * normN (n k)) by (intros k Hk; apply Rmult_lt_0_compat; [rewrite modB2_dot, <- norm_sq; assert (X := CurveDiffProps.norm_pos _ (BN k Hk)); nra|apply NP, Hk]).
    assert (DP : 0 < S2 0).
    { assert (X : 0 <= S2 0) by (apply sum_to_ge0; intros k Hk; specialize (MP k Hk); lra). destruct X as [X|X]; [exact X|]. exfalso. symmetry in X. unfold S2 in X. rewrite sum_to_zero in X by (intros k Hk; specialize (MP k Hk); lra). specialize (X 0%nat N). specialize (MP 0%nat N). lra. }
    assert (DD := D_div _ _ _ _ _ (D_mul (fun _ => 1 / 2) _ _ _ _ (D_const _ _) D1) D2 ltac:(lra)). cbv beta in DD. eapply D_val; [|exact DD]. clear DD. unfold dJdB.
    set (num := mean np (fun k => B_n (b k 0) (n k) (T k) ^ 2 * norm3 (n k))). set (den := mean np (fun k => norm3 (b k 0) ^ 2 * norm3 (n k))).
    assert (En : sum_to np (fun k => resid (b k 0) (n k) (T k) * resid (b k 0) (n k) (T k) * normN (n k)) = INR np * num).
    { unfold num, mean. replace (INR np * (sum_to np (fun k => B_n (b k 0) (n k) (T k) ^ 2 * norm3 (n k)) / INR np)) with (sum_to np (fun k => B_n (b k 0) (n k) (T k) ^ 2 * norm3 (n k))) by (field; exact NZ). apply sum_to_ext. intros k _. rewrite resid_B_n. change (normN (n k)) with (norm3 (n k)). ring. }
    assert (Ed : S2 0 = INR np * den).
    { unfold den, mean, S2. replace (INR np * (sum_to np (fun k => norm3 (b k 0) ^ 2 * norm3 (n k)) / INR np)) with (sum_to np (fun k => norm3 (b k 0) ^ 2 * norm3 (n k))) by (field; exact NZ). apply sum_to_ext. intros k _. rewrite modB2_dot, <- norm_sq. change (normN (n k)) with (norm3 (n k)). ring. }
    rewrite En. unfold S2 in Ed |- *. rewrite Ed. assert (DEN : den <> 0) by (intros Z; unfold S2 in DP; rewrite Ed, Z in DP; lra). clearbody num den. clear En Ed DP S2 D1 D2.
    transitivity (1 / (INR np * den) * (1 / 2) * sum_to np (fun k => 2 * B_n (b k 0) (n k) (T k) * dot3 (b' k) (unitn (n k)) * norm3 (n k)) + - (num / (2 * INR np * den ^ 2)) * sum_to np (fun k => 2 * dot3 (b k 0) (b' k) * norm3 (n k))).
    + field. auto.
    + rewrite <- !sum_to_scal, <- sum_to_plus. apply sum_to_ext. intros k _. unfold dot3. cbn [vx vy vz scal3 sub3]. field. auto.
  - specialize (BN ltac:(discriminate)).
    assert (D3' : D (fun s => sum_to np (fun k => resid (b k s) (n k) (T k) * resid (b k s) (n k) (T k) / modB2 (b k s) * normN (n k))) 0 (sum_to np (fun k => 2 * (B_n (b k 0) (n k) (T k) / norm3 (b k 0)) * (dot3 (b' k) (unitn (n k)) / norm3 (b k 0) - B_n (b k 0) (n k) (T k) / norm3 (b k 0) ^ 3 * dot3 (b k 0) (b' k)) * norm3 (n k)))).
    { apply (sum_to_D np (fun k s => resid (b k s) (n k) (T k) * resid (b k s) (n k) (T k) / modB2 (b k s) * normN (n k))). intros k Hk. assert (R := D_resid (b k) (b' k) (n k) (T k) (DB k Hk)). assert (BP := CurveDiffProps.norm_pos _ (BN k Hk)). assert (MQ : modB2 (b k 0) = norm3 (b k 0) * norm3 (b k 0)) by (rewrite norm_sq; apply modB2_dot).
      eapply D_val; [|apply (D_mul _ (fun _ => normN (n k)) _ _ _ (D_div _ _ _ _ _ (D_mul _ _ _ _ _ R R) (D_mod _ _ (DB k Hk)) ltac:(cbv beta; rewrite MQ; nra)) (D_const _ _))]. cbv beta. rewrite !resid_B_n, MQ. change (normN (n k)) with (norm3 (n k)). field. lra. }
    eapply D_ext; [|eapply D_val; [|apply (D_mul (fun _ => 1 / 2 / INR np) _ _ _ _ (D_const _ _) D3')]]; [intros s; cbv beta; unfold Rdiv; ring|]. cbv beta. rewrite Rmult_0_l, Rplus_0_l, <- sum_to_scal. apply sum_to_ext. intros k Hk. assert (BP := CurveDiffProps.norm_pos _ (BN k Hk)). unfold dJdB. set (m := norm3 (b k 0)) in *. clearbody m. unfold dot3. cbn [vx vy vz scal3 sub3]. field. split; first [exact NZ|lra].
Qed.
(** dJ is the gradient of J with respect to the dofs of the field *)
Theorem C79_gradient d nd np B n T C x : length x = nd -> (0 < np)%nat -> (forall k, (k < np)%nat -> n k <> v0) -> (d <> Quadratic -> forall k, (k < np)%nat -> B x k <> v0) ->
  (forall k, (k < np)%nat -> gradient3 nd (fun x => B x k) x (C k)) -> gradient nd (fun x => flux_J d np (B x) n T) x (fun m => nth m (flux_dJ d nd np (B x) n T C) 0).
Proof.
  intros L N NN BN H v Hv. unfold flux_dJ. rewrite pull. assert (Z : move x v 0 = x) by (apply move_0; congruence). assert (X := flux_D d np (fun k t => B (move x v t) k) (fun k => dir nd v (C k)) n T N NN). cbv beta in X. rewrite Z in X. exact (X BN (fun k Hk => H k Hk v Hv)).
Qed.

(** ** C80: which flux J() returns in the course of a program *)
(** the flux of the field through the surface of objective o, both as they are now *)
Definition current_flux (st : fstate) (o : fobj) : R :=
  let s := st_surf st (f_surface o) in flux_J (f_def o) (length (s_normal s)) (fun k => st_B st (nth k (s_gamma s) v0)) (fun k => nth k (s_normal s) v0) (f_target o).
(** the last call that set the points was the construction of an objective on surface s, and s has not moved since *)
Definition fresh (s : nat) (l : list fop) : Prop :=
  exists l1 t d l2, l = l1 ++ NewFlux s t d :: l2 /\ forall o, In o l2 -> match o with ChangeField _ => True | MoveSurface s' _ _ => s' <> s | _ => False end.
Lemma frun_app a b st : frun (a ++ b) st = frun b (frun a st). Proof. apply fold_left_app. Qed.
Lemma quiet s l : (forall o, In o l -> match o with ChangeField _ => True | MoveSurface s' _ _ => s' <> s | _ => False end) -> forall st, st_points (frun l st) = st_points st /\ st_surf (frun l st) s = st_surf st s.
Proof.
  induction l as [|o l IH]; intros H st; [auto|]. cbn [frun fold_left]. fold (frun l (fstep o st)). destruct (IH (fun o' Ho => H o' (or_intror Ho)) (fstep o st)) as (-> & ->). specialize (H o (or_introl eq_refl)). destruct o; try contradiction; cbn [fstep st_points st_surf]; auto. replace (s =? s0)%nat with false by lia. auto.
Qed.
Theorem C80_fresh l st0 i o : nth_error (st_objs (frun l st0)) i = Some o -> fresh (f_surface o) l ->
  length (s_gamma (st_surf (frun l st0) (f_surface o))) = length (s_normal (st_surf (frun l st0) (f_surface o))) ->
  eval_J (frun l st0) i = Some (current_flux (frun l st0) o).
Proof.
  intros H (l1 & t & d & l2 & -> & Q) L. unfold eval_J. rewrite H. revert L. rewrite frun_app. cbn [frun fold_left]. fold (frun l1 st0). set (st := frun l1 st0). change (fold_left (fun st o => fstep o st) l2 (fstep (NewFlux (f_surface o) t d) st)) with (frun l2 (fstep (NewFlux (f_surface o) t d) st)).
  destruct (quiet (f_surface o) l2 Q (fstep (NewFlux (f_surface o) t d) st)) as (EP & ES). unfold current_flux. rewrite ES, EP. cbn [fstep st_points st_surf]. intros L. rewrite L, Nat.eqb_refl. reflexivity.
Qed.
(** constructing another objective with the same field makes J of the earlier ones use the points of the other surface (with the normals of
    their own one), or fail if the numbers of points differ; moving the surface leaves the field at the old points *)
Theorem C80_other_objective l st0 i o s t d : nth_error (st_objs (frun l st0)) i = Some o -> let st := frun (l ++ [NewFlux s t d]) st0 in let n := s_normal (st_surf st (f_surface o)) in let p := s_gamma (st_surf st s) in
  eval_J st i = if (length p =? length n)%nat then Some (flux_J (f_def o) (length n) (fun k => st_B st (nth k p v0)) (fun k => nth k n v0) (f_target o)) else None.
Proof.
  intros H st n p. unfold eval_J. subst st n p. rewrite frun_app. cbn [frun fold_left]. fold (frun l st0). cbn [fstep st_points st_surf st_objs st_B].
  assert (E : nth_error match d with Some d => st_objs (frun l st0) ++ [FObj s t d] | None => st_objs (frun l st0) end i = Some o) by (destruct d; [rewrite nth_error_app1; [exact H|apply nth_error_Some; congruence]|exact H]). rewrite E. reflexivity.
Qed.
Theorem C80_moved_surface l st0 i o g n t : nth_error (st_objs (frun l st0)) i = Some o -> let s := f_surface o in let st := frun (l ++ [NewFlux s t None; MoveSurface s g n]) st0 in let p := s_gamma (st_surf (frun l st0) s) in
  eval_J st i = if (length p =? length n)%nat then Some (flux_J (f_def o) (length n) (fun k => st_B st (nth k p v0)) (fun k => nth k n v0) (f_target o)) else None.
Proof.
  intros H s st p. unfold eval_J. subst st p. rewrite frun_app. cbn [frun fold_left]. fold (frun l st0). cbn [fstep st_points st_surf st_objs st_B]. rewrite H. fold s. rewrite Nat.eqb_refl. reflexivity.
Qed.
(** a program in which the first answer is right and, after a second objective was made, wrong *)
Theorem C80_stale_refuted : exists l st0 l' o, nth_error (st_objs (frun l st0)) 0 = Some o /\ eval_J (frun l st0) 0 = Some (current_flux (frun l st0) o) /\ l' = l ++ [NewFlux 1 (fun _ => 0) (Some Quadratic)] /\
  current_flux (frun l' st0) o = current_flux (frun l st0) o /\ exists J, eval_J (frun l' st0) 0 = Some J /\ J <> current_flux (frun l' st0) o.
Proof.
  set (sf := fun i : nat => Surf [V3 (INR i) 0 0] [V3 1 0 0]). set (st0 := FSt [] sf [] (fun p => p)). set (l := [NewFlux 0 (fun _ => 0) (Some Quadratic)]). exists l, st0, (l ++ [NewFlux 1 (fun _ => 0) (Some Quadratic)]), (FObj 0 (fun _ => 0) Quadratic).
  assert (N1 : normN (V3 1 0 0) = 1) by (rewrite normN_norm; apply norm_unique; [lra|unfold dot3; cbn [vx vy vz]; ring]).
  assert (F : forall c, flux_J Quadratic 1 (fun k => nth k [V3 c 0 0] v0) (fun k => nth k [V3 1 0 0] v0) (fun _ => 0) = 1 / 2 * c ^ 2) by (intros c; unfold flux_J, sum_to, resid, BdotN; cbn [seq map rsuml nth vx vy vz INR]; rewrite N1; field).
  split; [reflexivity|]. split; [reflexivity|]. split; [reflexivity|]. split; [reflexivity|]. eexists. split; [reflexivity|].
  cbn [fstep frun fold_left app l st0 st_points st_surf st_objs st_B sf s_gamma s_normal f_def f_target f_surface length].
  change (flux_J Quadratic 1 (fun k => nth k [V3 (INR 1) 0 0] v0) (fun k => nth k [V3 1 0 0] v0) (fun _ => 0) <> flux_J Quadratic 1 (fun k => nth k [V3 (INR 0) 0 0] v0) (fun k => nth k [V3 1 0 0] v0) (fun _ => 0)). rewrite !F. cbn [INR]. lra.
Qed.
(** the hypotheses of C79 are met *)
Example C79_case : flux_J Quadratic 1 (fun _ => V3 3 1 0) (fun _ => V3 2 0 0) (fun _ => 1) = 4 /\ flux_J Local 1 (fun _ => V3 3 4 0) (fun _ => V3 2 0 0) (fun _ => 0) = 9 / 25 /\ V3 2 0 0 <> v0 /\ V3 3 1 0 <> v0.
Proof.
  assert (N1 : normN (V3 2 0 0) = 2) by (rewrite normN_norm; apply norm_unique; [lra|unfold dot3; cbn [vx vy vz]; ring]).
  split; [|split; [|split; intros E; apply (f_equal vx) in E; cbn in E; lra]]; unfold flux_J, sum_to, resid, BdotN, modB2; cbn [seq map rsuml vx vy vz INR]; rewrite N1; field.
Qed.
