(** C121: the Fourier transforms of a scalar on a surface. *)
From Coq Require Import ZArith Reals Lra Lia List Bool.
From Verif Require Import ListAux VecAux BSVjp CurveObjModel CurveObjProps WFGeom TensorSym SurfQuad NormModel NormProps FourModel.
Import ListNotations.
Open Scope R_scope.

(** ** Trigonometric sums *)
Lemma two_ne z : z <> 0 -> 2 * z <> 0.
Proof. intros H Q. apply H. lra. Qed.
Lemma telescope_cos a c : forall N, 2 * sin (a / 2) * sum_to N (fun k => cos (c + a * INR k)) = sin (c + a * (INR N - / 2)) - sin (c - a / 2).
Proof.
  induction N as [|N IH].
  - rewrite sum_to_0. cbn [INR]. replace (c + a * (0 - / 2)) with (c - a / 2) by field. ring.
  - replace (S N) with (N + 1)%nat at 1 by lia. rewrite sum_to_add, Rmult_plus_distr_l, IH. unfold sum_to. cbn [seq map rsuml]. rewrite Nat.add_0_r, S_INR.
    replace (c + a * (INR N + 1 - / 2)) with ((c + a * INR N) + a / 2) by field. replace (c + a * (INR N - / 2)) with ((c + a * INR N) - a / 2) by field. rewrite (sin_plus (c + a * INR N) (a / 2)), (sin_minus (c + a * INR N) (a / 2)). ring.
Qed.
Lemma telescope_sin a c : forall N, 2 * sin (a / 2) * sum_to N (fun k => sin (c + a * INR k)) = cos (c - a / 2) - cos (c + a * (INR N - / 2)).
Proof.
  induction N as [|N IH].
  - rewrite sum_to_0. cbn [INR]. replace (c + a * (0 - / 2)) with (c - a / 2) by field. ring.
  - replace (S N) with (N + 1)%nat at 1 by lia. rewrite sum_to_add, Rmult_plus_distr_l, IH. unfold sum_to. cbn [seq map rsuml]. rewrite Nat.add_0_r, S_INR.
    replace (c + a * (INR N + 1 - / 2)) with ((c + a * INR N) + a / 2) by field. replace (c + a * (INR N - / 2)) with ((c + a * INR N) - a / 2) by field. rewrite (cos_plus (c + a * INR N) (a / 2)), (cos_minus (c + a * INR N) (a / 2)). ring.
Qed.
Lemma sin_kPI k : sin (IZR k * PI) = 0.
Proof. apply sin_eq_0_1. exists k. reflexivity. Qed.
Lemma sin_2kPI x k : sin (x + 2 * (IZR k * PI)) = sin x.
Proof. rewrite sin_plus, sin_2a, cos_2a_sin, sin_kPI. ring. Qed.
Lemma cos_2kPI x k : cos (x + 2 * (IZR k * PI)) = cos x.
Proof. rewrite cos_plus, sin_2a, cos_2a_sin, sin_kPI. ring. Qed.
(** sin (pi k / N) vanishes only if N divides k *)
Lemma sin_frac k N : (0 < N)%nat -> sin (PI * (IZR k / INR N)) = 0 -> (Z.of_nat N | k)%Z.
Proof.
  intros HN H. apply sin_eq_0_0 in H. destruct H as (q & H). exists q. apply eq_IZR. rewrite mult_IZR, <- INR_IZR_INZ. pose proof PI_RGT_0. pose proof (lt_0_INR N HN).
  apply (Rmult_eq_reg_l PI); [|lra]. transitivity (PI * (IZR k / INR N) * INR N); [field; lra|]. rewrite H. ring.
Qed.
(** full periods *)
Lemma cos_sum0 k N : (0 < N)%nat -> ~ (Z.of_nat N | k)%Z -> sum_to N (fun i => cos (2 * PI * (IZR k / INR N) * INR i)) = 0.
Proof.
  intros HN ND. pose proof (lt_0_INR N HN). set (a := 2 * PI * (IZR k / INR N)). assert (SA : sin (a / 2) <> 0) by (intros Q; apply ND, (sin_frac k N HN); rewrite <- Q; unfold a; f_equal; field; lra).
  apply (Rmult_eq_reg_l (2 * sin (a / 2))); [|now apply two_ne]. rewrite Rmult_0_r. rewrite (sum_to_ext N _ (fun i => cos (0 + a * INR i))) by (intros; f_equal; ring). rewrite telescope_cos.
  replace (0 + a * (INR N - / 2)) with ((0 - a / 2) + 2 * (IZR k * PI)) by (unfold a; field; lra). rewrite sin_2kPI. ring.
Qed.
Lemma sin_sum0 k N : (0 < N)%nat -> sum_to N (fun i => sin (2 * PI * (IZR k / INR N) * INR i)) = 0.
Proof.
  intros HN. pose proof (lt_0_INR N HN). set (a := 2 * PI * (IZR k / INR N)). destruct (Req_dec (sin (a / 2)) 0) as [Q|SA].
  - apply sum_0. intros i _. assert (D : (Z.of_nat N | k)%Z) by (apply (sin_frac k N HN); rewrite <- Q; unfold a; f_equal; field; lra). destruct D as (q & ->). unfold a. rewrite mult_IZR, <- INR_IZR_INZ.
    replace (2 * PI * (IZR q * INR N / INR N) * INR i) with (IZR (2 * q * Z.of_nat i) * PI); [apply sin_kPI|]. rewrite !mult_IZR, <- INR_IZR_INZ. field. lra.
  - apply (Rmult_eq_reg_l (2 * sin (a / 2))); [|now apply two_ne]. rewrite Rmult_0_r. rewrite (sum_to_ext N _ (fun i => sin (0 + a * INR i))) by (intros; f_equal; ring). rewrite telescope_sin.
    replace (0 + a * (INR N - / 2)) with ((0 - a / 2) + 2 * (IZR k * PI)) by (unfold a; field; lra). rewrite cos_2kPI. ring.
Qed.
(** half a period, points in the middle of the intervals *)
Lemma cos_sum_half k N : (0 < N)%nat -> (0 < Z.abs k < 2 * Z.of_nat N)%Z -> sum_to N (fun i => cos (PI * (IZR k / INR N) * (INR i + / 2))) = 0.
Proof.
  intros HN HK. pose proof (lt_0_INR N HN). set (a := PI * (IZR k / INR N)).
  assert (SA : sin (a / 2) <> 0). { intros Q. assert (D : (Z.of_nat (2 * N) | k)%Z). { apply sin_frac; [lia|]. rewrite <- Q. unfold a. f_equal. rewrite mult_INR. cbn [INR]. field. lra. } destruct D as (q & ->). clear - HK HN. destruct (Z.eq_dec q 0) as [->|NQ]; [lia|]. rewrite Z.abs_mul in HK. replace (Z.abs (Z.of_nat (2 * N))) with (2 * Z.of_nat N)%Z in HK by lia. assert (1 <= Z.abs q)%Z by lia. nia. }
  apply (Rmult_eq_reg_l (2 * sin (a / 2))); [|now apply two_ne]. rewrite Rmult_0_r. rewrite (sum_to_ext N _ (fun i => cos (a / 2 + a * INR i))) by (intros; f_equal; field). rewrite telescope_cos.
  replace (a / 2 + a * (INR N - / 2)) with (IZR k * PI) by (unfold a; field; lra). rewrite sin_kPI. replace (a / 2 - a / 2) with 0 by ring. rewrite sin_0. ring.
Qed.

(** ** Orthogonality on a grid *)
Lemma loop_In mp nt m n : In (m, n) (loop_modes mp nt) <-> in_loop mp nt m n = true.
Proof.
  unfold loop_modes, in_loop. rewrite in_flat_map. split.
  - intros (k & K & H). apply in_map_iff in H as (l & [= <- <-] & H). apply zrange_In in K. apply zrange_In in H. destruct (k =? 0)%Z eqn:E; lia.
  - intros H. exists m. split; [apply zrange_In; lia|]. apply in_map, zrange_In. destruct (m =? 0)%Z eqn:E; lia.
Qed.
Lemma loop_NoDup mp nt : NoDup (loop_modes mp nt).
Proof.
  apply NoDup_fm; [apply zrange_NoDup|intros a _; apply FinFun.Injective_map_NoDup; [intros u w H; congruence|apply zrange_NoDup]|]. intros a b y _ _ H H'. apply in_map_iff in H as (u & <- & _). apply in_map_iff in H' as (w & Q & _). congruence.
Qed.
Lemma rsuml_single {A} (dec : forall a b : A, {a = b} + {a <> b}) (l : list A) (p : A) (c : R) : NoDup l -> In p l -> rsuml (map (fun q => if dec q p then c else 0) l) = c.
Proof.
  induction 1 as [|a l N L IH]; intros H; [destruct H|]. cbn [map rsuml]. destruct (dec a p) as [->|NE].
  - rewrite rsuml_map_zero; [ring|]. intros q Q. destruct (dec q p) as [->|]; [contradiction|reflexivity].
  - destruct H as [->|H]; [congruence|]. rewrite IH by exact H. ring.
Qed.
Definition mode_dec (p q : Z * Z) : {p = q} + {p <> q}.
Proof. decide equality; apply Z.eq_dec. Defined.
Section Orth.
Variables (qphi qtheta : list R) (nfp : nat).
Notation nphi := (length qphi).
Notation ntheta := (length qtheta).
Notation ang := (angle qphi qtheta nfp).
Notation gsum := (grid_sum qphi qtheta).
Notation NN := (INR ntheta * INR nphi).
Lemma ang_add m n m' n' i j : ang (m + m')%Z (n + n')%Z i j = ang m n i j + ang m' n' i j.
Proof. unfold angle. rewrite !plus_IZR. ring. Qed.
Lemma ang_sub m n m' n' i j : ang (m - m')%Z (n - n')%Z i j = ang m n i j - ang m' n' i j.
Proof. unfold angle. rewrite !minus_IZR. ring. Qed.
Lemma gsum_ext f g : (forall i j, (i < nphi)%nat -> (j < ntheta)%nat -> f i j = g i j) -> gsum f = gsum g.
Proof. intros H. apply sum_to_ext. intros i I. apply sum_to_ext. intros j J. now apply H. Qed.
Lemma gsum_scal c f : gsum (fun i j => c * f i j) = c * gsum f.
Proof. unfold grid_sum. rewrite <- sum_to_scal. apply sum_to_ext. intros i _. apply sum_to_scal. Qed.
Lemma gsum_plus f g : gsum (fun i j => f i j + g i j) = gsum f + gsum g.
Proof. unfold grid_sum. rewrite <- sum_to_plus. apply sum_to_ext. intros i _. apply sum_to_plus. Qed.
Lemma gsum_list {A} (l : list A) (g : A -> nat -> nat -> R) : gsum (fun i j => rsuml (map (fun a => g a i j) l)) = rsuml (map (fun a => gsum (g a)) l).
Proof.
  induction l as [|a l IH]; cbn [map rsuml].
  - unfold grid_sum. apply sum_0. intros i _. apply sum_0. reflexivity.
  - rewrite gsum_plus, IH. reflexivity.
Qed.
Variables (mp nt : Z) (ss : bool).
(** the grid resolves the modes *)
Hypothesis HC : forall m n, (Z.abs m <= 2 * mp)%Z -> (Z.abs n <= 2 * nt)%Z -> (m <> 0 \/ n <> 0)%Z -> gsum (fun i j => cos (ang m n i j)) = 0.
Hypothesis HS : ss = false -> forall m n, (Z.abs m <= 2 * mp)%Z -> (Z.abs n <= 2 * nt)%Z -> gsum (fun i j => sin (ang m n i j)) = 0.
Lemma gsum_one : gsum (fun _ _ => 1) = NN.
Proof. unfold grid_sum. assert (S1 : forall n, sum_to n (fun _ => 1) = INR n) by (induction n as [|n IH]; [reflexivity|]; rewrite sum_to_first, IH, S_INR; ring). rewrite (sum_to_ext nphi _ (fun _ => INR ntheta * 1)) by (intros; rewrite S1; ring). rewrite sum_to_scal, S1. ring. Qed.
Lemma zero_ang i j : ang 0 0 i j = 0. Proof. unfold angle. ring. Qed.
Lemma prod_ss p q : In p (loop_modes mp nt) -> In q (loop_modes mp nt) -> gsum (fun i j => sin (ang (fst q) (snd q) i j) * sin (ang (fst p) (snd p) i j)) = if mode_dec q p then NN / 2 else 0.
Proof.
  destruct p as [m n], q as [m' n']. intros P Q. apply loop_In in P, Q. unfold in_loop in P, Q. cbn [fst snd].
  transitivity (/ 2 * gsum (fun i j => cos (ang (m' - m)%Z (n' - n)%Z i j)) + - / 2 * gsum (fun i j => cos (ang (m' + m)%Z (n' + n)%Z i j))).
  { rewrite <- !gsum_scal, <- gsum_plus. apply gsum_ext. intros i j _ _. rewrite ang_add, ang_sub, cos_plus, cos_minus. field. }
  rewrite (HC (m' + m) (n' + n)) by (destruct (m =? 0)%Z eqn:E, (m' =? 0)%Z eqn:E'; lia). destruct (mode_dec (m', n') (m, n)) as [[= -> ->]|NE].
  - rewrite !Z.sub_diag. rewrite (gsum_ext _ (fun _ _ => 1)) by (intros; rewrite zero_ang; apply cos_0). rewrite gsum_one. lra.
  - rewrite HC; [ring| | |]; try (destruct (m =? 0)%Z eqn:E, (m' =? 0)%Z eqn:E'; lia). destruct (Z.eq_dec m' m) as [->|]; [right|left; lia]. intros Q1. apply NE. f_equal. lia.
Qed.
Lemma prod_cc p q : In p (loop_modes mp nt) -> In q (loop_modes mp nt) -> gsum (fun i j => cos (ang (fst q) (snd q) i j) * cos (ang (fst p) (snd p) i j)) = if mode_dec q p then NN / 2 else 0.
Proof.
  destruct p as [m n], q as [m' n']. intros P Q. apply loop_In in P, Q. unfold in_loop in P, Q. cbn [fst snd].
  transitivity (/ 2 * gsum (fun i j => cos (ang (m' - m)%Z (n' - n)%Z i j)) + / 2 * gsum (fun i j => cos (ang (m' + m)%Z (n' + n)%Z i j))).
  { rewrite <- !gsum_scal, <- gsum_plus. apply gsum_ext. intros i j _ _. rewrite ang_add, ang_sub, cos_plus, cos_minus. field. }
  rewrite (HC (m' + m) (n' + n)) by (destruct (m =? 0)%Z eqn:E, (m' =? 0)%Z eqn:E'; lia). destruct (mode_dec (m', n') (m, n)) as [[= -> ->]|NE].
  - rewrite !Z.sub_diag. rewrite (gsum_ext _ (fun _ _ => 1)) by (intros; rewrite zero_ang; apply cos_0). rewrite gsum_one. lra.
  - rewrite HC; [ring| | |]; try (destruct (m =? 0)%Z eqn:E, (m' =? 0)%Z eqn:E'; lia). destruct (Z.eq_dec m' m) as [->|]; [right|left; lia]. intros Q1. apply NE. f_equal. lia.
Qed.
Lemma prod_cs p q : ss = false -> In p (loop_modes mp nt) -> In q (loop_modes mp nt) -> gsum (fun i j => cos (ang (fst q) (snd q) i j) * sin (ang (fst p) (snd p) i j)) = 0.
Proof.
  destruct p as [m n], q as [m' n']. intros S0 P Q. apply loop_In in P, Q. unfold in_loop in P, Q. cbn [fst snd].
  transitivity (/ 2 * gsum (fun i j => sin (ang (m' + m)%Z (n' + n)%Z i j)) + - / 2 * gsum (fun i j => sin (ang (m' - m)%Z (n' - n)%Z i j))).
  { rewrite <- !gsum_scal, <- gsum_plus. apply gsum_ext. intros i j _ _. rewrite ang_add, ang_sub, sin_plus, sin_minus. field. }
  rewrite !(HS S0); [ring|..]; destruct (m =? 0)%Z eqn:E, (m' =? 0)%Z eqn:E'; lia.
Qed.
Lemma one_c p : In p (loop_modes mp nt) -> gsum (fun i j => cos (ang (fst p) (snd p) i j)) = 0.
Proof. destruct p as [m n]. intros P. apply loop_In in P. unfold in_loop in P. cbn [fst snd]. apply HC; destruct (m =? 0)%Z eqn:E; lia. Qed.
Lemma one_s p : ss = false -> In p (loop_modes mp nt) -> gsum (fun i j => sin (ang (fst p) (snd p) i j)) = 0.
Proof. destruct p as [m n]. intros S0 P. apply loop_In in P. unfold in_loop in P. cbn [fst snd]. apply (HS S0); destruct (m =? 0)%Z eqn:E; lia. Qed.
Variables (As Ac : Z -> Z -> R) (norm : option R).
Hypothesis HN : forall c, norm = Some c -> c <> 0.
Hypothesis PP : (0 < nphi)%nat.
Hypothesis PT : (0 < ntheta)%nat.
Notation U := (inv qphi qtheta nfp ss mp nt norm As Ac).
(** the Nyquist weight of the code *)
Definition weight (m n : Z) : R := factor2 qphi qtheta m n * (NN / 2).
Lemma NN_pos : 0 < NN. Proof. apply Rmult_lt_0_compat; apply lt_0_INR; assumption. Qed.
Definition core i j : R := rsuml (map (fun p => As (fst p) (snd p) * sin (ang (fst p) (snd p) i j) + (if ss then 0 else Ac (fst p) (snd p) * cos (ang (fst p) (snd p) i j))) (loop_modes mp nt)) + (if ss then 0 else Ac 0%Z 0%Z).
Definition nrm : R := match norm with Some c => c | None => 1 end.
Lemma nrm_ne : nrm <> 0. Proof. unfold nrm. destruct norm as [c|]; [now apply HN|lra]. Qed.
Lemma U_core i j : U i j = nrm * core i j.
Proof. unfold inv, core, nrm. destruct norm, ss; ring. Qed.
Lemma by_norm_eq a : by_norm norm a = a / nrm.
Proof. unfold by_norm, nrm. destruct norm; [reflexivity|field]. Qed.
(** pairing of the inverse transform with a function *)
Lemma core_sum (h : nat -> nat -> R) : gsum (fun i j => core i j * h i j) =
  rsuml (map (fun p => As (fst p) (snd p) * gsum (fun i j => sin (ang (fst p) (snd p) i j) * h i j) + (if ss then 0 else Ac (fst p) (snd p) * gsum (fun i j => cos (ang (fst p) (snd p) i j) * h i j))) (loop_modes mp nt)) + (if ss then 0 else Ac 0%Z 0%Z * gsum h).
Proof.
  rewrite (gsum_ext _ (fun i j => rsuml (map (fun p => As (fst p) (snd p) * (sin (ang (fst p) (snd p) i j) * h i j) + (if ss then 0 else Ac (fst p) (snd p)) * (cos (ang (fst p) (snd p) i j) * h i j)) (loop_modes mp nt)) + (if ss then 0 else Ac 0%Z 0%Z) * h i j)).
  2:{ intros i j _ _. unfold core. rewrite Rmult_plus_distr_r. f_equal. rewrite (Rmult_comm _ (h i j)), <- rsuml_map_scale. apply rsuml_map_ext. intros p _. destruct ss; ring. }
  rewrite gsum_plus, gsum_list, gsum_scal. f_equal; [|destruct ss; ring]. apply rsuml_map_ext. intros p _. rewrite gsum_plus, !gsum_scal. destruct ss; ring.
Qed.
Lemma single_eq p (c : Z * Z -> R) (v : R) : In p (loop_modes mp nt) -> rsuml (map (fun q => c q * (if mode_dec q p then v else 0)) (loop_modes mp nt)) = c p * v.
Proof.
  intros P. rewrite <- (rsuml_single mode_dec (loop_modes mp nt) p (c p * v) (loop_NoDup mp nt) P). apply rsuml_map_ext. intros q _. destruct (mode_dec q p) as [->|]; ring.
Qed.
Lemma coeff_s m n : in_loop mp nt m n = true -> fwd_s qphi qtheta nfp mp nt norm U m n = weight m n * As m n.
Proof.
  intros P. unfold fwd_s. rewrite P, by_norm_eq. pose proof nrm_ne as NE. pose proof NN_pos as NP. apply loop_In in P as Q.
  rewrite (gsum_ext _ (fun i j => nrm * factor2 qphi qtheta m n * (core i j * sin (ang m n i j)))) by (intros; rewrite U_core; ring). rewrite gsum_scal, core_sum.
  rewrite (rsuml_map_ext _ (fun q => As (fst q) (snd q) * (if mode_dec q (m, n) then NN / 2 else 0))).
  2:{ intros q HQ. pose proof (prod_ss (m, n) q Q HQ) as E1. cbn [fst snd] in E1. rewrite E1. destruct (bool_dec ss true) as [S0|S0]; [rewrite S0; ring|]. apply not_true_is_false in S0. pose proof (prod_cs (m, n) q S0 Q HQ) as E2. cbn [fst snd] in E2. rewrite E2, S0. ring. }
  rewrite (single_eq (m, n) (fun q => As (fst q) (snd q))) by exact Q. cbn [fst snd]. unfold weight.
  replace (if ss then 0 else Ac 0%Z 0%Z * gsum (fun i j => sin (ang m n i j))) with 0; [field; exact NE|]. destruct (bool_dec ss true) as [S0|S0]; [now rewrite S0|]. apply not_true_is_false in S0. pose proof (one_s (m, n) S0 Q) as E. cbn [fst snd] in E. rewrite E, S0. ring.
Qed.
Lemma coeff_c m n : ss = false -> in_loop mp nt m n = true -> fwd_c qphi qtheta nfp ss mp nt norm U m n = weight m n * Ac m n.
Proof.
  intros S0 P. unfold fwd_c. rewrite P, by_norm_eq. pose proof nrm_ne as NE. pose proof NN_pos as NP. apply loop_In in P as Q. rewrite S0 at 1.
  replace ((m =? 0)%Z && (n =? 0)%Z) with false by (symmetry; unfold in_loop in P; destruct (m =? 0)%Z eqn:E, (n =? 0)%Z eqn:E'; cbn; lia).
  rewrite (gsum_ext _ (fun i j => nrm * factor2 qphi qtheta m n * (core i j * cos (ang m n i j)))) by (intros; rewrite U_core; ring). rewrite gsum_scal, core_sum.
  rewrite (rsuml_map_ext _ (fun q => Ac (fst q) (snd q) * (if mode_dec q (m, n) then NN / 2 else 0))).
  2:{ intros q HQ. pose proof (prod_cc (m, n) q Q HQ) as E1. cbn [fst snd] in E1. rewrite E1, S0. rewrite (gsum_ext _ (fun i j => cos (ang m n i j) * sin (ang (fst q) (snd q) i j))) by (intros; ring).
      pose proof (prod_cs q (m, n) S0 HQ Q) as E2. cbn [fst snd] in E2. rewrite E2. ring. }
  rewrite (single_eq (m, n) (fun q => Ac (fst q) (snd q))) by exact Q. cbn [fst snd]. unfold weight. rewrite S0. pose proof (one_c (m, n) Q) as E. cbn [fst snd] in E. rewrite E. field. exact NE.
Qed.
Lemma coeff_0 : ss = false -> fwd_c qphi qtheta nfp ss mp nt norm U 0 0 = Ac 0%Z 0%Z.
Proof.
  intros S0. unfold fwd_c. rewrite by_norm_eq. pose proof nrm_ne as NE. pose proof NN_pos as NP. rewrite S0 at 1. cbn [Z.eqb andb].
  rewrite (gsum_ext _ (fun i j => nrm * (core i j * 1))) by (intros; rewrite U_core; ring). rewrite gsum_scal, core_sum.
  rewrite (rsuml_map_ext _ (fun _ => 0)).
  2:{ intros q HQ. rewrite S0. rewrite (gsum_ext _ (fun i j => sin (ang (fst q) (snd q) i j))) by (intros; ring). rewrite (gsum_ext (fun i j => cos _ * 1) (fun i j => cos (ang (fst q) (snd q) i j))) by (intros; ring). rewrite (one_s q S0 HQ), (one_c q HQ). ring. }
  rewrite rsuml_map_zero by reflexivity. rewrite S0, gsum_one. field. repeat split; first [exact NE|apply not_0_INR; lia].
Qed.
End Orth.

(** ** The grids of a surface (C44) *)
Section Grids.
Variables (rg : range) (nfp np nth0 : nat).
Hypothesis RG : rg <> ROther.
Hypothesis PN : (0 < nfp)%nat.
Hypothesis PP : (0 < np)%nat.
Hypothesis PT : (0 < nth0)%nat.
Notation qp := (grid_of rg nfp np).
Notation qt := (grid_of FullTorus 1 nth0).
Lemma len_grid r k n : length (grid_of r k n) = n. Proof. unfold grid_of. now rewrite map_length, seq_length. Qed.
(** periods of the field in the toroidal extent of the grid *)
Definition periods : R := match rg with FullTorus => INR nfp | FieldPeriod => 1 | _ => / 2 end.
Lemma ang_eq m n i j : (i < np)%nat -> (j < nth0)%nat ->
  angle qp qt nfp m n i j = 2 * PI * (IZR m / INR nth0) * INR j - 2 * PI * (IZR n * periods / INR np) * (INR i + offset rg).
Proof.
  intros I J. unfold angle. rewrite !grid_nth by assumption. pose proof (lt_0_INR _ PN). pose proof (lt_0_INR _ PP). pose proof (lt_0_INR _ PT). unfold periods, extent, offset. destruct rg; try congruence; cbn [INR]; field; repeat split; lra.
Qed.
Definition cphi (n : Z) := sum_to np (fun i => cos (2 * PI * (IZR n * periods / INR np) * (INR i + offset rg))).
Definition sphi (n : Z) := sum_to np (fun i => sin (2 * PI * (IZR n * periods / INR np) * (INR i + offset rg))).
Definition cth (m : Z) := sum_to nth0 (fun j => cos (2 * PI * (IZR m / INR nth0) * INR j)).
Lemma sum_prod a b f g : sum_to a (fun i => sum_to b (fun j => f i * g j)) = sum_to a f * sum_to b g.
Proof. rewrite (sum_to_ext a _ (fun i => sum_to b g * f i)) by (intros; rewrite (sum_to_scal b (f k) g); ring). rewrite (sum_to_scal a (sum_to b g) f). ring. Qed.
Lemma csum_split m n : grid_sum qp qt (fun i j => cos (angle qp qt nfp m n i j)) = cphi n * cth m.
Proof.
  unfold grid_sum. rewrite !len_grid. transitivity (cphi n * cth m + sphi n * sum_to nth0 (fun j => sin (2 * PI * (IZR m / INR nth0) * INR j))); [|rewrite sin_sum0 by exact PT; ring].
  unfold cphi, sphi, cth. rewrite <- !sum_prod, <- sum_to_plus. apply sum_to_ext. intros i I. rewrite <- sum_to_plus. apply sum_to_ext. intros j J. rewrite ang_eq, cos_minus by assumption. ring.
Qed.
Lemma ssum_split m n : grid_sum qp qt (fun i j => sin (angle qp qt nfp m n i j)) = - (sphi n * cth m).
Proof.
  unfold grid_sum. rewrite !len_grid. transitivity (cphi n * sum_to nth0 (fun j => sin (2 * PI * (IZR m / INR nth0) * INR j)) + -1 * (sphi n * cth m)); [|rewrite sin_sum0 by exact PT; ring].
  unfold cphi, sphi, cth. rewrite <- !sum_prod, <- sum_to_scal, <- sum_to_plus. apply sum_to_ext. intros i I. rewrite <- sum_to_scal, <- sum_to_plus. apply sum_to_ext. intros j J. rewrite ang_eq, sin_minus by assumption. ring.
Qed.
Lemma cth_0 m : (0 < Z.abs m < Z.of_nat nth0)%Z -> cth m = 0.
Proof. intros H. apply cos_sum0; [exact PT|]. intros (q & ->). clear - H. destruct (Z.eq_dec q 0) as [->|]; [lia|]. rewrite Z.abs_mul in H. assert (1 <= Z.abs q)%Z by lia. rewrite (Z.abs_eq (Z.of_nat nth0)) in H by lia. nia. Qed.
(** the toroidal resolution that suffices *)
Definition resolves (nt : Z) : Prop := match rg with FullTorus => (2 * nt * Z.of_nat nfp < Z.of_nat np)%Z | FieldPeriod => (2 * nt < Z.of_nat np)%Z | _ => (nt < Z.of_nat np)%Z end.
Lemma not_div q N : (0 < Z.abs q < Z.of_nat N)%Z -> ~ (Z.of_nat N | q)%Z.
Proof. intros H (k & ->). destruct (Z.eq_dec k 0) as [->|]; [lia|]. rewrite Z.abs_mul in H. assert (1 <= Z.abs k)%Z by lia. rewrite (Z.abs_eq (Z.of_nat N)) in H by lia. nia. Qed.
Lemma cphi_0 nt n : resolves nt -> (0 < Z.abs n <= 2 * nt)%Z -> cphi n = 0.
Proof.
  unfold resolves, cphi, periods, offset. intros HR HN. pose proof (lt_0_INR _ PP). destruct rg; [| | |congruence].
  - rewrite (sum_to_ext np _ (fun i => cos (2 * PI * (IZR (n * Z.of_nat nfp) / INR np) * INR i))) by (intros; f_equal; rewrite mult_IZR, <- INR_IZR_INZ; ring). apply cos_sum0; [exact PP|]. apply not_div. rewrite Z.abs_mul, (Z.abs_eq (Z.of_nat nfp)) by lia. nia.
  - rewrite (sum_to_ext np _ (fun i => cos (2 * PI * (IZR n / INR np) * INR i))) by (intros; f_equal; unfold Rdiv; ring). apply cos_sum0; [exact PP|]. apply not_div. lia.
  - rewrite (sum_to_ext np _ (fun i => cos (PI * (IZR n / INR np) * (INR i + / 2)))) by (intros; f_equal; field; lra). apply cos_sum_half; [exact PP|lia].
Qed.
Lemma sphi_0 n : rg <> HalfPeriod -> sphi n = 0.
Proof.
  unfold sphi, periods, offset. intros HR. pose proof (lt_0_INR _ PP). destruct rg; [| |congruence|congruence].
  - rewrite (sum_to_ext np _ (fun i => sin (2 * PI * (IZR (n * Z.of_nat nfp) / INR np) * INR i))) by (intros; f_equal; rewrite mult_IZR, <- INR_IZR_INZ; ring). now apply sin_sum0.
  - rewrite (sum_to_ext np _ (fun i => sin (2 * PI * (IZR n / INR np) * INR i))) by (intros; f_equal; unfold Rdiv; ring). now apply sin_sum0.
Qed.
Variables (mp nt : Z) (ss : bool).
Hypothesis HM : (2 * mp < Z.of_nat nth0)%Z.
Hypothesis HR : resolves nt.
Hypothesis HSS : rg = HalfPeriod -> ss = true.
Lemma grid_HC m n : (Z.abs m <= 2 * mp)%Z -> (Z.abs n <= 2 * nt)%Z -> (m <> 0 \/ n <> 0)%Z -> grid_sum qp qt (fun i j => cos (angle qp qt nfp m n i j)) = 0.
Proof using RG PN PP PT HM HR. clear HSS. intros A B C. rewrite csum_split. destruct (Z.eq_dec m 0) as [->|]; [rewrite (cphi_0 nt) by (auto; lia); ring|rewrite cth_0 by lia; ring]. Qed.
Lemma grid_HS m n : ss = false -> (Z.abs m <= 2 * mp)%Z -> (Z.abs n <= 2 * nt)%Z -> grid_sum qp qt (fun i j => sin (angle qp qt nfp m n i j)) = 0.
Proof. intros S0 A B. rewrite ssum_split, sphi_0; [ring|]. intros Q. specialize (HSS Q). congruence. Qed.
(** the factor the code applies to Nyquist modes *)
Lemma weight_eq m n : in_loop mp nt m n = true -> weight qp qt m n = if Nat.even np && (2 * Z.abs n =? Z.of_nat np)%Z then / 2 else 1.
Proof using PP PT HM.
  clear - PP PT HM. intros H. unfold in_loop in H. unfold weight, factor2. rewrite !len_grid. pose proof (lt_0_INR _ PP). pose proof (lt_0_INR _ PT). replace (2 * m =? Z.of_nat nth0)%Z with false by (symmetry; apply Z.eqb_neq; lia). rewrite andb_false_r.
  destruct (Nat.even np && (2 * Z.abs n =? Z.of_nat np)%Z); field; split; lra.
Qed.
End Grids.
(** On every grid that resolves the modes, transforming back and forth returns the coefficients.  On half period grids this is so for
    stellarator symmetric series and 2 ntor < nphi *)
Theorem C121_coefficients (rg : range) (nfp np nth0 : nat) (mp nt : Z) (ss : bool) (norm : option R) (As Ac : Z -> Z -> R) : rg <> ROther -> (0 < nfp)%nat -> (0 < np)%nat -> (0 < nth0)%nat -> (forall c, norm = Some c -> c <> 0) ->
  (2 * mp < Z.of_nat nth0)%Z -> match rg with FullTorus => (2 * nt * Z.of_nat nfp < Z.of_nat np)%Z | _ => (2 * nt < Z.of_nat np)%Z end -> (rg = HalfPeriod -> ss = true) ->
  let qp := grid_of rg nfp np in let qt := grid_of FullTorus 1 nth0 in let U := inv qp qt nfp ss mp nt norm As Ac in
  (forall m n, (0 <= m <= mp)%Z -> (- nt <= n <= nt)%Z -> (m = 0 -> 1 <= n)%Z -> fwd_s qp qt nfp mp nt norm U m n = As m n /\ (ss = false -> fwd_c qp qt nfp ss mp nt norm U m n = Ac m n)) /\
  (ss = false -> fwd_c qp qt nfp ss mp nt norm U 0 0 = Ac 0%Z 0%Z) /\ (ss = true -> forall m n, fwd_c qp qt nfp ss mp nt norm U m n = 0).
Proof.
  intros RG PN PP PT HN HM HRR HSS. cbv zeta. set (qp := grid_of rg nfp np). set (qt := grid_of FullTorus 1 nth0).
  assert (LP : (0 < length qp)%nat) by (unfold qp; now rewrite len_grid). assert (LT : (0 < length qt)%nat) by (unfold qt; now rewrite len_grid).
  destruct (Z_lt_dec nt 0) as [NEG|NN0].
  { split; [intros; lia|]. assert (HR : resolves rg nfp np nt) by (unfold resolves; destruct rg; try congruence; lia). split.
    - intros S0. apply coeff_0; try assumption; [intros m n A B C; apply (grid_HC rg nfp np nth0 RG PN PP PT mp nt); assumption|intros S1 m n A B; apply (grid_HS rg nfp np nth0 RG PN PP PT mp nt ss); assumption].
    - intros S0 m n. unfold fwd_c. rewrite S0. unfold by_norm. destruct norm; unfold Rdiv; ring. }
  assert (HR : resolves rg nfp np nt) by (unfold resolves; destruct rg; try congruence; lia).
  assert (C1 : forall m n, (Z.abs m <= 2 * mp)%Z -> (Z.abs n <= 2 * nt)%Z -> (m <> 0 \/ n <> 0)%Z -> grid_sum qp qt (fun i j => cos (angle qp qt nfp m n i j)) = 0) by (intros; apply (grid_HC rg nfp np nth0 RG PN PP PT mp nt); assumption).
  assert (C2 : ss = false -> forall m n, (Z.abs m <= 2 * mp)%Z -> (Z.abs n <= 2 * nt)%Z -> grid_sum qp qt (fun i j => sin (angle qp qt nfp m n i j)) = 0) by (intros; apply (grid_HS rg nfp np nth0 RG PN PP PT mp nt ss); assumption).
  split; [|split].
  - intros m n A B C. assert (IL : in_loop mp nt m n = true) by (unfold in_loop; destruct (m =? 0)%Z eqn:E; lia).
    assert (W : weight qp qt m n = 1). { unfold qp, qt. rewrite (weight_eq rg nfp np nth0 PP PT mp nt HM m n IL). replace (2 * Z.abs n =? Z.of_nat np)%Z with false; [now rewrite andb_false_r|]. symmetry. apply Z.eqb_neq. destruct rg; try congruence; nia. }
    split; [|intros S0]; [rewrite coeff_s by assumption|rewrite coeff_c by assumption]; rewrite W; ring.
  - intros S0. apply coeff_0; assumption.
  - intros S0 m n. unfold fwd_c. rewrite S0. unfold by_norm. destruct norm; unfold Rdiv; ring.
Qed.
(** On a half period grid the modes are resolved up to ntor < nphi, but the code treats |n| = nphi/2 as the Nyquist mode: it comes back halved *)
Theorem C121_half_period_refuted (nfp np nth0 : nat) (mp nt : Z) (As Ac : Z -> Z -> R) : (0 < nfp)%nat -> (0 < np)%nat -> (0 < nth0)%nat -> (2 * mp < Z.of_nat nth0)%Z -> (nt < Z.of_nat np)%Z ->
  let qp := grid_of HalfPeriod nfp np in let qt := grid_of FullTorus 1 nth0 in let U := inv qp qt nfp true mp nt None As Ac in
  forall m n, (0 <= m <= mp)%Z -> (- nt <= n <= nt)%Z -> (m = 0 -> 1 <= n)%Z -> fwd_s qp qt nfp mp nt None U m n = (if (2 * Z.abs n =? Z.of_nat np)%Z then / 2 else 1) * As m n.
Proof.
  intros PN PP PT HM HN. cbv zeta. intros m n A B C. set (qp := grid_of HalfPeriod nfp np). set (qt := grid_of FullTorus 1 nth0). assert (RG : HalfPeriod <> ROther) by discriminate.
  assert (IL : in_loop mp nt m n = true) by (unfold in_loop; destruct (m =? 0)%Z eqn:E; lia). assert (HR : resolves HalfPeriod nfp np nt) by exact HN.
  rewrite coeff_s; try assumption; try discriminate; try (unfold qp, qt; rewrite len_grid; assumption).
  - f_equal. unfold qp, qt. rewrite (weight_eq HalfPeriod nfp np nth0 PP PT mp nt HM m n IL). destruct (2 * Z.abs n =? Z.of_nat np)%Z eqn:E; [|now rewrite andb_false_r]. replace (Nat.even np) with true; [reflexivity|].
    symmetry. apply Nat.even_spec. exists (Z.to_nat (Z.abs n)). lia.
  - intros m' n' A' B' C'. apply (grid_HC HalfPeriod nfp np nth0 RG PN PP PT mp nt); assumption.
Qed.
