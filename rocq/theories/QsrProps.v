(** C118: NonQuasiSymmetricRatio. *)
From Coq Require Import Reals Lra Lia List Bool.
From Verif Require Import VecAux Vec3 BSModel BSDeriv SurfDiffProps CurveDiff CurveDiffProps CurveObjModel CurveObjProps BoozSurf BoozProps BoozThms TensorSym QsrModel.
Import ListNotations.
Open Scope R_scope.

(** ** Fibres: A fibres of K points, m = |B| and d = |n| at point k of fibre a *)
Section Fibre.
Variables (A K : nat) (m d : nat -> nat -> R).
Definition Sall (f : nat -> nat -> R) : R := sum_to A (fun a => sum_to K (fun k => f a k)).
Definition Dd a : R := sum_to K (fun k => d a k).
Definition Nn a : R := sum_to K (fun k => m a k * d a k).
Definition q a : R := Nn a / Dd a.
Lemma Sall_ext f g : (forall a k, (a < A)%nat -> (k < K)%nat -> f a k = g a k) -> Sall f = Sall g.
Proof. intros E. apply sum_to_ext. intros a LA. apply sum_to_ext. intros k LK. auto. Qed.
Lemma Sall_plus f g : Sall (fun a k => f a k + g a k) = Sall f + Sall g.
Proof. unfold Sall. rewrite <- sum_to_plus. apply sum_to_ext. intros a _. apply sum_to_plus. Qed.
Lemma Sall_scal c f : Sall (fun a k => c * f a k) = c * Sall f.
Proof. unfold Sall. rewrite <- sum_to_scal. apply sum_to_ext. intros a _. apply sum_to_scal. Qed.
Hypothesis HD : forall a, (a < A)%nat -> Dd a <> 0.
Lemma fibre_zero a : (a < A)%nat -> sum_to K (fun k => d a k * (m a k - q a)) = 0.
Proof.
  intros LA. rewrite (sum_to_ext K _ (fun k => m a k * d a k + (- q a) * d a k)) by (intros; ring). rewrite sum_to_plus, (sum_to_scal K (- q a) (fun k => d a k)). fold (Nn a). fold (Dd a). unfold q. field. apply HD, LA.
Qed.
(** any function constant on the fibres is orthogonal to m - q *)
Lemma fibre_orth (r : nat -> R) : Sall (fun a k => d a k * (m a k - q a) * r a) = 0.
Proof.
  unfold Sall. apply sum_0. intros a LA. rewrite (sum_to_ext K _ (fun k => r a * (d a k * (m a k - q a)))) by (intros; ring). rewrite sum_to_scal, fibre_zero by exact LA. ring.
Qed.
Lemma pythagoras (r : nat -> R) : Sall (fun a k => d a k * (m a k - r a) ^ 2) = Sall (fun a k => d a k * (m a k - q a) ^ 2) + Sall (fun a k => d a k * (q a - r a) ^ 2).
Proof.
  rewrite (Sall_ext (fun a k => d a k * (m a k - r a) ^ 2) (fun a k => (d a k * (m a k - q a) ^ 2 + d a k * (q a - r a) ^ 2) + 2 * (d a k * (m a k - q a) * (q a - r a)))) by (intros; ring).
  rewrite Sall_plus, Sall_plus, Sall_scal, (fibre_orth (fun a => q a - r a)). ring.
Qed.
(** the derivatives *)
Variables (m' d' : nat -> nat -> R).
Definition q' a : R := (sum_to K (fun k => m' a k * d a k + m a k * d' a k) * Dd a - sum_to K (fun k => d' a k) * Nn a) / (Dd a * Dd a).
Definition num : R := / 2 * Sall (fun a k => d a k * (m a k - q a) ^ 2).
Definition den : R := / 2 * Sall (fun a k => d a k * q a ^ 2).
Definition num' : R := Sall (fun a k => / 2 * d' a k * (m a k - q a) ^ 2 + d a k * (m a k - q a) * (m' a k - q' a)).
Definition den' : R := Sall (fun a k => / 2 * d' a k * q a ^ 2 + d a k * q a * q' a).
Definition alpha a k : R := d a k * (den * (m a k - q a) - num * q a).
Definition beta a k : R := den * (/ 2 * (m a k - q a) ^ 2) - num * (/ 2 * q a ^ 2 + q a * (m a k - q a)).
Lemma num'_eq : num' = Sall (fun a k => / 2 * d' a k * (m a k - q a) ^ 2 + d a k * (m a k - q a) * m' a k).
Proof.
  unfold num'. rewrite (Sall_ext _ (fun a k => (/ 2 * d' a k * (m a k - q a) ^ 2 + d a k * (m a k - q a) * m' a k) + -1 * (d a k * (m a k - q a) * q' a))) by (intros; ring).
  rewrite Sall_plus, Sall_scal, fibre_orth. ring.
Qed.
Lemma den'_eq : den' = Sall (fun a k => / 2 * d' a k * q a ^ 2 + q a * m' a k * d a k + q a * (m a k - q a) * d' a k).
Proof.
  unfold den', Sall. apply sum_to_ext. intros a LA. rewrite sum_to_plus.
  rewrite (sum_to_ext K (fun k => / 2 * d' a k * q a ^ 2 + q a * m' a k * d a k + q a * (m a k - q a) * d' a k) (fun k => / 2 * d' a k * q a ^ 2 + (q a * (m' a k * d a k + m a k * d' a k) + (- q a * q a) * d' a k))) by (intros; ring).
  rewrite sum_to_plus. f_equal. rewrite sum_to_plus, (sum_to_scal K (q a) (fun k => m' a k * d a k + m a k * d' a k)), (sum_to_scal K (- q a * q a) (fun k => d' a k)). rewrite (sum_to_ext K (fun k => d a k * q a * q' a) (fun k => (q a * q' a) * d a k)) by (intros; ring). rewrite (sum_to_scal K (q a * q' a) (fun k => d a k)). fold (Dd a).
  unfold q'. set (S1 := sum_to K (fun k => m' a k * d a k + m a k * d' a k)). set (S2 := sum_to K (fun k => d' a k)).
  replace (Nn a) with (q a * Dd a) by (unfold q; field; apply HD, LA). field. apply HD, LA.
Qed.
Lemma lam : den * num' - num * den' = Sall (fun a k => alpha a k * m' a k + beta a k * d' a k).
Proof.
  rewrite num'_eq, den'_eq. unfold Rminus. rewrite Ropp_mult_distr_l, <- !Sall_scal, <- Sall_plus. apply Sall_ext. intros a k _ _. unfold alpha, beta. ring.
Qed.
End Fibre.

(** ** The model on fibres *)
Section Model.
Variables (nphi ntheta : nat) (qp : bool).
Hypothesis P1 : (0 < nphi)%nat. Hypothesis P2 : (0 < ntheta)%nat.
Definition fA := if qp then nphi else ntheta.
Definition fK := if qp then ntheta else nphi.
Definition fi (a k : nat) := if qp then a else k.
Definition fj (a k : nat) := if qp then k else a.
Definition fib (f : nat -> nat -> R) a k := f (fi a k) (fj a k).
Lemma fi_lt a k : (a < fA)%nat -> (k < fK)%nat -> (fi a k < nphi)%nat /\ (fj a k < ntheta)%nat.
Proof. unfold fA, fK, fi, fj. destruct qp; auto. Qed.
Lemma fib_all f : sum_to nphi (fun i => sum_to ntheta (fun j => f i j)) = Sall fA fK (fib f).
Proof. unfold Sall, fA, fK, fib, fi, fj. destruct qp; [reflexivity|]. apply sum_to_swap. Qed.
Lemma fib_mean f a : mean_axis nphi ntheta qp f a = sum_to fK (fun k => fib f a k) / INR fK.
Proof. unfold mean_axis, fK, fib, fi, fj. now destruct qp. Qed.
Lemma fib_bcast r a k : bcast qp r (fi a k) (fj a k) = r a.
Proof. unfold bcast, fi, fj. now destruct qp. Qed.
Lemma K_ne0 : INR fK <> 0. Proof. apply not_0_INR. unfold fK. destruct qp; lia. Qed.
Lemma N_pos : 0 < INR (nphi * ntheta). Proof. apply lt_0_INR. apply Nat.mul_pos_pos; assumption. Qed.
Section Fixed.
Variables (B nor : nat -> nat -> vec3).
Notation M := (fib (modB B)). Notation S := (fib (dSn nor)).
Lemma BQS_fib a : BQS nphi ntheta qp B nor a = q fK M S a.
Proof.
  unfold BQS. rewrite !fib_mean. unfold q, Nn. fold (Dd fK S a). rewrite (sum_to_ext fK (fun k => fib (fun i j => modB B i j * dSn nor i j) a k) (fun k => M a k * S a k)) by reflexivity.
  pose proof K_ne0. destruct (Req_dec (Dd fK S a) 0) as [E|NE]; [|field; auto]. rewrite E. unfold Rdiv. rewrite Rmult_0_l, Rinv_0. ring.
Qed.
Lemma BnonQS_fib a k : BnonQS nphi ntheta qp B nor (fi a k) (fj a k) = M a k - q fK M S a.
Proof. unfold BnonQS. rewrite fib_bcast, BQS_fib. reflexivity. Qed.
Lemma num_fib : mean_all nphi ntheta (fun i j => dSn nor i j * BnonQS nphi ntheta qp B nor i j ^ 2) = Sall fA fK (fun a k => S a k * (M a k - q fK M S a) ^ 2) / INR (nphi * ntheta).
Proof. unfold mean_all. rewrite fib_all. f_equal. apply Sall_ext. intros a k LA _. unfold fib at 1. rewrite BnonQS_fib. reflexivity. Qed.
Lemma den_fib : mean_all nphi ntheta (fun i j => dSn nor i j * bcast qp (BQS nphi ntheta qp B nor) i j ^ 2) = Sall fA fK (fun a k => S a k * q fK M S a ^ 2) / INR (nphi * ntheta).
Proof. unfold mean_all. rewrite fib_all. f_equal. apply Sall_ext. intros a k LA _. unfold fib at 1. rewrite fib_bcast, BQS_fib. reflexivity. Qed.
Lemma J_fib : qsr_J nphi ntheta qp B nor = Sall fA fK (fun a k => S a k * (M a k - q fK M S a) ^ 2) / Sall fA fK (fun a k => S a k * q fK M S a ^ 2).
Proof.
  unfold qsr_J. rewrite num_fib, den_fib. pose proof N_pos. set (x := Sall _ _ _). set (y := Sall _ _ _). destruct (Req_dec y 0) as [E|NE]; [|field; split; lra].
  rewrite E. unfold Rdiv. rewrite Rmult_0_l, Rinv_0. ring.
Qed.
Hypothesis HS : forall i j, (i < nphi)%nat -> (j < ntheta)%nat -> 0 < dSn nor i j.
Lemma S_pos a k : (a < fA)%nat -> (k < fK)%nat -> 0 < S a k.
Proof. intros LA LK. destruct (fi_lt a k LA LK). apply HS; assumption. Qed.
Lemma Dd_pos a : (a < fA)%nat -> 0 < Dd fK S a.
Proof.
  intros LA. unfold Dd. assert (LK : (0 < fK)%nat) by (unfold fK; destruct qp; assumption). destruct fK as [|k] eqn:E; [lia|]. rewrite sum_to_S'. apply Rplus_le_lt_0_compat; [apply sum_to_ge0; intros k0 L; left; apply S_pos; [exact LA|rewrite E; lia]|apply S_pos; [exact LA|rewrite E; lia]].
Qed.
Lemma Dd_ne a : (a < fA)%nat -> Dd fK S a <> 0. Proof. intros LA. apply Rgt_not_eq, Dd_pos, LA. Qed.
Hypothesis HB : forall i j, (i < nphi)%nat -> (j < ntheta)%nat -> 0 < modB B i j.
Lemma M_pos a k : (a < fA)%nat -> (k < fK)%nat -> 0 < M a k.
Proof. intros LA LK. destruct (fi_lt a k LA LK). apply HB; assumption. Qed.
Lemma q_pos a : (a < fA)%nat -> 0 < q fK M S a.
Proof.
  intros LA. unfold q. apply Rdiv_lt_0_compat; [|apply Dd_pos, LA]. unfold Nn. assert (LK : (0 < fK)%nat) by (unfold fK; destruct qp; assumption). destruct fK as [|k] eqn:E; [lia|]. rewrite sum_to_S'.
  apply Rplus_le_lt_0_compat; [apply sum_to_ge0; intros k0 L; left|]; (apply Rmult_lt_0_compat; [apply M_pos|apply S_pos]; try exact LA; rewrite E; lia).
Qed.
Lemma Sall_nonneg f : (forall a k, (a < fA)%nat -> (k < fK)%nat -> 0 <= f a k) -> 0 <= Sall fA fK f.
Proof. intros H. apply sum_to_ge0. intros a LA. apply sum_to_ge0. intros k LK. auto. Qed.
Lemma Sall_pos f : (forall a k, (a < fA)%nat -> (k < fK)%nat -> 0 < f a k) -> 0 < Sall fA fK f.
Proof.
  intros H. assert (GE : 0 <= Sall fA fK f) by (apply Sall_nonneg; intros; left; auto). destruct GE as [G|E]; [exact G|exfalso]. symmetry in E. unfold Sall in E.
  assert (LA : (0 < fA)%nat) by (unfold fA; destruct qp; assumption). assert (LK : (0 < fK)%nat) by (unfold fK; destruct qp; assumption).
  rewrite sum_to_zero in E by (intros a L; apply sum_to_ge0; intros; left; auto). specialize (E 0%nat LA). rewrite sum_to_zero in E by (intros; left; auto). specialize (E 0%nat LK). specialize (H 0%nat 0%nat LA LK). lra.
Qed.
Lemma den_pos : 0 < Sall fA fK (fun a k => S a k * q fK M S a ^ 2).
Proof. apply Sall_pos. intros a k LA LK. apply Rmult_lt_0_compat; [apply S_pos; assumption|apply pow_lt, q_pos, LA]. Qed.
Lemma fib_out a k f : fib f a k = f (fi a k) (fj a k). Proof. reflexivity. Qed.
Lemma at_fib i j : (i < nphi)%nat -> (j < ntheta)%nat -> exists a k, (a < fA)%nat /\ (k < fK)%nat /\ i = fi a k /\ j = fj a k.
Proof. intros I J. unfold fA, fK, fi, fj. destruct qp; [exists i, j|exists j, i]; auto. Qed.
(** J >= 0, and J = 0 exactly if |B| is constant along the averaged angle *)
Theorem C118_nonneg_zero : 0 <= qsr_J nphi ntheta qp B nor /\
  (qsr_J nphi ntheta qp B nor = 0 <-> exists r : nat -> R, forall i j, (i < nphi)%nat -> (j < ntheta)%nat -> modB B i j = if qp then r i else r j).
Proof.
  rewrite J_fib. pose proof den_pos as DP. set (dn := Sall fA fK (fun a k => S a k * q fK M S a ^ 2)) in *. clearbody dn.
  assert (NP : 0 <= Sall fA fK (fun a k => S a k * (M a k - q fK M S a) ^ 2)) by (apply Sall_nonneg; intros a k LA LK; apply Rmult_le_pos; [left; apply S_pos; assumption|apply pow2_ge_0]).
  split; [apply Rmult_le_pos; [exact NP|left; apply Rinv_0_lt_compat, DP]|]. split.
  - intros E. assert (Z : Sall fA fK (fun a k => S a k * (M a k - q fK M S a) ^ 2) = 0) by (apply (Rmult_eq_reg_r (/ dn)); [rewrite Rmult_0_l; exact E|apply Rinv_neq_0_compat; lra]).
    exists (q fK M S). intros i j I J. destruct (at_fib i j I J) as (a & k & LA & LK & -> & ->).
    replace (if qp then q fK M S (fi a k) else q fK M S (fj a k)) with (q fK M S a) by (unfold fi, fj; now destruct qp).
    unfold Sall in Z. rewrite sum_to_zero in Z by (intros a0 L0; apply sum_to_ge0; intros k0 LK0; apply Rmult_le_pos; [left; apply S_pos; assumption|apply pow2_ge_0]).
    specialize (Z a LA). rewrite sum_to_zero in Z by (intros k0 LK0; apply Rmult_le_pos; [left; apply S_pos; assumption|apply pow2_ge_0]). specialize (Z k LK). cbv beta in Z.
    pose proof (S_pos a k LA LK). apply Rmult_integral in Z. destruct Z as [Z|Z]; [lra|]. change (M a k - q fK M S a) with (modB B (fi a k) (fj a k) - q fK M S a) in Z. apply Rminus_diag_uniq. now apply Rsqr_0_uniq; rewrite Rsqr_pow2.
  - intros (r & H). replace (Sall fA fK (fun a k => S a k * (M a k - q fK M S a) ^ 2)) with 0; [unfold Rdiv; ring|]. symmetry.
    assert (MR : forall a k, (a < fA)%nat -> (k < fK)%nat -> M a k = r a).
    { intros a k LA LK. destruct (fi_lt a k LA LK) as [I J]. rewrite fib_out, (H _ _ I J). unfold fi, fj. now destruct qp. }
    unfold Sall. apply sum_0. intros a LA. apply sum_0. intros k LK. rewrite (MR a k LA LK). replace (q fK M S a) with (r a); [ring|]. unfold q, Nn.
    rewrite (sum_to_ext fK _ (fun k => r a * S a k)) by (intros k0 L0; rewrite (MR a k0 LA L0); reflexivity). rewrite (sum_to_scal fK (r a) (fun k => S a k)). fold (Dd fK S a). field. apply Dd_ne, LA.
Qed.
(** B_QS is the best approximation of |B| by a function of the other angle, and J the relative error *)
Theorem C118_best_approximation (r : nat -> R) :
  qsr_J nphi ntheta qp B nor * mean_all nphi ntheta (fun i j => dSn nor i j * bcast qp (BQS nphi ntheta qp B nor) i j ^ 2) <= mean_all nphi ntheta (fun i j => dSn nor i j * (modB B i j - bcast qp r i j) ^ 2) /\
  mean_all nphi ntheta (fun i j => dSn nor i j * modB B i j ^ 2) = (1 + qsr_J nphi ntheta qp B nor) * mean_all nphi ntheta (fun i j => dSn nor i j * bcast qp (BQS nphi ntheta qp B nor) i j ^ 2).
Proof.
  pose proof den_pos as DP. pose proof N_pos as NP. rewrite J_fib, den_fib. unfold mean_all. rewrite !fib_all.
  rewrite (Sall_ext fA fK (fib (fun i j => dSn nor i j * (modB B i j - bcast qp r i j) ^ 2)) (fun a k => S a k * (M a k - r a) ^ 2)) by (intros a k _ _; unfold fib at 1; rewrite fib_bcast; reflexivity).
  rewrite (Sall_ext fA fK (fib (fun i j => dSn nor i j * modB B i j ^ 2)) (fun a k => S a k * (M a k - 0) ^ 2)) by (intros a k _ _; unfold fib; ring).
  rewrite (pythagoras fA fK M S Dd_ne r), (pythagoras fA fK M S Dd_ne (fun _ => 0)).
  rewrite (Sall_ext fA fK (fun a k => S a k * (q fK M S a - 0) ^ 2) (fun a k => S a k * q fK M S a ^ 2)) by (intros; ring).
  assert (PP : 0 <= Sall fA fK (fun a k => S a k * (q fK M S a - r a) ^ 2)) by (apply Sall_nonneg; intros a k LA LK; apply Rmult_le_pos; [left; apply S_pos; assumption|apply pow2_ge_0]).
  set (x := Sall fA fK (fun a k => S a k * (M a k - q fK M S a) ^ 2)). set (y := Sall fA fK (fun a k => S a k * q fK M S a ^ 2)) in *. set (z := Sall _ _ _) in *. clearbody x y z. split.
  - replace (x / y * (y / INR (nphi * ntheta))) with (x / INR (nphi * ntheta)) by (field; split; lra). unfold Rdiv. apply Rmult_le_compat_r; [left; apply Rinv_0_lt_compat, NP|lra].
  - field. split; lra.
Qed.
End Fixed.
End Model.
