(** C118: invariance and gradients of NonQuasiSymmetricRatio. *)
From Coq Require Import Reals Lra Lia List Bool.
From Verif Require Import VecAux Vec3 BSModel BSDeriv SurfDiffProps CurveDiff CurveDiffProps CurveObjModel CurveObjProps BoozSurf BoozProps BoozThms TensorSym AdjLin AdjModel AdjProps AdjThms QsrModel QsrProps.
Import ListNotations.
Open Scope R_scope.

Lemma modB_norm B i j : modB B i j = norm3 (B i j).
Proof. unfold modB, norm3, dot3. f_equal. ring. Qed.
Lemma dSn_norm nor i j : dSn nor i j = norm3 (nor i j).
Proof. unfold dSn, norm3, dot3. f_equal. ring. Qed.
Lemma norm_scal c u : norm3 (scal3 c u) = Rabs c * norm3 u.
Proof. unfold norm3. replace (dot3 (scal3 c u) (scal3 c u)) with (Rsqr c * dot3 u u) by (unfold Rsqr; vu; ring). rewrite sqrt_mult; [|apply Rle_0_sqr|vu; nra]. now rewrite sqrt_Rsqr_abs. Qed.
(** J does not change if the field (all currents) or the surface's normals (its size) are multiplied by a factor *)
Theorem C118_scale_invariant (nphi ntheta : nat) (qp : bool) (B nor : nat -> nat -> vec3) (l k : R) : (0 < nphi)%nat -> (0 < ntheta)%nat -> l <> 0 -> k <> 0 ->
  qsr_J nphi ntheta qp (fun i j => scal3 l (B i j)) (fun i j => scal3 k (nor i j)) = qsr_J nphi ntheta qp B nor.
Proof.
  intros P1 P2 NL NK. rewrite !J_fib by assumption. set (A := fA nphi ntheta qp). set (K := fK nphi ntheta qp).
  assert (AL : 0 < Rabs l) by (apply Rabs_pos_lt, NL). assert (AK : 0 < Rabs k) by (apply Rabs_pos_lt, NK). set (M := fib qp (modB B)). set (S0 := fib qp (dSn nor)).
  assert (EM : forall a c, fib qp (modB (fun i j => scal3 l (B i j))) a c = Rabs l * M a c) by (intros; unfold M, fib; rewrite !modB_norm, norm_scal; reflexivity).
  assert (ES : forall a c, fib qp (dSn (fun i j => scal3 k (nor i j))) a c = Rabs k * S0 a c) by (intros; unfold S0, fib; rewrite !dSn_norm, norm_scal; reflexivity).
  assert (EQ : forall a, q K (fib qp (modB (fun i j => scal3 l (B i j)))) (fib qp (dSn (fun i j => scal3 k (nor i j)))) a = Rabs l * q K M S0 a).
  { intros a. unfold q, Nn, Dd. rewrite (sum_to_ext K _ (fun c => Rabs l * Rabs k * (M a c * S0 a c))) by (intros; rewrite EM, ES; ring). rewrite sum_to_scal.
    rewrite (sum_to_ext K (fun c => fib qp (dSn (fun i j => scal3 k (nor i j))) a c) (fun c => Rabs k * S0 a c)) by (intros; rewrite ES; ring). rewrite (sum_to_scal K (Rabs k) (fun c => S0 a c)). set (x := sum_to K (fun c => S0 a c)).
    destruct (Req_dec x 0) as [E|NE]; [rewrite E, Rmult_0_r; unfold Rdiv; rewrite Rinv_0; ring|field; split; [exact NE|lra]]. }
  rewrite (Sall_ext A K _ (fun a c => (Rabs k * Rabs l ^ 2) * (S0 a c * (M a c - q K M S0 a) ^ 2))) by (intros; rewrite EM, ES, EQ; ring).
  rewrite (Sall_ext A K (fun a c => fib qp (dSn (fun i j => scal3 k (nor i j))) a c * q K (fib qp (modB (fun i j => scal3 l (B i j)))) (fib qp (dSn (fun i j => scal3 k (nor i j)))) a ^ 2) (fun a c => (Rabs k * Rabs l ^ 2) * (S0 a c * q K M S0 a ^ 2))) by (intros; rewrite ES, EQ; ring).
  rewrite !Sall_scal. set (x := Sall _ _ _). set (y := Sall _ _ _). assert (0 < Rabs k * Rabs l ^ 2) by (apply Rmult_lt_0_compat; [exact AK|apply pow_lt, AL]).
  destruct (Req_dec y 0) as [E|NE]; [rewrite E, Rmult_0_r; unfold Rdiv; rewrite Rinv_0; ring|field; split; [exact NE|split; lra]].
Qed.

(** ** Gradients: the field values and the normals move; dB m, dnor m: what the m-th coefficient contributes; c: the direct change of the
    field with the coils *)
Section Grad.
Variables (nphi ntheta : nat) (qp : bool) (P1 : (0 < nphi)%nat) (P2 : (0 < ntheta)%nat).
Variables (b nor : R -> nat -> nat -> vec3) (t : R) (n0 : nat) (v : nat -> R) (dB dnor : nat -> nat -> nat -> vec3) (c : nat -> nat -> vec3).
Notation rng i j := ((i < nphi)%nat -> (j < ntheta)%nat).
Hypothesis Hb : forall i j, (i < nphi)%nat -> (j < ntheta)%nat -> D3 (fun s => b s i j) t (add3 (sumv n0 (fun m => scal3 (v m) (dB m i j))) (c i j)).
Hypothesis Hn : forall i j, (i < nphi)%nat -> (j < ntheta)%nat -> D3 (fun s => nor s i j) t (sumv n0 (fun m => scal3 (v m) (dnor m i j))).
Hypothesis Pb : forall i j, (i < nphi)%nat -> (j < ntheta)%nat -> b t i j <> v0.
Hypothesis Pn : forall i j, (i < nphi)%nat -> (j < ntheta)%nat -> nor t i j <> v0.
Notation A := (fA nphi ntheta qp). Notation K := (fK nphi ntheta qp).
Notation M s := (fib qp (modB (b s))). Notation S0 s := (fib qp (dSn (nor s))).
Notation q0 := (q K (M t) (S0 t)).
Lemma HSt i j : (i < nphi)%nat -> (j < ntheta)%nat -> 0 < dSn (nor t) i j. Proof. intros. rewrite dSn_norm. apply norm_pos. auto. Qed.
Lemma HBt i j : (i < nphi)%nat -> (j < ntheta)%nat -> 0 < modB (b t) i j. Proof. intros. rewrite modB_norm. apply norm_pos. auto. Qed.
Definition mt a k : R := let i := fi qp a k in let j := fj qp a k in sum_to n0 (fun m => v m * dmodB_dc (b t) (dB m) i j) + dot3 (b t i j) (c i j) / modB (b t) i j.
Definition dt a k : R := sum_to n0 (fun m => v m * dS_dc (nor t) (dnor m) (fi qp a k) (fj qp a k)).
Lemma M_D a k : (a < A)%nat -> (k < K)%nat -> D (fun s => M s a k) t (mt a k).
Proof.
  intros LA LK. destruct (fi_lt nphi ntheta qp a k LA LK) as [LI LJ]. unfold fib. eapply D_ext; [intros s; symmetry; apply modB_norm|]. pose proof (HBt _ _ LI LJ) as PB. eapply D_val; [|apply CurveDiffProps.D_norm; [apply Hb; assumption|apply Pb; assumption]].
  unfold mt. cbv zeta. rewrite modB_norm in PB. rewrite modB_norm, dot_add_r, dot_sumv. unfold Rdiv. rewrite Rmult_plus_distr_r, sum_mulr. f_equal. apply sum_to_ext. intros m _. unfold dmodB_dc, dot3. rewrite modB_norm. unfold Rdiv. ring.
Qed.
Lemma S_D a k : (a < A)%nat -> (k < K)%nat -> D (fun s => S0 s a k) t (dt a k).
Proof.
  intros LA LK. destruct (fi_lt nphi ntheta qp a k LA LK) as [LI LJ]. unfold fib. eapply D_ext; [intros s; symmetry; apply dSn_norm|]. eapply D_val; [|apply CurveDiffProps.D_norm; [apply Hn; assumption|apply Pn; assumption]].
  unfold dt. rewrite dot_sumv. unfold Rdiv. rewrite sum_mulr. apply sum_to_ext. intros m _. unfold dS_dc, dot3. rewrite dSn_norm. unfold Rdiv. ring.
Qed.
Lemma q_D a : (a < A)%nat -> D (fun s => q K (M s) (S0 s) a) t (q' K (M t) (S0 t) mt dt a).
Proof.
  intros LA. unfold q. eapply D_val; [|apply D_div; [| |apply (Dd_ne nphi ntheta qp P1 P2 (b t) (nor t) HSt a LA)]].
  2:{ unfold Nn. apply (sum_to_D K (fun k s => M s a k * S0 s a k) (fun k => mt a k * S0 t a k + M t a k * dt a k)). intros k LK. eapply D_val; [|apply D_mul; [apply M_D|apply S_D]; assumption]. cbv beta. ring. }
  2:{ unfold Dd. apply (sum_to_D K (fun k s => S0 s a k) (fun k => dt a k)). intros k LK. apply S_D; assumption. }
  cbv beta. unfold q'. reflexivity.
Qed.
Lemma Sall_D f f' : (forall a k, (a < A)%nat -> (k < K)%nat -> D (fun s => f s a k) t (f' a k)) -> D (fun s => Sall A K (f s)) t (Sall A K f').
Proof. intros H. unfold Sall. apply (sum_to_D A (fun a s => sum_to K (fun k => f s a k))). intros a LA. apply (sum_to_D K (fun k s => f s a k)). intros k LK. auto. Qed.
Notation nm := (num A K (M t) (S0 t)). Notation dn := (den A K (M t) (S0 t)).
Lemma dn_pos : 0 < dn. Proof. unfold den. pose proof (den_pos nphi ntheta qp P1 P2 (b t) (nor t) HSt HBt). lra. Qed.
Lemma J_D : D (fun s => qsr_J nphi ntheta qp (b s) (nor s)) t ((dn * num' A K (M t) (S0 t) mt dt - nm * den' A K (M t) (S0 t) mt dt) / dn ^ 2).
Proof.
  eapply D_ext; [intros s; symmetry; apply J_fib; assumption|]. pose proof dn_pos as DP. eapply D_val; [|apply D_div].
  2:{ apply (Sall_D (fun s a k => S0 s a k * (M s a k - q K (M s) (S0 s) a) ^ 2) (fun a k => dt a k * (M t a k - q0 a) ^ 2 + S0 t a k * (2 * (M t a k - q0 a) * (mt a k - q' K (M t) (S0 t) mt dt a)))). intros a k LA LK.
      pose proof (D_sub _ _ _ _ _ (M_D a k LA LK) (q_D a LA)) as E1. apply (D_ext (fun s => S0 s a k * ((M s a k - q K (M s) (S0 s) a) * (M s a k - q K (M s) (S0 s) a)))); [intros s; ring|].
      eapply D_val; [|apply (D_mul _ _ _ _ _ (S_D a k LA LK) (D_mul _ _ _ _ _ E1 E1))]. cbv beta. ring. }
  2:{ apply (Sall_D (fun s a k => S0 s a k * q K (M s) (S0 s) a ^ 2) (fun a k => dt a k * q0 a ^ 2 + S0 t a k * (2 * q0 a * q' K (M t) (S0 t) mt dt a))). intros a k LA LK.
      pose proof (q_D a LA) as E1. apply (D_ext (fun s => S0 s a k * (q K (M s) (S0 s) a * q K (M s) (S0 s) a))); [intros s; ring|].
      eapply D_val; [|apply (D_mul _ _ _ _ _ (S_D a k LA LK) (D_mul _ _ _ _ _ E1 E1))]. cbv beta. ring. }
  2:{ unfold den in DP. lra. }
  cbv beta. rewrite (Sall_ext A K (fun a k => dt a k * (M t a k - q0 a) ^ 2 + S0 t a k * (2 * (M t a k - q0 a) * (mt a k - q' K (M t) (S0 t) mt dt a))) (fun a k => 2 * (/ 2 * dt a k * (M t a k - q0 a) ^ 2 + S0 t a k * (M t a k - q0 a) * (mt a k - q' K (M t) (S0 t) mt dt a)))) by (intros; field).
  rewrite (Sall_ext A K (fun a k => dt a k * q0 a ^ 2 + S0 t a k * (2 * q0 a * q' K (M t) (S0 t) mt dt a)) (fun a k => 2 * (/ 2 * dt a k * q0 a ^ 2 + S0 t a k * q0 a * q' K (M t) (S0 t) mt dt a))) by (intros; field).
  rewrite !Sall_scal. fold (num' A K (M t) (S0 t) mt dt). fold (den' A K (M t) (S0 t) mt dt). unfold num, den in *. set (x := Sall A K (fun a k => S0 t a k * (M t a k - q0 a) ^ 2)). set (y := Sall A K (fun a k => S0 t a k * q0 a ^ 2)) in *. field. lra.
Qed.
(** the code's derivative for one coefficient is the same functional *)
Lemma dc_fib m : qsr_dc nphi ntheta qp (b t) (nor t) (dB m) (dnor m) =
  Sall A K (fun a k => alpha A K (M t) (S0 t) a k * fib qp (dmodB_dc (b t) (dB m)) a k + beta A K (M t) (S0 t) a k * fib qp (dS_dc (nor t) (dnor m)) a k) / dn ^ 2.
Proof.
  pose proof dn_pos as DP. pose proof (N_pos nphi ntheta P1 P2) as NP. rewrite <- lam by (intros a LA; apply (Dd_ne nphi ntheta qp P1 P2 (b t) (nor t) HSt a LA)).
  unfold qsr_dc, qsr_den, qsr_num. rewrite num_fib, den_fib by assumption. cbv zeta. unfold mean_all. rewrite !(fib_all nphi ntheta qp).
  assert (EQ : forall a, (a < A)%nat -> BQS_dc nphi ntheta qp (b t) (nor t) (dB m) (dnor m) a = q' K (M t) (S0 t) (fib qp (dmodB_dc (b t) (dB m))) (fib qp (dS_dc (nor t) (dnor m))) a).
  { intros a LA. unfold BQS_dc. cbv zeta. rewrite !fib_mean. unfold q', Nn. fold (Dd K (S0 t) a). pose proof (Dd_ne nphi ntheta qp P1 P2 (b t) (nor t) HSt a LA) as NE. pose proof (K_ne0 nphi ntheta qp P1 P2) as KN.
    set (s1 := sum_to K (fun k => fib qp (fun i j => dmodB_dc (b t) (dB m) i j * dSn (nor t) i j + modB (b t) i j * dS_dc (nor t) (dnor m) i j) a k)).
    set (s2 := sum_to K (fun k => fib qp (fun i j => modB (b t) i j * dSn (nor t) i j) a k)). set (s3 := sum_to K (fun k => fib qp (dS_dc (nor t) (dnor m)) a k)).
    change (sum_to K (fun k => fib qp (dmodB_dc (b t) (dB m)) a k * S0 t a k + M t a k * fib qp (dS_dc (nor t) (dnor m)) a k)) with s1. change (sum_to K (fun k => M t a k * S0 t a k)) with s2. field. auto. }
  rewrite (Sall_ext A K (fib qp (fun i j => 5 / 10 * dS_dc (nor t) (dnor m) i j * BnonQS nphi ntheta qp (b t) (nor t) i j ^ 2 + dSn (nor t) i j * BnonQS nphi ntheta qp (b t) (nor t) i j * BnonQS_dc nphi ntheta qp (b t) (nor t) (dB m) (dnor m) i j))
    (fun a k => / 2 * fib qp (dS_dc (nor t) (dnor m)) a k * (M t a k - q0 a) ^ 2 + S0 t a k * (M t a k - q0 a) * (fib qp (dmodB_dc (b t) (dB m)) a k - q' K (M t) (S0 t) (fib qp (dmodB_dc (b t) (dB m))) (fib qp (dS_dc (nor t) (dnor m))) a))).
  2:{ intros a k LA LK. unfold fib at 1. unfold BnonQS_dc. rewrite fib_bcast, EQ, BnonQS_fib by assumption. unfold fib. field. }
  rewrite (Sall_ext A K (fib qp (fun i j => 5 / 10 * dS_dc (nor t) (dnor m) i j * bcast qp (BQS nphi ntheta qp (b t) (nor t)) i j ^ 2 + dSn (nor t) i j * bcast qp (BQS nphi ntheta qp (b t) (nor t)) i j * bcast qp (BQS_dc nphi ntheta qp (b t) (nor t) (dB m) (dnor m)) i j))
    (fun a k => / 2 * fib qp (dS_dc (nor t) (dnor m)) a k * q0 a ^ 2 + S0 t a k * q0 a * q' K (M t) (S0 t) (fib qp (dmodB_dc (b t) (dB m))) (fib qp (dS_dc (nor t) (dnor m))) a)).
  2:{ intros a k LA LK. unfold fib at 1. rewrite !fib_bcast, EQ, BQS_fib by assumption. unfold fib. field. }
  fold (num' A K (M t) (S0 t) (fib qp (dmodB_dc (b t) (dB m))) (fib qp (dS_dc (nor t) (dnor m)))). fold (den' A K (M t) (S0 t) (fib qp (dmodB_dc (b t) (dB m))) (fib qp (dS_dc (nor t) (dnor m)))).
  unfold num, den in *. set (x := Sall A K (fun a k => S0 t a k * (M t a k - q0 a) ^ 2)). set (y := Sall A K (fun a k => S0 t a k * q0 a ^ 2)) in *. field. split; lra.
Qed.
(** and dJ_by_dB, which leaves out the derivative of B_QS, pairs to the same functional *)
Lemma dB_fib : sum_to nphi (fun i => sum_to ntheta (fun j => dot3 (qsr_dB nphi ntheta qp (b t) (nor t) i j) (c i j))) =
  Sall A K (fun a k => alpha A K (M t) (S0 t) a k * (dot3 (b t (fi qp a k) (fj qp a k)) (c (fi qp a k) (fj qp a k)) / modB (b t) (fi qp a k) (fj qp a k))) / dn ^ 2.
Proof.
  pose proof dn_pos as DP. pose proof (N_pos nphi ntheta P1 P2) as NP. rewrite (fib_all nphi ntheta qp (fun i j => dot3 (qsr_dB nphi ntheta qp (b t) (nor t) i j) (c i j))). match goal with |- _ = ?u / ?d => replace (u / d) with (/ d * u) by (unfold Rdiv; ring) end. rewrite <- Sall_scal. apply Sall_ext. intros a k LA LK.
  destruct (fi_lt nphi ntheta qp a k LA LK) as [LI LJ]. pose proof (HBt _ _ LI LJ) as PB. unfold fib at 1. unfold qsr_dB. cbv zeta. unfold qsr_den, qsr_num. rewrite num_fib, den_fib by assumption. rewrite fib_bcast, BQS_fib, BnonQS_fib by assumption.
  unfold alpha, num, den in *. set (x := Sall A K (fun a k => S0 t a k * (M t a k - q0 a) ^ 2)). set (y := Sall A K (fun a k => S0 t a k * q0 a ^ 2)) in *.
  change (M t a k) with (modB (b t) (fi qp a k) (fj qp a k)). change (S0 t a k) with (dSn (nor t) (fi qp a k) (fj qp a k)).
  set (mb := modB (b t) (fi qp a k) (fj qp a k)) in *. set (ds := dSn (nor t) (fi qp a k) (fj qp a k)). set (qa := q0 a). set (u := b t (fi qp a k) (fj qp a k)). set (w := c (fi qp a k) (fj qp a k)). clearbody mb ds qa u w x y.
  unfold dot3. cbn [vx vy vz scal3 sub3]. field. repeat split; lra.
Qed.
(** the two methods together are the derivative of J for every motion of surface and field *)
Theorem C118_gradient : D (fun s => qsr_J nphi ntheta qp (b s) (nor s)) t
  (sum_to n0 (fun m => v m * qsr_dc nphi ntheta qp (b t) (nor t) (dB m) (dnor m)) + sum_to nphi (fun i => sum_to ntheta (fun j => dot3 (qsr_dB nphi ntheta qp (b t) (nor t) i j) (c i j)))).
Proof.
  eapply D_val; [|exact J_D]. pose proof dn_pos as DP. rewrite lam by (intros a LA; apply (Dd_ne nphi ntheta qp P1 P2 (b t) (nor t) HSt a LA)). rewrite dB_fib.
  rewrite (sum_to_ext n0 _ (fun m => / dn ^ 2 * (v m * Sall A K (fun a k => alpha A K (M t) (S0 t) a k * fib qp (dmodB_dc (b t) (dB m)) a k + beta A K (M t) (S0 t) a k * fib qp (dS_dc (nor t) (dnor m)) a k)))) by (intros m _; rewrite dc_fib; unfold Rdiv; ring).
  rewrite sum_to_scal. unfold Sall at 2. rewrite <- (sum_swap_lin n0 A v (fun a m => sum_to K (fun k => alpha A K (M t) (S0 t) a k * fib qp (dmodB_dc (b t) (dB m)) a k + beta A K (M t) (S0 t) a k * fib qp (dS_dc (nor t) (dnor m)) a k))).
  rewrite (sum_to_ext A (fun p => sum_to n0 (fun m => v m * sum_to K (fun k => alpha A K (M t) (S0 t) p k * fib qp (dmodB_dc (b t) (dB m)) p k + beta A K (M t) (S0 t) p k * fib qp (dS_dc (nor t) (dnor m)) p k)))
     (fun a => sum_to K (fun k => sum_to n0 (fun m => v m * (alpha A K (M t) (S0 t) a k * fib qp (dmodB_dc (b t) (dB m)) a k + beta A K (M t) (S0 t) a k * fib qp (dS_dc (nor t) (dnor m)) a k))))) by (intros a _; symmetry; apply sum_swap_lin).
  fold (Sall A K (fun a k => sum_to n0 (fun m => v m * (alpha A K (M t) (S0 t) a k * fib qp (dmodB_dc (b t) (dB m)) a k + beta A K (M t) (S0 t) a k * fib qp (dS_dc (nor t) (dnor m)) a k)))).
  match goal with |- ?u / ?d = / ?d * ?w + ?z / ?d => replace (u / d) with (/ d * u) by (unfold Rdiv; ring); replace (z / d) with (/ d * z) by (unfold Rdiv; ring) end. rewrite <- Rmult_plus_distr_l, <- Sall_plus. f_equal. apply Sall_ext. intros a k LA LK.
  rewrite <- sum_lin2. unfold mt, dt. cbv zeta. unfold fib. ring.
Qed.
End Grad.

(** ** On a Boozer surface: the auxiliary surface has the dofs of the Boozer surface and its own quadrature points *)
Section Booz.
Variables (n np : nat) (dx dxp dxt : nat -> nat -> vec3) (t0 : R) (B : R -> vec3 -> vec3) (dB : R -> vec3 -> mat3) (d2B : vec3 -> nat -> mat3) (Bc : vec3 -> vec3) (dBc : vec3 -> mat3) (Dom : vec3 -> Prop).
Variables (nphi ntheta : nat) (qp : bool) (ax axp axt : nat -> nat -> nat -> vec3).   (* dgamma_by_dcoeff, dgammadash1/2_by_dcoeff of the auxiliary surface *)
Variable optG : bool.
Variables (x : R -> nat -> R) (v : nat -> R).
Notation NN := (N n optG).
Definition aX (i j : nat) (y : nat -> R) : vec3 := sumv n (fun m => scal3 (y m) (ax i j m)).
Definition aXp (i j : nat) (y : nat -> R) : vec3 := sumv n (fun m => scal3 (y m) (axp i j m)).
Definition aXt (i j : nat) (y : nat -> R) : vec3 := sumv n (fun m => scal3 (y m) (axt i j m)).
Definition anor (y : nat -> R) (i j : nat) : vec3 := cross (aXp i j y) (aXt i j y).
(** dnormal_by_dcoeff (C67), and dB_dc = einsum('ijkl,ijkm->ijlm', dB_by_dX, dx_dc) *)
Definition adnor (y : nat -> R) (m i j : nat) : vec3 := add3 (cross (axp i j m) (aXt i j y)) (cross (aXp i j y) (axt i j m)).
Definition adB (y : nat -> R) (m i j : nat) : vec3 := vecmat (ax i j m) (dB t0 (aX i j y)).
Definition aB (s : R) (y : nat -> R) (i j : nat) : vec3 := B s (aX i j y).
Definition qsr_dJ_ds (y : nat -> R) : nat -> R := major_dJ_ds n (fun m => qsr_dc nphi ntheta qp (aB t0 y) (anor y) (adB y m) (adnor y m)).
Definition qsr_direct (y : nat -> R) : R := sum_to nphi (fun i => sum_to ntheta (fun j => dot3 (qsr_dB nphi ntheta qp (aB t0 y) (anor y) i j) (Bc (aX i j y)))).
Lemma sumv_D' (f : nat -> vec3) : (forall m, (m < n)%nat -> D (fun s => x s m) t0 (v m)) -> D3 (fun s => sumv n (fun m => scal3 (x s m) (f m))) t0 (sumv n (fun m => scal3 (v m) (f m))).
Proof. intros Hx. unfold sumv. split; [|split]; cbn [vx vy vz]; (apply (sum_to_D n (fun m s => x s m * _) (fun m => v m * _)); intros m LM; eapply D_val; [|apply D_mul; [apply Hx, LM|apply D_const]]; cbv beta; ring). Qed.
Lemma cross_sum_r (a : vec3) (f : nat -> vec3) k : cross a (sumv k f) = sumv k (fun m => cross a (f m)).
Proof. induction k as [|k IH]; [unfold sumv, sum_to, cross; cbn; apply v3_eq; cbn [vx vy vz]; ring|]. rewrite !sumv_S, <- IH. generalize (sumv k f) (f k). intros p r. apply v3_eq; unfold cross; vu; ring. Qed.
Lemma cross_sum_l (a : vec3) (f : nat -> vec3) k : cross (sumv k f) a = sumv k (fun m => cross (f m) a).
Proof. induction k as [|k IH]; [unfold sumv, sum_to, cross; cbn; apply v3_eq; cbn [vx vy vz]; ring|]. rewrite !sumv_S, <- IH. generalize (sumv k f) (f k). intros p r. apply v3_eq; unfold cross; vu; ring. Qed.
Lemma sumv_add k (f g : nat -> vec3) : add3 (sumv k f) (sumv k g) = sumv k (fun m => add3 (f m) (g m)).
Proof. induction k as [|k IH]; [apply v3_eq; cbn; ring|]. rewrite !sumv_S, <- IH. apply v3_eq; vu; ring. Qed.
Lemma vecmat_sumv k (f : nat -> vec3) M : vecmat (sumv k (fun m => scal3 (v m) (f m))) M = sumv k (fun m => scal3 (v m) (vecmat (f m) M)).
Proof. induction k as [|k IH]; [unfold vecmat; destruct M; apply v3_eq; cbn; ring|]. rewrite !sumv_S, <- IH. generalize (sumv k (fun m => scal3 (v m) (f m))). intros p. destruct M as [r0 r1 r2]. unfold vecmat. cbn [row0 row1 row2]. apply v3_eq; vu; ring. Qed.
Theorem C118_boozer_partials : (0 < nphi)%nat -> (0 < ntheta)%nat -> family_ok Dom t0 B dB d2B Bc dBc -> (forall m, (m < NN)%nat -> D (fun s => x s m) t0 (v m)) ->
  (forall i j, (i < nphi)%nat -> (j < ntheta)%nat -> Dom (aX i j (x t0)) /\ aB t0 (x t0) i j <> v0 /\ anor (x t0) i j <> v0) ->
  D (fun s => qsr_J nphi ntheta qp (aB s (x s)) (anor (x s))) t0 (sum_to NN (fun m => v m * qsr_dJ_ds (x t0) m) + qsr_direct (x t0)).
Proof.
  intros P1 P2 HV Hx OK. unfold qsr_dJ_ds, major_dJ_ds. rewrite sum_trunc.
  assert (Hx' : forall m, (m < n)%nat -> D (fun s => x s m) t0 (v m)) by (intros m LM; apply Hx; now apply lt_N).
  apply (C118_gradient nphi ntheta qp P1 P2 (fun s => aB s (x s)) (fun s => anor (x s)) t0 n v (adB (x t0)) (adnor (x t0)) (fun i j => Bc (aX i j (x t0)))).
  - intros i j I J. destruct (OK i j I J) as (OD & _ & _). pose proof (sumv_D' (ax i j) Hx') as DX. destruct (HV _ _ DX OD) as (F1 & _). eapply D3_val; [|exact F1]. f_equal. apply vecmat_sumv.
  - intros i j I J. eapply D3_val; [|apply D3_cross; [apply (sumv_D' (axp i j) Hx')|apply (sumv_D' (axt i j) Hx')]]. rewrite cross_sum_l, cross_sum_r, sumv_add. apply sumv_ext. intros m _. unfold adnor, aXp, aXt.
    set (p := sumv n (fun m0 => scal3 (x t0 m0) (axt i j m0))). set (r := sumv n (fun m0 => scal3 (x t0 m0) (axp i j m0))). clearbody p r. apply v3_eq; unfold cross; vu; ring.
  - intros i j I J. apply (OK i j I J).
  - intros i j I J. apply (OK i j I J).
Qed.
(** exact Boozer surfaces: dJ as assembled (direct part minus vjp of the adjoint) is the derivative for every motion of the coils *)
Theorem C118_exact_gradient (currents : list R) (lab : R -> (nat -> R) -> R) (dlab : R -> (nat -> R) -> nat -> R) (labc : (nat -> R) -> R) (target : R) (mask : nat -> bool) (P L U : mat) :
  (0 < nphi)%nat -> (0 < ntheta)%nat -> field_ok Dom (B t0) (dB t0) d2B -> family_ok Dom t0 B dB d2B Bc dBc -> label_ok n (all_ok n dx (B t0) Dom np) t0 lab (dlab t0) labc ->
  (forall m, (m < NN)%nat -> D (fun s => x s m) t0 (v m)) -> all_ok n dx (B t0) Dom np (x t0) ->
  (forall i j, (i < nphi)%nat -> (j < ntheta)%nat -> Dom (aX i j (x t0)) /\ aB t0 (x t0) i j <> v0 /\ anor (x t0) i j <> v0) ->
  exact_size np true mask = NN -> plu NN P L U ->
  (forall i m, (i < NN)%nat -> (m < NN)%nat -> exact_row n np dx dxp dxt (B t0) (dB t0) currents optG (dlab t0) mask (x t0) i m = mm NN (mm NN P L) U i m) ->
  (exists eps, 0 < eps /\ forall i s, (i < NN)%nat -> Rabs (s - t0) < eps -> exact_eq n np dx dxp dxt (B s) currents optG (lab s) target mask (x s) i = 0) ->
  exists vp ll, exact_vjp n np dx dxp dxt (B t0) currents optG mask (forward_backward NN P L U (qsr_dJ_ds (x t0)) false) NN (x t0) = Some (vp, ll) /\
    D (fun s => qsr_J nphi ntheta qp (aB s (x s)) (anor (x s))) t0 (qsr_direct (x t0) - (sum_to np (fun p => dot3 (vp p) (Bc (X n dx p (x t0)))) + ll * labc (x t0))).
Proof.
  intros P1 P2 HF HV HL Hx OK OKA SZ HP HA HE.
  apply (C116_exact_gradient n np dx dxp dxt t0 B dB d2B Bc dBc currents optG Dom lab dlab labc target HF HV HL x v Hx OK mask P L U _ (qsr_dJ_ds (x t0)) (qsr_direct (x t0)) SZ HP HA HE).
  apply C118_boozer_partials; assumption.
Qed.
End Booz.
(** ** A concrete case: |B| depends on theta only (values 1 and 2): J = 0 for quasi-axisymmetry, J > 0 for quasi-poloidal symmetry *)
Definition ex_b (i j : nat) : vec3 := V3 (1 + INR j) 0 0.
Definition ex_n (i j : nat) : vec3 := V3 0 0 1.
Example C118_ex : qsr_J 2 2 false ex_b ex_n = 0 /\ qsr_J 2 2 true ex_b ex_n = / 9 /\ (forall i j, (i < 2)%nat -> (j < 2)%nat -> 0 < dSn ex_n i j /\ 0 < modB ex_b i j).
Proof.
  assert (S1 : forall i j, dSn ex_n i j = 1) by (intros; unfold dSn, ex_n; cbn [vx vy vz]; transitivity (sqrt 1); [f_equal; ring|apply sqrt_1]).
  assert (M1 : forall i j, modB ex_b i j = 1 + INR j) by (intros; unfold modB, ex_b; cbn [vx vy vz]; pose proof (pos_INR j); transitivity (sqrt ((1 + INR j) ^ 2)); [f_equal; ring|apply sqrt_pow2; lra]).
  split; [|split].
  - unfold qsr_J, mean_all, BnonQS, bcast, BQS, mean_axis, sum_to. cbn [seq map rsuml fold_right]. rewrite !S1, !M1. cbn [INR Nat.mul Nat.add]. field.
  - unfold qsr_J, mean_all, BnonQS, bcast, BQS, mean_axis, sum_to. cbn [seq map rsuml fold_right]. rewrite !S1, !M1. cbn [INR Nat.mul Nat.add]. field.
  - intros i j _ _. rewrite S1, M1. pose proof (pos_INR j). lra.
Qed.
