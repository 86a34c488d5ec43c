(** C113: the quadrature points dropped by get_stellsym_mask are redundant and nothing else is: equations match unknowns. *)
From Coq Require Import Reals Lra Lia List Bool ZArith.
From Verif Require Import ListAux VecAux Vec3 BSModel BSDeriv BSVjp SurfGeomProps CoilModel CoilProps CurveObjModel CurveObjProps BoozSurf BoozProps TensorModel TensorProps TensorThms TensorSym MaskModel.
Import ListNotations.
Open Scope R_scope.

(** ** Specification *)
(** the three documented sets of quadrature points (the second as the code has it: mpol+1 thetas, the docstring says 2*mpol) *)
Definition layout1 (s : tsurf) phis thetas := phis = linspace (1 / INR (nfp s)) (2 * ntor s + 1) /\ thetas = linspace 1 (2 * mpol s + 1).
Definition layout2 (s : tsurf) phis thetas := phis = linspace (1 / INR (nfp s)) (2 * ntor s + 1) /\ thetas = linspace (1 / 2) (mpol s + 1).
Definition layout3 (s : tsurf) phis thetas := phis = linspace (1 / (2 * INR (nfp s))) (ntor s + 1) /\ thetas = linspace 1 (2 * mpol s + 1).
Definition documented s phis thetas := layout1 s phis thetas \/ layout2 s phis thetas \/ layout3 s phis thetas.
(** two points of the surface that stellarator symmetry and the field periods exchange *)
Definition mirror_points (s : tsurf) (p1 t1 p2 t2 : R) : Prop := exists a b : Z, p1 + p2 = IZR a / INR (nfp s) /\ t1 + t2 = IZR b.
(** a stellarator symmetric field with the surface's field periods *)
Definition sym_field (s : tsurf) (B : vec3 -> vec3) : Prop :=
  (forall x, B (reflect x) = scal3 (-1) (reflect (B x))) /\ (forall x, B (rotz (2 * PI / INR (nfp s)) x) = rotz (2 * PI / INR (nfp s)) (B x)).

(** ** Which mask *)
Lemma close_refl x : close x x = true.
Proof. unfold close. destruct (Rle_dec _ _) as [|N]; auto. exfalso. apply N. rewrite Rminus_eq_0, Rabs_R0. pose proof (Rabs_pos x). lra. Qed.
Lemma npsame_refl l : npsame l l = true. Proof. induction l; cbn; auto. now rewrite close_refl. Qed.
Lemma npsame_length a : forall b, npsame a b = true -> length a = length b.
Proof. induction a as [|x a IH]; intros [|y b]; cbn; try discriminate; auto. rewrite andb_true_iff. intros [_ H]. f_equal. now apply IH. Qed.
Lemma lin_length b n : length (linspace b n) = n. Proof. unfold linspace. now rewrite map_length, seq_length. Qed.
Lemma lin_nth b n i : (i < n)%nat -> nth i (linspace b n) 0 = INR i * (b / INR n).
Proof. intros L. unfold linspace. rewrite (nth_map_in _ _ i 0%nat) by (now rewrite seq_length). rewrite seq_nth by exact L. reflexivity. Qed.
Definition keep1 (s : tsurf) (i j : nat) : bool := negb ((mpol s + 1 <=? j) || ((ntor s + 1 <=? i) && (j =? 0)))%nat.
Definition keep2 (s : tsurf) (i j : nat) : bool := negb ((ntor s + 1 <=? i) && (j =? 0))%nat.
Definition keep3 (s : tsurf) (i j : nat) : bool := negb ((i =? 0) && (mpol s + 1 <=? j))%nat.
Lemma clear1 s i j : clear_rows0 (ntor s + 1) (clear_cols (mpol s + 1) ones) i j = keep1 s i j.
Proof. unfold clear_rows0, clear_cols, ones, keep1. destruct (mpol s + 1 <=? j)%nat, (ntor s + 1 <=? i)%nat, (j =? 0)%nat; reflexivity. Qed.
Lemma clear2 s i j : clear_rows0 (ntor s + 1) ones i j = keep2 s i j.
Proof. unfold clear_rows0, ones, keep2. destruct (ntor s + 1 <=? i)%nat, (j =? 0)%nat; reflexivity. Qed.
Lemma clear3 s i j : clear_cols0 (mpol s + 1) ones i j = keep3 s i j.
Proof. unfold clear_cols0, ones, keep3. destruct (mpol s + 1 <=? j)%nat, (i =? 0)%nat; reflexivity. Qed.
Definition eqm (nphi ntheta : nat) (m : amask) (k : nat -> nat -> bool) : Prop := forall i j, (i < nphi)%nat -> (j < ntheta)%nat -> m i j = k i j.
(** on a documented layout the function does not raise, and returns the mask for that layout *)
Lemma mask_cases s phis thetas : stellsym s = true -> documented s phis thetas -> exists m, get_stellsym_mask s phis thetas = Some m /\
  ((layout1 s phis thetas /\ eqm (length phis) (length thetas) m (keep1 s)) \/ (layout2 s phis thetas /\ eqm (length phis) (length thetas) m (keep2 s)) \/ (layout3 s phis thetas /\ eqm (length phis) (length thetas) m (keep3 s))).
Proof.
  intros S D. unfold get_stellsym_mask. rewrite S. cbn [negb].
  set (P1 := linspace (1 / INR (nfp s)) (2 * ntor s + 1)). set (T1 := linspace 1 (2 * mpol s + 1)). set (T2 := linspace (1 / 2) (mpol s + 1)). set (P3 := linspace (1 / (2 * INR (nfp s))) (ntor s + 1)).
  assert (LP1 : length P1 = (2 * ntor s + 1)%nat) by apply lin_length. assert (LT1 : length T1 = (2 * mpol s + 1)%nat) by apply lin_length.
  assert (LT2 : length T2 = (mpol s + 1)%nat) by apply lin_length. assert (LP3 : length P3 = (ntor s + 1)%nat) by apply lin_length.
  destruct D as [[E1 E2]|[[E1 E2]|[E1 E2]]]; fold P1 T1 T2 P3 in E1, E2; subst phis thetas.
  - rewrite !npsame_refl. cbn [andb]. eexists. split; [reflexivity|]. left. split; [split; reflexivity|]. intros i j _ _. apply clear1.
  - rewrite npsame_refl. cbn [andb]. destruct (npsame T2 T1) eqn:E.
    + apply npsame_length in E. eexists. split; [reflexivity|]. right. left. split; [split; reflexivity|]. intros i j _ Hj. rewrite clear1. unfold keep1, keep2.
      replace (mpol s + 1 <=? j)%nat with false; [reflexivity|]. symmetry. apply Nat.leb_gt. lia.
    + rewrite npsame_refl. eexists. split; [reflexivity|]. right. left. split; [split; reflexivity|]. intros i j _ _. apply clear2.
  - destruct (npsame P3 P1 && npsame T1 T1) eqn:E.
    + apply andb_true_iff in E. destruct E as [E _]. apply npsame_length in E. eexists. split; [reflexivity|]. right. right. split; [split; reflexivity|]. intros i j Hi _. rewrite clear1. unfold keep1, keep3.
      assert (i = 0)%nat by lia. subst i. replace (ntor s + 1 <=? 0)%nat with false by (symmetry; apply Nat.leb_gt; lia). cbn [andb Nat.eqb]. now rewrite orb_false_r.
    + destruct (npsame P3 P1 && npsame T1 T2) eqn:E2.
      * apply andb_true_iff in E2. destruct E2 as [E2 _]. rewrite E2, npsame_refl in E. discriminate.
      * rewrite !npsame_refl. cbn [andb]. eexists. split; [reflexivity|]. right. right. split; [split; reflexivity|]. intros i j _ _. apply clear3.
Qed.

(** ** Nothing redundant is kept, nothing needed is dropped *)
Lemma INR_eq_Z (a : nat) (z : Z) (c : nat) : INR a = IZR z * INR c -> Z.of_nat a = (z * Z.of_nat c)%Z.
Proof. rewrite !INR_IZR_INZ, <- mult_IZR. apply eq_IZR. Qed.
Lemma small_multiple (a c : nat) (z : Z) : Z.of_nat a = (z * Z.of_nat c)%Z -> (a < 2 * c)%nat -> (a = 0 \/ a = c)%nat.
Proof. intros H L. assert (z = 0 \/ z = 1 \/ z < 0 \/ 2 <= z)%Z as [->|[->|[K|K]]] by lia; try lia; nia. Qed.
Lemma tiny_multiple (a c : nat) (z : Z) : Z.of_nat a = (z * Z.of_nat c)%Z -> (a < c)%nat -> (a = 0)%nat.
Proof. intros H L. assert (z = 0 \/ 1 <= z \/ z < 0)%Z as [->|[K|K]] by lia; nia. Qed.
Lemma lin_sum b n i i' z c : (0 < n)%nat -> b <> 0 -> INR i * (b / INR n) + INR i' * (b / INR n) = IZR z * (b * INR c) -> INR (i + i') = IZR z * INR (c * n).
Proof.
  intros N B H. assert (INR n <> 0) by (apply not_0_INR; lia). rewrite plus_INR, mult_INR. apply (Rmult_eq_reg_r (b / INR n)).
  - rewrite Rmult_plus_distr_r, H. field. assumption.
  - intros Q. apply Rmult_integral in Q. destruct Q as [Q|Q]; [auto|]. now apply (Rinv_neq_0_compat (INR n)).
Qed.
Section Cells.
Variable s : tsurf.
Hypothesis P : (0 < nfp s)%nat.
Let Hr : INR (nfp s) <> 0. Proof. apply not_0_INR. lia. Qed.
Lemma phi1 i i' z : INR i * (1 / INR (nfp s) / INR (2 * ntor s + 1)) + INR i' * (1 / INR (nfp s) / INR (2 * ntor s + 1)) = IZR z / INR (nfp s) -> Z.of_nat (i + i') = (z * Z.of_nat (2 * ntor s + 1))%Z.
Proof.
  intros H. apply INR_eq_Z. rewrite <- (Nat.mul_1_l (2 * ntor s + 1)). apply (lin_sum (1 / INR (nfp s))); [lia| |rewrite H; cbn [INR]; field; exact Hr].
  intros Q. unfold Rdiv in Q. rewrite Rmult_1_l in Q. now apply (Rinv_neq_0_compat (INR (nfp s))).
Qed.
Lemma phi3 i i' z : INR i * (1 / (2 * INR (nfp s)) / INR (ntor s + 1)) + INR i' * (1 / (2 * INR (nfp s)) / INR (ntor s + 1)) = IZR z / INR (nfp s) -> Z.of_nat (i + i') = (z * Z.of_nat (2 * (ntor s + 1)))%Z.
Proof.
  intros H. apply INR_eq_Z. apply (lin_sum (1 / (2 * INR (nfp s)))); [lia| |rewrite H; cbn [INR]; field; exact Hr].
  intros Q. unfold Rdiv in Q. rewrite Rmult_1_l in Q. apply (Rinv_neq_0_compat (2 * INR (nfp s))); [|exact Q]. apply Rmult_integral_contrapositive. split; [lra|exact Hr].
Qed.
End Cells.
Lemma theta1 s j j' z : INR j * (1 / INR (2 * mpol s + 1)) + INR j' * (1 / INR (2 * mpol s + 1)) = IZR z -> Z.of_nat (j + j') = (z * Z.of_nat (2 * mpol s + 1))%Z.
Proof. intros H. apply INR_eq_Z. rewrite <- (Nat.mul_1_l (2 * mpol s + 1)). apply (lin_sum 1); [lia|lra|rewrite H; cbn [INR]; ring]. Qed.
Lemma theta2 s j j' z : INR j * (1 / 2 / INR (mpol s + 1)) + INR j' * (1 / 2 / INR (mpol s + 1)) = IZR z -> Z.of_nat (j + j') = (z * Z.of_nat (2 * (mpol s + 1)))%Z.
Proof. intros H. apply INR_eq_Z. apply (lin_sum (1 / 2)); [lia|lra|rewrite H; cbn [INR]; field]. Qed.
(** of the kept points no two are mirror images, and only (0, 0) is its own *)
Theorem C113_kept_not_redundant (s : tsurf) (phis thetas : list R) (m : amask) (i j i' j' : nat) :
  (0 < nfp s)%nat -> stellsym s = true -> documented s phis thetas -> get_stellsym_mask s phis thetas = Some m ->
  (i < length phis)%nat -> (j < length thetas)%nat -> (i' < length phis)%nat -> (j' < length thetas)%nat -> m i j = true -> m i' j' = true ->
  mirror_points s (nth i phis 0) (nth j thetas 0) (nth i' phis 0) (nth j' thetas 0) -> i = 0%nat /\ j = 0%nat /\ i' = 0%nat /\ j' = 0%nat.
Proof.
  intros P S Dc G Hi Hj Hi' Hj' M M' (a & b & HA & HB). destruct (mask_cases s phis thetas S Dc) as (m' & G' & C). assert (m' = m) by congruence. subst m'. clear G G' Dc.
  destruct C as [[[-> ->] E]|[[[-> ->] E]|[[-> ->] E]]]; rewrite !lin_length in *; rewrite !lin_nth in HA, HB by assumption; rewrite E in M, M' by assumption; clear E.
  - apply phi1 in HA; [|exact P]. apply theta1 in HB. unfold keep1 in M, M'. apply small_multiple in HA; [|lia]. apply small_multiple in HB; [|lia]. lia.
  - apply phi1 in HA; [|exact P]. apply theta2 in HB. unfold keep2 in M, M'. apply small_multiple in HA; [|lia]. apply tiny_multiple in HB; [|lia]. lia.
  - apply phi3 in HA; [|exact P]. apply theta1 in HB. unfold keep3 in M, M'. apply tiny_multiple in HA; [|lia]. apply small_multiple in HB; [|lia]. lia.
Qed.

(** ** Symmetry of the residual *)
Lemma D_lin_arg f c k t a : D f (c * t + k) a -> D (fun u => f (c * u + k)) t (c * a).
Proof.
  intros H. assert (L : D (fun u => c * u + k) t c) by (eapply D_val; [|apply D_add; [apply D_mul; [apply D_const|apply D_id]|apply D_const]]; cbv beta; ring).
  pose proof (derivable_pt_lim_comp (fun u => c * u + k) f t c a L H) as C. eapply D_val; [|exact C]. ring.
Qed.
Lemma D3_lin_arg f c k t a : D3 f (c * t + k) a -> D3 (fun u => f (c * u + k)) t (scal3 c a).
Proof. intros (A & B & C). split; [|split]; cbn [vx vy vz scal3]; [exact (D_lin_arg _ _ _ _ _ A)|exact (D_lin_arg _ _ _ _ _ B)|exact (D_lin_arg _ _ _ _ _ C)]. Qed.
Lemma D3_unique f t a b : D3 f t a -> D3 f t b -> a = b.
Proof. intros (A & B & C) (A' & B' & C'). apply v3_eq; eapply D_unique; eassumption. Qed.
Lemma D3_reflect f t a : D3 f t a -> D3 (fun u => reflect (f u)) t (reflect a).
Proof. intros (A & B & C). split; [|split]; cbn [reflect vx vy vz]; [exact A|now apply D_opp|now apply D_opp]. Qed.
Lemma D3_rotz al f t a : D3 f t a -> D3 (fun u => rotz al (f u)) t (rotz al a).
Proof.
  intros (A & B & C). split; [|split]; cbn [rotz vx vy vz]; [..|exact C];
  (eapply D_val; [|first [apply D_sub|apply D_add]; apply D_mul; [apply D_const|eassumption|apply D_const|eassumption]]; cbv beta; ring).
Qed.
Section Residual.
Variables (s : tsurf) (B : vec3 -> vec3) (iota G : R).
Lemma dash1_neg q1 q2 : stellsym s = true -> gammadash1 s (- q1) (- q2) = scal3 (-1) (reflect (gammadash1 s q1 q2)).
Proof.
  intros S. destruct (C112_first_derivatives s (- q1) (- q2)) as (A & _). destruct (C112_first_derivatives s q1 q2) as (A' & _).
  replace (- q1) with (-1 * q1 + 0) in A by ring. apply (D3_lin_arg (fun u => gamma s u (- q2))) in A.
  apply D3_reflect in A'. assert (E : scal3 (-1) (gammadash1 s (-1 * q1 + 0) (- q2)) = reflect (gammadash1 s q1 q2)).
  { eapply D3_unique; [exact A|]. apply (D3_ext (fun u => reflect (gamma s u q2))); [|exact A']. intros u. replace (-1 * u + 0) with (- u) by ring. rewrite C112_stellsym by exact S. reflexivity. }
  replace (-1 * q1 + 0) with (- q1) in E by ring. rewrite <- E. apply v3_eq; cbn [scal3 vx vy vz]; ring.
Qed.
Lemma dash2_neg q1 q2 : stellsym s = true -> gammadash2 s (- q1) (- q2) = scal3 (-1) (reflect (gammadash2 s q1 q2)).
Proof.
  intros S. destruct (C112_first_derivatives s (- q1) (- q2)) as (_ & A & _). destruct (C112_first_derivatives s q1 q2) as (_ & A' & _).
  replace (- q2) with (-1 * q2 + 0) in A by ring. apply (D3_lin_arg (fun u => gamma s (- q1) u)) in A.
  apply D3_reflect in A'. assert (E : scal3 (-1) (gammadash2 s (- q1) (-1 * q2 + 0)) = reflect (gammadash2 s q1 q2)).
  { eapply D3_unique; [exact A|]. apply (D3_ext (fun u => reflect (gamma s q1 u))); [|exact A']. intros u. replace (-1 * u + 0) with (- u) by ring. rewrite C112_stellsym by exact S. reflexivity. }
  replace (-1 * q2 + 0) with (- q2) in E by ring. rewrite <- E. apply v3_eq; cbn [scal3 vx vy vz]; ring.
Qed.
Hypothesis P : (0 < nfp s)%nat.
Let al := 2 * PI / INR (nfp s).
Lemma dash_per q1 q2 : gammadash1 s (q1 + / INR (nfp s)) q2 = rotz al (gammadash1 s q1 q2) /\ gammadash2 s (q1 + / INR (nfp s)) q2 = rotz al (gammadash2 s q1 q2).
Proof.
  destruct (C112_first_derivatives s (q1 + / INR (nfp s)) q2) as (A1 & A2 & _). destruct (C112_first_derivatives s q1 q2) as (B1 & B2 & _). split.
  - replace (q1 + / INR (nfp s)) with (1 * q1 + / INR (nfp s)) in A1 by ring. apply (D3_lin_arg (fun u => gamma s u q2)) in A1. apply (D3_rotz al) in B1.
    replace (gammadash1 s (q1 + / INR (nfp s)) q2) with (scal3 1 (gammadash1 s (1 * q1 + / INR (nfp s)) q2)) by (rewrite Rmult_1_l; apply v3_eq; cbn [scal3 vx vy vz]; ring).
    eapply D3_unique; [exact A1|]. apply (D3_ext (fun u => rotz al (gamma s u q2))); [|exact B1]. intros u. rewrite Rmult_1_l. symmetry. apply (C112_field_period s u q2 P).
  - apply (D3_rotz al) in B2. eapply D3_unique; [exact A2|]. apply (D3_ext (fun u => rotz al (gamma s q1 u))); [|exact B2]. intros u. symmetry. apply (C112_field_period s q1 u P).
Qed.
Lemma dash_per_t q1 q2 : gammadash1 s q1 (q2 + 1) = gammadash1 s q1 q2 /\ gammadash2 s q1 (q2 + 1) = gammadash2 s q1 q2.
Proof.
  destruct (C112_first_derivatives s q1 (q2 + 1)) as (A1 & A2 & _). destruct (C112_first_derivatives s q1 q2) as (B1 & B2 & _). split.
  - eapply D3_unique; [exact A1|]. apply (D3_ext (fun u => gamma s u q2)); [|exact B1]. intros u. symmetry. apply (C112_field_period s u q2 P).
  - replace (q2 + 1) with (1 * q2 + 1) in A2 by ring. apply (D3_lin_arg (fun u => gamma s q1 u)) in A2.
    replace (gammadash2 s q1 (q2 + 1)) with (scal3 1 (gammadash2 s q1 (1 * q2 + 1))) by (rewrite Rmult_1_l; apply v3_eq; cbn [scal3 vx vy vz]; ring).
    eapply D3_unique; [exact A2|]. apply (D3_ext (fun u => gamma s q1 u)); [|exact B2]. intros u. rewrite Rmult_1_l. symmetry. apply (C112_field_period s q1 u P).
Qed.
Lemma normsq_reflect u : normsq (scal3 (-1) (reflect u)) = normsq u. Proof. unfold normsq, dot3, scal3, reflect. cbn [vx vy vz]. ring. Qed.
Lemma normsq_rotz u : normsq (rotz al u) = normsq u.
Proof. unfold normsq, dot3, rotz. cbn [vx vy vz]. pose proof (sin2_cos2 al) as Q. unfold Rsqr in Q. assert (Q1 : sin al * sin al = 1 - cos al * cos al) by lra. ring_simplify. replace (sin al ^ 2) with (1 - cos al * cos al) by (rewrite <- Q1; ring). ring. Qed.
(** the residual at the mirror point is the mirror image up to sign, and it turns with the field periods *)
Lemma res_neg q1 q2 : stellsym s = true -> sym_field s B -> res_at B s iota G (- q1) (- q2) = scal3 (-1) (reflect (res_at B s iota G q1 q2)).
Proof.
  intros S [F _]. unfold res_at, residual. rewrite dash1_neg, dash2_neg, C112_stellsym by exact S. change (V3 (vx (gamma s q1 q2)) (- vy (gamma s q1 q2)) (- vz (gamma s q1 q2))) with (reflect (gamma s q1 q2)).
  rewrite F, normsq_reflect. apply v3_eq; cbn [sub3 add3 scal3 reflect vx vy vz]; ring.
Qed.
Lemma res_per q1 q2 : sym_field s B -> res_at B s iota G (q1 + / INR (nfp s)) q2 = rotz al (res_at B s iota G q1 q2).
Proof.
  intros [_ F]. unfold res_at, residual. destruct (dash_per q1 q2) as [-> ->]. rewrite (proj1 (C112_field_period s q1 q2 P)). change (rot_z (2 * PI / INR (nfp s)) (gamma s q1 q2)) with (rotz (2 * PI / INR (nfp s)) (gamma s q1 q2)).
  rewrite F. fold al. rewrite normsq_rotz. apply v3_eq; cbn [sub3 add3 scal3 rotz vx vy vz]; ring.
Qed.
Lemma res_per_t q1 q2 : res_at B s iota G q1 (q2 + 1) = res_at B s iota G q1 q2.
Proof. unfold res_at. destruct (dash_per_t q1 q2) as [-> ->]. now rewrite (proj2 (C112_field_period s q1 q2 P)). Qed.
End Residual.
Theorem C113_residual_symmetry (s : tsurf) (B : vec3 -> vec3) (iota G q1 q2 : R) : (0 < nfp s)%nat -> stellsym s = true -> sym_field s B ->
  res_at B s iota G (- q1) (- q2) = scal3 (-1) (reflect (res_at B s iota G q1 q2)) /\
  res_at B s iota G (q1 + / INR (nfp s)) q2 = rotz (2 * PI / INR (nfp s)) (res_at B s iota G q1 q2) /\
  res_at B s iota G q1 (q2 + 1) = res_at B s iota G q1 q2.
Proof. intros P S F. split; [now apply res_neg|split; [now apply res_per|now apply res_per_t]]. Qed.

(** ** The equations kept imply all equations *)
Lemma reflect_v0 u : scal3 (-1) (reflect u) = v0 <-> u = v0.
Proof. split; intros H; [|subst; apply v3_eq; cbn; ring]. pose proof (f_equal vx H) as X. pose proof (f_equal vy H) as Y. pose proof (f_equal vz H) as Z. cbn [scal3 reflect vx vy vz v0] in X, Y, Z. apply v3_eq; cbn [v0 vx vy vz]; lra. Qed.
Lemma rotz_v0 a u : rotz a u = v0 <-> u = v0.
Proof.
  split; intros H; [|subst; apply v3_eq; cbn; ring]. assert (K : rotz (- a) (rotz a u) = u).
  { apply v3_eq; cbn [rotz vx vy vz]; rewrite ?cos_neg, ?sin_neg; [| |reflexivity]; pose proof (sin2_cos2 a) as Q; unfold Rsqr in Q.
    - replace (cos a * (cos a * vx u - sin a * vy u) - - sin a * (sin a * vx u + cos a * vy u)) with ((sin a * sin a + cos a * cos a) * vx u) by ring. rewrite Q. ring.
    - replace (- sin a * (cos a * vx u - sin a * vy u) + cos a * (sin a * vx u + cos a * vy u)) with ((sin a * sin a + cos a * cos a) * vy u) by ring. rewrite Q. ring. }
  rewrite <- K, H. apply v3_eq; cbn; ring.
Qed.
Lemma shift_Z (f : R -> Prop) (h : R) : (forall x, f (x + h) <-> f x) -> forall (z : Z) x, f (x + IZR z * h) <-> f x.
Proof.
  intros S z. induction z as [|z IH|z IH] using Z.peano_ind; intros x.
  - now rewrite Rmult_0_l, Rplus_0_r.
  - unfold Z.succ. rewrite plus_IZR. replace (x + (IZR z + 1) * h) with (x + IZR z * h + h) by ring. rewrite S. apply IH.
  - unfold Z.pred. rewrite plus_IZR. replace (x + (IZR z + -1) * h) with (x - h + IZR z * h) by ring. rewrite IH. rewrite <- (S (x - h)). replace (x - h + h) with x by ring. reflexivity.
Qed.
Theorem C113_mirror_zero (s : tsurf) (B : vec3 -> vec3) (iota G p1 t1 p2 t2 : R) : (0 < nfp s)%nat -> stellsym s = true -> sym_field s B ->
  mirror_points s p1 t1 p2 t2 -> res_at B s iota G p1 t1 = v0 -> res_at B s iota G p2 t2 = v0.
Proof.
  intros P S F (a & b & HA & HB) Z. assert (Hr : INR (nfp s) <> 0) by (apply not_0_INR; lia).
  assert (N : res_at B s iota G (- p1) (- t1) = v0) by (rewrite res_neg by assumption; now apply reflect_v0).
  replace p2 with (- p1 + IZR a * / INR (nfp s)) by (unfold Rdiv in HA; lra). replace t2 with (- t1 + IZR b * 1) by lra.
  apply (shift_Z (fun t => res_at B s iota G _ t = v0)); [intros x; now rewrite res_per_t|].
  apply (shift_Z (fun p => res_at B s iota G p _ = v0)); [intros x; rewrite res_per by assumption; apply rotz_v0|exact N].
Qed.
Lemma res_x00 s B iota G : stellsym s = true -> sym_field s B -> vx (res_at B s iota G 0 0) = 0.
Proof. intros S F. pose proof (res_neg s B iota G 0 0 S F) as E. rewrite Ropp_0 in E. apply (f_equal vx) in E. cbn [scal3 reflect vx] in E. lra. Qed.
Lemma mirror_grid (b : R) (n i : nat) : (0 < i)%nat -> (i < n)%nat -> INR i * (b / INR n) + INR (n - i) * (b / INR n) = b.
Proof. intros I L. rewrite minus_INR by lia. field. apply not_0_INR. lia. Qed.
(** every point dropped has a mirror image among the kept ones *)
Theorem C113_dropped_redundant (s : tsurf) (phis thetas : list R) (m : amask) (i j : nat) :
  (0 < nfp s)%nat -> stellsym s = true -> documented s phis thetas -> get_stellsym_mask s phis thetas = Some m ->
  (i < length phis)%nat -> (j < length thetas)%nat -> m i j = false ->
  exists i' j', (i' < length phis)%nat /\ (j' < length thetas)%nat /\ m i' j' = true /\ (i', j') <> (0%nat, 0%nat) /\
    mirror_points s (nth i' phis 0) (nth j' thetas 0) (nth i phis 0) (nth j thetas 0).
Proof.
  intros P S Dc G Hi Hj M. destruct (mask_cases s phis thetas S Dc) as (m' & G' & C). assert (m' = m) by congruence. subst m'. clear G G' Dc.
  assert (Hr : INR (nfp s) <> 0) by (apply not_0_INR; lia).
  destruct C as [[[-> ->] E]|[[[-> ->] E]|[[-> ->] E]]]; rewrite !lin_length in *; rewrite E in M by assumption.
  - unfold keep1 in M. set (i' := if (i =? 0)%nat then 0%nat else (2 * ntor s + 1 - i)%nat). set (j' := if (j =? 0)%nat then 0%nat else (2 * mpol s + 1 - j)%nat).
    assert (Li : (i' < 2 * ntor s + 1)%nat) by (unfold i'; destruct (Nat.eqb_spec i 0); lia). assert (Lj : (j' < 2 * mpol s + 1)%nat) by (unfold j'; destruct (Nat.eqb_spec j 0); lia).
    exists i', j'. split; [exact Li|]. split; [exact Lj|]. split; [|split].
    + rewrite E by assumption. unfold keep1. destruct (Nat.eqb_spec i 0), (Nat.eqb_spec j 0); subst i' j'; lia.
    + intros Q. injection Q as Q1 Q2. destruct (Nat.eqb_spec i 0), (Nat.eqb_spec j 0); subst i' j'; lia.
    + exists (if (i =? 0)%nat then 0 else 1)%Z, (if (j =? 0)%nat then 0 else 1)%Z. rewrite !lin_nth by assumption. split.
      * unfold i'. destruct (Nat.eqb_spec i 0) as [->|N]; [cbn [INR]; unfold Rdiv; ring|]. rewrite Rplus_comm, mirror_grid by lia. reflexivity.
      * unfold j'. destruct (Nat.eqb_spec j 0) as [->|N]; [cbn [INR]; unfold Rdiv; ring|]. rewrite Rplus_comm, mirror_grid by lia. reflexivity.
  - unfold keep2 in M. assert (j = 0)%nat by lia. subst j. assert (ntor s + 1 <= i)%nat by lia. exists (2 * ntor s + 1 - i)%nat, 0%nat. split; [lia|]. split; [lia|]. split; [rewrite E by lia; unfold keep2; lia|]. split; [intros Q; injection Q; lia|].
    exists 1%Z, 0%Z. rewrite !lin_nth by lia. split; [rewrite Rplus_comm, mirror_grid by lia; reflexivity|cbn [INR]; ring].
  - unfold keep3 in M. assert (i = 0)%nat by lia. subst i. assert (mpol s + 1 <= j)%nat by lia. exists 0%nat, (2 * mpol s + 1 - j)%nat. split; [lia|]. split; [lia|]. split; [rewrite E by lia; unfold keep3; lia|]. split; [intros Q; injection Q; lia|].
    exists 0%Z, 1%Z. rewrite !lin_nth by lia. split; [cbn [INR]; unfold Rdiv; ring|rewrite Rplus_comm, mirror_grid by lia; reflexivity].
Qed.
Lemma lin0 b n : (0 < n)%nat -> nth 0 (linspace b n) 0 = 0. Proof. intros L. rewrite lin_nth by exact L. cbn [INR]. ring. Qed.
Lemma origin s phis thetas : documented s phis thetas -> nth 0 phis 0 = 0 /\ nth 0 thetas 0 = 0 /\ (0 < length phis)%nat /\ (0 < length thetas)%nat.
Proof. intros [[-> ->]|[[-> ->]|[-> ->]]]; rewrite !lin_length, !lin0 by lia; repeat split; lia. Qed.
(** if the selected residual entries vanish, the residual vanishes at every quadrature point *)
Theorem C113_kept_equations_suffice (s : tsurf) (B : vec3 -> vec3) (iota G : R) (phis thetas : list R) (m : amask) :
  (0 < nfp s)%nat -> stellsym s = true -> sym_field s B -> documented s phis thetas -> get_stellsym_mask s phis thetas = Some m ->
  (forall i j k, In (i, j, k) (kept s m (length phis) (length thetas)) -> comp k (res_at B s iota G (nth i phis 0) (nth j thetas 0)) = 0) ->
  forall i j, (i < length phis)%nat -> (j < length thetas)%nat -> res_at B s iota G (nth i phis 0) (nth j thetas 0) = v0.
Proof.
  intros P S F Dc Gm H. destruct (origin s phis thetas Dc) as (O1 & O2 & O3 & O4).
  assert (K : forall i j, (i < length phis)%nat -> (j < length thetas)%nat -> m i j = true -> res_at B s iota G (nth i phis 0) (nth j thetas 0) = v0).
  { intros i j Hi Hj M.
    assert (Q : forall k, (k < 3)%nat -> mask3 s m i j k = true -> comp k (res_at B s iota G (nth i phis 0) (nth j thetas 0)) = 0).
    { intros k Hk Mk. apply H. unfold kept. apply filter_In. split; [|exact Mk]. apply in_flat_map. exists i. split; [apply in_seq; lia|]. apply in_flat_map. exists j. split; [apply in_seq; lia|]. apply in_map_iff. exists k. split; [reflexivity|apply in_seq; lia]. }
    assert (Q1 : comp 1 (res_at B s iota G (nth i phis 0) (nth j thetas 0)) = 0) by (apply Q; [lia|unfold mask3; rewrite S; cbn [andb]; now rewrite andb_false_r]).
    assert (Q2 : comp 2 (res_at B s iota G (nth i phis 0) (nth j thetas 0)) = 0) by (apply Q; [lia|unfold mask3; rewrite S; cbn [andb]; now rewrite andb_false_r]).
    assert (Q0 : comp 0 (res_at B s iota G (nth i phis 0) (nth j thetas 0)) = 0).
    { destruct ((i =? 0) && (j =? 0))%nat eqn:E.
      - assert (i = 0 /\ j = 0)%nat as [-> ->] by lia. rewrite O1, O2. now apply res_x00.
      - apply Q; [lia|]. unfold mask3. now rewrite E, andb_false_r. }
    apply v3_eq; cbn [v0 vx vy vz]; assumption. }
  intros i j Hi Hj. destruct (m i j) eqn:M; [now apply K|].
  destruct (C113_dropped_redundant s phis thetas m i j P S Dc Gm Hi Hj M) as (i' & j' & Hi' & Hj' & M' & _ & MP).
  eapply C113_mirror_zero; [exact P|exact S|exact F|exact MP|]. now apply K.
Qed.

(** ** As many equations as unknowns *)
Definition nsum (f : nat -> nat) (l : list nat) : nat := list_sum (map f l).
Lemma nsum_app f a b : nsum f (a ++ b) = (nsum f a + nsum f b)%nat. Proof. unfold nsum. now rewrite map_app, list_sum_app. Qed.
Lemma nsum_const f a n c : (forall x, (a <= x < a + n)%nat -> f x = c) -> nsum f (seq a n) = (n * c)%nat.
Proof. revert a. induction n as [|n IH]; intros a H; [reflexivity|]. cbn [seq]. unfold nsum in *. cbn [map list_sum fold_right]. change (fold_right Init.Nat.add 0%nat) with list_sum. rewrite IH, H by (intros; try apply H; lia). lia. Qed.
Lemma nsum_3 f n c0 c1 c2 : f 0%nat = c0 -> (forall x, (1 <= x <= n)%nat -> f x = c1) -> (forall x, (n < x)%nat -> f x = c2) -> nsum f (seq 0 (2 * n + 1)) = (c0 + n * c1 + n * c2)%nat.
Proof.
  intros H0 H1 H2. replace (2 * n + 1)%nat with (1 + (n + n))%nat by lia. rewrite !seq_app, !nsum_app. rewrite (nsum_const f 0 1 c0), (nsum_const f (0 + 1) n c1), (nsum_const f (0 + 1 + n) n c2).
  - lia.
  - intros x Hx. apply H2. lia.
  - intros x Hx. apply H1. lia.
  - intros x Hx. assert (x = 0)%nat by lia. now subst.
Qed.
Lemma nsum_2 f n c0 c1 : f 0%nat = c0 -> (forall x, (1 <= x)%nat -> f x = c1) -> nsum f (seq 0 (n + 1)) = (c0 + n * c1)%nat.
Proof.
  intros H0 H1. replace (n + 1)%nat with (1 + n)%nat by lia. rewrite seq_app, nsum_app. rewrite (nsum_const f 0 1 c0), (nsum_const f (0 + 1) n c1); [lia| |].
  - intros x Hx. apply H1. lia.
  - intros x Hx. assert (x = 0)%nat by lia. now subst.
Qed.
Definition cell (s : tsurf) (m : amask) (i j : nat) : nat := if m i j then (if stellsym s && ((i =? 0) && (j =? 0))%nat then 2 else 3)%nat else 0%nat.
Lemma filter_flat {A B} (p : B -> bool) (f : A -> list B) l : length (filter p (flat_map f l)) = list_sum (map (fun a => length (filter p (f a))) l).
Proof. induction l as [|a l IH]; [reflexivity|]. cbn [flat_map map list_sum fold_right]. rewrite filter_app, app_length, IH. reflexivity. Qed.
Lemma kept_count s m np nt : length (kept s m np nt) = nsum (fun i => nsum (fun j => cell s m i j) (seq 0 nt)) (seq 0 np).
Proof.
  unfold kept, nsum. rewrite filter_flat. f_equal. apply map_ext. intros i. rewrite filter_flat. f_equal. apply map_ext. intros j. cbn [seq map filter]. unfold mask3, cell.
  destruct (stellsym s), (m i j), ((i =? 0) && (j =? 0))%nat; reflexivity.
Qed.
Lemma nsum_ext f g n : (forall x, (x < n)%nat -> f x = g x) -> nsum f (seq 0 n) = nsum g (seq 0 n).
Proof. intros H. unfold nsum. f_equal. apply map_ext_in. intros x Hx. apply in_seq in Hx. apply H. lia. Qed.
Lemma cells_ext s m k np nt : eqm np nt m k -> nsum (fun i => nsum (fun j => cell s m i j) (seq 0 nt)) (seq 0 np) = nsum (fun i => nsum (fun j => cell s k i j) (seq 0 nt)) (seq 0 np).
Proof. intros E. apply nsum_ext. intros i Hi. apply nsum_ext. intros j Hj. unfold cell. now rewrite E. Qed.
Ltac cellv := intros; unfold cell, keep1, keep2, keep3, ones; repeat match goal with
  | |- context [(?a <=? ?b)%nat] => destruct (Nat.leb_spec a b) | |- context [(?a =? ?b)%nat] => destruct (Nat.eqb_spec a b) end; cbn [andb orb negb]; try reflexivity; lia.
Theorem C113_square_system (s : tsurf) (phis thetas : list R) (m : amask) :
  stellsym s = true /\ documented s phis thetas \/ stellsym s = false /\ length phis = (2 * ntor s + 1)%nat /\ length thetas = (2 * mpol s + 1)%nat ->
  get_stellsym_mask s phis thetas = Some m -> n_equations s m (length phis) (length thetas) = n_unknowns s.
Proof.
  unfold n_equations, n_unknowns, num_dofs. rewrite kept_count. intros [[S Dc]|(S & L1 & L2)] G.
  - destruct (mask_cases s phis thetas S Dc) as (m' & G' & C). assert (m' = m) by congruence. subst m'. clear G G' Dc.
    destruct C as [[[-> ->] E]|[[[-> ->] E]|[[-> ->] E]]]; rewrite !lin_length in *; rewrite (cells_ext _ _ _ _ _ E); clear E.
    + rewrite (nsum_3 _ (ntor s) (2 + mpol s * 3) (3 + mpol s * 3) (mpol s * 3)); [rewrite S; lia|..].
      * rewrite (nsum_3 _ (mpol s) 2 3 0); [lia|..]; unfold cell; rewrite S; cellv.
      * intros i Hi. rewrite (nsum_3 _ (mpol s) 3 3 0); [lia|..]; unfold cell; rewrite S; cellv.
      * intros i Hi. rewrite (nsum_3 _ (mpol s) 0 3 0); [lia|..]; unfold cell; rewrite S; cellv.
    + rewrite (nsum_3 _ (ntor s) (2 + mpol s * 3) (3 + mpol s * 3) (mpol s * 3)); [rewrite S; lia|..].
      * rewrite (nsum_2 _ (mpol s) 2 3); [lia|..]; unfold cell; rewrite S; cellv.
      * intros i Hi. rewrite (nsum_2 _ (mpol s) 3 3); [lia|..]; unfold cell; rewrite S; cellv.
      * intros i Hi. rewrite (nsum_2 _ (mpol s) 0 3); [lia|..]; unfold cell; rewrite S; cellv.
    + rewrite (nsum_2 _ (ntor s) (2 + mpol s * 3) (3 + mpol s * 6)); [rewrite S; lia|..].
      * rewrite (nsum_3 _ (mpol s) 2 3 0); [lia|..]; unfold cell; rewrite S; cellv.
      * intros i Hi. rewrite (nsum_3 _ (mpol s) 3 3 3); [lia|..]; unfold cell; rewrite S; cellv.
  - unfold get_stellsym_mask in G. rewrite S in G. cbn [negb] in G. injection G as <-. rewrite L1, L2, S.
    rewrite (nsum_const _ 0 _ ((2 * mpol s + 1) * 3)); [lia|]. intros i _. rewrite (nsum_const _ 0 _ 3); [reflexivity|]. intros j _. unfold cell. rewrite S. reflexivity.
Qed.
(** ** Which quadrature points are accepted: only the three sizes; the second layout of the docstring (2 mpol thetas) is not among them *)
Theorem C113_rejected (s : tsurf) (phis thetas : list R) : stellsym s = true ->
  ~ ((length phis = 2 * ntor s + 1)%nat /\ (length thetas = 2 * mpol s + 1 \/ length thetas = mpol s + 1)%nat \/ (length phis = ntor s + 1)%nat /\ (length thetas = 2 * mpol s + 1)%nat) ->
  get_stellsym_mask s phis thetas = None.
Proof.
  intros S H. unfold get_stellsym_mask. rewrite S. cbn [negb].
  destruct (npsame phis (linspace (1 / INR (nfp s)) (2 * ntor s + 1)) && npsame thetas (linspace 1 (2 * mpol s + 1))) eqn:E1; [apply andb_true_iff in E1; destruct E1 as [A B]; apply npsame_length in A, B; rewrite lin_length in A, B; exfalso; apply H; lia|].
  destruct (npsame phis (linspace (1 / INR (nfp s)) (2 * ntor s + 1)) && npsame thetas (linspace (1 / 2) (mpol s + 1))) eqn:E2; [apply andb_true_iff in E2; destruct E2 as [A B]; apply npsame_length in A, B; rewrite lin_length in A, B; exfalso; apply H; lia|].
  destruct (npsame phis (linspace (1 / (2 * INR (nfp s))) (ntor s + 1)) && npsame thetas (linspace 1 (2 * mpol s + 1))) eqn:E3; [apply andb_true_iff in E3; destruct E3 as [A B]; apply npsame_length in A, B; rewrite lin_length in A, B; exfalso; apply H; lia|].
  reflexivity.
Qed.
Theorem C113_docstring_layout_refuted (s : tsurf) : stellsym s = true -> (2 <= mpol s)%nat ->
  get_stellsym_mask s (linspace (1 / INR (nfp s)) (2 * ntor s + 1)) (linspace (1 / 2) (2 * mpol s)) = None.
Proof. intros S M. apply C113_rejected; [exact S|]. rewrite !lin_length. lia. Qed.
(** ** Coils made with coils_via_symmetries and the surface's nfp give such a field *)
Theorem C113_coils_sym (s : tsurf) (ce : nat -> list qpt) (ie : nat -> R) (cs : list curve) (is : list current) (coils : list (curve * current)) :
  (0 < nfp s)%nat -> coils_via_symmetries cs is (nfp s) true = Some coils -> sym_field s (coils_field kB (map (coil_data ce ie) coils)).
Proof.
  intros P HC. split.
  - intros x. exact (proj1 (C55_field_is_stellarator_symmetric ce ie cs is (nfp s) true coils HC eq_refl x)).
  - intros x. pose proof (proj1 (C55_field_has_field_period ce ie cs is (nfp s) true coils HC P 1 x)) as E. cbn [INR] in E. rewrite Rmult_1_r in E. exact E.
Qed.
(** ** A concrete case *)
Example C113_ex : exists m, get_stellsym_mask ex_s (linspace (1 / INR 2) 3) (linspace 1 3) = Some m /\ documented ex_s (linspace (1 / INR 2) 3) (linspace 1 3) /\ n_equations ex_s m 3 3 = 15%nat /\ n_unknowns ex_s = 15%nat.
Proof.
  assert (Dc : documented ex_s (linspace (1 / INR 2) 3) (linspace 1 3)) by (left; split; reflexivity).
  destruct (mask_cases ex_s _ _ eq_refl Dc) as (m & G & _). exists m. split; [exact G|]. split; [exact Dc|]. split; [|reflexivity].
  pose proof (C113_square_system ex_s _ _ m (or_introl (conj eq_refl Dc)) G) as Q. rewrite !lin_length in Q. exact Q.
Qed.
Print Assumptions C113_kept_equations_suffice.
