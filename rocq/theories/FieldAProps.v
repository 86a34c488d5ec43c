(** C127: analytic fields and their derivatives. *)
From Coq Require Import Reals Lra Lia List Bool Arith.
From Verif Require Import ListAux Vec3 BSDeriv CurveObjProps CurveDiffProps SurfDiffProps PointsModel FieldAModel.
Import ListNotations.
Open Scope R_scope.

(** ** Specification (docs/source/fields.rst: dB_by_dX[j,l] is the derivative of component l along x_j; d2B_by_dXdX[j,k,l] that of dB_by_dX[j,l] along x_k) *)
Definition is_gradient (F : vec3 -> vec3) (p : vec3) (G : nat -> nat -> R) : Prop := forall j l, (j < 3)%nat -> (l < 3)%nat -> D (fun s => coord (F (along p j s)) l) 0 (G j l).
Definition transposed (G : nat -> nat -> R) (j l : nat) : R := G l j.
Definition off_axis (p : vec3) : Prop := vx p <> 0 \/ vy p <> 0.

(** ** calculus *)
Ltac dd := lazymatch goal with
  | |- D (fun s => s) _ _ => apply D_id
  | |- D (fun _ => ?c) _ _ => exact (D_const c _)
  | |- D (fun s => @?f s + @?g s) _ _ => eapply (D_add f g); dd
  | |- D (fun s => @?f s - @?g s) _ _ => eapply (D_sub f g); dd
  | |- D (fun s => - @?f s) _ _ => eapply (D_opp f); dd
  | |- D (fun s => @?f s * @?g s) _ _ => eapply (D_mul f g); dd
  | |- D (fun s => @?f s / @?g s) _ _ => eapply (D_div f g); [dd|dd|]
  | |- D (fun s => sqrt (@?f s)) _ _ => eapply (D_sqrt f); [dd|]
  | |- _ => eassumption
  end.
Lemma along_c p k s : along p k s = V3 (vx p + s * vx (unit3 k)) (vy p + s * vy (unit3 k)) (vz p + s * vz (unit3 k)). Proof. reflexivity. Qed.
Lemma rad_pos p : off_axis p -> 0 < rad p.
Proof. intros H. unfold rad. apply sqrt_lt_R0. destruct H; nra. Qed.
Lemma rad_sq p : rad p * rad p = vx p ^ 2 + vy p ^ 2.
Proof. unfold rad. apply sqrt_sqrt. nra. Qed.
Lemma phi_cs p : off_axis p -> cos (atan2 (vy p) (vx p)) = vx p / rad p /\ sin (atan2 (vy p) (vx p)) = vy p / rad p.
Proof.
  intros H. pose proof (rad_pos p H) as P. destruct (atan2_polar (vx p) (vy p)) as (A & B). unfold rad in *. replace (vx p * vx p + vy p * vy p) with (vx p ^ 2 + vy p ^ 2) in * by ring.
  split; [rewrite <- A at 2|rewrite <- B at 2]; field; lra.
Qed.
(** near a point off the axis *)
Lemma off_axis_near p k : off_axis p -> exists e, 0 < e /\ forall s, Rabs s < e -> off_axis (along p k s).
Proof.
  intros [H|H].
  - exists (Rabs (vx p)). split; [now apply Rabs_pos_lt|]. intros s S. left. rewrite along_c. cbn [vx vy vz]. destruct k as [|k]; [|destruct k; cbn [unit3 vx vy vz]; lra]. cbn [unit3 vx vy vz]. unfold Rabs in S. destruct (Rcase_abs s), (Rcase_abs (vx p)); lra.
  - exists (Rabs (vy p)). split; [now apply Rabs_pos_lt|]. intros s S. right. rewrite along_c. cbn [vx vy vz]. destruct k as [|[|k]]; cbn [unit3 vx vy vz]; try lra. unfold Rabs in S. destruct (Rcase_abs s), (Rcase_abs (vy p)); lra.
Qed.
Lemma gradient_near F G p d : off_axis p -> (forall q, off_axis q -> F q = G q) -> is_gradient G p d -> is_gradient F p d.
Proof.
  intros H E HG j l J L. destruct (off_axis_near p j H) as (e & P & N). refine (D_near _ _ _ _ _ (HG j l J L)). exists e. split; [exact P|]. intros s Hs. rewrite Rminus_0_r in Hs. rewrite (E _ (N s Hs)). reflexivity.
Qed.
Ltac cases3 k H := destruct k as [|[|[|k]]]; [clear H|clear H|clear H|exfalso; revert H; clear; lia].
Lemma n2_nz p : off_axis p -> vx p ^ 2 + vy p ^ 2 <> 0.
Proof. intros [H|H]; nra. Qed.

(** ** ToroidalField *)
Definition tor_closed (c : R) (p : vec3) : vec3 := V3 (- (c * vy p) / (vx p ^ 2 + vy p ^ 2)) (c * vx p / (vx p ^ 2 + vy p ^ 2)) 0.
Lemma tor_B_closed R0 B0 p : off_axis p -> tor_B R0 B0 p = tor_closed (R0 * B0) p.
Proof.
  intros H. pose proof (rad_pos p H) as P. pose proof (rad_sq p) as Q. destruct (phi_cs p H) as (C & S). unfold tor_B, tor_closed. rewrite C, S, <- Q. apply v3_eq; cbn [vx vy vz scal3]; field; lra.
Qed.
Lemma tor_B_gradient c p : off_axis p -> is_gradient (tor_closed c) p (fun j l => at2 [[c * (2 * (vx p * vy p)) / (vx p ^ 2 + vy p ^ 2) ^ 2; c * (vy p ^ 2 - vx p ^ 2) / (vx p ^ 2 + vy p ^ 2) ^ 2; 0];
  [c * (vy p ^ 2 - vx p ^ 2) / (vx p ^ 2 + vy p ^ 2) ^ 2; c * (-2 * (vx p * vy p)) / (vx p ^ 2 + vy p ^ 2) ^ 2; 0]; [0; 0; 0]] j l).
Proof.
  intros H j l J L. assert (N := n2_nz p H). destruct p as [x y z]. cbn [vx vy] in *. unfold tor_closed. cases3 j J; cases3 l L; unfold at2; cbn [coord along add3 scal3 unit3 vx vy vz nth pow] in *; (eapply D_val; [|dd]); cbv beta; try (field; nra); nra.
Qed.
Lemma tor_dB_closed R0 B0 p j l : off_axis p -> tor_dB R0 B0 p j l = at2 [[(R0 * B0) * (2 * (vx p * vy p)) / (vx p ^ 2 + vy p ^ 2) ^ 2; (R0 * B0) * (vy p ^ 2 - vx p ^ 2) / (vx p ^ 2 + vy p ^ 2) ^ 2; 0];
  [(R0 * B0) * (vy p ^ 2 - vx p ^ 2) / (vx p ^ 2 + vy p ^ 2) ^ 2; (R0 * B0) * (-2 * (vx p * vy p)) / (vx p ^ 2 + vy p ^ 2) ^ 2; 0]; [0; 0; 0]] j l.
Proof.
  intros H. assert (N := n2_nz p H). unfold tor_dB, at2. assert (E : rad p ^ 4 = (vx p ^ 2 + vy p ^ 2) ^ 2) by (rewrite <- rad_sq; ring). rewrite E. set (n := vx p ^ 2 + vy p ^ 2) in *.
  assert (nn : n ^ 2 <> 0) by (apply pow_nonzero; exact N).
  destruct j as [|[|[|j]]], l as [|[|[|l]]]; cbn [nth]; try reflexivity; try (field; exact N); try ring; try (destruct j; reflexivity); try (destruct l; reflexivity); try (destruct j, l; reflexivity).
Qed.
Lemma gradient_ext F p d d' : (forall j l, (j < 3)%nat -> (l < 3)%nat -> d j l = d' j l) -> is_gradient F p d -> is_gradient F p d'.
Proof. intros E H j l J L. rewrite <- E by assumption. now apply H. Qed.
Theorem C127_toroidal (R0 B0 : R) (p : vec3) : off_axis p ->
  is_gradient (tor_B R0 B0) p (tor_dB R0 B0 p) /\
  absB (tor_B R0 B0 p) = Rabs (R0 * B0) / sqrt (vx p ^ 2 + vy p ^ 2) /\ dot3 (tor_B R0 B0 p) (V3 (- vy p) (vx p) 0) = R0 * B0 /\
  dot3 (tor_B R0 B0 p) (V3 (vx p) (vy p) 0) = 0 /\ vz (tor_B R0 B0 p) = 0 /\
  tor_dB R0 B0 p 0 0 + tor_dB R0 B0 p 1 1 + tor_dB R0 B0 p 2 2 = 0 /\ (forall j l, (j < 3)%nat -> (l < 3)%nat -> tor_dB R0 B0 p j l = tor_dB R0 B0 p l j).
Proof.
  intros H. assert (N := n2_nz p H). pose proof (rad_pos p H) as P. pose proof (rad_sq p) as Q.
  split. { apply (gradient_near _ (tor_closed (R0 * B0)) _ _ H); [intros; now apply tor_B_closed|]. eapply gradient_ext; [|apply (tor_B_gradient (R0 * B0) p H)]. intros j l _ _. symmetry. now apply tor_dB_closed. }
  split. { rewrite tor_B_closed by exact H. unfold absB, tor_closed. cbn [vx vy vz]. fold (rad p). rewrite <- Q. apply sqrt_lem_1.
    - assert (G : forall a, 0 <= a * a) by (intros; nra). pose proof (G (- (R0 * B0 * vy p) / (rad p * rad p))). pose proof (G (R0 * B0 * vx p / (rad p * rad p))). lra.
    - apply Rmult_le_pos; [apply Rabs_pos|]. left. now apply Rinv_0_lt_compat.
    - replace (Rabs (R0 * B0) / rad p * (Rabs (R0 * B0) / rad p)) with (Rabs (R0 * B0) * Rabs (R0 * B0) / (rad p * rad p)) by (field; lra). assert (AA : Rabs (R0 * B0) * Rabs (R0 * B0) = (R0 * B0) * (R0 * B0)) by (rewrite <- Rabs_mult; apply Rabs_right; apply Rle_ge, Rle_0_sqr). rewrite AA.
      transitivity ((R0 * B0) * (R0 * B0) * (vx p ^ 2 + vy p ^ 2) / (rad p * rad p) / (rad p * rad p)); [rewrite <- Q|]; field; lra. }
  split. { rewrite tor_B_closed by exact H. unfold tor_closed, dot3. cbn [vx vy vz]. field. exact N. }
  split. { rewrite tor_B_closed by exact H. unfold tor_closed, dot3. cbn [vx vy vz]. field. exact N. }
  split. { rewrite tor_B_closed by exact H. reflexivity. }
  split. { rewrite !tor_dB_closed by exact H. unfold at2. cbn [nth]. field. exact N. }
  intros j l J L. rewrite !tor_dB_closed by exact H. unfold at2. cases3 j J; cases3 l L; reflexivity.
Qed.
(** 26 of the 27 second derivatives are right; the entry d^2 Bx / dx^2 is right at x = 0 and y = -1 only *)
Lemma tor_ddB_true (R0 B0 : R) (p : vec3) (j k l : nat) : off_axis p -> (j < 3)%nat -> (k < 3)%nat -> (l < 3)%nat ->
  D (fun s => tor_dB R0 B0 (along p k s) j l) 0 (if ((j =? 0) && (k =? 0) && (l =? 0))%nat then 2 * B0 * R0 * (vy p ^ 3 - 3 * vx p ^ 2 * vy p) / (vx p ^ 2 + vy p ^ 2) ^ 3 else tor_ddB R0 B0 p j k l).
Proof.
  intros H J K L. assert (N := n2_nz p H). destruct (off_axis_near p k H) as (e & EP & NE).
  refine (D_near _ _ _ _ _ _). { exists e. split; [exact EP|]. intros s Hs. rewrite Rminus_0_r in Hs. symmetry. exact (tor_dB_closed R0 B0 _ j l (NE s Hs)). }
  clear NE EP. destruct p as [x y z]. cbn [vx vy] in *. assert (N' : x * x + y * y <> 0) by nra. cases3 j J; cases3 k K; cases3 l L; unfold tor_ddB, at2, at3; cbn [Nat.eqb andb coord along add3 scal3 unit3 vx vy vz nth pow] in *;
    (eapply D_val; [|dd]); cbv beta; try (field; nra); try (apply Rgt_not_eq; nra).
Qed.
Theorem C127_toroidal_d2B (R0 B0 : R) (p : vec3) (j k l : nat) : off_axis p -> (j < 3)%nat -> (k < 3)%nat -> (l < 3)%nat ->
  (D (fun s => tor_dB R0 B0 (along p k s) j l) 0 (tor_ddB R0 B0 p j k l) <-> ((j, k, l) <> (0, 0, 0)%nat \/ R0 * B0 = 0 \/ vx p = 0 \/ vy p = -1)).
Proof.
  intros H J K L. pose proof (tor_ddB_true R0 B0 p j k l H J K L) as T. assert (N := n2_nz p H).
  destruct ((j =? 0) && (k =? 0) && (l =? 0))%nat eqn:E.
  - apply andb_prop in E as (E & EL). apply andb_prop in E as (EJ & EK). apply Nat.eqb_eq in EJ, EK, EL. subst j k l. split.
    + intros X. right. pose proof (uniqueness_limite _ _ _ _ T X) as U. unfold tor_ddB, at3 in U. cbn [nth] in U.
      assert (Z : R0 * B0 * (vx p * vx p * (1 + vy p)) = 0).
      { assert (V : 2 * B0 * R0 * (vy p ^ 3 - 3 * vx p ^ 2 * vy p) = 2 * B0 * R0 * (3 * vx p ^ 2 + vy p ^ 3)).
        { transitivity (2 * B0 * R0 * (vy p ^ 3 - 3 * vx p ^ 2 * vy p) / (vx p ^ 2 + vy p ^ 2) ^ 3 * (vx p ^ 2 + vy p ^ 2) ^ 3); [field; exact N|]. rewrite U. field. exact N. }
        lra. }
      apply Rmult_integral in Z as [Z|Z]; [now left|]. right. apply Rmult_integral in Z as [Z|Z]; [left; apply Rmult_integral in Z; tauto|right; lra].
    + intros [X|X]; [congruence|]. refine (D_val _ _ _ _ _ T). unfold tor_ddB, at3. cbn [nth].
      assert (Z : R0 * B0 * (vx p * vx p * (1 + vy p)) = 0) by (destruct X as [->|[->| ->]]; ring).
      assert (Y : 2 * B0 * R0 * (vy p ^ 3 - 3 * vx p ^ 2 * vy p) = 2 * B0 * R0 * (3 * vx p ^ 2 + vy p ^ 3)) by nra. rewrite Y. field. exact N.
  - split; [|intros _; exact T]. intros _. left. intros X. injection X as -> -> ->. discriminate.
Qed.
Lemma tor_A_gradient R0 B0 p : off_axis p -> vz p <> 0 -> is_gradient (tor_A R0 B0) p (transposed (tor_dA R0 B0 p)).
Proof.
  intros H Z j l J L. assert (N := n2_nz p H). destruct p as [x y z]. cbn [vx vy vz] in *. assert (N' : x * x + y * y <> 0) by nra. unfold tor_A, tor_dA, transposed, at2. cases3 j J; cases3 l L; cbn [coord along add3 scal3 unit3 vx vy vz nth pow] in *; (eapply D_val; [|dd]); cbv beta; try (field; split; nra); try (field; nra); nra.
Qed.
(** the vector potential is one of the field; its derivatives come with the first two indices exchanged *)
Theorem C127_toroidal_A (R0 B0 : R) (p : vec3) : off_axis p -> vz p <> 0 ->
  is_gradient (tor_A R0 B0) p (transposed (tor_dA R0 B0 p)) /\
  (forall G, is_gradient (tor_A R0 B0) p G -> tor_B R0 B0 p = V3 (G 1 2 - G 2 1) (G 2 0 - G 0 2) (G 0 1 - G 1 0))%nat /\
  (is_gradient (tor_A R0 B0) p (tor_dA R0 B0 p) <-> R0 * B0 = 0).
Proof.
  intros H Z. pose proof (tor_A_gradient R0 B0 p H Z) as T. assert (N := n2_nz p H). split; [exact T|]. split.
  - intros G HG. assert (E : forall j l, (j < 3)%nat -> (l < 3)%nat -> G j l = tor_dA R0 B0 p l j) by (intros j l J L; exact (uniqueness_limite _ _ _ _ (HG j l J L) (T j l J L))). rewrite !E by lia. rewrite tor_B_closed by exact H. unfold tor_dA, tor_closed, at2. cbn [nth]. apply v3_eq; cbn [vx vy vz]; field; auto.
  - split.
    + intros HG. assert (E : forall j l, (j < 3)%nat -> (l < 3)%nat -> tor_dA R0 B0 p j l = tor_dA R0 B0 p l j) by (intros j l J L; exact (uniqueness_limite _ _ _ _ (HG j l J L) (T j l J L))).
      pose proof (E 0 2 ltac:(lia) ltac:(lia))%nat as E1. pose proof (E 1 2 ltac:(lia) ltac:(lia))%nat as E2. unfold tor_dA, at2 in E1, E2. cbn [nth] in E1, E2.
      assert (V1 : R0 * B0 * vx p = 0) by (transitivity (B0 * R0 * (vz p / (vx p ^ 2 + vy p ^ 2) ^ 2 * (vx p * (vx p ^ 2 + vy p ^ 2) / vz p)) * (vx p ^ 2 + vy p ^ 2)); [field; auto|rewrite E1; ring]).
      assert (V2 : R0 * B0 * vy p = 0) by (transitivity (B0 * R0 * (vz p / (vx p ^ 2 + vy p ^ 2) ^ 2 * (vy p * (vx p ^ 2 + vy p ^ 2) / vz p)) * (vx p ^ 2 + vy p ^ 2)); [field; auto|rewrite E2; ring]).
      destruct H as [H|H]; [apply (Rmult_eq_reg_r (vx p)); [|exact H]|apply (Rmult_eq_reg_r (vy p)); [|exact H]]; lra.
    + intros C j l J L. refine (D_val _ _ _ _ _ (T j l J L)). unfold transposed, tor_dA. rewrite (Rmult_comm B0), C. ring.
Qed.
Theorem C127_toroidal_d2A (R0 B0 : R) (p : vec3) (j k l : nat) : off_axis p -> vz p <> 0 -> (j < 3)%nat -> (k < 3)%nat -> (l < 3)%nat ->
  D (fun s => transposed (tor_dA R0 B0 (along p k s)) j l) 0 (tor_ddA R0 B0 p l j k).
Proof.
  intros H Z J K L. assert (N := n2_nz p H). unfold transposed.
  refine (D_near (fun s => at2 [[B0 * R0 * (vz (along p k s) * (- vx (along p k s) ^ 2 + vy (along p k s) ^ 2) / (vx (along p k s) ^ 2 + vy (along p k s) ^ 2) ^ 2); B0 * R0 * (vz (along p k s) * (-2 * vx (along p k s) * vy (along p k s)) / (vx (along p k s) ^ 2 + vy (along p k s) ^ 2) ^ 2); B0 * R0 * (vx (along p k s) / (vx (along p k s) ^ 2 + vy (along p k s) ^ 2))];
     [B0 * R0 * (vz (along p k s) * (-2 * vx (along p k s) * vy (along p k s)) / (vx (along p k s) ^ 2 + vy (along p k s) ^ 2) ^ 2); B0 * R0 * (vz (along p k s) * (vx (along p k s) ^ 2 - vy (along p k s) ^ 2) / (vx (along p k s) ^ 2 + vy (along p k s) ^ 2) ^ 2); B0 * R0 * (vy (along p k s) / (vx (along p k s) ^ 2 + vy (along p k s) ^ 2))]; [0; 0; 0]] l j) _ _ _ _ _).
  - destruct (off_axis_near p k H) as (e & EP & NE). exists (Rmin e (Rabs (vz p))). split; [apply Rmin_glb_lt; [exact EP|now apply Rabs_pos_lt]|]. intros s Hs. rewrite Rminus_0_r in Hs.
    assert (N2 := n2_nz _ (NE s (Rlt_le_trans _ _ _ Hs (Rmin_l _ _)))). assert (Z2 : vz (along p k s) <> 0).
    { pose proof (Rlt_le_trans _ _ _ Hs (Rmin_r _ _)) as S. rewrite along_c. cbn [vx vy vz]. destruct k as [|[|k]]; cbn [unit3 vz]; try lra. unfold Rabs in S. destruct (Rcase_abs s), (Rcase_abs (vz p)); lra. }
    unfold tor_dA. set (q := along p k s) in *. clearbody q. unfold at2. cases3 j J; cases3 l L; cbn [nth]; try (field; auto); ring.
  - destruct p as [x y z]. cbn [vx vy vz] in *. assert (N' : x * x + y * y <> 0) by nra. cases3 j J; cases3 k K; cases3 l L; unfold tor_ddA, at2, at3; cbn [coord along add3 scal3 unit3 vx vy vz nth pow] in *;
    (eapply D_val; [|dd]); cbv beta; try (field; split; nra); try (field; nra); try nra.
Qed.
(** ** PoloidalField *)
Definition pol_closed (R0 c : R) (p : vec3) : vec3 := V3 (- (c * (vz p * vx p)) / sqrt (vx p ^ 2 + vy p ^ 2)) (- (c * (vz p * vy p)) / sqrt (vx p ^ 2 + vy p ^ 2)) (c * (sqrt (vx p ^ 2 + vy p ^ 2) - R0)).
Lemma theta_cs R0 p : cos (pol_theta R0 p) * pol_r R0 p = rad p - R0 /\ sin (pol_theta R0 p) * pol_r R0 p = vz p.
Proof.
  destruct (atan2_polar (rad p - R0) (vz p)) as (A & B). unfold pol_theta, pol_r. unfold rad in *. replace ((sqrt (vx p ^ 2 + vy p ^ 2) - R0) * (sqrt (vx p ^ 2 + vy p ^ 2) - R0) + vz p * vz p) with ((sqrt (vx p ^ 2 + vy p ^ 2) - R0) ^ 2 + vz p ^ 2) in * by ring. split; [rewrite Rmult_comm; exact A|rewrite Rmult_comm; exact B].
Qed.
Lemma pol_B_closed R0 B0 q p : off_axis p -> pol_B R0 B0 q p = pol_closed R0 (B0 / R0 / q) p.
Proof.
  intros H. pose proof (rad_pos p H) as P. destruct (phi_cs p H) as (C & S). destruct (theta_cs R0 p) as (CT & ST). unfold pol_B, pol_closed. cbv zeta. unfold pol_phi. rewrite C, S, CT, ST. fold (rad p). set (c := B0 / R0 / q). clearbody c. apply v3_eq; cbn [vx vy vz scal3]; try (field; lra).
Qed.
Definition pol_grad (c : R) (p : vec3) (j l : nat) : R := let R := rad p in
  c * at2 [[- vz p / R + vz p * vx p ^ 2 / R ^ 3; vz p * vx p * vy p / R ^ 3; vx p / R]; [vz p * vx p * vy p / R ^ 3; - vz p / R + vz p * vy p ^ 2 / R ^ 3; vy p / R]; [- vx p / R; - vy p / R; 0]] j l.
Lemma pol_B_gradient R0 c p : off_axis p -> is_gradient (pol_closed R0 c) p (pol_grad c p).
Proof.
  intros H j l J L. assert (P := rad_pos p H). assert (Q := rad_sq p). assert (N := n2_nz p H). destruct p as [x y z]. unfold pol_closed, pol_grad, rad in *. cbn [vx vy vz] in *.
  assert (N' : 0 < x * (x * 1) + y * (y * 1)) by nra.
  cases3 j J; cases3 l L; unfold at2; cbn [coord along add3 scal3 unit3 vx vy vz nth pow] in *; (eapply D_val; [|dd]); cbv beta;
    rewrite ?Rmult_0_l, ?Rmult_0_r, ?Rmult_1_l, ?Rplus_0_r; rewrite ?Rmult_0_l, ?Rmult_0_r, ?Rmult_1_l, ?Rplus_0_r; try lra; rewrite ?Rmult_1_r in *; set (w := sqrt (x * x + y * y)) in *; clearbody w; try lra; try (field; lra).
Qed.
Lemma pol_r_pos R0 p : rad p <> R0 -> 0 < pol_r R0 p /\ pol_r R0 p * pol_r R0 p = (rad p - R0) * (rad p - R0) + vz p * vz p.
Proof.
  intros H. unfold pol_r. fold (rad p). assert (X : 0 < (rad p - R0) ^ 2 + vz p ^ 2) by (assert (0 < (rad p - R0) * (rad p - R0)) by (apply Rlt_0_sqr; lra); nra). split; [now apply sqrt_lt_R0|]. rewrite sqrt_sqrt; [ring|lra].
Qed.
Lemma pol_dB_closed R0 B0 q p j l : off_axis p -> rad p <> R0 -> (j < 3)%nat -> (l < 3)%nat -> pol_dB R0 B0 q p j l = pol_grad (B0 / R0 / q) p l j.
Proof.
  intros H HR J L. assert (P := rad_pos p H). assert (Q := rad_sq p). destruct (phi_cs p H) as (C & S). destruct (theta_cs R0 p) as (CT & ST). destruct (pol_r_pos R0 p HR) as (rp & rq).
  assert (ct : cos (pol_theta R0 p) = (rad p - R0) / pol_r R0 p) by (rewrite <- CT; field; lra). assert (st : sin (pol_theta R0 p) = vz p / pol_r R0 p) by (rewrite <- ST; field; lra).
  unfold pol_dB, pol_grad. f_equal. unfold pol_term, dunit_by, unit_theta, dr_by, dtheta_by, dphi_by, pol_phi. rewrite C, S, ct, st. fold (rad p).
  assert (E1 : vx p ^ 2 + vy p ^ 2 + vz p ^ 2 - 2 * rad p * R0 + R0 ^ 2 = pol_r R0 p * pol_r R0 p) by (rewrite rq, <- Q; ring). rewrite E1.
  assert (E2 : sqrt ((R0 - rad p) ^ 2 + vz p ^ 2) = pol_r R0 p) by (unfold pol_r; fold (rad p); f_equal; ring). rewrite E2.
  assert (E3 : 1 / ((- R0 + rad p) * (1 + vz p ^ 2 / (R0 - rad p) ^ 2)) = (rad p - R0) / (pol_r R0 p * pol_r R0 p)).
  { assert (U : R0 - rad p <> 0) by lra. assert (U2 : rad p - R0 <> 0) by lra. replace (1 + vz p ^ 2 / (R0 - rad p) ^ 2) with (pol_r R0 p * pol_r R0 p / (R0 - rad p) ^ 2) by (rewrite rq; field; exact U). field. repeat split; try lra. }
  rewrite E3. rewrite <- Q. set (w := rad p) in *. set (r := pol_r R0 p) in *. clearbody w r. destruct p as [x y z]. cbn [vx vy vz] in *. clear E1 E2 E3 C S CT ST ct st H.
  assert (Y : y * y = w * w - x * x) by lra. assert (X : x * x = w * w - y * y) by lra. assert (Z : z * z = r * r - (w - R0) * (w - R0)) by lra.
  cases3 j J; cases3 l L; unfold at2; cbn [nth map seq].
  - transitivity (- z * (y * y) / (w * w * w)); [field; lra|rewrite Y; field; lra].
  - field; lra.
  - transitivity (- (x * (z * z + (w - R0) * (w - R0)) / (w * (r * r)))); [field; lra|rewrite Z; field; lra].
  - field; lra.
  - transitivity (- z * (x * x) / (w * w * w)); [field; lra|rewrite X; field; lra].
  - transitivity (- (y * (z * z + (w - R0) * (w - R0)) / (w * (r * r)))); [field; lra|rewrite Z; field; lra].
  - transitivity (x * (z * z + (w - R0) * (w - R0)) / (w * (r * r))); [field; lra|rewrite Z; field; lra].
  - transitivity (y * (z * z + (w - R0) * (w - R0)) / (w * (r * r))); [field; lra|rewrite Z; field; lra].
  - field; lra.
Qed.
Theorem C127_poloidal (R0 B0 q : R) (p : vec3) : off_axis p -> let u := sqrt (vx p ^ 2 + vy p ^ 2) - R0 in
  pol_B R0 B0 q p = add3 (scal3 (- (B0 / R0 / q * vz p)) (V3 (vx p / sqrt (vx p ^ 2 + vy p ^ 2)) (vy p / sqrt (vx p ^ 2 + vy p ^ 2)) 0)) (V3 0 0 (B0 / R0 / q * u)) /\
  absB (pol_B R0 B0 q p) = Rabs (B0 / R0 / q) * sqrt (u ^ 2 + vz p ^ 2) /\
  (u <> 0 -> is_gradient (pol_B R0 B0 q) p (transposed (pol_dB R0 B0 q p)) /\ (is_gradient (pol_B R0 B0 q) p (pol_dB R0 B0 q p) <-> B0 / R0 / q = 0)).
Proof.
  intros H. cbv zeta. assert (P := rad_pos p H). assert (Q := rad_sq p). assert (N := n2_nz p H). rewrite pol_B_closed by exact H. fold (rad p). split; [|split].
  - unfold pol_closed. fold (rad p). generalize (B0 / R0 / q). intros c. clear Q N. apply v3_eq; cbn [vx vy vz add3 scal3]; try (field; lra).
  - unfold absB, pol_closed. cbn [vx vy vz]. fold (rad p). set (c := B0 / R0 / q).
    replace (- (c * (vz p * vx p)) / rad p * (- (c * (vz p * vx p)) / rad p) + - (c * (vz p * vy p)) / rad p * (- (c * (vz p * vy p)) / rad p) + c * (rad p - R0) * (c * (rad p - R0))) with (Rsqr c * ((rad p - R0) ^ 2 + vz p ^ 2)).
    + rewrite sqrt_mult_alt by apply Rle_0_sqr. now rewrite sqrt_Rsqr_abs.
    + unfold Rsqr. transitivity (c * c * ((rad p - R0) ^ 2 + vz p ^ 2 * ((vx p ^ 2 + vy p ^ 2) / (rad p * rad p)))); [rewrite <- Q; field; lra|field; lra].
  - intros U. assert (T : is_gradient (pol_B R0 B0 q) p (transposed (pol_dB R0 B0 q p))).
    { apply (gradient_near _ (pol_closed R0 (B0 / R0 / q)) _ _ H); [intros; now apply pol_B_closed|]. eapply gradient_ext; [|apply (pol_B_gradient R0 (B0 / R0 / q) p H)]. intros j l J L. unfold transposed. rewrite pol_dB_closed by (auto; lra). reflexivity. }
    split; [exact T|]. split.
    + intros G. assert (E : forall j l, (j < 3)%nat -> (l < 3)%nat -> pol_dB R0 B0 q p j l = pol_dB R0 B0 q p l j) by (intros j l J L; exact (uniqueness_limite _ _ _ _ (G j l J L) (T j l J L))).
      pose proof (E 0 2 ltac:(lia) ltac:(lia))%nat as E1. pose proof (E 1 2 ltac:(lia) ltac:(lia))%nat as E2. rewrite !pol_dB_closed in E1, E2 by (auto; try lia; lra). unfold pol_grad, at2 in E1, E2. cbn [nth] in E1, E2. set (c := B0 / R0 / q) in *. clearbody c.
      assert (V1 : c * vx p = 0) by (transitivity (c * (vx p / rad p) * rad p); [field; lra|]; assert (W : c * (vx p / rad p) = - (c * (vx p / rad p))) by (unfold Rdiv in *; lra); assert (c * (vx p / rad p) = 0) by lra; rewrite H0; ring).
      assert (V2 : c * vy p = 0) by (transitivity (c * (vy p / rad p) * rad p); [field; lra|]; assert (W : c * (vy p / rad p) = - (c * (vy p / rad p))) by (unfold Rdiv in *; lra); assert (c * (vy p / rad p) = 0) by lra; rewrite H0; ring).
      destruct H as [H|H]; [apply (Rmult_eq_reg_r (vx p)); [|exact H]|apply (Rmult_eq_reg_r (vy p)); [|exact H]]; lra.
    + intros C j l J L. refine (D_val _ _ _ _ _ (T j l J L)). unfold transposed, pol_dB. rewrite C. ring.
Qed.
(** what GradAbsB returns for a PoloidalField is minus the gradient of |B| *)
Theorem C127_poloidal_gradabs (R0 B0 q : R) (p : vec3) (j : nat) : off_axis p -> sqrt (vx p ^ 2 + vy p ^ 2) <> R0 -> (j < 3)%nat -> B0 / R0 / q <> 0 ->
  D (fun s => absB (pol_B R0 B0 q (along p j s))) 0 (- gradAbsB (pol_B R0 B0 q p) (pol_dB R0 B0 q p) j).
Proof.
  intros H U J NC. assert (P := rad_pos p H). assert (Q := rad_sq p). assert (N := n2_nz p H). destruct (pol_r_pos R0 p U) as (rp & rq). pose proof (C127_poloidal R0 B0 q p H) as (_ & AB & _). cbv zeta in AB.
  set (c := B0 / R0 / q) in *. assert (AC : 0 < Rabs c) by now apply Rabs_pos_lt. assert (AA : Rabs c * Rabs c = c * c) by (rewrite <- Rabs_mult; apply Rabs_right; apply Rle_ge, Rle_0_sqr).
  refine (D_near (fun s => Rabs c * sqrt ((sqrt (vx (along p j s) ^ 2 + vy (along p j s) ^ 2) - R0) ^ 2 + vz (along p j s) ^ 2)) _ _ _ _ _).
  { destruct (off_axis_near p j H) as (e & EP & NE). exists e. split; [exact EP|]. intros s Hs. rewrite Rminus_0_r in Hs. pose proof (C127_poloidal R0 B0 q _ (NE s Hs)) as (_ & A & _). symmetry. exact A. }
  assert (G : gradAbsB (pol_B R0 B0 q p) (pol_dB R0 B0 q p) j = - (Rabs c * (coord (V3 ((rad p - R0) * vx p / rad p) ((rad p - R0) * vy p / rad p) (vz p)) j / pol_r R0 p))).
  { unfold gradAbsB. rewrite AB. fold (rad p). change (sqrt ((rad p - R0) ^ 2 + vz p ^ 2)) with (pol_r R0 p). rewrite !pol_dB_closed by (auto; try lia; exact U). rewrite pol_B_closed by exact H. fold c. unfold pol_closed, pol_grad. fold (rad p). cbn [vx vy vz].
    set (w := rad p) in *. set (r := pol_r R0 p) in *. clearbody c. clear AB. assert (X : vx p ^ 2 = w * w - vy p ^ 2) by lra. assert (R1 : Rabs c = c * c / Rabs c) by (rewrite <- AA; field; lra). cases3 j J; unfold at2; cbn [nth coord vx vy vz].
    - transitivity (c * c * (vz p ^ 2 * vx p * (w * w - (vx p ^ 2 + vy p ^ 2)) / w ^ 4 - (w - R0) * vx p / w) / (Rabs c * r)); [field; lra|]. rewrite <- Q. rewrite R1 at 2. field. lra.
    - transitivity (c * c * (vz p ^ 2 * vy p * (w * w - (vx p ^ 2 + vy p ^ 2)) / w ^ 4 - (w - R0) * vy p / w) / (Rabs c * r)); [field; lra|]. rewrite <- Q. rewrite R1 at 2. field. lra.
    - transitivity (- (c * c * (vz p * ((vx p ^ 2 + vy p ^ 2) / (w * w))) / (Rabs c * r))); [field; lra|]. rewrite <- Q. rewrite R1 at 2. field. lra. }
  rewrite G, Ropp_involutive. assert (YY : 0 < (rad p - R0) * (rad p - R0) + vz p * vz p) by (rewrite <- rq; nra). unfold pol_r. fold (rad p). unfold rad in *. clear G AB rq rp U Q. destruct p as [x y z]. cbn [vx vy vz] in *. assert (N' : 0 < x * (x * 1) + y * (y * 1)) by nra.
  cases3 j J; cbn [coord along add3 scal3 unit3 vx vy vz pow] in *; (eapply D_val; [|dd]); cbv beta; rewrite ?Rmult_0_l, ?Rmult_0_r, ?Rmult_1_l, ?Rplus_0_r; rewrite ?Rmult_0_l, ?Rmult_0_r, ?Rmult_1_l, ?Rplus_0_r; rewrite ?Rmult_1_r in *; try (set (w := sqrt (x * x + y * y)) in *; clearbody w); try lra; try (field; split; try lra; apply Rgt_not_eq, sqrt_lt_R0; lra); try (field; apply Rgt_not_eq, sqrt_lt_R0; lra).
Qed.
(** ** MirrorModel *)
Section Mirror.
Variables (B0 gamma Zm : R).
Hypothesis (G0 : gamma <> 0).
Definition lor (s : R) : R := 1 + (s / gamma) ^ 2.
Lemma lor_pos s : 0 < lor s. Proof using. unfold lor. nra. Qed.
Lemma lor_g s : gamma * gamma + s * s <> 0. Proof using G0. nra. Qed.
Definition mir_closed (p : vec3) : vec3 := let K := B0 / (PI * (gamma * gamma * gamma)) * ((vz p - Zm) / (lor (vz p - Zm) * lor (vz p - Zm)) + (vz p + Zm) / (lor (vz p + Zm) * lor (vz p + Zm))) in
  V3 (vx p * K) (vy p * K) (B0 / (PI * gamma) * (1 / lor (vz p - Zm) + 1 / lor (vz p + Zm))).
Lemma rr_pos p : off_axis p -> sqrt (vx p ^ 2 + vy p ^ 2) <> 0. Proof using. intros H. apply Rgt_not_eq. exact (rad_pos p H). Qed.
Lemma mir_B_closed p : off_axis p -> mir_B B0 gamma Zm p = mir_closed p.
Proof using G0.
  intros H. assert (P := rad_pos p H). destruct (phi_cs p H) as (C & S). pose proof PI_neq0 as PN. pose proof (lor_pos (vz p - Zm)). pose proof (lor_pos (vz p + Zm)).
  unfold mir_B, mir_Br, mir_psi, mir_closed. cbv zeta. rewrite C, S. fold (rad p). fold (lor (vz p - Zm)). fold (lor (vz p + Zm)). set (w := rad p) in *. set (l1 := lor (vz p - Zm)) in *. set (l2 := lor (vz p + Zm)) in *. clearbody w l1 l2. apply v3_eq; cbn [vx vy vz]; field; repeat split; auto; lra.
Qed.
Lemma D_lor f s d : D f s d -> D (fun e => lor (f e)) s (2 * f s * d / (gamma * gamma)).
Proof using G0. intros H. unfold lor. cbn [pow]. eapply D_val; [|dd]; try exact G0. cbv beta. field. exact G0. Qed.
Definition mir_K (s : R) : R := B0 / (PI * (gamma * gamma * gamma)) * ((s - Zm) / (lor (s - Zm) * lor (s - Zm)) + (s + Zm) / (lor (s + Zm) * lor (s + Zm))).
Definition mir_K' (s : R) : R := B0 / (PI * (gamma * gamma * gamma)) * (1 / lor (s - Zm) ^ 2 - 4 * (s - Zm) ^ 2 / (gamma ^ 2 * lor (s - Zm) ^ 3) + (1 / lor (s + Zm) ^ 2 - 4 * (s + Zm) ^ 2 / (gamma ^ 2 * lor (s + Zm) ^ 3))).
Definition mir_L (s : R) : R := B0 / (PI * gamma) * (1 / lor (s - Zm) + 1 / lor (s + Zm)).
Lemma D_shift c (f : R -> R) s d : D f s d -> D (fun e => f e + c) s d.
Proof using. intros H. eapply D_val; [|dd]. ring. Qed.
Lemma D_K (f : R -> R) s d : D f s d -> D (fun e => mir_K (f e)) s (d * mir_K' (f s)).
Proof using G0.
  intros H. pose proof PI_neq0 as PN. assert (L1 := lor_pos (f s - Zm)). assert (L2 := lor_pos (f s + Zm)). assert (A := D_lor _ _ _ (D_shift (- Zm) f s d H)). assert (B := D_lor _ _ _ (D_shift Zm f s d H)). cbv beta in *.
  assert (A' : D (fun e => lor (f e - Zm)) s (2 * (f s + - Zm) * d / (gamma * gamma))) by exact A. clear A.
  unfold mir_K, mir_K'. eapply D_val; [|apply (D_mul (fun _ => _) (fun e => (f e - Zm) / (lor (f e - Zm) * lor (f e - Zm)) + (f e + Zm) / (lor (f e + Zm) * lor (f e + Zm)))); [apply D_const|apply D_add; (apply D_div; [| |])]].
  2: { eapply D_sub; [exact H|apply D_const]. } 2: { apply (D_mul (fun e => lor (f e - Zm)) (fun e => lor (f e - Zm))); exact A'. } 2: { nra. } 2: { eapply D_add; [exact H|apply D_const]. } 2: { apply (D_mul (fun e => lor (f e + Zm)) (fun e => lor (f e + Zm))); exact B. } 2: { nra. }
  cbv beta. set (l1 := lor (f s - Zm)) in *. set (l2 := lor (f s + Zm)) in *. clearbody l1 l2. field. repeat split; auto; lra.
Qed.
Lemma D_L (f : R -> R) s d : D f s d -> D (fun e => mir_L (f e)) s (d * (-2 * mir_K (f s))).
Proof using G0.
  intros H. pose proof PI_neq0 as PN. assert (L1 := lor_pos (f s - Zm)). assert (L2 := lor_pos (f s + Zm)). assert (A := D_lor _ _ _ (D_shift (- Zm) f s d H)). assert (B := D_lor _ _ _ (D_shift Zm f s d H)). cbv beta in *.
  assert (A' : D (fun e => lor (f e - Zm)) s (2 * (f s + - Zm) * d / (gamma * gamma))) by exact A. clear A.
  unfold mir_K, mir_L. eapply D_val; [|apply (D_mul (fun _ => _) (fun e => 1 / lor (f e - Zm) + 1 / lor (f e + Zm))); [apply D_const|apply D_add; (apply D_div; [apply D_const| |])]].
  2: { exact A'. } 2: { lra. } 2: { exact B. } 2: { lra. }
  cbv beta. set (l1 := lor (f s - Zm)) in *. set (l2 := lor (f s + Zm)) in *. clearbody l1 l2. field. repeat split; auto; lra.
Qed.
Theorem C127_mirror (p : vec3) : off_axis p -> let r := sqrt (vx p ^ 2 + vy p ^ 2) in
  is_gradient (mir_B B0 gamma Zm) p (mir_dB B0 gamma Zm p) /\
  mir_dB B0 gamma Zm p 0 0 + mir_dB B0 gamma Zm p 1 1 + mir_dB B0 gamma Zm p 2 2 = 0 /\
  (forall dz dr, D (fun s => mir_psi B0 gamma Zm r s) (vz p) dz -> D (fun s => mir_psi B0 gamma Zm s (vz p)) r dr ->
    mir_B B0 gamma Zm p = add3 (scal3 (- (1 / r) * dz) (V3 (vx p / r) (vy p / r) 0)) (V3 0 0 (1 / r * dr))).
Proof using G0.
  intros H. cbv zeta. assert (P := rad_pos p H). assert (Q := rad_sq p). pose proof PI_neq0 as PN. assert (L1 := lor_pos (vz p - Zm)). assert (L2 := lor_pos (vz p + Zm)). fold (rad p). destruct (phi_cs p H) as (C & S).
  assert (DK : mir_dB B0 gamma Zm p 0 0 = mir_K (vz p) /\ mir_dB B0 gamma Zm p 1 1 = mir_K (vz p) /\ mir_dB B0 gamma Zm p 0 1 = 0 /\ mir_dB B0 gamma Zm p 1 0 = 0 /\ mir_dB B0 gamma Zm p 2 0 = vx p * mir_K' (vz p) /\ mir_dB B0 gamma Zm p 2 1 = vy p * mir_K' (vz p) /\ mir_dB B0 gamma Zm p 2 2 = -2 * mir_K (vz p)).
  { unfold mir_dB, mir_Br. cbv zeta. rewrite C, S. fold (rad p). fold (lor (vz p - Zm)). fold (lor (vz p + Zm)). unfold at2. cbn [nth].
    assert (EL : forall s, (s ^ 2 + gamma ^ 2) = gamma ^ 2 * lor s) by (intros s; unfold lor; field; exact G0). rewrite !EL. unfold mir_K, mir_K'. set (l1 := lor (vz p - Zm)) in *. set (l2 := lor (vz p + Zm)) in *. clearbody l1 l2. set (w := rad p) in *. clearbody w. clear C S EL.
    assert (X : vx p ^ 2 = w * w - vy p ^ 2) by lra. repeat split.
    - set (k := (vz p - Zm) / l1 ^ 2 + (vz p + Zm) / l2 ^ 2). transitivity (B0 / (PI * gamma ^ 3) * k); [clearbody k|unfold k; field; repeat split; auto; lra]. field. repeat split; auto; lra.
    - set (k := (vz p - Zm) / l1 ^ 2 + (vz p + Zm) / l2 ^ 2). transitivity (B0 / (PI * gamma ^ 3) * k); [clearbody k|unfold k; field; repeat split; auto; lra]. field. repeat split; auto; lra.
    - field. repeat split; auto; lra.
    - field. repeat split; auto; lra.
    - field. repeat split; auto; lra.
    - field. repeat split; auto; lra.
    - field. repeat split; auto; lra. }
  destruct DK as (D00 & D11 & D01 & D10 & D20 & D21 & D22).
  split; [|split].
  - apply (gradient_near _ mir_closed _ _ H); [intros; now apply mir_B_closed|]. intros j l J L. unfold mir_closed. cbv zeta.
    assert (CZ : forall j, (j < 3)%nat -> D (fun s => vz (along p j s)) 0 (vz (unit3 j))) by (intros i _; cbn [along add3 scal3 vz]; eapply D_val; [|dd]; ring).
    assert (CX : forall j, (j < 3)%nat -> D (fun s => vx (along p j s)) 0 (vx (unit3 j))) by (intros i _; cbn [along add3 scal3 vx]; eapply D_val; [|dd]; ring).
    assert (CY : forall j, (j < 3)%nat -> D (fun s => vy (along p j s)) 0 (vy (unit3 j))) by (intros i _; cbn [along add3 scal3 vy]; eapply D_val; [|dd]; ring).
    assert (Z0 : forall i, along p i 0 = p) by (intros i; apply along_0).
    assert (GX : D (fun s => vx (along p j s) * mir_K (vz (along p j s))) 0 (vx (unit3 j) * mir_K (vz p) + vx p * (vz (unit3 j) * mir_K' (vz p)))) by (eapply D_val; [|apply D_mul; [apply CX, J|apply D_K, CZ, J]]; cbv beta; now rewrite Z0).
    assert (GY : D (fun s => vy (along p j s) * mir_K (vz (along p j s))) 0 (vy (unit3 j) * mir_K (vz p) + vy p * (vz (unit3 j) * mir_K' (vz p)))) by (eapply D_val; [|apply D_mul; [apply CY, J|apply D_K, CZ, J]]; cbv beta; now rewrite Z0).
    assert (GZ : D (fun s => mir_L (vz (along p j s))) 0 (vz (unit3 j) * (-2 * mir_K (vz p)))) by (eapply D_val; [|apply D_L, CZ, J]; cbv beta; now rewrite Z0).
    destruct l as [|[|[|l]]]; [| | |exfalso; revert L; clear; lia]; cbn [coord vx vy vz]; cases3 j J; cbn [unit3 vx vy vz] in *.
    + refine (D_val _ _ _ _ _ GX). rewrite D00. ring.
    + refine (D_val _ _ _ _ _ GX). rewrite D10. ring.
    + refine (D_val _ _ _ _ _ GX). rewrite D20. ring.
    + refine (D_val _ _ _ _ _ GY). rewrite D01. ring.
    + refine (D_val _ _ _ _ _ GY). rewrite D11. ring.
    + refine (D_val _ _ _ _ _ GY). rewrite D21. ring.
    + refine (D_val _ _ _ _ _ GZ). unfold mir_dB, at2. cbn [nth]. ring.
    + refine (D_val _ _ _ _ _ GZ). unfold mir_dB, at2. cbn [nth]. ring.
    + refine (D_val _ _ _ _ _ GZ). rewrite D22. ring.
  - rewrite D00, D11, D22. ring.
  - intros dz dr HZ HR.
    assert (TZ : D (fun s => mir_psi B0 gamma Zm (rad p) s) (vz p) (rad p * rad p / 2 * (-2 * mir_K (vz p)))).
    { apply (D_ext (fun s => rad p * rad p / 2 * mir_L s)). - intros s. assert (M1 := lor_pos (s - Zm)). assert (M2 := lor_pos (s + Zm)). unfold mir_psi, mir_L. fold (lor (s - Zm)). fold (lor (s + Zm)). cbv zeta. field. repeat split; auto; lra.
      - eapply D_val; [|apply (D_mul (fun _ => _) mir_L); [apply D_const|apply (D_L (fun s => s)), D_id]]. ring. }
    assert (TR : D (fun s => mir_psi B0 gamma Zm s (vz p)) (rad p) (rad p * mir_L (vz p))).
    { apply (D_ext (fun s => s * s * (mir_L (vz p) / 2))). - intros s. unfold mir_psi, mir_L. fold (lor (vz p - Zm)). fold (lor (vz p + Zm)). cbv zeta. field. repeat split; auto; lra.
      - eapply D_val; [|dd]. cbv beta. field. }
    rewrite (uniqueness_limite _ _ _ _ HZ TZ), (uniqueness_limite _ _ _ _ HR TR). rewrite mir_B_closed by exact H. unfold mir_closed. fold (mir_K (vz p)). fold (mir_L (vz p)). cbv zeta. generalize (mir_K (vz p)), (mir_L (vz p)). intros k l. clear Q. apply v3_eq; cbn [vx vy vz add3 scal3]; field; lra.
Qed.
End Mirror.
(** the hypotheses are met, and the second derivative of ToroidalField is wrong, at (1,0,1) *)
Example C127_ex : off_axis (V3 1 0 1) /\ tor_B 1 1 (V3 1 0 1) = V3 0 1 0 /\ ~ D (fun s => tor_dB 1 1 (along (V3 1 0 1) 0 s) 0 0) 0 (tor_ddB 1 1 (V3 1 0 1) 0 0 0) /\ ~ is_gradient (pol_B (/ 2) 1 1) (V3 1 0 1) (pol_dB (/ 2) 1 1 (V3 1 0 1)).
Proof.
  assert (H : off_axis (V3 1 0 1)) by (left; cbn [vx]; lra). split; [exact H|]. split; [|split].
  - rewrite tor_B_closed by exact H. unfold tor_closed. apply v3_eq; cbn [vx vy vz]; field.
  - intros X. apply C127_toroidal_d2B in X; [|exact H|lia..]. cbn [vx vy] in X. destruct X as [X|[X|[X|X]]]; [congruence|lra..].
  - pose proof (C127_poloidal (/ 2) 1 1 (V3 1 0 1) H) as (_ & _ & X). cbv zeta in X. cbn [vx vy vz] in X. replace (1 ^ 2 + 0 ^ 2) with 1 in X by ring. rewrite sqrt_1 in X. destruct (X ltac:(lra)) as (_ & Y). intros Z. apply Y in Z. lra.
Qed.
