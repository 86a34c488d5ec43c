(** C96: the regularized constrained least-squares solver. *)
From Coq Require Import Reals Lra Lia List Bool Arith ZArith ZifyNat Psatz.
From Verif Require Import ListAux VecAux CurveObjModel CurveObjProps WFGeom WFModel RCLSModel.
Import ListNotations.
Open Scope R_scope.
Ltac Zify.zify_post_hook ::= idtac.

(** ** Specification *)
(** the objective of the documentation, 0.5 (A x - b)^2 + 0.5 (W x)^2, for A: m x n and W: n x n *)
Definition objective (m n : nat) (A : mat) (b : vec) (Wm : mat) (x : vec) : R :=
  1 / 2 * sum_to m (fun i => (sum_to n (fun j => A i j * x j) - b i) ^ 2) + 1 / 2 * sum_to n (fun i => (sum_to n (fun j => Wm i j * x j)) ^ 2).
(** C x = d, for p equations *)
Definition feasible (p n : nat) (C : mat) (d : vec) (x : vec) : Prop := forall k, (k < p)%nat -> sum_to n (fun j => C k j * x j) = d k.
Definition normsq (n : nat) (x : vec) : R := sum_to n (fun i => x i ^ 2).
(** what is assumed of scipy.linalg.qr: M = Q R with Q orthogonal (n x n) and R (n x p) upper triangular *)
Definition qr_ok (n p : nat) (M : mat) (QR : mat * mat) : Prop :=
  let (Q, Rt) := QR in
  (forall j k, (j < n)%nat -> (k < n)%nat -> sum_to n (fun i => Q i j * Q i k) = eye j k) /\
  (forall j k, (j < n)%nat -> (k < n)%nat -> sum_to n (fun i => Q j i * Q k i) = eye j k) /\
  (forall i k, (i < n)%nat -> (k < p)%nat -> M i k = sum_to n (fun l => Q i l * Rt l k)) /\
  (forall i k, (k < p)%nat -> (k < i)%nat -> Rt i k = 0).
(** what is assumed of scipy.linalg.lstsq: the residual is minimal, and no other minimiser is shorter *)
Definition residual (q : nat) (L : mat) (r v : vec) : R := sum_to q (fun i => (sum_to q (fun j => L i j * v j) - r i) ^ 2).
Definition lstsq_ok (q : nat) (L : mat) (r v : vec) : Prop :=
  (forall v', residual q L r v <= residual q L r v') /\ (forall v', residual q L r v' = residual q L r v -> normsq q v <= normsq q v').
(** the p rows of C are linearly dependent *)
Definition dependent (p n : nat) (C : mat) : Prop := exists z : vec, (exists k, (k < p)%nat /\ z k <> 0) /\ forall j, (j < n)%nat -> sum_to p (fun k => C k j * z k) = 0.

(** ** Sums *)
Lemma sum_ext n f g : (forall k, (k < n)%nat -> f k = g k) -> sum_to n f = sum_to n g. Proof. apply sum_to_ext. Qed.
Lemma sum_S n f : sum_to (S n) f = sum_to n f + f n. Proof. replace (S n) with (n + 1)%nat by lia. rewrite sum_to_add. unfold sum_to at 2. cbn. rewrite Nat.add_0_r. ring. Qed.
Lemma sum_scal_r n f c : sum_to n f * c = sum_to n (fun k => f k * c).
Proof. rewrite Rmult_comm, <- sum_to_scal. apply sum_ext. intros. ring. Qed.
Lemma sum_scal_l n f c : c * sum_to n f = sum_to n (fun k => c * f k). Proof. symmetry. apply sum_to_scal. Qed.
Lemma sum_0 n f : (forall k, (k < n)%nat -> f k = 0) -> sum_to n f = 0.
Proof. intros H. rewrite (sum_ext n f (fun _ => 0 * 0)) by (intros; rewrite H by auto; ring). rewrite sum_to_scal. ring. Qed.
Lemma sum_eye n j f : (j < n)%nat -> sum_to n (fun k => eye j k * f k) = f j.
Proof. intros H. rewrite (sum_ext n _ (fun k => if (k =? j)%nat then f k else 0)); [now apply sum_to_single|]. intros k _. unfold eye. rewrite Nat.eqb_sym. destruct (k =? j)%nat; ring. Qed.
Lemma sum_sq_0 n f : sum_to n (fun i => f i ^ 2) = 0 -> forall i, (i < n)%nat -> f i = 0.
Proof. intros H i Hi. apply (proj1 (sum_to_zero n (fun i => f i ^ 2) (fun k _ => pow2_ge_0 (f k)))) with (k := i) in H; [nra|exact Hi]. Qed.
Lemma normsq_ge n x : 0 <= normsq n x. Proof. apply sum_to_ge0. intros. apply pow2_ge_0. Qed.
(** <N v, w> = <v, N^T w> *)
Lemma adjoint a q (N : mat) v w : sum_to a (fun i => mv q N v i * w i) = sum_to q (fun j => v j * mtv a N w j).
Proof.
  unfold mv, mtv. rewrite (sum_ext a _ (fun i => sum_to q (fun j => N i j * v j * w i))) by (intros; apply sum_scal_r). rewrite sum_to_swap. apply sum_ext. intros j _. rewrite sum_scal_l. apply sum_ext. intros. ring.
Qed.
Lemma mv_ext n M x y i : (forall j, (j < n)%nat -> x j = y j) -> mv n M x i = mv n M y i.
Proof. intros H. apply sum_ext. intros. now rewrite H. Qed.
Lemma mv_plus n M x y i : mv n M (fun j => x j + y j) i = mv n M x i + mv n M y i.
Proof. unfold mv. rewrite <- sum_to_plus. apply sum_ext. intros. ring. Qed.
Lemma mv_scal n M c x i : mv n M (fun j => c * x j) i = c * mv n M x i.
Proof. unfold mv. rewrite <- sum_to_scal. apply sum_ext. intros. ring. Qed.
Lemma mv_minus n M x y i : mv n M (fun j => x j - y j) i = mv n M x i - mv n M y i.
Proof. unfold mv. rewrite <- sum_to_minus. apply sum_ext. intros. ring. Qed.
Lemma mv_mm n q M N x i : mv q (mm n M N) x i = mv n M (mv q N x) i.
Proof.
  unfold mv, mm. rewrite (sum_ext q _ (fun k => sum_to n (fun j => M i j * N j k * x k))) by (intros; apply sum_scal_r). rewrite sum_to_swap. apply sum_ext. intros j _. rewrite sum_scal_l. apply sum_ext. intros. ring.
Qed.
Lemma mtv_plus m N x y j : mtv m N (fun i => x i + y i) j = mtv m N x j + mtv m N y j.
Proof. unfold mtv. rewrite <- sum_to_plus. apply sum_ext. intros. ring. Qed.
Lemma mtv_mm m q M N x j : mtv m M (mv q N x) j = mv q (mtm m M N) x j.
Proof.
  unfold mtv, mv, mtm. rewrite (sum_ext m _ (fun i => sum_to q (fun k => M i j * N i k * x k))) by (intros; rewrite sum_scal_l; apply sum_ext; intros; ring). rewrite sum_to_swap. apply sum_ext. intros k _. now rewrite sum_scal_r.
Qed.

(** ** A minimiser of |L v - r| with L = N^T N and r = N^T c solves the normal equations of N v = c *)
Lemma quad_min a c : (forall s, 0 <= 2 * s * a + s * s * c) -> 0 <= c -> a = 0.
Proof.
  intros H Hc. destruct (Req_dec a 0) as [|N]; [auto|]. exfalso. assert (A2 : 0 < a * a) by (apply Rsqr_pos_lt in N; exact N). specialize (H (- a / (c + 1))).
  assert (E : 2 * (- a / (c + 1)) * a + - a / (c + 1) * (- a / (c + 1)) * c = - (a * a) * (c + 2) / ((c + 1) * (c + 1))) by (field; lra). rewrite E in H. assert (0 < (a * a) * (c + 2) / ((c + 1) * (c + 1))). { apply Rmult_lt_0_compat; [nra|]. apply Rinv_0_lt_compat. nra. } unfold Rdiv in *. lra.
Qed.
Section Normal.
Variables (a q : nat) (N : mat) (c v : vec) (L : mat) (r : vec).
Hypothesis HL : forall j k, (j < q)%nat -> (k < q)%nat -> L j k = mtm a N N j k.
Hypothesis Hr : forall j, (j < q)%nat -> r j = mtv a N c j.
Let res (x : vec) : vec := fun i => mv q N x i - c i.
Lemma L_apply x j : (j < q)%nat -> sum_to q (fun k => L j k * x k) = mtv a N (mv q N x) j.
Proof. intros Hj. rewrite mtv_mm. apply sum_ext. intros k Hk. now rewrite HL. Qed.
Lemma residual_form x : residual q L r x = normsq q (mtv a N (res x)).
Proof. apply sum_ext. intros j Hj. rewrite L_apply, Hr by auto. f_equal. unfold mtv, res. rewrite <- sum_to_minus. apply sum_ext. intros. ring. Qed.
Lemma normal_equations : (forall v', residual q L r v <= residual q L r v') -> forall j, (j < q)%nat -> mtv a N (res v) j = 0.
Proof.
  intros Hmin. set (g := mtv a N (res v)).
  assert (Z : forall e, sum_to q (fun j => g j * mtv a N (mv q N e) j) = 0).
  { intros e. apply quad_min with (c := normsq q (mtv a N (mv q N e))); [|apply normsq_ge]. intros s. specialize (Hmin (fun k => v k + s * e k)). rewrite !residual_form in Hmin. fold g in Hmin.
    assert (E : forall j, mtv a N (res (fun k => v k + s * e k)) j = g j + s * mtv a N (mv q N e) j).
    { intros j. unfold g, mtv, res. rewrite sum_scal_l, <- sum_to_plus. apply sum_ext. intros i _. rewrite mv_plus, mv_scal. ring. }
    unfold normsq in *. rewrite (sum_ext q (fun j => mtv a N (res (fun k => v k + s * e k)) j ^ 2) (fun j => (g j ^ 2 + 2 * s * (g j * mtv a N (mv q N e) j)) + s * s * mtv a N (mv q N e) j ^ 2)) in Hmin by (intros; rewrite E; ring).
    rewrite !sum_to_plus, !sum_to_scal in Hmin. lra. }
  specialize (Z g). rewrite <- adjoint in Z. assert (Z' : forall i, (i < a)%nat -> mv q N g i = 0).
  { apply sum_sq_0. rewrite <- Z. apply sum_ext. intros. ring. }
  apply sum_sq_0. transitivity (sum_to q (fun j => g j * mtv a N (res v) j)); [apply sum_ext; intros; fold g; ring|]. rewrite <- adjoint. apply sum_0. intros i Hi. rewrite Z' by auto. ring.
Qed.
End Normal.

(** ** Forward substitution *)
Lemma forward_below L d p : forall i k, (i < k)%nat -> (k <= p)%nat -> forward L d p i = forward L d k i.
Proof. induction p as [|p IH]; intros i k H H'; [lia|]. destruct (Nat.eq_dec k (S p)) as [->|N]; [reflexivity|]. cbn [forward]. destruct (Nat.eqb_spec i p); [lia|]. apply IH; lia. Qed.
Lemma forward_solves L d p : (forall i, (i < p)%nat -> L i i <> 0) -> forall k, (k < p)%nat -> sum_to (S k) (fun j => L k j * forward L d p j) = d k.
Proof.
  intros H k Hk. rewrite sum_S. rewrite (sum_ext k _ (fun j => L k j * forward L d k j)) by (intros j Hj; f_equal; apply forward_below; lia). rewrite (forward_below L d p k (S k)) by lia. cbn [forward]. rewrite Nat.eqb_refl. field. now apply H.
Qed.
(** two solutions of the same triangular system agree *)
Lemma triangular_unique (L : mat) (x y : vec) p : (forall i, (i < p)%nat -> L i i <> 0) ->
  (forall k, (k < p)%nat -> sum_to (S k) (fun j => L k j * x j) = sum_to (S k) (fun j => L k j * y j)) -> forall k, (k < p)%nat -> x k = y k.
Proof.
  intros H E k. induction k as [k IH] using (well_founded_induction lt_wf). intros Hk. specialize (E k Hk). rewrite !sum_S in E. rewrite (sum_ext k _ (fun j => L k j * y j)) in E by (intros j Hj; rewrite IH by lia; reflexivity). assert (E2 : L k k * (x k - y k) = 0) by lra. apply Rmult_integral in E2. destruct E2 as [E2|E2]; [exfalso; now apply (H k Hk)|lra].
Qed.
(** sums over the full height of a matrix that vanishes below the diagonal *)
Lemma lower_sum n k (f : nat -> R) : (k < n)%nat -> (forall l, (k < l)%nat -> f l = 0) -> sum_to n f = sum_to (S k) f.
Proof. intros H Z. replace n with (S k + (n - S k))%nat by lia. rewrite sum_to_add. rewrite (sum_0 (n - S k)) by (intros; apply Z; lia). ring. Qed.
Lemma zero_diag_spec p L : zero_diag p L = false <-> forall i, (i < p)%nat -> L i i <> 0.
Proof.
  unfold zero_diag. rewrite <- not_true_iff_false, existsb_exists. split.
  - intros H i Hi E. apply H. exists i. split; [apply in_seq; lia|]. destruct (Req_EM_T (L i i) 0); [reflexivity|contradiction].
  - intros H (i & I & E). apply in_seq in I. destruct (Req_EM_T (L i i) 0) as [Z|]; [|discriminate]. apply (H i); [lia|exact Z].
Qed.

Section Main.
Variables (m n p : nat) (A Wm C Q Rt : mat) (b d : vec).
Hypothesis Hpn : (p <= n)%nat.
Hypothesis QTQ : forall j k, (j < n)%nat -> (k < n)%nat -> sum_to n (fun i => Q i j * Q i k) = eye j k.
Hypothesis QQT : forall j k, (j < n)%nat -> (k < n)%nat -> sum_to n (fun i => Q j i * Q k i) = eye j k.
Hypothesis FAC : forall i k, (i < n)%nat -> (k < p)%nat -> C k i = sum_to n (fun l => Q i l * Rt l k).
Hypothesis TRI : forall i k, (k < p)%nat -> (k < i)%nat -> Rt i k = 0.
(** coordinates in the basis of the columns of Q *)
Lemma coords z j : (j < n)%nat -> mtv n Q (mv n Q z) j = z j.
Proof.
  intros Hj. rewrite mtv_mm. unfold mv, mtm. rewrite (sum_ext n _ (fun k => eye j k * z k)) by (intros; rewrite QTQ by auto; reflexivity). now apply sum_eye.
Qed.
Lemma recoords y i : (i < n)%nat -> mv n Q (mtv n Q y) i = y i.
Proof.
  intros Hi. unfold mv, mtv. rewrite (sum_ext n _ (fun j => sum_to n (fun k => Q i j * Q k j * y k))) by (intros; rewrite sum_scal_l; apply sum_ext; intros; ring). rewrite sum_to_swap. rewrite (sum_ext n _ (fun k => eye i k * y k)); [now apply sum_eye|]. intros k Hk. rewrite <- sum_scal_r, QQT by auto. reflexivity.
Qed.
Lemma constraint_coords y k : (k < p)%nat -> sum_to n (fun i => C k i * y i) = sum_to (S k) (fun l => Rt l k * mtv n Q y l).
Proof.
  intros Hk. rewrite (sum_ext n _ (fun i => sum_to n (fun l => Q i l * Rt l k * y i))) by (intros i Hi; rewrite FAC by auto; apply sum_scal_r). rewrite sum_to_swap.
  rewrite (sum_ext n _ (fun l => Rt l k * mtv n Q y l)). 2:{ intros l _. unfold mtv. rewrite sum_scal_l. apply sum_ext. intros. ring. }
  apply lower_sum; [lia|]. intros l Hl. rewrite TRI by auto. ring.
Qed.
Lemma norm_coords y : normsq n (mtv n Q y) = normsq n y.
Proof.
  unfold normsq. transitivity (sum_to n (fun j => mtv n Q y j * mtv n Q y j)); [apply sum_ext; intros; ring|]. rewrite <- (adjoint n n Q (mtv n Q y) y). apply sum_ext. intros i Hi. rewrite recoords by auto. ring.
Qed.
Hypothesis DIAG : forall i, (i < p)%nat -> Rt i i <> 0.
Let u := forward (fun i j => Rt j i) d p.
Lemma u_solves k : (k < p)%nat -> sum_to (S k) (fun j => Rt j k * u j) = d k.
Proof. intros Hk. apply (forward_solves (fun i j => Rt j i) d p); auto. Qed.
Definition join (v : vec) : vec := fun j => if (j <? p)%nat then u j else v (j - p)%nat.
Lemma join_feasible v : feasible p n C d (mv n Q (join v)).
Proof.
  intros k Hk. rewrite constraint_coords by auto. rewrite <- (u_solves k Hk). apply sum_ext. intros l Hl. rewrite coords by lia. f_equal. unfold join. destruct (Nat.ltb_spec l p); [reflexivity|lia].
Qed.
Lemma feasible_join y : feasible p n C d y -> forall j, (j < n)%nat -> mtv n Q y j = join (fun i => mtv n Q y (p + i)%nat) j.
Proof.
  intros F j Hj. unfold join. destruct (Nat.ltb_spec j p); [|f_equal; lia]. apply (triangular_unique (fun i j => Rt j i) _ u p); auto. intros k Hk. rewrite u_solves by auto. rewrite <- constraint_coords by auto. now apply F.
Qed.
(** the stacked system *)
Let St : mat := fun i j => if (i <? m)%nat then A i j else Wm (i - m)%nat j.
Let cs : vec := fun i => if (i <? m)%nat then b i else 0.
Lemma objective_stacked x : objective m n A b Wm x = 1 / 2 * normsq (m + n) (fun i => mv n St x i - cs i).
Proof.
  unfold objective, normsq. rewrite sum_to_add, <- Rmult_plus_distr_l. f_equal. f_equal; apply sum_ext; intros i Hi; unfold mv, St, cs.
  - destruct (Nat.ltb_spec i m); [reflexivity|lia].
  - destruct (Nat.ltb_spec (m + i) m); [lia|]. replace (m + i - m)%nat with i by lia. ring.
Qed.
Let Q2 : mat := fun i j => Q i (p + j)%nat.
Let N := mm n St Q2.
Let c0 : vec := fun i => cs i - mv p (mm n St Q) u i.
Lemma join_apply v i : mv n St (mv n Q (join v)) i - cs i = mv (n - p) N v i - c0 i.
Proof.
  unfold c0, N. rewrite <- (mv_mm n n). unfold mv at 1. replace n with (p + (n - p))%nat at 1 by lia. rewrite sum_to_add. rewrite (sum_ext p _ (fun j => mm n St Q i j * u j)) by (intros j Hj; unfold join; destruct (Nat.ltb_spec j p); [reflexivity|lia]). fold (mv p (mm n St Q) u i).
  rewrite (sum_ext (n - p) _ (fun j => mm n St Q2 i j * v j)). 2:{ intros j Hj. unfold join. destruct (Nat.ltb_spec (p + j) p); [lia|]. replace (p + j - p)%nat with j by lia. reflexivity. }
  change (sum_to (n - p) (fun j => mm n St Q2 i j * v j)) with (mv (n - p) (mm n St Q2) v i). ring.
Qed.
Let AQ2 := mm n A Q2. Let WQ2 := mm n Wm Q2.
Let LHS : mat := fun j k => mtm m AQ2 AQ2 j k + mtm n WQ2 WQ2 j k.
Let RHS : vec := fun j => mtv m AQ2 b j - mtv m AQ2 (mv p (mm n A Q) u) j - mtv n WQ2 (mv p (mm n Wm Q) u) j.
Lemma low i j (X : mat) : (i < m)%nat -> mm n St X i j = mm n A X i j.
Proof. intros H. unfold mm, St. apply sum_ext. intros. destruct (Nat.ltb_spec i m); [reflexivity|lia]. Qed.
Lemma high i j (X : mat) : mm n St X (m + i)%nat j = mm n Wm X i j.
Proof. unfold mm, St. apply sum_ext. intros. destruct (Nat.ltb_spec (m + i) m); [lia|]. now replace (m + i - m)%nat with i by lia. Qed.
Lemma LHS_eq j k : LHS j k = mtm (m + n) N N j k.
Proof. unfold LHS, mtm, N. rewrite sum_to_add. f_equal; apply sum_ext; intros i Hi; [now rewrite !low by auto|now rewrite !high]. Qed.
Lemma RHS_eq j : RHS j = mtv (m + n) N c0 j.
Proof.
  unfold RHS, mtv, N, c0. rewrite sum_to_add. rewrite <- sum_to_minus. unfold Rminus at 1. f_equal.
  - apply sum_ext. intros i Hi. rewrite low by auto. unfold cs. destruct (Nat.ltb_spec i m); [|lia]. assert (E : mv p (mm n St Q) u i = mv p (mm n A Q) u i) by (apply sum_ext; intros; now rewrite low). rewrite E. unfold AQ2. ring.
  - rewrite <- sum_to_opp. apply sum_ext. intros i Hi. rewrite high. unfold cs. destruct (Nat.ltb_spec (m + i) m); [lia|]. assert (E : mv p (mm n St Q) u (m + i)%nat = mv p (mm n Wm Q) u i) by (apply sum_ext; intros; now rewrite high). rewrite E. unfold WQ2. ring.
Qed.
Variable v : vec.
Hypothesis LSQ : lstsq_ok (n - p) LHS RHS v.
Lemma stationary j : (j < n - p)%nat -> mtv (m + n) N (fun i => mv (n - p) N v i - c0 i) j = 0.
Proof. apply (normal_equations (m + n) (n - p) N c0 v LHS RHS); [intros; apply LHS_eq|intros; apply RHS_eq|apply LSQ]. Qed.
Let x := mv n Q (join v).
Lemma objective_gap v' : objective m n A b Wm (mv n Q (join v')) = objective m n A b Wm x + 1 / 2 * normsq (m + n) (mv (n - p) N (fun j => v' j - v j)).
Proof.
  unfold x. rewrite !objective_stacked. unfold normsq. set (r := fun i => mv (n - p) N v i - c0 i). set (e := mv (n - p) N (fun j => v' j - v j)).
  rewrite (sum_ext (m + n) _ (fun i => (r i ^ 2 + 2 * (e i * r i)) + e i ^ 2)). 2:{ intros i _. rewrite join_apply. unfold r, e. rewrite mv_minus. ring. }
  rewrite !sum_to_plus, sum_to_scal. rewrite (sum_ext (m + n) (fun i => (mv n St (mv n Q (join v)) i - cs i) ^ 2) (fun i => r i ^ 2)) by (intros; now rewrite join_apply).
  assert (Z : sum_to (m + n) (fun i => e i * r i) = 0). { unfold e. rewrite adjoint. apply sum_0. intros j Hj. unfold r. rewrite stationary by auto. ring. } rewrite Z. ring.
Qed.
Lemma objective_ext y y' : (forall i, (i < n)%nat -> y i = y' i) -> objective m n A b Wm y = objective m n A b Wm y'.
Proof. intros H. unfold objective. f_equal; f_equal; apply sum_ext; intros i _; [f_equal; f_equal|f_equal]; apply sum_ext; intros; now rewrite H. Qed.
Lemma main_optimal : feasible p n C d x /\ forall y, feasible p n C d y -> objective m n A b Wm x <= objective m n A b Wm y /\ (objective m n A b Wm y = objective m n A b Wm x -> normsq n x <= normsq n y).
Proof.
  split; [apply join_feasible|]. intros y F. set (v' := fun i => mtv n Q y (p + i)%nat).
  assert (Ey : forall i, (i < n)%nat -> y i = mv n Q (join v') i). { intros i Hi. rewrite <- (recoords y i Hi). apply mv_ext. intros. now apply feasible_join. }
  rewrite (objective_ext y _ Ey), (objective_gap v'). assert (G := normsq_ge (m + n) (mv (n - p) N (fun j => v' j - v j))). split; [lra|]. intros E.
  assert (Z : forall i, (i < m + n)%nat -> mv (n - p) N (fun j => v' j - v j) i = 0) by (apply sum_sq_0; unfold normsq in *; lra).
  assert (NV : normsq (n - p) v <= normsq (n - p) v').
  { apply (proj2 LSQ). rewrite !(residual_form (m + n) (n - p) N c0 LHS RHS); try (intros; first [apply LHS_eq|apply RHS_eq]). unfold normsq. apply sum_ext. intros j _. f_equal. apply sum_ext. intros i Hi. f_equal. specialize (Z i Hi). rewrite mv_minus in Z. f_equal. lra. }
  assert (NJ : forall w, normsq n (join w) = normsq p u + normsq (n - p) w).
  { intros w. unfold normsq. replace n with (p + (n - p))%nat at 1 by lia. rewrite sum_to_add. f_equal; apply sum_ext; intros j Hj; unfold join; [destruct (Nat.ltb_spec j p); [reflexivity|lia]|destruct (Nat.ltb_spec (p + j) p); [lia|]; f_equal; f_equal; lia]. }
  assert (NX : normsq n x = normsq n (join v)). { rewrite <- (norm_coords x). apply sum_ext. intros j Hj. unfold x. now rewrite coords. }
  assert (NY : normsq n y = normsq n (join v')). { rewrite <- (norm_coords y). apply sum_ext. intros j Hj. now rewrite feasible_join. }
  rewrite NX, NY, !NJ. lra.
Qed.
End Main.

(** a zero on the diagonal of R: the rows of C are dependent *)
Lemma back_substitution (Rt : mat) k : (forall i, (i < k)%nat -> Rt i i <> 0) -> forall t : vec, exists z : vec, (forall i, (k <= i)%nat -> z i = 0) /\ forall i, (i < k)%nat -> rsuml (map (fun j => Rt i j * z j) (seq i (k - i))) = t i.
Proof.
  induction k as [|k IH]; intros H t; [exists (fun _ => 0); split; [reflexivity|lia]|]. destruct (IH (fun i Hi => H i (Nat.lt_lt_succ_r _ _ Hi)) (fun i => t i - Rt i k * (t k / Rt k k))) as (z & Z & E).
  exists (fun i => if (i =? k)%nat then t k / Rt k k else z i). split.
  - intros i Hi. destruct (Nat.eqb_spec i k); [lia|]. apply Z. lia.
  - intros i Hi. replace (S k - i)%nat with ((k - i) + 1)%nat by lia. rewrite seq_app, map_app, rsuml_app. replace (i + (k - i))%nat with k by lia. cbn [seq map rsuml]. rewrite Nat.eqb_refl. destruct (Nat.eq_dec i k) as [->|N].
    + replace (k - k)%nat with O by lia. cbn [seq map rsuml]. field. apply H. lia.
    + rewrite (map_ext_in _ (fun j => Rt i j * z j)). 2:{ intros j J. apply in_seq in J. destruct (Nat.eqb_spec j k); [lia|reflexivity]. } rewrite E by lia. lra.
Qed.
Lemma tail_sum n (f : nat -> R) i k : (i <= k)%nat -> (k <= n)%nat -> (forall j, (j < i)%nat -> f j = 0) -> (forall j, (k <= j < n)%nat -> f j = 0) -> sum_to n f = rsuml (map f (seq i (k - i))).
Proof.
  intros H1 H2 Z1 Z2. replace n with (i + ((k - i) + (n - k)))%nat by lia. rewrite sum_to_add. rewrite (sum_0 i) by auto. rewrite sum_to_add. rewrite (sum_0 (n - k)) by (intros; apply Z2; lia). rewrite Rplus_0_l, Rplus_0_r. unfold sum_to. f_equal. rewrite <- (map_map (fun a => (i + a)%nat) f). f_equal. clear. generalize (k - i)%nat. intros l. revert i. induction l as [|l IH]; intros i; [reflexivity|]. cbn [seq map]. rewrite Nat.add_0_r. f_equal. rewrite <- (IH (S i)). rewrite <- seq_shift, map_map. apply map_ext. intros. lia.
Qed.
Section Singular.
Variables (n p : nat) (C Q Rt : mat).
Hypothesis Hpn : (p <= n)%nat.
Hypothesis QTQ : forall j k, (j < n)%nat -> (k < n)%nat -> sum_to n (fun i => Q i j * Q i k) = eye j k.
Hypothesis FAC : forall i k, (i < n)%nat -> (k < p)%nat -> C k i = sum_to n (fun l => Q i l * Rt l k).
Hypothesis TRI : forall i k, (k < p)%nat -> (k < i)%nat -> Rt i k = 0.
Lemma combination z i : (i < n)%nat -> sum_to p (fun k => C k i * z k) = mv n Q (mv p Rt z) i.
Proof. intros Hi. rewrite <- mv_mm. apply sum_ext. intros k Hk. now rewrite FAC. Qed.
Lemma first_zero l : zero_diag l Rt = true -> exists k, (k < l)%nat /\ Rt k k = 0 /\ forall i, (i < k)%nat -> Rt i i <> 0.
Proof.
  induction l as [|l IH]; intros H; [discriminate|]. destruct (zero_diag l Rt) eqn:E; [destruct (IH eq_refl) as (k & A & B); exists k; split; [lia|exact B]|]. exists l. split; [lia|]. split; [|now apply zero_diag_spec].
  unfold zero_diag in *. rewrite seq_S, existsb_app, E in H. cbn in H. destruct (Req_EM_T (Rt l l) 0); [assumption|discriminate].
Qed.
Lemma singular_dependent : zero_diag p Rt = true <-> dependent p n C.
Proof.
  split.
  - intros H. destruct (first_zero p H) as (k & Hk & Zk & Dk). destruct (back_substitution Rt k Dk (fun i => - Rt i k)) as (z & Zz & E).
    set (z' := fun i => if (i =? k)%nat then 1 else z i). exists z'. split; [exists k; split; [exact Hk|]; unfold z'; rewrite Nat.eqb_refl; lra|]. intros j Hj. rewrite combination by auto. apply sum_0. intros l Hl. enough (E0 : mv p Rt z' l = 0) by (rewrite E0; ring). unfold mv. destruct (Nat.le_gt_cases l k) as [L|L].
    + rewrite (tail_sum p _ l (S k)); [|lia|lia|intros i Hi; rewrite TRI by lia; ring|intros i Hi; unfold z'; destruct (Nat.eqb_spec i k); [lia|]; rewrite Zz by lia; ring].
      replace (S k - l)%nat with ((k - l) + 1)%nat by lia. rewrite seq_app, map_app, rsuml_app. replace (l + (k - l))%nat with k by lia. cbn [seq map rsuml]. unfold z' at 2. rewrite Nat.eqb_refl. rewrite (map_ext_in _ (fun i => Rt l i * z i)). 2:{ intros i I. apply in_seq in I. unfold z'. destruct (Nat.eqb_spec i k); [lia|reflexivity]. }
      destruct (Nat.eq_dec l k) as [->|N]; [replace (k - k)%nat with O by lia; cbn [seq map rsuml]; rewrite Zk; ring|]. rewrite E by lia. ring.
    + apply sum_0. intros i Hi. destruct (Nat.le_gt_cases i k) as [Q1|Q1]; [rewrite TRI by lia; ring|]. unfold z'. destruct (Nat.eqb_spec i k); [lia|]. rewrite Zz by lia. ring.
  - intros (z & (k0 & K1 & K2) & H). apply not_false_is_true. intros F. assert (D := proj1 (zero_diag_spec p Rt) F). apply K2.
    assert (RZ : forall l, (l < n)%nat -> mv p Rt z l = 0). { intros l Hl. rewrite <- (coords n Q QTQ (mv p Rt z) l Hl). apply sum_0. intros i Hi. rewrite <- combination, H by auto. ring. }
    assert (ALL : forall e i, (i < p)%nat -> (p - i <= e)%nat -> z i = 0).
    { induction e as [|e IH]; intros i Hi He; [lia|]. specialize (RZ i ltac:(lia)). unfold mv in RZ. rewrite (tail_sum p _ i (S i)) in RZ; [|lia|lia|intros j Hj; rewrite TRI by lia; ring|].
      - replace (S i - i)%nat with 1%nat in RZ by lia. cbn [seq map rsuml] in RZ. rewrite Rplus_0_r in RZ. apply Rmult_integral in RZ. destruct RZ as [RZ|RZ]; [exfalso; now apply (D i Hi)|exact RZ].
      - intros j Hj. rewrite (IH j ltac:(lia) ltac:(lia)). ring. }
    exact (ALL p k0 K1 ltac:(lia)).
Qed.
End Singular.

(** ** The theorems *)
Lemma digits_div_mod i n j : (j < n)%nat -> ((i * n + j) / n = i /\ (i * n + j) mod n = j)%nat.
Proof. intros H. split; [rewrite Nat.div_add_l, Nat.div_small by lia; lia|rewrite Nat.add_comm, Nat.mod_add, Nat.mod_small by lia; lia]. Qed.
Definition kernels_ok (qr : nat -> nat -> mat -> option (mat * mat)) (lstsq : nat -> mat -> vec -> vec) : Prop :=
  (forall n p M QR, qr n p M = Some QR -> qr_ok n p M QR) /\ (forall q L r, lstsq_ok q L r (lstsq q L r)).
(** with independent constraints the answer satisfies them, no other feasible vector has a smaller objective, and among those of equal objective it is the shortest *)
Theorem C96_optimal qr lstsq m n A b W Wm p C d QR : kernels_ok qr lstsq -> (p <= n)%nat -> wmat n W = inl Wm -> qr n p (fun i k => C k i) = Some QR -> ~ dependent p n C ->
  exists x, rcls qr lstsq m n A m b W p n C p d = inl x /\ feasible p n C d x /\
    forall y, feasible p n C d y -> objective m n A b Wm x <= objective m n A b Wm y /\ (objective m n A b Wm y = objective m n A b Wm x -> normsq n x <= normsq n y).
Proof.
  intros (HQ & HL) Hpn EW EQ ND. assert (K := HQ _ _ _ _ EQ). destruct QR as (Q & Rt). destruct K as (QTQ & QQT & FAC & TRI).
  assert (Z : zero_diag p Rt = false). { apply not_true_is_false. intros Z. apply ND. apply (singular_dependent n p C Q Rt Hpn QTQ FAC TRI). exact Z. }
  unfold rcls. rewrite !Nat.eqb_refl. cbn [negb]. rewrite EW, EQ. destruct (Nat.ltb_spec n p); [lia|]. unfold solve_triangular. change (zero_diag p (fun i j => Rt j i)) with (zero_diag p Rt). rewrite Z. eexists. split; [reflexivity|].
  exact (main_optimal m n p A Wm C Q Rt b d Hpn QTQ QQT FAC TRI (proj1 (zero_diag_spec p Rt) Z) _ (HL _ _ _)).
Qed.
(** with dependent constraints it fails, whatever d is *)
Theorem C96_dependent qr lstsq m n A b W Wm p C d QR : kernels_ok qr lstsq -> (p <= n)%nat -> wmat n W = inl Wm -> qr n p (fun i k => C k i) = Some QR -> dependent p n C ->
  rcls qr lstsq m n A m b W p n C p d = inr RLinAlg.
Proof.
  intros (HQ & HL) Hpn EW EQ ND. assert (K := HQ _ _ _ _ EQ). destruct QR as (Q & Rt). destruct K as (QTQ & QQT & FAC & TRI).
  assert (Z : zero_diag p Rt = true) by (apply (singular_dependent n p C Q Rt Hpn QTQ FAC TRI); exact ND).
  unfold rcls. rewrite !Nat.eqb_refl. cbn [negb]. rewrite EW, EQ. destruct (Nat.ltb_spec n p); [lia|]. unfold solve_triangular. change (zero_diag p (fun i j => Rt j i)) with (zero_diag p Rt). now rewrite Z.
Qed.
(** inconsistent sizes are refused before anything is computed *)
Theorem C96_sizes qr lstsq m n A mb b W p nC C pd d : mb <> m \/ nC <> n \/ pd <> p -> rcls qr lstsq m n A mb b W p nC C pd d = inr RValue.
Proof. intros H. unfold rcls. destruct (Nat.eqb_spec mb m); [|reflexivity]. destruct (Nat.eqb_spec nC n); [|reflexivity]. destruct (Nat.eqb_spec pd p); [|reflexivity]. exfalso. intuition. Qed.
(** what the regularization argument means: the vector W x of the objective *)
Definition weighted (n : nat) (W : warg) (Wx : vec -> vec) : Prop := exists Wm, wmat n W = inl Wm /\ forall x i, (i < n)%nat -> mv n Wm x i = Wx x i.
Theorem C96_weights n : (forall c, weighted n (WScalar c) (fun x i => c * x i)) /\
  ((n <> 1)%nat -> forall w, weighted n (WArray [n] w) (fun x i => w i * x i)) /\
  ((n <> 1)%nat -> forall M : mat, weighted n (WArray [n; n] (fun k => M (k / n)%nat (k mod n)%nat)) (fun x i => sum_to n (fun j => M i j * x j))) /\
  ((n <> 1)%nat -> forall w k, (k <> n)%nat -> wmat n (WArray [k] w) = inr RValue) /\
  (forall w r c, (r <> 1)%nat -> (c <> 1)%nat -> (r <> n \/ c <> n)%nat -> wmat n (WArray [r; c] w) = inr RValue) /\
  (forall w a b c, (a <> 1)%nat -> (b <> 1)%nat -> (c <> 1)%nat -> wmat n (WArray [a; b; c] w) = inr RValue).
Proof.
  assert (DG : forall (f x : vec) i, (i < n)%nat -> mv n (fun i j => if (i =? j)%nat then f i else 0) x i = f i * x i).
  { intros f x i Hi. unfold mv. rewrite (sum_ext n _ (fun j => eye i j * (f i * x j))); [now rewrite (sum_eye n i (fun j => f i * x j))|]. intros j _. unfold eye. destruct (i =? j)%nat; ring. }
  assert (NE : forall k, (k <> 1)%nat -> (k =? 1)%nat = false) by (intros; now apply Nat.eqb_neq).
  split; [|split; [|split; [|split; [|split]]]].
  - intros c. eexists. split; [reflexivity|]. intros x i Hi. rewrite <- (DG (fun _ => c) x i Hi). apply sum_ext. intros j _. unfold eye. destruct (i =? j)%nat; ring.
  - intros Hn w. eexists. unfold wmat. cbn [filter]. rewrite (NE n Hn). cbn [negb]. rewrite Nat.eqb_refl. split; [reflexivity|]. intros x i Hi. now apply DG.
  - intros Hn M. eexists. unfold wmat. cbn [filter]. rewrite (NE n Hn). cbn [negb]. rewrite Nat.eqb_refl. cbn [andb]. split; [reflexivity|]. intros x i Hi. apply sum_ext. intros j Hj. assert (E := digits_div_mod i n j Hj). destruct E as (-> & ->). reflexivity.
  - intros Hn w k Hk. unfold wmat. cbn [filter]. destruct (Nat.eqb_spec k 1); cbn [negb]; [reflexivity|]. destruct (Nat.eqb_spec k n); [contradiction|reflexivity].
  - intros w r c H1 H2 H. unfold wmat. cbn [filter]. rewrite (NE r H1), (NE c H2). cbn [negb]. destruct (Nat.eqb_spec r n); [|reflexivity]. destruct (Nat.eqb_spec c n); [|reflexivity]. exfalso. intuition.
  - intros w a b c H1 H2 H3. unfold wmat. cbn [filter]. rewrite (NE a H1), (NE b H2), (NE c H3). reflexivity.
Qed.
(** np.squeeze turns every array with a single entry into a number, and then no array form is recognised: with one unknown only a scalar W works *)
Theorem C96_single_unknown w : wmat 1 (WArray [1%nat] w) = inr RValue /\ wmat 1 (WArray [1%nat; 1%nat] w) = inr RValue.
Proof. split; reflexivity. Qed.
