(** C67: area, volume, normals, fundamental forms and curvatures of a surface whose representation is linear in the dofs:
    the derivative arrays are the derivatives. *)
From Coq Require Import Reals Lra Lia ZArith List.
From Verif Require Import ListAux VecAux Vec3 BSModel BSDeriv BSVjp SurfProps SurfGeomProps SurfDiff.
Open Scope R_scope.

(** ** Specification *)
(** moving the dofs from x in direction v *)
Definition move (x v : list R) (t : R) : list R := vmap2 (fun a b => a + t * b) x v.
(** the combination of columns (numbers) with the components of the direction as weights *)
Definition dir (n : nat) (v : list R) (C : nat -> vec3) : vec3 := sum3 (map (fun m => scal3 (nth m v 0) (C m)) (seq 0 n)).
Definition dirR (n : nat) (v : list R) (g : nat -> R) : R := rsuml (map (fun m => nth m v 0 * g m) (seq 0 n)).
(** F is differentiable in every direction at x, with the partial derivatives g 0, ..., g (n-1) *)
Definition gradient (n : nat) (F : list R -> R) (x : list R) (g : nat -> R) : Prop :=
  forall v, length v = n -> D (fun t => F (move x v t)) 0 (dirR n v g).
Definition gradient3 (n : nat) (F : list R -> vec3) (x : list R) (C : nat -> vec3) : Prop :=
  forall v, length v = n -> D3 (fun t => F (move x v t)) 0 (dir n v C).
(** the representation is linear (affine) in the dofs, with constant columns; the three vjps contract with the columns *)
Definition affine_in_dofs (n : nat) (G : list R -> nat -> nat -> vec3) (C : list R -> nat -> nat -> nat -> vec3) : Prop :=
  forall x y i j, length x = n -> length y = n ->
    (forall m, C x i j m = C y i j m) /\ sub3 (G x i j) (G y i j) = sum3 (map (fun m => scal3 (nth m x 0 - nth m y 0) (C x i j m)) (seq 0 n)).
Definition contracts (S : surface) (C : list R -> nat -> nat -> nat -> vec3) (vjp : list R -> (nat -> nat -> vec3) -> list R) : Prop :=
  forall x w, length x = ndofs S -> length (vjp x w) = ndofs S /\
    forall m, (m < ndofs S)%nat -> nth m (vjp x w) 0 = sum_points S (fun i j => dot3 (w i j) (C x i j m)).
Record linear (S : surface) : Prop := {
  lin0 : affine_in_dofs (ndofs S) (gamma S) (dgamma S);
  lin1 : affine_in_dofs (ndofs S) (gammadash1 S) (dgammadash1 S);
  lin2 : affine_in_dofs (ndofs S) (gammadash2 S) (dgammadash2 S);
  lin11 : affine_in_dofs (ndofs S) (gammadash1dash1 S) (dgammadash1dash1 S);
  lin12 : affine_in_dofs (ndofs S) (gammadash1dash2 S) (dgammadash1dash2 S);
  lin22 : affine_in_dofs (ndofs S) (gammadash2dash2 S) (dgammadash2dash2 S);
  vjp0 : contracts S (dgamma S) (dgamma_vjp S);
  vjp1 : contracts S (dgammadash1 S) (dgammadash1_vjp S);
  vjp2 : contracts S (dgammadash2 S) (dgammadash2_vjp S) }.
(** the parametrisation is regular at the point: the tangents are independent *)
Definition regular_at (S : surface) (x : list R) (i j : nat) : Prop := cross (gammadash1 S x i j) (gammadash2 S x i j) <> v0.
Definition regular (S : surface) (x : list R) : Prop := forall i j, (i < nphi S)%nat -> (j < ntheta S)%nat -> regular_at S x i j.

(** ** Lemmas *)
Lemma move_length x v t : length x = length v -> length (move x v t) = length x.
Proof. unfold move. revert v. induction x as [|a x IH]; intros [|b v] H; cbn in *; try discriminate; auto. Qed.
Lemma move_nth x v t m : length x = length v -> nth m (move x v t) 0 = nth m x 0 + t * nth m v 0.
Proof. unfold move. revert v m. induction x as [|a x IH]; intros [|b v] [|m] H; cbn in *; try discriminate; try ring. apply IH. lia. Qed.
Lemma move_0 x v : length x = length v -> move x v 0 = x.
Proof. unfold move. revert v. induction x as [|a x IH]; intros [|b v] H; cbn in *; try discriminate; auto. f_equal; [ring|apply IH; lia]. Qed.
(** linear maps and [dir] *)
Lemma dir_L1 (L : vec3 -> vec3) n v C : (forall a b, L (add3 a b) = add3 (L a) (L b)) -> (forall c a, L (scal3 c a) = scal3 c (L a)) ->
  L (dir n v C) = dir n v (fun m => L (C m)).
Proof.
  intros A B. unfold dir. induction (seq 0 n) as [|m l IH]; cbn [map sum3].
  - transitivity (scal3 0 (L v0)); [rewrite <- B; f_equal; v3; ring|v3; ring].
  - now rewrite A, B, IH.
Qed.
Lemma dir_L2 (L : vec3 -> vec3 -> vec3) n v C C' : (forall a b a' b', L (add3 a b) (add3 a' b') = add3 (L a a') (L b b')) -> (forall c a a', L (scal3 c a) (scal3 c a') = scal3 c (L a a')) ->
  L (dir n v C) (dir n v C') = dir n v (fun m => L (C m) (C' m)).
Proof.
  intros A B. unfold dir. induction (seq 0 n) as [|m l IH]; cbn [map sum3].
  - transitivity (scal3 0 (L v0 v0)); [rewrite <- B; f_equal; v3; ring|v3; ring].
  - now rewrite A, B, IH.
Qed.
Lemma dir_R2 (L : vec3 -> vec3 -> R) n v C C' : (forall a b a' b', L (add3 a b) (add3 a' b') = L a a' + L b b') -> (forall c a a', L (scal3 c a) (scal3 c a') = c * L a a') ->
  L (dir n v C) (dir n v C') = dirR n v (fun m => L (C m) (C' m)).
Proof.
  intros A B. unfold dir, dirR. induction (seq 0 n) as [|m l IH]; cbn [map sum3 rsuml].
  - transitivity (0 * (L v0 v0)); [rewrite <- B; f_equal; v3; ring|ring].
  - now rewrite A, B, IH.
Qed.
Lemma dir_R1 (L : vec3 -> R) n v C : (forall a b, L (add3 a b) = L a + L b) -> (forall c a, L (scal3 c a) = c * L a) -> L (dir n v C) = dirR n v (fun m => L (C m)).
Proof. intros A B. apply (dir_R2 (fun a _ => L a) n v C C); auto. Qed.
Lemma dirR_lin n v a b f g : dirR n v (fun m => a * f m + b * g m) = a * dirR n v f + b * dirR n v g.
Proof. unfold dirR. induction (seq 0 n) as [|m l IH]; cbn [map rsuml]; [ring|]. rewrite IH. ring. Qed.
Lemma dirR_ext n v f g : (forall m, (m < n)%nat -> f m = g m) -> dirR n v f = dirR n v g.
Proof. intros H. unfold dirR. apply rsuml_map_ext. intros m Hm. apply in_seq in Hm. rewrite H by lia. reflexivity. Qed.
Lemma dirR_sum {A} n v (f : A -> nat -> R) l : dirR n v (fun m => rsuml (map (fun a => f a m) l)) = rsuml (map (fun a => dirR n v (f a)) l).
Proof.
  unfold dirR. rewrite (rsuml_map_ext _ (fun m => rsuml (map (fun a => nth m v 0 * f a m) l))) by (intros; now rewrite rsuml_map_scale).
  apply rsuml_swap.
Qed.
Lemma D_div f g t a b : D f t a -> D g t b -> g t <> 0 -> D (fun s => f s / g s) t ((a * g t - b * f t) / (g t * g t)).
Proof. intros A B C. exact (derivable_pt_lim_div f g t a b A B C). Qed.
Lemma D_sqrt f t a : D f t a -> 0 < f t -> D (fun s => sqrt (f s)) t (a / (2 * sqrt (f t))).
Proof.
  intros H P. replace (a / (2 * sqrt (f t))) with (/ (2 * sqrt (f t)) * a) by (unfold Rdiv; ring).
  apply (derivable_pt_lim_comp f sqrt); auto. now apply derivable_pt_lim_sqrt.
Qed.

(** at t = 0 the value of the path *)
Section Paths.
Variable S : surface.
Notation n := (ndofs S).
Notation sumk f := (sum_points S f).
Lemma sum_points_ext f g : (forall i j, (i < nphi S)%nat -> (j < ntheta S)%nat -> f i j = g i j) -> sumk f = sumk g.
Proof. intros H. unfold sum_points. apply rsuml_map_ext. intros i Hi. apply in_seq in Hi. apply rsuml_map_ext. intros j Hj. apply in_seq in Hj. apply H; lia. Qed.
Lemma sum_points_plus f g : sumk (fun i j => f i j + g i j) = sumk f + sumk g.
Proof. unfold sum_points. rewrite <- rsuml_map_plus. apply rsuml_map_ext. intros i _. apply rsuml_map_plus. Qed.
Lemma sum_points_scale c f : sumk (fun i j => c * f i j) = c * sumk f.
Proof. unfold sum_points. rewrite <- rsuml_map_scale. apply rsuml_map_ext. intros i _. apply rsuml_map_scale. Qed.
Lemma dirR_points v (f : nat -> nat -> nat -> R) : dirR n v (fun m => sumk (fun i j => f i j m)) = sumk (fun i j => dirR n v (f i j)).
Proof. unfold sum_points. rewrite (dirR_sum n v (fun i m => rsuml (map (fun j => f i j m) (seq 0 (ntheta S))))). apply rsuml_map_ext. intros i _. apply (dirR_sum n v (fun j m => f i j m)). Qed.
Lemma D_points (f : nat -> nat -> R -> R) f' t : (forall i j, (i < nphi S)%nat -> (j < ntheta S)%nat -> D (f i j) t (f' i j)) -> D (fun s => sumk (fun i j => f i j s)) t (sumk f').
Proof.
  intros H. unfold sum_points. apply (D_sum (seq 0 (nphi S)) (fun i s => rsuml (map (fun j => f i j s) (seq 0 (ntheta S)))) (fun i => rsuml (map (f' i) (seq 0 (ntheta S))))).
  intros i Hi. apply in_seq in Hi. apply (D_sum (seq 0 (ntheta S)) (fun j s => f i j s) (f' i)). intros j Hj. apply in_seq in Hj. apply H; lia.
Qed.
Lemma gradient_points (F : nat -> nat -> list R -> R) x (g : nat -> nat -> nat -> R) : (forall i j, (i < nphi S)%nat -> (j < ntheta S)%nat -> gradient n (F i j) x (g i j)) ->
  gradient n (fun x => sumk (fun i j => F i j x)) x (fun m => sumk (fun i j => g i j m)).
Proof. intros H v Hv. rewrite dirR_points. apply (D_points (fun i j t => F i j (move x v t))). intros i j Hi Hj. now apply H. Qed.
Lemma gradient_scale c F x g : gradient n F x g -> gradient n (fun x => F x * c) x (fun m => g m * c).
Proof.
  intros H v Hv. eapply D_val; [|apply D_mul; [apply H; auto|apply D_const]]. cbv beta. rewrite Rmult_0_r, Rplus_0_r.
  rewrite (dirR_ext n v (fun m => g m * c) (fun m => c * g m + 0 * g m)) by (intros; ring). rewrite dirR_lin. ring.
Qed.
Lemma gradient_ext F F' x g g' : (forall x, length x = n -> F x = F' x) -> (forall m, (m < n)%nat -> g m = g' m) -> length x = n -> gradient n F x g -> gradient n F' x g'.
Proof. intros E E' L H v Hv. eapply D_ext; [|rewrite <- (dirR_ext n v g g' E'); apply (H v Hv)]. intros t. apply E. rewrite move_length; congruence. Qed.

Lemma affine_gradient G C x i j : affine_in_dofs n G C -> length x = n -> gradient3 n (fun x => G x i j) x (C x i j).
Proof.
  intros HA L v Hv. eapply D3_ext; [|eapply D3_val; [|apply D3_add; [apply (D3_const (G x i j))|apply D3_scal; [apply D_id|apply (D3_const (dir n v (C x i j)))]]]].
  - intros t. cbv beta. destruct (HA (move x v t) x i j) as (E1 & E2); [rewrite move_length; congruence|auto|].
    transitivity (add3 (G x i j) (sub3 (G (move x v t) i j) (G x i j))); [|apply v3_eq; cbn; ring]. f_equal. rewrite E2. unfold dir. rewrite <- sum3_scal, map_map.
    apply sum3_ext. intros m _. rewrite move_nth, E1 by congruence. rewrite scal3_scal. f_equal. ring.
  - cbv beta. apply v3_eq; cbn [vx vy vz add3 scal3 v0]; ring.
Qed.
Hypothesis HL : linear S.
Variables (x : list R) (i j : nat).
Hypothesis Lx : length x = n.
Notation g0 := (gamma S x i j). Notation g1 := (gammadash1 S x i j). Notation g2 := (gammadash2 S x i j).
Lemma at0 {A} (F : list R -> A) v : length v = n -> F (move x v 0) = F x. Proof. intros H. rewrite move_0; congruence. Qed.

Lemma normal_cross y : normal S y i j = cross (gammadash1 S y i j) (gammadash2 S y i j). Proof. reflexivity. Qed.
Lemma norm_sqrt a : norm a = sqrt (normsq a). Proof. reflexivity. Qed.
Theorem C67_dnormal_by_dcoeff : gradient3 n (fun x => normal S x i j) x (dnormal_by_dcoeff S x i j).
Proof.
  intros v Hv. eapply D3_val; [|apply (D3_cross (fun t => gammadash1 S (move x v t) i j) (fun t => gammadash2 S (move x v t) i j)); [apply affine_gradient; [apply (lin1 S HL)|auto|auto]|apply affine_gradient; [apply (lin2 S HL)|auto|auto]]].
  rewrite !move_0 by congruence.
  rewrite (dir_L2 (fun a b => add3 (cross a g2) (cross g1 b))); [|intros; v3; ring|intros; v3; ring].
  unfold dir. apply sum3_ext. intros m _. f_equal.
Qed.
Theorem C67_dfirst_fund_form_by_dcoeff : gradient3 n (fun x => first_fund_form S x i j) x (dfirst_fund_form_by_dcoeff S x i j).
Proof.
  intros v Hv.
  assert (A : D3 (fun t => gammadash1 S (move x v t) i j) 0 (dir n v (dgammadash1 S x i j))) by (apply affine_gradient; [apply (lin1 S HL)|auto|auto]).
  assert (B : D3 (fun t => gammadash2 S (move x v t) i j) 0 (dir n v (dgammadash2 S x i j))) by (apply affine_gradient; [apply (lin2 S HL)|auto|auto]).
  assert (AA := D_dot _ _ _ _ _ A A). assert (AB := D_dot _ _ _ _ _ A B). assert (BB := D_dot _ _ _ _ _ B B). cbv beta in AA, AB, BB. rewrite !move_0 in AA, AB, BB by congruence.
  apply (D3_val _ _ (V3 (dot3 (dir n v (dgammadash1 S x i j)) g1 + dot3 g1 (dir n v (dgammadash1 S x i j)))
    (dot3 (dir n v (dgammadash1 S x i j)) g2 + dot3 g1 (dir n v (dgammadash2 S x i j))) (dot3 (dir n v (dgammadash2 S x i j)) g2 + dot3 g2 (dir n v (dgammadash2 S x i j))))).
  - rewrite (dir_L2 (fun a b => V3 (dot3 a g1 + dot3 g1 a) (dot3 a g2 + dot3 g1 b) (dot3 b g2 + dot3 g2 b))); [|intros; apply v3_eq; cbn; unfold dot3; cbn; ring|intros; apply v3_eq; cbn; unfold dot3; cbn; ring].
    unfold dir. apply sum3_ext. intros m _. f_equal. unfold dfirst_fund_form_by_dcoeff, dot3. apply v3_eq; cbn; ring.
  - split; [|split]; cbn [vx vy vz]; assumption.
Qed.
(** ** where the parametrisation is regular *)
Hypothesis REG : regular_at S x i j.
Notation nor := (normal S x i j).
Lemma nsq_pos : 0 < normsq nor.
Proof. assert (H := normsq_pos nor v0 REG). replace (sub3 nor v0) with nor in H by (apply v3_eq; cbn; ring). exact H. Qed.
Lemma norm_pos : 0 < norm nor. Proof. rewrite norm_sqrt. apply sqrt_lt_R0, nsq_pos. Qed.
Lemma norm_sq : norm nor * norm nor = normsq nor. Proof. rewrite norm_sqrt. apply sqrt_sqrt. left. apply nsq_pos. Qed.
Lemma norm_D v : length v = n -> D (fun t => norm (normal S (move x v t) i j)) 0 (dot3 nor (dir n v (dnormal_by_dcoeff S x i j)) / norm nor).
Proof.
  intros Hv. assert (A := C67_dnormal_by_dcoeff v Hv). assert (AA := D_dot _ _ _ _ _ A A). cbv beta in AA. rewrite !move_0 in AA by congruence.
  apply (D_ext (fun t => sqrt (dot3 (normal S (move x v t) i j) (normal S (move x v t) i j)))); [reflexivity|].
  eapply D_val; [|apply D_sqrt; [exact AA|cbv beta; rewrite move_0 by congruence; apply nsq_pos]]. cbv beta. rewrite move_0 by congruence.
  change (sqrt (dot3 nor nor)) with (norm nor). assert (P := norm_pos). unfold dot3. field. lra.
Qed.
Theorem C67_dunitnormal_by_dcoeff : gradient3 n (fun x => unitnormal S x i j) x (dunitnormal_by_dcoeff S x i j).
Proof.
  intros v Hv. destruct (C67_dnormal_by_dcoeff v Hv) as (A & B & C). assert (P := norm_pos). assert (NZ : norm (normal S (move x v 0) i j) <> 0) by (rewrite move_0 by congruence; lra).
  assert (DN := norm_D v Hv). assert (DA := D_div _ _ _ _ _ A DN NZ). assert (DB := D_div _ _ _ _ _ B DN NZ). assert (DC := D_div _ _ _ _ _ C DN NZ).
  cbv beta in DA, DB, DC. rewrite !move_0 in DA, DB, DC by congruence.
  assert (E : dir n v (dunitnormal_by_dcoeff S x i j) = scal3 (/ norm nor) (sub3 (dir n v (dnormal_by_dcoeff S x i j)) (scal3 (dot3 nor (dir n v (dnormal_by_dcoeff S x i j)) / normsq nor) nor))).
  { rewrite (dir_L1 (fun d => scal3 (/ norm nor) (sub3 d (scal3 (dot3 nor d / normsq nor) nor)))); [|intros; apply v3_eq; cbn; unfold dot3; cbn; unfold Rdiv; ring|intros; apply v3_eq; cbn; unfold dot3; cbn; unfold Rdiv; ring].
    unfold dir. apply sum3_ext. intros m _. f_equal. unfold dunitnormal_by_dcoeff. rewrite <- norm_sq. unfold dot3. apply v3_eq; cbn [vx vy vz scal3 sub3]; field; lra. }
  rewrite E. rewrite <- norm_sq.
  split; [|split]; cbn [vx vy vz scal3 sub3]; (eapply D_val; [|eassumption]); field; lra.
Qed.
Lemma row_D G C v : affine_in_dofs n G C -> length v = n ->
  D (fun t => dot3 (unitnormal S (move x v t) i j) (G (move x v t) i j)) 0 (dot3 (dir n v (dunitnormal_by_dcoeff S x i j)) (G x i j) + dot3 (unitnormal S x i j) (dir n v (C x i j))).
Proof.
  intros HA Hv. assert (AA := D_dot _ _ _ _ _ (C67_dunitnormal_by_dcoeff v Hv) (affine_gradient G C x i j HA Lx v Hv)). cbv beta in AA. rewrite !move_0 in AA by congruence. exact AA.
Qed.
Theorem C67_dsecond_fund_form_by_dcoeff : gradient3 n (fun x => second_fund_form S x i j) x (dsecond_fund_form_by_dcoeff S x i j).
Proof.
  intros v Hv. set (u := unitnormal S x i j). set (U := dunitnormal_by_dcoeff S x i j).
  assert (E : forall G C, affine_in_dofs n G C -> D (fun t => dot3 (unitnormal S (move x v t) i j) (G (move x v t) i j)) 0
     (dirR n v (fun m => vx (U m) * vx (G x i j) + vx u * vx (C x i j m) + vy (U m) * vy (G x i j) + vy u * vy (C x i j m) + vz (U m) * vz (G x i j) + vz u * vz (C x i j m)))).
  { intros G C HA. eapply D_val; [|apply (row_D G C v HA Hv)]. rewrite (dir_R2 (fun a b => dot3 a (G x i j) + dot3 (unitnormal S x i j) b)); [|intros; cbn; unfold dot3; cbn; ring|intros; cbn; unfold dot3; cbn; ring].
    apply dirR_ext. intros m _. unfold dot3. fold u U. ring. }
  assert (F : forall C k, coord (dir n v C) k = dirR n v (fun m => coord (C m) k)). { intros C k. apply (dir_R1 (fun a => coord a k)); intros; destruct k as [|[|k]]; reflexivity. }
  split; [|split]; (eapply D_val; [|apply E]).
  2: apply (lin11 S HL). 3: apply (lin12 S HL). 4: apply (lin22 S HL).
  - symmetry. exact (F (dsecond_fund_form_by_dcoeff S x i j) 0%nat). - symmetry. exact (F (dsecond_fund_form_by_dcoeff S x i j) 1%nat). - symmetry. exact (F (dsecond_fund_form_by_dcoeff S x i j) 2%nat).
Qed.
(** ** curvatures *)
Notation f := (first_fund_form S x i j). Notation s := (second_fund_form S x i j).
(** the determinant of the first form is the square of the normal *)
Lemma lagrange y : vx (first_fund_form S y i j) * vz (first_fund_form S y i j) - vy (first_fund_form S y i j) * vy (first_fund_form S y i j) = normsq (normal S y i j).
Proof. unfold first_fund_form, normal, normsq, dot3. cbn. ring. Qed.
Notation denom := (vx f * vz f - vy f * vy f).
Lemma denom_pos : 0 < denom. Proof. rewrite lagrange. apply nsq_pos. Qed.
Lemma ends : 0 < vx f /\ 0 < vz f.
Proof.
  assert (H := denom_pos). assert (A : 0 <= vx f) by (unfold first_fund_form; cbn; nra). assert (B : 0 <= vz f) by (unfold first_fund_form; cbn; nra).
  split; apply Rnot_le_lt; intros L; nra.
Qed.
Notation cv := (surface_curvatures S x i j).
(** H^2 - K is never negative: the square roots are of nonnegative numbers *)
Theorem C67_discriminant : 0 <= mean cv * mean cv - gauss cv.
Proof.
  unfold surface_curvatures. cbv zeta. cbn [mean gauss]. assert (P := denom_pos). destruct ends as (PE & PG).
  set (e := vx s). set (g := vz s). set (h := vy s). set (E := vx f) in *. set (F := vy f) in *. set (G := vz f) in *. clearbody e g h E F G.
  set (d := E * G - F * F) in *.
  replace ((e * G - 2 * F * h + g * E) / (2 * d) * ((e * G - 2 * F * h + g * E) / (2 * d)) - (e * g - h * h) / d)
    with (((e * G - 2 * F * h + g * E) * (e * G - 2 * F * h + g * E) - 4 * d * (e * g - h * h)) / (4 * d * d)) by (field; lra).
  apply Rmult_le_pos; [|left; apply Rinv_0_lt_compat; nra].
  (* (eG - 2Fh + gE)^2 - 4 d (eg - h^2) = ((E g - G e) - 2F/E (E h - F e))^2 + 4 d / E^2 (E h - F e)^2 *)
  assert (Q : E * E * ((e * G - 2 * F * h + g * E) * (e * G - 2 * F * h + g * E) - 4 * d * (e * g - h * h)) =
     (E * (E * g - G * e) - 2 * F * (E * h - F * e)) * (E * (E * g - G * e) - 2 * F * (E * h - F * e)) + 4 * d * ((E * h - F * e) * (E * h - F * e))) by (unfold d; ring).
  assert (0 <= E * E * ((e * G - 2 * F * h + g * E) * (e * G - 2 * F * h + g * E) - 4 * d * (e * g - h * h))).
  { rewrite Q. apply Rplus_le_le_0_compat; [apply Rle_0_sqr|]. apply Rmult_le_pos; [lra|apply Rle_0_sqr]. }
  apply Rnot_lt_le. intros L. assert (0 < E * E) by nra. nra.
Qed.
(** the principal curvatures are the numbers k with det (second - k first) = 0, the larger one first, and mean and Gauss
    curvature are their mean and product *)
Definition principal (k : R) : Prop := (vx s - k * vx f) * (vz s - k * vz f) - (vy s - k * vy f) * (vy s - k * vy f) = 0.
Theorem C67_principal_curvatures : (forall k, principal k <-> k = kplus cv \/ k = kminus cv) /\ kminus cv <= kplus cv /\ mean cv = (kplus cv + kminus cv) / 2 /\ gauss cv = kplus cv * kminus cv.
Proof.
  assert (P := denom_pos). assert (DS := C67_discriminant).
  assert (K1 : kplus cv = mean cv + sqrt (mean cv * mean cv - gauss cv)) by reflexivity. assert (K2 : kminus cv = mean cv - sqrt (mean cv * mean cv - gauss cv)) by reflexivity.
  assert (Q := sqrt_sqrt _ DS). assert (Z := sqrt_pos (mean cv * mean cv - gauss cv)).
  assert (EQ : forall k, (vx s - k * vx f) * (vz s - k * vz f) - (vy s - k * vy f) * (vy s - k * vy f) = denom * ((k - mean cv) * (k - mean cv) - (mean cv * mean cv - gauss cv))).
  { intros k. unfold surface_curvatures. cbv zeta. cbn [mean gauss]. field. lra. }
  rewrite K1, K2. set (r := sqrt _) in *. clearbody r. split; [|split; [|split]]; try lra.
  intros k. unfold principal. rewrite EQ. rewrite <- Q. replace ((k - mean cv) * (k - mean cv) - r * r) with ((k - (mean cv + r)) * (k - (mean cv - r))) by ring. split.
  - intros H. apply Rmult_integral in H as [H|H]; [lra|]. apply Rmult_integral in H as [H|H]; lra.
  - intros [-> | ->]; ring.
Qed.
Theorem C67_unitnormal : let u := unitnormal S x i j in
  dot3 u u = 1 /\ dot3 u g1 = 0 /\ dot3 u g2 = 0 /\ 0 < dot3 u (cross g1 g2).
Proof.
  cbv zeta. assert (P := norm_pos). assert (Q := norm_sq). assert (E : unitnormal S x i j = scal3 (/ norm nor) nor) by (unfold unitnormal; apply v3_eq; cbn; unfold Rdiv; ring).
  rewrite E. split; [|split; [|split]].
  - transitivity (/ norm nor * / norm nor * normsq nor); [unfold normsq, dot3; cbn; ring|]. rewrite <- Q. field. lra.
  - unfold dot3, normal. cbn. ring.
  - unfold dot3, normal. cbn. ring.
  - assert (N := nsq_pos). apply Rlt_le_trans with (/ norm nor * normsq nor); [apply Rmult_lt_0_compat; auto; now apply Rinv_0_lt_compat|]. right. unfold normsq, dot3, normal. cbn. ring.
Qed.
Notation df := (dfirst_fund_form_by_dcoeff S x i j). Notation ds := (dsecond_fund_form_by_dcoeff S x i j).
Lemma mean_gauss_D v : length v = n ->
  D (fun t => mean (surface_curvatures S (move x v t) i j)) 0 (dirR n v (fun m => mean (dsurface_curvatures_by_dcoeff S x i j m))) /\
  D (fun t => gauss (surface_curvatures S (move x v t) i j)) 0 (dirR n v (fun m => gauss (dsurface_curvatures_by_dcoeff S x i j m))).
Proof.
  intros Hv. destruct (C67_dfirst_fund_form_by_dcoeff v Hv) as (A & B & C). destruct (C67_dsecond_fund_form_by_dcoeff v Hv) as (A' & B' & C'). assert (P := denom_pos).
  assert (Z : forall k, vx (first_fund_form S (move x v 0) i j) * vz (first_fund_form S (move x v 0) i j) - vy (first_fund_form S (move x v 0) i j) * vy (first_fund_form S (move x v 0) i j) = k -> k = denom) by (intros k <-; rewrite move_0; congruence).
  assert (DD := D_sub _ _ _ _ _ (D_mul _ _ _ _ _ A C) (D_mul _ _ _ _ _ B B)).
  split.
  - assert (NUM := D_add _ _ _ _ _ (D_sub _ _ _ _ _ (D_mul _ _ _ _ _ A' C) (D_mul _ _ _ _ _ (D_mul _ _ _ _ _ (D_const 2 0) B) B')) (D_mul _ _ _ _ _ C' A)).
    assert (DEN := D_mul _ _ _ _ _ (D_const 2 0) DD).
    assert (Q := D_div _ _ _ _ _ NUM DEN). cbv beta in Q. rewrite !move_0 in Q by congruence.
    eapply D_val; [|apply Q; lra]. set (a := dir n v df). set (b := dir n v ds).
    pose (L := fun df ds : vec3 => (vx ds * vz f + vx s * vz df - 2 * vy df * vy s - 2 * vy f * vy ds + vz ds * vx f + vz s * vx df) / (2 * denom)
            - (vx s * vz f - 2 * vy f * vy s + vz s * vx f) / (2 * denom) * (vx df * vz f + vx f * vz df - 2 * vy df * vy f) / denom).
    transitivity (L a b).
    + unfold L. field. lra.
    + unfold a, b. rewrite (dir_R2 L); [reflexivity|intros; unfold L; cbn [vx vy vz add3 scal3]; field; lra|intros; unfold L; cbn [vx vy vz add3 scal3]; field; lra].
  - assert (NUM := D_sub _ _ _ _ _ (D_mul _ _ _ _ _ A' C') (D_mul _ _ _ _ _ B' B')).
    assert (Q := D_div _ _ _ _ _ NUM DD). cbv beta in Q. rewrite !move_0 in Q by congruence.
    eapply D_val; [|apply Q; lra]. set (a := dir n v df). set (b := dir n v ds).
    pose (L := fun df ds : vec3 => (vx ds * vz s + vx s * vz ds - 2 * vy ds * vy s) / denom - (vx s * vz s - vy s * vy s) / denom * (vx df * vz f + vx f * vz df - 2 * vy df * vy f) / denom).
    transitivity (L a b).
    + unfold L. field. lra.
    + unfold a, b. rewrite (dir_R2 L); [reflexivity|intros; unfold L; cbn [vx vy vz add3 scal3]; field; lra|intros; unfold L; cbn [vx vy vz add3 scal3]; field; lra].
Qed.
Theorem C67_dmean_curvature : gradient n (fun x => mean (surface_curvatures S x i j)) x (fun m => mean (dsurface_curvatures_by_dcoeff S x i j m)).
Proof. intros v Hv. apply (mean_gauss_D v Hv). Qed.
Theorem C67_dgauss_curvature : gradient n (fun x => gauss (surface_curvatures S x i j)) x (fun m => gauss (dsurface_curvatures_by_dcoeff S x i j m)).
Proof. intros v Hv. apply (mean_gauss_D v Hv). Qed.
(** away from umbilic points *)
Lemma root_D v : length v = n -> gauss cv < mean cv * mean cv ->
  D (fun t => sqrt (mean (surface_curvatures S (move x v t) i j) * mean (surface_curvatures S (move x v t) i j) - gauss (surface_curvatures S (move x v t) i j))) 0
    (dirR n v (fun m => (mean cv * mean (dsurface_curvatures_by_dcoeff S x i j m) - / 2 * gauss (dsurface_curvatures_by_dcoeff S x i j m)) / sqrt (mean cv * mean cv - gauss cv))).
Proof.
  intros Hv U. destruct (mean_gauss_D v Hv) as (A & B).
  assert (Q := D_sqrt _ _ _ (D_sub _ _ _ _ _ (D_mul _ _ _ _ _ A A) B)). cbv beta in Q. rewrite !move_0 in Q by congruence.
  eapply D_val; [|apply Q; lra]. set (r := sqrt _). assert (R0 : 0 < r) by (apply sqrt_lt_R0; lra).
  set (dm := fun m => mean (dsurface_curvatures_by_dcoeff S x i j m)). set (dg := fun m => gauss (dsurface_curvatures_by_dcoeff S x i j m)).
  transitivity ((mean cv / r) * dirR n v dm + (- (/ 2 / r)) * dirR n v dg); [field; lra|].
  rewrite <- dirR_lin. apply dirR_ext. intros m _. unfold dm, dg. set (p := mean (dsurface_curvatures_by_dcoeff S x i j m)). set (q := gauss (dsurface_curvatures_by_dcoeff S x i j m)).
  generalize (mean cv) p q. intros. field. lra.
Qed.
Theorem C67_dprincipal_curvatures : gauss cv < mean cv * mean cv ->
  gradient n (fun x => kplus (surface_curvatures S x i j)) x (fun m => kplus (dsurface_curvatures_by_dcoeff S x i j m)) /\
  gradient n (fun x => kminus (surface_curvatures S x i j)) x (fun m => kminus (dsurface_curvatures_by_dcoeff S x i j m)).
Proof.
  intros U. split; intros v Hv; destruct (mean_gauss_D v Hv) as (A & _); assert (B := root_D v Hv U).
  - eapply D_val; [|exact (D_add _ _ _ _ _ A B)].
    transitivity (dirR n v (fun m => 1 * mean (dsurface_curvatures_by_dcoeff S x i j m) + 1 * ((mean cv * mean (dsurface_curvatures_by_dcoeff S x i j m) - / 2 * gauss (dsurface_curvatures_by_dcoeff S x i j m)) / sqrt (mean cv * mean cv - gauss cv)))).
    + rewrite dirR_lin. ring. + apply dirR_ext. intros m _. rewrite !Rmult_1_l. reflexivity.
  - eapply D_val; [|exact (D_sub _ _ _ _ _ A B)].
    transitivity (dirR n v (fun m => 1 * mean (dsurface_curvatures_by_dcoeff S x i j m) + (-1) * ((mean cv * mean (dsurface_curvatures_by_dcoeff S x i j m) - / 2 * gauss (dsurface_curvatures_by_dcoeff S x i j m)) / sqrt (mean cv * mean cv - gauss cv)))).
    + rewrite dirR_lin. ring. + apply dirR_ext. intros m _. unfold dsurface_curvatures_by_dcoeff, surface_curvatures. cbn [mean gauss kminus]. unfold Rdiv. ring.
Qed.
End Paths.

(** ** Area and volume *)
Section Totals.
Variable S : surface.
Hypothesis HL : linear S.
Notation n := (ndofs S).
Lemma nth_vmap2 (op : R -> R -> R) a b m : length a = length b -> (m < length a)%nat -> nth m (vmap2 op a b) 0 = op (nth m a 0) (nth m b 0).
Proof. revert b m. induction a as [|x a IH]; intros [|y b] [|m] H L; cbn in *; try discriminate; try lia; auto. apply IH; lia. Qed.
(** the transposed Jacobian of the normals *)
Theorem C67_dnormal_by_dcoeff_vjp x w m : length x = n -> (m < n)%nat ->
  nth m (dnormal_by_dcoeff_vjp S x w) 0 = sum_points S (fun i j => dot3 (w i j) (dnormal_by_dcoeff S x i j m)).
Proof.
  intros L Hm. unfold dnormal_by_dcoeff_vjp. destruct (vjp1 S HL x (res_dgammadash1 S x w) L) as (L1 & E1). destruct (vjp2 S HL x (res_dgammadash2 S x w) L) as (L2 & E2).
  rewrite nth_vmap2 by congruence. rewrite E1, E2 by auto. rewrite <- sum_points_plus. apply sum_points_ext. intros i j _ _.
  unfold dnormal_by_dcoeff, res_dgammadash1, res_dgammadash2, dot3. cbn. ring.
Qed.
Lemma vjp_length x w : length x = n -> length (dnormal_by_dcoeff_vjp S x w) = n.
Proof.
  intros L. unfold dnormal_by_dcoeff_vjp. destruct (vjp1 S HL x (res_dgammadash1 S x w) L) as (L1 & _). destruct (vjp2 S HL x (res_dgammadash2 S x w) L) as (L2 & _).
  generalize dependent (dgammadash2_vjp S x (res_dgammadash2 S x w)). generalize dependent (dgammadash1_vjp S x (res_dgammadash1 S x w)). intros a. generalize n. induction a as [|p a IH]; intros [|k] H [|q b] H'; cbn in *; try discriminate; auto.
Qed.
Definition dnorm x i j m := dot3 (normal S x i j) (dnormal_by_dcoeff S x i j m) / norm (normal S x i j).
Lemma darea_eq x m : length x = n -> (m < n)%nat -> nth m (darea_by_dcoeff S x) 0 = sum_points S (fun i j => dnorm x i j m) * (1 / npoints S).
Proof.
  intros L Hm. unfold darea_by_dcoeff. cbv zeta. rewrite (nth_map_seq (fun m => nth m _ 0)) by auto.
  rewrite C67_dnormal_by_dcoeff_vjp by auto. rewrite Rmult_comm, <- sum_points_scale. apply sum_points_ext. intros i j _ _. unfold dnorm, dot3. cbn. unfold Rdiv. ring.
Qed.
Theorem C67_darea_by_dcoeff x : length x = n -> regular S x -> gradient n (area S) x (fun m => nth m (darea_by_dcoeff S x) 0).
Proof.
  intros L REG. apply (gradient_ext S (fun x => sum_points S (fun i j => norm (normal S x i j)) * (1 / npoints S)) _ _ (fun m => sum_points S (fun i j => dnorm x i j m) * (1 / npoints S))); auto.
  - intros y _. unfold area, Rdiv. ring.
  - intros m Hm. symmetry. now apply darea_eq.
  - apply gradient_scale. apply (gradient_points S (fun i j x => norm (normal S x i j))). intros i j Hi Hj v Hv.
    eapply D_val; [|apply norm_D; auto]. unfold dnorm. apply (dir_R1 (fun d => dot3 (normal S x i j) d / norm (normal S x i j))); intros; unfold dot3; cbn; unfold Rdiv; ring.
Qed.
(** the columns of the normal move linearly *)
Lemma dnormal_gradient x i j m : length x = n -> gradient3 n (fun x => dnormal_by_dcoeff S x i j m) x (d2normal_by_dcoeffdcoeff S x i j m).
Proof.
  intros L v Hv. set (c1 := dgammadash1 S x i j m). set (c2 := dgammadash2 S x i j m).
  apply (D3_ext (fun t => add3 (cross c1 (gammadash2 S (move x v t) i j)) (cross (gammadash1 S (move x v t) i j) c2))).
  - intros t. destruct (lin1 S HL x (move x v t) i j) as (E1 & _); [auto|rewrite move_length; congruence|]. destruct (lin2 S HL x (move x v t) i j) as (E2 & _); [auto|rewrite move_length; congruence|].
    unfold c1, c2. rewrite E1, E2. reflexivity.
  - assert (G1 : D3 (fun t => gammadash1 S (move x v t) i j) 0 (dir n v (dgammadash1 S x i j))) by (apply affine_gradient; [apply (lin1 S HL)|auto|auto]).
    assert (G2 : D3 (fun t => gammadash2 S (move x v t) i j) 0 (dir n v (dgammadash2 S x i j))) by (apply affine_gradient; [apply (lin2 S HL)|auto|auto]).
    eapply D3_val; [|apply D3_add; apply D3_cross; [apply (D3_const c1)|exact G2|exact G1|apply (D3_const c2)]].
    cbv beta. rewrite move_0 by congruence. transitivity (add3 (cross c1 (dir n v (dgammadash2 S x i j))) (cross (dir n v (dgammadash1 S x i j)) c2)); [apply v3_eq; cbn; ring|].
    rewrite (dir_L2 (fun a b => add3 (cross c1 b) (cross a c2))); [|intros; v3; ring|intros; v3; ring]. unfold dir. apply sum3_ext. intros k _. f_equal.
Qed.
Theorem C67_d2normal_by_dcoeffdcoeff x i j m : length x = n -> gradient3 n (fun x => dnormal_by_dcoeff S x i j m) x (d2normal_by_dcoeffdcoeff S x i j m).
Proof. apply dnormal_gradient. Qed.
Theorem C67_d2area_by_dcoeffdcoeff x m : length x = n -> (m < n)%nat -> regular S x ->
  gradient n (fun x => nth m (darea_by_dcoeff S x) 0) x (d2area_by_dcoeffdcoeff S x m).
Proof.
  intros L Hm REG. unfold d2area_by_dcoeffdcoeff.
  match goal with |- gradient n _ _ (fun k => sum_points S (@?g k) * _) => set (G := fun i j k => g k i j) end.
  apply (gradient_ext S (fun x => sum_points S (fun i j => dnorm x i j m) * (1 / npoints S)) _ _ (fun k => sum_points S (fun i j => G i j k) * (1 / npoints S))); auto.
  - intros y Hy. symmetry. now apply darea_eq.
  - apply gradient_scale. apply (gradient_points S (fun i j x => dnorm x i j m)). intros i j Hi Hj v Hv.
    specialize (REG i j Hi Hj). assert (P := norm_pos S x i j REG). assert (SQ := norm_sq S x i j REG).
    assert (NZ : norm (normal S (move x v 0) i j) <> 0) by (rewrite move_0 by congruence; lra).
    assert (A := D_div _ _ _ _ _ (D_dot _ _ _ _ _ (C67_dnormal_by_dcoeff S HL x i j L v Hv) (dnormal_gradient x i j m L v Hv)) (norm_D S HL x i j L REG v Hv) NZ).
    cbv beta in A. rewrite !move_0 in A by congruence. eapply D_val; [|exact A].
    set (nor := normal S x i j) in *. set (dm := dnormal_by_dcoeff S x i j m) in *. set (nrm := norm nor) in *.
    pose (L2 := fun dn d2 : vec3 => (dot3 dn dm + dot3 nor d2) / nrm - dot3 nor dn * dot3 nor dm / (nrm * nrm * nrm)).
    transitivity (L2 (dir n v (dnormal_by_dcoeff S x i j)) (dir n v (d2normal_by_dcoeffdcoeff S x i j m))).
    + unfold L2. field. lra.
    + rewrite (dir_R2 L2); [|intros; unfold L2, dot3; cbn; unfold Rdiv; ring|intros; unfold L2, dot3; cbn; unfold Rdiv; ring].
      apply dirR_ext. intros k _. unfold L2, G, dot3. fold nor dm nrm. field. lra.
Qed.
Lemma dvolume_eq x m : length x = n -> (m < n)%nat -> nth m (dvolume_by_dcoeff S x) 0 =
  sum_points S (fun i j => 1 / 3 * (dot3 (gamma S x i j) (dnormal_by_dcoeff S x i j m) + dot3 (normal S x i j) (dgamma S x i j m))) * (1 / npoints S).
Proof.
  intros L Hm. unfold dvolume_by_dcoeff. cbv zeta. rewrite (nth_map_seq (fun m => nth m _ 0)) by auto.
  match goal with |- context [dgamma_vjp S x ?w] => destruct (vjp0 S HL x w L) as (L1 & E1) end. rewrite nth_vmap2 by (rewrite vjp_length by auto; auto).
  rewrite E1, C67_dnormal_by_dcoeff_vjp by auto. rewrite <- sum_points_plus, Rmult_comm, <- sum_points_scale. apply sum_points_ext. intros i j _ _. unfold dot3. cbn [vx vy vz scal3]. ring.
Qed.
Theorem C67_dvolume_by_dcoeff x : length x = n -> gradient n (volume S) x (fun m => nth m (dvolume_by_dcoeff S x) 0).
Proof.
  intros L. apply (gradient_ext S (fun x => sum_points S (fun i j => 1 / 3 * dot3 (gamma S x i j) (normal S x i j)) * (1 / npoints S)) _ _
    (fun m => sum_points S (fun i j => 1 / 3 * (dot3 (gamma S x i j) (dnormal_by_dcoeff S x i j m) + dot3 (normal S x i j) (dgamma S x i j m))) * (1 / npoints S))); auto.
  - intros y _. unfold volume, Rdiv. rewrite Rmult_1_l. f_equal. now rewrite Rmult_1_l.
  - intros m Hm. symmetry. now apply dvolume_eq.
  - apply gradient_scale. apply (gradient_points S (fun i j x => 1 / 3 * dot3 (gamma S x i j) (normal S x i j)) x (fun i j m => 1 / 3 * (dot3 (gamma S x i j) (dnormal_by_dcoeff S x i j m) + dot3 (normal S x i j) (dgamma S x i j m)))).
    intros i j _ _ v Hv. assert (A := D_mul _ _ _ _ _ (D_const (1 / 3) 0) (D_dot _ _ _ _ _ (affine_gradient S (gamma S) (dgamma S) x i j (lin0 S HL) L v Hv) (C67_dnormal_by_dcoeff S HL x i j L v Hv))).
    cbv beta in A. rewrite !move_0 in A by congruence. eapply D_val; [|exact A].
    rewrite <- (dir_R2 (fun a b => 1 / 3 * (dot3 (gamma S x i j) b + dot3 (normal S x i j) a))); [|intros; unfold dot3; cbn; ring|intros; unfold dot3; cbn; ring]. unfold dot3. ring.
Qed.
Theorem C67_d2volume_by_dcoeffdcoeff x m : length x = n -> (m < n)%nat ->
  gradient n (fun x => nth m (dvolume_by_dcoeff S x) 0) x (d2volume_by_dcoeffdcoeff S x m).
Proof.
  intros L Hm. unfold d2volume_by_dcoeffdcoeff.
  match goal with |- gradient n _ _ (fun k => sum_points S (@?g k) * _) => set (G := fun i j k => g k i j) end.
  apply (gradient_ext S (fun y => sum_points S (fun i j => 1 / 3 * (dot3 (gamma S y i j) (dnormal_by_dcoeff S y i j m) + dot3 (normal S y i j) (dgamma S x i j m))) * (1 / npoints S)) _ _ (fun k => sum_points S (fun i j => G i j k) * (1 / npoints S))); auto.
  - intros y Hy. rewrite dvolume_eq by auto. f_equal. apply sum_points_ext. intros i j _ _. do 2 f_equal. destruct (lin0 S HL x y i j L Hy) as (E & _). now rewrite E.
  - apply gradient_scale. apply (gradient_points S (fun i j y => 1 / 3 * (dot3 (gamma S y i j) (dnormal_by_dcoeff S y i j m) + dot3 (normal S y i j) (dgamma S x i j m)))). intros i j Hi Hj v Hv.
    assert (A := D_mul _ _ _ _ _ (D_const (1 / 3) 0) (D_add _ _ _ _ _ (D_dot _ _ _ _ _ (affine_gradient S (gamma S) (dgamma S) x i j (lin0 S HL) L v Hv) (dnormal_gradient x i j m L v Hv))
       (D_dot _ _ _ _ _ (C67_dnormal_by_dcoeff S HL x i j L v Hv) (D3_const (dgamma S x i j m) 0)))).
    cbv beta in A. rewrite !move_0 in A by congruence. eapply D_val; [|exact A].
    rewrite (dirR_ext n v (G i j) (fun k => 1 * (1 / 3 * (dot3 (dgamma S x i j k) (dnormal_by_dcoeff S x i j m) + dot3 (gamma S x i j) (d2normal_by_dcoeffdcoeff S x i j m k))) + 1 / 3 * dot3 (dnormal_by_dcoeff S x i j k) (dgamma S x i j m))) by (intros; unfold G, dot3; ring).
    rewrite dirR_lin. rewrite <- (dir_R2 (fun a b => 1 / 3 * (dot3 a (dnormal_by_dcoeff S x i j m) + dot3 (gamma S x i j) b))); [|intros; unfold dot3; cbn; ring|intros; unfold dot3; cbn; ring].
    rewrite <- (dir_R1 (fun a => dot3 a (dgamma S x i j m))); [|intros; unfold dot3; cbn; ring|intros; unfold dot3; cbn; ring].
    unfold dot3. cbn [vx vy vz v0]. ring.
Qed.
(** second derivatives are symmetric *)
Theorem C67_second_derivatives_symmetric x m k : length x = n -> regular S x ->
  d2area_by_dcoeffdcoeff S x m k = d2area_by_dcoeffdcoeff S x k m /\ d2volume_by_dcoeffdcoeff S x m k = d2volume_by_dcoeffdcoeff S x k m.
Proof.
  intros L REG. unfold d2area_by_dcoeffdcoeff, d2volume_by_dcoeffdcoeff. split; f_equal; apply sum_points_ext; intros i j Hi Hj.
  - assert (P := norm_pos S x i j (REG i j Hi Hj)). cbv zeta. unfold d2normal_by_dcoeffdcoeff. cbn [vx vy vz]. field. lra.
  - unfold d2normal_by_dcoeffdcoeff. cbn. ring.
Qed.
End Totals.

(** ** The vectorised second derivative of the volume computes the same matrix, for every register size *)
Lemma seq_map_add a q : forall z, map (fun jj => (a + jj)%nat) (seq z q) = seq (a + z) q.
Proof. induction q as [|q IH]; intros z; cbn; auto. f_equal. rewrite IH. f_equal. lia. Qed.
Theorem C67_d2volume_simd S sz x m : (0 < sz)%nat ->
  d2volume_simd_row S sz x m = map (d2volume_by_dcoeffdcoeff S x m) (seq 0 (ndofs S)).
Proof.
  intros Hs. set (F := fun n => sum_points S (fun i j => d2volume_lane S x i j m n) * (1 / npoints S)).
  transitivity (map F (seq 0 (ndofs S))).
  - unfold d2volume_simd_row. fold F. cbv zeta.
    assert (B : forall k a N, (a + k * sz >= N)%nat -> (forall c, (c < k)%nat -> (a + c * sz < N + sz)%nat) ->
      flat_map (fun c => map (fun jj => F (a + c * sz + jj)%nat) (seq 0 (Nat.min sz (N - (a + c * sz))))) (seq 0 k) = map F (seq a (N - a))).
    { induction k as [|k IH]; intros a N H1 H2; cbn [seq flat_map]; [replace (N - a)%nat with 0%nat by lia; reflexivity|].
      rewrite Nat.add_0_r. rewrite <- seq_shift, flat_map_concat_map, map_map, <- flat_map_concat_map.
      transitivity (map F (seq a (Nat.min sz (N - a))) ++ map F (seq (a + sz) (N - (a + sz)))).
      - f_equal.
        + rewrite <- (map_map (fun jj => (a + jj)%nat) F). f_equal. rewrite seq_map_add, Nat.add_0_r. reflexivity.
        + rewrite <- (IH (a + sz)%nat N); [|lia|intros c Hc; specialize (H2 (Datatypes.S c)); lia].
          apply flat_blocks. intros c _. replace (a + Datatypes.S c * sz)%nat with (a + sz + c * sz)%nat by lia. reflexivity.
      - rewrite <- map_app. f_equal. destruct (Nat.le_gt_cases (N - a) sz).
        + rewrite Nat.min_r by lia. replace (N - (a + sz))%nat with 0%nat by lia. cbn. now rewrite app_nil_r.
        + rewrite Nat.min_l by lia. rewrite <- seq_app. f_equal. lia. }
    assert (B0 := B ((ndofs S + sz - 1) / sz)%nat 0%nat (ndofs S)). rewrite Nat.sub_0_r in B0. rewrite <- B0.
    + apply flat_blocks. intros c _. reflexivity.
    + assert (E := Nat.div_mod (ndofs S + sz - 1) sz). assert (U := Nat.mod_upper_bound (ndofs S + sz - 1) sz). nia.
    + intros c Hc. assert (E := Nat.mul_div_le (ndofs S + sz - 1) sz). nia.
  - apply map_ext_in. intros k Hk. apply in_seq in Hk. unfold F, d2volume_by_dcoeffdcoeff. f_equal. apply sum_points_ext. intros i j _ _.
    unfold d2volume_lane, pad. rewrite (proj2 (Nat.ltb_lt k (ndofs S))) by lia. unfold d2normal_by_dcoeffdcoeff. cbn [vx vy vz]. ring.
Qed.
