(** C63, C64: the theorems for the grid interpolant. *)
From Coq Require Import Reals Lra Lia ZArith.
From Verif Require Import ListAux VecAux PointsModel InterpModel Lagrange InterpProps.
Open Scope R_scope.

(** ** The two rules the library builds *)
Lemma uniform_good n : (0 < n)%nat -> good_rule (uniform_rule n).
Proof.
  intros H. assert (P : 0 < INR n) by now apply lt_0_INR. unfold good_rule, uniform_rule. cbn [degree nodes]. split; auto.
  split; [cbn; ring|]. split; [field; lra|]. split.
  - intros i Hi. apply lt_INR in Hi. pose proof (pos_INR i). unfold Rdiv. rewrite Rmult_1_l. split.
    + apply Rmult_le_pos; auto. left. now apply Rinv_0_lt_compat.
    + apply (Rmult_lt_reg_r (INR n)); auto. rewrite Rmult_assoc, Rinv_l by lra. lra.
  - intros i j _ _ E. apply INR_eq. apply (Rmult_eq_reg_r (1 / INR n)); auto. unfold Rdiv. rewrite Rmult_1_l. apply Rinv_neq_0_compat. lra.
Qed.
Lemma chebyshev_good n : (0 < n)%nat -> good_rule (chebyshev_rule n).
Proof.
  intros H. assert (P : 0 < INR n) by now apply lt_0_INR. pose proof PI_RGT_0 as PP. unfold good_rule, chebyshev_rule. cbn [degree nodes]. split; auto.
  assert (B : forall i, (i <= n)%nat -> 0 <= INR i * PI * (1 / INR n) <= PI).
  { intros i Hi. apply le_INR in Hi. pose proof (pos_INR i).
    assert (E : INR i * PI * (1 / INR n) * INR n = INR i * PI) by (field; lra). split; apply (Rmult_le_reg_r (INR n)); try lra; rewrite E; nra. }
  split; [cbn; rewrite !Rmult_0_l, cos_0; lra|]. split; [replace (INR n * PI * (1 / INR n)) with PI by (field; lra); rewrite cos_PI; lra|]. split.
  - intros i Hi. destruct (B i ltac:(lia)) as [B1 B2]. pose proof (COS_bound (INR i * PI * (1 / INR n))) as [C1 C2].
    assert (N : cos (INR i * PI * (1 / INR n)) <> -1); [|lra]. intros E. rewrite <- cos_PI in E. apply cos_inj in E; try lra.
    assert (INR i = INR n); [|apply INR_eq in H0; lia].
    apply (Rmult_eq_reg_r PI); [|lra]. rewrite <- E at 2. field. lra.
  - intros i j Hi Hj E. assert (C : cos (INR i * PI * (1 / INR n)) = cos (INR j * PI * (1 / INR n))) by lra. apply cos_inj in C; auto.
    apply INR_eq. apply (Rmult_eq_reg_r (PI * (1 / INR n))); [lra|]. apply Rmult_integral_contrapositive. split; [lra|].
    unfold Rdiv. rewrite Rmult_1_l. apply Rinv_neq_0_compat. lra.
Qed.

(** ** Points of the box *)
Lemma shift_box a x : good_axis a -> eps < a_max a - a_min a -> a_min a <= x <= a_max a ->
  a_min a < shift a x < a_max a /\ Rabs (shift a x - x) <= eps.
Proof.
  intros H E B. assert (0 < eps) by (unfold eps; apply Rinv_0_lt_compat, pow_lt; lra). unfold shift.
  destruct (Rle_dec (a_max a) x) as [L|L]; [|apply Rnot_le_lt in L; destruct (Rle_dec x (a_min a)) as [K|K]; [|apply Rnot_le_lt in K]].
  - split; [lra|]. replace (x - eps - x) with (- eps) by ring. rewrite Rabs_Ropp, Rabs_pos_eq; lra.
  - split; [lra|]. replace (x + eps - x) with eps by ring. rewrite Rabs_pos_eq; lra.
  - split; [lra|]. rewrite Rminus_diag_eq, Rabs_R0; lra.
Qed.
Lemma shift_inside a x : a_min a < x < a_max a -> shift a x = x.
Proof. intros H. unfold shift. destruct (Rle_dec (a_max a) x); [lra|]. destruct (Rle_dec x (a_min a)); lra. Qed.
Lemma hstep_n a : good_axis a -> INR (a_n a) * hstep a = a_max a - a_min a.
Proof. intros [A _]. unfold hstep. field. apply not_0_INR. lia. Qed.
Lemma covers_exists a x : good_axis a -> a_min a <= x < a_max a -> exists i, covers a i x.
Proof.
  intros H B. pose proof (hstep_pos a H) as P. set (u := (x - a_min a) / hstep a). assert (E : x = a_min a + u * hstep a) by (unfold u; field; lra).
  assert (U : 0 <= u < INR (a_n a)).
  { pose proof (hstep_n a H). split; [apply (Rmult_le_reg_r (hstep a))|apply (Rmult_lt_reg_r (hstep a))]; lra. }
  destruct (base_Int_part u) as [B1 B2].
  assert (I : (-1 < Int_part u)%Z) by (apply lt_IZR; cbn; lra).
  assert (J : (Int_part u < Z.of_nat (a_n a))%Z) by (apply lt_IZR; rewrite <- INR_IZR_INZ; lra).
  exists (Z.to_nat (Int_part u)). assert (EI : INR (Z.to_nat (Int_part u)) = IZR (Int_part u)) by (rewrite INR_IZR_INZ, Z2Nat.id; auto; lia).
  split; [lia|]. rewrite EI, E. split; nra.
Qed.
Lemma covers_unique a i j x : good_axis a -> covers a i x -> covers a j x -> i = j.
Proof.
  intros H. pose proof (hstep_pos a H) as P. enough (W : forall i j, covers a i x -> covers a j x -> (i <= j)%nat) by (intros; apply Nat.le_antisymm; auto).
  clear i j. intros i j [_ A] [_ B]. apply INR_le. assert (INR i * hstep a < (INR j + 1) * hstep a) by lra. apply Rmult_lt_reg_r in H0; auto.
  rewrite <- S_INR in H0. apply INR_lt in H0. apply le_INR. lia.
Qed.
(** for every function and every cell there is an interpolating polynomial (so C63_value always applies) *)
Theorem C63_interpolant_exists r ax ay az f i j k : good_rule r -> good_axis ax -> good_axis ay -> good_axis az ->
  exists p, coordpoly (degree r) p /\ agrees r ax ay az p f i j k.
Proof.
  intros HR Hx Hy Hz.
  exists (fun x y z => sum_n (degree r + 1) (fun ii => sum_n (degree r + 1) (fun jj => sum_n (degree r + 1) (fun kk =>
     f (place r ax i ii, place r ay j jj, place r az k kk) * basis_fun r kk (loc az k z)) * basis_fun r jj (loc ay j y)) * basis_fun r ii (loc ax i x))).
  assert (PB : forall a m mm, good_axis a -> (mm <= degree r)%nat -> polyn (degree r) (fun x => basis_fun r mm (loc a m x))).
  { intros a m mm Ha L. apply hstep_pos in Ha. apply (poly_ext _ (fun x => basis_fun r mm (- mesh a m / hstep a + x * (/ hstep a)))).
    - intros. f_equal. unfold loc. field. lra.
    - apply poly_affine, basis_poly; auto. }
  assert (LN : forall a m mm, good_axis a -> loc a m (place r a m mm) = nodes r mm).
  { intros a m mm Ha. apply hstep_pos in Ha. unfold loc, place. rewrite mesh_eq. field. lra. }
  split; [split; [|split]|].
  - intros y z. apply poly_sum_n. intros. apply poly_scal. apply PB; auto; lia.
  - intros x z. apply poly_sum_n. intros. apply (poly_ext _ (fun y => basis_fun r i0 (loc ax i x) * sum_n (degree r + 1) (fun jj => sum_n (degree r + 1) (fun kk =>
     f (place r ax i i0, place r ay j jj, place r az k kk) * basis_fun r kk (loc az k z)) * basis_fun r jj (loc ay j y)))); [intros; ring|].
    apply poly_scal, poly_sum_n. intros. apply poly_scal. apply PB; auto; lia.
  - intros x y. apply poly_sum_n. intros ii Hii. apply (poly_ext _ (fun z => basis_fun r ii (loc ax i x) * sum_n (degree r + 1) (fun jj => sum_n (degree r + 1) (fun kk =>
     f (place r ax i ii, place r ay j jj, place r az k kk) * basis_fun r kk (loc az k z)) * basis_fun r jj (loc ay j y)))); [intros; ring|].
    apply poly_scal, poly_sum_n. intros jj Hjj. apply (poly_ext _ (fun z => basis_fun r jj (loc ay j y) * sum_n (degree r + 1) (fun kk =>
     f (place r ax i ii, place r ay j jj, place r az k kk) * basis_fun r kk (loc az k z)))); [intros; ring|].
    apply poly_scal, poly_sum_n. intros. apply poly_scal. apply PB; auto; lia.
  - intros ii jj kk Hii Hjj Hkk. rewrite !LN by auto.
    assert (Dl : forall (F : nat -> R) m, (m <= degree r)%nat -> sum_n (degree r + 1) (fun q => F q * basis_fun r q (nodes r m)) = F m).
    { intros F m L. rewrite (sum_n_one _ _ m); [|lia|].
      - rewrite basis_delta; auto; [rewrite Nat.eqb_refl; ring|apply HR].
      - intros q Hq N. rewrite basis_delta; try lia; [|apply HR]. rewrite (proj2 (Nat.eqb_neq q m)) by auto. ring. }
    rewrite Dl by auto. rewrite Dl by auto. rewrite Dl by auto. reflexivity.
Qed.

(** ** C63, user level: a box without skipping *)
Definition never : R -> R -> R -> bool := fun _ _ _ => false.
Lemma never_cell ax ay az i j k : (i < a_n ax)%nat -> (j < a_n ay)%nat -> (k < a_n az)%nat -> skip_cell ax ay az never i j k = false.
Proof.
  intros. apply not_true_iff_false. rewrite C63_skip_cell_iff by auto. intros H2. specialize (H2 0 0 0 ltac:(lia) ltac:(lia) ltac:(lia))%nat. discriminate.
Qed.
Theorem C63_reproduces_polynomials r ax ay az junk ok p x y z :
  good_rule r -> good_axis ax -> good_axis ay -> good_axis az ->
  eps < a_max ax - a_min ax -> eps < a_max ay - a_min ay -> eps < a_max az - a_min az -> coordpoly (degree r) p ->
  a_min ax <= x <= a_max ax -> a_min ay <= y <= a_max ay -> a_min az <= z <= a_max az ->
  exists x' y' z', Rabs (x' - x) <= eps /\ Rabs (y' - y) <= eps /\ Rabs (z' - z) <= eps /\
    (a_min ax < x < a_max ax -> x' = x) /\ (a_min ay < y < a_max ay -> y' = y) /\ (a_min az < z < a_max az -> z' = z) /\
    evaluate r ax ay az never junk ok (vals r ax ay az never (map (fun t => let '(a, b, c) := t in p a b c))) x y z = Value (p x' y' z').
Proof.
  intros HR Hx Hy Hz Ex Ey Ez P Bx By Bz.
  destruct (shift_box ax x Hx Ex Bx) as [Sx Ax], (shift_box ay y Hy Ey By) as [Sy Ay], (shift_box az z Hz Ez Bz) as [Sz Az].
  exists (shift ax x), (shift ay y), (shift az z). repeat (split; [auto using shift_inside|]).
  destruct (covers_exists ax _ Hx ltac:(split; [apply Rlt_le|]; apply Sx)) as [i Ci].
  destruct (covers_exists ay _ Hy ltac:(split; [apply Rlt_le|]; apply Sy)) as [j Cj].
  destruct (covers_exists az _ Hz ltac:(split; [apply Rlt_le|]; apply Sz)) as [k Ck].
  apply (C63_value r ax ay az never HR Hx Hy Hz junk ok _ p x y z i j k); try (now left); auto.
  - apply never_cell; [apply Ci|apply Cj|apply Ck].
  - intros ii jj kk _ _ _. reflexivity.
Qed.
(** at an interpolation node inside the box the value is exact for every function *)
Theorem C63_exact_at_nodes r ax ay az skip junk ok f i j k ii jj kk :
  good_rule r -> good_axis ax -> good_axis ay -> good_axis az ->
  (i < a_n ax)%nat -> (j < a_n ay)%nat -> (k < a_n az)%nat -> (ii < degree r)%nat -> (jj < degree r)%nat -> (kk < degree r)%nat ->
  skip_cell ax ay az skip i j k = false ->
  let x := place r ax i ii in let y := place r ay j jj in let z := place r az k kk in
  a_min ax < x -> a_min ay < y -> a_min az < z ->
  evaluate r ax ay az skip junk ok (vals r ax ay az skip (map f)) x y z = Value (f (x, y, z)).
Proof.
  intros HR Hx Hy Hz Hi Hj Hk Hii Hjj Hkk S x y z Lx Ly Lz.
  assert (CV : forall a m mm, good_axis a -> (m < a_n a)%nat -> (mm < degree r)%nat -> covers a m (place r a m mm) /\ place r a m mm < a_max a).
  { intros a m mm Ha Hm Hmm. pose proof (hstep_pos a Ha) as P. destruct HR as (_ & _ & _ & N & _). specialize (N mm Hmm). unfold covers, place.
    split; [split; auto; nra|]. pose proof (hstep_n a Ha). apply (lt_INR) in Hm as HM. assert (INR m + 1 <= INR (a_n a)) by (rewrite <- S_INR; now apply le_INR). nra. }
  destruct (CV ax i ii Hx Hi Hii) as [Cx Mx], (CV ay j jj Hy Hj Hjj) as [Cy My], (CV az k kk Hz Hk Hkk) as [Cz Mz].
  destruct (C63_interpolant_exists r ax ay az f i j k HR Hx Hy Hz) as (p & P & A).
  rewrite (C63_value r ax ay az skip HR Hx Hy Hz junk ok f p x y z i j k); auto; rewrite ?shift_inside by (split; auto); try (now left).
  unfold x, y, z. rewrite A by lia. reflexivity.
Qed.
(** ** C64: out of the box *)
(** when exceptions are on, the evaluation throws exactly when the point is out of reach of every cell or in a skipped cell; the
    reach extends by one cell below the box *)
Theorem C64_throws_iff r ax ay az skip junk f x y z : good_rule r -> good_axis ax -> good_axis ay -> good_axis az ->
  evaluate r ax ay az skip junk false (vals r ax ay az skip (map f)) x y z = Throw <->
  (~ (a_min ax - hstep ax < shift ax x < a_max ax /\ a_min ay - hstep ay < shift ay y < a_max ay /\ a_min az - hstep az < shift az z < a_max az)) \/
  exists i j k, reaches ax i (shift ax x) /\ reaches ay j (shift ay y) /\ reaches az k (shift az z) /\ skip_cell ax ay az skip i j k = true.
Proof.
  intros HR Hx Hy Hz.
  assert (RI : forall a t, good_axis a -> in_range a (locate a t) = true <-> a_min a - hstep a < t < a_max a).
  { intros a t Ha. rewrite in_range_iff by auto. pose proof (hstep_pos a Ha). pose proof (hstep_n a Ha). split.
    - intros (i & L & E). apply locate_iff in E; auto. destruct E as [[_ E]|[_ E]]; [|destruct Ha; lra].
      assert (INR i + 1 <= INR (a_n a)) by (rewrite <- S_INR; now apply le_INR). pose proof (pos_INR i). nra.
    - intros B. destruct (Rlt_le_dec t (a_min a)) as [L|L].
      + exists 0%nat. split; [apply Ha|]. apply locate_iff; auto; [apply Ha|]. right. split; auto. lra.
      + destruct (covers_exists a t Ha) as [i Ci]; [lra|]. exists i. split; [apply Ci|]. apply locate_iff; auto; [apply Ci|now left]. }
  set (X := shift ax x) in *. set (Y := shift ay y) in *. set (Z := shift az z) in *.
  destruct (in_range ax (locate ax X) && in_range ay (locate ay Y) && in_range az (locate az Z))%bool eqn:E.
  - rewrite !andb_true_iff in E. destruct E as [[E1 E2] E3].
    apply in_range_iff in E1 as (i & Li & Ei), E2 as (j & Lj & Ej), E3 as (k & Lk & Ek); auto.
    apply locate_iff in Ei, Ej, Ek; auto. destruct (skip_cell ax ay az skip i j k) eqn:S.
    + rewrite (C63_skipped r ax ay az skip Hx Hy Hz junk false _ x y z i j k) by auto. split; auto. intros _. right. exists i, j, k. auto.
    + destruct (C63_interpolant_exists r ax ay az f i j k HR Hx Hy Hz) as (p & P & A).
      rewrite (C63_value r ax ay az skip HR Hx Hy Hz junk false f p x y z i j k) by auto. split; [discriminate|].
      intros [N|(i' & j' & k' & R1 & R2 & R3 & S')].
      * exfalso. apply N. split; [|split]; apply RI; auto; apply in_range_iff; auto; eexists; (split; [|apply locate_iff]); eauto.
      * exfalso. apply locate_iff in R1, R2, R3, Ei, Ej, Ek; eauto using reaches_lt.
        assert (i = i') by lia. assert (j = j') by lia. assert (k = k') by lia. subst. congruence.
  - split.
    + intros _. left. intros (A & B & C). apply RI in A, B, C; auto. now rewrite A, B, C in E.
    + intros _. unfold evaluate. cbv zeta. fold X Y Z. rewrite E. reflexivity.
Qed.
Lemma range_lemma a t : good_axis a -> in_range a (locate a t) = true <-> a_min a - hstep a < t < a_max a.
Proof.
  intros Ha. rewrite in_range_iff by auto. pose proof (hstep_pos a Ha). pose proof (hstep_n a Ha). split.
  - intros (i & L & E). apply locate_iff in E; auto. destruct E as [[_ E]|[_ E]]; [|destruct Ha; lra].
    assert (INR i + 1 <= INR (a_n a)) by (rewrite <- S_INR; now apply le_INR). pose proof (pos_INR i). nra.
  - intros B. destruct (Rlt_le_dec t (a_min a)) as [L|L].
    + exists 0%nat. split; [apply Ha|]. apply locate_iff; auto; [apply Ha|]. right. split; auto. lra.
    + destruct (covers_exists a t Ha) as [i Ci]; [lra|]. exists i. split; [apply Ci|]. apply locate_iff; auto; [apply Ci|now left].
Qed.
(** with exceptions off ("extrapolate"), a point beyond the first axis is left alone ... *)
Theorem C64_first_axis_outside_unchanged r ax ay az skip junk v x y z j k : good_axis ax -> good_axis ay -> good_axis az ->
  (a_max ax <= shift ax x \/ shift ax x <= a_min ax - hstep ax) -> reaches ay j (shift ay y) -> reaches az k (shift az z) ->
  evaluate r ax ay az skip junk true v x y z = Unchanged.
Proof.
  intros Hx Hy Hz O Rj Rk. pose proof (reaches_lt _ _ _ Hy Rj) as Lj. pose proof (reaches_lt _ _ _ Hz Rk) as Lk.
  apply locate_iff in Rj, Rk; auto. unfold evaluate. cbv zeta. rewrite Rj, Rk. cbn [negb andb].
  assert (NR : in_range ax (locate ax (shift ax x)) = false).
  { apply not_true_iff_false. rewrite range_lemma by auto. lra. }
  unfold find_cell. rewrite find_nothing; auto. intros [[a b] c] HI. apply kept_In in HI as (A & B & C & _). apply Z.eqb_neq. unfold idx_cell.
  unfold in_range in NR. set (X := locate ax (shift ax x)) in *. rewrite andb_false_iff, Z.leb_gt, Z.ltb_ge in NR.
  rewrite !Nat2Z.inj_add, !Nat2Z.inj_mul. intros E.
  set (NY := Z.of_nat (a_n ay)) in *. set (NZ := Z.of_nat (a_n az)) in *.
  assert (E' : ((X - Z.of_nat a) * (NY * NZ) = (Z.of_nat b - Z.of_nat j) * NZ + (Z.of_nat c - Z.of_nat k))%Z) by lia.
  assert (B' : (- (NY * NZ) < (Z.of_nat b - Z.of_nat j) * NZ + (Z.of_nat c - Z.of_nat k) < NY * NZ)%Z).
  { assert (- (NY - 1) <= Z.of_nat b - Z.of_nat j <= NY - 1)%Z by lia. assert (- (NZ - 1) <= Z.of_nat c - Z.of_nat k <= NZ - 1)%Z by lia. nia. }
  assert (X - Z.of_nat a = 0)%Z; [|lia]. nia.
Qed.
(** ... but a point just beyond the last axis is evaluated in the neighbouring row of cells, one cell further on in the
    second axis and at the other end of the last one *)
Theorem C64_last_axis_wraps r ax ay az skip junk f p x y z i j : good_rule r -> good_axis ax -> good_axis ay -> good_axis az ->
  reaches ax i (shift ax x) -> reaches ay j (shift ay y) -> (S j < a_n ay)%nat -> a_max az <= shift az z < a_max az + hstep az ->
  skip_cell ax ay az skip i (S j) 0 = false -> coordpoly (degree r) p -> agrees r ax ay az p f i (S j) 0 ->
  evaluate r ax ay az skip junk true (vals r ax ay az skip (map f)) x y z =
  Value (p (shift ax x) (shift ay y + hstep ay) (shift az z - (a_max az - a_min az))).
Proof.
  intros HR Hx Hy Hz Ri Rj Lj Bz S P A. pose proof (reaches_lt _ _ _ Hx Ri) as Li. pose proof (hstep_pos az Hz) as PZ. pose proof (hstep_n az Hz) as NZ.
  assert (LZ : locate az (shift az z) = Z.of_nat (a_n az)).
  { unfold locate. rewrite loc_u, rtrunc_nat by auto. left. set (u := (shift az z - a_min az) / hstep az).
    assert (E : shift az z = a_min az + u * hstep az) by (unfold u; field; lra).
    split; [apply (Rmult_le_reg_r (hstep az))|apply (Rmult_lt_reg_r (hstep az))]; lra. }
  pose proof Ri as Ri'. pose proof Rj as Rj'. apply locate_iff in Ri', Rj'; auto; try lia.
  unfold evaluate. cbv zeta. rewrite LZ, Ri', Rj'. cbn [negb andb].
  replace (Z.of_nat i * Z.of_nat (a_n ay) * Z.of_nat (a_n az) + Z.of_nat j * Z.of_nat (a_n az) + Z.of_nat (a_n az))%Z
    with (Z.of_nat i * Z.of_nat (a_n ay) * Z.of_nat (a_n az) + Z.of_nat (Datatypes.S j) * Z.of_nat (a_n az) + Z.of_nat 0)%Z by lia.
  destruct Hz as [Hz1 Hz2]. rewrite find_cell_in by auto.
  assert (K : In (i, Datatypes.S j, 0%nat) (kept_cells ax ay az skip)) by now apply kept_In.
  rewrite (proj2 (existsb_kept _ _ _ _ _ _ _) K). f_equal.
  rewrite <- (eval_local_eq r ax ay az skip HR Hx Hy (conj Hz1 Hz2) f p i (Datatypes.S j) 0 (shift ax x) (shift ay y + hstep ay) (shift az z - (a_max az - a_min az)) K P A).
  assert (MA : forall a n, (n <= a_n a)%nat -> mesh_at junk a (Z.of_nat n) = mesh a n).
  { intros a n L. unfold mesh_at. rewrite (proj2 (Z.leb_le 0 _)), (proj2 (Z.leb_le _ _)) by lia. cbn. now rewrite Nat2Z.id. }
  rewrite !MA by lia. unfold loc. rewrite !mesh_eq, S_INR. f_equal.
  - f_equal. ring.
  - f_equal. cbn [INR]. lra.
Qed.
(** the two refutations as concrete grids: f(x,y,z) = y on the unit box with 1 x 2 x 2 cells *)
Definition unit (n : nat) : axis := Axis 0 1 n.
Lemma unit_good n : (0 < n)%nat -> good_axis (unit n).
Proof. intros. split; cbn; auto. lra. Qed.
Lemma eps_small : 0 < eps < / 10.
Proof.
  unfold eps. split; [apply Rinv_0_lt_compat, pow_lt; lra|]. apply Rinv_lt_contravar; [apply Rmult_lt_0_compat; [lra|apply pow_lt; lra]|].
  cbn; lra.
Qed.
Lemma py : coordpoly 1 (fun _ y _ => y).
Proof. split; [|split]; intros; [apply poly_const|apply poly_id; lia|apply poly_const]. Qed.
Definition gvals := vals (uniform_rule 1) (unit 1) (unit 2) (unit 2) never (map (fun t : R * R * R => let '(_, b, _) := t in b)).
Theorem C64_extrapolation_wrong_refuted junk : exists x y z, 0 < x < 1 /\ 0 < y < 1 /\ 1 < z < 2 /\
  evaluate (uniform_rule 1) (unit 1) (unit 2) (unit 2) never junk true gvals x y z = Value (y + 1 / 2).
Proof.
  exists (1/2), (1/4), (6/5). split; [lra|]. split; [lra|]. split; [lra|]. pose proof eps_small as E.
  assert (HX : shift (unit 1) (1/2) = 1/2) by (apply shift_inside; cbn; lra).
  assert (HY : shift (unit 2) (1/4) = 1/4) by (apply shift_inside; cbn; lra).
  assert (HZ : shift (unit 2) (6/5) = 6/5 - eps) by (unfold shift; destruct (Rle_dec _ _) as [|N]; auto; exfalso; apply N; cbn; lra).
  assert (H2 : hstep (unit 2) = 1/2) by (unfold hstep; cbn; lra). assert (H1 : hstep (unit 1) = 1) by (unfold hstep; cbn; lra).
  unfold gvals.
  rewrite (C64_last_axis_wraps (uniform_rule 1) (unit 1) (unit 2) (unit 2) never junk _ (fun _ y _ => y) _ _ _ 0 0).
  - rewrite HY, H2. reflexivity.
  - apply uniform_good. lia.
  - apply unit_good; lia.
  - apply unit_good; lia.
  - apply unit_good; lia.
  - left. split; [cbn; lia|]. rewrite HX, H1. cbn. lra.
  - left. split; [cbn; lia|]. rewrite HY, H2. cbn. lra.
  - cbn. lia.
  - rewrite HZ, H2. cbn. lra.
  - apply never_cell; cbn; lia.
  - apply py.
  - intros ii jj kk _ _ _. reflexivity.
Qed.
Theorem C64_below_box_accepted_refuted junk : exists x y z, ~ (a_min (unit 1) <= x) /\ 0 < y < 1 /\ 0 < z < 1 /\
  evaluate (uniform_rule 1) (unit 1) (unit 2) (unit 2) never junk false gvals x y z = Value y.
Proof.
  exists (- (1/2)), (1/4), (1/4). split; [cbn; lra|]. split; [lra|]. split; [lra|]. pose proof eps_small as E.
  assert (HX : shift (unit 1) (- (1/2)) = - (1/2) + eps).
  { unfold shift. destruct (Rle_dec _ _) as [N|N]; [exfalso; cbn in N; lra|]. destruct (Rle_dec _ _) as [|M]; auto. exfalso; apply M; cbn; lra. }
  assert (HY : shift (unit 2) (1/4) = 1/4) by (apply shift_inside; cbn; lra).
  assert (H2 : hstep (unit 2) = 1/2) by (unfold hstep; cbn; lra). assert (H1 : hstep (unit 1) = 1) by (unfold hstep; cbn; lra).
  unfold gvals.
  rewrite (C63_value (uniform_rule 1) (unit 1) (unit 2) (unit 2) never (uniform_good 1 ltac:(lia)) (unit_good 1 ltac:(lia)) (unit_good 2 ltac:(lia)) (unit_good 2 ltac:(lia))
    junk false _ (fun _ y _ => y) _ _ _ 0 0 0).
  - now rewrite HY.
  - right. split; auto. rewrite HX, H1. cbn. lra.
  - left. split; [cbn; lia|]. rewrite HY, H2. cbn. lra.
  - left. split; [cbn; lia|]. rewrite HY, H2. cbn. lra.
  - apply never_cell; cbn; lia.
  - apply py.
  - intros ii jj kk _ _ _. reflexivity.
Qed.
(** the hypotheses of the C63 theorems are met: a cubic on a Chebyshev grid, with the corner of the box as the point *)
Example C63_case junk : exists v, evaluate (chebyshev_rule 3) (unit 2) (unit 2) (unit 2) never junk false
   (vals (chebyshev_rule 3) (unit 2) (unit 2) (unit 2) never (map (fun t => let '(a, b, c) := t in a * a * a * b * c))) 0 (1/3) 1 = Value v.
Proof.
  pose proof eps_small as E.
  destruct (C63_reproduces_polynomials (chebyshev_rule 3) (unit 2) (unit 2) (unit 2) junk false (fun a b c => a * a * a * b * c) 0 (1/3) 1
    (chebyshev_good 3 ltac:(lia)) (unit_good 2 ltac:(lia)) (unit_good 2 ltac:(lia)) (unit_good 2 ltac:(lia))) as (x & y & z & H); cbn [a_min a_max unit]; try lra.
  - cbn [degree chebyshev_rule]. split; [|split]; intros.
    + exists 0, (fun a => (y * z) * (a * a)). split; [|intros; ring]. exists 0, (fun a => (y * z) * a). split; [|intros; ring]. apply poly_scal. apply (poly_id 1). lia.
    + apply (poly_ext _ (fun b => (x * x * x * z) * b)); [intros; ring|]. apply poly_scal. apply poly_id; cbn; lia.
    + apply (poly_ext _ (fun c => (x * x * x * y) * c)); [intros; ring|]. apply poly_scal. apply poly_id; cbn; lia.
  - eexists. apply H.
Qed.
