(** C126: symmetries of CurveXYZFourierSymmetries and CurveHelical. *)
From Coq Require Import Reals Lra Lia ZArith List Bool Arith.
From Verif Require SurfProps TensorSym.
From Verif Require Import ListAux VecAux Vec3 BSDeriv BSVjp CoilModel CoilProps CurveModel CurveProps CurveObjModel CurveObjProps WFGeom HelixModel.
Import ListNotations.
Open Scope R_scope.

(** ** Specification *)
(** the documented series: a dof named xc(m), xs(m), ... contributes its value times cos / sin (2 pi nfp m t) to x-hat, y-hat or z, and the hat
    vector is turned by 2 pi ntor t *)
Definition sym_basis (nfp ntor : Z) (name : nat * bool * nat) (t : R) : vec3 := let '(c, s, m) := name in
  rotz (2 * PI * IZR ntor * t) (scal3 (if s then sin (2 * PI * IZR nfp * INR m * t) else cos (2 * PI * IZR nfp * INR m * t)) (unit3 c)).
Lemma trig_turns a (k : Z) : cos (a + 2 * PI * IZR k) = cos a /\ sin (a + 2 * PI * IZR k) = sin a.
Proof.
  destruct (Z_le_gt_dec 0 k) as [H|H].
  - replace (2 * PI * IZR k) with (2 * INR (Z.to_nat k) * PI) by (rewrite INR_IZR_INZ, Z2Nat.id by lia; ring). now rewrite cos_period, sin_period.
  - set (b := a + 2 * PI * IZR k). replace a with (b + 2 * INR (Z.to_nat (- k)) * PI); [rewrite cos_period, sin_period; auto|]. unfold b. rewrite INR_IZR_INZ, Z2Nat.id by lia. rewrite opp_IZR. ring.
Qed.
Lemma cos_turns a k : cos (a + 2 * PI * IZR k) = cos a. Proof. apply trig_turns. Qed.
Lemma sin_turns a k : sin (a + 2 * PI * IZR k) = sin a. Proof. apply trig_turns. Qed.
Lemma rotz_rotz a b v : rotz a (rotz b v) = rotz (a + b) v.
Proof. unfold rotz. cbn [vx vy vz]. rewrite (cos_plus a b), (sin_plus a b). apply v3_eq; cbn [vx vy vz]; ring. Qed.
Lemma rotz_turns a k v : rotz (a + 2 * PI * IZR k) v = rotz a v.
Proof. unfold rotz. now rewrite cos_turns, sin_turns. Qed.
Lemma rotz_add a u v : rotz a (add3 u v) = add3 (rotz a u) (rotz a v).
Proof. unfold rotz. apply v3_eq; cbn [vx vy vz add3]; ring. Qed.
Lemma rotz_scal a c v : rotz a (scal3 c v) = scal3 c (rotz a v).
Proof. unfold rotz. apply v3_eq; cbn [vx vy vz scal3]; ring. Qed.

Section Sym.
Variables (order : nat) (nfp ntor : Z) (ss : bool).
Hypothesis NFP : (0 < nfp)%Z.
Notation gamma := (sym_gamma order nfp ntor ss). Notation hat := (sym_hat order nfp ss).
Lemma gamma_rot x t : gamma x t = rotz (2 * PI * t * IZR ntor) (hat x t). Proof. reflexivity. Qed.
Lemma nfp_nz : IZR nfp <> 0. Proof using NFP. apply not_0_IZR. lia. Qed.
Lemma hat_shift x t (k : Z) : hat x (t + IZR k / IZR nfp) = hat x t.
Proof using NFP.
  pose proof nfp_nz as NZ. assert (E : forall m, 2 * PI * IZR nfp * INR m * (t + IZR k / IZR nfp) = 2 * PI * IZR nfp * INR m * t + 2 * PI * IZR (Z.of_nat m * k)) by (intros; rewrite mult_IZR, <- INR_IZR_INZ; field; exact NZ).
  assert (C : forall a, cosines order nfp x a (t + IZR k / IZR nfp) = cosines order nfp x a t) by (intros a; unfold cosines; apply sum_to_ext; intros m _; rewrite E, cos_turns; reflexivity).
  assert (S : forall a, sines order nfp x a (t + IZR k / IZR nfp) = sines order nfp x a t) by (intros a; unfold sines; apply sum_to_ext; intros m _; rewrite E, sin_turns; reflexivity).
  unfold sym_hat. destruct ss; rewrite ?C, ?S; reflexivity.
Qed.
(** k field periods further the curve is turned by 2 pi ntor k / nfp; it is closed; with coprime numbers (others are refused) the set of its
    points is invariant under rotation by 2 pi / nfp; stellarator symmetry *)
Theorem C126_field_period x t (k : Z) : gamma x (t + IZR k / IZR nfp) = rotz (2 * PI * IZR ntor * IZR k / IZR nfp) (gamma x t).
Proof using NFP.
  pose proof nfp_nz as NZ. rewrite !gamma_rot, hat_shift, rotz_rotz. f_equal. field. exact NZ.
Qed.
Theorem C126_closed x t : gamma x (t + 1) = gamma x t.
Proof using NFP. replace (t + 1) with (t + IZR nfp / IZR nfp) by (field; apply nfp_nz). rewrite C126_field_period. replace (2 * PI * IZR ntor * IZR nfp / IZR nfp) with (0 + 2 * PI * IZR ntor) by (field; apply nfp_nz). rewrite rotz_turns. apply rotz_0. Qed.
Theorem C126_rotational_symmetry x : sym_ok nfp ntor = true -> exists k : Z, forall t, gamma x (t + IZR k / IZR nfp) = rotz (2 * PI / IZR nfp) (gamma x t).
Proof using NFP.
  unfold sym_ok. intros H. apply Z.eqb_eq in H. destruct (Z.gcd_bezout ntor nfp 1 H) as (a & b & E). exists a. intros t. rewrite C126_field_period. replace (2 * PI * IZR ntor * IZR a / IZR nfp) with (2 * PI / IZR nfp + 2 * PI * IZR (- b)); [apply rotz_turns|].
  assert (Q : IZR a * IZR ntor + IZR b * IZR nfp = 1) by (rewrite <- !mult_IZR, <- plus_IZR; now rewrite E). rewrite opp_IZR. apply (Rmult_eq_reg_r (IZR nfp)); [|apply nfp_nz]. field_simplify; [|apply nfp_nz|apply nfp_nz]. replace (2 * PI * IZR ntor * IZR a) with (2 * PI * (IZR a * IZR ntor)) by ring. replace (IZR a * IZR ntor) with (1 - IZR b * IZR nfp) by lra. ring.
Qed.
End Sym.
Section Stell.
Variables (order : nat) (nfp ntor : Z).
Theorem C126_stellarator_symmetry x t : sym_gamma order nfp ntor true x (- t) = reflect (sym_gamma order nfp ntor true x t).
Proof.
  assert (C : forall a, cosines order nfp x a (- t) = cosines order nfp x a t) by (intros a; unfold cosines; apply sum_to_ext; intros m _; f_equal; rewrite <- cos_neg; f_equal; ring).
  assert (S : forall a, sines order nfp x a (- t) = - sines order nfp x a t).
  { intros a. unfold sines. rewrite <- sum_to_opp. apply sum_to_ext. intros m _. replace (2 * PI * IZR nfp * INR (m + 1) * - t) with (- (2 * PI * IZR nfp * INR (m + 1) * t)) by ring. rewrite sin_neg. ring. }
  unfold sym_gamma, sym_hat. rewrite C, !S. cbn [vx vy vz]. replace (2 * PI * - t * IZR ntor) with (- (2 * PI * t * IZR ntor)) by ring. rewrite cos_neg, sin_neg. unfold reflect. apply v3_eq; cbn [vx vy vz]; ring.
Qed.
End Stell.
(** every dof contributes what its name says *)
Lemma map_combine_app {A B C} (f : A * B -> C) (l1 l2 : list A) (m : list B) : map f (combine (l1 ++ l2) m) = map f (combine l1 (firstn (length l1) m)) ++ map f (combine l2 (skipn (length l1) m)).
Proof. revert m. induction l1 as [|a l1 IH]; intros m; [reflexivity|]. destruct m as [|b m]; [cbn; now destruct l2|]. cbn. now rewrite IH. Qed.
Lemma combine_sum (nm : nat -> nat * bool * nat) (b : nat * bool * nat -> vec3) n s (x : list R) : length x = n ->
  sum3 (map (fun p => scal3 (snd p) (b (fst p))) (combine (map nm (seq s n)) x)) = sum3 (map (fun m => scal3 (nth m x 0) (b (nm (s + m)%nat))) (seq 0 n)).
Proof.
  revert s x. induction n as [|n IH]; intros s [|v x] L; try discriminate; [reflexivity|]. injection L as L. cbn [seq map combine sum3 nth fst snd]. rewrite IH by exact L. rewrite <- seq_shift, map_map. rewrite Nat.add_0_r. f_equal. f_equal. apply map_ext. intros m. cbn [nth]. do 3 f_equal. lia.
Qed.
Lemma sum_unit (f : nat -> R) c n : sum3 (map (fun m => scal3 (f m) (unit3 c)) (seq 0 n)) = scal3 (sum_to n f) (unit3 c).
Proof. unfold sum_to. induction (seq 0 n) as [|m l IH]; cbn [map sum3 rsuml]; [apply v3_eq; cbn [vx vy vz v0 scal3]; ring|]. rewrite IH. apply v3_eq; cbn [vx vy vz add3 scal3]; ring. Qed.
Definition hat_basis (nfp : Z) (t : R) (name : nat * bool * nat) : vec3 := let '(c, s, m) := name in scal3 (if s then sin (2 * PI * IZR nfp * INR m * t) else cos (2 * PI * IZR nfp * INR m * t)) (unit3 c).
Definition hat_series (nfp : Z) (t : R) (names : list (nat * bool * nat)) (x : list R) : vec3 := sum3 (map (fun p => scal3 (snd p) (hat_basis nfp t (fst p))) (combine names x)).
Lemma hat_app nfp t n1 n2 x : hat_series nfp t (n1 ++ n2) x = add3 (hat_series nfp t n1 (firstn (length n1) x)) (hat_series nfp t n2 (skipn (length n1) x)).
Proof. unfold hat_series. now rewrite map_combine_app, sum3_app. Qed.
Lemma nth_firstn_lt (x : list R) n m : (m < n)%nat -> nth m (firstn n x) 0 = nth m x 0.
Proof. revert n x. induction m as [|m IH]; intros [|n] [|v x] H; try lia; try reflexivity. cbn. apply IH. lia. Qed.
Lemma hat_cos nfp t c n s x : (n <= length x)%nat -> hat_series nfp t (map (fun i => (c, false, i)) (seq s n)) (firstn n x) = scal3 (sum_to n (fun m => nth m x 0 * cos (2 * PI * IZR nfp * INR (s + m) * t))) (unit3 c).
Proof.
  intros L. unfold hat_series. rewrite (combine_sum (fun i => (c, false, i)) (hat_basis nfp t)) by (rewrite firstn_length; lia). rewrite <- sum_unit. apply f_equal. apply map_ext_in. intros m M. apply in_seq in M. rewrite nth_firstn_lt by lia. unfold hat_basis. apply scal3_scal.
Qed.
Lemma hat_sin nfp t c n s x : (n <= length x)%nat -> hat_series nfp t (map (fun i => (c, true, i)) (seq s n)) (firstn n x) = scal3 (sum_to n (fun m => nth m x 0 * sin (2 * PI * IZR nfp * INR (s + m) * t))) (unit3 c).
Proof.
  intros L. unfold hat_series. rewrite (combine_sum (fun i => (c, true, i)) (hat_basis nfp t)) by (rewrite firstn_length; lia). rewrite <- sum_unit. apply f_equal. apply map_ext_in. intros m M. apply in_seq in M. rewrite nth_firstn_lt by lia. unfold hat_basis. apply scal3_scal.
Qed.
Lemma nth_skip (x : list R) a m : nth m (skipn a x) 0 = nth (a + m) x 0.
Proof. revert x. induction a as [|a IH]; intros x; [reflexivity|]. destruct x as [|v x]; [cbn; now destruct m|]. apply IH. Qed.
Lemma cosines_block nfp t c order a x : (a + (order + 1) <= length x)%nat -> hat_series nfp t (map (fun i => (c, false, i)) (seq 0 (order + 1))) (firstn (order + 1) (skipn a x)) = scal3 (cosines order nfp x a t) (unit3 c).
Proof. intros L. rewrite hat_cos by (rewrite skipn_length; lia). f_equal. unfold cosines. apply sum_to_ext. intros m _. now rewrite nth_skip. Qed.
Lemma sines_block nfp t c order a x : (a + order <= length x)%nat -> hat_series nfp t (map (fun i => (c, true, i)) (seq 1 order)) (firstn order (skipn a x)) = scal3 (sines order nfp x a t) (unit3 c).
Proof. intros L. rewrite hat_sin by (rewrite skipn_length; lia). f_equal. unfold sines. apply sum_to_ext. intros m _. rewrite nth_skip. now rewrite (Nat.add_comm m 1). Qed.
Lemma firstn_all_skip (x : list R) a n : length x = (a + n)%nat -> skipn a x = firstn n (skipn a x).
Proof. intros L. symmetry. apply firstn_all2. rewrite skipn_length. lia. Qed.
Lemma skipn_skipn' (x : list R) a b : skipn a (skipn b x) = skipn (b + a) x.
Proof. revert x. induction b as [|b IH]; intros x; [reflexivity|]. destruct x as [|v x]; [cbn; now destruct a|]. apply IH. Qed.
Lemma names_blocks order : sym_names order false = (map (fun i => (0%nat, false, i)) (seq 0 (order + 1)) ++ map (fun i => (0%nat, true, i)) (seq 1 order)) ++ (map (fun i => (1%nat, false, i)) (seq 0 (order + 1)) ++ map (fun i => (1%nat, true, i)) (seq 1 order)) ++ (map (fun i => (2%nat, false, i)) (seq 0 (order + 1)) ++ map (fun i => (2%nat, true, i)) (seq 1 order)).
Proof. unfold sym_names. cbn [seq flat_map]. rewrite Nat.add_1_r, app_nil_r. cbn [seq map app]. reflexivity. Qed.
Theorem C126_documented_series (order : nat) (nfp ntor : Z) (ss : bool) (x : list R) (t : R) : length x = sym_num_dofs order ss ->
  sym_gamma order nfp ntor ss x t = series (sym_basis nfp ntor) (sym_names order ss) x t /\ length (sym_names order ss) = sym_num_dofs order ss /\ NoDup (sym_names order ss).
Proof.
  intros L. assert (LN : length (sym_names order ss) = sym_num_dofs order ss). { destruct ss; [unfold sym_names|rewrite names_blocks]; unfold sym_num_dofs; rewrite ?app_length, !map_length, !seq_length; lia. }
  assert (H : sym_hat order nfp ss x t = hat_series nfp t (sym_names order ss) x).
  { destruct ss; cbn [sym_num_dofs] in L.
    - unfold sym_names. rewrite !hat_app, !map_length, !seq_length, !skipn_skipn'.
      pose proof (cosines_block nfp t 0 order 0 x ltac:(lia)) as B0. cbn [skipn] in B0. rewrite B0, (sines_block nfp t 1 order (order + 1) x) by lia. rewrite (firstn_all_skip x (order + 1 + order) order) by lia. rewrite (sines_block nfp t 2 order (order + 1 + order) x) by lia.
      unfold sym_hat. replace (order + 1 + order)%nat with (2 * order + 1)%nat by lia. apply v3_eq; cbn [vx vy vz add3 scal3 unit3 Nat.eqb]; ring.
    - rewrite names_blocks, !hat_app, !app_length, !map_length, !seq_length.
      assert (F : forall a b (y : list R), firstn a (firstn (a + b) y) = firstn a y) by (intros; rewrite firstn_firstn; f_equal; lia).
      assert (G : forall a b (y : list R), skipn a (firstn (a + b) y) = firstn b (skipn a y)) by (intros a b y; rewrite skipn_firstn_comm; f_equal; lia).
      rewrite !F, !G, !skipn_skipn'. set (o1 := (order + 1)%nat) in *.
      pose proof (cosines_block nfp t 0 order 0 x ltac:(lia)) as B0. cbn [skipn] in B0. fold o1 in B0. rewrite B0. pose proof (sines_block nfp t 0 order o1 x ltac:(unfold o1; lia)) as B1. rewrite B1.
      pose proof (cosines_block nfp t 1 order (o1 + order) x ltac:(unfold o1; lia)) as B2. fold o1 in B2. rewrite B2. rewrite (sines_block nfp t 1 order (o1 + order + o1) x) by (unfold o1; lia).
      pose proof (cosines_block nfp t 2 order (o1 + order + (o1 + order)) x ltac:(unfold o1; lia)) as B4. fold o1 in B4. rewrite B4. rewrite (firstn_all_skip x (o1 + order + (o1 + order) + o1) order) by (unfold o1; lia). rewrite (sines_block nfp t 2 order (o1 + order + (o1 + order) + o1) x) by (unfold o1; lia).
      unfold sym_hat. fold o1. replace (o1 + order)%nat with (2 * order + 1)%nat by (unfold o1; lia). replace (2 * order + 1 + o1)%nat with (3 * order + 2)%nat by (unfold o1; lia). replace (2 * order + 1 + (2 * order + 1))%nat with (4 * order + 2)%nat by lia. replace (4 * order + 2 + o1)%nat with (5 * order + 3)%nat by (unfold o1; lia).
      apply v3_eq; cbn [vx vy vz add3 scal3 unit3 Nat.eqb]; ring. }
  split; [|split; [exact LN|]].
  - rewrite gamma_rot, H. unfold hat_series, series. clear. generalize (sym_names order ss). intros l. revert x. induction l as [|[[c s] m] l IH]; intros [|v x]; cbn [map combine vmap2 sum3 fst snd].
    1-3: unfold rotz, v0; apply v3_eq; cbn [vx vy vz]; ring.
    + rewrite rotz_add, IH, rotz_scal. f_equal. f_equal. unfold hat_basis, sym_basis. f_equal. ring.
  - assert (ND : forall c s a n, NoDup (map (fun i : nat => (c, s, i) : nat * bool * nat) (seq a n))) by (intros; apply FinFun.Injective_map_NoDup; [intros i j E; now injection E|apply seq_NoDup]).
    assert (AP : forall l1 l2 : list (nat * bool * nat), NoDup l1 -> NoDup l2 -> (forall p, In p l1 -> In p l2 -> False) -> NoDup (l1 ++ l2)) by (intros; apply SurfProps.NoDup_app2; auto).
    destruct ss; [unfold sym_names|rewrite names_blocks]; repeat apply AP; try apply ND; intros p P Q; rewrite ?in_app_iff in *; repeat match goal with H : _ \/ _ |- _ => destruct H end; repeat match goal with H : In _ (map _ _) |- _ => apply in_map_iff in H as (? & <- & _) end; repeat match goal with H : In _ (map _ _) |- _ => apply in_map_iff in H as (? & ? & _) end; try discriminate.
Qed.

(** ** CurveHelical *)
Section Helical.
Variables (order : nat) (n0 l0 : Z) (R0 r0 : R).
Hypotheses (N0 : n0 <> 0%Z) (L0 : l0 <> 0%Z).
Notation gamma := (hel_gamma order n0 l0 R0 r0).
Lemma eta_shift x phi (k : Z) : cos (hel_eta order n0 l0 x (phi + 2 * PI * IZR l0 * IZR k / IZR n0)) = cos (hel_eta order n0 l0 x phi) /\ sin (hel_eta order n0 l0 x (phi + 2 * PI * IZR l0 * IZR k / IZR n0)) = sin (hel_eta order n0 l0 x phi).
Proof using N0 L0.
  assert (NZ : IZR n0 <> 0) by (apply not_0_IZR; exact N0). assert (LZ : IZR l0 <> 0) by (apply not_0_IZR; exact L0).
  assert (E : hel_eta order n0 l0 x (phi + 2 * PI * IZR l0 * IZR k / IZR n0) = hel_eta order n0 l0 x phi + 2 * PI * IZR k).
  { unfold hel_eta. assert (EM : forall m, INR m * (phi + 2 * PI * IZR l0 * IZR k / IZR n0) * IZR n0 / IZR l0 = INR m * phi * IZR n0 / IZR l0 + 2 * PI * IZR (Z.of_nat m * k)) by (intros; rewrite mult_IZR, <- INR_IZR_INZ; field; auto).
    rewrite (sum_to_ext order (fun m => nth m (firstn order x) 0 * cos (INR m * (phi + 2 * PI * IZR l0 * IZR k / IZR n0) * IZR n0 / IZR l0)) (fun m => nth m (firstn order x) 0 * cos (INR m * phi * IZR n0 / IZR l0))) by (intros; rewrite EM, cos_turns; reflexivity).
    rewrite (sum_to_ext order (fun m => nth m (skipn order x) 0 * sin (INR m * (phi + 2 * PI * IZR l0 * IZR k / IZR n0) * IZR n0 / IZR l0)) (fun m => nth m (skipn order x) 0 * sin (INR m * phi * IZR n0 / IZR l0))) by (intros; rewrite EM, sin_turns; reflexivity).
    field. auto. }
  rewrite E. apply trig_turns.
Qed.
Theorem C126_helical_field_period x t (k : Z) : gamma x (t + IZR k / IZR n0) = rotz (2 * PI * IZR l0 * IZR k / IZR n0) (gamma x t).
Proof using N0 L0.
  assert (NZ : IZR n0 <> 0) by (apply not_0_IZR; exact N0). unfold hel_gamma. replace ((t + IZR k / IZR n0) * 2 * PI * IZR l0) with (t * 2 * PI * IZR l0 + 2 * PI * IZR l0 * IZR k / IZR n0) by (field; exact NZ).
  destruct (eta_shift x (t * 2 * PI * IZR l0) k) as (-> & ->). rewrite cos_plus, sin_plus. unfold rotz. apply v3_eq; cbn [vx vy vz]; ring.
Qed.
Theorem C126_helical_closed x t : gamma x (t + 1) = gamma x t.
Proof using N0 L0.
  assert (NZ : IZR n0 <> 0) by (apply not_0_IZR; exact N0). replace (t + 1) with (t + IZR n0 / IZR n0) by (field; exact NZ). rewrite C126_helical_field_period. replace (2 * PI * IZR l0 * IZR n0 / IZR n0) with (0 + 2 * PI * IZR l0) by (field; exact NZ). rewrite rotz_turns. apply rotz_0.
Qed.
Theorem C126_helical_rotational_symmetry x : Z.gcd l0 n0 = 1%Z -> exists k : Z, forall t, gamma x (t + IZR k / IZR n0) = rotz (2 * PI / IZR n0) (gamma x t).
Proof using N0 L0.
  intros H. assert (NZ : IZR n0 <> 0) by (apply not_0_IZR; exact N0). destruct (Z.gcd_bezout l0 n0 1 H) as (a & b & E). exists a. intros t. rewrite C126_helical_field_period. replace (2 * PI * IZR l0 * IZR a / IZR n0) with (2 * PI / IZR n0 + 2 * PI * IZR (- b)); [apply rotz_turns|].
  assert (Q : IZR a * IZR l0 + IZR b * IZR n0 = 1) by (rewrite <- !mult_IZR, <- plus_IZR; now rewrite E). rewrite opp_IZR. apply (Rmult_eq_reg_r (IZR n0)); [|exact NZ]. field_simplify; [|exact NZ|exact NZ]. replace (2 * PI * IZR l0 * IZR a) with (2 * PI * (IZR a * IZR l0)) by ring. replace (IZR a * IZR l0) with (1 - IZR b * IZR n0) by lra. ring.
Qed.
(** the coil lies on the torus of radii R0, r0; with zero A it is stellarator symmetric; the first entry of B has no effect *)
Theorem C126_helical_on_torus x t : exists rho, vx (gamma x t) * vx (gamma x t) + vy (gamma x t) * vy (gamma x t) = rho * rho /\ (rho - R0) * (rho - R0) + vz (gamma x t) * vz (gamma x t) = r0 * r0 /\ (Rabs r0 <= R0 -> 0 <= rho).
Proof.
  clear N0 L0. unfold hel_gamma. cbn [vx vy vz]. set (phi := t * 2 * PI * IZR l0). set (eta := hel_eta order n0 l0 x phi). clearbody phi eta. exists (R0 + r0 * cos eta). pose proof (sin2_cos2 eta) as S1. pose proof (sin2_cos2 phi) as S2. unfold Rsqr in *. split; [|split].
  - transitivity ((R0 + r0 * cos eta) * (R0 + r0 * cos eta) * (sin phi * sin phi + cos phi * cos phi)); [ring|rewrite S2; ring].
  - transitivity (r0 * r0 * (sin eta * sin eta + cos eta * cos eta)); [ring|rewrite S1; ring].
  - intros H. pose proof (COS_bound eta) as (C1 & C2). unfold Rabs in H. destruct (Rcase_abs r0); nra.
Qed.
Theorem C126_helical_stellarator_symmetry (B : list R) t : gamma (repeat 0 order ++ B) (- t) = reflect (gamma (repeat 0 order ++ B) t).
Proof.
  clear N0 L0. assert (F : firstn order (repeat 0 order ++ B) = repeat 0 order) by (rewrite firstn_app, firstn_all2 by (rewrite repeat_length; lia); rewrite repeat_length, Nat.sub_diag; apply app_nil_r).
  assert (E : forall phi, hel_eta order n0 l0 (repeat 0 order ++ B) (- phi) = - hel_eta order n0 l0 (repeat 0 order ++ B) phi).
  { intros phi. unfold hel_eta. rewrite F. assert (Z : forall f : nat -> R, sum_to order (fun m => nth m (repeat 0 order) 0 * f m) = 0) by (intros f; apply TensorSym.sum_0; intros m _; rewrite nth_repeat; ring).
    rewrite (Z (fun m => cos (INR m * - phi * IZR n0 / IZR l0))), (Z (fun m => cos (INR m * phi * IZR n0 / IZR l0))).
    rewrite (sum_to_ext order (fun m => _ * sin (INR m * - phi * _ / _)) (fun m => - (nth m (skipn order (repeat 0 order ++ B)) 0 * sin (INR m * phi * IZR n0 / IZR l0)))); [rewrite sum_to_opp; unfold Rdiv; ring|].
    intros m _. replace (INR m * - phi * IZR n0 / IZR l0) with (- (INR m * phi * IZR n0 / IZR l0)) by (unfold Rdiv; ring). rewrite sin_neg. ring. }
  unfold hel_gamma. replace (- t * 2 * PI * IZR l0) with (- (t * 2 * PI * IZR l0)) by ring. rewrite E, !cos_neg, !sin_neg. unfold reflect. apply v3_eq; cbn [vx vy vz]; ring.
Qed.
Theorem C126_helical_null_dof (A B : list R) b b' t : length A = order -> gamma (A ++ b :: B) t = gamma (A ++ b' :: B) t.
Proof.
  clear N0 L0. intros L. assert (E : forall phi, hel_eta order n0 l0 (A ++ b :: B) phi = hel_eta order n0 l0 (A ++ b' :: B) phi).
  { intros phi. unfold hel_eta. rewrite <- L. rewrite !firstn_app, !skipn_app, !Nat.sub_diag, !firstn_all, !skipn_all. cbn [firstn skipn app]. f_equal. apply sum_to_ext. intros [|m] _; [|reflexivity]. cbn [INR nth]. replace (0 * phi * IZR n0 / IZR l0) with 0 by (unfold Rdiv; ring). rewrite sin_0. ring. }
  unfold hel_gamma. rewrite E. reflexivity.
Qed.
End Helical.
(** nfp = 2, ntor = 3: a rotation by pi maps the coil to itself with k = 1 *)
Example C126_ex : sym_ok 2 3 = true /\ sym_ok 2 4 = false /\ sym_names 1 true = [(0, false, 0); (0, false, 1); (1, true, 1); (2, true, 1)]%nat /\ sym_gamma 1 2 3 true [5; 0; 1; 1] 0 = V3 5 0 0 /\ hel_gamma 1 5 2 3 1 [0; 7] 0 = V3 4 0 0.
Proof.
  split; [reflexivity|]. split; [reflexivity|]. split; [reflexivity|]. split.
  - unfold sym_gamma, sym_hat, cosines, sines, sum_to. cbn [seq map rsuml nth Nat.add Nat.mul vx vy vz]. rewrite !Rmult_0_r, !Rmult_0_l, cos_0, sin_0. apply v3_eq; cbn [vx vy vz]; ring.
  - assert (E : hel_eta 1 5 2 [0; 7] (0 * 2 * PI * IZR 2) = 0). { unfold hel_eta, sum_to. cbn [firstn skipn seq map rsuml nth INR]. unfold Rdiv. replace (0 * (0 * 2 * PI * 2) * 5 * / 2) with 0 by ring. rewrite sin_0. ring. }
    unfold hel_gamma. cbv zeta. rewrite E, cos_0, sin_0. replace (0 * 2 * PI * IZR 2) with 0 by ring. rewrite cos_0, sin_0. apply v3_eq; cbn [vx vy vz]; ring.
Qed.
