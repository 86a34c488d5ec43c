(** C121: transforming a scalar and back, on grids of one field period. *)
From Coq Require Import ZArith Reals Lra Lia List Bool.
From Verif Require Import ListAux VecAux BSVjp CurveObjModel CurveObjProps WFGeom TensorSym BoozProps AdjLin SurfQuad SurfGeomJac NormModel NormProps FourModel FourProps.
Import ListNotations.
Open Scope R_scope.

(** ** The kernel *)
Definition wN (N : nat) (k : Z) : R := if Nat.even N && (2 * Z.abs k =? Z.of_nat N)%Z then / 2 else 1.
Definition DK (N M : nat) (b : R) : R := 1 + 2 * sum_to M (fun k => wN N (Z.of_nat k + 1) * cos (b + b * INR k)).
Lemma cos_2PIk x q : cos (x + 2 * PI * IZR q) = cos x.
Proof. replace (2 * PI * IZR q) with (2 * (IZR q * PI)) by ring. apply cos_2kPI. Qed.
Lemma sum_one : forall n, sum_to n (fun _ => 1) = INR n.
Proof. induction n as [|n IH]; [reflexivity|]. rewrite sum_to_first, IH, S_INR. ring. Qed.
Lemma wN_odd M k : wN (2 * M + 1) k = 1.
Proof. unfold wN. replace (Nat.even (2 * M + 1)) with false; [reflexivity|]. symmetry. rewrite Nat.even_add, Nat.even_mul. reflexivity. Qed.
Lemma wN_even M k : wN (2 * M) k = if (Z.abs k =? Z.of_nat M)%Z then / 2 else 1.
Proof. unfold wN. replace (Nat.even (2 * M)) with true by (symmetry; now rewrite Nat.even_mul). cbn [andb]. destruct (Z.eqb_spec (2 * Z.abs k) (Z.of_nat (2 * M))), (Z.eqb_spec (Z.abs k) (Z.of_nat M)); try lia; reflexivity. Qed.
Lemma sum_even M (b : R) : sum_to (S M) (fun k => wN (2 * S M) (Z.of_nat k + 1) * cos (b + b * INR k)) = sum_to (S M) (fun k => cos (b + b * INR k)) - / 2 * cos (b + b * INR M).
Proof.
  rewrite !sum_to_S'. rewrite (sum_to_ext M _ (fun k => cos (b + b * INR k))).
  - rewrite wN_even. replace (Z.abs (Z.of_nat M + 1) =? Z.of_nat (S M))%Z with true by (symmetry; apply Z.eqb_eq; lia). lra.
  - intros k K. rewrite wN_even. replace (Z.abs (Z.of_nat k + 1) =? Z.of_nat (S M))%Z with false by (symmetry; apply Z.eqb_neq; lia). ring.
Qed.
Lemma DK_delta N M d : (0 < N)%nat -> (N = 2 * M + 1 \/ N = 2 * M)%nat -> DK N M (2 * PI * (IZR d / INR N)) = if (d mod Z.of_nat N =? 0)%Z then INR N else 0.
Proof.
  intros HN HM. pose proof (lt_0_INR N HN) as PN. set (b := 2 * PI * (IZR d / INR N)). destruct (Z.eqb_spec (d mod Z.of_nat N) 0) as [E|E].
  - assert (C : forall k, cos (b + b * INR k) = 1). { intros k. apply Z.mod_divide in E; [|lia]. destruct E as (q & ->). rewrite <- cos_0, <- (cos_2PIk 0 (q * (1 + Z.of_nat k))). f_equal. unfold b. rewrite !mult_IZR, plus_IZR, <- !INR_IZR_INZ. field. lra. }
    unfold DK. destruct HM as [->| ->].
    + rewrite (sum_to_ext M _ (fun _ => 1)) by (intros; rewrite wN_odd, C; ring). rewrite sum_one, plus_INR, mult_INR. cbn [INR]. ring.
    + destruct M as [|M]; [lia|]. rewrite sum_even, C, (sum_to_ext (S M) _ (fun _ => 1)) by (intros; now rewrite C). rewrite sum_one, mult_INR. cbn [INR]. lra.
  - assert (SA : sin (b / 2) <> 0). { intros Q. apply E. apply Z.mod_divide; [lia|]. apply (sin_frac d N HN). rewrite <- Q. unfold b. f_equal. field. lra. }
    apply (Rmult_eq_reg_l (2 * sin (b / 2))); [|now apply two_ne]. rewrite Rmult_0_r. unfold DK. destruct HM as [EN|EN].
    + rewrite (sum_to_ext M _ (fun k => cos (b + b * INR k))) by (intros; rewrite EN, wN_odd; ring). transitivity (2 * sin (b / 2) + 2 * (2 * sin (b / 2) * sum_to M (fun k => cos (b + b * INR k)))); [ring|]. rewrite telescope_cos.
      replace (b - b / 2) with (b / 2) by field. replace (b + b * (INR M - / 2)) with (IZR d * PI); [rewrite sin_kPI; ring|]. unfold b. rewrite EN, plus_INR, mult_INR. cbn [INR]. pose proof (pos_INR M). field. lra.
    + destruct M as [|M]; [lia|]. rewrite (sum_to_ext (S M) _ (fun k => wN (2 * S M) (Z.of_nat k + 1) * cos (b + b * INR k))) by (intros; now rewrite EN). rewrite sum_even. transitivity (2 * sin (b / 2) + 2 * (2 * sin (b / 2) * sum_to (S M) (fun k => cos (b + b * INR k))) - 2 * sin (b / 2) * cos (b + b * INR M)); [field|]. rewrite telescope_cos.
      replace (b - b / 2) with (b / 2) by field. replace (b + b * (INR (S M) - / 2)) with (IZR d * PI + b / 2).
      2:{ unfold b. rewrite EN, mult_INR, !(S_INR M). replace (INR 2) with 2 by reflexivity. pose proof (pos_INR M). field. lra. }
      replace (b + b * INR M) with (IZR d * PI). 2:{ unfold b. rewrite EN, mult_INR, !(S_INR M). replace (INR 2) with 2 by reflexivity. pose proof (pos_INR M). field. lra. }
      rewrite (sin_plus (IZR d * PI) (b / 2)), sin_kPI. ring.
Qed.
(** ** The sum over the modes factors *)
Lemma zrange_S lo n : zrange lo (lo + Z.of_nat (S n)) = zrange lo (lo + Z.of_nat n) ++ [(lo + Z.of_nat n)%Z].
Proof. unfold zrange. replace (Z.to_nat (lo + Z.of_nat (S n) - lo)) with (S n) by lia. replace (Z.to_nat (lo + Z.of_nat n - lo)) with n by lia. rewrite seq_S, map_app. reflexivity. Qed.
Lemma zsum_sum lo n (f : Z -> R) : rsuml (map f (zrange lo (lo + Z.of_nat n))) = sum_to n (fun k => f (lo + Z.of_nat k)%Z).
Proof. unfold zrange, sum_to. rewrite map_map. now replace (Z.to_nat (lo + Z.of_nat n - lo)) with n by lia. Qed.
Lemma zsum_sym M (f : Z -> R) : rsuml (map f (zrange (- Z.of_nat M) (Z.of_nat M + 1))) = f 0%Z + sum_to M (fun k => f (Z.of_nat k + 1)%Z + f (- (Z.of_nat k + 1))%Z).
Proof.
  replace (Z.of_nat M + 1)%Z with (- Z.of_nat M + Z.of_nat (2 * M + 1))%Z by lia. rewrite zsum_sum. replace (2 * M + 1)%nat with (M + (1 + M))%nat by lia. rewrite !sum_to_add, sum_to_plus.
  rewrite (sum_to_S' 0), sum_to_0. replace (- Z.of_nat M + Z.of_nat (M + 0))%Z with 0%Z by lia.
  rewrite (sum_to_ext M (fun k => f (- Z.of_nat M + Z.of_nat (M + (1 + k)))%Z) (fun k => f (Z.of_nat k + 1)%Z)) by (intros; f_equal; lia).
  rewrite <- (sum_rev M (fun k => f (- Z.of_nat M + Z.of_nat k)%Z)). rewrite (sum_to_ext M (fun k => f (- Z.of_nat M + Z.of_nat (M - 1 - k))%Z) (fun k => f (- (Z.of_nat k + 1))%Z)) by (intros; f_equal; lia). ring.
Qed.
Lemma row_sum N M a b : rsuml (map (fun n => wN N n * cos (a - IZR n * b)) (zrange (- Z.of_nat M) (Z.of_nat M + 1))) = (wN N 0 - 1 + DK N M b) * cos a.
Proof.
  rewrite zsum_sym. unfold DK. transitivity (wN N 0 * cos a + 2 * cos a * sum_to M (fun k => wN N (Z.of_nat k + 1) * cos (b + b * INR k))); [|ring]. f_equal; [f_equal; f_equal; ring|].
  rewrite <- (sum_to_scal M (2 * cos a) (fun k => wN N (Z.of_nat k + 1) * cos (b + b * INR k))). apply sum_to_ext. intros k K.
  assert (W : wN N (- (Z.of_nat k + 1)) = wN N (Z.of_nat k + 1)) by (unfold wN; now rewrite Z.abs_opp). rewrite W, opp_IZR, plus_IZR, <- INR_IZR_INZ. replace (a - - (INR k + 1) * b) with (a + (b + b * INR k)) by ring. replace (a - (INR k + 1) * b) with (a - (b + b * INR k)) by ring.
  rewrite (cos_plus a (b + b * INR k)), (cos_minus a (b + b * INR k)). ring.
Qed.
Lemma wN_0 N : (0 < N)%nat -> wN N 0 = 1.
Proof. intros H. unfold wN. replace (2 * Z.abs 0 =? Z.of_nat N)%Z with false by (symmetry; apply Z.eqb_neq; lia). now rewrite andb_false_r. Qed.
Lemma kernel Nt Mt Np Mp a b : (0 < Nt)%nat -> (0 < Np)%nat -> 1 + 2 * rsuml (map (fun q => wN Nt (fst q) * wN Np (snd q) * cos (IZR (fst q) * a - IZR (snd q) * b)) (loop_modes (Z.of_nat Mt) (Z.of_nat Mp))) = DK Nt Mt a * DK Np Mp b.
Proof.
  intros HT HN. unfold loop_modes. rewrite map_flat, rsuml_flat. replace (Z.of_nat Mt + 1)%Z with (0 + Z.of_nat (1 + Mt))%Z by lia. rewrite zsum_sum. rewrite sum_to_first. change (0 + Z.of_nat 0)%Z with 0%Z. change (0 =? 0)%Z with true. cbv beta iota.
  rewrite map_map. cbn [fst snd]. replace (Z.of_nat Mp + 1)%Z with (1 + Z.of_nat Mp)%Z at 1 by lia. rewrite zsum_sum.
  transitivity (1 + 2 * (wN Nt 0 * sum_to Mp (fun k => wN Np (Z.of_nat k + 1) * cos (b + b * INR k)) + DK Np Mp b * sum_to Mt (fun k => wN Nt (Z.of_nat k + 1) * cos (a + a * INR k)))).
  - f_equal. f_equal. f_equal.
    + rewrite <- (sum_to_scal Mp (wN Nt 0) (fun k => wN Np (Z.of_nat k + 1) * cos (b + b * INR k))). apply sum_to_ext. intros k K. rewrite (Z.add_comm 1), plus_IZR, <- INR_IZR_INZ. replace (0 * a - (INR k + 1) * b) with (- (b + b * INR k)) by ring. rewrite cos_neg. ring.
    + rewrite <- (sum_to_scal Mt (DK Np Mp b) (fun k => wN Nt (Z.of_nat k + 1) * cos (a + a * INR k))). apply sum_to_ext. intros k K. replace (0 + Z.of_nat (S k) =? 0)%Z with false by (symmetry; apply Z.eqb_neq; lia).
      replace (0 + Z.of_nat (S k))%Z with (Z.of_nat k + 1)%Z by lia. rewrite map_map. cbn [fst snd]. rewrite (rsuml_map_ext _ (fun n => wN Nt (Z.of_nat k + 1) * (wN Np n * cos (IZR (Z.of_nat k + 1) * a - IZR n * b)))) by (intros; ring). rewrite rsuml_map_scale, row_sum, wN_0 by exact HN.
      replace (IZR (Z.of_nat k + 1) * a) with (a + a * INR k) by (rewrite plus_IZR, <- INR_IZR_INZ; ring). ring.
  - rewrite wN_0 by exact HT. unfold DK. ring.
Qed.
(** ** Values *)
Section Vals.
Variables (nfp np nth0 : nat) (Mt Mp : nat).
Hypothesis PN : (0 < nfp)%nat.
Hypothesis PP : (0 < np)%nat.
Hypothesis PT : (0 < nth0)%nat.
Hypothesis EP : (np = 2 * Mp + 1 \/ np = 2 * Mp)%nat.
Hypothesis ET : (nth0 = 2 * Mt + 1 \/ nth0 = 2 * Mt)%nat.
Notation qp := (grid_of FieldPeriod nfp np).
Notation qt := (grid_of FullTorus 1 nth0).
Notation ang := (angle qp qt nfp).
Notation LM := (loop_modes (Z.of_nat Mt) (Z.of_nat Mp)).
Notation gsum := (grid_sum qp qt).
Notation NN := (INR nth0 * INR np).
Definition W (q : Z * Z) : R := wN nth0 (fst q) * wN np (snd q).
Definition delta (i j : nat) (a b : Z) : R := (if ((Z.of_nat j - b) mod Z.of_nat nth0 =? 0)%Z then INR nth0 else 0) * (if ((Z.of_nat i - a) mod Z.of_nat np =? 0)%Z then INR np else 0).
Lemma ang_fp m n i j : (i < np)%nat -> (j < nth0)%nat -> ang m n i j = IZR m * (2 * PI * (INR j / INR nth0)) - IZR n * (2 * PI * (INR i / INR np)).
Proof. intros I J. pose proof (lt_0_INR _ PP). pose proof (lt_0_INR _ PT). rewrite ang_eq; try assumption; [|discriminate]. unfold periods, offset. field. lra. Qed.
Lemma ksum i j (a b : Z) : rsuml (map (fun q => W q * cos (IZR (fst q) * (2 * PI * (IZR (Z.of_nat j - b) / INR nth0)) - IZR (snd q) * (2 * PI * (IZR (Z.of_nat i - a) / INR np)))) LM) = (delta i j a b - 1) / 2.
Proof.
  pose proof (kernel nth0 Mt np Mp (2 * PI * (IZR (Z.of_nat j - b) / INR nth0)) (2 * PI * (IZR (Z.of_nat i - a) / INR np)) PT PP) as K. rewrite !DK_delta in K by assumption. unfold delta, W. rewrite <- K. field.
Qed.
Lemma SC_sum i j a b : (i < np)%nat -> (j < nth0)%nat -> (a < np)%nat -> (b < nth0)%nat ->
  rsuml (map (fun q => W q * (sin (ang (fst q) (snd q) i j) * sin (ang (fst q) (snd q) a b) + cos (ang (fst q) (snd q) i j) * cos (ang (fst q) (snd q) a b))) LM) = (delta i j (Z.of_nat a) (Z.of_nat b) - 1) / 2.
Proof.
  intros I J A B. pose proof (lt_0_INR _ PP). pose proof (lt_0_INR _ PT). rewrite <- ksum. apply rsuml_map_ext. intros q _. f_equal. rewrite !ang_fp by assumption.
  rewrite Rplus_comm, <- cos_minus. f_equal. rewrite !minus_IZR, <- !INR_IZR_INZ. field. lra.
Qed.
Lemma S_sum i j a b : (i < np)%nat -> (j < nth0)%nat -> (a < np)%nat -> (b < nth0)%nat ->
  rsuml (map (fun q => W q * (sin (ang (fst q) (snd q) i j) * sin (ang (fst q) (snd q) a b))) LM) = (delta i j (Z.of_nat a) (Z.of_nat b) - delta i j (- Z.of_nat a) (- Z.of_nat b)) / 4.
Proof.
  intros I J A B. pose proof (lt_0_INR _ PP). pose proof (lt_0_INR _ PT). transitivity (/ 2 * ((delta i j (Z.of_nat a) (Z.of_nat b) - 1) / 2) + - / 2 * ((delta i j (- Z.of_nat a) (- Z.of_nat b) - 1) / 2)); [|field]. rewrite <- !ksum, <- !rsuml_map_scale, <- rsuml_map_plus. apply rsuml_map_ext. intros q _. rewrite !ang_fp by assumption.
  rewrite !minus_IZR, !opp_IZR, <- !INR_IZR_INZ. set (x := IZR (fst q) * (2 * PI * (INR j / INR nth0)) - IZR (snd q) * (2 * PI * (INR i / INR np))). set (y := IZR (fst q) * (2 * PI * (INR b / INR nth0)) - IZR (snd q) * (2 * PI * (INR a / INR np))).
  match goal with |- _ = / 2 * (_ * cos ?u) + - / 2 * (_ * cos ?v) => replace u with (x - y) by (unfold x, y; field; lra); replace v with (x + y) by (unfold x, y; field; lra) end. rewrite cos_plus, cos_minus. field.
Qed.
Lemma factor2_W q : In q LM -> factor2 qp qt (fst q) (snd q) = 2 / NN * W q.
Proof.
  destruct q as [m n]. intros H. apply loop_In in H. unfold in_loop in H. cbn [fst snd]. unfold factor2, W, wN. rewrite !len_grid. cbn [fst snd]. replace (Z.abs m) with m by lia. pose proof (lt_0_INR _ PP). pose proof (lt_0_INR _ PT).
  destruct (Nat.even nth0 && (2 * m =? Z.of_nat nth0)%Z), (Nat.even np && (2 * Z.abs n =? Z.of_nat np)%Z); field; lra.
Qed.
Lemma in_LM q : In q LM -> in_loop (Z.of_nat Mt) (Z.of_nat Mp) (fst q) (snd q) = true.
Proof. destruct q. apply loop_In. Qed.
Lemma not00 q : In q LM -> (fst q =? 0)%Z && (snd q =? 0)%Z = false.
Proof. intros H. apply in_LM in H. unfold in_loop in H. destruct (fst q =? 0)%Z eqn:E, (snd q =? 0)%Z eqn:E'; cbn; lia. Qed.
Lemma gsum_delta (f : nat -> nat -> R) (a b : Z) : gsum (fun i j => f i j * delta i j a b) = NN * f (Z.to_nat (a mod Z.of_nat np)) (Z.to_nat (b mod Z.of_nat nth0)).
Proof.
  set (a' := Z.to_nat (a mod Z.of_nat np)). set (b' := Z.to_nat (b mod Z.of_nat nth0)).
  assert (A' : Z.of_nat a' = (a mod Z.of_nat np)%Z) by (unfold a'; pose proof (Z.mod_pos_bound a (Z.of_nat np)); lia). assert (B' : Z.of_nat b' = (b mod Z.of_nat nth0)%Z) by (unfold b'; pose proof (Z.mod_pos_bound b (Z.of_nat nth0)); lia).
  pose proof (Z.mod_pos_bound a (Z.of_nat np) ltac:(lia)) as RA. pose proof (Z.mod_pos_bound b (Z.of_nat nth0) ltac:(lia)) as RB.
  assert (MOD : forall (k : nat) (N : nat) (c : Z), (k < N)%nat -> ((Z.of_nat k - c) mod Z.of_nat N =? 0)%Z = (k =? Z.to_nat (c mod Z.of_nat N))%nat).
  { clear. intros k N c K. pose proof (Z.mod_pos_bound c (Z.of_nat N) ltac:(lia)) as R. pose proof (Z.div_mod c (Z.of_nat N) ltac:(lia)) as D. destruct (Nat.eqb_spec k (Z.to_nat (c mod Z.of_nat N))) as [E|E]; [apply Z.eqb_eq|apply Z.eqb_neq].
    - apply Z.mod_divide; [lia|]. exists (- (c / Z.of_nat N))%Z. lia.
    - intros Q. apply E. apply Z.mod_divide in Q; [|lia]. destruct Q as (z & Q). assert (c mod Z.of_nat N = Z.of_nat k)%Z as ->; [|lia]. symmetry. apply (Z.mod_unique c (Z.of_nat N) (- z)); lia. }
  unfold grid_sum. rewrite !len_grid. rewrite (sum_to_ext np _ (fun i => if (i =? a')%nat then NN * f i b' else 0)).
  - rewrite (sum_to_single np a' (fun i => NN * f i b')) by lia. reflexivity.
  - intros i I. rewrite (sum_to_ext nth0 _ (fun j => if (j =? b')%nat then (if (i =? a')%nat then NN * f i j else 0) else 0)).
    + rewrite (sum_to_single nth0 b' (fun j => if (i =? a')%nat then NN * f i j else 0)) by lia. reflexivity.
    + intros j J. unfold delta. rewrite !MOD by assumption. fold a' b'. destruct (j =? b')%nat, (i =? a')%nat; ring.
Qed.
Variables (norm : option R) (f : nat -> nat -> R).
Hypothesis HN : forall c, norm = Some c -> c <> 0.
Lemma by_norm_lin x : (match norm with Some c => x * c | None => x end) = nrm norm * x.
Proof. unfold nrm. destruct norm; ring. Qed.
Lemma gsum_pull g : gsum (fun i j => f i j * rsuml (map (fun q => g q i j) LM)) = rsuml (map (fun q => gsum (fun i j => f i j * g q i j)) LM).
Proof. rewrite <- (gsum_list qp qt LM (fun q i j => f i j * g q i j)). apply gsum_ext. intros i j _ _. now rewrite rsuml_map_scale. Qed.
Lemma values_false a b : (a < np)%nat -> (b < nth0)%nat ->
  inv qp qt nfp false (Z.of_nat Mt) (Z.of_nat Mp) norm (fwd_s qp qt nfp (Z.of_nat Mt) (Z.of_nat Mp) norm f) (fwd_c qp qt nfp false (Z.of_nat Mt) (Z.of_nat Mp) norm f) a b = f a b.
Proof.
  intros A B. pose proof (lt_0_INR _ PP). pose proof (lt_0_INR _ PT). assert (NE : nrm norm <> 0) by (unfold nrm; destruct norm; [now apply HN|lra]). unfold inv. rewrite by_norm_lin.
  transitivity (2 / NN * gsum (fun i j => f i j * rsuml (map (fun q => W q * (sin (ang (fst q) (snd q) i j) * sin (ang (fst q) (snd q) a b) + cos (ang (fst q) (snd q) i j) * cos (ang (fst q) (snd q) a b))) LM)) + gsum f / NN).
  - rewrite Rmult_plus_distr_l. f_equal.
    + rewrite gsum_pull, <- !rsuml_map_scale. apply rsuml_map_ext. intros q Q. unfold fwd_s, fwd_c. rewrite (in_LM q Q), (not00 q Q). rewrite !by_norm_eq by exact HN. rewrite (factor2_W q Q).
      rewrite (gsum_ext _ _ (fun i j => f i j * sin (ang (fst q) (snd q) i j) * (2 / NN * W q)) (fun i j => 2 / NN * W q * (f i j * sin (ang (fst q) (snd q) i j)))) by (intros; ring). rewrite (gsum_ext _ _ (fun i j => f i j * cos (ang (fst q) (snd q) i j) * (2 / NN * W q)) (fun i j => 2 / NN * W q * (f i j * cos (ang (fst q) (snd q) i j)))) by (intros; ring). rewrite !gsum_scal.
      rewrite (gsum_ext _ _ (fun i j => f i j * (W q * (sin (ang (fst q) (snd q) i j) * sin (ang (fst q) (snd q) a b) + cos (ang (fst q) (snd q) i j) * cos (ang (fst q) (snd q) a b)))) (fun i j => W q * sin (ang (fst q) (snd q) a b) * (f i j * sin (ang (fst q) (snd q) i j)) + W q * cos (ang (fst q) (snd q) a b) * (f i j * cos (ang (fst q) (snd q) i j)))) by (intros; ring). rewrite gsum_plus, !gsum_scal. field. repeat split; lra || exact NE.
    + unfold fwd_c. cbn [Z.eqb andb]. rewrite by_norm_eq by exact HN. rewrite !len_grid. field. repeat split; lra || exact NE.
  - rewrite (gsum_ext _ _ (fun i j => f i j * rsuml _) (fun i j => / 2 * (f i j * delta i j (Z.of_nat a) (Z.of_nat b)) + - / 2 * f i j)) by (intros i j I J; rewrite len_grid in I, J; rewrite SC_sum by assumption; field).
    rewrite gsum_plus, !gsum_scal, gsum_delta. rewrite !Z.mod_small, !Nat2Z.id by lia. field. lra.
Qed.
Lemma values_true Ac a b : (a < np)%nat -> (b < nth0)%nat ->
  inv qp qt nfp true (Z.of_nat Mt) (Z.of_nat Mp) norm (fwd_s qp qt nfp (Z.of_nat Mt) (Z.of_nat Mp) norm f) Ac a b = (f a b - f ((np - a) mod np)%nat ((nth0 - b) mod nth0)%nat) / 2.
Proof.
  intros A B. pose proof (lt_0_INR _ PP). pose proof (lt_0_INR _ PT). assert (NE : nrm norm <> 0) by (unfold nrm; destruct norm; [now apply HN|lra]). unfold inv. rewrite by_norm_lin.
  transitivity (2 / NN * gsum (fun i j => f i j * rsuml (map (fun q => W q * (sin (ang (fst q) (snd q) i j) * sin (ang (fst q) (snd q) a b))) LM))).
  - rewrite gsum_pull, <- !rsuml_map_scale. apply rsuml_map_ext. intros q Q. unfold fwd_s. rewrite (in_LM q Q). rewrite !by_norm_eq by exact HN. rewrite (factor2_W q Q).
    rewrite (gsum_ext _ _ (fun i j => f i j * sin (ang (fst q) (snd q) i j) * (2 / NN * W q)) (fun i j => 2 / NN * W q * (f i j * sin (ang (fst q) (snd q) i j)))) by (intros; ring). rewrite !gsum_scal.
    rewrite (gsum_ext _ _ (fun i j => f i j * (W q * (sin (ang (fst q) (snd q) i j) * sin (ang (fst q) (snd q) a b)))) (fun i j => W q * sin (ang (fst q) (snd q) a b) * (f i j * sin (ang (fst q) (snd q) i j)))) by (intros; ring). rewrite !gsum_scal. field. repeat split; lra || exact NE.
  - rewrite (gsum_ext _ _ (fun i j => f i j * rsuml _) (fun i j => / 4 * (f i j * delta i j (Z.of_nat a) (Z.of_nat b)) + - / 4 * (f i j * delta i j (- Z.of_nat a) (- Z.of_nat b)))) by (intros i j I J; rewrite len_grid in I, J; rewrite S_sum by assumption; field).
    rewrite gsum_plus, !gsum_scal, !gsum_delta. rewrite !(Z.mod_small (Z.of_nat _)), !Nat2Z.id by lia.
    assert (NEG : forall k N : nat, (k < N)%nat -> Z.to_nat (- Z.of_nat k mod Z.of_nat N) = ((N - k) mod N)%nat).
    { clear. intros k N K. rewrite <- (Nat2Z.id ((N - k) mod N)). f_equal. rewrite Nat2Z.inj_mod, Nat2Z.inj_sub by lia. replace (Z.of_nat N - Z.of_nat k)%Z with (- Z.of_nat k + 1 * Z.of_nat N)%Z by lia. now rewrite Z.mod_add by lia. }
    rewrite !NEG by assumption. field. lra.
Qed.
End Vals.
(** With as many modes as the grid resolves, the Nyquist modes included, transforming any scalar on a field period grid and back returns it;
    for a stellarator symmetric series, its part odd under (phi, theta) -> (-phi, -theta) *)
Theorem C121_values (nfp np nth0 : nat) (mp nt : nat) (norm : option R) (f : nat -> nat -> R) : (0 < nfp)%nat -> (0 < np)%nat -> (0 < nth0)%nat ->
  (np = 2 * nt + 1 \/ np = 2 * nt)%nat -> (nth0 = 2 * mp + 1 \/ nth0 = 2 * mp)%nat -> (forall c, norm = Some c -> c <> 0) ->
  let qp := grid_of FieldPeriod nfp np in let qt := grid_of FullTorus 1 nth0 in
  let S := fwd_s qp qt nfp (Z.of_nat mp) (Z.of_nat nt) norm f in let C s := fwd_c qp qt nfp s (Z.of_nat mp) (Z.of_nat nt) norm f in
  forall a b, (a < np)%nat -> (b < nth0)%nat ->
  inv qp qt nfp false (Z.of_nat mp) (Z.of_nat nt) norm S (C false) a b = f a b /\
  inv qp qt nfp true (Z.of_nat mp) (Z.of_nat nt) norm S (C true) a b = (f a b - f ((np - a) mod np)%nat ((nth0 - b) mod nth0)%nat) / 2.
Proof. intros PN PP PT EP ET HN. cbv zeta. intros a b A B. split; [now apply values_false|now apply values_true]. Qed.
(** A grid of 4 by 3 points with an even and an odd direction; and the half period grid of 2 points on which mode (0, 1) is lost by half *)
Example C121_ex : (forall f : nat -> nat -> R, let qp := grid_of FieldPeriod 3 4 in let qt := grid_of FullTorus 1 3 in inv qp qt 3 false 1 2 None (fwd_s qp qt 3 1 2 None f) (fwd_c qp qt 3 false 1 2 None f) 3 2 = f 3%nat 2%nat) /\
  (let qp := grid_of HalfPeriod 1 2 in let qt := grid_of FullTorus 1 1 in fwd_s qp qt 1 0 1 None (inv qp qt 1 true 0 1 None (fun _ _ => 1) (fun _ _ => 0)) 0 1 = / 2) /\
  (let qp := grid_of FieldPeriod 2 5 in let qt := grid_of FullTorus 1 3 in forall As Ac, fwd_s qp qt 2 1 2 (Some 7) (inv qp qt 2 false 1 2 (Some 7) As Ac) 1 (-2) = As 1%Z (-2)%Z).
Proof.
  split; [|split].
  - intros f. cbv zeta. apply (C121_values 3 4 3 1 2 None f); try lia; try discriminate.
  - cbv zeta. pose proof (C121_half_period_refuted 1 2 1 0 1 (fun _ _ => 1) (fun _ _ => 0) ltac:(lia) ltac:(lia) ltac:(lia) ltac:(lia) ltac:(lia) 0%Z 1%Z ltac:(lia) ltac:(lia) ltac:(lia)) as H. cbv zeta in H. rewrite H. change (2 * Z.abs 1 =? Z.of_nat 2)%Z with true. cbv beta iota. ring.
  - cbv zeta. intros As Ac. apply (C121_coefficients FieldPeriod 2 5 3 1 2 false (Some 7) As Ac); try lia; try discriminate. intros c [= <-]. lra.
Qed.
