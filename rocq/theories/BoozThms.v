(** C110, C111: penalty objective and exactly constrained system of BoozerSurface. *)
From Coq Require Import Reals Lra Lia List Bool.
From Verif Require Import VecAux Vec3 BSModel BSDeriv SurfDiffProps CurveObjModel CurveObjProps BoozSurf BoozProps.
Open Scope R_scope.

Lemma D_sqr f t f' k : D f t f' -> D (fun s => half * (k * f s) ^ 2) t (k * f t * (k * f')).
Proof.
  intros Hf. apply (D_ext (fun s => (half * k * k) * (f s * f s))); [intros s; ring|]. eapply D_val; [|apply D_mul; [apply D_const|apply D_mul; [exact Hf|exact Hf]]]. cbv beta. unfold half. field.
Qed.
Lemma dot_comm3 a b : dot3 a b = dot3 b a. Proof. unfold dot3. ring. Qed.

Lemma sum_trunc n optG (v g : nat -> R) : sum_to (N n optG) (fun m => v m * (if (m <? n)%nat then g m else 0)) = sum_to n (fun m => v m * g m).
Proof.
  rewrite sum_N, Nat.ltb_irrefl. replace ((n + 1) <? n)%nat with false by (symmetry; apply Nat.ltb_ge; lia).
  rewrite (sum_to_ext n (fun m => v m * (if (m <? n)%nat then g m else 0)) (fun m => v m * g m)) by (intros m L; now rewrite (proj2 (Nat.ltb_lt m n)) by lia). destruct optG; ring.
Qed.
Lemma sum_lin2 N0 (v f g : nat -> R) a b : a * sum_to N0 (fun m => v m * f m) + b * sum_to N0 (fun m => v m * g m) = sum_to N0 (fun m => v m * (a * f m + b * g m)).
Proof. induction N0 as [|k IH]; [unfold sum_to; cbn; ring|]. rewrite !sum_to_S', <- IH. ring. Qed.
Lemma sum_swap_lin N0 np0 (v : nat -> R) (f : nat -> nat -> R) : sum_to np0 (fun p => sum_to N0 (fun m => v m * f p m)) = sum_to N0 (fun m => v m * sum_to np0 (fun p => f p m)).
Proof.
  rewrite sum_to_swap. apply sum_to_ext. intros m _. apply sum_to_scal.
Qed.
Lemma lt_N n optG m : (m < n)%nat -> (m < N n optG)%nat. Proof. unfold N. destruct optG; lia. Qed.
Lemma ltb_S k : ((k + 1) <? k)%nat = false. Proof. apply Nat.ltb_ge. lia. Qed.
Lemma eqb_S k : ((k + 1) =? k)%nat = false. Proof. apply Nat.eqb_neq. lia. Qed.

Section Pen.
Variables (n np : nat) (dx dxp dxt : nat -> nat -> vec3) (B : vec3 -> vec3) (dB : vec3 -> mat3) (d2B : vec3 -> nat -> mat3).
Variables (currents : list R) (optG weight : bool) (Dom : vec3 -> Prop).
Variables (lab : (nat -> R) -> R) (dlab : (nat -> R) -> nat -> R) (d2lab : (nat -> R) -> nat -> nat -> R) (target cw : R).
Hypothesis HF : field_ok Dom B dB d2B.
Notation NN := (N n optG). Notation XX := (X n dx). Notation rr := (r n dx dxp dxt B currents optG weight). Notation JJ := (J n dx dxp dxt B dB currents optG weight).
Notation HH := (H n dx dxp dxt B dB d2B currents optG weight).
Notation ok := (all_ok n dx B Dom np).
Hypothesis HL : total n ok lab dlab.
Hypothesis HL2 : forall m, (m < n)%nat -> total n ok (fun x => dlab x m) (fun x => d2lab x m).
Notation vvl := (val n np dx dxp dxt B currents optG weight lab target cw).
Notation dvl := (dval n np dx dxp dxt B dB currents optG weight lab dlab target cw).
Notation d2vl := (d2val n np dx dxp dxt B dB d2B currents optG weight lab dlab d2lab target cw).

Section Al.
Variables (c : R -> nat -> R) (t : R) (v : nat -> R).
Hypothesis Hc : forall m, (m < NN)%nat -> D (fun s => c s m) t (v m).
Hypothesis OK : ok (c t).
Lemma HcnN m : (m < n)%nat -> D (fun s => c s m) t (v m). Proof. intros L. apply Hc. now apply lt_N. Qed.
Lemma lab_along : D (fun s => lab (c s)) t (sum_to NN (fun m => v m * dl n dlab (c t) m)).
Proof. unfold dl. rewrite sum_trunc. apply HL; [apply HcnN|exact OK]. Qed.
Lemma zz_along : D (fun s => zz n dx (c s) - 0) t (sum_to NN (fun m => v m * drz n dx m)).
Proof.
  unfold drz. rewrite sum_trunc. unfold zz. eapply D_val; [|apply D_sub; [|apply D_const]].
  2:{ unfold X. apply (D_ext (fun s => sum_to n (fun m => c s m * vz (dx 0%nat m)))); [reflexivity|]. apply (sum_to_D n (fun m s => c s m * vz (dx 0%nat m)) (fun m => v m * vz (dx 0%nat m))).
      intros m L. eapply D_val; [|apply D_mul; [apply HcnN, L|apply D_const]]. cbv beta; ring. }
  ring.
Qed.
Lemma dl_along m : D (fun s => dl n dlab (c s) m) t (sum_to NN (fun k => v k * d2l n d2lab (c t) m k)).
Proof.
  unfold dl, d2l. destruct (m <? n)%nat eqn:E.
  - rewrite (sum_to_ext NN _ (fun k => v k * (if (k <? n)%nat then d2lab (c t) m k else 0))) by reflexivity. rewrite sum_trunc. apply Nat.ltb_lt in E. apply (HL2 m E c t v); [apply HcnN|exact OK].
  - eapply D_val; [|apply D_const]. rewrite (sum_to_ext NN _ (fun k => 0 * v k)); [rewrite sum_to_scal; ring|]. intros; cbn [andb]; ring.
Qed.
Lemma rn_along p : (p < np)%nat -> D3 (fun s => rr p (c s)) t (sumv NN (fun m => scal3 (v m) (JJ p (c t) m))).
Proof. intros L. apply (C110_residual_jacobian n dx dxp dxt B dB d2B currents optG weight Dom HF p c t v Hc (OK p L)). Qed.
Lemma Jn_along p m : (p < np)%nat -> (m < NN)%nat -> D3 (fun s => JJ p (c s) m) t (sumv NN (fun k => scal3 (v k) (HH p (c t) m k))).
Proof. intros L K. apply (C110_residual_hessian n dx dxp dxt B dB d2B currents optG weight Dom HF p m K c t v Hc (OK p L)). Qed.
Lemma normsq_along p : (p < np)%nat -> D (fun s => normsq (rr p (c s))) t (2 * sum_to NN (fun m => v m * dot3 (rr p (c t)) (JJ p (c t) m))).
Proof.
  intros L. unfold normsq. eapply D_val; [|apply D_dot; apply rn_along, L]. cbv beta. rewrite <- dot_sumv. rewrite (dot_comm3 (sumv _ _)). ring.
Qed.
Lemma dotrJ_along p m : (p < np)%nat -> (m < NN)%nat -> D (fun s => dot3 (rr p (c s)) (JJ p (c s) m)) t
  (sum_to NN (fun k => v k * (dot3 (JJ p (c t) m) (JJ p (c t) k) + dot3 (rr p (c t)) (HH p (c t) m k)))).
Proof.
  intros L K. eapply D_val; [|apply D_dot; [apply rn_along, L|apply Jn_along; assumption]]. cbv beta. rewrite (dot_comm3 (sumv _ _)), !dot_sumv.
  pose proof (sum_lin2 NN v (fun k => dot3 (JJ p (c t) m) (JJ p (c t) k)) (fun k => dot3 (rr p (c t)) (HH p (c t) m k)) 1 1) as E. rewrite !Rmult_1_l in E. rewrite E.
  apply sum_to_ext. intros; ring.
Qed.
End Al.
Lemma normsq_scal k a : normsq (scal3 k a) = k * k * normsq a. Proof. unfold normsq, dot3, scal3. cbn [vx vy vz]. ring. Qed.
Lemma dot_scal2 k a b : dot3 (scal3 k a) (scal3 k b) = k * k * dot3 a b. Proof. unfold dot3, scal3. cbn [vx vy vz]. ring. Qed.

Theorem C110_penalty_gradient : total NN ok vvl dvl.
Proof.
  intros c t v Hc OK. unfold val.
  set (k := / sqrt (num_res np)).
  apply (D_ext (fun s => half * k * k * sum_to np (fun p => normsq (rr p (c s))) + (half * (sqrt cw * (lab (c s) - target)) ^ 2 + half * (sqrt cw * (zz n dx (c s) - 0)) ^ 2))).
  { intros s. unfold rn. fold k. rewrite (sum_to_ext np (fun p => normsq (scal3 k (rr p (c s)))) (fun p => k * k * normsq (rr p (c s)))) by (intros; apply normsq_scal). rewrite sum_to_scal. ring. }
  pose proof (lab_along c t v Hc OK) as LA. assert (LA' : D (fun s => lab (c s) - target) t (sum_to NN (fun m => v m * dl n dlab (c t) m))) by (eapply D_val; [|apply D_sub; [exact LA|apply D_const]]; ring).
  pose proof (zz_along c t v Hc) as ZA.
  eapply D_val; [|apply D_add; [apply D_mul; [apply D_const|apply (sum_to_D np (fun p s => normsq (rr p (c s))) (fun p => 2 * sum_to NN (fun m => v m * dot3 (rr p (c t)) (JJ p (c t) m)))); intros p L; apply normsq_along; assumption]
    |apply D_add; [apply D_sqr; exact LA'|apply D_sqr; exact ZA]]].
  cbv beta. rewrite sum_to_scal, sum_swap_lin. unfold dval, rn. fold k.
  set (q := sqrt cw). set (e1 := lab (c t) - target). set (e2 := zz n dx (c t) - 0).
  set (S1 := sum_to NN (fun m => v m * sum_to np (fun p => dot3 (rr p (c t)) (JJ p (c t) m)))). set (S2 := sum_to NN (fun m => v m * dl n dlab (c t) m)). set (S3 := sum_to NN (fun m => v m * drz n dx m)).
  transitivity (1 * (k * k * S1 + (q * e1 * q) * S2) + (q * e2 * q) * S3); [unfold half; field|].
  unfold S1, S2, S3. rewrite sum_lin2, sum_lin2. apply sum_to_ext. intros m _.
  rewrite (sum_to_ext np (fun p => dot3 (scal3 k (rr p (c t))) (scal3 k (JJ p (c t) m))) (fun p => k * k * dot3 (rr p (c t)) (JJ p (c t) m))) by (intros; apply dot_scal2). rewrite sum_to_scal. ring.
Qed.
Theorem C110_penalty_hessian (m : nat) : (m < NN)%nat -> total NN ok (fun x => dvl x m) (fun x => d2vl x m).
Proof.
  intros L c t v Hc OK. unfold dval. set (k := / sqrt (num_res np)). set (q := sqrt cw).
  apply (D_ext (fun s => k * k * sum_to np (fun p => dot3 (rr p (c s)) (JJ p (c s) m)) + (q * q * ((lab (c s) - target) * dl n dlab (c s) m) + q * q * ((zz n dx (c s) - 0) * drz n dx m)))).
  { intros s. unfold rn. fold k. rewrite (sum_to_ext np (fun p => dot3 (scal3 k (rr p (c s))) (scal3 k (JJ p (c s) m))) (fun p => k * k * dot3 (rr p (c s)) (JJ p (c s) m))) by (intros; apply dot_scal2). rewrite sum_to_scal. ring. }
  pose proof (lab_along c t v Hc OK) as LA. assert (LA' : D (fun s => lab (c s) - target) t (sum_to NN (fun m => v m * dl n dlab (c t) m))) by (eapply D_val; [|apply D_sub; [exact LA|apply D_const]]; ring).
  pose proof (zz_along c t v Hc) as ZA. pose proof (dl_along c t v Hc OK m) as DA.
  eapply D_val; [|apply D_add; [apply D_mul; [apply D_const|apply (sum_to_D np (fun p s => dot3 (rr p (c s)) (JJ p (c s) m)) (fun p => sum_to NN (fun j => v j * (dot3 (JJ p (c t) m) (JJ p (c t) j) + dot3 (rr p (c t)) (HH p (c t) m j))))); intros p P; apply dotrJ_along; assumption]
    |apply D_add; [apply D_mul; [apply D_const|apply D_mul; [exact LA'|exact DA]]|apply D_mul; [apply D_const|apply D_mul; [exact ZA|apply D_const]]]]].
  cbv beta. rewrite sum_swap_lin. unfold d2val, rn. fold k. fold q.
  set (e1 := lab (c t) - target). set (e2 := zz n dx (c t) - 0). set (d1 := dl n dlab (c t) m). set (d2 := drz n dx m).
  set (S1 := sum_to NN (fun j => v j * sum_to np (fun p => dot3 (JJ p (c t) m) (JJ p (c t) j) + dot3 (rr p (c t)) (HH p (c t) m j)))). set (S2 := sum_to NN (fun m => v m * dl n dlab (c t) m)). set (S3 := sum_to NN (fun m => v m * drz n dx m)).
  set (S4 := sum_to NN (fun j => v j * d2l n d2lab (c t) m j)).
  transitivity (1 * (1 * (k * k * S1 + (q * q * d1) * S2) + (q * q * d2) * S3) + q * q * e1 * S4); [ring|].
  unfold S1, S2, S3, S4. rewrite !sum_lin2. apply sum_to_ext. intros j _.
  rewrite (sum_to_ext np (fun p => dot3 (scal3 k (JJ p (c t) m)) (scal3 k (JJ p (c t) j))) (fun p => k * k * dot3 (JJ p (c t) m) (JJ p (c t) j))) by (intros; apply dot_scal2). rewrite sum_to_scal.
  rewrite (sum_to_ext np (fun p => dot3 (scal3 k (rr p (c t))) (scal3 k (HH p (c t) m j))) (fun p => k * k * dot3 (rr p (c t)) (HH p (c t) m j))) by (intros; apply dot_scal2). rewrite sum_to_scal, sum_to_plus.
  fold d1 d2. ring.
Qed.

(** ** C111: boozer_exact_constraints is the first order condition of min 1/2 |r|^2 subject to label = target and z = 0 *)
Definition lagrangian (x : nat -> R) (l1 l2 : R) : R := half * sum_to np (fun p => normsq (rr p x)) - l1 * (lab x - target) - l2 * zz n dx x.
Notation exr := (ex_res n np dx dxp dxt B dB currents optG weight lab dlab target).
Notation exd := (ex_dres n np dx dxp dxt B dB d2B currents optG weight dlab d2lab).
Theorem C111_exact_stationary (l1 l2 : R) : total NN ok (fun x => lagrangian x l1 l2) (fun x m => exr x l1 l2 m).
Proof.
  intros c t v Hc OK. unfold lagrangian.
  pose proof (lab_along c t v Hc OK) as LA. assert (LA' : D (fun s => lab (c s) - target) t (sum_to NN (fun m => v m * dl n dlab (c t) m))) by (eapply D_val; [|apply D_sub; [exact LA|apply D_const]]; ring).
  pose proof (zz_along c t v Hc) as ZA. assert (ZA' : D (fun s => zz n dx (c s)) t (sum_to NN (fun m => v m * drz n dx m))) by (apply (D_ext (fun s => zz n dx (c s) - 0)); [intros; ring|exact ZA]).
  eapply D_val; [|apply D_sub; [apply D_sub; [apply D_mul; [apply D_const|apply (sum_to_D np (fun p s => normsq (rr p (c s))) (fun p => 2 * sum_to NN (fun m => v m * dot3 (rr p (c t)) (JJ p (c t) m)))); intros p L; apply normsq_along; assumption]
    |apply D_mul; [apply D_const|exact LA']]|apply D_mul; [apply D_const|exact ZA']]].
  cbv beta. rewrite sum_to_scal, sum_swap_lin.
  set (S1 := sum_to NN (fun m => v m * sum_to np (fun p => dot3 (rr p (c t)) (JJ p (c t) m)))). set (S2 := sum_to NN (fun m => v m * dl n dlab (c t) m)). set (S3 := sum_to NN (fun m => v m * drz n dx m)).
  transitivity (1 * (1 * S1 + (- l1) * S2) + (- l2) * S3); [unfold half; field|].
  unfold S1, S2, S3. rewrite !sum_lin2. apply sum_to_ext. intros m Lm. unfold ex_res. rewrite (proj2 (Nat.ltb_lt m NN) Lm). ring.
Qed.
(** the last two equations are the constraints *)
Theorem C111_exact_constraints (x : nat -> R) (l1 l2 : R) : exr x l1 l2 NN = lab x - target /\ exr x l1 l2 (NN + 1)%nat = zz n dx x.
Proof.
  unfold ex_res. rewrite Nat.ltb_irrefl, Nat.eqb_refl. rewrite ltb_S, eqb_S. split; ring.
Qed.
(** the derivative: the unknowns are x at 0..N-1 and the multipliers at N and N+1 *)
Theorem C111_exact_jacobian (i : nat) : (i < NN + 2)%nat ->
  total (NN + 2) ok (fun y => exr y (y NN) (y (NN + 1)%nat) i) (fun y j => exd y (y NN) (y (NN + 1)%nat) i j).
Proof.
  intros Li c t v Hc OK.
  assert (Hc' : forall m, (m < NN)%nat -> D (fun s => c s m) t (v m)) by (intros; apply Hc; lia).
  pose proof (lab_along c t v Hc' OK) as LA. assert (LA' : D (fun s => lab (c s) - target) t (sum_to NN (fun m => v m * dl n dlab (c t) m))) by (eapply D_val; [|apply D_sub; [exact LA|apply D_const]]; ring).
  pose proof (zz_along c t v Hc') as ZA. pose proof (dl_along c t v Hc' OK i) as DA.
  assert (F1 : ((NN + 1) <? NN)%nat = false) by (apply Nat.ltb_ge; lia). assert (F2 : ((NN + 1) =? NN)%nat = false) by (apply Nat.eqb_neq; lia).
  replace (NN + 2)%nat with (S (S NN)) by lia. rewrite !sum_to_S'. replace (S NN) with (NN + 1)%nat by lia. unfold ex_res, ex_dres. rewrite Nat.ltb_irrefl, Nat.eqb_refl, F1, F2.
  destruct (i <? NN)%nat eqn:E.
  - apply Nat.ltb_lt in E.
    eapply D_val; [|apply D_sub; [apply D_sub; [apply (sum_to_D np (fun p s => dot3 (rr p (c s)) (JJ p (c s) i)) (fun p => sum_to NN (fun j => v j * (dot3 (JJ p (c t) i) (JJ p (c t) j) + dot3 (rr p (c t)) (HH p (c t) i j))))); intros p P; apply dotrJ_along; assumption|apply D_mul; [apply Hc; lia|exact DA]]|apply D_mul; [apply Hc; lia|apply D_const]]].
    cbv beta. rewrite sum_swap_lin. set (S4 := sum_to NN (fun j => v j * d2l n d2lab (c t) i j)).
    set (S1 := sum_to NN (fun j => v j * sum_to np (fun p => dot3 (JJ p (c t) i) (JJ p (c t) j) + dot3 (rr p (c t)) (HH p (c t) i j)))).
    rewrite (sum_to_ext NN _ (fun j => v j * (1 * sum_to np (fun p => dot3 (JJ p (c t) i) (JJ p (c t) j) + dot3 (rr p (c t)) (HH p (c t) i j)) + (- c t NN) * d2l n d2lab (c t) i j))).
    2:{ intros j Lj. rewrite (proj2 (Nat.ltb_lt j NN)) by lia. rewrite sum_to_plus. ring. }
    rewrite <- sum_lin2. fold S4. fold S1. ring.
  - destruct (i =? NN)%nat eqn:E2.
    + rewrite (sum_to_ext NN _ (fun j => v j * dl n dlab (c t) j)) by (intros j Lj; now rewrite (proj2 (Nat.ltb_lt j NN)) by lia). eapply D_val; [|exact LA']. ring.
    + rewrite (sum_to_ext NN _ (fun j => v j * drz n dx j)) by (intros j Lj; now rewrite (proj2 (Nat.ltb_lt j NN)) by lia). eapply D_val; [|exact ZA]. ring.
Qed.
End Pen.

(** ** The vectorized C++ objective is the same function *)
Section Vec.
Variables (w : bool) (b : vec3).
Hypothesis P : 0 < normsq b.
Lemma sg_pos : 0 < sqrt (normsq b). Proof. now apply sqrt_lt_R0. Qed.
Lemma sg_sq : normsq b = sqrt (normsq b) * sqrt (normsq b). Proof. rewrite sqrt_sqrt; lra. Qed.
Lemma cc_w_eq : cc_w w b = py_w w b.
Proof. unfold cc_w, py_w. destruct w; [|reflexivity]. rewrite sqrt_div_alt, sqrt_1 by exact P. reflexivity. Qed.
Lemma cc_dw_eq m : cc_dw w b m = py_dw w b m.
Proof.
  unfold cc_dw, cc_dmodB, py_dw, py_dmodB, py_dB2. rewrite cc_w_eq. unfold py_w. destruct w; [|reflexivity]. pose proof sg_pos. pose proof sg_sq as E. set (sg := sqrt (normsq b)) in *. rewrite E. field. lra.
Qed.
Lemma cc_d2w_eq m k d2 : cc_d2w w b m k d2 = py_d2w w b m k d2.
Proof.
  unfold cc_d2w, cc_d2modB, cc_dmodB, cc_pow3, py_d2w, py_d2modB, py_dmodB, cc_d2B2, py_d2B2, py_dB2. rewrite cc_w_eq. unfold py_w. destruct w; [|reflexivity].
  rewrite (dot_comm3 d2 b). pose proof sg_pos. pose proof sg_sq as E. set (sg := sqrt (normsq b)) in *. rewrite E. field. lra.
Qed.
Lemma cc_drtil_eq G m tg tm : cc_drtil w G b m tg tm = py_drtil w G b m tg tm.
Proof. unfold cc_drtil, py_drtil, cc_dres, py_dres. rewrite cc_w_eq, cc_dw_eq. generalize (py_w w b) (py_dw w b m) (residual G b tg). intros. apply v3_eq; vu; ring. Qed.
Lemma cc_d2rtil_eq G m k d2 tg tm tk : cc_d2rtil w G b m k d2 tg tm tk = py_d2rtil w G b m k d2 tg tm tk.
Proof.
  unfold cc_d2rtil, py_d2rtil, cc_dres, py_dres, cc_d2res, py_d2res, cc_d2B2, py_d2B2, py_dB2. rewrite cc_w_eq, !cc_dw_eq, cc_d2w_eq.
  generalize (py_w w b) (py_dw w b m) (py_dw w b k) (py_d2w w b m k d2) (residual G b tg). intros. apply v3_eq; vu; ring.
Qed.
Lemma cc_iota_eq m xt xm : cc_d2rtil_iota w b m xt xm = py_d2rtil_iota w b m xt xm.
Proof. unfold cc_d2rtil_iota, py_d2rtil_iota, d2res_iota, py_dB2. now rewrite cc_w_eq, cc_dw_eq. Qed.
Lemma cc_G_eq m : cc_d2rtil_G w b m = py_d2rtil_G w b m.
Proof. unfold cc_d2rtil_G, py_d2rtil_G. rewrite cc_w_eq, cc_dw_eq. generalize (py_w w b) (py_dw w b m). intros. apply v3_eq; vu; ring. Qed.
Lemma d2rtil_sym G m k d2 tg tm tk : py_d2rtil w G b m k d2 tg tm tk = py_d2rtil w G b k m d2 tg tk tm.
Proof.
  assert (E : py_d2w w b m k d2 = py_d2w w b k m d2) by (unfold py_d2w; destruct w; [|reflexivity]; unfold py_d2modB, py_d2B2; rewrite (dot_comm3 m k); unfold Rdiv; ring).
  unfold py_d2rtil, py_d2res, py_d2B2, py_dB2. rewrite E. generalize (py_w w b) (py_dw w b m) (py_dw w b k) (py_d2w w b k m d2) (residual G b tg) (py_dres G b k tg tk) (py_dres G b m tg tm). intros. apply v3_eq; vu; ring.
Qed.
End Vec.

Lemma num_res_pos np : (0 < np)%nat -> 0 < num_res np.
Proof. intros L. unfold num_res. apply lt_0_INR. lia. Qed.
Lemma lt_pos p q : (p < q)%nat -> (0 < q)%nat. Proof. lia. Qed.
Lemma k_sq np S0 : (np = 0%nat -> S0 = 0) -> / sqrt (num_res np) * / sqrt (num_res np) * S0 = S0 / num_res np.
Proof.
  intros Z. destruct np as [|k] eqn:En; [rewrite Z by reflexivity; unfold Rdiv; ring|].
  assert (0 < num_res (S k)) by (unfold num_res; apply lt_0_INR; lia). rewrite <- Rinv_mult, sqrt_sqrt by lra. unfold Rdiv. ring.
Qed.
Section Same.
Variables (n np : nat) (dx dxp dxt : nat -> nat -> vec3) (B : vec3 -> vec3) (dB : vec3 -> mat3) (d2B : vec3 -> nat -> mat3).
Variables (currents : list R) (optG weight : bool).
Variables (lab : (nat -> R) -> R) (dlab : (nat -> R) -> nat -> R) (d2lab : (nat -> R) -> nat -> nat -> R) (target cw : R).
Variable x : nat -> R.
Hypothesis OK : forall p, (p < np)%nat -> 0 < normsq (B (X n dx p x)).
Notation NN := (N n optG). Notation rr := (r n dx dxp dxt B currents optG weight). Notation JJ := (J n dx dxp dxt B dB currents optG weight).
Notation HH := (H n dx dxp dxt B dB d2B currents optG weight).
Lemma rtil_eq p : (p < np)%nat -> cc_rtil n dx dxp dxt B currents optG weight p x = rr p x.
Proof using OK. intros L. unfold cc_rtil, r. rewrite cc_w_eq; [reflexivity|]. apply OK, L. Qed.
Lemma ccJ_eq p m : (p < np)%nat -> cc_J n dx dxp dxt B dB currents optG weight p x m = JJ p x m.
Proof using OK.
  intros L. pose proof (OK p L) as P. unfold cc_J, J. rewrite cc_drtil_eq, cc_w_eq by exact P. reflexivity.
Qed.
Theorem C110_vectorized_value : vval n np dx dxp dxt B currents optG weight lab target cw x = val n np dx dxp dxt B currents optG weight lab target cw x.
Proof using OK.
  unfold vval, val, cc_val, rn. rewrite (sum_to_ext np (fun p => normsq (scal3 _ _)) (fun p => / sqrt (num_res np) * / sqrt (num_res np) * normsq (rr p x))) by (intros; apply normsq_scal).
  rewrite !sum_to_scal. rewrite (sum_to_ext np (fun p => normsq (cc_rtil n dx dxp dxt B currents optG weight p x)) (fun p => normsq (rr p x))) by (intros p L; now rewrite rtil_eq).
  rewrite k_sq by (intros ->; reflexivity). unfold Rdiv. ring.
Qed.
Theorem C110_vectorized_gradient (m : nat) : vdval n np dx dxp dxt B dB currents optG weight lab dlab target cw x m = dval n np dx dxp dxt B dB currents optG weight lab dlab target cw x m.
Proof using OK.
  unfold vdval, dval, cc_dval, rn. rewrite (sum_to_ext np (fun p => dot3 (scal3 _ _) (scal3 _ _)) (fun p => / sqrt (num_res np) * / sqrt (num_res np) * dot3 (rr p x) (JJ p x m))) by (intros; apply dot_scal2).
  rewrite sum_to_scal. rewrite (sum_to_ext np (fun p => dot3 (cc_rtil n dx dxp dxt B currents optG weight p x) _) (fun p => dot3 (rr p x) (JJ p x m))) by (intros p L; now rewrite rtil_eq, ccJ_eq).
  rewrite k_sq by (intros ->; reflexivity). ring.
Qed.
Theorem C110_vectorized_hessian (m k : nat) : symmetric2 d2B -> (m < NN)%nat -> (k < NN)%nat ->
  vd2val n np dx dxp dxt B dB d2B currents optG weight lab dlab d2lab target cw x m k = d2val n np dx dxp dxt B dB d2B currents optG weight lab dlab d2lab target cw x m k.
Proof using OK.
  intros SY Lm Lk. unfold vd2val, d2val, cc_d2val, rn. set (K := / sqrt (num_res np)).
  rewrite (sum_to_ext np (fun p => dot3 (scal3 K (JJ p x m)) (scal3 K (JJ p x k))) (fun p => K * K * dot3 (JJ p x m) (JJ p x k))) by (intros; apply dot_scal2).
  rewrite (sum_to_ext np (fun p => dot3 (scal3 K (rr p x)) (scal3 K (HH p x m k))) (fun p => K * K * dot3 (rr p x) (HH p x m k))) by (intros; apply dot_scal2).
  rewrite !sum_to_scal.
  assert (U : forall p a e, (p < np)%nat -> (a <= e)%nat -> (e < NN)%nat -> cc_upper n dx dxp dxt B dB d2B currents optG weight p x a e = dot3 (JJ p x a) (JJ p x e) + dot3 (rr p x) (HH p x a e)).
  { intros p a e L A E. pose proof (OK p L) as P. unfold cc_upper. rewrite !ccJ_eq, rtil_eq by exact L. f_equal. unfold H.
    rewrite cc_d2rtil_eq, cc_iota_eq, cc_G_eq by exact P. destruct (a <? n)%nat eqn:Ea; [reflexivity|].
    apply Nat.ltb_ge in Ea. rewrite (proj2 (Nat.ltb_ge e n)) by lia. unfold dot3, v0. cbn [vx vy vz]. ring. }
  assert (HS : forall p a e, HH p x a e = HH p x e a).
  { intros p a e. unfold H. destruct (a <? n)%nat, (e <? n)%nat; try reflexivity. rewrite d2rtil_sym. unfold bmn. now rewrite (d2dir_sym d2B (X n dx p x) (dx p a) (dx p e) SY). }
  rewrite (sum_to_ext np _ (fun p => dot3 (JJ p x m) (JJ p x k) + dot3 (rr p x) (HH p x m k))).
  2:{ intros p L. destruct (m <=? k)%nat eqn:E; [apply Nat.leb_le in E|apply Nat.leb_gt in E].
      - now rewrite U by lia.
      - rewrite U by lia. now rewrite (dot_comm3 (JJ p x k)), (HS p k m). }
  rewrite sum_to_plus. assert (Z : K * K * (sum_to np (fun p => dot3 (JJ p x m) (JJ p x k)) + sum_to np (fun p => dot3 (rr p x) (HH p x m k))) = (sum_to np (fun p => dot3 (JJ p x m) (JJ p x k)) + sum_to np (fun p => dot3 (rr p x) (HH p x m k))) / num_res np).
  { apply k_sq. intros ->. unfold sum_to. cbn. ring. }
  rewrite <- Z. ring.
Qed.
(** the penalty objective vanishes exactly on the surfaces sought *)
Theorem C110_zero_iff : 0 < cw ->
  (val n np dx dxp dxt B currents optG weight lab target cw x = 0 <->
   (forall p, (p < np)%nat -> scal3 (G_of n currents optG x) (B (X n dx p x)) = scal3 (normsq (B (X n dx p x))) (add3 (Xp n dxp p x) (scal3 (x n) (Xt n dxt p x))))
   /\ lab x = target /\ vz (X n dx 0 x) = 0).
Proof using OK.
  intros C. unfold val. set (K := / sqrt (num_res np)).
  rewrite (sum_to_ext np (fun p => normsq (rn n np dx dxp dxt B currents optG weight p x)) (fun p => K * K * normsq (rr p x))) by (intros; apply normsq_scal).
  assert (Sq : 0 < sqrt cw) by (now apply sqrt_lt_R0).
  assert (NP : forall a, 0 <= normsq a) by (intros a; unfold normsq, dot3; nra).
  assert (N0 : forall a, normsq a = 0 -> a = v0) by (intros a E; unfold normsq, dot3 in E; pose proof (Rle_0_sqr (vx a)); pose proof (Rle_0_sqr (vy a)); pose proof (Rle_0_sqr (vz a)); unfold Rsqr in *; apply v3_eq; cbn; apply Rsqr_0_uniq; unfold Rsqr; lra).
  assert (R0 : forall p, (p < np)%nat -> (rr p x = v0 <-> scal3 (G_of n currents optG x) (B (X n dx p x)) = scal3 (normsq (B (X n dx p x))) (add3 (Xp n dxp p x) (scal3 (x n) (Xt n dxt p x))))).
  { intros p L. pose proof (OK p L) as P. unfold r. fold (bx n dx B p x). unfold iota_of in *. change (add3 (Xp n dxp p x) (scal3 (x n) (Xt n dxt p x))) with (BoozSurf.tang n dxp dxt p x).
    assert (W : py_w weight (bx n dx B p x) <> 0).
    { unfold py_w. destruct weight; [|lra]. assert (0 < sqrt (normsq (bx n dx B p x))) by (now apply sqrt_lt_R0). apply Rgt_not_eq. apply Rdiv_lt_0_compat; lra. }
    unfold residual. fold (bx n dx B p x). set (u := scal3 (G_of n currents optG x) (bx n dx B p x)). set (q := scal3 (normsq (bx n dx B p x)) (BoozSurf.tang n dxp dxt p x)). generalize dependent (py_w weight (bx n dx B p x)). intros k W. clearbody u q.
    split.
    - intros E. assert (E0 := f_equal vx E). assert (E1 := f_equal vy E). assert (E2 := f_equal vz E). cbn in E0, E1, E2.
      apply v3_eq; [apply Rmult_integral in E0; destruct E0; [contradiction|lra]|apply Rmult_integral in E1; destruct E1; [contradiction|lra]|apply Rmult_integral in E2; destruct E2; [contradiction|lra]].
    - intros ->. apply v3_eq; cbn; ring. }
  assert (KK : (0 < np)%nat -> 0 < K * K).
  { intros L. pose proof (num_res_pos np L). assert (0 < K) by (apply Rinv_0_lt_compat, sqrt_lt_R0; lra). nra. }
  assert (SP : 0 <= sum_to np (fun p => K * K * normsq (rr p x))) by (apply sum_to_ge0; intros p L; pose proof (KK (lt_pos _ _ L)); pose proof (NP (rr p x)); nra).
  split.
  - intros E. unfold half in E. set (a := sqrt cw * (lab x - target)) in *. set (e := sqrt cw * (zz n dx x - 0)) in *.
    pose proof (pow2_ge_0 a) as Ha. pose proof (pow2_ge_0 e) as He. set (S1 := sum_to np (fun p => K * K * normsq (rr p x))) in *.
    assert (S0 : S1 = 0) by lra. assert (A0 : a = 0) by (apply Rsqr_0_uniq; rewrite Rsqr_pow2; lra). assert (E0 : e = 0) by (apply Rsqr_0_uniq; rewrite Rsqr_pow2; lra). unfold S1 in S0.
    split; [|split].
    + intros p L. apply R0, N0; [exact L|]. pose proof (KK (lt_pos _ _ L)). assert (Q : K * K * normsq (rr p x) = 0) by (apply (proj1 (sum_to_zero np (fun p => K * K * normsq (rr p x)) ltac:(intros i Li; pose proof (NP (rr i x)); nra)) S0 p L)). apply Rmult_integral in Q. destruct Q; lra.
    + unfold a in A0. apply Rmult_integral in A0. destruct A0; lra.
    + unfold e, zz in E0. apply Rmult_integral in E0. destruct E0; lra.
  - intros (E & -> & Z). unfold zz. rewrite Z. rewrite (sum_to_ext np _ (fun p => 0 * 1)).
    + rewrite sum_to_scal. ring.
    + intros p L. rewrite (proj2 (R0 p L) (E p L)). unfold normsq, dot3, v0. cbn. ring.
Qed.
End Same.

(** ** BiotSavart is such a field: coils_field of BSModel *)
Definition coilsB (coils : list (R * list qpt)) (y : vec3) : vec3 := coils_field kB coils y.
Definition coilsdB (coils : list (R * list qpt)) (y : vec3) : mat3 := M3 (coils_field (kdB 0) coils y) (coils_field (kdB 1) coils y) (coils_field (kdB 2) coils y).
Definition coilsd2B (coils : list (R * list qpt)) (y : vec3) (k : nat) : mat3 := M3 (coils_field (kddB k 0) coils y) (coils_field (kddB k 1) coils y) (coils_field (kddB k 2) coils y).
Definition off_coils (coils : list (R * list qpt)) (y : vec3) : Prop := forall c q, In c coils -> In q (snd c) -> y <> fst q.
Lemma sum3_lin {A} (l : list A) (k0 k1 k2 : A -> vec3) u :
  sum3 (map (fun q => vecmat u (M3 (k0 q) (k1 q) (k2 q))) l) = vecmat u (M3 (sum3 (map k0 l)) (sum3 (map k1 l)) (sum3 (map k2 l))).
Proof.
  induction l as [|q l IH]; cbn [map sum3]; [unfold vecmat; cbn [row0 row1 row2]; v3; ring|]. rewrite IH. unfold vecmat. cbn [row0 row1 row2].
  generalize (sum3 (map k0 l)) (sum3 (map k1 l)) (sum3 (map k2 l)) (k0 q) (k1 q) (k2 q). intros. v3; ring.
Qed.
Lemma coils_lin coils y (k0 k1 k2 : vec3 -> qpt -> vec3) u :
  coils_field (fun y q => vecmat u (M3 (k0 y q) (k1 y q) (k2 y q))) coils y = vecmat u (M3 (coils_field k0 coils y) (coils_field k1 coils y) (coils_field k2 coils y)).
Proof.
  unfold coils_field. rewrite <- (sum3_lin coils). f_equal. apply map_ext. intros [I c]. cbn [fst snd]. unfold coil_field. rewrite (sum3_lin c). unfold vecmat. cbn [row0 row1 row2].
  generalize (sum3 (map (k0 y) c)) (sum3 (map (k1 y) c)) (sum3 (map (k2 y) c)) (/ 10 ^ 7 / INR (length c)). intros. v3; ring.
Qed.
Theorem C110_coils_field_ok (coils : list (R * list qpt)) : field_ok (off_coils coils) (coilsB coils) (coilsdB coils) (coilsd2B coils) /\ symmetric2 (coilsd2B coils).
Proof.
  split.
  - intros p t p' Hp OF.
    assert (T : forall k, (k < 3)%nat -> D3 (fun s => coils_field (kdB k) coils (p s)) t (vecmat p' (coilsd2B coils (p t) k))).
    { intros k K. unfold coilsd2B. rewrite <- (coils_lin coils (p t) (kddB k 0) (kddB k 1) (kddB k 2)). apply (D3_coils (kdB k) (fun y q => vecmat p' (M3 (kddB k 0 y q) (kddB k 1 y q) (kddB k 2 y q)))).
      intros c [g h] Ic Iq. pose proof (OF c (g, h) Ic Iq) as NE. cbn [fst] in NE.
      eapply D3_val; [|apply (kdB_path p (fun _ => g) (fun _ => h) t p' v0 v0 Hp (D3_const _ _) (D3_const _ _) NE k)]. cbv beta.
      unfold kddB, kddB_low, vecmat. cbn [row0 row1 row2]. generalize (p t). intros y. clear -K.
      destruct k as [|[|[|k]]]; [| | |lia]; cbn [Nat.leb fst snd]; set (i := rsqrt _); clearbody i; destruct y, g, h, p'; apply v3_eq; cbn; unfold dot3; cbn; ring. }
    split; [|split; [|split]]; [|apply (T 0%nat); lia|apply (T 1%nat); lia|apply (T 2%nat); lia].
    unfold coilsB, coilsdB. rewrite <- (coils_lin coils (p t) (kdB 0) (kdB 1) (kdB 2)). apply (D3_coils kB (fun y q => vecmat p' (M3 (kdB 0 y q) (kdB 1 y q) (kdB 2 y q)))).
    intros c [g h] Ic Iq. pose proof (OF c (g, h) Ic Iq) as NE. cbn [fst] in NE.
    eapply D3_val; [|apply (kB_path p (fun _ => g) (fun _ => h) t p' v0 v0 Hp (D3_const _ _) (D3_const _ _) NE)]. cbv beta.
    pose proof (kdB_simpl p (fun _ => g) (fun _ => h) t NE) as E. cbv beta in E. rewrite !E. unfold vecmat. cbn [row0 row1 row2]. generalize (p t). intros y. set (i := rsqrt _). clearbody i. clear. destruct y, g, h, p'; apply v3_eq; cbn; unfold dot3; cbn; ring.
  - intros q. unfold coilsd2B. cbn [row0 row1 row2]. repeat split; apply C58_second_derivatives_symmetric.
Qed.

(** ** A concrete case: a uniform field along z, one toroidal-like line x = (0, 0, a phi); n = 1 dof, the label is the square of the dof *)
Definition ex_dx (p m : nat) : vec3 := V3 1 0 (INR p).
Definition ex_dxp (p m : nat) : vec3 := V3 0 0 1.
Definition ex_dxt (p m : nat) : vec3 := V3 0 1 0.
Definition ex_B (y : vec3) : vec3 := V3 0 0 2.
Definition ex_dB (y : vec3) : mat3 := M3 v0 v0 v0.
Definition ex_d2B (y : vec3) (k : nat) : mat3 := M3 v0 v0 v0.
Example ex_field_ok : field_ok (fun _ => True) ex_B ex_dB ex_d2B /\ symmetric2 ex_d2B.
Proof.
  split; [|intros q; repeat split]. intros p t p' Hp _. unfold ex_B, ex_dB, ex_d2B. cbn [row0 row1 row2].
  assert (E : vecmat p' (M3 v0 v0 v0) = v0) by (unfold vecmat; cbn [row0 row1 row2]; clear; v3; ring). rewrite E. repeat split; apply D_const.
Qed.
Example ex_all_ok x : all_ok 1 ex_dx ex_B (fun _ => True) 4 x.
Proof. intros p L. split; [exact I|]. unfold ex_B, normsq, dot3. cbn. lra. Qed.
Example ex_label : total 1 (fun _ => True) (fun x => x 0%nat ^ 2) (fun x m => 2 * x 0%nat) /\
  forall m, (m < 1)%nat -> total 1 (fun _ => True) (fun x => 2 * x 0%nat) (fun x k => 2).
Proof.
  split.
  - intros c t v Hc _. apply (D_ext (fun s => c s 0%nat * c s 0%nat)); [intros; ring|]. eapply D_val; [|apply D_mul; apply Hc; lia]. unfold sum_to. cbn. ring.
  - intros m _ c t v Hc _. eapply D_val; [|apply D_mul; [apply D_const|apply Hc; lia]]. unfold sum_to. cbn. ring.
Qed.
(** when G is not an unknown it is mu0 times the sum of |I| over the coils *)
Theorem C110_default_G (n : nat) (currents : list R) (x : nat -> R) : G_of n currents false x = 4 * PI * 1e-7 * rsuml (map Rabs currents) /\ G_of n currents true x = x (n + 1)%nat.
Proof. split; [|reflexivity]. unfold G_of, G_coils. pose proof PI_RGT_0. field. lra. Qed.
(** with dof 1, iota 0 and G = 2 the penalty objective of this case is zero *)
Example ex_zero : forall weight, val 1 1 ex_dx ex_dxp ex_dxt ex_B nil true weight (fun x => x 0%nat ^ 2) 1 1 (fun i => match i with 0%nat => 1 | 1%nat => 0 | _ => 2 end) = 0.
Proof.
  intros w. apply C110_zero_iff; [intros p L; unfold ex_B, normsq, dot3; cbn [vx vy vz]; lra|lra|idtac]. split; [|split; [ring|]].
  - intros p L. unfold Xp, Xt, ex_B, ex_dxp, ex_dxt, G_of, sumv, sum_to, normsq, dot3. apply v3_eq; cbn; ring.
  - unfold X, sumv, sum_to, ex_dx. cbn. ring.
Qed.
(** off the target the gradient with respect to the label is seen *)
Example ex_gradient : dval 1 1 ex_dx ex_dxp ex_dxt ex_B ex_dB nil true false (fun x => x 0%nat ^ 2) (fun x m => 2 * x 0%nat) 1 1 (fun i => match i with 0%nat => 1 | 1%nat => 0 | _ => 2 end) 0 = 0.
Proof.
  unfold dval, sum_to. cbn [seq map rsuml]. unfold rn, r, J. cbn [Nat.ltb Nat.leb]. unfold py_drtil, py_dw, py_w, residual, py_dres, bx, BoozSurf.tang, dtang, bm, Xp, Xt, G_of, sumv, sum_to, ex_B, ex_dB, ex_dxp, ex_dxt, dl, drz, zz, X, ex_dx, normsq, dot3. cbn. rewrite sqrt_1. ring.
Qed.
