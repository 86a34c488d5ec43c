(** C116, C117: the gradients of the Boozer surface objectives with respect to the coils. *)
From Coq Require Import Reals Lra Lia List Bool.
From Verif Require Import VecAux Vec3 BSModel BSDeriv SurfDiffProps CurveObjModel CurveObjProps BoozSurf BoozProps BoozThms TensorSym MaskProps AdjLin AdjModel AdjProps.
Import ListNotations.
Open Scope R_scope.

(** ** Sums *)
Lemma scatter_sum (mask : nat -> bool) (lm f : nat -> R) M :
  sum_to M (fun q => (if mask q then lm (length (filter mask (seq 0 q))) else 0) * f q) = sum_to (length (filter mask (seq 0 M))) (fun i => lm i * f (nth i (filter mask (seq 0 M)) 0%nat)).
Proof.
  induction M as [|M IH]; [reflexivity|]. rewrite sum_to_S', IH. rewrite !seq_S, !filter_app. cbn [filter plus]. destruct (mask M).
  - rewrite app_length. cbn [length]. rewrite Nat.add_1_r, sum_to_S'. f_equal.
    + apply sum_to_ext. intros i L. now rewrite app_nth1 by exact L.
    + rewrite app_nth2, Nat.sub_diag by lia. reflexivity.
  - rewrite app_nil_r. ring.
Qed.
Lemma sum_triples np (f : nat -> R) : sum_to (3 * np) f = sum_to np (fun p => f (3 * p)%nat + f (3 * p + 1)%nat + f (3 * p + 2)%nat).
Proof.
  induction np as [|np IH]; [reflexivity|]. replace (3 * S np)%nat with (S (S (S (3 * np)))) by lia. rewrite !sum_to_S', IH.
  replace (S (S (3 * np))) with (3 * np + 2)%nat by lia. replace (S (3 * np)) with (3 * np + 1)%nat by lia. ring.
Qed.
Lemma entry_0 f p : entry f (3 * p) = vx (f p). Proof. unfold entry. rewrite Nat.mul_comm, Nat.div_mul, Nat.mod_mul by lia. reflexivity. Qed.
Lemma div3 p k : (k < 3)%nat -> ((3 * p + k) / 3 = p /\ (3 * p + k) mod 3 = k)%nat.
Proof. intros L. split; [rewrite (Nat.mul_comm 3 p), Nat.div_add_l, Nat.div_small by lia; lia|rewrite Nat.add_comm, (Nat.mul_comm 3 p), Nat.mod_add, Nat.mod_small by lia; reflexivity]. Qed.
Lemma entry_1 f p : entry f (3 * p + 1) = vy (f p). Proof. unfold entry. destruct (div3 p 1 ltac:(lia)) as [-> ->]. reflexivity. Qed.
Lemma entry_2 f p : entry f (3 * p + 2) = vz (f p). Proof. unfold entry. destruct (div3 p 2 ltac:(lia)) as [-> ->]. reflexivity. Qed.
Lemma dot_vecmat u M c : dot3 (vecmat u M) c = dot3 u (matvec M c).
Proof. destruct M as [r0 r1 r2]. unfold vecmat, matvec. cbn [row0 row1 row2]. vu. ring. Qed.
Lemma kept_lt np mask i : (i < length (kept np mask))%nat -> (nth i (kept np mask) 0%nat < 3 * np)%nat.
Proof. intros L. assert (I : In (nth i (kept np mask) 0%nat) (kept np mask)) by (apply nth_In; exact L). unfold kept in I at 2. apply filter_In in I. destruct I as [I _]. apply in_seq in I. lia. Qed.
Lemma coord_D f t a k : D3 f t a -> D (fun s => coord (f s) k) t (coord a k).
Proof. intros (A & B & C). destruct k as [|[|k]]; cbn [coord]; assumption. Qed.
Lemma coord_add a b k : coord (add3 a b) k = coord a k + coord b k. Proof. destruct k as [|[|k]]; reflexivity. Qed.
Lemma coord_sumv n v f k : coord (sumv n (fun m => scal3 (v m) (f m))) k = sum_to n (fun m => v m * coord (f m) k).
Proof. destruct k as [|[|k]]; unfold sumv; cbn [coord vx vy vz]; apply sum_to_ext; reflexivity. Qed.

(** the label as a function of the coils (time s) and of the surface dofs *)
Definition label_ok (n : nat) (ok : (nat -> R) -> Prop) (t0 : R) (lab : R -> (nat -> R) -> R) (dlab : (nat -> R) -> nat -> R) (labc : (nat -> R) -> R) : Prop :=
  forall (x : R -> nat -> R) v, (forall m, (m < n)%nat -> D (fun s => x s m) t0 (v m)) -> ok (x t0) ->
    D (fun s => lab s (x s)) t0 (sum_to n (fun m => v m * dlab (x t0) m) + labc (x t0)).

(** Iotas: the partial derivatives put at -2 or -1 are those of iota *)
Theorem C116_iotas (n : nat) (dxp dxt : nat -> nat -> vec3) (optG : bool) (t0 : R) (x : R -> nat -> R) (v : nat -> R) : (forall m, (m < N n optG)%nat -> D (fun s => x s m) t0 (v m)) ->
  D (fun s => iota_of n (x s)) t0 (sum_to (N n optG) (fun m => v m * iotas_dJ_ds n optG m) + 0).
Proof.
  intros Hx. eapply D_val; [|apply (Hn n dxp dxt optG 0%nat x t0 v Hx)]. rewrite sum_N. unfold iotas_dJ_ds, N.
  rewrite (sum_to_ext n _ (fun m => 0 * v m)); [rewrite sum_to_scal|].
  - destruct optG; [replace (n + 2 - 2)%nat with n by lia; replace (n + 1 =? n)%nat with false by (symmetry; apply eqb_S)|replace (n + 1 - 1)%nat with n by lia]; rewrite Nat.eqb_refl; ring.
  - intros m LM. destruct optG; [replace (n + 2 - 2)%nat with n by lia|replace (n + 1 - 1)%nat with n by lia]; replace (m =? n)%nat with false by (symmetry; apply Nat.eqb_neq; lia); ring.
Qed.

Section Grad.
Variables (n np : nat) (dx dxp dxt : nat -> nat -> vec3) (t0 : R) (B : R -> vec3 -> vec3) (dB : R -> vec3 -> mat3) (d2B : vec3 -> nat -> mat3) (Bc : vec3 -> vec3) (dBc : vec3 -> mat3).
Variables (currents : list R) (optG weight : bool) (Dom : vec3 -> Prop).
Variables (lab : R -> (nat -> R) -> R) (dlab : R -> (nat -> R) -> nat -> R) (labc : (nat -> R) -> R) (target : R).
Hypothesis HF : field_ok Dom (B t0) (dB t0) d2B.
Hypothesis HV : family_ok Dom t0 B dB d2B Bc dBc.
Notation NN := (N n optG). Notation ok := (all_ok n dx (B t0) Dom np). Notation XX := (X n dx).
Hypothesis HL : label_ok n ok t0 lab (dlab t0) labc.
Variables (x : R -> nat -> R) (v : nat -> R).
Hypothesis Hx : forall m, (m < NN)%nat -> D (fun s => x s m) t0 (v m).
Hypothesis OK : ok (x t0).
Notation x0 := (x t0).
Lemma lab_D : D (fun s => lab s (x s)) t0 (sum_to NN (fun m => v m * dl n (dlab t0) x0 m) + labc x0).
Proof. unfold dl. rewrite sum_trunc. apply HL; [|exact OK]. intros m L. apply Hx. now apply lt_N. Qed.
Lemma zz_D : D (fun s => zz n dx (x s)) t0 (sum_to NN (fun m => v m * drz n dx m)).
Proof.
  unfold drz. rewrite sum_trunc. unfold zz, X. apply (D_ext (fun s => sum_to n (fun m => x s m * vz (dx 0%nat m)))); [reflexivity|]. apply (sum_to_D n (fun m s => x s m * vz (dx 0%nat m)) (fun m => v m * vz (dx 0%nat m))).
  intros m L. eapply D_val; [|apply D_mul; [apply Hx; now apply lt_N|apply D_const]]. cbv beta; ring.
Qed.

(** *** the exact solver *)
Variable mask : nat -> bool.
Notation K := (length (kept np mask)).
(** the change of the equations with the coils at a fixed surface *)
Definition exact_c (i : nat) : R :=
  if (i <? K)%nat then entry (fun p => matvec (dresidual_dB (G_of n currents optG x0) (bx n dx (B t0) p x0) (BoozSurf.tang n dxp dxt p x0)) (Bc (XX p x0))) (nth i (kept np mask) 0%nat)
  else if (i =? K)%nat then labc x0 else 0.
Lemma exact_D i : D (fun s => exact_eq n np dx dxp dxt (B s) currents optG (lab s) target mask (x s) i) t0
  (sum_to NN (fun m => v m * exact_row n np dx dxp dxt (B t0) (dB t0) currents optG (dlab t0) mask x0 i m) + exact_c i).
Proof.
  unfold exact_eq, exact_row, exact_c. destruct (i <? K)%nat eqn:E.
  - apply Nat.ltb_lt in E. pose proof (kept_lt np mask i E) as LQ. set (q := nth i (kept np mask) 0%nat) in *. unfold entry. assert (LP : (q / 3 < np)%nat) by (apply Nat.div_lt_upper_bound; lia).
    pose proof (C116_r n dx dxp dxt t0 B dB d2B Bc dBc currents optG false Dom HF HV (q / 3) x v Hx (OK _ LP)) as A.
    eapply D_ext; [|eapply D_val; [|apply (coord_D _ _ _ (q mod 3) A)]].
    + intros s. unfold r, py_w. cbv beta. f_equal. generalize (residual (G_of n currents optG (x s)) (bx n dx (B s) (q / 3) (x s)) (BoozSurf.tang n dxp dxt (q / 3) (x s))). intros u. v3; ring.
    + rewrite coord_add, coord_sumv. unfold o_dB, drtil_dB. f_equal.
  - destruct (i =? K)%nat; [|eapply D_val; [|apply zz_D]; ring]. eapply D_val; [|apply D_sub; [apply lab_D|apply D_const]]. ring.
Qed.
(** the vector-Jacobian product is lm . (change of the equations) *)
Theorem C116_exact_vjp (lm : vec) (vp : nat -> vec3) (ll : R) : exact_vjp n np dx dxp dxt (B t0) currents optG mask lm (K + 1) x0 = Some (vp, ll) ->
  sum_to np (fun p => dot3 (vp p) (Bc (XX p x0))) + ll * labc x0 = sum_to (K + 1) (fun i => lm i * exact_c i).
Proof.
  unfold exact_vjp, scatter. replace (K + 1 - 1)%nat with K by lia. rewrite Nat.eqb_refl. intros H. injection H as <- <-. rewrite Nat.add_1_r, sum_to_S'. f_equal.
  - set (M := fun p => dresidual_dB (G_of n currents optG x0) (bx n dx (B t0) p x0) (BoozSurf.tang n dxp dxt p x0)). set (lk := fun q => if mask q then lm (length (filter mask (seq 0 q))) else 0).
    transitivity (sum_to (3 * np) (fun q => lk q * entry (fun p => matvec (M p) (Bc (XX p x0))) q)).
    + rewrite sum_triples. apply sum_to_ext. intros p _. rewrite entry_0, entry_1, entry_2, dot_vecmat. fold (M p). unfold lk, dot3. cbn [vx vy vz]. reflexivity.
    + unfold lk. rewrite scatter_sum. fold (kept np mask). apply sum_to_ext. intros i L. unfold exact_c. rewrite (proj2 (Nat.ltb_lt i K)) by exact L. reflexivity.
  - unfold exact_c. rewrite Nat.ltb_irrefl, Nat.eqb_refl. reflexivity.
Qed.
(** exact stellarator symmetric surfaces: if the surface follows the coils so that the equations keep holding, the gradient computed
    from PLU and vjp is the derivative of the objective, for every objective with partial derivatives dJ in the unknowns and Jc in
    the coils *)
Theorem C116_exact_gradient (P L U : mat) (Q : R -> R) (dJ : vec) (Jc : R) : exact_size np true mask = NN -> plu NN P L U ->
  (forall i m, (i < NN)%nat -> (m < NN)%nat -> exact_row n np dx dxp dxt (B t0) (dB t0) currents optG (dlab t0) mask x0 i m = mm NN (mm NN P L) U i m) ->
  (exists eps, 0 < eps /\ forall i s, (i < NN)%nat -> Rabs (s - t0) < eps -> exact_eq n np dx dxp dxt (B s) currents optG (lab s) target mask (x s) i = 0) ->
  D Q t0 (sum_to NN (fun m => v m * dJ m) + Jc) ->
  exists vp ll, exact_vjp n np dx dxp dxt (B t0) currents optG mask (forward_backward NN P L U dJ false) NN x0 = Some (vp, ll) /\
    D Q t0 (Jc - (sum_to np (fun p => dot3 (vp p) (Bc (XX p x0))) + ll * labc x0)).
Proof.
  intros SZ HP HA HE HQ. unfold exact_size in SZ.
  destruct (exact_vjp n np dx dxp dxt (B t0) currents optG mask (forward_backward NN P L U dJ false) NN x0) as [[vp ll]|] eqn:E.
  2:{ exfalso. revert E. unfold exact_vjp, scatter. rewrite <- SZ. replace (K + 1 - 1)%nat with K by lia. rewrite Nat.eqb_refl. discriminate. }
  exists vp, ll. split; [reflexivity|]. rewrite <- SZ in E at 2. rewrite (C116_exact_vjp _ _ _ E). rewrite SZ.
  apply (C115_adjoint NN (exact_row n np dx dxp dxt (B t0) (dB t0) currents optG (dlab t0) mask x0) P L U (fun i s => exact_eq n np dx dxp dxt (B s) currents optG (lab s) target mask (x s) i) Q v exact_c dJ Jc t0 false HP HA HE); [|exact HQ].
  intros i _. apply exact_D.
Qed.
(** without stellarator symmetry there are two extra equations, and the scatter of the adjoint always raises: no gradient *)
Theorem C116_nonstellsym_gradient_raises (lm : vec) : exact_vjp n np dx dxp dxt (B t0) currents optG mask lm (exact_size np false mask) x0 = None.
Proof.
  unfold exact_vjp, scatter, exact_size. destruct (K =? K + 2 - 1)%nat eqn:E; [|reflexivity]. apply Nat.eqb_eq in E. lia.
Qed.

(** *** the least squares solver *)
Variables (d2lab : (nat -> R) -> nat -> nat -> R) (dlabc : (nat -> R) -> nat -> R) (cw : R).
Hypothesis HL0 : total n ok (lab t0) (dlab t0).
Hypothesis HL20 : forall m, (m < n)%nat -> total n ok (fun y => dlab t0 y m) (fun y => d2lab y m).
Hypothesis HL2 : forall m, (m < n)%nat -> label_ok n ok t0 (fun s y => dlab s y m) (fun y => d2lab y m) (fun y => dlabc y m).
Notation rr s p := (r n dx dxp dxt (B s) currents optG weight p). Notation JJ s p := (J n dx dxp dxt (B s) (dB s) currents optG weight p).
Notation HH p := (H n dx dxp dxt (B t0) (dB t0) d2B currents optG weight p).
Notation rc p := (matvec (o_dB n dx dxp dxt (B t0) currents optG weight p x0) (Bc (XX p x0))).
Notation Jc p m := (add3 (matvec (o_dsdB n dx dxp dxt (B t0) (dB t0) currents optG weight p x0 m) (Bc (XX p x0))) (tens (o_dsdgradB n dx dxp dxt (B t0) currents optG weight p x0 m) (dBc (XX p x0)))).
Notation kk := (scale np).
Lemma combine (r1 J1 : nat -> R -> vec3) (l1 d1 z1 : R -> R) (r' J' : nat -> vec3) (l' d' z' : R) m :
  (forall p, (p < np)%nat -> D3 (r1 p) t0 (r' p)) -> (forall p, (p < np)%nat -> D3 (J1 p) t0 (J' p)) -> D l1 t0 l' -> D d1 t0 d' -> D z1 t0 z' ->
  D (fun s => sum_to np (fun p => dot3 (scal3 kk (r1 p s)) (scal3 kk (J1 p s))) + sqrt cw * (l1 s - target) * (sqrt cw * d1 s) + sqrt cw * (z1 s - 0) * (sqrt cw * drz n dx m)) t0
    (sum_to np (fun p => kk * kk * (dot3 (r' p) (J1 p t0) + dot3 (r1 p t0) (J' p))) + sqrt cw * sqrt cw * (l' * d1 t0 + (l1 t0 - target) * d') + sqrt cw * sqrt cw * (z' * drz n dx m)).
Proof.
  clear. intros Hr HJ Hl Hd Hz. eapply D_val; [|apply D_add; [apply D_add; [|apply D_mul; [apply D_mul; [apply D_const|apply D_sub; [exact Hl|apply D_const]]|apply D_mul; [apply D_const|exact Hd]]]|
    apply D_mul; [apply D_mul; [apply D_const|apply D_sub; [exact Hz|apply D_const]]|apply D_mul; [apply D_const|apply D_const]]]].
  2:{ apply (D_ext (fun s => sum_to np (fun p => kk * kk * dot3 (r1 p s) (J1 p s)))); [intros s; apply sum_to_ext; intros p _; symmetry; apply dot_scal2|].
      apply (sum_to_D np (fun p s => kk * kk * dot3 (r1 p s) (J1 p s)) (fun p => kk * kk * (dot3 (r' p) (J1 p t0) + dot3 (r1 p t0) (J' p)))). intros p L.
      eapply D_val; [|apply D_mul; [apply D_const|apply D_dot; [apply Hr, L|apply HJ, L]]]. cbv beta. ring. }
  cbv beta. ring.
Qed.
(** the change of the m-th component of the gradient of the penalty objective with the coils, at fixed unknowns; its first part is
    what the vjp sees *)
Definition ls_c (m : nat) : R := sum_to np (fun p => kk * kk * (dot3 (rc p) (JJ t0 p x0 m) + dot3 (rr t0 p x0) (Jc p m))).
Definition label_c (m : nat) : R := cw * (labc x0 * dl n (dlab t0) x0 m + (lab t0 x0 - target) * (if (m <? n)%nat then dlabc x0 m else 0)).
Notation dvl s := (dval n np dx dxp dxt (B s) (dB s) currents optG weight (lab s) (dlab s) target cw).
Notation d2vl := (d2val n np dx dxp dxt (B t0) (dB t0) d2B currents optG weight (lab t0) (dlab t0) d2lab target cw).
Lemma dot_add_r a b c : dot3 a (add3 b c) = dot3 a b + dot3 a c. Proof. vu. ring. Qed.
Lemma dot_add_l a b c : dot3 (add3 b c) a = dot3 b a + dot3 c a. Proof. vu. ring. Qed.
Lemma ls_D m : 0 <= cw -> (m < NN)%nat -> D (fun s => dvl s (x s) m) t0 (sum_to NN (fun k => v k * d2vl x0 m k) + (ls_c m + label_c m)).
Proof.
  intros CW L.
  pose proof (fun p LP => C116_r n dx dxp dxt t0 B dB d2B Bc dBc currents optG weight Dom HF HV p x v Hx (OK p LP)) as A1.
  pose proof (fun p LP => C116_J n dx dxp dxt t0 B dB d2B Bc dBc currents optG weight Dom HF HV p x v Hx (OK p LP) m L) as A2.
  pose proof (fun p LP => r_along n dx dxp dxt (B t0) (dB t0) d2B currents optG weight Dom HF p x t0 v Hx (OK p LP)) as B1.
  pose proof (fun p LP => J_along n dx dxp dxt (B t0) (dB t0) d2B currents optG weight Dom HF p x t0 v Hx (OK p LP) m L) as B2.
  assert (ZA : D (fun s => zz n dx (x s)) t0 (sum_to NN (fun m => v m * drz n dx m))) by apply zz_D.
  assert (DA : D (fun s => dl n (dlab s) (x s) m) t0 (sum_to NN (fun k => v k * d2l n d2lab x0 m k) + (if (m <? n)%nat then dlabc x0 m else 0))).
  { unfold dl, d2l. destruct (m <? n)%nat eqn:E.
    - rewrite (sum_to_ext NN _ (fun k => v k * (if (k <? n)%nat then d2lab x0 m k else 0))) by reflexivity. rewrite sum_trunc. apply Nat.ltb_lt in E. apply (HL2 m E x v); [|exact OK]. intros k LK. apply Hx. now apply lt_N.
    - eapply D_val; [|apply D_const]. rewrite (sum_to_ext NN _ (fun k => 0 * v k)); [rewrite sum_to_scal; ring|]. intros; cbn [andb]; ring. }
  pose proof (combine (fun p s => rr s p (x s)) (fun p s => JJ s p (x s) m) (fun s => lab s (x s)) (fun s => dl n (dlab s) (x s) m) (fun s => zz n dx (x s)) _ _ _ _ _ m A1 A2 lab_D DA ZA) as C1.
  pose proof (combine (fun p s => rr t0 p (x s)) (fun p s => JJ t0 p (x s) m) (fun s => lab t0 (x s)) (fun s => dl n (dlab t0) (x s) m) (fun s => zz n dx (x s)) _ _ _ _ _ m B1 B2
    (lab_along n np dx (B t0) optG Dom (lab t0) (dlab t0) HL0 x t0 v Hx OK) (dl_along n np dx (B t0) optG Dom (dlab t0) d2lab HL20 x t0 v Hx OK m) ZA) as C2.
  pose proof (C110_penalty_hessian n np dx dxp dxt (B t0) (dB t0) d2B currents optG weight Dom (lab t0) (dlab t0) d2lab target cw HF HL0 HL20 m L x t0 v Hx OK) as C3.
  cbv beta in C1, C2. pose proof (D_unique _ _ _ _ C3 C2) as E. rewrite E. clear E C2 C3.
  eapply D_val; [|exact C1]. unfold ls_c. assert (EL : label_c m = sqrt cw * sqrt cw * (labc x0 * dl n (dlab t0) x0 m + (lab t0 x0 - target) * (if (m <? n)%nat then dlabc x0 m else 0))) by (unfold label_c; rewrite sqrt_sqrt by exact CW; reflexivity). rewrite EL.
  rewrite (sum_to_ext np _ (fun p => kk * kk * (dot3 (sumv NN (fun m0 => scal3 (v m0) (JJ t0 p x0 m0))) (JJ t0 p x0 m) + dot3 (rr t0 p x0) (sumv NN (fun k => scal3 (v k) (HH p x0 m k)))) + kk * kk * (dot3 (rc p) (JJ t0 p x0 m) + dot3 (rr t0 p x0) (Jc p m))))
    by (intros p _; rewrite dot_add_l, dot_add_r; ring).
  rewrite sum_to_plus. ring.
Qed.
(** the vjp pairs lm with that first part *)
Notation pairing lm := (sum_to np (fun p => dot3 (ls_vjp_B n np dx dxp dxt (B t0) (dB t0) currents optG weight lm p x0) (Bc (XX p x0)) +
    (dot3 (vjp_v3 n np dx dxp dxt (B t0) currents optG weight lm p x0 0) (row0 (dBc (XX p x0))) + dot3 (vjp_v3 n np dx dxp dxt (B t0) currents optG weight lm p x0 1) (row1 (dBc (XX p x0))) + dot3 (vjp_v3 n np dx dxp dxt (B t0) currents optG weight lm p x0 2) (row2 (dBc (XX p x0)))))).
Lemma o_J_eq p m : (p < np)%nat -> o_J n dx dxp dxt (B t0) (dB t0) currents optG weight p x0 m = JJ t0 p x0 m.
Proof. intros LP. unfold o_J, J. rewrite b_drtil; [reflexivity|]. apply (OK p LP). Qed.
Lemma dot_sumv2 n0 (f : nat -> vec3) a : dot3 (sumv n0 f) a = sum_to n0 (fun m => dot3 (f m) a).
Proof. induction n0 as [|k IH]; [unfold dot3; cbn; ring|]. rewrite sumv_S, sum_to_S', <- IH. apply dot_add_l. Qed.
Theorem C117_ls_vjp (lm : vec) : pairing lm = sum_to NN (fun m => lm m * ls_c m).
Proof.
  unfold ls_c. rewrite <- (sum_swap_lin NN np lm (fun p m => kk * kk * (dot3 (rc p) (JJ t0 p x0 m) + dot3 (rr t0 p x0) (Jc p m)))). apply sum_to_ext. intros p LP.
  unfold ls_vjp_B, vjp_v1, vjp_v2, vjp_v3. rewrite dot_add_l, !dot_vecmat.
  rewrite (sumv_ext NN _ (fun m => scal3 (lm m) (scal3 kk (JJ t0 p x0 m)))) by (intros m _; rewrite o_J_eq by exact LP; reflexivity).
  rewrite dot_sumv2. set (M := o_dB n dx dxp dxt (B t0) currents optG weight p x0). set (rv := o_r n dx dxp dxt (B t0) currents optG weight p x0). change (rr t0 p x0) with rv.
  set (F := fun m => o_dsdB n dx dxp dxt (B t0) (dB t0) currents optG weight p x0 m). set (T := fun m => o_dsdgradB n dx dxp dxt (B t0) currents optG weight p x0 m).
  set (c := Bc (XX p x0)). set (Dc := dBc (XX p x0)).
  assert (E1 : matvec (matscal kk M) c = scal3 kk (matvec M c)). { destruct M as [r0 r1 r2]. unfold matvec, matscal, mkrows, rowk. cbn [row0 row1 row2]. apply v3_eq; vu; ring. }
  rewrite E1.
  assert (E2 : dot3 (scal3 kk rv) (matvec (matsum NN (fun m => matscal (lm m) (matscal kk (F m)))) c) = sum_to NN (fun m => lm m * (kk * kk * dot3 rv (matvec (F m) c)))).
  { transitivity (dot3 (scal3 kk rv) (sumv NN (fun m => scal3 (lm m) (scal3 kk (matvec (F m) c))))).
    - f_equal. unfold matsum, matvec, mkrows. cbn [row0 row1 row2]. rewrite !dot_sumv2. unfold sumv. apply v3_eq; cbn [vx vy vz]; apply sum_to_ext; intros m _; unfold matscal, mkrows, rowk; destruct (F m) as [r0 r1 r2]; cbn [row0 row1 row2]; vu; ring.
    - rewrite dot_sumv. apply sum_to_ext. intros m _. rewrite dot_scal2. reflexivity. }
  rewrite E2.
  assert (E3 : forall a c', dot3 (scal3 kk rv) (matvec (mkrows (fun k => sumv NN (fun m => scal3 (lm m) (scal3 kk (rowk (T m k) a))))) c') = sum_to NN (fun m => lm m * (kk * kk * dot3 rv (V3 (dot3 (rowk (T m 0%nat) a) c') (dot3 (rowk (T m 1%nat) a) c') (dot3 (rowk (T m 2%nat) a) c'))))).
  { intros a c'. transitivity (dot3 (scal3 kk rv) (sumv NN (fun m => scal3 (lm m) (scal3 kk (V3 (dot3 (rowk (T m 0%nat) a) c') (dot3 (rowk (T m 1%nat) a) c') (dot3 (rowk (T m 2%nat) a) c')))))).
    - f_equal. unfold matvec, mkrows. cbn [row0 row1 row2]. rewrite !dot_sumv2. unfold sumv. apply v3_eq; cbn [vx vy vz scal3]; apply sum_to_ext; intros m _; vu; ring.
    - rewrite dot_sumv. apply sum_to_ext. intros m _. rewrite dot_scal2. reflexivity. }
  change (o_dsdgradB n dx dxp dxt (B t0) currents optG weight p x0) with T.
  rewrite !E3, <- !sum_to_plus. apply sum_to_ext. intros m _. unfold tens, frob, rowk. fold c. fold (F m). unfold matvec. set (JM := JJ t0 p x0 m).
  destruct (T m 0%nat) as [t00 t01 t02], (T m 1%nat) as [t10 t11 t12], (T m 2%nat) as [t20 t21 t22], M as [m0 m1 m2], (F m) as [f0 f1 f2], Dc as [g0 g1 g2]. cbn [row0 row1 row2]. clearbody JM c rv. clear. vu. ring.
Qed.
(** least squares surfaces: the derivative of every objective is the gradient the code assembles, minus the adjoint paired with the
    direct dependence of the label on the coils, which the code leaves out *)
Theorem C117_ls_gradient (P L U : mat) (Q : R -> R) (dJ : vec) (Jq : R) : 0 <= cw -> plu NN P L U ->
  (forall i m, (i < NN)%nat -> (m < NN)%nat -> d2vl x0 i m = mm NN (mm NN P L) U i m) ->
  (exists eps, 0 < eps /\ forall i s, (i < NN)%nat -> Rabs (s - t0) < eps -> dvl s (x s) i = 0) -> D Q t0 (sum_to NN (fun m => v m * dJ m) + Jq) ->
  D Q t0 (Jq - pairing (forward_backward NN P L U dJ false) - sum_to NN (fun m => forward_backward NN P L U dJ false m * label_c m)).
Proof.
  intros CW HP HA HE HQ. rewrite C117_ls_vjp. eapply D_val; [|apply (C115_adjoint NN (fun i m => d2vl x0 i m) P L U (fun i s => dvl s (x s) i) Q v (fun m => ls_c m + label_c m) dJ Jq t0 false HP HA HE); [intros i LI; apply ls_D; assumption|exact HQ]].
  rewrite (sum_to_ext NN (fun i => forward_backward NN P L U dJ false i * (ls_c i + label_c i)) (fun i => forward_backward NN P L U dJ false i * ls_c i + forward_backward NN P L U dJ false i * label_c i)) by (intros; ring).
  rewrite sum_to_plus. ring.
Qed.
(** so for a label that depends on the surface only (Volume, Area, AspectRatio) the gradient is right *)
Theorem C117_surface_label (P L U : mat) (Q : R -> R) (dJ : vec) (Jq : R) : 0 <= cw -> plu NN P L U ->
  (forall i m, (i < NN)%nat -> (m < NN)%nat -> d2vl x0 i m = mm NN (mm NN P L) U i m) ->
  (exists eps, 0 < eps /\ forall i s, (i < NN)%nat -> Rabs (s - t0) < eps -> dvl s (x s) i = 0) -> D Q t0 (sum_to NN (fun m => v m * dJ m) + Jq) ->
  labc x0 = 0 -> (forall m, (m < n)%nat -> dlabc x0 m = 0) -> D Q t0 (Jq - pairing (forward_backward NN P L U dJ false)).
Proof.
  intros CW HP HA HE HQ Z1 Z2. eapply D_val; [|apply (C117_ls_gradient P L U Q dJ Jq CW HP HA HE HQ)].
  rewrite (sum_to_ext NN (fun m => forward_backward NN P L U dJ false m * label_c m) (fun m => 0 * v m)); [rewrite sum_to_scal; ring|]. intros m _. unfold label_c. rewrite Z1. destruct (m <? n)%nat eqn:E; [rewrite Z2 by (now apply Nat.ltb_lt)|]; ring.
Qed.
(** *** the objectives *)
(** MajorRadius: any function of the surface dofs *)
Theorem C116_surface_function (f : (nat -> R) -> R) (df : (nat -> R) -> nat -> R) : total n ok f df -> D (fun s => f (x s)) t0 (sum_to NN (fun m => v m * major_dJ_ds n (df x0) m) + 0).
Proof. intros T. unfold major_dJ_ds. rewrite sum_trunc. eapply D_val; [|apply (T x t0 v); [|exact OK]]; [ring|]. intros m LM. apply Hx. now apply lt_N. Qed.
(** BoozerResidual: dJ_ds and the vector for B_vjp are the partial derivatives, up to the direct dependence of the label on the coils *)
Theorem C117_boozer_residual : 0 <= cw -> D (fun s => br_J n np dx dxp dxt (B s) currents optG weight (lab s) target cw (x s)) t0
  (sum_to NN (fun m => v m * br_dJ_ds n np dx dxp dxt (B t0) (dB t0) currents optG weight (lab t0) (dlab t0) target cw x0 m) +
   (sum_to np (fun p => dot3 (br_dJ_dB n np dx dxp dxt (B t0) currents optG weight p x0) (Bc (XX p x0))) + cw * (lab t0 x0 - target) * labc x0)).
Proof.
  intros CW. unfold br_J. set (rv := fun s p => o_r n dx dxp dxt (B s) currents optG weight p (x s)).
  pose proof (fun p LP => C116_r n dx dxp dxt t0 B dB d2B Bc dBc currents optG weight Dom HF HV p x v Hx (OK p LP)) as A1.
  apply (D_ext (fun s => sum_to np (fun p => half * kk * kk * dot3 (rv s p) (rv s p)) + half * (sqrt cw * (lab s (x s) - target)) ^ 2)).
  { intros s. rewrite Rmult_plus_distr_l. f_equal. rewrite <- sum_to_scal. apply sum_to_ext. intros p _. unfold rv, normsq. rewrite dot_scal2. ring. }
  assert (LA : D (fun s => lab s (x s) - target) t0 (sum_to NN (fun m => v m * dl n (dlab t0) x0 m) + labc x0)) by (eapply D_val; [|apply D_sub; [apply lab_D|apply D_const]]; ring).
  eapply D_val; [|apply D_add; [|apply D_sqr; exact LA]].
  2:{ apply (sum_to_D np (fun p s => half * kk * kk * dot3 (rv s p) (rv s p)) (fun p => half * kk * kk * (2 * dot3 (rv t0 p) (add3 (sumv NN (fun m => scal3 (v m) (JJ t0 p x0 m))) (rc p))))).
      intros p LP. eapply D_val; [|apply D_mul; [apply D_const|apply D_dot; apply (A1 p LP)]]. cbv beta. fold (rv t0 p). change (rr t0 p x0) with (rv t0 p). set (u := add3 _ _). rewrite (dot_comm3 u). ring. }
  cbv beta. fold (rv t0). unfold br_dJ_ds, br_dJ_dB.
  rewrite (sum_to_ext np (fun p => half * kk * kk * (2 * dot3 (rv t0 p) (add3 (sumv NN (fun m => scal3 (v m) (JJ t0 p x0 m))) (rc p))))
     (fun p => sum_to NN (fun m => v m * (kk * kk * dot3 (rv t0 p) (JJ t0 p x0 m))) + dot3 (vecmat (scal3 kk (rv t0 p)) (matscal kk (o_dB n dx dxp dxt (B t0) currents optG weight p x0))) (Bc (XX p x0)))).
  2:{ intros p _. rewrite dot_add_r, dot_sumv, dot_vecmat.
      rewrite (sum_to_ext NN (fun m => v m * (kk * kk * dot3 (rv t0 p) (JJ t0 p x0 m))) (fun m => kk * kk * (v m * dot3 (rv t0 p) (JJ t0 p x0 m)))) by (intros; ring). rewrite sum_to_scal.
      replace (matvec (matscal kk (o_dB n dx dxp dxt (B t0) currents optG weight p x0)) (Bc (XX p x0))) with (scal3 kk (rc p)).
      - rewrite dot_scal2. unfold half. field.
      - destruct (o_dB n dx dxp dxt (B t0) currents optG weight p x0) as [r0 r1 r2]. unfold matvec, matscal, mkrows, rowk. cbn [row0 row1 row2]. generalize (Bc (XX p x0)). intros c. apply v3_eq; vu; ring. }
  rewrite sum_to_plus, sum_swap_lin. set (S1 := sum_to NN (fun m => v m * sum_to np (fun p => kk * kk * dot3 (rv t0 p) (JJ t0 p x0 m)))). set (S2 := sum_to NN (fun m => v m * dl n (dlab t0) x0 m)).
  set (S3 := sum_to np _). set (e := lab t0 x0 - target).
  transitivity (1 * S1 + (sqrt cw * sqrt cw * e) * S2 + (S3 + sqrt cw * sqrt cw * e * labc x0)); [ring|]. rewrite (sqrt_sqrt cw CW) at 2. unfold S1, S2. rewrite sum_lin2. f_equal. apply sum_to_ext. intros m _. f_equal.
  rewrite Rmult_1_l. unfold e. f_equal; [|ring]. apply sum_to_ext. intros p _. rewrite dot_scal2. f_equal. apply dot_comm3.
Qed.
End Grad.
