(** C116, C117: concrete instances, and a case where the gradient of a least squares surface is wrong. *)
From Coq Require Import Reals Lra Lia List Bool.
From Verif Require Import VecAux Vec3 BSModel BSDeriv BSVjp SurfDiffProps CurveObjModel CurveObjProps BoozSurf BoozProps BoozThms TensorSym MaskProps AdjLin AdjModel AdjProps AdjThms.
Import ListNotations.
Open Scope R_scope.

(** one quadrature point, one surface dof a: x = 0, x_phi = (a, 0, 0), x_theta = (0, a, 0); the field (1, h s, 0) *)
Definition e_dx (p m : nat) : vec3 := v0.
Definition e_dxp (p m : nat) : vec3 := V3 1 0 0.
Definition e_dxt (p m : nat) : vec3 := V3 0 1 0.
Definition e_B (h : R -> R) (s : R) (y : vec3) : vec3 := V3 1 (h s) 0.
Definition e_dB (s : R) (y : vec3) : mat3 := mat0.
Definition e_d2B (y : vec3) (k : nat) : mat3 := mat0.
Definition e_Bc (h' : R) (y : vec3) : vec3 := V3 0 h' 0.
Definition e_dBc (y : vec3) : mat3 := mat0.
Lemma vecmat_mat0 u : vecmat u mat0 = v0. Proof. unfold vecmat, mat0. cbn [row0 row1 row2]. apply v3_eq; vu; ring. Qed.
Lemma e_family h h' t : D h t h' -> field_ok (fun _ => True) (e_B h t) (e_dB t) e_d2B /\ family_ok (fun _ => True) t (e_B h) e_dB e_d2B (e_Bc h') e_dBc.
Proof.
  intros DH. assert (Z : add3 v0 v0 = v0) by (apply v3_eq; vu; ring). split.
  - intros p t0 p' HP _. unfold e_B, e_dB, e_d2B. rewrite !vecmat_mat0. cbn [mat0 row0 row1 row2]. repeat split; apply D_const.
  - intros p p' HP _. unfold e_B, e_dB, e_d2B, e_Bc, e_dBc. rewrite !vecmat_mat0. cbn [mat0 row0 row1 row2]. rewrite !Z. split; [|repeat split; apply D_const].
    rewrite add3_0_l. split; [exact (D_const 1 t)|split; [exact DH|exact (D_const 0 t)]].
Qed.
Lemma e_ok h t x : all_ok 1 e_dx (e_B h t) (fun _ => True) 1 x.
Proof. intros p _. split; [exact I|]. unfold e_B, normsq, dot3. cbn [vx vy vz]. nra. Qed.
(** unknowns: a, iota, G *)
Definition unk (a i g : R) (m : nat) : R := match m with 0%nat => a | 1%nat => i | _ => g end.
Lemma e_res h s a i g w : a * i = h s * a -> g = (1 + h s * h s) * a -> r 1 e_dx e_dxp e_dxt (e_B h s) nil true w 0 (unk a i g) = v0.
Proof.
  intros E1 E2. unfold r. replace (residual _ _ _) with v0; [apply v3_eq; vu; ring|]. symmetry. unfold residual, G_of, BoozSurf.tang, bx, e_B, Xp, Xt, sumv, sum_to, e_dxp, e_dxt, iota_of, unk. cbn [seq map rsuml fold_right plus vx vy vz scal3].
  apply v3_eq; vu; cbn [Nat.add]; nra.
Qed.
Definition I3 : mat := fun i j => if Nat.eqb i j then 1 else 0.
Lemma I3_orth : orthogonal 3 I3.
Proof. intros i j I J. destruct i as [|[|[|]]]; try lia; destruct j as [|[|[|]]]; try lia; unfold sum_to, I3; cbn; lra. Qed.

Lemma e_J h p a i g : J 1 e_dx e_dxp e_dxt (e_B h 1) (e_dB 1) nil true false p (unk a i g) 0%nat = scal3 (- (1 + h 1 * h 1)) (V3 1 i 0) /\
  J 1 e_dx e_dxp e_dxt (e_B h 1) (e_dB 1) nil true false p (unk a i g) 1%nat = V3 0 (- (1 + h 1 * h 1) * a) 0 /\ J 1 e_dx e_dxp e_dxt (e_B h 1) (e_dB 1) nil true false p (unk a i g) 2%nat = V3 1 (h 1) 0.
Proof.
  split; [|split].
  - change (J 1 e_dx e_dxp e_dxt (e_B h 1) (e_dB 1) nil true false p (unk a i g) 0%nat) with (py_drtil false g (V3 1 (h 1) 0) (vecmat v0 mat0) (BoozSurf.tang 1 e_dxp e_dxt p (unk a i g)) (add3 (V3 1 0 0) (scal3 i (V3 0 1 0)))).
    rewrite vecmat_mat0. generalize (BoozSurf.tang 1 e_dxp e_dxt p (unk a i g)). intros u. unfold py_drtil, py_dw, py_w, py_dres, residual. apply v3_eq; vu; ring.
  - change (J 1 e_dx e_dxp e_dxt (e_B h 1) (e_dB 1) nil true false p (unk a i g) 1%nat) with (scal3 1 (dres_iota (V3 1 (h 1) 0) (Xt 1 e_dxt p (unk a i g)))).
    unfold Xt, sumv, sum_to, e_dxt, dres_iota. cbn [seq map rsuml fold_right unk vx vy vz scal3]. apply v3_eq; vu; ring.
  - change (J 1 e_dx e_dxp e_dxt (e_B h 1) (e_dB 1) nil true false p (unk a i g) 2%nat) with (scal3 1 (V3 1 (h 1) 0)). apply v3_eq; vu; ring.
Qed.

(** ** The exact solver: the first two components of the residual and the label a = 1; field (1, s, 0), solution a = 1, iota = s *)
Definition x1 (s : R) : nat -> R := unk 1 s (1 + s * s).
Definition v1 : nat -> R := unk 0 1 2.
Definition m1 (q : nat) : bool := (q <? 2)%nat.
Definition L1 : mat := fun i j => match i, j with 0%nat, 0%nat => 1 | 1%nat, 0%nat => 1 | 1%nat, 1%nat => 1 | 2%nat, 0%nat => - / 2 | 2%nat, 2%nat => 1 | _, _ => 0 end.
Definition U1 : mat := fun i j => match i, j with 0%nat, 0%nat => -2 | 0%nat, 2%nat => 1 | 1%nat, 1%nat => -2 | 2%nat, 2%nat => / 2 | _, _ => 0 end.
Definition e_lab (c : R -> R) (s : R) (y : nat -> R) : R := y 0%nat - c s.
Definition e_dlab (s : R) (y : nat -> R) (m : nat) : R := 1.
Lemma e_label n1 ok c c' t : D c t c' -> label_ok (S n1) ok t (e_lab c) (fun y m => if (m =? 0)%nat then 1 else 0) (fun _ => - c').
Proof.
  intros DC x v Hx _. unfold e_lab. eapply D_val; [|apply D_sub; [apply (Hx 0%nat); lia|exact DC]].
  assert (E : sum_to (S n1) (fun m => v m * (if (m =? 0)%nat then 1 else 0)) = v 0%nat).
  { clear. induction n1 as [|k IH]; [unfold sum_to; cbn; ring|]. rewrite sum_to_S', IH. cbn [Nat.eqb]. ring. }
  rewrite E. ring.
Qed.
Lemma e_label1 ok c c' t : D c t c' -> label_ok 1 ok t (e_lab c) (e_dlab t) (fun _ => - c').
Proof. intros DC x v Hx _. unfold e_lab, e_dlab. eapply D_val; [|apply D_sub; [apply (Hx 0%nat); lia|exact DC]]. unfold sum_to. cbn. ring. Qed.
Lemma D_sq t : D (fun s => s * s) t (2 * t). Proof. eapply D_val; [|apply D_mul; apply D_id]. cbv beta. ring. Qed.
Example C116_ex :
  exact_size 1 true m1 = N 1 true /\ plu 3 I3 L1 U1 /\
  (forall i m, (i < 3)%nat -> (m < 3)%nat -> exact_row 1 1 e_dx e_dxp e_dxt (e_B (fun s => s) 1) (e_dB 1) nil true (e_dlab 1) m1 (x1 1) i m = mm 3 (mm 3 I3 L1) U1 i m) /\
  (forall i s, (i < 3)%nat -> exact_eq 1 1 e_dx e_dxp e_dxt (e_B (fun s => s) s) nil true (e_lab (fun _ => 0) s) 1 m1 (x1 s) i = 0) /\
  (forall m, (m < 3)%nat -> D (fun s => x1 s m) 1 (v1 m)) /\
  exists vp ll, exact_vjp 1 1 e_dx e_dxp e_dxt (e_B (fun s => s) 1) nil true m1 (forward_backward 3 I3 L1 U1 (iotas_dJ_ds 1 true) false) 3 (x1 1) = Some (vp, ll) /\
    D (fun s => iota_of 1 (x1 s)) 1 (0 - (dot3 (vp 0%nat) (V3 0 1 0) + ll * 0)).
Proof.
  assert (A1 : exact_size 1 true m1 = N 1 true) by reflexivity.
  assert (A2 : plu 3 I3 L1 U1).
  { split; [apply I3_orth|split; [|split; [|split]]].
    - intros i j I. destruct i as [|[|i]]; destruct j as [|[|[|j]]]; try lia; try reflexivity; destruct i as [|i]; try lia; reflexivity.
    - intros i I. destruct i as [|[|[|]]]; try lia; cbn; lra.
    - intros i j I. destruct i as [|[|[|i]]]; destruct j as [|[|[|j]]]; try lia; try reflexivity.
    - intros i I. destruct i as [|[|[|]]]; try lia; cbn; lra. }
  assert (A3 : forall i m, (i < 3)%nat -> (m < 3)%nat -> exact_row 1 1 e_dx e_dxp e_dxt (e_B (fun s => s) 1) (e_dB 1) nil true (e_dlab 1) m1 (x1 1) i m = mm 3 (mm 3 I3 L1) U1 i m).
  { intros i m I M. unfold x1. destruct (e_J (fun s => s) 0 1 1 (1 + 1 * 1)) as (J0 & J1 & J2).
    destruct i as [|[|[|]]]; try lia; destruct m as [|[|[|]]]; try lia;
    match goal with
    | |- exact_row _ _ _ _ _ _ _ _ _ _ _ _ 0%nat ?m = _ => change (vx (J 1 e_dx e_dxp e_dxt (e_B (fun s => s) 1) (e_dB 1) nil true false 0 (unk 1 1 (1 + 1 * 1)) m) = mm 3 (mm 3 I3 L1) U1 0%nat m)
    | |- exact_row _ _ _ _ _ _ _ _ _ _ _ _ 1%nat ?m = _ => change (vy (J 1 e_dx e_dxp e_dxt (e_B (fun s => s) 1) (e_dB 1) nil true false 0 (unk 1 1 (1 + 1 * 1)) m) = mm 3 (mm 3 I3 L1) U1 1%nat m)
    | |- exact_row _ _ _ _ _ _ _ _ _ _ _ _ 2%nat ?m = _ => change (dl 1 (e_dlab 1) (unk 1 1 (1 + 1 * 1)) m = mm 3 (mm 3 I3 L1) U1 2%nat m) end;
    rewrite ?J0, ?J1, ?J2; unfold mm, sum_to, I3, L1, U1, dl, e_dlab, Nat.ltb; cbn; lra. }
  assert (A4 : forall i s, (i < 3)%nat -> exact_eq 1 1 e_dx e_dxp e_dxt (e_B (fun s => s) s) nil true (e_lab (fun _ => 0) s) 1 m1 (x1 s) i = 0).
  { intros i s I. assert (E : residual (G_of 1 nil true (x1 s)) (bx 1 e_dx (e_B (fun s => s) s) 0 (x1 s)) (BoozSurf.tang 1 e_dxp e_dxt 0 (x1 s)) = v0).
    { pose proof (e_res (fun s => s) s 1 s (1 + s * s) false) as E. unfold r, py_w in E. fold (x1 s) in E. rewrite <- E by ring. generalize (residual (G_of 1 nil true (x1 s)) (bx 1 e_dx (e_B (fun s0 => s0) s) 0 (x1 s)) (BoozSurf.tang 1 e_dxp e_dxt 0 (x1 s))). intros u. apply v3_eq; vu; ring. }
    destruct i as [|[|[|]]]; try lia.
    - transitivity (vx (residual (G_of 1 nil true (x1 s)) (bx 1 e_dx (e_B (fun s => s) s) 0 (x1 s)) (BoozSurf.tang 1 e_dxp e_dxt 0 (x1 s)))); [reflexivity|now rewrite E].
    - transitivity (vy (residual (G_of 1 nil true (x1 s)) (bx 1 e_dx (e_B (fun s => s) s) 0 (x1 s)) (BoozSurf.tang 1 e_dxp e_dxt 0 (x1 s)))); [reflexivity|now rewrite E].
    - transitivity (e_lab (fun _ => 0) s (x1 s) - 1); [reflexivity|]. unfold e_lab, x1. cbn [unk]. ring. }
  assert (A5 : forall m, (m < 3)%nat -> D (fun s => x1 s m) 1 (v1 m)).
  { intros m M. destruct m as [|[|[|]]]; try lia; unfold x1, v1, unk; [apply D_const|apply D_id|]. eapply D_val; [|apply D_add; [apply D_const|apply D_sq]]. ring. }
  split; [exact A1|split; [exact A2|split; [exact A3|split; [exact A4|split; [exact A5|]]]]].
  destruct (e_family (fun s => s) 1 1 (D_id 1)) as [F1 F2].
  assert (LB : label_ok 1 (all_ok 1 e_dx (e_B (fun s => s) 1) (fun _ => True) 1) 1 (e_lab (fun _ => 0)) (e_dlab 1) (fun _ => 0)).
  { intros x v Hx O. eapply D_val; [|apply (e_label1 _ (fun _ => 0) 0 1 (D_const _ _) x v Hx O)]. ring. }
  destruct (C116_exact_gradient 1 1 e_dx e_dxp e_dxt 1 (e_B (fun s => s)) e_dB e_d2B (e_Bc 1) e_dBc nil true (fun _ => True) (e_lab (fun _ => 0)) e_dlab (fun _ => 0) 1 F1 F2 LB x1 v1 A5 (e_ok _ _ _) m1 I3 L1 U1 _ (iotas_dJ_ds 1 true) 0 A1 A2 A3
    (ex_intro _ 1 (conj Rlt_0_1 (fun i s LI _ => A4 i s LI))) (C116_iotas 1 e_dxp e_dxt true 1 x1 v1 A5)) as (vp & ll & E & DD).
  exists vp, ll. split; [exact E|]. eapply D_val; [|exact DD]. unfold sum_to, e_Bc. cbn [seq map rsuml fold_right]. ring.
Qed.

(** ** The least squares solver.  The label a - c(s) has target 0; its direct dependence on the coils is - c' *)
Definition L2 : mat := fun i j => match i, j with 0%nat, 0%nat => 1 | 1%nat, 1%nat => 1 | 2%nat, 2%nat => 1 | 1%nat, 0%nat => 4 / 11 | 2%nat, 0%nat => - (4 / 11) | 2%nat, 1%nat => - (3 / 14) | _, _ => 0 end.
Definition U2 : mat := fun i j => match i, j with 0%nat, 0%nat => 11 / 3 | 0%nat, 1%nat => 4 / 3 | 0%nat, 2%nat => - (4 / 3) | 1%nat, 1%nat => 28 / 33 | 1%nat, 2%nat => - (6 / 33) | 2%nat, 2%nat => / 7 | _, _ => 0 end.
Lemma plu2 : plu 3 I3 L2 U2.
Proof.
  split; [apply I3_orth|split; [|split; [|split]]].
  - intros i j I. destruct i as [|[|i]]; destruct j as [|[|[|j]]]; try lia; try reflexivity; destruct i as [|i]; try lia; reflexivity.
  - intros i I. destruct i as [|[|[|]]]; try lia; cbn; lra.
  - intros i j I. destruct i as [|[|[|i]]]; destruct j as [|[|[|j]]]; try lia; try reflexivity.
  - intros i I. destruct i as [|[|[|]]]; try lia; cbn; lra.
Qed.
Lemma kk3 : / sqrt (num_res 1) * / sqrt (num_res 1) = / 3.
Proof. unfold num_res. replace (INR (3 * 1)) with 3 by (cbn; lra). rewrite <- Rinv_mult. f_equal. apply sqrt_sqrt. lra. Qed.
Notation e_dval h s c := (dval 1 1 e_dx e_dxp e_dxt (e_B h s) (e_dB s) nil true false (e_lab c s) (e_dlab s) 0 1).
Notation e_hess h c := (d2val 1 1 e_dx e_dxp e_dxt (e_B h 1) (e_dB 1) e_d2B nil true false (e_lab c 1) (e_dlab 1) (fun _ _ _ => 0) 0 1).
Lemma dot_v0 k a : dot3 (scal3 k v0) a = 0. Proof. vu. ring. Qed.
Lemma e_zz y : zz 1 e_dx y = 0. Proof. unfold zz, X, e_dx, sumv, sum_to. cbn. ring. Qed.
Lemma e_stat h s c a i g m : a * i = h s * a -> g = (1 + h s * h s) * a -> a = c s -> e_dval h s c (unk a i g) m = 0.
Proof.
  intros E1 E2 E3. unfold dval, rn. rewrite e_zz. unfold sum_to. cbn [seq map rsuml fold_right]. rewrite (e_res h s a i g false E1 E2), dot_v0. unfold e_lab. cbn [unk]. rewrite E3. ring.
Qed.
Lemma e_hessian h c i m : h 1 = 1 -> c 1 = 1 -> (i < 3)%nat -> (m < 3)%nat -> e_hess h c (unk 1 1 2) i m = mm 3 (mm 3 I3 L2) U2 i m.
Proof.
  intros H1 C1 LI LM. unfold d2val, rn. rewrite e_zz. unfold sum_to at 1 2. cbn [seq map rsuml fold_right]. rewrite (e_res h 1 1 1 2 false) by (rewrite H1; ring). rewrite dot_v0, dot_scal2, kk3, sqrt_1.
  unfold e_lab. cbn [unk]. rewrite C1. assert (DZ : forall q, drz 1 e_dx q = 0) by (intros q; unfold drz, e_dx; destruct (q <? 1)%nat; reflexivity). rewrite !DZ.
  destruct (e_J h 0 1 1 2) as (J0 & J1 & J2). rewrite H1 in J0, J1, J2.
  destruct i as [|[|[|]]]; try lia; destruct m as [|[|[|]]]; try lia; rewrite ?J0, ?J1, ?J2; unfold mm, sum_to, I3, L2, U2, dl, d2l, e_dlab, Nat.ltb; cbn; unfold dot3; cbn; field.
Qed.
(** the hypotheses of C117_surface_label: field (1, s, 0), label a - 1; iota = s *)
Example C117_ex : (forall i m, (i < 3)%nat -> (m < 3)%nat -> e_hess (fun s => s) (fun _ => 1) (x1 1) i m = mm 3 (mm 3 I3 L2) U2 i m) /\
  (forall i s, (i < 3)%nat -> e_dval (fun s => s) s (fun _ => 1) (x1 s) i = 0) /\ (forall m, (m < 3)%nat -> D (fun s => x1 s m) 1 (v1 m)).
Proof.
  split; [|split].
  - intros i m I M. unfold x1. replace (1 + 1 * 1) with 2 by ring. apply e_hessian; auto.
  - intros i s I. unfold x1. apply e_stat; ring.
  - intros m M. destruct m as [|[|[|]]]; try lia; unfold x1, v1, unk; [apply D_const|apply D_id|]. eapply D_val; [|apply D_add; [apply D_const|apply D_sq]]. ring.
Qed.
(** a label that depends on the coils: there are a field, a label and coils moving so that the surface keeps minimising the penalty
    objective, with the first dof of the surface moving at rate 1, while the gradient assembled from the vjp is 0 *)
Theorem C117_label_gradient_wrong : exists (n np : nat) (dx dxp dxt : nat -> nat -> vec3) (t0 : R) (B : R -> vec3 -> vec3) (dB : R -> vec3 -> mat3) (d2B : vec3 -> nat -> mat3) (Bc : vec3 -> vec3) (dBc : vec3 -> mat3)
  (lab : R -> (nat -> R) -> R) (dlab : R -> (nat -> R) -> nat -> R) (labc : (nat -> R) -> R) (x : R -> nat -> R) (v : nat -> R) (P L U : mat),
  let NN := N n true in let ok := all_ok n dx (B t0) (fun _ => True) np in let adj := forward_backward NN P L U (major_dJ_ds n (fun m => if (m =? 0)%nat then 1 else 0)) false in
  field_ok (fun _ => True) (B t0) (dB t0) d2B /\ family_ok (fun _ => True) t0 B dB d2B Bc dBc /\ label_ok n ok t0 lab (dlab t0) labc /\
  (forall m, (m < NN)%nat -> D (fun s => x s m) t0 (v m)) /\ ok (x t0) /\ plu NN P L U /\
  (forall i m, (i < NN)%nat -> (m < NN)%nat -> d2val n np dx dxp dxt (B t0) (dB t0) d2B nil true false (lab t0) (dlab t0) (fun _ _ _ => 0) 0 1 (x t0) i m = mm NN (mm NN P L) U i m) /\
  (forall i s, (i < NN)%nat -> dval n np dx dxp dxt (B s) (dB s) nil true false (lab s) (dlab s) 0 1 (x s) i = 0) /\
  D (fun s => x s 0%nat) t0 1 /\
  0 - sum_to np (fun p => dot3 (ls_vjp_B n np dx dxp dxt (B t0) (dB t0) nil true false adj p (x t0)) (Bc (X n dx p (x t0))) +
    (dot3 (vjp_v3 n np dx dxp dxt (B t0) nil true false adj p (x t0) 0) (row0 (dBc (X n dx p (x t0)))) + dot3 (vjp_v3 n np dx dxp dxt (B t0) nil true false adj p (x t0) 1) (row1 (dBc (X n dx p (x t0)))) + dot3 (vjp_v3 n np dx dxp dxt (B t0) nil true false adj p (x t0) 2) (row2 (dBc (X n dx p (x t0)))))) = 0.
Proof.
  exists 1%nat, 1%nat, e_dx, e_dxp, e_dxt, 1, (e_B (fun _ => 1)), e_dB, e_d2B, (e_Bc 0), e_dBc, (e_lab (fun s => s)), e_dlab, (fun _ => - (1)), (fun s => unk s 1 (2 * s)), (unk 1 0 2), I3, L2, U2.
  cbv zeta. destruct (e_family (fun _ => 1) 0 1 (D_const _ _)) as [F1 F2].
  split; [exact F1|split; [exact F2|split; [apply e_label1, D_id|split; [|split; [apply e_ok|split; [exact plu2|split; [|split; [|split; [exact (D_id 1)|]]]]]]]]].
  - intros m M. change (N 1 true) with 3%nat in M. destruct m as [|[|[|]]]; try lia; cbn [unk]; [apply D_id|apply D_const|]. eapply D_val; [|apply D_mul; [apply D_const|apply D_id]]. cbv beta; ring.
  - intros i m I M. replace (2 * 1) with 2 by ring. apply e_hessian; auto.
  - intros i s I. apply e_stat; ring.
  - unfold sum_to, e_Bc, e_dBc, mat0. cbn [seq map rsuml fold_right row0 row1 row2]. vu. ring.
Qed.
