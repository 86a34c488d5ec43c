(** C132: fields given by a scalar potential. *)
From Coq Require Import Reals Lra Lia List Bool Arith Ratan.
From Verif Require Import ListAux Vec3 BSDeriv CurveObjProps CurveDiffProps SurfDiffProps FrameProps PointsModel FieldAModel FieldAProps AxisProps ReimanProps ScalarModel.
Import ListNotations.
Open Scope R_scope.

(** ** Specification *)
(** no division by zero, no logarithm or root of a non-positive number *)
Fixpoint defined (e : expr) (r f z : R) : Prop := match e with
  | Cst _ | VR | VPhi | VZ => True
  | Add a b | Sub a b | Mul a b => defined a r f z /\ defined b r f z
  | Div a b => defined a r f z /\ defined b r f z /\ ev b r f z <> 0
  | Pow a _ | Sin a | Cos a | Exp a => defined a r f z
  | Log a | Sqrt a => defined a r f z /\ 0 < ev a r f z end.
(** the expression as a function of the position, the angle in (-pi, pi] *)
Definition at_point (e : expr) (p : vec3) : R := ev e (rad p) (atan2 (vy p) (vx p)) (vz p).
(** off the axis and off the half plane where the angle jumps, and the potential defined *)
Definition regular (e : expr) (p : vec3) : Prop := (0 < vx p \/ vy p <> 0) /\ defined e (rad p) (atan2 (vy p) (vx p)) (vz p).
(** gradient in cylindrical coordinates: (d_R, d_phi / R, d_Z) turned by phi *)
Definition gradient_of (e : expr) (p : vec3) : vec3 := let c := vx p / rad p in let s := vy p / rad p in
  V3 (at_point (diff R_ e) p * c - at_point (diff Phi_ e) p / rad p * s) (at_point (diff R_ e) p * s + at_point (diff Phi_ e) p / rad p * c) (at_point (diff Z_ e) p).
(** Laplacian in cylindrical coordinates *)
Definition laplacian (e : expr) (p : vec3) : R := at_point (diff R_ (diff R_ e)) p + at_point (diff R_ e) p / rad p + at_point (diff Phi_ (diff Phi_ e)) p / rad p ^ 2 + at_point (diff Z_ (diff Z_ e)) p.
(** size of the added terms *)
Definition added (p : vec3) : R := Rabs (atan2 (vy p) (vx p) * rad p * vz p) / 10 ^ 30.

(** ** the angle off the cut *)
Lemma atan2_y y x : 0 < y -> atan2 y x = PI / 2 - atan (x / y).
Proof.
  intros Y. unfold atan2. destruct (Rlt_dec 0 x) as [X|X].
  - replace (y / x) with (/ (x / y)) by (field; lra). apply atan_inv. apply Rmult_lt_0_compat; [exact X|now apply Rinv_0_lt_compat].
  - destruct (Rlt_dec x 0) as [X'|X'].
    + destruct (Rle_dec 0 y) as [_|]; [|lra]. assert (P : 0 < - x / y) by (apply Rmult_lt_0_compat; [lra|now apply Rinv_0_lt_compat]).
      replace (y / x) with (- / (- x / y)) by (field; lra). rewrite atan_opp, (atan_inv _ P). replace (x / y) with (- (- x / y)) by (field; lra). rewrite (atan_opp (- x / y)). field.
    + destruct (Rlt_dec 0 y) as [_|]; [|lra]. replace x with 0 by lra. replace (0 / y) with 0 by (field; lra). rewrite atan_0. ring.
Qed.
Lemma D_atan f t a : D f t a -> D (fun s => atan (f s)) t (a / (1 + f t * f t)).
Proof. intros H. replace (a / (1 + f t * f t)) with (/ (1 + f t ^ 2) * a) by (field; nra). exact (derivable_pt_lim_comp f atan t a _ H (derivable_pt_lim_atan (f t))). Qed.
Lemma D_atan2_off (X Y : R -> R) t a b : D X t a -> D Y t b -> 0 < X t \/ Y t <> 0 -> D (fun s => atan2 (Y s) (X s)) t ((X t * b - Y t * a) / (X t * X t + Y t * Y t)).
Proof.
  assert (UP : forall X Y : R -> R, forall a b, D X t a -> D Y t b -> 0 < Y t -> D (fun s => atan2 (Y s) (X s)) t ((X t * b - Y t * a) / (X t * X t + Y t * Y t))).
  { clear. intros X Y a b HX HY P. destruct (D_pos_near _ _ _ HY P) as (e & E & N). apply (D_near (fun s => PI / 2 - atan (X s / Y s))).
    - exists e. split; [exact E|]. intros s Hs. symmetry. apply atan2_y. now apply N.
    - eapply D_val; [|apply (D_sub (fun _ => PI / 2) (fun s => atan (X s / Y s))); [exact (D_const _ t)|apply (D_atan (fun s => X s / Y s)), (D_div X Y t _ _ HX HY); lra]]. cbv beta. assert (X t * X t + Y t * Y t <> 0) by nra. field; repeat split; first [exact H|lra|intro; nra]. }
  intros HX HY [P|P].
  - destruct (D_pos_near _ _ _ HX P) as (e & E & N). apply (D_near (fun s => atan (Y s / X s))).
    + exists e. split; [exact E|]. intros s Hs. specialize (N s Hs). unfold atan2. destruct (Rlt_dec 0 (X s)); [reflexivity|lra].
    + eapply D_val; [|apply (D_atan (fun s => Y s / X s)), (D_div Y X t _ _ HY HX); lra]. cbv beta. assert (X t * X t + Y t * Y t <> 0) by nra. field; repeat split; first [exact H|lra|intro; nra].
  - destruct (Rdichotomy _ _ P) as [L|G]; [|now apply UP].
    pose proof (D_opp _ _ _ HY) as HO. assert (P' : 0 < - Y t) by lra. destruct (D_pos_near _ _ _ HO P') as (e & E & N). apply (D_near (fun s => - atan2 (- Y s) (X s))).
    + exists e. split; [exact E|]. intros s Hs. specialize (N s Hs). cbv beta in N. rewrite atan2_opp by lra. ring.
    + eapply D_val; [|apply (D_opp (fun s => atan2 (- Y s) (X s))), (UP X (fun s => - Y s) a (- b)); [exact HX|exact HO|exact P']]. cbv beta. assert (X t * X t + Y t * Y t <> 0) by nra. field; repeat split; first [exact H|lra|intro; nra].
Qed.
Lemma reg_rad e p : regular e p -> 0 < rad p.
Proof. intros [[H|H] _]; apply rad_pos; [left; lra|right; exact H]. Qed.
(** ** symbolic differentiation is differentiation along every path *)
Lemma D_exp f t a : D f t a -> D (fun s => exp (f s)) t (exp (f t) * a).
Proof. intros H. exact (derivable_pt_lim_comp f exp t a _ H (derivable_pt_lim_exp (f t))). Qed.
Lemma D_ln f t a : D f t a -> 0 < f t -> D (fun s => ln (f s)) t (/ f t * a).
Proof. intros H P. exact (derivable_pt_lim_comp f ln t a _ H (derivable_pt_lim_ln (f t) P)). Qed.
Lemma D_ev (Rs Fs Zs : R -> R) t R' F' Z' e : D Rs t R' -> D Fs t F' -> D Zs t Z' -> defined e (Rs t) (Fs t) (Zs t) ->
  D (fun s => ev e (Rs s) (Fs s) (Zs s)) t (ev (diff R_ e) (Rs t) (Fs t) (Zs t) * R' + ev (diff Phi_ e) (Rs t) (Fs t) (Zs t) * F' + ev (diff Z_ e) (Rs t) (Fs t) (Zs t) * Z').
Proof.
  intros HR HF HZ. induction e as [c| | | |a IHa b IHb|a IHa b IHb|a IHa b IHb|a IHa b IHb|a IHa n|a IHa|a IHa|a IHa|a IHa|a IHa]; cbn [ev diff defined]; intros H.
  - eapply D_val; [|exact (D_const c t)]. ring.
  - eapply D_val; [|exact HR]. ring.
  - eapply D_val; [|exact HF]. ring.
  - eapply D_val; [|exact HZ]. ring.
  - eapply D_val; [|apply D_add; [now apply IHa|now apply IHb]]. ring.
  - eapply D_val; [|apply D_sub; [now apply IHa|now apply IHb]]. ring.
  - eapply D_val; [|apply (D_mul (fun s => ev a (Rs s) (Fs s) (Zs s)) (fun s => ev b (Rs s) (Fs s) (Zs s))); [now apply IHa|now apply IHb]]. cbv beta. ring.
  - eapply D_val; [|apply (D_div (fun s => ev a (Rs s) (Fs s) (Zs s)) (fun s => ev b (Rs s) (Fs s) (Zs s))); [now apply IHa|now apply IHb|apply H]]. cbv beta. destruct H as (_ & _ & H). field. exact H.
  - destruct n as [|n].
    + cbn [pow ev]. eapply D_val; [|exact (D_const 1 t)]. ring.
    + eapply D_val; [|apply (D_pow (fun s => ev a (Rs s) (Fs s) (Zs s))), IHa, H]. cbn [ev]. cbv beta. ring.
  - eapply D_val; [|apply (D_sin_path (fun s => ev a (Rs s) (Fs s) (Zs s))), IHa, H]. cbv beta. ring.
  - eapply D_val; [|apply (D_cos_path (fun s => ev a (Rs s) (Fs s) (Zs s))), IHa, H]. cbv beta. ring.
  - eapply D_val; [|apply (D_exp (fun s => ev a (Rs s) (Fs s) (Zs s))), IHa, H]. cbv beta. ring.
  - destruct H as (H & P). eapply D_val; [|apply (D_ln (fun s => ev a (Rs s) (Fs s) (Zs s))); [apply IHa, H|exact P]]. cbv beta. field. lra.
  - destruct H as (H & P). pose proof (sqrt_lt_R0 _ P) as Q. eapply D_val; [|apply (D_sqrt (fun s => ev a (Rs s) (Fs s) (Zs s))); [apply IHa, H|exact P]]. cbv beta. field. lra.
Qed.
Lemma def_diff v e r f z : defined e r f z -> defined (diff v e) r f z.
Proof.
  induction e as [c| | | |a IHa b IHb|a IHa b IHb|a IHa b IHb|a IHa b IHb|a IHa n|a IHa|a IHa|a IHa|a IHa|a IHa]; cbn [diff defined]; try tauto.
  - intros (A & B & N). cbn [ev]. split; [tauto|]. split; [tauto|]. now apply Rmult_integral_contrapositive_currified.
  - intros A. destruct n; cbn [defined]; tauto.
  - intros (A & P). cbn [ev]. split; [tauto|]. split; [tauto|lra].
  - intros (A & P). pose proof (sqrt_lt_R0 _ P) as Q. cbn [ev defined]. split; [tauto|]. split; [tauto|]. apply Rmult_integral_contrapositive_currified; lra.
Qed.
Lemma diff_comm u v e r f z : defined e r f z -> ev (diff u (diff v e)) r f z = ev (diff v (diff u e)) r f z.
Proof.
  induction e as [c| | | |a IHa b IHb|a IHa b IHb|a IHa b IHb|a IHa b IHb|a IHa n|a IHa|a IHa|a IHa|a IHa|a IHa]; cbn [diff defined ev]; intros H; try reflexivity.
  - rewrite IHa, IHb by tauto. reflexivity.
  - rewrite IHa, IHb by tauto. reflexivity.
  - rewrite IHa, IHb by tauto. ring.
  - destruct H as (A & B & N). rewrite IHa, IHb by assumption. field. exact N.
  - destruct n as [|[|n]]; cbn [diff ev pow]; [reflexivity| |]; rewrite IHa by exact H; ring.
  - rewrite IHa by exact H. ring.
  - rewrite IHa by exact H. ring.
  - rewrite IHa by exact H. ring.
  - destruct H as (A & P). rewrite IHa by exact A. field. lra.
  - destruct H as (A & P). pose proof (sqrt_lt_R0 _ P). rewrite IHa by exact A. field. lra.
Qed.
(** the cylindrical coordinates along a coordinate line *)
Lemma at_gradient e p j : regular e p -> (j < 3)%nat -> D (fun s => at_point e (along p j s)) 0
  (at_point (diff R_ e) p * ((vx p * vx (unit3 j) + vy p * vy (unit3 j)) / rad p) + at_point (diff Phi_ e) p * ((vx p * vy (unit3 j) - vy p * vx (unit3 j)) / rad p ^ 2) + at_point (diff Z_ e) p * vz (unit3 j)).
Proof.
  intros H J. pose proof (reg_rad e p H) as P. pose proof (rad_sq p) as Q. destruct H as (O & H). unfold at_point.
  assert (X : D (fun s => vx (along p j s)) 0 (vx (unit3 j))) by (cbn; eapply D_val; [|dd]; ring).
  assert (Y : D (fun s => vy (along p j s)) 0 (vy (unit3 j))) by (cbn; eapply D_val; [|dd]; ring).
  assert (Z : D (fun s => vz (along p j s)) 0 (vz (unit3 j))) by (cbn; eapply D_val; [|dd]; ring).
  assert (A0 : along p j 0 = p) by (rewrite along_c; destruct p; cbn; apply v3_eq; cbn; ring).
  assert (RR : D (fun s => rad (along p j s)) 0 ((vx p * vx (unit3 j) + vy p * vy (unit3 j)) / rad p)).
  { apply (D_ext (fun s => sqrt (vx (along p j s) * vx (along p j s) + vy (along p j s) * vy (along p j s)))); [intros s; unfold rad; f_equal; ring|]. eapply D_val; [|apply (D_sqrt (fun s => vx (along p j s) * vx (along p j s) + vy (along p j s) * vy (along p j s)))].
    2: { apply (D_add (fun s => vx (along p j s) * vx (along p j s)) (fun s => vy (along p j s) * vy (along p j s))); [apply (D_mul (fun s => vx (along p j s)) (fun s => vx (along p j s)))|apply (D_mul (fun s => vy (along p j s)) (fun s => vy (along p j s)))]; eassumption. }
    - cbv beta. rewrite A0. replace (sqrt (vx p * vx p + vy p * vy p)) with (rad p) by (unfold rad; f_equal; ring). field. lra.
    - cbv beta. rewrite A0. nra. }
  assert (FF : D (fun s => atan2 (vy (along p j s)) (vx (along p j s))) 0 ((vx p * vy (unit3 j) - vy p * vx (unit3 j)) / rad p ^ 2)).
  { eapply D_val; [|apply (D_atan2_off (fun s => vx (along p j s)) (fun s => vy (along p j s)) _ _ _ X Y)]; cbv beta; rewrite A0; [|exact O]. replace (vx p * vx p + vy p * vy p) with (rad p ^ 2) by (replace (rad p ^ 2) with (rad p * rad p) by ring; rewrite Q; ring). reflexivity. }
  pose proof (D_ev (fun s => rad (along p j s)) (fun s => atan2 (vy (along p j s)) (vx (along p j s))) (fun s => vz (along p j s)) 0 _ _ _ e RR FF Z) as K. cbv beta in K. rewrite A0 in K. exact (K H).
Qed.
(** the components of the gradient are expressions *)
Definition comp (e : expr) (l : nat) : expr := nth l [Sub (Mul (diff R_ e) (Cos VPhi)) (Mul (Div (diff Phi_ e) VR) (Sin VPhi)); Add (Mul (diff R_ e) (Sin VPhi)) (Mul (Div (diff Phi_ e) VR) (Cos VPhi)); diff Z_ e] (Cst 0).
Lemma comp_at e p l : off_axis p -> (l < 3)%nat -> coord (gradient_of e p) l = at_point (comp e l) p.
Proof.
  intros O L. destruct (phi_cs p O) as (C & S). unfold gradient_of, at_point. cases3 l L; cbn [coord comp nth ev]; rewrite ?C, ?S; reflexivity.
Qed.
Lemma def_comp e p l : regular e p -> (l < 3)%nat -> regular (comp e l) p.
Proof.
  intros H L. pose proof (reg_rad e p H) as P. destruct H as (O & H). split; [exact O|]. pose proof (def_diff R_ e _ _ _ H). pose proof (def_diff Phi_ e _ _ _ H). pose proof (def_diff Z_ e _ _ _ H).
  cases3 l L; cbn [comp nth defined ev]; try assumption; repeat split; try assumption; apply Rgt_not_eq; exact P.
Qed.
Lemma reg_off e p : regular e p -> off_axis p.
Proof. intros [[H|H] _]; [left; lra|right; exact H]. Qed.
(** derivative j of component l *)
Definition hess (e : expr) (p : vec3) (j l : nat) : R :=
  at_point (diff R_ (comp e l)) p * ((vx p * vx (unit3 j) + vy p * vy (unit3 j)) / rad p) + at_point (diff Phi_ (comp e l)) p * ((vx p * vy (unit3 j) - vy p * vx (unit3 j)) / rad p ^ 2) + at_point (diff Z_ (comp e l)) p * vz (unit3 j).
Lemma hess_gradient e p : regular e p -> is_gradient (gradient_of e) p (hess e p).
Proof.
  intros H. apply (gradient_near _ (fun q => V3 (at_point (comp e 0) q) (at_point (comp e 1) q) (at_point (comp e 2) q))); [now apply (reg_off e)| |].
  - intros q O. apply v3_eq; cbn [vx vy vz]; [apply (comp_at e q 0)|apply (comp_at e q 1)|apply (comp_at e q 2)]; auto.
  - intros j l J L. pose proof (at_gradient (comp e l) p j (def_comp e p l H L) J) as K. cases3 l L; exact K.
Qed.
Ltac open3 := cbn [unit3 vx vy vz comp nth ev diff coord].
Lemma hess_sym e p j l : regular e p -> (j < 3)%nat -> (l < 3)%nat -> hess e p j l = hess e p l j.
Proof.
  intros H J L. pose proof (reg_rad e p H) as P. pose proof (rad_sq p) as Q. pose proof (reg_off e p H) as O. destruct (phi_cs p O) as (C & S). destruct H as (_ & H).
  pose proof (diff_comm R_ Phi_ e _ _ _ H) as C1. pose proof (diff_comm R_ Z_ e _ _ _ H) as C2. pose proof (diff_comm Phi_ Z_ e _ _ _ H) as C3.
  unfold hess, at_point. cases3 j J; cases3 l L; try reflexivity; open3; rewrite ?C, ?S, ?C1, ?C2, ?C3; field_simplify_eq; try lra; try (split; lra); 
  replace (rad p ^ 2) with (vx p ^ 2 + vy p ^ 2) by (rewrite <- Q; ring); try ring.
Qed.
Lemma hess_trace e p : regular e p -> hess e p 0 0 + hess e p 1 1 + hess e p 2 2 = laplacian e p.
Proof.
  intros H. pose proof (reg_rad e p H) as P. pose proof (rad_sq p) as Q. pose proof (reg_off e p H) as O. destruct (phi_cs p O) as (C & S). destruct H as (_ & H).
  pose proof (diff_comm R_ Phi_ e _ _ _ H) as C1. unfold hess, laplacian, at_point. open3. rewrite ?C, ?S, ?C1.
  set (r := rad p) in *. assert (X : vx p ^ 2 = r * r - vy p ^ 2) by (rewrite Q; ring). field_simplify_eq; [|lra].
  generalize (ev (diff R_ (diff R_ e)) r (atan2 (vy p) (vx p)) (vz p)) (ev (diff Phi_ (diff Phi_ e)) r (atan2 (vy p) (vx p)) (vz p)) (ev (diff R_ e) r (atan2 (vy p) (vx p)) (vz p)) (ev (diff Phi_ e) r (atan2 (vy p) (vx p)) (vz p)) (ev (diff Z_ (diff Z_ e)) r (atan2 (vy p) (vx p)) (vz p)) (ev (diff Phi_ (diff R_ e)) r (atan2 (vy p) (vx p)) (vz p)).
  intros a b c d f g. replace (vx p ^ 4) with (vx p ^ 2 * vx p ^ 2) by ring. rewrite ?X. ring.
Qed.
Definition padv (p : vec3) : R := tiny * atan2 (vy p) (vx p) * rad p * vz p.
Lemma sp_B_split e p l : off_axis p -> (l < 3)%nat -> let c := vx p / rad p in let s := vy p / rad p in
  coord (sp_B e p) l = coord (gradient_of e p) l + padv p * nth l [c - s; s + c; 1] 0.
Proof.
  intros O L c s. subst c s. pose proof (rad_pos p O) as P. destruct (phi_cs p O) as (C & S). unfold sp_B, gradient_of, padv, Blambdify, at_point. rewrite C, S.
  cases3 l L; cbn [coord vx vy vz nth ev diff pad]; field; lra.
Qed.
Lemma sp_dB_split e p j l : regular e p -> (j < 3)%nat -> (l < 3)%nat -> let r := rad p in let c := vx p / r in let s := vy p / r in
  sp_dB e p j l = hess e p j l + padv p * at2 [[c - s + (s * s + s * c) / r; s + c - (s * c - s * s) / r; 1]; [c - s - (s * c + c * c) / r; s + c + (c * c - s * c) / r; 1]; [c - s; s + c; 1]] j l.
Proof.
  intros H J L r c s. subst r c s. pose proof (reg_rad e p H) as P. pose proof (rad_sq p) as Q. pose proof (reg_off e p H) as O. destruct (phi_cs p O) as (C & S). destruct H as (_ & H).
  unfold sp_dB, hess, padv, dBlambdify_by_dX, Blambdify, at_point, at2. set (r := rad p) in *. assert (X : vx p ^ 2 = r * r - vy p ^ 2) by (rewrite Q; ring).
  cases3 j J; cases3 l L; cbn [nth]; open3; cbn [pad ev diff]; rewrite ?C, ?S; field_simplify_eq; try lra; rewrite ?X; ring.
Qed.
Lemma unit_cs p : off_axis p -> Rabs (vx p / rad p) <= 1 /\ Rabs (vy p / rad p) <= 1.
Proof. intros O. destruct (phi_cs p O) as (C & S). rewrite <- C, <- S. split; apply Rabs_le; [apply COS_bound|apply SIN_bound]. Qed.
Lemma padv_added p : Rabs (padv p) = added p.
Proof. unfold padv, added, tiny. replace (/ 10 ^ 30 * atan2 (vy p) (vx p) * rad p * vz p) with ((atan2 (vy p) (vx p) * rad p * vz p) * / 10 ^ 30) by ring. rewrite Rabs_mult, (Rabs_right (/ 10 ^ 30)); [reflexivity|]. left. apply Rinv_0_lt_compat. apply pow_lt. lra. Qed.

(** ** Theorems *)
(** the components of [gradient_of] are the derivatives of the potential along x, y and z *)
Theorem C132_gradient (e : expr) (p : vec3) (j : nat) : regular e p -> (j < 3)%nat -> D (fun s => at_point e (along p j s)) 0 (coord (gradient_of e p) j).
Proof.
  intros H J. pose proof (reg_rad e p H) as P. eapply D_val; [|apply at_gradient; assumption]. unfold gradient_of. cases3 j J; open3; field; lra.
Qed.
(** B is that gradient up to the terms added to the entries *)
Theorem C132_B (e : expr) (p : vec3) (l : nat) : off_axis p -> (l < 3)%nat -> Rabs (coord (sp_B e p) l - coord (gradient_of e p) l) <= 2 * added p.
Proof.
  intros O L. rewrite (sp_B_split e p l O L). cbv zeta. replace (coord (gradient_of e p) l + padv p * nth l [vx p / rad p - vy p / rad p; vy p / rad p + vx p / rad p; 1] 0 - coord (gradient_of e p) l) with (padv p * nth l [vx p / rad p - vy p / rad p; vy p / rad p + vx p / rad p; 1] 0) by ring.
  rewrite Rabs_mult, padv_added, Rmult_comm. destruct (unit_cs p O) as (A & B). assert (N : 0 <= added p) by (rewrite <- padv_added; apply Rabs_pos).
  apply Rmult_le_compat_r; [exact N|]. revert A B. generalize (vx p / rad p) (vy p / rad p). intros c s A B. apply Rabs_le. unfold Rabs in A, B. destruct (Rcase_abs c), (Rcase_abs s); cases3 l L; cbn [nth]; lra.
Qed.
(** dB_by_dX[j,l] is the derivative of component l of that gradient along x_j up to terms of the same size; the derivatives are symmetric and their trace is the Laplacian *)
Theorem C132_dB (e : expr) (p : vec3) : regular e p -> exists G : nat -> nat -> R, is_gradient (gradient_of e) p G /\
  (forall j l, (j < 3)%nat -> (l < 3)%nat -> G j l = G l j) /\ G 0%nat 0%nat + G 1%nat 1%nat + G 2%nat 2%nat = laplacian e p /\
  forall j l, (j < 3)%nat -> (l < 3)%nat -> Rabs (sp_dB e p j l - G j l) <= 2 * (1 + 1 / rad p) * added p.
Proof.
  intros H. exists (hess e p). split; [now apply hess_gradient|]. split; [intros j l J L; now apply hess_sym|]. split; [now apply hess_trace|].
  intros j l J L. rewrite (sp_dB_split e p j l H J L). cbv zeta. pose proof (reg_off e p H) as O. destruct (unit_cs p O) as (A & B). pose proof (rad_pos p O) as P.
  assert (N : 0 <= added p) by (rewrite <- padv_added; apply Rabs_pos). assert (I : 0 < 1 / rad p) by (unfold Rdiv; rewrite Rmult_1_l; now apply Rinv_0_lt_compat).
  match goal with |- Rabs (?a + padv p * ?w - ?a) <= _ => replace (a + padv p * w - a) with (padv p * w) by ring end. rewrite Rabs_mult, padv_added, Rmult_comm. apply Rmult_le_compat_r; [exact N|].
  assert (SQ : (vx p / rad p) * (vx p / rad p) + (vy p / rad p) * (vy p / rad p) = 1) by (pose proof (rad_sq p) as Q; transitivity ((vx p ^ 2 + vy p ^ 2) / (rad p * rad p)); [field; lra|rewrite <- Q; field; lra]).
  revert A B SQ I. change (vx p / rad p) with (Rdiv (vx p) (rad p)). generalize (vx p / rad p) (vy p / rad p). intros c s. unfold Rdiv. rewrite ?Rmult_1_l. generalize (/ rad p). intros i A B SQ I.
  assert (QQ : forall a b, a * a + b * b = 1 -> -1 <= a * a + a * b <= 2 /\ -2 <= a * b - a * a <= 1) by (intros a b E; assert (0 <= (a + b) * (a + b)) by apply Rle_0_sqr; assert (0 <= (a - b) * (a - b)) by apply Rle_0_sqr; nra).
  destruct (QQ c s SQ) as (U1 & U2). destruct (QQ s c ltac:(lra)) as (U3 & U4).
  assert (W : forall a w, -2 <= a <= 2 -> -2 <= w <= 2 -> Rabs (a + w * i) <= 2 * (1 + i)) by (intros a w Wa Ww; apply Rabs_le; nra).
  assert (Wc : forall a, -2 <= a <= 2 -> Rabs a <= 2 * (1 + i)) by (intros a Wa; apply Rabs_le; nra).
  assert (A' : -1 <= c <= 1) by (unfold Rabs in A; destruct (Rcase_abs c); lra). assert (B' : -1 <= s <= 1) by (unfold Rabs in B; destruct (Rcase_abs s); lra).
  unfold at2. cases3 j J; cases3 l L; cbn [nth]; try (apply Wc; lra).
  - apply W; lra.
  - replace (s + c - (s * c - s * s) * i) with ((s + c) + (- (s * c - s * s)) * i) by ring. apply W; lra.
  - replace (c - s - (s * c + c * c) * i) with ((c - s) + (- (s * c + c * c)) * i) by ring. apply W; lra.
  - apply W; lra.
Qed.
(** the documented example: "2*phi" gives (0, 2/R, 0) in cylindrical components, with the added terms *)
Example example_2phi p : off_axis p -> gradient_of (Mul (Cst 2) VPhi) p = scal3 (2 / rad p) (V3 (- (vy p / rad p)) (vx p / rad p) 0).
Proof. intros O. pose proof (rad_pos p O). unfold gradient_of, at_point. cbn [ev diff scal3 vx vy vz]. apply v3_eq; unfold scal3; cbn [vx vy vz]; [field; lra|field; lra|ring]. Qed.
Example example_regular : regular (Add (Mul (Cst 2) VPhi) (Div (Mul (Pow VR 2) (Sin (Mul (Cst 3) VPhi))) (Sqrt (Add VR (Pow VZ 2))))) (V3 3 4 1).
Proof.
  assert (E : rad (V3 3 4 1) = 5) by (unfold rad; cbn [vx vy]; replace (3 ^ 2 + 4 ^ 2) with (5 * 5) by ring; apply sqrt_square; lra).
  unfold regular. rewrite E. cbn [vx vy vz defined ev]. split; [left; lra|]. assert (0 < 5 + 1 ^ 2) by (cbn; lra). pose proof (sqrt_lt_R0 _ H). repeat split; lra.
Qed.
