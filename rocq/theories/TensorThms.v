(** C112: SurfaceXYZTensorFourier: Jacobians, derivatives, symmetries, clamping. *)
From Coq Require Import Reals Lra Lia List Bool.
From Verif Require Import VecAux Vec3 BSModel BSDeriv BSVjp SurfGeomProps CurveObjModel CurveObjProps BoozSurf BoozProps TensorModel TensorProps.
Import ListNotations.
Open Scope R_scope.

(** ** Specification *)
(** clamping is inactive, or its second derivative in phi is computed without losing a half *)
Definition even_or_free (s : tsurf) : Prop := (forall d, clamped s d = false) \/ Nat.Even (nfp s).

(** ** Jacobians *)
Lemma hat_pick s b k p t : (k < 3)%nat -> hat s b k p t = slot_sum s (fun d m n => 1 * pick d k (b d n m p t)).
Proof. intros K. rewrite slot_sum_pick by exact K. ring. Qed.
Lemma ssc s c f : slot_sum s (fun d m n => c * f d m n) = c * slot_sum s f.
Proof. unfold slot_sum. rewrite <- rsuml_map_scale. apply rsuml_map_ext. intros [[d m] n] _. ring. Qed.
Lemma slot_sum_sub s f g : slot_sum s (fun d m n => f d m n - g d m n) = slot_sum s f - slot_sum s g.
Proof. unfold slot_sum. rewrite <- rsuml_map_minus. apply rsuml_map_ext. intros [[d m] n] _. ring. Qed.
Lemma half_even k : Nat.Even k -> INR (k * k / 2) = INR k * INR k / 2 /\ INR (k * (k / 2)) = INR k * INR k / 2.
Proof.
  intros [j ->]. replace (2 * j * (2 * j))%nat with (2 * j * j * 2)%nat by lia. rewrite Nat.div_mul by lia. replace (2 * j / 2)%nat with j by (rewrite Nat.mul_comm, Nat.div_mul; lia).
  rewrite !mult_INR. cbn [INR]. lra.
Qed.
Lemma epp_eq s p : Nat.Even (nfp s) -> e_pp_direct s p = e_pp_cached s p.
Proof. intros E. unfold e_pp_direct, e_pp_cached. destruct (half_even _ E) as [-> ->]. reflexivity. Qed.
Lemma nbpp_cbpp s d n m p t : even_or_free s -> nb_pp s d n m p t = cb_pp s d n m p t.
Proof.
  intros E. unfold nb_pp, cb_pp, on. destruct (enforced s d n m) eqn:F; [|ring]. destruct E as [E|E]; [unfold enforced in F; rewrite E in F; discriminate|]. rewrite (epp_eq s p E). ring.
Qed.
Section Jac.
Variable s : tsurf.
Notation SS := (slot_sum s).
Lemma mulr c f : SS f * c = SS (fun d m n => c * f d m n). Proof. rewrite ssc. ring. Qed.
Ltac push1 := rewrite ?mulr; rewrite <- ?ssc; rewrite <- ?slot_sum_sub, <- ?slot_sum_add.
Ltac push := rewrite ?hat_0, ?hat_p, ?hat_t, ?hat_tp, ?hat_tt, ?hat_pick by lia; repeat (progress push1); apply slot_sum_ext; intros; ring.
Lemma jac_gamma q1 q2 : gamma_lin s q1 q2 = contract (get_dofs s) (dgamma_by_dcoeff s q1 q2).
Proof. unfold dgamma_by_dcoeff. rewrite contract_slots. unfold gamma_lin. apply v3_eq; cbn [vx vy vz c_gamma]; push. Qed.
Lemma gamma_is_lin q1 q2 : gamma s q1 q2 = gamma_lin s q1 q2.
Proof. unfold gamma, gamma_impl, gamma_lin. now rewrite !hat_0. Qed.
Lemma jac_1 q1 q2 : gammadash1 s q1 q2 = contract (get_dofs s) (dgammadash1_by_dcoeff s q1 q2).
Proof. unfold dgammadash1_by_dcoeff. rewrite contract_slots. unfold gammadash1. apply v3_eq; cbn [vx vy vz c_1]; push. Qed.
Lemma jac_2 q1 q2 : gammadash2 s q1 q2 = contract (get_dofs s) (dgammadash2_by_dcoeff s q1 q2).
Proof. unfold dgammadash2_by_dcoeff. rewrite contract_slots. unfold gammadash2. apply v3_eq; cbn [vx vy vz c_2]; push. Qed.
Lemma jac_12 q1 q2 : gammadash1dash2 s q1 q2 = contract (get_dofs s) (dgammadash1dash2_by_dcoeff s q1 q2).
Proof. unfold dgammadash1dash2_by_dcoeff. rewrite contract_slots. unfold gammadash1dash2. apply v3_eq; cbn [vx vy vz c_12]; push. Qed.
Lemma jac_22 q1 q2 : gammadash2dash2 s q1 q2 = contract (get_dofs s) (dgammadash2dash2_by_dcoeff s q1 q2).
Proof. unfold dgammadash2dash2_by_dcoeff. rewrite contract_slots. unfold gammadash2dash2. apply v3_eq; cbn [vx vy vz c_22]; push. Qed.
Lemma jac_11 q1 q2 : even_or_free s -> gammadash1dash1 s q1 q2 = contract (get_dofs s) (dgammadash1dash1_by_dcoeff s q1 q2).
Proof.
  intros E. unfold dgammadash1dash1_by_dcoeff. rewrite contract_slots. unfold gammadash1dash1.
  rewrite !(fun d p t => hat_ext s (cb_pp s) (nb_pp s) d p t (fun n m => eq_sym (nbpp_cbpp s d n m p t E))). apply v3_eq; cbn [vx vy vz c_11]; push.
Qed.
End Jac.
(** every surface quantity is the same linear function of the dofs, with coefficients d..._by_dcoeff *)
Theorem C112_jacobians (s : tsurf) (x : list R) (q1 q2 : R) : length x = num_dofs s ->
  let s' := set_dofs s x in
  gamma s' q1 q2 = contract x (dgamma_by_dcoeff s q1 q2) /\ gamma_lin s' q1 q2 = contract x (dgamma_by_dcoeff s q1 q2) /\
  gammadash1 s' q1 q2 = contract x (dgammadash1_by_dcoeff s q1 q2) /\ gammadash2 s' q1 q2 = contract x (dgammadash2_by_dcoeff s q1 q2) /\
  gammadash1dash2 s' q1 q2 = contract x (dgammadash1dash2_by_dcoeff s q1 q2) /\ gammadash2dash2 s' q1 q2 = contract x (dgammadash2dash2_by_dcoeff s q1 q2) /\
  (even_or_free s -> gammadash1dash1 s' q1 q2 = contract x (dgammadash1dash1_by_dcoeff s q1 q2)).
Proof.
  intros L s'. assert (G : get_dofs s' = x) by (apply C112_set_then_get; exact L).
  rewrite gamma_is_lin, (jac_gamma s'), (jac_1 s'), (jac_2 s'), (jac_12 s'), (jac_22 s'), G. repeat (split; [reflexivity|]). intros E. rewrite (jac_11 s' q1 q2 E), G. reflexivity.
Qed.

(** ** Derivatives *)
Section Deriv.
Variable s : tsurf.
Lemma Dang c q : D (fun q => c * ang q) q (2 * PI * c).
Proof. unfold ang. eapply D_val; [|apply D_mul; [apply D_const|apply D_mul; [apply D_const|apply D_id]]]. cbv beta. ring. Qed.
Lemma Dang2 c q : D (fun q => c * ang q / 2) q (PI * c).
Proof. apply (D_ext (fun q => (c / 2) * ang q)); [intros; field|]. eapply D_val; [|apply Dang]. field. Qed.
Lemma Dang0 q : D (fun q => ang q / 2) q PI.
Proof. apply (D_ext (fun q => 1 * ang q / 2)); [intros; field|]. eapply D_val; [|apply Dang2]. ring. Qed.
Ltac dv := eapply D_val; [|first [apply D_cos; apply Dang | apply D_sin; apply Dang]]; cbv beta; ring.
Lemma Dv n q : D (fun q => v s n (ang q)) q (2 * PI * v1 s n (ang q)).
Proof. unfold v, v1. destruct (n <=? ntor s)%nat; dv. Qed.
Lemma Dw m q : D (fun q => w s m (ang q)) q (2 * PI * w1 s m (ang q)).
Proof. unfold w, w1. destruct (m <=? mpol s)%nat; dv. Qed.
Ltac dv2 := eapply D_val; [|apply D_mul; [apply D_const|first [apply D_cos; apply Dang | apply D_sin; apply Dang]]]; cbv beta; ring.
Lemma Dv1 n q : D (fun q => v1 s n (ang q)) q (2 * PI * v2 s n (ang q)).
Proof. unfold v1, v2. destruct (n <=? ntor s)%nat; dv2. Qed.
Lemma Dw1 m q : D (fun q => w1 s m (ang q)) q (2 * PI * w2 s m (ang q)).
Proof. unfold w1, w2. destruct (m <=? mpol s)%nat; dv2. Qed.
Lemma De0_p t q : D (fun q => e0 s (ang q) t) q (2 * PI * e_p s (ang q)).
Proof.
  unfold e0, e_p. apply (D_ext (fun q => sin (INR (nfp s) * ang q / 2) * sin (INR (nfp s) * ang q / 2) + sin (t / 2) ^ 2)); [intros; ring|].
  eapply D_val; [|apply D_add; [apply D_mul; apply D_sin; apply Dang2|apply D_const]]. cbv beta. ring.
Qed.
Lemma De0_t p q : D (fun q => e0 s p (ang q)) q (2 * PI * e_t (ang q)).
Proof.
  unfold e0, e_t. apply (D_ext (fun q => sin (INR (nfp s) * p / 2) ^ 2 + sin (ang q / 2) * sin (ang q / 2))); [intros; ring|].
  eapply D_val; [|apply D_add; [apply D_const|apply D_mul; apply D_sin; apply Dang0]]. cbv beta. ring.
Qed.
Lemma De_p q : Nat.Even (nfp s) -> D (fun q => e_p s (ang q)) q (2 * PI * e_pp_cached s (ang q)).
Proof.
  intros E. unfold e_p, e_pp_cached. rewrite (proj2 (half_even _ E)).
  eapply D_val; [|apply D_mul; [apply D_mul; [apply D_const|apply D_cos; apply Dang2]|apply D_sin; apply Dang2]]. cbv beta. field.
Qed.
Ltac leaf := first [apply Dv|apply Dv1|apply Dw|apply Dw1|apply De0_p|apply De0_t|apply D_const].
Ltac dd := repeat first [leaf|apply D_add|apply D_mul].
Lemma Dcb_p d n m t q : D (fun q => cb s d n m (ang q) t) q (2 * PI * cb_p s d n m (ang q) t).
Proof. unfold cb, cb_p. destruct (enforced s d n m); (eapply D_val; [|dd]); cbv beta; ring. Qed.
Lemma Dcb_t d n m p q : D (fun q => cb s d n m p (ang q)) q (2 * PI * cb_t s d n m p (ang q)).
Proof. unfold cb, cb_t. destruct (enforced s d n m); (eapply D_val; [|dd]); cbv beta; ring. Qed.
Lemma Dcb_tp d n m t q : D (fun q => cb_t s d n m (ang q) t) q (2 * PI * cb_tp s d n m (ang q) t).
Proof. unfold cb_t, cb_tp. destruct (enforced s d n m); (eapply D_val; [|dd]); cbv beta; ring. Qed.
Lemma Dcb_tt d n m p q : (forall d, clamped s d = false) -> D (fun q => cb_t s d n m p (ang q)) q (2 * PI * cb_tt s d n m p (ang q)).
Proof. intros F. unfold cb_t, cb_tt, enforced. rewrite F. cbn [andb]. (eapply D_val; [|dd]); cbv beta; ring. Qed.
Lemma Dcb_pp d n m t q : even_or_free s -> D (fun q => cb_p s d n m (ang q) t) q (2 * PI * cb_pp s d n m (ang q) t).
Proof.
  intros F. unfold cb_p, cb_pp. destruct (enforced s d n m) eqn:E.
  - destruct F as [F|F]; [unfold enforced in E; rewrite F in E; discriminate|]. (eapply D_val; [|repeat first [leaf|apply De_p; exact F|apply D_add|apply D_mul]]); cbv beta; ring.
  - (eapply D_val; [|dd]); cbv beta; ring.
Qed.
Lemma Dhat_1 b b' d t q : (forall n m, D (fun q => b d n m (ang q) t) q (2 * PI * b' d n m (ang q) t)) -> D (fun q => hat s b d (ang q) t) q (2 * PI * hat s b' d (ang q) t).
Proof.
  intros H. unfold hat. rewrite <- sum_to_scal. apply sum_to_D. intros m _. rewrite <- sum_to_scal. apply sum_to_D. intros n _.
  eapply D_val; [|apply D_mul; [apply D_const|apply H]]. cbv beta. ring.
Qed.
Lemma Dhat_2 b b' d p q : (forall n m, D (fun q => b d n m p (ang q)) q (2 * PI * b' d n m p (ang q))) -> D (fun q => hat s b d p (ang q)) q (2 * PI * hat s b' d p (ang q)).
Proof.
  intros H. unfold hat. rewrite <- sum_to_scal. apply sum_to_D. intros m _. rewrite <- sum_to_scal. apply sum_to_D. intros n _.
  eapply D_val; [|apply D_mul; [apply D_const|apply H]]. cbv beta. ring.
Qed.
Lemma Dcosang q : D (fun q => cos (ang q)) q (- (2 * PI * sin (ang q))).
Proof. apply (D_ext (fun q => cos (1 * ang q))); [intros; f_equal; ring|]. eapply D_val; [|apply D_cos; apply Dang]. cbv beta. rewrite Rmult_1_l, Rmult_1_r. reflexivity. Qed.
Lemma Dsinang q : D (fun q => sin (ang q)) q (2 * PI * cos (ang q)).
Proof. apply (D_ext (fun q => sin (1 * ang q))); [intros; f_equal; ring|]. eapply D_val; [|apply D_sin; apply Dang]. cbv beta. rewrite Rmult_1_l, Rmult_1_r. reflexivity. Qed.
End Deriv.
Ltac hd := lazymatch goal with
  | |- D (fun q => cos (ang q)) _ _ => apply Dcosang
  | |- D (fun q => sin (ang q)) _ _ => apply Dsinang
  | |- D (fun q => hat _ (cb _) _ (ang q) _) _ _ => eapply Dhat_1; intros; apply Dcb_p
  | |- D (fun q => hat _ (cb _) _ _ (ang q)) _ _ => eapply Dhat_2; intros; apply Dcb_t
  | |- D (fun q => hat _ (cb_p _) _ (ang q) _) _ _ => eapply Dhat_1; intros; apply Dcb_pp; assumption
  | |- D (fun q => hat _ (cb_t _) _ (ang q) _) _ _ => eapply Dhat_1; intros; apply Dcb_tp
  | |- D (fun q => hat _ (cb_t _) _ _ (ang q)) _ _ => eapply Dhat_2; intros; apply Dcb_tt; assumption
  | |- D (fun q => @?f q + @?g q) _ _ => apply D_add; hd
  | |- D (fun q => @?f q - @?g q) _ _ => apply D_sub; hd
  | |- D (fun q => @?f q * @?g q) _ _ => apply D_mul; hd
  | _ => apply D_const
  end.
Ltac h3 := split; [|split]; cbn [vx vy vz]; (eapply D_val; [|hd]); cbv beta; ring.
(** the tangents and the mixed second derivative are the derivatives of what gamma returns, for every surface *)
Theorem C112_first_derivatives (s : tsurf) (q1 q2 : R) :
  D3 (fun u => gamma s u q2) q1 (gammadash1 s q1 q2) /\ D3 (fun u => gamma s q1 u) q2 (gammadash2 s q1 q2) /\
  D3 (fun u => gammadash2 s u q2) q1 (gammadash1dash2 s q1 q2).
Proof.
  unfold gamma, gamma_impl, gammadash1, gammadash2, gammadash1dash2. cbv zeta. split; [h3|split; h3].
Qed.
(** the second derivatives: exact when nothing is clamped; the one in phi also when nfp is even *)
Theorem C112_second_derivatives (s : tsurf) (q1 q2 : R) :
  (even_or_free s -> D3 (fun u => gammadash1 s u q2) q1 (gammadash1dash1 s q1 q2)) /\
  ((forall d, clamped s d = false) -> D3 (fun u => gammadash2 s q1 u) q2 (gammadash2dash2 s q1 q2)).
Proof.
  unfold gammadash1, gammadash2, gammadash1dash1, gammadash2dash2. cbv zeta. split; intros F; h3.
Qed.
