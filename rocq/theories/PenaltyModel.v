(** Model of QuadraticPenalty, src/simsopt/objectives/utilities.py (class QuadraticPenalty: __init__, J, dJ).
    [val] is obj.J(); dJ multiplies the Derivative obj.dJ(partials=True) by the number [pen_mult] (scalar times
    Derivative is modelled in DerivModel.d_mul). *)
From Verif Require Import Vec3 BSDeriv.
From Coq Require Import String Ranalysis1.
Open Scope R_scope.
Definition pen_J (f : string) (cons val : R) : option R :=
  let diff := val - cons in
  if String.eqb f "max" then Some (0.5 * Rmax diff 0 ^ 2)
  else if String.eqb f "min" then Some (0.5 * Rmin diff 0 ^ 2)
  else if String.eqb f "identity" then Some (0.5 * diff ^ 2)
  else None.
Definition pen_mult (f : string) (cons val : R) : option R :=
  let diff := val - cons in
  if String.eqb f "max" then Some (Rmax diff 0)
  else if String.eqb f "min" then Some (Rmin diff 0)
  else if String.eqb f "identity" then Some diff
  else None.

(** ** C40 *)
(** the constraint that f stands for *)
Definition holds (f : string) (cons val : R) : Prop :=
  (f = "max"%string /\ val <= cons) \/ (f = "min"%string /\ cons <= val) \/ (f = "identity"%string /\ val = cons).
Ltac pcase f := destruct (String.eqb_spec f "max") as [->|N1]; [|destruct (String.eqb_spec f "min") as [->|N2]; [|destruct (String.eqb_spec f "identity") as [->|N3]]].
Theorem C40_value f cons val :
  (pen_J f cons val = None <-> f <> "max"%string /\ f <> "min"%string /\ f <> "identity"%string) /\ (pen_mult f cons val = None <-> pen_J f cons val = None) /\
  forall J, pen_J f cons val = Some J ->
    (f = "max"%string -> J = / 2 * Rmax (val - cons) 0 ^ 2) /\ (f = "min"%string -> J = / 2 * Rmin (val - cons) 0 ^ 2) /\ (f = "identity"%string -> J = / 2 * (val - cons) ^ 2) /\
    0 <= J /\ (J = 0 <-> holds f cons val).
Proof.
  unfold pen_J, pen_mult, holds. pcase f; (split; [split; [try discriminate; auto|intros (? & ? & ?); auto; contradiction]|]); (split; [split; auto; discriminate|]); intros J E; try discriminate; injection E as <-.
  - split; [intros _; lra|]. split; [discriminate|]. split; [discriminate|]. unfold Rmax.
    destruct (Rle_dec _ _) as [L|L]; [|apply Rnot_le_lt in L; assert (P : 0 < (val - cons) ^ 2) by nra]; (split; [nra|]); (split; [intros; left; split; auto; lra|]).
    + intros _. lra.
    + intros [[_ H]|[[H _]|[H _]]]; try discriminate. lra.
  - split; [discriminate|]. split; [intros _; lra|]. split; [discriminate|]. unfold Rmin.
    destruct (Rle_dec _ _) as [L|L]; [|apply Rnot_le_lt in L]; (split; [nra|]); (split; [intros Z; right; left; split; auto; try lra|]).
    { assert (Z2 : (val - cons) * (val - cons) = 0) by lra. apply Rmult_integral in Z2. destruct Z2; lra. }
    + intros [[H _]|[[_ H]|[H _]]]; try discriminate. assert (E : val - cons = 0) by lra. rewrite E. lra.
    + intros _. lra.
  - split; [discriminate|]. split; [discriminate|]. split; [intros _; lra|]. split; [assert (P2 := pow2_ge_0 (val - cons)); lra|]. split; [intros Z; right; right; split; auto; assert (Z2 : (val - cons) * (val - cons) = 0) by lra; apply Rmult_integral in Z2; destruct Z2; lra|].
    intros [[H _]|[[H _]|[_ ->]]]; try discriminate. ring.
Qed.
Lemma D_quad_bound h h' y : (forall e, Rabs (h (y + e) - h y - e * h') <= e ^ 2) -> D h y h'.
Proof.
  intros H eps He. exists (mkposreal eps He). intros e NE L. cbn in L.
  replace ((h (y + e) - h y) / e - h') with ((h (y + e) - h y - e * h') / e) by (field; auto).
  unfold Rdiv. rewrite Rabs_mult, Rabs_inv. assert (P : 0 < Rabs e) by now apply Rabs_pos_lt.
  apply Rmult_lt_reg_r with (Rabs e); auto. rewrite Rmult_assoc, Rinv_l, Rmult_1_r by lra. eapply Rle_lt_trans; [apply H|].
  rewrite <- (Rabs_pos_eq (e ^ 2)) by nra. rewrite <- RPow_abs. cbn. rewrite Rmult_1_r. nra.
Qed.
(** dJ is the derivative of J along every differentiable change of the objective, also where the constraint is just active *)
Theorem C40_gradient f cons (val : R -> R) t v m : D val t v -> pen_mult f cons (val t) = Some m ->
  exists J, (forall s, pen_J f cons (val s) = Some (J s)) /\ D J t (m * v).
Proof.
  intros HV HM.
  assert (H : exists h, (forall y, pen_J f cons y = Some (h (y - cons))) /\ D h (val t - cons) m).
  { unfold pen_J, pen_mult in *. pcase f; try discriminate; injection HM as <-.
    - exists (fun y => 0.5 * Rmax y 0 ^ 2). split; auto. apply D_quad_bound. intros e. generalize (val t - cons). intros y.
      apply Rabs_le. unfold Rmax. repeat destruct (Rle_dec _ _); split; nra.
    - exists (fun y => 0.5 * Rmin y 0 ^ 2). split; auto. apply D_quad_bound. intros e. generalize (val t - cons). intros y.
      apply Rabs_le. unfold Rmin. repeat destruct (Rle_dec _ _); split; nra.
    - exists (fun y => 0.5 * y ^ 2). split; auto. apply D_quad_bound. intros e. apply Rabs_le. split; nra. }
  destruct H as (h & E & HD). exists (fun s => h (val s - cons)). split; [intros; apply E|].
  apply (derivable_pt_lim_comp (fun s => val s - cons) h); [|exact HD]. eapply D_val; [|apply D_sub; [exact HV|apply D_const]]. ring.
Qed.
Example C40_example : pen_J "max" 1 3 = Some (0.5 * Rmax (3 - 1) 0 ^ 2) /\ pen_mult "max" 1 3 = Some (Rmax (3 - 1) 0) /\ pen_J "abs" 1 3 = None.
Proof. repeat split. Qed.
