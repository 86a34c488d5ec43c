(** Real vectors as lists: the numpy operations used by the models (elementwise arithmetic, dot). *)
From Coq Require Export Reals Lra.
From Verif Require Export ListAux.
Open Scope nat_scope.

Fixpoint vmap2 {A B C} (op : A -> B -> C) (u : list A) (v : list B) : list C :=
  match u, v with
  | a :: u', b :: v' => op a b :: vmap2 op u' v'
  | _, _ => []
  end.
Definition vadd := vmap2 Rplus.
Definition vsub := vmap2 Rminus.
Definition vscale (c : R) (u : list R) := map (fun a => (c * a)%R) u.
Definition vneg (u : list R) := map Ropp u.
Definition zeros (n : nat) : list R := repeat 0%R n.
Fixpoint rsuml (l : list R) : R := match l with [] => 0%R | a :: r => (a + rsuml r)%R end.
Definition dot (u v : list R) : R := rsuml (vmap2 Rmult u v).

Lemma vmap2_length {A B C} (op : A -> B -> C) u : forall v, length (vmap2 op u v) = Nat.min (length u) (length v).
Proof. induction u as [|a u IH]; intros [|b v]; cbn; auto. Qed.
Lemma vadd_length u v n : length u = n -> length v = n -> length (vadd u v) = n.
Proof. intros. unfold vadd. rewrite vmap2_length. lia. Qed.
Lemma vsub_length u v n : length u = n -> length v = n -> length (vsub u v) = n.
Proof. intros. unfold vsub. rewrite vmap2_length. lia. Qed.
Lemma vscale_length c u : length (vscale c u) = length u. Proof. apply map_length. Qed.
Lemma vneg_length u : length (vneg u) = length u. Proof. apply map_length. Qed.
Lemma zeros_length n : length (zeros n) = n. Proof. apply repeat_length. Qed.

Lemma vmap2_nth_error {A B C} (op : A -> B -> C) u : forall v i,
  nth_error (vmap2 op u v) i = match nth_error u i, nth_error v i with Some a, Some b => Some (op a b) | _, _ => None end.
Proof.
  induction u as [|a u IH]; intros [|b v] [|i]; cbn; auto.
  - now destruct (nth_error u i).
Qed.
Lemma vmap2_nth {A B C} (op : A -> B -> C) da db dc u : forall v i, i < length u -> i < length v ->
  nth i (vmap2 op u v) dc = op (nth i u da) (nth i v db).
Proof. induction u as [|a u IH]; intros [|b v] [|i] H1 H2; cbn in *; try lia; auto. apply IH; lia. Qed.

Lemma vadd_comm u : forall v, vadd u v = vadd v u.
Proof. induction u as [|a u IH]; intros [|b v]; cbn; auto. f_equal; [apply Rplus_comm|apply IH]. Qed.
Lemma vadd_assoc u : forall v w, vadd u (vadd v w) = vadd (vadd u v) w.
Proof. induction u as [|a u IH]; intros [|b v] [|c w]; cbn; auto. f_equal; [ring|apply IH]. Qed.
Lemma vadd_zeros_r u n : length u = n -> vadd u (zeros n) = u.
Proof. intros <-. induction u; cbn; auto. f_equal; [ring|apply IHu]. Qed.
Lemma vadd_zeros_l u n : length u = n -> vadd (zeros n) u = u.
Proof. intros. rewrite vadd_comm. now apply vadd_zeros_r. Qed.
Lemma vsub_zeros_r u n : length u = n -> vsub u (zeros n) = u.
Proof. intros <-. induction u; cbn; auto. f_equal; [ring|apply IHu]. Qed.
Lemma vsub_zeros_l u n : length u = n -> vsub (zeros n) u = vneg u.
Proof. intros <-. induction u; cbn; auto. f_equal; [ring|apply IHu]. Qed.
Lemma vsub_diag u : vsub u u = zeros (length u).
Proof. induction u; cbn; auto. f_equal; [ring|apply IHu]. Qed.
Lemma vscale_vadd c u : forall v, vscale c (vadd u v) = vadd (vscale c u) (vscale c v).
Proof. induction u as [|a u IH]; intros [|b v]; cbn; auto. f_equal; [ring|apply IH]. Qed.
Lemma vscale_add c d u : vscale (c + d)%R u = vadd (vscale c u) (vscale d u).
Proof. induction u; cbn; auto. f_equal; [ring|apply IHu]. Qed.
Lemma vscale_vscale c d u : vscale c (vscale d u) = vscale (c * d)%R u.
Proof. unfold vscale. rewrite map_map. apply map_ext. intros. ring. Qed.
Lemma vscale_1 u : vscale 1 u = u.
Proof. unfold vscale. rewrite <- (map_id u) at 2. apply map_ext. intros. ring. Qed.
Lemma vscale_zeros c n : vscale c (zeros n) = zeros n.
Proof. unfold zeros. induction n; cbn; auto. f_equal; [ring|apply IHn]. Qed.
Lemma vscale_0 u : vscale 0 u = zeros (length u).
Proof. induction u; cbn; auto. f_equal; [ring|apply IHu]. Qed.
Lemma vsub_as_vadd u : forall v, vsub u v = vadd u (vscale (-1) v).
Proof. induction u as [|a u IH]; intros [|b v]; cbn; auto. f_equal; [ring|apply IH]. Qed.

Lemma rsuml_app l m : rsuml (l ++ m) = (rsuml l + rsuml m)%R.
Proof. induction l; cbn; [ring|rewrite IHl; ring]. Qed.
Lemma rsuml_perm l m : Permutation l m -> rsuml l = rsuml m.
Proof. induction 1; cbn; auto; try lra. Qed.
Lemma rsuml_map_plus {A} (f g : A -> R) l : rsuml (map (fun a => (f a + g a)%R) l) = (rsuml (map f l) + rsuml (map g l))%R.
Proof. induction l; cbn; [ring|rewrite IHl; ring]. Qed.
Lemma rsuml_map_scale {A} c (f : A -> R) l : rsuml (map (fun a => (c * f a)%R) l) = (c * rsuml (map f l))%R.
Proof. induction l; cbn; [ring|rewrite IHl; ring]. Qed.
Lemma rsuml_map_minus {A} (f g : A -> R) l : rsuml (map (fun a => (f a - g a)%R) l) = (rsuml (map f l) - rsuml (map g l))%R.
Proof. induction l; cbn; [ring|rewrite IHl; ring]. Qed.
Lemma rsuml_map_zero {A} (f : A -> R) l : (forall a, In a l -> f a = 0%R) -> rsuml (map f l) = 0%R.
Proof. induction l; cbn; intros H; auto. rewrite H, IHl; auto. ring. Qed.
Lemma rsuml_ge0 l : (forall a, In a l -> (0 <= a)%R) -> (0 <= rsuml l)%R.
Proof. induction l; cbn; intros H; [lra|]. pose proof (H a (or_introl eq_refl)). assert (0 <= rsuml l)%R by auto. lra. Qed.

Lemma dot_app u1 : forall v1 u2 v2, length u1 = length v1 -> dot (u1 ++ u2) (v1 ++ v2) = (dot u1 v1 + dot u2 v2)%R.
Proof.
  unfold dot. induction u1 as [|a u IH]; intros [|b v] u2 v2 H; cbn in *; try discriminate; [ring|].
  rewrite IH by lia. ring.
Qed.
Lemma dot_vadd_l u : forall v w, length u = length v -> dot (vadd u v) w = (dot u w + dot v w)%R.
Proof.
  unfold dot. induction u as [|a u IH]; intros [|b v] [|c w] H; cbn in *; try discriminate; try ring.
  rewrite IH by lia. ring.
Qed.
Lemma dot_vscale_l c u : forall w, dot (vscale c u) w = (c * dot u w)%R.
Proof. unfold dot. induction u as [|a u IH]; intros [|b w]; cbn; try ring. rewrite IH. ring. Qed.
Lemma dot_zeros_l n : forall w, dot (zeros n) w = 0%R.
Proof. unfold dot. induction n as [|n IH]; intros [|b w]; cbn; auto. rewrite IH. ring. Qed.
Lemma dot_zeros_r u : forall n, dot u (zeros n) = 0%R.
Proof. unfold dot. induction u as [|a u IH]; intros [|n]; cbn; auto. unfold zeros in IH. rewrite IH. ring. Qed.
Lemma dot_comm u : forall v, dot u v = dot v u.
Proof. unfold dot. induction u as [|a u IH]; intros [|b v]; cbn; auto. rewrite IH. ring. Qed.
Global Arguments vadd : simpl never.
Global Arguments vsub : simpl never.
Global Arguments vscale : simpl never.
Global Arguments vneg : simpl never.
Global Arguments zeros : simpl never.
Global Arguments dot : simpl never.
