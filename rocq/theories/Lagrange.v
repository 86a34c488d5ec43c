(** Polynomial functions on the reals and Lagrange interpolation, used to specify the grid interpolant (C63, C64). *)
From Verif Require Import VecAux InterpModel.
From Coq Require Import Reals Lra Lia.
Open Scope R_scope.

(** [polyn n f]: f is a polynomial function of degree at most n (Horner form) *)
Fixpoint polyn (n : nat) (f : R -> R) : Prop :=
  match n with
  | 0%nat => exists c, forall x, f x = c
  | S m => exists c g, polyn m g /\ forall x, f x = c + x * g x
  end.
Lemma poly_ext n f g : (forall x, f x = g x) -> polyn n f -> polyn n g.
Proof. destruct n; intros E; [intros [c H]; exists c; intros; rewrite <- E; auto|intros (c & h & P & H); exists c, h; split; auto; intros; rewrite <- E; auto]. Qed.
Lemma poly_const n c : polyn n (fun _ => c).
Proof. revert c. induction n; intros c; [exists c; auto|]. exists c, (fun _ => 0). split; [apply IHn|intros; ring]. Qed.
Lemma poly_S n : forall f, polyn n f -> polyn (S n) f.
Proof.
  induction n; intros f.
  - intros [c H]. exists c, (fun _ => 0). split; [apply poly_const|]. intros; rewrite H; ring.
  - intros (c & g & P & H). exists c, g. auto.
Qed.
Lemma poly_mono n m f : (n <= m)%nat -> polyn n f -> polyn m f.
Proof. induction 1; auto using poly_S. Qed.
Lemma poly_id n : (0 < n)%nat -> polyn n (fun x => x).
Proof. intros H. apply (poly_mono 1); auto. exists 0, (fun _ => 1). split; [apply poly_const|intros; ring]. Qed.
Lemma poly_lin n a b : forall f g, polyn n f -> polyn n g -> polyn n (fun x => a * f x + b * g x).
Proof.
  induction n; intros f g; cbn.
  - intros [c H] [e K]. exists (a * c + b * e). intros; now rewrite H, K.
  - intros (c & f' & P & H) (e & g' & Q & K). exists (a * c + b * e), (fun x => a * f' x + b * g' x). split; [apply IHn; auto|].
    intros; rewrite H, K; ring.
Qed.
Lemma poly_plus n f g : polyn n f -> polyn n g -> polyn n (fun x => f x + g x).
Proof. intros P Q. apply (poly_ext n (fun x => 1 * f x + 1 * g x)); [intros; ring|now apply poly_lin]. Qed.
Lemma poly_scal n a f : polyn n f -> polyn n (fun x => a * f x).
Proof. intros P. apply (poly_ext n (fun x => a * f x + 0 * f x)); [intros; ring|now apply poly_lin]. Qed.
Lemma poly_root n a f : polyn n f -> polyn (S n) (fun x => f x * (x - a)).
Proof.
  intros P. apply (poly_ext _ (fun x => 1 * (x * f x) + (- a) * f x)); [intros; ring|]. apply poly_lin; [|now apply poly_S].
  exists 0, f. split; auto. intros; ring.
Qed.
Lemma poly_affine n a b : forall f, polyn n f -> polyn n (fun t => f (a + t * b)).
Proof.
  induction n; intros f.
  - intros [c H]. exists c. auto.
  - intros (c & g & P & H). apply (poly_ext _ (fun t => (c + a * g (a + t * b)) + b * (t * g (a + t * b)))); [intros; rewrite H; ring|].
    apply poly_plus; [apply poly_plus; [apply poly_const|apply poly_scal; apply poly_S; now apply IHn]|].
    apply poly_scal. exists 0, (fun t => g (a + t * b)). split; [now apply IHn|intros; ring].
Qed.
Lemma poly_factor n a : forall f, polyn (S n) f -> exists g, polyn n g /\ forall x, f x = f a + (x - a) * g x.
Proof.
  induction n; intros f (c & h & P & H).
  - destruct P as [e E]. exists (fun _ => e). split; [apply poly_const|]. intros; rewrite !H, !E; ring.
  - destruct (IHn h P) as (g & Q & G). exists (fun x => h a + x * g x). split; [exists (h a), g; auto|].
    intros x. rewrite (H x), (H a), (G x). ring.
Qed.
(** a polynomial of degree n with n+1 distinct roots is zero *)
Lemma poly_roots n : forall f (u : nat -> R), polyn n f -> (forall i j, (i <= n)%nat -> (j <= n)%nat -> u i = u j -> i = j) ->
  (forall i, (i <= n)%nat -> f (u i) = 0) -> forall x, f x = 0.
Proof.
  induction n; intros f u P I Z x.
  - destruct P as [c H]. rewrite H. rewrite <- (H (u 0%nat)). now apply Z.
  - destruct (poly_factor n (u (S n)) f P) as (g & Q & G). rewrite (G x), (Z (S n)) by lia.
    rewrite (IHn g u Q); [ring| |].
    + intros i j Hi Hj. apply I; lia.
    + intros i Hi. pose proof (G (u i)) as E. rewrite (Z i), (Z (S n)) in E by lia.
      assert (N : u i - u (S n) <> 0) by (intros N; assert (i = S n) by (apply I; [lia|lia|lra]); lia).
      apply (Rmult_eq_reg_l (u i - u (S n))); auto. lra.
Qed.
Lemma poly_agree n f g u : polyn n f -> polyn n g -> (forall i j, (i <= n)%nat -> (j <= n)%nat -> u i = u j -> i = j) ->
  (forall i, (i <= n)%nat -> f (u i) = g (u i)) -> forall x, f x = g x.
Proof.
  intros P Q I E x. assert (Z : 1 * f x + (-1) * g x = 0); [|lra].
  apply (poly_roots n (fun x => 1 * f x + (-1) * g x) u); auto; [now apply poly_lin|]. intros; rewrite E by auto; ring.
Qed.

(** sums *)
Lemma sum_n_S n f : sum_n (S n) f = sum_n n f + f n.
Proof. unfold sum_n. rewrite seq_S, fold_left_app. reflexivity. Qed.
Lemma sum_n_ext n f g : (forall i, (i < n)%nat -> f i = g i) -> sum_n n f = sum_n n g.
Proof. induction n; intros H; [reflexivity|]. rewrite !sum_n_S, IHn, H by (auto; intros; apply H; lia). reflexivity. Qed.
Lemma sum_n_0 n f : (forall i, (i < n)%nat -> f i = 0) -> sum_n n f = 0.
Proof. induction n; intros H; [reflexivity|]. rewrite sum_n_S, IHn, H by (auto; intros; apply H; lia). ring. Qed.
Lemma sum_n_one n f j : (j < n)%nat -> (forall i, (i < n)%nat -> i <> j -> f i = 0) -> sum_n n f = f j.
Proof.
  induction n; intros Hj H; [lia|]. rewrite sum_n_S. destruct (Nat.eq_dec j n) as [->|N].
  - rewrite sum_n_0; [ring|]. intros; apply H; lia.
  - rewrite IHn, (H n) by (try lia; intros; apply H; lia). ring.
Qed.
Lemma poly_sum_n m n (F : nat -> R -> R) : (forall i, (i < n)%nat -> polyn m (F i)) -> polyn m (fun x => sum_n n (fun i => F i x)).
Proof.
  induction n; intros H; [apply (poly_ext m (fun _ => 0)); [reflexivity|apply poly_const]|].
  apply (poly_ext m (fun x => sum_n n (fun i => F i x) + F n x)); [intros; now rewrite sum_n_S|]. apply poly_plus; auto.
Qed.

(** the basis functions *)
Notation prodl idx l f s := (fold_left (fun res i => if (i =? idx)%nat then res else res * f i) l s).
Lemma prodl_start idx (f : nat -> R) l : forall s, prodl idx l f s = s * prodl idx l f 1.
Proof.
  induction l as [|i l IH]; intros s; cbn [fold_left]; [ring|]. destruct (i =? idx)%nat; [apply IH|]. rewrite IH, (IH (1 * f i)). ring.
Qed.
Lemma prodl_zero idx (f : nat -> R) i l : In i l -> i <> idx -> f i = 0 -> forall s, prodl idx l f s = 0.
Proof.
  induction l as [|j l IH]; intros HI N Z s; [destruct HI|]. cbn [fold_left]. destruct HI as [->|HI].
  - rewrite (proj2 (Nat.eqb_neq i idx)) by auto. rewrite prodl_start, Z. ring.
  - destruct (j =? idx)%nat; apply IH; auto.
Qed.
Lemma prodl_inv idx (f g : nat -> R) l : (forall i, In i l -> i <> idx -> f i * g i = 1) -> prodl idx l f 1 * prodl idx l g 1 = 1.
Proof.
  induction l as [|i l IH]; intros H; cbn [fold_left]; [ring|]. destruct (Nat.eqb_spec i idx); [apply IH; intros; apply H; auto; now right|].
  rewrite prodl_start, (prodl_start idx g). pose proof (IH ltac:(intros; apply H; auto; now right)) as E.
  transitivity ((f i * g i) * (prodl idx l f 1 * prodl idx l g 1)); [ring|]. rewrite E, (H i) by (auto; now left). ring.
Qed.
Lemma prodl_poly idx (u : nat -> R) l : forall m s, polyn m s ->
  polyn (m + length (filter (fun i => negb (i =? idx)%nat) l)) (fun x => prodl idx l (fun i => x - u i) (s x)).
Proof.
  induction l as [|i l IH]; intros m s P; cbn [fold_left filter length].
  - rewrite Nat.add_0_r. auto.
  - destruct (i =? idx)%nat; cbn [negb length]; [now apply IH|]. rewrite <- plus_n_Sm. apply (IH (S m) (fun x => s x * (x - u i))). now apply poly_root.
Qed.
Lemma filter_seq_len idx n : forall s, (s <= idx < s + n)%nat -> S (length (filter (fun i => negb (i =? idx)%nat) (seq s n))) = n.
Proof.
  induction n; intros s H; [lia|]. cbn [seq filter]. destruct (Nat.eqb_spec s idx) as [->|N]; cbn [negb length].
  - f_equal. clear. assert (forall m s, (idx < s)%nat -> length (filter (fun i => negb (i =? idx)%nat) (seq s m)) = m) as L; [|apply L; lia].
    induction m; intros s H; cbn [seq filter length]; auto. rewrite (proj2 (Nat.eqb_neq s idx)) by lia. cbn. now rewrite IHm by lia.
  - now rewrite IHn by lia.
Qed.
Lemma basis_poly r idx : (idx <= degree r)%nat -> polyn (degree r) (basis_fun r idx).
Proof.
  intros H. pose proof (prodl_poly idx (nodes r) (seq 0 (degree r + 1)) 0 (fun _ => scaling r idx) ltac:(apply poly_const)) as P.
  pose proof (filter_seq_len idx (degree r + 1) 0 ltac:(lia)). refine (poly_mono _ _ _ _ P); lia.
Qed.
Lemma basis_delta r i j : (forall i j, (i <= degree r)%nat -> (j <= degree r)%nat -> nodes r i = nodes r j -> i = j) ->
  (i <= degree r)%nat -> (j <= degree r)%nat -> basis_fun r i (nodes r j) = if (i =? j)%nat then 1 else 0.
Proof.
  intros I Hi Hj. unfold basis_fun, prods. destruct (Nat.eqb_spec i j) as [->|N].
  - rewrite prodl_start. unfold scaling, prods. apply prodl_inv. intros k Hk N. apply in_seq in Hk. field.
    intros E. apply N. symmetry. apply I; [lia|lia|lra].
  - apply (prodl_zero _ _ j); auto; [apply in_seq; lia|ring].
Qed.
(** the Lagrange sum reproduces every polynomial of degree at most d *)
Theorem lagrange r p x : (forall i j, (i <= degree r)%nat -> (j <= degree r)%nat -> nodes r i = nodes r j -> i = j) ->
  polyn (degree r) p -> sum_n (degree r + 1) (fun i => p (nodes r i) * basis_fun r i x) = p x.
Proof.
  intros I P. revert x. apply (poly_agree (degree r) _ _ (nodes r)); auto.
  - apply poly_sum_n. intros i Hi. apply poly_scal, basis_poly. lia.
  - intros j Hj. rewrite (sum_n_one _ _ j).
    + rewrite basis_delta by auto. rewrite Nat.eqb_refl. ring.
    + lia.
    + intros i Hi N. rewrite basis_delta by (auto; lia). rewrite (proj2 (Nat.eqb_neq i j)) by auto. ring.
Qed.
