(** Model of forward_backward (src/simsopt/objectives/utilities.py:11-33), the adjoint solve of every Boozer surface objective, over
    the reals.  Matrices and vectors are functions of the index; only indices below n matter. *)
From Coq Require Import Reals Lra Lia List Bool.
From Verif Require Import VecAux BSModel BSDeriv CurveObjModel CurveObjProps BoozProps TensorSym.
Import ListNotations.
Open Scope R_scope.

Definition mat := nat -> nat -> R.
Definition vec := nat -> R.
Definition tr (A : mat) : mat := fun i j => A j i.
Definition mv (n : nat) (A : mat) (x : vec) : vec := fun i => sum_to n (fun j => A i j * x j).
Definition mm (n : nat) (A B : mat) : mat := fun i j => sum_to n (fun k => A i k * B k j).
(** scipy.linalg.solve_triangular(A, b, lower=True): forward substitution, reads the lower triangle only; the first k unknowns *)
Fixpoint fwd (A : mat) (b : vec) (k : nat) : list R :=
  match k with
  | 0%nat => []
  | S k => let xs := fwd A b k in xs ++ [(b k - sum_to k (fun j => A k j * nth j xs 0)) / A k k]
  end.
Definition solve_lower (n : nat) (A : mat) (b : vec) : vec := fun i => nth i (fwd A b n) 0.
(** lower=False: the same from the last unknown to the first *)
Definition solve_upper (n : nat) (A : mat) (b : vec) : vec :=
  fun i => solve_lower n (fun i j => A (n - 1 - i)%nat (n - 1 - j)%nat) (fun i => b (n - 1 - i)%nat) (n - 1 - i)%nat.
(** utilities.py:24-33 *)
Definition forward_backward (n : nat) (P L U : mat) (rhs : vec) (iterative_refinement : bool) : vec :=
  let y := solve_lower n (tr U) rhs in
  let z := solve_upper n (tr L) y in
  let adj := mv n P z in
  if iterative_refinement then
    let yp := solve_lower n (tr U) (fun i => rhs i - mv n (tr (mm n (mm n P L) U)) adj i) in
    let zp := solve_upper n (tr L) yp in
    fun i => adj i + mv n P zp i
  else adj.

(** ** Specification: what scipy.linalg.lu returns for a nonsingular matrix *)
Definition lower (n : nat) (A : mat) : Prop := forall i j, (i < j < n)%nat -> A i j = 0.
Definition upper (n : nat) (A : mat) : Prop := forall i j, (j < i < n)%nat -> A i j = 0.
Definition diag_ne0 (n : nat) (A : mat) : Prop := forall i, (i < n)%nat -> A i i <> 0.
(** P^T P = 1; every permutation matrix *)
Definition orthogonal (n : nat) (P : mat) : Prop := forall i j, (i < n)%nat -> (j < n)%nat -> sum_to n (fun k => P k i * P k j) = if Nat.eqb i j then 1 else 0.
Definition plu (n : nat) (P L U : mat) : Prop := orthogonal n P /\ lower n L /\ diag_ne0 n L /\ upper n U /\ diag_ne0 n U.

(** ** Substitution *)
Lemma fwd_length A b k : length (fwd A b k) = k.
Proof. induction k as [|k IH]; [reflexivity|]. cbn. rewrite app_length, IH. cbn. lia. Qed.
Lemma fwd_stable A b i : forall n, (i < n)%nat -> nth i (fwd A b n) 0 = nth i (fwd A b (S i)) 0.
Proof.
  induction n as [|n IH]; intros H; [lia|]. destruct (Nat.eq_dec i n) as [->|]; [reflexivity|]. cbn [fwd]. rewrite app_nth1 by (rewrite fwd_length; lia).
  rewrite IH by lia. reflexivity.
Qed.
Lemma fwd_eq A b n i : (i < n)%nat -> solve_lower n A b i = (b i - sum_to i (fun j => A i j * solve_lower n A b j)) / A i i.
Proof.
  intros H. unfold solve_lower. rewrite (fwd_stable A b i n H). cbn [fwd]. rewrite app_nth2 by (rewrite fwd_length; lia). rewrite fwd_length, Nat.sub_diag. cbn [nth]. f_equal. f_equal.
  apply sum_to_ext. intros j J. rewrite (fwd_stable A b j n) by lia. rewrite (fwd_stable A b j i) by lia. reflexivity.
Qed.
Lemma sum_cut (f : nat -> R) i n : (i < n)%nat -> (forall j, (i < j < n)%nat -> f j = 0) -> sum_to n f = sum_to i f + f i.
Proof.
  induction n as [|n IH]; intros H Z; [lia|]. rewrite sum_to_S'. destruct (Nat.eq_dec i n) as [->|]; [reflexivity|]. rewrite IH, (Z n) by (try lia; intros; apply Z; lia). ring.
Qed.
Lemma lower_solves n A b i : lower n A -> diag_ne0 n A -> (i < n)%nat -> mv n A (solve_lower n A b) i = b i.
Proof.
  intros LA DA H. unfold mv. rewrite (sum_cut _ i n H) by (intros j J; rewrite (LA i j) by lia; ring). rewrite (fwd_eq A b n i H). field. apply DA, H.
Qed.
Lemma lower_unique n A x y : lower n A -> diag_ne0 n A -> (forall i, (i < n)%nat -> mv n A x i = mv n A y i) -> forall i, (i < n)%nat -> x i = y i.
Proof.
  intros LA DA E i. induction i as [i IH] using (well_founded_induction Wf_nat.lt_wf). intros H. specialize (E i H). unfold mv in E.
  rewrite (sum_cut (fun j => A i j * x j) i n H), (sum_cut (fun j => A i j * y j) i n H) in E by (intros j J; rewrite (LA i j) by lia; ring).
  rewrite (sum_to_ext i (fun j => A i j * x j) (fun j => A i j * y j)) in E by (intros j J; rewrite IH by lia; reflexivity).
  assert (Q : A i i * x i = A i i * y i) by lra. apply Rmult_eq_reg_l in Q; [exact Q|apply DA, H].
Qed.
Lemma sum_rev n (f : nat -> R) : sum_to n (fun i => f (n - 1 - i)%nat) = sum_to n f.
Proof.
  induction n as [|n IH] in f |- *; [reflexivity|]. rewrite sum_to_S'. replace (S n - 1 - n)%nat with 0%nat by lia.
  assert (E : forall g, sum_to (S n) g = g 0%nat + sum_to n (fun i => g (S i))).
  { intros g. clear. induction n as [|n IH]; [unfold sum_to; cbn; ring|]. rewrite sum_to_S', IH, sum_to_S'. ring. }
  rewrite (E f), <- (IH (fun i => f (S i))). rewrite Rplus_comm. f_equal. apply sum_to_ext. intros i H. f_equal. lia.
Qed.
Lemma upper_solves n A b i : upper n A -> diag_ne0 n A -> (i < n)%nat -> mv n A (solve_upper n A b) i = b i.
Proof.
  intros UA DA H. unfold mv, solve_upper. set (A' := fun i j => A (n - 1 - i)%nat (n - 1 - j)%nat).
  assert (LA' : lower n A') by (intros p q Q; unfold A'; apply UA; lia). assert (DA' : diag_ne0 n A') by (intros p Q; unfold A'; apply DA; lia).
  pose proof (lower_solves n A' (fun i => b (n - 1 - i)%nat) (n - 1 - i) LA' DA' ltac:(lia)) as E. unfold mv in E. cbv beta in E. replace (n - 1 - (n - 1 - i))%nat with i in E by lia. rewrite <- E.
  rewrite <- (sum_rev n (fun j => A' (n - 1 - i)%nat j * _)). apply sum_to_ext. intros j J. unfold A'. f_equal. f_equal; lia.
Qed.
(** ** Products *)
Lemma mv_mm n A B x i : mv n (mm n A B) x i = mv n A (mv n B x) i.
Proof.
  unfold mv, mm. rewrite (sum_to_ext n (fun j => sum_to n (fun k => A i k * B k j) * x j) (fun j => sum_to n (fun k => A i k * (B k j * x j)))).
  - rewrite sum_to_swap. apply sum_to_ext. intros k _. apply sum_to_scal.
  - intros j _. rewrite Rmult_comm, <- sum_to_scal. apply sum_to_ext. intros; ring.
Qed.
Lemma mv_ext n A B x y i : (forall j, (j < n)%nat -> A i j = B i j) -> (forall j, (j < n)%nat -> x j = y j) -> mv n A x i = mv n B y i.
Proof. intros E F. unfold mv. apply sum_to_ext. intros j J. now rewrite E, F. Qed.
Lemma tr_mm n A B i j : tr (mm n A B) i j = mm n (tr B) (tr A) i j.
Proof. unfold tr, mm. apply sum_to_ext. intros; ring. Qed.
Lemma mv_tr_plu n P L U x i : (i < n)%nat -> mv n (tr (mm n (mm n P L) U)) x i = mv n (tr U) (mv n (tr L) (mv n (tr P) x)) i.
Proof.
  intros H. rewrite (mv_ext n _ (mm n (tr U) (tr (mm n P L))) x x i) by (auto; intros; apply tr_mm). rewrite mv_mm. apply mv_ext; [auto|]. intros j J.
  rewrite (mv_ext n _ (mm n (tr L) (tr P)) x x j) by (auto; intros; apply tr_mm). apply mv_mm.
Qed.
Lemma orth_mv n P z i : orthogonal n P -> (i < n)%nat -> mv n (tr P) (mv n P z) i = z i.
Proof.
  intros OP H. rewrite <- mv_mm. unfold mv, mm, tr. rewrite (sum_to_ext n _ (fun j => (if Nat.eqb i j then 1 else 0) * z j)) by (intros j J; rewrite OP by lia; reflexivity).
  clear OP. revert H. generalize n. clear n. induction n as [|n IH]; intros H; [lia|]. rewrite sum_to_S'. destruct (Nat.eq_dec i n) as [->|N].
  - rewrite Nat.eqb_refl. rewrite (sum_to_ext n _ (fun j => 0 * z j)). + rewrite sum_to_scal. ring. + intros j J. destruct (Nat.eqb_spec n j); [lia|reflexivity].
  - rewrite IH by lia. destruct (Nat.eqb_spec i n); [lia|ring].
Qed.
Lemma tr_lower n A : upper n A -> lower n (tr A). Proof. intros H i j L. apply H. lia. Qed.
Lemma tr_upper n A : lower n A -> upper n (tr A). Proof. intros H i j L. apply H. lia. Qed.
Lemma base_solves n P L U rhs i : plu n P L U -> (i < n)%nat ->
  mv n (tr (mm n (mm n P L) U)) (mv n P (solve_upper n (tr L) (solve_lower n (tr U) rhs))) i = rhs i.
Proof.
  intros (OP & LL & DL & UU & DU) H. rewrite mv_tr_plu by exact H. set (y := solve_lower n (tr U) rhs). set (z := solve_upper n (tr L) y).
  rewrite (mv_ext n (tr U) (tr U) _ y i) ; [unfold y; apply lower_solves; [apply tr_lower, UU|exact DU|exact H]|auto|].
  intros j J. rewrite (mv_ext n (tr L) (tr L) _ z j); [unfold z; apply upper_solves; [apply tr_upper, LL|exact DL|exact J]|auto|]. intros k K. apply orth_mv; assumption.
Qed.
Lemma zero_lower n A b i : diag_ne0 n A -> (forall i, (i < n)%nat -> b i = 0) -> (i < n)%nat -> solve_lower n A b i = 0.
Proof.
  intros DA Z. induction i as [i IH] using (well_founded_induction Wf_nat.lt_wf). intros H. rewrite fwd_eq, (Z i) by exact H.
  rewrite (sum_to_ext i _ (fun j => 0 * A i j)) by (intros j J; rewrite IH by lia; ring). rewrite sum_to_scal. field. apply DA, H.
Qed.
Lemma zero_upper n A b i : diag_ne0 n A -> (forall i, (i < n)%nat -> b i = 0) -> (i < n)%nat -> solve_upper n A b i = 0.
Proof. intros DA Z H. unfold solve_upper. apply zero_lower; [intros j J; apply DA; lia|intros j J; apply Z; lia|lia]. Qed.
Lemma refine_same n P L U rhs i : plu n P L U -> (i < n)%nat -> forward_backward n P L U rhs true i = forward_backward n P L U rhs false i.
Proof.
  intros HP H. unfold forward_backward. set (adj := mv n P _). match goal with |- adj i + mv n P ?zp i = _ => assert (Z : forall k, (k < n)%nat -> zp k = 0) end.
  { intros k K. destruct HP as (OP & LL & DL & UU & DU). apply zero_upper; [exact DL| |exact K]. intros j J. apply zero_lower; [exact DU| |exact J]. intros q Q. unfold adj.
    rewrite base_solves; [ring|repeat split; assumption|exact Q]. }
  match goal with |- _ + mv n P ?zp i = _ => rewrite (mv_ext n P P zp (fun _ => 0) i) by auto end. unfold mv. rewrite (sum_to_ext n (fun j => P i j * 0) (fun j => 0 * P i j)) by (intros; ring). rewrite sum_to_scal. ring.
Qed.
(** forward_backward solves (P L U)^T adj = rhs, with and without iterative refinement *)
Theorem C115_forward_backward (n : nat) (P L U : mat) (rhs : vec) (refine : bool) (i : nat) : plu n P L U -> (i < n)%nat ->
  sum_to n (fun k => mm n (mm n P L) U k i * forward_backward n P L U rhs refine k) = rhs i.
Proof.
  intros HP H. change (mv n (tr (mm n (mm n P L) U)) (forward_backward n P L U rhs refine) i = rhs i).
  destruct refine; [rewrite (mv_ext n _ (tr (mm n (mm n P L) U)) _ (forward_backward n P L U rhs false) i) by (auto; intros; apply refine_same; assumption)|]; apply base_solves; assumption.
Qed.

(** ** The adjoint method *)
Lemma sum_swap_mv n A v w : sum_to n (fun i => w i * mv n A v i) = sum_to n (fun j => mv n (tr A) w j * v j).
Proof.
  unfold mv, tr. rewrite (sum_to_ext n _ (fun i => sum_to n (fun j => A i j * w i * v j))) by (intros i _; rewrite <- sum_to_scal; apply sum_to_ext; intros; ring).
  rewrite sum_to_swap. apply sum_to_ext. intros j _. rewrite Rmult_comm, <- sum_to_scal. apply sum_to_ext. intros; ring.
Qed.
(** if the unknowns x move with the parameters so that n equations keep holding, with Jacobian A = P L U in the unknowns and partial
    derivative gc in the parameters, then every quantity with partial derivatives dJ in the unknowns and Jc in the parameters has
    the derivative Jc - adj . gc, adj the result of forward_backward on dJ *)
Theorem C115_adjoint (n : nat) (A P L U : mat) (g : nat -> R -> R) (Q : R -> R) (v gc dJ : vec) (Jc t : R) (refine : bool) :
  plu n P L U -> (forall i j, (i < n)%nat -> (j < n)%nat -> A i j = mm n (mm n P L) U i j) ->
  (exists eps, 0 < eps /\ forall i s, (i < n)%nat -> Rabs (s - t) < eps -> g i s = 0) ->
  (forall i, (i < n)%nat -> D (g i) t (sum_to n (fun m => v m * A i m) + gc i)) ->
  D Q t (sum_to n (fun m => v m * dJ m) + Jc) ->
  D Q t (Jc - sum_to n (fun i => forward_backward n P L U dJ refine i * gc i)).
Proof.
  intros HP HA (eps & EP & G0) HG HQ. eapply D_val; [|exact HQ]. set (adj := forward_backward n P L U dJ refine).
  assert (E : forall i, (i < n)%nat -> gc i = - mv n A v i).
  { intros i H. assert (Z : D (g i) t 0) by (apply (D_near (fun _ => 0)); [exists eps; split; [exact EP|intros s Hs; symmetry; apply G0; assumption]|apply D_const]). pose proof (D_unique _ _ _ _ Z (HG i H)) as W.
    unfold mv. rewrite (sum_to_ext n (fun j => A i j * v j) (fun m => v m * A i m)) by (intros; ring). lra. }
  rewrite (sum_to_ext n (fun i => adj i * gc i) (fun i => (-1) * (adj i * mv n A v i))) by (intros i H; rewrite E by exact H; ring). rewrite sum_to_scal, sum_swap_mv.
  rewrite (sum_to_ext n (fun j => mv n (tr A) adj j * v j) (fun m => v m * dJ m)); [ring|]. intros j H. rewrite Rmult_comm. f_equal.
  rewrite (mv_ext n (tr A) (tr (mm n (mm n P L) U)) adj adj j) by (auto; intros k K; unfold tr; apply HA; lia). apply (C115_forward_backward n P L U dJ refine j HP H).
Qed.
(** ** A concrete case: the 2x2 system [[0, 2], [3, 1]] = P L U with rows exchanged *)
Definition ex_P : mat := fun i j => if Nat.eqb i j then 0 else 1.
Definition ex_L : mat := fun i j => if Nat.eqb i j then 1 else 0.
Definition ex_U : mat := fun i j => match i, j with 0%nat, 0%nat => 3 | 0%nat, 1%nat => 1 | 1%nat, 1%nat => 2 | _, _ => 0 end.
Example C115_ex : plu 2 ex_P ex_L ex_U /\ mm 2 (mm 2 ex_P ex_L) ex_U 0%nat 1%nat = 2 /\ mm 2 (mm 2 ex_P ex_L) ex_U 1%nat 0%nat = 3 /\ forward_backward 2 ex_P ex_L ex_U (fun i => match i with 0%nat => 6 | _ => 4 end) false 0%nat = 1.
Proof.
  split; [|split; [|split]].
  - split; [|split; [|split; [|split]]].
    + intros i j I J. destruct i as [|[|]]; [| |lia]; destruct j as [|[|]]; try lia; unfold sum_to, ex_P; cbn; lra.
    + intros i j I. unfold ex_L. destruct (Nat.eqb_spec i j); [lia|reflexivity].
    + intros i I. unfold ex_L. rewrite Nat.eqb_refl. lra.
    + intros i j I. destruct i as [|[|]]; try lia. destruct j as [|]; [reflexivity|lia].
    + intros i I. destruct i as [|[|]]; cbn; try lra; lia.
  - unfold mm, sum_to, ex_P, ex_L, ex_U. cbn. lra.
  - unfold mm, sum_to, ex_P, ex_L, ex_U. cbn. lra.
  - unfold forward_backward, mv, solve_upper, solve_lower, tr, ex_P, ex_L, ex_U, sum_to. cbn. field.
Qed.
Print Assumptions C115_adjoint.
