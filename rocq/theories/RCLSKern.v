(** C96: exact QR factorizations and least-squares solutions exist for all matrices, so the assumptions made of scipy.linalg can be met:
    Householder reflections, and projection on the span of the columns. *)
From Coq Require Import Reals Lra Lia List Bool Arith ZArith ZifyNat Psatz.
From Verif Require Import ListAux VecAux CurveObjModel CurveObjProps WFGeom WFModel RCLSModel RCLSProps.
Import ListNotations.
Open Scope R_scope.
Ltac Zify.zify_post_hook ::= idtac.

(** ** Least squares *)
Definition snoc (v : vec) (q : nat) (t : R) : vec := fun j => if (j =? q)%nat then t else v j.
Lemma mv_snoc q N v t i : mv (S q) N (snoc v q t) i = mv q N v i + t * N i q.
Proof. unfold mv. rewrite sum_S. unfold snoc at 2. rewrite Nat.eqb_refl. rewrite (sum_ext q _ (fun j => N i j * v j)); [ring|]. intros j Hj. unfold snoc. destruct (Nat.eqb_spec j q); [lia|reflexivity]. Qed.
Definition normal_sol (a q : nat) (N : mat) (c v : vec) : Prop := forall j, (j < q)%nat -> mtv a N (fun i => mv q N v i - c i) j = 0.
Lemma orthogonal_span a q N (r v : vec) : (forall j, (j < q)%nat -> mtv a N r j = 0) -> sum_to a (fun i => mv q N v i * r i) = 0.
Proof. intros H. rewrite adjoint. apply sum_0. intros j Hj. rewrite H by auto. ring. Qed.
Lemma solve_normal a q N : forall c, { v | normal_sol a q N c v }.
Proof.
  induction q as [|q IH]; intros c; [exists (fun _ => 0); intros j Hj; lia|].
  destruct (IH c) as (v & Hv). destruct (IH (fun i => N i q)) as (s & Hs). set (r := fun i => mv q N v i - c i). set (e := fun i => mv q N s i - N i q).
  assert (STEP : forall v' t k, (forall i, mv (S q) N v' i - c i = r i + k * e i) -> t = 0 -> (sum_to a (fun i => e i * r i) + k * sum_to a (fun i => e i * e i) = 0) -> normal_sol a (S q) N c v').
  { intros v' t k E _ O j Hj. assert (E1 : mtv a N (fun i => mv (S q) N v' i - c i) j = mtv a N r j + k * mtv a N e j). { unfold mtv. rewrite sum_scal_l, <- sum_to_plus. apply sum_ext. intros i _. rewrite E. ring. } rewrite E1. destruct (Nat.lt_ge_cases j q) as [L|L]; [rewrite Hv, Hs by auto; ring|]. assert (j = q) by lia. subst j.
    assert (Or := orthogonal_span a q N r s Hv). assert (Oe := orthogonal_span a q N e s Hs).
    assert (R1 : mtv a N r q = - sum_to a (fun i => e i * r i)). { rewrite <- sum_to_opp. transitivity (sum_to a (fun i => mv q N s i * r i) + sum_to a (fun i => - (e i * r i))); [|rewrite Or; lra]. unfold mtv. rewrite <- sum_to_plus. apply sum_ext. intros i _. unfold e. ring. }
    assert (R2 : mtv a N e q = - sum_to a (fun i => e i * e i)). { rewrite <- sum_to_opp. transitivity (sum_to a (fun i => mv q N s i * e i) + sum_to a (fun i => - (e i * e i))); [|rewrite Oe; lra]. unfold mtv. rewrite <- sum_to_plus. apply sum_ext. intros i _. unfold e. ring. }
    rewrite R1, R2. lra. }
  destruct (Req_EM_T (sum_to a (fun i => e i * e i)) 0) as [Z|Z].
  - exists (snoc v q 0). apply (STEP _ 0 0); [|reflexivity|].
    + intros i. rewrite mv_snoc. unfold r. ring.
    + rewrite Rmult_0_l, Rplus_0_r. apply sum_0. intros i Hi. rewrite (sum_sq_0 a e) by (auto; rewrite <- Z; apply sum_ext; intros; ring). ring.
  - set (k := - sum_to a (fun i => e i * r i) / sum_to a (fun i => e i * e i)). exists (snoc (fun j => v j + k * s j) q (- k)). apply (STEP _ 0 k); [|reflexivity|].
    + intros i. rewrite mv_snoc, mv_plus, mv_scal. unfold r, e. ring.
    + unfold k. field. exact Z.
Qed.
Lemma normal_gap a q N c v : normal_sol a q N c v -> forall v', sum_to a (fun i => (mv q N v' i - c i) ^ 2) = sum_to a (fun i => (mv q N v i - c i) ^ 2) + sum_to a (fun i => mv q N (fun j => v' j - v j) i ^ 2).
Proof.
  intros H v'. set (r := fun i => mv q N v i - c i). set (e := mv q N (fun j => v' j - v j)). assert (O := orthogonal_span a q N r (fun j => v' j - v j) H). fold e in O.
  rewrite (sum_ext a _ (fun i => (r i ^ 2 + e i ^ 2) + 2 * (e i * r i))). 2:{ intros i _. unfold r, e. rewrite mv_minus. ring. } rewrite !sum_to_plus, sum_to_scal, O. unfold r. ring.
Qed.
Lemma lstsq_exists q L r : { v | lstsq_ok q L r v }.
Proof.
  destruct (solve_normal q q L r) as (v & Hv). destruct (solve_normal q q (fun i j => L j i) v) as (w & Hw). set (v0 := mtv q L w).
  assert (K0 : forall i, (i < q)%nat -> mv q L v0 i = mv q L v i). { intros i Hi. specialize (Hw i Hi). change (sum_to q (fun k => L i k * (v0 k - v k)) = 0) in Hw. unfold mv. apply Rminus_diag_uniq. rewrite <- sum_to_minus. rewrite <- Hw. apply sum_ext. intros k _. ring. }
  exists v0. assert (RES : forall v', residual q L r v' = residual q L r v0 + sum_to q (fun i => mv q L (fun j => v' j - v0 j) i ^ 2)).
  { intros v'. unfold residual. change (sum_to q (fun i => (mv q L v' i - r i) ^ 2) = sum_to q (fun i => (mv q L v0 i - r i) ^ 2) + sum_to q (fun i => mv q L (fun j => v' j - v0 j) i ^ 2)). apply normal_gap. intros j Hj. rewrite <- (Hv j Hj). apply sum_ext. intros i Hi. now rewrite K0. }
  split.
  - intros v'. rewrite (RES v'). assert (0 <= sum_to q (fun i => mv q L (fun j => v' j - v0 j) i ^ 2)) by (apply sum_to_ge0; intros; apply pow2_ge_0). lra.
  - intros v' E. rewrite RES in E. assert (Z : forall i, (i < q)%nat -> mv q L (fun j => v' j - v0 j) i = 0) by (apply sum_sq_0; lra).
    assert (O : sum_to q (fun i => mv q L (fun j => v' j - v0 j) i * w i) = 0) by (apply sum_0; intros i Hi; rewrite Z by auto; ring). rewrite adjoint in O. fold v0 in O.
    unfold normsq. rewrite (sum_ext q (fun i => v' i ^ 2) (fun i => (v0 i ^ 2 + (v' i - v0 i) ^ 2) + 2 * ((v' i - v0 i) * v0 i))) by (intros; ring). rewrite !sum_to_plus, sum_to_scal. rewrite O. assert (0 <= sum_to q (fun i => (v' i - v0 i) ^ 2)) by (apply sum_to_ge0; intros; apply pow2_ge_0). lra.
Qed.

(** ** QR *)
Definition orthogonal (n : nat) (Q : mat) : Prop :=
  (forall j k, (j < n)%nat -> (k < n)%nat -> sum_to n (fun i => Q i j * Q i k) = eye j k) /\ (forall j k, (j < n)%nat -> (k < n)%nat -> sum_to n (fun i => Q j i * Q k i) = eye j k).
Definition reflect (n : nat) (w : vec) : mat := fun i j => eye i j - (if Req_EM_T (normsq n w) 0 then 0 else 2 / normsq n w) * (w i * w j).
Lemma eye_sym i j : eye i j = eye j i. Proof. unfold eye. now rewrite Nat.eqb_sym. Qed.
Lemma reflect_sym n w i j : reflect n w i j = reflect n w j i. Proof. unfold reflect. rewrite eye_sym. ring. Qed.
Lemma reflect_apply n w x i : (i < n)%nat -> mv n (reflect n w) x i = x i - (if Req_EM_T (normsq n w) 0 then 0 else 2 / normsq n w) * sum_to n (fun j => w j * x j) * w i.
Proof.
  intros Hi. set (k := if Req_EM_T (normsq n w) 0 then 0 else 2 / normsq n w). unfold mv. rewrite (sum_ext n _ (fun j => eye i j * x j + - (k * w i) * (w j * x j))) by (intros; unfold reflect; fold k; ring). rewrite sum_to_plus, sum_eye, sum_to_scal by auto. ring.
Qed.
Lemma reflect_involution n w x i : (i < n)%nat -> mv n (reflect n w) (mv n (reflect n w) x) i = x i.
Proof.
  intros Hi. rewrite reflect_apply by auto. rewrite reflect_apply by auto. set (k := if Req_EM_T (normsq n w) 0 then 0 else 2 / normsq n w).
  rewrite (sum_ext n (fun j => w j * mv n (reflect n w) x j) (fun j => w j * x j + - (k * sum_to n (fun j => w j * x j)) * (w j ^ 2))) by (intros j Hj; rewrite reflect_apply by auto; fold k; ring).
  rewrite sum_to_plus, sum_to_scal. fold (normsq n w). set (d := sum_to n (fun j => w j * x j)). unfold k. destruct (Req_EM_T (normsq n w) 0) as [Z|Z]; [ring|field; exact Z].
Qed.
Lemma mm_orthogonal n Q H : orthogonal n Q -> (forall i j, H i j = H j i) -> (forall x i, (i < n)%nat -> mv n H (mv n H x) i = x i) -> orthogonal n (mm n Q H).
Proof.
  intros (O1 & O2) S I.
  assert (HH : forall j k, (j < n)%nat -> (k < n)%nat -> sum_to n (fun l => H l j * H l k) = eye j k).
  { intros j k Hj Hk. specialize (I (eye k) j Hj). unfold mv in I. rewrite eye_sym, <- I. apply sum_ext. intros l Hl. rewrite (S j l). f_equal. rewrite (sum_ext n _ (fun i => eye k i * H l i)) by (intros; ring). now rewrite (sum_eye n k (fun i => H l i)). }
  split; intros j k Hj Hk.
  - unfold mm. transitivity (sum_to n (fun l => H l j * mtv n Q (mv n Q (fun l' => H l' k)) l)).
    + rewrite <- (adjoint n n Q (fun l => H l j)). apply sum_ext. intros i _. reflexivity.
    + rewrite <- HH by auto. apply sum_ext. intros l Hl. now rewrite (coords n Q O1).
  - assert (E : forall i, sum_to n (fun l => mm n Q H j l * mm n Q H i l) = sum_to n (fun l => Q j l * mv n H (mv n H (Q i)) l)).
    { intros i. transitivity (sum_to n (fun l => mv n H (Q j) l * mv n H (Q i) l)). { apply sum_ext. intros l _. unfold mm, mv. f_equal; apply sum_ext; intros; rewrite S; ring. }
      rewrite (adjoint n n H). apply sum_ext. intros l _. f_equal. apply sum_ext. intros k' _. now rewrite S. }
    rewrite E. rewrite <- (O2 j k Hj Hk). apply sum_ext. intros l Hl. now rewrite I.
Qed.
(** the reflection that brings the entries k, ..., n-1 of a vector to a multiple of the k-th unit vector *)
Definition house (n k : nat) (c : vec) : vec := fun i => if (i <? k)%nat then 0 else if (i =? k)%nat then c k - sqrt (sum_to n (fun i => if (i <? k)%nat then 0 else c i ^ 2)) else c i.
Lemma house_zero n k c : (k < n)%nat -> forall i, (k < i)%nat -> (i < n)%nat -> mv n (reflect n (house n k c)) c i = 0.
Proof.
  intros Hk i Hi Hn. set (s := sum_to n (fun i => if (i <? k)%nat then 0 else c i ^ 2)). assert (Sp : 0 <= s) by (apply sum_to_ge0; intros; destruct (_ <? _)%nat; [lra|apply pow2_ge_0]). set (w := house n k c). set (g := sqrt s). assert (Hg : g * g = s) by (apply sqrt_sqrt; exact Sp).
  assert (WW : normsq n w = 2 * (s - g * c k)).
  { unfold normsq. rewrite (sum_ext n _ (fun i => (if (i <? k)%nat then 0 else c i ^ 2) + (if (i =? k)%nat then g * g - 2 * g * c k else 0))). 2:{ intros j _. unfold w, house. fold s. fold g. destruct (Nat.ltb_spec j k); [destruct (Nat.eqb_spec j k); [lia|ring]|]. destruct (Nat.eqb_spec j k) as [->|]; ring. }
    rewrite sum_to_plus. fold s. rewrite (sum_to_single n k (fun _ => g * g - 2 * g * c k)) by auto. lra. }
  assert (WC : sum_to n (fun j => w j * c j) = s - g * c k).
  { rewrite (sum_ext n _ (fun i => (if (i <? k)%nat then 0 else c i ^ 2) + (if (i =? k)%nat then - (g * c k) else 0))). 2:{ intros j _. unfold w, house. fold s. fold g. destruct (Nat.ltb_spec j k); [destruct (Nat.eqb_spec j k); [lia|ring]|]. destruct (Nat.eqb_spec j k) as [->|]; ring. }
    rewrite sum_to_plus. fold s. rewrite (sum_to_single n k (fun _ => - (g * c k))) by auto. lra. }
  assert (Wi : w i = c i) by (unfold w, house; destruct (Nat.ltb_spec i k); [lia|]; destruct (Nat.eqb_spec i k); [lia|reflexivity]).
  rewrite reflect_apply by auto. rewrite WC, Wi. destruct (Req_EM_T (normsq n w) 0) as [Z|Z].
  - assert (E := sum_sq_0 n w Z i Hn). rewrite Wi in E. rewrite E. ring.
  - rewrite WW in *. field. intros E. apply Z. rewrite E. ring.
Qed.
Lemma house_fixes n k c x i : (i < n)%nat -> (forall j, (k <= j < n)%nat -> x j = 0) -> mv n (reflect n (house n k c)) x i = x i.
Proof.
  intros Hi Z. rewrite reflect_apply by auto. rewrite (sum_0 n (fun j => house n k c j * x j)); [ring|]. intros j Hj. unfold house at 1. destruct (Nat.ltb_spec j k); [ring|]. rewrite Z by lia. ring.
Qed.
Lemma qr_partial n M p : forall k, (k <= p)%nat -> { Q | orthogonal n Q /\ forall j i, (j < k)%nat -> (j < i < n)%nat -> mtv n Q (fun l => M l j) i = 0 }.
Proof.
  induction k as [|k IH]; intros Hk.
  - exists eye. split; [split; intros j l Hj Hl|intros; lia].
    + rewrite (sum_ext n _ (fun i => eye j i * eye i l)) by (intros; now rewrite (eye_sym j)). now rewrite (sum_eye n j (fun i => eye i l)).
    + rewrite (sum_eye n j (fun i => eye l i)) by auto. apply eye_sym.
  - destruct (IH ltac:(lia)) as (Q & O & Z). destruct (le_lt_dec n k) as [L|L]; [exists Q; split; [exact O|]; intros j i H1 H2; apply Z; lia|].
    set (c := mtv n Q (fun l => M l k)). set (H := reflect n (house n k c)). exists (mm n Q H). split; [apply mm_orthogonal; [exact O|apply reflect_sym|intros; now apply reflect_involution]|].
    intros j i Hj Hi. assert (E : forall f, mtv n (mm n Q H) f i = mv n H (mtv n Q f) i).
    { intros f. unfold mtv, mv, mm. rewrite (sum_ext n _ (fun l => sum_to n (fun t => Q l t * H t i * f l))) by (intros; apply sum_scal_r). rewrite sum_to_swap. apply sum_ext. intros t _. rewrite sum_scal_l. apply sum_ext. intros l _. unfold H at 1. rewrite reflect_sym. fold H. ring. }
    rewrite E. destruct (Nat.eq_dec j k) as [->|N]; [apply house_zero; lia|]. unfold H. rewrite house_fixes; [apply Z; lia|lia|]. intros t Ht. apply Z; lia.
Qed.
Lemma qr_exists n p M : { QR | qr_ok n p M QR }.
Proof.
  destruct (qr_partial n M p p (le_n p)) as (Q & (O1 & O2) & Z). exists (Q, fun i k => if (i <? n)%nat then mtv n Q (fun l => M l k) i else 0). split; [exact O1|]. split; [exact O2|]. split.
  - intros i k Hi Hk. rewrite (sum_ext n _ (fun l => Q i l * mtv n Q (fun l => M l k) l)) by (intros l Hl; destruct (Nat.ltb_spec l n); [reflexivity|lia]). symmetry. now apply (recoords n Q O2 (fun l => M l k)).
  - intros i k Hk Hi. destruct (Nat.ltb_spec i n); [|reflexivity]. apply Z; lia.
Qed.
Definition exact_qr (n p : nat) (M : mat) : option (mat * mat) := Some (proj1_sig (qr_exists n p M)).
Definition exact_lstsq (q : nat) (L : mat) (r : vec) : vec := proj1_sig (lstsq_exists q L r).
(** the assumptions about scipy.linalg hold of an exact implementation *)
Theorem C96_kernels_exist : kernels_ok exact_qr exact_lstsq /\ forall n p M, exact_qr n p M <> None.
Proof.
  split; [split|discriminate].
  - intros n p M QR H. unfold exact_qr in H. injection H as <-. apply proj2_sig.
  - intros q L r. unfold exact_lstsq. apply proj2_sig.
Qed.
