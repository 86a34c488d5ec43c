(** C90: loops of current around cells; C91: net currents and TF coils. *)
From Coq Require Import Reals Lra Lia List Bool Arith ZArith ZifyNat Psatz.
From Verif Require Import ListAux VecAux Vec3 SurfModel SurfProps SurfGeom SurfGeomProps CurveObjModel CurveObjProps GPMOModel GPMOProps WFModel WFGeom WFThms.
Import ListNotations.
Open Scope R_scope.
Ltac Zify.zify_post_hook ::= idtac.

(** ** Specification *)
Section Spec.
Variables (nt np nfp : nat).
(** current c added around the four segments of a cell: along the first two, against the last two *)
Definition ind (a k : nat) : R := if (k =? a)%nat then 1 else 0.
Definition around (c : R) (cell : list nat) (x : nat -> R) : nat -> R :=
  fun k => x k + c * (ind (nth 0 cell O) k + ind (nth 1 cell O) k - ind (nth 2 cell O) k - ind (nth 3 cell O) k).
(** the sum of the loops with currents phi(i, j) *)
Definition loop_sum (phi : nat -> nat -> R) : nat -> R :=
  fun k => sum_to np (fun i => sum_to nt (fun j => around (phi i j) (cell_key nt np i j) (fun _ => 0) k)).
(** poloidal index of a node in half period h of the torus *)
Definition angle (h k : nat) : nat := if Nat.even h then (k mod nt)%nat else ((nt - k mod nt) mod nt)%nat.
(** total current of the torus from poloidal index j to the next one *)
Definition pol_through (x : nat -> R) (j : nat) : R :=
  sum_to (2 * nfp) (fun h => seg_sign h * sum_to (nseg nt np) (fun k => x k *
    ((if (angle h (seg_start nt np k) =? j)%nat && (angle h (seg_end nt np k) =? (j + 1) mod nt)%nat then 1 else 0)
     - (if (angle h (seg_end nt np k) =? j)%nat && (angle h (seg_start nt np k) =? (j + 1) mod nt)%nat then 1 else 0)))).
(** total current from toroidal plane i to plane i+1 of the half period *)
Definition tor_through (x : nat -> R) (i : nat) : R :=
  sum_to (nseg nt np) (fun k => x k *
    ((if (seg_start nt np k / nt =? i)%nat && (seg_end nt np k / nt =? i + 1)%nat then 1 else 0)
     - (if (seg_end nt np k / nt =? i)%nat && (seg_start nt np k / nt =? i + 1)%nat then 1 else 0))).
End Spec.

Section Cells.
Variables (nt np : nat).
Hypothesis Hnt : (2 * half nt = nt /\ 1 <= half nt)%nat.
Hypothesis Hnp : (2 <= np)%nat.
Notation half := (half nt). Notation nseg := (nseg nt np). Notation node := (node nt).
Notation seg_start := (seg_start nt np). Notation seg_end := (seg_end nt np).
Notation T := (T nt). Notation P := (P nt np). Notation neg := (neg nt). Notation pm := (pred_mod nt).
Definition fold (j : nat) : nat := if (j <? half)%nat then j else (nt - j - 1)%nat.
Definition cellR (i j : nat) : nat := if (i <? np - 1)%nat then P (i + 1) j else P np (fold j).
Definition cellL (i j : nat) : nat := if (i =? 0)%nat then P 0 (fold j) else P i j.
Lemma fold_lt j : (j < nt)%nat -> (fold j < half)%nat.
Proof. intros. unfold fold. destruct (Nat.ltb_spec j half); lia. Qed.
Lemma cell_eq i j : (i < np)%nat -> (j < nt)%nat -> cell_key nt np i j = [T i j; cellR i j; T i ((j + 1) mod nt); cellL i j].
Proof.
  intros Hi Hj. unfold cell_key, cellR, cellL, fold. assert (okP nt np (i + 1) j \/ i = (np - 1)%nat) as O1 by (unfold okP; lia). destruct (Nat.eqb_spec i 0) as [->|NE].
  - rewrite !torkey_T by lia. destruct (Nat.ltb_spec 0 (np - 1)); [|lia]. rewrite (polkey_P nt np Hnt Hnp (0 + 1) j) by (right; lia). destruct (Nat.ltb_spec j half); rewrite polkey_P by (auto; left; lia); reflexivity.
  - destruct (Nat.ltb_spec i (np - 1)); rewrite !torkey_T by lia; rewrite (polkey_P nt np Hnt Hnp i j) by (right; lia).
    + rewrite polkey_P by (auto; right; lia). reflexivity.
    + assert (i + 1 = np)%nat as -> by lia. destruct (Nat.ltb_spec j half); rewrite polkey_P by (auto; left; lia); reflexivity.
Qed.
(** ** Potentials *)
Definition potential (x : nat -> R) (phi : nat -> nat -> R) : Prop :=
  (forall a b, (a < np)%nat -> (b < nt)%nat -> x (T a b) = phi a b - phi a (pm b)) /\
  (forall a b, (0 < a < np)%nat -> (b < nt)%nat -> x (P a b) = phi (a - 1)%nat b - phi a b) /\
  (forall b, (b < half)%nat -> x (P 0 b) = - phi O b - phi O (nt - b - 1)%nat) /\
  (forall b, (b < half)%nat -> x (P np b) = phi (np - 1)%nat b + phi (np - 1)%nat (nt - b - 1)%nat).
Definition delta (i j : nat) (a b : nat) : R := if (a =? i)%nat && (b =? j)%nat then 1 else 0.
Lemma pm_lt b : (b < nt)%nat -> (pm b < nt)%nat. Proof. unfold pred_mod. destruct (Nat.eqb_spec b 0); lia. Qed.
Lemma pm_succ b j : (b < nt)%nat -> (j < nt)%nat -> (b =? (j + 1) mod nt)%nat = (pm b =? j)%nat.
Proof.
  intros Hb Hj. unfold pred_mod. destruct (Nat.eq_dec j (nt - 1)) as [->|].
  - replace (nt - 1 + 1)%nat with nt by lia. rewrite Nat.mod_same by lia. destruct (Nat.eqb_spec b 0) as [->|]; [symmetry; apply Nat.eqb_refl|]. symmetry. apply Nat.eqb_neq. lia.
  - rewrite Nat.mod_small by lia. destruct (Nat.eqb_spec b 0); destruct (Nat.eqb_spec b (j + 1)); symmetry; (apply Nat.eqb_eq; lia) || (apply Nat.eqb_neq; lia).
Qed.
Lemma ind_TT i j a b : (j < nt)%nat -> (b < nt)%nat -> ind (T i j) (T a b) = delta i j a b.
Proof. intros Hj Hb. unfold ind, delta. destruct (Nat.eqb_spec (T a b) (T i j)) as [E|N]; [apply T_inj in E; auto; destruct E as (-> & ->); now rewrite !Nat.eqb_refl|]. destruct (Nat.eqb_spec a i), (Nat.eqb_spec b j); subst; auto; congruence. Qed.
Lemma ind_PP i j a b : okP nt np i j -> okP nt np a b -> ind (P i j) (P a b) = delta i j a b.
Proof. intros Hj Hb. unfold ind, delta. destruct (Nat.eqb_spec (P a b) (P i j)) as [E|N]; [apply P_inj in E; auto; destruct E as (-> & ->); now rewrite !Nat.eqb_refl|]. destruct (Nat.eqb_spec a i), (Nat.eqb_spec b j); subst; auto; congruence. Qed.
Lemma ind_TP i j a b : (a < np)%nat -> (b < nt)%nat -> ind (P i j) (T a b) = 0.
Proof. intros. unfold ind. destruct (Nat.eqb_spec (T a b) (P i j)) as [E|N]; [apply T_P in E; auto; contradiction|reflexivity]. Qed.
Lemma ind_PT i j a b : (i < np)%nat -> (j < nt)%nat -> ind (T i j) (P a b) = 0.
Proof. intros. unfold ind. destruct (Nat.eqb_spec (P a b) (T i j)) as [E|N]; [symmetry in E; apply T_P in E; auto; contradiction|reflexivity]. Qed.
Ltac dsolve := unfold delta; repeat match goal with |- context [(?a =? ?b)%nat] => destruct (Nat.eqb_spec a b) end; subst; cbn [andb]; try lra; exfalso; lia.
Lemma loop_potential c i j : (i < np)%nat -> (j < nt)%nat -> potential (around c (cell_key nt np i j) (fun _ => 0)) (fun a b => c * delta i j a b).
Proof.
  intros Hi Hj. rewrite cell_eq by auto. unfold around, potential. cbn [nth]. assert (HM : ((j + 1) mod nt < nt)%nat) by (apply Nat.mod_upper_bound; lia). assert (HF := fold_lt j Hj).
  assert (FD : forall b, (b < half)%nat -> (b =? fold j)%nat = ((b =? j) || (nt - b - 1 =? j))%nat). { intros b Hb. unfold fold. destruct (Nat.ltb_spec j half); destruct (Nat.eqb_spec b j), (Nat.eqb_spec (nt - b - 1) j); cbn [orb]; lia. }
  repeat split.
  - intros a b Ha Hb. rewrite !ind_TT by auto. unfold cellR, cellL. replace (ind (if (i <? np - 1)%nat then P (i + 1) j else P np (fold j)) (T a b)) with 0 by (destruct (i <? np - 1)%nat; symmetry; now apply ind_TP). replace (ind (if (i =? 0)%nat then P 0 (fold j) else P i j) (T a b)) with 0 by (destruct (i =? 0)%nat; symmetry; now apply ind_TP). unfold delta. rewrite (pm_succ b j) by auto. ring.
  - intros a b Ha Hb. rewrite !ind_PT by auto. assert (ER : ind (cellR i j) (P a b) = delta i j (a - 1) b).
    { unfold cellR. destruct (Nat.ltb_spec i (np - 1)); rewrite ind_PP by (unfold okP; lia); unfold delta; [replace (a =? i + 1)%nat with (a - 1 =? i)%nat; [reflexivity|]; destruct (Nat.eqb_spec (a - 1) i), (Nat.eqb_spec a (i + 1)); auto; lia|]. destruct (Nat.eqb_spec a np), (Nat.eqb_spec (a - 1) i); auto; lia. }
    assert (EL : ind (cellL i j) (P a b) = delta i j a b).
    { unfold cellL. destruct (Nat.eqb_spec i 0); rewrite ind_PP by (unfold okP; lia); [|reflexivity]. unfold delta. destruct (Nat.eqb_spec a 0), (Nat.eqb_spec a i); auto; lia. }
    rewrite ER, EL. ring.
  - intros b Hb. rewrite !ind_PT by auto. assert (ER : ind (cellR i j) (P 0 b) = 0).
    { unfold cellR. destruct (Nat.ltb_spec i (np - 1)); rewrite ind_PP by (unfold okP; lia); unfold delta; [destruct (Nat.eqb_spec 0 (i + 1)); [lia|reflexivity]|]. destruct (Nat.eqb_spec 0 np); [lia|reflexivity]. }
    assert (EL : ind (cellL i j) (P 0 b) = delta i j 0 b + delta i j 0 (nt - b - 1)).
    { unfold cellL. destruct (Nat.eqb_spec i 0) as [->|]; rewrite ind_PP by (unfold okP; lia); unfold delta; [cbn [Nat.eqb andb]; rewrite FD by auto; destruct (Nat.eqb_spec b j), (Nat.eqb_spec (nt - b - 1) j); cbn [orb]; try lra; exfalso; lia|]. destruct (Nat.eqb_spec 0 i); [lia|]. cbn [andb]. lra. }
    rewrite ER, EL. ring.
  - intros b Hb. rewrite !ind_PT by auto. assert (ER : ind (cellR i j) (P np b) = delta i j (np - 1) b + delta i j (np - 1) (nt - b - 1)).
    { unfold cellR. destruct (Nat.ltb_spec i (np - 1)); rewrite ind_PP by (unfold okP; lia); unfold delta.
      - destruct (Nat.eqb_spec np (i + 1)); [lia|]. destruct (Nat.eqb_spec (np - 1) i); [lia|]. cbn [andb]. lra.
      - assert (i = np - 1)%nat by lia. subst i. rewrite !Nat.eqb_refl. cbn [andb]. rewrite FD by auto. destruct (Nat.eqb_spec b j), (Nat.eqb_spec (nt - b - 1) j); cbn [orb]; try lra; exfalso; lia. }
    assert (EL : ind (cellL i j) (P np b) = 0). { unfold cellL. destruct (Nat.eqb_spec i 0); rewrite ind_PP by (unfold okP; lia); unfold delta; [destruct (Nat.eqb_spec np 0); [lia|reflexivity]|]. destruct (Nat.eqb_spec np i); [lia|reflexivity]. }
    rewrite ER, EL. ring.
Qed.
Lemma potential_sum x y phi psi : potential x phi -> potential y psi -> potential (fun k => x k + y k) (fun a b => phi a b + psi a b).
Proof. intros (A1 & A2 & A3 & A4) (B1 & B2 & B3 & B4). repeat split; intros; [rewrite A1, B1 by auto|rewrite A2, B2 by auto|rewrite A3, B3 by auto|rewrite A4, B4 by auto]; ring. Qed.
Lemma potential_ext x y phi psi : (forall k, (k < nseg)%nat -> x k = y k) -> (forall a b, (a < np)%nat -> (b < nt)%nat -> phi a b = psi a b) -> potential x phi -> potential y psi.
Proof.
  intros E F (A1 & A2 & A3 & A4). repeat split; intros.
  - rewrite <- E by (apply T_lt_seg; auto). rewrite <- !F by (auto; apply pm_lt; auto). now apply A1.
  - rewrite <- E by (apply P_lt; auto; right; lia). rewrite <- !F by (auto; lia). now apply A2.
  - rewrite <- E by (apply P_lt; auto; left; lia). rewrite <- !F by (auto; lia). now apply A3.
  - rewrite <- E by (apply P_lt; auto; left; lia). rewrite <- !F by (auto; lia). now apply A4.
Qed.
Lemma potential_big n (f : nat -> nat -> R) (g : nat -> nat -> nat -> R) : (forall m, (m < n)%nat -> potential (f m) (g m)) -> potential (fun k => sum_to n (fun m => f m k)) (fun a b => sum_to n (fun m => g m a b)).
Proof.
  induction n as [|n IH]; intros H.
  - repeat split; intros; unfold sum_to; cbn; ring.
  - refine (potential_ext _ _ _ _ _ _ (potential_sum _ _ _ _ (IH (fun m Hm => H m ltac:(lia))) (H n ltac:(lia)))); intros; now rewrite sum_to_S.
Qed.
Lemma loop_sum_potential phi : potential (loop_sum nt np phi) phi.
Proof.
  refine (potential_ext _ _ _ _ (fun _ _ => eq_refl) _ (potential_big np _ (fun i a b => sum_to nt (fun j => phi i j * delta i j a b)) (fun i Hi => potential_big nt _ _ (fun j Hj => loop_potential (phi i j) i j Hi Hj)))).
  intros a b Ha Hb. rewrite <- (sum_to_single np a (fun i => phi i b) Ha). apply sum_to_ext. intros i Hi. unfold delta. destruct (Nat.eqb_spec i a) as [->|N].
  - rewrite Nat.eqb_refl. cbn [andb]. rewrite <- (sum_to_single nt b (fun j => phi a j) Hb). apply sum_to_ext. intros j Hj. destruct (Nat.eqb_spec b j), (Nat.eqb_spec j b); subst; try lia; ring.
  - apply sum_to_nil. intros j Hj. destruct (Nat.eqb_spec a i); [lia|]. cbn [andb]. ring.
Qed.
(** ** The rows on potentials *)
Lemma dotr_ext r x y : (forall k, (k < nseg)%nat -> x k = y k) -> dotr nt np r x = dotr nt np r y.
Proof. intros E. unfold dotr. apply sum_to_ext. intros k Hk. now rewrite E. Qed.
Lemma dotr_lin r x c y : dotr nt np r (fun k => x k + c * y k) = dotr nt np r x + c * dotr nt np r y.
Proof. unfold dotr. rewrite <- sum_to_scal, <- sum_to_plus. apply sum_to_ext. intros. ring. Qed.
Lemma tor_dot x : dotr nt np (tor_row nt) x = sum_to nt (fun j => x (T 0 j)).
Proof.
  unfold dotr, tor_row. assert (K : (nt <= nseg)%nat) by (assert (H := T_lt_seg nt np Hnt Hnp 0 (nt - 1) ltac:(lia) ltac:(lia)); unfold WFGeom.T in H; lia). replace nseg with (nt + (nseg - nt))%nat by lia. rewrite sum_to_add. rewrite (sum_to_nil (nseg - nt)).
  - rewrite Rplus_0_r. apply sum_to_ext. intros k Hk. destruct (Nat.ltb_spec k nt); [|lia]. unfold WFGeom.T. cbn [Nat.mul Nat.add]. ring.
  - intros k Hk. destruct (Nat.ltb_spec (nt + k) nt); [lia|]. ring.
Qed.
Lemma slice_spec a b step s : (0 < step)%nat -> slice a b step s = true <-> exists m, s = (a + m * step)%nat /\ (s < b)%nat.
Proof.
  intros Hs. unfold slice. split.
  - intros H. exists ((s - a) / step)%nat. assert (K := Nat.div_mod (s - a) step ltac:(lia)). assert ((s - a) mod step = 0)%nat by lia. assert (a <= s < b)%nat by lia. rewrite Nat.mul_comm. lia.
  - intros (m & E & L). replace (s - a)%nat with (m * step)%nat by lia. rewrite Nat.mod_mul by lia. destruct (Nat.leb_spec a s), (Nat.ltb_spec s b); lia.
Qed.
Lemma pol_row_P i j : okP nt np i j -> pol_row nt np (P i j) = if (j =? half - 1)%nat || ((0 <? i) && (i <? np) && (j =? half))%nat then 1 else 0.
Proof.
  intros O1. unfold pol_row. cbv zeta. set (c := _ || _ || _). set (d := _ || _). replace c with d; [reflexivity|]. apply eq_true_iff_eq. subst c d. rewrite !orb_true_iff, !andb_true_iff, !slice_spec by lia.
  assert (EN : nseg = (WFModel.ntors nt np + half + (np - 1) * nt + half)%nat) by (unfold WFModel.nseg; rewrite (ntors_eq nt np Hnt Hnp) at 2; lia). set (NT := WFModel.ntors nt np) in *.
  assert (EP : P i j = (NT + if (i =? 0)%nat then j else half + (i - 1) * nt + j)%nat) by reflexivity. rewrite !Nat.eqb_eq, !Nat.ltb_lt. clearbody NT. unfold okP in O1. assert (Z0 := Nat.le_0_l ((i - 1) * nt)). assert (PL : (P i j < nseg)%nat) by (apply P_lt; auto). split.
  - intros [E|(I1 & E)].
    + subst j. destruct (Nat.eqb_spec i 0) as [->|N]; [left; left; lia|]. left. right. exists (i - 1)%nat. lia.
    + right. exists (i - 1)%nat. destruct (Nat.eqb_spec i 0); [lia|]. split; [lia|]. assert (K : ((i - 1) * nt + nt <= (np - 1) * nt)%nat) by (replace ((i - 1) * nt + nt)%nat with ((i - 1 + 1) * nt)%nat by ring; apply Nat.mul_le_mono_r; lia). lia.
  - intros [[E|(m & E & _)]|(m & E & L)].
    + destruct (Nat.eqb_spec i 0); [left; lia|]. exfalso. lia.
    + destruct (Nat.eqb_spec i 0); [assert (Z1 := Nat.le_0_l (m * nt)); exfalso; lia|]. assert (E2 : ((i - 1) * nt + j = m * nt + (half - 1))%nat) by lia. apply digits in E2; try lia.
    + destruct (Nat.eqb_spec i 0); [assert (Z1 := Nat.le_0_l (m * nt)); exfalso; lia|]. assert (j < nt)%nat by lia. assert (E2 : ((i - 1) * nt + j = m * nt + half)%nat) by lia. apply digits in E2; try lia.
Qed.
Lemma pol_row_T i j : (i < np)%nat -> (j < nt)%nat -> pol_row nt np (T i j) = 0.
Proof.
  intros Hi Hj. assert (K := T_lt nt np Hnt Hnp i j Hi Hj). unfold pol_row. cbv zeta. set (c := _ || _ || _). replace c with false; [reflexivity|]. subst c. symmetry. rewrite !orb_false_iff. unfold slice. lia.
Qed.
(** plane-by-plane form of the poloidal current row *)
Definition E (x : nat -> R) (j : nat) : R := (if (j <? half)%nat then x (P 0 j) else 0) + sum_to (np - 1) (fun i => x (P (S i) j)) + (if (j <? half)%nat then x (P np j) else 0).
Lemma pol_dot x : dotr nt np (pol_row nt np) x = E x (half - 1) + E x half.
Proof.
  unfold dotr. rewrite (sum_segs nt np Hnt Hnp). rewrite (sum_to_nil np) by (intros i Hi; apply sum_to_nil; intros j Hj; rewrite pol_row_T by auto; ring). rewrite Rplus_0_l.
  assert (A : forall i, (i = 0 \/ i = np)%nat -> sum_to half (fun j => pol_row nt np (P i j) * x (P i j)) = x (P i (half - 1))). { intros i Hi. rewrite <- (sum_to_single half (half - 1) (fun j => x (P i j)) ltac:(lia)). apply sum_to_ext. intros j Hj. rewrite pol_row_P by (left; lia). replace ((0 <? i) && (i <? np) && (j =? half))%nat with false by (symmetry; lia). rewrite orb_false_r. destruct (j =? half - 1)%nat; ring. }
  rewrite !A by auto. rewrite (sum_to_ext (np - 1) _ (fun i => x (P (S i) (half - 1)) + x (P (S i) half))).
  - unfold E. destruct (Nat.ltb_spec (half - 1) half); [|lia]. destruct (Nat.ltb_spec half half); [lia|]. rewrite sum_to_plus. ring.
  - intros i Hi. rewrite <- (sum_to_single nt (half - 1) (fun j => x (P (S i) j))) by lia. rewrite <- (sum_to_single nt half (fun j => x (P (S i) j))) by lia. rewrite <- sum_to_plus. apply sum_to_ext. intros j Hj. rewrite pol_row_P by (right; lia). destruct (Nat.ltb_spec 0 (S i)); [|lia]. destruct (Nat.ltb_spec (S i) np); [|lia]. cbn [andb]. destruct (Nat.eqb_spec j (half - 1)), (Nat.eqb_spec j half); cbn [orb]; try lia; ring.
Qed.

(** every segment is one of the named ones *)
Lemma seg_cases k : (k < nseg)%nat -> (exists i j, (i < np)%nat /\ (j < nt)%nat /\ k = T i j) \/ (exists i j, okP nt np i j /\ k = P i j).
Proof.
  intros L. destruct (Nat.lt_ge_cases k (WFModel.ntors nt np)) as [H|H].
  - left. exists (k / nt)%nat, (k mod nt)%nat. assert (K := Nat.div_mod k nt ltac:(lia)). assert (K2 := Nat.mod_upper_bound k nt ltac:(lia)). split; [|split; [exact K2|unfold WFGeom.T; rewrite Nat.mul_comm; exact K]]. apply Nat.div_lt_upper_bound; [lia|]. exact H.
  - right. assert (EN : nseg = (WFModel.ntors nt np + (half + (np - 1) * nt + half))%nat) by (unfold WFModel.nseg; now rewrite (ntors_eq nt np Hnt Hnp) at 2). set (NT := WFModel.ntors nt np) in *. assert (EP : forall i j, P i j = (NT + if (i =? 0)%nat then j else half + (i - 1) * nt + j)%nat) by reflexivity. clearbody NT. set (p := (k - NT)%nat). assert (k = NT + p)%nat by lia. clearbody p. subst k.
    destruct (Nat.lt_ge_cases p half) as [H1|H1]; [exists O, p; split; [left; lia|rewrite EP; reflexivity]|]. destruct (Nat.lt_ge_cases p (half + (np - 1) * nt)) as [H2|H2].
    + assert (K := Nat.div_mod (p - half) nt ltac:(lia)). assert (K2 := Nat.mod_upper_bound (p - half) nt ltac:(lia)). assert (K3 : ((p - half) / nt < np - 1)%nat) by (apply Nat.div_lt_upper_bound; [lia|]; rewrite (Nat.mul_comm nt (np - 1)); revert H1 H2; generalize ((np - 1) * nt)%nat; intros ? G1 G2; clear - G1 G2; lia). exists (S ((p - half) / nt)), ((p - half) mod nt)%nat. split; [right; split; [revert K3; generalize ((p - half) / nt)%nat; clear; intros; lia|exact K2]|]. rewrite EP. cbn [Nat.eqb]. rewrite Nat.sub_succ, Nat.sub_0_r, (Nat.mul_comm ((p - half) / nt) nt). clear - K H1. lia.
    + exists np, (p - half - (np - 1) * nt)%nat. split; [left; revert EN L H2; generalize ((np - 1) * nt)%nat; intros; lia|]. rewrite EP. destruct (Nat.eqb_spec np 0); lia.
Qed.
Lemma potential_eq x y phi : potential x phi -> potential y phi -> forall k, (k < nseg)%nat -> x k = y k.
Proof.
  intros (A1 & A2 & A3 & A4) (B1 & B2 & B3 & B4) k Hk. destruct (seg_cases k Hk) as [(i & j & Hi & Hj & ->)|(i & j & O1 & ->)]; [now rewrite A1, B1|]. destruct O1 as [([->| ->] & Hj)|(Hi & Hj)]; [now rewrite A3, B3|now rewrite A4, B4|now rewrite A2, B2].
Qed.
Lemma potential_int x phi i j : potential x phi -> (0 < i < np)%nat -> (j < nt)%nat -> netI nt np x i j = 0.
Proof. intros (A1 & A2 & A3 & A4) Hi Hj. unfold netI. rewrite !A1, !A2 by (auto; try lia; apply pm_lt; auto). ring. Qed.
Lemma pm_pos j : (0 < j)%nat -> pm j = (j - 1)%nat. Proof. intros. unfold pred_mod. destruct (Nat.eqb_spec j 0); lia. Qed.
Lemma potential_0 x phi j : potential x phi -> (0 < j < half)%nat -> net0 nt np x j - net0 nt np x (neg j) = 0.
Proof.
  intros (A1 & A2 & A3 & A4) Hj. rewrite neg_pos by lia. unfold net0. destruct (row_plane_vals nt np Hnt Hnp x 0 j) as (-> & ->); [auto|lia|]. rewrite !A1, !A3 by lia. rewrite !pm_pos by lia. replace (nt - (j - 1) - 1)%nat with (nt - j)%nat by lia. ring.
Qed.
Lemma potential_N x phi j : potential x phi -> (0 < j < half)%nat -> netN nt np x j - netN nt np x (neg j) = 0.
Proof.
  intros (A1 & A2 & A3 & A4) Hj. rewrite neg_pos by lia. unfold netN. destruct (row_plane_vals nt np Hnt Hnp x np j) as (-> & ->); [auto|lia|]. rewrite !A1, !A4 by lia. rewrite !pm_pos by lia. replace (nt - (j - 1) - 1)%nat with (nt - j)%nat by lia. ring.
Qed.
Lemma potential_cont x phi : potential x phi -> continuous nt np x.
Proof.
  intros H i j Hi Hj Hc. unfold has_continuity in Hc. destruct (Nat.eqb_spec i 0) as [->|]; [rewrite row_0 by lia; apply (potential_0 x phi); [exact H|lia]|]. destruct (Nat.eqb_spec i np) as [->|]; [rewrite row_N by lia; apply (potential_N x phi); [exact H|lia]|]. rewrite row_int by lia. apply (potential_int x phi); [exact H|lia|lia].
Qed.
Lemma sum_pm f : sum_to nt (fun j => f (pm j)) = sum_to nt f.
Proof. assert (K := abel_cyclic nt f (fun _ => 1) ltac:(lia)). cbv beta in K. rewrite (sum_to_nil nt) in K by (intros; ring). rewrite (sum_to_ext nt _ (fun j => f j - f (pm j))) in K by (intros; ring). rewrite sum_to_minus in K. lra. Qed.
Lemma potential_tor x phi i : potential x phi -> (i < np)%nat -> sum_to nt (fun j => x (T i j)) = 0.
Proof. intros (A1 & _) Hi. rewrite (sum_to_ext nt _ (fun j => phi i j - phi i (pm j))) by (intros; apply A1; lia). rewrite sum_to_minus, sum_pm. ring. Qed.
Lemma telescope n (f : nat -> R) : sum_to n (fun i => f i - f (S i)) = f O - f n.
Proof. induction n as [|n IH]; [unfold sum_to; cbn; ring|]. rewrite sum_to_S, IH. ring. Qed.
Lemma potential_pol x phi : potential x phi -> dotr nt np (pol_row nt np) x = 0.
Proof.
  intros (A1 & A2 & A3 & A4). rewrite pol_dot. unfold E. destruct (Nat.ltb_spec (half - 1) half); [|lia]. destruct (Nat.ltb_spec half half); [lia|]. rewrite A3, A4 by lia. replace (nt - (half - 1) - 1)%nat with half by lia.
  assert (S1 : forall j, (j < nt)%nat -> sum_to (np - 1) (fun i => x (P (S i) j)) = phi O j - phi (np - 1)%nat j). { intros j Hj. rewrite <- (telescope (np - 1) (fun i => phi i j)). apply sum_to_ext. intros i Hi. rewrite A2 by lia. replace (S i - 1)%nat with i by lia. reflexivity. }
  rewrite !S1 by lia. ring.
Qed.
Lemma tor_conserved x : continuous nt np x -> forall i, (i < np)%nat -> sum_to nt (fun j => x (T i j)) = sum_to nt (fun j => x (T 0 j)).
Proof.
  intros Hx. induction i as [|i IH]; intros Hi; [reflexivity|]. rewrite <- IH by lia. assert (K : sum_to nt (fun j => netI nt np x (S i) j) = 0) by (apply sum_to_nil; intros j Hj; apply (cont_int nt np Hnt Hnp x Hx); lia). unfold netI in K. rewrite sum_to_plus, !sum_to_minus in K. rewrite (sum_pm (fun j => x (P (S i) j))) in K. replace (S i - 1)%nat with i in K by lia. lra.
Qed.
(** ** Loops generate all currents without net current *)
Section Span.
Variable (x : nat -> R).
Hypothesis Hx : continuous nt np x.
Hypothesis Htor : sum_to nt (fun j => x (T 0 j)) = 0.
Hypothesis Hpol : dotr nt np (pol_row nt np) x = 0.
Definition cumul (i j : nat) : R := sum_to (S j) (fun b => x (T i b)).
Lemma cumul_step i j : (i < np)%nat -> (j < nt)%nat -> cumul i j - cumul i (pm j) = x (T i j).
Proof.
  intros Hi Hj. unfold cumul. destruct j as [|j]; [|rewrite pm_pos by lia; replace (S j - 1)%nat with j by lia; rewrite (sum_to_S (S j)); ring]. unfold pred_mod. cbn [Nat.eqb]. replace (S (nt - 1)) with nt by lia. rewrite (tor_conserved x Hx) by exact Hi. rewrite Htor. unfold sum_to. cbn. ring.
Qed.
Definition drop (i j : nat) : R := x (P i j) + cumul i j - cumul (i - 1) j.
Lemma drop_const i j : (0 < i < np)%nat -> (j < nt)%nat -> drop i j = drop i 0.
Proof.
  intros Hi. induction j as [|j IH]; intros Hj; [reflexivity|]. rewrite <- IH by lia. unfold drop. assert (K := cont_int nt np Hnt Hnp x Hx i (S j) Hi Hj). unfold netI in K. assert (C1 := cumul_step i (S j) ltac:(lia) Hj). assert (C2 := cumul_step (i - 1) (S j) ltac:(lia) Hj). rewrite pm_pos in * by lia. replace (S j - 1)%nat with j in * by lia. lra.
Qed.
Definition drop0 (j : nat) : R := x (P 0 j) + cumul 0 j + cumul 0 (nt - j - 1).
Definition dropN (j : nat) : R := x (P np j) - cumul (np - 1) j - cumul (np - 1) (nt - j - 1).
Lemma drop0_const j : (j < half)%nat -> drop0 j = drop0 0.
Proof.
  induction j as [|j IH]; intros Hj; [reflexivity|]. rewrite <- IH by lia. unfold drop0. assert (K := cont_0 nt np Hnt Hnp x Hx (S j) ltac:(lia)). rewrite neg_pos in K by lia. unfold net0 in K. destruct (row_plane_vals nt np Hnt Hnp x 0 (S j)) as (K1 & K2); [auto|lia|]. rewrite K1, K2 in K. assert (C1 := cumul_step 0 (S j) ltac:(lia) ltac:(lia)). assert (C2 := cumul_step 0 (nt - S j) ltac:(lia) ltac:(lia)). rewrite pm_pos in * by lia. replace (S j - 1)%nat with j in * by lia. replace (nt - S j)%nat with (nt - j - 1)%nat in * by lia. lra.
Qed.
Lemma dropN_const j : (j < half)%nat -> dropN j = dropN 0.
Proof.
  induction j as [|j IH]; intros Hj; [reflexivity|]. rewrite <- IH by lia. unfold dropN. assert (K := cont_N nt np Hnt Hnp x Hx (S j) ltac:(lia)). rewrite neg_pos in K by lia. unfold netN in K. destruct (row_plane_vals nt np Hnt Hnp x np (S j)) as (K1 & K2); [auto|lia|]. rewrite K1, K2 in K. assert (C1 := cumul_step (np - 1) (S j) ltac:(lia) ltac:(lia)). assert (C2 := cumul_step (np - 1) (nt - S j) ltac:(lia) ltac:(lia)). rewrite pm_pos in * by lia. replace (S j - 1)%nat with j in * by lia. replace (nt - S j)%nat with (nt - j - 1)%nat in * by lia. lra.
Qed.
Definition offset (i : nat) : R := - drop0 0 / 2 - sum_to i (fun k => drop (S k) 0).
Lemma last_offset : dropN 0 = 2 * offset (np - 1).
Proof.
  assert (K := Hpol). rewrite pol_dot in K. unfold E in K. destruct (Nat.ltb_spec (half - 1) half); [|lia]. destruct (Nat.ltb_spec half half); [lia|].
  assert (S1 : forall j, (j < nt)%nat -> sum_to (np - 1) (fun i => x (P (S i) j)) = sum_to (np - 1) (fun k => drop (S k) 0) + (cumul 0 j - cumul (np - 1) j)). { intros j Hj. rewrite <- (telescope (np - 1) (fun i => cumul i j)). rewrite <- sum_to_plus. apply sum_to_ext. intros i Hi. rewrite <- (drop_const (S i) j) by lia. unfold drop. replace (S i - 1)%nat with i by lia. ring. }
  rewrite !S1 in K by lia. assert (K0 := drop0_const (half - 1) ltac:(lia)). assert (KN := dropN_const (half - 1) ltac:(lia)). unfold drop0 at 1 in K0. unfold dropN at 1 in KN. replace (nt - (half - 1) - 1)%nat with half in * by lia. unfold offset. lra.
Qed.
Lemma span_potential : potential x (fun i j => cumul i j + offset i).
Proof.
  repeat split.
  - intros a b Ha Hb. rewrite <- (cumul_step a b) by auto. ring.
  - intros a b Ha Hb. assert (K := drop_const a b Ha Hb). unfold drop at 1 in K. replace (offset (a - 1)) with (offset a + drop a 0); [lra|]. unfold offset. destruct a as [|a]; [lia|]. replace (S a - 1)%nat with a by lia. rewrite (sum_to_S a). ring.
  - intros b Hb. assert (K := drop0_const b Hb). unfold drop0 at 1 in K. unfold offset. rewrite sum_to_nil by (intros; lia). lra.
  - intros b Hb. assert (K := dropN_const b Hb). unfold dropN at 1 in K. rewrite last_offset in K. lra.
Qed.
End Span.
Theorem C90_span x : (sat nt np x (cons (fst (initial nt np))) /\ dotr nt np (tor_row nt) x = 0 /\ dotr nt np (pol_row nt np) x = 0) <-> exists phi, forall k, (k < nseg)%nat -> x k = loop_sum nt np phi k.
Proof.
  rewrite (sat_initial nt np Hnt Hnp). split.
  - intros (Hx & Ht & Hp). rewrite tor_dot in Ht. eexists. apply (potential_eq _ _ _ (span_potential x Hx Ht Hp)). apply loop_sum_potential.
  - intros (phi & Hphi). assert (K : potential x phi) by (apply (potential_ext (loop_sum nt np phi) _ phi); [intros k Hk; symmetry; auto|auto|apply loop_sum_potential]). split; [now apply (potential_cont x phi)|]. split; [rewrite tor_dot; apply (potential_tor x phi); [exact K|lia]|now apply (potential_pol x phi)].
Qed.
(** ** Adding a loop keeps constraints *)
Definition wellformed (c : constr) : Prop := match cn c with
  | CCont k => (exists i j, (i <= np)%nat /\ (j < nt)%nat /\ has_continuity nt np i j = true /\ k = node i j /\ crow c = cont_row (connected nt np i j)) /\ cst c = 0
  | CPolC => crow c = pol_row nt np | CTorC => crow c = tor_row nt
  | CSeg s | CImp s => (s < nseg)%nat /\ crow c = seg_row s /\ cst c = 0
  | CUser _ => True end.
Definition touches (c : constr) (cell : list nat) : Prop := match cn c with CSeg s | CImp s => In s cell | CUser _ => True | _ => False end.
Lemma around_split c cell x k : around c cell x k = x k + c * around 1 cell (fun _ => 0) k.
Proof. unfold around. ring. Qed.
Lemma around_dot r c cell x : dotr nt np r (around c cell x) = dotr nt np r x + c * dotr nt np r (around 1 cell (fun _ => 0)).
Proof. rewrite <- dotr_lin. apply dotr_ext. intros. apply around_split. Qed.
Theorem C90_loop i j cur x c : (i < np)%nat -> (j < nt)%nat -> wellformed c -> ~ touches c (cell_key nt np i j) ->
  dotr nt np (crow c) (around cur (cell_key nt np i j) x) = dotr nt np (crow c) x.
Proof.
  intros Hi Hj W Hn. rewrite around_dot. assert (HP := loop_potential 1 i j Hi Hj). assert (Z : dotr nt np (crow c) (around 1 (cell_key nt np i j) (fun _ => 0)) = 0); [|rewrite Z; ring]. unfold wellformed, touches in *. destruct (cn c) as [k| | |s|s|n].
  - destruct W as ((a & b & Ha & Hb & Hc & _ & ->) & _). exact (potential_cont _ _ HP a b Ha Hb Hc).
  - rewrite W. exact (potential_pol _ _ HP).
  - rewrite W, tor_dot. apply (potential_tor _ _ 0 HP). lia.
  - destruct W as (L & -> & _). unfold seg_row. rewrite (dotr_single nt np Hnt Hnp s) by exact L. rewrite cell_eq in * by auto. unfold around, ind. cbn [nth In] in *. repeat match goal with |- context [(s =? ?a)%nat] => destruct (Nat.eqb_spec s a); [subst; exfalso; apply Hn; auto|] end. ring.
  - destruct W as (L & -> & _). unfold seg_row. rewrite (dotr_single nt np Hnt Hnp s) by exact L. rewrite cell_eq in * by auto. unfold around, ind. cbn [nth In] in *. repeat match goal with |- context [(s =? ?a)%nat] => destruct (Nat.eqb_spec s a); [subst; exfalso; apply Hn; auto|] end. ring.
  - contradiction.
Qed.
(** ** Neighbours *)
Theorem C90_neighbors i j i' j' : (i < np)%nat -> (j < nt)%nat -> (i' < np)%nat -> (j' < nt)%nat -> (i, j) <> (i', j') ->
  (exists s, In s (cell_key nt np i j) /\ In s (cell_key nt np i' j')) <-> In (i', j') (cell_neighbors nt np i j).
Proof.
  intros Hi Hj Hi' Hj' NE. rewrite !cell_eq by auto. assert (HF := fold_lt j Hj). assert (HF' := fold_lt j' Hj').
  assert (M1 : forall b, (b < nt)%nat -> ((b + 1) mod nt = if b =? nt - 1 then 0 else b + 1)%nat). { intros b Hb. destruct (Nat.eqb_spec b (nt - 1)) as [->|]; [replace (nt - 1 + 1)%nat with nt by lia; apply Nat.mod_same; lia|apply Nat.mod_small; lia]. }
  assert (ND : i <> i' \/ j <> j') by (destruct (Nat.eq_dec i i'), (Nat.eq_dec j j'); subst; auto; exfalso; now apply NE).
  assert (I4 : forall (a b c d e f g h u v : nat), In (a, b) [(c, d); (e, f); (g, h); (u, v)] <-> ((a = c /\ b = d) \/ (a = e /\ b = f) \/ (a = g /\ b = h) \/ (a = u /\ b = v))%nat).
  { intros. cbn [In]. split; [intros [Q|[Q|[Q|[Q|[]]]]]; injection Q; lia|]. intros [(-> & ->)|[(-> & ->)|[(-> & ->)|(-> & ->)]]]; auto. }
  assert (GN : In (i', j') (cell_neighbors nt np i j) <-> ((i' = i /\ (j' = pm j \/ j' = (j + 1) mod nt)) \/ (if i =? 0 then i' = 0 /\ j' = nt - j - 1 else i' = i - 1 /\ j' = j) \/ (if i <? np - 1 then i' = i + 1 /\ j' = j else i' = i /\ j' = nt - j - 1))%nat).
  { unfold cell_neighbors. generalize ((j + 1) mod nt)%nat (pm j). intros A B. destruct (Nat.eqb_spec i 0) as [->|N0]; [destruct (Nat.ltb_spec 0 (np - 1)); [|clear - Hnp H; lia]|destruct (Nat.ltb_spec i (np - 1))]; rewrite I4; clear; intuition. }
  rewrite GN. rewrite !M1 by auto. split.
  - intros (s & I1 & I2).
    assert (TT : forall a b a' b', (b < nt)%nat -> (b' < nt)%nat -> T a b = T a' b' -> a = a' /\ b = b') by (intros; now apply (T_inj nt Hnt)).
    assert (PP : forall a b a' b', okP nt np a b -> okP nt np a' b' -> P a b = P a' b' -> a = a' /\ b = b') by (intros; now apply (P_inj nt np Hnt Hnp)).
    assert (TP : forall a b a' b', (a < np)%nat -> (b < nt)%nat -> T a b <> P a' b') by (intros; now apply (T_P nt np Hnt Hnp)).
    assert (PS : forall b, (b < nt)%nat -> pm b = if (b =? 0)%nat then (nt - 1)%nat else (b - 1)%nat) by reflexivity. rewrite PS by auto.
    assert (UR : forall a b, (a < np)%nat -> (b < nt)%nat -> exists c d, cellR a b = P c d /\ okP nt np c d /\ (c = a + 1 /\ ((a < np - 1 /\ d = b) \/ (a = np - 1 /\ (d = b \/ d = nt - b - 1) /\ (d < half))))%nat).
    { intros a b Ha Hb. assert (Hf := fold_lt b Hb). unfold cellR. destruct (Nat.ltb_spec a (np - 1)); [exists (a + 1)%nat, b; unfold okP; lia|]. exists np, (fold b). split; [reflexivity|]. unfold okP, fold in *. destruct (Nat.ltb_spec b half); lia. }
    assert (UL : forall a b, (a < np)%nat -> (b < nt)%nat -> exists c d, cellL a b = P c d /\ okP nt np c d /\ (c = a /\ ((0 < a /\ d = b) \/ (a = 0 /\ (d = b \/ d = nt - b - 1) /\ (d < half))))%nat).
    { intros a b Ha Hb. assert (Hf := fold_lt b Hb). unfold cellL. destruct (Nat.eqb_spec a 0); [exists 0%nat, (fold b)|exists a, b]; (split; [reflexivity|]); unfold okP, fold in *; [destruct (Nat.ltb_spec b half); lia|lia]. }
    destruct (UR i j Hi Hj) as (c1 & d1 & R1 & O1 & F1), (UR i' j' Hi' Hj') as (c2 & d2 & R2 & O2 & F2), (UL i j Hi Hj) as (c3 & d3 & R3 & O3 & F3), (UL i' j' Hi' Hj') as (c4 & d4 & R4 & O4 & F4).
    rewrite R1, R3 in I1. rewrite R2, R4 in I2. clear UR UL R1 R2 R3 R4 GN I4 NE M1 PS.
    assert (B1 : ((if j =? nt - 1 then 0 else j + 1) < nt)%nat) by (destruct (Nat.eqb_spec j (nt - 1)); lia). assert (B2 : ((if j' =? nt - 1 then 0 else j' + 1) < nt)%nat) by (destruct (Nat.eqb_spec j' (nt - 1)); lia).
    clear HF HF'. cbn [In] in I1, I2.
    assert (KT : (i = i' /\ (j = j' \/ j = (if j' =? nt - 1 then 0 else j' + 1) \/ (if j =? nt - 1 then 0 else j + 1) = j' \/ (if j =? nt - 1 then 0 else j + 1) = (if j' =? nt - 1 then 0 else j' + 1)))%nat -> (i' = i /\ (j' = (if j =? 0 then nt - 1 else j - 1) \/ j' = (if j =? nt - 1 then 0 else j + 1)))%nat).
    { intros (-> & Q). split; [reflexivity|]. assert (J : j <> j') by (clear - ND; lia). clear ND TT PP TP F1 F2 F3 F4 O1 O2 O3 O4 B1 B2 I1 I2. destruct (Nat.eqb_spec j 0), (Nat.eqb_spec j (nt - 1)), (Nat.eqb_spec j' (nt - 1)); lia. }
    destruct I1 as [<-|[<-|[<-|[<-|[]]]]]; destruct I2 as [Q|[Q|[Q|[Q|[]]]]];
      ((apply TT in Q; [left; apply KT; clear - Q; lia|assumption|assumption]) || (exfalso; apply TP in Q; [exact Q|assumption|assumption]) || (exfalso; symmetry in Q; apply TP in Q; [exact Q|assumption|assumption]) || idtac);
      apply PP in Q; try assumption; clear TT PP TP KT B1 B2; right.
    + clear F3 F4 O3 O4 O1 O2. right. destruct (Nat.ltb_spec i (np - 1)); lia.
    + clear F2 F3 O3 O4 O1 O2. right. destruct (Nat.ltb_spec i (np - 1)); lia.
    + clear F1 F4 O3 O4 O1 O2. left. destruct (Nat.eqb_spec i 0); lia.
    + clear F1 F2 O3 O4 O1 O2. left. destruct (Nat.eqb_spec i 0); lia.
  - intros [(-> & [E1|E1])|[E1|E1]].
    + exists (T i j). split; [left; reflexivity|]. right; right; left. subst j'. f_equal. unfold pred_mod. destruct (Nat.eqb_spec j 0); [destruct (Nat.eqb_spec (nt - 1) (nt - 1)); lia|destruct (Nat.eqb_spec (j - 1) (nt - 1)); lia].
    + exists (T i j'). split; [|left; reflexivity]. right; right; left. now rewrite E1.
    + unfold cellL, cellR. destruct (Nat.eqb_spec i 0) as [->|].
      * destruct E1 as (-> & ->). exists (P 0 (fold j)). split; [right; right; right; left; reflexivity|]. right; right; right; left. cbn [Nat.eqb]. f_equal. unfold fold. destruct (Nat.ltb_spec j half), (Nat.ltb_spec (nt - j - 1) half); lia.
      * destruct E1 as (-> & ->). exists (P i j). split; [right; right; right; left; reflexivity|]. right; left. destruct (Nat.ltb_spec (i - 1) (np - 1)); [|lia]. f_equal. lia.
    + unfold cellL, cellR. destruct (Nat.ltb_spec i (np - 1)).
      * destruct E1 as (-> & ->). exists (P (i + 1) j). split; [right; left; reflexivity|]. right; right; right; left. destruct (Nat.eqb_spec (i + 1) 0); [lia|reflexivity].
      * destruct E1 as (-> & ->). exists (P np (fold j)). split; [right; left; reflexivity|]. right; left. f_equal. destruct (Nat.ltb_spec i (np - 1)); [lia|]. f_equal. unfold fold. destruct (Nat.ltb_spec j half), (Nat.ltb_spec (nt - j - 1) half); lia.
Qed.
End Cells.
