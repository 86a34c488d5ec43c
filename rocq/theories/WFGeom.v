(** C89: the continuity constraints of a wireframe are Kirchhoff's law on the whole torus. *)
From Coq Require Import Reals Lra Lia List Bool Arith ZArith ZifyNat Psatz Permutation.
From Verif Require Import ListAux VecAux Vec3 SurfModel SurfGeom SurfGeomProps CurveObjModel CurveObjProps GPMOModel GPMOProps WFModel.
Import ListNotations.
Open Scope R_scope.
Ltac Zify.zify_post_hook ::= idtac.

(** ** Sums *)
Lemma sum_to_add n m f : sum_to (n + m) f = sum_to n f + sum_to m (fun k => f (n + k)%nat).
Proof. induction m as [|m IH]; [rewrite Nat.add_0_r; cbn; ring|]. rewrite Nat.add_succ_r, !sum_to_S, IH. ring. Qed.
Lemma sum_to_mul n m f : sum_to (n * m) f = sum_to n (fun i => sum_to m (fun j => f (i * m + j)%nat)).
Proof. induction n as [|n IH]; [reflexivity|]. rewrite sum_to_S. rewrite Nat.mul_succ_l, sum_to_add, IH. reflexivity. Qed.
Lemma sum_to_0 f : sum_to 0 f = 0. Proof. reflexivity. Qed.
Lemma sum_to_minus n f g : sum_to n (fun k => f k - g k) = sum_to n f - sum_to n g.
Proof. induction n as [|n IH]; [cbn; ring|]. rewrite !sum_to_S, IH. ring. Qed.
Lemma sum_to_opp n f : sum_to n (fun k => - f k) = - sum_to n f.
Proof. induction n as [|n IH]; [cbn; ring|]. rewrite !sum_to_S, IH. ring. Qed.
Lemma sum_to_first n f : sum_to (S n) f = f O + sum_to n (fun k => f (S k)).
Proof. replace (S n) with (1 + n)%nat by lia. rewrite sum_to_add. cbn. ring. Qed.
Lemma sum_to_single n a f : (a < n)%nat -> sum_to n (fun k => if (k =? a)%nat then f k else 0) = f a.
Proof.
  induction n as [|n IH]; intros L; [lia|]. rewrite sum_to_S. destruct (Nat.eqb_spec n a) as [->|NE].
  - rewrite sum_to_nil; [ring|]. intros k Hk. destruct (Nat.eqb_spec k a); [lia|reflexivity].
  - rewrite IH by lia. ring.
Qed.
Lemma sum_to_perm n s f : (forall j, (j < n)%nat -> (s j < n)%nat) -> (forall j, (j < n)%nat -> s (s j) = j) -> sum_to n (fun j => f (s j)) = sum_to n f.
Proof.
  intros B I. unfold sum_to. rewrite <- (map_map s f). assert (P : Permutation (map s (seq 0 n)) (seq 0 n)).
  { apply NoDup_Permutation; [|apply seq_NoDup|].
    - assert (G : forall l, (forall j, In j l -> (j < n)%nat) -> NoDup l -> NoDup (map s l)). { induction l as [|a l IHl]; intros Hl ND; [constructor|]. inversion ND; subst. cbn [map]. constructor; [|apply IHl; auto; intros; apply Hl; right; auto]. intros IN. apply in_map_iff in IN. destruct IN as (c & E & IC). apply H1. replace a with c; [exact IC|]. rewrite <- (I a), <- (I c), E; auto; apply Hl; [right; auto|left; auto]. } apply G; [intros j Hj; apply in_seq in Hj; lia|apply seq_NoDup].
    - intros x. rewrite in_map_iff, in_seq. split; [intros (j & <- & Hj); apply in_seq in Hj; specialize (B j); lia|]. intros Hx. exists (s x). split; [apply I; lia|apply in_seq; specialize (B x); lia]. }
  assert (Q : forall l l', Permutation l l' -> rsuml (map f l) = rsuml (map f l')) by (intros l l' PP; induction PP; cbn [map rsuml]; lra). now apply Q.
Qed.
Lemma abel n (a g : nat -> R) : sum_to (S n) (fun i => a i * (g i - g (S i))) = a O * g O + sum_to n (fun i => (a (S i) - a i) * g (S i)) - a n * g (S n).
Proof. induction n as [|n IH]; [unfold sum_to; cbn; ring|]. rewrite sum_to_S, IH, (sum_to_S n (fun i => (a (S i) - a i) * g (S i))). ring. Qed.
Lemma abel_cyclic n (a g : nat -> R) : (0 < n)%nat -> sum_to n (fun j => a j * (g j - g ((j + 1) mod n)%nat)) = sum_to n (fun j => (a j - a (pred_mod n j)) * g j).
Proof.
  intros L. destruct n as [|n]; [lia|]. transitivity (sum_to (S n) (fun j => a j * g j) - sum_to (S n) (fun j => a j * g ((j + 1) mod S n)%nat)); [rewrite <- sum_to_minus; apply sum_to_ext; intros; ring|].
  transitivity (sum_to (S n) (fun j => a j * g j) - sum_to (S n) (fun j => a (pred_mod (S n) j) * g j)); [|rewrite <- sum_to_minus; apply sum_to_ext; intros; ring]. f_equal.
  rewrite sum_to_S, sum_to_first. replace ((n + 1) mod S n)%nat with O by (replace (n + 1)%nat with (S n) by lia; symmetry; apply Nat.mod_same; lia). unfold pred_mod at 1. cbn [Nat.eqb]. replace (S n - 1)%nat with n by lia. rewrite Rplus_comm. f_equal. apply sum_to_ext. intros k Hk. rewrite Nat.mod_small by lia. unfold pred_mod. cbn [Nat.eqb]. replace (S k - 1)%nat with k by lia. replace (k + 1)%nat with (S k) by lia. reflexivity.
Qed.
Lemma abel_half h n (a g : nat -> R) : (h < n)%nat -> sum_to h (fun j => a j * (g j - g (j + 1)%nat)) = sum_to n (fun j => ((if (j <? h)%nat then a j else 0) - (if (0 <? j)%nat && (j <=? h)%nat then a (j - 1)%nat else 0)) * g j).
Proof.
  intros L. transitivity (sum_to h (fun j => a j * g j) - sum_to h (fun j => a j * g (j + 1)%nat)); [rewrite <- sum_to_minus; apply sum_to_ext; intros; ring|].
  transitivity (sum_to n (fun j => (if (j <? h)%nat then a j else 0) * g j) - sum_to n (fun j => (if (0 <? j)%nat && (j <=? h)%nat then a (j - 1)%nat else 0) * g j)); [|rewrite <- sum_to_minus; apply sum_to_ext; intros; ring].
  assert (Z : forall (c : nat -> bool) (F : nat -> R) lo m, (forall k, (k < lo)%nat -> c k = true) -> (forall k, (lo <= k)%nat -> c k = false) -> (lo <= m)%nat -> sum_to m (fun k => (if c k then F k else 0) * g k) = sum_to lo (fun k => F k * g k)).
  { intros c F lo m C1 C2 LM. replace m with (lo + (m - lo))%nat by lia. rewrite sum_to_add. rewrite (sum_to_nil (m - lo)) by (intros k Hk; rewrite C2 by lia; ring). rewrite Rplus_0_r. apply sum_to_ext. intros k Hk. now rewrite C1. }
  f_equal.
  - symmetry. apply Z; try lia; intros k Hk; destruct (Nat.ltb_spec k h); auto; lia.
  - destruct n as [|n]; [lia|]. rewrite sum_to_first. change (0 <? 0)%nat with false. rewrite andb_false_l, Rmult_0_l, Rplus_0_l. replace n with (h + (n - h))%nat by lia. rewrite sum_to_add. rewrite (sum_to_nil (n - h)).
    + rewrite Rplus_0_r. apply sum_to_ext. intros k Hk. destruct (Nat.ltb_spec 0 (S k)); [|lia]. destruct (Nat.leb_spec (S k) h); [|lia]. rewrite andb_true_r. replace (S k - 1)%nat with k by lia. replace (k + 1)%nat with (S k) by lia. reflexivity.
    + intros k Hk. destruct (Nat.leb_spec (S (h + k)) h); [lia|]. rewrite andb_false_r. ring.
Qed.

Lemma sum_to_pairs n f : sum_to (2 * n) f = sum_to n (fun i => f (2 * i)%nat + f (2 * i + 1)%nat).
Proof. induction n as [|n IH]; [reflexivity|]. replace (2 * S n)%nat with (S (S (2 * n))) by lia. rewrite !sum_to_S, IH. replace (2 * n + 1)%nat with (S (2 * n)) by lia. ring. Qed.
Lemma sum_to_cyclic n f : (0 < n)%nat -> sum_to n (fun i => f ((i + 1) mod n)%nat) = sum_to n f.
Proof. intros L. assert (K := abel_cyclic n (fun _ => 1) f L). cbv beta in K. rewrite (sum_to_ext n (fun j => (1 - 1) * f j) (fun _ => 0)) in K by (intros; ring). rewrite (sum_to_nil n (fun _ => 0)) in K by reflexivity. rewrite (sum_to_ext n _ (fun j => f j - f ((j + 1) mod n)%nat)) in K by (intros; ring). rewrite sum_to_minus in K. lra. Qed.
Lemma digits a b c d n : (b < n)%nat -> (d < n)%nat -> (a * n + b = c * n + d)%nat -> a = c /\ b = d.
Proof.
  intros B Dn E. assert (K : forall u v, (u < v)%nat -> (u * n + n <= v * n)%nat) by (intros u v L; replace (u * n + n)%nat with (S u * n)%nat by (cbn [Nat.mul]; lia); apply Nat.mul_le_mono_r; lia).
  destruct (Nat.lt_trichotomy a c) as [L|[->|L]]; [apply K in L; lia|lia|apply K in L; lia].
Qed.

Section Geom.
Set Default Proof Using "Type*".
Variables (nt np : nat).
Hypothesis Hnt : (2 * half nt = nt /\ 1 <= half nt)%nat.
Hypothesis Hnp : (2 <= np)%nat.
Notation half := (half nt). Notation ntors := (ntors nt np). Notation nseg := (nseg nt np). Notation node := (node nt).
Notation torkey := (torkey nt np). Notation polkey := (polkey nt np). Notation seg_start := (seg_start nt np). Notation seg_end := (seg_end nt np).
Notation connected := (connected nt np). Notation cell_key := (cell_key nt np).
Definition T (i j : nat) : nat := (i * nt + j)%nat.
Definition P (i j : nat) : nat := (ntors + if (i =? 0)%nat then j else half + (i - 1) * nt + j)%nat.
(** poloidal segments present on plane i *)
Definition okP (i j : nat) : Prop := ((i = 0 \/ i = np) /\ j < half \/ 0 < i < np /\ j < nt)%nat.
Lemma torkey_T i j : (i < np)%nat -> torkey i j = T i j.
Proof. intros L. unfold WFModel.torkey. destruct (Nat.ltb_spec i np); [reflexivity|lia]. Qed.
Lemma polkey_P i j : okP i j -> polkey i j = P i j.
Proof.
  intros H. unfold WFModel.polkey, P, okP in *. destruct (Nat.eqb_spec i 0) as [->|NE]; [destruct (Nat.ltb_spec j half); [reflexivity|lia]|]. destruct (Nat.ltb_spec i np); [reflexivity|].
  destruct (Nat.ltb_spec j half); [|lia]. assert (i = np) by lia. subst i. f_equal. unfold WFModel.ntors. destruct np as [|m]; [lia|]. replace (S m - 1)%nat with m by lia. nia.
Qed.
Lemma T_lt i j : (i < np)%nat -> (j < nt)%nat -> (T i j < ntors)%nat.
Proof. unfold T, WFModel.ntors. intros. nia. Qed.
Lemma P_ge i j : (ntors <= P i j)%nat. Proof. unfold P. lia. Qed.
Lemma ntors_eq : ntors = (half + (np - 1) * nt + half)%nat.
Proof. unfold WFModel.ntors. destruct np as [|m]; [lia|]. replace (S m - 1)%nat with m by lia. rewrite Nat.mul_succ_r, (Nat.mul_comm m nt). generalize (nt * m)%nat. intros. lia. Qed.
Lemma P_lt i j : okP i j -> (P i j < nseg)%nat.
Proof.
  intros H. unfold P, okP, WFModel.nseg in *. apply Nat.add_lt_mono_l. rewrite ntors_eq. destruct (Nat.eqb_spec i 0); [generalize ((np - 1) * nt)%nat; intros; lia|]. destruct H as [H|H]; [assert (i = np) by lia; subst i; generalize ((np - 1) * nt)%nat; intros; lia|].
  assert (K : ((i - 1) * nt + nt <= (np - 1) * nt)%nat) by (replace ((i - 1) * nt + nt)%nat with ((i - 1 + 1) * nt)%nat by ring; apply Nat.mul_le_mono_r; lia). revert K. generalize ((np - 1) * nt)%nat ((i - 1) * nt)%nat. intros. lia.
Qed.
Lemma T_lt_seg i j : (i < np)%nat -> (j < nt)%nat -> (T i j < nseg)%nat.
Proof. intros H1 H2. assert (K := T_lt i j H1 H2). unfold WFModel.nseg. lia. Qed.
Lemma T_inj i j i' j' : (j < nt)%nat -> (j' < nt)%nat -> T i j = T i' j' -> i = i' /\ j = j'.
Proof. unfold T. intros. now apply digits with nt. Qed.
Lemma P_inj i j i' j' : okP i j -> okP i' j' -> P i j = P i' j' -> i = i' /\ j = j'.
Proof.
  intros O1 O2 E. unfold P, okP in *. assert (Z1 := Nat.le_0_l ((i - 1) * nt)). assert (Z2 := Nat.le_0_l ((i' - 1) * nt)). destruct (Nat.eqb_spec i 0), (Nat.eqb_spec i' 0); try lia.
  assert (E' : ((i - 1) * nt + j = (i' - 1) * nt + j')%nat) by lia. assert (j < nt)%nat by lia. assert (j' < nt)%nat by lia. clear E. apply digits in E'; auto. lia.
Qed.
Lemma T_P i j i' j' : (i < np)%nat -> (j < nt)%nat -> T i j <> P i' j'.
Proof. intros H1 H2 E. assert (K1 := T_lt i j H1 H2). assert (K2 := P_ge i' j'). lia. Qed.
(** all segments, once each *)
Lemma sum_segs f : sum_to nseg f = sum_to np (fun i => sum_to nt (fun j => f (T i j))) + (sum_to half (fun j => f (P 0 j)) + sum_to (np - 1) (fun i => sum_to nt (fun j => f (P (S i) j))) + sum_to half (fun j => f (P np j))).
Proof.
  unfold WFModel.nseg. rewrite sum_to_add. f_equal.
  - unfold WFModel.ntors. rewrite Nat.mul_comm. apply sum_to_mul.
  - rewrite ntors_eq at 1. rewrite !sum_to_add, sum_to_mul. f_equal; [f_equal|].
    + apply sum_to_ext. intros i Hi. apply sum_to_ext. intros j Hj. f_equal. unfold P. cbn [Nat.eqb]. rewrite Nat.sub_succ, Nat.sub_0_r. lia.
    + apply sum_to_ext. intros j Hj. f_equal. unfold P. destruct (Nat.eqb_spec np 0); lia.
Qed.
Lemma start_T i j : (i < np)%nat -> (j < nt)%nat -> seg_start (T i j) = node i j /\ seg_end (T i j) = node (S i) j.
Proof. intros H1 H2. assert (K := T_lt i j H1 H2). unfold WFModel.seg_start, WFModel.seg_end. destruct (Nat.ltb_spec (T i j) ntors); [|lia]. unfold T, WFModel.node. split; [reflexivity|]. cbn [Nat.mul]. lia. Qed.
Lemma start_P i j : okP i j -> seg_start (P i j) = node i j /\ seg_end (P i j) = node i ((j + 1) mod nt).
Proof.
  intros O1. assert (K := P_ge i j). unfold WFModel.seg_start, WFModel.seg_end. destruct (Nat.ltb_spec (P i j) ntors); [lia|]. clear K H. replace (P i j - ntors)%nat with (if (i =? 0)%nat then j else half + (i - 1) * nt + j)%nat by (unfold P; lia). unfold okP in O1. destruct (Nat.eqb_spec i 0) as [->|NE].
  - assert (j < half)%nat by lia. destruct (Nat.ltb_spec j half); [|lia]. rewrite Nat.mod_small by lia. auto.
  - assert (Z1 := Nat.le_0_l ((i - 1) * nt)). destruct (Nat.ltb_spec (half + (i - 1) * nt + j) half); [lia|]. destruct O1 as [O1|O1].
    + assert (i = np) by lia. subst i. assert (j < half)%nat by lia. destruct (Nat.ltb_spec (half + (np - 1) * nt + j) (half + (np - 1) * nt)); [lia|]. rewrite (Nat.mod_small (j + 1)) by lia. replace (half + (np - 1) * nt + j - (ntors - half))%nat with j; [auto|]. rewrite ntors_eq. lia.
    + destruct (Nat.ltb_spec (half + (i - 1) * nt + j) (half + (np - 1) * nt)); [|exfalso; assert (K : ((i - 1) * nt + nt <= (np - 1) * nt)%nat) by (replace ((i - 1) * nt + nt)%nat with ((i - 1 + 1) * nt)%nat by ring; apply Nat.mul_le_mono_r; lia); lia]. replace (half + (i - 1) * nt + j - half)%nat with (j + (i - 1) * nt)%nat by lia. rewrite Nat.div_add, Nat.mod_add, Nat.div_small, Nat.mod_small by lia. replace (1 + (0 + (i - 1)))%nat with i by lia. split; [reflexivity|]. f_equal. destruct (Nat.eqb_spec j (nt - 1)) as [->|]; [replace (nt - 1 + 1)%nat with nt by lia; now rewrite Nat.mod_same by lia|now rewrite Nat.mod_small by lia].
Qed.

(** ** Net outflow of a half period *)
Definition neg (j : nat) : nat := ((nt - j) mod nt)%nat.
Lemma neg_0 : neg 0 = O. Proof. clear Hnp. unfold neg. rewrite Nat.sub_0_r. apply Nat.mod_same. lia. Qed.
Lemma neg_pos j : (0 < j < nt)%nat -> neg j = (nt - j)%nat. Proof. clear Hnp. intros. unfold neg. apply Nat.mod_small. lia. Qed.
Lemma neg_lt j : (neg j < nt)%nat. Proof. clear Hnp. apply Nat.mod_upper_bound. lia. Qed.
Lemma neg_neg j : (j < nt)%nat -> neg (neg j) = j.
Proof. clear Hnp. intros L. destruct j as [|j]; [now rewrite !neg_0|]. rewrite (neg_pos (S j)) by lia. rewrite neg_pos by lia. lia. Qed.
Definition pol_net (x : nat -> R) (i j : nat) : R := (if (j <? half)%nat then x (P i j) else 0) - (if (0 <? j)%nat && (j <=? half)%nat then x (P i (j - 1)) else 0).
Definition net0 (x : nat -> R) (j : nat) : R := x (T 0 j) + pol_net x 0 j.
Definition netN (x : nat -> R) (j : nat) : R := - x (T (np - 1) j) + pol_net x np j.
Definition netI (x : nat -> R) (i j : nat) : R := x (T i j) - x (T (i - 1) j) + (x (P i j) - x (P i (pred_mod nt j))).
Lemma flux_form (x g : nat -> R) : sum_to nseg (fun s => x s * (g (seg_start s) - g (seg_end s))) =
  sum_to nt (fun j => net0 x j * g (node 0 j)) + sum_to (np - 1) (fun i => sum_to nt (fun j => netI x (S i) j * g (node (S i) j))) + sum_to nt (fun j => netN x j * g (node np j)).
Proof.
  rewrite sum_segs.
  assert (E1 : sum_to np (fun i => sum_to nt (fun j => x (T i j) * (g (seg_start (T i j)) - g (seg_end (T i j))))) =
    sum_to nt (fun j => x (T 0 j) * g (node 0 j)) + sum_to (np - 1) (fun i => sum_to nt (fun j => (x (T (S i) j) - x (T i j)) * g (node (S i) j))) - sum_to nt (fun j => x (T (np - 1) j) * g (node np j))).
  { transitivity (sum_to nt (fun j => sum_to np (fun i => x (T i j) * (g (node i j) - g (node (S i) j))))).
    - rewrite sum_to_swap. apply sum_to_ext. intros j Hj. apply sum_to_ext. intros i Hi. destruct (start_T i j Hi Hj) as (-> & ->). reflexivity.
    - rewrite (sum_to_swap (np - 1)). rewrite <- sum_to_plus, <- sum_to_minus. apply sum_to_ext. intros j Hj. destruct np as [|m]; [lia|]. rewrite (abel m (fun i => x (T i j)) (fun i => g (node i j))). replace (S m - 1)%nat with m by lia. reflexivity. }
  assert (E2 : sum_to half (fun j => x (P 0 j) * (g (seg_start (P 0 j)) - g (seg_end (P 0 j)))) = sum_to nt (fun j => pol_net x 0 j * g (node 0 j))).
  { rewrite (sum_to_ext half _ (fun j => x (P 0 j) * (g (node 0 j) - g (node 0 (j + 1))))). - apply (abel_half half nt (fun j => x (P 0 j)) (fun j => g (node 0 j))). lia. - intros j Hj. destruct (start_P 0 j) as (-> & ->); [left; lia|]. now rewrite Nat.mod_small by lia. }
  assert (E4 : sum_to half (fun j => x (P np j) * (g (seg_start (P np j)) - g (seg_end (P np j)))) = sum_to nt (fun j => pol_net x np j * g (node np j))).
  { rewrite (sum_to_ext half _ (fun j => x (P np j) * (g (node np j) - g (node np (j + 1))))). - apply (abel_half half nt (fun j => x (P np j)) (fun j => g (node np j))). lia. - intros j Hj. destruct (start_P np j) as (-> & ->); [left; lia|]. now rewrite Nat.mod_small by lia. }
  assert (E3 : sum_to (np - 1) (fun i => sum_to nt (fun j => x (P (S i) j) * (g (seg_start (P (S i) j)) - g (seg_end (P (S i) j))))) = sum_to (np - 1) (fun i => sum_to nt (fun j => (x (P (S i) j) - x (P (S i) (pred_mod nt j))) * g (node (S i) j)))).
  { apply sum_to_ext. intros i Hi. rewrite <- (abel_cyclic nt (fun j => x (P (S i) j)) (fun j => g (node (S i) j))) by lia. apply sum_to_ext. intros j Hj. destruct (start_P (S i) j) as (-> & ->); [right; lia|]. reflexivity. }
  rewrite E1, E2, E3, E4. unfold net0, netN, netI.
  rewrite (sum_to_ext nt (fun j => (x (T 0 j) + pol_net x 0 j) * g (node 0 j)) (fun j => x (T 0 j) * g (node 0 j) + pol_net x 0 j * g (node 0 j))) by (intros; ring). rewrite sum_to_plus.
  rewrite (sum_to_ext nt (fun j => (- x (T (np - 1) j) + pol_net x np j) * g (node np j)) (fun j => pol_net x np j * g (node np j) - x (T (np - 1) j) * g (node np j))) by (intros; ring). rewrite sum_to_minus.
  rewrite (sum_to_ext (np - 1) (fun i => sum_to nt (fun j => (x (T (S i) j) - x (T (S i - 1) j) + (x (P (S i) j) - x (P (S i) (pred_mod nt j)))) * g (node (S i) j)))
    (fun i => sum_to nt (fun j => (x (T (S i) j) - x (T i j)) * g (node (S i) j)) + sum_to nt (fun j => (x (P (S i) j) - x (P (S i) (pred_mod nt j))) * g (node (S i) j)))).
  - rewrite sum_to_plus. ring. - intros i Hi. rewrite <- sum_to_plus. apply sum_to_ext. intros j Hj. replace (S i - 1)%nat with i by lia. ring.
Qed.

(** ** The rows *)
Lemma dotr_single a x : (a < nseg)%nat -> dotr nt np (fun s => if (s =? a)%nat then 1 else 0) x = x a.
Proof. intros L. unfold dotr. rewrite <- (sum_to_single nseg a x L). apply sum_to_ext. intros k Hk. destruct (k =? a)%nat; ring. Qed.
Lemma cont_row_dot a b c d x : NoDup [a; b; c; d] -> (a < nseg)%nat -> (b < nseg)%nat -> (c < nseg)%nat -> (d < nseg)%nat ->
  dotr nt np (cont_row [a; b; c; d]) x = x c + x d - x a - x b.
Proof.
  intros ND La Lb Lc Ld. rewrite <- (dotr_single a x La), <- (dotr_single b x Lb), <- (dotr_single c x Lc), <- (dotr_single d x Ld). unfold dotr. rewrite <- sum_to_plus, <- !sum_to_minus. apply sum_to_ext. intros k Hk. unfold cont_row. cbn [nth].
  inversion ND as [|? ? N1 ND1]; subst. inversion ND1 as [|? ? N2 ND2]; subst. inversion ND2 as [|? ? N3 ND3]; subst. cbn [In] in *.
  destruct (Nat.eqb_spec k a), (Nat.eqb_spec k b), (Nat.eqb_spec k c), (Nat.eqb_spec k d); subst; cbn [orb]; try ring; exfalso; intuition congruence.
Qed.
Lemma NoDup4 (a b c d : nat) : a <> b -> a <> c -> a <> d -> b <> c -> b <> d -> c <> d -> NoDup [a; b; c; d].
Proof. clear Hnt. intros. repeat constructor; cbn [In]; intuition congruence. Qed.
Lemma half_lt : (half < nt)%nat. Proof. clear Hnp. lia. Qed.
Lemma connected_int i j : (0 < i < np)%nat -> (j < nt)%nat -> connected i j = [T (i - 1) j; P i (pred_mod nt j); T i j; P i j].
Proof.
  intros Hi Hj. unfold WFModel.connected. destruct (Nat.eqb_spec i 0); [lia|]. destruct (Nat.ltb_spec i np); [|lia]. rewrite !torkey_T by lia. rewrite (polkey_P i j) by (right; lia). unfold pred_mod. destruct (Nat.eqb_spec j 0); rewrite polkey_P by (right; lia); reflexivity.
Qed.
Lemma plane_pol_eq i j : (i = 0 \/ i = np)%nat -> (j < nt)%nat -> plane_pol nt np i j =
  if (j =? 0)%nat then (P i 0, P i 0) else if (j <? half)%nat then (P i (j - 1), P i j) else if (j =? half)%nat then (P i (j - 1), P i (j - 1)) else (P i (nt - j), P i (nt - j - 1)).
Proof.
  intros Hi Hj. assert (HL := half_lt). unfold plane_pol. destruct (Nat.eqb_spec j 0); [rewrite polkey_P by (left; lia); reflexivity|]. destruct (Nat.ltb_spec j half); [rewrite !polkey_P by (left; lia); reflexivity|]. destruct (Nat.eqb_spec j half); rewrite !polkey_P by (left; lia); reflexivity.
Qed.
Lemma connected_0 j : (j < nt)%nat -> connected 0 j = [T 0 (neg j); fst (plane_pol nt np 0 j); T 0 j; snd (plane_pol nt np 0 j)].
Proof. intros Hj. unfold WFModel.connected. cbn [Nat.eqb]. rewrite !torkey_T by lia. reflexivity. Qed.
Lemma connected_N j : (j < nt)%nat -> connected np j = [T (np - 1) j; fst (plane_pol nt np np j); T (np - 1) (neg j); snd (plane_pol nt np np j)].
Proof. intros Hj. unfold WFModel.connected. destruct (Nat.eqb_spec np 0); [lia|]. destruct (Nat.ltb_spec np np); [lia|]. rewrite !torkey_T by lia. reflexivity. Qed.
Lemma row_int i j x : (0 < i < np)%nat -> (j < nt)%nat -> dotr nt np (cont_row (connected i j)) x = netI x i j.
Proof.
  intros Hi Hj. rewrite connected_int by auto. assert (Hp : (pred_mod nt j < nt)%nat) by (unfold pred_mod; destruct (j =? 0)%nat; lia). assert (NP : pred_mod nt j <> j) by (unfold pred_mod; destruct (Nat.eqb_spec j 0); lia).
  rewrite cont_row_dot; [unfold netI; ring| | | | |].
  - apply NoDup4; try (apply T_P; lia); try (apply not_eq_sym, T_P; lia).
    + intros E. apply T_inj in E; lia. + intros E. apply P_inj in E; [|right; lia|right; lia]. lia.
  - apply T_lt_seg; lia. - apply P_lt; right; lia. - apply T_lt_seg; lia. - apply P_lt; right; lia.
Qed.
Lemma row_plane_vals x i j : (i = 0 \/ i = np)%nat -> (0 < j < half)%nat -> pol_net x i j = x (P i j) - x (P i (j - 1)) /\ pol_net x i (nt - j) = 0.
Proof.
  intros Hi Hj. unfold pol_net. destruct (Nat.ltb_spec j half); [|lia]. destruct (Nat.ltb_spec 0 j); [|lia]. destruct (Nat.leb_spec j half); [|lia]. cbn [andb]. split; [reflexivity|]. destruct (Nat.ltb_spec (nt - j) half); [lia|]. destruct (Nat.leb_spec (nt - j) half); [lia|]. rewrite andb_false_r. ring.
Qed.
Lemma row_0 j x : (0 < j < half)%nat -> dotr nt np (cont_row (connected 0 j)) x = net0 x j - net0 x (neg j).
Proof.
  intros Hj. rewrite connected_0 by lia. rewrite plane_pol_eq by lia. destruct (Nat.eqb_spec j 0); [lia|]. destruct (Nat.ltb_spec j half); [|lia]. cbn [fst snd]. rewrite neg_pos by lia. destruct (row_plane_vals x 0 j) as (E1 & E2); [lia|lia|]. unfold net0. rewrite E1, E2.
  rewrite cont_row_dot; [ring| | | | |].
  - apply NoDup4; try (apply T_P; lia); try (apply not_eq_sym, T_P; lia).
    + intros E. apply T_inj in E; lia. + intros E. apply P_inj in E; [|left; lia|left; lia]. lia.
  - apply T_lt_seg; lia. - apply P_lt; left; lia. - apply T_lt_seg; lia. - apply P_lt; left; lia.
Qed.
Lemma row_N j x : (0 < j < half)%nat -> dotr nt np (cont_row (connected np j)) x = netN x j - netN x (neg j).
Proof.
  intros Hj. rewrite connected_N by lia. rewrite plane_pol_eq by lia. destruct (Nat.eqb_spec j 0); [lia|]. destruct (Nat.ltb_spec j half); [|lia]. cbn [fst snd]. rewrite neg_pos by lia. destruct (row_plane_vals x np j) as (E1 & E2); [lia|lia|]. unfold netN. rewrite E1, E2.
  rewrite cont_row_dot; [ring| | | | |].
  - apply NoDup4; try (apply T_P; lia); try (apply not_eq_sym, T_P; lia).
    + intros E. apply T_inj in E; lia. + intros E. apply P_inj in E; [|left; lia|left; lia]. lia.
  - apply T_lt_seg; lia. - apply P_lt; left; lia. - apply T_lt_seg; lia. - apply P_lt; left; lia.
Qed.
(** ** What continuity says *)
Definition continuous (x : nat -> R) : Prop := forall i j, (i <= np)%nat -> (j < nt)%nat -> has_continuity nt np i j = true -> dotr nt np (cont_row (connected i j)) x = 0.
Lemma cont_int x : continuous x -> forall i j, (0 < i < np)%nat -> (j < nt)%nat -> netI x i j = 0.
Proof. intros Hx i j Hi Hj. rewrite <- row_int by auto. apply Hx; try lia. unfold has_continuity. destruct (Nat.eqb_spec i 0), (Nat.eqb_spec i np); try lia; reflexivity. Qed.
Lemma cont_plane (i : nat) (net : nat -> R) : (forall j, (0 < j < half)%nat -> net j - net (neg j) = 0) -> forall j, (j < nt)%nat -> net j - net (neg j) = 0.
Proof. clear Hnp.
  intros H j Hj. destruct (Nat.eq_dec j 0) as [->|]; [rewrite neg_0; ring|]. destruct (Nat.lt_trichotomy j half) as [L|[->|L]]; [apply H; lia|rewrite neg_pos by lia; replace (nt - half)%nat with half by lia; ring|].
  rewrite neg_pos by lia. assert (K := H (nt - j)%nat ltac:(lia)). rewrite neg_pos in K by lia. replace (nt - (nt - j))%nat with j in K by lia. lra.
Qed.
Lemma has_plane i j : (i = 0 \/ i = np)%nat -> (0 < j < half)%nat -> has_continuity nt np i j = true.
Proof. intros Hi Hj. unfold has_continuity. destruct (Nat.eqb_spec j 0); [lia|]. destruct (Nat.leb_spec half j); [lia|]. cbn [orb]. now rewrite andb_false_r. Qed.
Lemma cont_0 x : continuous x -> forall j, (j < nt)%nat -> net0 x j - net0 x (neg j) = 0.
Proof. intros Hx. apply (cont_plane 0). intros j Hj. rewrite <- row_0 by auto. apply Hx; [lia|lia|now apply has_plane; auto]. Qed.
Lemma cont_N x : continuous x -> forall j, (j < nt)%nat -> netN x j - netN x (neg j) = 0.
Proof. intros Hx. apply (cont_plane np). intros j Hj. rewrite <- row_N by auto. apply Hx; [lia|lia|now apply has_plane; auto]. Qed.

(** ** Positions *)
Variables (s : surf) (nfp : nat).
Hypothesis Hs : stellsym s = true.
Hypothesis Hnfp : (0 < nfp)%nat.
Notation pos := (node_pos nt np s nfp).
Notation gam := (gamma_at s nfp []).
Notation hp := (node_hp nt np s nfp).
Lemma hp_node i j : (j < nt)%nat -> hp (node i j) = gam (/ 2 / INR nfp * INR i / INR np) (INR j / INR nt).
Proof. intros Hj. unfold node_hp, WFModel.node. rewrite Nat.div_add_l, Nat.div_small, Nat.add_0_r by lia. replace (i * nt + j)%nat with (j + i * nt)%nat by lia. now rewrite Nat.mod_add, Nat.mod_small by lia. Qed.
Definition mirror (v : vec3) : vec3 := V3 (vx v) (- vy v) (- vz v).
Lemma gam_mirror qphi j : (j < nt)%nat -> mirror (gam qphi (INR (neg j) / INR nt)) = gam (- qphi) (INR j / INR nt).
Proof. clear Hnp.
  intros Hj. assert (NZ : INR nt <> 0) by (apply not_0_INR; lia). unfold mirror. rewrite <- (C65_stellsym s nfp [] qphi (INR (neg j) / INR nt) Hs). destruct j as [|j].
  - rewrite neg_0. replace (- (INR 0 / INR nt)) with (INR 0 / INR nt) by (cbn [INR]; field; auto). reflexivity.
  - rewrite neg_pos by lia. replace (INR (S j) / INR nt) with (- (INR (nt - S j) / INR nt) + 1) by (rewrite minus_INR by lia; field; auto). symmetry. apply (C65_field_period s nfp [] (- qphi) (- (INR (nt - S j) / INR nt)) Hnfp).
Qed.
Lemma rotz_0 v : rotz 0 v = v. Proof. unfold rotz. rewrite cos_0, sin_0. apply v3_eq; cbn [vx vy vz]; ring. Qed.
Lemma even_odd_f i : Nat.even (2 * i + 1) = false. Proof. rewrite Nat.even_add, Nat.even_mul. reflexivity. Qed.
Lemma pos_even i k : pos (2 * i) k = rotz (2 * INR i * PI / INR nfp) (hp k).
Proof. unfold node_pos. rewrite Nat.even_mul. cbn [Nat.even orb]. rewrite Nat.mul_comm, Nat.div_mul by lia. destruct (Nat.eqb_spec i 0) as [->|]; [|reflexivity]. cbn [INR]. replace (2 * 0 * PI / INR nfp) with 0 by (unfold Rdiv; ring). now rewrite rotz_0. Qed.
Lemma pos_odd i k : pos (2 * i + 1) k = rotz (2 * INR i * PI / INR nfp) (mirror (hp k)).
Proof. unfold node_pos. rewrite even_odd_f. replace ((2 * i + 1) / 2)%nat with i by (apply (Nat.div_unique _ 2 i 1); lia). destruct (Nat.eqb_spec i 0) as [->|]; [|reflexivity]. cbn [INR]. replace (2 * 0 * PI / INR nfp) with 0 by (unfold Rdiv; ring). now rewrite rotz_0. Qed.
Lemma rotz_rotz a b v : rotz a (rotz b v) = rotz (a + b) v.
Proof. unfold rotz. rewrite cos_plus, sin_plus. apply v3_eq; cbn [vx vy vz]; ring. Qed.
(** the copies of the nodes on the symmetry planes coincide in pairs *)
Lemma pos_plane0 i j : (j < nt)%nat -> pos (2 * i + 1) (node 0 (neg j)) = pos (2 * i) (node 0 j).
Proof. intros Hj. rewrite pos_odd, pos_even, !hp_node by (auto using neg_lt). rewrite gam_mirror by exact Hj. cbn [INR]. replace (- (/ 2 / INR nfp * 0 / INR np)) with (/ 2 / INR nfp * 0 / INR np) by (unfold Rdiv; ring). reflexivity. Qed.
Lemma pos_planeN i j : (i < nfp)%nat -> (j < nt)%nat -> pos (2 * ((i + 1) mod nfp) + 1) (node np (neg j)) = pos (2 * i) (node np j).
Proof.
  intros Hi Hj. assert (NZ : INR nfp <> 0) by (apply not_0_INR; lia). assert (PZ : INR np <> 0) by (apply not_0_INR; lia). rewrite pos_odd, pos_even, !hp_node by (auto using neg_lt). rewrite gam_mirror by exact Hj.
  replace (/ 2 / INR nfp * INR np / INR np) with (/ 2 / INR nfp) by (field; auto). replace (gam (/ 2 / INR nfp) (INR j / INR nt)) with (rotz (2 * PI / INR nfp) (gam (- (/ 2 / INR nfp)) (INR j / INR nt))).
  - rewrite rotz_rotz. destruct (Nat.eq_dec (i + 1) nfp) as [E|NE].
    + rewrite E, Nat.mod_same by lia. cbn [INR]. replace (2 * 0 * PI / INR nfp) with 0 by (unfold Rdiv; ring). replace (2 * INR i * PI / INR nfp + 2 * PI / INR nfp) with (2 * PI) by (rewrite <- E, plus_INR; cbn [INR]; field; rewrite <- S_INR; apply not_0_INR; lia). unfold rotz. now rewrite cos_0, sin_0, cos_2PI, sin_2PI.
    + rewrite Nat.mod_small by lia. f_equal. rewrite plus_INR. cbn [INR]. field. auto.
  - destruct (C65_field_period s nfp [] (- (/ 2 / INR nfp)) (INR j / INR nt) Hnfp) as (E & _). replace (- (/ 2 / INR nfp) + / INR nfp) with (/ 2 / INR nfp) in E by (field; auto). rewrite E. reflexivity.
Qed.
(** the net flow on the whole torus, tested with any function of position *)
Lemma torus_flux (F : vec3 -> R) x : continuous x ->
  sum_to (2 * nfp) (fun h => seg_sign h * sum_to nseg (fun s => x s * (F (pos h (seg_start s)) - F (pos h (seg_end s))))) = 0.
Proof.
  intros Hx. assert (E : forall h, sum_to nseg (fun s => x s * (F (pos h (seg_start s)) - F (pos h (seg_end s)))) = sum_to nt (fun j => net0 x j * F (pos h (node 0 j))) + sum_to nt (fun j => netN x j * F (pos h (node np j)))).
  { intros h. rewrite (flux_form x (fun k => F (pos h k))). rewrite (sum_to_nil (np - 1)); [ring|]. intros i Hi. apply sum_to_nil. intros j Hj. rewrite cont_int by (auto; lia). ring. }
  rewrite (sum_to_ext (2 * nfp) _ (fun h => seg_sign h * sum_to nt (fun j => net0 x j * F (pos h (node 0 j))) + seg_sign h * sum_to nt (fun j => netN x j * F (pos h (node np j))))) by (intros h _; rewrite E; ring). rewrite sum_to_plus.
  assert (SE : forall i, seg_sign (2 * i) = 1 /\ seg_sign (2 * i + 1) = -1) by (intros i; unfold seg_sign; rewrite Nat.even_add, Nat.even_mul; cbn; auto).
  assert (PI0 : forall f, sum_to nt (fun j => f (neg j)) = sum_to nt f) by (intros f; apply sum_to_perm; intros; [apply neg_lt|now apply neg_neg]).
  assert (A : sum_to (2 * nfp) (fun h => seg_sign h * sum_to nt (fun j => net0 x j * F (pos h (node 0 j)))) = 0).
  { rewrite sum_to_pairs. apply sum_to_nil. intros i Hi. destruct (SE i) as (-> & ->). rewrite <- (PI0 (fun j => net0 x j * F (pos (2 * i + 1) (node 0 j)))). rewrite (sum_to_ext nt (fun j => net0 x (neg j) * F (pos (2 * i + 1) (node 0 (neg j)))) (fun j => net0 x j * F (pos (2 * i) (node 0 j)))); [ring|]. intros j Hj. rewrite pos_plane0 by exact Hj. replace (net0 x (neg j)) with (net0 x j) by (assert (K := cont_0 x Hx j Hj); lra). reflexivity. }
  assert (B : sum_to (2 * nfp) (fun h => seg_sign h * sum_to nt (fun j => netN x j * F (pos h (node np j)))) = 0).
  { rewrite sum_to_pairs. rewrite (sum_to_ext nfp _ (fun i => sum_to nt (fun j => netN x j * F (pos (2 * i) (node np j))) - sum_to nt (fun j => netN x j * F (pos (2 * i + 1) (node np j))))) by (intros i Hi; destruct (SE i) as (-> & ->); ring). rewrite sum_to_minus. rewrite <- (sum_to_cyclic nfp (fun i => sum_to nt (fun j => netN x j * F (pos (2 * i + 1) (node np j))))) by exact Hnfp. rewrite <- sum_to_minus. apply sum_to_nil. intros i Hi.
    rewrite <- (PI0 (fun j => netN x j * F (pos (2 * ((i + 1) mod nfp) + 1) (node np j)))). rewrite (sum_to_ext nt (fun j => netN x (neg j) * F (pos (2 * ((i + 1) mod nfp) + 1) (node np (neg j)))) (fun j => netN x j * F (pos (2 * i) (node np j)))); [ring|]. intros j Hj. rewrite pos_planeN by auto. replace (netN x (neg j)) with (netN x j) by (assert (K := cont_N x Hx j Hj); lra). reflexivity. }
  rewrite A, B. ring.
Qed.
End Geom.
