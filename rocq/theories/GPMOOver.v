(** C86 (more iterations than sites), C88 (length of the histories). *)
From Coq Require Import Reals Lra Lia List Bool Arith ZArith ZifyNat Psatz.
From Verif Require Import ListAux VecAux CurveObjModel CurveObjProps GPMOModel GPMOProps.
Import ListNotations.
Open Scope R_scope.
Ltac Zify.zify_post_hook ::= Z.to_euclidean_division_equations.

(** ** Moments after rescaling *)
Theorem C86_moments N mmax x site : binary N x -> (forall s, 0 <= mmax s) -> let m := rescale mmax x in
  let norm := sqrt (m (3 * site)%nat * m (3 * site)%nat + m (3 * site + 1)%nat * m (3 * site + 1)%nat + m (3 * site + 2)%nat * m (3 * site + 2)%nat) in
  (empty x site /\ norm = 0) \/ (~ empty x site /\ norm = mmax site).
Proof.
  intros (B1 & B2 & _) MP m norm. assert (D : forall c, (c < 3)%nat -> ((3 * site + c) / 3 = site)%nat) by (intros; lia). assert (D0 := D O ltac:(lia)). assert (D1 := D 1%nat ltac:(lia)). assert (D2 := D 2%nat ltac:(lia)). rewrite Nat.add_0_r in D0.
  unfold norm, m, rescale. rewrite D0, D1, D2. assert (U := fun i j => B2 i j). assert (E0 := B1 (3 * site)%nat). assert (E1 := B1 (3 * site + 1)%nat). assert (E2 := B1 (3 * site + 2)%nat). unfold empty.
  assert (P01 : x (3 * site)%nat = 0 \/ x (3 * site + 1)%nat = 0) by (destruct (Req_EM_T (x (3 * site)%nat) 0); auto; destruct (Req_EM_T (x (3 * site + 1)%nat) 0); auto; assert (K := U _ _ n n0 ltac:(lia)); lia).
  assert (P02 : x (3 * site)%nat = 0 \/ x (3 * site + 2)%nat = 0) by (destruct (Req_EM_T (x (3 * site)%nat) 0); auto; destruct (Req_EM_T (x (3 * site + 2)%nat) 0); auto; assert (K := U _ _ n n0 ltac:(lia)); lia).
  assert (P12 : x (3 * site + 1)%nat = 0 \/ x (3 * site + 2)%nat = 0) by (destruct (Req_EM_T (x (3 * site + 1)%nat) 0); auto; destruct (Req_EM_T (x (3 * site + 2)%nat) 0); auto; assert (K := U _ _ n n0 ltac:(lia)); lia).
  clear U B1 B2 D D0 D1 D2 norm m. specialize (MP site). generalize dependent (x (3 * site)%nat). generalize dependent (x (3 * site + 1)%nat). generalize dependent (x (3 * site + 2)%nat). intros z Ez y Ey P12 w Ew P01 P02. generalize dependent (mmax site). intros M MP.
  assert (SQ : forall q, q = M * M -> sqrt q = M) by (intros q ->; now apply sqrt_square).
  destruct (Req_EM_T w 0) as [->|Nw]; [destruct (Req_EM_T y 0) as [->|Ny]; [destruct (Req_EM_T z 0) as [->|Nz]|]|].
  - left. split; [auto|]. replace (0 * M * (0 * M) + 0 * M * (0 * M) + 0 * M * (0 * M)) with 0 by ring. apply sqrt_0.
  - right. split; [tauto|]. apply SQ. destruct Ez as [|[->| ->]]; [contradiction| |]; ring.
  - right. split; [tauto|]. destruct P12 as [|P]; [contradiction|]. subst z. apply SQ. destruct Ey as [|[->| ->]]; [contradiction| |]; ring.
  - right. split; [tauto|]. destruct P01 as [|P]; [contradiction|]. destruct P02 as [|P']; [contradiction|]. subst y z. apply SQ. destruct Ew as [|[->| ->]]; [contradiction| |]; ring.
Qed.

(** ** More iterations than sites *)
Section Over.
Variables (ng N : nat) (A : nat -> nat -> R) (b : nat -> R) (mm : nat -> R) (sd : option nat).
Hypothesis Hsd : forall d, sd = Some d -> (d < 3)%nat.
Hypothesis Hmod : moderate ng N A b mm.
Hypothesis NP : (0 < N)%nat.
Notation after := (after ng N A b mm sd).
Notation place := (place ng N A mm sd).
(** all sites taken: every entry of R2s is the sentinel *)
Definition full (s : gst) : Prop := (forall p, r2s s p = e50 \/ (6 * N <= p)%nat) /\ forall j, (j < 3 * N)%nat -> gam s j = false.
Lemma amin_const n f : (forall p, (p <= n)%nat -> f p = e50) -> amin n f = O.
Proof. induction n as [|n IH]; intros H; [reflexivity|]. cbn [amin]. cbv zeta. rewrite IH by (intros; apply H; lia). rewrite !H by lia. destruct (Rlt_dec e50 e50); [lra|reflexivity]. Qed.
Lemma full_place s : full s -> full (place s) /\ gx (place s) = put (gx s) 0 1 /\ forall i, res (place s) i = res s i + 1 * A O i.
Proof.
  intros (F1 & F2). assert (SC : forall p, (p < 6 * N)%nat -> scan ng N A mm sd s p = e50). { intros p P. unfold scan, N3. destruct (Nat.ltb_spec p (3 * N)) as [L|L]; [rewrite F2 by lia|rewrite (F2 (p - 3 * N)%nat) by lia]; rewrite andb_false_r; destruct (F1 p); auto; lia. }
  assert (C : choice ng N A mm sd s = (O, 1)). { unfold choice. rewrite amin_const by (intros p Hp; apply SC; lia). cbv zeta. unfold N3. destruct (Nat.ltb_spec 0 (3 * N)); [reflexivity|lia]. }
  unfold GPMOModel.place. rewrite C. cbn [gx res]. split; [|split; reflexivity]. split; cbn [r2s gam].
  - intros p. destruct (Nat.lt_ge_cases p (6 * N)) as [L|L]; [left|right; lia]. destruct (samesite _ _); [reflexivity|]. now apply SC.
  - intros j Hj. destruct (samesite j 0); [reflexivity|now apply F2].
Qed.
Lemma after_full : full (after N).
Proof.
  destruct (after_inv ng N A b mm sd Hsd Hmod N (le_n N)) as ((B & RS & GM & R2) & M). assert (NE : forall s, (s < N)%nat -> ~ empty (gx (after N)) s).
  { intros s Hs E. assert (K := put_magnets N (gx (after N)) (3 * s) 1 ltac:(lia) ltac:(lra)). replace (3 * s / 3)%nat with s in K by lia. specialize (K E). assert (Q := magnets_le N (put (gx (after N)) (3 * s) 1)). lia. }
  split.
  - intros p. destruct (Nat.lt_ge_cases p (6 * N)) as [L|L]; [left|right; lia]. apply R2; [exact L|]. intros (C1 & _ & _ & C4). apply (NE (idx N p / 3)%nat); [lia|exact C4].
  - intros j Hj. destruct (gam (after N) j) eqn:E; [|reflexivity]. apply GM in E; [|exact Hj]. exfalso. apply (NE (j / 3)%nat); [lia|exact E].
Qed.
Lemma after_over n : full (after (N + n)) /\ (forall j, gx (after (N + n)) j = if ((0 <? n) && (j =? 0))%nat then 1 else gx (after N) j) /\ (forall i, res (after (N + n)) i = res (after N) i + INR n * A O i).
Proof.
  induction n as [|n (F & X & RS)]; [rewrite Nat.add_0_r; split; [exact after_full|split; [reflexivity|intros; cbn [INR]; ring]]|]. rewrite Nat.add_succ_r. change (after (S (N + n))) with (place (after (N + n))). destruct (full_place _ F) as (F' & X' & R'). split; [exact F'|]. split.
  - intros j. rewrite X'. unfold put. rewrite X. change (0 <? S n)%nat with true. destruct (Nat.eqb_spec j 0) as [->|NE]; [reflexivity|]. now rewrite andb_false_r.
  - intros i. rewrite R', RS, S_INR. ring.
Qed.
(** after N greedy placements, the x component of site 0 is set to +1, whatever is there, and the running residual drifts by that column in every further iteration *)
Theorem C86_overrun K nh : (N < K)%nat -> exists xs x, greedy_path ng N A b mm sd N xs /\ GPMO_baseline ng N A b mm sd false K nh = GDone [] x /\ (forall j, x j = put (xs N) 0 1 j) /\
  forall i, (i < ng)%nat -> res (after K) i = sum_to (3 * N) (fun j => A j i * xs N j) - b i + INR (K - N) * A O i.
Proof.
  intros L. exists (fun k => gx (after k)), (gx (after K)). split; [now apply after_greedy|]. destruct (after_over (K - N)) as (_ & X & RS). replace (N + (K - N))%nat with K in * by lia. split; [|split].
  - unfold GPMO_baseline. assert (Z : forall l, filter (recorded false K nh) l = []) by (induction l; [reflexivity|]; cbn [filter]; unfold recorded at 1; cbn [andb]; auto). change (@nil R) with (map (fun i => objective ng (after (S i))) []) at 1. change (ginit b) with (after 0). rewrite (loop_spec ng N A b mm sd Hsd false K nh K 0 []) by (auto; rewrite Z; cbn; lia). rewrite Z. reflexivity.
  - intros j. rewrite X. unfold put. destruct (Nat.ltb_spec 0 (K - N)); [|lia]. reflexivity.
  - intros i Hi. rewrite RS. destruct (after_inv ng N A b mm sd Hsd Hmod N (le_n N)) as ((_ & R' & _) & _). now rewrite (R' i Hi).
Qed.
End Over.
(** with the default number of iterations (1000) and one site the returned moment has two nonzero components and exceeds its maximum *)
Definition qA : nat -> nat -> R := fun j _ => if (j =? 1)%nat then 1 else 0.
Lemma q_moderate : moderate 1 1 qA (fun _ => 1) (fun _ => 0).
Proof.
  intros x B j _. unfold misfit, sum_to, qA. cbn [seq map rsuml Nat.mul Nat.add Nat.eqb]. assert (P : 10 < 10 ^ 50) by (replace 10 with (10 ^ 1) at 1 by ring; apply Rlt_pow; [lra|lia]). destruct (B 1%nat) as [E|[E|E]]; rewrite E; lra.
Qed.
Theorem C86_overrun_refuted : exists ng N A b mm, moderate ng N A b mm /\ (0 < N)%nat /\ (forall nh, exists x, GPMO_baseline ng N A b mm None false (wrapper_K N None) nh = GDone [] x /\ ~ binary N x /\
  forall M, 0 < M -> let m := rescale (fun _ => M) x in M < sqrt (m 0%nat * m 0%nat + m 1%nat * m 1%nat + m 2%nat * m 2%nat)).
Proof.
  exists 1%nat, 1%nat, qA, (fun _ => 1), (fun _ => 0). split; [exact q_moderate|]. split; [lia|]. intros nh.
  destruct (C86_overrun 1 1 qA (fun _ => 1) (fun _ => 0) None ltac:(discriminate) q_moderate ltac:(lia) (wrapper_K 1 None) nh ltac:(cbn; lia)) as (xs & x & (G0 & GS) & E & X & _). exists x. split; [exact E|].
  destruct (GS O ltac:(lia)) as (j & sg & (C1 & _ & C3 & _) & BE & S1). assert (Z : forall i, xs O i = 0) by exact G0.
  assert (C : candidate 1 None (xs O) 1 1). { split; [lia|]. split; [exact I|]. split; [auto|]. repeat split; apply Z. }
  assert (SC := BE _ _ C). assert (JE : j = 1%nat /\ sg = 1). { unfold score, misfit, sum_to, put, qA in SC. cbn [seq map rsuml Nat.mul Nat.add] in SC. rewrite !Z in SC. destruct j as [|[|[|j]]]; cbn [Nat.eqb] in SC; try lia; try (exfalso; destruct C3; subst sg; lra). split; [reflexivity|]. destruct C3 as [|E']; [assumption|]. exfalso. subst sg. lra. }
  destruct JE as (-> & ->). assert (X1 : x 1%nat = 1) by (rewrite X; unfold put at 1; cbn [Nat.eqb]; rewrite S1; reflexivity). assert (X0 : x O = 1) by (rewrite X; reflexivity).
  split. { intros (_ & B2 & _). assert (K := B2 O 1%nat ltac:(lra) ltac:(lra) eq_refl). discriminate. }
  intros M MP m. unfold m, rescale. rewrite X0, X1. rewrite <- (sqrt_square M) at 1 by lra. apply sqrt_lt_1_alt. assert (0 <= x 2%nat * M * (x 2%nat * M)) by (pose proof (Rle_0_sqr (x 2%nat * M)) as Q; unfold Rsqr in Q; exact Q). nra.
Qed.

(** ** How many iterations are recorded *)
Lemma count_div q n : (0 < q)%nat -> length (filter (fun k => (k mod q =? 0)%nat) (seq 0 n)) = ((n + q - 1) / q)%nat.
Proof.
  intros Q. induction n as [|n IH]; [cbn; symmetry; apply Nat.div_small; lia|]. replace (S n + q - 1)%nat with (n + 1 * q)%nat by lia. rewrite Nat.div_add by lia. rewrite seq_S, filter_app, app_length, IH. cbn [plus filter].
  destruct (Nat.eqb_spec (n mod q) 0) as [Z|NZ]; cbn [length].
  - assert (E : n = (q * (n / q))%nat) by (assert (D := Nat.div_mod n q ltac:(lia)); lia). assert (S0 : ((n + q - 1) / q = n / q)%nat). { symmetry. apply Nat.div_unique with (r := (q - 1)%nat); [lia|]. lia. } lia.
  - assert (D := Nat.div_mod n q ltac:(lia)). assert (U := Nat.mod_upper_bound n q ltac:(lia)). assert (S0 : ((n + q - 1) / q = n / q + 1)%nat). { symmetry. apply Nat.div_unique with (r := (n mod q - 1)%nat); lia. } lia.
Qed.
(** every int(K / nhistory)-th iteration, and the last one *)
Theorem C88_count K nh : (0 < nh <= K)%nat -> length (filter (recorded true K nh) (seq 0 K)) = ((K - 1) / (K / nh) + 1 + if ((K - 1) mod (K / nh) =? 0)%nat then 0 else 1)%nat.
Proof.
  intros (NP & L). assert (Q : (0 < K / nh)%nat) by (apply Nat.div_str_pos; lia). set (q := (K / nh)%nat) in *. destruct K as [|K]; [lia|]. replace (S K - 1)%nat with K by lia. rewrite seq_S, filter_app, app_length. cbn [plus filter].
  assert (E : filter (recorded true (S K) nh) (seq 0 K) = filter (fun k => (k mod q =? 0)%nat) (seq 0 K)). { apply filter_ext_in. intros k Hk. apply in_seq in Hk. unfold recorded. fold q. cbn [andb]. destruct (Nat.eqb_spec k (S K - 1)); [lia|]. destruct (Nat.eqb_spec k 0) as [->|]; [rewrite Nat.mod_0_l by lia; reflexivity|]. now rewrite !orb_false_r. }
  rewrite E, count_div by exact Q. unfold recorded. fold q. cbn [andb]. replace (S K - 1)%nat with K by lia. rewrite Nat.eqb_refl, orb_true_r. cbn [length].
  assert (D := Nat.div_mod K q ltac:(lia)). assert (U := Nat.mod_upper_bound K q ltac:(lia)). destruct (Nat.eqb_spec (K mod q) 0) as [Z|NZ].
  - assert (S0 : ((K + q - 1) / q = K / q)%nat). { symmetry. apply Nat.div_unique with (r := (q - 1)%nat); lia. } lia.
  - assert (S0 : ((K + q - 1) / q = K / q + 1)%nat). { symmetry. apply Nat.div_unique with (r := (K mod q - 1)%nat); lia. } lia.
Qed.
(** enough room when nhistory divides K, not for K = 2 nhistory - 1 (nhistory >= 3) *)
Theorem C88_divides nh q : (0 < nh)%nat -> (0 < q)%nat -> (length (filter (recorded true (q * nh) nh) (seq 0 (q * nh))) <= nh + 1)%nat.
Proof.
  intros NP Q. rewrite C88_count by nia. rewrite Nat.div_mul by lia. assert (D : ((q * nh - 1) / q = nh - 1)%nat). { symmetry. apply Nat.div_unique with (r := (q - 1)%nat); [lia|]. destruct nh; [lia|]. nia. } rewrite D. destruct (_ =? 0)%nat; lia.
Qed.
Theorem C88_overflow ng N A b mm sd nh : (forall d, sd = Some d -> (d < 3)%nat) -> (3 <= nh)%nat -> GPMO_baseline ng N A b mm sd true (2 * nh - 1) nh = GOutOfBounds.
Proof.
  intros Hsd L. apply (C88_baseline ng N A b mm sd Hsd true (2 * nh - 1) nh ltac:(lia)). split; [reflexivity|]. split; [lia|]. assert (Q : ((2 * nh - 1) / nh = 1)%nat) by (symmetry; apply Nat.div_unique with (r := (nh - 1)%nat); lia). rewrite C88_count by lia. rewrite Q, Nat.div_1_r, Nat.mod_1_r. cbn [Nat.eqb]. lia.
Qed.
(** a run that meets the hypotheses of C86_greedy *)
Example C86_meets : exists hist x, moderate 1 1 qA (fun _ => 1) (fun _ => 0) /\ GPMO_baseline 1 1 qA (fun _ => 1) (fun _ => 0) None true 1 1 = GDone hist x /\ length hist = 1%nat.
Proof. do 2 eexists. split; [exact q_moderate|]. split; reflexivity. Qed.
