(** C86: the baseline greedy solver. *)
From Coq Require Import Reals Lra Lia List Bool Arith ZArith ZifyNat.
From Verif Require Import ListAux VecAux CurveObjModel CurveObjProps GPMOModel.
Import ListNotations.
Open Scope R_scope.
Ltac Zify.zify_post_hook ::= Z.to_euclidean_division_equations.

(** ** amin *)
Lemma amin_le n f : (amin n f <= n)%nat.
Proof. induction n as [|n IH]; cbn [amin]; [lia|]. cbv zeta. destruct (Rlt_dec _ _); lia. Qed.
Lemma amin_min n f j : (j <= n)%nat -> f (amin n f) <= f j.
Proof. induction n as [|n IH]; intros H; cbn [amin]; [replace j with O by lia; lra|]. cbv zeta. destruct (Rlt_dec _ _) as [L|L]; (destruct (Nat.eq_dec j (S n)) as [->|NE]; [lra|]); assert (K := IH ltac:(lia)); lra. Qed.
Lemma amin_first n f j : (j < amin n f)%nat -> f (amin n f) < f j.
Proof. induction n as [|n IH]; cbn [amin]; [lia|]. cbv zeta. destruct (Rlt_dec _ _) as [L|L]; intros H; [|auto]. assert (K := amin_min n f j ltac:(lia)). lra. Qed.
Lemma sum_to_S n f : sum_to (S n) f = sum_to n f + f n.
Proof. unfold sum_to. rewrite seq_S, map_app, rsuml_app. cbn [map rsuml plus]. ring. Qed.
Lemma sum_to_nil n (f : nat -> R) : (forall k, (k < n)%nat -> f k = 0) -> sum_to n f = 0.
Proof. intros H. induction n as [|n IH]; [reflexivity|]. rewrite sum_to_S, IH, H by (auto || lia). ring. Qed.
Lemma sum_to_upd n (a x : nat -> R) j v : (j < n)%nat -> sum_to n (fun i => a i * upd x j v i) = sum_to n (fun i => a i * x i) + a j * (v - x j).
Proof.
  revert j. induction n as [|n IH]; intros j H; [lia|]. rewrite !sum_to_S. unfold upd at 2. destruct (Nat.eq_dec j n) as [->|NE].
  - rewrite Nat.eqb_refl. rewrite (sum_to_ext n (fun i => a i * upd x n v i) (fun i => a i * x i)); [ring|]. intros i Hi. unfold upd. destruct (Nat.eqb_spec i n); [lia|reflexivity].
  - rewrite IH by lia. destruct (Nat.eqb_spec n j); [lia|]. ring.
Qed.

Section Spec.
Variables (ng N : nat) (A : nat -> nat -> R) (b : nat -> R) (mm : nat -> R) (sd : option nat).
(** |A x - b|^2 *)
Definition misfit (x : nat -> R) : R := sum_to ng (fun i => (sum_to (3 * N) (fun j => A j i * x j) - b i) * (sum_to (3 * N) (fun j => A j i * x j) - b i)).
(** no magnet at a site *)
Definition empty (x : nat -> R) (site : nat) : Prop := x (3 * site)%nat = 0 /\ x (3 * site + 1)%nat = 0 /\ x (3 * site + 2)%nat = 0.
Definition put (x : nat -> R) (j : nat) (sg : R) : nat -> R := fun i => if (i =? j)%nat then sg else x i.
(** a magnet that may be placed: an allowed direction, either sign, at an empty site *)
Definition candidate (x : nat -> R) (j : nat) (sg : R) : Prop := (j < 3 * N)%nat /\ (match sd with None => True | Some d => (j mod 3 = d)%nat end) /\ (sg = 1 \/ sg = -1) /\ empty x (j / 3).
Definition score (x : nat -> R) (j : nat) (sg : R) : R := misfit (put x j sg) + mm j * mm j.
(** magnets placed one by one, each time one of the best candidates: xs k after k placements *)
Definition greedy_path (K : nat) (xs : nat -> nat -> R) : Prop := (forall j, xs O j = 0) /\
  forall k, (k < K)%nat -> exists j sg, candidate (xs k) j sg /\ (forall j' sg', candidate (xs k) j' sg' -> score (xs k) j sg <= score (xs k) j' sg') /\ forall i, xs (S k) i = put (xs k) j sg i.
Definition emptyb (x : nat -> R) (site : nat) : bool := Reqb (x (3 * site)%nat) 0 && Reqb (x (3 * site + 1)%nat) 0 && Reqb (x (3 * site + 2)%nat) 0.
(** number of sites with a magnet *)
Definition magnets (x : nat -> R) : nat := length (filter (fun s => negb (emptyb x s)) (seq 0 N)).
(** at most one component per site, of size 0 or 1 *)
Definition binary (x : nat -> R) : Prop := (forall j, x j = 0 \/ x j = 1 \/ x j = -1) /\ (forall i j, x i <> 0 -> x j <> 0 -> (i / 3 = j / 3)%nat -> i = j) /\ (forall j, (3 * N <= j)%nat -> x j = 0).
(** no candidate reaches the sentinel 1e50 *)
Definition moderate : Prop := forall x, (forall j, x j = 0 \/ x j = 1 \/ x j = -1) -> forall j, (j < 3 * N)%nat -> misfit x + mm j * mm j < 10 ^ 50.

End Spec.
Section Facts.
Variable N : nat.
Notation magnets := (magnets N).
Notation binary := (binary N).
Lemma Reqb_spec a c : reflect (a = c) (Reqb a c).
Proof. unfold Reqb. destruct (Req_EM_T a c); constructor; auto. Qed.
Lemma emptyb_spec x s : emptyb x s = true <-> empty x s.
Proof. unfold emptyb, empty. rewrite !andb_true_iff. destruct (Reqb_spec (x (3 * s)%nat) 0), (Reqb_spec (x (3 * s + 1)%nat) 0), (Reqb_spec (x (3 * s + 2)%nat) 0); intuition (try lra; try discriminate). Qed.
Lemma empty_comp x j : empty x (j / 3) -> x j = 0.
Proof. intros (A0 & A1 & A2). assert (E : (j = 3 * (j / 3) \/ j = 3 * (j / 3) + 1 \/ j = 3 * (j / 3) + 2)%nat) by lia. destruct E as [E|[E|E]]; rewrite E; auto. Qed.
Lemma empty_iff x s : empty x s <-> forall j, (j / 3 = s)%nat -> x j = 0.
Proof. split; [intros E j <-; now apply empty_comp|]. intros H. repeat split; apply H; lia. Qed.
Lemma put_empty x j sg s : sg <> 0 -> empty (put x j sg) s <-> empty x s /\ s <> (j / 3)%nat.
Proof.
  intros NZ. rewrite !empty_iff. split.
  - intros H. assert (NE : s <> (j / 3)%nat). { intros ->. specialize (H j eq_refl). unfold put in H. rewrite Nat.eqb_refl in H. auto. } split; [|auto]. intros i Hi. specialize (H i Hi). unfold put in H. destruct (Nat.eqb_spec i j) as [EE|]; [exfalso; apply NE; rewrite <- Hi; now rewrite EE|auto].
  - intros (H & NE) i Hi. unfold put. destruct (Nat.eqb_spec i j) as [EE|]; [exfalso; apply NE; rewrite <- Hi; now rewrite EE|auto].
Qed.
Lemma count_flip (p q : nat -> bool) n a k0 : (k0 <= a < k0 + n)%nat -> p a = false -> q a = true -> (forall s, (k0 <= s < k0 + n)%nat -> s <> a -> p s = q s) -> length (filter q (seq k0 n)) = S (length (filter p (seq k0 n))).
Proof.
  revert k0. induction n as [|n IH]; intros k0 H Pa Qa E; [lia|]. cbn [seq filter]. destruct (Nat.eq_dec k0 a) as [->|NE].
  - rewrite Pa, Qa. cbn [length]. f_equal. f_equal. apply filter_ext_in. intros s Hs. apply in_seq in Hs. symmetry. apply E; lia.
  - rewrite (E k0) by lia. destruct (q k0); cbn [length]; rewrite (IH (S k0)); auto; try lia; intros; apply E; lia.
Qed.
Lemma put_magnets x j sg : (j < 3 * N)%nat -> sg <> 0 -> empty x (j / 3) -> magnets (put x j sg) = S (magnets x).
Proof.
  intros J NZ E. unfold magnets. apply count_flip with (a := (j / 3)%nat); [lia| | |].
  - apply negb_false_iff. now apply emptyb_spec.
  - apply negb_true_iff. destruct (emptyb (put x j sg) (j / 3)) eqn:B; [|reflexivity]. apply emptyb_spec, put_empty in B; [|auto]. tauto.
  - intros s _ NE. f_equal. destruct (emptyb (put x j sg) s) eqn:B1, (emptyb x s) eqn:B2; auto.
    + apply emptyb_spec, put_empty in B1; [|auto]. destruct B1 as (B1 & _). apply emptyb_spec in B1. congruence.
    + apply emptyb_spec in B2. assert (K : empty (put x j sg) s) by (apply put_empty; auto). apply emptyb_spec in K. congruence.
Qed.
Lemma put_binary x j sg : (j < 3 * N)%nat -> sg = 1 \/ sg = -1 -> empty x (j / 3) -> binary x -> binary (put x j sg).
Proof.
  intros J SG E (B1 & B2 & B3). split; [|split].
  - intros i. unfold put. destruct (i =? j)%nat; [destruct SG; auto|auto].
  - intros i k. unfold put. destruct (Nat.eqb_spec i j) as [->|NI], (Nat.eqb_spec k j) as [->|NK]; auto; intros X Y S.
    + exfalso. apply Y. rewrite S in E. now apply empty_comp. + exfalso. apply X. rewrite <- S in E. now apply empty_comp.
  - intros i Hi. unfold put. destruct (Nat.eqb_spec i j); [lia|auto].
Qed.
Lemma empty_ext x y s : (forall j, x j = y j) -> empty x s <-> empty y s.
Proof. intros E. unfold empty. now rewrite !E. Qed.
Lemma magnets_ext x y : (forall j, x j = y j) -> magnets x = magnets y.
Proof. intros E. unfold magnets. f_equal. apply filter_ext. intros s. unfold emptyb. now rewrite !E. Qed.
Lemma binary_ext x y : (forall j, x j = y j) -> binary x -> binary y.
Proof. intros E (B1 & B2 & B3). split; [intros j; rewrite <- E; auto|]. split; [intros i j; rewrite <- !E; auto|intros j Hj; rewrite <- E; auto]. Qed.
Lemma magnets_0 x : (forall j, x j = 0) -> magnets x = O.
Proof. intros Z0. unfold magnets. assert (Z : forall l, filter (fun s => negb (emptyb x s)) l = []). { induction l as [|a l IH]; [reflexivity|]. cbn [filter]. unfold emptyb at 1. rewrite !Z0. destruct (Reqb_spec 0 0); [exact IH|lra]. } now rewrite Z. Qed.
Lemma magnets_le x : (magnets x <= N)%nat.
Proof. unfold magnets. transitivity (length (seq 0 N)); [|rewrite seq_length; lia]. generalize (seq 0 N). induction l as [|a l IH]; [cbn; lia|]. cbn [filter]. destruct (negb _); cbn [length]; lia. Qed.
(** fewer magnets than sites: an empty site *)
Lemma magnets_lt x : (magnets x < N)%nat -> exists s, (s < N)%nat /\ empty x s.
Proof.
  intros H. assert (K : forall n k0, (length (filter (fun s => negb (emptyb x s)) (seq k0 n)) < n)%nat -> exists s, (k0 <= s < k0 + n)%nat /\ empty x s).
  { induction n as [|n IH]; intros k0 L; [lia|]. cbn [seq filter] in L. destruct (emptyb x k0) eqn:E; [exists k0; split; [lia|now apply emptyb_spec]|]. cbn [negb length] in L. destruct (IH (S k0)) as (s & Hs & Es); [lia|]. exists s. split; [lia|auto]. }
  destruct (K N O H) as (s & Hs & Es). exists s. split; [lia|auto].
Qed.

End Facts.
Section Main.
Variables (ng N : nat) (A : nat -> nat -> R) (b : nat -> R) (mm : nat -> R) (sd : option nat).
Notation misfit := (misfit ng N A b).
Notation candidate := (candidate N sd).
Notation score := (score ng N A b mm).
Notation greedy_path := (greedy_path ng N A b mm sd).
Notation magnets := (magnets N).
Notation binary := (binary N).
(** what a greedy sequence has placed *)
Lemma greedy_facts K xs k : greedy_path K xs -> (k <= K)%nat -> binary (xs k) /\ magnets (xs k) = k /\ (forall d j, sd = Some d -> xs k j <> 0 -> (j mod 3 = d)%nat).
Proof.
  intros (G0 & GS). induction k as [|k IH]; intros L.
  - split; [split; [auto|split; [intros i j; rewrite G0; lra|auto]]|]. split; [now apply magnets_0|]. intros d j _. rewrite G0. lra.
  - destruct IH as (B & M & D); [lia|]. destruct (GS k ltac:(lia)) as (j & sg & (C1 & C2 & C3 & C4) & _ & E). split; [apply (binary_ext N (put (xs k) j sg)); [now intros; symmetry|now apply put_binary]|]. split; [rewrite (magnets_ext N _ _ E), put_magnets; [now rewrite M|auto|destruct C3; lra|auto]|].
    intros d i SD. rewrite E. unfold put. destruct (Nat.eqb_spec i j) as [->|]; [rewrite SD in C2; auto|intros; now apply (D d)].
Qed.
Hypothesis Hsd : forall d, sd = Some d -> (d < 3)%nat.
Hypothesis Hmod : moderate ng N A b mm.
Notation place := (place ng N A mm sd).
Notation choice := (choice ng N A mm sd).
Notation scan := (scan ng N A mm sd).
Definition idx (p : nat) : nat := if (p <? 3 * N)%nat then p else (p - 3 * N)%nat.
Definition sgn6 (p : nat) : R := if (p <? 3 * N)%nat then 1 else -1.
Definition Inv (s : gst) : Prop := binary (gx s) /\ (forall i, (i < ng)%nat -> res s i = sum_to (3 * N) (fun j => A j i * gx s j) - b i) /\ (forall j, (j < 3 * N)%nat -> gam s j = true <-> empty (gx s) (j / 3)) /\
  (forall p, (p < 6 * N)%nat -> ~ candidate (gx s) (idx p) (sgn6 p) -> r2s s p = e50).
Lemma visited_spec j : visited N sd j = true <-> (j < 3 * N)%nat /\ (match sd with None => True | Some d => (j mod 3 = d)%nat end).
Proof. unfold visited, N3. destruct sd as [d|] eqn:E; [|lia]. assert (D := Hsd d eq_refl). lia. Qed.
Lemma misfit_ext x y : (forall j, x j = y j) -> misfit x = misfit y.
Proof. intros E. unfold misfit. apply sum_to_ext. intros i _. rewrite (sum_to_ext (3 * N) (fun j => A j i * x j) (fun j => A j i * y j)) by (intros; now rewrite E). reflexivity. Qed.
Lemma score_eq s j sg : Inv s -> candidate (gx s) j sg -> R2of ng A mm s sg j = score (gx s) j sg.
Proof.
  intros (B & RS & _) (C1 & _ & _ & C4). unfold R2of, score, misfit. f_equal. apply sum_to_ext. intros i Hi. rewrite (RS i Hi). change (put (gx s) j sg) with (upd (gx s) j sg). rewrite (sum_to_upd (3 * N) (fun j => A j i) (gx s) j sg C1). rewrite (empty_comp _ _ C4). ring.
Qed.
Lemma cand_score x j sg : (forall j, x j = 0 \/ x j = 1 \/ x j = -1) -> candidate x j sg -> score x j sg < e50.
Proof. intros B (C1 & _ & C3 & _). apply Hmod; [|exact C1]. intros i. unfold put. destruct (i =? j)%nat; [destruct C3; auto|auto]. Qed.
Lemma cand_dec x j sg : (sg = 1 \/ sg = -1) -> {candidate x j sg} + {~ candidate x j sg}.
Proof.
  intros SG. destruct (visited N sd j) eqn:V; [|right; intros (C1 & C2 & _); assert (visited N sd j = true) by (apply visited_spec; auto); congruence]. apply visited_spec in V. destruct (emptyb x (j / 3)) eqn:E.
  - left. apply emptyb_spec in E. destruct V. repeat split; auto; apply E.
  - right. intros (_ & _ & _ & C4). apply emptyb_spec in C4. congruence.
Qed.
Lemma sgn6_pm p : sgn6 p = 1 \/ sgn6 p = -1. Proof. unfold sgn6. destruct (p <? _)%nat; auto. Qed.
Lemma idx_lt p : (p < 6 * N)%nat -> (idx p < 3 * N)%nat. Proof. unfold idx. destruct (Nat.ltb_spec p (3 * N)); lia. Qed.
Lemma scan_spec s p : Inv s -> (p < 6 * N)%nat -> (candidate (gx s) (idx p) (sgn6 p) -> scan s p = score (gx s) (idx p) (sgn6 p)) /\ (~ candidate (gx s) (idx p) (sgn6 p) -> scan s p = e50).
Proof.
  intros I P. assert (S0 : scan s p = if visited N sd (idx p) && gam s (idx p) then R2of ng A mm s (sgn6 p) (idx p) else r2s s p). { unfold GPMOModel.scan, idx, sgn6, N3. destruct (p <? 3 * N)%nat; reflexivity. }
  assert (CE : visited N sd (idx p) && gam s (idx p) = true <-> candidate (gx s) (idx p) (sgn6 p)). { destruct I as (_ & _ & GM & _). rewrite andb_true_iff, visited_spec, GM by (now apply idx_lt). unfold candidate. assert (Q := sgn6_pm p). tauto. }
  split; intros C.
  - rewrite S0. rewrite (proj2 CE C). now apply score_eq.
  - rewrite S0. destruct (visited N sd (idx p) && gam s (idx p)) eqn:V; [exfalso; apply C, CE, eq_refl|]. now apply I.
Qed.
Lemma choice_best s j sg : Inv s -> (magnets (gx s) < N)%nat -> choice s = (j, sg) -> candidate (gx s) j sg /\ forall j' sg', candidate (gx s) j' sg' -> score (gx s) j sg <= score (gx s) j' sg'.
Proof.
  intros I ML E. unfold GPMOModel.choice in E. cbv zeta in E. set (p := amin (6 * N - 1) (scan s)) in *. assert (PL : (p < 6 * N)%nat) by (assert (K := amin_le (6 * N - 1) (scan s)); fold p in K; lia).
  assert (E' : j = idx p /\ sg = sgn6 p). { unfold idx, sgn6. unfold N3 in E. destruct (p <? 3 * N)%nat; injection E as <- <-; auto. } destruct E' as (-> & ->). clear E.
  assert (BB : forall j, gx s j = 0 \/ gx s j = 1 \/ gx s j = -1) by apply I.
  assert (KEY : forall j' sg', candidate (gx s) j' sg' -> scan s p <= score (gx s) j' sg'). { intros j' sg' C. destruct C as (C1 & C2 & C3 & C4). pose (q := if Req_EM_T sg' 1 then j' else (3 * N + j')%nat). assert (Q : (q < 6 * N)%nat /\ idx q = j' /\ sgn6 q = sg'). { unfold q, idx, sgn6. destruct (Req_EM_T sg' 1) as [->|NE]; [destruct (Nat.ltb_spec j' (3 * N)); [repeat split; lia|lia]|]. destruct (Nat.ltb_spec (3 * N + j') (3 * N)); [lia|]. split; [lia|]. split; [lia|]. destruct C3; [contradiction|auto]. }
    destruct Q as (Q1 & Q2 & Q3). assert (K := amin_min (6 * N - 1) (scan s) q ltac:(lia)). fold p in K. destruct (scan_spec s q I Q1) as (SQ & _). rewrite Q2, Q3 in SQ. rewrite SQ in K; [exact K|]. repeat split; auto; apply C4. }
  assert (CP : candidate (gx s) (idx p) (sgn6 p)). { destruct (cand_dec (gx s) (idx p) (sgn6 p) (sgn6_pm p)) as [|NC]; [assumption|]. exfalso. destruct (scan_spec s p I PL) as (_ & SP). specialize (SP NC). destruct (magnets_lt N (gx s) ML) as (st & S1 & S2).
    set (d := match sd with Some d => d | None => O end). assert (D3 : (d < 3)%nat) by (unfold d; destruct sd as [d'|]; [now apply Hsd|lia]). assert (DV : ((3 * st + d) / 3 = st)%nat) by lia. assert (C : candidate (gx s) (3 * st + d) 1). { split; [lia|]. split; [unfold d in *; destruct sd; [lia|auto]|]. split; [auto|]. rewrite DV. exact S2. }
    assert (K := KEY _ _ C). assert (L := cand_score _ _ _ BB C). lra. }
  split; [exact CP|]. intros j' sg' C. destruct (scan_spec s p I PL) as (SP & _). rewrite <- (SP CP). now apply KEY.
Qed.
Lemma place_eq s j sg : choice s = (j, sg) -> gx (place s) = put (gx s) j sg.
Proof. intros E. unfold GPMOModel.place. rewrite E. reflexivity. Qed.
Lemma place_inv s : Inv s -> (magnets (gx s) < N)%nat -> Inv (place s).
Proof.
  intros I ML. destruct (choice s) as [j sg] eqn:E. destruct (choice_best s j sg I ML E) as ((C1 & C2 & C3 & C4) & _). assert (NZ : sg <> 0) by (destruct C3; lra). assert (I' := I). destruct I' as (B & RS & GM & R2). split; [rewrite (place_eq s j sg E); now apply put_binary|]. split; [|split].
  - intros i Hi. rewrite (place_eq s j sg E). change (put (gx s) j sg) with (upd (gx s) j sg). rewrite (sum_to_upd (3 * N) (fun j => A j i) (gx s) j sg C1), (empty_comp _ _ C4). unfold GPMOModel.place. rewrite E. cbn [res]. rewrite (RS i Hi). ring.
  - intros i Hi. rewrite (place_eq s j sg E), put_empty by exact NZ. unfold GPMOModel.place. rewrite E. cbn [gam]. unfold samesite. destruct (Nat.eqb_spec (i / 3) (j / 3)) as [->|NE]; [split; [discriminate|tauto]|]. rewrite (GM i Hi). tauto.
  - intros p P NC. rewrite (place_eq s j sg E) in NC. unfold GPMOModel.place. rewrite E. cbn [r2s]. fold (idx p). change (if (p <? N3 N)%nat then p else (p - N3 N)%nat) with (idx p). unfold samesite. destruct (Nat.eqb_spec (idx p / 3) (j / 3)) as [|NE]; [reflexivity|]. apply (scan_spec s p I P). intros (D1 & D2 & D3 & D4). apply NC. split; [auto|]. split; [auto|]. split; [auto|]. apply put_empty; auto.
Qed.
Lemma init_inv : Inv (ginit b).
Proof.
  split; [split; [auto|split; [intros; cbn in *; lra|auto]]|]. split; [|split].
  - intros i Hi. cbn [ginit res gx]. rewrite sum_to_nil by (intros; ring). ring.
  - intros j _. cbn [ginit gam gx]. split; [intros _; repeat split; reflexivity|auto].
  - reflexivity.
Qed.
Definition after (k : nat) : gst := Nat.iter k place (ginit b).
Lemma after_S k : after (S k) = place (after k). Proof. reflexivity. Qed.
Lemma after_inv k : (k <= N)%nat -> Inv (after k) /\ magnets (gx (after k)) = k.
Proof.
  induction k as [|k IH]; intros L; [split; [exact init_inv|now apply magnets_0]|]. destruct IH as (I & M); [lia|]. rewrite after_S. split; [apply place_inv; auto; lia|]. destruct (choice (after k)) as [j sg] eqn:E. destruct (choice_best (after k) j sg I ltac:(lia) E) as ((C1 & C2 & C3 & C4) & _). rewrite (place_eq _ j sg E), put_magnets; [now rewrite M|auto|destruct C3; lra|auto].
Qed.
Lemma after_greedy K : (K <= N)%nat -> greedy_path K (fun k => gx (after k)).
Proof.
  intros L. split; [reflexivity|]. intros k Hk. destruct (after_inv k ltac:(lia)) as (I & M). destruct (choice (after k)) as [j sg] eqn:E. destruct (choice_best (after k) j sg I ltac:(lia) E) as (C & BE). exists j, sg. split; [exact C|]. split; [exact BE|]. intros i. now rewrite after_S, (place_eq _ j sg E).
Qed.
Lemma objective_eq s : Inv s -> objective ng s = / 2 * misfit (gx s).
Proof. intros (_ & RS & _). unfold objective, misfit. f_equal. apply sum_to_ext. intros i Hi. now rewrite (RS i Hi). Qed.
(** the iterations whose objective is recorded *)
Definition recorded (verbose : bool) (K nh k : nat) : bool := verbose && ((k mod (K / nh) =? 0) || (k =? 0) || (k =? K - 1))%nat.
Lemma loop_spec verbose K nh fuel : forall k hist, (K / nh <> 0)%nat \/ verbose = false -> (length (hist ++ filter (recorded verbose K nh) (seq k fuel)) <= nh + 1)%nat -> 
  base_loop ng N A mm sd verbose K nh fuel k (map (fun i => objective ng (after (S i))) hist) (after k) = GDone (map (fun i => objective ng (after (S i))) (hist ++ filter (recorded verbose K nh) (seq k fuel))) (gx (after (k + fuel))).
Proof.
  induction fuel as [|fuel IH]; intros k hist Q L; cbn [base_loop].
  - cbn [seq filter]. now rewrite app_nil_r, Nat.add_0_r.
  - cbv zeta. rewrite <- Nat.add_succ_comm. cbn [seq filter] in L |- *. destruct verbose.
    + destruct Q as [Q|]; [|discriminate]. unfold records. unfold recorded at 1 in L. unfold recorded at 1. cbn [andb] in L |- *. destruct (K / nh)%nat as [|q] eqn:QE; [contradiction|]. destruct ((k mod S q =? 0) || (k =? 0) || (k =? K - 1))%nat.
      * unfold write. rewrite map_length. rewrite app_length in L. cbn [length] in L. destruct (Nat.ltb_spec (length hist) (nh + 1)) as [LT|]; [|lia]. specialize (IH (S k) (hist ++ [k])%list (or_introl Q)). rewrite map_app in IH. cbn [map] in IH. rewrite <- app_assoc in IH. cbn [app] in IH. rewrite after_S in *. apply IH. rewrite app_length. cbn [length]. lia.
      * rewrite <- after_S. apply IH; auto.
    + cbn [recorded andb] in L |- *. unfold recorded at 1 in L. unfold recorded at 1. cbn [andb] in L |- *. rewrite <- after_S. apply IH; auto.
Qed.
Lemma loop_overflow K nh fuel : forall k hist, (K / nh <> 0)%nat -> (length hist <= nh + 1)%nat -> (nh + 1 < length (hist ++ filter (recorded true K nh) (seq k fuel)))%nat -> 
  base_loop ng N A mm sd true K nh fuel k (map (fun i => objective ng (after (S i))) hist) (after k) = GOutOfBounds.
Proof.
  induction fuel as [|fuel IH]; intros k hist Q LH L; cbn [base_loop].
  - cbn [seq filter] in L. rewrite app_nil_r in L. lia.
  - cbv zeta. cbn [seq filter] in L. unfold records. unfold recorded at 1 in L. cbn [andb] in L. destruct (K / nh)%nat as [|q] eqn:QE; [contradiction|]. destruct ((k mod S q =? 0) || (k =? 0) || (k =? K - 1))%nat.
    + unfold write. rewrite map_length. destruct (Nat.ltb_spec (length hist) (nh + 1)) as [LT|]; [|reflexivity]. specialize (IH (S k) (hist ++ [k])%list Q). rewrite map_app in IH. cbn [map] in IH. rewrite <- app_assoc in IH. cbn [app] in IH. rewrite after_S in *. apply IH; [rewrite app_length; cbn [length]; lia|exact L].
    + rewrite <- after_S. apply IH; auto.
Qed.
Lemma records_none K nh k : (K / nh = 0)%nat -> records K nh k = None.
Proof. intros E. unfold records. now rewrite E. Qed.
(** ** The result of the baseline solver *)
(** K <= number of sites: the magnets of a greedy sequence of length K, with the objective of the recorded iterations *)
Theorem C86_greedy verbose K nh hist x : (K <= N)%nat -> GPMO_baseline ng N A b mm sd verbose K nh = GDone hist x ->
  exists xs, greedy_path K xs /\ x = xs K /\ hist = map (fun k => / 2 * misfit (xs (S k))) (filter (recorded verbose K nh) (seq 0 K)).
Proof.
  intros L E. exists (fun k => gx (after k)). split; [now apply after_greedy|]. unfold GPMO_baseline in E. change (@nil R) with (map (fun i => objective ng (after (S i))) []) in E. change (ginit b) with (after 0) in E.
  assert (HE : forall l, (forall k, In k l -> (k < K)%nat) -> map (fun i => objective ng (after (S i))) l = map (fun k => / 2 * misfit (gx (after (S k)))) l) by (intros l Hl; apply map_ext_in; intros k Hk; apply objective_eq, after_inv; specialize (Hl k Hk); lia).
  assert (Q : (K / nh <> 0)%nat \/ verbose = false \/ (verbose = true /\ K / nh = 0)%nat) by (destruct verbose; [destruct (Nat.eq_dec (K / nh) 0); auto|auto]).
  assert (D : (length (filter (recorded verbose K nh) (seq 0 K)) <= nh + 1 \/ nh + 1 < length (filter (recorded verbose K nh) (seq 0 K)))%nat) by lia.
  assert (IN : forall k, In k (filter (recorded verbose K nh) (seq 0 K)) -> (k < K)%nat) by (intros k Hk; apply filter_In in Hk; destruct Hk as (Hk & _); apply in_seq in Hk; lia).
  destruct Q as [Q|[Q|(V & Q)]].
  - destruct D as [D|D]; [rewrite (loop_spec verbose K nh K 0 []) in E by auto; cbn [app plus] in E; injection E as <- <-; split; [reflexivity|now apply HE]|]. destruct verbose; [rewrite (loop_overflow K nh K 0 []) in E by (auto; cbn; lia); discriminate|]. exfalso. assert (Z : forall l, filter (recorded false K nh) l = []) by (induction l; [reflexivity|]; cbn [filter]; unfold recorded at 1; cbn [andb]; auto). rewrite Z in D. cbn in D. lia.
  - assert (Z : forall l, filter (recorded false K nh) l = []) by (induction l; [reflexivity|]; cbn [filter]; unfold recorded at 1; cbn [andb]; auto). subst verbose. rewrite (loop_spec false K nh K 0 []) in E by (auto; rewrite Z; cbn; lia). cbn [app plus] in E. injection E as <- <-. split; [reflexivity|now apply HE].
  - subst verbose. destruct K as [|K]; [cbn in E; injection E as <- <-; auto|]. cbn [base_loop] in E. cbv zeta in E. rewrite records_none in E by exact Q. discriminate.
Qed.
(** what that means for the magnets *)
Theorem C86_magnets K xs : greedy_path K xs -> binary (xs K) /\ magnets (xs K) = K /\ (forall d j, sd = Some d -> xs K j <> 0 -> (j mod 3 = d)%nat).
Proof. intros G0. now apply (greedy_facts K xs K). Qed.
(** which calls return: with verbose set, arrays of nhistory + 1 entries must hold all recorded iterations *)
Theorem C88_baseline verbose K nh : (0 < K)%nat ->
  let n := length (filter (recorded verbose K nh) (seq 0 K)) in
  (GPMO_baseline ng N A b mm sd verbose K nh = GCrash <-> verbose = true /\ (K < nh \/ nh = 0)%nat) /\
  (GPMO_baseline ng N A b mm sd verbose K nh = GOutOfBounds <-> verbose = true /\ (0 < nh <= K)%nat /\ (nh + 1 < n)%nat).
Proof.
  intros KP n. assert (QE : (K / nh = 0)%nat <-> (K < nh \/ nh = 0)%nat). { destruct nh as [|nh]; [cbn; tauto|]. split; [intros H; left; now apply Nat.div_small_iff in H|intros [H|H]; [now apply Nat.div_small|lia]]. }
  unfold GPMO_baseline. destruct verbose.
  - destruct (Nat.eq_dec (K / nh) 0) as [Z|NZ].
    + assert (E : base_loop ng N A mm sd true K nh K 0 [] (ginit b) = GCrash). { destruct K as [|K]; [lia|]. cbn [base_loop]. cbv zeta. rewrite records_none by exact Z. reflexivity. } rewrite E. apply QE in Z. split; split; try discriminate; auto. intros (_ & H & _). lia.
    + change (@nil R) with (map (fun i => objective ng (after (S i))) []). change (ginit b) with (after 0). assert (NZ' : ~ (K < nh \/ nh = 0)%nat) by tauto. destruct (Nat.lt_ge_cases (nh + 1) n) as [L|L].
      * rewrite (loop_overflow K nh K 0 []) by (auto; cbn; lia). split; split; try discriminate; try tauto; try (intros _; split; [reflexivity|lia]).
      * rewrite (loop_spec true K nh K 0 []) by auto. split; split; try discriminate; try tauto. intros (_ & _ & H). lia.
  - assert (Z : forall l, filter (recorded false K nh) l = []) by (induction l; [reflexivity|]; cbn [filter]; unfold recorded at 1; cbn [andb]; auto). change (@nil R) with (map (fun i => objective ng (after (S i))) []). change (ginit b) with (after 0). rewrite (loop_spec false K nh K 0 []) by (auto; rewrite Z; cbn; lia). split; split; try discriminate; intros (H & _); discriminate.
Qed.
End Main.
