(** C91: net currents and TF coils. *)
From Coq Require Import Reals Lra Lia List Bool Arith ZArith ZifyNat Psatz.
From Verif Require Import ListAux VecAux Vec3 SurfModel SurfProps SurfGeom SurfGeomProps CurveObjModel CurveObjProps GPMOModel GPMOProps WFModel WFGeom WFThms WFCells.
Import ListNotations.
Open Scope R_scope.
Ltac Zify.zify_post_hook ::= idtac.

Section Currents.
Variables (nt np : nat).
Hypothesis Hnt : (2 * half nt = nt /\ 1 <= half nt)%nat.
Hypothesis Hnp : (2 <= np)%nat.
Notation half := (half nt). Notation nseg := (nseg nt np). Notation node := (node nt).
Notation seg_start := (seg_start nt np). Notation seg_end := (seg_end nt np).
Notation T := (T nt). Notation P := (P nt np). Notation neg := (neg nt). Notation pm := (pred_mod nt).
Notation E := (E nt np).
Lemma node_div i j : (j < nt)%nat -> (node i j / nt = i)%nat.
Proof. intros. unfold WFModel.node. rewrite Nat.div_add_l, Nat.div_small, Nat.add_0_r by lia. reflexivity. Qed.
Lemma node_mod i j : (j < nt)%nat -> (node i j mod nt = j)%nat.
Proof. intros. unfold WFModel.node. rewrite Nat.add_comm, Nat.mod_add, Nat.mod_small by lia. reflexivity. Qed.
Lemma succ_lt j : ((j + 1) mod nt < nt)%nat. Proof. apply Nat.mod_upper_bound. lia. Qed.
Lemma okP_lt i j : okP nt np i j -> (j < nt)%nat. Proof. unfold okP. lia. Qed.
Lemma tor_through_eq x i : (i < np)%nat -> tor_through nt np x i = sum_to nt (fun j => x (T i j)).
Proof.
  intros Hi. unfold tor_through. rewrite (sum_segs nt np Hnt Hnp).
  assert (ZP : forall a b, okP nt np a b -> x (P a b) * ((if (seg_start (P a b) / nt =? i)%nat && (seg_end (P a b) / nt =? i + 1)%nat then 1 else 0) - (if (seg_end (P a b) / nt =? i)%nat && (seg_start (P a b) / nt =? i + 1)%nat then 1 else 0)) = 0).
  { intros a b O1. destruct (start_P nt np Hnt Hnp a b O1) as (-> & ->). rewrite !node_div by (try apply succ_lt; now apply (okP_lt a)). destruct (Nat.eqb_spec a i), (Nat.eqb_spec a (i + 1)); try lia; cbn [andb]; ring. }
  rewrite (sum_to_nil half (fun j => _ (P 0 j) * _)) by (intros j Hj; apply ZP; left; lia). rewrite (sum_to_nil half (fun j => _ (P np j) * _)) by (intros j Hj; apply ZP; left; lia). rewrite (sum_to_nil (np - 1)) by (intros a Ha; apply sum_to_nil; intros j Hj; apply ZP; right; lia).
  rewrite !Rplus_0_r. rewrite <- (sum_to_single np i (fun a => sum_to nt (fun j => x (T a j))) Hi). apply sum_to_ext. intros a Ha. destruct (Nat.eqb_spec a i) as [->|N].
  - apply sum_to_ext. intros j Hj. destruct (start_T nt np Hnt Hnp i j Hi Hj) as (-> & ->). rewrite !node_div by lia. rewrite Nat.eqb_refl. replace (i + 1)%nat with (S i) by lia. rewrite Nat.eqb_refl. destruct (Nat.eqb_spec (S i) i); [lia|]. cbn [andb]. ring.
  - apply sum_to_nil. intros j Hj. destruct (start_T nt np Hnt Hnp a j Ha Hj) as (-> & ->). rewrite !node_div by lia. destruct (Nat.eqb_spec a i); [lia|]. destruct (Nat.eqb_spec (S a) i), (Nat.eqb_spec a (i + 1)); try lia; cbn [andb]; ring.
Qed.
Theorem C91_toroidal x i : sat nt np x (cons (fst (initial nt np))) -> (i < np)%nat -> tor_through nt np x i = dotr nt np (tor_row nt) x.
Proof. intros Hx Hi. apply sat_initial in Hx; auto. rewrite tor_through_eq by exact Hi. rewrite tor_dot by auto. now apply (tor_conserved nt np Hnt Hnp). Qed.

(** ** Poloidal current *)
Lemma neg_eq a b : (a < nt)%nat -> (b < nt)%nat -> neg a = b -> a = neg b.
Proof. intros Ha Hb E0. rewrite <- E0. symmetry. now apply neg_neg. Qed.
Lemma cross_even i b j : (2 <= half)%nat -> okP nt np i b -> (j < nt)%nat ->
  ((if (b =? j)%nat && ((b + 1) mod nt =? (j + 1) mod nt)%nat then 1 else 0) - (if ((b + 1) mod nt =? j)%nat && (b =? (j + 1) mod nt)%nat then 1 else 0)) = if (b =? j)%nat then 1 else 0.
Proof.
  intros Hh O1 Hj. assert (Hb := okP_lt i b O1). assert (M1 : forall b, (b < nt)%nat -> ((b + 1) mod nt = if b =? nt - 1 then 0 else b + 1)%nat). { intros c Hc. destruct (Nat.eqb_spec c (nt - 1)) as [->|]; [replace (nt - 1 + 1)%nat with nt by lia; apply Nat.mod_same; lia|apply Nat.mod_small; lia]. }
  rewrite !M1 by auto. destruct (Nat.eqb_spec b j) as [->|N]; [rewrite Nat.eqb_refl; cbn [andb]; destruct (Nat.eqb_spec j (nt - 1)); destruct (Nat.eqb_spec (if (j =? nt - 1)%nat then 0%nat else (j + 1)%nat) j); cbn [andb]; try ring|].
  - destruct (Nat.eqb_spec 0 j); [lia|]. cbn [andb]. ring.
  - destruct (Nat.eqb_spec 0 j); [lia|]. cbn [andb]. ring.
  - destruct (Nat.eqb_spec (j + 1) j); [lia|]. cbn [andb]. ring.
  - destruct (Nat.eqb_spec (j + 1) j); [lia|]. cbn [andb]. ring.
  - cbn [andb]. destruct (Nat.eqb_spec b (nt - 1)), (Nat.eqb_spec j (nt - 1)).
    + lia.
    + destruct (Nat.eqb_spec 0 j), (Nat.eqb_spec b (j + 1)); cbn [andb]; try lia; ring.
    + destruct (Nat.eqb_spec (b + 1) j), (Nat.eqb_spec b 0); cbn [andb]; try lia; ring.
    + destruct (Nat.eqb_spec (b + 1) j), (Nat.eqb_spec b (j + 1)); cbn [andb]; try lia; ring.
Qed.
Lemma neg_val b : (b < nt)%nat -> neg b = if (b =? 0)%nat then O else (nt - b)%nat.
Proof. intros. destruct (Nat.eqb_spec b 0) as [->|]; [apply neg_0; auto|apply neg_pos; auto; lia]. Qed.
Lemma cross_odd i b j : (2 <= half)%nat -> okP nt np i b -> (j < nt)%nat ->
  ((if (neg b =? j)%nat && (neg ((b + 1) mod nt) =? (j + 1) mod nt)%nat then 1 else 0) - (if (neg ((b + 1) mod nt) =? j)%nat && (neg b =? (j + 1) mod nt)%nat then 1 else 0)) = if (b =? nt - 1 - j)%nat then -1 else 0.
Proof.
  intros Hh O1 Hj. assert (Hb := okP_lt i b O1). assert (M1 : forall b, (b < nt)%nat -> ((b + 1) mod nt = if b =? nt - 1 then 0 else b + 1)%nat). { intros c Hc. destruct (Nat.eqb_spec c (nt - 1)) as [->|]; [replace (nt - 1 + 1)%nat with nt by lia; apply Nat.mod_same; lia|apply Nat.mod_small; lia]. }
  rewrite (neg_val b), (neg_val ((b + 1) mod nt)) by (auto using succ_lt). rewrite !M1 by auto.
  assert (X1 : ((if b =? 0 then 0 else nt - b) =? j)%nat && ((if (if b =? nt - 1 then 0 else b + 1) =? 0 then 0 else nt - (if b =? nt - 1 then 0 else b + 1)) =? (if j =? nt - 1 then 0 else j + 1))%nat = false).
  { destruct (Nat.eqb_spec b 0), (Nat.eqb_spec b (nt - 1)), (Nat.eqb_spec j (nt - 1)); try change (0 =? 0)%nat with true; cbv iota; try (destruct (Nat.eqb_spec (b + 1) 0)); lia. }
  assert (X2 : ((if (if b =? nt - 1 then 0 else b + 1) =? 0 then 0 else nt - (if b =? nt - 1 then 0 else b + 1)) =? j)%nat && ((if b =? 0 then 0 else nt - b) =? (if j =? nt - 1 then 0 else j + 1))%nat = (b =? nt - 1 - j)%nat).
  { destruct (Nat.eqb_spec b 0), (Nat.eqb_spec b (nt - 1)), (Nat.eqb_spec j (nt - 1)); try change (0 =? 0)%nat with true; cbv iota; try (destruct (Nat.eqb_spec (b + 1) 0)); lia. }
  rewrite X1, X2. destruct (b =? nt - 1 - j)%nat; ring.
Qed.
(** weighted sums over the poloidal segments *)
Lemma sum_pol x c g : (forall i b, okP nt np i b -> g (P i b) = if (b =? c)%nat then 1 else 0) -> (forall i j, (i < np)%nat -> (j < nt)%nat -> g (T i j) = 0) -> (c < nt)%nat -> sum_to nseg (fun k => x k * g k) = E x c.
Proof.
  intros HP HT Hc. rewrite (sum_segs nt np Hnt Hnp). rewrite (sum_to_nil np) by (intros i Hi; apply sum_to_nil; intros j Hj; rewrite HT by auto; ring). rewrite Rplus_0_l. unfold WFCells.E.
  assert (A : forall i, (i = 0 \/ i = np)%nat -> sum_to half (fun j => x (P i j) * g (P i j)) = if (c <? half)%nat then x (P i c) else 0).
  { intros i Hi. destruct (Nat.ltb_spec c half).
    - rewrite <- (sum_to_single half c (fun j => x (P i j))) by lia. apply sum_to_ext. intros j Hj. rewrite HP by (left; lia). destruct (j =? c)%nat; ring.
    - apply sum_to_nil. intros j Hj. rewrite HP by (left; lia). destruct (Nat.eqb_spec j c); [lia|ring]. }
  rewrite !A by auto. f_equal. f_equal. apply sum_to_ext. intros i Hi. rewrite <- (sum_to_single nt c (fun j => x (P (S i) j)) Hc). apply sum_to_ext. intros j Hj. rewrite HP by (right; lia). destruct (j =? c)%nat; ring.
Qed.
Lemma pol_through_eq nfp x j : (2 <= half)%nat -> (j < nt)%nat -> pol_through nt np nfp x j = INR nfp * (E x j + E x (nt - 1 - j)).
Proof.
  intros Hh Hj. unfold pol_through. rewrite sum_to_pairs. rewrite (sum_to_ext nfp _ (fun _ => E x j + E x (nt - 1 - j))).
  - induction nfp as [|m IH]; [unfold sum_to; cbn; ring|]. rewrite sum_to_S, IH, S_INR. ring.
  - assert (SN : ((j + 1) mod nt <> j)%nat) by (destruct (Nat.eq_dec j (nt - 1)) as [->|]; [replace (nt - 1 + 1)%nat with nt by lia; rewrite Nat.mod_same by lia; lia|rewrite Nat.mod_small by lia; lia]).
    intros m Hm. unfold angle, seg_sign. rewrite even_odd_f. replace (Nat.even (2 * m)) with true by (rewrite Nat.even_mul; reflexivity). rewrite Rmult_1_l. f_equal.
    + apply sum_pol; [| |exact Hj].
      * intros i b O1. destruct (start_P nt np Hnt Hnp i b O1) as (-> & ->). rewrite !node_mod by (try apply succ_lt; now apply (okP_lt i)). now apply (cross_even i).
      * intros i b Hi Hb. destruct (start_T nt np Hnt Hnp i b Hi Hb) as (-> & ->). rewrite !node_mod by auto. destruct (Nat.eqb_spec b j), (Nat.eqb_spec b ((j + 1) mod nt)); cbn [andb]; ring.
    + transitivity (- - E x (nt - 1 - j)); [|ring]. rewrite <- (sum_pol x (nt - 1 - j) (fun k => - ((if ((nt - seg_start k mod nt) mod nt =? j)%nat && ((nt - seg_end k mod nt) mod nt =? (j + 1) mod nt)%nat then 1 else 0) - (if ((nt - seg_end k mod nt) mod nt =? j)%nat && ((nt - seg_start k mod nt) mod nt =? (j + 1) mod nt)%nat then 1 else 0)))).
      * rewrite <- sum_to_opp, <- !sum_to_opp. rewrite <- sum_to_scal. apply sum_to_ext. intros. ring.
      * intros i b O1. destruct (start_P nt np Hnt Hnp i b O1) as (-> & ->). rewrite !node_mod by (try apply succ_lt; now apply (okP_lt i)). assert (K := cross_odd i b j Hh O1 Hj). unfold WFGeom.neg in K. rewrite K. destruct (b =? nt - 1 - j)%nat; ring.
      * intros i b Hi Hb. destruct (start_T nt np Hnt Hnp i b Hi Hb) as (-> & ->). rewrite !node_mod by auto. set (nb := ((nt - b) mod nt)%nat). destruct (Nat.eqb_spec nb j), (Nat.eqb_spec nb ((j + 1) mod nt)); cbn [andb]; ring.
      * lia.
Qed.
Lemma E_step x j : continuous nt np x -> (j < nt)%nat -> E x j - E x (pm j) = net0 nt np x j + netN nt np x j.
Proof.
  intros Hx Hj. assert (K : sum_to (np - 1) (fun i => netI nt np x (S i) j) = 0) by (apply sum_to_nil; intros i Hi; apply (cont_int nt np Hnt Hnp x Hx); lia). unfold netI in K. rewrite sum_to_plus, sum_to_minus in K. rewrite (sum_to_minus (np - 1) (fun i => x (P (S i) j)) (fun i => x (P (S i) (pm j)))) in K.
  assert (TE := telescope (np - 1) (fun i => x (T i j))). rewrite sum_to_minus in TE. cbv beta in TE. rewrite (sum_to_ext (np - 1) (fun k => x (T (S k - 1) j)) (fun k => x (T k j))) in K by (intros; f_equal; f_equal; lia).
  unfold WFCells.E, net0, netN, pol_net. unfold pred_mod in *. revert K TE. destruct (Nat.eqb_spec j 0) as [->|N]; intros K TE.
  - destruct (Nat.ltb_spec 0 half); [|lia]. destruct (Nat.ltb_spec (nt - 1) half); [lia|]. change (0 <? 0)%nat with false. cbn [andb]. lra.
  - destruct (Nat.ltb_spec 0 j); [|lia]. cbn [andb]. destruct (Nat.ltb_spec j half), (Nat.ltb_spec (j - 1) half), (Nat.leb_spec j half); try lia; lra.
Qed.
Lemma pol_same x : continuous nt np x -> forall j, (j < nt)%nat -> E x j + E x (nt - 1 - j) = E x 0 + E x (nt - 1).
Proof.
  intros Hx. induction j as [|j IH]; intros Hj; [now rewrite Nat.sub_0_r|]. rewrite <- IH by lia. assert (K1 := E_step x (S j) Hx Hj). assert (K2 := E_step x (nt - S j) Hx ltac:(lia)). rewrite (pm_pos nt np Hnt Hnp) in K1, K2 by lia. replace (S j - 1)%nat with j in * by lia. replace (nt - S j - 1)%nat with (nt - 1 - S j)%nat in * by lia. replace (nt - S j)%nat with (nt - 1 - j)%nat in * by lia.
  assert (C0 := cont_0 nt np Hnt Hnp x Hx (S j) Hj). assert (CN := cont_N nt np Hnt Hnp x Hx (S j) Hj). rewrite neg_pos in C0, CN by lia. replace (nt - S j)%nat with (nt - 1 - j)%nat in * by lia. lra.
Qed.
Theorem C91_poloidal nfp x j : (2 <= half)%nat -> sat nt np x (cons (fst (initial nt np))) -> (j < nt)%nat -> pol_through nt np nfp x j = INR nfp * dotr nt np (pol_row nt np) x.
Proof.
  intros Hh Hx Hj. apply sat_initial in Hx; auto. rewrite pol_through_eq by auto. f_equal. rewrite pol_dot by auto. rewrite pol_same by auto. assert (K := pol_same x Hx (half - 1) ltac:(lia)). replace (nt - 1 - (half - 1))%nat with half in K by lia. lra.
Qed.
(** ** The constraints set by the user *)
Lemma in_remove n c w : In c (cons (fst (remove n w))) -> In c (cons w).
Proof. unfold remove. destruct (has w n); [|auto]. cbn [fst cons]. intros H. now apply filter_In in H. Qed.
Lemma remove_gone n w : has (fst (remove n w)) n = false /\ (has w n = true -> snd (remove n w) = None).
Proof.
  unfold remove. destruct (has w n) eqn:H; cbn [fst snd cons]; split; auto; [|discriminate]. apply has_not. cbn [cons]. intros I. apply in_map_iff in I. destruct I as (c & E0 & I). apply filter_In in I. destruct I as (_ & I). destruct (cname_eq_dec (cn c) n); [discriminate|contradiction].
Qed.
Lemma set_single n r k w : let w' := bind (if has w n then remove n w else (w, None)) (add n r k) in
  snd w' = None /\ (forall c, In c (cons (fst w')) <-> (In c (cons w) /\ cn c <> n) \/ c = C n r k).
Proof.
  cbv zeta. destruct (has w n) eqn:H.
  - assert (G := remove_gone n w). destruct G as (G1 & G2). unfold bind. rewrite (G2 H). rewrite add_ok by exact G1. cbn [fst snd cons]. split; [reflexivity|]. intros c. rewrite in_app_iff. cbn [In]. unfold remove. rewrite H. cbn [fst cons]. rewrite filter_In. destruct (cname_eq_dec (cn c) n); intuition congruence.
  - unfold bind. cbn [snd fst]. rewrite add_ok by exact H. cbn [fst snd cons]. split; [reflexivity|]. intros c. rewrite in_app_iff. cbn [In]. apply has_not in H. split; [intros [I|[I|[]]]; [left; split; [exact I|]; intros E0; apply H; rewrite <- E0; now apply in_map|right; auto]|intros [(I & _)|I]; auto].
Qed.
Theorem C91_set_poloidal nfp cur w x : (2 <= half)%nat -> (0 < nfp)%nat -> sat nt np x (cons (fst (initial nt np))) ->
  snd (set_pol nt np nfp cur w) = None /\
  (sat nt np x (cons (fst (set_pol nt np nfp cur w))) <-> (sat nt np x (filter (fun c => if cname_eq_dec (cn c) CPolC then false else true) (cons w)) /\ forall j, (j < nt)%nat -> pol_through nt np nfp x j = cur)).
Proof.
  intros Hh Hf Hx. destruct (set_single CPolC (pol_row nt np) (pol_const np nfp cur) w) as (S1 & S2). fold (add_pol nt np nfp cur) in *. split; [exact S1|]. fold (set_pol nt np nfp cur w) in S2. assert (NZ : INR nfp <> 0) by (apply not_0_INR; lia). assert (PZ : INR np <> 0) by (apply not_0_INR; lia).
  assert (EQ : (forall j, (j < nt)%nat -> pol_through nt np nfp x j = cur) <-> dotr nt np (pol_row nt np) x = pol_const np nfp cur).
  { assert (EC : pol_const np nfp cur = cur / INR nfp) by (unfold pol_const; field; auto). rewrite EC. split; [intros H; specialize (H O ltac:(lia)); rewrite C91_poloidal in H by (auto; lia); rewrite <- H; field; auto|]. intros H j Hj. rewrite C91_poloidal by auto. rewrite H. field. auto. }
  rewrite EQ. unfold sat. split.
  - intros H. split; [|apply (H (C CPolC (pol_row nt np) (pol_const np nfp cur))); apply S2; right; reflexivity]. intros c I. apply filter_In in I. destruct I as (I & N). apply H, S2. left. split; [exact I|]. destruct (cname_eq_dec (cn c) CPolC); [discriminate|auto].
  - intros (H1 & H2) c I. apply S2 in I. destruct I as [(I & N)| ->]; [|exact H2]. apply H1, filter_In. split; [exact I|]. destruct (cname_eq_dec (cn c) CPolC); [contradiction|reflexivity].
Qed.
Theorem C91_set_toroidal cur w x : sat nt np x (cons (fst (initial nt np))) ->
  snd (set_tor nt cur w) = None /\
  (sat nt np x (cons (fst (set_tor nt cur w))) <-> (sat nt np x (filter (fun c => if cname_eq_dec (cn c) CTorC then false else true) (cons w)) /\ forall i, (i < np)%nat -> tor_through nt np x i = cur)).
Proof.
  intros Hx. destruct (set_single CTorC (tor_row nt) cur w) as (S1 & S2). fold (add_tor nt cur) in *. split; [exact S1|]. fold (set_tor nt cur w) in S2.
  assert (EQ : (forall i, (i < np)%nat -> tor_through nt np x i = cur) <-> dotr nt np (tor_row nt) x = cur).
  { split; [intros H; rewrite <- (C91_toroidal x 0 Hx ltac:(lia)); apply H; lia|]. intros H i Hi. now rewrite C91_toroidal. }
  rewrite EQ. unfold sat. split.
  - intros H. split; [|apply (H (C CTorC (tor_row nt) cur)); apply S2; right; reflexivity]. intros c I. apply filter_In in I. destruct I as (I & N). apply H, S2. left. split; [exact I|]. destruct (cname_eq_dec (cn c) CTorC); [discriminate|auto].
  - intros (H1 & H2) c I. apply S2 in I. destruct I as [(I & N)| ->]; [|exact H2]. apply H1, filter_In. split; [exact I|]. destruct (cname_eq_dec (cn c) CTorC); [contradiction|reflexivity].
Qed.

(** ** TF coils *)
Section TF.
Variables (n : nat) (cur : R).
Hypothesis Hn : (1 <= n <= np)%nat.
Notation spread := (spread np n).
Lemma spread_spec k m : spread k = m <-> (2 * n * m <= (2 * k + 1) * np + 2 * n - 1 < 2 * n * (m + 1))%nat.
Proof.
  unfold WFModel.spread. set (a := ((2 * k + 1) * np + 2 * n - 1)%nat). assert (K := Nat.div_mod a (2 * n) ltac:(lia)). assert (K2 := Nat.mod_upper_bound a (2 * n) ltac:(lia)). split; [intros <-; rewrite Nat.mul_add_distr_l; lia|]. intros (L1 & L2). symmetry. apply (Nat.div_unique a (2 * n) m (a - 2 * n * m)%nat); [rewrite Nat.mul_add_distr_l in L2; lia|lia].
Qed.
Lemma spread_range k : (k < n)%nat -> (1 <= spread k <= np)%nat.
Proof.
  intros Hk. destruct (proj1 (spread_spec k (spread k)) eq_refl) as (L1 & L2). split; [|]; apply Nat.nlt_ge; intros C.
  - assert (spread k = O) by lia. rewrite H in *. assert (1 * np <= (2 * k + 1) * np)%nat by (apply Nat.mul_le_mono_r; lia). lia.
  - assert ((2 * k + 1) * np <= (2 * n - 1) * np)%nat by (apply Nat.mul_le_mono_r; lia). assert (2 * n * (np + 1) <= 2 * n * spread k)%nat by (apply Nat.mul_le_mono_l; lia). rewrite Nat.mul_sub_distr_r in H. assert (1 * np <= 2 * n * np)%nat by (apply Nat.mul_le_mono_r; lia). lia.
Qed.
Lemma spread_mono k k' : (k < k')%nat -> (spread k < spread k')%nat.
Proof.
  intros H. destruct (proj1 (spread_spec k (spread k)) eq_refl) as (L1 & L2). destruct (proj1 (spread_spec k' (spread k')) eq_refl) as (L1' & L2'). apply Nat.nle_gt. intros C. assert ((2 * k + 3) * np <= (2 * k' + 1) * np)%nat by (apply Nat.mul_le_mono_r; lia). assert (2 * n * (spread k' + 1) <= 2 * n * (spread k + 1))%nat by (apply Nat.mul_le_mono_l; lia). assert ((2 * k + 3) * np = (2 * k + 1) * np + 2 * np)%nat by ring. assert (2 * n * (spread k + 1) = 2 * n * spread k + 2 * n)%nat by ring. lia.
Qed.
Lemma spread_last k : (k < n)%nat -> spread k = np <-> (k = n - 1 /\ np < 2 * n)%nat.
Proof.
  intros Hk. rewrite spread_spec. assert (E1 : ((2 * k + 1) * np + (2 * (n - k) - 1) * np = 2 * n * np)%nat) by (rewrite <- Nat.mul_add_distr_r; f_equal; lia). rewrite Nat.mul_add_distr_l. split.
  - intros (L1 & L2). assert (k = n - 1)%nat; [|subst k; replace (2 * (n - (n - 1)) - 1)%nat with 1%nat in E1 by lia; lia]. apply Nat.eq_sym, Nat.eq_sym. destruct (Nat.eq_dec k (n - 1)); [auto|]. exfalso. assert (3 * np <= (2 * (n - k) - 1) * np)%nat by (apply Nat.mul_le_mono_r; lia). lia.
  - intros (-> & L). replace (2 * (n - (n - 1)) - 1)%nat with 1%nat in E1 by lia. lia.
Qed.
Definition on (m i : nat) : R := if existsb (fun k => spread k =? i)%nat (seq 0 m) then cur else 0.
Lemma on_count m : (m <= n)%nat -> sum_to (np + 1) (on m) = INR m * cur.
Proof.
  induction m as [|m IH]; intros Hm; [rewrite sum_to_nil by reflexivity; cbn; ring|]. rewrite S_INR. replace ((INR m + 1) * cur) with (INR m * cur + cur) by ring. rewrite <- IH by lia. assert (R1 := spread_range m ltac:(lia)). rewrite <- (sum_to_single (np + 1) (spread m) (fun _ => cur)) by lia. rewrite <- sum_to_plus. apply sum_to_ext. intros i Hi. unfold on. rewrite seq_S, existsb_app. cbn [existsb Nat.add]. rewrite orb_false_r. rewrite (Nat.eqb_sym i). destruct (Nat.eqb_spec (spread m) i) as [<-|N]; [|rewrite orb_false_r; ring].
  rewrite orb_true_r. replace (existsb (fun k => spread k =? spread m)%nat (seq 0 m)) with false; [ring|]. symmetry. apply not_true_is_false. intros X. apply existsb_exists in X. destruct X as (k & I & Q). apply in_seq in I. apply Nat.eqb_eq in Q. assert (M := spread_mono k m ltac:(lia)). lia.
Qed.
Lemma on_0 : on n 0 = 0.
Proof. unfold on. replace (existsb _ _) with false; [reflexivity|]. symmetry. apply not_true_is_false. intros X. apply existsb_exists in X. destruct X as (k & I & Q). apply in_seq in I. apply Nat.eqb_eq in Q. assert (M := spread_range k ltac:(lia)). lia. Qed.
Lemma on_N : on n np = if (np <? 2 * n)%nat then cur else 0.
Proof.
  unfold on. destruct (existsb (fun k => spread k =? np)%nat (seq 0 n)) eqn:X.
  - apply existsb_exists in X. destruct X as (k & I & Q). apply in_seq in I. apply Nat.eqb_eq in Q. apply spread_last in Q; [|lia]. destruct (Nat.ltb_spec np (2 * n)); [reflexivity|lia].
  - destruct (Nat.ltb_spec np (2 * n)); [|reflexivity]. exfalso. apply not_true_iff_false in X. apply X. apply existsb_exists. exists (n - 1)%nat. split; [apply in_seq; lia|]. apply Nat.eqb_eq. apply spread_last; lia.
Qed.
Notation tf := (tf_added nt np n cur).
Lemma tf_P i b : okP nt np i b -> tf (P i b) = on n i.
Proof.
  intros O1. unfold tf_added, on. set (c := existsb _ _). set (d := existsb _ _). replace c with d; [reflexivity|]. subst c d. assert (X : forall l, (forall k, In k l -> (k < n)%nat) -> existsb (fun k => spread k =? i)%nat l = existsb (fun k => let t := spread k in let i0 := if (t =? 0)%nat then WFModel.ntors nt np else (WFModel.ntors nt np + half + (t - 1) * nt)%nat in
                       let i1 := if (t =? 0)%nat then (i0 + half)%nat else (i0 + nt)%nat in (i0 <=? P i b)%nat && (P i b <? i1)%nat) l).
  { induction l as [|k l IH]; intros Hl; [reflexivity|]. cbn [existsb]. rewrite IH by (intros; apply Hl; right; auto). f_equal. assert (R1 := spread_range k (Hl k (or_introl eq_refl))). cbv zeta. set (t := spread k) in *. clearbody t. destruct (Nat.eqb_spec t 0); [lia|]. clear IH Hl.
    assert (EP : P i b = (WFModel.ntors nt np + if (i =? 0)%nat then b else half + (i - 1) * nt + b)%nat) by reflexivity. rewrite EP. clear EP. generalize (WFModel.ntors nt np). intros NT. assert (Hb := okP_lt i b O1). unfold okP in O1. assert (Z1 := Nat.le_0_l ((t - 1) * nt)). assert (Z2 := Nat.le_0_l ((i - 1) * nt)). destruct (Nat.eqb_spec t i) as [<-|N].
    - destruct (Nat.eqb_spec t 0); [lia|]. symmetry. apply andb_true_iff. rewrite Nat.leb_le, Nat.ltb_lt. lia.
    - symmetry. apply andb_false_iff. rewrite Nat.leb_gt, Nat.ltb_ge. destruct (Nat.eqb_spec i 0) as [->|]; [left; lia|]. destruct (Nat.lt_ge_cases i t).
      + left. assert ((i - 1) * nt + nt <= (t - 1) * nt)%nat by (replace ((i - 1) * nt + nt)%nat with ((i - 1 + 1) * nt)%nat by ring; apply Nat.mul_le_mono_r; lia). lia.
      + right. assert ((t - 1) * nt + nt <= (i - 1) * nt)%nat by (replace ((t - 1) * nt + nt)%nat with ((t - 1 + 1) * nt)%nat by ring; apply Nat.mul_le_mono_r; lia). lia. }
  apply X. intros k I. apply in_seq in I. lia.
Qed.
Lemma tf_T i b : (i < np)%nat -> (b < nt)%nat -> tf (T i b) = 0.
Proof.
  intros Hi Hb. assert (L := T_lt nt np Hnt Hnp i b Hi Hb). unfold tf_added. set (c := existsb _ _). replace c with false; [reflexivity|]. subst c. symmetry. apply not_true_is_false. intros X. apply existsb_exists in X. destruct X as (k & I & Q). cbv zeta in Q. apply andb_true_iff in Q. destruct Q as (Q & _). apply Nat.leb_le in Q. assert (Z1 := Nat.le_0_l ((spread k - 1) * nt)). revert Q. destruct (spread k =? 0)%nat; intros; lia.
Qed.
Lemma tf_cont : continuous nt np tf.
Proof.
  intros i j Hi Hj Hc. unfold has_continuity in Hc. assert (Hp := pm_lt nt np Hnt Hnp j Hj). destruct (Nat.eqb_spec i 0) as [->|].
  - rewrite row_0 by lia. unfold net0. rewrite neg_pos by lia. destruct (row_plane_vals nt np Hnt Hnp tf 0 j) as (-> & ->); [auto|lia|]. rewrite !tf_T by lia. rewrite !tf_P by (left; lia). ring.
  - destruct (Nat.eqb_spec i np) as [->|].
    + rewrite row_N by lia. unfold netN. rewrite neg_pos by lia. destruct (row_plane_vals nt np Hnt Hnp tf np j) as (-> & ->); [auto|lia|]. rewrite !tf_T by lia. rewrite !tf_P by (left; lia). ring.
    + rewrite row_int by lia. unfold netI. rewrite !tf_T by lia. rewrite !tf_P by (right; lia). ring.
Qed.
Lemma tf_pol : dotr nt np (pol_row nt np) tf = 2 * INR n * cur - if (np <? 2 * n)%nat then cur else 0.
Proof.
  rewrite pol_dot by auto. unfold WFCells.E. destruct (Nat.ltb_spec (half - 1) half); [|lia]. destruct (Nat.ltb_spec half half); [lia|]. rewrite !tf_P by (left; lia). assert (S1 : forall b, (b < nt)%nat -> sum_to (np - 1) (fun i => tf (P (S i) b)) = sum_to (np - 1) (fun i => on n (S i))) by (intros b Hb; apply sum_to_ext; intros i Hi; apply tf_P; right; lia). rewrite !S1 by lia.
  assert (K := on_count n ltac:(lia)). replace (np + 1)%nat with (S (S (np - 1))) in K by lia. rewrite sum_to_first, sum_to_S in K. rewrite on_0 in *. replace (S (np - 1)) with np in K by lia. rewrite on_N in *. lra.
Qed.
End TF.
(** TF coils placed by the code: continuous, no toroidal current; the poloidal current falls short by one coil's current per field period when the last coil is placed on the symmetry plane *)
Theorem C91_tf nfp n cur : (1 <= n <= np)%nat -> (2 <= half)%nat -> let x := tf_added nt np n cur in
  sat nt np x (cons (fst (initial nt np))) /\ (forall i, (i < np)%nat -> tor_through nt np x i = 0) /\
  (forall j, (j < nt)%nat -> pol_through nt np nfp x j = INR nfp * (2 * INR n - if (np <? 2 * n)%nat then 1 else 0) * cur).
Proof.
  intros Hn Hh. cbv zeta. assert (HC : sat nt np (tf_added nt np n cur) (cons (fst (initial nt np)))) by (apply sat_initial; auto; now apply tf_cont). split; [exact HC|]. split.
  - intros i Hi. rewrite tor_through_eq by exact Hi. apply sum_to_nil. intros j Hj. now apply tf_T.
  - intros j Hj. rewrite C91_poloidal by auto. rewrite tf_pol by exact Hn. destruct (np <? 2 * n)%nat; ring.
Qed.
Lemma mean_le n f c : (0 < n)%nat -> (forall k, (k < n)%nat -> f k <= c) -> mean n f <= c.
Proof.
  intros Hn H. unfold mean. apply Rmult_le_reg_r with (INR n); [apply lt_0_INR; lia|]. unfold Rdiv. rewrite Rmult_assoc, Rinv_l, Rmult_1_r by (apply not_0_INR; lia). clear Hn. induction n as [|n IH]; [unfold sum_to; cbn; lra|]. rewrite sum_to_S, S_INR. assert (K := IH ltac:(intros; apply H; lia)). assert (K2 := H n ltac:(lia)). lra.
Qed.
Lemma mean_ge0 n f : (forall k, (k < n)%nat -> 0 <= f k) -> 0 <= mean n f.
Proof. intros H. unfold mean. destruct n as [|n]; [unfold sum_to; cbn; lra|]. apply Rmult_le_pos; [now apply sum_to_ge0|]. left. apply Rinv_0_lt_compat, lt_0_INR. lia. Qed.
(** what add_tfcoil_currents does when the total poloidal current 2 nfp n cur was prescribed first *)
Theorem C91_tf_check pick fuel nfp n cur atol rtol : (1 <= n <= np)%nat -> (0 < nfp)%nat -> 0 < atol -> 0 <= rtol ->
  let w := fst (set_pol nt np nfp (2 * INR nfp * INR n * cur) (fst (initial nt np))) in
  let r := add_tf nt np pick fuel atol rtol n cur w (fun _ => 0) in
  ((2 * n <= np)%nat -> exists x, r = Some (TfOk x) /\ forall k, x k = tf_added nt np n cur k) /\
  ((np < 2 * n)%nat -> atol + rtol * Rabs cur <= Rabs cur -> r = Some (TfError (fun _ => 0))).
Proof.
  intros Hn Hf Ha Hr. cbv zeta. assert (NZ : INR nfp <> 0) by (apply not_0_INR; lia). assert (PZ : INR np <> 0) by (apply not_0_INR; lia).
  assert (EW : fst (set_pol nt np nfp (2 * INR nfp * INR n * cur) (fst (initial nt np))) = W (cons (fst (initial nt np)) ++ [C CPolC (pol_row nt np) (2 * INR n * cur)]) true).
  { assert (H0 : has (fst (initial nt np)) CPolC = false). { apply has_not. rewrite initial_eq by lia. cbn [fst cons]. rewrite map_map. intros I. apply in_map_iff in I. destruct I as (c & X & _). discriminate X. }
    unfold set_pol. rewrite H0. unfold bind. cbn [fst snd]. unfold add_pol. rewrite add_ok by exact H0. cbn [fst]. f_equal; [|rewrite initial_eq by lia; reflexivity]. f_equal. f_equal. f_equal. unfold pol_const. field. auto. }
  rewrite EW. unfold add_tf. destruct (Nat.ltb_spec np n); [lia|]. destruct (Nat.eqb_spec n 0); [lia|]. cbn [orb]. set (x' := fun s => tf_added nt np n cur s + 0). assert (EX : forall k, x' k = tf_added nt np n cur k) by (intros; unfold x'; ring).
  unfold check, constraint_matrices, refreshed. cbn [fresh cons]. set (rows := filter _ _). assert (ER : rows = cons (fst (initial nt np)) ++ [C CPolC (pol_row nt np) (2 * INR n * cur)]). { subst rows. set (l := _ ++ _). clearbody l. induction l as [|c l IH]; [reflexivity|]. cbn [filter]. rewrite IH. replace (match cn c with CCont k => memb k [] | _ => false end) with false by (destruct (cn c); reflexivity). reflexivity. }
  destruct rows as [|c0 rows0]; [destruct (cons (fst (initial nt np))); discriminate|]. rewrite ER. rewrite forallb_app. cbn [forallb]. rewrite andb_true_r. clear c0 rows0 ER.
  assert (MB : 0 <= mean nseg (fun s => Rabs (x' s)) <= Rabs cur).
  { split; [apply mean_ge0; intros; apply Rabs_pos|]. apply mean_le; [assert (K := T_lt_seg nt np Hnt Hnp 0 0 ltac:(lia) ltac:(lia)); lia|]. intros k Hk. rewrite EX. unfold tf_added. destruct (existsb _ _); [lra|]. rewrite Rabs_R0. apply Rabs_pos. }
  assert (TOL : 0 < atol + rtol * mean nseg (fun s => Rabs (x' s))) by (assert (0 <= rtol * mean nseg (fun s => Rabs (x' s))) by (apply Rmult_le_pos; lra); lra).
  assert (HI : forallb (meets nt np atol rtol x') (cons (fst (initial nt np))) = true).
  { apply forallb_forall. intros c I. unfold meets. assert (K : dotr nt np (crow c) x' = cst c). { rewrite (dotr_ext nt np (crow c) x' (tf_added nt np n cur)) by (intros; apply EX). apply (proj2 (sat_initial nt np Hnt Hnp (tf_added nt np n cur)) (tf_cont n cur Hn)). exact I. } rewrite K. replace (cst c - cst c) with 0 by ring. rewrite Rabs_R0. destruct (Rlt_dec 0 (atol + rtol * mean nseg (fun s => Rabs (x' s)))); [reflexivity|contradiction]. }
  rewrite HI. rewrite andb_true_l. unfold meets. cbn [crow cst]. rewrite (dotr_ext nt np (pol_row nt np) x' (tf_added nt np n cur)) by (intros; apply EX). rewrite tf_pol by exact Hn. split.
  - intros L. destruct (Nat.ltb_spec np (2 * n)); [lia|]. replace (2 * INR n * cur - 0 - 2 * INR n * cur) with 0 by ring. rewrite Rabs_R0. destruct (Rlt_dec 0 _); [|contradiction]. exists x'. split; [reflexivity|exact EX].
  - intros L Hc. destruct (Nat.ltb_spec np (2 * n)); [|lia]. replace (2 * INR n * cur - cur - 2 * INR n * cur) with (- cur) by ring. rewrite Rabs_Ropp. destruct (Rlt_dec (Rabs cur) _) as [C0|]; [|reflexivity]. exfalso. assert (rtol * mean nseg (fun s => Rabs (x' s)) <= rtol * Rabs cur) by (apply Rmult_le_compat_l; lra). lra.
Qed.
End Currents.
