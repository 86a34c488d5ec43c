(** C108-C109: crossings, stopping criteria and many particles. *)
From Coq Require Import Reals Lra Lia ZArith List Bool.
From Verif Require Import Vec3 PointsModel TraceAngle PartitionModel PartitionProps TraceLoop.
Import ListNotations.
Open Scope R_scope.

Lemma PI2 : 0 < 2 * PI. Proof. pose proof PI_RGT_0. lra. Qed.
Lemma Int_part_lt x (k : Z) : IZR k <= x -> (k <= Int_part x)%Z.
Proof. intros H. destruct (Int_part_bounds x). assert (k < Int_part x + 1)%Z by (apply lt_IZR; rewrite plus_IZR; lra). lia. Qed.
Lemma Int_part_gt x (k : Z) : x < IZR k -> (Int_part x < k)%Z.
Proof. intros H. destruct (Int_part_bounds x). apply lt_IZR. lra. Qed.
Lemma turn_le phi a (j : Z) : IZR j <= (a - phi) / (2 * PI) <-> phi + IZR j * (2 * PI) <= a.
Proof.
  pose proof PI2 as P. split; intros H.
  - apply (Rmult_le_compat_r (2 * PI)) in H; [|lra]. unfold Rdiv in H. rewrite Rmult_assoc, Rinv_l in H by lra. lra.
  - apply (Rmult_le_reg_r (2 * PI)); [lra|]. unfold Rdiv. rewrite Rmult_assoc, Rinv_l by lra. lra.
Qed.
Lemma turn_lt phi a (j : Z) : (a - phi) / (2 * PI) < IZR j <-> a < phi + IZR j * (2 * PI).
Proof. split; intros H; apply Rnot_le_lt; intros N; apply turn_le in N; lra. Qed.

(** a crossing of the plane phi (mod 2 pi) between phi_last and phi_current is seen exactly if some phi + 2 pi j lies between
    them, the upper end included and the lower end excluded *)
Theorem C108_crossing_seen phi a b : crossed phi a b = true <->
  exists j : Z, (a < phi + IZR j * (2 * PI) <= b) \/ (b < phi + IZR j * (2 * PI) <= a).
Proof.
  unfold crossed. rewrite negb_true_iff, Z.eqb_neq. split.
  - intros N. destruct (Z_lt_le_dec (Int_part ((a - phi) / (2 * PI))) (Int_part ((b - phi) / (2 * PI)))) as [H|H].
    + exists (Int_part ((b - phi) / (2 * PI))). left. split.
      * apply turn_lt. destruct (Int_part_bounds ((a - phi) / (2 * PI))) as [_ U]. assert (Int_part ((a - phi) / (2 * PI)) + 1 <= Int_part ((b - phi) / (2 * PI)))%Z as H' by lia. apply IZR_le in H'. rewrite plus_IZR in H'. lra.
      * apply turn_le. apply Int_part_bounds.
    + exists (Int_part ((a - phi) / (2 * PI))). right. split.
      * apply turn_lt. destruct (Int_part_bounds ((b - phi) / (2 * PI))) as [_ U]. assert (Int_part ((b - phi) / (2 * PI)) + 1 <= Int_part ((a - phi) / (2 * PI)))%Z as H' by lia. apply IZR_le in H'. rewrite plus_IZR in H'. lra.
      * apply turn_le. apply Int_part_bounds.
  - intros (j & [[A B]|[A B]]); apply turn_lt, Int_part_gt in A; apply turn_le, Int_part_lt in B; lia.
Qed.
(** the shifted plane handed to the root finder is such a plane and is bracketed, for steps below one turn
    (in cartesian tracing every step is at most half a turn, by C107_get_phi): the assertion in tracing.cpp:403 *)
Theorem C108_bracket phi a b : Rabs (b - a) < 2 * PI -> crossed phi a b = true ->
  (exists j : Z, phi_shift phi a b = phi + IZR j * (2 * PI)) /\
  (a <= phi_shift phi a b <= b \/ b <= phi_shift phi a b <= a).
Proof.
  intros S C. apply C108_crossing_seen in C. destruct C as [j C]. pose proof PI2 as P.
  assert (E : rround (((a + b) / 2 - phi) / (2 * PI)) = j).
  { pose proof (rround_near (((a + b) / 2 - phi) / (2 * PI))) as N. set (r := rround _) in *.
    assert (D : Rabs (IZR j - ((a + b) / 2 - phi) / (2 * PI)) < / 2).
    { replace (IZR j - ((a + b) / 2 - phi) / (2 * PI)) with ((phi + IZR j * (2 * PI) - (a + b) / 2) / (2 * PI)) by (field; lra).
      unfold Rdiv. rewrite Rabs_mult, (Rabs_right (/ (2 * PI))) by (left; now apply Rinv_0_lt_compat).
      apply (Rmult_lt_reg_r (2 * PI)); [lra|]. rewrite Rmult_assoc, Rinv_l by lra. rewrite Rmult_1_r.
      assert (- (2 * PI) < b - a < 2 * PI) by (revert S; unfold Rabs; destruct (Rcase_abs _); lra).
      unfold Rabs. destruct (Rcase_abs _); destruct C as [[? ?]|[? ?]]; lra. }
    assert (Rabs (IZR r - IZR j) < 1) as Q. { revert N D. unfold Rabs. repeat destruct (Rcase_abs _); lra. }
    rewrite <- minus_IZR in Q. rewrite <- abs_IZR in Q. apply lt_IZR in Q. lia. }
  unfold phi_shift. rewrite E. split; [exists j; ring|]. replace (IZR j * 2 * PI + phi) with (phi + IZR j * (2 * PI)) by ring. destruct C as [[? ?]|[? ?]]; [left|right]; lra.
Qed.
Lemma step_le_half St pos yk k phi : Rabs (angle_at St pos false yk k phi - phi) <= PI.
Proof. unfold angle_at. apply C107_get_phi. Qed.

Section Hits.
Variables (St : Type) (pos : St -> vec3) (flux : bool) (phis : list R).
Variables (yk : nat -> St) (dense : nat -> R -> St) (root : nat -> nat -> R * R).
Notation phi_at' := (phi_at St pos flux yk).
Notation hits_of := (fun k => plane_hits St pos flux phis dense root k (phi_at' k) (phi_at' (S k))).

Lemma nth_combine_seq {A} (l : list A) n : forall i d, (i < length l)%nat -> nth_error (combine (seq n (length l)) l) i = Some ((n + i)%nat, nth i l d).
Proof.
  revert n. induction l as [|a l IH]; intros n i d H; [cbn in H; lia|]. cbn [length seq combine]. destruct i; cbn [nth_error nth]; [rewrite Nat.add_0_r; reflexivity|].
  rewrite (IH (S n) i d) by (cbn in H; lia). f_equal. f_equal. lia.
Qed.
(** the row of a crossing in step k -> k+1: index i of its plane, and the better end of the bracket of the root finder *)
Theorem C108_hit_rows k t z y : In (t, z, y) (hits_of k) <->
  exists i phi, z = Z.of_nat i /\ nth_error phis i = Some phi /\ crossed phi (phi_at' k) (phi_at' (S k)) = true /\
    t = troot St pos flux dense root k i (phi_at' k) (phi_shift phi (phi_at' k) (phi_at' (S k))) /\ y = dense k t.
Proof.
  unfold plane_hits. rewrite in_flat_map. split.
  - intros ([i phi] & H1 & H2). destruct (crossed _ _ _) eqn:C; [|destruct H2]. destruct H2 as [H2|[]]. injection H2 as <- <- <-.
    exists i, phi. apply In_nth_error in H1 as [n H1].
    assert (L : (n < length (combine (seq 0 (length phis)) phis))%nat) by (apply nth_error_Some; congruence). rewrite combine_length, seq_length in L.
    rewrite (nth_combine_seq phis 0 n 0) in H1 by lia. injection H1 as <- <-. cbn [Nat.add]. split; [reflexivity|]. split; [apply nth_error_nth'; lia|]. split; [exact C|]. split; reflexivity.
  - intros (i & phi & -> & H1 & C & -> & ->). exists (i, phi). assert (L : (i < length phis)%nat) by (apply nth_error_Some; congruence). split.
    + apply (nth_error_In _ i). rewrite (nth_combine_seq phis 0 i phi L). cbn [Nat.add]. do 2 f_equal. apply nth_error_nth with (d := phi) in H1. exact H1.
    + rewrite C. left. reflexivity.
Qed.
(** its time is one of the two ends of that bracket, and its angle misses the plane by no more than the smaller of the two
    residuals: exactly on the plane if one end is a root *)
Theorem C108_hit_on_plane k i phi t (e : R) : Rabs (phi_at' (S k) - phi_at' k) < 2 * PI -> crossed phi (phi_at' k) (phi_at' (S k)) = true ->
  t = troot St pos flux dense root k i (phi_at' k) (phi_shift phi (phi_at' k) (phi_at' (S k))) ->
  (Rabs (rootfun St pos flux dense k (phi_at' k) (phi_shift phi (phi_at' k) (phi_at' (S k))) (fst (root k i))) <= e \/
   Rabs (rootfun St pos flux dense k (phi_at' k) (phi_shift phi (phi_at' k) (phi_at' (S k))) (snd (root k i))) <= e) ->
  (t = fst (root k i) \/ t = snd (root k i)) /\
  exists (a : R) (j : Z), (if flux then a = vz (pos (dense k t)) else angle_of (vx (pos (dense k t))) (vy (pos (dense k t))) a) /\ Rabs (a - (phi + IZR j * (2 * PI))) <= e.
Proof.
  intros S C -> H. destruct (C108_bracket phi _ _ S C) as [[j J] _]. set (sh := phi_shift phi _ _) in *. unfold troot. destruct (root k i) as [lo hi]. cbn [fst snd] in H.
  assert (A : forall t, Rabs (rootfun St pos flux dense k (phi_at' k) sh t) <= e -> exists (a : R) (j : Z), (if flux then a = vz (pos (dense k t)) else angle_of (vx (pos (dense k t))) (vy (pos (dense k t))) a) /\ Rabs (a - (phi + IZR j * (2 * PI))) <= e).
  { intros t Ht. unfold rootfun in Ht. destruct flux.
    - exists (vz (pos (dense k t))), j. split; [reflexivity|]. rewrite <- J. exact Ht.
    - exists (get_phi (vx (pos (dense k t))) (vy (pos (dense k t))) (phi_at St pos false yk k)), j. split; [apply C107_get_phi|]. rewrite <- J. exact Ht. }
  destruct (Rlt_dec _ _) as [L|L]; (split; [cbn; auto|]); apply A; destruct H; lra.
Qed.
Lemma combine_app' {A B} (l1 l2 : list A) (m1 m2 : list B) : length l1 = length m1 -> combine (l1 ++ l2) (m1 ++ m2) = combine l1 m1 ++ combine l2 m2.
Proof. revert m1. induction l1 as [|a l1 IH]; intros [|b m1] H; try discriminate; [reflexivity|]. cbn. f_equal. apply IH. now injection H. Qed.
(** the number of rows of plane i in the first n steps of an orbit whose angle never decreases (or never increases), with steps
    below one turn, is the number of turns completed past the plane *)
Definition count (i : nat) (l : list (R * Z * St)) : nat := length (filter (fun h => Z.eqb (snd (fst h)) (Z.of_nat i)) l).
Lemma count_app i l1 l2 : count i (l1 ++ l2) = (count i l1 + count i l2)%nat.
Proof. unfold count. rewrite filter_app, app_length. reflexivity. Qed.
Lemma count_step k i phi : nth_error phis i = Some phi -> count i (hits_of k) = if crossed phi (phi_at' k) (phi_at' (S k)) then 1%nat else 0%nat.
Proof.
  intros H. unfold plane_hits. set (a := phi_at' k). set (b := phi_at' (S k)).
  assert (G : forall l n, (i < n \/ n + length l <= i)%nat -> count i (flat_map (fun ip => let '(i0, phi0) := ip in if crossed phi0 a b then [(troot St pos flux dense root k i0 a (phi_shift phi0 a b), Z.of_nat i0, dense k (troot St pos flux dense root k i0 a (phi_shift phi0 a b)))] else []) (combine (seq n (length l)) l)) = 0%nat).
  { induction l as [|p l IH]; intros n Hn; [reflexivity|]. cbn [length seq combine flat_map] in *. rewrite count_app, IH by (cbn in Hn; lia). destruct (crossed p a b); [|reflexivity].
    unfold count. cbn [filter fst snd]. destruct (Z.eqb_spec (Z.of_nat n) (Z.of_nat i)); [cbn in Hn; lia|reflexivity]. }
  destruct (nth_error_split phis i H) as (l1 & l2 & -> & <-). rewrite app_length. cbn [length]. rewrite seq_app, combine_app' by (now rewrite seq_length).
  rewrite flat_map_app. cbn [seq combine flat_map]. rewrite !count_app. rewrite (G l1 0%nat) by (cbn; lia). rewrite (G l2 (S (0 + length l1))%nat) by (left; cbn; lia).
  destruct (crossed phi a b); [|reflexivity]. unfold count. cbn [filter fst snd]. cbn [Nat.add]. rewrite Z.eqb_refl. reflexivity.
Qed.
Lemma floor_step phi a b : a <= b -> b - a < 2 * PI ->
  (Int_part ((b - phi) / (2 * PI)) = Int_part ((a - phi) / (2 * PI)) + if crossed phi a b then 1 else 0)%Z.
Proof.
  intros L U. pose proof PI2 as P. unfold crossed. destruct (Z.eqb_spec (Int_part ((a - phi) / (2 * PI))) (Int_part ((b - phi) / (2 * PI)))) as [E|N]; cbn [negb]; [lia|].
  destruct (Int_part_bounds ((a - phi) / (2 * PI))) as [A1 A2], (Int_part_bounds ((b - phi) / (2 * PI))) as [B1 B2].
  assert (X : (b - phi) / (2 * PI) < (a - phi) / (2 * PI) + 1). { apply (Rmult_lt_reg_r (2 * PI)); [lra|]. rewrite Rmult_plus_distr_r. unfold Rdiv. rewrite !Rmult_assoc, Rinv_l by lra. lra. }
  assert (Y : (a - phi) / (2 * PI) <= (b - phi) / (2 * PI)). { apply (Rmult_le_reg_r (2 * PI)); [lra|]. unfold Rdiv. rewrite !Rmult_assoc, Rinv_l by lra. lra. }
  assert (Int_part ((b - phi) / (2 * PI)) < Int_part ((a - phi) / (2 * PI)) + 2)%Z by (apply lt_IZR; rewrite plus_IZR; lra).
  assert (Int_part ((a - phi) / (2 * PI)) < Int_part ((b - phi) / (2 * PI)) + 1)%Z by (apply lt_IZR; rewrite plus_IZR; lra). lia.
Qed.
Lemma crossed_sym phi a b : crossed phi a b = crossed phi b a.
Proof. unfold crossed. now rewrite Z.eqb_sym. Qed.
Theorem C108_forward_count n i phi : nth_error phis i = Some phi ->
  (forall k, (k < n)%nat -> phi_at' k <= phi_at' (S k) /\ phi_at' (S k) - phi_at' k < 2 * PI) ->
  (Z.of_nat (count i (flat_map hits_of (seq 0 n))) = Int_part ((phi_at' n - phi) / (2 * PI)) - Int_part ((phi_at' 0 - phi) / (2 * PI)))%Z.
Proof.
  intros H. induction n as [|n IH]; intros M; [cbn; lia|]. rewrite seq_S, flat_map_app, count_app. cbn [flat_map Nat.add]. rewrite app_nil_r, (count_step n i phi H).
  rewrite Nat2Z.inj_add, IH by (intros k Hk; apply M; lia). destruct (M n ltac:(lia)) as [M1 M2]. rewrite (floor_step phi (phi_at' n) (phi_at' (S n)) M1 M2).
  destruct (crossed _ _ _); lia.
Qed.
Theorem C108_backward_count n i phi : nth_error phis i = Some phi ->
  (forall k, (k < n)%nat -> phi_at' (S k) <= phi_at' k /\ phi_at' k - phi_at' (S k) < 2 * PI) ->
  (Z.of_nat (count i (flat_map hits_of (seq 0 n))) = Int_part ((phi_at' 0 - phi) / (2 * PI)) - Int_part ((phi_at' n - phi) / (2 * PI)))%Z.
Proof.
  intros H. induction n as [|n IH]; intros M; [cbn; lia|]. rewrite seq_S, flat_map_app, count_app. cbn [flat_map Nat.add]. rewrite app_nil_r, (count_step n i phi H).
  rewrite Nat2Z.inj_add, IH by (intros k Hk; apply M; lia). destruct (M n ltac:(lia)) as [M1 M2]. pose proof (floor_step phi (phi_at' (S n)) (phi_at' n) M1 M2) as F.
  rewrite crossed_sym in F. destruct (crossed _ _ _); lia.
Qed.
End Hits.

(** ** C109: the criteria *)
(** the answer of each criterion at step k+1, whatever it was used for before *)
Theorem C109_criteria (St : Type) (pos : St -> vec3) (yk : nat -> St) (s : tt) (k : nat) : let p := pos (yk (S k)) in let R_ := sqrt (vx p * vx p + vy p * vy p) in
  (forall v, answer pos yk (CMaxS v) s k = true <-> vx p >= v) /\ (forall v, answer pos yk (CMinS v) s k = true <-> vx p <= v) /\
  (forall v, answer pos yk (CMaxZ v) s k = true <-> vz p >= v) /\ (forall v, answer pos yk (CMinZ v) s k = true <-> vz p <= v) /\
  (forall v, answer pos yk (CMaxR v) s k = true <-> R_ >= v) /\ (forall v, answer pos yk (CMinR v) s k = true <-> R_ <= v) /\
  (forall n, answer pos yk (CIter n) s k = true <-> (Z.of_nat (S k) > n)%Z) /\
  (forall f, vx p <> 0 \/ vy p <> 0 -> answer pos yk (CLevel f) s k = true <-> exists phi, 0 <= phi < 2 * PI /\ angle_of (vx p) (vy p) phi /\ f R_ phi (vz p) < 0) /\
  (forall mx flux, answer pos yk (CTransit mx flux) s k = snd (tt_calls mx flux s 1 (map (fun j => pos (yk j)) (seq 1 (S k))))) /\
  answer pos yk CNull s k = false.
Proof.
  cbv zeta. set (p := pos (yk (S k))). unfold answer. fold p. cbn [crit_call snd].
  assert (LB : forall a b, le_b a b = true <-> a <= b) by (intros a b; unfold le_b; destruct (Rle_dec a b); split; easy || lra).
  assert (TB : forall a b, lt_b a b = true <-> a < b) by (intros a b; unfold lt_b; destruct (Rlt_dec a b); split; easy || lra).
  split; [intros v; rewrite LB; split; lra|]. split; [intros v; apply LB|]. split; [intros v; rewrite LB; split; lra|]. split; [intros v; apply LB|].
  split; [intros v; rewrite LB; split; lra|]. split; [intros v; apply LB|]. split; [intros n; rewrite Z.ltb_lt; lia|].
  split.
  { intros f NZ. rewrite TB. split.
    - intros H. exists (ang (vx p) (vy p)). split; [apply ang_range|]. split; [apply ang_of|exact H].
    - intros (phi & Rg & A & H). destruct (angle_unique _ _ _ _ NZ A (ang_of (vx p) (vy p))) as [j E]. pose proof (ang_range (vx p) (vy p)) as Ra. pose proof PI2.
      assert (j = 0)%Z as -> by (assert (-1 < j)%Z by (apply lt_IZR; nra); assert (j < 1)%Z by (apply lt_IZR; nra); lia). replace (ang (vx p) (vy p)) with phi by lra. exact H. }
  split; [|reflexivity]. intros mx flux. unfold p. clear LB TB p.
  assert (G : forall n a s, (0 < a)%nat -> tt_calls mx flux s a (map (fun j => pos (yk j)) (seq a (S n))) = tt_call mx flux (nat_rect (fun _ => tt) s (fun i c => fst (tt_call mx flux c (a + i) (pos (yk (a + i)%nat)))) n) (a + n) (pos (yk (a + n)%nat))).
  { induction n as [|n IH]; intros a s0 Ha; [cbn [seq map tt_calls nat_rect]; now rewrite Nat.add_0_r|].
    change (seq a (S (S n))) with (a :: seq (S a) (S n)). cbn [map]. change (seq (S a) (S n)) with (S a :: seq (S (S a)) n) at 1. cbn [map].
    change (tt_calls mx flux s0 a (pos (yk a) :: pos (yk (S a)) :: map (fun j => pos (yk j)) (seq (S (S a)) n))) with (tt_calls mx flux (fst (tt_call mx flux s0 a (pos (yk a)))) (S a) (map (fun j => pos (yk j)) (seq (S a) (S n)))).
    rewrite IH by lia. replace (S a + n)%nat with (a + S n)%nat by lia. f_equal. clear.
    induction n as [|n IH]; cbn [nat_rect]; [now rewrite Nat.add_0_r|]. rewrite IH. replace (S a + n)%nat with (a + S n)%nat by lia. reflexivity. }
  rewrite G by lia. do 2 f_equal. clear. induction k as [|k IH]; [reflexivity|]. cbn [crit_state nat_rect]. rewrite IH. reflexivity.
Qed.
(** one criterion never influences another orbit: all answers are independent of the state before the first step *)
Theorem C109_no_memory (St : Type) (pos : St -> vec3) (yk : nat -> St) (c : crit) (s s' : tt) (k : nat) : answer pos yk c s k = answer pos yk c s' k.
Proof.
  destruct c; try reflexivity. unfold answer. cbn [crit_call]. destruct k as [|k]; [reflexivity|].
  assert (E : crit_state pos yk (CTransit mx flux) s (S k) = crit_state pos yk (CTransit mx flux) s' (S k)); [|now rewrite E].
  induction k as [|k IH]; [reflexivity|]. change (fst (crit_call (CTransit mx flux) (crit_state pos yk (CTransit mx flux) s (S k)) (S (S k)) (pos (yk (S (S k))))) = fst (crit_call (CTransit mx flux) (crit_state pos yk (CTransit mx flux) s' (S k)) (S (S k)) (pos (yk (S (S k)))))). now rewrite IH.
Qed.

(** ** Many particles: the criteria objects are shared by all particles of a process *)
Section Many.
Variables (St : Type) (pos : St -> vec3) (flux : bool) (phis : list R) (crits : list crit) (tmax : R).
Variables (tk : nat -> nat -> R) (yk : nat -> nat -> St) (dense : nat -> nat -> R -> St) (root : nat -> nat -> nat -> R * R).
Definition one (fuel i : nat) (ss : list tt) := solve St pos flux phis crits tmax (tk i) (yk i) (dense i) (root i) fuel ss.
(** tracing.py:186-199, 291-309, 651-659: the loop over the particles of one process *)
Fixpoint trace (fuel : nat) (l : list nat) (ss : list tt) : option (list (list (R * St) * list (hit St))) :=
  match l with
  | [] => Some []
  | i :: r => match one fuel i ss with
      | None => None
      | Some (res, hits, ss') => match trace fuel r ss' with None => None | Some o => Some ((res, hits) :: o) end
      end
  end.
(** tracing.py:202-204, 312-314, 660-662: on every rank, [i for o in comm.allgather(res) for i in o]; ss: the criteria on each rank *)
Definition trace_rank (fuel n size rank : nat) (ss : list tt) : option (list (list (R * St) * list (hit St))) :=
  match parallel_loop_bounds (Some (size, rank)) n with Some (a, b) => trace fuel (seq a (b - a)) ss | None => None end.
Fixpoint gather {A} (l : list (option (list A))) : option (list A) :=
  match l with [] => Some [] | None :: _ => None | Some a :: r => match gather r with None => None | Some b => Some (a ++ b) end end.
Definition trace_mpi (fuel n size : nat) (ss : nat -> list tt) := gather (map (fun r => trace_rank fuel n size r (ss r)) (seq 0 size)).

(** equal up to the states of criteria that have no state *)
Definition same (c : crit) (s s' : tt) : Prop := match c with CTransit _ _ => s = s' | _ => True end.
Definition sames := Forall2 (fun c ss => same c (fst ss) (snd ss)).
Lemma fire_same iter p : forall cs i sp, length sp = length cs -> iter = 1%nat \/ sames cs sp ->
  snd (fire i cs (map fst sp) iter p) = snd (fire i cs (map snd sp) iter p) /\
  length (fst (fire i cs (map fst sp) iter p)) = length cs /\ length (fst (fire i cs (map snd sp) iter p)) = length cs /\
  (snd (fire i cs (map fst sp) iter p) = None -> sames cs (combine (fst (fire i cs (map fst sp) iter p)) (fst (fire i cs (map snd sp) iter p)))).
Proof.
  induction cs as [|c cs IH]; intros i [|[s s'] sp] L H; try discriminate; cbn [map fire]; [repeat split; constructor|]. cbn [fst snd].
  assert (E : snd (crit_call c s iter p) = snd (crit_call c s' iter p) /\ same c (fst (crit_call c s iter p)) (fst (crit_call c s' iter p))).
  { destruct H as [->|H]; [|inversion H as [|? ? ? ? S0 H']; subst; cbn [fst snd] in S0].
    - destruct c; split; try reflexivity; exact I.
    - destruct c; try (split; [reflexivity|exact I]). cbn in S0. subst s'. split; reflexivity. }
  destruct (crit_call c s iter p) as [t b], (crit_call c s' iter p) as [t' b']. cbn [fst snd] in E. destruct E as [<- E]. destruct b.
  - cbn [fst snd]. cbn in L. split; [reflexivity|]. split; [cbn; now rewrite map_length; lia|]. split; [cbn; now rewrite map_length; lia|]. discriminate.
  - specialize (IH (S i) sp ltac:(cbn in L; lia)). destruct IH as (E1 & E2 & E3 & E4). { destruct H as [->|H]; [now left|]. right. now inversion H. }
    destruct (fire (S i) cs (map fst sp) iter p) as [u1 r1], (fire (S i) cs (map snd sp) iter p) as [u2 r2]. cbn [fst snd] in *. subst r2.
    split; [reflexivity|]. split; [cbn; lia|]. split; [cbn; lia|]. intros N. cbn [combine]. constructor; [exact E|exact (E4 N)].
Qed.
Definition strip (r : option (list (R * St) * list (hit St) * list tt)) := match r with Some (a, b, _) => Some (a, b) | None => None end.
Lemma map_fst_combine {A B} (l : list A) (m : list B) : length l = length m -> map fst (combine l m) = l.
Proof. revert m; induction l as [|a l IH]; intros [|b m] H; try discriminate; [reflexivity|]. cbn. f_equal. apply IH. now injection H. Qed.
Lemma map_snd_combine {A B} (l : list A) (m : list B) : length l = length m -> map snd (combine l m) = m.
Proof. revert m; induction l as [|a l IH]; intros [|b m] H; try discriminate; [reflexivity|]. cbn. f_equal. apply IH. now injection H. Qed.
Lemma loop_same i : forall fuel k phi sp res hits, length sp = length crits -> k = 0%nat \/ sames crits sp ->
  strip (loop St pos flux phis crits tmax (tk i) (yk i) (dense i) (root i) fuel k phi (map fst sp) res hits) =
  strip (loop St pos flux phis crits tmax (tk i) (yk i) (dense i) (root i) fuel k phi (map snd sp) res hits).
Proof.
  induction fuel as [|fuel IH]; intros k phi sp res hits L H; [reflexivity|]. cbn [loop].
  assert (H' : S k = 1%nat \/ sames crits sp) by (destruct H; [left; lia|now right]).
  destruct (fire_same (S k) (pos (yk i (S k))) crits 0 sp L H') as (E1 & E2 & E3 & E4).
  destruct (fire 0 crits (map fst sp) (S k) (pos (yk i (S k)))) as [u1 r1], (fire 0 crits (map snd sp) (S k) (pos (yk i (S k)))) as [u2 r2]. cbn [fst snd] in *. subst r2.
  destruct r1; [reflexivity|]. destruct (Rlt_dec _ _); [|reflexivity].
  rewrite <- (map_fst_combine u1 u2) at 1 by lia. rewrite <- (map_snd_combine u1 u2) at 2 by lia. apply IH; [rewrite combine_length; lia|right; auto].
Qed.
Lemma solve_len i fuel ss res hits ss' : length ss = length crits -> one fuel i ss = Some (res, hits, ss') -> length ss' = length crits.
Proof.
  intros L. unfold one, solve. generalize 0%nat at 1. intros k. generalize (phi_start St pos flux (yk i)). intros phi. generalize (@nil (R * St)) (@nil (hit St)). revert k phi ss L.
  induction fuel as [|fuel IH]; intros k phi ss L r0 h0 H; [discriminate|]. cbn [loop] in H.
  assert (LF : length (fst (fire 0 crits ss (S k) (pos (yk i (S k))))) = length crits).
  { clear H IH. generalize 0%nat. revert ss L. induction crits as [|c cs IHc]; intros [|s ss] L n; try discriminate; [reflexivity|]. cbn [fire].
    destruct (crit_call c s _ _) as [s1 []]; [cbn in *; lia|]. specialize (IHc ss ltac:(cbn in L; lia) (S n)). destruct (fire (S n) cs ss _ _). cbn in *. lia. }
  destruct (fire 0 crits ss _ _) as [u [j|]]; cbn [fst] in LF.
  - injection H as _ _ <-. exact LF.
  - destruct (Rlt_dec _ _); [eauto|]. injection H as _ _ <-. exact LF.
Qed.
(** the result for particle i, when traced first on a fresh list of criteria *)
Definition alone (fuel i : nat) := strip (one fuel i (map (fun _ => TT 0 0) crits)).
Lemma one_alone fuel i ss : length ss = length crits -> strip (one fuel i ss) = alone fuel i.
Proof.
  intros L. unfold alone, one, solve. assert (L2 : length (map (fun _ : crit => TT 0 0) crits) = length crits) by apply map_length.
  rewrite <- (map_fst_combine ss (map (fun _ => TT 0 0) crits)) at 1 by congruence. rewrite <- (map_snd_combine ss (map (fun _ => TT 0 0) crits)) at 2 by congruence.
  apply loop_same; [rewrite combine_length; lia|now left].
Qed.
(** every particle gets the result it would get alone, in whatever order and on whatever process it is traced *)
Theorem C109_particles_independent fuel : forall l ss out, length ss = length crits -> trace fuel l ss = Some out -> map (alone fuel) l = map Some out.
Proof.
  induction l as [|i l IH]; intros ss out L H; cbn [trace] in H; [injection H as <-; reflexivity|].
  destruct (one fuel i ss) as [[[res hits] ss']|] eqn:E; [|discriminate]. destruct (trace fuel l ss') eqn:T; [|discriminate]. injection H as <-. cbn [map]. f_equal.
  - rewrite <- (one_alone fuel i ss L), E. reflexivity.
  - eapply IH; [|exact T]. eapply solve_len; eauto.
Qed.
Lemma trace_total fuel : forall l ss, length ss = length crits -> (forall i, In i l -> alone fuel i <> None) -> exists out, trace fuel l ss = Some out.
Proof.
  induction l as [|i l IH]; intros ss L H; cbn [trace]; [eauto|]. pose proof (one_alone fuel i ss L) as A. destruct (one fuel i ss) as [[[res hits] ss']|] eqn:E.
  - destruct (IH ss') as [o ->]; [eapply solve_len; eauto|intros j Hj; apply H; now right|eauto].
  - exfalso. apply (H i); [now left|]. rewrite <- A. reflexivity.
Qed.
Lemma seq_tiles n size : (0 < size)%nat -> forall m, (m <= size)%nat -> concat (map (fun r => seq (r * n / size) ((r + 1) * n / size - r * n / size)) (seq 0 m)) = seq 0 (m * n / size).
Proof.
  intros Hs. induction m as [|m IH]; intros Hm; [cbn; now rewrite Nat.div_0_l by lia|]. rewrite seq_S, map_app, concat_app, IH by lia. cbn [map concat Nat.add]. rewrite app_nil_r.
  assert (m * n / size <= (m + 1) * n / size)%nat by (apply Nat.div_le_mono; nia). replace (S m) with (m + 1)%nat by lia.
  rewrite <- seq_app. f_equal. lia.
Qed.
(** with MPI, every process returns exactly the serial result, for any number of processes and any earlier use of the criteria *)
Theorem C109_mpi_is_serial fuel n size ss0 ss : (0 < size)%nat -> length ss0 = length crits -> (forall r, length (ss r) = length crits) ->
  (forall i, (i < n)%nat -> alone fuel i <> None) -> exists out, trace fuel (seq 0 n) ss0 = Some out /\ trace_mpi fuel n size ss = Some out /\ length out = n.
Proof.
  intros Hs L0 L T. destruct (trace_total fuel (seq 0 n) ss0 L0) as [out E]. { intros i Hi. apply in_seq in Hi. apply T. lia. }
  exists out. split; [exact E|]. pose proof (C109_particles_independent fuel (seq 0 n) ss0 out L0 E) as EA.
  assert (EL : length out = n). { apply (f_equal (@length _)) in EA. rewrite !map_length, seq_length in EA. lia. } split; [|exact EL].
  assert (SI : forall (a b : list (list (R * St) * list (hit St))), map Some a = map Some b -> a = b). { induction a as [|x a IH]; intros [|y b] H; try discriminate; [reflexivity|]. cbn in H. injection H as -> H. f_equal. auto. }
  assert (G : forall m, (m <= size)%nat -> exists o, gather (map (fun r => trace_rank fuel n size r (ss r)) (seq (size - m) m)) = Some o /\ map (alone fuel) (concat (map (fun r => seq (r * n / size) ((r + 1) * n / size - r * n / size)) (seq (size - m) m))) = map Some o).
  { induction m as [|m IH]; intros Hm; [exists []; split; reflexivity|]. destruct (IH ltac:(lia)) as (o & Ho & Mo). cbn [seq map]. replace (S (size - S m)) with (size - m)%nat by lia. cbn [gather].
    set (r := (size - S m)%nat) in *. unfold trace_rank at 1. rewrite bounds_eq by (unfold r; lia).
    destruct (trace_total fuel (seq (r * n / size) ((r + 1) * n / size - r * n / size)) (ss r) (L r)) as [o1 E1].
    { intros i Hi. apply in_seq in Hi. apply T. assert ((r + 1) * n / size <= n)%nat. { transitivity (size * n / size)%nat; [apply Nat.div_le_mono; [lia|]; apply Nat.mul_le_mono_r; unfold r; lia|rewrite Nat.mul_comm, Nat.div_mul; lia]. }
      assert (r * n / size <= (r + 1) * n / size)%nat by (apply Nat.div_le_mono; nia). lia. }
    rewrite E1, Ho. exists (o1 ++ o). split; [reflexivity|]. cbn [concat]. rewrite !map_app, Mo. f_equal. eapply C109_particles_independent; [apply (L r)|exact E1]. }
  destruct (G size ltac:(lia)) as (o & Ho & Mo). rewrite Nat.sub_diag in *. unfold trace_mpi. rewrite Ho. f_equal. apply SI. rewrite <- Mo, <- EA. f_equal.
  rewrite seq_tiles by lia. f_equal. rewrite Nat.mul_comm, Nat.div_mul; lia.
Qed.
End Many.

(** ** non-vacuity and a refutation *)
(** a particle on the flux-coordinate path zeta = t with steps of length 2, plane at zeta = 1, tmax = 3 *)
Definition demo_tk (k : nat) : R := 2 * INR k.
Definition demo_pos (t : R) : vec3 := V3 0.5 0 t.
Example C108_case : let out := solve R demo_pos true [1] [CMaxZ 100] 3 demo_tk demo_tk (fun _ t => t) (fun _ _ => (1, 1)) 5 [TT 0 0] in
  exists h s, out = Some ([(demo_tk 0, demo_tk 0); (demo_tk 1, demo_tk 1); (3, 3)], h, s) /\ In (1, 0%Z, 1) h.
Proof.
  pose proof PI_RGT_0 as P0. pose proof PI_4 as P4. pose proof PI2_3_2 as P3.
  cbv zeta. destruct (C108_terminates R demo_pos true [1] [CMaxZ 100] 3 demo_tk demo_tk (fun _ t => t) (fun _ _ => (1, 1)) [TT 0 0] 4) as [[[res h] s] E]. { unfold demo_tk. cbn [INR]. lra. }
  exists h, s. rewrite E. destruct (C108_solve R demo_pos true [1] [CMaxZ 100] 3 demo_tk demo_tk (fun _ t => t) (fun _ _ => (1, 1)) 5 [TT 0 0] res h s eq_refl E) as (K & A & B).
  assert (T1 : demo_tk 1 = 2) by (unfold demo_tk; cbn; lra). assert (T2 : demo_tk 2 = 4) by (unfold demo_tk; cbn; lra).
  assert (HK : (K <= 1)%nat). { destruct (le_lt_dec K 1); [auto|]. destruct (A 1%nat l). rewrite T2 in *. lra. }
  assert (NF : forall k, (k <= 1)%nat -> ~ exists i, first_yes R demo_pos [CMaxZ 100] demo_tk [TT 0 0] k i).
  { intros k Hk (i & (c & s0 & N1 & N2 & N3) & _). destruct i as [|[|i]]; cbn in N1, N2; try discriminate. injection N1 as <-. injection N2 as <-.
    destruct (C109_criteria R demo_pos demo_tk (TT 0 0) k) as (_ & _ & C & _). apply C in N3. unfold demo_pos in N3. cbn [vz] in N3. destruct k as [|[|k]]; [rewrite T1 in N3; lra|rewrite T2 in N3; lra|lia]. }
  destruct B as [(i & F & _)|(_ & T & -> & ->)]; [exfalso; apply (NF K HK); eauto|]. destruct K as [|[|K]]; [rewrite T1 in T; lra| |lia].
  cbn [seq map app]. split; [reflexivity|]. cbn [flat_map]. apply in_or_app. left.
  apply (C108_hit_rows R demo_pos true [1] demo_tk (fun _ t => t) (fun _ _ => (1, 1)) 0). exists 0%nat, 1. split; [reflexivity|]. split; [reflexivity|].
  split. { apply C108_crossing_seen. exists 0%Z. left. cbn [phi_at angle_at phi_start]. unfold angle_at, phi_start, demo_pos. cbn [vz]. rewrite T1. unfold demo_tk. cbn [INR]. lra. }
  split; [|reflexivity]. unfold troot. destruct (Rlt_dec _ _); reflexivity.
Qed.
(** the last step goes beyond tmax, and so can hits and stopping criteria: here a criterion that is first met after tmax stops the
    particle, which is then reported as lost (the last time in the path is below tmax) although it was confined up to tmax *)
Theorem C108_stopped_after_tmax_refuted : exists res h s,
  solve R demo_pos true [] [CMaxZ 3.5] 3 demo_tk demo_tk (fun _ t => t) (fun _ _ => (1, 1)) 5 [TT 0 0] = Some (res, h, s) /\
  h = [(4, (-1)%Z, 4)] /\ (forall r, In r res -> fst r < 3 - 1e-15) /\ (forall t, 0 <= t <= 3 -> vz (demo_pos t) < 3.5).
Proof.
  destruct (C108_terminates R demo_pos true [] [CMaxZ 3.5] 3 demo_tk demo_tk (fun _ t => t) (fun _ _ => (1, 1)) [TT 0 0] 4) as [[[res h] s] E]. { unfold demo_tk. cbn [INR]. lra. }
  exists res, h, s. split; [exact E|]. destruct (C108_solve R demo_pos true [] [CMaxZ 3.5] 3 demo_tk demo_tk (fun _ t => t) (fun _ _ => (1, 1)) 5 [TT 0 0] res h s eq_refl E) as (K & A & B).
  assert (T0 : demo_tk 0 = 0) by (unfold demo_tk; cbn; lra). assert (T1 : demo_tk 1 = 2) by (unfold demo_tk; cbn; lra). assert (T2 : demo_tk 2 = 4) by (unfold demo_tk; cbn; lra).
  assert (HK : (K <= 1)%nat). { destruct (le_lt_dec K 1); [auto|]. destruct (A 1%nat l). rewrite T2 in *. lra. }
  assert (AN : forall k, answer demo_pos demo_tk (CMaxZ 3.5) (TT 0 0) k = true <-> demo_tk (S k) >= 3.5) by (intros k; destruct (C109_criteria R demo_pos demo_tk (TT 0 0) k) as (_ & _ & C & _); apply C).
  destruct K as [|[|K]]; [| |lia].
  - exfalso. destruct B as [(i & ((c & s0 & N1 & N2 & N3) & _) & _)|(_ & T & _)].
    + destruct i as [|[|i]]; cbn in N1, N2; try discriminate. injection N1 as <-. injection N2 as <-. apply AN in N3. rewrite T1 in N3. lra.
    + rewrite T1 in T. lra.
  - destruct B as [(i & ((c & s0 & N1 & N2 & N3) & _) & -> & ->)|(N & _)].
    + destruct i as [|[|i]]; cbn in N1, N2; try discriminate. split; [cbn [seq flat_map]; unfold plane_hits; cbn [List.length seq combine flat_map app]; rewrite T2; reflexivity|].
      split; [|intros t Ht; unfold demo_pos; cbn [vz]; lra]. intros r [<-|[<-|[]]]; cbn [fst]; rewrite ?T0, ?T1; lra.
    + exfalso. specialize (N 0%nat (CMaxZ 3.5) (TT 0 0) eq_refl eq_refl). assert (X : answer demo_pos demo_tk (CMaxZ 3.5) (TT 0 0) 1 = true) by (apply AN; rewrite T2; lra). congruence.
Qed.
