(** The integration loop shared by all tracing routines (solve, src/simsoptpp/tracing.cpp:366-443), the stopping
    criteria (src/simsoptpp/tracing.h:13-122) and the distribution of particles over processes
    (src/simsopt/field/tracing.py:181-205, 285-315, 647-664).
    The adaptive integrator and the root finder (boost) are arbitrary: [tk k], [yk k] are time and state after k steps,
    [dense k t] the dense output of step k -> k+1 at time t, [root k i] the bracket returned by toms748_solve for plane i
    in step k -> k+1.  The state of a particle is of any type; [pos] gives y[0], y[1], y[2]. *)
From Coq Require Import Reals Lra Lia ZArith List Bool.
From Verif Require Import Vec3 PointsModel TraceAngle PartitionModel PartitionProps.
Import ListNotations.
Open Scope R_scope.

(** ** Stopping criteria *)
Inductive crit := CNull | CTransit (mx : Z) (flux : bool) | CMaxS (v : R) | CMinS (v : R) | CMinZ (v : R) | CMaxZ (v : R)
  | CMinR (v : R) | CMaxR (v : R) | CIter (n : Z) | CLevel (f : R -> R -> R -> R).
Definition le_b (a b : R) : bool := if Rle_dec a b then true else false.
Definition lt_b (a b : R) : bool := if Rlt_dec a b then true else false.
(** tracing.h:30-122; the null pointer is skipped (tracing.cpp:428).  Only the transit criterion has a state. *)
Definition crit_call (c : crit) (s : tt) (iter : nat) (p : vec3) : tt * bool :=
  match c with
  | CNull => (s, false)
  | CTransit mx flux => tt_call mx flux s iter p
  | CMaxS v => (s, le_b v (vx p))
  | CMinS v => (s, le_b (vx p) v)
  | CMinZ v => (s, le_b (vz p) v)
  | CMaxZ v => (s, le_b v (vz p))
  | CMinR v => (s, le_b (sqrt (vx p * vx p + vy p * vy p)) v)
  | CMaxR v => (s, le_b v (sqrt (vx p * vx p + vy p * vy p)))
  | CIter n => (s, (n <? Z.of_nat iter)%Z)
  | CLevel f => (s, lt_b (f (sqrt (vx p * vx p + vy p * vy p)) (ang (vx p) (vy p)) (vz p)) 0)
  end.
(** tracing.cpp:427-433: the criteria in order up to the first that fires *)
Fixpoint fire (i : nat) (cs : list crit) (ss : list tt) (iter : nat) (p : vec3) : list tt * option nat :=
  match cs, ss with
  | c :: cs', s :: ss' => let '(s', b) := crit_call c s iter p in
      if b then (s' :: ss', Some i) else let '(ss'', r) := fire (S i) cs' ss' iter p in (s' :: ss'', r)
  | _, _ => (ss, None)
  end.

Section Loop.
Variables (St : Type) (pos : St -> vec3) (flux : bool) (phis : list R) (crits : list crit) (tmax : R).
Variables (tk : nat -> R) (yk : nat -> St) (dense : nat -> R -> St) (root : nat -> nat -> R * R).
(** tracing.cpp:378-381, 391-394 *)
Definition angle_at (k : nat) (phi_last : R) : R := if flux then vz (pos (yk k)) else get_phi (vx (pos (yk k))) (vy (pos (yk k))) phi_last.
(** tracing.cpp:400: phi + k*2pi was crossed for some k *)
Definition crossed (phi phi_last phi_current : R) : bool := negb (Int_part ((phi_last - phi) / (2 * PI)) =? Int_part ((phi_current - phi) / (2 * PI)))%Z.
(** tracing.cpp:401-402 *)
Definition phi_shift (phi phi_last phi_current : R) : R := IZR (rround (((phi_last + phi_current) / 2 - phi) / (2 * PI))) * 2 * PI + phi.
(** tracing.cpp:405-412 *)
Definition rootfun (k : nat) (phi_last shift t : R) : R :=
  if flux then vz (pos (dense k t)) - shift else get_phi (vx (pos (dense k t))) (vy (pos (dense k t))) phi_last - shift.
(** tracing.cpp:413-417 *)
Definition troot (k i : nat) (phi_last shift : R) : R :=
  let '(a, b) := root k i in if Rlt_dec (Rabs (rootfun k phi_last shift a)) (Rabs (rootfun k phi_last shift b)) then a else b.
(** a row of res_phi_hits: time, index, state *)
Definition hit := (R * Z * St)%type.
(** tracing.cpp:398-425 *)
Definition plane_hits (k : nat) (phi_last phi_current : R) : list hit :=
  flat_map (fun ip => let '(i, phi) := ip in
    if crossed phi phi_last phi_current then let t := troot k i phi_last (phi_shift phi phi_last phi_current) in [(t, Z.of_nat i, dense k t)] else [])
    (combine (seq 0 (length phis)) phis).
(** tracing.cpp:384-436: one iteration of the do-while loop, from step k *)
Fixpoint loop (fuel k : nat) (phi_last : R) (ss : list tt) (res : list (R * St)) (hits : list hit) : option (list (R * St) * list hit * list tt) :=
  match fuel with
  | O => None
  | S fuel' =>
      let res := res ++ [(tk k, yk k)] in
      let phi_current := angle_at (S k) phi_last in
      let hits := hits ++ plane_hits k phi_last phi_current in
      let '(ss', fired) := fire 0 crits ss (S k) (pos (yk (S k))) in
      match fired with
      | Some i => Some (res, hits ++ [(tk (S k), (-1 - Z.of_nat i)%Z, yk (S k))], ss')
      | None => if Rlt_dec (tk (S k)) tmax then loop fuel' (S k) phi_current ss' res hits
                else Some (res ++ [(tmax, dense k tmax)], hits, ss')
      end
  end.
Definition phi_start : R := if flux then vz (pos (yk 0)) else get_phi (vx (pos (yk 0))) (vy (pos (yk 0))) PI.
Definition solve (fuel : nat) (ss : list tt) : option (list (R * St) * list hit * list tt) := loop fuel 0 phi_start ss [] [].

(** ** Specification *)
(** the unwrapped angle after k steps *)
Fixpoint phi_at (k : nat) : R := match k with O => phi_start | S k' => angle_at (S k') (phi_at k') end.
(** the state of a criterion after its calls at steps 1..k, and its answer at step k+1 *)
Fixpoint crit_state (c : crit) (s : tt) (k : nat) : tt := match k with O => s | S k' => fst (crit_call c (crit_state c s k') (S k') (pos (yk (S k')))) end.
Definition answer (c : crit) (s : tt) (k : nat) : bool := snd (crit_call c (crit_state c s k) (S k) (pos (yk (S k)))).
(** criterion i is the first in the list that answers yes at step k+1 *)
Definition first_yes (ss : list tt) (k i : nat) : Prop :=
  (exists c s, nth_error crits i = Some c /\ nth_error ss i = Some s /\ answer c s k = true) /\
  forall j c s, (j < i)%nat -> nth_error crits j = Some c -> nth_error ss j = Some s -> answer c s k = false.
Definition none_yes (ss : list tt) (k : nat) : Prop := forall j c s, nth_error crits j = Some c -> nth_error ss j = Some s -> answer c s k = false.

(** ** Lemmas *)
Lemma fire_spec k : forall cs ss0 i, length ss0 = length cs ->
  let ss := map (fun cs => crit_state (fst cs) (snd cs) k) (combine cs ss0) in
  match fire i cs ss (S k) (pos (yk (S k))) with
  | (_, Some j) => (i <= j)%nat /\ (exists c s, nth_error cs (j - i) = Some c /\ nth_error ss0 (j - i) = Some s /\ answer c s k = true) /\
      forall j' c s, (j' < j - i)%nat -> nth_error cs j' = Some c -> nth_error ss0 j' = Some s -> answer c s k = false
  | (ss', None) => ss' = map (fun cs => crit_state (fst cs) (snd cs) (S k)) (combine cs ss0) /\
      forall j' c s, nth_error cs j' = Some c -> nth_error ss0 j' = Some s -> answer c s k = false
  end.
Proof.
  induction cs as [|c cs IH]; intros [|s ss0] i L; try discriminate; cbn [combine map fire].
  - split; [reflexivity|]. intros [|j'] c s H; discriminate.
  - cbn [fst snd]. destruct (crit_call c (crit_state c s k) (S k) (pos (yk (S k)))) as [s' b] eqn:E.
    assert (A : answer c s k = b) by (unfold answer; now rewrite E). destruct b.
    + split; [lia|]. rewrite Nat.sub_diag. split; [exists c, s; auto|]. intros j' ? ? H. lia.
    + specialize (IH ss0 (S i) ltac:(cbn in L; lia)). cbv zeta in IH. destruct (fire (S i) cs _ _ _) as [ss'' [j|]].
      * destruct IH as (Hj & (c' & s'' & N1 & N2 & N3) & N4). split; [lia|]. replace (j - i)%nat with (S (j - S i)) by lia. split; [exists c', s''; auto|].
        intros [|j'] c0 s0 Hlt; cbn; intros Q1 Q2; [injection Q1 as <-; injection Q2 as <-; exact A|]. eapply N4; eauto. lia.
      * destruct IH as [-> N]. split; [cbn [crit_state]; rewrite E; reflexivity|]. intros [|j'] c0 s0; cbn; intros Q1 Q2; [injection Q1 as <-; injection Q2 as <-; exact A|eauto].
Qed.
Definition rows (n : nat) : list (R * St) := map (fun k => (tk k, yk k)) (seq 0 n).
Definition all_hits (n : nat) : list hit := flat_map (fun k => plane_hits k (phi_at k) (phi_at (S k))) (seq 0 n).
Lemma rows_S n : rows (S n) = rows n ++ [(tk n, yk n)].
Proof. unfold rows. rewrite seq_S, map_app. reflexivity. Qed.
Lemma all_hits_S n : all_hits (S n) = all_hits n ++ plane_hits n (phi_at n) (phi_at (S n)).
Proof. unfold all_hits. rewrite seq_S, flat_map_app. cbn [flat_map Nat.add]. now rewrite app_nil_r. Qed.
Definition states_at (ss : list tt) (k : nat) : list tt := map (fun cs => crit_state (fst cs) (snd cs) k) (combine crits ss).
Definition outcome (ss : list tt) (K : nat) (res : list (R * St)) (hits : list hit) : Prop :=
  (exists i, first_yes ss K i /\ res = rows (S K) /\ hits = all_hits (S K) ++ [(tk (S K), (-1 - Z.of_nat i)%Z, yk (S K))]) \/
  (none_yes ss K /\ tmax <= tk (S K) /\ res = rows (S K) ++ [(tmax, dense K tmax)] /\ hits = all_hits (S K)).
Lemma loop_spec ss : length ss = length crits -> forall fuel k res hits ss',
  loop fuel k (phi_at k) (states_at ss k) (rows k) (all_hits k) = Some (res, hits, ss') ->
  exists K, (k <= K)%nat /\ (forall j, (k <= j < K)%nat -> tk (S j) < tmax /\ none_yes ss j) /\ outcome ss K res hits.
Proof.
  intros L. induction fuel as [|fuel IH]; intros k res hits ss' H; [discriminate|]. cbn [loop] in H. rewrite <- rows_S in H.
  change (angle_at (S k) (phi_at k)) with (phi_at (S k)) in H. rewrite <- all_hits_S in H.
  pose proof (fire_spec k crits ss 0 L) as F. cbv zeta in F. fold (states_at ss k) in F. destruct (fire 0 crits _ _ _) as [ss1 [i|]].
  - injection H as <- <- _. destruct F as (_ & A & B). rewrite Nat.sub_0_r in *. exists k. split; [lia|]. split; [intros; lia|]. left. exists i. split; [split; auto|auto].
  - destruct F as [-> N]. fold (states_at ss (S k)) in H. destruct (Rlt_dec (tk (S k)) tmax) as [T|T].
    + destruct (IH _ _ _ _ H) as (K & HK & B & O). exists K. split; [lia|]. split; [|exact O]. intros j Hj. destruct (Nat.eq_dec j k) as [->|]; [|apply B; lia]. split; auto.
    + injection H as <- <- _. exists k. split; [lia|]. split; [intros; lia|]. right. split; [exact N|]. split; [lra|]. auto.
Qed.
End Loop.
Arguments answer {St}. Arguments crit_state {St}.

(** ** C108 *)
(** what solve returns: it makes K+1 steps, where step K+1 is the first at which a criterion fires or tmax is reached;
    the path holds the states before each step, and the state interpolated at tmax unless stopped by a criterion;
    the hits are those of the steps in order, then the row of the first criterion that fires *)
Theorem C108_solve St pos flux phis crits tmax tk yk dense root fuel ss res hits ss' : length ss = length crits ->
  solve St pos flux phis crits tmax tk yk dense root fuel ss = Some (res, hits, ss') ->
  exists K, (forall j, (j < K)%nat -> tk (S j) < tmax /\ none_yes St pos crits yk ss j) /\
    ((exists i, first_yes St pos crits yk ss K i /\ res = map (fun k => (tk k, yk k)) (seq 0 (S K)) /\
        hits = flat_map (fun k => plane_hits St pos flux phis dense root k (phi_at St pos flux yk k) (phi_at St pos flux yk (S k))) (seq 0 (S K)) ++ [(tk (S K), (-1 - Z.of_nat i)%Z, yk (S K))]) \/
     (none_yes St pos crits yk ss K /\ tmax <= tk (S K) /\ res = map (fun k => (tk k, yk k)) (seq 0 (S K)) ++ [(tmax, dense K tmax)] /\
        hits = flat_map (fun k => plane_hits St pos flux phis dense root k (phi_at St pos flux yk k) (phi_at St pos flux yk (S k))) (seq 0 (S K)))).
Proof.
  intros L H. unfold solve in H.
  assert (E : ss = states_at St pos crits yk ss 0). { unfold states_at. cbn [crit_state]. clear H. revert ss L. induction crits as [|c cs IH]; intros [|s ss0] L; try discriminate; [reflexivity|]. cbn [combine map snd fst crit_state]. f_equal. apply IH. cbn in L. lia. }
  rewrite E in H at 1. destruct (loop_spec St pos flux phis crits tmax tk yk dense root ss L fuel 0 res hits ss' H) as (K & _ & A & B).
  exists K. split; [intros j Hj; apply A; lia|exact B].
Qed.
(** it terminates as soon as the integrator passes tmax *)
Theorem C108_terminates St pos flux phis crits tmax tk yk dense root ss n : tmax <= tk (S n) ->
  exists r, solve St pos flux phis crits tmax tk yk dense root (S n) ss = Some r.
Proof.
  intros H. unfold solve. assert (G : forall m k phi ss res hits, (k + m = S n)%nat -> (0 < m)%nat -> exists r, loop St pos flux phis crits tmax tk yk dense root m k phi ss res hits = Some r).
  { induction m as [|m IH]; intros k phi ss1 res hits Hk Hm; [lia|]. cbn [loop]. destruct (fire 0 crits _ _ _) as [ss2 [i|]]; [eauto|].
    destruct (Rlt_dec (tk (S k)) tmax); [|eauto]. destruct m; [|apply IH; lia]. replace k with n in * by lia. lra. }
  apply G; lia.
Qed.
