(** Unwrapping angles along orbits: get_phi (src/simsoptpp/tracing.cpp:333-350), the transit counters of
    src/simsopt/field/tracing.py:525-618 and ToroidalTransitStoppingCriterion (src/simsoptpp/tracing.h:21-46). *)
From Coq Require Import Reals Lra Lia ZArith List.
From Verif Require Import Vec3 PointsModel.
Import ListNotations.
Open Scope R_scope.

(** std::round: halves away from zero *)
Definition rround (x : R) : Z := if Rle_dec 0 x then Int_part (x + / 2) else (- Int_part (- x + / 2))%Z.
(** np.round: halves to even *)
Definition np_round (x : R) : Z :=
  let f := Int_part x in
  if Rlt_dec (x - IZR f) (/ 2) then f else if Rlt_dec (/ 2) (x - IZR f) then (f + 1)%Z else if Z.even f then f else (f + 1)%Z.
(** the angle of (x, y) in [0, 2 pi), tracing.cpp:334-336 *)
Definition ang (x y : R) : R := let phi := atan2 y x in if Rlt_dec phi 0 then phi + 2 * PI else phi.
(** tracing.cpp:333-350 (the unused phi_near_mod is left out) *)
Definition get_phi (x y phi_near : R) : R :=
  let phi := ang x y in
  let nearest_multiple := IZR (rround (phi_near / (2 * PI))) * 2 * PI in
  let opt1 := nearest_multiple - 2 * PI + phi in
  let opt2 := nearest_multiple + phi in
  let opt3 := nearest_multiple + 2 * PI + phi in
  let dist1 := Rabs (opt1 - phi_near) in let dist2 := Rabs (opt2 - phi_near) in let dist3 := Rabs (opt3 - phi_near) in
  if Rle_dec dist1 (Rmin dist2 dist3) then opt1 else if Rle_dec dist2 (Rmin dist1 dist3) then opt2 else opt3.

(** the loop of tracing.py:551-560 over the points after the first *)
Fixpoint unwrap (phi_prev : R) (pts : list (R * R)) : R :=
  match pts with [] => phi_prev | (x, y) :: r => unwrap (get_phi x y phi_prev) r end.
(** tracing.py:525-561 compute_toroidal_transits, flux=False, one orbit of cartesian points *)
Definition toroidal_transits (orbit : list vec3) : Z :=
  match orbit with
  | [] => 0%Z  (* an empty trajectory raises IndexError; solve always returns at least one row *)
  | p :: r => let phi_init := get_phi (vx p) (vy p) PI in
      match r with [] => 0%Z | _ => np_round ((unwrap phi_init (map (fun p => (vx p, vy p)) r) - phi_init) / (2 * PI)) end
  end.
(** flux=True: the angle is a coordinate (the third, tracing.py:547,553) *)
Definition transits_flux (coord : vec3 -> R) (orbit : list vec3) : Z :=
  match orbit with [] => 0%Z | p :: r => match r with [] => 0%Z | _ => np_round ((coord (last r p) - coord p) / (2 * PI)) end end.
(** tracing.py:564-618 compute_poloidal_transits, flux=False: the position relative to the axis ma (a function of phi/(2 pi)) in the poloidal plane *)
Definition rel_axis (ma : R -> vec3) (p : vec3) : R * R :=
  let g := ma (atan2 (vy p) (vx p) / (2 * PI)) in
  (sqrt (vx p ^ 2 + vy p ^ 2) - sqrt (vx g ^ 2 + vy g ^ 2), vz p - vz g).
Definition poloidal_transits (ma : R -> vec3) (orbit : list vec3) : Z :=
  match orbit with
  | [] => 0%Z
  | p :: r => let th := get_phi (fst (rel_axis ma p)) (snd (rel_axis ma p)) PI in
      match r with [] => 0%Z | _ => np_round ((unwrap th (map (rel_axis ma) r) - th) / (2 * PI)) end
  end.

(** ToroidalTransitStoppingCriterion: phi_last and phi_init are uninitialised before the first call (iter = 1) *)
Record tt := TT { phi_last : R; phi_init : R }.
(** tracing.h:30-44 *)
Definition tt_call (max_transits : Z) (flux : bool) (c : tt) (iter : nat) (p : vec3) : tt * bool :=
  let pl := if (iter =? 1)%nat then PI else phi_last c in
  let phi := if flux then vz p else get_phi (vx p) (vy p) pl in
  let pin := if (iter =? 1)%nat then phi else phi_init c in
  (TT phi pin, (max_transits <=? Z.abs (Int_part ((phi - pin) / (2 * PI))))%Z).
(** the calls with iter = k, k+1, ... at the given points: the last answer *)
Fixpoint tt_calls (mx : Z) (flux : bool) (c : tt) (k : nat) (pts : list vec3) : tt * bool :=
  match pts with [] => (c, false) | [p] => tt_call mx flux c k p | p :: r => tt_calls mx flux (fst (tt_call mx flux c k p)) (S k) r end.

(** ** Specification *)
(** a is an angle of the point (x, y) *)
Definition angle_of (x y a : R) : Prop := sqrt (x * x + y * y) * cos a = x /\ sqrt (x * x + y * y) * sin a = y.
(** a lift of a sequence of points: angles that follow the points with steps below half a turn *)
Inductive lift : list (R * R) -> list R -> Prop :=
| lift_one x y a : x <> 0 \/ y <> 0 -> angle_of x y a -> lift [(x, y)] [a]
| lift_cons x y a x' y' a' r l : x <> 0 \/ y <> 0 -> angle_of x y a -> Rabs (a' - a) < PI -> lift ((x', y') :: r) (a' :: l) ->
    lift ((x, y) :: (x', y') :: r) (a :: a' :: l).
(** z is an integer nearest to x *)
Definition nearest (z : Z) (x : R) : Prop := Rabs (IZR z - x) <= / 2.

(** ** Lemmas *)
Lemma rround_near x : Rabs (IZR (rround x) - x) <= / 2.
Proof.
  unfold rround. destruct (Rle_dec 0 x).
  - destruct (Int_part_bounds (x + / 2)). apply Rabs_le. lra.
  - destruct (Int_part_bounds (- x + / 2)). rewrite opp_IZR. apply Rabs_le. lra.
Qed.
Lemma np_round_near x : nearest (np_round x) x.
Proof.
  unfold nearest, np_round. destruct (Int_part_bounds x). destruct (Rlt_dec _ _); [apply Rabs_le; lra|]. destruct (Rlt_dec _ _); [rewrite plus_IZR; apply Rabs_le; lra|].
  destruct (Z.even _); [apply Rabs_le; lra|rewrite plus_IZR; apply Rabs_le; lra].
Qed.
Lemma ang_range x y : 0 <= ang x y < 2 * PI.
Proof. pose proof PI_RGT_0. unfold ang. cbv zeta. pose proof (atan2_range x y). destruct (Rlt_dec _ _); lra. Qed.
Lemma ang_of x y : angle_of x y (ang x y).
Proof.
  unfold angle_of, ang. cbv zeta. destruct (atan2_polar x y) as [E1 E2]. destruct (Rlt_dec _ _); [|auto].
  replace (atan2 y x + 2 * PI) with (atan2 y x + IZR 1 * (2 * PI)) by ring. now rewrite cos_2PIk, sin_2PIk.
Qed.
Lemma angle_shift x y a (k : Z) : angle_of x y a -> angle_of x y (a + IZR k * (2 * PI)).
Proof. unfold angle_of. now rewrite cos_2PIk, sin_2PIk. Qed.
Lemma angle_unique x y a b : x <> 0 \/ y <> 0 -> angle_of x y a -> angle_of x y b -> exists k : Z, a = b + IZR k * (2 * PI).
Proof.
  intros N A B. pose proof PI_RGT_0 as P. assert (R0 : 0 < sqrt (x * x + y * y)). { apply sqrt_lt_R0. destruct N; [assert (0 < x * x) by nra; nra|assert (0 < y * y) by nra; nra]. }
  assert (Red : forall c, exists k : Z, 0 <= c + IZR k * (2 * PI) < 2 * PI).
  { intros c. exists (- Int_part (c / (2 * PI)))%Z. rewrite opp_IZR. destruct (Int_part_bounds (c / (2 * PI))) as [L U].
    assert (E : c = c / (2 * PI) * (2 * PI)) by (field; lra). set (i := IZR (Int_part (c / (2 * PI)))) in *. set (d := c / (2 * PI)) in *. rewrite E. split; nra. }
  destruct (Red a) as [ka Ha], (Red b) as [kb Hb]. pose proof (angle_shift _ _ _ ka A) as [A1 A2]. pose proof (angle_shift _ _ _ kb B) as [B1 B2].
  destruct (polar_unique _ _ _ _ R0 (Rlt_le _ _ R0) Ha Hb ltac:(congruence) ltac:(congruence)) as [_ E].
  exists (kb - ka)%Z. rewrite minus_IZR. lra.
Qed.
Lemma get_phi_form x y near : exists k : Z, get_phi x y near = ang x y + IZR k * (2 * PI).
Proof.
  unfold get_phi. cbv zeta. set (K := rround (near / (2 * PI))).
  destruct (Rle_dec _ _); [exists (K - 1)%Z; rewrite minus_IZR; ring|]. destruct (Rle_dec _ _); [exists K; ring|exists (K + 1)%Z; rewrite plus_IZR; ring].
Qed.
Lemma get_phi_near x y near : Rabs (get_phi x y near - near) <= PI.
Proof.
  pose proof PI_RGT_0 as P. unfold get_phi. cbv zeta. pose proof (ang_range x y) as A. pose proof (rround_near (near / (2 * PI))) as N.
  set (K := IZR (rround (near / (2 * PI)))) in *. set (nm := K * 2 * PI).
  assert (Nn : Rabs (nm - near) <= PI).
  { replace (nm - near) with ((K - near / (2 * PI)) * (2 * PI)) by (unfold nm; field; lra). rewrite Rabs_mult, (Rabs_right (2 * PI)) by lra. nra. }
  clearbody nm. clear K N. set (phi := ang x y) in *. clearbody phi.
  assert (M : Rabs (nm - 2 * PI + phi - near) <= PI \/ Rabs (nm + phi - near) <= PI).
  { assert (B : - PI <= nm - near <= PI) by (revert Nn; unfold Rabs; destruct (Rcase_abs _); lra).
    destruct (Rle_dec (nm + phi - near) PI); [right|left]; apply Rabs_le; lra. }
  set (d1 := Rabs (nm - 2 * PI + phi - near)) in *. set (d2 := Rabs (nm + phi - near)) in *. set (d3 := Rabs (nm + 2 * PI + phi - near)).
  pose proof (Rmin_l d2 d3). pose proof (Rmin_l d1 d3). pose proof (Rmin_r d2 d3). pose proof (Rmin_r d1 d3).
  destruct (Rle_dec d1 _) as [L1|L1]. { fold d1. destruct M; lra. } destruct (Rle_dec d2 _) as [L2|L2]. { fold d2. destruct M; lra. }
  fold d3. apply Rnot_le_lt in L1. apply Rnot_le_lt in L2. revert L1 L2. unfold Rmin. destruct (Rle_dec d2 d3), (Rle_dec d1 d3); intros; destruct M; lra.
Qed.

(** ** C107 *)
(** get_phi returns an angle of the point, within half a turn of phi_near; no angle of the point is nearer *)
Theorem C107_get_phi x y near : angle_of x y (get_phi x y near) /\ Rabs (get_phi x y near - near) <= PI /\
  (x <> 0 \/ y <> 0 -> forall a, angle_of x y a -> Rabs (get_phi x y near - near) <= Rabs (a - near)).
Proof.
  pose proof PI_RGT_0 as P. destruct (get_phi_form x y near) as [k E]. split; [rewrite E; apply angle_shift, ang_of|]. pose proof (get_phi_near x y near) as N. split; [exact N|].
  intros NZ a Ha. assert (Hg : angle_of x y (get_phi x y near)) by (rewrite E; apply angle_shift, ang_of).
  destruct (angle_unique x y a _ NZ Ha Hg) as [j Ej]. destruct (Z.eq_dec j 0) as [->|Nj]; [right; f_equal; lra|].
  assert (J : 2 * PI <= Rabs (IZR j * (2 * PI))). { rewrite Rabs_mult, (Rabs_right (2 * PI)), <- abs_IZR by lra. assert (1 <= Z.abs j)%Z as H by lia. apply IZR_le in H. nra. }
  revert N J. rewrite Ej. set (g := get_phi x y near). set (w := IZR j * (2 * PI)). clearbody g w. unfold Rabs. repeat destruct (Rcase_abs _); lra.
Qed.
Lemma get_phi_close x y near a : x <> 0 \/ y <> 0 -> angle_of x y a -> Rabs (a - near) < PI -> get_phi x y near = a.
Proof.
  intros NZ Ha L. pose proof PI_RGT_0 as P. destruct (C107_get_phi x y near) as (Hg & N & M). specialize (M NZ a Ha).
  destruct (angle_unique x y _ _ NZ Hg Ha) as [j Ej]. destruct (Z.eq_dec j 0) as [->|Nj]; [lra|]. exfalso.
  assert (J : 2 * PI <= Rabs (IZR j * (2 * PI))). { rewrite Rabs_mult, (Rabs_right (2 * PI)), <- abs_IZR by lra. assert (1 <= Z.abs j)%Z as H by lia. apply IZR_le in H. nra. }
  revert M L J N. rewrite Ej. set (w := IZR j * (2 * PI)). clearbody w. unfold Rabs. repeat destruct (Rcase_abs _); lra.
Qed.
Lemma last_indep {A} (l : list A) d d' : l <> [] -> last l d = last l d'.
Proof. induction l as [|b l IH]; [easy|]. intros _. destruct l as [|b' l]; [reflexivity|]. change (last (b' :: l) d = last (b' :: l) d'). now apply IH. Qed.
Lemma last_cons {A} (l : list A) (a d : A) : last (a :: l) d = last l a.
Proof. destruct l as [|b l]; [reflexivity|]. change (last (b :: l) d = last (b :: l) a). now apply last_indep. Qed.
(** along a lift, unwrapping follows the lift, up to the multiple of 2 pi it started with *)
Lemma unwrap_lift : forall r l x y a prev (k : Z), lift ((x, y) :: r) (a :: l) -> prev = a + IZR k * (2 * PI) -> unwrap prev r = last l a + IZR k * (2 * PI).
Proof.
  induction r as [|[x' y'] r IH]; intros l x y a prev k L E.
  - inversion L; subst. cbn. exact eq_refl.
  - inversion L as [|? ? ? ? ? a' ? l' NZ Ha St L']; subst. cbn [unwrap].
    assert (NZ' : x' <> 0 \/ y' <> 0) by (inversion L'; auto). assert (Ha' : angle_of x' y' a') by (inversion L'; auto).
    rewrite (get_phi_close x' y' _ (a' + IZR k * (2 * PI)) NZ' (angle_shift _ _ _ _ Ha')). 2:{ replace (_ - _) with (a' - a) by ring. exact St. }
    rewrite (IH l' x' y' a' _ k L' eq_refl). now rewrite last_cons.
Qed.
(** the number of toroidal transits of a sampled orbit is the integer nearest to its swept angle in turns, for every lift *)
Theorem C107_toroidal_transits p r a l : r <> [] -> lift (map (fun p => (vx p, vy p)) (p :: r)) (a :: l) ->
  nearest (toroidal_transits (p :: r)) ((last l a - a) / (2 * PI)).
Proof.
  intros NE L. cbn [toroidal_transits]. destruct r as [|p' r]; [easy|]. set (r' := p' :: r) in *.
  assert (NZ : vx p <> 0 \/ vy p <> 0) by (inversion L; auto). assert (Ha : angle_of (vx p) (vy p) a) by (inversion L; auto).
  destruct (C107_get_phi (vx p) (vy p) PI) as (Hg & _ & _). destruct (angle_unique _ _ _ _ NZ Hg Ha) as [k E].
  rewrite (unwrap_lift (map (fun p => (vx p, vy p)) r') l (vx p) (vy p) a _ k L E). rewrite E. replace (last l a + IZR k * (2 * PI) - (a + IZR k * (2 * PI))) with (last l a - a) by ring. apply np_round_near.
Qed.
Theorem C107_poloidal_transits ma p r a l : r <> [] -> lift (map (rel_axis ma) (p :: r)) (a :: l) ->
  nearest (poloidal_transits ma (p :: r)) ((last l a - a) / (2 * PI)).
Proof.
  intros NE L. cbn [poloidal_transits]. destruct r as [|p' r]; [easy|]. set (r' := p' :: r) in *. cbn [map] in L. destruct (rel_axis ma p) as [x y] eqn:EP. cbn [fst snd].
  assert (NZ : x <> 0 \/ y <> 0) by (inversion L; auto). assert (Ha : angle_of x y a) by (inversion L; auto).
  destruct (C107_get_phi x y PI) as (Hg & _ & _). destruct (angle_unique _ _ _ _ NZ Hg Ha) as [k E].
  rewrite (unwrap_lift (map (rel_axis ma) r') l x y a _ k L E). rewrite E. replace (last l a + IZR k * (2 * PI) - (a + IZR k * (2 * PI))) with (last l a - a) by ring. apply np_round_near.
Qed.
Theorem C107_flux_transits coord p r : r <> [] -> nearest (transits_flux coord (p :: r)) ((coord (last r p) - coord p) / (2 * PI)).
Proof. intros NE. cbn [transits_flux]. destruct r; [easy|]. apply np_round_near. Qed.

(** ToroidalTransitStoppingCriterion: whatever it was used for before, its answer at the n-th step of an orbit is
    |floor(turns since the first step)| >= max_transits *)
Lemma tt_calls_lift mx : forall pts c k x y a l (j : Z), (1 < k)%nat -> pts <> [] -> lift ((x, y) :: map (fun p => (vx p, vy p)) pts) (a :: l) -> phi_last c = a + IZR j * (2 * PI) ->
  tt_calls mx false c k pts = (TT (last l a + IZR j * (2 * PI)) (phi_init c), (mx <=? Z.abs (Int_part ((last l a + IZR j * (2 * PI) - phi_init c) / (2 * PI))))%Z).
Proof.
  induction pts as [|p r IH]; intros c k x y a l j Hk NE L E; [easy|]. assert (K1 : (k =? 1)%nat = false) by (apply Nat.eqb_neq; lia).
  cbn [map] in L. inversion L as [|? ? ? ? ? a' ? l' NZ Ha St L']; subst.
  assert (NZ' : vx p <> 0 \/ vy p <> 0) by (inversion L'; auto). assert (Ha' : angle_of (vx p) (vy p) a') by (inversion L'; auto).
  assert (EC : tt_call mx false c k p = (TT (a' + IZR j * (2 * PI)) (phi_init c), (mx <=? Z.abs (Int_part ((a' + IZR j * (2 * PI) - phi_init c) / (2 * PI))))%Z)).
  { unfold tt_call. rewrite K1. cbv zeta. rewrite (get_phi_close _ _ _ (a' + IZR j * (2 * PI)) NZ' (angle_shift _ _ _ _ Ha')); [reflexivity|]. rewrite E. replace (_ - _) with (a' - a) by ring. exact St. }
  rewrite last_cons. destruct r as [|p' r].
  - cbn [tt_calls]. rewrite EC. inversion L'; subst. reflexivity.
  - change (tt_calls mx false c k (p :: p' :: r)) with (tt_calls mx false (fst (tt_call mx false c k p)) (S k) (p' :: r)). rewrite EC. cbn [fst].
    rewrite (IH (TT (a' + IZR j * (2 * PI)) (phi_init c)) (S k) (vx p) (vy p) a' l' j); [reflexivity|lia|easy|exact L'|reflexivity].
Qed.
Lemma tt_calls_flux mx : forall pts c k, (1 < k)%nat -> pts <> [] ->
  tt_calls mx true c k pts = (TT (vz (last pts v0)) (phi_init c), (mx <=? Z.abs (Int_part ((vz (last pts v0) - phi_init c) / (2 * PI))))%Z).
Proof.
  induction pts as [|p r IH]; intros c k Hk NE; [easy|]. assert (K1 : (k =? 1)%nat = false) by (apply Nat.eqb_neq; lia).
  assert (EC : tt_call mx true c k p = (TT (vz p) (phi_init c), (mx <=? Z.abs (Int_part ((vz p - phi_init c) / (2 * PI))))%Z)) by (unfold tt_call; rewrite K1; reflexivity).
  destruct r as [|p' r].
  - cbn [tt_calls last]. exact EC.
  - change (tt_calls mx true c k (p :: p' :: r)) with (tt_calls mx true (fst (tt_call mx true c k p)) (S k) (p' :: r)). rewrite EC. cbn [fst].
    rewrite IH by (lia || easy). reflexivity.
Qed.
Definition turns (from to : R) : R := (to - from) / (2 * PI).
Lemma floor_crit (mx : Z) x : (1 <= mx)%Z ->
  (mx <=? Z.abs (Int_part x))%Z = true <-> IZR mx <= x \/ x < - (IZR mx - 1).
Proof.
  intros Hm. rewrite Z.leb_le. destruct (Int_part_bounds x) as [L U]. set (i := Int_part x) in *. split.
  - intros H. destruct (Z_le_gt_dec 0 i).
    + left. rewrite Z.abs_eq in H by lia. apply IZR_le in H. lra.
    + right. rewrite Z.abs_neq in H by lia. assert (i <= - mx)%Z as H' by lia. apply IZR_le in H'. rewrite opp_IZR in H'. lra.
  - intros [H|H].
    + assert (mx < i + 1)%Z by (apply lt_IZR; rewrite plus_IZR; lra). lia.
    + assert (i < - (mx - 1))%Z by (apply lt_IZR; rewrite opp_IZR, minus_IZR; lra). lia.
Qed.
(** the criterion at step n of an orbit, in any state left by earlier orbits: it fires when the angle swept since the first
    step is at least max_transits turns forward, or more than max_transits - 1 turns backward *)
Theorem C107_transit_criterion mx c0 p r a l : (1 <= mx)%Z -> lift (map (fun p => (vx p, vy p)) (p :: r)) (a :: l) ->
  snd (tt_calls mx false c0 1 (p :: r)) = true <-> IZR mx <= turns a (last l a) \/ turns a (last l a) < - (IZR mx - 1).
Proof.
  intros Hm L. pose proof PI_RGT_0 as P. assert (NZ : vx p <> 0 \/ vy p <> 0) by (inversion L; auto). assert (Ha : angle_of (vx p) (vy p) a) by (inversion L; auto).
  destruct (C107_get_phi (vx p) (vy p) PI) as (Hg & _ & _). destruct (angle_unique _ _ _ _ NZ Hg Ha) as [j E].
  assert (EC : tt_call mx false c0 1 p = (TT (a + IZR j * (2 * PI)) (a + IZR j * (2 * PI)), (mx <=? Z.abs (Int_part ((a + IZR j * (2 * PI) - (a + IZR j * (2 * PI))) / (2 * PI))))%Z)) by (unfold tt_call; cbn [Nat.eqb]; cbv zeta; now rewrite E).
  unfold turns. rewrite <- floor_crit by exact Hm. destruct r as [|p' r].
  - cbn [tt_calls]. rewrite EC. cbn [snd]. inversion L; subst. cbn [last]. replace ((a + IZR j * (2 * PI) - (a + IZR j * (2 * PI))) / (2 * PI)) with ((a - a) / (2 * PI)) by (field; lra). reflexivity.
  - change (tt_calls mx false c0 1 (p :: p' :: r)) with (tt_calls mx false (fst (tt_call mx false c0 1 p)) 2 (p' :: r)). rewrite EC. cbn [fst].
    rewrite (tt_calls_lift mx (p' :: r) _ 2 (vx p) (vy p) a l j) by (lia || easy || exact L || reflexivity). cbn [snd phi_init].
    replace ((last l a + IZR j * (2 * PI) - (a + IZR j * (2 * PI))) / (2 * PI)) with ((last l a - a) / (2 * PI)) by (field; lra). reflexivity.
Qed.
Theorem C107_transit_criterion_flux mx c0 p r : (1 <= mx)%Z ->
  snd (tt_calls mx true c0 1 (p :: r)) = true <-> IZR mx <= turns (vz p) (vz (last r p)) \/ turns (vz p) (vz (last r p)) < - (IZR mx - 1).
Proof.
  intros Hm. unfold turns. rewrite <- floor_crit by exact Hm. destruct r as [|p' r]; [reflexivity|].
  change (tt_calls mx true c0 1 (p :: p' :: r)) with (tt_calls mx true (TT (vz p) (vz p)) 2 (p' :: r)).
  rewrite tt_calls_flux by (lia || easy). cbn [snd phi_init]. rewrite (last_indep (p' :: r) v0 p) by easy. reflexivity.
Qed.
(** so with max_transits = 1 a particle moving backward is stopped as soon as it has moved, whatever small angle *)
Theorem C107_backward_refuted p p' a a' c0 : lift [(vx p, vy p); (vx p', vy p')] [a; a'] -> a' < a -> snd (tt_calls 1 false c0 1 [p; p']) = true.
Proof.
  intros L H. pose proof PI_RGT_0 as P. apply (C107_transit_criterion 1 c0 p [p'] a [a']); [lia|exact L|]. right. cbn [last]. unfold turns.
  unfold Rdiv. assert (0 < / (2 * PI)) by (apply Rinv_0_lt_compat; lra). nra.
Qed.
(** ** non-vacuity: once around the circle in four steps *)
Definition square_orbit := [V3 1 0 0; V3 0 1 0; V3 (-1) 0 0; V3 0 (-1) 0; V3 1 0 0].
Lemma square_lift : lift (map (fun p => (vx p, vy p)) square_orbit) [0; PI / 2; PI; 3 * (PI / 2); 2 * PI].
Proof.
  pose proof PI_RGT_0 as P. unfold square_orbit. cbn [map vx vy].
  assert (S1 : forall x y, x * x + y * y = 1 -> sqrt (x * x + y * y) = 1) by (intros x y ->; apply sqrt_1).
  assert (St : forall a b, b - a = PI / 2 -> Rabs (b - a) < PI) by (intros a b ->; rewrite Rabs_right; lra).
  apply lift_cons; [left; lra| | |]. { split; rewrite S1 by lra; rewrite ?cos_0, ?sin_0; ring. } { apply St; lra. }
  apply lift_cons; [right; lra| | |]. { split; rewrite S1 by lra; rewrite ?cos_PI2, ?sin_PI2; ring. } { apply St; lra. }
  apply lift_cons; [left; lra| | |]. { split; rewrite S1 by lra; rewrite ?cos_PI, ?sin_PI; ring. } { apply St; lra. }
  apply lift_cons; [right; lra| | |]. { split; rewrite S1 by lra; rewrite ?cos_3PI2, ?sin_3PI2; ring. } { apply St; lra. }
  apply lift_one; [left; lra|]. split; rewrite S1 by lra; rewrite ?cos_2PI, ?sin_2PI; ring.
Qed.
Example C107_case : toroidal_transits square_orbit = 1%Z /\ forall c, snd (tt_calls 1 false c 1 square_orbit) = true.
Proof.
  pose proof PI_RGT_0 as P. assert (E : (2 * PI - 0) / (2 * PI) = 1) by (field; lra). split.
  - pose proof (C107_toroidal_transits (V3 1 0 0) [V3 0 1 0; V3 (-1) 0 0; V3 0 (-1) 0; V3 1 0 0] 0 [PI / 2; PI; 3 * (PI / 2); 2 * PI] ltac:(easy) square_lift) as N. cbn [last] in N.
    unfold nearest in N. rewrite E in N. fold square_orbit in N. set (z := toroidal_transits square_orbit) in *. clearbody z.
    assert (- / 2 <= IZR z - 1 <= / 2) as B by (revert N; unfold Rabs; destruct (Rcase_abs _); lra).
    assert (0 < z)%Z by (apply lt_IZR; lra). assert (z < 2)%Z by (apply lt_IZR; lra). lia.
  - intros c. apply (C107_transit_criterion 1 c (V3 1 0 0) [V3 0 1 0; V3 (-1) 0 0; V3 0 (-1) 0; V3 1 0 0] 0 [PI / 2; PI; 3 * (PI / 2); 2 * PI]); [lia|exact square_lift|]. left. cbn [last]. unfold turns. rewrite E. lra.
Qed.
