(** C44: the quadrature points of surfaces (src/simsopt/geo/surface.py:79-171 get_quadpoints,
    get_theta_quadpoints, get_phi_quadpoints; 846-862 deduced_range), over the reals. *)
From Coq Require Import Reals Lra Lia.
From Verif Require Import ListAux VecAux.
Open Scope R_scope.

(** the three strings; [ROther]: any other string *)
Inductive range := FullTorus | FieldPeriod | HalfPeriod | ROther.
Inductive qresult := Points (l : list R) | AssertionError | IndexError.
(** numpy.linspace(0, stop, n, endpoint=False) *)
Definition linspace0 (stop : R) (n : nat) : list R := map (fun i => INR i * (stop / INR n)) (seq 0 n).
(** surface.py:128-129 *)
Definition theta_quadpoints (ntheta : option nat) : list R := linspace0 1 (match ntheta with Some n => n | None => 62%nat end).
(** surface.py:151-171.  nfp >= 1 *)
Definition phi_quadpoints (nphi : option nat) (rg : option range) (nfp : nat) : qresult :=
  let rg := match rg with Some r => r | None => FullTorus end in
  let n := match nphi with Some n => n | None => 61%nat end in
  match rg with
  | ROther => AssertionError
  | _ =>
    let div := match rg with FullTorus => 1 | _ => INR nfp end in
    let end_val := match rg with HalfPeriod => 5 / 10 | _ => 1 end in
    let q := linspace0 (end_val / div) n in
    match rg with
    | HalfPeriod =>
        match nth_error q 1, nth_error q 0 with
        | Some b, Some a => Points (map (fun x => x + 5 / 10 * (b - a)) q)
        | _, _ => IndexError
        end
    | _ => Points q
    end
  end.

(** ** The documented contents *)
(** the toroidal extent, as a fraction of the torus *)
Definition extent (rg : range) (nfp : nat) : R :=
  match rg with FullTorus => 1 | FieldPeriod => / INR nfp | _ => / (2 * INR nfp) end.
Definition offset (rg : range) : R := match rg with HalfPeriod => / 2 | _ => 0 end.
Lemma linspace0_length s n : length (linspace0 s n) = n.
Proof. unfold linspace0. now rewrite map_length, seq_length. Qed.
Lemma linspace0_nth s n i : (i < n)%nat -> nth i (linspace0 s n) 0 = INR i * (s / INR n).
Proof.
  intros H. unfold linspace0. apply nth_error_nth. rewrite nth_error_map. rewrite (nth_error_nth' _ 0%nat) by (rewrite seq_length; auto). cbn. now rewrite seq_nth.
Qed.
Lemma linspace0_nth_error s n i : (i < n)%nat -> nth_error (linspace0 s n) i = Some (INR i * (s / INR n)).
Proof.
  intros H. rewrite (nth_error_nth' _ 0) by (rewrite linspace0_length; auto). now rewrite linspace0_nth.
Qed.
(** point i is (i + offset)/n of the extent *)
Definition grid_of (rg : range) (nfp n : nat) : list R := map (fun i => (INR i + offset rg) * (extent rg nfp / INR n)) (seq 0 n).
Theorem C44_phi_points nphi rg nfp : (0 < nfp)%nat -> rg <> ROther -> (rg = HalfPeriod -> (2 <= nphi)%nat) ->
  phi_quadpoints (Some nphi) (Some rg) nfp = Points (grid_of rg nfp nphi).
Proof.
  intros Hn No Hh. assert (0 < INR nfp) by now apply lt_0_INR. unfold phi_quadpoints, grid_of.
  destruct rg; try congruence.
  - f_equal. apply map_ext. intros i. cbn. unfold Rdiv. f_equal; [ring|]. rewrite Rinv_1. ring.
  - f_equal. apply map_ext. intros i. cbn. unfold Rdiv. f_equal; [ring|]. ring.
  - specialize (Hh eq_refl). assert (0 < INR nphi) by (apply lt_0_INR; lia). rewrite !linspace0_nth_error by lia. f_equal. unfold linspace0. rewrite map_map. apply map_ext. intros i. cbn. field. split; lra.
Qed.
Theorem C44_theta_points ntheta : theta_quadpoints (Some ntheta) = grid_of FullTorus 1 ntheta.
Proof. unfold theta_quadpoints, linspace0, grid_of. apply map_ext. intros i. cbn. ring. Qed.
Theorem C44_defaults nfp : phi_quadpoints None None nfp = phi_quadpoints (Some 61%nat) (Some FullTorus) nfp /\
  theta_quadpoints None = theta_quadpoints (Some 62%nat).
Proof. split; reflexivity. Qed.
(** the half period grid does not exist for fewer than two points, other range strings are rejected *)
Theorem C44_errors nphi nfp : phi_quadpoints (Some nphi) (Some ROther) nfp = AssertionError /\
  (phi_quadpoints (Some nphi) (Some HalfPeriod) nfp = IndexError <-> (nphi < 2)%nat).
Proof.
  split; [reflexivity|]. unfold phi_quadpoints. destruct nphi as [|[|n]]; cbn; split; intros; try lia; auto; discriminate.
Qed.

(** every grid: n points, in the extent, strictly increasing, equally spaced, end point excluded *)
Lemma extent_pos rg nfp : (0 < nfp)%nat -> 0 < extent rg nfp.
Proof. intros H. apply lt_0_INR in H. destruct rg; cbn; try lra; apply Rinv_0_lt_compat; lra. Qed.
Lemma grid_nth rg nfp n i : (i < n)%nat -> nth i (grid_of rg nfp n) 0 = (INR i + offset rg) * (extent rg nfp / INR n).
Proof.
  intros H. unfold grid_of. apply nth_error_nth. rewrite nth_error_map. rewrite (nth_error_nth' _ 0%nat) by (rewrite seq_length; auto). cbn. now rewrite seq_nth.
Qed.
Theorem C44_grid_shape rg nfp n : (0 < nfp)%nat ->
  length (grid_of rg nfp n) = n /\
  (forall i, (i < n)%nat -> 0 <= nth i (grid_of rg nfp n) 0 < extent rg nfp) /\
  (forall i, (i < n)%nat -> rg <> HalfPeriod -> i = 0%nat -> nth i (grid_of rg nfp n) 0 = 0) /\
  (forall i, (S i < n)%nat -> nth (S i) (grid_of rg nfp n) 0 - nth i (grid_of rg nfp n) 0 = extent rg nfp / INR n) /\
  forall i j, (i < j < n)%nat -> nth i (grid_of rg nfp n) 0 < nth j (grid_of rg nfp n) 0.
Proof.
  intros Hn. pose proof (extent_pos rg nfp Hn) as E.
  assert (H : forall i, (i < n)%nat -> 0 < extent rg nfp / INR n).
  { intros i Hi. apply Rdiv_lt_0_compat; auto. apply lt_0_INR. lia. }
  assert (O : 0 <= offset rg <= / 2) by (destruct rg; cbn; lra).
  split; [unfold grid_of; now rewrite map_length, seq_length|]. split; [|split; [|split]].
  - intros i Hi. rewrite grid_nth by auto. specialize (H i Hi). pose proof (pos_INR i). split; [apply Rmult_le_pos; lra|].
    assert (INR i + 1 <= INR n) by (rewrite <- S_INR; apply le_INR; lia).
    replace (extent rg nfp) with (INR n * (extent rg nfp / INR n)) at 2 by (field; lra). apply Rmult_lt_compat_r; lra.
  - intros i Hi N ->. rewrite grid_nth by auto. destruct rg; try congruence; cbn; ring.
  - intros i Hi. rewrite !grid_nth, S_INR by lia. ring.
  - intros i j Hij. rewrite !grid_nth by lia. apply Rmult_lt_compat_r; [apply (H i); lia|]. assert (INR i < INR j) by (apply lt_INR; lia). lra.
Qed.
(** the half period grid is symmetric about the middle of the half period *)
Theorem C44_half_period_mirror nfp n i : (0 < nfp)%nat -> (i < n)%nat ->
  nth i (grid_of HalfPeriod nfp n) 0 + nth (n - 1 - i) (grid_of HalfPeriod nfp n) 0 = / (2 * INR nfp).
Proof.
  intros Hn Hi. rewrite !grid_nth by lia. replace (n - 1 - i)%nat with (n - S i)%nat by lia. rewrite minus_INR, S_INR by lia. apply lt_0_INR in Hn.
  assert (0 < INR n) by (apply lt_0_INR; lia). cbn. field. lra.
Qed.
(** nfp copies of the field period grid, shifted by whole periods, make the full torus grid *)
Theorem C44_periods_tile_torus nfp n k i : (0 < nfp)%nat -> (i < n)%nat -> (k < nfp)%nat ->
  nth i (grid_of FieldPeriod nfp n) 0 + INR k / INR nfp = nth (k * n + i) (grid_of FullTorus 1 (nfp * n)) 0.
Proof.
  intros Hn Hi Hk. rewrite !grid_nth by nia. rewrite plus_INR, !mult_INR. apply lt_0_INR in Hn.
  assert (0 < INR n) by (apply lt_0_INR; lia). cbn. field. lra.
Qed.
(** the half period grid and its mirror image make the full period grid of 2n points, moved by half a spacing *)
Theorem C44_half_periods_tile_period nfp n : (0 < nfp)%nat ->
  (forall i, (i < n)%nat -> nth i (grid_of HalfPeriod nfp n) 0 = nth i (grid_of FieldPeriod nfp (2 * n)) 0 + / (4 * INR nfp * INR n)) /\
  (forall i, (i < n)%nat -> / INR nfp - nth (n - 1 - i) (grid_of HalfPeriod nfp n) 0 = nth (n + i) (grid_of FieldPeriod nfp (2 * n)) 0 + / (4 * INR nfp * INR n)).
Proof.
  intros Hn. apply lt_0_INR in Hn as P. split; intros i Hi; assert (0 < INR n) by (apply lt_0_INR; lia).
  - rewrite !grid_nth by lia. rewrite mult_INR. cbn. field. lra.
  - rewrite !grid_nth by lia. replace (n - 1 - i)%nat with (n - S i)%nat by lia. rewrite minus_INR, mult_INR, plus_INR, S_INR by lia. cbn. field. lra.
Qed.

(** surface.py:846-862 deduced_range; np.isclose(a, b, atol=1e-10) is |a - b| <= atol + 1e-5*|b| *)
Definition isclose (a b : R) : bool := if Rle_dec (Rabs (a - b)) (/ 10 ^ 10 + / 10 ^ 5 * Rabs b) then true else false.
Definition deduced_range (q : list R) : range :=
  if isclose (last q 0) (1 - 1 / INR (length q)) then FullTorus
  else if Req_EM_T (nth 0 q 0) 0 then FieldPeriod else HalfPeriod.
Lemma last_nth {A} (l : list A) d : last l d = nth (length l - 1) l d.
Proof. induction l as [|a l IH]; auto. destruct l as [|b l]; auto. change (last (a :: b :: l) d) with (last (b :: l) d). rewrite IH. cbn [length]. rewrite !Nat.sub_succ, !Nat.sub_0_r. reflexivity. Qed.
Lemma isclose_false a b : b <= 1 -> 0 <= b -> a + / 16 <= b -> isclose a b = false.
Proof.
  intros B1 B0 H. unfold isclose. destruct (Rle_dec _ _) as [L|]; auto. exfalso. rewrite (Rabs_left1 (a - b)) in L by lra. rewrite (Rabs_pos_eq b) in L by lra.
  assert (/ 10 ^ 10 <= / 100 /\ / 10 ^ 5 <= / 100) as [P1 P2].
  { split; (apply Rinv_le_contravar; [lra|]); cbn; lra. }
  assert (0 < / 10 ^ 5) by (apply Rinv_0_lt_compat, pow_lt; lra). nra.
Qed.
Lemma isclose_refl a : isclose a a = true.
Proof.
  unfold isclose. destruct (Rle_dec _ _) as [|N]; auto. exfalso. apply N. rewrite Rminus_diag_eq, Rabs_R0 by auto.
  assert (0 < / 10 ^ 10) by (apply Rinv_0_lt_compat, pow_lt; lra). assert (0 < / 10 ^ 5) by (apply Rinv_0_lt_compat, pow_lt; lra). pose proof (Rabs_pos a). nra.
Qed.
(** the range is recovered from the points, except that one period of an nfp = 1 surface is the full torus *)
Theorem C44_deduced_range rg nfp n : (0 < nfp)%nat -> (2 <= n)%nat -> rg <> ROther ->
  deduced_range (grid_of rg nfp n) = match rg with FieldPeriod => if (nfp =? 1)%nat then FullTorus else FieldPeriod | _ => rg end.
Proof.
  intros Hn H2 No. unfold deduced_range. destruct (C44_grid_shape rg nfp n Hn) as (L & _ & Z & _ & _).
  rewrite last_nth, L, grid_nth by lia. rewrite minus_INR by lia. assert (N : 2 <= INR n) by (apply le_INR in H2; cbn in H2; lra).
  assert (P : 0 < INR nfp) by now apply lt_0_INR.
  assert (I : 0 < / INR n <= / 2) by (split; [apply Rinv_0_lt_compat|apply Rinv_le_contravar]; lra).
  destruct rg; try congruence.
  - replace ((INR n - INR 1 + offset FullTorus) * (extent FullTorus nfp / INR n)) with (1 - 1 / INR n) by (cbn; field; lra). now rewrite isclose_refl.
  - destruct (Nat.eqb_spec nfp 1) as [->|N1].
    + replace ((INR n - INR 1 + offset FieldPeriod) * (extent FieldPeriod 1 / INR n)) with (1 - 1 / INR n) by (cbn; field; lra). now rewrite isclose_refl.
    + rewrite isclose_false.
      * rewrite (Z 0%nat) by (try lia; congruence). destruct (Req_EM_T 0 0); congruence.
      * unfold Rdiv. lra.
      * unfold Rdiv. lra.
      * assert (2 <= INR nfp) by (replace 2 with (INR 2) by (cbn; lra); apply le_INR; lia).
        assert (J : / INR nfp <= / 2) by (apply Rinv_le_contravar; lra). assert (0 < / INR nfp) by now apply Rinv_0_lt_compat.
        replace ((INR n - INR 1 + offset FieldPeriod) * (extent FieldPeriod nfp / INR n)) with ((1 - / INR n) * / INR nfp) by (cbn; field; lra). unfold Rdiv. nra.
  - rewrite isclose_false.
    + rewrite grid_nth by lia. destruct (Req_EM_T _ _) as [E|]; auto. exfalso. cbn in E.
      assert (0 < (0 + / 2) * (/ (2 * INR nfp) / INR n)); [|lra]. apply Rmult_lt_0_compat; [lra|]. apply Rdiv_lt_0_compat; [|lra]. apply Rinv_0_lt_compat; lra.
    + unfold Rdiv. lra.
    + unfold Rdiv. lra.
    + assert (1 <= INR nfp) by (replace 1 with (INR 1) by (cbn; lra); apply le_INR; lia).
      assert (J : / INR nfp <= 1) by (rewrite <- Rinv_1; apply Rinv_le_contravar; lra). assert (0 < / INR nfp) by now apply Rinv_0_lt_compat.
      replace ((INR n - INR 1 + offset HalfPeriod) * (extent HalfPeriod nfp / INR n)) with ((1 - / 2 * / INR n) * (/ 2 * / INR nfp)) by (cbn; field; lra). unfold Rdiv. nra.
Qed.
Example C44_case : phi_quadpoints (Some 3%nat) (Some HalfPeriod) 2 = Points (grid_of HalfPeriod 2 3) /\ nth 0 (grid_of HalfPeriod 2 3) 0 = / 24.
Proof. split; [apply C44_phi_points; lia || congruence|]. rewrite grid_nth by lia. cbn. field. Qed.
