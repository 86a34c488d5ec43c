(** C83 (counterexample), C85: relax-and-split. *)
From Coq Require Import Reals Lra Lia List Bool Psatz.
From Verif Require Import ListAux VecAux Vec3 BSDeriv CurveModel CurveDiff CurveDiffProps CurveObjModel CurveObjProps PMModel PMProps.
Import ListNotations.
Open Scope R_scope.

(** ** A direction that find_max_alphaf ignores leads out of the ball *)
Section Over.
Definition oA : nat -> nat -> vec3 := fun _ _ => V3 (/ 1000) 0 0.
Definition ox0 : R := 1 - / 10 ^ 5.
Definition ob : nat -> R := fun _ => / 1000 * (ox0 + / 10 ^ 4).
Definition om0 : nat -> vec3 := fun _ => V3 ox0 0 0.
Definition onu : R := 10 ^ 6.
Notation oHess := (Hess 1 1 oA onu 0).
Notation ograd := (grad 1 1 oA (ATop 1 oA ob) om0 onu 0).
Lemma oHess_eq p : oHess (fun _ => V3 p 0 0) O = V3 (2 / 10 ^ 6 * p) 0 0.
Proof. unfold Hess, ATop, Aop, sum_to, oA, onu. cbn [seq map rsuml]. unfold dot3. apply v3_eq; cbn [vx vy vz add3 scal3]; field. Qed.
Lemma ograd_eq : ograd om0 O = V3 (- / 10 ^ 10) 0 0.
Proof. unfold grad. change (oHess om0 O) with (oHess (fun _ => V3 ox0 0 0) O). rewrite oHess_eq. unfold ATb_rs, ATop, sum_to, oA, ob, om0, ox0, onu. cbn [seq map rsuml]. apply v3_eq; cbn [vx vy vz add3 sub3 scal3]; field. Qed.
Lemma ophi g : phi 1 (V3 ox0 0 0) g = g.
Proof. unfold phi. destruct (Rlt_dec _ _) as [|NL]; [reflexivity|]. exfalso. apply NL. unfold dot3, ox0, e8, e5. cbn [vx vy vz]. rewrite Rabs_left; lra. Qed.
Lemma obeta a g : beta a 1 (V3 ox0 0 0) g = v0.
Proof. unfold beta. destruct (Rlt_dec _ _) as [L|]; [|reflexivity]. exfalso. revert L. unfold dot3, ox0, e8, e5. cbn [vx vy vz]. rewrite Rabs_left; lra. Qed.
(** one iteration from a feasible point, with feasible proxy and a stable step size, returns a dipole above its maximum *)
Theorem C83_overshoot_refuted : exists A b w m0 alpha nu, (forall j, norm3 (m0 j) <= 1) /\ (forall j, norm3 (w j) <= 1) /\ stable 1 1 A alpha nu 0 /\ 0 < alpha /\ 0 < nu /\
  forall eps fb, exists x, MwPGP 1 1 A b (ATop 1 A b) w (fun _ => 1) alpha nu 0 false eps fb 1 m0 = Some ([], x) /\ 1 < norm3 (x O).
Proof.
  exists oA, ob, om0, om0, (10 ^ 6), onu. assert (NR : forall c, 0 <= c -> norm3 (V3 c 0 0) = c) by (intros c Hc; apply norm_unique; [exact Hc|unfold dot3; cbn [vx vy vz]; ring]).
  assert (F : norm3 (V3 ox0 0 0) <= 1) by (rewrite NR; unfold ox0; lra). split; [intros; exact F|]. split; [intros; exact F|]. split; [|split; [lra|split; [unfold onu; lra|]]].
  - intros v. unfold inner, norm2, Hess, ATop, Aop, sum_to, oA, onu. cbn [seq map rsuml]. destruct (v O) as [a c e]. unfold dot3. cbn [vx vy vz add3 scal3]. assert (0 <= a * a) by nra. assert (0 <= c * c) by nra. assert (0 <= e * e) by nra. lra.
  - intros eps fb. unfold MwPGP. cbn [mw_loop]. cbv zeta. set (s := pinit _ _ _ _ _ _ _ _ _). set (s' := mw_step _ _ _ _ _ _ _ _ _ s). exists (sx s'). split; [destruct (Rlt_dec _ _); reflexivity|].
    assert (P0 : sp s O = V3 (- / 10 ^ 10) 0 0). { unfold s, pinit. cbn [sp]. change (om0 O) with (V3 ox0 0 0). rewrite ophi. apply ograd_eq. }
    assert (G0 : sg s O = V3 (- / 10 ^ 10) 0 0) by apply ograd_eq. assert (X0 : sx s O = V3 ox0 0 0) by reflexivity.
    assert (H0 : oHess (sp s) O = V3 (2 / 10 ^ 6 * (- / 10 ^ 10)) 0 0). { rewrite <- oHess_eq. apply Hess_ext; [|lia]. intros k Hk. replace k with O by lia. exact P0. }
    assert (HP : inner 1 (sp s) (oHess (sp s)) = 2 / 10 ^ 26). { unfold inner, sum_to. cbn [seq map rsuml]. rewrite H0, P0. unfold dot3. cbn [vx vy vz]. field. }
    assert (GP : inner 1 (sg s) (sp s) = / 10 ^ 20). { unfold inner, sum_to. cbn [seq map rsuml]. rewrite G0, P0. unfold dot3. cbn [vx vy vz]. field. }
    assert (AC : alpha_cg 1 1 oA onu 0 s = 5 * 10 ^ 5). { unfold alpha_cg. rewrite HP, GP. field. }
    assert (AF : alpha_f 1 (fun _ => 1) s = 10 ^ 100). { unfold alpha_f. cbn [pred minf]. unfold max_alpha. destruct (Rlt_dec _ _) as [L|]; [|reflexivity]. exfalso. revert L. rewrite P0. unfold dot3, e20. cbn [vx vy vz]. lra. }
    assert (OK : cg_ok 1 1 oA (fun _ => 1) onu 0 s = true). { unfold cg_ok. rewrite HP, AC, AF. destruct (Req_EM_T _ _) as [Z|]; [exfalso; revert Z; lra|]. destruct (Rlt_dec _ _) as [|NL]; [reflexivity|]. exfalso. apply NL. lra. }
    assert (E : s' = cg_step 1 1 oA (fun _ => 1) onu 0 s). { unfold s', mw_step. destruct (Rle_dec _ _) as [_|NL]; [now rewrite OK|]. exfalso. apply NL. unfold norm2, sum_to. cbn [seq map rsuml]. unfold red_proj_grad. rewrite X0, ophi, obeta, add3_0_r. lra. }
    assert (XE : sx s' O = V3 (1 + 4 / 10 ^ 5) 0 0). { rewrite E. unfold cg_step. cbv zeta. cbn [sx]. rewrite AC, X0, P0. unfold ox0. apply v3_eq; cbn [vx vy vz sub3 scal3]; field. }
    rewrite XE, NR; lra.
Qed.
End Over.

(** ** The proximal maps *)
(** prox_l1 is the proximal map of the 1-norm weighted with reg * mmax *)
Theorem C85_prox_l1 mmax reg nu v z : 0 < mmax -> 0 < nu -> 0 <= reg -> let p := prox_l1 mmax reg nu v in
  reg * mmax * Rabs p + (p - v) ^ 2 / (2 * nu) <= reg * mmax * Rabs z + (z - v) ^ 2 / (2 * nu) /\ (reg * mmax * Rabs z + (z - v) ^ 2 / (2 * nu) <= reg * mmax * Rabs p + (p - v) ^ 2 / (2 * nu) -> z = p).
Proof.
  intros M NU RG p. set (t := reg * nu * mmax). assert (TP : 0 <= t) by (unfold t; apply Rmult_le_pos; [nra|lra]).
  assert (PE : p = sgn v * Rmax (Rabs v - t) 0). { unfold p, prox_l1, t. rewrite Rmult_assoc. f_equal. rewrite (Rabs_right (Rabs v / mmax)) by (apply Rle_ge, Rmult_le_pos; [apply Rabs_pos|left; now apply Rinv_0_lt_compat]). unfold Rmax. destruct (Rle_dec (Rabs v / mmax - reg * nu) 0) as [L|L], (Rle_dec (Rabs v - reg * nu * mmax) 0) as [L'|L'].
    - ring. - exfalso. apply L'. replace (Rabs v - reg * nu * mmax) with ((Rabs v / mmax - reg * nu) * mmax) by (field; lra). nra.
    - exfalso. apply L. replace (Rabs v / mmax - reg * nu) with ((Rabs v - reg * nu * mmax) * / mmax) by (field; lra). assert (0 < / mmax) by now apply Rinv_0_lt_compat. nra. - field. lra. }
  clearbody p. assert (OBJ : forall y, reg * mmax * Rabs y + (y - v) ^ 2 / (2 * nu) = (2 * t * Rabs y + (y - v) ^ 2) / (2 * nu)) by (intros; unfold t; field; lra). rewrite !OBJ.
  assert (KEY : (z - p) ^ 2 <= (2 * t * Rabs z + (z - v) ^ 2) - (2 * t * Rabs p + (p - v) ^ 2)).
  { subst p. unfold sgn, Rmax. destruct (Rlt_dec 0 v) as [V|V]; [|destruct (Rlt_dec v 0) as [V'|V']].
    - rewrite (Rabs_right v) by lra. destruct (Rle_dec (v - t) 0) as [L|L].
      + rewrite Rmult_0_r, Rabs_R0. assert (z <= Rabs z) by apply Rle_abs. assert (0 <= Rabs z) by apply Rabs_pos. assert (z * v <= Rabs z * v) by nra. assert (Rabs z * v <= Rabs z * t) by nra. nra.
      + rewrite Rmult_1_l, (Rabs_right (v - t)) by lra. assert (z <= Rabs z) by apply Rle_abs. nra.
    - rewrite (Rabs_left v) by lra. destruct (Rle_dec (- v - t) 0) as [L|L].
      + rewrite Rmult_0_r, Rabs_R0. assert (- z <= Rabs z) by (rewrite <- Rabs_Ropp; apply Rle_abs). assert (0 <= Rabs z) by apply Rabs_pos. assert (z * v <= Rabs z * (- v)) by nra. assert (Rabs z * (- v) <= Rabs z * t) by nra. nra.
      + replace (-1 * (- v - t)) with (v + t) by ring. rewrite (Rabs_left (v + t)) by lra. assert (- z <= Rabs z) by (rewrite <- Rabs_Ropp; apply Rle_abs). nra.
    - assert (v = 0) by lra. subst v. rewrite Rmult_0_l, !Rabs_R0. assert (0 <= Rabs z) by apply Rabs_pos. nra. }
  assert (I2 : 0 < / (2 * nu)) by (apply Rinv_0_lt_compat; lra). split.
  - apply Rmult_le_compat_r; [lra|]. assert (0 <= (z - p) ^ 2) by apply pow2_ge_0. lra.
  - intros L. assert (L' : 2 * t * Rabs z + (z - v) ^ 2 <= 2 * t * Rabs p + (p - v) ^ 2) by (apply (Rmult_le_reg_r (/ (2 * nu))); [exact I2|exact L]). assert (Z : (z - p) * (z - p) <= 0) by lra. assert (z - p = 0) by (apply Rsqr_0_uniq; unfold Rsqr; pose proof (Rle_0_sqr (z - p)) as SQ; unfold Rsqr in SQ; lra). lra.
Qed.
(** prox_l0 is the proximal map of the number of nonzero components weighted with 2 nu (reg mmax)^2 (hard threshold at 2 reg nu mmax) *)
Definition nz (x : R) : R := if Req_EM_T x 0 then 0 else 1.
Theorem C85_prox_l0 mmax reg nu v z : 0 < mmax -> 0 < nu -> 0 <= reg -> let p := prox_l0 mmax reg nu v in let c := 2 * nu * (reg * mmax) ^ 2 in
  c * nz p + (p - v) ^ 2 / (2 * nu) <= c * nz z + (z - v) ^ 2 / (2 * nu).
Proof.
  intros M NU RG p c. set (t := 2 * reg * nu * mmax). assert (TP : 0 <= t) by (unfold t; apply Rmult_le_pos; [nra|lra]). assert (CE : c = t ^ 2 / (2 * nu)) by (unfold c, t; field; lra).
  assert (PE : p = if Rlt_dec t (Rabs v) then v else 0). { unfold p, prox_l0, t. destruct (Rlt_dec (2 * reg * nu) (Rabs v / mmax)) as [L|L], (Rlt_dec (2 * reg * nu * mmax) (Rabs v)) as [L'|L']; auto; exfalso.
    - apply L'. replace (Rabs v) with (Rabs v / mmax * mmax) by (field; lra). nra.
    - apply L. apply (Rmult_lt_reg_r mmax); [lra|]. replace (Rabs v / mmax * mmax) with (Rabs v) by (field; lra). lra. }
  clearbody p c. subst c. assert (OBJ : forall y, t ^ 2 / (2 * nu) * nz y + (y - v) ^ 2 / (2 * nu) = (t ^ 2 * nz y + (y - v) ^ 2) / (2 * nu)) by (intros; field; lra). rewrite !OBJ.
  apply Rmult_le_compat_r; [left; apply Rinv_0_lt_compat; lra|]. subst p. unfold nz. assert (SQ : v ^ 2 = Rabs v * Rabs v) by (rewrite <- Rabs_mult, Rabs_right; [ring|nra]). assert (0 <= Rabs v) by apply Rabs_pos. assert (0 <= (z - v) ^ 2) by apply pow2_ge_0.
  destruct (Rlt_dec t (Rabs v)) as [L|L].
  - destruct (Req_EM_T v 0) as [->|]; [rewrite Rabs_R0 in L; lra|]. destruct (Req_EM_T z 0) as [->|]; nra.
  - destruct (Req_EM_T 0 0) as [_|NE]; [|lra]. destruct (Req_EM_T z 0) as [->|]; nra.
Qed.
(** neither increases the size of a component *)
Lemma prox_shrinks k mmax reg nu v : 0 < mmax -> 0 < nu -> 0 <= reg -> Rabs (prox k mmax reg nu v) <= Rabs v.
Proof.
  intros M NU RG. assert (0 <= Rabs v) by apply Rabs_pos. destruct k; unfold prox.
  - unfold prox_l0. destruct (Rlt_dec _ _); [lra|]. now rewrite Rabs_R0.
  - assert (SG : Rabs (sgn v) <= 1) by (unfold sgn; destruct (Rlt_dec 0 v); [rewrite Rabs_R1; lra|destruct (Rlt_dec v 0); [rewrite Rabs_left; lra|rewrite Rabs_R0; lra]]).
    unfold prox_l1. rewrite !Rabs_mult. rewrite (Rabs_right mmax) by lra. set (u := Rabs v / mmax). assert (U0 : 0 <= u) by (apply Rmult_le_pos; [auto|left; now apply Rinv_0_lt_compat]). rewrite (Rabs_right u) by lra.
    assert (0 <= reg * nu) by nra. assert (RM : Rabs (Rmax (u - reg * nu) 0) <= u) by (rewrite Rabs_right; [apply Rmax_lub; lra|apply Rle_ge, Rmax_r]). assert (E : Rabs v = u * mmax) by (unfold u; field; lra). rewrite E. apply Rmult_le_compat_r; [lra|]. pose proof (Rabs_pos (sgn v)). pose proof (Rabs_pos (Rmax (u - reg * nu) 0)). nra.
Qed.
Theorem C85_proxy_feasible k mmax reg nu v M : 0 < mmax -> 0 < nu -> 0 <= reg -> norm3 v <= M -> norm3 (prox3 (prox k mmax reg nu) v) <= M.
Proof.
  intros MP NU RG B. apply Rle_trans with (norm3 v); [|exact B]. apply sqrt_le_1_alt. unfold dot3, prox3. cbn [vx vy vz]. assert (K : forall y, prox k mmax reg nu y * prox k mmax reg nu y <= y * y). { intros y. assert (S0 := prox_shrinks k mmax reg nu y MP NU RG). assert (Q : forall r, r * r = Rabs r * Rabs r) by (intros r; rewrite <- Rabs_mult, Rabs_right; [reflexivity|nra]). rewrite (Q y), (Q (prox k mmax reg nu y)). pose proof (Rabs_pos (prox k mmax reg nu y)). nra. }
  pose proof (K (vx v)). pose proof (K (vy v)). pose proof (K (vz v)). lra.
Qed.

(** ** Whole runs of relax-and-split with MwPGP *)
Section Runs.
Variables (ng N : nat) (A : nat -> nat -> vec3) (b : nat -> R) (m : nat -> R) (alpha nu l2 : R) (k : pick) (reg : R) (verbose : bool) (eps min_fb eps_rs : R) (max_iter : nat).
Definition conv (w m0 : nat -> vec3) := MwPGP ng N A b (ATop ng A b) w m alpha nu l2 verbose eps min_fb max_iter m0.
Definition rs := rs_run N conv k m reg nu eps_rs.
(** the penalty on the proxy, and the objective of the two variables *)
Definition pen (mm v : R) : R := match k with L0 => 2 * nu * (reg * mm) ^ 2 * nz v | L1 => reg * mm * Rabs v end.
Definition pen3 (mm : R) (v : vec3) : R := pen mm (vx v) + pen mm (vy v) + pen mm (vz v).
Definition joint (x w : nat -> vec3) : R := cost ng N A b w nu l2 x + sum_to N (fun j => pen3 (m j) (w j)).
(** the pairs (m, m_proxy) of the rounds *)
Definition rnd (m0 : nat -> vec3) (n : nat) : (nat -> vec3) * (nat -> vec3) :=
  Nat.iter n (fun '(x, w) => match conv w x with Some (_, x') => (x', prox_all k m reg nu x') | None => (x, w) end) (m0, prox_all k m reg nu m0).
Hypotheses (Hal : 0 < alpha) (Hnu : 0 < nu) (Hl2 : 0 <= l2) (Hm : forall j, (j < N)%nat -> 0 < m j) (Hreg : 0 <= reg).
Lemma prox_pen mm v z : 0 < mm -> pen mm (prox k mm reg nu v) + (prox k mm reg nu v - v) ^ 2 / (2 * nu) <= pen mm z + (z - v) ^ 2 / (2 * nu).
Proof. intros M. unfold pen, prox. destruct k. - now apply (C85_prox_l0 mm reg nu v z). - now apply (C85_prox_l1 mm reg nu v z). Qed.
(** the proxy of a round is the best one for its m *)
Lemma proxy_best x w : joint x (prox_all k m reg nu x) <= joint x w.
Proof.
  unfold joint, cost. set (a := R2 _ _ _ _ _). set (c := l2 * _). assert (K : 0 <= sum_to N (fun j => (1 / (2 * nu) * dot3 (sub3 (x j) (w j)) (sub3 (x j) (w j)) + pen3 (m j) (w j)) + (-1) * (1 / (2 * nu) * dot3 (sub3 (x j) (prox_all k m reg nu x j)) (sub3 (x j) (prox_all k m reg nu x j)) + pen3 (m j) (prox_all k m reg nu x j)))).
  { apply sum_to_ge0. intros j Hj. unfold pen3, prox_all, prox3, dot3. cbn [vx vy vz sub3]. pose proof (prox_pen (m j) (vx (x j)) (vx (w j)) (Hm j Hj)) as P1. pose proof (prox_pen (m j) (vy (x j)) (vy (w j)) (Hm j Hj)) as P2. pose proof (prox_pen (m j) (vz (x j)) (vz (w j)) (Hm j Hj)) as P3.
    assert (E : forall u v, (u - v) ^ 2 / (2 * nu) = 1 / (2 * nu) * ((v - u) * (v - u))) by (intros; field; lra). rewrite !E in P1, P2, P3. lra. }
  rewrite sum_to_plus, sum_to_scal, !sum_to_plus, !sum_to_scal in K. unfold norm2. assert (E : forall q, 1 / 2 * q / nu = 1 / (2 * nu) * q) by (intros; field; lra). rewrite !E. lra.
Qed.
Definition rs_ok (m0 : nat -> vec3) (rounds : nat) : Prop := forall r i, (r < rounds)%nat -> (i < max_iter)%nat -> no_tiny N (it ng N A (ATop ng A b) (snd (rnd m0 r)) m alpha nu l2 (fst (rnd m0 r)) i).
Notation feasible x := (forall j, (j < N)%nat -> norm3 (x j) <= m j).
Lemma rnd_S m0 n : rnd m0 (S n) = let '(x, w) := rnd m0 n in match conv w x with Some (_, x') => (x', prox_all k m reg nu x') | None => (x, w) end.
Proof. reflexivity. Qed.
Lemma prox_feasible x : feasible x -> feasible (prox_all k m reg nu x).
Proof. intros F j Hj. apply C85_proxy_feasible; auto. Qed.
Lemma rnd_step m0 r : (0 < N)%nat -> stable ng N A alpha nu l2 -> feasible m0 -> rs_ok m0 (S r) -> feasible (fst (rnd m0 r)) -> feasible (snd (rnd m0 r)) ->
  feasible (fst (rnd m0 (S r))) /\ feasible (snd (rnd m0 (S r))) /\ joint (fst (rnd m0 (S r))) (snd (rnd m0 (S r))) <= joint (fst (rnd m0 r)) (snd (rnd m0 r)).
Proof.
  intros NP ST F0 OK FX FW. specialize (OK r). rewrite rnd_S. destruct (rnd m0 r) as [x w]. cbn [fst snd] in *. destruct (conv w x) as [[h x']|] eqn:E; [|cbn [fst snd]; split; [auto|split; [auto|lra]]].
  cbn [fst snd]. destruct (C84_descent ng N A b (ATop ng A b) w m alpha nu l2 (fun j _ => eq_refl) Hm Hal Hnu Hl2 verbose eps min_fb max_iter x h x' NP ST FX (fun i Hi => OK i (Nat.lt_succ_diag_r r) Hi) E) as (F' & C' & _).
  split; [exact F'|]. split; [now apply prox_feasible|]. apply Rle_trans with (joint x' w); [apply proxy_best|]. unfold joint. lra.
Qed.
Lemma rnd_run m0 n : (0 < N)%nat -> stable ng N A alpha nu l2 -> feasible m0 -> rs_ok m0 n -> feasible (fst (rnd m0 n)) /\ feasible (snd (rnd m0 n)) /\ joint (fst (rnd m0 n)) (snd (rnd m0 n)) <= joint m0 (prox_all k m reg nu m0).
Proof.
  intros NP ST F0. induction n as [|n IH]; intros OK; [cbn; split; [auto|split; [now apply prox_feasible|lra]]|].
  destruct IH as (FX & FW & J); [intros r i Hr; apply OK; lia|]. destruct (rnd_step m0 n NP ST F0 OK FX FW) as (A1 & A2 & A3). split; [auto|split; [auto|lra]].
Qed.
Lemma loop_rnd m0 fuel : forall n errs es x w, rs_loop N conv k m reg nu eps_rs fuel errs (fst (rnd m0 n)) (snd (rnd m0 n)) = RSDone es x w ->
  exists r, (r <= fuel)%nat /\ x = fst (rnd m0 (n + r)) /\ w = snd (rnd m0 (n + r)) /\ length es = (length errs + r)%nat.
Proof.
  induction fuel as [|fuel IH]; intros n errs es x w E; cbn [rs_loop] in E.
  - injection E as <- <- <-. exists O. rewrite !Nat.add_0_r. auto.
  - assert (RS := rnd_S m0 n). destruct (rnd m0 n) as [x0 w0]. cbn [fst snd] in *. destruct (conv w0 x0) as [[h x']|]; [|discriminate]. destruct (last_nonzero h) as [e|]; [|discriminate]. cbv zeta in E. assert (X : x' = fst (rnd m0 (S n)) /\ prox_all k m reg nu x' = snd (rnd m0 (S n))) by (rewrite RS; auto). destruct X as (X1 & X2).
    destruct (Rlt_dec _ _).
    + injection E as <- <- <-. exists 1%nat. rewrite Nat.add_1_r, <- X1, <- X2, app_length. cbn [length]. split; [lia|auto].
    + rewrite X2 in E. rewrite X1 in E at 1. destruct (IH (S n) _ _ _ _ E) as (r & L & -> & -> & LE). exists (S r). rewrite <- Nat.add_succ_comm. rewrite app_length in LE. cbn [length] in LE. split; [lia|]. split; [auto|split; [auto|lia]].
Qed.
(** relax-and-split never increases the joint objective, and its m and m_proxy are feasible *)
Theorem C85_descent m0 rounds es x w : (0 < N)%nat -> stable ng N A alpha nu l2 -> feasible m0 -> rs_ok m0 rounds -> rs rounds m0 = RSDone es x w ->
  feasible x /\ feasible w /\ (length es <= rounds)%nat /\ (forall w0, joint x w <= joint m0 w0) /\ (forall w', joint x w <= joint x w').
Proof.
  intros NP ST F0 OK E. unfold rs, rs_run in E. change m0 with (fst (rnd m0 0)) in E at 1. change (prox_all k m reg nu m0) with (snd (rnd m0 0)) in E.
  destruct (loop_rnd m0 rounds 0 [] es x w E) as (r & L & -> & -> & LE). cbn [plus length] in *. destruct (rnd_run m0 r NP ST F0) as (A1 & A2 & A3); [intros r' i Hr; apply OK; lia|]. split; [auto|]. split; [auto|]. split; [lia|]. split.
  - intros w0. assert (J := proxy_best m0 w0). lra.
  - intros w'. assert (W : snd (rnd m0 r) = prox_all k m reg nu (fst (rnd m0 r)) \/ r <> O). { destruct r; auto. }
    destruct W as [->|NR]; [apply proxy_best|]. clear - Hnu Hm Hreg Hl2 NR. assert (W : snd (rnd m0 r) = prox_all k m reg nu (fst (rnd m0 r))). { clear NR. induction r as [|r IH]; [reflexivity|]. rewrite rnd_S. destruct (rnd m0 r) as [x w]. cbn [fst snd] in *. destruct (conv w x) as [[h x']|]; [reflexivity|exact IH]. } rewrite W. apply proxy_best.
Qed.
End Runs.
(** with verbose = False the cost history of the convex solver is empty: relax-and-split with a nonconvex term raises IndexError in its first round, whatever the data *)
Theorem C85_quiet_fails ng N A b m alpha nu l2 k reg eps fb eps_rs max_iter rounds m0 : rs ng N A b m alpha nu l2 k reg false eps fb eps_rs max_iter (S rounds) m0 = RSIndexError.
Proof.
  unfold rs, rs_run. cbn [rs_loop]. unfold conv at 1. unfold MwPGP. assert (K : forall fuel i s, exists x, mw_loop ng N A b (ATop ng A b) (prox_all k m reg nu m0) m alpha nu l2 false eps fb max_iter fuel i s = Some ([], x)).
  { induction fuel as [|fuel IH]; intros i s; cbn [mw_loop]; [eauto|]. cbv zeta. destruct (Rlt_dec _ _); eauto. }
  destruct (K max_iter O (pinit ng N A (ATop ng A b) (prox_all k m reg nu m0) m nu l2 m0)) as (x & ->). reflexivity.
Qed.
(** with verbose = True and max_iter between 1 and 4 the remainder by max_iter / 5 = 0 is taken: the process dies; with any other max_iter it returns *)
Theorem C84_short_verbose ng N A b ATb w m alpha nu l2 eps fb max_iter m0 : (0 < max_iter)%nat -> MwPGP ng N A b ATb w m alpha nu l2 true eps fb max_iter m0 = None <-> (max_iter < 5)%nat.
Proof.
  intros P. unfold MwPGP. assert (PR : forall i, prints max_iter i = None <-> (max_iter < 5)%nat). { intros i. unfold prints. destruct (max_iter / 5)%nat as [|q] eqn:E; split; intros H; auto; try discriminate.
    - destruct (Nat.lt_ge_cases max_iter 5); auto. assert (1 <= max_iter / 5)%nat by (apply Nat.div_le_lower_bound; lia). lia.
    - rewrite Nat.div_small in E by lia. discriminate. }
  assert (K : forall fuel i s, (0 < fuel)%nat -> mw_loop ng N A b ATb w m alpha nu l2 true eps fb max_iter fuel i s = None <-> (max_iter < 5)%nat).
  { induction fuel as [|fuel IH]; intros i s F; [lia|]. cbn [mw_loop]. cbv zeta. specialize (PR i). destruct (prints max_iter i) as [[|]|].
    - assert (NP : ~ (max_iter < 5)%nat) by (intros L; apply PR in L; discriminate). destruct (Rlt_dec (R2 _ _ _ _ _) fb); [split; [discriminate|tauto]|]. destruct (Rlt_dec _ eps); [split; [discriminate|tauto]|]. destruct fuel as [|fuel]; [cbn [mw_loop]; split; [discriminate|tauto]|]. destruct (mw_loop _ _ _ _ _ _ _ _ _ _ _ _ _ _ (S fuel) _ _) as [[? ?]|] eqn:E; [split; [discriminate|tauto]|]. apply IH in E; [tauto|lia].
    - assert (NP : ~ (max_iter < 5)%nat) by (intros L; apply PR in L; discriminate). destruct (Rlt_dec _ eps); [split; [discriminate|tauto]|]. destruct fuel as [|fuel]; [cbn [mw_loop]; split; [discriminate|tauto]|]. apply IH. lia.
    - tauto. }
  now apply K.
Qed.

(** ** Cases that meet the hypotheses *)
(** one dipole pulled against its bound: one iteration from rest *)
Definition xA : nat -> nat -> vec3 := fun _ _ => V3 1 0 0.
Lemma xstable : stable 1 1 xA 1 1 0.
Proof. intros v. unfold inner, norm2, Hess, ATop, Aop, sum_to, xA. cbn [seq map rsuml]. destruct (v O) as [a c e]. unfold dot3. cbn [vx vy vz add3 scal3]. assert (0 <= c * c) by nra. assert (0 <= e * e) by nra. lra. Qed.
Example C84_meets : let b := fun _ => 10 in let z := fun _ : nat => v0 in
  (forall j, (j < 1)%nat -> norm3 (z j) <= 1) /\ stable 1 1 xA 1 1 0 /\ (forall i, (i < 1)%nat -> no_tiny 1 (it 1 1 xA (ATop 1 xA b) z (fun _ => 1) 1 1 0 z i)) /\
  exists x, MwPGP 1 1 xA b (ATop 1 xA b) z (fun _ => 1) 1 1 0 false 1 0 1 z = Some ([], x) /\ x O = V3 1 0 0 /\ cost 1 1 xA b z 1 0 x < cost 1 1 xA b z 1 0 z.
Proof.
  intros b z. assert (N0 : norm3 v0 = 0) by (apply norm_unique; [lra|unfold dot3, v0; cbn; ring]).
  assert (G : grad 1 1 xA (ATop 1 xA b) z 1 0 z O = V3 (-10) 0 0) by (unfold grad, Hess, ATb_rs, ATop, Aop, sum_to, xA, b, z; cbn [seq map rsuml]; apply v3_eq; unfold dot3; cbn [vx vy vz v0 add3 scal3 sub3]; field).
  assert (PH : forall g, phi 1 v0 g = g). { intros g. unfold phi. destruct (Rlt_dec _ _) as [|NL]; [reflexivity|]. exfalso. apply NL. unfold dot3, e8, e5, v0. cbn [vx vy vz]. rewrite Rabs_left; lra. }
  split; [intros; unfold z; rewrite N0; lra|]. split; [exact xstable|]. set (s := pinit 1 1 xA (ATop 1 xA b) z (fun _ => 1) 1 0 z).
  assert (P0 : sp s O = V3 (-10) 0 0) by (unfold s, pinit; cbn [sp]; change (z O) with v0; rewrite PH; exact G). assert (G0 : sg s O = V3 (-10) 0 0) by exact G.
  split. { intros i Hi. replace i with O by lia. intros j Hj. replace j with O by lia. right. change (it 1 1 xA (ATop 1 xA b) z (fun _ => 1) 1 1 0 z 0) with s. rewrite P0. unfold dot3, e20. cbn [vx vy vz]. lra. }
  unfold MwPGP. cbn [mw_loop]. cbv zeta. fold s. set (s' := mw_step _ _ _ _ _ _ _ _ _ s). exists (sx s'). split; [destruct (Rlt_dec _ _); reflexivity|].
  assert (HP : Hess 1 1 xA 1 0 (sp s) O = V3 (-20) 0 0) by (unfold Hess, ATop, Aop, sum_to, xA; cbn [seq map rsuml]; rewrite P0; apply v3_eq; unfold dot3; cbn [vx vy vz add3 scal3]; field).
  assert (IP : inner 1 (sp s) (Hess 1 1 xA 1 0 (sp s)) = 200) by (unfold inner, sum_to; cbn [seq map rsuml]; rewrite HP, P0; unfold dot3; cbn [vx vy vz]; ring).
  assert (GP : inner 1 (sg s) (sp s) = 100) by (unfold inner, sum_to; cbn [seq map rsuml]; rewrite G0, P0; unfold dot3; cbn [vx vy vz]; ring).
  assert (AF : alpha_f 1 (fun _ => 1) s = / 10). { unfold alpha_f. cbn [pred minf]. unfold max_alpha. rewrite P0. change (sx s O) with v0. destruct (Rlt_dec _ _) as [_|NL]; [|exfalso; apply NL; unfold dot3, e20; cbn [vx vy vz]; lra]. unfold dot3, v0. cbn [vx vy vz]. match goal with |- context [sqrt ?u] => replace u with (20 * 20) by ring end. rewrite sqrt_square by lra. field. }
  assert (X : sx s' O = V3 1 0 0). { unfold s', mw_step. destruct (Rle_dec _ _) as [_|NL].
    - assert (OK : cg_ok 1 1 xA (fun _ => 1) 1 0 s = false) by (unfold cg_ok, alpha_cg; rewrite IP, GP, AF; destruct (Req_EM_T _ _) as [|]; [reflexivity|]; destruct (Rlt_dec _ _) as [L|]; [exfalso; lra|reflexivity]). rewrite OK. unfold mpg_step. cbv zeta. cbn [sx]. rewrite AF, P0, G0, HP. change (sx s O) with v0.
      match goal with |- proj 1 ?q = _ => replace q with (V3 9 0 0) by (apply v3_eq; cbn [vx vy vz sub3 scal3 v0]; field) end. unfold proj. unfold dot3. cbn [vx vy vz]. replace (9 * 9 + 0 * 0 + 0 * 0) with (9 * 9) by ring. rewrite sqrt_square by lra. rewrite Rmax_right by lra. cbv zeta. apply v3_eq; cbn [vx vy vz]; field.
    - exfalso. apply NL. unfold norm2, sum_to. cbn [seq map rsuml]. unfold red_proj_grad. change (sx s O) with v0. rewrite PH. unfold beta. destruct (Rlt_dec _ _) as [L|_]; [|rewrite add3_0_r; lra]. exfalso. revert L. unfold dot3, e8, e5, v0. cbn [vx vy vz]. rewrite Rabs_left; lra. }
  split; [exact X|]. unfold cost, R2, norm2, Aop, sum_to. cbn [seq map rsuml]. rewrite X. unfold z, b, xA, dot3. cbn [vx vy vz v0 sub3]. lra.
Qed.
(** relax-and-split at a fixed point with a nonzero dipole and a nonzero cost *)
Section Fix.
Let A := fun i _ : nat => match i with O => V3 1 0 0 | _ => v0 end.
Let b := fun i : nat => match i with O => / 2 | _ => 1 end.
Let x0 := fun _ : nat => V3 (/ 2) 0 0.
Let fx (s : pstate) : Prop := sx s O = V3 (/ 2) 0 0 /\ sg s O = v0 /\ sp s O = v0.
Lemma fx_grad w x : w O = V3 (/ 2) 0 0 -> x O = V3 (/ 2) 0 0 -> grad 2 1 A (ATop 2 A b) w 1 0 x O = v0.
Proof. intros W X. unfold grad, Hess, ATb_rs, ATop, Aop, sum_to, A, b. cbn [seq map rsuml]. rewrite W, X. apply v3_eq; unfold dot3; cbn [vx vy vz v0 add3 scal3 sub3]; field. Qed.
Lemma fx_phi x : phi 1 x v0 = v0. Proof. unfold phi. now destruct (Rlt_dec _ _). Qed.
Lemma fx_proj : proj 1 (V3 (/ 2) 0 0) = V3 (/ 2) 0 0.
Proof. unfold proj, dot3. cbn [vx vy vz]. replace (/ 2 * / 2 + 0 * 0 + 0 * 0) with (/ 2 * / 2) by ring. rewrite sqrt_square, Rmax_left by lra. cbv zeta. apply v3_eq; cbn [vx vy vz]; field. Qed.
Lemma fx_step w s : w O = V3 (/ 2) 0 0 -> fx s -> fx (mw_step 2 1 A (ATop 2 A b) w (fun _ => 1) 1 1 0 s).
Proof.
  intros W (X & G & P). assert (HZ : Hess 2 1 A 1 0 (sp s) O = v0) by (unfold Hess, ATop, Aop, sum_to, A; cbn [seq map rsuml]; rewrite P; apply v3_eq; unfold dot3; cbn [vx vy vz v0 add3 scal3]; field).
  assert (CG : cg_ok 2 1 A (fun _ => 1) 1 0 s = false). { unfold cg_ok. destruct (Req_EM_T _ _) as [|NE]; [reflexivity|]. exfalso. apply NE. unfold inner, sum_to. cbn [seq map rsuml]. rewrite P. unfold dot3, v0. cbn [vx vy vz]. ring. }
  unfold mw_step. destruct (Rle_dec _ _) as [_|_]; [rewrite CG; unfold mpg_step; cbv zeta|unfold pg_step; cbv zeta].
  - set (x := fun j => proj 1 _). assert (XE : x O = V3 (/ 2) 0 0). { unfold x. rewrite X, P, G, HZ. replace (sub3 _ _) with (V3 (/ 2) 0 0) by (apply v3_eq; cbn [vx vy vz sub3 scal3 v0]; ring). apply fx_proj. }
    unfold fx. cbn [sx sg sp]. rewrite (fx_grad w x W XE), fx_phi. auto.
  - set (x := fun j => proj 1 _). assert (XE : x O = V3 (/ 2) 0 0). { unfold x. rewrite X, G. replace (sub3 _ _) with (V3 (/ 2) 0 0) by (apply v3_eq; cbn [vx vy vz sub3 scal3 v0]; ring). apply fx_proj. }
    unfold fx. cbn [sx sg sp]. rewrite (fx_grad w x W XE), fx_phi. auto.
Qed.
Lemma fx_it w m0 i : w O = V3 (/ 2) 0 0 -> m0 O = V3 (/ 2) 0 0 -> fx (it 2 1 A (ATop 2 A b) w (fun _ => 1) 1 1 0 m0 i).
Proof. intros W X. induction i as [|i IH]; [change (fx (pinit 2 1 A (ATop 2 A b) w (fun _ => 1) 1 0 m0)); unfold fx, pinit; cbn [sx sg sp]; rewrite (fx_grad w m0 W X), fx_phi; auto|]. change (it 2 1 A (ATop 2 A b) w (fun _ => 1) 1 1 0 m0 (S i)) with (mw_step 2 1 A (ATop 2 A b) w (fun _ => 1) 1 1 0 (it 2 1 A (ATop 2 A b) w (fun _ => 1) 1 1 0 m0 i)). now apply fx_step. Qed.
Lemma fx_conv w m0 : w O = V3 (/ 2) 0 0 -> m0 O = V3 (/ 2) 0 0 -> exists x, conv 2 1 A b (fun _ => 1) 1 1 0 true 1 0 5 w m0 = Some ([/ 2], x) /\ x O = V3 (/ 2) 0 0.
Proof.
  intros W X. unfold conv, MwPGP. cbn [mw_loop]. cbv zeta. change (prints 5 0) with (Some true). assert (F := fx_step w _ W (fx_it w m0 0 W X)). change (it 2 1 A (ATop 2 A b) w (fun _ => 1) 1 1 0 m0 0) with (pinit 2 1 A (ATop 2 A b) w (fun _ => 1) 1 0 m0) in F. set (s := mw_step _ _ _ _ _ _ _ _ _ _) in *. destruct F as (X' & _).
  assert (C : cost 2 1 A b w 1 0 (sx s) = / 2). { unfold cost, R2, norm2, Aop, sum_to, A, b. cbn [seq map rsuml]. rewrite X', W. unfold dot3. cbn [vx vy vz sub3 v0]. field. }
  assert (MV : moved 1 (sx s) (sx (pinit 2 1 A (ATop 2 A b) w (fun _ => 1) 1 0 m0)) = 0). { unfold moved, sum_to. cbn [seq map rsuml pinit sx]. rewrite X', X. cbn [vx vy vz]. rewrite !Rminus_diag_eq, Rabs_R0 by reflexivity. ring. }
  rewrite C, MV. exists (sx s). split; [|exact X']. destruct (Rlt_dec 0 1) as [_|N]; [|lra]. destruct (Rlt_dec (R2 _ _ _ _ _) 0); reflexivity.
Qed.
Lemma fx_prox x : x O = V3 (/ 2) 0 0 -> prox_all L0 (fun _ => 1) (/ 100) 1 x O = V3 (/ 2) 0 0.
Proof. intros X. unfold prox_all, prox3, prox. rewrite X. cbn [vx vy vz]. apply v3_eq; cbn [vx vy vz]; unfold prox_l0; destruct (Rlt_dec _ _) as [L|L]; auto. exfalso. apply L. rewrite Rabs_right; lra. Qed.
Lemma fx_rnd r : fst (rnd 2 1 A b (fun _ => 1) 1 1 0 L0 (/ 100) true 1 0 5 x0 r) O = V3 (/ 2) 0 0 /\ snd (rnd 2 1 A b (fun _ => 1) 1 1 0 L0 (/ 100) true 1 0 5 x0 r) O = V3 (/ 2) 0 0.
Proof. induction r as [|r IH]; [split; [reflexivity|now apply fx_prox]|]. rewrite rnd_S. destruct (rnd _ _ _ _ _ _ _ _ _ _ _ _ _ _ x0 r) as [x w]. cbn [fst snd] in IH. destruct IH as (X & W). destruct (fx_conv w x W X) as (x' & -> & X'). cbn [fst snd]. split; [exact X'|now apply fx_prox]. Qed.
Example C85_meets : (forall j, (j < 1)%nat -> norm3 (x0 j) <= 1) /\ stable 2 1 A 1 1 0 /\ rs_ok 2 1 A b (fun _ => 1) 1 1 0 L0 (/ 100) true 1 0 5 x0 3 /\
  exists x w, rs 2 1 A b (fun _ => 1) 1 1 0 L0 (/ 100) true 1 0 1 5 3 x0 = RSDone [/ 2] x w /\ x O = V3 (/ 2) 0 0.
Proof.
  split. { intros j _. unfold x0. assert (NE : norm3 (V3 (/ 2) 0 0) = / 2) by (apply norm_unique; [lra|unfold dot3; cbn [vx vy vz]; ring]); rewrite NE; lra. }
  split. { intros v. unfold inner, norm2, Hess, ATop, Aop, sum_to, A. cbn [seq map rsuml]. destruct (v O) as [a c e]. unfold dot3. cbn [vx vy vz v0 add3 scal3]. assert (0 <= c * c) by nra. assert (0 <= e * e) by nra. lra. }
  split. { intros r i _ _ j Hj. replace j with O by lia. left. destruct (fx_rnd r) as (X & W). apply (fx_it _ _ i W X). }
  unfold rs, rs_run. cbn [rs_loop]. destruct (fx_conv (prox_all L0 (fun _ => 1) (/ 100) 1 x0) x0 (fx_prox x0 eq_refl) eq_refl) as (x & -> & X). assert (LN : last_nonzero [/ 2] = Some (/ 2)) by (unfold last_nonzero; cbn [filter]; destruct (Req_EM_T _ _); [exfalso; lra|reflexivity]). rewrite LN. cbv zeta.
  destruct (Rlt_dec _ _) as [_|NL]; [exists x, (prox_all L0 (fun _ => 1) (/ 100) 1 x); auto|]. exfalso. apply NL. unfold norm2, sum_to. cbn [seq map rsuml]. rewrite (fx_prox x X), X. unfold dot3. cbn [vx vy vz sub3]. match goal with |- sqrt ?u < 1 => replace u with 0 by ring end. rewrite sqrt_0. lra.
Qed.
End Fix.
