(** C131: the Reiman field. *)
From Coq Require Import Reals Lra Lia List ZArith.
From Verif Require CoilProps.
From Verif Require Import VecAux Vec3 BSModel BSDeriv BSVjp CurveObjModel CurveObjProps SurfGeomProps SurfDiffProps CurveDiffProps PointsModel FieldAModel FieldAProps AxisProps ReimanModel.
Import ListNotations.
Open Scope R_scope.

(** ** angles that may jump by multiples of 2 pi *)
Definition D_angle (th : R -> R) (t w : R) : Prop := D (fun s => cos (th s)) t (- sin (th t) * w) /\ D (fun s => sin (th s)) t (cos (th t) * w).
Lemma D_angle_succ th al t w v : D_angle th t w -> D_angle al t v -> D_angle (fun s => th s + al s) t (w + v).
Proof.
  intros [C S] [C' S']. split.
  - apply (D_ext (fun s => cos (th s) * cos (al s) - sin (th s) * sin (al s))); [intros s; now rewrite cos_plus|]. eapply D_val; [|apply D_sub; [apply (D_mul (fun s => cos (th s))); eassumption|apply (D_mul (fun s => sin (th s))); eassumption]]. cbv beta. rewrite sin_plus. ring.
  - apply (D_ext (fun s => sin (th s) * cos (al s) + cos (th s) * sin (al s))); [intros s; now rewrite sin_plus|]. eapply D_val; [|apply D_add; [apply (D_mul (fun s => sin (th s))); eassumption|apply (D_mul (fun s => cos (th s))); eassumption]]. cbv beta. rewrite cos_plus. ring.
Qed.
Lemma D_angle_ext th al t w : (forall s, th s = al s) -> D_angle th t w -> D_angle al t w.
Proof. intros E [C S]. split; [apply (D_ext (fun s => cos (th s))); [intros s; now rewrite E|]|apply (D_ext (fun s => sin (th s))); [intros s; now rewrite E|]]; now rewrite <- E. Qed.
Lemma D_angle_opp th t w : D_angle th t w -> D_angle (fun s => - th s) t (- w).
Proof. intros [C S]. split; [apply (D_ext (fun s => cos (th s))); [intros s; now rewrite cos_neg|]; rewrite sin_neg; eapply D_val; [|exact C]; ring|apply (D_ext (fun s => - sin (th s))); [intros s; now rewrite sin_neg|]; rewrite cos_neg; eapply D_val; [|apply (D_opp (fun s => sin (th s))); exact S]; ring]. Qed.
Lemma D_angle_mul th t w (k : Z) : D_angle th t w -> D_angle (fun s => IZR k * th s) t (IZR k * w).
Proof.
  intros H. assert (N : forall n : nat, D_angle (fun s => IZR (Z.of_nat n) * th s) t (IZR (Z.of_nat n) * w)).
  { induction n as [|n IH].
    - split; [apply (D_ext (fun _ => 1)); [intros s; cbn [Z.of_nat]; now rewrite Rmult_0_l, cos_0|]|apply (D_ext (fun _ => 0)); [intros s; cbn [Z.of_nat]; now rewrite Rmult_0_l, sin_0|]]; (eapply D_val; [|apply D_const]); cbn [Z.of_nat]; ring.
    - replace (IZR (Z.of_nat (S n)) * w) with (IZR (Z.of_nat n) * w + w) by (rewrite Nat2Z.inj_succ, succ_IZR; ring).
      apply (D_angle_ext (fun s => IZR (Z.of_nat n) * th s + th s)); [intros s; rewrite Nat2Z.inj_succ, succ_IZR; ring|]. now apply D_angle_succ. }
  destruct (Z_le_gt_dec 0 k) as [K|K]; [specialize (N (Z.to_nat k)); now rewrite Z2Nat.id in N by lia|].
  specialize (N (Z.to_nat (- k))). rewrite Z2Nat.id in N by lia. apply D_angle_opp in N. rewrite opp_IZR in N. replace (IZR k * w) with (- (- IZR k * w)) by ring. refine (D_angle_ext _ _ _ _ _ N). intros s. ring.
Qed.
Lemma D_pos_near f t a : D f t a -> 0 < f t -> exists e, 0 < e /\ forall s, Rabs (s - t) < e -> 0 < f s.
Proof.
  intros H P. assert (C : continuity_pt f t) by (apply derivable_continuous_pt; exists a; exact H). destruct (C (f t) P) as (e & EP & HE). exists e. split; [exact EP|]. intros s Hs.
  destruct (Req_dec s t) as [->|NE]; [exact P|]. assert (K : dist R_met (f s) (f t) < f t) by (apply HE; split; [split; [exact I|auto]|exact Hs]). cbn in K. unfold R_dist in K. apply Rabs_def2 in K. lra.
Qed.
Lemma D_atan2 (X Y : R -> R) t a b : D X t a -> D Y t b -> 0 < X t * X t + Y t * Y t -> D_angle (fun s => atan2 (Y s) (X s)) t ((X t * b - Y t * a) / (X t * X t + Y t * Y t)).
Proof.
  intros DX DY P. assert (DN : D (fun s => X s * X s + Y s * Y s) t (a * X t + X t * a + (b * Y t + Y t * b))) by (apply D_add; [apply (D_mul X); assumption|apply (D_mul Y); assumption]).
  destruct (D_pos_near _ _ _ DN P) as (e & EP & HE). pose proof (D_sqrt _ _ _ DN P) as DS. cbv beta in DS. assert (SP : 0 < sqrt (X t * X t + Y t * Y t)) by now apply sqrt_lt_R0.
  assert (SS : sqrt (X t * X t + Y t * Y t) * sqrt (X t * X t + Y t * Y t) = X t * X t + Y t * Y t) by (apply sqrt_sqrt; lra).
  assert (CS : forall x y, 0 < x * x + y * y -> cos (atan2 y x) = x / sqrt (x * x + y * y) /\ sin (atan2 y x) = y / sqrt (x * x + y * y)).
  { intros x y H. assert (0 < sqrt (x * x + y * y)) by now apply sqrt_lt_R0. destruct (atan2_polar x y) as [A B]. split; [rewrite <- A at 2|rewrite <- B at 2]; field; lra. }
  destruct (CS _ _ P) as [C S]. split.
  - refine (D_near (fun s => X s / sqrt (X s * X s + Y s * Y s)) _ _ _ _ _).
    + exists e. split; [exact EP|]. intros s Hs. symmetry. apply CS, HE, Hs.
    + eapply D_val; [|apply (D_div X); [exact DX|exact DS|lra]]. cbv beta. rewrite S. set (r := sqrt (X t * X t + Y t * Y t)) in *. rewrite <- SS in *. clear DN DS HE CS C S. 
      apply (Rmult_eq_reg_r (r * r * r)); [|nra]. transitivity (a * (r * r) - X t * (X t * a + Y t * b)); [field; lra|]. rewrite SS. field. nra.
  - refine (D_near (fun s => Y s / sqrt (X s * X s + Y s * Y s)) _ _ _ _ _).
    + exists e. split; [exact EP|]. intros s Hs. symmetry. apply CS, HE, Hs.
    + eapply D_val; [|apply (D_div Y); [exact DY|exact DS|lra]]. cbv beta. rewrite C. set (r := sqrt (X t * X t + Y t * Y t)) in *. clear DN DS HE CS C S.
      apply (Rmult_eq_reg_r (r * r * r)); [|nra]. transitivity (b * (r * r) - Y t * (X t * a + Y t * b)); [field; lra|]. rewrite SS. field. nra.
Qed.
Lemma D_Rpower f t a k : D f t a -> 0 < f t -> D (fun s => Rpower (f s) k) t (k * Rpower (f t) (k - 1) * a).
Proof. intros H P. exact (derivable_pt_lim_comp f (fun x => Rpower x k) t a _ H (derivable_pt_lim_power (f t) k P)). Qed.
Lemma rsuml_neg {A} (f : A -> R) l : rsuml (map (fun x => - f x) l) = - rsuml (map f l).
Proof. induction l as [|x l IH]; cbn [map rsuml]; [ring|]. rewrite IH. ring. Qed.
Lemma lin3 {A} (l : list A) (f g h : A -> R) a b c : rsuml (map (fun x => f x * a + g x * b + h x * c) l) = rsuml (map f l) * a + rsuml (map g l) * b + rsuml (map h l) * c.
Proof. induction l as [|x l IH]; cbn [map rsuml]; [ring|]. rewrite IH. ring. Qed.

Lemma pow_split' RR z k : 0 < (RR - 1) ^ 2 + z ^ 2 -> Rpower (rmin RR z) (IZR k - 2) = Rpower (rmin RR z) (IZR k - 4) * ((RR - 1) ^ 2 + z ^ 2).
Proof.
  intros H. assert (P : 0 < rmin RR z) by (unfold rmin, r_axis; now apply sqrt_lt_R0). assert (Q : rmin RR z * rmin RR z = (RR - 1) ^ 2 + z ^ 2) by (unfold rmin, r_axis; apply sqrt_sqrt; lra).
  rewrite <- Q. replace (IZR k - 2) with ((IZR k - 4) + 1 + 1) by ring. rewrite !Rpower_plus, Rpower_1 by exact P. ring.
Qed.
Section Path.
Variables (iota0 iota1 : R) (modes : list (Z * R)) (m0 : Z).
Variables (Rs th ph_ Zs : R -> R) (t R' th' ph' Z' : R).
Hypothesis DR : D Rs t R'.
Hypothesis DZ : D Zs t Z'.
Hypothesis DP : D_angle ph_ t ph'.
Hypothesis DT : D_angle th t th'.
Hypothesis RP : 0 < (Rs t - 1) ^ 2 + Zs t ^ 2.
Hypothesis TH : th' = ((Rs t - 1) * Z' - Zs t * R') / ((Rs t - 1) ^ 2 + Zs t ^ 2).
Hypothesis R0 : 0 < Rs t.
Let r := rmin (Rs t) (Zs t).
Lemma r_pos : 0 < r.
Proof using RP. unfold r, rmin, r_axis. apply sqrt_lt_R0. lra. Qed.
Lemma r_sq : r * r = (Rs t - 1) ^ 2 + Zs t ^ 2.
Proof using RP. unfold r, rmin, r_axis. apply sqrt_sqrt. lra. Qed.
Lemma D_r : D (fun s => rmin (Rs s) (Zs s)) t (((Rs t - 1) * R' + Zs t * Z') / r).
Proof using DR DZ RP.
  pose proof r_pos as P. unfold rmin, r_axis. apply (D_ext (fun s => sqrt ((Rs s - 1) * (Rs s - 1) + Zs s * Zs s))); [intros s; f_equal; ring|]. eapply D_val; [|apply D_sqrt; [dd|]]; cbv beta; [|nra].
  replace ((Rs t - 1) * (Rs t - 1) + Zs t * Zs t) with ((Rs t - 1) ^ 2 + Zs t ^ 2) by ring. fold r_axis. fold (rmin (Rs t) (Zs t)). fold r. field. lra.
Qed.
Lemma pow_split k : Rpower r (IZR k - 2) = Rpower r (IZR k - 4) * (r * r).
Proof using RP. pose proof r_pos as P. replace (IZR k - 2) with ((IZR k - 4) + 1 + 1) by ring. rewrite !Rpower_plus, Rpower_1 by exact P. ring. Qed.
Lemma D_pow_r k : D (fun s => Rpower (rmin (Rs s) (Zs s)) (IZR k - 2)) t ((IZR k - 2) * Rpower r (IZR k - 4) * ((Rs t - 1) * R' + Zs t * Z')).
Proof using DR DZ RP.
  pose proof r_pos as P. eapply D_val; [|apply (D_Rpower (fun s => rmin (Rs s) (Zs s))); [exact D_r|exact P]]. cbv beta. fold r. replace (IZR k - 2 - 1) with ((IZR k - 4) + 1) by ring. rewrite Rpower_plus, Rpower_1 by exact P. field. lra.
Qed.
Lemma D_ph k : D_angle (fun s => ph m0 (th s) (ph_ s) k) t (IZR k * th' - IZR m0 * ph').
Proof using DP DT. unfold ph. exact (D_angle_succ _ _ _ _ _ (D_angle_mul _ _ _ k DT) (D_angle_opp _ _ _ (D_angle_mul _ _ _ m0 DP))). Qed.
Lemma pow_th k : Rpower r (IZR k - 2) * th' = Rpower r (IZR k - 4) * ((Rs t - 1) * Z' - Zs t * R').
Proof using RP TH. pose proof r_pos as P. rewrite pow_split, TH, <- r_sq. field. lra. Qed.
Lemma D_combo : D (fun s => combo iota0 iota1 modes m0 (Rs s) (th s) (ph_ s) (Zs s)) t
  (dcombodR iota1 modes m0 (Rs t) (th t) (ph_ t) (Zs t) * R' + dcombodZ iota1 modes m0 (Rs t) (th t) (ph_ t) (Zs t) * Z' + dcombodphi modes m0 (Rs t) (th t) (ph_ t) (Zs t) * ph').
Proof using DP DR DT DZ RP TH.
  unfold combo. set (f := fun (ke : Z * R) s => IZR (fst ke) * snd ke * Rpower (rmin (Rs s) (Zs s)) (IZR (fst ke) - 2) * cos (ph m0 (th s) (ph_ s) (fst ke))).
  set (A := fun ke : Z * R => IZR (fst ke) * Rpower r (IZR (fst ke) - 4) * snd ke * (IZR (fst ke) * Zs t * sin (ph m0 (th t) (ph_ t) (fst ke)) + (IZR (fst ke) - 2) * (Rs t - r_axis) * cos (ph m0 (th t) (ph_ t) (fst ke)))).
  set (B := fun ke : Z * R => Rpower r (IZR (fst ke) - 4) * snd ke * IZR (fst ke) * (IZR (fst ke) * sin (ph m0 (th t) (ph_ t) (fst ke)) * (Rs t - r_axis) - (IZR (fst ke) - 2) * Zs t * cos (ph m0 (th t) (ph_ t) (fst ke)))).
  set (C := fun ke : Z * R => IZR (fst ke) * snd ke * Rpower r (IZR (fst ke) - 2) * sin (ph m0 (th t) (ph_ t) (fst ke)) * IZR m0).
  assert (DS : D (fun s => rsuml (map (fun ke => f ke s) modes)) t (rsuml (map (fun ke => A ke * R' + (- B ke) * Z' + C ke * ph') modes))).
  { apply (D_sum modes f). intros [k e] _. unfold f, A, B, C. cbn [fst snd]. destruct (D_ph k) as [DC _].
    eapply D_val; [|apply (D_mul (fun s => IZR k * e * Rpower (rmin (Rs s) (Zs s)) (IZR k - 2))); [apply (D_mul (fun _ => IZR k * e)); [apply D_const|exact (D_pow_r k)]|exact DC]]. cbv beta. fold r. pose proof (pow_th k) as PT. unfold r_axis.
    transitivity (IZR k * e * ((IZR k - 2) * Rpower r (IZR k - 4) * ((Rs t - 1) * R' + Zs t * Z')) * cos (ph m0 (th t) (ph_ t) k) - IZR k * e * sin (ph m0 (th t) (ph_ t) k) * (IZR k * (Rpower r (IZR k - 2) * th') - IZR m0 * ph' * Rpower r (IZR k - 2))); [ring|]. rewrite PT. ring. }
  rewrite lin3 in DS. eapply D_val; [|apply D_sub; [apply D_add; [apply D_const|apply (D_mul (fun s => iota1 * rmin (Rs s) (Zs s))); [apply (D_mul (fun _ => iota1)); [apply D_const|exact D_r]|exact D_r]]|exact DS]]. cbv beta.
  unfold dcombodR, dcombodZ, dcombodphi. cbv zeta. fold r. fold A B C. assert (E : rsuml (map (fun x => - B x) modes) = - rsuml (map B modes)) by apply rsuml_neg. rewrite E. unfold r_axis. pose proof r_pos as P. field. lra.
Qed.
Lemma D_combo1 : D (fun s => combo1 modes m0 (Rs s) (th s) (ph_ s) (Zs s)) t
  (dcombo1dR modes m0 (Rs t) (th t) (ph_ t) (Zs t) * R' + dcombo1dZ modes m0 (Rs t) (th t) (ph_ t) (Zs t) * Z' + dcombo1dphi modes m0 (Rs t) (th t) (ph_ t) (Zs t) * ph').
Proof using DP DR DT DZ RP TH.
  unfold combo1. set (f := fun (ke : Z * R) s => IZR (fst ke) * snd ke * Rpower (rmin (Rs s) (Zs s)) (IZR (fst ke) - 2) * sin (ph m0 (th s) (ph_ s) (fst ke))).
  set (A := fun ke : Z * R => IZR (fst ke) * Rpower r (IZR (fst ke) - 4) * snd ke * (- IZR (fst ke) * Zs t * cos (ph m0 (th t) (ph_ t) (fst ke)) + (IZR (fst ke) - 2) * sin (ph m0 (th t) (ph_ t) (fst ke)) * (Rs t - r_axis))).
  set (B := fun ke : Z * R => IZR (fst ke) * Rpower r (IZR (fst ke) - 4) * snd ke * (IZR (fst ke) * cos (ph m0 (th t) (ph_ t) (fst ke)) * (Rs t - r_axis) + (IZR (fst ke) - 2) * sin (ph m0 (th t) (ph_ t) (fst ke)) * Zs t)).
  set (C := fun ke : Z * R => IZR (fst ke) * snd ke * Rpower r (IZR (fst ke) - 2) * cos (ph m0 (th t) (ph_ t) (fst ke)) * IZR m0).
  assert (DS : D (fun s => rsuml (map (fun ke => f ke s) modes)) t (rsuml (map (fun ke => A ke * R' + B ke * Z' + (- C ke) * ph') modes))).
  { apply (D_sum modes f). intros [k e] _. unfold f, A, B, C. cbn [fst snd]. destruct (D_ph k) as [_ DC].
    eapply D_val; [|apply (D_mul (fun s => IZR k * e * Rpower (rmin (Rs s) (Zs s)) (IZR k - 2))); [apply (D_mul (fun _ => IZR k * e)); [apply D_const|exact (D_pow_r k)]|exact DC]]. cbv beta. fold r. pose proof (pow_th k) as PT. unfold r_axis.
    transitivity (IZR k * e * ((IZR k - 2) * Rpower r (IZR k - 4) * ((Rs t - 1) * R' + Zs t * Z')) * sin (ph m0 (th t) (ph_ t) k) + IZR k * e * cos (ph m0 (th t) (ph_ t) k) * (IZR k * (Rpower r (IZR k - 2) * th') - IZR m0 * ph' * Rpower r (IZR k - 2))); [ring|]. rewrite PT. ring. }
  rewrite lin3 in DS. eapply D_val; [|exact DS]. unfold dcombo1dR, dcombo1dZ, dcombo1dphi. cbv zeta. fold r. fold A B C. assert (E : rsuml (map (fun x => - C x) modes) = - rsuml (map C modes)) by apply rsuml_neg. rewrite E. ring.
Qed.
Lemma D_BR : D (fun s => BR iota0 iota1 modes m0 (Rs s) (th s) (ph_ s) (Zs s)) t
  (dRBR iota0 iota1 modes m0 (Rs t) (th t) (ph_ t) (Zs t) * R' + dZBR iota0 iota1 modes m0 (Rs t) (th t) (ph_ t) (Zs t) * Z' + dphiBR modes m0 (Rs t) (th t) (ph_ t) (Zs t) * ph').
Proof using DP DR DT DZ RP TH R0.
  unfold BR, r_axis. eapply D_val; [|apply D_add; [apply (D_mul (fun s => (Rs s - 1) / Rs s)); [apply (D_div (fun s => Rs s - 1)); [apply D_sub; [exact DR|apply D_const]|exact DR|lra]|exact D_combo1]|apply (D_mul (fun s => Zs s / Rs s)); [apply (D_div Zs); [exact DZ|exact DR|lra]|exact D_combo]]].
  cbv beta. unfold dRBR, dZBR, dphiBR, r_axis. field. lra.
Qed.
Lemma D_BZ : D (fun s => BZ iota0 iota1 modes m0 (Rs s) (th s) (ph_ s) (Zs s)) t
  (dRBZ iota0 iota1 modes m0 (Rs t) (th t) (ph_ t) (Zs t) * R' + dZBZ iota1 modes m0 (Rs t) (th t) (ph_ t) (Zs t) * Z' + dphiBZ modes m0 (Rs t) (th t) (ph_ t) (Zs t) * ph').
Proof using DP DR DT DZ RP TH R0.
  unfold BZ, r_axis. eapply D_val; [|apply D_add; [apply (D_mul (fun s => - ((Rs s - 1) / Rs s))); [apply D_opp, (D_div (fun s => Rs s - 1)); [apply D_sub; [exact DR|apply D_const]|exact DR|lra]|exact D_combo]|apply (D_mul (fun s => Zs s / Rs s)); [apply (D_div Zs); [exact DZ|exact DR|lra]|exact D_combo1]]].
  cbv beta. unfold dRBZ, dZBZ, dphiBZ, r_axis. field. lra.
Qed.
End Path.

Section Theorems.
Variables (iota0 iota1 : R) (modes : list (Z * R)) (m0 : Z).
Definition cyl_R (p : vec3) : R := sqrt (vx p * vx p + vy p * vy p).
(** away from the axis R = 0 and the circle R = 1, Z = 0 *)
Definition regular (p : vec3) : Prop := 0 < cyl_R p /\ 0 < (cyl_R p - 1) ^ 2 + vz p ^ 2.
Theorem C131_jacobian p : regular p -> jacobian (reiman_B iota0 iota1 modes m0) p (reiman_dB iota0 iota1 modes m0 p).
Proof.
  intros (P & RP) c t c' E (C1 & C2 & C3). assert (N : 0 < vx (c t) * vx (c t) + vy (c t) * vy (c t)).
  { rewrite E. unfold cyl_R in P. destruct (Rle_lt_dec (vx p * vx p + vy p * vy p) 0) as [L|L]; [|exact L]. rewrite sqrt_neg_0 in P by exact L. lra. }
  set (Rs := fun s => sqrt (vx (c s) * vx (c s) + vy (c s) * vy (c s))). assert (RE : Rs t = cyl_R p) by (unfold Rs, cyl_R; now rewrite E). rewrite <- RE in P, RP.
  assert (RQ : Rs t * Rs t = vx (c t) * vx (c t) + vy (c t) * vy (c t)) by (unfold Rs; apply sqrt_sqrt; lra).
  set (cs := vx (c t) / Rs t). set (sn := vy (c t) / Rs t). assert (Ex : vx (c t) = Rs t * cs) by (unfold cs; field; lra). assert (Ey : vy (c t) = Rs t * sn) by (unfold sn; field; lra).
  assert (CS : cs * cs + sn * sn = 1) by (unfold cs, sn; transitivity ((vx (c t) * vx (c t) + vy (c t) * vy (c t)) / (Rs t * Rs t)); [field; lra|rewrite <- RQ; field; lra]).
  set (R' := cs * vx c' + sn * vy c'). set (ph' := (cs * vy c' - sn * vx c') / Rs t).
  assert (DR : D Rs t R').
  { unfold Rs. eapply D_val; [|apply D_sqrt; [apply D_add; [apply (D_mul (fun s => vx (c s))); exact C1|apply (D_mul (fun s => vy (c s))); exact C2]|exact N]]. cbv beta. change (sqrt (vx (c t) * vx (c t) + vy (c t) * vy (c t))) with (Rs t). unfold R', cs, sn. field. lra. }
  assert (DX : D (fun s => vx (c s) / Rs s) t (- sn * ph')).
  { eapply D_val; [|apply (D_div (fun s => vx (c s))); [exact C1|exact DR|lra]]. cbv beta. rewrite Ex. unfold R', ph'. apply (Rmult_eq_reg_r (Rs t)); [|lra]. transitivity (vx c' - cs * (cs * vx c' + sn * vy c')); [field; lra|]. transitivity (- sn * (cs * vy c' - sn * vx c')); [|field; lra]. transitivity (vx c' * (cs * cs + sn * sn) - cs * (cs * vx c' + sn * vy c')); [rewrite CS; ring|ring]. }
  assert (DY : D (fun s => vy (c s) / Rs s) t (cs * ph')).
  { eapply D_val; [|apply (D_div (fun s => vy (c s))); [exact C2|exact DR|lra]]. cbv beta. rewrite Ey. unfold R', ph'. apply (Rmult_eq_reg_r (Rs t)); [|lra]. transitivity (vy c' - sn * (cs * vx c' + sn * vy c')); [field; lra|]. transitivity (cs * (cs * vy c' - sn * vx c')); [|field; lra]. transitivity (vy c' * (cs * cs + sn * sn) - sn * (cs * vx c' + sn * vy c')); [rewrite CS; ring|ring]. }
  assert (DP : D_angle (fun s => atan2 (vy (c s)) (vx (c s))) t ph').
  { pose proof (D_atan2 (fun s => vx (c s)) (fun s => vy (c s)) t _ _ C1 C2 N) as H. cbv beta in H. rewrite <- RQ in H. replace ph' with ((vx (c t) * vy c' - vy (c t) * vx c') / (Rs t * Rs t)) by (unfold ph'; rewrite Ex, Ey; field; lra). exact H. }
  assert (RP' : 0 < (Rs t - 1) * (Rs t - 1) + vz (c t) * vz (c t)) by (rewrite E; nra).
  assert (DT : D_angle (fun s => atan2 (vz (c s)) (Rs s - 1)) t (((Rs t - 1) * vz c' - vz (c t) * R') / ((Rs t - 1) ^ 2 + vz (c t) ^ 2))).
  { replace ((Rs t - 1) ^ 2 + vz (c t) ^ 2) with ((Rs t - 1) * (Rs t - 1) + vz (c t) * vz (c t)) by ring. apply (D_atan2 (fun s => Rs s - 1) (fun s => vz (c s)) t R' (vz c')); [|exact C3|exact RP']. eapply D_val; [|apply D_sub; [exact DR|apply D_const]]. ring. }
  assert (RP2 : 0 < (Rs t - 1) ^ 2 + vz (c t) ^ 2) by nra.
  pose proof (D_BR iota0 iota1 modes m0 Rs (fun s => atan2 (vz (c s)) (Rs s - 1)) (fun s => atan2 (vy (c s)) (vx (c s))) (fun s => vz (c s)) t R' _ ph' (vz c') DR C3 DP DT RP2 eq_refl P) as DB.
  pose proof (D_BZ iota0 iota1 modes m0 Rs (fun s => atan2 (vz (c s)) (Rs s - 1)) (fun s => atan2 (vy (c s)) (vx (c s))) (fun s => vz (c s)) t R' _ ph' (vz c') DR C3 DP DT RP2 eq_refl P) as DBZ.
  intros l L. rewrite <- E. unfold reiman_dB. cbv zeta. change (sqrt (vx (c t) * vx (c t) + vy (c t) * vy (c t))) with (Rs t). change r_axis with 1 in *. fold cs sn.
  cases3 l L; unfold reiman_B, at2; cbv zeta; cbn [coord vx vy vz nth]; change r_axis with 1; unfold Bphi, dRBphi, dphiBphi, dZBphi.
  - eapply D_val; [|apply D_sub; [apply (D_mul (fun s => BR iota0 iota1 modes m0 (Rs s) (atan2 (vz (c s)) (Rs s - 1)) (atan2 (vy (c s)) (vx (c s))) (vz (c s)))); [exact DB|exact DX]|apply (D_mul (fun _ => -1)); [apply D_const|exact DY]]]. cbv beta. change (sqrt (vx (c t) * vx (c t) + vy (c t) * vy (c t))) with (Rs t). fold cs sn. unfold R', ph'. field. lra.
  - eapply D_val; [|apply D_add; [apply (D_mul (fun s => BR iota0 iota1 modes m0 (Rs s) (atan2 (vz (c s)) (Rs s - 1)) (atan2 (vy (c s)) (vx (c s))) (vz (c s)))); [exact DB|exact DY]|apply (D_mul (fun _ => -1)); [apply D_const|exact DX]]]. cbv beta. change (sqrt (vx (c t) * vx (c t) + vy (c t) * vy (c t))) with (Rs t). fold cs sn. unfold R', ph'. field. lra.
  - eapply D_val; [|exact DBZ]. unfold R', ph'. field. lra.
Qed.
Theorem C131_divergence_free p : regular p -> reiman_dB iota0 iota1 modes m0 p 0 0 + reiman_dB iota0 iota1 modes m0 p 1 1 + reiman_dB iota0 iota1 modes m0 p 2 2 = 0.
Proof.
  intros (P & RP). unfold reiman_dB, at2. cbn [nth]. fold (cyl_R p). change r_axis with 1. set (cs := vx p / cyl_R p). set (sn := vy p / cyl_R p). unfold Bphi, dRBphi, dphiBphi, dZBphi.
  assert (PQ : cyl_R p * cyl_R p = vx p * vx p + vy p * vy p).
  { unfold cyl_R. apply sqrt_sqrt. pose proof (Rle_0_sqr (vx p)). pose proof (Rle_0_sqr (vy p)). unfold Rsqr in *. lra. }
  assert (CS : cs * cs + sn * sn = 1) by (unfold cs, sn; transitivity ((vx p * vx p + vy p * vy p) / (cyl_R p * cyl_R p)); [field; lra|rewrite <- PQ; field; lra]).
  set (th := atan2 (vz p) (cyl_R p - 1)). set (f := atan2 (vy p) (vx p)). set (X := dRBR iota0 iota1 modes m0 (cyl_R p) th f (vz p)). set (Y := BR iota0 iota1 modes m0 (cyl_R p) th f (vz p)). set (W := dphiBR modes m0 (cyl_R p) th f (vz p)). set (V := dZBZ iota1 modes m0 (cyl_R p) th f (vz p)).
  transitivity ((X + Y / cyl_R p) * (cs * cs + sn * sn) + V); [field; lra|]. rewrite CS. unfold X, Y, V, dRBR, BR, dZBZ, r_axis. revert RP. generalize (vz p). intros z RPz. clear cs sn X Y W V CS.
  assert (K1 : (cyl_R p - 1) * dcombo1dR modes m0 (cyl_R p) th f z + z * dcombo1dZ modes m0 (cyl_R p) th f z + z * dcombodR iota1 modes m0 (cyl_R p) th f z - (cyl_R p - 1) * dcombodZ iota1 modes m0 (cyl_R p) th f z + 2 * combo1 modes m0 (cyl_R p) th f z = 0).
  { unfold dcombo1dR, dcombo1dZ, dcombodR, dcombodZ, combo1. change r_axis with 1. cbv zeta.
    assert (S5 : forall (f1 f2 f3 f4 f5 : Z * R -> R) a b l, (forall x, a * f1 x + b * f2 x - b * f3 x - a * f4 x + 2 * f5 x = 0) ->
      a * rsuml (map f1 l) + b * rsuml (map f2 l) + b * (2 * iota1 * a - rsuml (map f3 l)) - a * (2 * iota1 * b + rsuml (map f4 l)) + 2 * rsuml (map f5 l) = 0).
    { intros f1 f2 f3 f4 f5 a b l H. induction l as [|x l IH]; cbn [map rsuml]; [ring|]. specialize (H x). lra. }
    apply S5. intros [k e]. cbn [fst snd]. rewrite pow_split' by exact RPz. ring. }
  apply (Rmult_eq_reg_r (cyl_R p)); [|lra]. rewrite Rmult_0_l. rewrite <- K1. field. lra.
Qed.
(** ** flux function *)
Definition chi (r_ f z : R) : R := let r := sqrt ((r_ - 1) ^ 2 + z ^ 2) in let th := atan2 z (r_ - 1) in
  iota0 * r ^ 2 / 2 + iota1 * r ^ 4 / 4 - rsuml (map (fun ke => snd ke * Rpower r (IZR (fst ke)) * cos (IZR (fst ke) * th - IZR m0 * f)) modes).
Lemma D_chi (Rs Zs : R -> R) t R' Z' f : D Rs t R' -> D Zs t Z' -> 0 < (Rs t - 1) ^ 2 + Zs t ^ 2 ->
  let th := atan2 (Zs t) (Rs t - 1) in
  D (fun s => chi (Rs s) f (Zs s)) t (combo iota0 iota1 modes m0 (Rs t) th f (Zs t) * ((Rs t - 1) * R' + Zs t * Z') + combo1 modes m0 (Rs t) th f (Zs t) * ((Rs t - 1) * Z' - Zs t * R')).
Proof.
  intros DR DZ P. cbv zeta. unfold chi. cbv zeta. set (r := sqrt ((Rs t - 1) ^ 2 + Zs t ^ 2)). assert (PR : 0 < r) by (unfold r; now apply sqrt_lt_R0). assert (RR : r * r = (Rs t - 1) ^ 2 + Zs t ^ 2) by (unfold r; apply sqrt_sqrt; lra).
  assert (DN := D_r Rs Zs t R' Z' DR DZ P). unfold rmin, r_axis in DN. fold r in DN.
  assert (DT : D_angle (fun s => atan2 (Zs s) (Rs s - 1)) t (((Rs t - 1) * Z' - Zs t * R') / ((Rs t - 1) ^ 2 + Zs t ^ 2))).
  { replace ((Rs t - 1) ^ 2 + Zs t ^ 2) with ((Rs t - 1) * (Rs t - 1) + Zs t * Zs t) by ring. apply (D_atan2 (fun s => Rs s - 1) Zs t R' Z'); [|exact DZ|nra]. eapply D_val; [|apply D_sub; [exact DR|apply D_const]]. ring. }
  set (th := fun s => atan2 (Zs s) (Rs s - 1)) in *. change (atan2 (Zs t) (Rs t - 1)) with (th t). set (u := (Rs t - 1) * R' + Zs t * Z') in *. set (w := (Rs t - 1) * Z' - Zs t * R') in *.
  assert (DS : D (fun s => rsuml (map (fun ke => snd ke * Rpower (sqrt ((Rs s - 1) ^ 2 + Zs s ^ 2)) (IZR (fst ke)) * cos (IZR (fst ke) * th s - IZR m0 * f)) modes)) t
    (rsuml (map (fun ke => (IZR (fst ke) * snd ke * Rpower r (IZR (fst ke) - 2) * cos (ph m0 (th t) f (fst ke))) * u + (- (IZR (fst ke) * snd ke * Rpower r (IZR (fst ke) - 2) * sin (ph m0 (th t) f (fst ke)))) * w + 0 * 0) modes))).
  { apply (D_sum modes (fun ke s => snd ke * Rpower (sqrt ((Rs s - 1) ^ 2 + Zs s ^ 2)) (IZR (fst ke)) * cos (IZR (fst ke) * th s - IZR m0 * f))). intros [k e] _. cbn [fst snd].
    assert (DF : D_angle (fun _ => - (IZR m0 * f)) t 0) by (split; (eapply D_val; [|apply D_const]); ring). destruct (D_angle_succ _ _ _ _ _ (D_angle_mul _ _ _ k DT) DF) as [DC _].
    eapply D_val; [|apply (D_mul (fun s => e * Rpower (sqrt ((Rs s - 1) ^ 2 + Zs s ^ 2)) (IZR k))); [apply (D_mul (fun _ => e)); [apply D_const|apply D_Rpower; [exact DN|exact PR]]|exact DC]]. cbv beta. fold r. unfold ph.
    replace (IZR k - 1) with (IZR k - 2 + 1) by ring. rewrite Rpower_plus, Rpower_1 by exact PR. replace (Rpower r (IZR k)) with (Rpower r (IZR k - 2) * (r * r)) by (replace (IZR k) with (IZR k - 2 + 1 + 1) at 2 by ring; rewrite !Rpower_plus, Rpower_1 by exact PR; ring). rewrite <- RR. unfold Rminus. field. lra. }
  rewrite lin3 in DS. eapply D_val; [|apply D_sub; [apply D_add; [apply (D_ext (fun s => iota0 / 2 * (sqrt ((Rs s - 1) ^ 2 + Zs s ^ 2) * sqrt ((Rs s - 1) ^ 2 + Zs s ^ 2)))); [intros s; field|apply (D_mul (fun _ => iota0 / 2)); [apply D_const|apply (D_mul (fun s => sqrt ((Rs s - 1) ^ 2 + Zs s ^ 2))); exact DN]]|
    apply (D_ext (fun s => iota1 / 4 * ((sqrt ((Rs s - 1) ^ 2 + Zs s ^ 2) * sqrt ((Rs s - 1) ^ 2 + Zs s ^ 2)) * (sqrt ((Rs s - 1) ^ 2 + Zs s ^ 2) * sqrt ((Rs s - 1) ^ 2 + Zs s ^ 2))))); [intros s; field|apply (D_mul (fun _ => iota1 / 4)); [apply D_const|apply (D_mul (fun s => sqrt ((Rs s - 1) ^ 2 + Zs s ^ 2) * sqrt ((Rs s - 1) ^ 2 + Zs s ^ 2))); apply (D_mul (fun s => sqrt ((Rs s - 1) ^ 2 + Zs s ^ 2))); exact DN]]]|exact DS]].
  cbv beta. fold r. rewrite rsuml_neg. unfold combo, combo1, rmin, r_axis. fold r. cbv zeta. field. lra.
Qed.
(** R B_R = d chi/dZ, R B_Z = - d chi/dR, B_phi = -1 *)
Theorem C131_flux_function p : regular p -> let b := reiman_B iota0 iota1 modes m0 p in let f := atan2 (vy p) (vx p) in
  D (fun z => chi (cyl_R p) f z) (vz p) (vx b * vx p + vy b * vy p) /\ D (fun s => chi s f (vz p)) (cyl_R p) (- (cyl_R p * vz b)) /\ vy b * vx p - vx b * vy p = - cyl_R p.
Proof.
  intros (P & RP). cbv zeta. set (f := atan2 (vy p) (vx p)).
  assert (PQ : vx p * vx p + vy p * vy p = cyl_R p * cyl_R p).
  { unfold cyl_R. symmetry. apply sqrt_sqrt. pose proof (Rle_0_sqr (vx p)). pose proof (Rle_0_sqr (vy p)). unfold Rsqr in *. lra. }
  pose proof (D_chi (fun _ => cyl_R p) (fun z => z) (vz p) 0 1 f (D_const _ _) (D_id _) RP) as DZ. pose proof (D_chi (fun s => s) (fun _ => vz p) (cyl_R p) 1 0 f (D_id _) (D_const _ _) RP) as DR. cbv beta zeta in DZ, DR.
  unfold reiman_B. cbv zeta. cbn [vx vy vz]. fold (cyl_R p). fold f. change r_axis with 1. set (th := atan2 (vz p) (cyl_R p - 1)) in *. split; [|split].
  - eapply D_val; [|exact DZ]. unfold BR, Bphi, r_axis. set (c := combo iota0 iota1 modes m0 (cyl_R p) th f (vz p)). set (c1 := combo1 modes m0 (cyl_R p) th f (vz p)).
    transitivity (((cyl_R p - 1) / cyl_R p * c1 + vz p / cyl_R p * c) * (cyl_R p * cyl_R p) / cyl_R p); [field; lra|]. rewrite <- PQ. field. lra.
  - eapply D_val; [|exact DR]. unfold BZ, r_axis. field. lra.
  - unfold Bphi. transitivity (- (vx p * vx p + vy p * vy p) / cyl_R p); [field; lra|]. rewrite PQ. field. lra.
Qed.
End Theorems.
(** without modes the field lines stay on circular tori about the circle and advance by iota0 + iota1 r^2 *)
Theorem C131_unperturbed iota0 iota1 m0 (a r_ z : R) : 0 < r_ -> let slope := field_line_slope (reiman_B iota0 iota1 [] m0) a r_ z in
  (r_ - 1) * fst slope + z * snd slope = 0 /\ (r_ - 1) * snd slope - z * fst slope = (iota0 + iota1 * ((r_ - 1) ^ 2 + z ^ 2)) * ((r_ - 1) ^ 2 + z ^ 2).
Proof.
  intros P. cbv zeta. pose proof (sin2_cos2 a) as Q. unfold Rsqr in Q. assert (E : sqrt (r_ * cos a * (r_ * cos a) + r_ * sin a * (r_ * sin a)) = r_).
  { replace (r_ * cos a * (r_ * cos a) + r_ * sin a * (r_ * sin a)) with (r_ * r_ * (sin a * sin a + cos a * cos a)) by ring. rewrite Q, Rmult_1_r. apply sqrt_square. lra. }
  unfold field_line_slope, reiman_B. cbv zeta. cbn [vx vy vz fst snd]. rewrite E. set (th := atan2 z (r_ - r_axis)). set (f := atan2 (r_ * sin a) (r_ * cos a)). unfold BR, BZ, combo1, combo, rmin, r_axis, Bphi. cbn [map rsuml].
  assert (RR : sqrt ((r_ - 1) ^ 2 + z ^ 2) * sqrt ((r_ - 1) ^ 2 + z ^ 2) = (r_ - 1) ^ 2 + z ^ 2) by (apply sqrt_sqrt; pose proof (pow2_ge_0 (r_ - 1)); pose proof (pow2_ge_0 z); lra). set (r := sqrt ((r_ - 1) ^ 2 + z ^ 2)) in *. replace (iota1 * r * r) with (iota1 * (r * r)) by ring. rewrite RR. clear RR r E. set (k := iota0 + iota1 * ((r_ - 1) ^ 2 + z ^ 2)).
  match goal with |- context [?x / ?d] => match d with context [-1] => assert (DD : d = -1) by (transitivity (- (sin a * sin a + cos a * cos a)); [field; lra|rewrite Q; ring]) end end. rewrite !DD.
  match goal with |- context [r_ * (?x) / -1] => match x with context [cos a] => assert (DX : x = z / r_ * k) by (transitivity (z / r_ * k * (sin a * sin a + cos a * cos a)); [unfold k; field; lra|rewrite Q; ring]) end end. rewrite !DX. split; unfold k; field; lra.
Qed.
(** ** symmetries *)
Definition same_angle (a b : R) : Prop := cos a = cos b /\ sin a = sin b.
Lemma same_plus a b a' b' : same_angle a a' -> same_angle b b' -> same_angle (a + b) (a' + b').
Proof. intros [A B] [C E]. split; rewrite ?cos_plus, ?sin_plus; congruence. Qed.
Lemma same_opp a b : same_angle a b -> same_angle (- a) (- b).
Proof. intros [A B]. split; rewrite ?cos_neg, ?sin_neg; congruence. Qed.
Lemma same_mul (k : Z) a b : same_angle a b -> same_angle (IZR k * a) (IZR k * b).
Proof.
  intros H. assert (N : forall n : nat, same_angle (IZR (Z.of_nat n) * a) (IZR (Z.of_nat n) * b)).
  { induction n as [|n IH]; [cbn [Z.of_nat]; rewrite !Rmult_0_l; split; reflexivity|]. rewrite Nat2Z.inj_succ, succ_IZR, !Rmult_plus_distr_r, !Rmult_1_l. now apply same_plus. }
  destruct (Z_le_gt_dec 0 k) as [K|K]; [specialize (N (Z.to_nat k)); now rewrite Z2Nat.id in N by lia|].
  specialize (N (Z.to_nat (- k))). rewrite Z2Nat.id in N by lia. apply same_opp in N. rewrite opp_IZR in N. replace (IZR k * a) with (- (- IZR k * a)) by ring. replace (IZR k * b) with (- (- IZR k * b)) by ring. exact N.
Qed.
Lemma same_trans a b c : same_angle a b -> same_angle b c -> same_angle a c.
Proof. intros [A B] [C E]. split; congruence. Qed.
Lemma atan2_cs x y : 0 < sqrt (x * x + y * y) -> cos (atan2 y x) = x / sqrt (x * x + y * y) /\ sin (atan2 y x) = y / sqrt (x * x + y * y).
Proof. intros P. destruct (atan2_polar x y) as [A B]. split; [rewrite <- A at 2|rewrite <- B at 2]; field; lra. Qed.
Lemma combo_same iota0 iota1 modes m0 r_ th f th' f' z : (forall k, same_angle (ph m0 th f k) (ph m0 th' f' k)) ->
  combo iota0 iota1 modes m0 r_ th f z = combo iota0 iota1 modes m0 r_ th' f' z /\ combo1 modes m0 r_ th f z = combo1 modes m0 r_ th' f' z.
Proof. intros H. unfold combo, combo1. split; [f_equal|]; apply rsuml_map_ext; intros [k e] _; cbn [fst snd]; destruct (H k) as [A B]; [now rewrite A|now rewrite B]. Qed.
Theorem C131_periodic iota0 iota1 modes m0 p : m0 <> 0%Z -> regular p ->
  reiman_B iota0 iota1 modes m0 (CoilProps.rotz (2 * PI / IZR m0) p) = CoilProps.rotz (2 * PI / IZR m0) (reiman_B iota0 iota1 modes m0 p).
Proof.
  intros M (P & RP). assert (MN : IZR m0 <> 0) by now apply IZR_neq. set (a := 2 * PI / IZR m0). pose proof (sin2_cos2 a) as Q. unfold Rsqr in Q.
  assert (E : sqrt (vx (CoilProps.rotz a p) * vx (CoilProps.rotz a p) + vy (CoilProps.rotz a p) * vy (CoilProps.rotz a p)) = cyl_R p).
  { unfold cyl_R, CoilProps.rotz. cbn [vx vy]. f_equal. transitivity ((vx p * vx p + vy p * vy p) * (sin a * sin a + cos a * cos a)); [ring|]. rewrite Q. ring. }
  set (f := atan2 (vy p) (vx p)). set (f' := atan2 (vy (CoilProps.rotz a p)) (vx (CoilProps.rotz a p))).
  assert (F : same_angle f' (f + a)).
  { destruct (atan2_cs (vx p) (vy p) P) as [C S]. assert (P' : 0 < sqrt (vx (CoilProps.rotz a p) * vx (CoilProps.rotz a p) + vy (CoilProps.rotz a p) * vy (CoilProps.rotz a p))) by (rewrite E; exact P). destruct (atan2_cs _ _ P') as [C' S']. fold f in C, S. fold f' in C', S'. rewrite E in C', S'. fold (cyl_R p) in C, S. split; [rewrite C', cos_plus, C, S|rewrite S', sin_plus, C, S]; unfold CoilProps.rotz; cbn [vx vy]; field; lra. }
  unfold reiman_B. cbv zeta. rewrite E. fold (cyl_R p). fold f f'. change (vz (CoilProps.rotz a p)) with (vz p). set (th := atan2 (vz p) (cyl_R p - r_axis)).
  assert (SA : forall k, same_angle (ph m0 th f' k) (ph m0 th f k)).
  { intros k. unfold ph. apply same_plus; [split; reflexivity|]. apply same_opp. eapply same_trans; [apply same_mul; exact F|]. replace (IZR m0 * (f + a)) with (IZR m0 * f + 2 * PI) by (unfold a; field; exact MN). split; [rewrite cos_plus, cos_2PI, sin_2PI|rewrite sin_plus, cos_2PI, sin_2PI]; ring. }
  destruct (combo_same iota0 iota1 modes m0 (cyl_R p) th f' th f (vz p) SA) as (C0 & C1). unfold BR, BZ, Bphi. rewrite C0, C1. unfold CoilProps.rotz. cbn [vx vy vz]. apply v3_eq; cbn [vx vy vz]; field; lra.
Qed.
Theorem C131_stellarator_symmetric iota0 iota1 modes m0 p : regular p ->
  reiman_B iota0 iota1 modes m0 (CoilProps.reflect p) = scal3 (-1) (CoilProps.reflect (reiman_B iota0 iota1 modes m0 p)).
Proof.
  intros (P & RP). unfold reiman_B, CoilProps.reflect. cbv zeta. cbn [vx vy vz]. replace (- vy p * - vy p) with (vy p * vy p) by ring. fold (cyl_R p). change r_axis with 1.
  assert (P1 : 0 < sqrt (vx p * vx p + - vy p * - vy p)) by (replace (- vy p * - vy p) with (vy p * vy p) by ring; exact P).
  assert (T0 : 0 < sqrt ((cyl_R p - 1) * (cyl_R p - 1) + vz p * vz p)) by (apply sqrt_lt_R0; nra). assert (T1 : 0 < sqrt ((cyl_R p - 1) * (cyl_R p - 1) + - vz p * - vz p)) by (replace (- vz p * - vz p) with (vz p * vz p) by ring; exact T0).
  assert (F : same_angle (atan2 (- vy p) (vx p)) (- atan2 (vy p) (vx p))).
  { destruct (atan2_cs (vx p) (vy p) P) as [C S]. destruct (atan2_cs _ _ P1) as [C' S']. replace (- vy p * - vy p) with (vy p * vy p) in C', S' by ring. split; [rewrite C', cos_neg, C; reflexivity|rewrite S', sin_neg, S; unfold Rdiv; ring]. }
  assert (T : same_angle (atan2 (- vz p) (cyl_R p - 1)) (- atan2 (vz p) (cyl_R p - 1))).
  { destruct (atan2_cs _ _ T0) as [C S]. destruct (atan2_cs _ _ T1) as [C' S']. replace (- vz p * - vz p) with (vz p * vz p) in C', S' by ring. split; [rewrite C', cos_neg, C; reflexivity|rewrite S', sin_neg, S; unfold Rdiv; ring]. }
  set (f := atan2 (vy p) (vx p)) in *. set (f' := atan2 (- vy p) (vx p)) in *. set (th := atan2 (vz p) (cyl_R p - 1)) in *. set (th' := atan2 (- vz p) (cyl_R p - 1)) in *.
  assert (SA : forall k, same_angle (ph m0 th' f' k) (- ph m0 th f k)).
  { intros k. unfold ph. replace (- (IZR k * th - IZR m0 * f)) with (IZR k * (- th) + - (IZR m0 * (- f))) by ring. apply same_plus; [now apply same_mul|apply same_opp; now apply same_mul]. }
  assert (RM : rmin (cyl_R p) (- vz p) = rmin (cyl_R p) (vz p)) by (unfold rmin; f_equal; ring).
  assert (C0 : combo iota0 iota1 modes m0 (cyl_R p) th' f' (- vz p) = combo iota0 iota1 modes m0 (cyl_R p) th f (vz p)).
  { unfold combo. rewrite RM. f_equal. apply rsuml_map_ext. intros [k e] _. cbn [fst snd]. destruct (SA k) as [A _]. now rewrite A, cos_neg. }
  assert (C1 : combo1 modes m0 (cyl_R p) th' f' (- vz p) = - combo1 modes m0 (cyl_R p) th f (vz p)).
  { unfold combo1. rewrite RM, <- rsuml_neg. apply rsuml_map_ext. intros [k e] _. cbn [fst snd]. destruct (SA k) as [_ A]. rewrite A, sin_neg. ring. }
  unfold BR, BZ, Bphi. rewrite C0, C1. apply v3_eq; cbn [vx vy vz scal3]; field; lra.
Qed.
Example C131_ex : regular (V3 2 0 0) /\ reiman_B (1 / 4) (1 / 2) [(6%Z, 1)] 1 (V3 2 0 0) = V3 0 (-1) (- (3 / 4 - 6) / 2).
Proof.
  assert (E : sqrt (2 * 2 + 0 * 0) = 2) by (replace (2 * 2 + 0 * 0) with (2 * 2) by ring; apply sqrt_square; lra). split; [unfold regular, cyl_R; cbn [vx vy vz]; rewrite E; lra|].
  unfold reiman_B. cbv zeta. cbn [vx vy vz]. rewrite E. assert (A0 : forall x, 0 < x -> atan2 0 x = 0) by (intros x X; unfold atan2; destruct (Rlt_dec 0 x); [|lra]; unfold Rdiv; rewrite Rmult_0_l; apply atan_0). unfold r_axis. rewrite !A0 by lra.
  assert (R1 : rmin 2 0 = 1) by (unfold rmin, r_axis; replace ((2 - 1) ^ 2 + 0 ^ 2) with 1 by ring; apply sqrt_1).
  unfold BR, BZ, combo, combo1, ph, Bphi, r_axis. rewrite !R1. cbn [map rsuml fst snd]. replace (6 * 0 - 1 * 0) with 0 by ring. rewrite cos_0, sin_0. replace (Rpower 1 (6 - 2)) with 1 by (unfold Rpower; rewrite ln_1, Rmult_0_r, exp_0; reflexivity). apply v3_eq; cbn [vx vy vz]; field.
Qed.
Print Assumptions C131_jacobian.
