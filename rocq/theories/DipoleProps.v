(** C128, C129: the field of dipoles, their symmetric placement, and the inductance matrix of the permanent magnet problem. *)
From Coq Require Import Reals Lra Lia List Bool Arith Permutation.
From Verif Require LinkProps.
From Verif Require Import ListAux VecAux Vec3 BSModel BSDeriv BSVjp CurveObjModel CurveObjProps CoilProps CurveDiffProps SurfDiffProps PointsModel FieldAModel FieldAProps DipoleModel.
Import ListNotations.
Open Scope R_scope.

(** ** one dipole *)
Ltac de := lazymatch goal with
  | |- D (fun s => s) _ _ => apply D_id
  | |- D (fun _ => ?c) _ _ => exact (D_const c _)
  | |- D (fun s => @?f s + @?g s) _ _ => eapply (D_add f g); de
  | |- D (fun s => @?f s - @?g s) _ _ => eapply (D_sub f g); de
  | |- D (fun s => - @?f s) _ _ => eapply (D_opp f); de
  | |- D (fun s => @?f s * @?g s) _ _ => eapply (D_mul f g); de
  | |- D (fun s => rsqrt (@?f s)) _ _ => eapply (D_rsqrt f); [de|]
  | |- _ => eassumption
  end.
Ltac clean0 := repeat rewrite ?Rmult_0_l, ?Rmult_0_r, ?Rplus_0_r, ?Rplus_0_l, ?Rmult_1_l, ?Rmult_1_r.
Lemma kern_B_gradient x d : x <> snd d -> is_gradient (fun y => kern_B y d) x (fun j l => kern_dB x j l d).
Proof.
  intros H j l J L. pose proof (normsq_pos x (snd d) H) as P. destruct d as [[m1 m2 m3] [y1 y2 y3]], x as [x1 x2 x3]. unfold kern_B, kern_dB, normsq, dot3 in *. cbn [fst snd] in *.
  cases3 j J; cases3 l L; unfold at2; cbn [nth coord along add3 scal3 sub3 unit3 vx vy vz] in *; (eapply D_val; [|de]); cbv beta; clean0; try exact P; try ring; try field.
Qed.
Lemma kern_A_gradient x d : x <> snd d -> is_gradient (fun y => kern_A y d) x (transposed (fun j l => kern_dA x j l d)).
Proof.
  intros H j l J L. pose proof (normsq_pos x (snd d) H) as P. destruct d as [[m1 m2 m3] [y1 y2 y3]], x as [x1 x2 x3]. unfold kern_A, kern_dA, transposed, normsq, dot3 in *. cbn [fst snd] in *.
  cases3 j J; cases3 l L; unfold at2; cbn [nth coord along add3 scal3 sub3 unit3 vx vy vz cross] in *; (eapply D_val; [|de]); cbv beta; clean0; try exact P; try ring; try field.
Qed.
Lemma coord_sum l k : coord (sum3 l) k = rsuml (map (fun v => coord v k) l).
Proof. induction l as [|v l IH]; [destruct k as [|[|k]]; reflexivity|]. cbn [sum3 map rsuml]. rewrite coord_add, IH. reflexivity. Qed.
Lemma sum_gradient (F : vec3 -> dipole -> vec3) (G : nat -> nat -> dipole -> R) ds x : (forall d, In d ds -> is_gradient (fun y => F y d) x (fun j l => G j l d)) ->
  is_gradient (fun y => scal3 fak (sum3 (map (F y) ds))) x (fun j l => fak * rsuml (map (G j l) ds)).
Proof.
  intros H j l J L. apply (D_ext (fun s => fak * rsuml (map (fun d => coord (F (along x j s) d) l) ds))).
  { intros s. rewrite coord_scal, coord_sum, map_map. reflexivity. }
  eapply D_val; [|apply (D_mul (fun _ => fak)); [apply D_const|apply (D_sum ds (fun d s => coord (F (along x j s) d) l) (G j l)); intros d I; exact (H d I j l J L)]]. cbv beta. ring.
Qed.
Definition off_dipoles (x : vec3) (ds : list dipole) : Prop := forall d, In d ds -> x <> snd d.
Lemma dB_sym ds x j l : (j < 3)%nat -> (l < 3)%nat -> dipole_dB ds x j l = dipole_dB ds x l j.
Proof. intros J L. unfold dipole_dB. f_equal. apply rsuml_map_ext. intros d _. unfold kern_dB, at2. cases3 j J; cases3 l L; reflexivity. Qed.
Lemma kern_trace x d : x <> snd d -> kern_dB x 0 0 d + kern_dB x 1 1 d + kern_dB x 2 2 d = 0.
Proof.
  intros H. pose proof (normsq_pos x (snd d) H) as P. pose proof (rsqrt_sq _ P) as Q. unfold kern_dB, at2. cbn [nth]. set (i1 := rsqrt _) in *. clearbody i1. unfold normsq, dot3 in *. set (r := sub3 x (snd d)) in *. clearbody r. destruct (fst d) as [m1 m2 m3], r as [r1 r2 r3]. cbn [vx vy vz] in *.
  transitivity (15 * (i1 * (i1 * i1) * (i1 * i1)) * (r1 * m1 + r2 * m2 + r3 * m3) * (1 - i1 * i1 * (r1 * r1 + r2 * r2 + r3 * r3))); [ring|]. rewrite Q. ring.
Qed.
Lemma rsuml_plus3 {A} (f g h : A -> R) l : rsuml (map f l) + rsuml (map g l) + rsuml (map h l) = rsuml (map (fun a => f a + g a + h a) l).
Proof. induction l as [|a l IH]; cbn [map rsuml]; [ring|]. rewrite <- IH. ring. Qed.
(** B as documented, its derivatives, divergence and curl *)
Theorem C128_B (ds : list dipole) (x : vec3) : off_dipoles x ds ->
  dipole_B ds x = scal3 (/ 10 ^ 7) (sum3 (map (fun d => let r := sub3 x (snd d) in let n := sqrt (dot3 r r) in sub3 (scal3 (3 * dot3 r (fst d) / n ^ 5) r) (scal3 (1 / n ^ 3) (fst d))) ds)) /\
  is_gradient (dipole_B ds) x (dipole_dB ds x) /\
  dipole_dB ds x 0 0 + dipole_dB ds x 1 1 + dipole_dB ds x 2 2 = 0 /\ (forall j l, (j < 3)%nat -> (l < 3)%nat -> dipole_dB ds x j l = dipole_dB ds x l j).
Proof.
  intros H. split; [|split; [|split]].
  - unfold dipole_B, fak. f_equal. f_equal. apply map_ext_in. intros d I. pose proof (normsq_pos x (snd d) (H d I)) as P. unfold kern_B. cbv zeta. unfold rsqrt, normsq in *. set (r := sub3 x (snd d)) in *. set (n := sqrt (dot3 r r)). assert (n <> 0) by (apply Rgt_not_eq, sqrt_lt_R0; exact P). clearbody n. clearbody r. destruct r as [r1 r2 r3], (fst d) as [m1 m2 m3]. unfold dot3. cbn [vx vy vz]. apply v3_eq; cbn [vx vy vz sub3 scal3]; field; assumption.
  - apply sum_gradient. intros d I. apply kern_B_gradient, H, I.
  - unfold dipole_dB. rewrite <- !Rmult_plus_distr_l, rsuml_plus3. rewrite (rsuml_map_ext _ (fun _ => 0)) by (intros d I; apply kern_trace, H, I). rewrite rsuml_map_zero by reflexivity. ring.
  - intros; now apply dB_sym.
Qed.
Lemma kern_curl x d : x <> snd d -> V3 (kern_dA x 2 1 d - kern_dA x 1 2 d) (kern_dA x 0 2 d - kern_dA x 2 0 d) (kern_dA x 1 0 d - kern_dA x 0 1 d) = kern_B x d.
Proof.
  intros H. pose proof (normsq_pos x (snd d) H) as P. pose proof (rsqrt_sq _ P) as Q. unfold kern_dA, kern_B, at2. cbn [nth]. set (i1 := rsqrt _) in *. clearbody i1. unfold normsq, dot3 in *. set (r := sub3 x (snd d)) in *. clearbody r. destruct (fst d) as [m1 m2 m3], r as [r1 r2 r3]. cbn [vx vy vz cross] in *.
  assert (Z : forall u, u = 3 * u * (i1 * i1 * (r1 * r1 + r2 * r2 + r3 * r3)) - 2 * u) by (intros u; rewrite Q; ring).
  apply v3_eq; cbn [vx vy vz]; match goal with |- _ = ?a - ?b => rewrite (Z b) end; ring.
Qed.
(** A is a vector potential of B; its derivatives come with the indices exchanged: as documented only where B vanishes *)
Theorem C128_A (ds : list dipole) (x : vec3) : off_dipoles x ds ->
  is_gradient (dipole_A ds) x (transposed (dipole_dA ds x)) /\
  (forall G, is_gradient (dipole_A ds) x G -> dipole_B ds x = V3 (G 1%nat 2%nat - G 2%nat 1%nat) (G 2%nat 0%nat - G 0%nat 2%nat) (G 0%nat 1%nat - G 1%nat 0%nat)) /\
  (is_gradient (dipole_A ds) x (dipole_dA ds x) <-> dipole_B ds x = v0).
Proof.
  intros H. assert (T : is_gradient (dipole_A ds) x (transposed (dipole_dA ds x))) by (apply (sum_gradient kern_A (fun j l => kern_dA x l j)); intros d I; exact (kern_A_gradient x d (H d I))).
  assert (CB : dipole_B ds x = V3 (dipole_dA ds x 2 1 - dipole_dA ds x 1 2) (dipole_dA ds x 0 2 - dipole_dA ds x 2 0) (dipole_dA ds x 1 0 - dipole_dA ds x 0 1)).
  { unfold dipole_B, dipole_dA. rewrite (map_ext_in _ (fun d => V3 (kern_dA x 2 1 d - kern_dA x 1 2 d) (kern_dA x 0 2 d - kern_dA x 2 0 d) (kern_dA x 1 0 d - kern_dA x 0 1 d))) by (intros d I; symmetry; apply kern_curl, H, I). clear.
    induction ds as [|d ds IH]; cbn [map sum3 rsuml]; [unfold v0; apply v3_eq; cbn [vx vy vz scal3]; ring|]. rewrite scal3_add, IH. apply v3_eq; cbn [vx vy vz add3 scal3]; ring. }
  split; [exact T|]. split.
  - intros G HG. rewrite CB. assert (E : forall j l, (j < 3)%nat -> (l < 3)%nat -> G j l = dipole_dA ds x l j) by (intros j l J L; exact (uniqueness_limite _ _ _ _ (HG j l J L) (T j l J L))). rewrite !E by lia. reflexivity.
  - split.
    + intros HG. assert (E : forall j l, (j < 3)%nat -> (l < 3)%nat -> dipole_dA ds x j l = dipole_dA ds x l j) by (intros j l J L; exact (uniqueness_limite _ _ _ _ (HG j l J L) (T j l J L))). rewrite CB, (E 2 1)%nat, (E 0 2)%nat, (E 1 0)%nat by lia. unfold v0. f_equal; ring.
    + intros Z. rewrite CB in Z. unfold v0 in Z. injection Z as E1 E2 E3. intros j l J L. refine (D_val _ _ _ _ _ (T j l J L)). unfold transposed. cases3 j J; cases3 l L; try reflexivity; lra.
Qed.

(** ** the placement *)
Definition spin (p : R) (d : dipole) : dipole := (rotz p (fst d), rotz p (snd d)).
(** moments are axial vectors: the mirror image of a dipole *)
Definition mirror_image (d : dipole) : dipole := (scal3 (-1) (reflect (fst d)), reflect (snd d)).
Lemma place_one nfp fl R0 fp d : place nfp fl R0 1 fp d = spin (phi0 nfp fp) (moment fl R0 (snd d) (fst d), snd d).
Proof. unfold place, spin, rotz. cbv zeta. cbn [fst snd]. f_equal; apply v3_eq; cbn [vx vy vz]; ring. Qed.
Lemma place_two nfp fl R0 fp d : place nfp fl R0 (-1) fp d = spin (phi0 nfp fp) (mirror_image (moment fl R0 (snd d) (fst d), snd d)).
Proof. unfold place, spin, mirror_image, rotz, reflect. cbv zeta. cbn [fst snd vx vy vz scal3]. f_equal; apply v3_eq; cbn [vx vy vz]; ring. Qed.
(** the dipoles of the half period, and all their copies *)
Definition base_dipoles fl R0 (ds : list dipole) : list dipole := map (fun d => (moment fl R0 (snd d) (fst d), snd d)) ds.
Definition half_dipoles (ss : bool) fl R0 ds : list dipole := base_dipoles fl R0 ds ++ (if ss then map mirror_image (base_dipoles fl R0 ds) else []).
Lemma sum3_app a b : sum3 (a ++ b) = add3 (sum3 a) (sum3 b).
Proof. induction a as [|v a IH]; cbn [app sum3]; [apply v3_eq; unfold v0; cbn [vx vy vz add3]; ring|]. rewrite IH. apply v3_eq; cbn [vx vy vz add3]; ring. Qed.
Lemma sum3_flat {A B} (f : B -> vec3) (g : A -> list B) l : sum3 (map f (flat_map g l)) = sum3 (map (fun a => sum3 (map f (g a))) l).
Proof. induction l as [|a l IH]; [reflexivity|]. cbn [flat_map map sum3]. now rewrite map_app, sum3_app, IH. Qed.
Lemma sum3_plus {A} (f g : A -> vec3) l : sum3 (map (fun a => add3 (f a) (g a)) l) = add3 (sum3 (map f l)) (sum3 (map g l)).
Proof. induction l as [|a l IH]; cbn [map sum3]; [apply v3_eq; unfold v0; cbn [vx vy vz add3]; ring|]. rewrite IH. apply v3_eq; cbn [vx vy vz add3]; ring. Qed.
(** one copy of the half period per field period *)
Definition copies_field (nfp : nat) (hs : list dipole) (x : vec3) : vec3 := sum3 (map (fun fp => sum3 (map (fun d => kern_B x (spin (phi0 nfp fp) d)) hs)) (seq 0 nfp)).
Lemma field_copies nfp ss fl R0 ds x : DipoleField_B nfp ss fl R0 ds x = scal3 fak (copies_field nfp (half_dipoles ss fl R0 ds) x).
Proof.
  unfold DipoleField_B, dipole_B. f_equal. unfold placed, copies_field, half_dipoles. destruct ss; cbn [stell_list flat_map].
  - rewrite app_nil_r, map_app, sum3_app, !sum3_flat, <- sum3_plus. f_equal. apply map_ext. intros fp. rewrite map_app, sum3_app. unfold base_dipoles. rewrite !map_map. f_equal; f_equal; apply map_ext; intros d; [now rewrite place_one|now rewrite place_two].
  - rewrite app_nil_r, sum3_flat. f_equal. apply map_ext. intros fp. rewrite app_nil_r. unfold base_dipoles. rewrite !map_map. f_equal. apply map_ext. intros d. now rewrite place_one.
Qed.
Lemma dot_rotz p u v : dot3 (rotz p u) (rotz p v) = dot3 u v.
Proof. unfold rotz, dot3. cbn [vx vy vz]. pose proof (sin2_cos2 p) as Q. unfold Rsqr in Q. transitivity ((vx u * vx v + vy u * vy v) * (sin p * sin p + cos p * cos p) + vz u * vz v); [ring|]. rewrite Q. ring. Qed.
Lemma rotz_sub p u v : rotz p (sub3 u v) = sub3 (rotz p u) (rotz p v).
Proof. unfold rotz. apply v3_eq; cbn [vx vy vz sub3]; ring. Qed.
Lemma kern_vec x d : kern_B x d = let r := sub3 x (snd d) in let i := rsqrt (normsq r) in sub3 (scal3 (3 * dot3 r (fst d) * (i * (i * i) * (i * i))) r) (scal3 (i * (i * i)) (fst d)).
Proof. unfold kern_B. cbv zeta. apply v3_eq; cbn [vx vy vz sub3 scal3]; ring. Qed.
Lemma rotz_sc p c v : rotz p (scal3 c v) = scal3 c (rotz p v).
Proof. unfold rotz. apply v3_eq; cbn [vx vy vz scal3]; ring. Qed.
Lemma kern_spin p x d : kern_B (rotz p x) (spin p d) = rotz p (kern_B x d).
Proof. rewrite !kern_vec. cbv zeta. unfold spin. cbn [fst snd]. unfold normsq. rewrite rotz_sub, !rotz_sc, <- rotz_sub, !dot_rotz. reflexivity. Qed.
Lemma reflect_sub u v : reflect (sub3 u v) = sub3 (reflect u) (reflect v).
Proof. unfold reflect. apply v3_eq; cbn [vx vy vz sub3]; ring. Qed.
Lemma reflect_sc c v : reflect (scal3 c v) = scal3 c (reflect v).
Proof. unfold reflect. apply v3_eq; cbn [vx vy vz scal3]; ring. Qed.
Lemma dot_reflect u v : dot3 (reflect u) (reflect v) = dot3 u v.
Proof. unfold reflect, dot3. cbn [vx vy vz]. ring. Qed.
Lemma kern_mirror x d : kern_B (reflect x) (mirror_image d) = scal3 (-1) (reflect (kern_B x d)).
Proof.
  rewrite !kern_vec. cbv zeta. unfold mirror_image. cbn [fst snd]. unfold normsq. rewrite <- reflect_sub. rewrite !dot_reflect. set (i := rsqrt _). set (r := sub3 x (snd d)).
  replace (dot3 (reflect r) (scal3 (-1) (reflect (fst d)))) with (- dot3 r (fst d)) by (unfold dot3, reflect; cbn [vx vy vz scal3]; ring). unfold reflect. apply v3_eq; cbn [vx vy vz sub3 scal3]; ring.
Qed.
Lemma rotz_sum p l : rotz p (sum3 l) = sum3 (map (rotz p) l).
Proof. induction l as [|v l IH]; cbn [sum3 map]; [unfold v0, rotz; apply v3_eq; cbn [vx vy vz]; ring|]. rewrite <- IH. unfold rotz. apply v3_eq; cbn [vx vy vz add3]; ring. Qed.
Lemma reflect_sum l : reflect (sum3 l) = sum3 (map reflect l).
Proof. induction l as [|v l IH]; cbn [sum3 map]; [unfold v0, reflect; apply v3_eq; cbn [vx vy vz]; ring|]. rewrite <- IH. unfold reflect. apply v3_eq; cbn [vx vy vz add3]; ring. Qed.
Lemma spin_add p q d : spin p (spin q d) = spin (p + q) d.
Proof. unfold spin. cbn [fst snd]. now rewrite !rotz_add. Qed.
Lemma spin_turn p d : spin (p + 2 * PI) d = spin p d.
Proof. unfold spin. now rewrite !rotz_2pi. Qed.
Lemma spin_mirror p d : spin p (mirror_image d) = mirror_image (spin (- p) d).
Proof. unfold spin, mirror_image. cbn [fst snd]. now rewrite rotz_sc, !rotz_reflect. Qed.
Lemma mirror_2 d : mirror_image (mirror_image d) = d.
Proof. unfold mirror_image. destruct d as [m o]. cbn [fst snd]. rewrite reflect_sc, !reflect_2. f_equal. apply v3_eq; cbn [vx vy vz scal3]; ring. Qed.
Lemma spin_wrap nfp fp d : (0 < nfp)%nat -> spin (phi0 nfp (fp mod nfp)) d = spin (phi0 nfp fp) d.
Proof.
  intros P. rewrite (Nat.div_mod fp nfp) at 2 by lia. assert (N : INR nfp <> 0) by (apply not_0_INR; lia). unfold phi0. rewrite plus_INR, mult_INR.
  replace (2 * PI / INR nfp * (INR nfp * INR (fp / nfp) + INR (fp mod nfp))) with (2 * PI / INR nfp * INR (fp mod nfp) + 2 * PI * INR (fp / nfp)) by (field; exact N). generalize (2 * PI / INR nfp * INR (fp mod nfp)). intros a.
  induction (fp / nfp)%nat as [|k IH]; [cbn [INR]; now rewrite Rmult_0_r, Rplus_0_r|]. rewrite S_INR. replace (a + 2 * PI * (INR k + 1)) with (a + 2 * PI * INR k + 2 * PI) by ring. now rewrite spin_turn.
Qed.
Lemma sum3_perm l l' : Permutation l l' -> sum3 l = sum3 l'.
Proof. intros P. induction P; cbn [sum3]; [reflexivity|now rewrite IHP|apply v3_eq; cbn [vx vy vz add3]; ring|congruence]. Qed.
Lemma sum3_over (f : nat -> vec3) (s : nat -> nat) n : Permutation (map s (seq 0 n)) (seq 0 n) -> sum3 (map (fun k => f (s k)) (seq 0 n)) = sum3 (map f (seq 0 n)).
Proof. intros P. rewrite <- (map_map s f). apply sum3_perm, Permutation_map, P. Qed.
Lemma shift_perm n : Permutation (map (fun k => (k + 1) mod n)%nat (seq 0 n)) (seq 0 n).
Proof.
  destruct n as [|n]; [constructor|]. apply Permutation_sym, NoDup_Permutation_bis; [apply seq_NoDup|rewrite map_length; lia|]. intros k Hk. apply in_seq in Hk. apply in_map_iff. destruct k as [|k].
  - exists n. split; [replace (n + 1)%nat with (S n) by lia; apply Nat.mod_same; lia|apply in_seq; lia].
  - exists k. split; [rewrite Nat.mod_small; lia|apply in_seq; lia].
Qed.
(** the field of a DipoleField repeats after a field period *)
Theorem C128_periodic (nfp : nat) (stellsym : bool) (fl : flag) (R0 : R) (ds : list dipole) (x : vec3) : (0 < nfp)%nat ->
  DipoleField_B nfp stellsym fl R0 ds (rotz (2 * PI / INR nfp) x) = rotz (2 * PI / INR nfp) (DipoleField_B nfp stellsym fl R0 ds x).
Proof.
  intros P. rewrite !field_copies, rotz_sc. f_equal. generalize (half_dipoles stellsym fl R0 ds). intros hs. unfold copies_field. rewrite rotz_sum, map_map.
  rewrite <- (sum3_over _ _ nfp (shift_perm nfp)). f_equal. apply map_ext. intros k. rewrite rotz_sum, map_map. f_equal. apply map_ext. intros d. rewrite spin_wrap by exact P. rewrite <- kern_spin, spin_add. do 2 f_equal. unfold phi0. rewrite plus_INR. cbn [INR]. ring.
Qed.
Lemma half_mirror fl R0 ds : Permutation (map mirror_image (half_dipoles true fl R0 ds)) (half_dipoles true fl R0 ds).
Proof. unfold half_dipoles. rewrite map_app, map_map. rewrite (map_ext (fun a => mirror_image (mirror_image a)) (fun a => a)) by apply mirror_2. rewrite map_id. apply Permutation_app_comm. Qed.
(** and with stellsym it is stellarator symmetric *)
Theorem C128_stellsym (nfp : nat) (fl : flag) (R0 : R) (ds : list dipole) (x : vec3) : (0 < nfp)%nat ->
  DipoleField_B nfp true fl R0 ds (reflect x) = scal3 (-1) (reflect (DipoleField_B nfp true fl R0 ds x)).
Proof.
  intros P. rewrite !field_copies. rewrite reflect_sc. pose proof (half_mirror fl R0 ds) as M. revert M. generalize (half_dipoles true fl R0 ds). intros hs M.
  transitivity (scal3 fak (scal3 (-1) (reflect (copies_field nfp hs x)))); [|apply v3_eq; cbn [vx vy vz scal3]; ring]. f_equal. unfold copies_field.
  assert (NG : forall l, scal3 (-1) (reflect (sum3 l)) = sum3 (map (fun v => scal3 (-1) (reflect v)) l)) by (intros l; induction l as [|v l IH]; cbn [sum3 map]; [unfold v0, reflect; apply v3_eq; cbn [vx vy vz scal3]; ring|rewrite <- IH; unfold reflect; apply v3_eq; cbn [vx vy vz scal3 add3]; ring]).
  rewrite NG, map_map. rewrite <- (sum3_over _ _ nfp (LinkProps.reflect_perm nfp)). f_equal. apply map_ext_in. intros k Hk. apply in_seq in Hk. rewrite NG, map_map.
  rewrite <- (sum3_perm _ _ (Permutation_map (fun d => kern_B (reflect x) (spin (phi0 nfp ((nfp - k) mod nfp)) d)) M)), map_map. f_equal. apply map_ext. intros d. rewrite spin_wrap by exact P. rewrite spin_mirror, kern_mirror. do 3 f_equal.
  assert (N : INR nfp <> 0) by (apply not_0_INR; lia). replace (- phi0 nfp (nfp - k)) with (phi0 nfp k + - (2 * PI)) by (unfold phi0; rewrite minus_INR by lia; field; exact N). rewrite <- (spin_turn (phi0 nfp k + - (2 * PI))). f_equal. ring.
Qed.

(** ** the inductance matrix *)
Lemma Bn_one nfp fl R0 x n o m fp stell : dot3 (Bn_term nfp fl R0 x n o stell fp) m = fak * dot3 n (kern_B x (place nfp fl R0 stell fp (m, o))).
Proof.
  unfold Bn_term, place, kern_B, moment. cbv zeta. cbn [fst snd]. replace (vx o ^ 2 + vy o ^ 2) with (vx o * vx o + vy o * vy o) by ring.
  set (c := cos (phi0 nfp fp)). set (s := sin (phi0 nfp fp)). set (p := atan2 (vy o) (vx o)). set (t := atan2 (vz o) _). set (y := V3 (vx o * c - vy o * s * stell) _ _). set (i := rsqrt _). clearbody i. set (r := sub3 x y). clearbody r. clear y. clearbody c s p t.
  destruct fl; unfold dot3; cbn [vx vy vz]; ring.
Qed.
Lemma dot3_comm a b : dot3 a b = dot3 b a. Proof. unfold dot3. ring. Qed.
Lemma dot_sum (u : vec3) l : dot3 u (sum3 l) = rsuml (map (dot3 u) l).
Proof. induction l as [|v l IH]; cbn [sum3 map rsuml]; [unfold dot3, v0; cbn [vx vy vz]; ring|]. rewrite <- IH. unfold dot3. cbn [vx vy vz add3]. ring. Qed.
Lemma rsuml_flat {A B} (f : B -> R) (g : A -> list B) l : rsuml (map f (flat_map g l)) = rsuml (map (fun a => rsuml (map f (g a))) l).
Proof. induction l as [|a l IH]; [reflexivity|]. cbn [flat_map map rsuml]. now rewrite map_app, rsuml_app, IH. Qed.
Lemma rsuml_swap {A B} (f : A -> B -> R) l m : rsuml (map (fun a => rsuml (map (f a) m)) l) = rsuml (map (fun b => rsuml (map (fun a => f a b) l)) m).
Proof. induction l as [|a l IH]; cbn [map rsuml]; [induction m as [|b m IH]; cbn [map rsuml]; [reflexivity|rewrite <- IH; ring]|]. rewrite IH, <- rsuml_map_plus. reflexivity. Qed.
(** the rows of dipole_field_Bn times the moments (in the basis of coordinate_flag) are the normal components of the field of the DipoleField *)
Theorem C129_inductance (nfp : nat) (stellsym : bool) (fl : flag) (R0 : R) (ds : list dipole) (x n : vec3) :
  rsuml (map (fun d => dot3 (Bn_row nfp stellsym fl R0 x n (snd d)) (fst d)) ds) = dot3 n (DipoleField_B nfp stellsym fl R0 ds x).
Proof.
  transitivity (rsuml (map (fun d => rsuml (map (fun stell => rsuml (map (fun fp => fak * dot3 n (kern_B x (place nfp fl R0 stell fp d))) (seq 0 nfp))) (stell_list stellsym))) ds)).
  - apply rsuml_map_ext. intros [m o] _. cbn [fst snd]. unfold Bn_row. rewrite (dot3_comm _ m), dot_sum.
    rewrite rsuml_flat. assert (T : forall st, rsuml (map (dot3 m) (map (fun fp => Bn_term nfp fl R0 x n o st fp) (seq 0 nfp))) = rsuml (map (fun fp => fak * dot3 n (kern_B x (place nfp fl R0 st fp (m, o)))) (seq 0 nfp))).
    { intros st. rewrite map_map. apply rsuml_map_ext. intros fp _. now rewrite dot3_comm, Bn_one. }
    destruct stellsym; cbn [stell_list seq map rsuml]; rewrite !T; cbn [pow]; rewrite ?Rmult_1_r; reflexivity.
  - unfold DipoleField_B, dipole_B, placed. rewrite rsuml_swap. transitivity (rsuml (map (fun v => fak * dot3 n v) (map (kern_B x) (flat_map (fun stell => flat_map (fun fp => map (place nfp fl R0 stell fp) ds) (seq 0 nfp)) (stell_list stellsym))))).
    + rewrite map_map, rsuml_flat. apply rsuml_map_ext. intros stell _. rewrite rsuml_flat, rsuml_swap. apply rsuml_map_ext. intros fp _. now rewrite map_map.
    + replace (dot3 n (scal3 fak (sum3 (map (kern_B x) (flat_map (fun stell => flat_map (fun fp => map (place nfp fl R0 stell fp) ds) (seq 0 nfp)) (stell_list stellsym)))))) with (fak * dot3 n (sum3 (map (kern_B x) (flat_map (fun stell => flat_map (fun fp => map (place nfp fl R0 stell fp) ds) (seq 0 nfp)) (stell_list stellsym))))) by (unfold dot3; cbn [vx vy vz scal3]; ring).
      rewrite dot_sum, rsuml_map_scale, !map_map. reflexivity.
Qed.
(** ** the basis of the moments, and the images *)
Lemma polar_cs x y : 0 < sqrt (x ^ 2 + y ^ 2) -> cos (atan2 y x) = x / sqrt (x ^ 2 + y ^ 2) /\ sin (atan2 y x) = y / sqrt (x ^ 2 + y ^ 2).
Proof. replace (x ^ 2 + y ^ 2) with (x * x + y * y) by ring. intros P. destruct (atan2_polar x y) as [A B]. split; [rewrite <- A at 2|rewrite <- B at 2]; field; lra. Qed.
(** the components of a moment are along (x, y, z), along (e_R, e_phi, e_Z), or along (e_r, e_phi, e_theta) of the circle of radius R0, at the dipole *)
Theorem C128_basis (R0 : R) (o m : vec3) : let rho := sqrt (vx o ^ 2 + vy o ^ 2) in let a := sqrt ((rho - R0) ^ 2 + vz o ^ 2) in
  let e_R := V3 (vx o / rho) (vy o / rho) 0 in let e_phi := V3 (- (vy o / rho)) (vx o / rho) 0 in let e_Z := V3 0 0 1 in
  let e_r := scal3 (/ a) (add3 (scal3 (rho - R0) e_R) (scal3 (vz o) e_Z)) in let e_theta := scal3 (/ a) (sub3 (scal3 (rho - R0) e_Z) (scal3 (vz o) e_R)) in
  moment Cartesian R0 o m = m /\
  (0 < rho -> moment Cylindrical R0 o m = add3 (scal3 (vx m) e_R) (add3 (scal3 (vy m) e_phi) (scal3 (vz m) e_Z))) /\
  (0 < rho -> 0 < a -> moment Toroidal R0 o m = add3 (scal3 (vx m) e_r) (add3 (scal3 (vy m) e_phi) (scal3 (vz m) e_theta))).
Proof.
  cbv zeta. split; [reflexivity|]. split.
  - intros P. destruct (polar_cs _ _ P) as [C S1]. unfold moment. rewrite C, S1. apply v3_eq; cbn [vx vy vz add3 scal3]; ring.
  - intros P A. destruct (polar_cs _ _ P) as [C S1]. unfold moment. rewrite C, S1. set (rho := sqrt (vx o ^ 2 + vy o ^ 2)) in *.
    assert (A' : 0 < sqrt ((rho - R0) ^ 2 + (vz o) ^ 2)) by exact A. destruct (polar_cs _ _ A') as [C2 S2]. rewrite C2, S2. set (a := sqrt ((rho - R0) ^ 2 + vz o ^ 2)) in *. clearbody a rho. apply v3_eq; cbn [vx vy vz add3 scal3 sub3]; field; repeat split; lra.
Qed.
(** the field is that of all the images: the dipoles and, with stellsym, their mirror images, turned by every multiple of 2 pi / nfp *)
Theorem C128_images (nfp : nat) (stellsym : bool) (fl : flag) (R0 : R) (ds : list dipole) (x : vec3) :
  DipoleField_B nfp stellsym fl R0 ds x =
  dipole_B (flat_map (fun k => map (spin (2 * PI * INR k / INR nfp)) (map (fun d => (moment fl R0 (snd d) (fst d), snd d)) ds ++ (if stellsym then map mirror_image (map (fun d => (moment fl R0 (snd d) (fst d), snd d)) ds) else []))) (seq 0 nfp)) x.
Proof.
  rewrite field_copies. transitivity (dipole_B (flat_map (fun k => map (spin (2 * PI * INR k / INR nfp)) (half_dipoles stellsym fl R0 ds)) (seq 0 nfp)) x); [|reflexivity]. generalize (half_dipoles stellsym fl R0 ds). intros hs. unfold dipole_B. f_equal. rewrite sum3_flat. unfold copies_field. f_equal. apply map_ext. intros k. rewrite map_map. f_equal. apply map_ext. intros d. do 2 f_equal. unfold phi0, Rdiv. ring.
Qed.
Definition d1 : dipole := (V3 0 0 1, V3 1 0 0).
Example C128_ex : off_dipoles (V3 0 0 0) [d1; (V3 0 0 1, V3 0 2 0)] /\ vz (dipole_B [d1] (V3 0 0 0)) = - (1 / 10 ^ 7) /\ vz (dipole_B [d1] (V3 1 0 1)) = 2 / 10 ^ 7.
Proof.
  split; [|split].
  - intros d [<-|[<-|[]]]; cbn [snd]; unfold d1; cbn [snd]; intros E; injection E; intros; lra.
  - unfold dipole_B, kern_B, fak, rsqrt, normsq, dot3, d1. cbn [map sum3 fst snd vx vy vz sub3 scal3 add3 v0]. replace ((0 - 1) * (0 - 1) + (0 - 0) * (0 - 0) + (0 - 0) * (0 - 0)) with 1 by ring. rewrite sqrt_1. field.
  - unfold dipole_B, kern_B, fak, rsqrt, normsq, dot3, d1. cbn [map sum3 fst snd vx vy vz sub3 scal3 add3 v0]. replace ((1 - 1) * (1 - 1) + (0 - 0) * (0 - 0) + (1 - 0) * (1 - 0)) with 1 by ring. rewrite sqrt_1. field.
Qed.
Print Assumptions C128_B. Print Assumptions C129_inductance.
