(** C124: equally spaced coils. *)
From Coq Require Import Reals Lra Lia List Bool Arith Permutation.
From Verif Require Import ListAux Vec3 BSModel BSDeriv SurfProps SurfGeomProps CoilModel CoilProps CurveModel NormProps EqModel.
Import ListNotations.
Open Scope R_scope.

(** specification: the circle of minor radius R1 in the half plane at toroidal angle a, run through in the direction of -z at the outside, with
    its tangent; [rev] = the same circle run through backwards *)
Definition circle (R0 R1 a : R) (rev : bool) (t : R) : qpt :=
  let s := if rev then -1 else 1 in let u := 2 * PI * (s * t) in
  (V3 ((R0 + R1 * cos u) * cos a) ((R0 + R1 * cos u) * sin a) (- R1 * sin u),
   V3 (- (s * (2 * PI) * R1 * sin u) * cos a) (- (s * (2 * PI) * R1 * sin u) * sin a) (- (s * (2 * PI) * R1 * cos u))).
(** the tangent is the derivative *)
Lemma circle_tangent R0 R1 a rev t : D3 (fun t => fst (circle R0 R1 a rev t)) t (snd (circle R0 R1 a rev t)).
Proof.
  unfold circle. cbn [fst snd]. set (s := if rev then -1 else 1). clearbody s.
  assert (DU : D (fun t => 2 * PI * (s * t)) t (2 * PI * s)). { eapply D_val; [|apply D_mul; [exact (D_const (2 * PI) t)|apply D_mul; [exact (D_const s t)|apply D_id]]]. cbv beta. ring. }
  assert (DC : D (fun t => cos (2 * PI * (s * t))) t (- (2 * PI * s) * sin (2 * PI * (s * t)))). { eapply D_val; [|apply (D_cos _ _ _ DU)]. cbv beta. ring. }
  assert (DS : D (fun t => sin (2 * PI * (s * t))) t ((2 * PI * s) * cos (2 * PI * (s * t)))). { eapply D_val; [|apply (D_sin _ _ _ DU)]. cbv beta. ring. }
  assert (DR : D (fun t => R0 + R1 * cos (2 * PI * (s * t))) t (R1 * (- (2 * PI * s) * sin (2 * PI * (s * t))))). { eapply D_val; [|apply D_add; [exact (D_const R0 t)|apply D_mul; [exact (D_const R1 t)|exact DC]]]. cbv beta. ring. }
  split; [|split]; cbn [vx vy vz].
  - eapply D_val; [|apply D_mul; [exact DR|exact (D_const (cos a) t)]]. cbv beta. ring.
  - eapply D_val; [|apply D_mul; [exact DR|exact (D_const (sin a) t)]]. cbv beta. ring.
  - eapply D_val; [|apply D_mul; [exact (D_const (- R1) t)|exact DS]]. cbv beta. ring.
Qed.
Lemma fold_pairs (f g : nat -> R) : forall l acc, fold_left (fun a j => a + f j + g j) l acc = acc + rsuml (map (fun j => f j + g j) l).
Proof. induction l as [|j l IH]; intros acc; cbn [fold_left map rsuml]; [ring|]. rewrite IH. ring. Qed.
Lemma first_mode (h : nat -> R) o : (0 < o)%nat -> (forall j, (2 <= j)%nat -> h j = 0) -> rsuml (map h (seq 1 o)) = h 1%nat.
Proof.
  intros O H. destruct o as [|o]; [lia|]. cbn [seq map rsuml]. rewrite rsuml_map_zero; [ring|]. intros j J. apply in_seq in J. apply H. lia.
Qed.
Lemma eq_table_high a R0 R1 i q : (3 <= q)%nat -> eq_table a R0 R1 i q = 0.
Proof. intros Q. unfold eq_table, put. replace (q =? 0)%nat with false by (symmetry; apply Nat.eqb_neq; lia). replace (q =? 1)%nat with false by (symmetry; apply Nat.eqb_neq; lia). replace (q =? 2)%nat with false by (symmetry; apply Nat.eqb_neq; lia). now rewrite !andb_false_r. Qed.
Lemma eq_circle a R0 R1 o t : (0 < o)%nat -> (xyz_gamma o (eq_table a R0 R1) t, xyz_gammadash o (eq_table a R0 R1) t) = circle R0 R1 a false t.
Proof.
  intros O. unfold circle, xyz_gamma, xyz_gammadash, comps.
  assert (G : forall i, fold_left (fun a0 j => a0 + eq_table a R0 R1 i (2 * j - 1)%nat * sin (w j * t) + eq_table a R0 R1 i (2 * j)%nat * cos (w j * t)) (seq 1 o) (0 + eq_table a R0 R1 i 0%nat) = eq_table a R0 R1 i 0%nat + (eq_table a R0 R1 i 1%nat * sin (w 1 * t) + eq_table a R0 R1 i 2%nat * cos (w 1 * t))).
  { intros i. rewrite (fold_pairs (fun j => eq_table a R0 R1 i (2 * j - 1)%nat * sin (w j * t)) (fun j => eq_table a R0 R1 i (2 * j)%nat * cos (w j * t))). rewrite (first_mode (fun j => eq_table a R0 R1 i (2 * j - 1)%nat * sin (w j * t) + eq_table a R0 R1 i (2 * j)%nat * cos (w j * t)) o O); [cbn [Nat.mul Nat.add Nat.sub]; ring|]. intros j J. rewrite !eq_table_high by lia. ring. }
  assert (T : forall i, fold_left (fun a0 j => a0 + eq_table a R0 R1 i (2 * j - 1)%nat * 2 * PI * INR j * cos (w j * t) + - eq_table a R0 R1 i (2 * j)%nat * 2 * PI * INR j * sin (w j * t)) (seq 1 o) 0 = eq_table a R0 R1 i 1%nat * (2 * PI) * cos (w 1 * t) - eq_table a R0 R1 i 2%nat * (2 * PI) * sin (w 1 * t)).
  { intros i. rewrite (fold_pairs (fun j => eq_table a R0 R1 i (2 * j - 1)%nat * 2 * PI * INR j * cos (w j * t)) (fun j => - eq_table a R0 R1 i (2 * j)%nat * 2 * PI * INR j * sin (w j * t))). rewrite (first_mode (fun j => eq_table a R0 R1 i (2 * j - 1)%nat * 2 * PI * INR j * cos (w j * t) + - eq_table a R0 R1 i (2 * j)%nat * 2 * PI * INR j * sin (w j * t)) o O); [cbn [Nat.mul Nat.add Nat.sub INR]; ring|]. intros j J. rewrite !eq_table_high by lia. ring. }
  rewrite !G, !T. clear G T. replace (w 1 * t) with (2 * PI * (1 * t)) by (unfold w; cbn [INR]; ring). unfold eq_table, put. cbn [Nat.eqb andb]. f_equal; apply v3_eq; cbn [vx vy vz]; ring.
Qed.
Lemma circle_rot R0 R1 a t p : on_q (rotz p) (circle R0 R1 a false t) = circle R0 R1 (a + p) false t.
Proof. unfold on_q, circle, rotz. cbn [fst snd vx vy vz]. rewrite !cos_plus, !sin_plus. f_equal; apply v3_eq; cbn [vx vy vz]; ring. Qed.
Lemma circle_flip R0 R1 a t p : on_q (fun v => reflect (rotz p v)) (circle R0 R1 a false t) = circle R0 R1 (- (a + p)) true t.
Proof.
  transitivity (on_q reflect (circle R0 R1 (a + p) false t)); [rewrite <- circle_rot; reflexivity|]. unfold on_q, circle, reflect. cbn [fst snd vx vy vz]. rewrite cos_neg, sin_neg. replace (2 * PI * (-1 * t)) with (- (2 * PI * (1 * t))) by ring. rewrite cos_neg, sin_neg. f_equal; apply v3_eq; cbn [vx vy vz]; ring.
Qed.
Lemma circle_period R0 R1 a rev t : circle R0 R1 (a + 2 * PI) rev t = circle R0 R1 a rev t.
Proof. unfold circle. rewrite cos_plus, sin_plus, cos_2PI, sin_2PI. f_equal; apply v3_eq; cbn [vx vy vz]; ring. Qed.
(** the place of copy (k, flip) of coil i when the angles are multiples of a period of M places *)
Definition place (M nfp k i : nat) (flip : bool) : nat := if flip then M * (nfp - 1 - k) + (M - 1 - i) else M * k + i.
Definition spaced (N j : nat) : R := (INR j + / 2) * (2 * PI) / INR N.
Lemma copy_circle (n M nfp k i : nat) (flip : bool) (R0 R1 : R) (o : nat) (t : R) (b : bool) : (M = n * (if b then 2 else 1))%nat -> (0 < o)%nat -> (k < nfp)%nat -> (i < n)%nat ->
  on_q (fun v => if flip then reflect (rotz (ang nfp k) v) else rotz (ang nfp k) v) (xyz_gamma o (eq_table (eq_angle n nfp b i) R0 R1) t, xyz_gammadash o (eq_table (eq_angle n nfp b i) R0 R1) t) = circle R0 R1 (spaced (M * nfp) (place M nfp k i flip)) flip t.
Proof.
  intros EM O K I. rewrite eq_circle by exact O. assert (PN : 0 < INR n) by (apply lt_0_INR; lia). assert (PF : 0 < INR nfp) by (apply lt_0_INR; lia).
  assert (EM' : INR M = INR n * (1 + (if b then 1 else 0))) by (rewrite EM, mult_INR; destruct b; cbn [INR]; ring).
  assert (ANG : eq_angle n nfp b i + ang nfp k = (INR M * INR k + INR i + / 2) * (2 * PI) / (INR M * INR nfp)). { unfold eq_angle, ang. rewrite EM'. destruct b; field; lra. }
  destruct flip.
  - rewrite circle_flip, ANG, <- circle_period. f_equal. unfold spaced, place. rewrite plus_INR, !mult_INR, !minus_INR by (destruct b; lia). cbn [INR]. assert (0 < INR M) by (rewrite EM'; destruct b; lra). field. lra.
  - rewrite circle_rot, ANG. f_equal. unfold spaced, place. rewrite plus_INR, !mult_INR. reflexivity.
Qed.
(** copies by place *)
Definition places (n M nfp : nat) (ss : bool) : list (nat * bool) := flat_map (fun k => flat_map (fun flip : bool => map (fun i => (place M nfp k i flip, flip)) (seq 0 n)) (flips ss)) (seq 0 nfp).
Definition ring_coil (R0 R1 cur : R) (qs : list R) (N : nat) (p : nat * bool) : R * list qpt := ((if snd p then - cur else cur), map (circle R0 R1 (spaced N (fst p)) (snd p)) qs).
Lemma data_places (n nfp : nat) (b ss : bool) (R0 R1 : R) (o : nat) (qs : list R) (cur : R) (ce : nat -> list qpt) (coils : list (curve * current)) (M : nat) : (M = n * (if b then 2 else 1))%nat -> (0 < o)%nat -> eq_curves n nfp b R0 R1 o qs = Some ce ->
  coils_via_symmetries (map CBase (seq 0 n)) (map Cur (seq 0 n)) nfp ss = Some coils -> map (coil_data ce (fun _ => cur)) coils = map (ring_coil R0 R1 cur qs (M * nfp)) (places n M nfp ss).
Proof.
  intros EM O EC CO. rewrite (C38_data ce (fun _ => cur) _ _ _ _ _ CO). unfold places. rewrite map_flat_map. apply flat_map_ext_in. intros k K. apply in_seq in K. rewrite map_flat_map. apply flat_map_ext_in. intros flip _. rewrite combine_map_map, !map_map.
  assert (CS : forall l : list nat, combine l l = map (fun i => (i, i)) l) by (induction l as [|a l IH]; cbn; congruence). rewrite CS, map_map. apply map_ext_in. intros i I. apply in_seq in I. cbn [fst snd]. unfold ring_coil, coil_data, copy_. cbn [fst snd cur_value curve_data].
  unfold eq_curves in EC. destruct ((o =? 0)%nat && negb (n =? 0)%nat); [discriminate|]. injection EC as <-. rewrite !map_map. destruct flip; f_equal; apply map_ext; intros t; [apply (copy_circle n M nfp k i true)|apply (copy_circle n M nfp k i false)]; assumption || lia.
Qed.
Lemma flat_map_app2 {A B} (f g : A -> list B) l : Permutation (flat_map (fun a => f a ++ g a) l) (flat_map f l ++ flat_map g l).
Proof.
  induction l as [|a l IH]; cbn [flat_map]; [constructor|]. rewrite <- !app_assoc. apply Permutation_app_head. rewrite IH, !app_assoc. apply Permutation_app_tail, Permutation_app_comm.
Qed.
Definition side (n M nfp : nat) (flip : bool) : list nat := flat_map (fun k => map (fun i => place M nfp k i flip) (seq 0 n)) (seq 0 nfp).
Lemma places_sides n M nfp ss : Permutation (map fst (places n M nfp ss)) (if ss then side n M nfp false ++ side n M nfp true else side n M nfp false).
Proof.
  unfold places, side. rewrite map_flat_map. destruct ss; cbn [flips].
  - rewrite <- flat_map_app2. apply Permutation_refl'. apply flat_map_ext_in. intros k _. cbn [flat_map]. rewrite app_nil_r, map_app, !map_map. reflexivity.
  - apply Permutation_refl'. apply flat_map_ext_in. intros k _. cbn [flat_map]. rewrite app_nil_r, !map_map. reflexivity.
Qed.
Lemma side_length n M nfp flip : length (side n M nfp flip) = (n * nfp)%nat.
Proof. unfold side. rewrite (flat_map_len _ _ n); [rewrite seq_length; lia|]. intros; now rewrite map_length, seq_length. Qed.
Lemma side_In n M nfp flip j : In j (side n M nfp flip) <-> exists k i, (k < nfp)%nat /\ (i < n)%nat /\ j = place M nfp k i flip.
Proof.
  unfold side. rewrite in_flat_map. split.
  - intros (k & K & H). apply in_map_iff in H as (i & <- & H). apply in_seq in K. apply in_seq in H. exists k, i. split; [lia|]. split; [lia|reflexivity].
  - intros (k & i & K & I & ->). exists k. split; [apply in_seq; lia|]. apply in_map_iff. exists i. split; [reflexivity|apply in_seq; lia].
Qed.
Lemma digits_eq M a b c d : (b < M)%nat -> (d < M)%nat -> (M * a + b = M * c + d)%nat -> a = c /\ b = d.
Proof. intros B D E. assert (a = c) by (destruct (lt_eq_lt_dec a c) as [[L|L]|L]; [exfalso; nia|exact L|exfalso; nia]). subst. lia. Qed.
Lemma place_inj n M nfp flip k i k' i' : (n <= M)%nat -> (k < nfp)%nat -> (k' < nfp)%nat -> (i < n)%nat -> (i' < n)%nat -> place M nfp k i flip = place M nfp k' i' flip -> k = k' /\ i = i'.
Proof. intros NM K K' I I' E. unfold place in E. destruct flip; apply digits_eq in E; lia. Qed.
Lemma NoDup_map_on {A B} (f : A -> B) l : (forall a b, In a l -> In b l -> f a = f b -> a = b) -> NoDup l -> NoDup (map f l).
Proof.
  intros H N. induction N as [|a l NI N IH]; [constructor|]. cbn [map]. constructor; [|apply IH; intros; apply H; auto; now right].
  intros Q. apply in_map_iff in Q as (b & E & HB). apply NI. rewrite (H a b); auto; [now left|now right].
Qed.
Lemma side_NoDup n M nfp flip : (n <= M)%nat -> NoDup (side n M nfp flip).
Proof.
  intros NM. apply NoDup_fm; [apply seq_NoDup| |].
  - intros k K. apply in_seq in K. apply NoDup_map_on; [|apply seq_NoDup]. intros i i' I I' E. apply in_seq in I. apply in_seq in I'. apply (place_inj n M nfp flip k i k i') in E; lia.
  - intros k k' j K K' J J'. apply in_seq in K. apply in_seq in K'. apply in_map_iff in J as (i & <- & I). apply in_map_iff in J' as (i' & E & I'). apply in_seq in I. apply in_seq in I'. apply (place_inj n M nfp flip k' i' k i) in E; lia.
Qed.
Lemma place_lt n M nfp flip k i : (n <= M)%nat -> (k < nfp)%nat -> (i < n)%nat -> (place M nfp k i flip < M * nfp)%nat.
Proof. intros NM K I. unfold place. destruct flip; nia. Qed.
Lemma perm_seq l N : NoDup l -> length l = N -> (forall j, In j l -> (j < N)%nat) -> Permutation l (seq 0 N).
Proof. intros ND L H. apply NoDup_Permutation_bis; [exact ND|rewrite seq_length; lia|]. intros j J. apply in_seq. specialize (H j J). lia. Qed.
(** Curves made for stellsym, then symmetrised with the same stellsym and nfp: the coils are the N circles at the angles (j + 1/2) 2 pi / N, each
    exactly once; a copy run through backwards carries the opposite current *)
Theorem C124_equally_spaced (n nfp : nat) (ss : bool) (R0 R1 cur : R) (order : nat) (qs : list R) (ce : nat -> list qpt) (coils : list (curve * current)) : (0 < order)%nat ->
  eq_curves n nfp ss R0 R1 order qs = Some ce -> coils_via_symmetries (map CBase (seq 0 n)) (map Cur (seq 0 n)) nfp ss = Some coils ->
  let N := (n * nfp * (if ss then 2 else 1))%nat in exists ps : list (nat * bool), Permutation (map fst ps) (seq 0 N) /\
  map (coil_data ce (fun _ => cur)) coils = map (fun p : nat * bool => ((if snd p then - cur else cur), map (circle R0 R1 ((INR (fst p) + / 2) * (2 * PI) / INR N) (snd p)) qs)) ps.
Proof.
  intros O EC CO. cbv zeta. set (M := (n * (if ss then 2 else 1))%nat). exists (places n M nfp ss). assert (NM : (n <= M)%nat) by (unfold M; destruct ss; lia). split.
  - rewrite places_sides. destruct ss.
    + apply perm_seq.
      * apply NoDup_app2; [apply side_NoDup; lia|apply side_NoDup; lia|]. intros j J J'. apply side_In in J as (k & i & K & I & ->). apply side_In in J' as (k' & i' & K' & I' & E). unfold place in E. apply digits_eq in E; unfold M in *; lia.
      * rewrite app_length, !side_length. lia.
      * intros j J. replace (n * nfp * 2)%nat with (M * nfp)%nat by (unfold M; lia). apply in_app_or in J as [J|J]; apply side_In in J as (k & i & K & I & ->); now apply (place_lt n).
    + apply perm_seq; [now apply side_NoDup|rewrite side_length; lia|]. intros j J. replace (n * nfp * 1)%nat with (M * nfp)%nat by (unfold M; lia). apply side_In in J as (k & i & K & I & ->). now apply (place_lt n).
  - rewrite (data_places n nfp ss ss R0 R1 order qs cur ce coils M eq_refl O EC CO). replace (n * nfp * (if ss then 2 else 1))%nat with (M * nfp)%nat by (unfold M; destruct ss; lia). reflexivity.
Qed.
(** CoilSet.for_surface of a stellarator symmetric surface gives 2 coils_per_period equally spaced coils in every field period.  Of a surface
    without stellarator symmetry it gives as many, but at only half as many places: on every circle lie two coils, equal as closed curves with
    the same current in the same direction, so that the field is twice that of the equally spaced coils *)
Theorem C124_for_surface (n nfp : nat) (sss : bool) (R0 R1 cur : R) (order : nat) (qs : list R) (l : list (R * list qpt)) : (0 < order)%nat -> for_surface n nfp sss None R0 R1 cur order qs = Some l ->
  exists ps : list (nat * bool), length l = (2 * n * nfp)%nat /\ (let N := (n * nfp * (if sss then 2 else 1))%nat in
    l = map (fun p : nat * bool => ((if snd p then - cur else cur), map (circle R0 R1 ((INR (fst p) + / 2) * (2 * PI) / INR N) (snd p)) qs)) ps /\
    Permutation (map fst ps) (if sss then seq 0 N else seq 0 N ++ seq 0 N)).
Proof.
  intros O H. unfold for_surface in H. destruct (eq_curves _ _ _ _ _ _ _) as [ce|] eqn:EC; [|discriminate]. destruct (coils_via_symmetries _ _ _ _) as [coils|] eqn:CO; [|discriminate]. injection H as <-.
  assert (LEN : length (map (coil_data ce (fun _ => cur)) coils) = (2 * n * nfp)%nat). { rewrite map_length. destruct (C38_order_and_count (map CBase (seq 0 n)) (map Cur (seq 0 n)) nfp true) as (_ & C). destruct (C coils CO) as (-> & _). rewrite map_length, seq_length. lia. }
  destruct sss.
  - destruct (C124_equally_spaced n nfp true R0 R1 cur order qs ce coils O EC CO) as (ps & P & E). exists ps. split; [exact LEN|]. split; [exact E|exact P].
  - exists (places n n nfp true). split; [exact LEN|]. cbv zeta. split.
    + rewrite (data_places n nfp false true R0 R1 order qs cur ce coils n (eq_sym (Nat.mul_1_r n)) O EC CO). replace (n * nfp * 1)%nat with (n * nfp)%nat by lia. reflexivity.
    + rewrite places_sides. replace (n * nfp * 1)%nat with (n * nfp)%nat by lia. apply Permutation_app; (apply perm_seq; [now apply side_NoDup|apply side_length|]; intros j J; apply side_In in J as (k & i & K & I & ->); now apply (place_lt n)).
Qed.
(** a coil run through backwards with the opposite current is the same conductor: same points, same current times tangent *)
Theorem C124_same_conductor (R0 R1 a t cur : R) : fst (circle R0 R1 a true t) = fst (circle R0 R1 a false (- t)) /\ scal3 (- cur) (snd (circle R0 R1 a true t)) = scal3 cur (snd (circle R0 R1 a false (- t))) /\ circle R0 R1 a false (t + 1) = circle R0 R1 a false t.
Proof.
  unfold circle. cbn [fst snd]. replace (2 * PI * (-1 * t)) with (2 * PI * (1 * - t)) by ring. split; [reflexivity|]. split; [apply v3_eq; cbn [scal3 vx vy vz]; ring|]. replace (2 * PI * (1 * (t + 1))) with (2 * PI * (1 * t) + 2 * PI) by ring. rewrite cos_plus, sin_plus, cos_2PI, sin_2PI. f_equal; apply v3_eq; cbn [vx vy vz]; ring.
Qed.
Example C124_ex : exists l, for_surface 1 2 false None 1 (/ 2) 5 1 [0] = Some l /\ length l = 4%nat /\ map fst l = [5; -5; 5; -5] /\ nth 0 (snd (nth 0 l (0, []))) (v0, v0) = circle 1 (/ 2) (PI / 2) false 0.
Proof.
  eexists. split; [reflexivity|]. split; [reflexivity|]. split; [cbn; repeat f_equal; ring|]. cbn [map nth snd]. cbn. rewrite <- (eq_circle (PI / 2) 1 (/ 2) 1 0) by lia. replace (PI / 2) with (eq_angle 1 2 false 0); [reflexivity|]. unfold eq_angle. cbn [INR]. field.
Qed.
