(** C78: the linking number. *)
From Coq Require Import Reals Lra Lia ZArith List Bool Permutation Ranalysis1.
From Verif Require Import ListAux VecAux Vec3 BSModel BSDeriv BSVjp PointsModel CoilModel CoilProps SurfProps SurfDiffProps CurveModel CurveProps CurveDiff CurveDiffProps CurveCache DistProps CurveObjModel CurveObjProps.
Import ListNotations.
Open Scope R_scope.

(** ** C78 *)
Fixpoint pairs {A} (l : list A) : list (A * A) := match l with [] => [] | a :: r => map (pair a) r ++ pairs r end.
Definition zsum (l : list Z) : Z := fold_right Z.add 0%Z l.
Lemma zsum_cons a l : zsum (a :: l) = (a + zsum l)%Z. Proof. reflexivity. Qed.
Lemma zsum_app a b : zsum (a ++ b) = (zsum a + zsum b)%Z.
Proof. induction a as [|x a IH]; cbn [app zsum fold_right]; [reflexivity|]. fold (zsum (a ++ b)). fold (zsum a). lia. Qed.
Lemma zsum_perm a b : Permutation a b -> zsum a = zsum b.
Proof. unfold zsum. induction 1; cbn [fold_right]; lia. Qed.
Lemma fold_zsum {A} (f : A -> Z) l t : fold_left (fun t x => (t + f x)%Z) l t = (t + zsum (map f l))%Z.
Proof. revert t. induction l as [|x l IH]; intros t; cbn [fold_left map zsum fold_right]; [lia|]. rewrite IH. unfold zsum. lia. Qed.
(** the integrand of Gauss' formula *)
Lemma gauss_triple a b : gauss a b = dot3 (snd a) (cross (snd b) (sub3 (fst a) (fst b))) / norm3 (sub3 (fst a) (fst b)) ^ 3.
Proof.
  unfold gauss. cbv zeta. set (d := sub3 (fst a) (fst b)). unfold norm3, dot3. set (s := sqrt _). f_equal; [cbn [vx vy vz cross]; ring|cbn [pow]; ring].
Qed.
Lemma gauss_sym a b : gauss b a = gauss a b.
Proof.
  rewrite !gauss_triple. assert (N : norm3 (sub3 (fst b) (fst a)) = norm3 (sub3 (fst a) (fst b))) by (unfold norm3, dot3; f_equal; cbn [vx vy vz sub3]; ring). rewrite N. unfold Rdiv. f_equal. unfold dot3. cbn [vx vy vz sub3 cross]. ring.
Qed.
Lemma stride_mult ds n : (0 < ds)%nat -> (n mod ds = 0)%nat -> stride ds n = map (fun k => k * ds)%nat (seq 0 (n / ds)).
Proof.
  intros P H. rewrite (Nat.div_mod n ds) at 1 by lia. rewrite H, Nat.add_0_r. generalize (n / ds)%nat. clear n H. intros m. unfold stride. induction m as [|m IH]; [rewrite Nat.mul_0_r; reflexivity|].
  replace (ds * S m)%nat with (ds * m + ds)%nat by lia. rewrite seq_app, filter_app, IH, seq_S, map_app. f_equal. cbn [map Nat.add]. destruct ds as [|e]; [lia|]. cbn [seq filter]. assert (M : ((S e * m) mod S e = 0)%nat) by (rewrite Nat.mul_comm; apply Nat.mod_mul; lia). rewrite M. cbn [Nat.eqb]. rewrite (Nat.mul_comm m). f_equal.
  assert (Z : forall j, (j <= e)%nat -> filter (fun i => (i mod S e =? 0)%nat) (seq (S (S e * m)) j) = []).
  { induction j as [|j IHj]; intros Hj; [reflexivity|]. rewrite seq_S, filter_app, IHj by lia. cbn [app filter]. replace (S (S e * m) + j)%nat with (S j + m * S e)%nat by lia. rewrite Nat.mod_add by lia. rewrite Nat.mod_small by lia. reflexivity. }
  apply Z. lia.
Qed.
Lemma pair_sum ds a b : gauss_total ds a b = gauss_total ds b a.
Proof. unfold gauss_total. rewrite rsuml_swap. apply rsuml_map_ext. intros j _. apply rsuml_map_ext. intros i _. apply gauss_sym. Qed.
Lemma linking_sym ds a b : linking_pair ds a b = linking_pair ds b a.
Proof. unfold linking_pair. rewrite pair_sum. do 3 f_equal. ring. Qed.
Lemma cround_nearest x : Rabs (IZR (cround x) - x) <= 1 / 2.
Proof. unfold cround. destruct (Int_part_bounds (x + 1 / 2)) as (A & B). unfold Rabs. destruct (Rcase_abs _); lra. Qed.
Lemma cround_ge0 x : 0 <= x -> (0 <= cround x)%Z.
Proof. intros H. destruct (Int_part_bounds (x + 1 / 2)) as (A & B). fold (cround x) in *. assert (L : -1 < IZR (cround x)) by lra. apply lt_IZR in L. lia. Qed.
Lemma link_pairs ds cs : (0 < ds)%nat -> divides_all ds cs = true -> linking_number ds cs = Some (zsum (map (fun ab => linking_pair ds (fst ab) (snd ab)) (pairs cs))).
Proof.
  intros P DV. unfold linking_number. replace (ds =? 0)%nat with false by lia. rewrite DV. cbn [negb]. f_equal.
  assert (G : forall l, fold_left (fun t p => fold_left (fun t q => (t + linking_pair ds (nth p cs dflt) (nth q cs dflt))%Z) (seq 0 p) t) l 0%Z = zsum (map (fun p => zsum (map (fun q => linking_pair ds (nth p cs dflt) (nth q cs dflt)) (seq 0 p))) l)).
  { intros l. rewrite <- (Z.add_0_l (zsum _)). rewrite <- fold_zsum. generalize 0%Z. induction l as [|p l IH]; intros t; cbn [fold_left]; [reflexivity|]. now rewrite fold_zsum, IH. }
  rewrite G. clear G DV.
  assert (FULL : forall l, zsum (map (fun p => zsum (map (fun q => linking_pair ds (nth p l dflt) (nth q l dflt)) (seq 0 p))) (seq 0 (length l))) = zsum (map (fun ab => linking_pair ds (fst ab) (snd ab)) (pairs l))).
  { clear cs. induction l as [|a l IH]; [reflexivity|]. cbn [length seq map pairs]. rewrite map_app, map_map, zsum_app, <- IH. cbn [zsum fold_right fst snd]. rewrite Z.add_0_l. rewrite <- seq_shift, map_map.
    assert (E : forall L : list nat, (forall p, In p L -> (p < length l)%nat) -> zsum (map (fun p => zsum (map (fun q => linking_pair ds (nth (S p) (a :: l) dflt) (nth q (a :: l) dflt)) (seq 0 (S p)))) L) = (zsum (map (fun p => linking_pair ds a (nth p l dflt)) L) + zsum (map (fun p => zsum (map (fun q => linking_pair ds (nth p l dflt) (nth q l dflt)) (seq 0 p))) L))%Z).
    { induction L as [|p L IHL]; intros HL; [reflexivity|]. cbn [map]. rewrite !zsum_cons, IHL by (intros; apply HL; now right).
      assert (Q : zsum (map (fun q => linking_pair ds (nth (S p) (a :: l) dflt) (nth q (a :: l) dflt)) (seq 0 (S p))) = (linking_pair ds a (nth p l dflt) + zsum (map (fun q => linking_pair ds (nth p l dflt) (nth q l dflt)) (seq 0 p)))%Z).
      { cbn [seq map nth]. rewrite zsum_cons, <- seq_shift, map_map, (linking_sym ds a). reflexivity. }
      rewrite Q. lia. }
    rewrite E by (intros p Hp; apply in_seq in Hp; lia). f_equal. f_equal. apply (map_seq_list (fun p => linking_pair ds a (nth p l dflt)) (fun b => linking_pair ds a b) l dflt). reflexivity. }
  rewrite <- FULL. destruct cs as [|a l]; [reflexivity|]. cbn [length]. replace (S (length l) - 1)%nat with (length l) by lia. cbn [seq map]. cbn [zsum fold_right]. reflexivity.
Qed.
(** AssertionError exactly when the downsampling factor does not divide the number of quadrature points of some curve; otherwise the sum over
    the unordered pairs of curves of the nearest integer to |Gauss' double integral|, discretised with every ds-th point of each curve *)
Theorem C78_value ds cs : (0 < ds)%nat ->
  (linking_number ds cs = None <-> exists c, In c cs /\ ~ Nat.divide ds (length (lc_pts c))) /\
  ((forall c, In c cs -> Nat.divide ds (length (lc_pts c))) -> exists round : lcurve * lcurve -> Z,
     linking_number ds cs = Some (zsum (map round (pairs cs))) /\
     forall a b, In a cs -> In b cs -> (0 <= round (a, b))%Z /\ Rabs (IZR (round (a, b)) - Rabs (rsuml (map (fun i => rsuml (map (fun j =>
       let '(p, u) := nth (i * ds) (lc_pts a) (v0, v0) in let '(q, w) := nth (j * ds) (lc_pts b) (v0, v0) in
       dot3 u (cross w (sub3 p q)) / norm3 (sub3 p q) ^ 3 * (INR ds * lc_dphi a) * (INR ds * lc_dphi b)) (seq 0 (length (lc_pts b) / ds)))) (seq 0 (length (lc_pts a) / ds)))) / (4 * PI)) <= 1 / 2).
Proof.
  intros P. assert (DV : divides_all ds cs = true <-> forall c, In c cs -> Nat.divide ds (length (lc_pts c))).
  { unfold divides_all. rewrite forallb_forall. split; intros H c Hc; specialize (H c Hc); [apply Nat.mod_divide; lia|apply Nat.eqb_eq, Nat.mod_divide; [lia|exact H]]. }
  split.
  - destruct (divides_all ds cs) eqn:E.
    + rewrite link_pairs by auto. split; [discriminate|]. intros (c & Hc & ND). destruct ND. now apply (proj1 DV).
    + split; [intros _|intros _; unfold linking_number; rewrite E; now destruct (_ =? _)%nat]. unfold divides_all in E. destruct (existsb (fun c => negb (length (lc_pts c) mod ds =? 0)%nat) cs) eqn:X.
      * apply existsb_exists in X. destruct X as (c & Hc & X). exists c. split; [exact Hc|]. intros K. apply Nat.mod_divide in K; [lia|lia].
      * exfalso. assert (T : forallb (fun c => (length (lc_pts c) mod ds =? 0)%nat) cs = true); [|congruence]. apply forallb_forall. intros c Hc. destruct (_ =? _)%nat eqn:Y; [reflexivity|]. assert (F : existsb (fun c => negb (length (lc_pts c) mod ds =? 0)%nat) cs = true) by (apply existsb_exists; exists c; split; [exact Hc|now rewrite Y]). congruence.
  - intros H. exists (fun ab => linking_pair ds (fst ab) (snd ab)). split; [apply link_pairs; [exact P|now apply DV]|]. intros a b Ha Hb. cbn [fst snd]. unfold linking_pair.
    set (x := Rabs (gauss_total ds a b * (lc_dphi a * INR ds) * (lc_dphi b * INR ds)) / (4 * PI)).
    match goal with |- _ /\ Rabs (_ - ?y) <= _ => replace y with x end.
    + split; [apply cround_ge0|apply cround_nearest]. unfold x. assert (PP := PI_RGT_0). apply Rmult_le_pos; [apply Rabs_pos|]. left. apply Rinv_0_lt_compat. lra.
    + unfold x, gauss_total. rewrite !stride_mult by (try exact P; apply Nat.mod_divide; try lia; auto). apply (f_equal (fun z => Rabs z / (4 * PI))). rewrite map_map. transitivity ((lc_dphi a * INR ds) * (lc_dphi b * INR ds) * rsuml (map (fun i => rsuml (map (fun j => gauss (lpt a i) (lpt b j)) (map (fun k => k * ds)%nat (seq 0 (length (lc_pts b) / ds))))) (map (fun k => k * ds)%nat (seq 0 (length (lc_pts a) / ds))))); [rewrite map_map; ring|]. rewrite map_map, <- rsuml_map_scale. apply rsuml_map_ext. intros i _. rewrite map_map, <- rsuml_map_scale. apply rsuml_map_ext. intros j _.
      rewrite gauss_triple. unfold lpt. destruct (nth (i * ds) (lc_pts a) (v0, v0)) as [p u]. destruct (nth (j * ds) (lc_pts b) (v0, v0)) as [q w]. cbn [fst snd]. unfold Rdiv. ring.
Qed.
(** downsampling is the same as giving curves with fewer points *)
Definition every (ds : nat) (c : lcurve) : lcurve := LC (map (fun k => lpt c (k * ds)) (seq 0 (length (lc_pts c) / ds))) (lc_dphi c * INR ds).
Lemma stride1 n : stride 1 n = seq 0 n.
Proof. rewrite stride_mult by (auto; apply Nat.mod_1_r). rewrite Nat.div_1_r. rewrite <- (map_id (seq 0 n)) at 2. apply map_ext. intros; lia. Qed.
Lemma pairs_map {A B} (f : A -> B) l : pairs (map f l) = map (fun ab => (f (fst ab), f (snd ab))) (pairs l).
Proof. induction l as [|a l IH]; [reflexivity|]. cbn [map pairs]. rewrite map_app, IH, !map_map. reflexivity. Qed.
Lemma pairs_In {A} (l : list A) a b : In (a, b) (pairs l) -> In a l /\ In b l.
Proof. induction l as [|x l IH]; [intros []|]. cbn [pairs]. rewrite in_app_iff, in_map_iff. intros [(y & [= -> ->] & H)|H]; [split; [now left|now right]|]. apply IH in H. destruct H. split; now right. Qed.
(** a change of curves that keeps the number of points and the double sum of every pair up to sign keeps the result *)
Lemma link_invariant ds (f : lcurve -> lcurve) cs : (forall c, In c cs -> length (lc_pts (f c)) = length (lc_pts c) /\ Rabs (lc_dphi (f c)) = Rabs (lc_dphi c)) ->
  (forall a b, In a cs -> In b cs -> (0 < ds)%nat -> divides_all ds cs = true -> Rabs (gauss_total ds (f a) (f b)) = Rabs (gauss_total ds a b)) -> linking_number ds (map f cs) = linking_number ds cs.
Proof.
  intros H G. destruct (Nat.eq_dec ds 0) as [->|P]; [reflexivity|]. assert (DV : divides_all ds (map f cs) = divides_all ds cs).
  { unfold divides_all. clear G. induction cs as [|c cs IH]; [reflexivity|]. cbn [map forallb]. rewrite (proj1 (H c (or_introl eq_refl))), IH by (intros; apply H; now right). reflexivity. }
  destruct (divides_all ds cs) eqn:E; [|unfold linking_number; now rewrite DV, E]. rewrite !link_pairs by (auto; lia). f_equal. f_equal. rewrite pairs_map, map_map. apply map_ext_in. intros [a b] Hab. apply pairs_In in Hab. destruct Hab as (Ha & Hb). cbn [fst snd]. unfold linking_pair. f_equal. f_equal. rewrite !Rabs_mult, G, (proj2 (H a Ha)), (proj2 (H b Hb)) by (auto; lia). reflexivity.
Qed.
Theorem C78_downsampling ds cs : (0 < ds)%nat -> (forall c, In c cs -> Nat.divide ds (length (lc_pts c))) -> linking_number ds cs = linking_number 1 (map (every ds) cs).
Proof.
  intros P H. assert (DV : divides_all ds cs = true) by (unfold divides_all; apply forallb_forall; intros c Hc; apply Nat.eqb_eq, Nat.mod_divide; [lia|auto]).
  assert (D1 : divides_all 1 (map (every ds) cs) = true) by (unfold divides_all; apply forallb_forall; intros c _; apply Nat.eqb_eq, Nat.mod_1_r). rewrite !link_pairs by auto. f_equal. f_equal. rewrite pairs_map, map_map. apply map_ext_in. intros [a b] Hab. apply pairs_In in Hab. destruct Hab as (Ha & Hb). cbn [fst snd]. unfold linking_pair. f_equal. f_equal.
  replace (gauss_total 1 (every ds a) (every ds b)) with (gauss_total ds a b); [f_equal; cbn [lc_dphi every INR]; ring|]. unfold gauss_total. rewrite !stride1, !stride_mult by (try exact P; apply Nat.mod_divide; try lia; auto). cbn [lc_pts every]. rewrite !map_length, !seq_length, map_map. apply rsuml_map_ext. intros i Hi. apply in_seq in Hi. rewrite map_map. apply rsuml_map_ext. intros j Hj. apply in_seq in Hj. unfold lpt at 3 4. cbn [lc_pts every]. rewrite !nth_map_seq by lia. reflexivity.
Qed.
(** the order of the curves does not matter *)
Lemma pairs_perm {A} (f : A * A -> Z) l m : (forall a b, f (a, b) = f (b, a)) -> Permutation l m -> zsum (map f (pairs l)) = zsum (map f (pairs m)).
Proof.
  intros S P. induction P as [|x l m P IH|x y l|l m k P1 IH1 P2 IH2]; [reflexivity| | |congruence].
  - cbn [pairs]. rewrite !map_app, !zsum_app, IH. f_equal. apply zsum_perm. apply Permutation_map, Permutation_map, P.
  - cbn [pairs map app]. rewrite !zsum_cons, !map_app, !zsum_app, S. lia.
Qed.
Theorem C78_permutation ds cs cs' : Permutation cs cs' -> linking_number ds cs = linking_number ds cs'.
Proof.
  intros P. destruct (Nat.eq_dec ds 0) as [->|N]; [reflexivity|]. assert (DV : divides_all ds cs = divides_all ds cs').
  { unfold divides_all. clear N. induction P; cbn [forallb]; [reflexivity|now rewrite IHP| |congruence]. destruct (_ =? _)%nat, (_ =? _)%nat; reflexivity. }
  destruct (divides_all ds cs) eqn:E; [|unfold linking_number; now rewrite <- DV, E]. rewrite !link_pairs by (auto; lia). f_equal. apply pairs_perm; [intros; apply linking_sym|exact P].
Qed.
(** moving all curves together: translations, rotations and flips, mirror images, scaling *)
Definition on_points (f g : vec3 -> vec3) (c : lcurve) : lcurve := LC (map (fun pu => (f (fst pu), g (snd pu))) (lc_pts c)) (lc_dphi c).
Lemma on_points_invariant ds f g k cs : Rabs k = 1 -> (forall p u q w, gauss (f p, g u) (f q, g w) = k * gauss (p, u) (q, w)) -> linking_number ds (map (on_points f g) cs) = linking_number ds cs.
Proof.
  intros K H. apply link_invariant.
  - intros c _. split; [apply map_length|reflexivity].
  - intros a b _ _ P _. replace (gauss_total ds (on_points f g a) (on_points f g b)) with (k * gauss_total ds a b); [rewrite Rabs_mult, K; ring|]. unfold gauss_total. rewrite <- rsuml_map_scale. cbn [lc_pts on_points]. rewrite !map_length. apply rsuml_map_ext. intros i Hi. rewrite <- rsuml_map_scale. apply rsuml_map_ext. intros j Hj. unfold stride in Hi, Hj. rewrite filter_In, in_seq in Hi, Hj. unfold lpt. cbn [lc_pts on_points].
    rewrite !(nth_indep (map _ _) (v0, v0) (f v0, g v0)) by (rewrite map_length; lia). rewrite !(map_nth (fun pu => (f (fst pu), g (snd pu))) _ (v0, v0)). rewrite H. destruct (nth i (lc_pts a) (v0, v0)), (nth j (lc_pts b) (v0, v0)). reflexivity.
Qed.
Definition mirror (v : vec3) : vec3 := V3 (vx v) (vy v) (- vz v).
Theorem C78_motions ds cs :
  (forall t, linking_number ds (map (on_points (fun p => add3 p t) (fun u => u)) cs) = linking_number ds cs) /\
  (forall phi flip, let r a := vecmat a (rotmat phi flip) in linking_number ds (map (on_points r r) cs) = linking_number ds cs) /\
  linking_number ds (map (on_points mirror mirror) cs) = linking_number ds cs /\
  (forall s, s <> 0 -> linking_number ds (map (on_points (scal3 s) (scal3 s)) cs) = linking_number ds cs).
Proof.
  split; [|split; [|split]].
  - intros t. apply (on_points_invariant ds _ _ 1); [apply Rabs_R1|]. intros p u q w. rewrite !gauss_triple. cbn [fst snd]. replace (sub3 (add3 p t) (add3 q t)) with (sub3 p q) by (apply v3_eq; cbn [vx vy vz add3 sub3]; ring). ring.
  - intros phi flip r. apply (on_points_invariant ds _ _ 1); [apply Rabs_R1|]. intros p u q w. rewrite !gauss_triple. cbn [fst snd]. unfold r. rewrite <- !vecmat_sub. rewrite (proj2 (C59_rotation_preserves_geometry phi flip w (sub3 p q))), (proj1 (C59_rotation_preserves_geometry phi flip _ _)). unfold norm3. rewrite (proj1 (C59_rotation_preserves_geometry phi flip _ _)). ring.
  - apply (on_points_invariant ds _ _ (-1)); [rewrite Rabs_left; lra|]. intros p u q w. rewrite !gauss_triple. cbn [fst snd]. replace (norm3 (sub3 (mirror p) (mirror q))) with (norm3 (sub3 p q)) by (unfold norm3, dot3; f_equal; cbn [vx vy vz sub3 mirror]; ring). unfold dot3, Rdiv. cbn [vx vy vz sub3 mirror cross]. ring.
  - intros s S. apply (on_points_invariant ds _ _ (s ^ 3 / Rabs s ^ 3)).
    + unfold Rdiv. rewrite Rabs_mult, Rabs_inv, <- !RPow_abs, Rabs_Rabsolu. apply Rinv_r. apply pow_nonzero. now apply Rabs_no_R0.
    + intros p u q w. rewrite !gauss_triple. cbn [fst snd]. assert (E : sub3 (scal3 s p) (scal3 s q) = scal3 s (sub3 p q)) by (apply v3_eq; cbn [vx vy vz sub3 scal3]; ring). rewrite E. assert (NE : norm3 (scal3 s (sub3 p q)) = Rabs s * norm3 (sub3 p q)).
      { apply norm_unique; [apply Rmult_le_pos; [apply Rabs_pos|apply sqrt_pos]|]. assert (Q := norm_sq (sub3 p q)). replace (Rabs s * norm3 (sub3 p q) * (Rabs s * norm3 (sub3 p q))) with (Rabs s ^ 2 * (norm3 (sub3 p q) * norm3 (sub3 p q))) by ring. rewrite pow2_abs, Q. unfold dot3. cbn [vx vy vz scal3]. ring. }
      rewrite NE, Rpow_mult_distr. unfold Rdiv. rewrite Rinv_mult. unfold dot3. cbn [vx vy vz sub3 scal3 cross]. ring.
Qed.
(** traversing some of the curves in the opposite direction: point k becomes point (n - k) mod n, gammadash changes sign *)
Definition backwards (c : lcurve) : lcurve := let n := length (lc_pts c) in LC (map (fun k => let '(p, u) := lpt c ((n - k) mod n) in (p, scal3 (-1) u)) (seq 0 n)) (lc_dphi c).
Lemma reflect_perm m : Permutation (map (fun k => (m - k) mod m)%nat (seq 0 m)) (seq 0 m).
Proof.
  apply Permutation_sym, NoDup_Permutation_bis; [apply seq_NoDup|rewrite map_length; lia|]. intros k Hk. apply in_seq in Hk. apply in_map_iff. exists ((m - k) mod m)%nat. assert (M : (m <> 0)%nat) by lia. split; [|apply in_seq; assert (U := Nat.mod_upper_bound (m - k) m M); lia].
  destruct k as [|k]; [rewrite Nat.sub_0_r, Nat.mod_same, Nat.sub_0_r, Nat.mod_same by lia; reflexivity|]. rewrite (Nat.mod_small (m - S k)) by lia. replace (m - (m - S k))%nat with (S k) by lia. apply Nat.mod_small. lia.
Qed.
Lemma stride_reflect ds n : (0 < ds)%nat -> (n mod ds = 0)%nat -> Permutation (map (fun k => (n - k) mod n)%nat (stride ds n)) (stride ds n).
Proof.
  intros P H. rewrite stride_mult by assumption. rewrite map_map. rewrite (Nat.div_mod n ds) by lia. rewrite H, Nat.add_0_r. rewrite Nat.mul_comm, Nat.div_mul by lia. set (m := (n / ds)%nat).
  rewrite (map_ext_in (fun k => (m * ds - k * ds) mod (m * ds))%nat (fun k => ((m - k) mod m) * ds)%nat).
  - rewrite <- (map_map (fun k => (m - k) mod m)%nat (fun k => k * ds)%nat). apply Permutation_map, reflect_perm.
  - intros k Hk. apply in_seq in Hk. rewrite <- Nat.mul_sub_distr_r. apply Nat.mul_mod_distr_r; lia.
Qed.
Lemma gauss_opp p u b : gauss (p, scal3 (-1) u) b = - gauss (p, u) b.
Proof. rewrite !gauss_triple. cbn [fst snd]. unfold Rdiv, dot3. cbn [vx vy vz scal3]. ring. Qed.
Lemma backwards_total ds a b : (0 < ds)%nat -> (length (lc_pts a) mod ds = 0)%nat -> gauss_total ds (backwards a) b = - gauss_total ds a b.
Proof.
  intros P H. unfold gauss_total. cbn [lc_pts backwards]. rewrite map_length, seq_length. set (n := length (lc_pts a)) in *.
  rewrite (rsuml_map_ext _ (fun i => (fun k => -1 * rsuml (map (fun j => gauss (lpt a k) (lpt b j)) (stride ds (length (lc_pts b))))) ((n - i) mod n)%nat)).
  - rewrite <- (map_map (fun i => (n - i) mod n)%nat (fun k => -1 * rsuml (map (fun j => gauss (lpt a k) (lpt b j)) (stride ds (length (lc_pts b)))))). rewrite (rsuml_perm _ _ (Permutation_map _ (stride_reflect ds n P H))). rewrite rsuml_map_scale. ring.
  - intros i Hi. unfold stride in Hi. rewrite filter_In, in_seq in Hi. cbv beta. rewrite <- rsuml_map_scale. apply rsuml_map_ext. intros j _. unfold lpt at 1. cbn [lc_pts backwards]. rewrite nth_map_seq by (fold n; lia). fold n. destruct (lpt a ((n - i) mod n)) as [p u] eqn:E. rewrite gauss_opp. cbv beta. ring.
Qed.
Theorem C78_orientation ds (some : lcurve -> bool) cs : linking_number ds (map (fun c => if some c then backwards c else c) cs) = linking_number ds cs.
Proof.
  apply link_invariant.
  - intros c _. destruct (some c); [|auto]. split; [unfold backwards; cbn [lc_pts]; now rewrite map_length, seq_length|reflexivity].
  - intros a b Ha Hb P DV. unfold divides_all in DV. rewrite forallb_forall in DV. assert (MA := DV a Ha). assert (MB := DV b Hb). apply Nat.eqb_eq in MA, MB.
    assert (X : forall c, Rabs (gauss_total ds (if some a then backwards a else a) c) = Rabs (gauss_total ds a c)) by (intros c; destruct (some a); [rewrite backwards_total by assumption; apply Rabs_Ropp|reflexivity]).
    rewrite X, pair_sum. destruct (some b); [rewrite backwards_total, Rabs_Ropp by assumption|]; now rewrite pair_sum.
Qed.
(** curves in one common plane are not linked *)
Theorem C78_coplanar ds cs nrm off : nrm <> v0 -> (0 < ds)%nat -> (forall c, In c cs -> Nat.divide ds (length (lc_pts c)) /\ forall p u, In (p, u) (lc_pts c) -> dot3 nrm p = off /\ dot3 nrm u = 0) ->
  linking_number ds cs = Some 0%Z.
Proof.
  intros NZ P H. assert (DV : divides_all ds cs = true) by (unfold divides_all; apply forallb_forall; intros c Hc; apply Nat.eqb_eq, Nat.mod_divide; [lia|now apply H]). rewrite link_pairs by auto. f_equal.
  assert (Z : forall ab, In ab (pairs cs) -> linking_pair ds (fst ab) (snd ab) = 0%Z).
  { intros [a b] Hab. apply pairs_In in Hab. destruct Hab as (Ha & Hb). cbn [fst snd]. unfold linking_pair. assert (G : gauss_total ds a b = 0).
    { unfold gauss_total. apply rsuml_map_zero. intros i Hi. apply rsuml_map_zero. intros j Hj. unfold stride in Hi, Hj. rewrite filter_In, in_seq in Hi, Hj. rewrite gauss_triple. destruct (lpt a i) as [p u] eqn:Ea. destruct (lpt b j) as [q w] eqn:Eb. cbn [fst snd].
      assert (Ia : In (p, u) (lc_pts a)) by (unfold lpt in Ea; rewrite <- Ea; apply nth_In; lia). assert (Ib : In (q, w) (lc_pts b)) by (unfold lpt in Eb; rewrite <- Eb; apply nth_In; lia).
      destruct (proj2 (H a Ha) _ _ Ia) as (Pp & Pu). destruct (proj2 (H b Hb) _ _ Ib) as (Pq & Pw). assert (Pd : dot3 nrm (sub3 p q) = 0) by (transitivity (dot3 nrm p - dot3 nrm q); [unfold dot3; cbn [vx vy vz sub3]; ring|lra]).
      assert (T : dot3 u (cross w (sub3 p q)) = 0); [|rewrite T; unfold Rdiv; ring]. revert Pu Pw Pd NZ. generalize (sub3 p q). clear. intros d. destruct nrm as [a b c], u as [u1 u2 u3], w as [w1 w2 w3], d as [d1 d2 d3]. unfold dot3. cbn [vx vy vz cross]. intros A B C NZ.
      set (t := u1 * (w2 * d3 - w3 * d2) + u2 * (w3 * d1 - w1 * d3) + u3 * (w1 * d2 - w2 * d1)).
      assert (Ta : a * t = 0) by (transitivity ((a * u1 + b * u2 + c * u3) * (w2 * d3 - w3 * d2) - (a * w1 + b * w2 + c * w3) * (u2 * d3 - u3 * d2) + (a * d1 + b * d2 + c * d3) * (u2 * w3 - u3 * w2)); [unfold t; ring|rewrite A, B, C; ring]).
      assert (Tb : b * t = 0) by (transitivity (- (a * u1 + b * u2 + c * u3) * (w1 * d3 - w3 * d1) + (a * w1 + b * w2 + c * w3) * (u1 * d3 - u3 * d1) - (a * d1 + b * d2 + c * d3) * (u1 * w3 - u3 * w1)); [unfold t; ring|rewrite A, B, C; ring]).
      assert (Tc : c * t = 0) by (transitivity ((a * u1 + b * u2 + c * u3) * (w1 * d2 - w2 * d1) - (a * w1 + b * w2 + c * w3) * (u1 * d2 - u2 * d1) + (a * d1 + b * d2 + c * d3) * (u1 * w2 - u2 * w1)); [unfold t; ring|rewrite A, B, C; ring]).
      destruct (Req_EM_T t 0) as [|T]; [auto|]. exfalso. apply NZ. apply Rmult_integral in Ta, Tb, Tc. unfold v0. f_equal; tauto. }
    rewrite G, !Rmult_0_l, Rabs_R0. unfold Rdiv. rewrite Rmult_0_l. unfold cround. destruct (Int_part_bounds (0 + 1 / 2)) as (L & U). assert (L' : IZR (Int_part (0 + 1 / 2)) < 1) by lra. assert (U' : -1 < IZR (Int_part (0 + 1 / 2))) by lra. apply lt_IZR in L', U'. lia. }
  clear - Z. induction (pairs cs) as [|x l IH]; [reflexivity|]. cbn [map]. rewrite zsum_cons, Z by now left. rewrite IH by (intros; apply Z; now right). reflexivity.
Qed.
(** dJ = 0: along any differentiable motion of the curves the value is constant near t = 0, unless the sum of some pair is exactly half-way between two integers *)
Definition near0 (P : R -> Prop) : Prop := exists del, 0 < del /\ forall t, Rabs t < del -> P t.
Lemma near0_all {A} (l : list A) (P : A -> R -> Prop) : (forall x, In x l -> near0 (P x)) -> near0 (fun t => forall x, In x l -> P x t).
Proof.
  induction l as [|a l IH]; intros H; [exists 1; split; [lra|intros t _ x []]|]. destruct (H a (or_introl eq_refl)) as (d & Pd & Ha). destruct IH as (e & Pe & He); [intros; apply H; now right|]. exists (Rmin d e). split; [now apply Rmin_pos|]. intros t Ht x [<-|Hx]; [apply Ha|apply He; [|exact Hx]]; (eapply Rlt_le_trans; [exact Ht|]); [apply Rmin_l|apply Rmin_r].
Qed.
Lemma cround_const f d : D f 0 d -> near0 (fun t => cround (Rabs (f t)) = cround (Rabs (f 0))) \/ exists z, Rabs (f 0) = IZR z + 1 / 2.
Proof.
  intros H. destruct (Int_part_bounds (Rabs (f 0) + 1 / 2)) as (L & U). set (z := Int_part (Rabs (f 0) + 1 / 2)) in *. destruct L as [L|L]; [left|right; exists (z - 1)%Z; rewrite minus_IZR; lra].
  assert (C : continuity_pt f 0) by (apply derivable_continuous_pt; exists d; exact H). set (e := Rmin (Rabs (f 0) + 1 / 2 - IZR z) (IZR z + 1 - (Rabs (f 0) + 1 / 2))). assert (E : 0 < e) by (apply Rmin_pos; lra).
  destruct (C e E) as (del & Pd & K). exists del. split; [exact Pd|]. intros t Ht. destruct (Req_EM_T t 0) as [->|NZ]; [reflexivity|].
  assert (X : Rabs (f t - f 0) < e). { apply K. split; [split; [exact I|lra]|]. cbn. unfold R_dist. replace (t - 0) with t by ring. exact Ht. }
  assert (Y : Rabs (Rabs (f t) - Rabs (f 0)) < e) by (eapply Rle_lt_trans; [apply Rabs_triang_inv2|exact X]). apply Rabs_def2 in Y. assert (E1 := Rmin_l (Rabs (f 0) + 1 / 2 - IZR z) (IZR z + 1 - (Rabs (f 0) + 1 / 2))). assert (E2 := Rmin_r (Rabs (f 0) + 1 / 2 - IZR z) (IZR z + 1 - (Rabs (f 0) + 1 / 2))). fold e in E1, E2.
  unfold cround. fold z. destruct (Int_part_bounds (Rabs (f t) + 1 / 2)) as (L' & U'). set (y := Int_part (Rabs (f t) + 1 / 2)) in *. assert (A : IZR y < IZR z + 1) by lra. assert (B : IZR z < IZR y + 1) by lra. rewrite <- plus_IZR in A, B. apply lt_IZR in A, B. lia.
Qed.
(** a moving curve: number of points, position and gammadash of point k at time t, spacing of the quadrature points *)
Record path := Path { pa_n : nat; pa_p : nat -> R -> vec3; pa_u : nat -> R -> vec3; pa_dphi : R }.
Definition at_time (t : R) (c : path) : lcurve := LC (map (fun k => (pa_p c k t, pa_u c k t)) (seq 0 (pa_n c))) (pa_dphi c).
Definition gauss_value (ds : nat) (a b : lcurve) : R := gauss_total ds a b * (lc_dphi a * INR ds) * (lc_dphi b * INR ds) / (4 * PI).
Lemma gauss_D (p u q w : R -> vec3) dp du dq dw : D3 p 0 dp -> D3 u 0 du -> D3 q 0 dq -> D3 w 0 dw -> p 0 <> q 0 -> exists d, D (fun t => gauss (p t, u t) (q t, w t)) 0 d.
Proof.
  intros Hp Hu Hq Hw NE. assert (S := D3_sub _ _ _ _ _ Hp Hq). cbv beta in S. assert (NZ : sub3 (p 0) (q 0) <> v0).
  { intros E. apply NE. assert (A := f_equal vx E). assert (B := f_equal vy E). assert (C := f_equal vz E). cbn [vx vy vz sub3 v0] in A, B, C. apply v3_eq; lra. }
  assert (N := D_norm _ _ _ S NZ). cbv beta in N. eexists. eapply D_ext; [intros t; symmetry; apply gauss_triple|]. cbn [fst snd].
  apply (D_div (fun t => dot3 (u t) (cross (w t) (sub3 (p t) (q t)))) (fun t => norm3 (sub3 (p t) (q t)) ^ 3)); [apply (D_dot _ _ _ _ _ Hu (D3_cross _ _ _ _ _ Hw S))|apply (D_pow _ _ _ 2 N)|]. apply pow_nonzero. assert (L := CurveDiffProps.norm_pos _ NZ). lra.
Qed.
Lemma sum_D_exists {A} (l : list A) (f : A -> R -> R) : (forall x, In x l -> exists d, D (f x) 0 d) -> exists d, D (fun t => rsuml (map (fun x => f x t) l)) 0 d.
Proof. induction l as [|a l IH]; intros H; [exists 0; exact (D_const 0 0)|]. destruct (H a (or_introl eq_refl)) as (d & Hd). destruct IH as (e & He); [intros; apply H; now right|]. exists (d + e). exact (D_add _ _ _ _ _ Hd He). Qed.
Theorem C78_locally_constant ds cs : (0 < ds)%nat -> (forall c, In c cs -> Nat.divide ds (pa_n c)) ->
  (forall c k, In c cs -> (k < pa_n c)%nat -> (exists d, D3 (pa_p c k) 0 d) /\ exists d, D3 (pa_u c k) 0 d) ->
  (forall a b, In (a, b) (pairs cs) -> (forall i j, (i < pa_n a)%nat -> (j < pa_n b)%nat -> pa_p a i 0 <> pa_p b j 0) /\ forall z, Rabs (gauss_value ds (at_time 0 a) (at_time 0 b)) <> IZR z + 1 / 2) ->
  exists v, near0 (fun t => linking_number ds (map (at_time t) cs) = Some v) /\ D (fun t => match linking_number ds (map (at_time t) cs) with Some z => IZR z | None => 0 end) 0 0.
Proof.
  intros P DV DF GV. assert (DVt : forall t, divides_all ds (map (at_time t) cs) = true).
  { intros t. unfold divides_all. apply forallb_forall. intros c Hc. apply in_map_iff in Hc. destruct Hc as (c' & <- & Hc). unfold at_time. cbn [lc_pts]. rewrite map_length, seq_length. apply Nat.eqb_eq, Nat.mod_divide; [lia|auto]. }
  exists (zsum (map (fun ab => linking_pair ds (at_time 0 (fst ab)) (at_time 0 (snd ab))) (pairs cs))).
  assert (NN : near0 (fun t => linking_number ds (map (at_time t) cs) = Some (zsum (map (fun ab => linking_pair ds (at_time 0 (fst ab)) (at_time 0 (snd ab))) (pairs cs))))).
  { assert (NA : near0 (fun t => forall ab, In ab (pairs cs) -> linking_pair ds (at_time t (fst ab)) (at_time t (snd ab)) = linking_pair ds (at_time 0 (fst ab)) (at_time 0 (snd ab)))).
    { apply (near0_all (pairs cs) (fun ab t => linking_pair ds (at_time t (fst ab)) (at_time t (snd ab)) = linking_pair ds (at_time 0 (fst ab)) (at_time 0 (snd ab)))). intros [a b] Hab. cbn [fst snd]. assert (Hi := pairs_In _ _ _ Hab). destruct Hi as (Ha & Hb). destruct (GV a b Hab) as (NE & HZ).
      assert (LP : forall t, linking_pair ds (at_time t a) (at_time t b) = cround (Rabs (gauss_value ds (at_time t a) (at_time t b)))).
      { intros t. unfold linking_pair, gauss_value. f_equal. set (y := gauss_total _ _ _ * _ * _). unfold Rdiv. rewrite Rabs_mult. f_equal. symmetry. apply Rabs_right. assert (PP := PI_RGT_0). left. apply Rinv_0_lt_compat. lra. }
      assert (DG : exists d, D (fun t => gauss_value ds (at_time t a) (at_time t b)) 0 d).
      { assert (T : exists d, D (fun t => gauss_total ds (at_time t a) (at_time t b)) 0 d).
        { assert (E : forall t, rsuml (map (fun i => rsuml (map (fun j => gauss (pa_p a i t, pa_u a i t) (pa_p b j t, pa_u b j t)) (stride ds (pa_n b)))) (stride ds (pa_n a))) = gauss_total ds (at_time t a) (at_time t b)).
          { intros t. unfold gauss_total, at_time. cbn [lc_pts]. rewrite !map_length, !seq_length. apply rsuml_map_ext. intros i Hi. apply rsuml_map_ext. intros j Hj. unfold stride in Hi, Hj. rewrite filter_In, in_seq in Hi, Hj. unfold lpt. cbn [lc_pts]. rewrite !nth_map_seq by lia. reflexivity. }
          assert (Q : exists d, D (fun t => rsuml (map (fun i => rsuml (map (fun j => gauss (pa_p a i t, pa_u a i t) (pa_p b j t, pa_u b j t)) (stride ds (pa_n b)))) (stride ds (pa_n a)))) 0 d).
          { apply (sum_D_exists (stride ds (pa_n a)) (fun i t => rsuml (map (fun j => gauss (pa_p a i t, pa_u a i t) (pa_p b j t, pa_u b j t)) (stride ds (pa_n b))))). intros i Hi. apply (sum_D_exists (stride ds (pa_n b)) (fun j t => gauss (pa_p a i t, pa_u a i t) (pa_p b j t, pa_u b j t))). intros j Hj. unfold stride in Hi, Hj. rewrite filter_In, in_seq in Hi, Hj.
            destruct (DF a i Ha ltac:(lia)) as ((dp & Dp) & (du & Du)). destruct (DF b j Hb ltac:(lia)) as ((dq & Dq) & (dw & Dw)). apply (gauss_D _ _ _ _ _ _ _ _ Dp Du Dq Dw). apply NE; lia. }
          destruct Q as (d & Q). exists d. eapply D_ext; [exact E|exact Q]. }
        destruct T as (d & T). eexists. unfold gauss_value. cbn [lc_dphi at_time]. unfold Rdiv. apply (D_mul (fun t => gauss_total ds (at_time t a) (at_time t b) * (pa_dphi a * INR ds) * (pa_dphi b * INR ds)) (fun _ => / (4 * PI))); [|apply D_const]. apply (D_mul (fun t => gauss_total ds (at_time t a) (at_time t b) * (pa_dphi a * INR ds)) (fun _ => pa_dphi b * INR ds)); [|apply D_const]. apply (D_mul (fun t => gauss_total ds (at_time t a) (at_time t b)) (fun _ => pa_dphi a * INR ds)); [exact T|apply D_const]. }
      destruct DG as (d & DG). destruct (cround_const _ d DG) as [(del & Pd & K)|(z & E)]; [|exfalso; exact (HZ z E)]. exists del. split; [exact Pd|]. intros t Ht. rewrite !LP. apply K, Ht. }
    destruct NA as (del & Pd & K). exists del. split; [exact Pd|]. intros t Ht. rewrite link_pairs by auto. f_equal. f_equal. rewrite pairs_map, map_map. apply map_ext_in. intros ab Hab. exact (K t Ht ab Hab). }
  split; [exact NN|]. destruct NN as (del & Pd & K). eapply (D_near (fun _ => IZR (zsum (map (fun ab => linking_pair ds (at_time 0 (fst ab)) (at_time 0 (snd ab))) (pairs cs))))); [|apply D_const]. exists del. split; [exact Pd|]. intros s Hs. rewrite K by (replace s with (s - 0) by ring; exact Hs). reflexivity.
Qed.
(** the hypotheses are met by two moving one-point curves with a nonzero value *)
Example C78_case : let a := Path 1 (fun _ t => V3 t 0 0) (fun _ _ => V3 1 0 0) (4 * PI) in let b := Path 1 (fun _ _ => V3 0 0 1) (fun _ _ => V3 0 1 0) 1 in
  linking_number 1 (map (at_time 0) [a; b]) = Some 1%Z /\ (forall z, Rabs (gauss_value 1 (at_time 0 a) (at_time 0 b)) <> IZR z + 1 / 2) /\ pa_p a 0%nat 0 <> pa_p b 0%nat 0 /\
  exists v, near0 (fun t => linking_number 1 (map (at_time t) [a; b]) = Some v).
Proof.
  intros a b. assert (PP := PI_RGT_0). assert (G : gauss (V3 0 0 0, V3 1 0 0) (V3 0 0 1, V3 0 1 0) = -1).
  { rewrite gauss_triple. cbn [fst snd]. rewrite (norm_unique 1) by (try lra; unfold dot3; cbn [vx vy vz sub3]; ring). unfold dot3. cbn [vx vy vz sub3 cross]. field. }
  assert (T : gauss_total 1 (at_time 0 a) (at_time 0 b) = -1) by (unfold gauss_total; rewrite !stride1; unfold at_time, a, b, lpt; cbn [lc_pts pa_n pa_p pa_u length map seq nth rsuml]; rewrite G; ring).
  assert (V : gauss_value 1 (at_time 0 a) (at_time 0 b) = -1) by (unfold gauss_value; rewrite T; unfold at_time, a, b; cbn [lc_dphi pa_dphi INR]; field; lra).
  assert (NH : forall z, Rabs (gauss_value 1 (at_time 0 a) (at_time 0 b)) <> IZR z + 1 / 2).
  { intros z E. rewrite V, Rabs_left in E by lra. assert (E' : IZR (2 * z) = IZR 1) by (rewrite mult_IZR; lra). apply eq_IZR in E'. lia. }
  assert (NE : V3 0 0 0 <> V3 0 0 1) by (intros E; apply (f_equal vz) in E; cbn in E; lra). split; [|split; [exact NH|split; [exact NE|]]].
  - rewrite link_pairs by (lia || reflexivity). cbn [map pairs app fst snd]. rewrite zsum_cons. unfold linking_pair. cbn [lc_dphi at_time].
    replace (Rabs (gauss_total 1 (at_time 0 a) (at_time 0 b) * (pa_dphi a * INR 1) * (pa_dphi b * INR 1)) / (4 * PI)) with 1.
    + unfold cround. destruct (Int_part_bounds (1 + 1 / 2)) as (L & U). assert (L' : IZR (Int_part (1 + 1 / 2)) < 2) by lra. assert (U' : 0 < IZR (Int_part (1 + 1 / 2))) by lra. apply lt_IZR in L', U'. cbn [zsum fold_right]. f_equal. lia.
    + rewrite T. cbn [pa_dphi a b INR]. rewrite Rabs_left by nra. field. lra.
  - destruct (C78_locally_constant 1 [a; b]) as (v & N & _); [lia|intros; apply Nat.divide_1_l| | |exists v; exact N].
    + intros c k Hc _. destruct Hc as [<-|[<-|[]]]; cbn [pa_p pa_u a b]; (split; [|eexists; apply D3_const]); [|eexists; apply D3_const]. exists (V3 1 0 0). repeat split; cbn [vx vy vz]; [exact (D_id 0)|exact (D_const 0 0)|exact (D_const 0 0)].
    + intros x y Hxy. cbn [pairs map app] in Hxy. destruct Hxy as [[= <- <-]|[]]. split; [|exact NH]. intros i j _ _. exact NE.
Qed.
