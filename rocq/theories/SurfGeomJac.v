(** C66: the dof derivatives of SurfaceRZFourier and their vector-Jacobian products. *)
From Coq Require Import Reals Lra Lia ZArith.
From Verif Require Import ListAux VecAux Vec3 BSModel BSDeriv BSVjp SurfModel SurfProps SurfGeom SurfGeomProps.
Open Scope R_scope.

Lemma flat_map_grid {A} (g : nat -> nat -> list A) W M : (0 < W)%nat ->
  flat_map (fun m => flat_map (g m) (seq 0 W)) (seq 0 M) = flat_map (fun q => g (q / W)%nat (q mod W)%nat) (seq 0 (M * W)).
Proof.
  intros H. transitivity (concat (map (fun q => g (q / W)%nat (q mod W)%nat) (seq (0 * W) (M * W)))); [|symmetry; apply flat_map_concat_map].
  rewrite <- (grid_flat g W 0 M) by auto. induction (seq 0 M) as [|m l IH]; cbn [flat_map]; auto. rewrite concat_app, IH. f_equal. apply flat_map_concat_map.
Qed.
Lemma flat_map_sub {A} (g : nat -> A) p n : (p <= n)%nat -> flat_map (fun q => if (q <? p)%nat then [] else [g q]) (seq 0 n) = map g (seq p (n - p)).
Proof.
  intros H. replace n with (p + (n - p))%nat at 1 by lia. rewrite seq_app, flat_map_app.
  assert (E1 : forall l, (forall q, In q l -> (q < p)%nat) -> flat_map (fun q => if (q <? p)%nat then [] else [g q]) l = []).
  { induction l as [|q l IH]; intros L; cbn; auto. rewrite (proj2 (Nat.ltb_lt _ _)) by (apply L; now left). apply IH. intros; apply L; now right. }
  assert (E2 : forall l, (forall q, In q l -> (p <= q)%nat) -> flat_map (fun q => if (q <? p)%nat then [] else [g q]) l = map g l).
  { induction l as [|q l IH]; intros L; cbn; auto. rewrite (proj2 (Nat.ltb_ge _ _)) by (apply L; now left). cbn. f_equal. apply IH. intros; apply L; now right. }
  rewrite E1 by (intros q Hq; apply in_seq in Hq; lia). cbn [app Nat.add]. apply E2. intros q Hq. apply in_seq in Hq. lia.
Qed.

Section Jac.
Variables (s : surf) (nfp : nat).
Let W := width s.
Lemma W_pos : (0 < W)%nat. Proof. apply width_pos. Qed.
Lemma skipped_first k q : skipped s k (q / W)%nat (q mod W)%nat = (q <? first s k)%nat.
Proof.
  assert (H := W_pos). unfold skipped. destruct (Nat.eqb_spec (q / W) 0) as [E|E].
  - apply Nat.div_small_iff in E; [|lia]. rewrite Nat.mod_small by auto. cbn [andb]. destruct k; cbn [first]; auto.
    + destruct (Nat.leb_spec q (ntor s)), (Nat.ltb_spec q (ntor s + 1)); auto; lia.
    + destruct (Nat.leb_spec q (ntor s)), (Nat.ltb_spec q (ntor s + 1)); auto; lia.
  - cbn [andb]. symmetry. apply Nat.ltb_ge. assert (W <= q)%nat. { apply Nat.nlt_ge. intros L. apply E, Nat.div_small, L. } unfold first, W, width in *. destruct k; lia.
Qed.
(** the columns in the order of the dofs *)
Lemma dcoeff_loop_eq d k theta phi : dcoeff_loop s d k theta phi = map (fun q => d k (q / W)%nat (q mod W)%nat theta phi) (seq (first s k) (total s - first s k)).
Proof.
  unfold dcoeff_loop. rewrite (flat_map_grid (fun m i => if skipped s k m i then [] else [d k m i theta phi])) by apply W_pos. fold W.
  transitivity (flat_map (fun q => if (q <? first s k)%nat then [] else [d k (q / W)%nat (q mod W)%nat theta phi]) (seq 0 (total s))).
  - apply flat_blocks. intros q _. now rewrite skipped_first.
  - apply (flat_map_sub (fun q => d k (q / W)%nat (q mod W)%nat theta phi)). apply first_le.
Qed.
Lemma dcoeff_eq d qphi qtheta : dcoeff s d qphi qtheta =
  flat_map (fun k => map (fun q => d k (q / W)%nat (q mod W)%nat (2 * PI * qtheta) (2 * PI * qphi)) (seq (first s k) (total s - first s k))) (order s).
Proof. unfold dcoeff, order. destruct (stellsym s); cbn [flat_map]; rewrite !dcoeff_loop_eq, ?app_nil_r, <- ?app_assoc; reflexivity. Qed.
Theorem C66_length d qphi qtheta : length (dcoeff s d qphi qtheta) = num_dofs s.
Proof.
  rewrite dcoeff_eq, num_dofs_sum. induction (order s) as [|k l IH]; cbn [flat_map map list_sum]; auto. rewrite app_length, map_length, seq_length, IH. reflexivity.
Qed.

(** ** Positions and derivatives are affine in the dofs *)
Definition hid (d : column) (theta phi : R) : vec3 :=
  sum3 (map (fun k => sum3 (map (fun q => scal3 (nth q (arr s k) 0) (d k (q / W)%nat (q mod W)%nat theta phi)) (seq 0 (first s k)))) (order s)).
Lemma lin_flat d theta phi : lin s d theta phi =
  sum3 (map (fun k => sum3 (map (fun q => scal3 (nth q (arr s k) 0) (d k (q / W)%nat (q mod W)%nat theta phi)) (seq 0 (total s)))) (order s)).
Proof.
  rewrite sum3_swap. unfold lin. fold W.
  transitivity (sum3 (flat_map (fun m => map (fun i => term s d theta phi m i) (seq 0 W)) (seq 0 (mpol s + 1)))); [symmetry; apply (sum3_flat (fun m => map (fun i => term s d theta phi m i) (seq 0 W)))|].
  rewrite (grid_flat (fun m i => term s d theta phi m i) W 0 (mpol s + 1) W_pos). cbn [Nat.mul].
  f_equal. apply map_ext_in. intros q Hq. unfold term. apply sum3_ext. intros k _. f_equal. unfold ent. fold W. f_equal.
  rewrite Nat.mul_comm, <- Nat.div_mod; auto. assert (H := W_pos). lia.
Qed.
Lemma vmap2_app {A B C} (f : A -> B -> C) a b c d : length a = length c -> vmap2 f (a ++ b) (c ++ d) = vmap2 f a c ++ vmap2 f b d.
Proof. revert c. induction a as [|x a IH]; intros [|y c] H; cbn in *; try discriminate; auto. f_equal. apply IH. lia. Qed.
Lemma vmap2_maps {A B C D} (f : A -> B -> C) (g : D -> A) (h : D -> B) l : vmap2 f (map g l) (map h l) = map (fun x => f (g x) (h x)) l.
Proof. induction l; cbn; auto. now f_equal. Qed.
Lemma lin_split d qphi qtheta : lin s d (2 * PI * qtheta) (2 * PI * qphi) =
  add3 (hid d (2 * PI * qtheta) (2 * PI * qphi)) (sum3 (vmap2 scal3 (get_dofs s) (dcoeff s d qphi qtheta))).
Proof.
  rewrite lin_flat, dcoeff_eq. unfold get_dofs, hid. induction (order s) as [|k l IH]; cbn [map flat_map sum3 vmap2]; [v3; ring|].
  rewrite vmap2_app by (now rewrite !map_length). rewrite sum3_app, IH, vmap2_maps.
  pose proof (first_le s k) as L. replace (total s) with (first s k + (total s - first s k))%nat at 1 by lia. rewrite seq_app, map_app, sum3_app. cbn [Nat.add].
  rewrite <- !add3_assoc. f_equal. rewrite (add3_comm (sum3 _) (add3 _ _)), <- add3_assoc. f_equal. apply add3_comm.
Qed.
End Jac.
Lemma hid_set s d x theta phi : wf s -> hid (set_dofs s x) d theta phi = hid s d theta phi.
Proof.
  intros WF. destruct (set_dofs_eq s x) as (A & B & C & D). unfold hid, order. rewrite C.
  apply sum3_ext. intros k _. replace (first (set_dofs s x) k) with (first s k) by (destruct k; cbn; congruence). unfold width. rewrite B.
  apply sum3_ext. intros q Hq. apply in_seq in Hq. f_equal. rewrite D. destruct (existsb _ _); auto. unfold write_arr.
  rewrite nth_map_seq by (pose proof (first_le s k); lia). destruct (Nat.leb_spec (first s k) q); auto. lia.
Qed.
(** the six quantities with their dof derivatives: (value at (qphi, qtheta), column) *)
Definition same_shape (s s' : surf) : Prop := mpol s' = mpol s /\ ntor s' = ntor s /\ stellsym s' = stellsym s.
Lemma dcoeff_shape s s' d qphi qtheta : same_shape s s' -> dcoeff s' d qphi qtheta = dcoeff s d qphi qtheta.
Proof. intros (A & B & C). unfold dcoeff, dcoeff_loop, skipped, width. now rewrite A, B, C. Qed.
Lemma affine (G : surf -> R -> R -> vec3) (d : surf -> column) : (forall s qphi qtheta, G s qphi qtheta = lin s (d s) (2 * PI * qtheta) (2 * PI * qphi)) ->
  (forall s s', same_shape s s' -> d s' = d s) ->
  forall s x y qphi qtheta, wf s -> length x = num_dofs s -> length y = num_dofs s ->
  sub3 (G (set_dofs s x) qphi qtheta) (G (set_dofs s y) qphi qtheta) = sum3 (vmap2 scal3 (vsub x y) (dcoeff s (d s) qphi qtheta)).
Proof.
  intros HG HD s x y qphi qtheta WF Lx Ly.
  assert (S : forall z, same_shape s (set_dofs s z)) by (intros z; destruct (set_dofs_eq s z) as (A & B & C & _); repeat split; auto).
  rewrite !HG, !lin_split, (HD s (set_dofs s x)), (HD s (set_dofs s y)) by auto. rewrite !hid_set, (dcoeff_shape s (set_dofs s x)), (dcoeff_shape s (set_dofs s y)) by auto. rewrite !C45_set_then_get by auto.
  set (h := hid s _ _ _). set (l := dcoeff s _ _ _). assert (Ll : length l = num_dofs s) by apply C66_length. clearbody h l.
  assert (E : sub3 (sum3 (vmap2 scal3 x l)) (sum3 (vmap2 scal3 y l)) = sum3 (vmap2 scal3 (vsub x y) l)).
  { unfold vsub in *; revert y l Ly Ll. rewrite <- Lx. clear. induction x as [|a x IH]; intros [|b y] [|c l] Hy Hl; cbn in *; try discriminate; [apply v3_eq; cbn; ring|].
    rewrite <- IH by lia. generalize (sum3 (vmap2 scal3 x l)) (sum3 (vmap2 scal3 y l)). intros. v3; ring. }
  rewrite <- E. generalize (sum3 (vmap2 scal3 x l)) (sum3 (vmap2 scal3 y l)). intros. v3; ring.
Qed.
Section Affine.
Variables (nfp : nat) (junk : list (R * R)).
Lemma col_shape (s s' : surf) : same_shape s s' -> d0 s' nfp = d0 s nfp /\ d1 s' nfp = d1 s nfp /\ d2 s' nfp = d2 s nfp /\ d11 s' nfp = d11 s nfp /\ d12 s' nfp = d12 s nfp /\ d22 s' nfp = d22 s nfp.
Proof. intros (A & B & C). unfold d0, d1, d2, d11, d12, d22, N, ang, nn. rewrite B. repeat split; reflexivity. Qed.
(** moving the dofs from y to x moves the point (or derivative) by exactly the matrix of dof derivatives times x - y *)
Definition exact_jacobian (G : surf -> R -> R -> vec3) (d : surf -> column) : Prop :=
  forall s x y qphi qtheta, wf s -> length x = num_dofs s -> length y = num_dofs s ->
  sub3 (G (set_dofs s x) qphi qtheta) (G (set_dofs s y) qphi qtheta) = sum3 (vmap2 scal3 (vsub x y) (dcoeff s (d s) qphi qtheta)).
Theorem C66_dgamma_by_dcoeff : exact_jacobian (fun s => gamma_at s nfp junk) (fun s => d0 s nfp).
Proof. refine (affine _ _ _ _); [intros; apply gamma_eq|intros; now apply col_shape]. Qed.
Theorem C66_dgammadash1_by_dcoeff : exact_jacobian (fun s => gammadash1_at s nfp junk) (fun s => d1 s nfp).
Proof. refine (affine _ _ _ _); [intros; apply gammadash1_eq|intros; now apply col_shape]. Qed.
Theorem C66_dgammadash2_by_dcoeff : exact_jacobian (fun s => gammadash2_at s nfp junk) (fun s => d2 s nfp).
Proof. refine (affine _ _ _ _); [intros; apply gammadash2_eq|intros; now apply col_shape]. Qed.
Theorem C66_dgammadash1dash1_by_dcoeff : exact_jacobian (fun s => gammadash1dash1_at s nfp) (fun s => d11 s nfp).
Proof. refine (affine _ _ _ _); [intros; apply gammadash1dash1_eq|intros; now apply col_shape]. Qed.
Theorem C66_dgammadash1dash2_by_dcoeff : exact_jacobian (fun s => gammadash1dash2_at s nfp) (fun s => d12 s nfp).
Proof. refine (affine _ _ _ _); [intros; apply gammadash1dash2_eq|intros; now apply col_shape]. Qed.
Theorem C66_dgammadash2dash2_by_dcoeff : exact_jacobian (fun s => gammadash2dash2_at s nfp) (fun s => d22 s nfp).
Proof. refine (affine _ _ _ _); [intros; apply gammadash2dash2_eq|intros; now apply col_shape]. Qed.
End Affine.

(** ** Vector-Jacobian products *)
Section Vjp.
Variables (s : surf) (nfp : nat).
Let W := width s.
Lemma W_pos' : (0 < W)%nat. Proof. apply width_pos. Qed.
Lemma total_W : total s = ((mpol s + 1) * W)%nat. Proof. reflexivity. Qed.
Lemma shift_start k : In k (order s) -> shift s k = (Z.of_nat (start s (order s) k) - Z.of_nat (first s k))%Z.
Proof.
  assert (T : tot s = Z.of_nat (total s)) by (unfold tot, total, width; lia). assert (P : (2 * ntor s + 1 <= total s)%nat) by (unfold total, width; nia).
  unfold shift. rewrite T. unfold order. destruct (stellsym s) eqn:S; cbn [In]; intros H; repeat destruct H as [<-|H]; try contradiction; cbn [start kind_eqb first]; lia.
Qed.
(** the amounts added, by mode and array *)
Definition adds (b : vjp_body) (phi : R) (l : list (R * R * vec3)) (k : kind) (m i : nat) : list (Z * R) :=
  if skipped s k m i then [] else map (fun x => ((Z.of_nat (m * W + i) + shift s k)%Z, x)) (b phi k m i l).
Lemma fold_counter {A} (g : nat -> Z -> list A) n : forall i0 c w,
  fold_left (fun st i => let '(c, w) := st in ((c + 1)%Z, w ++ g i c)) (seq i0 n) (c, w) =
  ((c + Z.of_nat n)%Z, w ++ flat_map (fun i => g i (c + Z.of_nat i - Z.of_nat i0)%Z) (seq i0 n)).
Proof.
  induction n as [|n IH]; intros i0 c w; cbn [seq fold_left flat_map]; [rewrite app_nil_r; f_equal; lia|]. rewrite IH. f_equal; [lia|].
  rewrite <- app_assoc. f_equal. f_equal; [f_equal; lia|]. apply flat_blocks. intros i _. f_equal. lia.
Qed.
Lemma fold_rows {A} (g : nat -> nat -> Z -> list A) n : forall m0 w,
  fold_left (fun st m => fold_left (fun st i => let '(c, w) := st in ((c + 1)%Z, w ++ g m i c)) (seq 0 W) st) (seq m0 n) (Z.of_nat (m0 * W), w) =
  (Z.of_nat ((m0 + n) * W), w ++ flat_map (fun m => flat_map (fun i => g m i (Z.of_nat (m * W + i))) (seq 0 W)) (seq m0 n)).
Proof.
  induction n as [|n IH]; intros m0 w; cbn [seq fold_left flat_map]; [rewrite app_nil_r, Nat.add_0_r; auto|].
  rewrite (fold_counter (g m0)). replace (Z.of_nat (m0 * W) + Z.of_nat W)%Z with (Z.of_nat (S m0 * W)) by lia. rewrite IH. f_equal; [f_equal; lia|].
  rewrite <- app_assoc. f_equal. f_equal. apply flat_blocks. intros i _. f_equal. lia.
Qed.
Lemma skipped_neg k m i : let n := (Z.of_nat i - Z.of_nat (ntor s))%Z in
  ((m =? 0)%nat && (match k with RC | ZC => n <? 0 | RS | ZS => n <=? 0 end)%Z)%bool = skipped s k m i.
Proof.
  cbv zeta. unfold skipped. destruct (m =? 0)%nat; auto. cbn [andb].
  destruct k; repeat match goal with |- context [(?a <? ?b)%Z] => destruct (Z.ltb_spec a b) | |- context [(?a <=? ?b)%Z] => destruct (Z.leb_spec a b) | |- context [(?a <? ?b)%nat] => destruct (Nat.ltb_spec a b) | |- context [(?a <=? ?b)%nat] => destruct (Nat.leb_spec a b) end; auto; lia.
Qed.
Lemma additions_eq always junk b phi lanes : additions s nfp always junk b phi lanes =
  flat_map (fun m => flat_map (fun i => flat_map (fun k => adds b phi (combine (exact s nfp (map fst lanes) phi m i) (map snd lanes)) k m i) (order s)) (seq 0 W)) (seq 0 (mpol s + 1)).
Proof.
  unfold additions. rewrite vloop_exact. fold W.
  set (g := fun m i c => flat_map (fun k => if skipped s k m i then [] else map (fun x => ((c + shift s k)%Z, x)) (b phi k m i (combine (exact s nfp (map fst lanes) phi m i) (map snd lanes)))) (order s)).
  transitivity (snd (fold_left (fun st m => fold_left (fun st i => let '(c, w) := st in ((c + 1)%Z, w ++ g m i c)) (seq 0 W) st) (seq 0 (mpol s + 1)) (Z.of_nat (0 * W), []))).
  - cbn [Nat.mul Z.of_nat]. f_equal.
    assert (E : forall m i st, (let '(counter, w) := st in
        ((counter + 1)%Z, w ++ (if negb ((m =? 0)%nat && (Z.of_nat i - Z.of_nat (ntor s) <? 0)%Z) then map (fun x => ((counter + shift s RC)%Z, x)) (b phi RC m i (combine (exact s nfp (map fst lanes) phi m i) (map snd lanes))) else [])
         ++ (if negb (stellsym s) && negb ((m =? 0)%nat && (Z.of_nat i - Z.of_nat (ntor s) <=? 0)%Z) then map (fun x => ((counter + shift s RS)%Z, x)) (b phi RS m i (combine (exact s nfp (map fst lanes) phi m i) (map snd lanes))) else [])
         ++ (if negb (stellsym s) && negb ((m =? 0)%nat && (Z.of_nat i - Z.of_nat (ntor s) <? 0)%Z) then map (fun x => ((counter + shift s ZC)%Z, x)) (b phi ZC m i (combine (exact s nfp (map fst lanes) phi m i) (map snd lanes))) else [])
         ++ (if negb ((m =? 0)%nat && (Z.of_nat i - Z.of_nat (ntor s) <=? 0)%Z) then map (fun x => ((counter + shift s ZS)%Z, x)) (b phi ZS m i (combine (exact s nfp (map fst lanes) phi m i) (map snd lanes))) else []))) =
        (let '(c, w) := st in ((c + 1)%Z, w ++ g m i c))).
    { intros m i [c w]. f_equal. f_equal. unfold g, order.
      pose proof (skipped_neg RC m i) as K1. pose proof (skipped_neg RS m i) as K2. pose proof (skipped_neg ZC m i) as K3. pose proof (skipped_neg ZS m i) as K4. cbv zeta iota in K1, K2, K3, K4. rewrite K1, K2.
      destruct (stellsym s); cbn [negb andb flat_map]; change (skipped s ZC m i) with (skipped s RC m i); change (skipped s ZS m i) with (skipped s RS m i);
        destruct (skipped s RC m i), (skipped s RS m i); cbn [negb app]; rewrite ?app_nil_r; reflexivity. }
    assert (F : forall l1 l2 st, fold_left (fun a m => fold_left (fun a i => (fun m i st => let '(counter, w) := st in
        ((counter + 1)%Z, w ++ (if negb ((m =? 0)%nat && (Z.of_nat i - Z.of_nat (ntor s) <? 0)%Z) then map (fun x => ((counter + shift s RC)%Z, x)) (b phi RC m i (combine (exact s nfp (map fst lanes) phi m i) (map snd lanes))) else [])
         ++ (if negb (stellsym s) && negb ((m =? 0)%nat && (Z.of_nat i - Z.of_nat (ntor s) <=? 0)%Z) then map (fun x => ((counter + shift s RS)%Z, x)) (b phi RS m i (combine (exact s nfp (map fst lanes) phi m i) (map snd lanes))) else [])
         ++ (if negb (stellsym s) && negb ((m =? 0)%nat && (Z.of_nat i - Z.of_nat (ntor s) <? 0)%Z) then map (fun x => ((counter + shift s ZC)%Z, x)) (b phi ZC m i (combine (exact s nfp (map fst lanes) phi m i) (map snd lanes))) else [])
         ++ (if negb ((m =? 0)%nat && (Z.of_nat i - Z.of_nat (ntor s) <=? 0)%Z) then map (fun x => ((counter + shift s ZS)%Z, x)) (b phi ZS m i (combine (exact s nfp (map fst lanes) phi m i) (map snd lanes))) else []))) m i a) l2 a) l1 st =
      fold_left (fun st m => fold_left (fun st i => let '(c, w) := st in ((c + 1)%Z, w ++ g m i c)) l2 st) l1 st).
    { induction l1 as [|m l1 IH]; intros l2 st; cbn [fold_left]; auto. rewrite IH. f_equal. clear IH. revert st. induction l2 as [|i l2 IH2]; intros st; cbn [fold_left]; auto. rewrite IH2. f_equal. apply E. }
    apply F.
  - rewrite (fold_rows g). cbn [snd app]. reflexivity.
Qed.
(** the value at index j of a sum over arrays and entries *)
Lemma rsuml_pick (f : nat -> R) a n j : rsuml (map (fun q => if Z.eqb (Z.of_nat q - Z.of_nat a) (Z.of_nat j) then f q else 0) (seq a n)) = if (j <? n)%nat then f (a + j)%nat else 0.
Proof.
  revert a j. induction n as [|n IH]; intros a j; cbn [seq map rsuml]; auto.
  destruct (Z.eqb_spec (Z.of_nat a - Z.of_nat a) (Z.of_nat j)) as [E|E].
  - assert (j = 0)%nat by lia. subst j. rewrite Nat.add_0_r. change (0 <? S n)%nat with true. cbv iota. rewrite (rsuml_map_zero _ (seq (S a) n)); [ring|]. intros q Hq. apply in_seq in Hq. destruct (Z.eqb_spec (Z.of_nat q - Z.of_nat a) (Z.of_nat 0)); auto. lia.
  - destruct j as [|j]; [lia|]. rewrite Rplus_0_l.
    transitivity (if (j <? n)%nat then f (S a + j)%nat else 0).
    + rewrite <- IH. apply rsuml_map_ext. intros q Hq. destruct (Z.eqb_spec (Z.of_nat q - Z.of_nat a) (Z.of_nat (S j))), (Z.eqb_spec (Z.of_nat q - Z.of_nat (S a)) (Z.of_nat j)); auto; lia.
    + replace (S a + j)%nat with (a + S j)%nat by lia. reflexivity.
Qed.
Lemma rsuml_blocks (f : kind -> nat -> R) l j : NoDup l ->
  rsuml (map (fun k => rsuml (map (fun q => if Z.eqb (Z.of_nat (start s l k) + (Z.of_nat q - Z.of_nat (first s k))) (Z.of_nat j) then f k q else 0) (seq (first s k) (total s - first s k)))) l) =
  nth j (flat_map (fun k => map (f k) (seq (first s k) (total s - first s k))) l) 0.
Proof.
  intros ND. revert j. induction ND as [|k l NI ND IH]; intros j; cbn [map rsuml flat_map]; [now destruct j|].
  set (n := (total s - first s k)%nat). cbn [start]. destruct (kind_eqb_spec k k) as [_|]; [|congruence].
  rewrite (rsuml_map_ext _ (fun q => if Z.eqb (Z.of_nat q - Z.of_nat (first s k)) (Z.of_nat j) then f k q else 0)) by (intros; now rewrite Z.add_0_l).
  rewrite rsuml_pick. destruct (Nat.ltb_spec j n) as [L|L].
  - rewrite app_nth1 by (rewrite map_length, seq_length; lia). rewrite (map_seq_shift (f k)), nth_map_seq by auto.
    rewrite (rsuml_map_zero _ l); [ring|]. intros k' Hk. apply rsuml_map_zero. intros q Hq. apply in_seq in Hq. destruct (kind_eqb_spec k' k) as [->|]; [contradiction|]. fold n.
    destruct (Z.eqb_spec (Z.of_nat (n + start s l k') + (Z.of_nat q - Z.of_nat (first s k'))) (Z.of_nat j)); auto. lia.
  - rewrite app_nth2 by (rewrite map_length, seq_length; lia). rewrite map_length, seq_length. fold n. rewrite <- IH, Rplus_0_l. apply rsuml_map_ext. intros k' Hk.
    apply rsuml_map_ext. intros q Hq. apply in_seq in Hq. destruct (kind_eqb_spec k' k) as [->|]; [contradiction|]. fold n.
    destruct (Z.eqb_spec (Z.of_nat (n + start s l k') + (Z.of_nat q - Z.of_nat (first s k'))) (Z.of_nat j)), (Z.eqb_spec (Z.of_nat (start s l k') + (Z.of_nat q - Z.of_nat (first s k'))) (Z.of_nat (j - n))); auto; lia.
Qed.

Definition pairs_with (b : vjp_body) (scale : R) (d : column) : Prop := forall phi k m i lanes,
  rsuml (b phi k m i (combine (exact s nfp (map fst lanes) phi m i) (map snd lanes))) * scale = rsuml (map (fun tv => dot3 (snd tv) (d k m i (fst tv) phi)) lanes).
Ltac pw := intros phi k m i lanes; unfold b0, b1, b2, d0, d1, d2, hadd, exact, dot3; induction lanes as [|[t [x y z]] lanes IH]; [destruct k; cbn; ring|];
  cbn [map combine fst snd rsuml]; rewrite <- IH; destruct k; cbn; unfold N; ring.
Lemma pairs_b0 : pairs_with b0 1 (d0 s nfp). Proof. pw. Qed.
Lemma pairs_b1 : pairs_with (b1 s nfp) (2 * PI) (d1 s nfp). Proof. pw. Qed.
Lemma pairs_b2 : pairs_with b2 (2 * PI) (d2 s nfp). Proof. pw. Qed.

Lemma rsuml_flat {A} (f : A -> list R) l : rsuml (flat_map f l) = rsuml (map (fun a => rsuml (f a)) l).
Proof. induction l as [|a l IH]; cbn; auto. now rewrite rsuml_app, IH. Qed.
Lemma map_flat {A B C} (g : B -> C) (f : A -> list B) l : map g (flat_map f l) = flat_map (fun a => map g (f a)) l.
Proof. induction l as [|a l IH]; cbn; auto. now rewrite map_app, IH. Qed.
Definition at_j (j : nat) (w : list (Z * R)) : R := rsuml (map (fun a => if Z.eqb (fst a) (Z.of_nat j) then snd a else 0) w).
Lemma at_j_flat {A} j (f : A -> list (Z * R)) l : at_j j (flat_map f l) = rsuml (map (fun a => at_j j (f a)) l).
Proof. unfold at_j. rewrite map_flat. apply rsuml_flat. Qed.
Lemma at_j_adds b phi l k m i j : at_j j (adds b phi l k m i) =
  if skipped s k m i then 0 else if Z.eqb (Z.of_nat (m * W + i) + shift s k) (Z.of_nat j) then rsuml (b phi k m i l) else 0.
Proof.
  unfold adds. destruct (skipped s k m i); auto. unfold at_j. rewrite map_map. cbn [fst snd]. destruct (Z.eqb _ _); [now rewrite map_id|]. apply rsuml_map_zero. auto.
Qed.
Definition dcols (d : column) (theta phi : R) : list vec3 :=
  flat_map (fun k => map (fun q => d k (q / W)%nat (q mod W)%nat theta phi) (seq (first s k) (total s - first s k))) (order s).
Lemma rsuml_if (c : bool) {A} (f : A -> R) l : (if c then rsuml (map f l) else 0) = rsuml (map (fun a => if c then f a else 0) l).
Proof. destruct c; auto. symmetry. apply rsuml_map_zero. auto. Qed.
Lemma additions_at always junk b scale d phi lanes j : pairs_with b scale d ->
  at_j j (additions s nfp always junk b phi lanes) * scale = rsuml (map (fun tv => dot3 (snd tv) (nth j (dcols d (fst tv) phi) v0)) lanes).
Proof.
  intros HP. rewrite additions_eq.
  rewrite (flat_map_grid (fun m i => flat_map (fun k => adds b phi (combine (exact s nfp (map fst lanes) phi m i) (map snd lanes)) k m i) (order s)) W (mpol s + 1) W_pos').
  rewrite <- total_W, at_j_flat.
  rewrite (rsuml_map_ext _ (fun q => rsuml (map (fun k => at_j j (adds b phi (combine (exact s nfp (map fst lanes) phi (q / W)%nat (q mod W)%nat) (map snd lanes)) k (q / W)%nat (q mod W)%nat)) (order s)))) by (intros; apply at_j_flat).
  rewrite rsuml_swap, <- rsuml_map_mul.
  transitivity (rsuml (map (fun k => rsuml (map (fun q => rsuml (map (fun tv => if Z.eqb (Z.of_nat q + shift s k) (Z.of_nat j) then dot3 (snd tv) (d k (q / W)%nat (q mod W)%nat (fst tv) phi) else 0) lanes)) (seq (first s k) (total s - first s k)))) (order s))).
  - apply rsuml_map_ext. intros k _. rewrite <- rsuml_map_mul. pose proof (first_le s k) as L.
    replace (total s) with (first s k + (total s - first s k))%nat at 1 by lia. rewrite seq_app, map_app, rsuml_app. rewrite rsuml_map_zero; [rewrite Rplus_0_l; cbn [Nat.add]|].
    + apply rsuml_map_ext. intros q Hq. apply in_seq in Hq. rewrite at_j_adds. unfold W. rewrite (skipped_first s k q). fold W. destruct (Nat.ltb_spec q (first s k)); [lia|].
      assert (P := W_pos'). rewrite Nat.mul_comm, <- Nat.div_mod by lia. rewrite <- rsuml_if, <- HP. destruct (Z.eqb _ _); ring.
    + intros q Hq. apply in_seq in Hq. rewrite at_j_adds. unfold W. rewrite (skipped_first s k q). fold W. destruct (Nat.ltb_spec q (first s k)); [ring|lia].
  - rewrite (rsuml_map_ext _ (fun k => rsuml (map (fun tv => rsuml (map (fun q => if Z.eqb (Z.of_nat q + shift s k) (Z.of_nat j) then dot3 (snd tv) (d k (q / W)%nat (q mod W)%nat (fst tv) phi) else 0) (seq (first s k) (total s - first s k)))) lanes))) by (intros; apply rsuml_swap).
    rewrite rsuml_swap. apply rsuml_map_ext. intros [th v] _. cbn [fst snd].
    transitivity (nth j (flat_map (fun k => map (fun q => dot3 v (d k (q / W)%nat (q mod W)%nat th phi)) (seq (first s k) (total s - first s k))) (order s)) 0).
    + rewrite <- (rsuml_blocks (fun k q => dot3 v (d k (q / W)%nat (q mod W)%nat th phi)) (order s) j (order_NoDup s)). apply rsuml_map_ext. intros k Hk. apply rsuml_map_ext. intros q Hq.
      rewrite shift_start by auto. replace (Z.of_nat q + (Z.of_nat (start s (order s) k) - Z.of_nat (first s k)))%Z with (Z.of_nat (start s (order s) k) + (Z.of_nat q - Z.of_nat (first s k)))%Z by lia. reflexivity.
    + replace 0 with (dot3 v v0) by (unfold dot3; cbn; ring). rewrite <- (map_nth (dot3 v)). f_equal. unfold dcols. rewrite map_flat. apply flat_blocks. intros k _. now rewrite map_map.
Qed.
Lemma registers_sum {A} sz (pad : A) lane n (F : A -> R) : (0 < sz)%nat -> F pad = 0 ->
  rsuml (map (fun reg => rsuml (map F reg)) (registers sz pad lane n)) = rsuml (map (fun k2 => F (lane k2)) (seq 0 n)).
Proof.
  intros Hs HF. unfold registers. rewrite map_map.
  pose proof (starts_rows (fun k2 => F (lane k2)) sz Hs ((n + sz - 1) / sz) 0 n) as E. rewrite Nat.sub_0_r in E. rewrite <- E by lia. rewrite rsuml_flat. unfold starts.
  rewrite (map_ext (fun c => (c * sz)%nat) (fun c => (0 + c * sz)%nat)) by auto. apply rsuml_map_ext. intros k2 _. rewrite map_map.
  clear E. induction (seq 0 sz) as [|l ls IH]; cbn [map filter rsuml]; auto. rewrite IH. destruct (k2 + l <? n)%nat; cbn [map rsuml]; [reflexivity|rewrite HF; ring].
Qed.
Theorem vjp_transpose always sz junk b scale d qphis qthetas v j : pairs_with b scale d -> (0 < sz)%nat -> (j < num_dofs s)%nat ->
  nth j (vjp s nfp always sz junk b scale qphis qthetas v) 0 =
  rsuml (map (fun k1 => rsuml (map (fun k2 => dot3 (v k1 k2) (nth j (dcoeff s d (nth k1 qphis 0) (nth k2 qthetas 0)) v0)) (seq 0 (length qthetas)))) (seq 0 (length qphis))).
Proof.
  intros HP Hs Hj. unfold vjp, collect. rewrite map_map, nth_map_seq by auto. fold (at_j j (vjp_additions s nfp always sz junk b qphis qthetas v)). unfold vjp_additions.
  rewrite at_j_flat, <- rsuml_map_mul. apply rsuml_map_ext. intros k1 _. rewrite at_j_flat, <- rsuml_map_mul.
  rewrite (rsuml_map_ext _ (fun reg => rsuml (map (fun tv => dot3 (snd tv) (nth j (dcols d (fst tv) (2 * PI * nth k1 qphis 0)) v0)) reg))) by (intros; apply additions_at; auto).
  rewrite (registers_sum sz (0, v0) (fun k2 => (2 * PI * nth k2 qthetas 0, v k1 k2)) (length qthetas) (fun tv => dot3 (snd tv) (nth j (dcols d (fst tv) (2 * PI * nth k1 qphis 0)) v0)) Hs) by (unfold dot3; cbn; ring).
  apply rsuml_map_ext. intros k2 _. cbn [fst snd]. now rewrite (dcoeff_eq s d).
Qed.
(** no addition outside the result array *)
Theorem C66_vjp_in_bounds always sz junk b qphis qthetas v x : In x (vjp_additions s nfp always sz junk b qphis qthetas v) -> (0 <= fst x < Z.of_nat (num_dofs s))%Z.
Proof.
  unfold vjp_additions. rewrite in_flat_map. intros (k1 & _ & H). apply in_flat_map in H as (reg & _ & H). rewrite additions_eq in H.
  rewrite (flat_map_grid (fun m i => flat_map (fun k => adds b _ (combine (exact s nfp (map fst reg) _ m i) (map snd reg)) k m i) (order s)) W (mpol s + 1) W_pos') in H.
  apply in_flat_map in H as (q & Hq & H). apply in_flat_map in H as (k & Hk & H). rewrite <- total_W in Hq. apply in_seq in Hq. unfold adds in H. unfold W in H. rewrite (skipped_first s k q) in H. fold W in H.
  destruct (Nat.ltb_spec q (first s k)) as [|L]; [destruct H|]. apply in_map_iff in H as (y & <- & _). cbn [fst]. assert (P := W_pos'). rewrite Nat.mul_comm, <- Nat.div_mod by lia.
  rewrite shift_start by auto. rewrite num_dofs_sum.
  assert (B : forall l, In k l -> (start s l k + (total s - first s k) <= list_sum (map (fun k => total s - first s k) l))%nat).
  { induction l as [|k' l IH]; [intros []|]. intros HI. cbn [start map list_sum fold_right]. change (fold_right Nat.add 0 ?x)%nat with (list_sum x). destruct (kind_eqb_spec k k') as [->|NE]; [lia|]. destruct HI; [congruence|]. specialize (IH H). lia. }
  specialize (B (order s) Hk). lia.
Qed.
Theorem C66_dgamma_vjp always sz junk qphis qthetas v j : (0 < sz)%nat -> (j < num_dofs s)%nat ->
  nth j (vjp s nfp always sz junk b0 1 qphis qthetas v) 0 =
  rsuml (map (fun k1 => rsuml (map (fun k2 => dot3 (v k1 k2) (nth j (dcoeff s (d0 s nfp) (nth k1 qphis 0) (nth k2 qthetas 0)) v0)) (seq 0 (length qthetas)))) (seq 0 (length qphis))).
Proof. apply vjp_transpose, pairs_b0. Qed.
Theorem C66_dgammadash1_vjp always sz junk qphis qthetas v j : (0 < sz)%nat -> (j < num_dofs s)%nat ->
  nth j (vjp s nfp always sz junk (b1 s nfp) (2 * PI) qphis qthetas v) 0 =
  rsuml (map (fun k1 => rsuml (map (fun k2 => dot3 (v k1 k2) (nth j (dcoeff s (d1 s nfp) (nth k1 qphis 0) (nth k2 qthetas 0)) v0)) (seq 0 (length qthetas)))) (seq 0 (length qphis))).
Proof. apply vjp_transpose, pairs_b1. Qed.
Theorem C66_dgammadash2_vjp always sz junk qphis qthetas v j : (0 < sz)%nat -> (j < num_dofs s)%nat ->
  nth j (vjp s nfp always sz junk b2 (2 * PI) qphis qthetas v) 0 =
  rsuml (map (fun k1 => rsuml (map (fun k2 => dot3 (v k1 k2) (nth j (dcoeff s (d2 s nfp) (nth k1 qphis 0) (nth k2 qthetas 0)) v0)) (seq 0 (length qthetas)))) (seq 0 (length qphis))).
Proof. apply vjp_transpose, pairs_b2. Qed.
Theorem C66_vjp_length always sz junk b scale qphis qthetas v : length (vjp s nfp always sz junk b scale qphis qthetas v) = num_dofs s.
Proof. unfold vjp, collect. now rewrite !map_length, seq_length. Qed.
End Vjp.
(** the coefficients that are no dofs do move the surface: a (0,-1) coefficient *)
Theorem C66_hidden_entries_move_the_surface :
  let s := allocate 1 1 true in let s' := fst (set_coef s RC 0 (-1) 1) in
  get_dofs s' = get_dofs s /\ gamma_at s 1 [] 0 0 = v0 /\ gamma_at s' 1 [] 0 0 = V3 1 0 0.
Proof.
  cbv zeta. split; [|split].
  - reflexivity.
  - rewrite (proj1 (C65_gamma_closed_form _ _ _ _ _)). lazy -[Rplus Rmult Ropp Rminus cos sin PI IZR INR]. apply v3_eq; cbn [vx vy vz]; ring.
  - rewrite (proj1 (C65_gamma_closed_form _ _ _ _ _)). lazy -[Rplus Rmult Ropp Rminus cos sin PI IZR INR]. rewrite !Rmult_0_r, !Rminus_0_r, cos_0, sin_0. apply v3_eq; cbn [vx vy vz]; ring.
Qed.
