(** C38, C39, C55, C59: symmetric coil sets, current arithmetic, symmetry of their field, rotated curves. *)
From Verif Require Import Vec3 BSModel BSDeriv BSVjp CoilModel.
From Coq Require Import Ranalysis1 Permutation.
Open Scope R_scope.

(** ** Specification *)
(** rotation about the z axis, and the stellarator reflection (x, y, z) -> (x, -y, -z) *)
Definition rotz (a : R) (v : vec3) : vec3 := V3 (cos a * vx v - sin a * vy v) (sin a * vx v + cos a * vy v) (vz v).
Definition reflect (v : vec3) : vec3 := V3 (vx v) (- vy v) (- vz v).
Definition on_q (f : vec3 -> vec3) (q : qpt) : qpt := (f (fst q), f (snd q)).

(** ** C39: currents *)
Theorem C39_arithmetic env a b s :
  cur_value env (c_mul a s) = s * cur_value env a /\
  (forall c, c_div a s = Some c -> cur_value env c = cur_value env a / s) /\ (c_div a s = None <-> s = 0) /\
  cur_value env (c_neg a) = - cur_value env a /\
  cur_value env (c_add a b) = cur_value env a + cur_value env b /\
  cur_value env (c_sub a b) = cur_value env a - cur_value env b.
Proof.
  unfold c_div. split; [reflexivity|]. split; [intros c|split; [|cbn; repeat split; ring]].
  - destruct (Req_EM_T s 0); [discriminate|]. intros E. injection E as <-. cbn. field. auto.
  - destruct (Req_EM_T s 0); split; intros; auto; [discriminate|contradiction].
Qed.
Lemma fold_cadd env l : forall c, cur_value env (fold_left c_add l c) = cur_value env c + rsuml (map (cur_value env) l).
Proof. induction l as [|a l IH]; intros c; cbn; [ring|]. rewrite IH. cbn. ring. Qed.
Theorem C39_builtin_sum env l : (c_pysum l = None <-> l = []) /\ forall c, c_pysum l = Some c -> cur_value env c = rsuml (map (cur_value env) l).
Proof.
  destruct l as [|a l]; cbn; (split; [split; auto; discriminate|]); intros c E; [discriminate|]. injection E as <-. apply fold_cadd.
Qed.
(** the number that a Derivative assigns to a base current, and pairing with velocities *)
Definition dpair (d : cder) (vel : nat -> R) : R := rsuml (map (fun kv => snd kv * vel (fst kv)) d).
Lemma dpair_put k v d vel : dpair (dput k v d) vel = dpair d vel + v * vel k.
Proof.
  induction d as [|[k' v'] d IH]; cbn; [unfold dpair; cbn; ring|]. destruct (Nat.eqb_spec k' k) as [->|N]; unfold dpair in *; cbn; [ring|]. rewrite IH. ring.
Qed.
Lemma dpair_merge b vel : forall a, dpair (dmerge a b) vel = dpair a vel + dpair b vel.
Proof.
  unfold dmerge. induction b as [|[k v] b IH]; intros a; cbn [fold_left fst snd]; [unfold dpair at 3; cbn; ring|]. rewrite IH, dpair_put. unfold dpair at 4. cbn. unfold dpair. ring.
Qed.
Lemma dpair_scale c d vel : dpair (dscale c d) vel = c * dpair d vel.
Proof. unfold dpair, dscale. rewrite map_map, <- rsuml_map_scale. apply rsuml_map_ext. intros; cbn. ring. Qed.
(** vjp(v) pairs with any velocity of the base currents to v times the derivative of get_value *)
Theorem C39_vjp_is_derivative c : forall (env : nat -> R -> R) (vel : nat -> R) t v, (forall id, D (env id) t (vel id)) ->
  D (fun s => v * cur_value (fun id => env id s) c) t (dpair (cur_vjp c v) vel).
Proof.
  induction c as [id|c IH s0|a IHa b IHb]; intros env vel t v H; cbn [cur_value cur_vjp].
  - unfold dpair; cbn. eapply D_val; [|apply D_mul; [apply D_const|apply H]]. cbv beta. ring.
  - rewrite dpair_scale. eapply D_ext; [|eapply D_val; [|apply D_mul; [apply (D_const s0)|apply (IH env vel t v H)]]]; cbv beta; [intros; ring|ring].
  - rewrite dpair_merge. eapply D_ext; [|apply D_add; [apply (IHa env vel t v H)|apply (IHb env vel t v H)]]; cbv beta. intros; ring.
Qed.
(** the dictionary has each base current once, and the entry of a base current is v times the sum of the products of the
    scale factors along the paths to it *)
Fixpoint coeff (id : nat) (c : current) : R :=
  match c with Cur i => if Nat.eqb i id then 1 else 0 | CScaled c s => s * coeff id c | CSum a b => coeff id a + coeff id b end.
Lemma dget_put k k' v d : dget k (dput k' v d) = dget k d + (if Nat.eqb k' k then v else 0).
Proof.
  induction d as [|[k2 v2] d IH]; cbn; [destruct (Nat.eqb_spec k' k); ring|]. destruct (Nat.eqb_spec k2 k') as [->|N]; cbn.
  - destruct (Nat.eqb_spec k' k); ring.
  - destruct (Nat.eqb_spec k2 k) as [->|N2]; [|exact IH]. destruct (Nat.eqb_spec k' k); [now subst|ring].
Qed.
Lemma keys_put k v d : map fst (dput k v d) = if existsb (Nat.eqb k) (map fst d) then map fst d else map fst d ++ [k].
Proof.
  induction d as [|[k2 v2] d IH]; cbn; [reflexivity|]. rewrite (Nat.eqb_sym k k2). destruct (Nat.eqb k2 k); cbn; [reflexivity|]. rewrite IH. now destruct (existsb _ _).
Qed.
Lemma NoDup_put k v d : NoDup (map fst d) -> NoDup (map fst (dput k v d)).
Proof.
  intros H. rewrite keys_put. destruct (existsb _ _) eqn:E; auto. apply (Permutation_NoDup (Permutation_cons_append (map fst d) k)).
  constructor; auto. intros HI. assert (existsb (Nat.eqb k) (map fst d) = true); [|congruence]. apply existsb_exists. exists k. split; auto. apply Nat.eqb_refl.
Qed.
Lemma NoDup_merge b : forall a, NoDup (map fst a) -> NoDup (map fst (dmerge a b)).
Proof. unfold dmerge. induction b as [|[k v] b IH]; intros a H; cbn; auto. apply IH. now apply NoDup_put. Qed.
Lemma dget_absent k d : ~ In k (map fst d) -> dget k d = 0.
Proof. induction d as [|[k2 v2] d IH]; cbn; auto. intros H. destruct (Nat.eqb_spec k2 k); [exfalso; auto|]. apply IH. tauto. Qed.
Lemma dget_merge k b : forall a, NoDup (map fst b) -> dget k (dmerge a b) = dget k a + dget k b.
Proof.
  unfold dmerge. induction b as [|[k2 v] b IH]; intros a H; cbn; [ring|]. inversion_clear H. rewrite IH, dget_put by auto.
  destruct (Nat.eqb_spec k2 k) as [->|N]; [|ring]. rewrite (dget_absent k b) by auto. ring.
Qed.
Lemma dget_scale k c d : dget k (dscale c d) = c * dget k d.
Proof. induction d as [|[k2 v] d IH]; cbn; [ring|]. destruct (Nat.eqb k2 k); [reflexivity|exact IH]. Qed.
Theorem C39_vjp_entries c : forall v, NoDup (map fst (cur_vjp c v)) /\ forall id, dget id (cur_vjp c v) = v * coeff id c.
Proof.
  induction c as [i|c IH s|a IHa b IHb]; intros v; cbn [cur_vjp coeff].
  - split; [repeat constructor; auto|]. intros id. cbn. destruct (Nat.eqb i id); ring.
  - destruct (IH v) as [N G]. split; [unfold dscale; rewrite map_map; exact N|]. intros id. rewrite dget_scale, G. ring.
  - destruct (IHa v) as [Na Ga], (IHb v) as [Nb Gb]. split; [now apply NoDup_merge|]. intros id. rewrite dget_merge, Ga, Gb by auto. ring.
Qed.
Example C39_example : cur_value (fun id => INR id + 1) (c_sub (c_mul (Cur 0) 3) (c_add (Cur 1) (Cur 0))) = 0 /\
  forall id, dget id (cur_vjp (c_sub (c_mul (Cur 0) 3) (c_add (Cur 1) (Cur 0))) 5) = match id with O => 10 | S O => -5 | _ => 0 end.
Proof. split; [cbn; lra|]. intros [|[|id]]; cbn; lra. Qed.

(** ** RotatedCurve *)
Lemma vecmat_rotmat phi flip v : vecmat v (rotmat phi flip) = if flip then reflect (rotz phi v) else rotz phi v.
Proof. destruct v. unfold rotmat, rotz, reflect. destruct flip; apply v3_eq; cbn; ring. Qed.
Lemma sc1 a : cos a * cos a + sin a * sin a = 1. Proof. assert (H := sin2_cos2 a). unfold Rsqr in H. lra. Qed.
Theorem C59_rotated_curve env c phi flip :
  curve_data env (CRot c phi flip) = map (on_q (fun v => if flip then reflect (rotz phi v) else rotz phi v)) (curve_data env c) /\
  rot_flip phi flip = flip.
Proof.
  split.
  - cbn [curve_data]. apply map_ext. intros q. unfold on_q. now rewrite !vecmat_rotmat.
  - unfold rot_flip, rotmat. destruct flip; cbn; destruct (Req_EM_T _ _); auto; exfalso; lra.
Qed.
(** lengths, dot products and the arclength element are preserved *)
Theorem C59_rotation_preserves_geometry phi flip u v :
  dot3 (vecmat u (rotmat phi flip)) (vecmat v (rotmat phi flip)) = dot3 u v /\
  cross (vecmat u (rotmat phi flip)) (vecmat v (rotmat phi flip)) = vecmat (cross u v) (rotmat phi flip).
Proof.
  assert (S : sin phi * sin phi = 1 - cos phi * cos phi) by (assert (S := sc1 phi); lra). rewrite !vecmat_rotmat. destruct u, v. unfold rotz, reflect.
  generalize dependent (cos phi). generalize dependent (sin phi). intros s c S.
  split; [destruct flip; unfold dot3; cbn; ring [S]|].
  destruct flip; cbn; apply v3_eq; cbn; ring [S].
Qed.
(** the vjp handed to the base curve is the transpose: pairing is preserved through any nesting of rotations *)
Fixpoint base_id (c : curve) : nat := match c with CBase id => id | CRot c _ _ => base_id c end.
Fixpoint turn (c : curve) (v : vec3) : vec3 := match c with CBase _ => v | CRot c phi flip => vecmat (turn c v) (rotmat phi flip) end.
Lemma curve_data_turn env c : curve_data env c = map (on_q (turn c)) (env (base_id c)).
Proof.
  induction c as [id|c IH phi flip]; cbn [curve_data turn base_id]; [symmetry; rewrite <- map_id; apply map_ext; intros []; reflexivity|].
  rewrite IH, map_map. reflexivity.
Qed.
Lemma pull_base c : forall v, fst (curve_pull c v) = base_id c.
Proof. induction c as [id|c IH phi flip]; intros v; cbn; auto. Qed.
Theorem C59_vjp_is_transposed c : forall v w, length v = length w ->
  pair3 v (map (turn c) w) = pair3 (snd (curve_pull c v)) w.
Proof.
  induction c as [id|c IH phi flip]; intros v w L; cbn [turn curve_pull]; [now rewrite map_id|].
  rewrite <- (map_map (turn c) (fun a => vecmat a (rotmat phi flip))). rewrite <- IH by now rewrite map_length.
  assert (L2 : length v = length (map (turn c) w)) by now rewrite map_length. revert L2. generalize (map (turn c) w). clear. intros w L. unfold pair3.
  revert w L. induction v as [|a v IH]; intros [|b w] L; cbn in *; try discriminate; auto. rewrite IH by lia. f_equal. now rewrite dot3_transp.
Qed.

(** ** C38: the symmetric coil set *)
Definition reps (ss : bool) : nat := if ss then 2 else 1.
Lemma flat_map_len {A B} (f : A -> list B) l n : (forall a, In a l -> length (f a) = n) -> length (flat_map f l) = (length l * n)%nat.
Proof. induction l as [|a l IH]; cbn; intros H; auto. rewrite app_length, H, IH by auto. lia. Qed.
Lemma nth_error_flat {A B} (f : A -> list B) n l : (forall a, In a l -> length (f a) = n) ->
  forall k j a, nth_error l k = Some a -> (j < n)%nat -> nth_error (flat_map f l) (k * n + j) = nth_error (f a) j.
Proof.
  induction l as [|b l IH]; intros H [|k] j a E J; cbn in *; try discriminate.
  - injection E as ->. rewrite nth_error_app1 by (rewrite H by auto; lia). reflexivity.
  - assert (Hb : length (f b) = n) by (apply H; auto). rewrite nth_error_app2 by lia. rewrite Hb.
    replace (n + k * n + j - n)%nat with (k * n + j)%nat by lia. apply IH; auto.
Qed.
Lemma flips_len ss : length (flips ss) = reps ss. Proof. now destruct ss. Qed.
Lemma flips_nth ss f : (f < reps ss)%nat -> nth_error (flips ss) f = Some (Nat.eqb f 1).
Proof. destruct ss, f as [|[|f]]; cbn; intros; auto; lia. Qed.
Lemma sym_len {A} (h : nat -> bool -> A -> A) (base : list A) nfp ss :
  length (flat_map (fun k => flat_map (fun flip => map (h k flip) base) (flips ss)) (seq 0 nfp)) = (nfp * (reps ss * length base))%nat.
Proof.
  rewrite (flat_map_len _ _ (reps ss * length base)), seq_length; auto.
  intros k _. rewrite (flat_map_len _ _ (length base)), flips_len; auto. intros fl _. apply map_length.
Qed.
Lemma sym_nth {A} (h : nat -> bool -> A -> A) (base : list A) nfp ss k f i c : (k < nfp)%nat -> (f < reps ss)%nat -> nth_error base i = Some c ->
  nth_error (flat_map (fun k => flat_map (fun flip => map (h k flip) base) (flips ss)) (seq 0 nfp)) ((k * reps ss + f) * length base + i) = Some (h k (Nat.eqb f 1) c).
Proof.
  intros K F I. assert (IL : (i < length base)%nat) by (apply nth_error_Some; congruence).
  replace ((k * reps ss + f) * length base + i)%nat with (k * (reps ss * length base) + (f * length base + i))%nat by ring.
  rewrite (nth_error_flat _ (reps ss * length base) (seq 0 nfp)) with (a := k).
  - rewrite (nth_error_flat _ (length base) (flips ss)) with (a := Nat.eqb f 1); auto using flips_nth, map_length.
    rewrite nth_error_map, I. reflexivity.
  - intros k' _. rewrite (flat_map_len _ _ (length base)), flips_len; auto using map_length.
  - rewrite nth_error_nth' with (d := 0%nat) by (rewrite seq_length; lia). now rewrite seq_nth by lia.
  - nia.
Qed.
Lemma nth_error_combine {A B} (l : list A) (m : list B) : forall i a b, nth_error l i = Some a -> nth_error m i = Some b -> nth_error (combine l m) i = Some (a, b).
Proof. revert m. induction l as [|x l IH]; intros [|y m] [|i] a b E F; cbn in *; try discriminate; [congruence|]. now apply IH. Qed.
Theorem C38_order_and_count cs is nfp ss :
  (coils_via_symmetries cs is nfp ss = None <-> length cs <> length is) /\
  forall coils, coils_via_symmetries cs is nfp ss = Some coils ->
  length coils = (length cs * nfp * (if ss then 2 else 1))%nat /\
  forall k f i c j, (k < nfp)%nat -> (f < (if ss then 2 else 1))%nat -> nth_error cs i = Some c -> nth_error is i = Some j ->
    nth_error coils ((k * (if ss then 2 else 1) + f) * length cs + i) =
      Some (if Nat.eqb k 0 && Nat.eqb f 0 then c else CRot c (2 * PI * INR k / INR nfp) (Nat.eqb f 1), if Nat.eqb f 1 then CScaled j (-1) else j).
Proof.
  unfold coils_via_symmetries. destruct (Nat.eqb_spec (length cs) (length is)) as [L|L]; (split; [split; congruence || discriminate|]); [|discriminate].
  intros coils E. injection E as <-. change (if ss then 2 else 1)%nat with (reps ss). unfold sym_curves, sym_currents.
  rewrite combine_length, !sym_len. split; [rewrite L; lia|]. intros k f i c j K F HC HJ. apply nth_error_combine.
  - rewrite (sym_nth (fun k flip c => if Nat.eqb k 0 && negb flip then c else CRot c (2 * PI * INR k / INR nfp) flip) cs nfp ss k f i c); auto.
    f_equal. assert (F' : (f < 2)%nat) by (destruct ss; cbn in F; lia). destruct f as [|[|f]]; [reflexivity|reflexivity|lia].
  - rewrite L. now rewrite (sym_nth (fun (k : nat) (flip : bool) c => if flip then CScaled c (-1) else c) is nfp ss k f i j).
Qed.

(** ** the data of the symmetric set and its invariance *)
Definition ang (nfp k : nat) : R := 2 * PI * INR k / INR nfp.
Definition copy_ (nfp : nat) (k : nat) (flip : bool) (d : R * list qpt) : R * list qpt :=
  if flip then (- fst d, map (on_q (fun v => reflect (rotz (ang nfp k) v))) (snd d)) else (fst d, map (on_q (rotz (ang nfp k))) (snd d)).
Lemma rotz_0 v : rotz 0 v = v. Proof. unfold rotz. rewrite cos_0, sin_0. v3; ring. Qed.
Lemma combine_map_map {A B C D} (f : A -> C) (g : B -> D) l : forall m, combine (map f l) (map g m) = map (fun ab => (f (fst ab), g (snd ab))) (combine l m).
Proof. induction l as [|a l IH]; intros [|b m]; cbn; auto. now rewrite IH. Qed.
Lemma combine_app {A B} (l1 l2 : list A) : forall (m1 m2 : list B), length l1 = length m1 -> combine (l1 ++ l2) (m1 ++ m2) = combine l1 m1 ++ combine l2 m2.
Proof. induction l1 as [|a l IH]; intros [|b m] m2 L; cbn in *; try discriminate; auto. f_equal. apply IH. lia. Qed.
Lemma combine_flat_map {A B C} (f : A -> list B) (g : A -> list C) l : (forall a, length (f a) = length (g a)) ->
  combine (flat_map f l) (flat_map g l) = flat_map (fun a => combine (f a) (g a)) l.
Proof. intros H. induction l as [|a l IH]; cbn; auto. rewrite combine_app, IH; auto. Qed.
Lemma map_flat_map {A B C} (f : A -> list B) (g : B -> C) l : map g (flat_map f l) = flat_map (fun a => map g (f a)) l.
Proof. induction l as [|a l IH]; cbn; auto. now rewrite map_app, IH. Qed.
Lemma flat_map_ext_in {A B} (f g : A -> list B) l : (forall a, In a l -> f a = g a) -> flat_map f l = flat_map g l.
Proof. induction l as [|a l IH]; cbn; intros H; auto. rewrite H, IH by auto. reflexivity. Qed.
Theorem C38_data ce ie cs is nfp ss coils : coils_via_symmetries cs is nfp ss = Some coils ->
  map (coil_data ce ie) coils =
  flat_map (fun k => flat_map (fun flip => map (copy_ nfp k flip) (map (coil_data ce ie) (combine cs is))) (flips ss)) (seq 0 nfp).
Proof.
  unfold coils_via_symmetries. destruct (Nat.eqb_spec (length cs) (length is)) as [L|L]; [|discriminate]. intros E. injection E as <-. unfold sym_curves, sym_currents.
  rewrite combine_flat_map by (intros k; apply (eq_trans (flat_map_len _ _ (length cs) (fun f _ => map_length _ _))); rewrite (flat_map_len _ _ (length is)); auto using map_length).
  rewrite map_flat_map. apply flat_map_ext_in. intros k _.
  rewrite combine_flat_map by (intros f; rewrite !map_length; auto). rewrite map_flat_map. apply flat_map_ext_in. intros f _.
  rewrite combine_map_map, !map_map. apply map_ext. intros [c i]. cbn [fst snd]. unfold coil_data, copy_. cbn [fst snd].
  destruct f; cbn [negb]; rewrite ?Bool.andb_false_r, ?Bool.andb_true_r.
  - cbn [cur_value]. f_equal; [ring|]. exact (proj1 (C59_rotated_curve ce c _ true)).
  - f_equal. destruct (Nat.eqb_spec k 0) as [->|N]; [|exact (proj1 (C59_rotated_curve ce c _ false))].
    rewrite <- (map_id (curve_data ce c)) at 1. apply map_ext. intros [g h]. unfold on_q, ang. cbn [fst snd].
    replace (2 * PI * INR 0 / INR nfp) with 0 by (cbn; unfold Rdiv; ring). now rewrite !rotz_0.
Qed.
Lemma rotz_add a b v : rotz a (rotz b v) = rotz (a + b) v.
Proof. unfold rotz. rewrite cos_plus, sin_plus. v3; ring. Qed.
Lemma rotz_2pi a v : rotz (a + 2 * PI) v = rotz a v.
Proof. unfold rotz. replace (a + 2 * PI) with (a + 2 * INR 1 * PI) by (cbn; ring). now rewrite cos_period, sin_period. Qed.
Lemma rotz_reflect a v : rotz a (reflect v) = reflect (rotz (- a) v).
Proof. unfold rotz, reflect. rewrite cos_neg, sin_neg. v3; ring. Qed.
Lemma reflect_2 v : reflect (reflect v) = v. Proof. unfold reflect. v3; ring. Qed.
Lemma ang_S nfp k : ang nfp (S k) = ang nfp k + 2 * PI / INR nfp.
Proof. unfold ang. rewrite S_INR. unfold Rdiv. ring. Qed.
Lemma ang_0 nfp : ang nfp 0 = 0. Proof. unfold ang. cbn. unfold Rdiv. ring. Qed.
Lemma ang_nfp nfp : (0 < nfp)%nat -> ang nfp nfp = 2 * PI.
Proof. intros H. unfold ang. field. apply not_0_INR. lia. Qed.
Lemma on_q_comp f g l : map (on_q f) (map (on_q g) l) = map (on_q (fun v => f (g v))) l.
Proof. rewrite map_map. reflexivity. Qed.
Lemma on_q_ext f g l : (forall v, f v = g v) -> map (on_q f) l = map (on_q g) l.
Proof. intros H. apply map_ext. intros q. unfold on_q. now rewrite !H. Qed.
Definition turn_coil (f : vec3 -> vec3) (d : R * list qpt) : R * list qpt := (fst d, map (on_q f) (snd d)).
Definition mirror_coil (d : R * list qpt) : R * list qpt := (- fst d, map (on_q reflect) (snd d)).
Lemma flat_map_app_perm {A B} (f g : A -> list B) l : Permutation (flat_map (fun a => f a ++ g a) l) (flat_map f l ++ flat_map g l).
Proof.
  induction l as [|a l IH]; cbn; auto. rewrite IH, <- !app_assoc. apply Permutation_app_head. rewrite !app_assoc. apply Permutation_app_tail, Permutation_app_comm.
Qed.
Lemma seq_shift_perm {B} (g : nat -> list B) n : g n = g O -> Permutation (flat_map (fun k => g (S k)) (seq 0 n)) (flat_map g (seq 0 n)).
Proof.
  intros H. assert (E : flat_map (fun k => g (S k)) (seq 0 n) = flat_map g (seq 1 n)).
  { rewrite <- seq_shift. generalize (seq 0 n). intros l. induction l as [|a l IH]; cbn; auto. now rewrite IH. }
  rewrite E. destruct n as [|n]; auto. rewrite seq_S. cbn [seq flat_map]. rewrite flat_map_app. cbn [flat_map]. rewrite app_nil_r.
  replace (g (1 + n)%nat) with (g 0%nat) by (symmetry; exact H). apply Permutation_app_comm.
Qed.
Lemma copy_wrap nfp flip d : (0 < nfp)%nat -> copy_ nfp nfp flip d = copy_ nfp 0 flip d.
Proof.
  intros H. unfold copy_. rewrite ang_0, ang_nfp by auto. destruct flip; f_equal; apply on_q_ext; intros v; rewrite <- (rotz_2pi 0 v), Rplus_0_l; reflexivity.
Qed.
Section Invariance.
Variables (ce : nat -> list qpt) (ie : nat -> R) (cs : list curve) (is : list current) (nfp : nat) (ss : bool) (coils : list (curve * current)).
Hypothesis HC : coils_via_symmetries cs is nfp ss = Some coils.
Notation base := (map (coil_data ce ie) (combine cs is)).
Notation data := (map (coil_data ce ie) coils).
Lemma data_perm : Permutation data (flat_map (fun k => map (copy_ nfp k false) base) (seq 0 nfp) ++ (if ss then flat_map (fun k => map (copy_ nfp k true) base) (seq 0 nfp) else [])).
Proof using HC.
  rewrite (C38_data ce ie _ _ _ _ _ HC). unfold flips. destruct ss; cbn [flat_map].
  - rewrite <- flat_map_app_perm. erewrite flat_map_ext_in; [reflexivity|]. intros k _. cbn. now rewrite app_nil_r.
  - rewrite app_nil_r. erewrite flat_map_ext_in; [reflexivity|]. intros k _. cbn. now rewrite app_nil_r.
Qed.
(** rotating the whole set by one field period permutes it *)
Theorem C38_rotation_invariant : (0 < nfp)%nat -> Permutation (map (turn_coil (rotz (2 * PI / INR nfp))) data) data.
Proof using HC.
  intros NZ. etransitivity; [apply Permutation_map, data_perm|]. etransitivity; [|apply Permutation_sym, data_perm].
  rewrite map_app. apply Permutation_app.
  - rewrite map_flat_map. etransitivity; [|apply (seq_shift_perm (fun k => map (copy_ nfp k false) base) nfp)].
    + erewrite flat_map_ext_in; [reflexivity|]. intros k _. rewrite !map_map. apply map_ext. intros d. unfold turn_coil, copy_. cbn [fst snd]. f_equal.
      rewrite on_q_comp. apply on_q_ext. intros v. rewrite rotz_add, ang_S. f_equal. ring.
    + apply map_ext. intros d. now apply copy_wrap.
  - destruct ss; auto. rewrite map_flat_map.
    set (h := fun k => map (turn_coil (rotz (2 * PI / INR nfp))) (map (copy_ nfp k true) base)).
    change (Permutation (flat_map h (seq 0 nfp)) (flat_map (fun k => map (copy_ nfp k true) base) (seq 0 nfp))).
    rewrite <- (seq_shift_perm h nfp).
    + erewrite flat_map_ext_in; [reflexivity|]. intros k _. unfold h. rewrite map_map. apply map_ext. intros d. unfold turn_coil, copy_. cbn [fst snd]. f_equal.
      rewrite on_q_comp. apply on_q_ext. intros v. rewrite rotz_reflect, rotz_add, ang_S. f_equal. f_equal. ring.
    + unfold h. f_equal. apply map_ext. intros d. now apply copy_wrap.
Qed.
(** with stellarator symmetry, reflecting the whole set and reversing the currents permutes it *)
Theorem C38_reflection_invariant : ss = true -> Permutation (map mirror_coil data) data.
Proof using HC.
  intros SS. etransitivity; [apply Permutation_map, data_perm|]. etransitivity; [|apply Permutation_sym, data_perm]. rewrite SS, map_app.
  rewrite Permutation_app_comm. rewrite !map_flat_map. apply Permutation_app; (erewrite flat_map_ext_in; [reflexivity|]); intros k _; rewrite map_map; apply map_ext; intros d; unfold mirror_coil, copy_; cbn [fst snd]; rewrite on_q_comp; f_equal.
  - ring.
  - apply on_q_ext. intros v. apply reflect_2.
Qed.
End Invariance.

(** ** C55: the field of a symmetric coil set has the symmetry *)
Lemma sum3_perm l m : Permutation l m -> sum3 l = sum3 m.
Proof.
  induction 1 as [|a l m P IH|a b l|l m n P1 IH1 P2 IH2]; cbn; auto; [now rewrite IH|rewrite !add3_assoc; f_equal; apply add3_comm|congruence].
Qed.
Lemma field_perm kern l m x : Permutation l m -> coils_field kern l x = coils_field kern m x.
Proof. intros P. unfold coils_field. now apply sum3_perm, Permutation_map. Qed.
(** f is an isometry acting linearly, and the kernel is equivariant under it *)
Definition equivariant (kern : vec3 -> qpt -> vec3) (f : vec3 -> vec3) : Prop :=
  (forall a b, f (add3 a b) = add3 (f a) (f b)) /\ (forall s a, f (scal3 s a) = scal3 s (f a)) /\ f v0 = v0 /\
  forall x q, kern (f x) (on_q f q) = f (kern x q).
Lemma equiv_sum kern f l : equivariant kern f -> f (sum3 l) = sum3 (map f l).
Proof. intros (A & _ & Z & _). induction l as [|a l IH]; cbn; auto. now rewrite A, IH. Qed.
Lemma equiv_coil kern f c x : equivariant kern f -> coil_field kern (map (on_q f) c) (f x) = f (coil_field kern c x).
Proof.
  intros E. assert (E' := E). destruct E' as (A & S & Z & K). unfold coil_field. rewrite map_length, S, (equiv_sum kern _ _ E). f_equal. f_equal. rewrite !map_map. apply map_ext. auto.
Qed.
Lemma equiv_coils kern f g coils x : equivariant kern f ->
  coils_field kern (map (fun d => (g * fst d, map (on_q f) (snd d))) coils) (f x) = scal3 g (f (coils_field kern coils x)).
Proof.
  intros E. assert (E' := E). destruct E' as (A & S & Z & K). unfold coils_field. rewrite (equiv_sum kern _ _ E). rewrite <- sum3_scal. f_equal. rewrite !map_map. apply map_ext.
  intros d. cbn [fst snd]. rewrite (equiv_coil kern f _ _ E), S, scal3_scal. reflexivity.
Qed.
Lemma rotz_as_mat a v : rotz a v = vecmat v (rotmat a false). Proof. now rewrite vecmat_rotmat. Qed.
Lemma reflect_as_mat v : reflect v = vecmat v (rotmat 0 true). Proof. now rewrite vecmat_rotmat, rotz_0. Qed.
Lemma equiv_mat_B phi flip : equivariant kB (fun v => vecmat v (rotmat phi flip)).
Proof.
  repeat split; intros; auto using vecmat_add, vecmat_scal, vecmat_0. unfold kB, on_q. cbn [fst snd].
  rewrite <- vecmat_sub. unfold normsq. rewrite (proj1 (C59_rotation_preserves_geometry phi flip _ _)), (proj2 (C59_rotation_preserves_geometry phi flip _ _)).
  now rewrite vecmat_scal.
Qed.
Lemma equiv_mat_A phi flip : equivariant kA (fun v => vecmat v (rotmat phi flip)).
Proof.
  repeat split; intros; auto using vecmat_add, vecmat_scal, vecmat_0. unfold kA, on_q. cbn [fst snd].
  rewrite <- vecmat_sub. unfold normsq. rewrite (proj1 (C59_rotation_preserves_geometry phi flip _ _)). now rewrite vecmat_scal.
Qed.
Section FieldSym.
Variables (ce : nat -> list qpt) (ie : nat -> R) (cs : list curve) (is : list current) (nfp : nat) (ss : bool) (coils : list (curve * current)).
Hypothesis HC : coils_via_symmetries cs is nfp ss = Some coils.
Notation data := (map (coil_data ce ie) coils).
Lemma one_period kern : (0 < nfp)%nat -> equivariant kern (fun v => vecmat v (rotmat (2 * PI / INR nfp) false)) -> forall x,
  coils_field kern data (rotz (2 * PI / INR nfp) x) = rotz (2 * PI / INR nfp) (coils_field kern data x).
Proof using HC.
  intros NZ E x. rewrite <- (field_perm kern _ _ _ (C38_rotation_invariant ce ie cs is nfp ss coils HC NZ)) at 1. rewrite !rotz_as_mat.
  rewrite <- (scal3_1 (vecmat (coils_field kern data x) _)). rewrite <- (equiv_coils kern _ 1 data x E). f_equal. apply map_ext.
  intros [I c]. unfold turn_coil. cbn [fst snd]. f_equal; [ring|]. apply on_q_ext. intros v. apply rotz_as_mat.
Qed.
Lemma j_periods kern : (0 < nfp)%nat -> equivariant kern (fun v => vecmat v (rotmat (2 * PI / INR nfp) false)) -> forall j x,
  coils_field kern data (rotz (2 * PI * INR j / INR nfp) x) = rotz (2 * PI * INR j / INR nfp) (coils_field kern data x).
Proof using HC.
  intros NZ E j x. induction j as [|j IH].
  - change (2 * PI * INR 0 / INR nfp) with (ang nfp 0). now rewrite ang_0, !rotz_0.
  - change (2 * PI * INR (S j) / INR nfp) with (ang nfp (S j)). rewrite ang_S. rewrite (Rplus_comm (ang nfp j)). rewrite <- !rotz_add.
    rewrite (one_period kern NZ E). unfold ang. now rewrite IH.
Qed.
Lemma stell kern : ss = true -> equivariant kern (fun v => vecmat v (rotmat 0 true)) -> forall x,
  coils_field kern data (reflect x) = scal3 (-1) (reflect (coils_field kern data x)).
Proof using HC.
  intros SS E x. rewrite <- (field_perm kern _ _ _ (C38_reflection_invariant ce ie cs is nfp ss coils HC SS)) at 1. rewrite !reflect_as_mat.
  rewrite <- (equiv_coils kern _ (-1) data x E). f_equal. apply map_ext. intros [I c]. unfold mirror_coil. cbn [fst snd]. f_equal; [ring|]. apply on_q_ext. intros v. apply reflect_as_mat.
Qed.
Theorem C55_field_has_field_period : (0 < nfp)%nat -> forall j x,
  coils_field kB data (rotz (2 * PI * INR j / INR nfp) x) = rotz (2 * PI * INR j / INR nfp) (coils_field kB data x) /\
  coils_field kA data (rotz (2 * PI * INR j / INR nfp) x) = rotz (2 * PI * INR j / INR nfp) (coils_field kA data x).
Proof using HC. intros NZ j x. split; apply j_periods; auto using equiv_mat_B, equiv_mat_A. Qed.
Theorem C55_field_is_stellarator_symmetric : ss = true -> forall x,
  coils_field kB data (reflect x) = scal3 (-1) (reflect (coils_field kB data x)) /\
  coils_field kA data (reflect x) = scal3 (-1) (reflect (coils_field kA data x)).
Proof using HC. intros SS x. split; apply stell; auto using equiv_mat_B, equiv_mat_A. Qed.
End FieldSym.
(** the hypotheses are met *)
Example sym_example : exists coils, coils_via_symmetries [CBase 0; CBase 1] [Cur 0; Cur 1] 3 true = Some coils /\ length coils = 12%nat.
Proof. eexists. split; reflexivity. Qed.

(** ** C60: B_vjp of any list of coils built from base curves and currents by rotations and current arithmetic is the
    derivative with respect to the base objects *)
Section EndToEnd.
(** base curves and base currents moving in time *)
Variables (q : nat -> list mqpt) (i : nat -> R -> R) (i' : nat -> R) (t : R).
Hypothesis HQ : forall id m, In m (q id) -> D3 (mq_g m) t (mq_g' m) /\ D3 (mq_h m) t (mq_h' m).
Hypothesis HI : forall id, D (i id) t (i' id).
Definition ce_at (s : R) (id : nat) : list qpt := map (fun m => (mq_g m s, mq_h m s)) (q id).
Definition ie_at (s : R) (id : nat) : R := i id s.
Definition the_coils (s : R) (coils : list (curve * current)) := map (coil_data (ce_at s) (ie_at s)) coils.
(** Coil.vjp (coil.py:31-34) paired with the velocities of the base objects *)
Definition coil_vjp_pair (coil : curve * current) (res_gamma res_dgamma : list vec3) (res_cur : R) : R :=
  pair3 (snd (curve_pull (fst coil) res_gamma)) (map mq_g' (q (base_id (fst coil)))) +
  pair3 (snd (curve_pull (fst coil) res_dgamma)) (map mq_h' (q (base_id (fst coil)))) +
  dpair (cur_vjp (snd coil) res_cur) i'.
Definition moved (coil : curve * current) : mcoil :=
  MC (fun s => cur_value (ie_at s) (snd coil)) (dpair (cur_vjp (snd coil) 1) i')
     (map (fun m => MQ (fun s => turn (fst coil) (mq_g m s)) (turn (fst coil) (mq_g' m)) (fun s => turn (fst coil) (mq_h m s)) (turn (fst coil) (mq_h' m))) (q (base_id (fst coil)))).
Lemma moved_at s coil : at_time s (moved coil) = coil_data (ce_at s) (ie_at s) coil.
Proof. unfold at_time, moved, coil_data. cbn. f_equal. rewrite curve_data_turn. unfold ce_at. rewrite !map_map. reflexivity. Qed.
Lemma D3_mat p p' m : D3 p t p' -> D3 (fun s => vecmat (p s) m) t (vecmat p' m).
Proof.
  intros (A & B & C). unfold vecmat. repeat apply D3_add;
  (eapply D3_val; [|apply D3_scal; [eassumption|apply D3_const]]); generalize (p t); intros; destruct p'; v3; ring.
Qed.
Lemma D3_turn c p p' : D3 p t p' -> D3 (fun s => turn c (p s)) t (turn c p').
Proof. intros H. induction c as [id|c IH phi flip]; cbn [turn]; auto. now apply D3_mat. Qed.
Lemma moved_moves coil : moves t (moved coil).
Proof using HQ HI.
  split; cbn.
  - eapply D_ext; [|apply (C39_vjp_is_derivative (snd coil) i i' t 1 HI)]. intros s. cbn. unfold ie_at. ring.
  - intros m Hm. apply in_map_iff in Hm. destruct Hm as (m0 & <- & H0). cbn. destruct (HQ _ _ H0). split; now apply D3_turn.
Qed.
Lemma dpair_lin c vel : forall v, dpair (cur_vjp c v) vel = v * dpair (cur_vjp c 1) vel.
Proof.
  induction c as [id|c IH s0|a IHa b IHb]; intros v; cbn [cur_vjp].
  - unfold dpair; cbn. ring.
  - rewrite !dpair_scale, IH. ring.
  - rewrite !dpair_merge, IHa, IHb. ring.
Qed.
Lemma moved_pair coil a b r : length a = length (q (base_id (fst coil))) -> length b = length (q (base_id (fst coil))) ->
  pair3 a (map mq_g' (mc_q (moved coil))) + pair3 b (map mq_h' (mc_q (moved coil))) + r * mc_I' (moved coil) = coil_vjp_pair coil a b r.
Proof.
  intros LA LB. unfold coil_vjp_pair. cbn [moved mc_q mc_I']. rewrite (dpair_lin (snd coil) i' r). f_equal. f_equal.
  - rewrite map_map. cbn. rewrite <- C59_vjp_is_transposed by now rewrite map_length. now rewrite map_map.
  - rewrite map_map. cbn. rewrite <- C59_vjp_is_transposed by now rewrite map_length. now rewrite map_map.
Qed.
Lemma arr_len {W} (g : W -> vec3 -> qpt -> vec3) pw coil : length (vjp_arr g pw (coil_data (ce_at t) (ie_at t) coil)) = length (q (base_id (fst coil))).
Proof. unfold vjp_arr, coil_data. cbn [snd]. rewrite map_length, curve_data_turn, map_length. unfold ce_at. apply map_length. Qed.
Lemma end_to_end {W} (F : list (R * list qpt) -> R) (G H : W -> vec3 -> qpt -> vec3) (C : list (vec3 * W) -> R * list qpt -> R) pw coils :
  (forall cs, Forall (moves t) cs -> (forall xv, In xv pw -> off_all (fst xv) (map (at_time t) cs)) ->
     D (fun s => F (map (at_time s) cs)) t
       (rsuml (map (fun c => pair3 (vjp_arr G pw (at_time t c)) (map mq_g' (mc_q c)) + pair3 (vjp_arr H pw (at_time t c)) (map mq_h' (mc_q c)) + C pw (at_time t c) * mc_I' c) cs))) ->
  (forall xv, In xv pw -> off_all (fst xv) (the_coils t coils)) ->
  D (fun s => F (the_coils s coils)) t
    (rsuml (map (fun coil => let d := coil_data (ce_at t) (ie_at t) coil in coil_vjp_pair coil (vjp_arr G pw d) (vjp_arr H pw d) (C pw d)) coils)).
Proof using HQ HI.
  intros T OFF. assert (E : forall s, map (at_time s) (map moved coils) = the_coils s coils) by (intros s; unfold the_coils; rewrite map_map; apply map_ext; intros; apply moved_at).
  eapply D_ext; [intros s; rewrite <- E; reflexivity|]. eapply D_val; [|apply (T (map moved coils))].
  - rewrite map_map. apply rsuml_map_ext. intros coil _. cbv zeta. rewrite moved_at. apply moved_pair; apply arr_len.
  - apply Forall_forall. intros c Hc. apply in_map_iff in Hc. destruct Hc as (coil & <- & _). apply moved_moves.
  - intros xv Hxv. rewrite E. auto.
Qed.
Theorem C60_B_vjp pw coils : (forall xv, In xv pw -> off_all (fst xv) (the_coils t coils)) ->
  D (fun s => probe kB pw (the_coils s coils)) t
    (rsuml (map (fun coil => let d := coil_data (ce_at t) (ie_at t) coil in
                             coil_vjp_pair coil (vjp_arr vjp_gamma pw d) (vjp_arr vjp_dgamma pw d) (vjp_cur kB pw d)) coils)).
Proof using HQ HI. apply (end_to_end (probe kB pw)). intros cs HM OFF. now apply C57_B_vjp. Qed.
Theorem C60_dB_vjp pw coils : (forall xv, In xv pw -> off_all (fst xv) (the_coils t coils)) ->
  D (fun s => probe_grad kdB pw (the_coils s coils)) t
    (rsuml (map (fun coil => let d := coil_data (ce_at t) (ie_at t) coil in
                             coil_vjp_pair coil (vjp_arr vjp_grad_gamma pw d) (vjp_arr vjp_grad_dgamma pw d) (vjp_cur_grad kdB pw d)) coils)).
Proof using HQ HI. apply (end_to_end (probe_grad kdB pw)). intros cs HM OFF. now apply C57_dB_vjp. Qed.
Theorem C60_A_vjp pw coils : (forall xv, In xv pw -> off_all (fst xv) (the_coils t coils)) ->
  D (fun s => probe kA pw (the_coils s coils)) t
    (rsuml (map (fun coil => let d := coil_data (ce_at t) (ie_at t) coil in
                             coil_vjp_pair coil (vjp_arr vjpA_gamma pw d) (vjp_arr vjpA_dgamma pw d) (vjp_cur kA pw d)) coils)).
Proof using HQ HI. apply (end_to_end (probe kA pw)). intros cs HM OFF. now apply C57_A_vjp. Qed.
Theorem C60_dA_vjp pw coils : (forall xv, In xv pw -> off_all (fst xv) (the_coils t coils)) ->
  D (fun s => probe_grad kdA pw (the_coils s coils)) t
    (rsuml (map (fun coil => let d := coil_data (ce_at t) (ie_at t) coil in
                             coil_vjp_pair coil (vjp_arr vjpA_grad_gamma pw d) (vjp_arr vjpA_grad_dgamma pw d) (vjp_cur_grad kdA pw d)) coils)).
Proof using HQ HI. apply (end_to_end (probe_grad kdA pw)). intros cs HM OFF. now apply C57_dA_vjp. Qed.
End EndToEnd.
(** the hypotheses of C60 are met: a moving base curve, its stellarator image with reversed current, a point off both *)
Example C60_example : let q := fun _ : nat => mc_q moving_coil in let coils := [(CBase 0, Cur 0); (CRot (CBase 0) PI true, CScaled (Cur 0) (-1))] in
  (forall id m, In m (q id) -> D3 (mq_g m) 0 (mq_g' m) /\ D3 (mq_h m) 0 (mq_h' m)) /\ off_all (V3 0 0 1) (the_coils q (fun _ s => 1 + s) 0 coils).
Proof.
  cbv zeta. split.
  - intros id m Hm. apply (proj2 (proj1 moving_coil_ok)). exact Hm.
  - intros c [<-|[<-|[]]] p Hp E.
    + cbn in Hp. destruct Hp as [<-|[<-|[]]]; cbn in E; injection E; lra.
    + unfold coil_data in Hp. cbn [fst snd] in Hp. rewrite (proj1 (C59_rotated_curve _ _ _ _)) in Hp. cbn in Hp. destruct Hp as [<-|[<-|[]]]; cbn in E; injection E; lra.
Qed.
