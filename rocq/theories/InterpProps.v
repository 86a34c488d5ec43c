(** C63, C64: the grid interpolant. *)
From Coq Require Import Reals Lra Lia ZArith.
From Verif Require Import ListAux VecAux PointsModel InterpModel Lagrange.
Open Scope R_scope.

(** ** Batches *)
Lemma firstn_plus {A} a b : forall l : list A, firstn (a + b) l = firstn a l ++ firstn b (skipn a l).
Proof. induction a; intros [|x l]; cbn; auto; [now rewrite firstn_nil|now rewrite IHa]. Qed.
Lemma slices_prefix {A} B (l : list A) m :
  flat_map (fun i => slice (i * B) (Nat.min ((i + 1) * B) (length l)) l) (seq 0 m) = firstn (Nat.min (m * B) (length l)) l.
Proof.
  induction m as [|m IH]; [reflexivity|]. rewrite seq_S, flat_map_app, IH. cbn [flat_map Nat.add]. rewrite app_nil_r. unfold slice.
  destruct (le_lt_dec (length l) (m * B)).
  - rewrite Nat.min_r by lia. rewrite skipn_all2, firstn_nil, app_nil_r by lia. rewrite Nat.min_r by lia. reflexivity.
  - rewrite (Nat.min_l (m * B)) by lia. replace (Nat.min (S m * B) (length l)) with (m * B + (Nat.min ((m + 1) * B) (length l) - m * B))%nat by lia.
    rewrite firstn_plus. reflexivity.
Qed.
Theorem C63_batches {A} B (f : A -> R) l : (0 < B)%nat -> batches B (map f) l = map f l.
Proof.
  intros HB. unfold batches. rewrite <- (flat_map_concat_map (fun i => map f _)) || idtac.
  assert (E : forall m, flat_map (fun i => map f (slice (i * B) (Nat.min ((i + 1) * B) (length l)) l)) (seq 0 m) =
    map f (flat_map (fun i => slice (i * B) (Nat.min ((i + 1) * B) (length l)) l) (seq 0 m))).
  { intros m. induction (seq 0 m) as [|a s IH]; cbn; auto. now rewrite IH, map_app. }
  rewrite E, slices_prefix. f_equal. apply firstn_all2. apply Nat.min_glb; auto.
  pose proof (Nat.div_mod (length l) B ltac:(lia)). destruct (Nat.eqb_spec (length l mod B) 0); [nia|].
  pose proof (Nat.mod_upper_bound (length l) B ltac:(lia)). nia.
Qed.

(** ** Index maps *)
Lemma maps_spec s : forall i ctr f2r r2f, i = (ctr + length r2f)%nat -> i = length f2r ->
  let '(F, Rr) := maps s i ctr f2r r2f in
  length F = (i + length s)%nat /\ (forall j, (j < i)%nat -> nth_error F j = nth_error f2r j) /\
  (forall m, (m < length r2f)%nat -> nth_error Rr m = nth_error r2f m) /\
  (forall m n, (length r2f <= m)%nat -> nth_error Rr m = Some n -> exists j, n = (i + j)%nat /\ nth_error s j = Some false) /\
  forall j, nth_error s j = Some false -> exists m, nth_error F (i + j) = Some m /\ nth_error Rr m = Some (i + j)%nat.
Proof.
  induction s as [|b s IH]; intros i ctr f2r r2f H1 H2; cbn [maps].
  - split; [cbn; lia|]. split; auto. split; auto. split.
    + intros m n Hm E. exfalso. assert (nth_error r2f m <> None) by congruence. apply nth_error_Some in H. lia.
    + intros [|j]; discriminate.
  - destruct b.
    + specialize (IH (S i) (S ctr) (f2r ++ [(i - ctr)%nat]) r2f ltac:(lia) ltac:(rewrite app_length; cbn; lia)).
      destruct (maps s (S i) (S ctr) (f2r ++ [(i - ctr)%nat]) r2f) as [F Rr]. destruct IH as (A & B & C & D & E).
      split; [cbn; lia|]. split; [intros j Hj; rewrite B by lia; apply nth_error_app1; lia|]. split; auto. split.
      * intros m n Hm Hn. destruct (D m n Hm Hn) as (j & -> & Hj). exists (S j). split; [lia|auto].
      * intros [|j]; cbn; [discriminate|]. intros Hj. destruct (E j Hj) as (m & M1 & M2). exists m. rewrite <- plus_n_Sm. auto.
    + specialize (IH (S i) ctr (f2r ++ [(i - ctr)%nat]) (r2f ++ [i]) ltac:(rewrite app_length; cbn; lia) ltac:(rewrite app_length; cbn; lia)).
      destruct (maps s (S i) ctr (f2r ++ [(i - ctr)%nat]) (r2f ++ [i])) as [F Rr]. destruct IH as (A & B & C & D & E).
      assert (LR : length (r2f ++ [i]) = S (length r2f)) by (rewrite app_length; cbn; lia).
      assert (Ri : nth_error Rr (length r2f) = Some i).
      { rewrite C by lia. rewrite nth_error_app2, Nat.sub_diag by lia. reflexivity. }
      split; [cbn; lia|]. split; [intros j Hj; rewrite B by lia; apply nth_error_app1; lia|].
      split; [intros m Hm; rewrite C by lia; apply nth_error_app1; lia|]. split.
      * intros m n Hm Hn. destruct (Nat.eq_dec m (length r2f)) as [->|Nm].
        -- rewrite Ri in Hn. injection Hn as <-. exists 0%nat. split; [lia|reflexivity].
        -- destruct (D m n ltac:(lia) Hn) as (j & -> & Hj). exists (S j). split; [lia|auto].
      * intros [|j]; cbn.
        -- intros _. exists (length r2f). rewrite Nat.add_0_r. split; auto. rewrite B by lia. rewrite nth_error_app2 by lia.
           rewrite H2, Nat.sub_diag. cbn. f_equal. lia.
        -- intros Hj. destruct (E j Hj) as (m & M1 & M2). exists m. rewrite <- plus_n_Sm. auto.
Qed.
Lemma flat_nth {A B} (f : A -> list B) w l : (forall a, In a l -> length (f a) = w) -> forall i j a, nth_error l i = Some a -> (j < w)%nat ->
  nth_error (flat_map f l) (i * w + j) = nth_error (f a) j.
Proof.
  induction l as [|b l IH]; intros H i j a Hi Hj; [destruct i; discriminate|]. destruct i as [|i]; cbn in *.
  - injection Hi as ->. apply nth_error_app1. rewrite H; auto.
  - rewrite nth_error_app2 by (rewrite H by auto; nia). rewrite H by auto. replace (w + i * w + j - w)%nat with (i * w + j)%nat by lia. apply IH; auto.
Qed.
Lemma flat_len {A B} (f : A -> list B) w l : (forall a, In a l -> length (f a) = w) -> length (flat_map f l) = (length l * w)%nat.
Proof. induction l as [|a l IH]; intros H; cbn; auto. rewrite app_length, IH, H; auto; [now left|intros; apply H; now right]. Qed.
Lemma seq_nth_error n i : (i < n)%nat -> nth_error (seq 0 n) i = Some i.
Proof. intros H. rewrite (nth_error_nth' _ 0%nat) by (rewrite seq_length; auto). now rewrite seq_nth. Qed.
Lemma triples_nth a b c i j k : (i < a)%nat -> (j < b)%nat -> (k < c)%nat -> nth_error (triples a b c) (i * (b * c) + (j * c + k)) = Some (i, j, k).
Proof.
  intros Hi Hj Hk. unfold triples. assert (W : forall i0 : nat, length (flat_map (fun j : nat => map (fun k : nat => (i0, j, k)) (seq 0 c)) (seq 0 b)) = (b * c)%nat).
  { intros i0. rewrite (flat_len _ c), seq_length; auto. intros; now rewrite map_length, seq_length. }
  rewrite (flat_nth _ (b * c)%nat _ (fun a0 _ => W a0) i _ i); [|now apply seq_nth_error|nia].
  rewrite (flat_nth _ c _ ltac:(intros; now rewrite map_length, seq_length) j _ j); [|now apply seq_nth_error|auto].
  rewrite nth_error_map, seq_nth_error by auto. reflexivity.
Qed.
Lemma triples_length a b c : length (triples a b c) = (a * b * c)%nat.
Proof.
  unfold triples. rewrite (flat_len _ (b * c)%nat), seq_length; [lia|]. intros. rewrite (flat_len _ c), seq_length; auto. intros; now rewrite map_length, seq_length.
Qed.
Lemma triples_In a b c i j k : In (i, j, k) (triples a b c) <-> (i < a)%nat /\ (j < b)%nat /\ (k < c)%nat.
Proof.
  unfold triples. rewrite in_flat_map. split.
  - intros (x & Hx & H). apply in_flat_map in H as (y & Hy & H). apply in_map_iff in H as (z & [= -> -> ->] & Hz). apply in_seq in Hx, Hy, Hz. lia.
  - intros (A & B & C). exists i. split; [apply in_seq; lia|]. apply in_flat_map. exists j. split; [apply in_seq; lia|]. apply in_map. apply in_seq; lia.
Qed.

(** ** The interpolation points of one axis *)
Definition good_rule (r : rule) : Prop :=
  (0 < degree r)%nat /\ nodes r 0 = 0 /\ nodes r (degree r) = 1 /\ (forall i, (i < degree r)%nat -> 0 <= nodes r i < 1) /\
  forall i j, (i <= degree r)%nat -> (j <= degree r)%nat -> nodes r i = nodes r j -> i = j.
Definition good_axis (a : axis) : Prop := (0 < a_n a)%nat /\ a_min a < a_max a.
(** the position of node j of cell i *)
Definition place (r : rule) (a : axis) (i j : nat) : R := a_min a + (INR i + nodes r j) * hstep a.
Lemma mesh_eq a i : mesh a i = a_min a + INR i * hstep a.
Proof. unfold mesh, hstep. now rewrite Nat.add_sub. Qed.
Lemma fold_upd {A} (key : A -> nat) (val : A -> R) l : forall f m v,
  (forall a, In a l -> key a = m -> val a = v) -> (f m = v \/ exists a, In a l /\ key a = m) ->
  fold_left (fun arr a => upd arr (key a) (val a)) l f m = v.
Proof.
  induction l as [|a l IH]; intros f m v H E; cbn.
  - destruct E as [E|(a & [] & _)]; auto.
  - apply IH; [intros; apply H; auto; now right|]. unfold upd. destruct (Nat.eqb_spec m (key a)) as [->|N].
    + left. apply H; auto. now left.
    + destruct E as [E|(b & [<-|Hb] & Eb)]; [auto|congruence|]. right; eauto.
Qed.
Lemma dof_place r a i j : good_rule r -> (i < a_n a)%nat -> (j <= degree r)%nat -> dof r a (i * degree r + j) = place r a i j.
Proof.
  intros (Hd & N0 & N1 & _ & _) Hi Hj. unfold dof.
  apply (fold_upd (fun ij => (fst ij * degree r + snd ij)%nat) (fun ij => mesh a (fst ij) + nodes r (snd ij) * hstep a)).
  - intros [i' j'] H K. apply in_prod_iff in H as [A B]. apply in_seq in A, B. cbn [fst snd] in *. rewrite mesh_eq. unfold place.
    assert (i' = i /\ j' = j \/ i' = S i /\ j' = 0%nat /\ j = degree r \/ i = S i' /\ j = 0%nat /\ j' = degree r) as [[-> ->]|[(-> & -> & ->)|(-> & -> & ->)]].
    { destruct (Nat.lt_trichotomy i i') as [L|[->|L]].
      - right; left. assert (i' = S i) by nia. subst. lia.
      - left. lia.
      - right; right. assert (i = S i') by nia. subst. lia. }
    + ring.
    + rewrite N0, N1, S_INR. ring.
    + rewrite N0, N1, S_INR. ring.
  - right. exists (i, j). split; auto. apply in_prod; apply in_seq; lia.
Qed.

(** the local coordinates of a point in cell i *)
Definition loc (a : axis) (i : nat) (x : R) : R := (x - mesh a i) / hstep a.
Lemma hstep_pos a : good_axis a -> 0 < hstep a.
Proof. intros [A B]. unfold hstep. apply Rmult_lt_0_compat; [lra|]. apply Rinv_0_lt_compat, lt_0_INR; auto. Qed.
Lemma loc_back a i x : good_axis a -> a_min a + INR i * hstep a + loc a i x * hstep a = x.
Proof. intros H. apply hstep_pos in H. unfold loc. rewrite mesh_eq. field. lra. Qed.
(** the cells: [covers a i x] says x lies in cell i; [reaches] also admits a point less than one cell below the box *)
Definition covers (a : axis) (i : nat) (x : R) : Prop := (i < a_n a)%nat /\ a_min a + INR i * hstep a <= x < a_min a + (INR i + 1) * hstep a.
Definition reaches (a : axis) (i : nat) (x : R) : Prop := covers a i x \/ (i = 0%nat /\ a_min a - hstep a < x < a_min a).
Lemma loc_u a x : good_axis a -> INR (a_n a) * (x - a_min a) / (a_max a - a_min a) = (x - a_min a) / hstep a.
Proof. intros [A B]. unfold hstep. field. repeat split; try lra; apply not_0_INR; lia. Qed.
Lemma rtrunc_nat u i : rtrunc u = Z.of_nat i <-> (INR i <= u < INR i + 1) \/ (i = 0%nat /\ -1 < u < 0).
Proof.
  unfold rtrunc. destruct (Rle_dec 0 u) as [U|U].
  - destruct (base_Int_part u) as [B1 B2]. split.
    + intros E. left. rewrite E, <- INR_IZR_INZ in B1, B2. lra.
    + intros [H|[_ H]]; [|lra]. rewrite INR_IZR_INZ in H.
      assert (A1 : IZR (Int_part u) < IZR (Z.of_nat i + 1)) by (rewrite plus_IZR; lra). apply lt_IZR in A1.
      assert (A2 : IZR (Z.of_nat i) < IZR (Int_part u + 1)) by (rewrite plus_IZR; lra). apply lt_IZR in A2. lia.
  - apply Rnot_le_lt in U. destruct (base_Int_part (- u)) as [B1 B2]. split.
    + intros E. assert (I : (0 <= Int_part (- u))%Z).
      { assert (A : IZR (-1) < IZR (Int_part (- u))) by lra. apply lt_IZR in A. lia. }
      right. assert (Int_part (- u) = 0%Z /\ i = 0%nat) as [E0 ->] by lia. rewrite E0 in *. cbn in *. split; auto. lra.
    + intros [H|[-> H]]; [pose proof (pos_INR i); lra|].
      assert (A1 : IZR (Int_part (- u)) < IZR 1) by lra. apply lt_IZR in A1.
      assert (A2 : IZR (-1) < IZR (Int_part (- u))) by lra. apply lt_IZR in A2. assert (Int_part (- u) = 0)%Z as -> by lia. reflexivity.
Qed.
Lemma locate_iff a x i : good_axis a -> (i < a_n a)%nat -> locate a x = Z.of_nat i <-> reaches a i x.
Proof.
  intros H Hi. pose proof (hstep_pos a H) as P. unfold locate. rewrite loc_u, rtrunc_nat by auto. unfold reaches, covers.
  set (u := (x - a_min a) / hstep a). assert (E : x = a_min a + u * hstep a) by (unfold u; field; lra). rewrite E.
  split; (intros [[A B]|[-> [A B]]]; [left|right]).
  - split; auto. split; nra.
  - split; auto. split; nra.
  - destruct B as [B C]. split; [apply (Rmult_le_reg_r (hstep a))|apply (Rmult_lt_reg_r (hstep a))]; lra.
  - split; auto. split; apply (Rmult_lt_reg_r (hstep a)); lra.
Qed.
Lemma in_range_iff a x : good_axis a -> in_range a (locate a x) = true <-> exists i, (i < a_n a)%nat /\ locate a x = Z.of_nat i.
Proof.
  intros H. unfold in_range. rewrite andb_true_iff, Z.leb_le, Z.ltb_lt. split.
  - intros [A B]. exists (Z.to_nat (locate a x)). lia.
  - intros (i & A & ->). lia.
Qed.
Lemma find_nothing {A} (q : A -> bool) l : (forall a, In a l -> q a = false) -> find q l = None.
Proof. induction l as [|a l IH]; intros H; cbn; auto. rewrite H by now left. apply IH. intros; apply H; now right. Qed.
Lemma reaches_lt a i x : good_axis a -> reaches a i x -> (i < a_n a)%nat.
Proof. intros [H _] [[A _]|[-> _]]; auto. Qed.
Section Grid.
Variables (r : rule) (ax ay az : axis) (skip : R -> R -> R -> bool).
Hypothesis HR : good_rule r.
Notation d := (degree r).
Notation nx := (a_n ax). Notation ny := (a_n ay). Notation nz := (a_n az).
Notation idx_dof := (idx_dof r ay az).

Lemma skip_mesh_at_eq i j k : (i <= nx)%nat -> (j <= ny)%nat -> (k <= nz)%nat ->
  skip_mesh_at ax ay az skip i j k = skip (mesh ax i) (mesh ay j) (mesh az k).
Proof.
  intros. unfold skip_mesh_at. apply nth_error_nth. unfold skip_mesh, idx_mesh. rewrite nth_error_map.
  replace (i * (ny + 1) * (nz + 1) + j * (nz + 1) + k)%nat with (i * ((ny + 1) * (nz + 1)) + (j * (nz + 1) + k))%nat by lia.
  rewrite triples_nth by lia. reflexivity.
Qed.
(** a cell is skipped exactly when the user's function says so at all eight corners *)
Theorem C63_skip_cell_iff i j k : (i < nx)%nat -> (j < ny)%nat -> (k < nz)%nat ->
  skip_cell ax ay az skip i j k = true <->
  forall a b c, (a <= 1)%nat -> (b <= 1)%nat -> (c <= 1)%nat -> skip (mesh ax (i + a)) (mesh ay (j + b)) (mesh az (k + c)) = true.
Proof using Type.
  intros Hi Hj Hk. unfold skip_cell. rewrite !andb_true_iff. rewrite !skip_mesh_at_eq by lia. split.
  - intros H a b c Ha Hb Hc. assert (a = 0 \/ a = 1)%nat as [->| ->] by lia; assert (b = 0 \/ b = 1)%nat as [->| ->] by lia;
    assert (c = 0 \/ c = 1)%nat as [->| ->] by lia; rewrite ?Nat.add_0_r; tauto.
  - intros H. repeat split; [rewrite <- (Nat.add_0_r i), <- (Nat.add_0_r j), <- (Nat.add_0_r k)|rewrite <- (Nat.add_0_r i), <- (Nat.add_0_r j)|
      rewrite <- (Nat.add_0_r i), <- (Nat.add_0_r k)|rewrite <- (Nat.add_0_r i)|rewrite <- (Nat.add_0_r j), <- (Nat.add_0_r k)|
      rewrite <- (Nat.add_0_r j)|rewrite <- (Nat.add_0_r k)|]; apply H; lia.
Qed.
Lemma kept_In i j k : In (i, j, k) (kept_cells ax ay az skip) <-> (i < nx)%nat /\ (j < ny)%nat /\ (k < nz)%nat /\ skip_cell ax ay az skip i j k = false.
Proof. unfold kept_cells. rewrite filter_In, triples_In, negb_true_iff. tauto. Qed.
Lemma idx_dof_bound i j k : (i <= nx * d)%nat -> (j <= ny * d)%nat -> (k <= nz * d)%nat -> (idx_dof i j k < (nx * d + 1) * (ny * d + 1) * (nz * d + 1))%nat.
Proof.
  intros Hi Hj Hk. unfold InterpModel.idx_dof. set (A := (nx * d)%nat) in *. set (B := (ny * d)%nat) in *. set (C := (nz * d)%nat) in *.
  assert (j * (C + 1) + k <= B * (C + 1) + C)%nat by nia.
  assert (i * (B + 1) * (C + 1) <= A * (B + 1) * (C + 1))%nat by nia. nia.
Qed.
(** the value stored for a node of a kept cell is the function at that node, whatever else is skipped *)
Lemma local_val_eq f i j k ii jj kk : In (i, j, k) (kept_cells ax ay az skip) -> (ii <= d)%nat -> (jj <= d)%nat -> (kk <= d)%nat ->
  local_val r ax ay az skip (vals r ax ay az skip (map f)) (i, j, k) ii jj kk = f (place r ax i ii, place r ay j jj, place r az k kk).
Proof using HR.
  intros H Hii Hjj Hkk. assert (K := proj1 (kept_In i j k) H). destruct K as (Hi & Hj & Hk & _).
  unfold local_val, vals. rewrite C63_batches by apply Nat.neq_0_lt_0, Nat.pow_nonzero, Nat.neq_succ_0. unfold reduced_points, all_maps.
  set (n := ((nx * d + 1) * (ny * d + 1) * (nz * d + 1))%nat).
  pose proof (maps_spec (map (skip_dof r ax ay az skip) (seq 0 n)) 0 0 [] [] eq_refl eq_refl) as M.
  destruct (maps _ 0 0 [] []) as [F Rr]. destruct M as (_ & _ & _ & _ & M). cbn [fst snd].
  set (q := idx_dof (i * d + ii) (j * d + jj) (k * d + kk)).
  assert (Hq : (q < n)%nat) by (apply idx_dof_bound; nia).
  assert (S : nth_error (map (skip_dof r ax ay az skip) (seq 0 n)) q = Some false).
  { rewrite nth_error_map, seq_nth_error by auto. cbn. f_equal. unfold skip_dof. apply negb_false_iff. apply existsb_exists. exists (i, j, k).
    split; auto. apply existsb_exists. exists (ii, jj, kk). split; [apply triples_In; lia|]. apply Nat.eqb_refl. }
  destruct (M q S) as (m & M1 & M2). cbn in M1, M2.
  rewrite (nth_error_nth _ _ 0%nat M1). apply nth_error_nth. rewrite nth_error_map, nth_error_map, M2. cbn. do 2 f_equal.
  apply nth_error_nth. unfold doftensor. rewrite nth_error_map.
  replace q with ((i * d + ii) * ((ny * d + 1) * (nz * d + 1)) + ((j * d + jj) * (nz * d + 1) + (k * d + kk)))%nat by (unfold q, InterpModel.idx_dof; lia).
  rewrite triples_nth by nia. cbn. rewrite !dof_place by auto. reflexivity.
Qed.

(** ** The value of an evaluation *)
(** polynomial of degree at most n in each coordinate *)
Definition coordpoly (n : nat) (p : R -> R -> R -> R) : Prop :=
  (forall y z, polyn n (fun x => p x y z)) /\ (forall x z, polyn n (fun y => p x y z)) /\ (forall x y, polyn n (fun z => p x y z)).
(** p agrees with f at the (d+1)^3 nodes of cell (i,j,k) *)
Definition agrees (p : R -> R -> R -> R) (f : R * R * R -> R) (i j k : nat) : Prop :=
  forall ii jj kk, (ii <= d)%nat -> (jj <= d)%nat -> (kk <= d)%nat ->
  p (place r ax i ii) (place r ay j jj) (place r az k kk) = f (place r ax i ii, place r ay j jj, place r az k kk).
Hypothesis (Hx : good_axis ax) (Hy : good_axis ay) (Hz : good_axis az).
Lemma loc_eval a i p x : good_axis a -> polyn d p ->
  sum_n (d + 1) (fun ii => p (place r a i ii) * basis_fun r ii (loc a i x)) = p x.
Proof using HR.
  intros H P. transitivity (p (a_min a + INR i * hstep a + loc a i x * hstep a)); [|f_equal; now apply loc_back].
  rewrite <- (lagrange r (fun t => p (a_min a + INR i * hstep a + t * hstep a)) (loc a i x)).
  - apply sum_n_ext. intros. unfold place. do 2 f_equal. ring.
  - apply HR.
  - now apply poly_affine.
Qed.
Lemma eval_local_eq f p i j k x y z : In (i, j, k) (kept_cells ax ay az skip) -> coordpoly d p -> agrees p f i j k ->
  evaluate_local r ax ay az skip (vals r ax ay az skip (map f)) (i, j, k) (loc ax i x) (loc ay j y) (loc az k z) = p x y z.
Proof using HR Hx Hy Hz.
  intros K (Px & Py & Pz) A. unfold evaluate_local. rewrite <- (loc_eval ax i (fun x => p x y z) x Hx (Px y z)).
  apply sum_n_ext. intros ii Hii. f_equal. rewrite <- (loc_eval ay j (fun y => p (place r ax i ii) y z) y Hy (Py _ z)).
  apply sum_n_ext. intros jj Hjj. f_equal. rewrite <- (loc_eval az k (fun z => p (place r ax i ii) (place r ay j jj) z) z Hz (Pz _ _)).
  apply sum_n_ext. intros kk Hkk. f_equal. rewrite local_val_eq by (auto; lia). symmetry. apply A; lia.
Qed.

Lemma idx_cell_inj i j k i' j' k' : (j < ny)%nat -> (k < nz)%nat -> (j' < ny)%nat -> (k' < nz)%nat ->
  idx_cell ay az i j k = idx_cell ay az i' j' k' -> (i, j, k) = (i', j', k').
Proof using Type.
  intros Hj Hk Hj' Hk' E. unfold idx_cell in E.
  assert (E1 : ((i * ny + j) * nz + k = (i' * ny + j') * nz + k')%nat) by lia.
  assert (Ek : k = k').
  { rewrite <- (Nat.mod_small k nz), <- (Nat.mod_small k' nz) by auto. rewrite <- (Nat.mod_add k (i * ny + j)), <- (Nat.mod_add k' (i' * ny + j')) by lia.
    f_equal. lia. }
  subst k'. assert (E2 : (i * ny + j = i' * ny + j')%nat) by nia.
  assert (Ej : j = j').
  { rewrite <- (Nat.mod_small j ny), <- (Nat.mod_small j' ny) by auto. rewrite <- (Nat.mod_add j i), <- (Nat.mod_add j' i') by lia. f_equal. lia. }
  subst j'. assert (i = i') by nia. now subst.
Qed.
Lemma find_cell_in i j k : (j < ny)%nat -> (k < nz)%nat ->
  find_cell ax ay az skip (Z.of_nat i * Z.of_nat ny * Z.of_nat nz + Z.of_nat j * Z.of_nat nz + Z.of_nat k) =
  if existsb (fun t => let '(a, b, c) := t in (a =? i)%nat && (b =? j)%nat && (c =? k)%nat) (kept_cells ax ay az skip) then Some (i, j, k) else None.
Proof using Type.
  intros Hj Hk. replace (_ * _ * _ + _ * _ + _)%Z with (Z.of_nat (idx_cell ay az i j k)) by (unfold idx_cell; lia).
  unfold find_cell. destruct (existsb _ _) eqn:E.
  - apply existsb_exists in E as ([[a b] c] & HI & E). rewrite !andb_true_iff, !Nat.eqb_eq in E. destruct E as [[-> ->] ->].
    destruct (find _ _) as [[[a b] c]|] eqn:F.
    + apply find_some in F as [F1 F2]. apply Z.eqb_eq, Nat2Z.inj in F2. apply kept_In in F1. f_equal. apply idx_cell_inj; tauto || lia.
    + exfalso. pose proof (find_none _ _ F _ HI) as F'. cbn beta iota in F'. now rewrite Z.eqb_refl in F'.
  - apply find_nothing. intros [[a b] c] HI. apply Z.eqb_neq. intros F. apply Nat2Z.inj in F. apply kept_In in HI as HK.
    apply idx_cell_inj in F; try tauto || lia. injection F as -> -> ->. rewrite <- not_true_iff_false in E. apply E. apply existsb_exists.
    exists (i, j, k). split; auto. now rewrite !Nat.eqb_refl.
Qed.
Lemma existsb_kept i j k : existsb (fun t => let '(a, b, c) := t in (a =? i)%nat && (b =? j)%nat && (c =? k)%nat) (kept_cells ax ay az skip) = true <->
  In (i, j, k) (kept_cells ax ay az skip).
Proof using Type.
  rewrite existsb_exists. split.
  - intros ([[a b] c] & H & E). rewrite !andb_true_iff, !Nat.eqb_eq in E. destruct E as [[-> ->] ->]. auto.
  - intros H. exists (i, j, k). split; auto. now rewrite !Nat.eqb_refl.
Qed.
Variable junk : axis -> Z -> R.
Notation evaluate := (evaluate r ax ay az skip junk).
Lemma evaluate_eq ok v x y z i j k : reaches ax i (shift ax x) -> reaches ay j (shift ay y) -> reaches az k (shift az z) ->
  (i < nx)%nat -> (j < ny)%nat -> (k < nz)%nat ->
  evaluate ok v x y z = if existsb (fun t => let '(a, b, c) := t in (a =? i)%nat && (b =? j)%nat && (c =? k)%nat) (kept_cells ax ay az skip)
    then Value (evaluate_local r ax ay az skip v (i, j, k) (loc ax i (shift ax x)) (loc ay j (shift ay y)) (loc az k (shift az z)))
    else if ok then Unchanged else Throw.
Proof using Hx Hy Hz.
  intros A B C Hi Hj Hk. apply locate_iff in A, B, C; auto. unfold InterpModel.evaluate. cbv zeta. rewrite A, B, C.
  assert (forall a n, (n < a_n a)%nat -> in_range a (Z.of_nat n) = true) as IR.
  { intros a n L. unfold in_range. rewrite andb_true_iff, Z.leb_le, Z.ltb_lt. lia. }
  rewrite !IR by auto. cbn [andb negb]. rewrite andb_false_r. rewrite find_cell_in by auto.
  assert (forall a n, (n < a_n a)%nat -> mesh_at junk a (Z.of_nat n) = mesh a n) as MA.
  { intros a n L. unfold mesh_at. rewrite (proj2 (Z.leb_le 0 _)), (proj2 (Z.leb_le _ _)) by lia. cbn. now rewrite Nat2Z.id. }
  rewrite !MA by auto. destruct (existsb _ _); reflexivity.
Qed.
(** C63: in a cell that is not skipped the value is that of the polynomial through the nodes of the cell *)
Theorem C63_value ok f p x y z i j k :
  reaches ax i (shift ax x) -> reaches ay j (shift ay y) -> reaches az k (shift az z) ->
  skip_cell ax ay az skip i j k = false -> coordpoly d p -> agrees p f i j k ->
  evaluate ok (vals r ax ay az skip (map f)) x y z = Value (p (shift ax x) (shift ay y) (shift az z)).
Proof using HR Hx Hy Hz.
  intros A B C S P G. pose proof (reaches_lt _ _ _ Hx A). pose proof (reaches_lt _ _ _ Hy B). pose proof (reaches_lt _ _ _ Hz C).
  rewrite (evaluate_eq ok _ x y z i j k) by auto. assert (K : In (i, j, k) (kept_cells ax ay az skip)) by now apply kept_In.
  rewrite (proj2 (existsb_kept i j k) K). f_equal. now apply eval_local_eq.
Qed.
Theorem C63_skipped ok v x y z i j k :
  reaches ax i (shift ax x) -> reaches ay j (shift ay y) -> reaches az k (shift az z) ->
  skip_cell ax ay az skip i j k = true -> evaluate ok v x y z = if ok then Unchanged else Throw.
Proof using Hx Hy Hz.
  intros A B C S. rewrite (evaluate_eq ok v x y z i j k) by eauto using reaches_lt.
  destruct (existsb _ _) eqn:E; auto. apply existsb_kept, kept_In in E. destruct E as (_ & _ & _ & E). congruence.
Qed.
End Grid.
