(** C45, C46: the coefficient arrays of SurfaceRZFourier. *)
From Coq Require Import Reals Lra Lia ZArith.
From Verif Require Import ListAux VecAux SurfModel.
Open Scope nat_scope.

(** the (m, n) of entry i *)
Definition mn_at (s : surf) (i : nat) : nat * Z := (i / width s, (Z.of_nat (i mod width s) - Z.of_nat (ntor s))%Z).
Lemma width_pos s : 0 < width s. Proof. unfold width. lia. Qed.
Lemma first_le s k : first s k <= total s.
Proof. unfold first, total, width. destruct k; nia. Qed.
Lemma kind_eqb_spec a b : reflect (a = b) (kind_eqb a b).
Proof. destruct a, b; cbn; constructor; congruence. Qed.
Lemma seq_split a b c : seq a (b + c) = seq a b ++ seq (a + b) c. Proof. apply seq_app. Qed.
Lemma map_seq_shift {A} (f : nat -> A) a n : map f (seq a n) = map (fun i => f (a + i)) (seq 0 n).
Proof.
  revert a f. induction n; intros a f; cbn; auto. rewrite Nat.add_0_r. f_equal. rewrite IHn, (IHn 1). apply map_ext. intros; f_equal; lia.
Qed.
(** all the (m, n) in row-major order *)
Lemma grid_flat {A} (f : nat -> nat -> A) W m0 M : 0 < W ->
  flat_map (fun m => map (fun j => f m j) (seq 0 W)) (seq m0 M) = map (fun i => f (i / W) (i mod W)) (seq (m0 * W) (M * W)).
Proof.
  intros HW. revert m0. induction M; intros m0; cbn [seq flat_map Nat.mul]; auto. rewrite seq_app, map_app, IHM. f_equal.
  - rewrite (map_seq_shift _ (m0 * W)). apply map_ext_in. intros j Hj. apply in_seq in Hj.
    rewrite Nat.add_comm, Nat.div_add, Nat.mod_add, Nat.div_small, Nat.mod_small by lia. reflexivity.
  - f_equal. f_equal. lia.
Qed.
Lemma names_helper_eq s k : names_helper s k (match k with RC | ZC => true | _ => false end) =
  map (fun i => let '(m, n) := mn_at s i in (k, m, n)) (seq (first s k) (total s - first s k)).
Proof.
  assert (HW := width_pos s). set (F := fun i => let '(m, n) := mn_at s i in (k, m, n)).
  assert (E0 : forall j, j < width s -> F j = (k, 0, (Z.of_nat j - Z.of_nat (ntor s))%Z)).
  { intros j Hj. unfold F, mn_at. now rewrite Nat.div_small, Nat.mod_small by auto. }
  assert (E1 : flat_map (fun m => map (fun j => (k, m, (Z.of_nat j - Z.of_nat (ntor s))%Z)) (seq 0 (2 * ntor s + 1))) (seq 1 (mpol s)) =
               map F (seq (width s) (mpol s * width s))).
  { change (2 * ntor s + 1) with (width s). rewrite (grid_flat (fun m j => (k, m, (Z.of_nat j - Z.of_nat (ntor s))%Z))) by auto. now rewrite Nat.mul_1_l. }
  assert (E2 : map (fun n => (k, 0, Z.of_nat n)) (seq 1 (ntor s)) = map F (seq (ntor s + 1) (ntor s))).
  { rewrite (map_seq_shift _ 1), (map_seq_shift F). apply map_ext_in. intros j Hj. apply in_seq in Hj. rewrite E0 by (unfold width; lia). f_equal. lia. }
  assert (E3 : map F (seq (ntor s + 1) (total s - (ntor s + 1))) = map F (seq (ntor s + 1) (ntor s)) ++ map F (seq (width s) (mpol s * width s))).
  { rewrite <- map_app. f_equal. replace (width s) with (ntor s + 1 + ntor s) at 1 by (unfold width; lia). rewrite <- seq_app. f_equal. unfold total, width. nia. }
  unfold names_helper. rewrite E1, E2, <- E3. destruct k; cbn [first]; auto.
  - replace (total s - ntor s) with (S (total s - (ntor s + 1))) by (unfold total, width; nia). cbn [seq map]. rewrite E0 by (unfold width; lia).
    rewrite Z.sub_diag, Nat.add_1_r. reflexivity.
  - replace (total s - ntor s) with (S (total s - (ntor s + 1))) by (unfold total, width; nia). cbn [seq map]. rewrite E0 by (unfold width; lia).
    rewrite Z.sub_diag, Nat.add_1_r. reflexivity.
Qed.
(** names as one list over the arrays *)
Lemma make_names_eq s : make_names s = flat_map (fun k => map (fun i => let '(m, n) := mn_at s i in (k, m, n)) (seq (first s k) (total s - first s k))) (order s).
Proof.
  unfold make_names, order. rewrite <- !names_helper_eq || idtac.
  pose proof (names_helper_eq s RC) as H1. pose proof (names_helper_eq s RS) as H2. pose proof (names_helper_eq s ZC) as H3. pose proof (names_helper_eq s ZS) as H4.
  cbn beta iota in *. destruct (stellsym s); cbn [flat_map]; rewrite ?H1, ?H2, ?H3, ?H4, ?app_nil_r, ?app_assoc; reflexivity.
Qed.
Lemma mn_all s : flat_map (fun m => map (fun j => (m, (Z.of_nat j - Z.of_nat (ntor s))%Z)) (seq 0 (2 * ntor s + 1))) (seq 0 (mpol s + 1)) =
  map (mn_at s) (seq 0 (total s)).
Proof. change (2 * ntor s + 1) with (width s). rewrite (grid_flat (fun m j => (m, (Z.of_nat j - Z.of_nat (ntor s))%Z))) by apply width_pos. reflexivity. Qed.
Lemma skipn_seq n a b : skipn n (seq a b) = seq (a + n) (b - n).
Proof.
  revert a b. induction n; intros a b; cbn [skipn]; [now rewrite Nat.add_0_r, Nat.sub_0_r|]. destruct b; cbn [seq skipn]; auto.
  rewrite IHn. f_equal; lia.
Qed.
Lemma mn0_eq s : mn0 s = map (mn_at s) (seq (ntor s) (total s - ntor s)).
Proof. unfold mn0. rewrite mn_all, skipn_map, skipn_seq. reflexivity. Qed.
Theorem C45_mn_match_names s : make_mn s = map (fun x => let '(k, m, n) := x in (m, n)) (make_names s).
Proof.
  rewrite make_names_eq. unfold make_mn. rewrite mn0_eq, skipn_map, skipn_seq, <- Nat.sub_add_distr.
  assert (P : forall k : kind, map (mn_at s) (seq (first s k) (total s - first s k)) = map (fun x : name => let '(_, m, n) := x in (m, n))
      (map (fun i => let '(m, n) := mn_at s i in (k, m, n)) (seq (first s k) (total s - first s k)))).
  { intros k. rewrite map_map. apply map_ext. intros i. now destruct (mn_at s i). }
  unfold order. destruct (stellsym s); cbn [flat_map]; rewrite !map_app, <- !P; cbn [first map]; rewrite ?app_nil_r, ?app_assoc; reflexivity.
Qed.
(** the i-th dof is the coefficient that the i-th name denotes *)
Lemma coef_at s k i : nth i (arr s k) 0%R = coef s k (fst (mn_at s i)) (snd (mn_at s i)).
Proof.
  unfold coef, mn_at. cbn [fst snd]. f_equal. rewrite Z.sub_add, Nat2Z.id. rewrite Nat.mul_comm. apply Nat.div_mod. pose proof (width_pos s). lia.
Qed.
Theorem C45_dofs_are_named_coefficients s : get_dofs s = map (fun x => let '(k, m, n) := x in coef s k m n) (make_names s).
Proof.
  rewrite make_names_eq. unfold get_dofs. induction (order s) as [|k l IH]; cbn [flat_map]; auto. rewrite map_app, <- IH. f_equal.
  rewrite map_map. apply map_ext. intros i. rewrite coef_at. now destruct (mn_at s i).
Qed.
Theorem C45_sizes s : length (make_names s) = num_dofs s /\ length (get_dofs s) = num_dofs s /\ length (make_mn s) = num_dofs s.
Proof.
  assert (L : length (make_names s) = num_dofs s).
  { rewrite make_names_eq. unfold num_dofs, order. destruct (stellsym s); cbn [flat_map]; rewrite ?app_nil_r, !app_length, !map_length, !seq_length; cbn [first];
      unfold total, width; nia. }
  split; auto. split; [rewrite C45_dofs_are_named_coefficients|rewrite C45_mn_match_names]; now rewrite map_length.
Qed.
(** a name exists exactly for the coefficients that are dofs *)
Lemma mn_at_inj s i j : mn_at s i = mn_at s j -> i = j.
Proof.
  unfold mn_at. intros E. pose proof (width_pos s). injection E as E1 E2. rewrite (Nat.div_mod i (width s)), (Nat.div_mod j (width s)) by lia. rewrite E1. f_equal. lia.
Qed.
Lemma mn_at_back s m n : in_range s m n -> m * width s + Z.to_nat (n + Z.of_nat (ntor s)) < total s /\
  mn_at s (m * width s + Z.to_nat (n + Z.of_nat (ntor s))) = (m, n).
Proof.
  intros [Hm Hn]. assert (L : Z.to_nat (n + Z.of_nat (ntor s)) < width s) by (unfold width; lia). split; [unfold total; nia|].
  unfold mn_at. rewrite Nat.add_comm. rewrite Nat.div_add, Nat.mod_add by lia. rewrite Nat.div_small, Nat.mod_small by auto. f_equal. lia.
Qed.
Lemma mn_at_range s i : i < total s -> in_range s (fst (mn_at s i)) (snd (mn_at s i)).
Proof.
  intros H. pose proof (width_pos s). unfold mn_at, in_range. cbn [fst snd]. split.
  - assert (i / width s < mpol s + 1); [|lia]. apply Nat.div_lt_upper_bound; [lia|]. unfold total in H. lia.
  - pose proof (Nat.mod_upper_bound i (width s)). unfold width in *. lia.
Qed.
Lemma first_spec s k m n : in_range s m n ->
  first s k <= m * width s + Z.to_nat (n + Z.of_nat (ntor s)) <-> (m = 0 -> match k with RC | ZC => (0 <= n)%Z | RS | ZS => (0 < n)%Z end).
Proof.
  intros [Hm Hn]. destruct m as [|m].
  - destruct k; cbn [first]; split; intros; lia.
  - split; [intros; lia|]. intros _. destruct k; cbn [first]; unfold width; nia.
Qed.
Theorem C45_names_exactly_the_dofs s k m n : In (k, m, n) (make_names s) <-> is_dof s k m n.
Proof.
  rewrite make_names_eq, in_flat_map. unfold is_dof. split.
  - intros (k' & Hk & H). apply in_map_iff in H as (i & E & Hi). apply in_seq in Hi. pose proof (first_le s k').
    assert (R := mn_at_range s i ltac:(lia)). destruct (mn_at s i) as [m' n'] eqn:EM. injection E as -> -> ->. cbn [fst snd] in R. split; auto. split.
    + intros S. unfold order in Hk. rewrite S in Hk. cbn in Hk. intuition congruence.
    + apply (proj1 (first_spec s k m n R)). destruct (mn_at_back s m n R) as [_ B]. rewrite <- EM in B. apply mn_at_inj in B. lia.
  - intros (R & S & F). exists k. split.
    + unfold order. destruct (stellsym s); [destruct (S eq_refl) as [->| ->]; cbn; auto|]. destruct k; cbn; auto.
    + destruct (mn_at_back s m n R) as [L B]. apply in_map_iff. exists (m * width s + Z.to_nat (n + Z.of_nat (ntor s))). rewrite B. split; auto.
      apply (proj2 (first_spec s k m n R)) in F. apply in_seq. lia.
Qed.
Lemma NoDup_app2 {A} (a b : list A) : NoDup a -> NoDup b -> (forall x, In x a -> ~ In x b) -> NoDup (a ++ b).
Proof.
  intros Ha Hb D. induction Ha as [|x a N Ha IH]; cbn; auto. constructor; [|apply IH; intros; apply D; now right].
  rewrite in_app_iff. intros [H|H]; [auto|]. apply (D x); [now left|auto].
Qed.
Lemma NoDup_flat {A B} (f : A -> list B) (tag : B -> A) l : NoDup l -> (forall a, NoDup (f a)) -> (forall a b, In b (f a) -> tag b = a) -> NoDup (flat_map f l).
Proof.
  intros H F T. induction H as [|a l N H IH]; cbn; [constructor|]. apply NoDup_app2; auto.
  intros b Hb. intros Hc. apply in_flat_map in Hc as (a' & Ha & Hc). apply T in Hb, Hc. congruence.
Qed.
Theorem C45_names_distinct s : NoDup (make_names s).
Proof.
  rewrite make_names_eq. apply (NoDup_flat _ (fun x => let '(k, _, _) := x in k)).
  - unfold order. destruct (stellsym s); repeat constructor; cbn; intuition congruence.
  - intros k. apply FinFun.Injective_map_NoDup; [|apply seq_NoDup]. intros i j E. apply (mn_at_inj s). destruct (mn_at s i), (mn_at s j). congruence.
  - intros k b H. apply in_map_iff in H as (i & <- & _). now destruct (mn_at s i).
Qed.

(** ** set_dofs *)
Lemma nth_map_seq {A} (f : nat -> A) n i d : i < n -> nth i (map f (seq 0 n)) d = f i.
Proof. intros H. apply nth_error_nth. rewrite nth_error_map, (nth_error_nth' _ 0) by (rewrite seq_length; auto). cbn. now rewrite seq_nth. Qed.
Lemma write_arr_length a st tot dofs c : length (write_arr a st tot dofs c) = tot.
Proof. unfold write_arr. now rewrite map_length, seq_length. Qed.
(** where the block of array k starts in the dofs *)
Fixpoint start (s : surf) (l : list kind) (k : kind) : nat :=
  match l with [] => 0 | k' :: l => if kind_eqb k k' then 0 else (total s - first s k') + start s l k end.
Lemma set_dofs_fold s dofs l : NoDup l -> forall c s0, mpol s0 = mpol s -> ntor s0 = ntor s -> stellsym s0 = stellsym s ->
  let r := snd (fold_left (fun cs k => let '(c, s) := cs in
         (c + (total s - first s k), Surf (mpol s) (ntor s) (stellsym s) (upd_arr (arr s) k (write_arr (arr s k) (first s k) (total s) dofs c)))) l (c, s0)) in
  mpol r = mpol s /\ ntor r = ntor s /\ stellsym r = stellsym s /\
  forall k, arr r k = if existsb (kind_eqb k) l then write_arr (arr s0 k) (first s k) (total s) dofs (c + start s l k) else arr s0 k.
Proof.
  induction 1 as [|k0 l N ND IH]; intros c s0 E1 E2 E3; cbn [fold_left].
  - cbn. auto.
  - assert (T : total s0 = total s) by (unfold total, width; congruence). assert (F : forall k, first s0 k = first s k) by (intros []; cbn; congruence).
    specialize (IH (c + (total s0 - first s0 k0)) (Surf (mpol s0) (ntor s0) (stellsym s0) (upd_arr (arr s0) k0 (write_arr (arr s0 k0) (first s0 k0) (total s0) dofs c))) E1 E2 E3).
    cbv zeta in IH. destruct IH as (A & B & C & D). split; [auto|]. split; [auto|]. split; [auto|]. intros k. rewrite D. cbn [arr existsb start]. unfold upd_arr.
    destruct (kind_eqb_spec k k0) as [->|NE]; cbn [orb].
    + assert (X : existsb (kind_eqb k0) l = false).
      { apply not_true_iff_false. rewrite existsb_exists. intros (x & Hx & Ex). destruct (kind_eqb_spec k0 x); congruence. }
      rewrite X, T, F. now rewrite Nat.add_0_r.
    + destruct (existsb (kind_eqb k) l); auto. rewrite T, F. f_equal. lia.
Qed.
Lemma order_NoDup s : NoDup (order s).
Proof. unfold order. destruct (stellsym s); repeat constructor; cbn; intuition congruence. Qed.
Lemma set_dofs_eq s dofs :
  mpol (set_dofs s dofs) = mpol s /\ ntor (set_dofs s dofs) = ntor s /\ stellsym (set_dofs s dofs) = stellsym s /\
  forall k, arr (set_dofs s dofs) k = if existsb (kind_eqb k) (order s) then write_arr (arr s k) (first s k) (total s) dofs (start s (order s) k) else arr s k.
Proof. apply (set_dofs_fold s dofs (order s) (order_NoDup s) 0 s); auto. Qed.
Lemma set_dofs_wf s dofs : wf s -> wf (set_dofs s dofs).
Proof.
  intros H k. destruct (set_dofs_eq s dofs) as (A & B & C & D). rewrite D. unfold total, width. rewrite A, B. fold (width s). fold (total s).
  destruct (existsb _ _); [apply write_arr_length|apply H].
Qed.
Lemma flat_blocks {A B} (f g : A -> list B) l : (forall a, In a l -> f a = g a) -> flat_map f l = flat_map g l.
Proof. induction l as [|a l IH]; intros H; cbn; auto. rewrite H, IH; auto; [intros; apply H; now right|now left]. Qed.
Lemma nth_skipn {A} n : forall (l : list A) i d, nth i (skipn n l) d = nth (n + i) l d.
Proof. induction n; intros l i d; auto. destruct l; cbn; auto. now destruct i. Qed.
Lemma blocks_read s dofs l : NoDup l -> length dofs = list_sum (map (fun k => total s - first s k) l) ->
  flat_map (fun k => map (fun i => nth (start s l k + i) dofs 0%R) (seq 0 (total s - first s k))) l = dofs.
Proof.
  intros ND. revert dofs. induction ND as [|k l N ND IH]; intros dofs L; cbn [flat_map map list_sum] in *.
  - destruct dofs; auto. discriminate.
  - set (w := total s - first s k) in *. cbn [list_sum fold_right] in L. change (fold_right Nat.add 0 ?x) with (list_sum x) in L.
    transitivity (firstn w dofs ++ skipn w dofs); [|apply firstn_skipn]. f_equal.
    + cbn [start]. destruct (kind_eqb_spec k k); [|congruence]. cbn [Nat.add].
      apply (nth_ext _ _ 0%R 0%R); [rewrite map_length, seq_length, firstn_length; lia|]. intros i Hi. rewrite map_length, seq_length in Hi.
      rewrite (nth_map_seq (fun i => nth i dofs 0%R)) by auto. rewrite <- (firstn_skipn w dofs) at 1. rewrite app_nth1 by (rewrite firstn_length; lia). reflexivity.
    + rewrite <- (IH (skipn w dofs)) by (rewrite skipn_length; lia). apply flat_blocks. intros k' Hk. apply map_ext. intros i.
      cbn [start]. destruct (kind_eqb_spec k' k) as [->|]; [contradiction|]. fold w. rewrite nth_skipn. f_equal. lia.
Qed.
Lemma num_dofs_sum s : num_dofs s = list_sum (map (fun k => total s - first s k) (order s)).
Proof. unfold num_dofs, order. destruct (stellsym s); cbn [map list_sum fold_right first]; unfold total, width; nia. Qed.
Theorem C45_set_then_get s dofs : length dofs = num_dofs s -> get_dofs (set_dofs s dofs) = dofs.
Proof.
  intros L. destruct (set_dofs_eq s dofs) as (A & B & C & D). unfold get_dofs.
  assert (T : total (set_dofs s dofs) = total s) by (unfold total, width; congruence).
  assert (F : forall k, first (set_dofs s dofs) k = first s k) by (intros []; cbn; congruence).
  replace (order (set_dofs s dofs)) with (order s) by (unfold order; now rewrite C).
  transitivity (flat_map (fun k => map (fun i => nth (start s (order s) k + i) dofs 0%R) (seq 0 (total s - first s k))) (order s)).
  - apply flat_blocks. intros k Hk. rewrite T, F, D, map_seq_shift.
    assert (X : existsb (kind_eqb k) (order s) = true) by (apply existsb_exists; exists k; split; auto; destruct (kind_eqb_spec k k); congruence).
    rewrite X. apply map_ext_in. intros i Hi. apply in_seq in Hi. unfold write_arr. rewrite nth_map_seq by lia.
    rewrite (proj2 (Nat.leb_le _ _)) by lia. f_equal. lia.
  - apply blocks_read; [apply order_NoDup|]. now rewrite <- num_dofs_sum.
Qed.
(** set_dofs touches only the coefficients that are dofs *)
Theorem C45_set_leaves_others s dofs k m n : wf s -> in_range s m n -> ~ is_dof s k m n -> coef (set_dofs s dofs) k m n = coef s k m n.
Proof.
  intros W R N. destruct (set_dofs_eq s dofs) as (A & B & C & D). unfold coef. rewrite D. unfold width. rewrite B. fold (width s).
  destruct (existsb (kind_eqb k) (order s)) eqn:X; auto. destruct (mn_at_back s m n R) as [L _]. unfold write_arr. rewrite nth_map_seq by auto.
  destruct (Nat.leb_spec (first s k) (m * width s + Z.to_nat (n + Z.of_nat (ntor s)))) as [Q|Q]; auto. exfalso. apply N. split; auto. split.
  - intros S. apply existsb_exists in X as (x & Hx & E). destruct (kind_eqb_spec k x); [|discriminate]. subst x. unfold order in Hx. rewrite S in Hx. cbn in Hx. intuition.
  - apply (proj1 (first_spec s k m n R)). auto.
Qed.
Lemma start_nth s l k i : In k l -> NoDup l -> first s k <= i < total s ->
  nth_error (flat_map (fun k => map (fun i => nth i (arr s k) 0%R) (seq (first s k) (total s - first s k))) l) (start s l k + (i - first s k)) = Some (nth i (arr s k) 0%R).
Proof.
  intros HI ND Hi. induction ND as [|k0 l N ND IH]; [destruct HI|]. cbn [flat_map start]. destruct (kind_eqb_spec k k0) as [->|NE].
  - rewrite nth_error_app1 by (rewrite map_length, seq_length; lia). rewrite nth_error_map, (nth_error_nth' _ 0) by (rewrite seq_length; lia). cbn. rewrite seq_nth by lia. do 2 f_equal. lia.
  - rewrite nth_error_app2 by (rewrite map_length, seq_length; lia). rewrite map_length, seq_length.
    replace (total s - first s k0 + start s l k + (i - first s k) - (total s - first s k0)) with (start s l k + (i - first s k)) by lia. apply IH. destruct HI; congruence.
Qed.
(** writing back the current dofs changes nothing *)
Lemma set_get_id s k : wf s -> arr (set_dofs s (get_dofs s)) k = arr s k.
Proof.
  intros W. destruct (set_dofs_eq s (get_dofs s)) as (_ & _ & _ & D). rewrite D. destruct (existsb (kind_eqb k) (order s)) eqn:X; auto.
  assert (HI : In k (order s)). { apply existsb_exists in X as (x & Hx & E). destruct (kind_eqb_spec k x); congruence. }
  apply (nth_ext _ _ 0%R 0%R); [now rewrite write_arr_length, W|]. intros i Hi. rewrite write_arr_length in Hi. unfold write_arr. rewrite nth_map_seq by auto.
  destruct (Nat.leb_spec (first s k) i); auto. apply nth_error_nth. unfold get_dofs. apply start_nth; auto using order_NoDup.
Qed.
(** ** set_rc, get_rc and the others *)
Lemma replace_nth l i v j : j < length l -> nth j (replace l i v) 0%R = if j =? i then v else nth j l 0%R.
Proof. intros H. unfold replace. now rewrite nth_map_seq. Qed.
Lemma replace_length l i v : length (replace l i v) = length l.
Proof. unfold replace. now rewrite map_length, seq_length. Qed.
Lemma valid_iff s m n : valid_mn s m n = true <-> (0 <= m)%Z /\ in_range s (Z.to_nat m) n.
Proof. unfold valid_mn, in_range. rewrite !andb_true_iff, !Z.leb_le. lia. Qed.
Lemma set_coef_arr s k m n v : wf s -> absent s k = false -> valid_mn s m n = true ->
  let s' := fst (set_coef s k m n v) in
  mpol s' = mpol s /\ ntor s' = ntor s /\ stellsym s' = stellsym s /\ wf s' /\
  forall k', arr s' k' = if kind_eqb k' k then replace (arr s k) (at_mn s m n) v else arr s k'.
Proof.
  intros W A V. unfold set_coef. rewrite A, V. cbn [fst]. set (s1 := Surf (mpol s) (ntor s) (stellsym s) (upd_arr (arr s) k (replace (arr s k) (at_mn s m n) v))).
  assert (W1 : wf s1). { intros k'. unfold s1, upd_arr. cbn [arr]. change (total s1) with (total s). destruct (kind_eqb k' k); [rewrite replace_length|]; apply W. }
  destruct (set_dofs_eq s1 (get_dofs s1)) as (M1 & M2 & M3 & _). split; [rewrite M1; reflexivity|]. split; [rewrite M2; reflexivity|]. split; [rewrite M3; reflexivity|].
  split; [now apply set_dofs_wf|]. intros k'. rewrite set_get_id by auto. reflexivity.
Qed.
Theorem C45_set_get_coefficient s k m n v : wf s -> absent s k = false -> valid_mn s m n = true ->
  let s' := fst (set_coef s k m n v) in
  snd (set_coef s k m n v) = None /\ get_coef s' k m n = Val v /\
  forall k' m' n', (k', m', n') <> (k, m, n) -> get_coef s' k' m' n' = get_coef s k' m' n'.
Proof.
  intros W A V. pose proof (set_coef_arr s k m n v W A V) as H. cbv zeta in *. destruct H as (M1 & M2 & M3 & W' & HA). set (s' := fst (set_coef s k m n v)) in *.
  assert (AB : forall k, absent s' k = absent s k) by (intros; unfold absent; now rewrite M3).
  assert (VA : forall m n, valid_mn s' m n = valid_mn s m n) by (intros; unfold valid_mn; now rewrite M1, M2).
  assert (AT : forall m n, at_mn s' m n = at_mn s m n) by (intros; unfold at_mn, width; now rewrite M2).
  assert (B : forall m n, valid_mn s m n = true -> at_mn s m n < total s /\ mn_at s (at_mn s m n) = (Z.to_nat m, n)).
  { intros m0 n0 V0. apply valid_iff in V0 as [_ V0]. unfold at_mn. now apply mn_at_back. }
  split; [unfold set_coef; rewrite A, V; reflexivity|]. split.
  - unfold get_coef. rewrite AB, VA, AT, A, V, HA. destruct (kind_eqb_spec k k); [|congruence]. rewrite replace_nth by (rewrite W; apply B; auto). now rewrite Nat.eqb_refl.
  - intros k' m' n' NE. unfold get_coef. rewrite AB, VA, AT. destruct (absent s k'); auto. destruct (valid_mn s m' n') eqn:V'; auto. f_equal. rewrite HA.
    destruct (kind_eqb_spec k' k) as [->|]; auto. rewrite replace_nth by (rewrite W; apply B; auto). destruct (Nat.eqb_spec (at_mn s m' n') (at_mn s m n)) as [E|]; auto.
    exfalso. destruct (B m n V) as [_ E1]. destruct (B m' n' V') as [_ E2]. rewrite E, E1 in E2. injection E2 as Em En. apply NE.
    apply valid_iff in V as [P1 _]. apply valid_iff in V' as [P2 _]. f_equal; [f_equal; lia|congruence].
Qed.
(** the accessors read and write the named coefficients *)
Theorem C45_get_is_coefficient s k m n : absent s k = false -> valid_mn s (Z.of_nat m) n = true -> get_coef s k (Z.of_nat m) n = Val (coef s k m n).
Proof. intros A V. unfold get_coef, coef, at_mn. now rewrite A, V, Nat2Z.id. Qed.
Theorem C45_bad_index s k m n v : absent s k = false -> valid_mn s m n = false ->
  get_coef s k m n = RaisesIndexError /\ set_coef s k m n v = (s, Some RaisesIndexError).
Proof. intros A V. unfold get_coef, set_coef. now rewrite A, V. Qed.
(** for a stellarator symmetric surface get_rs/set_rs/get_zc/set_zc return an exception object instead of raising it; nothing changes *)
Theorem C45_absent_arrays s k m n v : stellsym s = true -> k = RS \/ k = ZC ->
  get_coef s k m n = ReturnsValueError /\ set_coef s k m n v = (s, Some ReturnsValueError).
Proof. intros S H. unfold get_coef, set_coef, absent. rewrite S. destruct H as [->| ->]; auto. Qed.
(** coefficients (0, n<0) (and sine coefficients (0,0)) can be set and read back but are not dofs: the dofs do not see them *)
Theorem C45_hidden_coefficients s k m n v : wf s -> absent s k = false -> valid_mn s (Z.of_nat m) n = true -> ~ is_dof s k m n ->
  let s' := fst (set_coef s k (Z.of_nat m) n v) in
  get_coef s' k (Z.of_nat m) n = Val v /\ get_dofs s' = get_dofs s.
Proof.
  intros W A V N. pose proof (C45_set_get_coefficient s k (Z.of_nat m) n v W A V) as (_ & G & _). pose proof (set_coef_arr s k (Z.of_nat m) n v W A V) as H. cbv zeta in *.
  destruct H as (M1 & M2 & M3 & W' & HA). set (s' := fst (set_coef s k (Z.of_nat m) n v)) in *. split; auto.
  rewrite !C45_dofs_are_named_coefficients.
  assert (NM : make_names s' = make_names s) by (unfold make_names, names_helper; now rewrite M1, M2, M3). rewrite NM. apply map_ext_in. intros [[k' m'] n'] HI.
  apply C45_names_exactly_the_dofs in HI. unfold coef. rewrite HA. unfold width. rewrite M2. fold (width s).
  destruct (kind_eqb_spec k' k) as [->|]; auto. pose proof HI as HD. destruct HI as (R' & _). pose proof (mn_at_back s m' n' R') as [L1 L2]. rewrite replace_nth by (rewrite W; auto).
  destruct (Nat.eqb_spec (m' * width s + Z.to_nat (n' + Z.of_nat (ntor s))) (at_mn s (Z.of_nat m) n)) as [E|]; auto. exfalso.
  unfold at_mn in E. rewrite Nat2Z.id in E. apply valid_iff in V as [_ V]. rewrite Nat2Z.id in V. pose proof (mn_at_back s m n V) as [_ L3]. rewrite <- E, L2 in L3. injection L3 as -> ->.
  now apply N.
Qed.
