(** C73-C75: close point clouds, CurveCurveDistance and CurveSurfaceDistance. *)
From Coq Require Import Reals Lra Lia ZArith List Bool Sorting.Sorted Permutation.
From Verif Require Import ListAux VecAux Vec3 PointsModel CurveDiff DistModel.
Import ListNotations.
Open Scope R_scope.

(** * Sets of cells *)
Definition clt (a b : cell) : Prop := cell_ltb a b = true.
Ltac cells := unfold clt, cell_ltb, cell_eqb in *; repeat match goal with a : cell |- _ => destruct a as [[? ?] ?] end.
Lemma cell_eqb_eq a b : cell_eqb a b = true <-> a = b.
Proof. cells. rewrite !andb_true_iff, !Z.eqb_eq. split; [intros ((A & B) & C); congruence|intros [= A B C]; auto]. Qed.
Lemma clt_trans a b c : clt a b -> clt b c -> clt a c. Proof. cells. intros. lia. Qed.
Lemma clt_irrefl a : ~ clt a a. Proof. cells. intros. lia. Qed.
Lemma clt_total a b : cell_ltb a b = false -> cell_eqb a b = false -> clt b a. Proof. cells. intros. lia. Qed.
Lemma insert_in c s x : In x (insert c s) <-> x = c \/ In x s.
Proof.
  induction s as [|a r IH]; cbn [insert]; [cbn; intuition congruence|]. destruct (cell_ltb c a); [cbn; intuition congruence|].
  destruct (cell_eqb c a) eqn:E; [apply cell_eqb_eq in E; subst; cbn; intuition congruence|]. cbn. rewrite IH. intuition congruence.
Qed.
Lemma insert_sorted c s : StronglySorted clt s -> StronglySorted clt (insert c s).
Proof.
  induction 1 as [|a r H IH F]; cbn [insert]; [repeat constructor|]. destruct (cell_ltb c a) eqn:L.
  - constructor; [now constructor|]. constructor; [exact L|]. eapply Forall_impl; [|exact F]. intros b. now apply clt_trans.
  - destruct (cell_eqb c a) eqn:E; [now constructor|]. constructor; [exact IH|]. apply Forall_forall. intros x X. apply insert_in in X. destruct X as [->|X]; [now apply clt_total|]. rewrite Forall_forall in F. auto.
Qed.
Lemma fold_insert l s : StronglySorted clt s -> StronglySorted clt (fold_left (fun s c => insert c s) l s) /\ forall x, In x (fold_left (fun s c => insert c s) l s) <-> In x s \/ In x l.
Proof.
  revert s. induction l as [|c l IH]; intros s H; cbn [fold_left]; [split; [exact H|intros x; cbn; tauto]|]. destruct (IH (insert c s) (insert_sorted c s H)) as (A & B). split; [exact A|].
  intros x. rewrite B, insert_in. cbn. intuition congruence.
Qed.
Lemma set_of_spec t cl : StronglySorted clt (set_of t cl) /\ forall x, In x (set_of t cl) <-> exists p, In p cl /\ x = cell_of t p.
Proof.
  unfold set_of. assert (E : forall s, fold_left (fun s p => insert (cell_of t p) s) cl s = fold_left (fun s c => insert c s) (map (cell_of t) cl) s) by (induction cl as [|p cl IH]; intros s; [reflexivity|cbn; apply IH]).
  rewrite E. destruct (fold_insert (map (cell_of t) cl) [] (SSorted_nil _)) as (A & B). split; [exact A|]. intros x. rewrite B, in_map_iff. split; [intros [[]|(p & E' & H)]; exists p; auto|intros (p & H & ->); right; exists p; auto].
Qed.
Lemma set_extended_spec t cl : StronglySorted clt (set_extended t cl) /\ forall x, In x (set_extended t cl) <-> exists p, In p cl /\ In x (neighbours (cell_of t p)).
Proof.
  unfold set_extended. assert (E : forall s, fold_left (fun s p => fold_left (fun s c => insert c s) (neighbours (cell_of t p)) s) cl s = fold_left (fun s c => insert c s) (flat_map (fun p => neighbours (cell_of t p)) cl) s).
  { induction cl as [|p cl IH]; intros s; [reflexivity|]. cbn [fold_left flat_map]. now rewrite fold_left_app, IH. }
  rewrite E. destruct (fold_insert (flat_map (fun p => neighbours (cell_of t p)) cl) [] (SSorted_nil _)) as (A & B). split; [exact A|]. intros x. rewrite B, in_flat_map. split; [intros [[]|(p & H)]; exists p; auto|intros (p & H); right; exists p; auto].
Qed.
Lemma empty_spec x : forall y, StronglySorted clt x -> StronglySorted clt y -> (empty_intersection x y = true <-> forall c, In c x -> ~ In c y).
Proof.
  induction x as [|a x IHx]; [cbn; tauto|]. induction y as [|b y IHy]; intros Sx Sy; [cbn; tauto|].
  inversion Sx as [|? ? Sx' Fx]; subst. inversion Sy as [|? ? Sy' Fy]; subst. rewrite Forall_forall in Fx, Fy.
  change (empty_intersection (a :: x) (b :: y)) with (if cell_eqb a b then false else if cell_ltb a b then empty_intersection x (b :: y) else empty_intersection (a :: x) y).
  destruct (cell_eqb a b) eqn:E.
  - apply cell_eqb_eq in E. subst b. split; [discriminate|]. intros H. exfalso. apply (H a); now left.
  - assert (NE : a <> b) by (intros X; apply cell_eqb_eq in X; congruence). destruct (cell_ltb a b) eqn:L.
    + rewrite (IHx (b :: y) Sx' Sy). split; intros H c C; [|apply H; now right]. destruct C as [<-|C]; [|now apply H]. intros [X|X]; [now apply NE|]. apply (clt_irrefl a). apply (clt_trans a b a); [exact L|now apply Fy].
    + assert (G : clt b a) by now apply clt_total. rewrite (IHy Sx Sy'). split; intros H c C; [|intros X; apply (H c C); now right]. intros [X|X]; [|now apply (H c C)]. subst c.
      destruct C as [C|C]; [now apply NE|]. apply (clt_irrefl b). apply (clt_trans b a b); [exact G|now apply Fx].
Qed.

(** * C73: the candidates are exactly the pairs of clouds with two points closer than the threshold *)
Lemma floor_close x y t : t <> 0 -> Rabs (x - y) < Rabs t -> (-1 <= Int_part (x / t) - Int_part (y / t) <= 1)%Z.
Proof.
  intros T H. destruct (Int_part_bounds (x / t)) as [A B]. destruct (Int_part_bounds (y / t)) as [C E].
  assert (K : Rabs (x / t - y / t) < 1). { replace (x / t - y / t) with ((x - y) / t) by (field; auto). unfold Rdiv. rewrite Rabs_mult, Rabs_inv. apply Rmult_lt_reg_r with (Rabs t); [now apply Rabs_pos_lt|]. rewrite Rmult_assoc, Rinv_l, Rmult_1_r, Rmult_1_l by (apply Rabs_no_R0; auto). exact H. }
  apply Rabs_def2 in K. assert (U : IZR (Int_part (x / t) - Int_part (y / t)) < 2) by (rewrite minus_IZR; lra). assert (L : -2 < IZR (Int_part (x / t) - Int_part (y / t))) by (rewrite minus_IZR; lra).
  apply lt_IZR in U. apply lt_IZR in L. lia.
Qed.
Lemma neighbours_in i j k i' j' k' : (-1 <= i' - i <= 1)%Z -> (-1 <= j' - j <= 1)%Z -> (-1 <= k' - k <= 1)%Z -> In (i', j', k') (neighbours (i, j, k)).
Proof.
  intros A B C. unfold neighbours. apply in_flat_map. exists (i' - i)%Z. split; [cbn; lia|]. apply in_flat_map. exists (j' - j)%Z. split; [cbn; lia|]. apply in_map_iff. exists (k' - k)%Z. split; [|cbn; lia].
  f_equal; [f_equal|]; lia.
Qed.
Definition d2 (a b : vec3) : R := (vx a - vx b) ^ 2 + (vy a - vy b) ^ 2 + (vz a - vz b) ^ 2.
Lemma d2_pos a b : 0 <= d2 a b. Proof. unfold d2. assert (A := pow2_ge_0 (vx a - vx b)). assert (B := pow2_ge_0 (vy a - vy b)). assert (C := pow2_ge_0 (vz a - vz b)). lra. Qed.
Lemma d2_sym a b : d2 a b = d2 b a. Proof. unfold d2. ring. Qed.
Lemma sq_lt x t : x ^ 2 < t * t -> Rabs x < Rabs t.
Proof. intros H. apply Rsqr_lt_abs_0. unfold Rsqr. lra. Qed.
Lemma close_neighbours t a b : t <> 0 -> d2 a b < t * t -> In (cell_of t b) (neighbours (cell_of t a)).
Proof.
  intros T H. unfold d2 in H. assert (A := pow2_ge_0 (vx a - vx b)). assert (B := pow2_ge_0 (vy a - vy b)). assert (C := pow2_ge_0 (vz a - vz b)).
  apply neighbours_in; apply floor_close; auto; apply sq_lt; rewrite <- Rsqr_pow2; rewrite Rsqr_neg_minus; rewrite Rsqr_pow2; lra.
Qed.
Lemma too_close_spec A B t2 : two_points_too_close_exist A B t2 = true <-> exists a b, In a A /\ In b B /\ d2 a b < t2.
Proof.
  unfold two_points_too_close_exist. rewrite existsb_exists. split.
  - intros (a & Ha & H). apply existsb_exists in H. destruct H as (b & Hb & H). exists a, b. destruct (Rlt_dec _ _) as [L|]; [auto|discriminate].
  - intros (a & b & Ha & Hb & H). exists a. split; [exact Ha|]. apply existsb_exists. exists b. split; [exact Hb|]. destruct (Rlt_dec _ _) as [L|L]; [reflexivity|contradiction].
Qed.
(** two point clouds come closer than |t| *)
Definition closer_than (t : R) (A B : list vec3) : Prop := exists a b, In a A /\ In b B /\ dist a b < Rabs t.
Lemma dist_d2 a b : dist a b = sqrt (d2 a b). Proof. reflexivity. Qed.
Lemma dist_pos a b : 0 <= dist a b. Proof. apply sqrt_pos. Qed.
Lemma dist_sym a b : dist a b = dist b a. Proof. rewrite !dist_d2, d2_sym. reflexivity. Qed.
Lemma dist_lt t a b : dist a b < Rabs t <-> d2 a b < t * t.
Proof.
  rewrite dist_d2. assert (P := d2_pos a b). assert (Q := Rabs_pos t). assert (E : t * t = Rabs t * Rabs t) by (rewrite <- Rabs_mult; symmetry; apply Rabs_pos_eq; nra). rewrite E. split; intros H.
  - rewrite <- (sqrt_sqrt (d2 a b)) by exact P. apply Rmult_le_0_lt_compat; auto using sqrt_pos.
  - rewrite <- (sqrt_square (Rabs t)) by exact Q. apply sqrt_lt_1; auto. nra.
Qed.
Lemma cells_meet t A B : t <> 0 -> closer_than t A B -> exists c, In c (set_extended t A) /\ In c (set_of t B).
Proof.
  intros T (a & b & Ha & Hb & H). apply dist_lt in H. exists (cell_of t b). split.
  - apply set_extended_spec. exists a. split; [exact Ha|]. now apply close_neighbours.
  - apply set_of_spec. now exists b.
Qed.
Lemma closer_sym t A B : closer_than t A B -> closer_than t B A.
Proof. intros (a & b & Ha & Hb & H). exists b, a. rewrite dist_sym. auto. Qed.
Lemma too_close_closer t A B : two_points_too_close_exist A B (t * t) = true <-> closer_than t A B.
Proof. rewrite too_close_spec. unfold closer_than. split; intros (a & b & Ha & Hb & H); exists a, b; (split; [exact Ha|split; [exact Hb|]]); apply dist_lt; auto. Qed.
Theorem C73_within_collection clouds t nb : t <> 0 -> exists l, within_collection clouds t nb = Some l /\ NoDup l /\
  forall i j, In (i, j) l <-> (j < i < length clouds)%nat /\ (j < nb)%nat /\ closer_than t (nth i clouds []) (nth j clouds []).
Proof.
  intros T. unfold within_collection. destruct (Req_EM_T t 0) as [E|_]; [contradiction|]. eexists. split; [reflexivity|].
  assert (C1 : forall i j, In (i, j) (flat_map (fun i => flat_map (fun j => if (j <? nb)%nat then [(i, j)] else []) (seq 0 i)) (seq 0 (length clouds))) <-> (j < i < length clouds)%nat /\ (j < nb)%nat).
  { intros i j. rewrite in_flat_map. split.
    - intros (i' & Hi & H). apply in_flat_map in H. destruct H as (j' & Hj & H). apply in_seq in Hi. apply in_seq in Hj. destruct (Nat.ltb_spec j' nb); [|contradiction]. destruct H as [[= <- <-]|[]]. lia.
    - intros (H & N). exists i. split; [apply in_seq; lia|]. apply in_flat_map. exists j. split; [apply in_seq; lia|]. apply Nat.ltb_lt in N. rewrite N. now left. }
  assert (N1 : NoDup (flat_map (fun i => flat_map (fun j => if (j <? nb)%nat then [(i, j)] else []) (seq 0 i)) (seq 0 (length clouds)))).
  { assert (G : forall (f : nat -> list (nat * nat)) l, NoDup l -> (forall i, NoDup (f i)) -> (forall i x, In x (f i) -> fst x = i) -> NoDup (flat_map f l)).
    { intros f l Nl Nf Ff. induction Nl as [|a l Ha Nl IH]; cbn; [constructor|]. assert (AP : forall (u v : list (nat * nat)), NoDup u -> NoDup v -> (forall x, In x u -> ~ In x v) -> NoDup (u ++ v)).
      { induction u as [|x u IHu]; intros v Nu Nv Dj; [exact Nv|]. inversion Nu; subst. cbn. constructor; [rewrite in_app_iff; intros [X|X]; [contradiction|apply (Dj x); [now left|exact X]]|]. apply IHu; auto. intros y Y. apply Dj. now right. }
      apply AP; auto. intros x X Y. apply in_flat_map in Y. destruct Y as (b & Hb & Y). apply Ff in X. apply Ff in Y. congruence. }
    apply G; [apply seq_NoDup| |].
    - intros i. assert (NS := seq_NoDup i 0). induction (seq 0 i) as [|j l IH]; cbn; [constructor|]. inversion NS; subst. destruct (j <? nb)%nat; [|now apply IH]. cbn. constructor; [|now apply IH].
      intros X. apply in_flat_map in X. destruct X as (j' & Hj & X). destruct (j' <? nb)%nat; [|contradiction]. destruct X as [[= ->]|[]]. contradiction.
    - intros i x X. apply in_flat_map in X. destruct X as (j & _ & X). destruct (j <? nb)%nat; [|contradiction]. now destruct X as [<-|[]]. }
  split; [apply NoDup_filter, NoDup_filter; exact N1|]. intros i j. rewrite !filter_In, C1. cbn [fst snd]. unfold cloud. rewrite too_close_closer. split; [tauto|]. intros (A & B & C). repeat (split; try tauto).
  apply negb_true_iff. destruct (empty_intersection _ _) eqn:Em; [|reflexivity]. rewrite (empty_spec _ _ (proj1 (set_extended_spec _ _)) (proj1 (set_of_spec _ _))) in Em. exfalso. destruct (cells_meet t _ _ T C) as (c & X & Y). exact (Em c X Y).
Qed.
Theorem C73_between_collections A B t : t <> 0 -> exists l, between_collections A B t = Some l /\ NoDup l /\
  forall i j, In (i, j) l <-> (i < length A)%nat /\ (j < length B)%nat /\ closer_than t (nth i A []) (nth j B []).
Proof.
  intros T. unfold between_collections. destruct (Req_EM_T t 0) as [E|_]; [contradiction|]. eexists. split; [reflexivity|].
  assert (C1 : forall i j, In (i, j) (flat_map (fun i => map (fun j => (i, j)) (seq 0 (length B))) (seq 0 (length A))) <-> (i < length A)%nat /\ (j < length B)%nat).
  { intros i j. rewrite in_flat_map. split.
    - intros (i' & Hi & H). apply in_map_iff in H. destruct H as (j' & [= <- <-] & Hj). apply in_seq in Hi. apply in_seq in Hj. lia.
    - intros (H & N). exists i. split; [apply in_seq; lia|]. apply in_map_iff. exists j. split; [reflexivity|apply in_seq; lia]. }
  assert (N1 : NoDup (flat_map (fun i => map (fun j => (i, j)) (seq 0 (length B))) (seq 0 (length A)))).
  { assert (NS := seq_NoDup (length A) 0). assert (NT := seq_NoDup (length B) 0). generalize dependent (seq 0 (length B)). intros lb _ NT. induction (seq 0 (length A)) as [|a l IH]; cbn; [constructor|]. inversion NS; subst.
    assert (AP : forall (u v : list (nat * nat)), NoDup u -> NoDup v -> (forall x, In x u -> ~ In x v) -> NoDup (u ++ v)).
    { induction u as [|x u IHu]; intros v Nu Nv Dj; [exact Nv|]. inversion Nu; subst. cbn. constructor; [rewrite in_app_iff; intros [X|X]; [contradiction|apply (Dj x); [now left|exact X]]|]. apply IHu; auto. intros y Y. apply Dj. now right. }
    apply AP; [|now apply IH|].
    - clear -NT. induction NT; cbn; constructor; auto. intros X. apply in_map_iff in X. destruct X as (y & [= ->] & Y). contradiction.
    - intros x X Y. apply in_map_iff in X. destruct X as (j & <- & _). apply in_flat_map in Y. destruct Y as (b & Hb & Y). apply in_map_iff in Y. destruct Y as (j' & [= -> _] & _). contradiction. }
  split; [apply NoDup_filter, NoDup_filter; exact N1|]. intros i j. rewrite !filter_In, C1. cbn [fst snd]. unfold cloud. rewrite too_close_closer. split; [tauto|]. intros (X & Y & C). repeat (split; try tauto).
  apply negb_true_iff. destruct (empty_intersection _ _) eqn:Em; [|reflexivity]. rewrite (empty_spec _ _ (proj1 (set_of_spec _ _)) (proj1 (set_extended_spec _ _))) in Em. exfalso. destruct (cells_meet t _ _ T (closer_sym _ _ _ C)) as (c & U & V). exact (Em c V U).
Qed.
Theorem C73_zero_threshold clouds nb A B : within_collection clouds 0 nb = None /\ between_collections A B 0 = None.
Proof. unfold within_collection, between_collections. destruct (Req_EM_T 0 0); [auto|contradiction]. Qed.

(** * C74: CurveCurveDistance *)
Lemma rsuml_sub {A} (dec : forall x y : A, {x = y} + {x <> y}) (f : A -> R) l m : NoDup l -> NoDup m -> incl l m -> (forall x, In x m -> ~ In x l -> f x = 0) -> rsuml (map f l) = rsuml (map f m).
Proof.
  intros Nl Nm I Z. set (p := fun x => if in_dec dec x l then true else false).
  assert (P : Permutation l (filter p m)).
  { apply NoDup_Permutation; [exact Nl|now apply NoDup_filter|]. intros x. rewrite filter_In. unfold p. destruct (in_dec dec x l); split; intuition; try discriminate. }
  rewrite (rsuml_perm _ _ (Permutation_map f P)). clear P Nl I. induction m as [|a m IH]; [reflexivity|]. inversion Nm; subst. cbn [filter]. assert (Z' : forall x, In x m -> ~ In x l -> f x = 0) by (intros; apply Z; [now right|auto]).
  destruct (p a) eqn:E; cbn [map rsuml]; rewrite IH by auto; [reflexivity|]. rewrite (Z a); [lra|now left|]. unfold p in E. destruct (in_dec dec a l); [discriminate|auto].
Qed.
Lemma NoDup_pairs (g : nat -> list nat) l : NoDup l -> (forall i, NoDup (g i)) -> NoDup (flat_map (fun i => map (fun j => (i, j)) (g i)) l).
Proof.
  intros N G. induction N as [|a l Ha N IH]; cbn; [constructor|].
  assert (AP : forall (u v : list (nat * nat)), NoDup u -> NoDup v -> (forall x, In x u -> ~ In x v) -> NoDup (u ++ v)).
  { induction u as [|x u IHu]; intros v Nu Nv Dj; [exact Nv|]. inversion Nu; subst. cbn. constructor; [rewrite in_app_iff; intros [X|X]; [contradiction|apply (Dj x); [now left|exact X]]|]. apply IHu; auto. intros y Y. apply Dj. now right. }
  apply AP; [|exact IH|].
  - specialize (G a). induction G; cbn; constructor; auto. intros X. apply in_map_iff in X. destruct X as (y & [= ->] & Y). contradiction.
  - intros x X Y. apply in_map_iff in X. destruct X as (j & <- & _). apply in_flat_map in Y. destruct Y as (b & Hb & Y). apply in_map_iff in Y. destruct Y as (j' & [= -> _] & _). contradiction.
Qed.
Lemma far_penalty d a b : d <= dist (fst a) (fst b) -> penalty d a b = 0.
Proof. intros H. unfold penalty. rewrite Rmax_right by lra. ring. Qed.
Lemma far_pair d A B : ~ closer_than d (map fst A) (map fst B) -> pair_penalty d A B = 0.
Proof.
  intros H. unfold pair_penalty. rewrite (rsuml_map_zero (fun a => rsuml (map (fun b => penalty d a b) B))); [unfold Rdiv; ring|]. intros a Ha. apply rsuml_map_zero. intros b Hb. apply far_penalty.
  apply Rnot_lt_le. intros L. apply H. exists (fst a), (fst b). split; [now apply in_map|split; [now apply in_map|]]. assert (A1 := Rle_abs d). lra.
Qed.
Lemma nth_map_fst curves i : nth i (map (map (@fst vec3 vec3)) curves) [] = map fst (crv curves i).
Proof. unfold crv. change [] with (map (@fst vec3 vec3) []) at 1. apply map_nth. Qed.
Lemma cc_J_sum d curves l : cc_J d curves l = rsuml (map (fun ij => pair_penalty d (crv curves (fst ij)) (crv curves (snd ij))) l).
Proof.
  unfold cc_J. assert (G : forall r, fold_left (fun res ij => res + pair_penalty d (crv curves (fst ij)) (crv curves (snd ij))) l r = r + rsuml (map (fun ij => pair_penalty d (crv curves (fst ij)) (crv curves (snd ij))) l)).
  { induction l as [|x l IH]; intros r; cbn; [lra|]. rewrite IH. lra. }
  rewrite G. lra.
Qed.
(** the documented sum over the pairs i > j, j among the first nb curves *)
Definition pair_sum (f : nat -> nat -> R) (n nb : nat) : R := rsuml (map (fun i => rsuml (map (fun j => f i j) (seq 0 (Nat.min i nb)))) (seq 0 n)).
Lemma pair_sum_flat f n nb : pair_sum f n nb = rsuml (map (fun ij => f (fst ij) (snd ij)) (flat_map (fun i => map (fun j => (i, j)) (seq 0 (Nat.min i nb))) (seq 0 n))).
Proof.
  unfold pair_sum. induction (seq 0 n) as [|i l IH]; [reflexivity|]. cbn [map rsuml flat_map]. rewrite map_app, rsuml_app, IH, map_map. reflexivity.
Qed.
Theorem C74_value d nb curves cand l : cc_candidates d nb curves = Some cand -> Permutation cand l ->
  cc_J d curves l = pair_sum (fun i j => pair_penalty d (nth i curves []) (nth j curves [])) (length curves) (num_base nb (length curves)).
Proof.
  intros H P. unfold cc_candidates in H. assert (T : d <> 0) by (intros ->; rewrite (proj1 (C73_zero_threshold _ _ [] [])) in H; discriminate).
  destruct (C73_within_collection (map (map fst) curves) d (num_base nb (length curves)) T) as (l' & E & N & I). rewrite H in E. injection E as <-. rewrite map_length in I.
  rewrite cc_J_sum, <- (rsuml_perm _ _ (Permutation_map _ P)), pair_sum_flat. set (k := num_base nb (length curves)) in *.
  apply rsuml_sub; [decide equality; apply Nat.eq_dec|exact N|apply NoDup_pairs; [apply seq_NoDup|intros; apply seq_NoDup]| |].
  - intros [i j] X. apply I in X. destruct X as (X & Y & _). apply in_flat_map. exists i. split; [apply in_seq; lia|]. apply in_map_iff. exists j. split; [reflexivity|apply in_seq; lia].
  - intros [i j] X Y. apply in_flat_map in X. destruct X as (i' & Hi & X). apply in_map_iff in X. destruct X as (j' & [= <- <-] & Hj). apply in_seq in Hi. apply in_seq in Hj. cbn [fst snd]. apply far_pair. intros C. apply Y. apply I. rewrite !nth_map_fst. split; [lia|split; [lia|exact C]].
Qed.
(** J is never negative and vanishes exactly when no two points are closer than the minimum distance *)
Definition immersed (curves : list (list qpoint)) : Prop := forall c p, In c curves -> In p c -> snd p <> v0.
Lemma norm3_pos v : v <> v0 -> 0 < norm3 v.
Proof.
  intros H. unfold norm3. apply sqrt_lt_R0. unfold dot3. assert (A := Rle_0_sqr (vx v)). assert (B := Rle_0_sqr (vy v)). assert (C := Rle_0_sqr (vz v)). unfold Rsqr in *.
  destruct (Req_EM_T (vx v) 0) as [X|X]; [|assert (Q := Rsqr_pos_lt _ X); unfold Rsqr in Q; lra].
  destruct (Req_EM_T (vy v) 0) as [Y|Y]; [|assert (Q := Rsqr_pos_lt _ Y); unfold Rsqr in Q; lra]. destruct (Req_EM_T (vz v) 0) as [Z|Z]; [|assert (Q := Rsqr_pos_lt _ Z); unfold Rsqr in Q; lra].
  exfalso. apply H. destruct v. cbn in *. subst. reflexivity.
Qed.
Lemma norm3_ge0 v : 0 <= norm3 v. Proof. apply sqrt_pos. Qed.
Lemma penalty_ge0 d a b : 0 <= penalty d a b.
Proof. unfold penalty. apply Rmult_le_pos; [apply Rmult_le_pos; apply norm3_ge0|apply pow2_ge_0]. Qed.
Lemma rsuml_zero_all l : (forall x, In x l -> 0 <= x) -> rsuml l = 0 -> forall x, In x l -> x = 0.
Proof.
  induction l as [|a l IH]; intros P Z x X; [contradiction|]. cbn in Z. assert (A := P a (or_introl eq_refl)). assert (B : 0 <= rsuml l) by (apply rsuml_ge0; intros; apply P; now right).
  destruct X as [<-|X]; [lra|]. apply IH; auto; [intros; apply P; now right|lra].
Qed.
Lemma double_ge0 d A B : 0 <= rsuml (map (fun a => rsuml (map (fun b => penalty d a b) B)) A).
Proof. apply rsuml_ge0. intros x X. apply in_map_iff in X. destruct X as (a & <- & _). apply rsuml_ge0. intros y Y. apply in_map_iff in Y. destruct Y as (b & <- & _). apply penalty_ge0. Qed.
Lemma pair_ge0 d A B : 0 <= pair_penalty d A B.
Proof.
  unfold pair_penalty. destruct (Nat.eq_dec (length A * length B) 0) as [E|E].
  - rewrite <- mult_INR, E. cbn. unfold Rdiv. rewrite Rinv_0. lra.
  - apply Rmult_le_pos; [apply double_ge0|]. left. apply Rinv_0_lt_compat. rewrite <- mult_INR. apply lt_0_INR. lia.
Qed.
Lemma pair_zero d A B : (forall a, In a A -> snd a <> v0) -> (forall b, In b B -> snd b <> v0) -> (pair_penalty d A B = 0 <-> forall a b, In a A -> In b B -> d <= dist (fst a) (fst b)).
Proof.
  intros IA IB. split.
  - intros Z a b Ha Hb. apply Rnot_lt_le. intros L. assert (NZ : INR (length A) * INR (length B) <> 0).
    { rewrite <- mult_INR. apply not_0_INR. destruct A, B; cbn in *; try contradiction; lia. }
    assert (S0 : rsuml (map (fun a => rsuml (map (fun b => penalty d a b) B)) A) = 0). { unfold pair_penalty, Rdiv in Z. apply Rmult_integral in Z. destruct Z as [Z|Z]; [exact Z|]. exfalso. revert Z. now apply Rinv_neq_0_compat. }
    assert (R0 : rsuml (map (fun b => penalty d a b) B) = 0).
    { apply (rsuml_zero_all _ ltac:(intros x X; apply in_map_iff in X; destruct X as (c & <- & _); apply rsuml_ge0; intros y Y; apply in_map_iff in Y; destruct Y as (e & <- & _); apply penalty_ge0) S0). apply in_map_iff. now exists a. }
    assert (P0 : penalty d a b = 0). { apply (rsuml_zero_all _ ltac:(intros y Y; apply in_map_iff in Y; destruct Y as (e & <- & _); apply penalty_ge0) R0). apply in_map_iff. now exists b. }
    unfold penalty in P0. rewrite Rmax_left in P0 by lra. assert (Q : 0 < norm3 (snd a) * norm3 (snd b) * (d - dist (fst a) (fst b)) ^ 2). { apply Rmult_lt_0_compat; [apply Rmult_lt_0_compat; apply norm3_pos; auto|]. apply pow_lt. lra. } lra.
  - intros H. unfold pair_penalty. rewrite (rsuml_map_zero (fun a => rsuml (map (fun b => penalty d a b) B))); [unfold Rdiv; ring|]. intros a Ha. apply rsuml_map_zero. intros b Hb. apply far_penalty. auto.
Qed.
Theorem C74_nonnegative_and_zero d nb curves cand l : cc_candidates d nb curves = Some cand -> Permutation cand l -> 0 <= cc_J d curves l /\
  (immersed curves -> (cc_J d curves l = 0 <-> forall i j a b, (j < i < length curves)%nat -> (j < num_base nb (length curves))%nat -> In a (nth i curves []) -> In b (nth j curves []) -> d <= dist (fst a) (fst b))).
Proof.
  intros H P. rewrite (C74_value d nb curves cand l H P). set (k := num_base nb (length curves)).
  assert (G : forall i, 0 <= rsuml (map (fun j => pair_penalty d (nth i curves []) (nth j curves [])) (seq 0 (Nat.min i k)))) by (intros i; apply rsuml_ge0; intros x X; apply in_map_iff in X; destruct X as (j & <- & _); apply pair_ge0).
  split; [apply rsuml_ge0; intros x X; apply in_map_iff in X; destruct X as (i & <- & _); apply G|]. intros IM. unfold pair_sum. split.
  - intros Z i j a b Hij Hk Ha Hb.
    assert (R0 : rsuml (map (fun j => pair_penalty d (nth i curves []) (nth j curves [])) (seq 0 (Nat.min i k))) = 0).
    { apply (rsuml_zero_all _ ltac:(intros x X; apply in_map_iff in X; destruct X as (c & <- & _); apply G) Z). apply in_map_iff. exists i. split; [reflexivity|apply in_seq; lia]. }
    assert (P0 : pair_penalty d (nth i curves []) (nth j curves []) = 0).
    { apply (rsuml_zero_all _ ltac:(intros x X; apply in_map_iff in X; destruct X as (c & <- & _); apply pair_ge0) R0). apply in_map_iff. exists j. split; [reflexivity|apply in_seq; lia]. }
    revert P0 a b Ha Hb. apply pair_zero; intros p Hp; (eapply IM; [|exact Hp]; apply nth_In; lia).
  - intros A. apply rsuml_map_zero. intros i Hi. apply in_seq in Hi. apply rsuml_map_zero. intros j Hj. apply in_seq in Hj. apply pair_zero; [intros p Hp; eapply IM; [|exact Hp]; apply nth_In; lia|intros p Hp; eapply IM; [|exact Hp]; apply nth_In; lia|]. intros a b. apply A; lia.
Qed.
(** the shortest distance *)
Definition least (S : R -> Prop) (r : R) : Prop := S r /\ forall x, S x -> r <= x.
Definition pair_distance (curves : list (list qpoint)) (nb : nat) (x : R) : Prop :=
  exists i j a b, (j < i < length curves)%nat /\ (j < nb)%nat /\ In a (nth i curves []) /\ In b (nth j curves []) /\ x = dist (fst a) (fst b).
Lemma pymin_least l r : pymin l = Some r -> least (fun x => In x l) r.
Proof.
  destruct l as [|a l]; [discriminate|]. intros [= <-]. assert (G : forall l a, least (fun x => In x (a :: l)) (fold_left Rmin l a)).
  { clear. induction l as [|b l IH]; intros a; [split; [now left|intros x [<-|[]]; apply Rle_refl]|]. cbn [fold_left]. destruct (IH (Rmin a b)) as (A & B). split.
    - destruct A as [A|A]; [|now right; right]. rewrite <- A. unfold Rmin. destruct (Rle_dec a b); [now left|now right; left].
    - intros x [<-|[<-|X]]; [apply Rle_trans with (Rmin a b); [apply B; now left|apply Rmin_l]|apply Rle_trans with (Rmin a b); [apply B; now left|apply Rmin_r]|apply B; now right]. }
  apply G.
Qed.
Lemma pymin_some l : l <> [] -> exists r, pymin l = Some r. Proof. destruct l; [contradiction|]. eexists. reflexivity. Qed.
Lemma cloud_dist_least A B : A <> [] -> B <> [] -> exists r, cloud_dist A B = Some r /\ least (fun x => exists a b, In a A /\ In b B /\ x = dist (fst a) (fst b)) r.
Proof.
  intros NA NB. unfold cloud_dist. destruct (pymin_some (flat_map (fun a => map (fun b => dist (fst a) (fst b)) B) A)) as (r & E); [destruct A as [|a A], B as [|b B]; cbn; congruence|].
  exists r. split; [exact E|]. apply pymin_least in E. destruct E as (X & Y).
  assert (I : forall x, In x (flat_map (fun a => map (fun b => dist (fst a) (fst b)) B) A) <-> exists a b, In a A /\ In b B /\ x = dist (fst a) (fst b)).
  { intros x. rewrite in_flat_map. split; [intros (a & Ha & H); apply in_map_iff in H; destruct H as (b & <- & Hb); eauto 6|intros (a & b & Ha & Hb & ->); exists a; split; [exact Ha|apply in_map_iff; eauto]]. }
  split; [now apply I|]. intros x Hx. apply Y. now apply I.
Qed.
Lemma sequence_all {A B} (f : A -> option B) l : (forall a, In a l -> exists b, f a = Some b) -> exists m, sequence (map f l) = Some m /\ forall b, In b m <-> exists a, In a l /\ f a = Some b.
Proof.
  induction l as [|a l IH]; intros H; [exists []; split; [reflexivity|intros b; split; [intros []|intros (a & [] & _)]]|]. destruct (H a (or_introl eq_refl)) as (b & E). destruct (IH ltac:(intros; apply H; now right)) as (m & E' & I). exists (b :: m). cbn. rewrite E, E'. split; [reflexivity|].
  intros c. split; [intros [<-|X]; [exists a; auto|apply I in X; destruct X as (x & X & Y); exists x; auto]|intros (x & [->|X] & Y); [left; congruence|right; apply I; eauto]].
Qed.
Theorem C74_shortest_distance d nb curves cand l : 0 < d -> (forall c, In c curves -> c <> []) -> cc_candidates d nb curves = Some cand -> Permutation cand l ->
  (l <> [] -> exists r, cc_shortest d curves l = Some r /\ least (pair_distance curves (num_base nb (length curves))) r) /\
  (l = [] -> (2 <= length curves)%nat -> exists r, cc_shortest d curves l = Some r /\ least (pair_distance curves (length curves)) r) /\
  (l = [] -> (length curves < 2)%nat -> cc_shortest d curves l = None) /\
  (l = [] <-> forall x, pair_distance curves (num_base nb (length curves)) x -> d <= x).
Proof.
  intros D0 NE H P. unfold cc_candidates in H. set (k := num_base nb (length curves)) in *.
  destruct (C73_within_collection (map (map fst) curves) d k ltac:(lra)) as (l' & E & N & I0). rewrite H in E. injection E as <-. rewrite map_length in I0.
  assert (AD : Rabs d = d) by (apply Rabs_pos_eq; lra).
  assert (I : forall i j, In (i, j) l <-> (j < i < length curves)%nat /\ (j < k)%nat /\ exists a b, In a (nth i curves []) /\ In b (nth j curves []) /\ dist (fst a) (fst b) < d).
  { intros i j. transitivity (In (i, j) cand); [split; apply Permutation_in; [symmetry|]; exact P|]. rewrite I0, !nth_map_fst. unfold closer_than, crv. rewrite AD.
    split; intros (A & B & C); (split; [exact A|split; [exact B|]]).
    - destruct C as (a & b & Ha & Hb & L). apply in_map_iff in Ha. apply in_map_iff in Hb. destruct Ha as (a' & <- & Ha), Hb as (b' & <- & Hb). eauto 6.
    - destruct C as (a & b & Ha & Hb & L). exists (fst a), (fst b). split; [now apply in_map|split; [now apply in_map|exact L]]. }
  assert (NN : forall i, (i < length curves)%nat -> crv curves i <> []) by (intros i Hi; apply NE; now apply nth_In).
  assert (CD : forall i j, (j < i < length curves)%nat -> exists r, cloud_dist (crv curves i) (crv curves j) = Some r /\ least (fun x => exists a b, In a (crv curves i) /\ In b (crv curves j) /\ x = dist (fst a) (fst b)) r).
  { intros i j Hij. apply cloud_dist_least; apply NN; lia. }
  split; [|split; [|split]].
  - intros NL. destruct (sequence_all (fun ij => cloud_dist (crv curves (fst ij)) (crv curves (snd ij))) l) as (m & Em & Im).
    { intros [i j] X. apply I in X. destruct (CD i j ltac:(tauto)) as (r & Er & _). exists r. exact Er. }
    destruct (pymin_some (d :: m) ltac:(discriminate)) as (r & Er). exists r. unfold cc_shortest. destruct l as [|x0 l0] eqn:El; [contradiction|]. rewrite <- El in *. rewrite Em. split; [exact Er|].
    apply pymin_least in Er. destruct Er as (R1 & R2).
    assert (RX : r < d). { destruct x0 as [i j]. assert (X : In (i, j) l) by (rewrite El; now left). assert (X' := X). apply I in X'. destruct X' as (A & B & a & b & Ha & Hb & L). destruct (CD i j A) as (r0 & Er0 & L0). apply Rle_lt_trans with r0; [apply R2; right; apply Im; exists (i, j); auto|]. apply Rle_lt_trans with (dist (fst a) (fst b)); [|exact L]. apply (proj2 L0). eauto. }
    split.
    + destruct R1 as [R1|R1]; [lra|]. apply Im in R1. destruct R1 as ([i j] & X & Er). cbn [fst snd] in Er. apply I in X. destruct X as (A & B & _). destruct (CD i j A) as (r0 & Er0 & L0). rewrite Er in Er0. injection Er0 as <-. destruct (proj1 L0) as (a & b & Ha & Hb & ->). exists i, j, a, b. auto.
    + intros x (i & j & a & b & A & B & Ha & Hb & ->). destruct (Rlt_dec (dist (fst a) (fst b)) d) as [L|L]; [|lra]. destruct (CD i j A) as (r0 & Er0 & L0). apply Rle_trans with r0.
      * apply R2. right. apply Im. exists (i, j). split; [apply I; eauto 8|exact Er0].
      * apply (proj2 L0). exists a, b. auto.
  - intros -> L2. unfold cc_shortest. set (ps := flat_map (fun i => map (fun j => (i, j)) (seq 0 i)) (seq 0 (length curves))).
    assert (IP : forall i j, In (i, j) ps <-> (j < i < length curves)%nat).
    { intros i j. unfold ps. rewrite in_flat_map. split; [intros (i' & Hi & X); apply in_map_iff in X; destruct X as (j' & [= <- <-] & Hj); apply in_seq in Hi; apply in_seq in Hj; lia|]. intros X. exists i. split; [apply in_seq; lia|]. apply in_map_iff. exists j. split; [reflexivity|apply in_seq; lia]. }
    destruct (sequence_all (fun ij => cloud_dist (crv curves (fst ij)) (crv curves (snd ij))) ps) as (m & Em & Im).
    { intros [i j] X. apply IP in X. destruct (CD i j X) as (r & Er & _). exists r. exact Er. }
    rewrite Em. assert (NM : m <> []). { destruct (CD 1%nat 0%nat ltac:(lia)) as (r & Er & _). intros ->. apply (Im r). exists (1%nat, 0%nat). split; [apply IP; lia|exact Er]. }
    destruct (pymin_some m NM) as (r & Er). exists r. split; [exact Er|]. apply pymin_least in Er. destruct Er as (R1 & R2). split.
    + apply Im in R1. destruct R1 as ([i j] & X & Er). cbn [fst snd] in Er. apply IP in X. destruct (CD i j X) as (r0 & Er0 & L0). rewrite Er in Er0. injection Er0 as <-. destruct (proj1 L0) as (a & b & Ha & Hb & ->). exists i, j, a, b. repeat (split; auto); lia.
    + intros x (i & j & a & b & A & B & Ha & Hb & ->). destruct (CD i j A) as (r0 & Er0 & L0). apply Rle_trans with r0; [apply R2; apply Im; exists (i, j); split; [now apply IP|exact Er0]|]. apply (proj2 L0). exists a, b. auto.
  - intros -> L2. unfold cc_shortest. assert (E : flat_map (fun i => map (fun j => (i, j)) (seq 0 i)) (seq 0 (length curves)) = []) by (destruct (length curves) as [|[|n]]; [reflexivity|reflexivity|lia]). rewrite E. reflexivity.
  - split.
    + intros -> x (i & j & a & b & A & B & Ha & Hb & ->). apply Rnot_lt_le. intros L. apply (I i j). eauto 8.
    + intros A. destruct l as [|[i j] l0]; [reflexivity|]. exfalso. destruct (proj1 (I i j) (or_introl eq_refl)) as (X & Y & a & b & Ha & Hb & L). specialize (A (dist (fst a) (fst b))). assert (d <= dist (fst a) (fst b)) by (apply A; exists i, j, a, b; auto). lra.
Qed.
(** num_basecurves=None and num_basecurves=0 both mean all curves *)
Theorem C74_num_basecurves n : num_base None n = n /\ num_base (Some 0%nat) n = n /\ forall k, (0 < k)%nat -> num_base (Some k) n = k.
Proof. repeat split. intros [|k] H; [lia|reflexivity]. Qed.
