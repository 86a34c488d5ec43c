(** C68, C69: CurveXYZFourier and CurveRZFourier: dofs, documented series, derivatives along the curve and with respect to the dofs. *)
From Coq Require Import Reals Lra Lia List.
From Verif Require Import ListAux VecAux Vec3 BSModel BSDeriv BSVjp SurfProps SurfGeomProps SurfDiff SurfDiffProps CurveModel.
Import ListNotations.
Open Scope R_scope.

(** ** Specification *)
(** the vector function multiplying one dof: direction, and sine or cosine of 2 pi j t *)
Definition xyz_basis (name : nat * bool * nat) (t : R) : vec3 :=
  let '(i, sine, j) := name in scal3 (if sine : bool then sin (2 * PI * INR j * t) else cos (2 * PI * INR j * t)) (unit3 i).
(** a curve given by dofs and basis functions *)
Definition series {A} (basis : A -> R -> vec3) (names : list A) (x : list R) (t : R) : vec3 :=
  sum3 (vmap2 (fun a c => scal3 c (basis a t)) names x).
(** cylindrical series: kind and mode number *)
Inductive rzkind := KRC | KRS | KZC | KZS.
Definition rz_basis (nfp : nat) (name : rzkind * nat) (t : R) : vec3 :=
  let phi := 2 * PI * t in let '(k, i) := name in
  match k with
  | KRC => scal3 (cos (INR i * INR nfp * phi)) (V3 (cos phi) (sin phi) 0)
  | KRS => scal3 (sin (INR i * INR nfp * phi)) (V3 (cos phi) (sin phi) 0)
  | KZC => V3 0 0 (cos (INR i * INR nfp * phi))
  | KZS => V3 0 0 (sin (INR i * INR nfp * phi))
  end.
(** the documented order of the dofs *)
Definition rz_names (order : nat) (stellsym : bool) : list (rzkind * nat) :=
  map (pair KRC) (seq 0 (order + 1)) ++ (if stellsym then [] else map (pair KRS) (seq 1 order) ++ map (pair KZC) (seq 0 (order + 1))) ++ map (pair KZS) (seq 1 order).

(** ** Lists and sums *)
Lemma pairs_seq {A} (f : nat -> A) o : f 0%nat :: flat_map (fun j => [f (2 * j - 1)%nat; f (2 * j)%nat]) (seq 1 o) = map f (seq 0 (2 * o + 1)).
Proof.
  induction o as [|o IH]; [reflexivity|]. rewrite (seq_S o 1), flat_map_app, app_comm_cons, IH.
  replace (2 * Datatypes.S o + 1)%nat with (2 * o + 1 + 2)%nat by lia. rewrite (seq_app (2 * o + 1) 2 0), map_app. f_equal. cbn [flat_map app].
  replace (2 * (1 + o) - 1)%nat with (0 + (2 * o + 1))%nat by lia. replace (2 * (1 + o))%nat with (Datatypes.S (0 + (2 * o + 1))) by lia. reflexivity.
Qed.
Lemma fold_pairs (a b : nat -> R) l x : fold_left (fun s j => s + a j + b j) l x = x + rsuml (flat_map (fun j => [a j; b j]) l).
Proof. revert x. induction l as [|j l IH]; intros x; cbn [fold_left flat_map rsuml app]; [ring|]. rewrite IH. ring. Qed.
Lemma accum_sum l f d : accum l f d = add3 d (sum3 (map f l)).
Proof. unfold accum. revert d. induction l as [|j l IH]; intros d; cbn [fold_left map sum3]; [now rewrite add3_0_r|]. now rewrite IH, add3_assoc. Qed.
Lemma written_seq {V} (zero : V) (f : nat -> V) s m l acc : fold_left (fun v x => if (fst x =? m)%nat then snd x else v) (map (fun q => ((s + q)%nat, f q)) l) acc =
  if existsb (fun q => (s + q =? m)%nat) l then f (m - s)%nat else acc.
Proof.
  revert acc. induction l as [|q l IH]; intros acc; cbn [map fold_left existsb]; auto. rewrite IH. cbn [fst snd].
  destruct (existsb (fun q0 => (s + q0 =? m)%nat) l); [now rewrite orb_true_r|]. rewrite orb_false_r. destruct (Nat.eqb_spec (s + q) m); auto. f_equal. lia.
Qed.
Lemma existsb_seq s m a n : existsb (fun q => (s + q =? m)%nat) (seq a n) = ((s + a <=? m) && (m <? s + a + n))%nat.
Proof.
  apply eq_true_iff_eq. rewrite existsb_exists, andb_true_iff, Nat.leb_le, Nat.ltb_lt. split.
  - intros (q & Hq & E). apply in_seq in Hq. apply Nat.eqb_eq in E. lia.
  - intros H. exists (m - s)%nat. split; [apply in_seq; lia|apply Nat.eqb_eq; lia].
Qed.

Lemma fold_left_ext_in {A B} (f g : A -> B -> A) l a : (forall x b, In b l -> f x b = g x b) -> fold_left f l a = fold_left g l a.
Proof. revert a. induction l as [|b l IH]; intros a H; cbn; auto. rewrite H by (now left). apply IH. intros x c Hc. apply H. now right. Qed.
(** ** CurveXYZFourier *)
Section XYZ.
Variable o : nat.
Notation W := (2 * o + 1)%nat.
Notation N := (xyz_num_dofs o).
Lemma xyz_get_flat d : xyz_get_dofs o d = flat_map (fun i => map (d i) (seq 0 W)) (seq 0 3).
Proof. unfold xyz_get_dofs. apply flat_map_ext. intros i. apply pairs_seq. Qed.
Lemma xyz_names_flat : xyz_names o = flat_map (fun i => map (fun q => (i, (negb (Nat.even q)), ((q + 1) / 2)%nat)) (seq 0 W)) (seq 0 3).
Proof.
  unfold xyz_names. apply flat_map_ext. intros i. rewrite <- pairs_seq. f_equal. rewrite !flat_map_concat_map. f_equal. apply map_ext_in. intros j Hj. apply in_seq in Hj.
  f_equal; [|f_equal].
  - f_equal; [f_equal|].
    + replace (2 * j - 1)%nat with (1 + 2 * (j - 1))%nat by lia. rewrite Nat.even_add_mul_2. reflexivity.
    + replace (2 * j - 1 + 1)%nat with (j * 2)%nat by lia. now rewrite Nat.div_mul.
  - f_equal; [f_equal|].
    + replace (2 * j)%nat with (0 + 2 * j)%nat by lia. rewrite Nat.even_add_mul_2. reflexivity.
    + replace (2 * j + 1)%nat with (1 + j * 2)%nat by lia. rewrite Nat.div_add by lia. reflexivity.
Qed.
Lemma xyz_get_length d : length (xyz_get_dofs o d) = N.
Proof. rewrite xyz_get_flat. cbn [flat_map seq]. rewrite !app_length, !map_length, !seq_length. cbn [length]. unfold xyz_num_dofs. lia. Qed.

(** set_dofs as a sequence of writes *)
Lemma next_fold dofs ops c d : (c + length ops <= length dofs)%nat -> exists d', fold_left (fun st o => next dofs (fst o) (snd o) st) ops (Some (c, d)) = Some ((c + length ops)%nat, d') /\
  (NoDup ops -> (forall k, (k < length ops)%nat -> d' (fst (nth k ops (0%nat, 0%nat))) (snd (nth k ops (0%nat, 0%nat))) = nth (c + k) dofs 0) /\ forall i q, ~ In (i, q) ops -> d' i q = d i q).
Proof.
  revert c d. induction ops as [|[i q] ops IH]; intros c d L; cbn [fold_left length] in *.
  - exists d. split; [f_equal; f_equal; lia|]. intros _. split; [lia|auto].
  - cbn [next fst snd]. destruct (nth_error dofs c) as [v|] eqn:E; [|apply nth_error_None in E; lia].
    destruct (IH (Datatypes.S c) (put d i q v)) as (d' & F & H); [lia|]. exists d'. split; [rewrite F; f_equal; f_equal; lia|].
    intros ND. apply NoDup_cons_iff in ND as [NI ND]. destruct (H ND) as [H1 H2]. split.
    + intros [|k] Hk; cbn [nth fst snd].
      * rewrite H2 by auto. unfold put. rewrite !Nat.eqb_refl. cbn. rewrite Nat.add_0_r. symmetry. now apply nth_error_nth.
      * rewrite H1 by lia. f_equal. lia.
    + intros i' q' NI'. rewrite H2 by (intros X; apply NI'; now right). unfold put. destruct (Nat.eqb_spec i' i); auto. destruct (Nat.eqb_spec q' q); auto. exfalso. apply NI'. left. congruence.
Qed.
Lemma next_none dofs ops : fold_left (fun st o => next dofs (fst o) (snd o) st) ops None = None.
Proof. induction ops; cbn; auto. Qed.
Lemma next_short dofs ops c d : (length dofs < c + length ops)%nat -> (c <= length dofs)%nat -> fold_left (fun st o => next dofs (fst o) (snd o) st) ops (Some (c, d)) = None.
Proof.
  revert c d. induction ops as [|[i q] ops IH]; intros c d L Hc; cbn [fold_left length] in *; [lia|]. cbn [next fst snd].
  destruct (nth_error dofs c) as [v|] eqn:E; [|apply next_none]. apply IH; [lia|]. assert (c < length dofs)%nat by (apply nth_error_Some; congruence). lia.
Qed.
Definition xyz_ops : list (nat * nat) := list_prod (seq 0 3) (seq 0 W).
Lemma xyz_set_ops dofs d : xyz_set_dofs o dofs d = option_map snd (fold_left (fun st o => next dofs (fst o) (snd o) st) xyz_ops (Some (0%nat, d))).
Proof.
  unfold xyz_set_dofs. f_equal.
  assert (E : forall i st, fold_left (fun st j => next dofs i (2 * j) (next dofs i (2 * j - 1) st)) (seq 1 o) (next dofs i 0 st) = fold_left (fun st o => next dofs (fst o) (snd o) st) (map (pair i) (seq 0 W)) st).
  { intros i st. rewrite <- (pairs_seq (pair i)). cbn [fold_left fst snd]. generalize (next dofs i 0 st). induction (seq 1 o) as [|j l IH]; intros s; cbn [fold_left flat_map app fst snd]; auto. }
  unfold xyz_ops. cbn [seq fold_left list_prod]. rewrite !E, <- !fold_left_app, app_nil_r. reflexivity.
Qed.
Lemma xyz_ops_length : length xyz_ops = N. Proof. unfold xyz_ops. rewrite prod_length, !seq_length. reflexivity. Qed.
Lemma xyz_ops_NoDup : NoDup xyz_ops.
Proof.
  unfold xyz_ops. cbn [seq list_prod]. rewrite app_nil_r. assert (U : forall i : nat, NoDup (map (pair i) (seq 0 W))) by (intros i; apply FinFun.Injective_map_NoDup; [intros a b; congruence|apply seq_NoDup]).
  apply NoDup_app2; auto; [apply NoDup_app2; auto|].
  - intros [i q] A B. apply in_map_iff in A as (? & [= <- <-] & _). apply in_map_iff in B as (? & [= ] & _).
  - intros [i q] A B. apply in_map_iff in A as (? & [= <- <-] & _). apply in_app_iff in B as [B|B]; apply in_map_iff in B as (? & [= ] & _).
Qed.
Lemma xyz_ops_nth i q : (i < 3)%nat -> (q < W)%nat -> nth (i * W + q) xyz_ops (0%nat, 0%nat) = (i, q).
Proof.
  intros Hi Hq. unfold xyz_ops. cbn [seq list_prod]. rewrite app_nil_r. destruct i as [|[|[|i]]]; [| | |lia].
  - rewrite app_nth1 by (rewrite map_length, seq_length; lia). now rewrite nth_map_seq.
  - rewrite app_nth2 by (rewrite map_length, seq_length; lia). rewrite map_length, seq_length, app_nth1 by (rewrite map_length, seq_length; lia).
    replace (1 * W + q - W)%nat with q by lia. now rewrite nth_map_seq.
  - rewrite app_nth2 by (rewrite map_length, seq_length; lia). rewrite map_length, seq_length, app_nth2 by (rewrite map_length, seq_length; lia). rewrite map_length, seq_length.
    replace (2 * W + q - W - W)%nat with q by lia. now rewrite nth_map_seq.
Qed.
(** the library reads exactly the first num_dofs entries: a shorter vector is read past its end *)
Theorem C68_set_dofs_reads_past_the_end_iff_short dofs d : xyz_set_dofs o dofs d = None <-> (length dofs < N)%nat.
Proof.
  rewrite xyz_set_ops. split; intros H.
  - destruct (le_lt_dec N (length dofs)) as [L|]; auto. destruct (next_fold dofs xyz_ops 0 d) as (d' & E & _); [rewrite xyz_ops_length; lia|]. rewrite E in H. discriminate.
  - rewrite next_short; auto; [rewrite xyz_ops_length; lia|lia].
Qed.
Lemma xyz_set_spec dofs d : (N <= length dofs)%nat -> exists d', xyz_set_dofs o dofs d = Some d' /\ forall i q, (i < 3)%nat -> (q < W)%nat -> d' i q = nth (i * W + q) dofs 0.
Proof.
  intros L. rewrite xyz_set_ops. destruct (next_fold dofs xyz_ops 0 d) as (d' & E & H); [rewrite xyz_ops_length; lia|]. rewrite E. exists d'. split; auto.
  intros i q Hi Hq. destruct (H xyz_ops_NoDup) as [H1 _]. specialize (H1 (i * W + q)%nat). rewrite xyz_ops_nth in H1 by auto. cbn [fst snd] in H1. apply H1.
  rewrite xyz_ops_length. unfold xyz_num_dofs. nia.
Qed.
Lemma nth_blocks {A} (f : nat -> nat -> A) dflt i q : (i < 3)%nat -> (q < W)%nat -> nth (i * W + q) (flat_map (fun i => map (f i) (seq 0 W)) (seq 0 3)) dflt = f i q.
Proof.
  intros Hi Hq. cbn [flat_map seq]. rewrite app_nil_r. destruct i as [|[|[|i]]]; [| | |lia].
  - rewrite app_nth1 by (rewrite map_length, seq_length; lia). now rewrite nth_map_seq.
  - rewrite app_nth2 by (rewrite map_length, seq_length; lia). rewrite map_length, seq_length, app_nth1 by (rewrite map_length, seq_length; lia).
    replace (1 * W + q - W)%nat with q by lia. now rewrite nth_map_seq.
  - rewrite app_nth2 by (rewrite map_length, seq_length; lia). rewrite map_length, seq_length, app_nth2 by (rewrite map_length, seq_length; lia). rewrite map_length, seq_length.
    replace (2 * W + q - W - W)%nat with q by lia. now rewrite nth_map_seq.
Qed.
Lemma split_index m : (m < N)%nat -> exists i q, (i < 3)%nat /\ (q < W)%nat /\ m = (i * W + q)%nat.
Proof.
  intros H. exists (m / W)%nat, (m mod W)%nat. pose proof (Nat.div_mod m W ltac:(lia)). pose proof (Nat.mod_upper_bound m W ltac:(lia)).
  repeat split; auto; [|lia]. apply Nat.div_lt_upper_bound; [lia|]. unfold xyz_num_dofs in H. lia.
Qed.
Lemma list_blocks (l l' : list R) : length l = N -> length l' = N -> (forall i q, (i < 3)%nat -> (q < W)%nat -> nth (i * W + q) l 0 = nth (i * W + q) l' 0) -> l = l'.
Proof. intros L L' H. apply (nth_ext _ _ 0 0); [congruence|]. intros m Hm. rewrite L in Hm. destruct (split_index m Hm) as (i & q & Hi & Hq & ->). auto. Qed.
Theorem C68_set_then_get dofs d : length dofs = N -> exists d', xyz_set_dofs o dofs d = Some d' /\ xyz_get_dofs o d' = dofs.
Proof.
  intros L. destruct (xyz_set_spec dofs d ltac:(lia)) as (d' & E & H). exists d'. split; auto. apply list_blocks; auto; [apply xyz_get_length|].
  intros i q Hi Hq. rewrite xyz_get_flat, nth_blocks; auto.
Qed.

(** gamma is the documented series in the named dofs *)
Lemma comps_sum (f : nat -> nat -> R) : comps (fun i => rsuml (map (f i) (seq 0 W))) = sum3 (flat_map (fun i => map (fun q => scal3 (f i q) (unit3 i)) (seq 0 W)) (seq 0 3)).
Proof.
  assert (E : forall i, sum3 (map (fun q => scal3 (f i q) (unit3 i)) (seq 0 W)) = scal3 (rsuml (map (f i) (seq 0 W))) (unit3 i)).
  { intros i. induction (seq 0 W) as [|q l IH]; cbn [map sum3 rsuml]; [v3; destruct i as [|[|i]]; cbn; ring|]. rewrite IH. apply v3_eq; cbn [vx vy vz add3 scal3]; ring. }
  cbn [flat_map seq]. rewrite !sum3_app, !E. cbn [sum3]. unfold comps. apply v3_eq; cbn [vx vy vz add3 scal3 unit3 v0]; ring.
Qed.
Lemma vmap2_flat {A} (g : A -> R -> vec3) (fa : nat -> nat -> A) (fb : nat -> nat -> R) ls l :
  vmap2 g (flat_map (fun i => map (fa i) l) ls) (flat_map (fun i => map (fb i) l) ls) = flat_map (fun i => map (fun q => g (fa i q) (fb i q)) l) ls.
Proof.
  assert (E : forall i (x : list A) y, vmap2 g (map (fa i) l ++ x) (map (fb i) l ++ y) = map (fun q => g (fa i q) (fb i q)) l ++ vmap2 g x y).
  { intros i x y. induction l as [|q l' IH]; cbn; [reflexivity|]. now rewrite IH. }
  induction ls as [|i ls IH]; cbn [flat_map]; [reflexivity|]. now rewrite E, IH.
Qed.
(** a general series: coefficient functions s (sine) and c (cosine) of mode j *)
Lemma even_odd_basis (a b : nat -> R) q : (if negb (Nat.even q) then a ((q + 1) / 2)%nat else b ((q + 1) / 2)%nat) = if Nat.even q then b ((q + 1) / 2)%nat else a ((q + 1) / 2)%nat.
Proof. destruct (Nat.even q); reflexivity. Qed.
Definition mode (sn cs : nat -> R) (q : nat) : R := if Nat.even q then cs ((q + 1) / 2)%nat else sn ((q + 1) / 2)%nat.
Lemma mode_odd sn cs j : (1 <= j)%nat -> mode sn cs (2 * j - 1) = sn j.
Proof. intros H. unfold mode. replace (2 * j - 1)%nat with (1 + 2 * (j - 1))%nat by lia. rewrite Nat.even_add_mul_2. cbn [Nat.even]. f_equal. replace (1 + 2 * (j - 1) + 1)%nat with (j * 2)%nat by lia. now rewrite Nat.div_mul. Qed.
Lemma mode_even sn cs j : mode sn cs (2 * j) = cs j.
Proof. unfold mode. replace (2 * j)%nat with (0 + 2 * j)%nat at 1 by lia. rewrite Nat.even_add_mul_2. cbn [Nat.even]. f_equal. replace (2 * j + 1)%nat with (1 + j * 2)%nat by lia. rewrite Nat.div_add by lia. reflexivity. Qed.
(** all four series have this form *)
Definition xyz_sum (d : table) (sn cs : nat -> R) : vec3 := comps (fun i => rsuml (map (fun q => d i q * mode sn cs q) (seq 0 W))).
Lemma xyz_sum_pairs d sn cs : xyz_sum d sn cs = comps (fun i => d i 0%nat * cs 0%nat + rsuml (flat_map (fun j => [d i (2 * j - 1)%nat * sn j; d i (2 * j)%nat * cs j]) (seq 1 o))).
Proof.
  assert (E : forall i, rsuml (map (fun q => d i q * mode sn cs q) (seq 0 W)) = d i 0%nat * cs 0%nat + rsuml (flat_map (fun j => [d i (2 * j - 1)%nat * sn j; d i (2 * j)%nat * cs j]) (seq 1 o))).
  { intros i. rewrite <- (pairs_seq (fun q => d i q * mode sn cs q)). cbn [rsuml]. apply (f_equal2 Rplus); [apply f_equal; apply (mode_even sn cs 0)|]. apply f_equal. rewrite !flat_map_concat_map. apply f_equal.
    apply map_ext_in. intros j Hj. apply in_seq in Hj. rewrite mode_odd, mode_even by lia. reflexivity. }
  unfold xyz_sum, comps. rewrite !E. reflexivity.
Qed.
Definition sn0 t j := sin (w j * t). Definition cs0 t j := cos (w j * t).
Definition sn1 t j := w j * cos (w j * t). Definition cs1 t j := - w j * sin (w j * t).
Definition sn2 t j := - (w j * w j) * sin (w j * t). Definition cs2 t j := - (w j * w j) * cos (w j * t).
Definition sn3 t j := - (w j * w j * w j) * cos (w j * t). Definition cs3 t j := w j * w j * w j * sin (w j * t).
Lemma w0 : w 0 = 0. Proof. unfold w. cbn. ring. Qed.
Lemma pairs_form d sn cs (a0 : nat -> R) (fa fb : nat -> nat -> R) : (forall i, a0 i = d i 0%nat * cs 0%nat) -> (forall i j, fa i j = d i (2 * j - 1)%nat * sn j) -> (forall i j, fb i j = d i (2 * j)%nat * cs j) ->
  comps (fun i => fold_left (fun a j => a + fa i j + fb i j) (seq 1 o) (a0 i)) = xyz_sum d sn cs.
Proof.
  intros H0 Ha Hb. rewrite xyz_sum_pairs. unfold comps. rewrite !fold_pairs, !H0.
  assert (E : forall i, flat_map (fun j => [fa i j; fb i j]) (seq 1 o) = flat_map (fun j => [d i (2 * j - 1)%nat * sn j; d i (2 * j)%nat * cs j]) (seq 1 o)) by (intros i; apply flat_map_ext; intros j; now rewrite Ha, Hb).
  now rewrite !E.
Qed.
Ltac pairs F := unfold F; apply pairs_form; intros; rewrite ?w0, ?Rmult_0_l, ?cos_0, ?sin_0; unfold w; ring.
Lemma xyz_gamma_sum d t : xyz_gamma o d t = xyz_sum d (sn0 t) (cs0 t).
Proof. unfold sn0, cs0. pairs xyz_gamma. Qed.
Lemma xyz_gammadash_sum d t : xyz_gammadash o d t = xyz_sum d (sn1 t) (cs1 t).
Proof. unfold sn1, cs1. pairs xyz_gammadash. Qed.
Lemma xyz_gammadashdash_sum d t : xyz_gammadashdash o d t = xyz_sum d (sn2 t) (cs2 t).
Proof. unfold sn2, cs2. pairs xyz_gammadashdash. Qed.
Lemma xyz_gammadashdashdash_sum d t : xyz_gammadashdashdash o d t = xyz_sum d (sn3 t) (cs3 t).
Proof. unfold sn3, cs3. pairs xyz_gammadashdashdash. Qed.
Theorem C68_gamma_is_the_documented_series d t : xyz_gamma o d t = series xyz_basis (xyz_names o) (xyz_get_dofs o d) t.
Proof.
  rewrite xyz_gamma_sum. unfold xyz_sum, series. rewrite xyz_names_flat, xyz_get_flat, vmap2_flat, comps_sum. apply f_equal. apply flat_map_ext. intros i. apply map_ext. intros q.
  unfold xyz_basis, mode. rewrite scal3_scal. f_equal. unfold sn0, cs0, w. destruct (Nat.even q); reflexivity.
Qed.
Theorem C68_one_name_per_dof : length (xyz_names o) = N /\ NoDup (xyz_names o).
Proof.
  split.
  - rewrite xyz_names_flat. cbn [flat_map seq]. rewrite !app_length, !map_length, !seq_length. cbn [length]. unfold xyz_num_dofs. lia.
  - rewrite xyz_names_flat. cbn [flat_map seq]. rewrite app_nil_r.
    assert (Inj : forall i a b, (i : nat, negb (Nat.even a), ((a + 1) / 2)%nat) = (i, negb (Nat.even b), ((b + 1) / 2)%nat) -> a = b).
    { intros i a b E. assert (E2 := f_equal snd E). assert (E1 := f_equal (fun z => snd (fst z)) E). cbn [fst snd] in E1, E2. clear E. pose proof (Nat.div_mod (a + 1) 2 ltac:(lia)). pose proof (Nat.div_mod (b + 1) 2 ltac:(lia)).
      pose proof (Nat.mod_upper_bound (a + 1) 2 ltac:(lia)). pose proof (Nat.mod_upper_bound (b + 1) 2 ltac:(lia)).
      destruct (Nat.even a) eqn:Ea, (Nat.even b) eqn:Eb; try discriminate.
      + apply Nat.even_spec in Ea as [ka ->], Eb as [kb ->]. lia.
      + assert (Oa : Nat.odd a = true) by (unfold Nat.odd; now rewrite Ea). assert (Ob : Nat.odd b = true) by (unfold Nat.odd; now rewrite Eb).
        apply Nat.odd_spec in Oa as [ka ->], Ob as [kb ->]. lia. }
    assert (U : forall i, NoDup (map (fun q => (i, negb (Nat.even q), ((q + 1) / 2)%nat)) (seq 0 W))) by (intros i; apply FinFun.Injective_map_NoDup; [intros a b; apply Inj|apply seq_NoDup]).
    apply NoDup_app2; auto; [apply NoDup_app2; auto|].
    + intros [[i s] j] A B. apply in_map_iff in A as (? & [= <- <- <-] & _). apply in_map_iff in B as (? & [= ] & _).
    + intros [[i s] j] A B. apply in_map_iff in A as (? & [= <- <- <-] & _). apply in_app_iff in B as [B|B]; apply in_map_iff in B as (? & [= ] & _).
Qed.

(** along the curve *)
Lemma xyz_sum_D d sn cs sn' cs' t : (forall j, D (fun t => sn t j) t (sn' t j)) -> (forall j, D (fun t => cs t j) t (cs' t j)) ->
  D3 (fun t => xyz_sum d (sn t) (cs t)) t (xyz_sum d (sn' t) (cs' t)).
Proof.
  intros HS HC. unfold xyz_sum. assert (E : forall i, D (fun t => rsuml (map (fun q => d i q * mode (sn t) (cs t) q) (seq 0 W))) t (rsuml (map (fun q => d i q * mode (sn' t) (cs' t) q) (seq 0 W)))).
  { intros i. apply (D_sum (seq 0 W) (fun q t => d i q * mode (sn t) (cs t) q)). intros q _. eapply D_val; [|apply (D_mul (fun _ => d i q) (fun t => mode (sn t) (cs t) q) t 0 (mode (sn' t) (cs' t) q)); [apply D_const|]]; [cbv beta; ring|].
    unfold mode. destruct (Nat.even q); [apply HC|apply HS]. }
  unfold comps. split; [|split]; apply E.
Qed.
Lemma D_sin_lin a c t : D (fun t => c * sin (a * t)) t (c * a * cos (a * t)).
Proof.
  eapply D_val; [|apply D_mul; [apply D_const|apply (derivable_pt_lim_comp (fun t => a * t) sin); [apply (D_mul (fun _ => a) (fun t => t)); [apply D_const|apply D_id]|apply derivable_pt_lim_sin]]]. cbv beta. ring.
Qed.
Lemma D_cos_lin a c t : D (fun t => c * cos (a * t)) t (- c * a * sin (a * t)).
Proof.
  eapply D_val; [|apply D_mul; [apply D_const|apply (derivable_pt_lim_comp (fun t => a * t) cos); [apply (D_mul (fun _ => a) (fun t => t)); [apply D_const|apply D_id]|apply derivable_pt_lim_cos]]]. cbv beta. ring.
Qed.
Ltac trig := match goal with |- D (fun t => ?c * sin (?a * t)) _ _ => eapply D_val; [|apply (D_sin_lin a c)] | |- D (fun t => ?c * cos (?a * t)) _ _ => eapply D_val; [|apply (D_cos_lin a c)]
   | |- D (fun t => sin (?a * t)) _ _ => eapply D_ext; [|eapply D_val; [|apply (D_sin_lin a 1)]]; [intros; cbv beta; ring|] | |- D (fun t => cos (?a * t)) _ _ => eapply D_ext; [|eapply D_val; [|apply (D_cos_lin a 1)]]; [intros; cbv beta; ring|] end; ring.
Theorem C68_derivatives_along_the_curve d t :
  D3 (fun t => xyz_gamma o d t) t (xyz_gammadash o d t) /\
  D3 (fun t => xyz_gammadash o d t) t (xyz_gammadashdash o d t) /\
  D3 (fun t => xyz_gammadashdash o d t) t (xyz_gammadashdashdash o d t).
Proof.
  split; [|split].
  - eapply D3_ext; [intros s; symmetry; apply xyz_gamma_sum|]. rewrite xyz_gammadash_sum. apply xyz_sum_D; intros j; unfold sn0, cs0, sn1, cs1; trig.
  - eapply D3_ext; [intros s; symmetry; apply xyz_gammadash_sum|]. rewrite xyz_gammadashdash_sum. apply xyz_sum_D; intros j; unfold sn1, cs1, sn2, cs2; trig.
  - eapply D3_ext; [intros s; symmetry; apply xyz_gammadashdash_sum|]. rewrite xyz_gammadashdashdash_sum. apply xyz_sum_D; intros j; unfold sn2, cs2, sn3, cs3; trig.
Qed.
Theorem C68_closed d t : xyz_gamma o d (t + 1) = xyz_gamma o d t /\ xyz_gammadash o d (t + 1) = xyz_gammadash o d t /\
  xyz_gammadashdash o d (t + 1) = xyz_gammadashdash o d t /\ xyz_gammadashdashdash o d (t + 1) = xyz_gammadashdashdash o d t.
Proof.
  assert (C : forall j, cos (w j * (t + 1)) = cos (w j * t)) by (intros j; unfold w; replace (2 * PI * INR j * (t + 1)) with (2 * PI * INR j * t + 2 * INR j * PI) by ring; apply cos_period).
  assert (S : forall j, sin (w j * (t + 1)) = sin (w j * t)) by (intros j; unfold w; replace (2 * PI * INR j * (t + 1)) with (2 * PI * INR j * t + 2 * INR j * PI) by ring; apply sin_period).
  rewrite !xyz_gamma_sum, !xyz_gammadash_sum, !xyz_gammadashdash_sum, !xyz_gammadashdashdash_sum.
  assert (E : forall sn cs sn' cs', (forall j, sn j = sn' j) -> (forall j, cs j = cs' j) -> xyz_sum d sn cs = xyz_sum d sn' cs').
  { intros sn cs sn' cs' E1 E2. unfold xyz_sum, comps. f_equal; (apply rsuml_map_ext; intros q _; unfold mode; rewrite E1, E2; reflexivity). }
  repeat split; apply E; intros j; unfold sn0, cs0, sn1, cs1, sn2, cs2, sn3, cs3; rewrite ?C, ?S; reflexivity.
Qed.

(** columns *)
Lemma xyz_column_mode c sn cs i q : (match c with Some c => cs 0%nat = c | None => cs 0%nat = 0 end) -> (i < 3)%nat -> (q < W)%nat ->
  xyz_column o c sn cs (i * W + q) = scal3 (mode sn cs q) (unit3 i).
Proof.
  intros C0 Hi Hq. unfold xyz_column.
  assert (R : forall i', (i' < 3)%nat -> written 0 (xyz_writes o c sn cs i') (i * W + q) = if (i' =? i)%nat then mode sn cs q else 0).
  { intros i' Hi'. unfold xyz_writes, written.
    assert (E : flat_map (fun j => [((i' * W + 2 * j - 1)%nat, sn j); ((i' * W + 2 * j)%nat, cs j)]) (seq 1 o) = flat_map (fun j => [((i' * W + (2 * j - 1))%nat, mode sn cs (2 * j - 1)); ((i' * W + 2 * j)%nat, mode sn cs (2 * j))]) (seq 1 o)).
    { rewrite !flat_map_concat_map. f_equal. apply map_ext_in. intros j Hj. apply in_seq in Hj. rewrite mode_odd, mode_even by lia. f_equal. f_equal. lia. }
    rewrite E. clear E. pose proof (pairs_seq (fun q => ((i' * W + q)%nat, mode sn cs q)) o) as P.
    assert (F : (match c with Some c0 => [((i' * W)%nat, c0)] | None => [] end ++ flat_map (fun j => [((i' * W + (2 * j - 1))%nat, mode sn cs (2 * j - 1)); ((i' * W + 2 * j)%nat, mode sn cs (2 * j))]) (seq 1 o)) =
                match c with Some _ => map (fun q => ((i' * W + q)%nat, mode sn cs q)) (seq 0 W) | None => map (fun q => ((i' * W + q)%nat, mode sn cs q)) (seq 1 (W - 1)) end).
    { destruct c as [c|].
      - rewrite <- P. cbn [app]. f_equal. f_equal; [lia|]. rewrite <- C0. symmetry. apply (mode_even sn cs 0).
      - cbn [app]. replace (seq 0 W) with (0%nat :: seq 1 (W - 1)) in P by (replace W with (Datatypes.S (W - 1)) at 2 by lia; reflexivity). cbn [map] in P. apply (f_equal (@tl _)) in P. exact P. }
    rewrite F. clear F P. destruct c as [c|]; rewrite written_seq, existsb_seq by exact 0.
    - destruct (Nat.eqb_spec i' i) as [->|Ne].
      + replace (i * W + 0 <=? i * W + q)%nat with true by (symmetry; apply Nat.leb_le; lia). replace (i * W + q <? i * W + 0 + W)%nat with true by (symmetry; apply Nat.ltb_lt; lia). cbn [andb]. f_equal. lia.
      + destruct ((i' * W + 0 <=? i * W + q) && (i * W + q <? i' * W + 0 + W))%nat eqn:B; auto. apply andb_true_iff in B as [B1 B2]. apply Nat.leb_le in B1. apply Nat.ltb_lt in B2. exfalso. apply Ne. nia.
    - destruct (Nat.eqb_spec i' i) as [->|Ne].
      + destruct q as [|q].
        * destruct ((i * W + 1 <=? i * W + 0) && (i * W + 0 <? i * W + 1 + (W - 1)))%nat eqn:B; [apply andb_true_iff in B as [B1 _]; apply Nat.leb_le in B1; lia|]. rewrite <- C0. symmetry. apply (mode_even sn cs 0).
        * replace (i * W + 1 <=? i * W + Datatypes.S q)%nat with true by (symmetry; apply Nat.leb_le; lia). replace (i * W + Datatypes.S q <? i * W + 1 + (W - 1))%nat with true by (symmetry; apply Nat.ltb_lt; lia). cbn [andb]. f_equal. lia.
      + destruct ((i' * W + 1 <=? i * W + q) && (i * W + q <? i' * W + 1 + (W - 1)))%nat eqn:B; auto. apply andb_true_iff in B as [B1 B2]. apply Nat.leb_le in B1. apply Nat.ltb_lt in B2. exfalso. apply Ne. nia. }
  unfold comps. rewrite !R by lia. destruct i as [|[|[|i]]]; [| | |lia]; apply v3_eq; cbn; ring.
Qed.
Lemma xyz_sum_columns d c sn cs : (match c with Some c => cs 0%nat = c | None => cs 0%nat = 0 end) ->
  xyz_sum d sn cs = dir N (xyz_get_dofs o d) (xyz_column o c sn cs).
Proof.
  intros C0. unfold xyz_sum. rewrite comps_sum. unfold dir. f_equal.
  assert (E : seq 0 N = flat_map (fun i => map (fun q => (i * W + q)%nat) (seq 0 W)) (seq 0 3)).
  { unfold xyz_num_dofs. replace (3 * W)%nat with (W + (W + W))%nat by lia. rewrite (seq_app W (W + W) 0), (seq_app W W (0 + W)). change (seq 0 3) with [0; 1; 2]%nat. cbn [flat_map]. rewrite app_nil_r.
    assert (A : forall i, map (fun q => (i * W + q)%nat) (seq 0 W) = seq (i * W) W) by (intros i; rewrite seq_map_add; f_equal; lia). rewrite (A 0%nat), (A 1%nat), (A 2%nat). apply (f_equal2 (@app nat)); [f_equal; lia|]. apply (f_equal2 (@app nat)); f_equal; lia. }
  rewrite E, !flat_map_concat_map, concat_map, !map_map. f_equal. apply map_ext_in. intros i Hi. apply in_seq in Hi. rewrite map_map. apply map_ext_in. intros q Hq. apply in_seq in Hq.
  rewrite xyz_column_mode by (auto; lia). rewrite scal3_scal. f_equal. f_equal. rewrite xyz_get_flat, nth_blocks by lia. reflexivity.
Qed.
Lemma column_ext c sn cs sn' cs' m : (forall j, sn j = sn' j) -> (forall j, cs j = cs' j) -> xyz_column o c sn cs m = xyz_column o c sn' cs' m.
Proof. intros E1 E2. unfold xyz_column, comps, xyz_writes. f_equal; f_equal; f_equal; rewrite !flat_map_concat_map; f_equal; apply map_ext; intros j; now rewrite E1, E2. Qed.
(** the value at dofs x: set_dofs, then gamma *)
Definition xyz_at (f : table -> R -> vec3) (start : table) (x : list R) (t : R) : vec3 := match xyz_set_dofs o x start with Some d => f d t | None => v0 end.
Lemma linear_gradient n (G : list R -> vec3) C x : (forall x, length x = n -> G x = dir n x C) -> length x = n -> gradient3 n G x C.
Proof.
  intros E L v Hv. eapply D3_val; [|eapply D3_ext; [intros t; symmetry; apply E; rewrite move_length; congruence|]].
  2:{ unfold dir. apply (D3_sum (seq 0 n) (fun m t => scal3 (nth m (move x v t) 0) (C m)) (fun m => scal3 (nth m v 0) (C m))). intros m _.
      eapply D3_ext; [intros t; rewrite move_nth by congruence; reflexivity|]. eapply D3_val; [|apply (D3_scal (fun t => nth m x 0 + t * nth m v 0)); [apply D_add; [apply D_const|apply D_mul; [apply D_id|apply D_const]]|apply D3_const]].
      apply v3_eq; cbn [vx vy vz add3 scal3 v0]; ring. }
  reflexivity.
Qed.
Lemma xyz_at_linear f start c sn cs t x : (forall d, f d t = xyz_sum d sn cs) -> (match c with Some c => cs 0%nat = c | None => cs 0%nat = 0 end) -> length x = N ->
  xyz_at f start x t = dir N x (xyz_column o c sn cs).
Proof. intros E C0 L. unfold xyz_at. destruct (C68_set_then_get x start L) as (d & -> & G). rewrite E, (xyz_sum_columns d c) by auto. now rewrite G. Qed.
Theorem C68_derivatives_by_dofs start x t : length x = N ->
  gradient3 N (fun x => xyz_at (xyz_gamma o) start x t) x (xyz_dgamma o t) /\
  gradient3 N (fun x => xyz_at (xyz_gammadash o) start x t) x (xyz_dgammadash o t) /\
  gradient3 N (fun x => xyz_at (xyz_gammadashdash o) start x t) x (xyz_dgammadashdash o t) /\
  gradient3 N (fun x => xyz_at (xyz_gammadashdashdash o) start x t) x (xyz_dgammadashdashdash o t).
Proof.
  intros L. split; [|split; [|split]]; (apply linear_gradient; [|auto]); intros y Ly; unfold xyz_dgamma, xyz_dgammadash, xyz_dgammadashdash, xyz_dgammadashdashdash; apply xyz_at_linear; auto;
    try (rewrite w0, Rmult_0_l, ?cos_0, ?sin_0; cbn; ring); intros d.
  - apply xyz_gamma_sum.
  - rewrite xyz_gammadash_sum. unfold xyz_sum, comps. f_equal; apply rsuml_map_ext; intros q _; unfold mode, sn1, cs1, w; destruct (Nat.even q); ring.
  - rewrite xyz_gammadashdash_sum. unfold xyz_sum, comps. f_equal; apply rsuml_map_ext; intros q _; unfold mode, sn2, cs2, w; destruct (Nat.even q); ring.
  - rewrite xyz_gammadashdashdash_sum. unfold xyz_sum, comps. f_equal; apply rsuml_map_ext; intros q _; unfold mode, sn3, cs3, w; destruct (Nat.even q); ring.
Qed.
(** the jax implementation evaluates the same curve *)
Theorem C68_jax_agrees d x t : length x = N -> jax_gamma o x t = xyz_at (xyz_gamma o) d x t.
Proof.
  intros L. unfold xyz_at. destruct (xyz_set_spec x d ltac:(lia)) as (d' & -> & H). unfold jax_gamma, xyz_gamma.
  assert (K : (length x / 3)%nat = W) by (rewrite L; unfold xyz_num_dofs; rewrite Nat.mul_comm, Nat.div_mul; lia). rewrite K.
  assert (E : forall i q, (i < 3)%nat -> (q < W)%nat -> nth q (nth i [firstn W x; firstn W (skipn W x); skipn (2 * W) x] []) 0 = d' i q).
  { intros i q Hi Hq. rewrite H by auto. unfold xyz_num_dofs in L. destruct i as [|[|[|i]]]; [| | |lia]; cbn [nth].
    - rewrite <- (firstn_skipn W x) at 2. rewrite app_nth1 by (rewrite firstn_length; lia). reflexivity.
    - replace (1 * W + q)%nat with (W + q)%nat by lia. rewrite <- (nth_skipn W x). rewrite <- (firstn_skipn W (skipn W x)) at 2. rewrite app_nth1 by (rewrite firstn_length, skipn_length; lia). reflexivity.
    - rewrite <- (nth_skipn (2 * W)). reflexivity. }
  unfold comps. f_equal; (rewrite E by lia; apply fold_left_ext_in; intros a j Hj; apply in_seq in Hj; rewrite !E by lia; reflexivity).
Qed.
End XYZ.

(** ** CurveRZFourier *)
Section RZ.
Variables (o nfp : nat) (ss : bool).
Notation N := (rz_num_dofs o ss).
Definition rz_wf (a : rz_arrays) : Prop := length (rc a) = (o + 1)%nat /\ length (rs a) = o /\ length (zc a) = (o + 1)%nat /\ length (zs a) = o.
Lemma all_nth (l : list R) n : length l = n -> map (fun i => nth i l 0) (seq 0 n) = l.
Proof. intros <-. apply (nth_ext _ _ 0 0); [now rewrite map_length, seq_length|]. intros i Hi. rewrite map_length, seq_length in Hi. now rewrite nth_map_seq. Qed.
Lemma rz_get_arrays a : rz_wf a -> rz_get_dofs o ss a = if ss then rc a ++ zs a else rc a ++ rs a ++ zc a ++ zs a.
Proof. intros (A & B & C & E). unfold rz_get_dofs. rewrite !all_nth by auto. reflexivity. Qed.
Lemma slice_length dofs c n : length (slice dofs c n) = n. Proof. unfold slice. now rewrite map_length, seq_length. Qed.
Lemma slice_app dofs c n m : slice dofs c n ++ slice dofs (c + n) m = slice dofs c (n + m).
Proof. unfold slice. rewrite seq_app, map_app. f_equal. rewrite (Nat.add_comm 0 n). replace (seq (n + 0) m) with (map (fun j => (n + j)%nat) (seq 0 m)) by apply seq_map_add. rewrite map_map. apply map_ext. intros; f_equal; lia. Qed.
Lemma slice_all dofs : slice dofs 0 (length dofs) = dofs. Proof. unfold slice. cbn [Nat.add]. apply all_nth; auto. Qed.
Theorem C69_arrays_keep_their_sizes dofs a : rz_wf a -> rz_wf (rz_set_dofs o ss dofs a) /\ length (rz_get_dofs o ss a) = N.
Proof.
  intros Hw. split.
  - destruct Hw as (A & B & C & E). unfold rz_wf, rz_set_dofs. destruct ss; cbn [rc rs zc zs]; rewrite ?slice_length; auto.
  - rewrite rz_get_arrays by auto. destruct Hw as (A & B & C & E). unfold rz_num_dofs. destruct ss; rewrite !app_length; lia.
Qed.
Theorem C69_set_then_get dofs a : rz_wf a -> length dofs = N -> rz_get_dofs o ss (rz_set_dofs o ss dofs a) = dofs.
Proof.
  intros Hw L. rewrite rz_get_arrays by (apply C69_arrays_keep_their_sizes; auto). unfold rz_set_dofs, rz_num_dofs in *. destruct ss; cbn [rc rs zc zs].
  - rewrite (slice_app dofs 0 (o + 1) o : slice dofs 0 (o + 1) ++ slice dofs (o + 1) o = _). replace (o + 1 + o)%nat with (length dofs) by lia. apply slice_all.
  - rewrite slice_app, slice_app, (slice_app dofs 0 (o + 1) _ : slice dofs 0 (o + 1) ++ slice dofs (o + 1) _ = _). replace (o + 1 + (o + (o + 1 + o)))%nat with (length dofs) by lia. apply slice_all.
Qed.
(** with stellarator symmetry rs and zc are not touched by set_dofs and not used by the geometry *)
Definition rz_term (k : rzkind) (i : nat) (a : rz_arrays) : R := match k with KRC => nth i (rc a) 0 | KRS => nth (i - 1) (rs a) 0 | KZC => nth i (zc a) 0 | KZS => nth (i - 1) (zs a) 0 end.
Lemma map_pred (l : list R) : map (fun i => nth (i - 1) l 0) (seq 1 o) = map (fun i => nth i l 0) (seq 0 o).
Proof. change (seq 1 o) with (seq (1 + 0) o). rewrite <- (seq_map_add 1 o 0), map_map. apply map_ext. intros i. f_equal. lia. Qed.
Lemma rz_get_names a : rz_get_dofs o ss a = map (fun k => rz_term (fst k) (snd k) a) (rz_names o ss).
Proof. unfold rz_get_dofs, rz_names. destruct ss; cbn [app]; rewrite !map_app, !map_map; cbn [fst snd rz_term]; rewrite !map_pred, <- ?app_assoc; reflexivity. Qed.
Lemma rz_loops_names frc fzs frs fzc : rz_loops o ss frc fzs frs fzc = sum3 (map (fun k => match fst k with KRC => frc (snd k) | KRS => frs (snd k) | KZC => fzc (snd k) | KZS => fzs (snd k) end) (rz_names o ss)).
Proof.
  unfold rz_loops, rz_names. destruct ss; rewrite !accum_sum, !map_app, !map_map; cbn [fst snd app]; rewrite !sum3_app, ?add3_0_l; [reflexivity|].
  rewrite <- !add3_assoc. f_equal. rewrite (add3_comm (sum3 (map fzs _))), <- !add3_assoc. reflexivity.
Qed.
Lemma rz_columns_names frc frs fzc fzs : rz_columns o ss frc frs fzc fzs = map (fun k => match fst k with KRC => frc (snd k) | KRS => frs (snd k) | KZC => fzc (snd k) | KZS => fzs (snd k) end) (rz_names o ss).
Proof. unfold rz_columns, rz_names. destruct ss; rewrite !map_app, ?map_map; cbn [map app]; rewrite ?map_app, ?map_map; reflexivity. Qed.
(** the columns, by name *)
Lemma om_comm i : om nfp i = INR i * INR nfp. Proof. unfold om. ring. Qed.
(** a row given by a column function: the four functions and the four arrays *)
Definition by_name (B : rzkind * nat -> R -> vec3) (a : rz_arrays) (t : R) : vec3 := sum3 (map (fun k => scal3 (rz_term (fst k) (snd k) a) (B k t)) (rz_names o ss)).
Definition B0 (k : rzkind * nat) (t : R) : vec3 := let phi := 2 * PI * t in let i := snd k in let co := cos (om nfp i * phi) in let si := sin (om nfp i * phi) in
  match fst k with KRC => V3 (co * cos phi) (co * sin phi) 0 | KRS => V3 (si * cos phi) (si * sin phi) 0 | KZC => V3 0 0 co | KZS => V3 0 0 si end.
Definition B1 (k : rzkind * nat) (t : R) : vec3 := let phi := 2 * PI * t in let i := snd k in let m := om nfp i in let co := cos (m * phi) in let si := sin (m * phi) in
  scal3 (2 * PI) match fst k with KRC => V3 (- m * si * cos phi - co * sin phi) (- m * si * sin phi + co * cos phi) 0 | KRS => V3 (m * co * cos phi - si * sin phi) (m * co * sin phi + si * cos phi) 0
  | KZC => V3 0 0 (- m * si) | KZS => V3 0 0 (m * co) end.
Definition B2 (k : rzkind * nat) (t : R) : vec3 := let phi := 2 * PI * t in let i := snd k in let m := om nfp i in let co := cos (m * phi) in let si := sin (m * phi) in
  scal3 (2 * PI * 2 * PI) match fst k with
  | KRC => V3 (2 * m * si * sin phi - (m * m + 1) * co * cos phi) (- (2) * m * si * cos phi - (m * m + 1) * co * sin phi) 0
  | KRS => V3 (- (m * m + 1) * si * cos phi - 2 * m * co * sin phi) (- (m * m + 1) * si * sin phi + 2 * m * co * cos phi) 0
  | KZC => V3 0 0 (- (m * m) * co) | KZS => V3 0 0 (- (m * m) * si) end.
Definition B3 (k : rzkind * nat) (t : R) : vec3 := let phi := 2 * PI * t in let i := snd k in let m := om nfp i in let co := cos (m * phi) in let si := sin (m * phi) in
  scal3 (2 * PI * 2 * PI * 2 * PI) match fst k with
  | KRC => V3 ((3 * (m * m) + 1) * co * sin phi + (m * m + 3) * m * si * cos phi) ((m * m + 3) * m * si * sin phi - (3 * (m * m) + 1) * co * cos phi) 0
  | KRS => V3 (- (m * m + 3) * m * co * cos phi + (3 * (m * m) + 1) * si * sin phi) (- (m * m + 3) * m * co * sin phi - (3 * (m * m) + 1) * si * cos phi) 0
  | KZC => V3 0 0 (m * m * m * si) | KZS => V3 0 0 (- (m * m * m) * co) end.
Ltac bn := rewrite rz_loops_names; try rewrite <- sum3_scal, map_map; unfold by_name; apply f_equal; apply map_ext; intros [k i]; cbn [fst snd]; destruct k; unfold rz_term; apply v3_eq; cbn [vx vy vz scal3]; ring.
Lemma rz_gamma_by_name a t : rz_gamma o nfp ss a t = by_name B0 a t. Proof. unfold rz_gamma, B0. bn. Qed.
Lemma rz_gammadash_by_name a t : rz_gammadash o nfp ss a t = by_name B1 a t. Proof. unfold rz_gammadash, B1. bn. Qed.
Lemma rz_gammadashdash_by_name a t : rz_gammadashdash o nfp ss a t = by_name B2 a t. Proof. unfold rz_gammadashdash, B2. bn. Qed.
Lemma rz_gammadashdashdash_by_name a t : rz_gammadashdashdash o nfp ss a t = by_name B3 a t. Proof. unfold rz_gammadashdashdash, B3. bn. Qed.
Ltac cn := rewrite rz_columns_names; try rewrite map_map; apply map_ext; intros [k i]; cbn [fst snd]; destruct k; reflexivity.
Lemma rz_dgamma_by_name t : rz_dgamma o nfp ss t = map (fun k => B0 k t) (rz_names o ss). Proof. unfold rz_dgamma. cn. Qed.
Lemma rz_dgammadash_by_name t : rz_dgammadash o nfp ss t = map (fun k => B1 k t) (rz_names o ss). Proof. unfold rz_dgammadash. cn. Qed.
Lemma rz_dgammadashdash_by_name t : rz_dgammadashdash o nfp ss t = map (fun k => B2 k t) (rz_names o ss). Proof. unfold rz_dgammadashdash. cn. Qed.
Lemma rz_dgammadashdashdash_by_name t : rz_dgammadashdashdash o nfp ss t = map (fun k => B3 k t) (rz_names o ss). Proof. unfold rz_dgammadashdashdash. cn. Qed.

Theorem C69_gamma_is_the_documented_series a t : rz_gamma o nfp ss a t = series (rz_basis nfp) (rz_names o ss) (rz_get_dofs o ss a) t.
Proof.
  rewrite rz_gamma_by_name. unfold by_name, series. rewrite rz_get_names. apply f_equal. induction (rz_names o ss) as [|[k i] l IH]; cbn [map vmap2]; [reflexivity|]. f_equal; [|apply IH].
  cbn [fst snd]. f_equal. unfold B0, rz_basis. rewrite om_comm. cbn [fst snd]. destruct k; apply v3_eq; cbn [vx vy vz scal3]; ring.
Qed.
Lemma D_cosw a t : D (fun t => cos (a * (2 * PI * t))) t (- (2 * PI * a) * sin (a * (2 * PI * t))).
Proof. eapply D_ext; [|eapply D_val; [|apply (D_cos_lin (2 * PI * a) 1)]]; [intros s; cbv beta; rewrite Rmult_1_l; f_equal; ring|]. replace (a * (2 * PI * t)) with (2 * PI * a * t) by ring. ring. Qed.
Lemma D_sinw a t : D (fun t => sin (a * (2 * PI * t))) t (2 * PI * a * cos (a * (2 * PI * t))).
Proof. eapply D_ext; [|eapply D_val; [|apply (D_sin_lin (2 * PI * a) 1)]]; [intros s; cbv beta; rewrite Rmult_1_l; f_equal; ring|]. replace (a * (2 * PI * t)) with (2 * PI * a * t) by ring. ring. Qed.
Lemma D_cosp t : D (fun t => cos (2 * PI * t)) t (- (2 * PI) * sin (2 * PI * t)).
Proof. eapply D_ext; [|eapply D_val; [|apply (D_cos_lin (2 * PI) 1)]]; [intros s; cbv beta; ring|ring]. Qed.
Lemma D_sinp t : D (fun t => sin (2 * PI * t)) t (2 * PI * cos (2 * PI * t)).
Proof. eapply D_ext; [|eapply D_val; [|apply (D_sin_lin (2 * PI) 1)]]; [intros s; cbv beta; ring|ring]. Qed.
Ltac dd := lazymatch goal with
  | |- D (fun t => cos (?a * (2 * PI * t))) _ _ => apply D_cosw
  | |- D (fun t => sin (?a * (2 * PI * t))) _ _ => apply D_sinw
  | |- D (fun t => cos (2 * PI * t)) _ _ => apply D_cosp
  | |- D (fun t => sin (2 * PI * t)) _ _ => apply D_sinp
  | |- D (fun t => @?f t + @?g t) _ _ => apply (D_add f g); dd
  | |- D (fun t => @?f t - @?g t) _ _ => apply (D_sub f g); dd
  | |- D (fun t => @?f t * @?g t) _ _ => apply (D_mul f g); dd
  | |- D (fun t => - @?f t) _ _ => apply (D_opp f); dd
  | |- D (fun _ => ?c) _ _ => apply (D_const c)
  end.
Ltac db := intros [k i] t; destruct k; (split; [|split]); unfold B0, B1, B2, B3; cbn [fst snd vx vy vz scal3]; (eapply D_val; [|dd]); cbv beta; ring.
Lemma B01 : forall k t, D3 (B0 k) t (B1 k t). Proof. db. Qed.
Lemma B12 : forall k t, D3 (B1 k) t (B2 k t). Proof. db. Qed.
Lemma B23 : forall k t, D3 (B2 k) t (B3 k t). Proof. db. Qed.
Lemma by_name_D B B' a t : (forall k t, D3 (B k) t (B' k t)) -> D3 (by_name B a) t (by_name B' a t).
Proof. intros H. unfold by_name. apply (D3_sum (rz_names o ss) (fun k t => scal3 (rz_term (fst k) (snd k) a) (B k t))). intros k _. apply D3_scalc. apply H. Qed.
Theorem C69_derivatives_along_the_curve a t :
  D3 (rz_gamma o nfp ss a) t (rz_gammadash o nfp ss a t) /\ D3 (rz_gammadash o nfp ss a) t (rz_gammadashdash o nfp ss a t) /\ D3 (rz_gammadashdash o nfp ss a) t (rz_gammadashdashdash o nfp ss a t).
Proof.
  rewrite rz_gammadash_by_name, rz_gammadashdash_by_name, rz_gammadashdashdash_by_name.
  split; [|split]; (eapply D3_ext; [intros s; symmetry; first [apply rz_gamma_by_name|apply rz_gammadash_by_name|apply rz_gammadashdash_by_name]|]; apply by_name_D; first [apply B01|apply B12|apply B23]).
Qed.
Lemma rz_names_length : length (rz_names o ss) = N.
Proof. unfold rz_names, rz_num_dofs. destruct ss; cbn [app]; rewrite !app_length, !map_length, !seq_length; lia. Qed.
Lemma by_name_dir B a t : by_name B a t = dir N (rz_get_dofs o ss a) (fun m => nth m (map (fun k => B k t) (rz_names o ss)) v0).
Proof.
  unfold by_name, dir. apply f_equal. rewrite rz_get_names. rewrite <- rz_names_length. set (l := rz_names o ss). clearbody l.
  apply (nth_ext _ _ v0 v0); [now rewrite !map_length, seq_length|]. intros m Hm. rewrite map_length in Hm. rewrite nth_map_seq by auto.
  rewrite (nth_indep _ v0 (scal3 (rz_term (fst (KRC, 0%nat)) (snd (KRC, 0%nat)) a) (B (KRC, 0%nat) t))) by now rewrite map_length.
  rewrite (map_nth (fun k => scal3 (rz_term (fst k) (snd k) a) (B k t))). 
  rewrite (nth_indep _ v0 (B (KRC, 0%nat) t)) by now rewrite map_length. rewrite (map_nth (fun k => B k t)).
  rewrite (nth_indep _ 0 (rz_term (fst (KRC, 0%nat)) (snd (KRC, 0%nat)) a)) by now rewrite map_length. rewrite (map_nth (fun k => rz_term (fst k) (snd k) a)). reflexivity.
Qed.
(** the value at dofs x, whatever was stored before *)
Definition rz_at (f : rz_arrays -> R -> vec3) (start : rz_arrays) (x : list R) (t : R) : vec3 := f (rz_set_dofs o ss x start) t.
Theorem C69_derivatives_by_dofs start x t : rz_wf start -> length x = N ->
  gradient3 N (fun x => rz_at (rz_gamma o nfp ss) start x t) x (fun m => nth m (rz_dgamma o nfp ss t) v0) /\
  gradient3 N (fun x => rz_at (rz_gammadash o nfp ss) start x t) x (fun m => nth m (rz_dgammadash o nfp ss t) v0) /\
  gradient3 N (fun x => rz_at (rz_gammadashdash o nfp ss) start x t) x (fun m => nth m (rz_dgammadashdash o nfp ss t) v0) /\
  gradient3 N (fun x => rz_at (rz_gammadashdashdash o nfp ss) start x t) x (fun m => nth m (rz_dgammadashdashdash o nfp ss t) v0).
Proof.
  intros Hw L. assert (E : forall B y, length y = N -> by_name B (rz_set_dofs o ss y start) t = dir N y (fun m => nth m (map (fun k => B k t) (rz_names o ss)) v0)).
  { intros B y Ly. rewrite by_name_dir. now rewrite C69_set_then_get. }
  rewrite rz_dgamma_by_name, rz_dgammadash_by_name, rz_dgammadashdash_by_name, rz_dgammadashdashdash_by_name.
  split; [|split; [|split]]; (apply linear_gradient; [|auto]); intros y Ly; unfold rz_at;
    rewrite ?rz_gamma_by_name, ?rz_gammadash_by_name, ?rz_gammadashdash_by_name, ?rz_gammadashdashdash_by_name; apply E; auto.
Qed.
(** one field period further the curve is rotated by 2 pi / nfp *)
Theorem C69_field_period a t : (0 < nfp)%nat -> let b := 2 * PI / INR nfp in let p := rz_gamma o nfp ss a t in
  rz_gamma o nfp ss a (t + 1 / INR nfp) = V3 (vx p * cos b - vy p * sin b) (vx p * sin b + vy p * cos b) (vz p).
Proof.
  intros Hn b p. unfold p. rewrite !rz_gamma_by_name. assert (Hr : INR nfp <> 0) by (apply not_0_INR; lia).
  transitivity (by_name (fun k t => V3 (vx (B0 k t) * cos b - vy (B0 k t) * sin b) (vx (B0 k t) * sin b + vy (B0 k t) * cos b) (vz (B0 k t))) a t).
  - unfold by_name. apply sum3_ext. intros [k i] _. f_equal. unfold B0. cbn [fst snd].
    replace (2 * PI * (t + 1 / INR nfp)) with (2 * PI * t + b) by (unfold b; field; auto).
    assert (Ea : om nfp i * (2 * PI * t + b) = om nfp i * (2 * PI * t) + 2 * INR i * PI) by (unfold b, om; field; auto).
    rewrite Ea, cos_period, sin_period, cos_plus, sin_plus. destruct k; apply v3_eq; cbn [vx vy vz]; ring.
  - unfold by_name. induction (rz_names o ss) as [|k l IH]; cbn [map sum3]; [apply v3_eq; cbn; ring|]. rewrite IH. apply v3_eq; cbn [vx vy vz add3 scal3]; ring.
Qed.
End RZ.

(** ** Vector-Jacobian products: the vjp is the gradient of the v-weighted sum *)
Theorem C68_vjp n (G : list R -> nat -> vec3) (C : nat -> nat -> vec3) x nq v : (forall k, gradient3 n (fun x => G x k) x (C k)) ->
  gradient n (fun x => rsuml (map (fun k => dot3 (v k) (G x k)) (seq 0 nq))) x (fun m => nth m (curve_vjp n C nq v) 0).
Proof.
  intros H u Hu. rewrite (dirR_ext n u _ (fun m => rsuml (map (fun k => dot3 (v k) (C k m)) (seq 0 nq)))) by (intros m Hm; unfold curve_vjp; now rewrite nth_map_seq).
  rewrite (dirR_sum n u (fun k m => dot3 (v k) (C k m))). apply (D_sum (seq 0 nq) (fun k t => dot3 (v k) (G (move x u t) k))). intros k _.
  eapply D_val; [|apply (D_dot (fun _ => v k)); [apply D3_const|apply (H k u Hu)]]. cbv beta.
  rewrite <- (dir_R1 (fun a => dot3 (v k) a)); [|intros; unfold dot3; cbn; ring|intros; unfold dot3; cbn; ring]. unfold dot3. cbn [vx vy vz v0]. ring.
Qed.
Example C68_example : xyz_get_dofs 1 (fun i q => INR (10 * i + q)) = [0; 1; 2; 10; 11; 12; 20; 21; 22].
Proof. cbn. repeat (apply (f_equal2 (@cons R)); [lra|]). reflexivity. Qed.
Example C69_example : rz_wf 2 (rz_zero 2) /\ rz_get_dofs 1 true (rz_set_dofs 1 true [5; 6; 7] (rz_zero 1)) = [5; 6; 7].
Proof. split; [repeat split|]; reflexivity. Qed.
