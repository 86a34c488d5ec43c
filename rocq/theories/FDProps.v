(** C27, C28, C29, C48, C49. *)
From Coq Require Import List Arith Lia Bool Reals Lra Permutation.
From Verif Require Import ListAux PartitionModel PartitionProps FDModel.
Import ListNotations.
Local Open Scope nat_scope.

(** ---- specification ------------------------------------------------------------------------ *)
(** Value of the objective (only used where it is defined). *)
Definition val (f : vec -> option vec) (v : vec) : vec := match f v with Some y => y | None => [] end.
(** The objective has [m] outputs on every point with [n] coordinates. *)
Definition total_on (f : vec -> option vec) (n m : nat) : Prop :=
  forall v, length v = n -> exists y, f v = Some y /\ length y = m.
(** Difference quotients of every output in direction [j]. *)
Definition quotient (f : vec -> option vec) (m : nat) (centered : bool) (x0 : vec) (j : nat) (s : R) : vec :=
  map (fun i => if centered
                then (nth i (val f (moved x0 j s)) 0 - nth i (val f (moved x0 j (- s))) 0) / (2 * s)
                else (nth i (val f (moved x0 j s)) 0 - nth i (val f x0) 0) / s)%R (seq 0 m).
(** Where jac evaluates: its argument, else the stored x0, else opt.x. *)
Definition eval_point (s : fd) (ox : vec) (x : option vec) : vec :=
  match x with Some v => v | None => match fd_x0 s with Some v => v | None => ox end end.

(** ---- lemmas ------------------------------------------------------------------------------- *)
Lemma length_moved x0 j d : length (moved x0 j d) = length x0.
Proof. apply length_upd. Qed.

Lemma map2_nth (op : R -> R -> R) : forall u v, length u = length v ->
  map (fun p => op (fst p) (snd p)) (combine u v) = map (fun i => op (nth i u 0%R) (nth i v 0%R)) (seq 0 (length u)).
Proof.
  induction u as [|a u IH]; intros [|b v] H; try discriminate; [reflexivity|]. cbn [length] in *. cbn [seq].
  cbn [combine map fst snd nth]. f_equal. rewrite IH by lia. rewrite <- seq_shift, map_map. reflexivity.
Qed.
Lemma np2_same op u v : length u = length v ->
  np2 op u v = Some (map (fun i => op (nth i u 0%R) (nth i v 0%R)) (seq 0 (length u))).
Proof. intros H. unfold np2. rewrite H, Nat.eqb_refl. f_equal. rewrite <- H. now apply map2_nth. Qed.
Lemma set_col_ok m J j v : j < length J -> length v = m -> set_col m J j v = Some (upd j v J).
Proof. intros H H'. unfold set_col. apply Nat.ltb_lt in H. rewrite H, H', Nat.eqb_refl. reflexivity. Qed.

Definition put (col : nat -> vec) (J : cols) (js : list nat) : cols := fold_left (fun J j => upd j (col j) J) js J.
Lemma put_length col js : forall J, length (put col J js) = length J.
Proof. induction js as [|j js IH]; intros J; cbn; [reflexivity|]. unfold put in IH. rewrite IH. apply length_upd. Qed.
Lemma put_nth_other col js : forall J k, ~ In k js -> nth_error (put col J js) k = nth_error J k.
Proof.
  induction js as [|j js IH]; intros J k H; cbn; [reflexivity|]. unfold put in IH. rewrite IH by (intros ?; apply H; now right).
  apply nth_error_upd_other. intros ->. apply H. now left.
Qed.
Lemma put_nth col js : forall J k, NoDup js -> In k js -> k < length J -> nth_error (put col J js) k = Some (col k).
Proof.
  induction js as [|j js IH]; intros J k Hn Hk Hl; [destruct Hk|]. inversion Hn; subst. cbn.
  destruct (Nat.eq_dec j k) as [->|Hne].
  - pose proof (put_nth_other col js (upd k (col k) J) k) as X. unfold put in X. rewrite X by assumption.
    now apply nth_error_upd_same.
  - destruct Hk as [?|Hk]; [contradiction|]. unfold put in IH. apply IH; [assumption..|]. now rewrite length_upd.
Qed.
Lemma put_seq col n J : length J = n -> put col J (seq 0 n) = map col (seq 0 n).
Proof.
  intros H. apply nth_error_ext. intros i. destruct (Nat.lt_ge_cases i n) as [Hi|Hi].
  - rewrite put_nth; [|apply seq_NoDup|apply in_seq; lia|lia]. rewrite nth_error_map.
    rewrite (nth_error_nth' (seq 0 n) 0) by (rewrite seq_length; lia). rewrite seq_nth by lia. reflexivity.
  - transitivity (@None vec); [|symmetry]; apply nth_error_None.
    + rewrite put_length. lia.
    + rewrite map_length, seq_length. lia.
Qed.

Section Loops.
Variables (f : vec -> option vec) (n m : nat).
Hypothesis Hf : total_on f n m.

Lemma val_ok v : length v = n -> f v = Some (val f v) /\ length (val f v) = m.
Proof using Hf. intros H. destruct (Hf v H) as (y & E & L). unfold val. rewrite E. split; [reflexivity|assumption]. Qed.
Lemma eval_at_ok ox v : length ox = n -> length v = n -> eval_at f ox v = (v, Some (val f v)).
Proof using Hf. intros H H'. unfold eval_at, set_x. rewrite H, H', Nat.eqb_refl. f_equal. now apply val_ok. Qed.

Lemma forward_loop_ok x0 steps : length x0 = n -> forall js ox J, length ox = n -> (forall j, In j js -> j < length J) ->
  exists ox', length ox' = n /\
  forward_loop f m x0 steps (val f x0) js ox J =
    (ox', Some (put (fun j => quotient f m false x0 j (nth j steps 0%R)) J js)).
Proof using Hf.
  intros Hx. induction js as [|j js IH]; intros ox J Hox Hj; [exists ox; auto|].
  cbn [forward_loop]. rewrite eval_at_ok by (try assumption; now rewrite length_moved).
  assert (L: length (moved x0 j (nth j steps 0%R)) = n) by now rewrite length_moved.
  destruct (val_ok _ L) as [_ L1]. destruct (val_ok _ Hx) as [_ L2].
  rewrite np2_same by congruence. rewrite L1. rewrite set_col_ok; [|apply Hj; now left|now rewrite !map_length, seq_length].
  rewrite map_map.
  match goal with |- exists _, _ /\ forward_loop _ _ _ _ _ _ ?o ?K = _ => destruct (IH o K) as (ox' & H1 & H2) end.
  - assumption.
  - intros k Hk. rewrite length_upd. apply Hj. now right.
  - exists ox'. split; [assumption|]. rewrite H2. reflexivity.
Qed.

Lemma centered_loop_ok x0 steps : length x0 = n -> forall js ox J, length ox = n -> (forall j, In j js -> j < length J) ->
  exists ox', length ox' = n /\
  centered_loop f m x0 steps js ox J =
    (ox', Some (put (fun j => quotient f m true x0 j (nth j steps 0%R)) J js)).
Proof using Hf.
  intros Hx. induction js as [|j js IH]; intros ox J Hox Hj; [exists ox; auto|].
  cbn [centered_loop].
  assert (L: forall d, length (moved x0 j d) = n) by (intros; now rewrite length_moved).
  rewrite eval_at_ok by (try assumption; apply L).
  rewrite eval_at_ok by apply L.
  destruct (val_ok _ (L (nth j steps 0%R))) as [_ L1]. destruct (val_ok _ (L (- nth j steps 0)%R)) as [_ L2].
  rewrite np2_same by congruence. rewrite L1. rewrite set_col_ok; [|apply Hj; now left|now rewrite !map_length, seq_length].
  rewrite map_map.
  match goal with |- exists _, _ /\ centered_loop _ _ _ _ _ ?o ?K = _ => destruct (IH o K) as (ox' & H1 & H2) end.
  - apply L.
  - intros k Hk. rewrite length_upd. apply Hj. now right.
  - exists ox'. split; [assumption|]. rewrite H2. reflexivity.
Qed.
End Loops.

Lemma jac_ok f s ox x m steps :
  total_on f (length ox) m -> length (eval_point s ox x) = length ox ->
  (fd_size s = None \/ fd_size s = Some (m, length ox)) ->
  finite_difference_steps (eval_point s ox x) (fd_abs s) (fd_rel s) = inr steps ->
  jac f s ox x =
    (mkFD (fd_abs s) (fd_rel s) (fd_centered s) (match x with Some v => Some v | None => fd_x0 s end) (Some (m, length ox)),
     ox,
     Some (map (fun j => quotient f m (fd_centered s) (eval_point s ox x) j (nth j steps 0%R)) (seq 0 (length ox)))).
Proof.
  intros Hf Hx Hs Hst. unfold jac.
  set (s1 := match x with Some v => _ | None => s end).
  assert (E1: match fd_x0 s1 with Some v => v | None => ox end = eval_point s ox x).
  { unfold s1, eval_point. destruct x; reflexivity. }
  assert (E2: fd_size s1 = fd_size s) by (unfold s1; destruct x; reflexivity).
  assert (E3: fd_abs s1 = fd_abs s) by (unfold s1; destruct x; reflexivity).
  assert (E4: fd_rel s1 = fd_rel s) by (unfold s1; destruct x; reflexivity).
  assert (E5: fd_centered s1 = fd_centered s) by (unfold s1; destruct x; reflexivity).
  assert (E6: fd_x0 s1 = match x with Some v => Some v | None => fd_x0 s end) by (unfold s1; destruct x; reflexivity).
  rewrite E1, E2. set (x0 := eval_point s ox x) in *.
  set (s2 := mkFD (fd_abs s) (fd_rel s) (fd_centered s) (match x with Some v => Some v | None => fd_x0 s end) (Some (m, length ox))).
  assert (EZ: match fd_size s with
              | Some sz => Some (s1, sz)
              | None => match f ox with
                        | Some out => Some (mkFD (fd_abs s1) (fd_rel s1) (fd_centered s1) (fd_x0 s1) (Some (length out, length ox)), (length out, length ox))
                        | None => None end end = Some (s2, (m, length ox))).
  { destruct (val_ok f _ m Hf ox eq_refl) as [Ev Lv]. destruct Hs as [-> | Hs].
    - rewrite Ev, Lv, E3, E4, E5, E6. reflexivity.
    - rewrite Hs. f_equal. f_equal. destruct s1 as [a1 r1 c1 x1 z1]; cbn in *. subst. unfold s2. f_equal. congruence. }
  cbv zeta. rewrite EZ. clear EZ. cbn [fd_abs fd_rel fd_centered s2]. rewrite Hst.
  set (J0 := repeat (repeat 0%R m) (length ox)).
  assert (LJ: length J0 = length ox) by apply repeat_length.
  assert (Hjs: forall j, In j (seq 0 (length x0)) -> j < length J0) by (intros j Hj; apply in_seq in Hj; lia).
  destruct (fd_centered s).
  - destruct (centered_loop_ok f _ m Hf x0 steps Hx (seq 0 (length x0)) ox J0 eq_refl Hjs) as (ox' & Lo & Eo).
    rewrite Eo. unfold set_x. rewrite Lo, Nat.eqb_refl. rewrite Hx, put_seq by assumption. reflexivity.
  - rewrite (eval_at_ok f _ m Hf ox x0 eq_refl Hx).
    destruct (forward_loop_ok f _ m Hf x0 steps Hx (seq 0 (length x0)) x0 J0 Hx Hjs) as (ox' & Lo & Eo).
    rewrite Eo. unfold set_x. rewrite Lo, Nat.eqb_refl. rewrite Hx, put_seq by assumption. reflexivity.
Qed.

(** Finite sums. *)
Fixpoint rsum (n : nat) (g : nat -> R) : R := match n with 0 => 0%R | S k => (rsum k g + g k)%R end.
Lemma rsum_ext n g h : (forall k, k < n -> g k = h k) -> rsum n g = rsum n h.
Proof. induction n as [|n IH]; intros H; cbn; [reflexivity|]. rewrite IH, H by (intros; try apply H; lia). reflexivity. Qed.
Lemma rsum_add n g h : rsum n (fun k => g k + h k)%R = (rsum n g + rsum n h)%R.
Proof. induction n as [|n IH]; cbn; [lra|]. rewrite IH. lra. Qed.
Lemma rsum_scal n c g : rsum n (fun k => c * g k)%R = (c * rsum n g)%R.
Proof. induction n as [|n IH]; cbn; [lra|]. rewrite IH. lra. Qed.
Definition delta (k j : nat) : R := if k =? j then 1%R else 0%R.
Lemma rsum_delta n j g : j < n -> rsum n (fun k => delta k j * g k)%R = g j.
Proof.
  induction n as [|n IH]; intros H; [lia|]. cbn. unfold delta at 2. destruct (Nat.eqb_spec n j) as [->|Hne].
  - rewrite (rsum_ext _ _ (fun k => 0 * g k)%R). { rewrite rsum_scal. lra. }
    intros k Hk. unfold delta. destruct (Nat.eqb_spec k j); [lia|reflexivity].
  - rewrite IH by lia. lra.
Qed.
Lemma nth_moved x0 j d k : j < length x0 -> nth k (moved x0 j d) 0%R = (nth k x0 0 + d * delta k j)%R.
Proof.
  intros Hj. unfold moved, delta. destruct (Nat.eqb_spec k j) as [->|Hne].
  - erewrite nth_error_nth by (apply nth_error_upd_same; assumption). lra.
  - destruct (nth_error (upd j (nth j x0 0 + d)%R x0) k) eqn:E.
    + rewrite (nth_error_nth _ _ _ E). rewrite nth_error_upd_other in E by auto. rewrite (nth_error_nth _ _ _ E). lra.
    + rewrite nth_overflow by (now apply nth_error_None). rewrite nth_error_upd_other in E by auto.
      rewrite nth_overflow by (now apply nth_error_None). lra.
Qed.

(** The map  x |-> b + A x + (x' Q_i x)_i  with [n] inputs and [m] outputs. *)
Definition linear_part (n : nat) (a : nat -> nat -> R) (x : vec) (i : nat) : R := rsum n (fun k => a i k * nth k x 0)%R.
Definition quad_part (n : nat) (q : nat -> nat -> nat -> R) (x : vec) (i : nat) : R :=
  rsum n (fun k => rsum n (fun l => q i k l * (nth k x 0 * nth l x 0)))%R.
Definition quadratic_map (n m : nat) b a q (x : vec) : option vec :=
  if length x =? n then Some (map (fun i => b i + linear_part n a x i + quad_part n q x i)%R (seq 0 m)) else None.
Definition affine_map (n m : nat) (b : nat -> R) a (x : vec) : option vec :=
  if length x =? n then Some (map (fun i => b i + linear_part n a x i)%R (seq 0 m)) else None.

Lemma affine_total n m b a : total_on (affine_map n m b a) n m.
Proof. intros v H. unfold affine_map. rewrite H, Nat.eqb_refl. eexists. split; [reflexivity|]. now rewrite map_length, seq_length. Qed.
Lemma quadratic_total n m b a q : total_on (quadratic_map n m b a q) n m.
Proof. intros v H. unfold quadratic_map. rewrite H, Nat.eqb_refl. eexists. split; [reflexivity|]. now rewrite map_length, seq_length. Qed.
Lemma nth_mapseq m g i : i < m -> nth i (map g (seq 0 m)) 0%R = g i.
Proof.
  intros H. erewrite nth_error_nth; [reflexivity|]. rewrite nth_error_map.
  rewrite (nth_error_nth' (seq 0 m) 0) by (rewrite seq_length; lia). rewrite seq_nth by lia. reflexivity.
Qed.
Lemma val_affine n m b a v i : length v = n -> i < m -> nth i (val (affine_map n m b a) v) 0%R = (b i + linear_part n a v i)%R.
Proof. intros H Hi. unfold val, affine_map. rewrite H, Nat.eqb_refl. now rewrite nth_mapseq. Qed.
Lemma val_quadratic n m b a q v i : length v = n -> i < m ->
  nth i (val (quadratic_map n m b a q) v) 0%R = (b i + linear_part n a v i + quad_part n q v i)%R.
Proof. intros H Hi. unfold val, quadratic_map. rewrite H, Nat.eqb_refl. now rewrite nth_mapseq. Qed.

Lemma linear_moved n a x0 j d i : length x0 = n -> j < n ->
  linear_part n a (moved x0 j d) i = (linear_part n a x0 i + d * a i j)%R.
Proof.
  intros H Hj. unfold linear_part.
  rewrite (rsum_ext _ _ (fun k => a i k * nth k x0 0 + delta k j * (d * a i k))%R).
  - rewrite rsum_add, rsum_delta by assumption. reflexivity.
  - intros k Hk. rewrite nth_moved by lia. lra.
Qed.
Lemma quad_moved n q x0 j d i : length x0 = n -> j < n ->
  quad_part n q (moved x0 j d) i =
  (quad_part n q x0 i + d * rsum n (fun l => (q i j l + q i l j) * nth l x0 0) + d * d * q i j j)%R.
Proof.
  intros H Hj. unfold quad_part.
  rewrite (rsum_ext _ _ (fun k => rsum n (fun l => q i k l * (nth k x0 0 * nth l x0 0))
      + (d * q i k j * nth k x0 0 + delta k j * (d * rsum n (fun l => q i k l * nth l x0 0) + d * d * q i k j)))%R).
  - rewrite rsum_add, rsum_add, rsum_delta by assumption.
    rewrite (rsum_ext n (fun k => d * q i k j * nth k x0 0)%R (fun k => d * (q i k j * nth k x0 0))%R) by (intros; ring).
    rewrite rsum_scal.
    rewrite (rsum_ext n (fun l => (q i j l + q i l j) * nth l x0 0)%R (fun l => q i j l * nth l x0 0 + q i l j * nth l x0 0)%R) by (intros; ring).
    rewrite rsum_add. ring.
  - intros k Hk.
    rewrite (rsum_ext _ _ (fun l => q i k l * (nth k x0 0 * nth l x0 0) + (d * delta k j * (q i k l * nth l x0 0)
        + delta l j * (d * q i k l * nth k x0 0 + d * d * delta k j * q i k l)))%R).
    + rewrite rsum_add, rsum_add, rsum_delta, rsum_scal by assumption. ring.
    + intros l Hl. rewrite !nth_moved by lia. ring.
Qed.

(** ---------------------------------------------------------------- C27 *)
(** Whatever the objective: jac returns one column per free dof, holding the difference quotients at the
    evaluation point, and leaves opt.x as it was. *)
Theorem C27_difference_quotients : forall f s ox x m steps,
  total_on f (length ox) m -> length (eval_point s ox x) = length ox ->
  (fd_size s = None \/ fd_size s = Some (m, length ox)) ->
  finite_difference_steps (eval_point s ox x) (fd_abs s) (fd_rel s) = inr steps ->
  exists s' J, jac f s ox x = (s', ox, Some J) /\ length J = length ox /\
    fd_size s' = Some (m, length ox) /\
    forall j, j < length ox -> nth_error J j =
      Some (quotient f m (fd_centered s) (eval_point s ox x) j (nth j steps 0%R)).
Proof.
  intros f s ox x m steps H1 H2 H3 H4. rewrite (jac_ok f s ox x m steps H1 H2 H3 H4).
  eexists _, _. split; [reflexivity|]. rewrite map_length, seq_length. split; [reflexivity|]. split; [reflexivity|].
  intros j Hj. rewrite nth_error_map. rewrite (nth_error_nth' (seq 0 _) 0) by (rewrite seq_length; lia).
  rewrite seq_nth by lia. reflexivity.
Qed.

Lemma steps_pos x a r s j : finite_difference_steps x a r = inr s -> j < length x -> (0 < nth j s 0)%R.
Proof.
  intros H Hj. destruct (C20_steps _ _ _ _ H) as [L P].
  destruct (nth_error x j) as [xj|] eqn:E; [|apply nth_error_None in E; lia].
  destruct (P j xj E) as (sj & Es & _ & Hp & _). now rewrite (nth_error_nth _ _ _ Es).
Qed.

(** Exact on affine maps, forward or centered, whatever the (valid) steps. *)
Theorem C27_exact_on_affine_maps : forall b a m s ox x steps,
  let n := length ox in let f := affine_map n m b a in
  length (eval_point s ox x) = n -> (fd_size s = None \/ fd_size s = Some (m, n)) ->
  finite_difference_steps (eval_point s ox x) (fd_abs s) (fd_rel s) = inr steps ->
  exists s' J, jac f s ox x = (s', ox, Some J) /\ length J = n /\
    forall j, j < n -> nth_error J j = Some (map (fun i => a i j) (seq 0 m)).
Proof.
  intros b a m s ox x steps n f Hx Hs Hst.
  destruct (C27_difference_quotients f s ox x m steps (affine_total n m b a) Hx Hs Hst) as (s' & J & E & L & _ & HJ).
  exists s', J. split; [assumption|]. split; [assumption|]. intros j Hj. rewrite HJ by assumption. f_equal.
  unfold quotient. apply map_ext_in. intros i Hi. apply in_seq in Hi. fold n in Hj.
  assert (P: (0 < nth j steps 0)%R) by (apply (steps_pos _ _ _ _ _ Hst); lia).
  set (x0 := eval_point s ox x) in *. unfold f.
  destruct (fd_centered s).
  - rewrite !val_affine by (rewrite ?length_moved; lia). rewrite !linear_moved by lia. field. lra.
  - rewrite !val_affine by (rewrite ?length_moved; lia). rewrite !linear_moved by lia. field. lra.
Qed.

(** Centered differences are exact on quadratic maps: column j is the partial derivative
    a_ij + sum_l (q_ijl + q_ilj) x_l. *)
Theorem C27_centered_exact_on_quadratic_maps : forall b a q m s ox x steps,
  let n := length ox in let f := quadratic_map n m b a q in
  fd_centered s = true ->
  length (eval_point s ox x) = n -> (fd_size s = None \/ fd_size s = Some (m, n)) ->
  finite_difference_steps (eval_point s ox x) (fd_abs s) (fd_rel s) = inr steps ->
  exists s' J, jac f s ox x = (s', ox, Some J) /\ length J = n /\
    forall j, j < n -> nth_error J j =
      Some (map (fun i => a i j + rsum n (fun l => (q i j l + q i l j) * nth l (eval_point s ox x) 0))%R (seq 0 m)).
Proof.
  intros b a q m s ox x steps n f Hc Hx Hs Hst.
  destruct (C27_difference_quotients f s ox x m steps (quadratic_total n m b a q) Hx Hs Hst) as (s' & J & E & L & _ & HJ).
  exists s', J. split; [assumption|]. split; [assumption|]. intros j Hj. rewrite HJ by assumption. f_equal.
  unfold quotient. rewrite Hc. apply map_ext_in. intros i Hi. apply in_seq in Hi. fold n in Hj.
  assert (P: (0 < nth j steps 0)%R) by (apply (steps_pos _ _ _ _ _ Hst); lia).
  set (x0 := eval_point s ox x) in *. unfold f.
  rewrite !val_quadratic by (rewrite ?length_moved; lia). rewrite !linear_moved, !quad_moved by lia. field. lra.
Qed.

(** A concrete case meeting the hypotheses: f(x,y) = (1 + 2x + 3y, 5x), forward and centered, at an explicit point. *)
Example C27_ex : forall c, exists s' J,
  jac (affine_map 2 2 (fun i => if i =? 0 then 1 else 0)%R (fun i k => if i =? 0 then (if k =? 0 then 2 else 3) else (if k =? 0 then 5 else 0))%R)
      (fd_new None 1 (1/2) c) [7; 8]%R (Some [0; -4]%R) = (s', [7; 8]%R, Some J) /\ J = [[2; 5]; [3; 0]]%R.
Proof.
  intros c. destruct C20_ex as (st & Hst & _).
  pose proof (C27_exact_on_affine_maps (fun i => if i =? 0 then 1 else 0)%R (fun i k => if i =? 0 then (if k =? 0 then 2 else 3) else (if k =? 0 then 5 else 0))%R 2
     (fd_new None 1 (1/2) c) [7;8]%R (Some [0;-4]%R) st eq_refl (or_introl eq_refl) Hst) as (s' & J & E & L & HJ).
  exists s', J. split; [exact E|]. cbn in L. pose proof (HJ 0 ltac:(cbn; lia)) as H0. pose proof (HJ 1 ltac:(cbn; lia)) as H1.
  destruct J as [|u [|v [|]]]; try discriminate L. cbn [nth_error map seq Nat.eqb] in H0, H1. inversion H0; inversion H1; reflexivity.
Qed.
Print Assumptions C27_difference_quotients.
Print Assumptions C27_exact_on_affine_maps.
Print Assumptions C27_centered_exact_on_quadratic_maps.

(** ---------------------------------------------------------------- C28 *)
(** Whenever the shape stored at the first evaluation is still right the Jacobian has dof_size columns
    (C27_difference_quotients).  After the number of free dofs has changed it has not: the FiniteDifference object
    keeps the shape of its first call.  A first call with two free dofs, then one of them is fixed (the objective
    becomes a function of one variable): the second call returns two columns. *)
Definition two_dofs : vec -> option vec := affine_map 2 1 (fun _ => 0)%R (fun _ _ => 1)%R.
Definition one_dof : vec -> option vec := affine_map 1 1 (fun _ => 0)%R (fun _ _ => 1)%R.
Lemma steps_ones x : exists s, finite_difference_steps x 1 0 = inr s.
Proof.
  destruct (finite_difference_steps x 1 0) as [e|s] eqn:E; [|eauto].
  exfalso. assert (H: exists e, finite_difference_steps x 1 0 = inl e) by eauto.
  apply C20_raises_exactly in H. destruct H as [?|[?|[? _]]]; lra.
Qed.

Theorem C28_stale_shape_refuted : exists s1 ox1 J1 s2 ox2 J2,
  jac two_dofs (fd_new None 1 0 false) [3; 4]%R None = (s1, ox1, Some J1) /\ length J1 = 2 /\
  jac one_dof s1 [3]%R None = (s2, ox2, Some J2) /\ length [3]%R = 1 /\ length J2 = 2.
Proof.
  destruct (steps_ones [3;4]%R) as [st Hst]. destruct (steps_ones [3]%R) as [st' Hst'].
  eexists _, _, _, _, _, _.
  split. { unfold two_dofs. apply (jac_ok _ (fd_new None 1 0 false) [3;4]%R None 1 st); [apply affine_total|reflexivity|now left|exact Hst]. }
  split; [reflexivity|].
  cbn [fd_abs fd_rel fd_centered fd_x0 fd_new eval_point length].
  unfold jac. cbn [fd_x0 fd_size fd_abs fd_rel fd_centered]. rewrite Hst'.
  assert (T: total_on one_dof 1 1) by apply affine_total.
  rewrite (eval_at_ok one_dof 1 1 T [3]%R [3]%R eq_refl eq_refl).
  destruct (forward_loop_ok one_dof 1 1 T [3]%R st' eq_refl (seq 0 (length [3]%R)) [3]%R (repeat (repeat 0%R 1) 2) eq_refl) as (ox' & Lo & Eo).
  { intros k [<-|[]]. cbn. lia. }
  rewrite Eo. unfold set_x. rewrite Lo. cbn [length Nat.eqb].
  split; [reflexivity|]. split; [reflexivity|]. apply put_length.
Qed.
Print Assumptions C28_stale_shape_refuted.

(** ---------------------------------------------------------------- C48 *)
(** jac() without argument should give the Jacobian at the current opt.x.  True until an explicit point has been
    given; afterwards it silently uses the last explicit point. *)
Theorem C48_no_argument_uses_current_x : forall f s ox m steps,
  fd_x0 s = None -> total_on f (length ox) m -> (fd_size s = None \/ fd_size s = Some (m, length ox)) ->
  finite_difference_steps ox (fd_abs s) (fd_rel s) = inr steps ->
  exists s' J, jac f s ox None = (s', ox, Some J) /\ fd_x0 s' = None /\
    forall j, j < length ox -> nth_error J j = Some (quotient f m (fd_centered s) ox j (nth j steps 0%R)).
Proof.
  intros f s ox m steps Hx Hf Hs Hst.
  assert (EP: eval_point s ox None = ox) by (unfold eval_point; now rewrite Hx).
  pose proof (jac_ok f s ox None m steps Hf ltac:(now rewrite EP) Hs ltac:(now rewrite EP)) as E. rewrite EP in E.
  eexists _, _. split; [exact E|]. split; [exact Hx|].
  intros j Hj. rewrite nth_error_map. rewrite (nth_error_nth' (seq 0 _) 0) by (rewrite seq_length; lia).
  rewrite seq_nth by lia. reflexivity.
Qed.

(** f(x) = x^2, centered: jac([1]) = 2; then opt.x := 5 and jac() gives 2 again instead of 10. *)
Definition square : vec -> option vec := quadratic_map 1 1 (fun _ => 0)%R (fun _ _ => 0)%R (fun _ _ _ => 1)%R.
Theorem C48_no_argument_uses_last_explicit_point_refuted : exists s1 s2,
  jac square (fd_new None 1 0 true) [0]%R (Some [1]%R) = (s1, [0]%R, Some [[2]]%R) /\
  jac square s1 [5]%R None = (s2, [5]%R, Some [[2]]%R).
Proof.
  destruct (steps_ones [1]%R) as [st Hst].
  assert (Q: forall J, length J = 1 -> (forall j, j < 1 -> nth_error J j =
      Some (map (fun i : nat => 0 + rsum 1 (fun l => (1 + 1) * nth l [1] 0))%R (seq 0 1))) -> J = [[2]]%R).
  { intros J L H. destruct J as [|u [|]]; try discriminate L. specialize (H 0 ltac:(lia)). cbn in H. inversion H; subst.
    do 2 f_equal. lra. }
  destruct (C27_centered_exact_on_quadratic_maps (fun _ => 0)%R (fun _ _ => 0)%R (fun _ _ _ => 1)%R 1 (fd_new None 1 0 true) [0]%R (Some [1]%R) st
     eq_refl eq_refl (or_introl eq_refl) Hst) as (s1 & J & E & L & HJ).
  pose proof E as E'. rewrite (jac_ok _ (fd_new None 1 0 true) [0]%R (Some [1]%R) 1 st) in E'; [|apply quadratic_total|reflexivity|now left|exact Hst].
  cbn [length fd_abs fd_rel fd_centered fd_new] in E'. inversion E' as [[Es1 EJ]]. clear E'.
  destruct (C27_centered_exact_on_quadratic_maps (fun _ => 0)%R (fun _ _ => 0)%R (fun _ _ _ => 1)%R 1 s1 [5]%R None st) as (s2 & J2 & E2 & L2 & HJ2);
    try (rewrite <- Es1; (reflexivity || (now right) || exact Hst)).
  exists s1, s2. split.
  - rewrite (Q J L HJ) in E. exact E.
  - rewrite (Q J2) in E2; [exact E2|exact L2|]. intros j Hj. rewrite HJ2 by exact Hj. rewrite <- Es1. reflexivity.
Qed.
Print Assumptions C48_no_argument_uses_current_x.
Print Assumptions C48_no_argument_uses_last_explicit_point_refuted.

(** ---------------------------------------------------------------- C49 *)
(** opt.x is restored only when no evaluation raises: if one does, the object keeps the displaced point. *)
Definition partial_f : vec -> option vec := fun v => match v with [a] => if Rltb 1 a then None else Some [a] | _ => None end.
Theorem C49_x_not_restored_after_exception_refuted : exists s' ox',
  jac partial_f (fd_new None 1 0 false) [1]%R None = (s', ox', None) /\ ox' <> [1]%R.
Proof.
  assert (H: Rltb 1 1 = false) by (unfold Rltb; destruct (Rlt_dec 1 1); [lra|reflexivity]).
  destruct (steps_ones [1]%R) as [st Hst].
  assert (Hs: st = [1]%R).
  { destruct (C20_steps _ _ _ _ Hst) as [L P]. destruct (P 0 1%R eq_refl) as (s0 & E & -> & _).
    destruct st as [|u [|]]; try discriminate L. cbn in E. inversion E as [E']. f_equal. rewrite Rmax_right; lra. }
  subst st.
  assert (H2: Rltb 1 (1 + 1) = true) by (unfold Rltb; destruct (Rlt_dec 1 (1+1)); [reflexivity|lra]).
  assert (F1: partial_f [1]%R = Some [1]%R) by (unfold partial_f; now rewrite H).
  assert (F2: partial_f [1 + 1]%R = None) by (unfold partial_f; now rewrite H2).
  assert (FL: forall J, forward_loop partial_f 1 [1]%R [1]%R [1]%R (seq 0 1) [1]%R J = ([1 + 1]%R, None)).
  { intros J. cbn [seq forward_loop]. unfold eval_at, set_x, moved. cbn [upd nth length Nat.eqb]. now rewrite F2. }
  exists (mkFD 1 0 false None (Some (1, 1))), [1 + 1]%R. split; [|intros E; inversion E; lra].
  unfold jac, fd_new. cbn [fd_x0 fd_size fd_abs fd_rel fd_centered]. rewrite F1. cbn [fd_x0 fd_size fd_abs fd_rel fd_centered].
  rewrite Hst. unfold eval_at at 1, set_x at 1. cbn [length Nat.eqb]. rewrite F1. rewrite FL. reflexivity.
Qed.
Print Assumptions C49_x_not_restored_after_exception_refuted.

(** ---------------------------------------------------------------- C29 *)
Lemma share_spec f n m g xs i : total_on f n m -> (forall x, In x xs -> length x = n) ->
  fst (mpi_share f m g xs i) =
  Some (map (fun j => if j mod g =? i then val f (nth j xs []) else repeat 0%R m) (seq 0 (length xs))).
Proof.
  intros Hf Hxs. unfold mpi_share. cbn [fst].
  set (N := length xs). set (mine := filter (fun j => j mod g =? i) (seq 0 N)).
  assert (G: forall js E, (forall j, In j js -> j < N) -> length E = N ->
    fold_left (fun acc j => match acc with None => None | Some E => match f (nth j xs []) with None => None | Some out => set_col m E j out end end) js (Some E)
    = Some (put (fun j => val f (nth j xs [])) E js)).
  { induction js as [|j js IH]; intros E Hj HE; [reflexivity|]. cbn [fold_left].
    assert (Lj: length (nth j xs []) = n) by (apply Hxs, nth_In; apply Hj; now left).
    destruct (val_ok f n m Hf _ Lj) as [-> Lv]. rewrite set_col_ok; [|rewrite HE; apply Hj; now left|assumption].
    rewrite IH; [reflexivity| |now rewrite length_upd]. intros k Hk; apply Hj; now right. }
  rewrite G.
  - f_equal. apply nth_error_ext. intros k. destruct (Nat.lt_ge_cases k N) as [Hk|Hk].
    + rewrite nth_error_map, (nth_error_nth' (seq 0 N) 0) by (rewrite seq_length; lia). rewrite seq_nth by lia. cbn [Nat.add option_map].
      destruct (Nat.eqb_spec (k mod g) i) as [Ek|Ek].
      * apply put_nth; [apply NoDup_filter, seq_NoDup| |now rewrite repeat_length].
        apply filter_In. split; [apply in_seq; split; [apply Nat.le_0_l|exact Hk]|]. now apply Nat.eqb_eq.
      * rewrite put_nth_other. { now apply nth_error_repeat. } intros H. apply filter_In in H. destruct H as [_ H].
        apply Nat.eqb_eq in H. contradiction.
    + transitivity (@None vec); [|symmetry]; apply nth_error_None.
      * now rewrite put_length, repeat_length.
      * rewrite map_length, seq_length. lia.
  - intros j Hj. apply filter_In in Hj. destruct Hj as [Hj _]. apply in_seq in Hj. apply Hj.
  - apply repeat_length.
Qed.

Lemma add_cols_map (A : Type) (l : list A) u v : add_cols (map u l) (map v l) = map (fun j => map (fun q => fst q + snd q)%R (combine (u j) (v j))) l.
Proof. unfold add_cols. induction l as [|a l IH]; cbn; [reflexivity|]. now rewrite IH. Qed.
Lemma add_zero_r v m : length v = m -> map (fun q => fst q + snd q)%R (combine v (repeat 0%R m)) = v.
Proof. intros <-. induction v as [|a v IH]; cbn; [reflexivity|]. rewrite IH. f_equal. lra. Qed.
Lemma add_zero_l v m : length v = m -> map (fun q => fst q + snd q)%R (combine (repeat 0%R m) v) = v.
Proof. intros <-. induction v as [|a v IH]; cbn; [reflexivity|]. rewrite IH. f_equal. lra. Qed.

Lemma reduce_shares f n m g xs : total_on f n m -> (forall x, In x xs -> length x = n) -> forall k a, 1 <= k ->
  reduce_sum (map (fun i => fst (mpi_share f m g xs i)) (seq a k)) =
  Some (map (fun j => if (a <=? j mod g) && (j mod g <? a + k) then val f (nth j xs []) else repeat 0%R m) (seq 0 (length xs))).
Proof.
  intros Hf Hxs. induction k as [|k IH]; intros a Hk; [lia|]. cbn [seq map]. destruct k as [|k].
  - cbn [seq map reduce_sum]. rewrite (share_spec f n) by assumption. f_equal. apply map_ext_in. intros j _.
    replace ((a <=? j mod g) && (j mod g <? a + 1)) with (j mod g =? a); [reflexivity|].
    destruct (Nat.eqb_spec (j mod g) a), (Nat.leb_spec a (j mod g)), (Nat.ltb_spec (j mod g) (a + 1)); cbn; lia.
  - set (t := map _ (seq (S a) (S k))) in *.
    assert (E: reduce_sum (fst (mpi_share f m g xs a) :: t) =
       match fst (mpi_share f m g xs a), reduce_sum t with Some A, Some B => Some (add_cols A B) | _, _ => None end) by reflexivity.
    rewrite E. unfold t. rewrite (share_spec f n) by assumption. rewrite IH by lia. rewrite add_cols_map. f_equal.
    apply map_ext_in. intros j Hj. apply in_seq in Hj.
    assert (Lv: length (val f (nth j xs [])) = m) by (apply (val_ok f n m Hf), Hxs, nth_In; lia).
    destruct (Nat.eqb_spec (j mod g) a) as [Ej|Ej].
    + replace ((S a <=? j mod g) && (j mod g <? S a + S k)) with false.
      2:{ symmetry. destruct (Nat.leb_spec (S a) (j mod g)); cbn; [lia|reflexivity]. }
      replace ((a <=? j mod g) && (j mod g <? a + S (S k))) with true.
      2:{ symmetry. destruct (Nat.leb_spec a (j mod g)), (Nat.ltb_spec (j mod g) (a + S (S k))); cbn; lia. }
      now apply add_zero_r.
    + replace ((a <=? j mod g) && (j mod g <? a + S (S k))) with ((S a <=? j mod g) && (j mod g <? S a + S k)).
      2:{ destruct (Nat.leb_spec a (j mod g)), (Nat.ltb_spec (j mod g) (a + S (S k))), (Nat.leb_spec (S a) (j mod g)), (Nat.ltb_spec (j mod g) (S a + S k)); cbn; lia. }
      destruct (_ && _); [now apply add_zero_l|]. apply add_zero_l. apply repeat_length.
Qed.

Lemma points_lengths c x0 steps x : In x (mpi_points c x0 steps) -> length x = length x0.
Proof.
  unfold mpi_points. destruct c.
  - intros H. apply in_flat_map in H. destruct H as (j & _ & [<-|[<-|[]]]); apply length_moved.
  - intros [<-|H]; [reflexivity|]. apply in_map_iff in H. destruct H as (j & <- & _). apply length_moved.
Qed.
Lemma points_forward x0 steps j : j < length x0 -> nth (j + 1) (mpi_points false x0 steps) [] = moved x0 j (nth j steps 0%R).
Proof.
  intros H. unfold mpi_points. rewrite Nat.add_1_r. cbn [nth]. erewrite nth_error_nth; [reflexivity|].
  rewrite nth_error_map, (nth_error_nth' (seq 0 _) 0) by (rewrite seq_length; lia). now rewrite seq_nth by lia.
Qed.
Lemma flat_map_pairs (A : Type) (u v : nat -> A) d : forall k a j, j < k ->
  nth (2 * j) (flat_map (fun i => [u i; v i]) (seq a k)) d = u (a + j) /\
  nth (2 * j + 1) (flat_map (fun i => [u i; v i]) (seq a k)) d = v (a + j).
Proof.
  induction k as [|k IH]; intros a j Hj; [lia|]. cbn [seq flat_map]. destruct j as [|j].
  - cbn. rewrite Nat.add_0_r. split; reflexivity.
  - destruct (IH (S a) j ltac:(lia)) as [H1 H2]. replace (a + S j) with (S a + j) by lia.
    replace (2 * S j) with (S (S (2 * j))) by lia. cbn [app nth Nat.add]. split; [exact H1|exact H2].
Qed.
Lemma flat_map_pairs_length (A : Type) (u v : nat -> A) l : length (flat_map (fun i => [u i; v i]) l) = 2 * length l.
Proof. induction l; cbn in *; lia. Qed.

Lemma form_ok (c : bool) (steps : vec) m nc (evals : cols) N (col : nat -> vec) :
  (forall j, j < N -> length (nth (if c then 2 * j else j + 1) evals []) = m /\ length (nth (if c then 2 * j + 1 else 0) evals []) = m) ->
  (forall j, j < N -> col j = map (fun i => ((nth i (nth (if c then 2 * j else j + 1) evals []) 0 - nth i (nth (if c then 2 * j + 1 else 0) evals []) 0)
      / (if c then 2 * nth j steps 0 else nth j steps 0))%R) (seq 0 m)) ->
  nc = N -> mpi_form c steps m nc evals N = Some (map col (seq 0 N)).
Proof.
  intros HL HC ->. unfold mpi_form. set (J0 := repeat (repeat 0%R m) N).
  rewrite <- (put_seq col N J0) by apply repeat_length.
  assert (LJ: length J0 = N) by apply repeat_length. generalize dependent J0.
  assert (Hjs: forall j, In j (seq 0 N) -> j < N) by (intros j Hj; apply in_seq in Hj; lia).
  induction (seq 0 N) as [|j js IH]; intros J LJ; [reflexivity|]. cbn [fold_left].
  assert (Hj: j < N) by (apply Hjs; now left). destruct (HL j Hj) as [L1 L2]. specialize (HC j Hj) as C1.
  assert (E: (if c then np2 Rminus (nth (2 * j) evals []) (nth (2 * j + 1) evals []) else np2 Rminus (nth (j + 1) evals []) (nth 0 evals []))
      = Some (map (fun i => nth i (nth (if c then 2 * j else j + 1) evals []) 0 - nth i (nth (if c then 2 * j + 1 else 0) evals []) 0)%R (seq 0 m))).
  { destruct c; rewrite np2_same by congruence; rewrite L1; reflexivity. }
  rewrite E. rewrite map_map, <- C1.
  assert (LC: length (col j) = m) by (rewrite C1; now rewrite map_length, seq_length).
  rewrite set_col_ok; [|eapply Nat.lt_le_trans; [exact Hj|apply Nat.eq_le_incl; symmetry; exact LJ]|exact LC].
  apply IH; [intros k Hk; apply Hjs; now right|now rewrite length_upd].
Qed.

(** The distributed computation gives the difference quotients of the serial algorithm, for every number of groups. *)
Lemma mpi_core_ok f g c a r m x0 steps : 1 <= g -> total_on f (length x0) m ->
  finite_difference_steps x0 a r = inr steps ->
  mpi_jac_core f g c a r m (length x0) x0 = Some (map (fun j => quotient f m c x0 j (nth j steps 0%R)) (seq 0 (length x0))).
Proof.
  intros Hg Hf Hst. unfold mpi_jac_core. rewrite Hst.
  rewrite (reduce_shares f (length x0) m g _ Hf (points_lengths c x0 steps) g 0 Hg).
  set (xs := mpi_points c x0 steps). set (n := length x0) in *.
  assert (EV: forall k, k < length xs -> nth k (map (fun j => if (0 <=? j mod g) && (j mod g <? 0 + g) then val f (nth j xs []) else repeat 0%R m) (seq 0 (length xs))) []
      = val f (nth k xs [])).
  { intros k Hk. erewrite nth_error_nth; [reflexivity|]. rewrite nth_error_map, (nth_error_nth' (seq 0 _) 0) by (rewrite seq_length; lia).
    rewrite seq_nth by lia. cbn [Nat.add option_map]. pose proof (Nat.mod_upper_bound k g ltac:(lia)).
    replace (_ && _) with true; [reflexivity|]. symmetry. destruct (Nat.leb_spec 0 (k mod g)), (Nat.ltb_spec (k mod g) g); cbn; lia. }
  assert (LV: forall k, k < length xs -> length (val f (nth k xs [])) = m).
  { intros k Hk. apply (val_ok f n m Hf). apply (points_lengths c x0 steps). now apply nth_In. }
  apply form_ok; [| |reflexivity].
  - intros j Hj. destruct c.
    + assert (Lx: length xs = 2 * n) by (unfold xs, mpi_points; rewrite flat_map_pairs_length, seq_length; reflexivity).
      rewrite !EV by lia. split; apply LV; lia.
    + assert (Lx: length xs = S n) by (unfold xs, mpi_points; cbn [length]; rewrite map_length, seq_length; reflexivity).
      rewrite !EV by lia. split; apply LV; lia.
  - intros j Hj. unfold quotient. apply map_ext. intros i. destruct c.
    + assert (Lx: length xs = 2 * n) by (unfold xs, mpi_points; rewrite flat_map_pairs_length, seq_length; reflexivity).
      rewrite !EV by lia.
      destruct (flat_map_pairs _ (fun j => moved x0 j (nth j steps 0%R)) (fun j => moved x0 j (- nth j steps 0%R)%R) [] n 0 j Hj) as [H1 H2].
      cbn [Nat.add] in H1, H2. unfold xs, mpi_points. fold n. rewrite H1, H2. reflexivity.
    + assert (Lx: length xs = S n) by (unfold xs, mpi_points; cbn [length]; rewrite map_length, seq_length; reflexivity).
      rewrite !EV by lia. unfold xs. rewrite points_forward by assumption. reflexivity.
Qed.

Theorem C29_distributed_equals_serial : forall f ngroups s ox x0 m steps, 1 <= ngroups ->
  total_on f (length ox) m -> length x0 = length ox ->
  (fd_size s = None \/ fd_size s = Some (m, length ox)) ->
  finite_difference_steps x0 (fd_abs s) (fd_rel s) = inr steps ->
  exists s' J, jac f s ox (Some x0) = (s', ox, Some J) /\
    mpi_jac_core f ngroups (fd_centered s) (fd_abs s) (fd_rel s) m (length x0) x0 = Some J.
Proof.
  intros f g s ox x0 m steps Hg Hf Hx Hs Hst.
  pose proof (jac_ok f s ox (Some x0) m steps Hf Hx Hs Hst) as E. cbn [eval_point] in E.
  eexists _, _. split; [exact E|]. rewrite <- Hx. apply mpi_core_ok; [assumption|now rewrite Hx|assumption].
Qed.

Lemma filter_split_perm (h : nat -> nat) k l :
  Permutation (filter (fun j => h j <? k) l ++ filter (fun j => h j =? k) l) (filter (fun j => h j <? S k) l).
Proof.
  induction l as [|x l IH]; cbn; [constructor|].
  destruct (Nat.ltb_spec (h x) k), (Nat.eqb_spec (h x) k), (Nat.ltb_spec (h x) (S k)); try lia; cbn.
  - now constructor.
  - rewrite <- Permutation_middle. now constructor.
  - assumption.
Qed.
Lemma shares_perm (h : nat -> nat) l k : Permutation (flat_map (fun i => filter (fun j => h j =? i) l) (seq 0 k)) (filter (fun j => h j <? k) l).
Proof.
  induction k as [|k IH].
  - cbn. induction l as [|x l IHl]; cbn; [constructor|exact IHl].
  - rewrite seq_S, flat_map_app. cbn [flat_map Nat.add]. rewrite app_nil_r. rewrite IH. apply filter_split_perm.
Qed.

Lemma filter_all (h : nat -> bool) l : (forall j, In j l -> h j = true) -> filter h l = l.
Proof.
  induction l as [|j l IH]; intros H; cbn [filter]; [reflexivity|]. rewrite H by now left. f_equal. apply IH. intros; apply H; now right.
Qed.

(** Every evaluation point is evaluated by exactly one group, once. *)
Theorem C29_each_point_evaluated_once : forall f m ngroups xs, 1 <= ngroups ->
  Permutation (flat_map (fun i => snd (mpi_share f m ngroups xs i)) (seq 0 ngroups)) xs.
Proof.
  intros f m g xs Hg. unfold mpi_share. cbn [snd].
  assert (E: forall l, flat_map (fun i => map (fun j => nth j xs []) (filter (fun j => j mod g =? i) (seq 0 (length xs)))) l
    = map (fun j => nth j xs []) (flat_map (fun i => filter (fun j => j mod g =? i) (seq 0 (length xs))) l)).
  { induction l as [|i l IH]; cbn; [reflexivity|]. now rewrite map_app, IH. }
  rewrite E. rewrite (Permutation_map _ (shares_perm (fun j => j mod g) (seq 0 (length xs)) g)).
  assert (F: filter (fun j => j mod g <? g) (seq 0 (length xs)) = seq 0 (length xs)).
  { apply filter_all. intros j _. apply Nat.ltb_lt, Nat.mod_upper_bound. lia. }
  rewrite F. replace (map (fun j => nth j xs []) (seq 0 (length xs))) with xs; [reflexivity|].
  apply nth_error_ext. intros i. destruct (Nat.lt_ge_cases i (length xs)) as [Hi|Hi].
  - rewrite nth_error_map, (nth_error_nth' (seq 0 _) 0) by (rewrite seq_length; lia). rewrite seq_nth by lia. cbn. now apply nth_error_nth'.
  - transitivity (@None vec); [|symmetry]; apply nth_error_None; [assumption|]. rewrite map_length, seq_length. assumption.
Qed.

Example C29_ex : total_on two_dofs (length [3;4]%R) 1 /\ (exists st, finite_difference_steps [3;4]%R 1 0 = inr st) /\
  map (fun i => length (snd (mpi_share two_dofs 1 3 (repeat [3;4]%R 5) i))) [0;1;2] = [2;2;1].
Proof. split; [apply affine_total|]. split; [apply steps_ones|reflexivity]. Qed.
Print Assumptions C29_distributed_equals_serial.
Print Assumptions C29_each_point_evaluated_once.

(** ---------------------------------------------------------------- C50 *)
(** The Jacobian at a point, as a specification: difference quotients with the steps of that point. *)
Definition is_jacobian (f : vec -> option vec) (m : nat) (c : bool) (a r : R) (x : vec) (J : cols) : Prop :=
  exists steps, finite_difference_steps x a r = inr steps /\
    J = map (fun j => quotient f m c x j (nth j steps 0%R)) (seq 0 (length x)).
(** The cached matrix, if stored together with a point, is the Jacobian at that point; the stored shape is right. *)
Definition cache_coherent f n m (s : mfd) : Prop :=
  (m_size s = None \/ m_size s = Some (m, n)) /\
  (forall v J, m_xcache s = Some v -> m_jcache s = Some J -> is_jacobian f m (m_centered s) (m_abs s) (m_rel s) v J).

Lemma np_all_eq_some u v : np_all_eq (Some u) (Some v) = true -> u = v.
Proof.
  unfold np_all_eq. rewrite andb_true_iff. intros [HL HF]. apply Nat.eqb_eq in HL. revert v HL HF.
  induction u as [|a u IH]; intros [|b v] HL HF; try discriminate; [reflexivity|]. cbn in HF.
  apply andb_true_iff in HF. destruct HF as [H1 H2]. unfold Reqb in H1. destruct (Req_EM_T a b); [|discriminate].
  f_equal; [assumption|]. apply IH; [cbn in HL; lia|assumption].
Qed.

(** With an explicit point the result is always the Jacobian at that point, opt.x afterwards is that point when the
    matrix was recomputed, and coherence of the cache is kept; so this holds along any sequence of such calls. *)
Theorem C50_explicit_point_is_never_stale : forall f ngroups s ox x m steps, 1 <= ngroups -> 1 <= length ox ->
  total_on f (length ox) m -> length x = length ox -> cache_coherent f (length ox) m s ->
  finite_difference_steps x (m_abs s) (m_rel s) = inr steps ->
  exists s' ox' J, mpi_jac f ngroups s ox (Some x) = (s', ox', Some J) /\
    is_jacobian f m (m_centered s) (m_abs s) (m_rel s) x J /\ cache_coherent f (length ox) m s' /\
    (ox' = x \/ ox' = ox) /\ m_centered s' = m_centered s /\ m_abs s' = m_abs s /\ m_rel s' = m_rel s.
Proof.
  intros f g s ox x m steps Hg Hn Hf Hx [Hsz Hc] Hst. unfold mpi_jac.
  destruct (np_all_eq (Some x) (m_xcache s)) eqn:EQ.
  - destruct (m_xcache s) as [v|] eqn:EX.
    2:{ exfalso. cbn in EQ. apply Nat.eqb_eq in EQ. lia. }
    apply np_all_eq_some in EQ. subst v. destruct (m_jcache s) as [J|] eqn:EJ.
    + exists s, ox, J. split; [reflexivity|]. split; [now apply Hc|]. split; [|auto 6]. split; [assumption|].
      intros v J' Hv HJ'. rewrite EX in Hv. rewrite EJ in HJ'. inversion Hv; inversion HJ'; subst. now apply Hc.
    + (* same as below *)
      assert (R: is_jacobian f m (m_centered s) (m_abs s) (m_rel s) x (map (fun j => quotient f m (m_centered s) x j (nth j steps 0%R)) (seq 0 (length x))))
        by (exists steps; split; [assumption|reflexivity]).
      destruct Hsz as [Hsz|Hsz]; rewrite Hsz.
      * rewrite (eval_at_ok f _ m Hf ox x eq_refl Hx). unfold set_x. rewrite Nat.eqb_refl.
        destruct (val_ok f _ m Hf x Hx) as [_ Lv]. rewrite Lv.
        cbn [m_centered m_abs m_rel m_x0]. rewrite (mpi_core_ok f g _ _ _ m x steps Hg ltac:(now rewrite Hx) Hst).
        eexists _, _, _. split; [reflexivity|]. split; [exact R|]. split; [|cbn; auto 6]. split; [right; cbn; now rewrite Hx|].
        cbn. intros v J Hv HJ. inversion Hv; inversion HJ; subst. exact R.
      * unfold set_x. rewrite Hx, Nat.eqb_refl. pose proof (mpi_core_ok f g (m_centered s) _ _ m x steps Hg ltac:(now rewrite Hx) Hst) as K.
        rewrite Hx in K. rewrite K. rewrite Hx in R.
        eexists _, _, _. split; [reflexivity|]. split; [exact R|]. split; [|cbn; auto 6]. split; [right; reflexivity|].
        cbn. intros v J Hv HJ. inversion Hv; inversion HJ; subst. exact R.
  - assert (R: is_jacobian f m (m_centered s) (m_abs s) (m_rel s) x (map (fun j => quotient f m (m_centered s) x j (nth j steps 0%R)) (seq 0 (length x))))
        by (exists steps; split; [assumption|reflexivity]).
    destruct Hsz as [Hsz|Hsz]; rewrite Hsz.
    * rewrite (eval_at_ok f _ m Hf ox x eq_refl Hx). unfold set_x. rewrite Nat.eqb_refl.
      destruct (val_ok f _ m Hf x Hx) as [_ Lv]. rewrite Lv.
      cbn [m_centered m_abs m_rel m_x0]. rewrite (mpi_core_ok f g _ _ _ m x steps Hg ltac:(now rewrite Hx) Hst).
      eexists _, _, _. split; [reflexivity|]. split; [exact R|]. split; [|cbn; auto 6]. split; [right; cbn; now rewrite Hx|].
      cbn. intros v J Hv HJ. inversion Hv; inversion HJ; subst. exact R.
    * unfold set_x. rewrite Hx, Nat.eqb_refl. pose proof (mpi_core_ok f g (m_centered s) _ _ m x steps Hg ltac:(now rewrite Hx) Hst) as K.
      rewrite Hx in K. rewrite K. rewrite Hx in R.
      eexists _, _, _. split; [reflexivity|]. split; [exact R|]. split; [|cbn; auto 6]. split; [right; reflexivity|].
      cbn. intros v J Hv HJ. inversion Hv; inversion HJ; subst. exact R.
Qed.

(** jac() without argument is cached too, under the key None: after opt.x has moved the old matrix is returned.
    f(x) = x^2, one group: a first jac() at x=1, then opt.x := 2 and jac() gives 4, then opt.x := 5 and jac() gives
    4 again although the derivative is 10. *)
Definition mfd0 : mfd := mkMFD 1 0 true [1]%R None None None.
Lemma square_jac x : mpi_jac_core square 1 true 1 0 1 1 [x] = Some [[2 * x]]%R.
Proof.
  destruct (steps_ones [x]) as [st Hst].
  pose proof (mpi_core_ok square 1 true 1 0 1 [x] st ltac:(lia) (quadratic_total _ _ _ _ _) Hst) as K. cbn [length] in K.
  rewrite K. cbn [seq map]. f_equal. f_equal. unfold quotient. cbn [seq map]. f_equal.
  assert (P: (0 < nth 0 st 0)%R) by (apply (steps_pos _ _ _ _ _ Hst); cbn; lia).
  unfold square. rewrite !val_quadratic by (rewrite ?length_moved; cbn; lia). rewrite !linear_moved, !quad_moved by (cbn; lia).
  cbn. field. lra.
Qed.
Theorem C50_no_argument_is_stale_refuted : exists s1 s2,
  mpi_jac square 1 mfd0 [1]%R None = (s1, [1]%R, Some [[2 * 1]]%R) /\
  mpi_jac square 1 s1 [2]%R None = (s2, [2]%R, Some [[2 * 2]]%R) /\
  mpi_jac square 1 s2 [5]%R None = (s2, [5]%R, Some [[2 * 2]]%R).
Proof.
  exists (mkMFD 1 0 true [1]%R (Some (1, 1)) (Some [1]%R) (Some [[2 * 1]]%R)),
         (mkMFD 1 0 true [1]%R (Some (1, 1)) None (Some [[2 * 2]]%R)).
  assert (L: forall v, length v = 1 -> length (val square v) = 1 /\ square v = Some (val square v)).
  { intros v Hv. destruct (val_ok square 1 1 (quadratic_total _ _ _ _ _) v Hv). now split. }
  split; [|split].
  - unfold mpi_jac. cbn [mfd0 np_all_eq m_xcache m_jcache m_size m_x0].
    rewrite (eval_at_ok square 1 1 (quadratic_total _ _ _ _ _) [1]%R [1]%R eq_refl eq_refl).
    destruct (L [1]%R eq_refl) as [-> _]. cbn [length]. unfold set_x. cbn [length Nat.eqb m_centered m_abs m_rel m_x0].
    rewrite square_jac. reflexivity.
  - unfold mpi_jac. cbn [np_all_eq m_xcache m_jcache m_size m_x0 length Nat.eqb m_centered m_abs m_rel].
    rewrite square_jac. reflexivity.
  - reflexivity.
Qed.
Example C50_ex : cache_coherent square 1 1 mfd0 /\ total_on square 1 1.
Proof. split; [|apply quadratic_total]. split; [now left|]. cbn. discriminate. Qed.
Print Assumptions C50_explicit_point_is_never_stale.
Print Assumptions C50_no_argument_is_stale_refuted.
