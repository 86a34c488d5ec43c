(** C112: SurfaceXYZTensorFourier: dofs, derivatives, Jacobians, symmetries, clamping. *)
From Coq Require Import Reals Lra Lia List Bool.
From Verif Require Import VecAux Vec3 BSModel BSDeriv BSVjp SurfGeomProps CurveObjModel CurveObjProps BoozSurf BoozProps TensorModel.
Import ListNotations.
Open Scope R_scope.

(** ** Slots *)
Lemma NoDup_flat_map {A B} (f : A -> list B) l : NoDup l -> (forall x, In x l -> NoDup (f x)) -> (forall x y z, In x l -> In y l -> In z (f x) -> In z (f y) -> x = y) -> NoDup (flat_map f l).
Proof.
  intros N. induction l as [|a l IH]; intros F I; cbn; [constructor|]. inversion N; subst. apply SurfProps.NoDup_app2.
  - apply F; now left.
  - apply IH; [assumption|intros; apply F; now right|]. intros x y z Hx Hy. apply I; now right.
  - intros z Z1 Z2. apply in_flat_map in Z2. destruct Z2 as (b & Hb & Zb). assert (a = b) by (apply (I a b z); auto; [now left|now right]). now subst.
Qed.
Definition is_slot (s : tsurf) (d m n : nat) : Prop := (d < 3)%nat /\ (m <= 2 * mpol s)%nat /\ (n <= 2 * ntor s)%nat /\ skip s d m n = false.
Lemma in_slots s d m n : In (d, m, n) (slots s) <-> is_slot s d m n.
Proof.
  unfold slots, is_slot. split.
  - intros H. apply in_flat_map in H. destruct H as (d' & Hd & H). apply in_flat_map in H. destruct H as (m' & Hm & H). apply in_flat_map in H. destruct H as (n' & Hn & H).
    apply in_seq in Hd, Hm, Hn. destruct (skip s d' m' n') eqn:E; [contradiction|]. destruct H as [H|[]]. injection H as <- <- <-. repeat split; try lia; exact E.
  - intros (Hd & Hm & Hn & E). apply in_flat_map. exists d. split; [apply in_seq; lia|]. apply in_flat_map. exists m. split; [apply in_seq; lia|]. apply in_flat_map. exists n. split; [apply in_seq; lia|]. rewrite E. now left.
Qed.
Lemma slots_nodup s : NoDup (slots s).
Proof.
  assert (A : forall d m n x, In x (if skip s d m n then [] else [(d, m, n)]) -> x = (d, m, n)) by (intros d m n x; destruct (skip s d m n); cbn; intuition).
  unfold slots. apply NoDup_flat_map; [apply seq_NoDup| |].
  - intros d _. apply NoDup_flat_map; [apply seq_NoDup| |].
    + intros m _. apply NoDup_flat_map; [apply seq_NoDup| |].
      * intros n _. destruct (skip s d m n); repeat constructor; auto.
      * intros n n' z _ _ H1 H2. apply A in H1, H2. congruence.
    + intros m m' z _ _ H1 H2. apply in_flat_map in H1, H2. destruct H1 as (n & _ & H1), H2 as (n' & _ & H2). apply A in H1, H2. congruence.
  - intros d d' z _ _ H1 H2. apply in_flat_map in H1, H2. destruct H1 as (m & _ & H1), H2 as (m' & _ & H2). apply in_flat_map in H1, H2. destruct H1 as (n & _ & H1), H2 as (n' & _ & H2). apply A in H1, H2. congruence.
Qed.
Lemma length_flat_map_const {A B} (f : A -> list B) l k : (forall x, In x l -> length (f x) = k) -> length (flat_map f l) = (length l * k)%nat.
Proof. intros H. induction l as [|a l IH]; [reflexivity|]. cbn. rewrite app_length, H, IH by (try (now left); intros; apply H; now right). reflexivity. Qed.
Lemma flat_two {B} (f : nat -> list B) a i j : (forall x, (x <= a)%nat -> length (f x) = i) -> (forall x, (a < x)%nat -> length (f x) = j) -> length (flat_map f (seq 0 (2 * a + 1))) = ((a + 1) * i + a * j)%nat.
Proof.
  intros H1 H2. replace (2 * a + 1)%nat with ((a + 1) + a)%nat by lia. rewrite seq_app, flat_map_app, app_length.
  rewrite (length_flat_map_const f (seq 0 (a + 1)) i), (length_flat_map_const f (seq (0 + (a + 1)) a) j), !seq_length; [lia| |]; intros x Hx; apply in_seq in Hx; [apply H2|apply H1]; lia.
Qed.
Theorem C112_num_dofs (s : tsurf) : length (slots s) = num_dofs s /\ length (get_dofs s) = num_dofs s.
Proof.
  assert (E : length (slots s) = num_dofs s); [|split; [exact E|unfold get_dofs; now rewrite map_length]].
  unfold slots, num_dofs.
  assert (L : forall d m, length (flat_map (fun n => if skip s d m n then [] else [(d, m, n)]) (seq 0 (2 * ntor s + 1))) =
    if stellsym s then (match d with 0 => if (m <=? mpol s) then ntor s + 1 else ntor s | _ => if (m <=? mpol s) then ntor s else ntor s + 1 end)%nat else (2 * ntor s + 1)%nat).
  { intros d m. unfold skip. destruct (stellsym s).
    - set (b := (m <=? mpol s)%nat). assert (Eb : (mpol s <? m)%nat = negb b) by (unfold b; rewrite Nat.leb_antisym, negb_involutive; reflexivity). rewrite Eb. clearbody b.
      set (i := match d with 0%nat => if b then 1%nat else 0%nat | _ => if b then 0%nat else 1%nat end). set (j := match d with 0%nat => if b then 0%nat else 1%nat | _ => if b then 1%nat else 0%nat end).
      rewrite (flat_two _ (ntor s) i j).
      + unfold i, j. destruct d, b; lia.
      + intros x Hx. rewrite (proj2 (Nat.leb_le x (ntor s)) Hx), (proj2 (Nat.ltb_ge (ntor s) x) Hx). unfold i. destruct d, b; reflexivity.
      + intros x Hx. rewrite (proj2 (Nat.leb_gt x (ntor s)) Hx), (proj2 (Nat.ltb_lt (ntor s) x) Hx). unfold j. destruct d, b; reflexivity.
    - rewrite (length_flat_map_const _ _ 1); [rewrite seq_length; lia|reflexivity]. }
  cbn [seq flat_map]. rewrite app_nil_r, !app_length.
  destruct (stellsym s).
  - rewrite (flat_two _ (mpol s) (ntor s + 1) (ntor s)), (flat_two _ (mpol s) (ntor s) (ntor s + 1)), (flat_two _ (mpol s) (ntor s) (ntor s + 1)); [lia|..];
      intros x Hx; rewrite L; first [rewrite (proj2 (Nat.leb_le x (mpol s)) Hx)|rewrite (proj2 (Nat.leb_gt x (mpol s)) Hx)]; reflexivity.
  - rewrite !(length_flat_map_const _ _ (2 * ntor s + 1)) by (intros; apply L). rewrite seq_length. lia.
Qed.

(** ** set_dofs and get_dofs *)
Definition at3 (f : nat -> nat -> nat -> R) (x : nat * nat * nat) : R := let '(d, m, n) := x in f d m n.
Lemma put_same f x a : at3 (put f x a) x = a.
Proof. destruct x as [[d m] n]. unfold put. cbn. now rewrite !Nat.eqb_refl. Qed.
Lemma put_other f x a y : x <> y -> at3 (put f x a) y = at3 f y.
Proof.
  intros NE. destruct x as [[d m] n], y as [[d' m'] n']. unfold put. cbn [at3 fst snd]. destruct (Nat.eqb_spec d' d), (Nat.eqb_spec m' m), (Nat.eqb_spec n' n); cbn [andb]; try reflexivity. congruence.
Qed.
Lemma set_loop_other dofs sl y : ~ In y sl -> forall c f, at3 (set_loop dofs sl c f) y = at3 f y.
Proof. induction sl as [|x sl IH]; intros NI c f; [reflexivity|]. cbn [set_loop]. rewrite IH by (intros H; apply NI; now right). apply put_other. intros ->. apply NI. now left. Qed.
Lemma set_loop_slot dofs sl : NoDup sl -> forall c f i dflt, (i < length sl)%nat -> at3 (set_loop dofs sl c f) (nth i sl dflt) = nth (c + i) dofs 0.
Proof.
  induction sl as [|x sl IH]; intros ND c f i dflt L; [cbn in L; lia|]. inversion ND as [|? ? NI ND']; subst. destruct i as [|i]; cbn [set_loop nth].
  - rewrite set_loop_other, put_same by assumption. now rewrite Nat.add_0_r.
  - cbn in L. rewrite IH by (auto; lia). now rewrite Nat.add_succ_r.
Qed.
Lemma nth_map_in {A} (f : A -> R) l i dflt : (i < length l)%nat -> nth i (map f l) 0 = f (nth i l dflt).
Proof. intros L. rewrite (nth_indep _ 0 (f dflt)) by (now rewrite map_length). apply map_nth. Qed.
Theorem C112_set_then_get (s : tsurf) (x : list R) : length x = num_dofs s -> get_dofs (set_dofs s x) = x.
Proof.
  intros L. destruct (C112_num_dofs s) as [E _]. unfold get_dofs. change (slots (set_dofs s x)) with (slots s). apply (nth_ext _ _ 0 0); [rewrite map_length; congruence|].
  intros i Hi. rewrite map_length in Hi. rewrite (nth_map_in _ _ i (0, 0, 0)%nat) by exact Hi.
  exact (set_loop_slot x (slots s) (slots_nodup s) 0 (coef s) i (0, 0, 0)%nat Hi).
Qed.
Theorem C112_get_then_set (s : tsurf) (d m n : nat) : coef (set_dofs s (get_dofs s)) d m n = coef s d m n.
Proof.
  assert (dec : forall a b : nat * nat * nat, {a = b} + {a <> b}) by (repeat decide equality). destruct (in_dec dec (d, m, n) (slots s)) as [I|I].
  - apply (In_nth _ _ (0, 0, 0)%nat) in I. destruct I as (i & Li & E). change (at3 (coef (set_dofs s (get_dofs s))) (d, m, n) = at3 (coef s) (d, m, n)). rewrite <- E.
    unfold set_dofs. cbn [coef]. rewrite (set_loop_slot _ _ (slots_nodup s)) by exact Li. cbn [Nat.add]. unfold get_dofs.
    now rewrite (nth_map_in _ _ i (0, 0, 0)%nat) by exact Li.
  - exact (set_loop_other (get_dofs s) (slots s) (d, m, n) I 0 (coef s)).
Qed.
(** ** Linearity: the sums over the modes as sums over the dofs *)
Lemma flat_sum {A B} (f : A -> list B) (g : B -> R) l : rsuml (map g (flat_map f l)) = rsuml (map (fun a => rsuml (map g (f a))) l).
Proof. induction l as [|a l IH]; [reflexivity|]. cbn [flat_map map rsuml]. rewrite map_app, rsuml_app, IH. reflexivity. Qed.
Definition slot_sum (s : tsurf) (g : nat -> nat -> nat -> R) : R := rsuml (map (fun x => let '(d, m, n) := x in coef s d m n * g d m n) (slots s)).
Lemma slot_sum_eq s g : slot_sum s g = sum_to 3 (fun d => sum_to (2 * mpol s + 1) (fun m => sum_to (2 * ntor s + 1) (fun n => get_coeff s d m n * g d m n))).
Proof.
  unfold slot_sum, slots, sum_to. rewrite flat_sum. apply rsuml_map_ext. intros d _. rewrite flat_sum. apply rsuml_map_ext. intros m _. rewrite flat_sum. apply rsuml_map_ext. intros n _.
  unfold get_coeff. destruct (skip s d m n); cbn; ring.
Qed.
Lemma slot_sum_pick s (b : nat -> nat -> nat -> R -> R -> R) k p t a : (k < 3)%nat -> slot_sum s (fun d m n => a * pick d k (b d n m p t)) = a * hat s b k p t.
Proof.
  intros K. rewrite slot_sum_eq. unfold hat.
  assert (Z : forall d, (d =? k)%nat = false -> sum_to (2 * mpol s + 1) (fun m => sum_to (2 * ntor s + 1) (fun n => get_coeff s d m n * (a * pick d k (b d n m p t)))) = 0).
  { intros d E. unfold pick. rewrite E. rewrite (sum_to_ext _ _ (fun m => 0 * 0)); [rewrite sum_to_scal; ring|]. intros m _. rewrite (sum_to_ext _ _ (fun n => 0 * 0)); [rewrite sum_to_scal; ring|]. intros; ring. }
  assert (P : sum_to (2 * mpol s + 1) (fun m => sum_to (2 * ntor s + 1) (fun n => get_coeff s k m n * (a * pick k k (b k n m p t)))) = a * sum_to (2 * mpol s + 1) (fun m => sum_to (2 * ntor s + 1) (fun n => get_coeff s k m n * b k n m p t))).
  { rewrite <- sum_to_scal. apply sum_to_ext. intros m _. rewrite <- sum_to_scal. apply sum_to_ext. intros n _. unfold pick. rewrite Nat.eqb_refl. ring. }
  unfold sum_to at 1. cbn [seq map rsuml]. destruct k as [|[|[|k]]]; [| | |lia]; rewrite P, !Z by reflexivity; ring.
Qed.
Lemma slot_sum_add s f g : slot_sum s (fun d m n => f d m n + g d m n) = slot_sum s f + slot_sum s g.
Proof. unfold slot_sum. rewrite <- rsuml_map_plus. apply rsuml_map_ext. intros [[d m] n] _. ring. Qed.
Lemma slot_sum_ext s f g : (forall d m n, f d m n = g d m n) -> slot_sum s f = slot_sum s g.
Proof. intros H. apply rsuml_map_ext. intros [[d m] n] _. now rewrite H. Qed.
(** the sum over the dofs as the API user writes it *)
Definition contract (x : list R) (cols : list vec3) : vec3 := sumv (length x) (fun k => scal3 (nth k x 0) (nth k cols v0)).
Lemma rsuml_combine (l : list (nat * nat * nat)) (f g : nat * nat * nat -> R) : sum_to (length l) (fun k => nth k (map f l) 0 * nth k (map g l) 0) = rsuml (map (fun x => f x * g x) l).
Proof.
  induction l as [|a l IH]; [reflexivity|]. cbn [length]. unfold sum_to. cbn [seq map rsuml nth]. f_equal. rewrite <- seq_shift, map_map. rewrite <- IH. reflexivity.
Qed.
Lemma contract_slots s c q1 q2 : contract (get_dofs s) (by_dcoeff s c q1 q2) =
  V3 (slot_sum s (fun d m n => vx (c d m n (ang q1) (ang q2)))) (slot_sum s (fun d m n => vy (c d m n (ang q1) (ang q2)))) (slot_sum s (fun d m n => vz (c d m n (ang q1) (ang q2)))).
Proof.
  unfold contract, sumv, get_dofs, by_dcoeff. rewrite map_length.
  assert (E : forall (pr : vec3 -> R), pr v0 = 0 -> sum_to (length (slots s)) (fun k => nth k (map (fun x => let '(d, m, n) := x in coef s d m n) (slots s)) 0 * pr (nth k (map (fun x => let '(d, m, n) := x in c d m n (ang q1) (ang q2)) (slots s)) v0))
     = slot_sum s (fun d m n => pr (c d m n (ang q1) (ang q2)))).
  { intros pr P0. unfold slot_sum. rewrite (map_ext (fun x : nat * nat * nat => let '(d, m, n) := x in coef s d m n * pr (c d m n (ang q1) (ang q2))) (fun x => (let '(d, m, n) := x in coef s d m n) * (let '(d, m, n) := x in pr (c d m n (ang q1) (ang q2))))) by (intros [[d m] n]; reflexivity).
    rewrite <- rsuml_combine. apply sum_to_ext. intros k _. f_equal. rewrite <- P0 at 1. rewrite <- (map_nth pr), map_map. rewrite P0. f_equal. apply map_ext. intros [[d m] n]. reflexivity. }
  apply v3_eq; cbn [vx vy vz]; [apply (E vx eq_refl)|apply (E vy eq_refl)|apply (E vz eq_refl)].
Qed.
(** cached and uncached basis functions *)
Lemma nb_cb s d n m p t : nb s d n m p t = cb s d n m p t /\ nb_p s d n m p t = cb_p s d n m p t /\ nb_t s d n m p t = cb_t s d n m p t /\ nb_tp s d n m p t = cb_tp s d n m p t /\ nb_tt s d n m p t = cb_tt s d n m p t.
Proof. unfold nb, nb_p, nb_t, nb_tp, nb_tt, cb, cb_p, cb_t, cb_tp, cb_tt, on. destruct (enforced s d n m); repeat split; ring. Qed.
Lemma hat_ext s b b' d p t : (forall n m, b d n m p t = b' d n m p t) -> hat s b d p t = hat s b' d p t.
Proof. intros H. unfold hat. apply sum_to_ext. intros m _. apply sum_to_ext. intros n _. now rewrite H. Qed.
Lemma hat_cb s d p t : hat s (cb s) d p t = hat s (nb s) d p t /\ hat s (cb_p s) d p t = hat s (nb_p s) d p t /\ hat s (cb_t s) d p t = hat s (nb_t s) d p t /\
  hat s (cb_tp s) d p t = hat s (nb_tp s) d p t /\ hat s (cb_tt s) d p t = hat s (nb_tt s) d p t.
Proof. repeat split; apply hat_ext; intros n m; symmetry; apply nb_cb. Qed.
Definition hat_0 s d p t := proj1 (hat_cb s d p t).
Definition hat_p s d p t := proj1 (proj2 (hat_cb s d p t)).
Definition hat_t s d p t := proj1 (proj2 (proj2 (hat_cb s d p t))).
Definition hat_tp s d p t := proj1 (proj2 (proj2 (proj2 (hat_cb s d p t)))).
Definition hat_tt s d p t := proj2 (proj2 (proj2 (proj2 (hat_cb s d p t)))).
