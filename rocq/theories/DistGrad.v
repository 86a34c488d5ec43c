(** C74: the gradient of CurveCurveDistance, symmetric coils, and C75: CurveSurfaceDistance. *)
From Coq Require Import Reals Lra Lia ZArith List Bool Permutation Ranalysis1.
From Verif Require Import ListAux VecAux Vec3 BSModel BSDeriv BSVjp PenaltyModel SurfProps SurfDiffProps CurveDiff CurveDiffProps DistModel DistProps.
Import ListNotations.
Open Scope R_scope.

(** ** one pair of points *)
Lemma D_maxsq f t a : D f t a -> D (fun s => Rmax (f s) 0 ^ 2) t (2 * Rmax (f t) 0 * a).
Proof.
  intros H. apply (derivable_pt_lim_comp f (fun x => Rmax x 0 ^ 2)); [exact H|].
  apply D_quad_bound. intros e. generalize (f t). intros y. apply Rabs_le. unfold Rmax. repeat destruct (Rle_dec _ _); split; nra.
Qed.
Lemma dist_norm a b : dist a b = norm3 (sub3 a b).
Proof. unfold dist, norm3. f_equal. unfold dot3. cbn [sub3 vx vy vz]. ring. Qed.
Lemma sub3_nz a b : a <> b -> sub3 a b <> v0.
Proof. intros H E. apply H. destruct a, b. unfold sub3, v0 in E. cbn in E. injection E as A B C. f_equal; lra. Qed.
Lemma pen_D d (g h g1 h1 : R -> vec3) t g' h' g1' h1' : D3 g t g' -> D3 h t h' -> D3 g1 t g1' -> D3 h1 t h1' -> g t <> g1 t -> h t <> v0 -> h1 t <> v0 ->
  D (fun s => penalty d (g s, h s) (g1 s, h1 s)) t
    (dot3 (dpen_gamma d (g t, h t) (g1 t, h1 t)) g' + dot3 (dpen_dash d (g t, h t) (g1 t, h1 t)) h' + (dot3 (dpen_gamma d (g1 t, h1 t) (g t, h t)) g1' + dot3 (dpen_dash d (g1 t, h1 t) (g t, h t)) h1')).
Proof.
  intros G H G1 H1 NE N N1. assert (NS := sub3_nz _ _ NE).
  assert (DD := D_norm t (fun s => sub3 (g s) (g1 s)) _ (D3_sub _ _ _ _ _ G G1) NS). cbv beta in DD.
  assert (DM := D_maxsq (fun s => d - norm3 (sub3 (g s) (g1 s))) t _ (D_sub _ _ _ _ _ (D_const d t) DD)). cbv beta in DM.
  assert (DN := D_mul _ _ _ _ _ (D_norm t h _ H N) (D_norm t h1 _ H1 N1)). cbv beta in DN.
  assert (DA := D_mul _ _ _ _ _ DN DM). cbv beta in DA. unfold penalty. cbn [fst snd].
  eapply D_ext; [|eapply D_val; [|exact DA]]; [intros s; cbv beta; now rewrite dist_norm|].
  unfold dpen_gamma, dpen_dash. cbn [fst snd]. rewrite !dist_norm.
  replace (norm3 (sub3 (g1 t) (g t))) with (norm3 (sub3 (g t) (g1 t))) by (unfold norm3; f_equal; unfold dot3; cbn [sub3 vx vy vz]; ring).
  apply CurveDiffProps.norm_pos in NS, N, N1. revert NS N N1. set (m := Rmax _ 0). clearbody m. generalize (norm3 (sub3 (g t) (g1 t))) (norm3 (h t)) (norm3 (h1 t)). intros x y z NS N N1.
  generalize (g t) (h t) (g1 t) (h1 t). intros a b c e. unfold dot3. cbn [vx vy vz scal3 sub3]. field. repeat split; lra.
Qed.

(** ** moving curves *)
(** the quadrature points of a moving curve at time s *)
Definition now (s : R) (c : list mqpt) : list qpoint := map (fun q => (mq_g q s, mq_h q s)) c.
Definition smooth (t : R) (c : list mqpt) : Prop := forall q, In q c -> D3 (mq_g q) t (mq_g' q) /\ D3 (mq_h q) t (mq_h' q) /\ mq_h q t <> v0.
Definition apart (t : R) (a b : list mqpt) : Prop := forall p q, In p a -> In q b -> mq_g p t <> mq_g q t.
Lemma now_length s c : length (now s c) = length c. Proof. apply map_length. Qed.
Lemma pair3_grad g d (A B : list mqpt) t (vel : mqpt -> vec3) :
  pair3 (grad_of g d (now t A) (now t B)) (map vel A)
  = / (INR (length A) * INR (length B)) * rsuml (map (fun p => rsuml (map (fun q => dot3 (g d (mq_g p t, mq_h p t) (mq_g q t, mq_h q t)) (vel p)) B)) A).
Proof.
  unfold pair3, grad_of. rewrite !now_length. generalize (/ (INR (length A) * INR (length B))). intros f. unfold now. rewrite map_map.
  induction A as [|p A IH]; cbn [map vmap2 rsuml]; [ring|]. rewrite IH. rewrite dot3_scal_l, dot3_sum_l. unfold now. rewrite !map_map. ring.
Qed.
Definition pair_grad (d : R) (A B : list mqpt) (t : R) : R :=
  pair3 (grad_of dpen_gamma d (now t A) (now t B)) (map mq_g' A) + pair3 (grad_of dpen_dash d (now t A) (now t B)) (map mq_h' A)
  + (pair3 (grad_of dpen_gamma d (now t B) (now t A)) (map mq_g' B) + pair3 (grad_of dpen_dash d (now t B) (now t A)) (map mq_h' B)).
Lemma pair_D d A B t : smooth t A -> smooth t B -> apart t A B -> D (fun s => pair_penalty d (now s A) (now s B)) t (pair_grad d A B t).
Proof.
  intros SA SB AP. unfold pair_penalty.
  apply (D_ext (fun s => / (INR (length A) * INR (length B)) * rsuml (map (fun p => rsuml (map (fun q => penalty d (mq_g p s, mq_h p s) (mq_g q s, mq_h q s)) B)) A))).
  { intros s. rewrite !now_length. unfold now. rewrite !map_map. unfold Rdiv. rewrite Rmult_comm. f_equal. apply rsuml_map_ext. intros p _. now rewrite map_map. }
  eapply D_val; [|apply (D_mul (fun _ => / (INR (length A) * INR (length B)))); [apply D_const|]].
  2:{ apply (D_sum A (fun p s => rsuml (map (fun q => penalty d (mq_g p s, mq_h p s) (mq_g q s, mq_h q s)) B))
       (fun p => rsuml (map (fun q => dot3 (dpen_gamma d (mq_g p t, mq_h p t) (mq_g q t, mq_h q t)) (mq_g' p) + dot3 (dpen_dash d (mq_g p t, mq_h p t) (mq_g q t, mq_h q t)) (mq_h' p)
          + (dot3 (dpen_gamma d (mq_g q t, mq_h q t) (mq_g p t, mq_h p t)) (mq_g' q) + dot3 (dpen_dash d (mq_g q t, mq_h q t) (mq_g p t, mq_h p t)) (mq_h' q))) B))).
      intros p Hp. apply (D_sum B (fun q s => penalty d (mq_g p s, mq_h p s) (mq_g q s, mq_h q s))). intros q Hq. destruct (SA p Hp) as (X & Y & Z), (SB q Hq) as (X' & Y' & Z'). apply pen_D; auto. }
  cbv beta. unfold pair_grad. rewrite !pair3_grad. rewrite (Rmult_comm (INR (length B)) (INR (length A))).
  set (f := / (INR (length A) * INR (length B))). clearbody f.
  rewrite (rsuml_swap (fun p q => dot3 (dpen_gamma d (mq_g p t, mq_h p t) (mq_g q t, mq_h q t)) (mq_g' p)) B A).
  rewrite (rsuml_swap (fun p q => dot3 (dpen_dash d (mq_g p t, mq_h p t) (mq_g q t, mq_h q t)) (mq_h' p)) B A).
  rewrite Rmult_0_l, Rplus_0_l, <- !Rmult_plus_distr_l, <- !rsuml_map_plus. f_equal. apply rsuml_map_ext. intros p _. rewrite <- !rsuml_map_plus. reflexivity.
Qed.
Lemma pair3_zero (l : list vec3) v : (forall x, In x l -> x = v0) -> pair3 l v = 0.
Proof. intros H. unfold pair3. revert v. induction l as [|x l IH]; intros [|b v]; cbn; auto. rewrite IH by (intros; apply H; now right). rewrite (H x (or_introl eq_refl)). unfold dot3. cbn. ring. Qed.
Lemma far_grad d A B t : ~ closer_than d (map fst (now t A)) (map fst (now t B)) -> pair_grad d A B t = 0.
Proof.
  intros F. assert (Z : forall a b, In a (now t A) -> In b (now t B) -> Rmax (d - dist (fst a) (fst b)) 0 = 0).
  { intros a b Ha Hb. apply Rmax_right. assert (d <= dist (fst a) (fst b)); [|lra]. apply Rnot_lt_le. intros L. apply F. exists (fst a), (fst b). split; [now apply in_map|split; [now apply in_map|]]. assert (X := Rle_abs d). lra. }
  assert (Z' : forall a b, In a (now t A) -> In b (now t B) -> Rmax (d - dist (fst b) (fst a)) 0 = 0) by (intros; rewrite dist_sym; auto).
  assert (S0 : forall (l : list vec3), (forall x, In x l -> x = v0) -> sum3 l = v0).
  { induction l as [|x l IH]; intros H; cbn; [reflexivity|]. rewrite IH by (intros; apply H; now right). rewrite (H x (or_introl eq_refl)). apply v3_eq; cbn; ring. }
  unfold pair_grad. rewrite !pair3_zero; [ring| | | |]; intros x X; unfold grad_of in X; apply in_map_iff in X; destruct X as (a & <- & Ha); rewrite S0; try (apply v3_eq; cbn; ring);
  intros y Y; apply in_map_iff in Y; destruct Y as (b & <- & Hb); unfold dpen_gamma, dpen_dash; ((rewrite Z by auto) || (rewrite Z' by auto)); apply v3_eq; cbn [vx vy vz scal3 sub3 v0]; unfold Rdiv; ring.
Qed.

(** ** the accumulators *)
(** sum_i vecs_i . d gamma_i *)
Definition total (vel : mqpt -> vec3) (ms : list (list mqpt)) (vecs : list (list vec3)) : R :=
  rsuml (map (fun i => pair3 (nth i vecs []) (map vel (nth i ms []))) (seq 0 (length ms))).
Definition fits (ms : list (list mqpt)) (vecs : list (list vec3)) : Prop := length vecs = length ms /\ forall i, (i < length ms)%nat -> length (nth i vecs []) = length (nth i ms []).
Lemma pair3_add a b v : length a = length b -> pair3 (vmap2 add3 a b) v = pair3 a v + pair3 b v.
Proof.
  unfold pair3. revert b v. induction a as [|x a IH]; intros [|y b] v H; cbn in H; try discriminate; [cbn; lra|]. destruct v as [|z v]; [cbn; lra|]. cbn [vmap2 rsuml]. rewrite IH by lia. unfold dot3. cbn [add3 vx vy vz]. ring.
Qed.
Lemma bump_nth i v vecs k : (k < length vecs)%nat -> nth k (bump i v vecs) [] = if (k =? i)%nat then vmap2 add3 (nth k vecs []) v else nth k vecs [].
Proof.
  intros H. unfold bump. apply (nth_map_seq (fun k => if (k =? i)%nat then vmap2 add3 (nth k vecs []) v else nth k vecs [])). exact H.
Qed.
Lemma bump_length i v vecs : length (bump i v vecs) = length vecs. Proof. unfold bump. now rewrite map_length, seq_length. Qed.
Lemma bump_total vel ms i v vecs : fits ms vecs -> (i < length ms)%nat -> length v = length (nth i ms []) ->
  fits ms (bump i v vecs) /\ total vel ms (bump i v vecs) = total vel ms vecs + pair3 v (map vel (nth i ms [])).
Proof.
  intros (L & F) Hi Hv. split.
  - split; [now rewrite bump_length|]. intros k Hk. rewrite bump_nth by lia. destruct (Nat.eqb_spec k i) as [->|]; [|auto]. rewrite vmap2_length, F by lia. lia.
  - unfold total. rewrite (rsuml_map_ext _ (fun k => pair3 (nth k vecs []) (map vel (nth k ms [])) + (if (k =? i)%nat then pair3 v (map vel (nth i ms [])) else 0))).
    2:{ intros k Hk. apply in_seq in Hk. rewrite bump_nth by lia. destruct (Nat.eqb_spec k i) as [->|]; [|lra]. apply pair3_add. rewrite F by lia. lia. }
    rewrite rsuml_map_plus. f_equal. assert (G : forall n s, rsuml (map (fun k => if (k =? i)%nat then pair3 v (map vel (nth i ms [])) else 0) (seq s n)) = if ((s <=? i) && (i <? s + n))%nat then pair3 v (map vel (nth i ms [])) else 0).
    { induction n as [|n IH]; intros s; cbn [seq map rsuml]; [destruct ((s <=? i) && (i <? s + 0))%nat eqn:E; [lia|reflexivity]|]. rewrite IH. destruct (Nat.eqb_spec s i).
      - destruct ((Datatypes.S s <=? i) && _)%nat eqn:E1; [lia|]. destruct ((s <=? i) && _)%nat eqn:E2; [lra|lia].
      - destruct ((Datatypes.S s <=? i) && _)%nat eqn:E1; destruct ((s <=? i) && _)%nat eqn:E2; try lia; lra. }
    rewrite G. destruct ((0 <=? i) && (i <? 0 + length ms))%nat eqn:E; [reflexivity|lia].
Qed.
Lemma crv_now t ms i : crv (map (now t) ms) i = now t (nth i ms []).
Proof. unfold crv. change [] with (now t []) at 1. apply map_nth. Qed.
Lemma grad_of_length g d A B : length (grad_of g d A B) = length A. Proof. apply map_length. Qed.
Lemma vecs_total d ms t l : (forall i j, In (i, j) l -> (i < length ms)%nat /\ (j < length ms)%nat) ->
  let gd := cc_vecs d (map (now t) ms) l in
  fits ms (fst gd) /\ fits ms (snd gd) /\ total mq_g' ms (fst gd) + total mq_h' ms (snd gd) = rsuml (map (fun ij => pair_grad d (nth (fst ij) ms []) (nth (snd ij) ms []) t) l).
Proof.
  intros HL. unfold cc_vecs. set (z := map (map (fun _ => v0)) (map (now t) ms)).
  assert (FZ : fits ms z).
  { unfold z. split; [now rewrite !map_length|]. intros i Hi. change [] with (map (fun _ : qpoint => v0) []) at 1. rewrite map_nth, map_length. change (@nil qpoint) with (now t []). rewrite map_nth. apply now_length. }
  assert (TZ : forall vel, total vel ms z = 0).
  { intros vel. apply rsuml_map_zero. intros i _. apply pair3_zero. intros x X. unfold z in X. change [] with (map (fun _ : qpoint => v0) []) in X at 1. rewrite map_nth in X. apply in_map_iff in X. destruct X as (? & <- & _). reflexivity. }
  assert (G : forall gd, fits ms (fst gd) -> fits ms (snd gd) ->
    let gd' := fold_left (fun gd ij => let A := crv (map (now t) ms) (fst ij) in let B := crv (map (now t) ms) (snd ij) in
      (bump (snd ij) (grad_of dpen_gamma d B A) (bump (fst ij) (grad_of dpen_gamma d A B) (fst gd)),
       bump (snd ij) (grad_of dpen_dash d B A) (bump (fst ij) (grad_of dpen_dash d A B) (snd gd)))) l gd in
    fits ms (fst gd') /\ fits ms (snd gd') /\ total mq_g' ms (fst gd') + total mq_h' ms (snd gd') = total mq_g' ms (fst gd) + total mq_h' ms (snd gd) + rsuml (map (fun ij => pair_grad d (nth (fst ij) ms []) (nth (snd ij) ms []) t) l)).
  { clear FZ TZ z. induction l as [|[i j] l IH]; intros gd F1 F2; [cbn; repeat split; try apply F1; try apply F2; lra|]. cbn [fold_left map rsuml fst snd]. rewrite !crv_now.
    destruct (HL i j (or_introl eq_refl)) as [Hi Hj].
    destruct (bump_total mq_g' ms i (grad_of dpen_gamma d (now t (nth i ms [])) (now t (nth j ms []))) (fst gd) F1 Hi ltac:(now rewrite grad_of_length, now_length)) as (A1 & A2).
    destruct (bump_total mq_g' ms j (grad_of dpen_gamma d (now t (nth j ms [])) (now t (nth i ms []))) _ A1 Hj ltac:(now rewrite grad_of_length, now_length)) as (A3 & A4).
    destruct (bump_total mq_h' ms i (grad_of dpen_dash d (now t (nth i ms [])) (now t (nth j ms []))) (snd gd) F2 Hi ltac:(now rewrite grad_of_length, now_length)) as (B1 & B2).
    destruct (bump_total mq_h' ms j (grad_of dpen_dash d (now t (nth j ms [])) (now t (nth i ms []))) _ B1 Hj ltac:(now rewrite grad_of_length, now_length)) as (B3 & B4).
    destruct (IH ltac:(intros; apply HL; now right) (bump j (grad_of dpen_gamma d (now t (nth j ms [])) (now t (nth i ms []))) (bump i (grad_of dpen_gamma d (now t (nth i ms [])) (now t (nth j ms []))) (fst gd)),
       bump j (grad_of dpen_dash d (now t (nth j ms [])) (now t (nth i ms []))) (bump i (grad_of dpen_dash d (now t (nth i ms [])) (now t (nth j ms []))) (snd gd))) A3 B3) as (C1 & C2 & C3).
    split; [exact C1|]. split; [exact C2|]. etransitivity; [exact C3|]. cbn [fst snd]. rewrite A4, A2, B4, B2. unfold pair_grad. lra. }
  destruct (G (z, z) FZ FZ) as (A & B & C). split; [exact A|]. split; [exact B|]. etransitivity; [exact C|]. cbn [fst snd]. rewrite !TZ. lra.
Qed.

(** ** C74: dJ hands each curve exactly the derivative of J with respect to its gamma and gammadash *)
(** the value of J when the curves are where they are at time s: the candidates are computed there *)
Definition J_at (d : R) (nb : option nat) (ms : list (list mqpt)) (s : R) : R :=
  match cc_candidates d nb (map (now s) ms) with Some cand => cc_J d (map (now s) ms) cand | None => 0 end.
Lemma D_pair_sum f f' n nb t : (forall i j, (j < i < n)%nat -> (j < nb)%nat -> D (f i j) t (f' i j)) -> D (fun s => pair_sum (fun i j => f i j s) n nb) t (pair_sum f' n nb).
Proof.
  intros H. unfold pair_sum. apply (D_sum (seq 0 n) (fun i s => rsuml (map (fun j => f i j s) (seq 0 (Nat.min i nb))))). intros i Hi. apply in_seq in Hi.
  apply (D_sum (seq 0 (Nat.min i nb)) (fun j s => f i j s)). intros j Hj. apply in_seq in Hj. apply H; lia.
Qed.
Theorem C74_gradient d nb ms t cand l : (forall m, In m ms -> smooth t m) -> (forall i j, (j < i < length ms)%nat -> apart t (nth i ms []) (nth j ms [])) ->
  cc_candidates d nb (map (now t) ms) = Some cand -> Permutation cand l ->
  D (J_at d nb ms) t (rsuml (map (fun i => pair3 (nth i (fst (cc_vecs d (map (now t) ms) l)) []) (map mq_g' (nth i ms [])) + pair3 (nth i (snd (cc_vecs d (map (now t) ms) l)) []) (map mq_h' (nth i ms []))) (seq 0 (length ms)))).
Proof.
  intros SM AP HC P. unfold cc_candidates in HC. assert (T : d <> 0) by (intros ->; rewrite (proj1 (C73_zero_threshold _ _ [] [])) in HC; discriminate).
  destruct (C73_within_collection (map (map fst) (map (now t) ms)) d (num_base nb (length (map (now t) ms))) T) as (l' & E & N & I). rewrite HC in E. injection E as <-. rewrite !map_length in I.
  set (k := num_base nb (length ms)) in *.
  apply (D_ext (fun s => pair_sum (fun i j => pair_penalty d (now s (nth i ms [])) (now s (nth j ms []))) (length ms) k)).
  { intros s. unfold J_at. destruct (C73_within_collection (map (map fst) (map (now s) ms)) d (num_base nb (length (map (now s) ms))) T) as (c & Ec & _). change (within_collection _ d _) with (cc_candidates d nb (map (now s) ms)) in Ec. rewrite Ec.
    rewrite (C74_value d nb _ c c Ec (Permutation_refl _)). rewrite map_length. fold k. unfold pair_sum. apply rsuml_map_ext. intros i _. apply rsuml_map_ext. intros j _.
    change (nth i (map (now s) ms) []) with (crv (map (now s) ms) i). change (nth j (map (now s) ms) []) with (crv (map (now s) ms) j). now rewrite !crv_now. }
  eapply D_val; [|apply (D_pair_sum (fun i j s => pair_penalty d (now s (nth i ms [])) (now s (nth j ms []))) (fun i j => pair_grad d (nth i ms []) (nth j ms []) t))].
  2:{ intros i j Hij Hk. apply pair_D; [apply SM, nth_In; lia|apply SM, nth_In; lia|now apply AP]. }
  rewrite rsuml_map_plus. destruct (vecs_total d ms t l) as (_ & _ & V).
  { intros i j X. apply (Permutation_in _ (Permutation_sym P)) in X. apply I in X. lia. }
  etransitivity; [|symmetry; exact V]. rewrite <- (rsuml_perm _ _ (Permutation_map _ P)), pair_sum_flat. symmetry.
  apply rsuml_sub; [decide equality; apply Nat.eq_dec|exact N|apply NoDup_pairs; [apply seq_NoDup|intros; apply seq_NoDup]| |].
  - intros [i j] X. apply I in X. destruct X as (X & Y & _). apply in_flat_map. exists i. split; [apply in_seq; lia|]. apply in_map_iff. exists j. split; [reflexivity|apply in_seq; lia].
  - intros [i j] X Y. apply in_flat_map in X. destruct X as (i' & Hi & X). apply in_map_iff in X. destruct X as (j' & [= <- <-] & Hj). apply in_seq in Hi. apply in_seq in Hj. cbn [fst snd]. apply far_grad. intros C. apply Y. apply I. rewrite !nth_map_fst, !crv_now. split; [lia|split; [lia|exact C]].
Qed.

(** ** C74: curves related by symmetry *)
From Verif Require Import CoilModel CoilProps.
Definition act (nfp k : nat) (f : bool) (v : vec3) : vec3 := if f then reflect (rotz (ang nfp k) v) else rotz (ang nfp k) v.
Lemma dist_dot a b : dist a b = sqrt (dot3 (sub3 a b) (sub3 a b)).
Proof. unfold dist. f_equal. unfold dot3. cbn [sub3 vx vy vz]. ring. Qed.
Lemma dist_eq a b a' b' : dot3 (sub3 a b) (sub3 a b) = dot3 (sub3 a' b') (sub3 a' b') -> dist a b = dist a' b'.
Proof. intros H. now rewrite !dist_dot, H. Qed.
Lemma ang_mod nfp k v : (0 < nfp)%nat -> rotz (ang nfp (k mod nfp)) v = rotz (ang nfp k) v.
Proof.
  intros N. unfold ang. rewrite (Nat.div_mod k nfp) at 2 by lia. rewrite plus_INR, mult_INR. assert (NZ : INR nfp <> 0) by (apply not_0_INR; lia).
  replace (2 * PI * (INR nfp * INR (k / nfp) + INR (k mod nfp)) / INR nfp) with (2 * PI * INR (k mod nfp) / INR nfp + 2 * INR (k / nfp) * PI) by (field; exact NZ).
  unfold rotz. now rewrite cos_period, sin_period.
Qed.
Definition rel_k (nfp k : nat) (f : bool) (k' : nat) (f' : bool) : nat := ((if xorb f f' then k + k' else k' + (nfp - k)) mod nfp)%nat.
Lemma act_rel nfp k f k' f' p q : (0 < nfp)%nat -> (k < nfp)%nat -> dist (act nfp k f p) (act nfp k' f' q) = dist p (act nfp (rel_k nfp k f k' f') (xorb f f') q).
Proof.
  intros N K. assert (NZ : INR nfp <> 0) by (apply not_0_INR; lia). unfold act, rel_k.
  assert (A : forall a b, rotz (ang nfp (a + b)) q = rotz (ang nfp a + ang nfp b) q). { intros a b. f_equal. unfold ang. rewrite plus_INR. field. exact NZ. }
  assert (B : rotz (ang nfp (k' + (nfp - k))) q = rotz (ang nfp k' - ang nfp k) q).
  { replace (ang nfp (k' + (nfp - k))) with (ang nfp k' - ang nfp k + 2 * INR 1 * PI) by (unfold ang; rewrite plus_INR, minus_INR by lia; cbn [INR]; field; exact NZ). unfold rotz. now rewrite cos_period, sin_period. }
  rewrite ang_mod by exact N. apply dist_eq.
  assert (S1 := sc1 (ang nfp k)). assert (S2 := sc1 (ang nfp k')).
  destruct f, f'; cbn [xorb]; [rewrite B|rewrite A|rewrite A|rewrite B]; unfold rotz; rewrite ?cos_minus, ?sin_minus, ?cos_plus, ?sin_plus; revert S1 S2;
    generalize (cos (ang nfp k)) (sin (ang nfp k)) (cos (ang nfp k')) (sin (ang nfp k')); intros c s c' s' S1 S2;
    assert (E1 : s * s = 1 - c * c) by lra; assert (E2 : s' * s' = 1 - c' * c') by lra; destruct p as [x y z], q as [x' y' z']; unfold dot3, reflect; cbn [sub3 vx vy vz]; ring [E1 E2].
Qed.
Lemma sym_data ce cs nfp ss k f b : (k < nfp)%nat -> (f < reps ss)%nat -> (b < length cs)%nat ->
  nth ((k * reps ss + f) * length cs + b) (map (curve_data ce) (sym_curves cs nfp ss)) [] = map (on_q (act nfp k (f =? 1)%nat)) (nth b (map (curve_data ce) cs) []).
Proof.
  intros K F B. destruct (nth_error cs b) as [c|] eqn:E; [|apply nth_error_None in E; lia].
  assert (X := sym_nth (fun k flip c => if Nat.eqb k 0 && negb flip then c else CRot c (2 * PI * INR k / INR nfp) flip) cs nfp ss k f b c K F E).
  rewrite (nth_error_nth _ _ _ (map_nth_error (curve_data ce) _ _ X)). rewrite (nth_error_nth _ _ _ (map_nth_error (curve_data ce) _ _ E)).
  destruct (Nat.eqb_spec k 0) as [->|NK]; [destruct (f =? 1)%nat eqn:Ef; cbn [andb negb]|].
  - rewrite (proj1 (C59_rotated_curve ce c _ true)). reflexivity.
  - rewrite <- (map_id (curve_data ce c)) at 1. apply map_ext. intros [g h]. unfold on_q, act, ang. cbn [fst snd INR]. replace (2 * PI * 0 / INR nfp) with 0 by (unfold Rdiv; ring). now rewrite !rotz_0.
  - cbn [andb]. rewrite (proj1 (C59_rotated_curve ce c _ _)). apply map_ext. intros q. reflexivity.
Qed.
Lemma sym_length ce cs nfp ss : length (map (curve_data ce) (sym_curves cs nfp ss)) = (nfp * (reps ss * length cs))%nat.
Proof. rewrite map_length. unfold sym_curves. apply sym_len. Qed.
Lemma index_split nfp r n i : (i < nfp * (r * n))%nat -> exists k f b, (k < nfp)%nat /\ (f < r)%nat /\ (b < n)%nat /\ i = ((k * r + f) * n + b)%nat.
Proof.
  intros H. assert (N : n <> 0%nat) by (intros ->; lia). assert (RZ : r <> 0%nat) by (intros ->; lia). exists (i / n / r)%nat, (i / n mod r)%nat, (i mod n)%nat.
  assert (Q : (i / n < nfp * r)%nat) by (apply Nat.div_lt_upper_bound; lia).
  split; [apply Nat.div_lt_upper_bound; lia|]. split; [now apply Nat.mod_upper_bound|]. split; [now apply Nat.mod_upper_bound|].
  rewrite (Nat.mul_comm (i / n / r)), <- Nat.div_mod, (Nat.mul_comm _ n), <- Nat.div_mod by lia. reflexivity.
Qed.
Lemma idx_lt nfp r n k f b : (k < nfp)%nat -> (f < r)%nat -> (b < n)%nat -> ((k * r + f) * n + b < nfp * (r * n))%nat.
Proof.
  intros K F B. assert (Q : (k * r + f + 1 <= nfp * r)%nat). { assert ((k + 1) * r <= nfp * r)%nat by (apply Nat.mul_le_mono_r; lia). lia. }
  assert (((k * r + f) + 1) * n <= (nfp * r) * n)%nat by (apply Nat.mul_le_mono_r; exact Q). lia.
Qed.
Lemma pair_distance_sym ce cs nfp ss x : let curves : list (list qpoint) := map (curve_data ce) (sym_curves cs nfp ss) in
  pair_distance curves (length cs) x <-> pair_distance curves (length curves) x.
Proof.
  intros curves. assert (LC : length curves = (nfp * (reps ss * length cs))%nat) by apply sym_length. split.
  - intros (i & j & a & b & Hij & Hj & Ha & Hb & E). exists i, j, a, b. repeat (split; [auto; lia|]). exact E.
  - intros (i & j & p & q & Hij & Hj & Hp & Hq & E). rewrite LC in *.
    destruct (index_split nfp (reps ss) (length cs) i ltac:(lia)) as (k & f & b & Hk & Hf & Hb & Ei). destruct (index_split nfp (reps ss) (length cs) j ltac:(lia)) as (k' & f' & b' & Hk' & Hf' & Hb' & Ej).
    rewrite Ei in Hp. rewrite Ej in Hq. unfold curves in Hp, Hq. rewrite sym_data in Hp, Hq by assumption. apply in_map_iff in Hp, Hq. destruct Hp as (p0 & <- & Hp), Hq as (q0 & <- & Hq). unfold on_q in E. cbn [fst] in E.
    rewrite act_rel in E by lia. set (k2 := rel_k nfp k (f =? 1)%nat k' (f' =? 1)%nat) in *. set (f2 := xorb (f =? 1)%nat (f' =? 1)%nat) in *.
    assert (RB : forall g, (g < reps ss)%nat -> (g < 2)%nat) by (intros g; destruct ss; cbn; lia). assert (Hf2 := RB f Hf). assert (Hf2' := RB f' Hf').
    assert (K2 : (k2 < nfp)%nat) by (apply Nat.mod_upper_bound; lia).
    set (F2 := if f2 then 1%nat else 0%nat). assert (F2E : (F2 =? 1)%nat = f2) by (unfold F2; now destruct f2).
    assert (F2B : (F2 < reps ss)%nat). { unfold F2, f2. destruct ss; cbn [reps] in *; [destruct (xorb _ _); lia|]. assert (f = 0%nat) by lia. assert (f' = 0%nat) by lia. subst f f'. cbn. lia. }
    set (m := ((k2 * reps ss + F2) * length cs + b')%nat). assert (Hm : (m < nfp * (reps ss * length cs))%nat) by (apply idx_lt; assumption).
    assert (IM : In (on_q (act nfp k2 f2) q0) (nth m curves [])). { unfold curves, m. rewrite sym_data by assumption. rewrite F2E. now apply in_map. }
    assert (NC : (0 < reps ss)%nat) by (destruct ss; cbn; lia).
    assert (IB : In p0 (nth b curves [])).
    { replace b with ((0 * reps ss + 0) * length cs + b)%nat by lia. unfold curves. rewrite sym_data by lia. cbn [Nat.eqb]. assert (Z : on_q (act nfp 0 false) p0 = p0). { destruct p0. unfold on_q, act, ang. cbn [fst snd INR]. replace (2 * PI * 0 / INR nfp) with 0 by (unfold Rdiv; ring). now rewrite !rotz_0. } rewrite <- Z. now apply in_map. }
    assert (NE : m <> b).
    { intros EM. unfold m in EM. assert (Z : (k2 * reps ss + F2 = 0)%nat) by nia. assert (Zk : k2 = 0%nat) by nia. assert (ZF : F2 = 0%nat) by nia. rewrite Z in EM. cbn in EM. subst b'.
      assert (Zf : f2 = false) by (unfold F2 in ZF; destruct f2; [discriminate|reflexivity]). unfold f2 in Zf. assert (f = f') by (destruct f as [|[|]], f' as [|[|]]; cbn in Zf; lia || discriminate). subst f'.
      unfold k2, rel_k in Zk. rewrite xorb_nilpotent in Zk. assert (k = k').
      { apply Nat.mod_divides in Zk; [|lia]. destruct Zk as (c & Zc). assert (c < 2)%nat by nia. assert (0 < c)%nat by nia. assert (c = 1)%nat by lia. subst c. lia. }
      subst k'. lia. }
    destruct (Nat.lt_ge_cases b m) as [L|L].
    + exists m, b, (on_q (act nfp k2 f2) q0), p0. rewrite LC. repeat (split; [auto; lia|]). rewrite dist_sym. exact E.
    + exists b, m, p0, (on_q (act nfp k2 f2) q0). rewrite LC. assert (b < nfp * (reps ss * length cs))%nat by nia. repeat (split; [auto; lia|]). exact E.
Qed.
(** with the base curves first, asking only about pairs with a base curve misses nothing *)
Theorem C74_symmetric_curves ce cs nfp ss d c1 c2 : let curves : list (list qpoint) := map (curve_data ce) (sym_curves cs nfp ss) in
  0 < d -> (0 < length cs)%nat -> (forall c, In c curves -> c <> []) ->
  cc_candidates d (Some (length cs)) curves = Some c1 -> cc_candidates d None curves = Some c2 ->
  (immersed curves -> (cc_J d curves c1 = 0 <-> cc_J d curves c2 = 0)) /\ (c1 = [] <-> c2 = []) /\ cc_shortest d curves c1 = cc_shortest d curves c2.
Proof.
  intros curves D0 NB NE H1 H2. assert (B1 : num_base (Some (length cs)) (length curves) = length cs) by (cbn; destruct (length cs); [lia|reflexivity]). assert (B2 : num_base None (length curves) = length curves) by reflexivity.
  assert (PD := fun x => pair_distance_sym ce cs nfp ss x). fold curves in PD.
  destruct (C74_shortest_distance d _ curves c1 c1 D0 NE H1 (Permutation_refl _)) as (A1 & A2 & A3 & A4). destruct (C74_shortest_distance d _ curves c2 c2 D0 NE H2 (Permutation_refl _)) as (E1 & E2 & E3 & E4). rewrite B1 in *. rewrite B2 in *.
  assert (EE : c1 = [] <-> c2 = []) by (rewrite A4, E4; split; intros H x X; apply H, PD, X). split; [|split; [exact EE|]].
  - intros IM. destruct (C74_nonnegative_and_zero d _ curves c1 c1 H1 (Permutation_refl _)) as (_ & Z1). destruct (C74_nonnegative_and_zero d _ curves c2 c2 H2 (Permutation_refl _)) as (_ & Z2). rewrite (Z1 IM), (Z2 IM), B1, B2.
    assert (G : forall n, (forall i j a b, (j < i < length curves)%nat -> (j < n)%nat -> In a (nth i curves []) -> In b (nth j curves []) -> d <= dist (fst a) (fst b)) <-> (forall x, pair_distance curves n x -> d <= x)).
    { intros n. split; [intros H x (i & j & a & b & X1 & X2 & X3 & X4 & ->); eauto|]. intros H i j a b X1 X2 X3 X4. apply H. exists i, j, a, b. auto. }
    rewrite !G. split; intros H x X; apply H, PD, X.
  - assert (UN : forall (P Q : R -> Prop) r s, (forall x, P x <-> Q x) -> least P r -> least Q s -> r = s). { intros P Q r s PQ (X & Y) (U & V). apply Rle_antisym; [apply Y, PQ, U|apply V, PQ, X]. }
    destruct c1 as [|x1 c1].
    + assert (c2 = []) by now apply EE. subst c2. reflexivity.
    + assert (c2 <> []) by (intros X; apply EE in X; discriminate). destruct (A1 ltac:(discriminate)) as (r & -> & L1). destruct (E1 H) as (s & -> & L2). f_equal. now apply (UN _ _ r s PD).
Qed.

(** ** C75: CurveSurfaceDistance *)
(** what an answer of J stands for, given the surface that was in place when the list of close curves was last computed: the sum runs
    over the curves that came close to THAT surface, and measures them against the present one *)
Definition answer (d : R) (J : R) (x : list (list qpoint) * list qpoint * list qpoint) : Prop := match x with (curves, ref, surface) =>
  exists idx, NoDup idx /\ (forall i, In i idx <-> (i < length curves)%nat /\ closer_than d (map fst (nth i curves [])) (map fst ref)) /\ J = rsuml (map (fun i => pair_penalty d (nth i curves []) surface) idx) end.
(** the questions of a history: curves, reference surface, present surface.  The reference is the surface at the first question since the
    curves last moved *)
Fixpoint questions (ops : list cs_op) (curves : list (list qpoint)) (surface : list qpoint) (ref : option (list qpoint)) : list (list (list qpoint) * list qpoint * list qpoint) :=
  match ops with
  | [] => []
  | MoveCurves c :: r => questions r c surface None
  | MoveSurface s :: r => questions r curves s ref
  | AskJ :: r => let rf := match ref with Some x => x | None => surface end in (curves, rf, surface) :: questions r curves surface (Some rf)
  end.
Lemma cs_J_sum d curves surface l : cs_J d curves surface l = rsuml (map (fun ij => pair_penalty d (crv curves (fst ij)) surface) l).
Proof.
  unfold cs_J. assert (G : forall r, fold_left (fun res ij => res + pair_penalty d (crv curves (fst ij)) surface) l r = r + rsuml (map (fun ij => pair_penalty d (crv curves (fst ij)) surface) l)).
  { induction l as [|x l IH]; intros r; cbn; [lra|]. rewrite IH. lra. }
  rewrite G. lra.
Qed.
Lemma cs_answer d curves ref surface l c : cs_candidates d curves ref = Some c -> Permutation c l -> answer d (cs_J d curves surface l) (curves, ref, surface).
Proof.
  intros H P. unfold cs_candidates in H. assert (T : d <> 0) by (intros ->; rewrite (proj2 (C73_zero_threshold [] 0%nat _ _)) in H; discriminate).
  destruct (C73_between_collections (map (map fst) curves) [map fst ref] d T) as (l' & E & N & I). rewrite H in E. injection E as <-. rewrite map_length in I.
  exists (map fst l). split; [|split].
  - assert (N' := Permutation_NoDup P N). assert (Z : forall x, In x l -> snd x = 0%nat) by (intros [i j] X; apply (Permutation_in _ (Permutation_sym P)) in X; apply I in X; cbn in *; lia).
    clear -N' Z. induction N' as [|x l X N IH]; cbn; constructor; [|apply IH; intros; apply Z; now right]. intros Y. apply in_map_iff in Y. destruct Y as (y & E & Y). apply X. assert (x = y) by (destruct x as [a b], y as [a' b']; cbn in E; assert (U := Z _ (or_introl eq_refl)); assert (V := Z _ (or_intror Y)); cbn in U, V; congruence). now subst.
  - intros i. rewrite in_map_iff. split.
    + intros ([i' j] & <- & X). apply (Permutation_in _ (Permutation_sym P)) in X. apply I in X. cbn [fst]. destruct X as (X & Y & Z). split; [exact X|]. cbn in Y. assert (j = 0%nat) by lia. subst j. rewrite nth_map_fst in Z. exact Z.
    + intros (X & Y). exists (i, 0%nat). split; [reflexivity|]. apply (Permutation_in _ P). apply I. rewrite nth_map_fst. split; [exact X|split; [cbn; lia|exact Y]].
  - rewrite cs_J_sum, map_map. reflexivity.
Qed.
(** every answer in every history *)
Theorem C75_answers d ops : d <> 0 -> forall curves surface, exists l o, cs_history d ops (CSD curves surface None) = Some (l, o) /\ Forall2 (answer d) l (questions ops curves surface None).
Proof.
  intros T.
  assert (G : forall ops curves surface ref, exists l o, cs_history d ops (CSD curves surface (match ref with Some r => cs_candidates d curves r | None => None end)) = Some (l, o) /\ Forall2 (answer d) l (questions ops curves surface ref)).
  { clear ops. assert (CS : forall curves s, exists c, cs_candidates d curves s = Some c). { intros curves s. destruct (C73_between_collections (map (map fst) curves) [map fst s] d T) as (c & E & _). eauto. }
    induction ops as [|[c|s|] ops IH]; intros curves surface ref; cbn [cs_history questions cs_curves cs_surface cs_cand].
    - exists [], (CSD curves surface (match ref with Some r => cs_candidates d curves r | None => None end)). split; [reflexivity|constructor].
    - apply (IH c surface None).
    - apply (IH curves s ref).
    - destruct ref as [r|].
      + destruct (CS curves r) as (c & E). rewrite E. destruct (IH curves surface (Some r)) as (l & o & H & F). rewrite E in H. rewrite H. eexists. exists o. split; [reflexivity|]. constructor; [|exact F]. now apply (cs_answer d curves r surface c c).
      + destruct (CS curves surface) as (c & E). rewrite E. destruct (IH curves surface (Some surface)) as (l & o & H & F). rewrite E in H. rewrite H. eexists. exists o. split; [reflexivity|]. constructor; [|exact F]. now apply (cs_answer d curves surface surface c c). }
  intros curves surface. apply (G ops curves surface None).
Qed.
(** an answer given with an up to date list is the documented sum over all the curves, and is zero exactly when all are far enough *)
Theorem C75_fresh_answer d curves surface J : answer d J (curves, surface, surface) ->
  J = rsuml (map (fun i => pair_penalty d (nth i curves []) surface) (seq 0 (length curves))) /\ 0 <= J /\
  (immersed (surface :: curves) -> (J = 0 <-> forall c p s, In c curves -> In p c -> In s surface -> d <= dist (fst p) (fst s))).
Proof.
  intros (idx & N & I & ->).
  assert (E : rsuml (map (fun i => pair_penalty d (nth i curves []) surface) idx) = rsuml (map (fun i => pair_penalty d (nth i curves []) surface) (seq 0 (length curves)))).
  { apply rsuml_sub; [apply Nat.eq_dec|exact N|apply seq_NoDup| |].
    - intros i X. apply I in X. apply in_seq. lia.
    - intros i X Y. apply in_seq in X. apply far_pair. intros C. apply Y. apply I. split; [lia|exact C]. }
  rewrite E. split; [reflexivity|]. assert (P : forall x, In x (map (fun i => pair_penalty d (nth i curves []) surface) (seq 0 (length curves))) -> 0 <= x) by (intros x X; apply in_map_iff in X; destruct X as (i & <- & _); apply pair_ge0).
  split; [now apply rsuml_ge0|]. intros IM. split.
  - intros Z c p s Hc Hp Hs. destruct (In_nth _ _ [] Hc) as (i & Hi & Ec). assert (P0 : pair_penalty d (nth i curves []) surface = 0) by (apply (rsuml_zero_all _ P Z); apply in_map_iff; exists i; split; [reflexivity|apply in_seq; lia]).
    rewrite Ec in P0. revert P0 p s Hp Hs. apply pair_zero; intros q Hq; (eapply IM; [|exact Hq]; cbn; auto).
  - intros H. apply rsuml_map_zero. intros i Hi. apply in_seq in Hi. assert (Hc : In (nth i curves []) curves) by (apply nth_In; lia). apply pair_zero; [intros q Hq; eapply IM; [|exact Hq]; cbn; auto..|]. intros a b. now apply H.
Qed.
(** the gradient with respect to the curves, with an up to date list *)
Definition still (S : list qpoint) : list mqpt := map (fun p => MQ (fun _ => fst p) v0 (fun _ => snd p) v0) S.
Lemma now_still s S : now s (still S) = S.
Proof. unfold now, still. rewrite map_map. rewrite <- (map_id S) at 2. apply map_ext. intros []. reflexivity. Qed.
Lemma pair3_v0 (l : list vec3) (m : list mqpt) f : (forall q, In q m -> f q = v0) -> pair3 l (map f m) = 0.
Proof. intros H. unfold pair3. revert l. induction m as [|q m IH]; intros [|x l]; cbn; auto. rewrite IH by (intros; apply H; now right). rewrite (H q (or_introl eq_refl)). unfold dot3. cbn. ring. Qed.
Definition one_grad (d : R) (A : list mqpt) (S : list qpoint) (t : R) : R :=
  pair3 (grad_of dpen_gamma d (now t A) S) (map mq_g' A) + pair3 (grad_of dpen_dash d (now t A) S) (map mq_h' A).
Lemma one_grad_pair d A S t : pair_grad d A (still S) t = one_grad d A S t.
Proof.
  unfold pair_grad, one_grad. rewrite now_still. rewrite (pair3_v0 _ (still S) mq_g'), (pair3_v0 _ (still S) mq_h'); [ring| |]; intros q X; unfold still in X; apply in_map_iff in X; destruct X as (p & <- & _); reflexivity.
Qed.
Lemma cs_vecs_total d ms t S l : (forall i j, In (i, j) l -> (i < length ms)%nat) ->
  let gd := cs_vecs d (map (now t) ms) S l in total mq_g' ms (fst gd) + total mq_h' ms (snd gd) = rsuml (map (fun ij => one_grad d (nth (fst ij) ms []) S t) l).
Proof.
  intros HL. unfold cs_vecs. set (z := map (map (fun _ => v0)) (map (now t) ms)).
  assert (FZ : fits ms z).
  { unfold z. split; [now rewrite !map_length|]. intros i Hi. change [] with (map (fun _ : qpoint => v0) []) at 1. rewrite map_nth, map_length. change (@nil qpoint) with (now t []). rewrite map_nth. apply now_length. }
  assert (TZ : forall vel, total vel ms z = 0).
  { intros vel. apply rsuml_map_zero. intros i _. apply pair3_zero. intros x X. unfold z in X. change [] with (map (fun _ : qpoint => v0) []) in X at 1. rewrite map_nth in X. apply in_map_iff in X. destruct X as (? & <- & _). reflexivity. }
  assert (G : forall gd, fits ms (fst gd) -> fits ms (snd gd) ->
    let gd' := fold_left (fun gd ij => let A := crv (map (now t) ms) (fst ij) in (bump (fst ij) (grad_of dpen_gamma d A S) (fst gd), bump (fst ij) (grad_of dpen_dash d A S) (snd gd))) l gd in
    total mq_g' ms (fst gd') + total mq_h' ms (snd gd') = total mq_g' ms (fst gd) + total mq_h' ms (snd gd) + rsuml (map (fun ij => one_grad d (nth (fst ij) ms []) S t) l)).
  { clear FZ TZ z. induction l as [|[i j] l IH]; intros gd F1 F2; [cbn; lra|]. cbn [fold_left map rsuml fst snd]. rewrite !crv_now.
    assert (Hi := HL i j (or_introl eq_refl)).
    destruct (bump_total mq_g' ms i (grad_of dpen_gamma d (now t (nth i ms [])) S) (fst gd) F1 Hi ltac:(now rewrite grad_of_length, now_length)) as (A1 & A2).
    destruct (bump_total mq_h' ms i (grad_of dpen_dash d (now t (nth i ms [])) S) (snd gd) F2 Hi ltac:(now rewrite grad_of_length, now_length)) as (B1 & B2).
    cbv zeta. etransitivity; [apply (IH ltac:(intros i' j' X; apply (HL i' j'); now right) (bump i (grad_of dpen_gamma d (now t (nth i ms [])) S) (fst gd), bump i (grad_of dpen_dash d (now t (nth i ms [])) S) (snd gd)) A1 B1)|].
    cbn [fst snd]. rewrite A2, B2. unfold one_grad. lra. }
  cbv zeta. etransitivity; [exact (G (z, z) FZ FZ)|]. cbn [fst snd]. rewrite !TZ. lra.
Qed.
Definition cs_J_at (d : R) (ms : list (list mqpt)) (surface : list qpoint) (s : R) : R :=
  match cs_candidates d (map (now s) ms) surface with Some cand => cs_J d (map (now s) ms) surface cand | None => 0 end.
Theorem C75_gradient d ms surface t cand l : (forall m, In m ms -> smooth t m) -> (forall m q p, In m ms -> In q m -> In p surface -> mq_g q t <> fst p) -> (forall p, In p surface -> snd p <> v0) ->
  cs_candidates d (map (now t) ms) surface = Some cand -> Permutation cand l ->
  D (cs_J_at d ms surface) t (rsuml (map (fun i => pair3 (nth i (fst (cs_vecs d (map (now t) ms) surface l)) []) (map mq_g' (nth i ms [])) + pair3 (nth i (snd (cs_vecs d (map (now t) ms) surface l)) []) (map mq_h' (nth i ms []))) (seq 0 (length ms)))).
Proof.
  intros SM AP IM HC P. unfold cs_candidates in HC. assert (T : d <> 0) by (intros ->; rewrite (proj2 (C73_zero_threshold [] 0%nat _ _)) in HC; discriminate).
  destruct (C73_between_collections (map (map fst) (map (now t) ms)) [map fst surface] d T) as (l' & E & N & I). rewrite HC in E. injection E as <-. rewrite !map_length in I.
  apply (D_ext (fun s => rsuml (map (fun i => pair_penalty d (now s (nth i ms [])) (now s (still surface))) (seq 0 (length ms))))).
  { intros s. unfold cs_J_at. destruct (C73_between_collections (map (map fst) (map (now s) ms)) [map fst surface] d T) as (c & Ec & _). change (between_collections _ _ d) with (cs_candidates d (map (now s) ms) surface) in Ec. rewrite Ec.
    destruct (C75_fresh_answer d _ surface _ (cs_answer d _ surface surface c c Ec (Permutation_refl _))) as (V & _). rewrite V, map_length. apply rsuml_map_ext. intros i _.
    change (nth i (map (now s) ms) []) with (crv (map (now s) ms) i). now rewrite crv_now, now_still. }
  eapply D_val; [|apply (D_sum (seq 0 (length ms)) (fun i s => pair_penalty d (now s (nth i ms [])) (now s (still surface))) (fun i => one_grad d (nth i ms []) surface t))].
  2:{ intros i Hi. apply in_seq in Hi. rewrite <- one_grad_pair. assert (Hm : In (nth i ms []) ms) by (apply nth_In; lia). apply pair_D; [now apply SM| |].
      - intros q X. unfold still in X. apply in_map_iff in X. destruct X as (p & <- & X). cbn [mq_g mq_g' mq_h mq_h']. split; [apply D3_const|]. split; [apply D3_const|]. now apply IM.
      - intros q p' Hq X. unfold still in X. apply in_map_iff in X. destruct X as (p & <- & X). cbn [mq_g]. eapply AP; eauto. }
  rewrite rsuml_map_plus. etransitivity; [|symmetry; apply (cs_vecs_total d ms t surface l)].
  2:{ intros i j X. apply (Permutation_in _ (Permutation_sym P)) in X. apply I in X. lia. }
  rewrite <- (rsuml_perm _ _ (Permutation_map _ P)). symmetry.
  assert (Z : forall x, In x cand -> snd x = 0%nat) by (intros [i j] X; apply I in X; cbn in *; lia).
  rewrite <- (map_map fst (fun i => one_grad d (nth i ms []) surface t) cand). apply rsuml_sub; [apply Nat.eq_dec| |apply seq_NoDup| |].
  - clear -N Z. induction N as [|x l X N IH]; cbn; constructor; [|apply IH; intros; apply Z; now right]. intros Y. apply in_map_iff in Y. destruct Y as (y & E & Y). apply X. assert (x = y) by (destruct x as [a b], y as [a' b']; cbn in E; assert (U := Z _ (or_introl eq_refl)); assert (V := Z _ (or_intror Y)); cbn in U, V; congruence). now subst.
  - intros i X. apply in_map_iff in X. destruct X as ([i' j] & <- & X). apply I in X. apply in_seq. cbn. lia.
  - intros i X Y. apply in_seq in X. rewrite <- one_grad_pair. apply far_grad. rewrite now_still. intros C. apply Y. apply in_map_iff. exists (i, 0%nat). split; [reflexivity|]. apply I. rewrite nth_map_fst, crv_now. split; [lia|split; [cbn; lia|exact C]].
Qed.
(** the shortest distance to the surface, with an up to date list *)
Theorem C75_shortest_distance d curves surface cand l : 0 < d -> surface <> [] -> (forall c, In c curves -> c <> []) -> cs_candidates d curves surface = Some cand -> Permutation cand l ->
  (curves = [] -> cs_shortest d curves surface l = None) /\
  (curves <> [] -> exists r, cs_shortest d curves surface l = Some r /\ least (fun x => exists c a b, In c curves /\ In a c /\ In b surface /\ x = dist (fst a) (fst b)) r).
Proof.
  intros D0 NS NE H P. unfold cs_candidates in H.
  destruct (C73_between_collections (map (map fst) curves) [map fst surface] d ltac:(lra)) as (l' & E & N & I0). rewrite H in E. injection E as <-. rewrite map_length in I0.
  assert (AD : Rabs d = d) by (apply Rabs_pos_eq; lra).
  assert (I : forall i j, In (i, j) l <-> (i < length curves)%nat /\ j = 0%nat /\ exists a b, In a (nth i curves []) /\ In b surface /\ dist (fst a) (fst b) < d).
  { intros i j. transitivity (In (i, j) cand); [split; apply Permutation_in; [symmetry|]; exact P|]. rewrite I0, !nth_map_fst. unfold closer_than, crv. rewrite AD. cbn [length].
    split; intros (A & B & C).
    - assert (j = 0%nat) by lia. subst j. split; [exact A|split; [reflexivity|]]. destruct C as (a & b & Ha & Hb & L). cbn [nth] in Hb. apply in_map_iff in Ha. apply in_map_iff in Hb. destruct Ha as (a' & <- & Ha), Hb as (b' & <- & Hb). eauto 6.
    - subst j. split; [exact A|split; [lia|]]. destruct C as (a & b & Ha & Hb & L). exists (fst a), (fst b). cbn [nth]. split; [now apply in_map|split; [now apply in_map|exact L]]. }
  assert (CD : forall i, (i < length curves)%nat -> exists r, cloud_dist (crv curves i) surface = Some r /\ least (fun x => exists a b, In a (crv curves i) /\ In b surface /\ x = dist (fst a) (fst b)) r).
  { intros i Hi. apply cloud_dist_least; [|exact NS]. apply NE. now apply nth_In. }
  split.
  - intros ->. assert (l = []) by (destruct l as [|[i j] l0]; [reflexivity|]; destruct (proj1 (I i j) (or_introl eq_refl)) as (X & _); cbn in X; lia). subst l. reflexivity.
  - intros NC. unfold cs_shortest. destruct l as [|x0 l0] eqn:El.
    + destruct (sequence_all (fun i => cloud_dist (crv curves i) surface) (seq 0 (length curves))) as (m & Em & Im); [intros i X; apply in_seq in X; destruct (CD i ltac:(lia)) as (r & Er & _); eauto|]. rewrite Em.
      assert (NM : m <> []). { intros ->. destruct curves as [|c0 cs]; [now apply NC|]. destruct (CD 0%nat ltac:(cbn; lia)) as (r & Er & _). apply (Im r). exists 0%nat. split; [apply in_seq; cbn; lia|exact Er]. }
      destruct (pymin_some m NM) as (r & Er). exists r. split; [exact Er|]. apply pymin_least in Er. destruct Er as (R1 & R2). split.
      * apply Im in R1. destruct R1 as (i & X & Er). apply in_seq in X. destruct (CD i ltac:(lia)) as (r0 & Er0 & L0). rewrite Er in Er0. injection Er0 as <-. destruct (proj1 L0) as (a & b & Ha & Hb & ->). exists (nth i curves []), a, b. split; [apply nth_In; lia|auto].
      * intros x (c & a & b & Hc & Ha & Hb & ->). destruct (In_nth _ _ [] Hc) as (i & Hi & <-). destruct (CD i Hi) as (r0 & Er0 & L0). apply Rle_trans with r0; [apply R2; apply Im; exists i; split; [apply in_seq; lia|exact Er0]|]. apply (proj2 L0). exists a, b. auto.
    + rewrite <- El in *. destruct (sequence_all (fun ij => cloud_dist (crv curves (fst ij)) surface) l) as (m & Em & Im).
      { intros [i j] X. apply I in X. destruct (CD i ltac:(tauto)) as (r & Er & _). exists r. exact Er. }
      rewrite Em. destruct (pymin_some (d :: m) ltac:(discriminate)) as (r & Er). exists r. split; [exact Er|]. apply pymin_least in Er. destruct Er as (R1 & R2).
      assert (RX : r < d). { destruct x0 as [i j]. assert (X : In (i, j) l) by (rewrite El; now left). assert (X' := X). apply I in X'. destruct X' as (A & B & a & b & Ha & Hb & L). destruct (CD i A) as (r0 & Er0 & L0). apply Rle_lt_trans with r0; [apply R2; right; apply Im; exists (i, j); auto|]. apply Rle_lt_trans with (dist (fst a) (fst b)); [|exact L]. apply (proj2 L0). eauto. }
      split.
      * destruct R1 as [R1|R1]; [lra|]. apply Im in R1. destruct R1 as ([i j] & X & Er). cbn [fst snd] in Er. apply I in X. destruct X as (A & B & _). destruct (CD i A) as (r0 & Er0 & L0). rewrite Er in Er0. injection Er0 as <-. destruct (proj1 L0) as (a & b & Ha & Hb & ->). exists (nth i curves []), a, b. split; [apply nth_In; lia|auto].
      * intros x (c & a & b & Hc & Ha & Hb & ->). destruct (In_nth _ _ [] Hc) as (i & Hi & <-). destruct (Rlt_dec (dist (fst a) (fst b)) d) as [L|L]; [|lra]. destruct (CD i Hi) as (r0 & Er0 & L0). apply Rle_trans with r0.
        -- apply R2. right. apply Im. exists (i, 0%nat). split; [apply I; eauto 8|exact Er0].
        -- apply (proj2 L0). exists a, b. auto.
Qed.
(** all answers are up to date as long as, between two questions, the surface does not move without the curves moving after it *)
Inductive list_state := NotComputed | UpToDate | Outdated.
Fixpoint tidy (st : list_state) (ops : list cs_op) : Prop :=
  match ops with
  | [] => True
  | MoveCurves _ :: r => tidy NotComputed r
  | MoveSurface _ :: r => tidy (match st with NotComputed => NotComputed | _ => Outdated end) r
  | AskJ :: r => match st with Outdated => False | _ => tidy UpToDate r end
  end.
Theorem C75_fresh_histories ops : forall curves surface, tidy NotComputed ops -> Forall (fun x => snd (fst x) = snd x) (questions ops curves surface None).
Proof.
  assert (G : forall ops curves surface, (tidy NotComputed ops -> Forall (fun x => snd (fst x) = snd x) (questions ops curves surface None)) /\ (tidy UpToDate ops -> Forall (fun x => snd (fst x) = snd x) (questions ops curves surface (Some surface)))
     /\ (forall ref, tidy Outdated ops -> Forall (fun x => snd (fst x) = snd x) (questions ops curves surface (Some ref)))).
  { clear ops. induction ops as [|[c|s|] ops IH]; intros curves surface; (split; [|split]); cbn [tidy questions].
    1,2: constructor. 1: intros; constructor.
    1,2: apply (IH c surface). 1: intros _; apply (IH c surface).
    1: apply (IH curves s). 1,2: apply (proj2 (proj2 (IH curves s))).
    1,2: intros H; (constructor; [reflexivity|]); now apply (proj1 (proj2 (IH curves surface))).
    intros ref []. }
  intros curves surface. apply G.
Qed.
(** otherwise they may not be: after the surface moved onto the curve, J still answers 0 *)
Definition pt (x : R) : qpoint := (V3 x 0 0, V3 1 0 0).
Lemma dist_pt x y : dist (fst (pt x)) (fst (pt y)) = Rabs (x - y).
Proof. unfold dist, pt. cbn [fst vx vy vz]. rewrite <- sqrt_Rsqr_abs. f_equal. unfold Rsqr. ring. Qed.
Theorem C75_stale_answer : exists o, cs_history 1 [AskJ; MoveSurface [pt (1/2)]; AskJ; MoveCurves [[pt 0]]; AskJ] (CSD [[pt 0]] [pt 5] None) = Some ([0; 0; 1 / 4], o) /\ dist (fst (pt 0)) (fst (pt (1/2))) < 1.
Proof.
  assert (D1 : dist (fst (pt 0)) (fst (pt (1/2))) = 1 / 2) by (rewrite dist_pt, Rabs_left by lra; lra). assert (D5 : dist (fst (pt 0)) (fst (pt 5)) = 5) by (rewrite dist_pt, Rabs_left by lra; lra).
  destruct (C75_answers 1 [AskJ; MoveSurface [pt (1/2)]; AskJ; MoveCurves [[pt 0]]; AskJ] ltac:(lra) [[pt 0]] [pt 5]) as (l & o & H & F). exists o. split; [|lra]. rewrite H. do 2 f_equal. cbn [questions] in F.
  inversion F as [|j1 ? l1 ? A1 F1]; subst. inversion F1 as [|j2 ? l2 ? A2 F2]; subst. inversion F2 as [|j3 ? l3 ? A3 F3]; subst. inversion F3; subst.
  assert (FAR : forall J s, answer 1 J ([[pt 0]], [pt 5], s) -> J = 0).
  { intros J s (idx & N & I & ->). destruct idx as [|i idx]; [reflexivity|]. exfalso. destruct (proj1 (I i) (or_introl eq_refl)) as (Hi & a & b & Ha & Hb & L). cbn in Hi. assert (i = 0%nat) by lia. subst i. cbn in Ha, Hb. destruct Ha as [<-|[]], Hb as [<-|[]].
    change (V3 0 0 0) with (fst (pt 0)) in L. change (V3 5 0 0) with (fst (pt 5)) in L. rewrite D5, Rabs_R1 in L. lra. }
  f_equal; [now apply (FAR _ _ A1)|]. f_equal; [now apply (FAR _ _ A2)|]. f_equal.
  apply C75_fresh_answer in A3. destruct A3 as (-> & _). cbn [length seq map nth rsuml pair_penalty]. unfold pair_penalty, penalty. cbn [map rsuml length]. rewrite D1. assert (N1 : norm3 (snd (pt 0)) = 1 /\ norm3 (snd (pt (1/2))) = 1) by (split; apply norm_unique; unfold dot3; cbn; lra).
  destruct N1 as [-> ->]. rewrite Rmax_left by lra. cbn [INR]. field.
Qed.

(** ** the hypotheses are met, and the scope of shortest_distance depends on whether the threshold is violated *)
Example C74_example : exists c1 c2, let curves := [[pt 0]; [pt 3]; [pt 4]] in
  cc_candidates (7/2) (Some 1%nat) curves = Some c1 /\ cc_shortest (7/2) curves c1 = Some 3 /\ cc_candidates 2 (Some 1%nat) curves = Some c2 /\ cc_shortest 2 curves c2 = Some 1.
Proof.
  set (curves := [[pt 0]; [pt 3]; [pt 4]]).
  assert (DD : forall i j a b, (j < i < length curves)%nat -> In a (nth i curves []) -> In b (nth j curves []) -> dist (fst a) (fst b) = INR (if (j =? 0)%nat then if (i =? 1)%nat then 3 else 4 else 1)).
  { intros i j a b Hij Ha Hb. cbn in Hij. destruct i as [|[|[|i]]]; try lia; destruct j as [|[|j]]; try lia; cbn in Ha, Hb; destruct Ha as [<-|[]], Hb as [<-|[]]; rewrite dist_pt; cbn [Nat.eqb INR]; rewrite Rabs_right by lra; lra. }
  assert (NE : forall c, In c curves -> c <> []) by (intros c [<-|[<-|[<-|[]]]]; discriminate).
  assert (PD : forall n x, (0 < n)%nat -> pair_distance curves n x <-> (x = 3 \/ x = 4 \/ (x = 1 /\ (1 < n)%nat))).
  { intros n x N. split.
    - intros (i & j & a & b & H1 & H2 & H3 & H4 & ->). rewrite (DD i j a b H1 H3 H4). cbn in H1. destruct i as [|[|[|i]]]; try lia; destruct j as [|[|j]]; try lia; cbn [Nat.eqb INR]; [left; lra|right; left; lra|right; right; split; [lra|lia]].
    - assert (G : forall i j p q, (j < i < 3)%nat -> (j < n)%nat -> nth i curves [] = [p] -> nth j curves [] = [q] -> x = dist (fst p) (fst q) -> pair_distance curves n x). { intros i j p q H1 H2 E1 E2 ->. exists i, j, p, q. rewrite E1, E2. cbn. auto 6. }
      intros [->|[->|[-> L]]]; [apply (G 1%nat 0%nat (pt 3) (pt 0))|apply (G 2%nat 0%nat (pt 4) (pt 0))|apply (G 2%nat 1%nat (pt 4) (pt 3))]; auto; rewrite dist_pt, Rabs_right by lra; lra. }
  destruct (C73_within_collection (map (map fst) curves) (7/2) 1 ltac:(lra)) as (c1 & E1 & _). destruct (C73_within_collection (map (map fst) curves) 2 1 ltac:(lra)) as (c2 & E2 & _).
  exists c1, c2. cbv zeta. split; [exact E1|]. destruct (C74_shortest_distance (7/2) (Some 1%nat) curves c1 c1 ltac:(lra) NE E1 (Permutation_refl _)) as (A1 & _ & _ & A4). destruct (C74_shortest_distance 2 (Some 1%nat) curves c2 c2 ltac:(lra) NE E2 (Permutation_refl _)) as (B1 & B2 & _ & B4).
  change (num_base (Some 1%nat) (length curves)) with 1%nat in *. split; [|split; [exact E2|]].
  - destruct A1 as (r & -> & (L1 & L2)). { rewrite A4. intros X. specialize (X 3 ltac:(apply PD; [lia|tauto])). lra. } apply PD in L1; [|lia]. specialize (L2 3 ltac:(apply PD; [lia|tauto])). f_equal. destruct L1 as [?|[?|[? ?]]]; [lra|lra|lia].
  - assert (Z : c2 = []). { apply B4. intros x X. apply PD in X; [|lia]. destruct X as [->|[->|[-> ?]]]; [lra|lra|lia]. }
    destruct (B2 Z ltac:(cbn; lia)) as (r & -> & (L1 & L2)). change (length curves) with 3%nat in *. apply PD in L1; [|lia]. specialize (L2 1 ltac:(apply PD; [lia|right; right; split; [reflexivity|lia]])). f_equal. destruct L1 as [?|[?|[? ?]]]; lra.
Qed.
Example C74_gradient_example : exists ms, (forall m, In m ms -> smooth 0 m) /\ (forall i j, (j < i < length ms)%nat -> apart 0 (nth i ms []) (nth j ms [])) /\ exists c, cc_candidates 1 None (map (now 0) ms) = Some c /\ c <> [].
Proof.
  exists [[MQ (fun s => V3 s 0 0) (V3 1 0 0) (fun _ => V3 0 1 0) v0]; [MQ (fun _ => V3 0 (1/2) 0) v0 (fun s => V3 0 (1 + s) 0) (V3 0 1 0)]]. split; [|split].
  - assert (NZ : forall x, x <> 0 -> V3 0 x 0 <> v0) by (intros x X [= E]; contradiction).
    intros m [<-|[<-|[]]] q [<-|[]]; cbn [mq_g mq_g' mq_h mq_h']; (split; [|split]).
    + split; [|split]; cbn; auto using D_id, D_const. + apply D3_const. + apply NZ; lra.
    + apply D3_const. + split; [|split]; cbn; auto using D_const. eapply D_val; [|apply D_add; [apply D_const|apply D_id]]. lra. + apply NZ; lra.
  - intros i j H. cbn in H. assert (i = 1%nat) by lia. assert (j = 0%nat) by lia. subst. intros p q [<-|[]] [<-|[]]. cbn. intros [= E]. lra.
  - destruct (C73_within_collection (map (map fst) (map (now 0) [[MQ (fun s => V3 s 0 0) (V3 1 0 0) (fun _ => V3 0 1 0) v0]; [MQ (fun _ => V3 0 (1/2) 0) v0 (fun s => V3 0 (1 + s) 0) (V3 0 1 0)]])) 1 2 ltac:(lra)) as (c & E & _ & I). exists c. split; [exact E|]. intros ->. apply (I 1%nat 0%nat). split; [cbn; lia|]. split; [lia|].
    exists (V3 0 (1/2) 0), (V3 0 0 0). cbn. split; [auto|]. split; [auto|]. apply dist_lt. unfold d2. cbn. lra.
Qed.
Print Assumptions C74_gradient. Print Assumptions C75_stale_answer.
