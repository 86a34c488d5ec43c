(** C57: B_vjp, B_and_dB_vjp, A_vjp and A_and_dA_vjp hand the coils exactly the derivative of
    sum_i v_i . B(x_i) (resp. of sum_ik vgrad_ik . dB_by_dX(x_i)[k]) with respect to the coils' quadrature data
    and currents. *)
From Verif Require Import Vec3 BSModel BSDeriv.
From Coq Require Import Ranalysis1.
Open Scope R_scope.

(** ** Specification: a coil moving in time, with its velocity at time t *)
Record mqpt := MQ { mq_g : R -> vec3; mq_g' : vec3; mq_h : R -> vec3; mq_h' : vec3 }.
Record mcoil := MC { mc_I : R -> R; mc_I' : R; mc_q : list mqpt }.
Definition moves (t : R) (c : mcoil) : Prop :=
  D (mc_I c) t (mc_I' c) /\ forall q, In q (mc_q c) -> D3 (mq_g q) t (mq_g' q) /\ D3 (mq_h q) t (mq_h' q).
(** the coil at time s *)
Definition at_time (s : R) (c : mcoil) : R * list qpt := (mc_I c s, map (fun q => (mq_g q s, mq_h q s)) (mc_q c)).
(** sum_j a_j . b_j *)
Definition pair3 (a b : list vec3) : R := rsuml (vmap2 dot3 a b).
(** v . B summed over the evaluation points, and vgrad . dB_by_dX *)
Definition probe (kern : vec3 -> qpt -> vec3) (pw : list (vec3 * vec3)) (coils : list (R * list qpt)) : R :=
  rsuml (map (fun xv => dot3 (snd xv) (coils_field kern coils (fst xv))) pw).
Definition probe_grad (kern : nat -> vec3 -> qpt -> vec3) (pw : list (vec3 * (nat -> vec3))) (coils : list (R * list qpt)) : R :=
  rsuml (map (fun xv => dot3 (snd xv 0%nat) (coils_field (kern 0%nat) coils (fst xv)) + dot3 (snd xv 1%nat) (coils_field (kern 1%nat) coils (fst xv))
                      + dot3 (snd xv 2%nat) (coils_field (kern 2%nat) coils (fst xv))) pw).

(** ** sums *)
Lemma rsuml_map_ext {A} (f g : A -> R) l : (forall a, In a l -> f a = g a) -> rsuml (map f l) = rsuml (map g l).
Proof. intros H. f_equal. apply map_ext_in. auto. Qed.
Lemma rsuml_swap {A B} (f : A -> B -> R) l m : rsuml (map (fun a => rsuml (map (f a) m)) l) = rsuml (map (fun b => rsuml (map (fun a => f a b) l)) m).
Proof.
  induction l as [|a l IH]; cbn [map rsuml]; [symmetry; now apply rsuml_map_zero|]. rewrite IH, <- rsuml_map_plus. reflexivity.
Qed.
Lemma dot3_sum v l : dot3 v (sum3 l) = rsuml (map (dot3 v) l).
Proof. induction l as [|a l IH]; cbn [map rsuml sum3]; [unfold dot3; cbn; ring|]. rewrite <- IH. unfold dot3. cbn. ring. Qed.
Lemma dot3_sum_l v l : dot3 (sum3 l) v = rsuml (map (fun a => dot3 a v) l).
Proof. induction l as [|a l IH]; cbn [map rsuml sum3]; [unfold dot3; cbn; ring|]. rewrite <- IH. unfold dot3. cbn. ring. Qed.
Lemma dot3_scal v s a : dot3 v (scal3 s a) = s * dot3 v a. Proof. unfold dot3; cbn; ring. Qed.
Lemma dot3_scal_l v s a : dot3 (scal3 s a) v = s * dot3 a v. Proof. unfold dot3; cbn; ring. Qed.
Lemma D_sum {A} (l : list A) (f : A -> R -> R) (f' : A -> R) t : (forall a, In a l -> D (f a) t (f' a)) ->
  D (fun s => rsuml (map (fun a => f a s) l)) t (rsuml (map f' l)).
Proof. induction l as [|a l IH]; cbn [map rsuml]; intros H; [apply D_const|]. apply D_add; [apply H; now left|]. apply IH. intros; apply H; now right. Qed.

(** ** the transposition, for a generic scalar kernel phi(w, x, q) linear in nothing *)
Section Generic.
Variables (W : Type) (phi : W -> vec3 -> qpt -> R) (G H : W -> vec3 -> qpt -> vec3).
Hypothesis K : forall w x pg ph t g' h', x <> pg t -> D3 pg t g' -> D3 ph t h' ->
  D (fun s => phi w x (pg s, ph s)) t (dot3 (G w x (pg t, ph t)) g' + dot3 (H w x (pg t, ph t)) h').
Definition ctot (w : W) (x : vec3) (c : R * list qpt) : R := fst c * (/ 10 ^ 7 / INR (length (snd c)) * rsuml (map (phi w x) (snd c))).
Definition cnocur (w : W) (x : vec3) (c : R * list qpt) : R := / 10 ^ 7 / INR (length (snd c)) * rsuml (map (phi w x) (snd c)).
Lemma ctot_D w x c t : moves t c -> off x (snd (at_time t c)) ->
  D (fun s => ctot w x (at_time s c)) t
    (cnocur w x (at_time t c) * mc_I' c + rsuml (map (fun q => mc_I c t * / 10 ^ 7 / INR (length (mc_q c)) * (dot3 (G w x (mq_g q t, mq_h q t)) (mq_g' q) + dot3 (H w x (mq_g q t, mq_h q t)) (mq_h' q))) (mc_q c))).
Proof using K.
  intros [HI HQ] OFF. unfold ctot, cnocur, at_time in *. cbn [fst snd] in *.
  eapply D_ext; [intros s; rewrite map_length, map_map; reflexivity|]. rewrite map_length, map_map.
  eapply D_val; [|apply D_mul; [exact HI|apply D_mul; [apply D_const|]]].
  2:{ apply (D_sum (mc_q c) (fun q s => phi w x (mq_g q s, mq_h q s)) (fun q => dot3 (G w x (mq_g q t, mq_h q t)) (mq_g' q) + dot3 (H w x (mq_g q t, mq_h q t)) (mq_h' q))).
      intros q Hq. destruct (HQ q Hq). apply K; auto. apply (OFF (mq_g q t, mq_h q t)). apply in_map_iff. now exists q. }
  cbv beta. rewrite rsuml_map_scale. unfold Rdiv. ring.
Qed.
Lemma pair3_vjp A (g : W -> vec3 -> qpt -> vec3) pw coil (pt : A -> qpt) vel l : snd coil = map pt l ->
  pair3 (vjp_arr g pw coil) (map vel l) = rsuml (map (fun q => rsuml (map (fun xv => fst coil * / 10 ^ 7 / INR (length (snd coil)) * dot3 (g (snd xv) (fst xv) (pt q)) (vel q)) pw)) l).
Proof.
  intros E. unfold pair3, vjp_arr. generalize (fst coil * / 10 ^ 7 / INR (length (snd coil))). intros f. rewrite E, map_map. clear E.
  induction l as [|q l IH]; cbn [map vmap2 rsuml]; [reflexivity|]. rewrite IH. f_equal. rewrite dot3_scal_l, dot3_sum_l, map_map, rsuml_map_scale. reflexivity.
Qed.
Theorem generic_vjp (cs : list mcoil) (pw : list (vec3 * W)) t :
  Forall (moves t) cs -> (forall xv, In xv pw -> off_all (fst xv) (map (at_time t) cs)) ->
  D (fun s => rsuml (map (fun xv => rsuml (map (ctot (snd xv) (fst xv)) (map (at_time s) cs))) pw)) t
    (rsuml (map (fun c => pair3 (vjp_arr G pw (at_time t c)) (map mq_g' (mc_q c)) + pair3 (vjp_arr H pw (at_time t c)) (map mq_h' (mc_q c))
                          + rsuml (map (fun xv => cnocur (snd xv) (fst xv) (at_time t c)) pw) * mc_I' c) cs)).
Proof using K.
  intros HM OFF. rewrite Forall_forall in HM.
  apply (D_ext (fun s => rsuml (map (fun c => rsuml (map (fun xv => ctot (snd xv) (fst xv) (at_time s c)) pw)) cs))).
  { intros s. rewrite (rsuml_swap (fun c xv => ctot (snd xv) (fst xv) (at_time s c))). apply rsuml_map_ext. intros xv _. now rewrite map_map. }
  apply (D_sum cs (fun c s => rsuml (map (fun xv => ctot (snd xv) (fst xv) (at_time s c)) pw))).
  intros c Hc. eapply D_val; [|apply (D_sum pw (fun xv s => ctot (snd xv) (fst xv) (at_time s c)) (fun xv => cnocur (snd xv) (fst xv) (at_time t c) * mc_I' c
    + rsuml (map (fun q => mc_I c t * / 10 ^ 7 / INR (length (mc_q c)) * (dot3 (G (snd xv) (fst xv) (mq_g q t, mq_h q t)) (mq_g' q) + dot3 (H (snd xv) (fst xv) (mq_g q t, mq_h q t)) (mq_h' q))) (mc_q c))))].
  2:{ intros xv Hxv. apply ctot_D; auto. apply (OFF xv Hxv (at_time t c)). now apply in_map. }
  cbv beta. rewrite !(pair3_vjp _ _ pw (at_time t c) (fun q => (mq_g q t, mq_h q t)) _ _ eq_refl).
  replace (length (snd (at_time t c))) with (length (mc_q c)) by (unfold at_time; cbn; now rewrite map_length).
  replace (fst (at_time t c)) with (mc_I c t) by reflexivity.
  set (f := mc_I c t * / 10 ^ 7 / INR (length (mc_q c))). rewrite rsuml_map_plus.
  rewrite rsuml_swap. rewrite <- rsuml_map_plus.
  assert (E : forall X, rsuml (map (fun a => cnocur (snd a) (fst a) (at_time t c) * mc_I' c) pw) + X = X + rsuml (map (fun xv => cnocur (snd xv) (fst xv) (at_time t c)) pw) * mc_I' c).
  { intros X. rewrite (rsuml_map_ext _ (fun a => mc_I' c * cnocur (snd a) (fst a) (at_time t c))) by (intros; ring). rewrite rsuml_map_scale. ring. }
  rewrite E. f_equal. apply rsuml_map_ext. intros q _. rewrite <- rsuml_map_plus. apply rsuml_map_ext. intros xv _. ring.
Qed.
End Generic.

Definition phi1 (kern : vec3 -> qpt -> vec3) (v x : vec3) (q : qpt) : R := dot3 v (kern x q).
Definition phi3 (kern : nat -> vec3 -> qpt -> vec3) (v : nat -> vec3) (x : vec3) (q : qpt) : R :=
  dot3 (v 0%nat) (kern 0%nat x q) + dot3 (v 1%nat) (kern 1%nat x q) + dot3 (v 2%nat) (kern 2%nat x q).
Lemma dot_coil kern v x c : dot3 v (coil_field kern c x) = / 10 ^ 7 / INR (length c) * rsuml (map (phi1 kern v x) c).
Proof. unfold coil_field. rewrite dot3_scal, dot3_sum, map_map. reflexivity. Qed.
Lemma dot_coils kern v x coils : dot3 v (coils_field kern coils x) = rsuml (map (ctot vec3 (phi1 kern) v x) coils).
Proof.
  unfold coils_field. rewrite dot3_sum, map_map. apply rsuml_map_ext. intros c _. unfold ctot. now rewrite dot3_scal, dot_coil.
Qed.
Lemma phi3_coil kern v x c :
  dot3 (v 0%nat) (coil_field (kern 0%nat) c x) + dot3 (v 1%nat) (coil_field (kern 1%nat) c x) + dot3 (v 2%nat) (coil_field (kern 2%nat) c x)
  = / 10 ^ 7 / INR (length c) * rsuml (map (phi3 kern v x) c).
Proof. rewrite !dot_coil. unfold phi3. rewrite !rsuml_map_plus. unfold phi1. ring. Qed.
Lemma phi3_coils kern v x coils :
  dot3 (v 0%nat) (coils_field (kern 0%nat) coils x) + dot3 (v 1%nat) (coils_field (kern 1%nat) coils x) + dot3 (v 2%nat) (coils_field (kern 2%nat) coils x)
  = rsuml (map (ctot (nat -> vec3) (phi3 kern) v x) coils).
Proof.
  rewrite !dot_coils, <- !rsuml_map_plus. apply rsuml_map_ext. intros c _. unfold ctot, phi3. rewrite !rsuml_map_plus. unfold phi1. ring.
Qed.

Ltac abstract_geometry x :=
  let i := fresh "i" in set (i := rsqrt (normsq (sub3 x _))); clearbody i.
Lemma K_B v x pg ph t g' h' : x <> pg t -> D3 pg t g' -> D3 ph t h' ->
  D (fun s => phi1 kB v x (pg s, ph s)) t (dot3 (vjp_gamma v x (pg t, ph t)) g' + dot3 (vjp_dgamma v x (pg t, ph t)) h').
Proof.
  intros OFF HG HH. unfold phi1. eapply D_val; [|apply D_dot; [apply D3_const|apply (kB_path (fun _ => x) pg ph t v0 g' h'); auto using D3_const]].
  cbv beta. unfold vjp_gamma, vjp_dgamma. cbn [fst snd]. change (/ sqrt (normsq (sub3 x (pg t)))) with (rsqrt (normsq (sub3 x (pg t)))).
  set (i := rsqrt (normsq (sub3 x (pg t)))). clearbody i. generalize (pg t) (ph t). intros g h. destruct v, x, g, h, g', h'. unfold dot3; cbn; unfold dot3; cbn. ring.
Qed.
Lemma K_A v x pg ph t g' h' : x <> pg t -> D3 pg t g' -> D3 ph t h' ->
  D (fun s => phi1 kA v x (pg s, ph s)) t (dot3 (vjpA_gamma v x (pg t, ph t)) g' + dot3 (vjpA_dgamma v x (pg t, ph t)) h').
Proof.
  intros OFF HG HH. unfold phi1. eapply D_val; [|apply D_dot; [apply D3_const|apply (kA_path (fun _ => x) pg ph t v0 g' h'); auto using D3_const]].
  cbv beta. unfold vjpA_gamma, vjpA_dgamma. cbn [fst snd]. change (/ sqrt (normsq (sub3 x (pg t)))) with (rsqrt (normsq (sub3 x (pg t)))).
  set (i := rsqrt (normsq (sub3 x (pg t)))). clearbody i. generalize (pg t) (ph t). intros g h. destruct v, x, g, h, g', h'. unfold dot3; cbn; unfold dot3; cbn. ring.
Qed.
Lemma K_dB_k k v x pg ph t g' h' : x <> pg t -> D3 pg t g' -> D3 ph t h' ->
  D (fun s => dot3 v (kdB k x (pg s, ph s))) t (dot3 (vjp_grad_gamma_k k v x (pg t, ph t)) g' + dot3 (vjp_grad_dgamma_k k v x (pg t, ph t)) h').
Proof.
  intros OFF HG HH. eapply D_val; [|apply D_dot; [apply D3_const|apply (kdB_path (fun _ => x) pg ph t v0 g' h'); auto using D3_const]].
  cbv beta. unfold vjp_grad_gamma_k, vjp_grad_dgamma_k. cbn [fst snd]. change (/ sqrt (normsq (sub3 x (pg t)))) with (rsqrt (normsq (sub3 x (pg t)))).
  set (i := rsqrt (normsq (sub3 x (pg t)))). clearbody i. generalize (pg t) (ph t). intros g h. destruct v, x, g, h, g', h'.
  destruct k as [|[|k]]; unfold dot3; cbn; unfold dot3; cbn; ring.
Qed.
Lemma K_dA_k k v x pg ph t g' h' : x <> pg t -> D3 pg t g' -> D3 ph t h' ->
  D (fun s => dot3 v (kdA k x (pg s, ph s))) t (dot3 (vjpA_grad_gamma_k k v x (pg t, ph t)) g' + dot3 (vjpA_grad_dgamma_k k v x (pg t, ph t)) h').
Proof.
  intros OFF HG HH. eapply D_val; [|apply D_dot; [apply D3_const|apply (kdA_path (fun _ => x) pg ph t v0 g' h'); auto using D3_const]].
  cbv beta. unfold vjpA_grad_gamma_k, vjpA_grad_dgamma_k. cbn [fst snd]. change (/ sqrt (normsq (sub3 x (pg t)))) with (rsqrt (normsq (sub3 x (pg t)))).
  set (i := rsqrt (normsq (sub3 x (pg t)))). clearbody i. generalize (pg t) (ph t). intros g h. destruct v, x, g, h, g', h'.
  destruct k as [|[|k]]; unfold dot3; cbn; unfold dot3; cbn; ring.
Qed.
Lemma dot_sumk f a : dot3 (sumk f) a = dot3 (f 0%nat) a + dot3 (f 1%nat) a + dot3 (f 2%nat) a.
Proof. unfold sumk, dot3. cbn. ring. Qed.
Lemma K_dB v x pg ph t g' h' : x <> pg t -> D3 pg t g' -> D3 ph t h' ->
  D (fun s => phi3 kdB v x (pg s, ph s)) t (dot3 (vjp_grad_gamma v x (pg t, ph t)) g' + dot3 (vjp_grad_dgamma v x (pg t, ph t)) h').
Proof.
  intros. unfold phi3, vjp_grad_gamma, vjp_grad_dgamma. rewrite !dot_sumk. eapply D_val; [|apply D_add; [apply D_add|]; apply K_dB_k; eauto]. ring.
Qed.
Lemma K_dA v x pg ph t g' h' : x <> pg t -> D3 pg t g' -> D3 ph t h' ->
  D (fun s => phi3 kdA v x (pg s, ph s)) t (dot3 (vjpA_grad_gamma v x (pg t, ph t)) g' + dot3 (vjpA_grad_dgamma v x (pg t, ph t)) h').
Proof.
  intros. unfold phi3, vjpA_grad_gamma, vjpA_grad_dgamma. rewrite !dot_sumk. eapply D_val; [|apply D_add; [apply D_add|]; apply K_dA_k; eauto]. ring.
Qed.

(** ** the four vjps *)
Section C57.
Variables (cs : list mcoil) (t : R).
Hypothesis HM : Forall (moves t) cs.
Theorem C57_B_vjp pw : (forall xv, In xv pw -> off_all (fst xv) (map (at_time t) cs)) ->
  D (fun s => probe kB pw (map (at_time s) cs)) t
    (rsuml (map (fun c => pair3 (vjp_arr vjp_gamma pw (at_time t c)) (map mq_g' (mc_q c)) + pair3 (vjp_arr vjp_dgamma pw (at_time t c)) (map mq_h' (mc_q c))
                          + vjp_cur kB pw (at_time t c) * mc_I' c) cs)).
Proof using HM.
  intros OFF. unfold probe. eapply D_ext; [intros s; apply rsuml_map_ext; intros xv _; symmetry; apply dot_coils|].
  eapply D_val; [|apply (generic_vjp vec3 (phi1 kB) _ _ K_B cs pw t HM OFF)].
  apply rsuml_map_ext. intros c _. f_equal. f_equal. unfold vjp_cur. apply rsuml_map_ext. intros xv _. now rewrite dot_coil.
Qed.
Theorem C57_A_vjp pw : (forall xv, In xv pw -> off_all (fst xv) (map (at_time t) cs)) ->
  D (fun s => probe kA pw (map (at_time s) cs)) t
    (rsuml (map (fun c => pair3 (vjp_arr vjpA_gamma pw (at_time t c)) (map mq_g' (mc_q c)) + pair3 (vjp_arr vjpA_dgamma pw (at_time t c)) (map mq_h' (mc_q c))
                          + vjp_cur kA pw (at_time t c) * mc_I' c) cs)).
Proof using HM.
  intros OFF. unfold probe. eapply D_ext; [intros s; apply rsuml_map_ext; intros xv _; symmetry; apply dot_coils|].
  eapply D_val; [|apply (generic_vjp vec3 (phi1 kA) _ _ K_A cs pw t HM OFF)].
  apply rsuml_map_ext. intros c _. f_equal. f_equal. unfold vjp_cur. apply rsuml_map_ext. intros xv _. now rewrite dot_coil.
Qed.
Theorem C57_dB_vjp pw : (forall xv, In xv pw -> off_all (fst xv) (map (at_time t) cs)) ->
  D (fun s => probe_grad kdB pw (map (at_time s) cs)) t
    (rsuml (map (fun c => pair3 (vjp_arr vjp_grad_gamma pw (at_time t c)) (map mq_g' (mc_q c)) + pair3 (vjp_arr vjp_grad_dgamma pw (at_time t c)) (map mq_h' (mc_q c))
                          + vjp_cur_grad kdB pw (at_time t c) * mc_I' c) cs)).
Proof using HM.
  intros OFF. unfold probe_grad. eapply D_ext; [intros s; apply rsuml_map_ext; intros xv _; symmetry; apply (phi3_coils kdB)|].
  eapply D_val; [|apply (generic_vjp (nat -> vec3) (phi3 kdB) _ _ K_dB cs pw t HM OFF)].
  apply rsuml_map_ext. intros c _. f_equal. f_equal. unfold vjp_cur_grad. apply rsuml_map_ext. intros xv _. now rewrite (phi3_coil kdB).
Qed.
Theorem C57_dA_vjp pw : (forall xv, In xv pw -> off_all (fst xv) (map (at_time t) cs)) ->
  D (fun s => probe_grad kdA pw (map (at_time s) cs)) t
    (rsuml (map (fun c => pair3 (vjp_arr vjpA_grad_gamma pw (at_time t c)) (map mq_g' (mc_q c)) + pair3 (vjp_arr vjpA_grad_dgamma pw (at_time t c)) (map mq_h' (mc_q c))
                          + vjp_cur_grad kdA pw (at_time t c) * mc_I' c) cs)).
Proof using HM.
  intros OFF. unfold probe_grad. eapply D_ext; [intros s; apply rsuml_map_ext; intros xv _; symmetry; apply (phi3_coils kdA)|].
  eapply D_val; [|apply (generic_vjp (nat -> vec3) (phi3 kdA) _ _ K_dA cs pw t HM OFF)].
  apply rsuml_map_ext. intros c _. f_equal. f_equal. unfold vjp_cur_grad. apply rsuml_map_ext. intros xv _. now rewrite (phi3_coil kdA).
Qed.
End C57.
(** the hypotheses are met: a coil of two quadrature points whose first point and current move linearly, seen from
    a point that stays off the coil *)
Example moving_coil : mcoil :=
  MC (fun s => 1 + s) 1 [MQ (fun s => V3 (1 + s) 0 0) (V3 1 0 0) (fun _ => V3 0 1 0) v0; MQ (fun _ => V3 (-1) 0 0) v0 (fun _ => V3 0 (-1) 0) v0].
Example moving_coil_ok : moves 0 moving_coil /\ off_all (V3 0 0 1) (map (at_time 0) [moving_coil]).
Proof.
  split.
  - split; cbn; [eapply D_val; [|apply D_add; [apply D_const|apply D_id]]; lra|]. intros q [<-|[<-|[]]]; cbn; split; try apply D3_const.
    split; [|split]; cbn; try apply D_const. eapply D_val; [|apply D_add; [apply D_const|apply D_id]]; lra.
  - intros c [<-|[]] q [<-|[<-|[]]]; cbn; intros E; injection E; lra.
Qed.
