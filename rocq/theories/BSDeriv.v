(** C56-C58: the derivative arrays of the Biot-Savart field are the derivatives of the field, and the vjp
    arrays are the transposed Jacobian of the field with respect to the coils. *)
From Verif Require Import Vec3 BSModel.
From Coq Require Import Ranalysis1.
Open Scope R_scope.

(** ** Specification: derivatives along paths *)
Definition D := derivable_pt_lim.
(** the path p has velocity p' at time t *)
Definition D3 (p : R -> vec3) (t : R) (p' : vec3) : Prop :=
  D (fun s => vx (p s)) t (vx p') /\ D (fun s => vy (p s)) t (vy p') /\ D (fun s => vz (p s)) t (vz p').
(** x is not a quadrature point of the coil *)
Definition off (x : vec3) (c : list qpt) : Prop := forall q, In q c -> x <> fst q.
Definition off_all (x : vec3) (coils : list (R * list qpt)) : Prop := forall c, In c coils -> off x (snd c).
(** the path through x in coordinate direction k *)
Definition along (x : vec3) (k : nat) (t : R) : vec3 := add3 x (scal3 t (unit3 k)).

(** ** rules *)
Lemma D_ext f g t l : (forall s, f s = g s) -> D f t l -> D g t l.
Proof. intros E H eps He. destruct (H eps He) as [d Hd]. exists d. intros h Hh. rewrite <- !E. now apply Hd. Qed.
Lemma D_val f t l l' : l = l' -> D f t l -> D f t l'. Proof. now intros ->. Qed.
Lemma D_const c t : D (fun _ => c) t 0. Proof. apply derivable_pt_lim_const. Qed.
Lemma D_id t : D (fun s => s) t 1. Proof. apply derivable_pt_lim_id. Qed.
Lemma D_add f g t a b : D f t a -> D g t b -> D (fun s => f s + g s) t (a + b). Proof. apply derivable_pt_lim_plus. Qed.
Lemma D_sub f g t a b : D f t a -> D g t b -> D (fun s => f s - g s) t (a - b). Proof. apply derivable_pt_lim_minus. Qed.
Lemma D_opp f t a : D f t a -> D (fun s => - f s) t (- a). Proof. apply derivable_pt_lim_opp. Qed.
Lemma D_mul f g t a b : D f t a -> D g t b -> D (fun s => f s * g s) t (a * g t + f t * b). Proof. apply derivable_pt_lim_mult. Qed.
Lemma D_rsqrt f t a : D f t a -> 0 < f t -> D (fun s => rsqrt (f s)) t (- a / 2 * (rsqrt (f t) * rsqrt (f t) * rsqrt (f t))).
Proof.
  intros H P. unfold rsqrt.
  assert (H1 : D (fun s => sqrt (f s)) t (/ (2 * sqrt (f t)) * a)) by (apply (derivable_pt_lim_comp f sqrt); auto; now apply derivable_pt_lim_sqrt).
  assert (NZ : sqrt (f t) <> 0) by (apply Rgt_not_eq, sqrt_lt_R0; auto).
  assert (H2 := derivable_pt_lim_div (fct_cte 1) _ t 0 _ (derivable_pt_lim_const 1 t) H1 NZ).
  eapply D_val; [|eapply D_ext; [|exact H2]].
  - unfold fct_cte, Rsqr. field. auto.
  - intros s. unfold div_fct, fct_cte. unfold Rdiv. ring.
Qed.
Ltac dsplit := split; [|split]; cbn [vx vy vz add3 sub3 scal3 cross].
Lemma D3_add p q t a b : D3 p t a -> D3 q t b -> D3 (fun s => add3 (p s) (q s)) t (add3 a b).
Proof. intros (A & B & C) (A' & B' & C'). dsplit; now apply D_add. Qed.
Lemma D3_sub p q t a b : D3 p t a -> D3 q t b -> D3 (fun s => sub3 (p s) (q s)) t (sub3 a b).
Proof. intros (A & B & C) (A' & B' & C'). dsplit; now apply D_sub. Qed.
Lemma D3_const c t : D3 (fun _ => c) t v0. Proof. dsplit; apply D_const. Qed.
Lemma D3_scal f p t a b : D f t a -> D3 p t b -> D3 (fun s => scal3 (f s) (p s)) t (add3 (scal3 a (p t)) (scal3 (f t) b)).
Proof. intros H (A & B & C). dsplit; now apply D_mul. Qed.
Lemma D3_cross p q t a b : D3 p t a -> D3 q t b -> D3 (fun s => cross (p s) (q s)) t (add3 (cross a (q t)) (cross (p t) b)).
Proof.
  intros (A & B & C) (A' & B' & C').
  dsplit; (eapply D_val; [|apply D_sub; apply D_mul; eauto]); cbn; ring.
Qed.
Lemma D_dot p q t a b : D3 p t a -> D3 q t b -> D (fun s => dot3 (p s) (q s)) t (dot3 a (q t) + dot3 (p t) b).
Proof.
  intros (A & B & C) (A' & B' & C'). unfold dot3. eapply D_val; [|apply D_add; [apply D_add|]; apply D_mul; eauto]. cbn. ring.
Qed.
Lemma D_comp p t a k : D3 p t a -> D (fun s => coord (p s) k) t (coord a k).
Proof. intros (A & B & C). destruct k as [|[|k]]; auto. Qed.
Lemma D3_cross_ek p t a k : D3 p t a -> D3 (fun s => cross_ek (p s) k) t (cross_ek a k).
Proof. intros (A & B & C). destruct k as [|[|k]]; dsplit; cbn; auto using D_const, D_opp. Qed.
Lemma D3_val p t a b : a = b -> D3 p t a -> D3 p t b. Proof. now intros ->. Qed.
Lemma D3_ext p q t a : (forall s, p s = q s) -> D3 p t a -> D3 q t a.
Proof. intros E (A & B & C). dsplit; eapply D_ext; eauto; intros s; cbn; now rewrite E. Qed.
Lemma D3_sum {A} (l : list A) (f : A -> R -> vec3) (f' : A -> vec3) t : (forall a, In a l -> D3 (f a) t (f' a)) ->
  D3 (fun s => sum3 (map (fun a => f a s) l)) t (sum3 (map f' l)).
Proof.
  induction l as [|a l IH]; cbn; intros H; [apply D3_const|]. apply D3_add; auto.
Qed.
Lemma normsq_pos a b : a <> b -> 0 < normsq (sub3 a b).
Proof.
  intros H. unfold normsq, dot3. cbn. destruct (Req_dec (vx a) (vx b)); destruct (Req_dec (vy a) (vy b)); destruct (Req_dec (vz a) (vz b)); try (exfalso; apply H; now apply v3_eq); nra.
Qed.
Lemma rsqrt_sq n : 0 < n -> rsqrt n * rsqrt n * n = 1.
Proof. intros H. unfold rsqrt. rewrite <- (sqrt_sqrt n) at 3 by lra. field. apply Rgt_not_eq, sqrt_lt_R0; auto. Qed.

(** ** derivatives of the kernels along a path of (x, gamma, gammadash) *)
Section Kernel.
Variables (px pg ph : R -> vec3) (t : R) (x' g' h' : vec3).
Hypothesis HX : D3 px t x'.
Hypothesis HG : D3 pg t g'.
Hypothesis HH : D3 ph t h'.
Hypothesis OFF : px t <> pg t.
Notation d := (sub3 (px t) (pg t)).
Notation d' := (sub3 x' g').
Notation h := (ph t).
Notation i1 := (rsqrt (normsq d)).
Notation i3 := (i1 * i1 * i1).
Notation i5 := (i3 * (i1 * i1)).
Notation i7 := (i5 * (i1 * i1)).
Lemma H_d : D3 (fun s => sub3 (px s) (pg s)) t d'. Proof. apply D3_sub; auto. Qed.
Lemma H_n : D (fun s => normsq (sub3 (px s) (pg s))) t (2 * dot3 d d').
Proof. unfold normsq. eapply D_val; [|apply D_dot; apply H_d]. unfold dot3. ring. Qed.
Lemma H_i1 : D (fun s => rsqrt (normsq (sub3 (px s) (pg s)))) t (- dot3 d d' * i3).
Proof. eapply D_val; [|apply D_rsqrt; [apply H_n|apply normsq_pos; auto]]. cbv beta. field. Qed.
Lemma H_i3 : D (fun s => rsqrt (normsq (sub3 (px s) (pg s))) * rsqrt (normsq (sub3 (px s) (pg s))) * rsqrt (normsq (sub3 (px s) (pg s)))) t (- 3 * dot3 d d' * i5).
Proof. eapply D_val; [|apply D_mul; [apply D_mul|]; apply H_i1]. cbv beta. ring. Qed.
Lemma H_c : D3 (fun s => cross (ph s) (sub3 (px s) (pg s))) t (add3 (cross h' d) (cross h d')).
Proof. apply D3_cross; auto. apply H_d. Qed.

Lemma kB_path : D3 (fun s => kB (px s) (pg s, ph s)) t (add3 (scal3 (- 3 * dot3 d d' * i5) (cross h d)) (scal3 i3 (add3 (cross h' d) (cross h d')))).
Proof. unfold kB. cbn [fst snd]. exact (D3_scal _ _ _ _ _ H_i3 H_c). Qed.
Lemma kA_path : D3 (fun s => kA (px s) (pg s, ph s)) t (add3 (scal3 (- dot3 d d' * i3) h) (scal3 i1 h')).
Proof. unfold kA. cbn [fst snd]. exact (D3_scal _ _ _ _ _ H_i1 HH). Qed.
Lemma one : i1 * i1 * normsq d = 1. Proof. apply rsqrt_sq, normsq_pos; auto. Qed.
(** the field gradient in simplified form *)
Lemma kdB_simpl k : kdB k (px t) (pg t, h) = sub3 (scal3 i3 (cross_ek h k)) (scal3 (3 * i5 * coord d k) (cross h d)).
Proof using OFF.
  unfold kdB. cbn [fst snd]. assert (O := one). set (i := i1) in *. set (n := normsq d) in *.
  assert (E : i * i * i * i * (n * i) = i * i * i) by (replace (i * i * i * i * (n * i)) with (i * i * i * (i * i * n)) by ring; rewrite O; ring).
  transitivity (sub3 (scal3 (i * i * i * i * (n * i)) (cross_ek h k)) (scal3 (3 * (i * i * i * (i * i)) * coord d k) (cross h d))); [|now rewrite E].
  destruct k as [|[|k]]; apply v3_eq; cbn; ring.
Qed.
Lemma kdB_path k : D3 (fun s => kdB k (px s) (pg s, ph s)) t
  (sub3 (add3 (scal3 (- 3 * dot3 d d' * i5) (cross_ek h k)) (scal3 i3 (cross_ek h' k)))
        (add3 (scal3 (3 * (- 5 * dot3 d d' * i7 * coord d k + i5 * coord d' k)) (cross h d)) (scal3 (3 * i5 * coord d k) (add3 (cross h' d) (cross h d'))))).
Proof.
  unfold kdB. cbn [fst snd]. assert (HI := H_i1). assert (H3 := H_i3). assert (HN := H_n). assert (HC := H_c). assert (HD := D_comp _ _ _ k H_d).
  eapply D3_val; [|apply D3_scal; [apply (D_mul _ _ _ _ _ H3 HI)|apply D3_sub; [apply D3_cross_ek, D3_scal; [apply (D_mul _ _ _ _ _ HN HI)|exact HH]|]]].
  2:{ apply D3_scal; [exact HD|]. apply D3_scal; [|exact HC]. apply D_mul; [apply D_const|exact HI]. }
  cbv beta. assert (O := one). clear HI H3 HN HC HD. set (i := i1) in *. set (n := normsq d) in *. set (m := dot3 d d').
  set (c := coord d k). set (c' := coord d' k). set (e := d). set (e' := d'). clearbody e e' c c' m n i. clear - O. destruct e, e', (ph t), h'.
  destruct k as [|[|k]]; apply v3_eq; cbn; ring [O].
Qed.
Lemma kdA_path k : D3 (fun s => kdA k (px s) (pg s, ph s)) t
  (add3 (scal3 (3 * dot3 d d' * i5 * coord d k - i3 * coord d' k) h) (scal3 (- (i3 * coord d k)) h')).
Proof.
  unfold kdA. cbn [fst snd]. eapply D3_val; [|apply D3_scal; [apply D_opp, D_mul; [apply H_i3|apply (D_comp _ _ _ k H_d)]|exact HH]].
  cbv beta. apply v3_eq; cbn; ring.
Qed.
End Kernel.

Lemma along_0 x k : along x k 0 = x. Proof. unfold along. destruct k as [|[|k]]; v3; ring. Qed.
Lemma along_D x k : D3 (along x k) 0 (unit3 k).
Proof.
  unfold along. eapply D3_val; [|apply D3_add; [apply D3_const|apply D3_scal; [apply D_id|apply D3_const]]]. destruct k as [|[|k]]; v3; ring.
Qed.
Lemma D3_scalc c p t b : D3 p t b -> D3 (fun s => scal3 c (p s)) t (scal3 c b).
Proof. intros H. eapply D3_val; [|apply D3_scal; [apply D_const|exact H]]. generalize (p t). intros a. v3; ring. Qed.
Lemma D3_coil kern kern' c p t : (forall q, In q c -> D3 (fun s => kern (p s) q) t (kern' (p t) q)) ->
  D3 (fun s => coil_field kern c (p s)) t (coil_field kern' c (p t)).
Proof.
  intros H. unfold coil_field. apply D3_scalc. apply (D3_sum c (fun q s => kern (p s) q) (fun q => kern' (p t) q)); auto.
Qed.
Lemma D3_coils kern kern' coils p t : (forall c q, In c coils -> In q (snd c) -> D3 (fun s => kern (p s) q) t (kern' (p t) q)) ->
  D3 (fun s => coils_field kern coils (p s)) t (coils_field kern' coils (p t)).
Proof.
  intros H. unfold coils_field. apply (D3_sum coils (fun c s => scal3 (fst c) (coil_field kern (snd c) (p s))) (fun c => scal3 (fst c) (coil_field kern' (snd c) (p t)))).
  intros c Hc. apply D3_scalc, D3_coil. intros q Hq; apply (H c q Hc Hq).
Qed.
Ltac kern_step := intros; repeat match goal with H : off_all _ _ |- _ => red in H | q : qpt |- _ => destruct q end.

(** ** C56: the derivative arrays are the partial derivatives, for any number of coils and quadrature points,
    at every point that is not a quadrature point *)
Section C56.
Variables (coils : list (R * list qpt)) (x : vec3).
Hypothesis OFF : off_all x coils.
Lemma c56_aux kern kern' k : (forall q, x <> fst q -> D3 (fun s => kern (along x k s) q) 0 (kern' x q)) ->
  D3 (fun s => coils_field kern coils (along x k s)) 0 (coils_field kern' coils x).
Proof.
  intros H. eapply D3_val; [|apply (D3_coils kern kern' coils (along x k) 0)]; rewrite along_0; auto. intros c q Hc Hq. apply H, (OFF c Hc q Hq).
Qed.
Theorem C56_dB_is_derivative_of_B k : D3 (fun s => coils_field kB coils (along x k s)) 0 (coils_field (kdB k) coils x).
Proof.
  apply c56_aux. intros [g h] NE. cbn in NE. assert (OF : along x k 0 <> (fun _ => g) 0) by now rewrite along_0.
  eapply D3_val; [|apply (kB_path (along x k) (fun _ => g) (fun _ => h) 0 (unit3 k) v0 v0 (along_D x k) (D3_const _ _) (D3_const _ _) OF)].
  cbv beta. assert (E := kdB_simpl (along x k) (fun _ => g) (fun _ => h) 0 OF k). cbv beta in E. rewrite along_0 in *. rewrite E. set (i := rsqrt _). clearbody i. clear.
  destruct x, g, h, k as [|[|k]]; apply v3_eq; cbn; unfold dot3; cbn; ring.
Qed.
Theorem C56_d2B_is_derivative_of_dB k1 k2 : (k1 < 3)%nat -> (k2 < 3)%nat -> D3 (fun s => coils_field (kdB k1) coils (along x k2 s)) 0 (coils_field (kddB k1 k2) coils x).
Proof.
  intros L1 L2. apply c56_aux. intros [g h] NE. cbn in NE. assert (OF : along x k2 0 <> (fun _ => g) 0) by now rewrite along_0.
  eapply D3_val; [|apply (kdB_path (along x k2) (fun _ => g) (fun _ => h) 0 (unit3 k2) v0 v0 (along_D x k2) (D3_const _ _) (D3_const _ _) OF k1)].
  cbv beta. rewrite along_0 in *. replace (kddB k1 k2 x (g, h)) with (if (k2 <=? k1)%nat then kddB_low k1 k2 x (g, h) else kddB_low k2 k1 x (g, h)) by (unfold kddB; now destruct (k2 <=? k1)%nat).
  unfold kddB_low. cbn [fst snd]. set (i := rsqrt _). clearbody i. clear - L1 L2.
  destruct x, g, h. destruct k1 as [|[|[|k1]]]; [| | |lia]; (destruct k2 as [|[|[|k2]]]; [| | |lia]); apply v3_eq; cbn; unfold dot3; cbn; ring.
Qed.
Theorem C56_dA_is_derivative_of_A k : D3 (fun s => coils_field kA coils (along x k s)) 0 (coils_field (kdA k) coils x).
Proof.
  apply c56_aux. intros [g h] NE. cbn in NE. assert (OF : along x k 0 <> (fun _ => g) 0) by now rewrite along_0.
  eapply D3_val; [|apply (kA_path (along x k) (fun _ => g) (fun _ => h) 0 (unit3 k) v0 v0 (along_D x k) (D3_const _ _) (D3_const _ _) OF)].
  cbv beta. rewrite along_0 in *. unfold kdA. cbn [fst snd]. set (i := rsqrt _). clearbody i. clear.
  destruct x, g, h, k as [|[|k]]; apply v3_eq; cbn; unfold dot3; cbn; ring.
Qed.
Theorem C56_d2A_is_derivative_of_dA k1 k2 : (k1 < 3)%nat -> (k2 < 3)%nat -> D3 (fun s => coils_field (kdA k1) coils (along x k2 s)) 0 (coils_field (kddA k1 k2) coils x).
Proof.
  intros L1 L2. apply c56_aux. intros [g h] NE. cbn in NE. assert (OF : along x k2 0 <> (fun _ => g) 0) by now rewrite along_0.
  eapply D3_val; [|apply (kdA_path (along x k2) (fun _ => g) (fun _ => h) 0 (unit3 k2) v0 v0 (along_D x k2) (D3_const _ _) (D3_const _ _) OF k1)].
  cbv beta. rewrite along_0 in *. replace (kddA k1 k2 x (g, h)) with (if (k2 <=? k1)%nat then kddA_low k1 k2 x (g, h) else kddA_low k2 k1 x (g, h)) by (unfold kddA; now destruct (k2 <=? k1)%nat).
  unfold kddA_low. cbn [fst snd]. set (i := rsqrt _). clearbody i. clear - L1 L2.
  destruct x, g, h. destruct k1 as [|[|[|k1]]]; [| | |lia]; (destruct k2 as [|[|[|k2]]]; [| | |lia]); apply v3_eq; cbn; unfold dot3; cbn; ring.
Qed.

(** ** C58: Maxwell's equations hold exactly for the discretised field *)
Lemma coord_add a b k : coord (add3 a b) k = coord a k + coord b k. Proof. destruct k as [|[|k]]; auto. Qed.
Lemma coord_scal s a k : coord (scal3 s a) k = s * coord a k. Proof. destruct k as [|[|k]]; auto. Qed.
Lemma kdB_trace y g h : y <> g -> vx (kdB 0 y (g, h)) + vy (kdB 1 y (g, h)) + vz (kdB 2 y (g, h)) = 0.
Proof.
  intros NE. rewrite !(kdB_simpl (fun _ => y) (fun _ => g) (fun _ => h) 0 NE _ : kdB _ y (g, h) = _).
  set (i := rsqrt _). clearbody i. clear. destruct y, g, h. cbn. ring.
Qed.
(** div B = 0: the trace of dB_by_dX vanishes *)
Theorem C58_div_B_zero : vx (coils_field (kdB 0) coils x) + vy (coils_field (kdB 1) coils x) + vz (coils_field (kdB 2) coils x) = 0.
Proof.
  unfold coils_field. assert (H : forall c, In c coils -> off x (snd c)) by auto. clear OFF. induction coils as [|[I c] cs IH]; [cbn; ring|].
  assert (HC : vx (coil_field (kdB 0) c x) + vy (coil_field (kdB 1) c x) + vz (coil_field (kdB 2) c x) = 0).
  { unfold coil_field. assert (HO := H _ (or_introl eq_refl)). cbn in HO. clear - HO. generalize (/ 10 ^ 7 / INR (length c)). intros f.
    cbn [scal3 vx vy vz]. rewrite <- !Rmult_plus_distr_l.
    match goal with |- f * ?l = 0 => enough (E : l = 0) by (rewrite E; ring) end. induction c as [|[g h] c IH]; [cbn; ring|].
    assert (NE : x <> g) by (apply (HO (g, h)); now left). assert (T := kdB_trace x g h NE).
    assert (IH' := IH (fun q Hq => HO q (or_intror Hq))). cbn [map sum3 add3 vx vy vz]. lra. }
  assert (IH' := IH (fun c' Hc' => H c' (or_intror Hc'))).
  cbn [map sum3 add3 vx vy vz scal3 fst snd].   match type of IH' with ?r = 0 => transitivity (I * (vx (coil_field (kdB 0) c x) + vy (coil_field (kdB 1) c x) + vz (coil_field (kdB 2) c x)) + r) end; [ring|]. rewrite HC, IH'. ring.
Qed.
End C56.
(** B = curl A: B and dA_by_dX agree (also at the quadrature points) *)
Theorem C58_B_is_curl_A coils x :
  let dA k := coils_field (kdA k) coils x in
  coils_field kB coils x = V3 (vz (dA 1%nat) - vy (dA 2%nat)) (vx (dA 2%nat) - vz (dA 0%nat)) (vy (dA 0%nat) - vx (dA 1%nat)).
Proof.
  cbv zeta. unfold coils_field. induction coils as [|[I c] cs IH]; cbn [map sum3 fst snd]; [v3; ring|]. rewrite IH.
  assert (HC : coil_field kB c x = V3 (vz (coil_field (kdA 1) c x) - vy (coil_field (kdA 2) c x)) (vx (coil_field (kdA 2) c x) - vz (coil_field (kdA 0) c x)) (vy (coil_field (kdA 0) c x) - vx (coil_field (kdA 1) c x))).
  { unfold coil_field. generalize (/ 10 ^ 7 / INR (length c)). intros f. clear. induction c as [|[g h] c IH]; cbn [map sum3]; [v3; ring|].
    rewrite !scal3_add, IH. generalize (sum3 (map (kdA 0 x) c)) (sum3 (map (kdA 1 x) c)) (sum3 (map (kdA 2 x) c)). intros a b e.
    unfold kB, kdA. cbn [fst snd]. set (i := rsqrt _). clearbody i. destruct x, g, h. v3; ring. }
  rewrite HC. apply v3_eq; cbn; ring.
Qed.
(** the array of second derivatives is symmetric *)
Theorem C58_second_derivatives_symmetric coils x k1 k2 :
  coils_field (kddB k1 k2) coils x = coils_field (kddB k2 k1) coils x /\ coils_field (kddA k1 k2) coils x = coils_field (kddA k2 k1) coils x.
Proof.
  assert (H : kddB k1 k2 = kddB k2 k1 /\ kddA k1 k2 = kddA k2 k1); [|destruct H as [-> ->]; auto].
  unfold kddB, kddA. destruct (Nat.leb_spec k2 k1); destruct (Nat.leb_spec k1 k2); auto; try lia. assert (k1 = k2) by lia. now subst.
Qed.
