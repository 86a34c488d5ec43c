(** C116, C117: the same gradients for the field of moving coils, a case where the gradient of a least squares surface is wrong, and
    concrete instances. *)
From Coq Require Import Reals Lra Lia List Bool.
From Verif Require Import VecAux Vec3 BSModel BSDeriv BSVjp SurfDiffProps CurveObjModel CurveObjProps BoozSurf BoozProps BoozThms TensorSym MaskProps AdjLin AdjModel AdjProps AdjThms.
Import ListNotations.
Open Scope R_scope.

(** ** The field of coils that move with time *)
Section Gen.
Variables (kern : vec3 -> qpt -> vec3) (kx : vec3 -> vec3 -> qpt -> vec3) (kc : vec3 -> mqpt -> vec3) (t : R) (cs : list mcoil).
Hypothesis KJ : forall p p' q, D3 p t p' -> D3 (mq_g q) t (mq_g' q) -> D3 (mq_h q) t (mq_h' q) -> p t <> mq_g q t ->
  D3 (fun s => kern (p s) (mq_g q s, mq_h q s)) t (add3 (kx p' (p t) (mq_g q t, mq_h q t)) (kc (p t) q)).
Hypothesis K0 : forall p p' q, D3 p t p' -> p t <> fst q -> D3 (fun s => kern (p s) q) t (kx p' (p t) q).
Definition gen_c (x : vec3) : vec3 :=
  sum3 (map (fun c => add3 (scal3 (mc_I' c) (coil_field kern (snd (at_time t c)) x)) (scal3 (mc_I c t * (/ 10 ^ 7 / INR (length (mc_q c)))) (sum3 (map (kc x) (mc_q c))))) cs).
Lemma gen_D p p' : Forall (moves t) cs -> D3 p t p' -> off_all (p t) (map (at_time t) cs) ->
  D3 (fun s => coils_field kern (map (at_time s) cs) (p s)) t (add3 (coils_field (kx p') (map (at_time t) cs) (p t)) (gen_c (p t))).
Proof using KJ.
  intros HM HP OFF. unfold coils_field, gen_c. rewrite map_map, <- sum3_map_add. apply (D3_ext (fun s => sum3 (map (fun c => scal3 (mc_I c s) (coil_field kern (snd (at_time s c)) (p s))) cs))); [intros s; now rewrite map_map|].
  apply (D3_sum cs (fun c s => scal3 (mc_I c s) (coil_field kern (snd (at_time s c)) (p s)))). intros c IC. rewrite Forall_forall in HM. destruct (HM c IC) as [HI HQ].
  assert (OC : forall q, In q (mc_q c) -> p t <> mq_g q t).
  { intros q IQ. apply (OFF (at_time t c) (in_map _ _ _ IC) (mq_g q t, mq_h q t)). cbn [at_time snd]. apply in_map_iff. exists q. auto. }
  eapply D3_val; [|apply D3_scal; [exact HI|]].
  2:{ apply (D3_ext (fun s => scal3 (/ 10 ^ 7 / INR (length (mc_q c))) (sum3 (map (fun q => kern (p s) (mq_g q s, mq_h q s)) (mc_q c))))); [intros s; unfold coil_field, at_time; cbn [snd]; now rewrite map_length, map_map|].
      apply D3_scalc. apply (D3_sum (mc_q c) (fun q s => kern (p s) (mq_g q s, mq_h q s)) (fun q => add3 (kx p' (p t) (mq_g q t, mq_h q t)) (kc (p t) q))). intros q IQ. destruct (HQ q IQ). apply KJ; auto. }
  cbv beta. rewrite sum3_map_add. unfold coil_field, at_time. cbn [fst snd]. rewrite map_length, !map_map.
  generalize (sum3 (map (fun q => kx p' (p t) (mq_g q t, mq_h q t)) (mc_q c))) (sum3 (map (kc (p t)) (mc_q c))) (sum3 (map (fun q => kern (p t) (mq_g q t, mq_h q t)) (mc_q c))) (/ 10 ^ 7 / INR (length (mc_q c))) (mc_I c t) (mc_I' c). clear. intros. apply v3_eq; vu; ring.
Qed.
Lemma gen_frozen p p' : D3 p t p' -> off_all (p t) (map (at_time t) cs) -> D3 (fun s => coils_field kern (map (at_time t) cs) (p s)) t (coils_field (kx p') (map (at_time t) cs) (p t)).
Proof using K0. intros HP OFF. apply (D3_coils kern (kx p')). intros c q IC IQ. apply K0; [exact HP|]. exact (OFF c IC q IQ). Qed.
End Gen.
(** the derivative of the kernels, split into the motion of the point and of the quadrature point *)
Definition kB_d (diff h d' h' : vec3) : vec3 :=
  let i1 := rsqrt (normsq diff) in add3 (scal3 (- 3 * dot3 diff d' * (i1 * i1 * i1 * (i1 * i1))) (cross h diff)) (scal3 (i1 * i1 * i1) (add3 (cross h' diff) (cross h d'))).
Definition kB_x (x' x : vec3) (q : qpt) : vec3 := kB_d (sub3 x (fst q)) (snd q) x' v0.
Lemma kB_d_lin diff h a b c e : kB_d diff h (add3 a b) (add3 c e) = add3 (kB_d diff h a c) (kB_d diff h b e).
Proof. unfold kB_d. generalize (rsqrt (normsq diff)). intros i. apply v3_eq; unfold cross; vu; ring. Qed.
Definition kdB_d (k : nat) (diff h d' h' : vec3) : vec3 :=
  let i1 := rsqrt (normsq diff) in let i3 := i1 * i1 * i1 in let i5 := i3 * (i1 * i1) in let i7 := i5 * (i1 * i1) in
  sub3 (add3 (scal3 (- 3 * dot3 diff d' * i5) (cross_ek h k)) (scal3 i3 (cross_ek h' k)))
       (add3 (scal3 (3 * (- 5 * dot3 diff d' * i7 * coord diff k + i5 * coord d' k)) (cross h diff)) (scal3 (3 * i5 * coord diff k) (add3 (cross h' diff) (cross h d')))).
Definition kdB_x (k : nat) (x' x : vec3) (q : qpt) : vec3 := kdB_d k (sub3 x (fst q)) (snd q) x' v0.
Lemma kdB_d_lin k diff h a b c e : kdB_d k diff h (add3 a b) (add3 c e) = add3 (kdB_d k diff h a c) (kdB_d k diff h b e).
Proof. unfold kdB_d. generalize (rsqrt (normsq diff)). intros i. destruct k as [|[|k]]; unfold cross_ek, coord; apply v3_eq; unfold cross; vu; ring. Qed.
Definition neg3 a := sub3 v0 a.
Definition kB_c (t : R) (x : vec3) (q : mqpt) : vec3 := kB_d (sub3 x (mq_g q t)) (mq_h q t) (neg3 (mq_g' q)) (mq_h' q).
Definition kdB_c (k : nat) (t : R) (x : vec3) (q : mqpt) : vec3 := kdB_d k (sub3 x (mq_g q t)) (mq_h q t) (neg3 (mq_g' q)) (mq_h' q).
Lemma sub_split a b : sub3 a b = add3 a (neg3 b). Proof. unfold neg3. apply v3_eq; vu; ring. Qed.
Lemma kB_KJ t p p' q : D3 p t p' -> D3 (mq_g q) t (mq_g' q) -> D3 (mq_h q) t (mq_h' q) -> p t <> mq_g q t ->
  D3 (fun s => kB (p s) (mq_g q s, mq_h q s)) t (add3 (kB_x p' (p t) (mq_g q t, mq_h q t)) (kB_c t (p t) q)).
Proof.
  intros A1 A2 A3 A4. eapply D3_val; [|apply (kB_path p (mq_g q) (mq_h q) t p' (mq_g' q) (mq_h' q) A1 A2 A3 A4)]. unfold kB_x, kB_c. cbn [fst snd]. rewrite <- kB_d_lin, <- sub_split, add3_0_l. reflexivity.
Qed.
Lemma kdB_KJ k t p p' q : D3 p t p' -> D3 (mq_g q) t (mq_g' q) -> D3 (mq_h q) t (mq_h' q) -> p t <> mq_g q t ->
  D3 (fun s => kdB k (p s) (mq_g q s, mq_h q s)) t (add3 (kdB_x k p' (p t) (mq_g q t, mq_h q t)) (kdB_c k t (p t) q)).
Proof.
  intros A1 A2 A3 A4. eapply D3_val; [|apply (kdB_path p (mq_g q) (mq_h q) t p' (mq_g' q) (mq_h' q) A1 A2 A3 A4)]. unfold kdB_x, kdB_c. cbn [fst snd]. rewrite <- kdB_d_lin, <- sub_split, add3_0_l. reflexivity.
Qed.
Lemma sub_v0 a : sub3 a v0 = a. Proof. apply v3_eq; vu; ring. Qed.
Lemma kB_K0 t p p' q : D3 p t p' -> p t <> fst q -> D3 (fun s => kB (p s) q) t (kB_x p' (p t) q).
Proof. intros A1 A4. destruct q as [g h]. eapply D3_val; [|apply (kB_path p (fun _ => g) (fun _ => h) t p' v0 v0 A1 (D3_const _ _) (D3_const _ _) A4)]. cbv beta. rewrite !sub_v0. reflexivity. Qed.
Lemma kdB_K0 k t p p' q : D3 p t p' -> p t <> fst q -> D3 (fun s => kdB k (p s) q) t (kdB_x k p' (p t) q).
Proof. intros A1 A4. destruct q as [g h]. eapply D3_val; [|apply (kdB_path p (fun _ => g) (fun _ => h) t p' v0 v0 A1 (D3_const _ _) (D3_const _ _) A4)]. cbv beta. rewrite !sub_v0. reflexivity. Qed.

Section Coils.
Variables (cs : list mcoil) (t : R).
Hypothesis HM : Forall (moves t) cs.
Definition cB (s : R) : vec3 -> vec3 := coilsB (map (at_time s) cs).
Definition cdB (s : R) : vec3 -> mat3 := coilsdB (map (at_time s) cs).
Definition cd2B : vec3 -> nat -> mat3 := coilsd2B (map (at_time t) cs).
(** rates of change of the field and of its gradient at a fixed point *)
Definition cBc (x : vec3) : vec3 := gen_c kB (kB_c t) t cs x.
Definition cdBc (x : vec3) : mat3 := M3 (gen_c (kdB 0) (kdB_c 0 t) t cs x) (gen_c (kdB 1) (kdB_c 1 t) t cs x) (gen_c (kdB 2) (kdB_c 2 t) t cs x).
(** coils in motion are such a family of fields *)
Theorem C116_coils_family : field_ok (off_coils (map (at_time t) cs)) (cB t) (cdB t) cd2B /\ family_ok (off_coils (map (at_time t) cs)) t cB cdB cd2B cBc cdBc.
Proof using HM.
  destruct (C110_coils_field_ok (map (at_time t) cs)) as [FO _]. split; [exact FO|]. intros p p' HP DOM.
  assert (OFF : off_all (p t) (map (at_time t) cs)) by (intros c IC q IQ; exact (DOM c q IC IQ)). destruct (FO p t p' HP DOM) as (F1 & F2 & F3 & F4).
  split; [|split; [|split]].
  - pose proof (D3_unique _ _ _ _ (gen_frozen kB kB_x t cs (kB_K0 t) p p' HP OFF) F1) as E. unfold cB, cBc, cdB. rewrite <- E. apply (gen_D kB kB_x (kB_c t) t cs (kB_KJ t)); assumption.
  - pose proof (D3_unique _ _ _ _ (gen_frozen (kdB 0) (kdB_x 0) t cs (kdB_K0 0 t) p p' HP OFF) F2) as E. unfold cd2B. rewrite <- E. apply (gen_D (kdB 0) (kdB_x 0) (kdB_c 0 t) t cs (kdB_KJ 0 t)); assumption.
  - pose proof (D3_unique _ _ _ _ (gen_frozen (kdB 1) (kdB_x 1) t cs (kdB_K0 1 t) p p' HP OFF) F3) as E. unfold cd2B. rewrite <- E. apply (gen_D (kdB 1) (kdB_x 1) (kdB_c 1 t) t cs (kdB_KJ 1 t)); assumption.
  - pose proof (D3_unique _ _ _ _ (gen_frozen (kdB 2) (kdB_x 2) t cs (kdB_K0 2 t) p p' HP OFF) F4) as E. unfold cd2B. rewrite <- E. apply (gen_D (kdB 2) (kdB_x 2) (kdB_c 2 t) t cs (kdB_KJ 2 t)); assumption.
Qed.
(** what B_vjp and the dB part of B_and_dB_vjp hand to the coils, paired with the motion of the coils (C57) *)
Definition B_vjp_pair (pw : list (vec3 * vec3)) : R :=
  rsuml (map (fun c => pair3 (vjp_arr vjp_gamma pw (at_time t c)) (map mq_g' (mc_q c)) + pair3 (vjp_arr vjp_dgamma pw (at_time t c)) (map mq_h' (mc_q c)) + vjp_cur kB pw (at_time t c) * mc_I' c) cs).
Definition dB_vjp_pair (pw : list (vec3 * (nat -> vec3))) : R :=
  rsuml (map (fun c => pair3 (vjp_arr vjp_grad_gamma pw (at_time t c)) (map mq_g' (mc_q c)) + pair3 (vjp_arr vjp_grad_dgamma pw (at_time t c)) (map mq_h' (mc_q c)) + vjp_cur_grad kdB pw (at_time t c) * mc_I' c) cs).
Lemma fixed_point x : off_all x (map (at_time t) cs) -> D3 (fun s => coils_field kB (map (at_time s) cs) x) t (cBc x).
Proof using HM.
  intros OFF. pose proof (proj2 C116_coils_family (fun _ => x) v0 (D3_const _ _)) as F. assert (OF : off_coils (map (at_time t) cs) x) by (intros c q IC IQ; exact (OFF c IC q IQ)).
  destruct (F OF) as (F1 & _). rewrite vecmat_0, add3_0_l in F1. exact F1.
Qed.
Lemma fixed_point_grad x : off_all x (map (at_time t) cs) -> D3 (fun s => coils_field (kdB 0) (map (at_time s) cs) x) t (row0 (cdBc x)) /\ D3 (fun s => coils_field (kdB 1) (map (at_time s) cs) x) t (row1 (cdBc x)) /\ D3 (fun s => coils_field (kdB 2) (map (at_time s) cs) x) t (row2 (cdBc x)).
Proof using HM.
  intros OFF. pose proof (proj2 C116_coils_family (fun _ => x) v0 (D3_const _ _)) as F. assert (OF : off_coils (map (at_time t) cs) x) by (intros c q IC IQ; exact (OFF c IC q IQ)).
  destruct (F OF) as (_ & F1 & F2 & F3). rewrite vecmat_0, add3_0_l in F1, F2, F3. auto.
Qed.
Lemma B_pair pw : (forall xv, In xv pw -> off_all (fst xv) (map (at_time t) cs)) -> B_vjp_pair pw = rsuml (map (fun xv => dot3 (snd xv) (cBc (fst xv))) pw).
Proof using HM.
  intros OFF. apply (D_unique (fun s => probe kB pw (map (at_time s) cs)) t); [apply (C57_B_vjp cs t HM pw OFF)|]. unfold probe.
  apply (D_sum pw (fun xv s => dot3 (snd xv) (coils_field kB (map (at_time s) cs) (fst xv)))). intros xv I. eapply D_val; [|apply D_dot; [apply D3_const|apply fixed_point, OFF, I]]. cbv beta. vu. ring.
Qed.
Lemma dB_pair pw : (forall xv, In xv pw -> off_all (fst xv) (map (at_time t) cs)) ->
  dB_vjp_pair pw = rsuml (map (fun xv => dot3 (snd xv 0%nat) (row0 (cdBc (fst xv))) + dot3 (snd xv 1%nat) (row1 (cdBc (fst xv))) + dot3 (snd xv 2%nat) (row2 (cdBc (fst xv)))) pw).
Proof using HM.
  intros OFF. apply (D_unique (fun s => probe_grad kdB pw (map (at_time s) cs)) t); [apply (C57_dB_vjp cs t HM pw OFF)|]. unfold probe_grad.
  apply (D_sum pw (fun xv s => dot3 (snd xv 0%nat) (coils_field (kdB 0) (map (at_time s) cs) (fst xv)) + dot3 (snd xv 1%nat) (coils_field (kdB 1) (map (at_time s) cs) (fst xv)) + dot3 (snd xv 2%nat) (coils_field (kdB 2) (map (at_time s) cs) (fst xv)))).
  intros xv I. destruct (fixed_point_grad (fst xv) (OFF xv I)) as (F1 & F2 & F3). eapply D_val; [|apply D_add; [apply D_add; apply D_dot; [apply D3_const|exact F1|apply D3_const|exact F2]|apply D_dot; [apply D3_const|exact F3]]]. cbv beta. vu. ring.
Qed.

(** *** Iotas on an exact stellarator symmetric surface: the gradient given to the coils is the derivative of iota for every motion of
    the coils *)
Section Exact.
Variables (n np : nat) (dx dxp dxt : nat -> nat -> vec3) (currents : list R) (mask : nat -> bool).
Variables (lab : R -> (nat -> R) -> R) (dlab : R -> (nat -> R) -> nat -> R) (labc : (nat -> R) -> R) (target : R).
Notation ok := (all_ok n dx (cB t) (off_coils (map (at_time t) cs)) np). Notation NN := (N n true).
Hypothesis HL : label_ok n ok t lab (dlab t) labc.
Variables (x : R -> nat -> R) (v : nat -> R).
Hypothesis Hx : forall m, (m < NN)%nat -> D (fun s => x s m) t (v m).
Hypothesis OK : ok (x t).
Lemma point_off p : (p < np)%nat -> off_all (X n dx p (x t)) (map (at_time t) cs).
Proof using OK. intros L c IC q IQ. exact (proj1 (OK p L) c q IC IQ). Qed.
Theorem C116_iotas_exact (P L U : mat) : exact_size np true mask = NN -> plu NN P L U ->
  (forall i m, (i < NN)%nat -> (m < NN)%nat -> exact_row n np dx dxp dxt (cB t) (cdB t) currents true (dlab t) mask (x t) i m = mm NN (mm NN P L) U i m) ->
  (exists eps, 0 < eps /\ forall i s, (i < NN)%nat -> Rabs (s - t) < eps -> exact_eq n np dx dxp dxt (cB s) currents true (lab s) target mask (x s) i = 0) ->
  exists vp ll, exact_vjp n np dx dxp dxt (cB t) currents true mask (forward_backward NN P L U (iotas_dJ_ds n true) false) NN (x t) = Some (vp, ll) /\
    D (fun s => iota_of n (x s)) t (-1 * (B_vjp_pair (map (fun p => (X n dx p (x t), vp p)) (seq 0 np)) + ll * labc (x t))).
Proof using HM HL Hx OK.
  intros SZ HP HA HE. destruct C116_coils_family as [FO FV].
  destruct (C116_exact_gradient n np dx dxp dxt t cB cdB cd2B cBc cdBc currents true _ lab dlab labc target FO FV HL x v Hx OK mask P L U (fun s => iota_of n (x s)) (iotas_dJ_ds n true) 0 SZ HP HA HE
    (C116_iotas n dxp dxt true t x v Hx)) as (vp & ll & E & DD).
  exists vp, ll. split; [exact E|]. rewrite B_pair by (intros xv I; apply in_map_iff in I; destruct I as (p & <- & I); apply in_seq in I; cbn [fst]; apply point_off; lia).
  eapply D_val; [|exact DD]. rewrite map_map. unfold sum_to. cbn [fst snd]. ring.
Qed.
End Exact.
(** *** least squares surfaces, label of the surface only: any objective Q with partial derivatives dJ and Jq *)
Section Ls.
Variables (n np : nat) (dx dxp dxt : nat -> nat -> vec3) (optG weight : bool).
Variables (lab : (nat -> R) -> R) (dlab : (nat -> R) -> nat -> R) (d2lab : (nat -> R) -> nat -> nat -> R) (target cw : R).
Notation ok := (all_ok n dx (cB t) (off_coils (map (at_time t) cs)) np). Notation NN := (N n optG).
Hypothesis HL : total n ok lab dlab.
Hypothesis HL2 : forall m, (m < n)%nat -> total n ok (fun y => dlab y m) (fun y => d2lab y m).
Variables (x : R -> nat -> R) (v : nat -> R).
Hypothesis Hx : forall m, (m < NN)%nat -> D (fun s => x s m) t (v m).
Hypothesis OK : ok (x t).
Notation cur s := (map (fun c => mc_I c s) cs).
(** run_code asserts that the currents are fixed if G is not an unknown (boozersurface.py:135-137) *)
Hypothesis HI : optG = false -> forall s, cur s = cur t.
Lemma dval_same s y i B dB : dval n np dx dxp dxt B dB (cur s) optG weight lab dlab target cw y i = dval n np dx dxp dxt B dB (cur t) optG weight lab dlab target cw y i.
Proof using HI. clear Hx OK. revert HI. destruct optG; intros HI; [reflexivity|]. now rewrite (HI eq_refl s). Qed.
Theorem C117_gradient_coils (P L U : mat) (Q : R -> R) (dJ : vec) (Jq : R) : 0 <= cw -> plu NN P L U ->
  (forall i m, (i < NN)%nat -> (m < NN)%nat -> d2val n np dx dxp dxt (cB t) (cdB t) cd2B (cur t) optG weight lab dlab d2lab target cw (x t) i m = mm NN (mm NN P L) U i m) ->
  (exists eps, 0 < eps /\ forall i s, (i < NN)%nat -> Rabs (s - t) < eps -> dval n np dx dxp dxt (cB s) (cdB s) (cur s) optG weight lab dlab target cw (x s) i = 0) ->
  D Q t (sum_to NN (fun m => v m * dJ m) + Jq) ->
  let adj := forward_backward NN P L U dJ false in
  D Q t (Jq - (B_vjp_pair (map (fun p => (X n dx p (x t), ls_vjp_B n np dx dxp dxt (cB t) (cdB t) (cur t) optG weight adj p (x t))) (seq 0 np)) +
               dB_vjp_pair (map (fun p => (X n dx p (x t), vjp_v3 n np dx dxp dxt (cB t) (cur t) optG weight adj p (x t))) (seq 0 np)))).
Proof using HM HL HL2 Hx OK HI.
  intros CW HP HA (eps & EP & HE) HQ adj. destruct C116_coils_family as [FO FV].
  assert (HE' : exists e, 0 < e /\ forall i s, (i < NN)%nat -> Rabs (s - t) < e -> dval n np dx dxp dxt (cB s) (cdB s) (cur t) optG weight lab dlab target cw (x s) i = 0) by (exists eps; split; [exact EP|intros i s LI LS; rewrite <- (dval_same s); apply HE; assumption]).
  assert (L1 : label_ok n ok t (fun _ => lab) dlab (fun _ => 0)) by (intros y u Hy Oy; eapply D_val; [|apply (HL y t u Hy Oy)]; ring).
  assert (L2 : forall m, (m < n)%nat -> label_ok n ok t (fun _ y => dlab y m) (fun y => d2lab y m) (fun _ => 0)) by (intros m LM y u Hy Oy; eapply D_val; [|apply (HL2 m LM y t u Hy Oy)]; ring).
  pose proof (C117_surface_label n np dx dxp dxt t cB cdB cd2B cBc cdBc (cur t) optG weight _ (fun _ => lab) (fun _ => dlab) (fun _ => 0) target FO FV L1 x v Hx OK d2lab (fun _ _ => 0) cw HL HL2 L2 P L U Q dJ Jq CW HP HA HE' HQ eq_refl (fun _ _ => eq_refl)) as DD.
  fold adj in DD. eapply D_val; [|exact DD].
  rewrite B_pair by (intros xv I; apply in_map_iff in I; destruct I as (p & <- & I); apply in_seq in I; cbn [fst]; intros c IC q IQ; exact (proj1 (OK p ltac:(lia)) c q IC IQ)).
  rewrite dB_pair by (intros xv I; apply in_map_iff in I; destruct I as (p & <- & I); apply in_seq in I; cbn [fst]; intros c IC q IQ; exact (proj1 (OK p ltac:(lia)) c q IC IQ)).
  rewrite !map_map. cbn [fst snd]. f_equal. rewrite <- rsuml_map_plus. reflexivity.
Qed.
End Ls.
End Coils.
