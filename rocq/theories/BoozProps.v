(** C110, C111: the Boozer residual arrays are derivatives, the two penalty implementations agree, and the exactly constrained
    system is the stationarity of the Lagrangian. *)
From Coq Require Import Reals Lra Lia List Bool.
From Verif Require Import VecAux Vec3 BSModel BSDeriv SurfDiffProps CurveObjModel CurveObjProps BoozSurf.
Open Scope R_scope.

(** ** Specification *)
(** g gives the derivatives of f with respect to the first N unknowns: along every curve c of unknowns that is differentiable at
    a time t where [ok (c t)], f has the derivative sum_m v_m g_m *)
Definition total (N : nat) (ok : (nat -> R) -> Prop) (f : (nat -> R) -> R) (g : (nat -> R) -> nat -> R) : Prop :=
  forall (c : R -> nat -> R) t v, (forall m, (m < N)%nat -> D (fun s => c s m) t (v m)) -> ok (c t) ->
    D (fun s => f (c s)) t (sum_to N (fun m => v m * g (c t) m)).
Definition total3 (N : nat) (ok : (nat -> R) -> Prop) (f : (nat -> R) -> vec3) (g : (nat -> R) -> nat -> vec3) : Prop :=
  forall (c : R -> nat -> R) t v, (forall m, (m < N)%nat -> D (fun s => c s m) t (v m)) -> ok (c t) ->
    D3 (fun s => f (c s)) t (sumv N (fun m => scal3 (v m) (g (c t) m))).
(** dB_by_dX and d2B_by_dXdX are the first and second derivatives of B at the points of Dom *)
Definition field_ok (Dom : vec3 -> Prop) (B : vec3 -> vec3) (dB : vec3 -> mat3) (d2B : vec3 -> nat -> mat3) : Prop :=
  forall p t p', D3 p t p' -> Dom (p t) ->
    D3 (fun s => B (p s)) t (vecmat p' (dB (p t))) /\
    D3 (fun s => row0 (dB (p s))) t (vecmat p' (d2B (p t) 0%nat)) /\
    D3 (fun s => row1 (dB (p s))) t (vecmat p' (d2B (p t) 1%nat)) /\
    D3 (fun s => row2 (dB (p s))) t (vecmat p' (d2B (p t) 2%nat)).
Definition symmetric2 (d2B : vec3 -> nat -> mat3) : Prop := forall q,
  row1 (d2B q 0%nat) = row0 (d2B q 1%nat) /\ row2 (d2B q 0%nat) = row0 (d2B q 2%nat) /\ row2 (d2B q 1%nat) = row1 (d2B q 2%nat).

(** ** Sums *)
Lemma sum_to_S' n f : sum_to (S n) f = sum_to n f + f n.
Proof. unfold sum_to. rewrite seq_S, map_app, rsuml_app. cbn. ring. Qed.
Lemma sumv_S n f : sumv (S n) f = add3 (sumv n f) (f n).
Proof. unfold sumv, add3. cbn [vx vy vz]. now rewrite !sum_to_S'. Qed.
Lemma sumv_0 f : sumv 0 f = v0. Proof. reflexivity. Qed.
Lemma sumv_ext n f g : (forall m, (m < n)%nat -> f m = g m) -> sumv n f = sumv n g.
Proof. induction n as [|n IH]; intros E; [reflexivity|]. rewrite !sumv_S, IH, E; auto. Qed.
Lemma scal3_add_l a b u : scal3 (a + b) u = add3 (scal3 a u) (scal3 b u). Proof. v3; ring. Qed.
Lemma sumv_lin1 (L : vec3 -> vec3) n v f : (forall a b, L (add3 a b) = add3 (L a) (L b)) -> (forall k a, L (scal3 k a) = scal3 k (L a)) ->
  L (sumv n (fun m => scal3 (v m) (f m))) = sumv n (fun m => scal3 (v m) (L (f m))).
Proof.
  intros LA LS. induction n as [|n IH]; [|now rewrite !sumv_S, LA, LS, IH].
  rewrite !sumv_0. replace v0 with (scal3 0 v0) by (v3; ring). rewrite LS. v3; ring.
Qed.
Lemma sumv_lin2 (L : vec3 -> vec3 -> vec3) n v f g : (forall a b a' b', L (add3 a a') (add3 b b') = add3 (L a b) (L a' b')) -> (forall k a b, L (scal3 k a) (scal3 k b) = scal3 k (L a b)) ->
  L (sumv n (fun m => scal3 (v m) (f m))) (sumv n (fun m => scal3 (v m) (g m))) = sumv n (fun m => scal3 (v m) (L (f m) (g m))).
Proof.
  intros LA LS. induction n as [|n IH]; [|now rewrite !sumv_S, LA, LS, IH].
  rewrite !sumv_0. replace v0 with (scal3 0 v0) by (v3; ring). rewrite LS. v3; ring.
Qed.
Lemma sumv_lin3 (L : vec3 -> vec3 -> vec3 -> vec3) n v f g h : (forall a b c a' b' c', L (add3 a a') (add3 b b') (add3 c c') = add3 (L a b c) (L a' b' c')) -> (forall k a b c, L (scal3 k a) (scal3 k b) (scal3 k c) = scal3 k (L a b c)) ->
  L (sumv n (fun m => scal3 (v m) (f m))) (sumv n (fun m => scal3 (v m) (g m))) (sumv n (fun m => scal3 (v m) (h m))) = sumv n (fun m => scal3 (v m) (L (f m) (g m) (h m))).
Proof.
  intros LA LS. induction n as [|n IH]; [|now rewrite !sumv_S, LA, LS, IH].
  rewrite !sumv_0. replace v0 with (scal3 0 v0) by (v3; ring). rewrite LS. v3; ring.
Qed.
Lemma dot_sumv n v f a : dot3 a (sumv n (fun m => scal3 (v m) (f m))) = sum_to n (fun m => v m * dot3 a (f m)).
Proof. induction n as [|n IH]; [unfold dot3; cbn; ring|]. rewrite sumv_S, sum_to_S', <- IH. unfold dot3, add3, scal3. cbn [vx vy vz]. ring. Qed.
Lemma sumv_D n f f' t : (forall m, (m < n)%nat -> D3 (f m) t (f' m)) -> D3 (fun s => sumv n (fun m => f m s)) t (sumv n f').
Proof. intros H. unfold sumv. dsplit; apply (sum_to_D n (fun k s => _ (f k s))); intros m Hm; destruct (H m Hm) as (A & A1 & A2); assumption. Qed.

(** ** Derivatives at one point *)
Ltac vv := apply v3_eq; cbn.
Section Point.
Variables (weight : bool) (t : R) (b bm tg dtm : R -> vec3) (G : R -> R) (b' bm' tg' dtm' : vec3) (G' : R).
Hypothesis Hb : D3 b t b'. Hypothesis Hbm : D3 bm t bm'. Hypothesis Htg : D3 tg t tg'. Hypothesis Hdtm : D3 dtm t dtm'.
Hypothesis HG : D G t G'. Hypothesis P : 0 < normsq (b t).
Lemma D_B2 : D (fun s => normsq (b s)) t (2 * dot3 (b t) b').
Proof. unfold normsq. eapply D_val; [|apply D_dot; eassumption]. unfold dot3. ring. Qed.
Lemma sq_pos : 0 < sqrt (normsq (b t)). Proof. now apply sqrt_lt_R0. Qed.
Lemma sq_sq : normsq (b t) = sqrt (normsq (b t)) * sqrt (normsq (b t)). Proof. rewrite sqrt_sqrt; lra. Qed.
Lemma D_py_w : D (fun s => py_w weight (b s)) t (py_dw weight (b t) b').
Proof.
  unfold py_w, py_dw. destruct weight; [|apply D_const]. eapply D_val; [|apply D_div; [apply D_const|apply D_sqrt; [apply D_B2|exact P]|apply Rgt_not_eq, sq_pos]].
  unfold py_dmodB, py_dB2, half. pose proof sq_pos. field. lra.
Qed.
Lemma D_py_dw : D (fun s => py_dw weight (b s) (bm s)) t (py_d2w weight (b t) (bm t) b' bm').
Proof.
  unfold py_d2w, py_dw. destruct weight; [|apply D_const]. unfold py_dmodB, py_dB2, half.
  assert (Q : D (fun s => dot3 (b s) (bm s)) t (dot3 b' (bm t) + dot3 (b t) bm')) by (apply D_dot; assumption).
  assert (S : D (fun s => sqrt (normsq (b s))) t ((2 * dot3 (b t) b') / (2 * sqrt (normsq (b t))))) by (apply D_sqrt; [apply D_B2|exact P]).
  pose proof sq_pos as SP. eapply D_val; [|apply D_div; [apply D_opp; apply D_div; [apply D_mul; [apply D_const|apply D_mul; [apply D_const|exact Q]]|exact S|lra]|apply D_mul; [exact S|exact S]|nra]].
  unfold py_d2modB, py_d2B2, py_dmodB, py_dB2, half. pose proof sq_sq as E. set (sg := sqrt (normsq (b t))) in *. rewrite E.
  replace (dot3 bm' (b t)) with (dot3 (b t) bm') by (unfold dot3; ring). replace (dot3 (bm t) b') with (dot3 b' (bm t)) by (unfold dot3; ring). field. lra.
Qed.
Lemma D_residual : D3 (fun s => residual (G s) (b s) (tg s)) t (add3 (scal3 G' (b t)) (py_dres (G t) (b t) b' (tg t) tg')).
Proof. unfold residual. eapply D3_val; [|apply D3_sub; [apply D3_scal; eassumption|apply D3_scal; [apply D_B2|eassumption]]]. unfold py_dres. vv; ring. Qed.
Lemma D_r : D3 (fun s => scal3 (py_w weight (b s)) (residual (G s) (b s) (tg s))) t (add3 (py_drtil weight (G t) (b t) b' (tg t) tg') (scal3 G' (scal3 (py_w weight (b t)) (b t)))).
Proof. eapply D3_val; [|apply D3_scal; [apply D_py_w|apply D_residual]]. unfold py_drtil. vv; ring. Qed.
Lemma D_dB2 : D (fun s => dot3 (b s) (bm s)) t (dot3 b' (bm t) + dot3 (b t) bm'). Proof. now apply D_dot. Qed.
Lemma D_dres : D3 (fun s => py_dres (G s) (b s) (bm s) (tg s) (dtm s)) t
  (add3 (scal3 G' (bm t)) (add3 (py_d2res (G t) (b t) (bm t) b' bm' (tg t) (dtm t) tg') (scal3 (- normsq (b t)) dtm'))).
Proof.
  unfold py_dres. eapply D3_val; [|apply D3_sub; [apply D3_sub; [apply D3_scal; eassumption|apply D3_scal; [apply D_mul; [apply D_const|apply D_dB2]|eassumption]]|apply D3_scal; [apply D_B2|eassumption]]].
  unfold py_d2res, py_dB2, py_d2B2, normsq. apply v3_eq; unfold dot3, add3, sub3, scal3; cbn [vx vy vz]; ring.
Qed.
Lemma D_drtil : D3 (fun s => py_drtil weight (G s) (b s) (bm s) (tg s) (dtm s)) t
  (add3 (py_d2rtil weight (G t) (b t) (bm t) b' bm' (tg t) (dtm t) tg') (add3 (scal3 G' (py_d2rtil_G weight (b t) (bm t))) (scal3 (- (py_w weight (b t) * normsq (b t))) dtm'))).
Proof.
  unfold py_drtil. eapply D3_val; [|apply D3_add; [apply D3_scal; [apply D_py_dw|apply D_residual]|apply D3_scal; [apply D_py_w|apply D_dres]]].
  unfold py_d2rtil, py_d2rtil_G. generalize (py_d2w weight (b t) (bm t) b' bm') (py_dw weight (b t) (bm t)) (py_dw weight (b t) b') (py_w weight (b t)). intros w2 w1 w0 w.
  generalize (py_d2res (G t) (b t) (bm t) b' bm' (tg t) (dtm t) tg') (py_dres (G t) (b t) b' (tg t) tg') (residual (G t) (b t) (tg t)) (py_dres (G t) (b t) (bm t) (tg t) (dtm t)) (normsq (b t)).
  intros u1 u2 u3 u4 n0. vv; ring.
Qed.
Lemma D_iota_col (xt : R -> vec3) xt' : D3 xt t xt' -> D3 (fun s => scal3 (py_w weight (b s)) (dres_iota (b s) (xt s))) t (py_d2rtil_iota weight (b t) b' (xt t) xt').
Proof.
  intros Hx. unfold dres_iota. eapply D3_val; [|apply D3_scal; [apply D_py_w|apply D3_scal; [apply D_opp, D_B2|exact Hx]]].
  unfold py_d2rtil_iota, d2res_iota, dres_iota, py_dB2. vv; ring.
Qed.
Lemma D_G_col : D3 (fun s => scal3 (py_w weight (b s)) (b s)) t (py_d2rtil_G weight (b t) b').
Proof. eapply D3_val; [|apply D3_scal; [apply D_py_w|exact Hb]]. reflexivity. Qed.
End Point.

(** ** Linearity in the directions *)
Lemma vecmat_add a b M : vecmat (add3 a b) M = add3 (vecmat a M) (vecmat b M). Proof. destruct M. unfold vecmat. v3; ring. Qed.
Lemma vecmat_scal k a M : vecmat (scal3 k a) M = scal3 k (vecmat a M). Proof. destruct M. unfold vecmat. v3; ring. Qed.
Lemma d2dir_add d2B q u a b : d2dir d2B q u (add3 a b) = add3 (d2dir d2B q u a) (d2dir d2B q u b).
Proof. unfold d2dir. rewrite !vecmat_add. generalize (vecmat a (d2B q 0%nat)) (vecmat a (d2B q 1%nat)) (vecmat a (d2B q 2%nat)) (vecmat b (d2B q 0%nat)) (vecmat b (d2B q 1%nat)) (vecmat b (d2B q 2%nat)). intros. v3; ring. Qed.
Lemma d2dir_scal d2B q u k a : d2dir d2B q u (scal3 k a) = scal3 k (d2dir d2B q u a).
Proof. unfold d2dir. rewrite !vecmat_scal. generalize (vecmat a (d2B q 0%nat)) (vecmat a (d2B q 1%nat)) (vecmat a (d2B q 2%nat)). intros. v3; ring. Qed.
Lemma d2dir_sym d2B q a b : symmetric2 d2B -> d2dir d2B q a b = d2dir d2B q b a.
Proof.
  intros S. destruct (S q) as (E1 & E2 & E3). unfold d2dir, vecmat. rewrite E1, E2, E3.
  generalize (row0 (d2B q 0%nat)) (row0 (d2B q 1%nat)) (row0 (d2B q 2%nat)) (row1 (d2B q 1%nat)) (row1 (d2B q 2%nat)) (row2 (d2B q 2%nat)). intros. v3; ring.
Qed.
Ltac vu := unfold dot3, normsq, dot3, add3, sub3, scal3, v0; cbn [vx vy vz].
Lemma dB2_add b a c : py_dB2 b (add3 a c) = py_dB2 b a + py_dB2 b c. Proof. unfold py_dB2. vu. ring. Qed.
Lemma dB2_scal b k a : py_dB2 b (scal3 k a) = k * py_dB2 b a. Proof. unfold py_dB2. vu. ring. Qed.
Lemma dw_add w b a c : py_dw w b (add3 a c) = py_dw w b a + py_dw w b c.
Proof. unfold py_dw. destruct w; [|ring]. unfold py_dmodB. rewrite dB2_add. unfold Rdiv. ring. Qed.
Lemma dw_scal w b k a : py_dw w b (scal3 k a) = k * py_dw w b a.
Proof. unfold py_dw. destruct w; [|ring]. unfold py_dmodB. rewrite dB2_scal. unfold Rdiv. ring. Qed.
Lemma dw_0 w b : py_dw w b v0 = 0.
Proof. replace v0 with (scal3 0 v0) by (v3; ring). rewrite dw_scal. ring. Qed.
Lemma drtil_lin w G b tg a c a' c' : py_drtil w G b (add3 a a') tg (add3 c c') = add3 (py_drtil w G b a tg c) (py_drtil w G b a' tg c').
Proof.
  unfold py_drtil, py_dres. rewrite dw_add. generalize (residual G b tg) (py_dw w b a) (py_dw w b a') (py_w w b). intros. apply v3_eq; vu; ring.
Qed.
Lemma drtil_scal w G b tg k a c : py_drtil w G b (scal3 k a) tg (scal3 k c) = scal3 k (py_drtil w G b a tg c).
Proof. unfold py_drtil, py_dres. rewrite dw_scal. generalize (residual G b tg) (py_dw w b a) (py_w w b). intros. apply v3_eq; vu; ring. Qed.
Lemma drtil_iota w G b tg xt : py_drtil w G b v0 tg xt = scal3 (py_w w b) (dres_iota b xt).
Proof. unfold py_drtil, py_dres, dres_iota. rewrite dw_0. generalize (residual G b tg) (py_w w b). intros. apply v3_eq; vu; ring. Qed.
Lemma d2B2_lin b m a c a' c' : py_d2B2 b m (add3 a a') (add3 c c') = py_d2B2 b m a c + py_d2B2 b m a' c'. Proof. unfold py_d2B2. vu. ring. Qed.
Lemma d2B2_scal b m k a c : py_d2B2 b m (scal3 k a) (scal3 k c) = k * py_d2B2 b m a c. Proof. unfold py_d2B2. vu. ring. Qed.
Lemma d2w_lin w b m a c a' c' : py_d2w w b m (add3 a a') (add3 c c') = py_d2w w b m a c + py_d2w w b m a' c'.
Proof. unfold py_d2w. destruct w; [|ring]. unfold py_d2modB, py_dmodB. rewrite d2B2_lin, !dB2_add. unfold Rdiv. ring. Qed.
Lemma d2w_scal w b m k a c : py_d2w w b m (scal3 k a) (scal3 k c) = k * py_d2w w b m a c.
Proof. unfold py_d2w. destruct w; [|ring]. unfold py_d2modB, py_dmodB. rewrite d2B2_scal, !dB2_scal. unfold Rdiv. ring. Qed.
Lemma d2w_0 w b m : py_d2w w b m v0 v0 = 0.
Proof. replace v0 with (scal3 0 v0) by (v3; ring). rewrite d2w_scal. ring. Qed.
Lemma d2rtil_lin w G b m tg dtm a c e a' c' e' : py_d2rtil w G b m (add3 a a') (add3 c c') tg dtm (add3 e e') = add3 (py_d2rtil w G b m a c tg dtm e) (py_d2rtil w G b m a' c' tg dtm e').
Proof.
  unfold py_d2rtil, py_d2res. rewrite d2w_lin, dw_add, dB2_add, d2B2_lin. unfold py_dres. generalize (residual G b tg) (py_dw w b m) (py_dw w b a) (py_dw w b a') (py_w w b) (py_d2w w b m a c) (py_d2w w b m a' c') (py_d2B2 b m a c) (py_d2B2 b m a' c') (py_dB2 b a) (py_dB2 b a') (py_dB2 b m).
  intros. apply v3_eq; vu; ring.
Qed.
Lemma d2rtil_scal w G b m tg dtm k a c e : py_d2rtil w G b m (scal3 k a) (scal3 k c) tg dtm (scal3 k e) = scal3 k (py_d2rtil w G b m a c tg dtm e).
Proof.
  unfold py_d2rtil, py_d2res. rewrite d2w_scal, dw_scal, dB2_scal, d2B2_scal. unfold py_dres. generalize (residual G b tg) (py_dw w b m) (py_dw w b a) (py_w w b) (py_d2w w b m a c) (py_d2B2 b m a c) (py_dB2 b a) (py_dB2 b m).
  intros. apply v3_eq; vu; ring.
Qed.
Lemma d2rtil_iota0 w G b m tg dtm xt dxtm : add3 (py_d2rtil w G b m v0 v0 tg dtm xt) (scal3 (- (py_w w b * normsq b)) dxtm) = py_d2rtil_iota w b m xt dxtm.
Proof.
  unfold py_d2rtil, py_d2res, py_d2rtil_iota, d2res_iota, dres_iota, py_dres, py_d2B2, py_dB2. rewrite d2w_0, dw_0. generalize (residual G b tg) (py_dw w b m) (py_w w b).
  intros. apply v3_eq; vu; ring.
Qed.
Lemma d2iota_lin w b a c a' c' xt : py_d2rtil_iota w b (add3 a a') xt (add3 c c') = add3 (py_d2rtil_iota w b a xt c) (py_d2rtil_iota w b a' xt c').
Proof. unfold py_d2rtil_iota, d2res_iota, dres_iota. rewrite dw_add, dB2_add. generalize (py_dw w b a) (py_dw w b a') (py_dB2 b a) (py_dB2 b a') (py_w w b). intros. apply v3_eq; vu; ring. Qed.
Lemma d2iota_scal w b k a c xt : py_d2rtil_iota w b (scal3 k a) xt (scal3 k c) = scal3 k (py_d2rtil_iota w b a xt c).
Proof. unfold py_d2rtil_iota, d2res_iota, dres_iota. rewrite dw_scal, dB2_scal. generalize (py_dw w b a) (py_dB2 b a) (py_w w b). intros. apply v3_eq; vu; ring. Qed.
Lemma d2G_lin w b a a' : py_d2rtil_G w b (add3 a a') = add3 (py_d2rtil_G w b a) (py_d2rtil_G w b a').
Proof. unfold py_d2rtil_G. rewrite dw_add. generalize (py_dw w b a) (py_dw w b a') (py_w w b). intros. apply v3_eq; vu; ring. Qed.
Lemma d2G_scal w b k a : py_d2rtil_G w b (scal3 k a) = scal3 k (py_d2rtil_G w b a).
Proof. unfold py_d2rtil_G. rewrite dw_scal. generalize (py_dw w b a) (py_w w b). intros. apply v3_eq; vu; ring. Qed.

(** ** Along a curve of unknowns *)
Lemma sumv_N n optG f : sumv (N n optG) f = add3 (sumv n f) (add3 (f n) (if optG then f (n + 1)%nat else v0)).
Proof.
  unfold N. destruct optG.
  - replace (n + 2)%nat with (S (S n)) by lia. rewrite !sumv_S. replace (n + 1)%nat with (S n) by lia. generalize (sumv n f) (f n) (f (S n)). intros; v3; ring.
  - replace (n + 1)%nat with (S n) by lia. rewrite sumv_S. generalize (sumv n f) (f n). intros; v3; ring.
Qed.
Lemma sum_N n optG f : sum_to (N n optG) f = sum_to n f + (f n + (if optG then f (n + 1)%nat else 0)).
Proof.
  unfold N. destruct optG.
  - replace (n + 2)%nat with (S (S n)) by lia. rewrite !sum_to_S'. replace (n + 1)%nat with (S n) by lia. ring.
  - replace (n + 1)%nat with (S n) by lia. rewrite sum_to_S'. ring.
Qed.

Section Main.
Variables (n : nat) (dx dxp dxt : nat -> nat -> vec3) (B : vec3 -> vec3) (dB : vec3 -> mat3) (d2B : vec3 -> nat -> mat3).
Variables (currents : list R) (optG weight : bool) (Dom : vec3 -> Prop).
Hypothesis HF : field_ok Dom B dB d2B.
Notation NN := (N n optG). Notation XX := (X n dx). Notation rr := (r n dx dxp dxt B currents optG weight). Notation JJ := (J n dx dxp dxt B dB currents optG weight).
Notation HH := (H n dx dxp dxt B dB d2B currents optG weight).
(** the point lies where the field is differentiable and does not vanish *)
Definition at_ok (p : nat) (x : nat -> R) : Prop := Dom (XX p x) /\ 0 < normsq (B (XX p x)).
Definition all_ok (np : nat) (x : nat -> R) : Prop := forall p, (p < np)%nat -> at_ok p x.

Section Along.
Variables (p : nat) (c : R -> nat -> R) (t : R) (v : nat -> R).
Hypothesis Hc : forall m, (m < NN)%nat -> D (fun s => c s m) t (v m).
Hypothesis OK : at_ok p (c t).
Lemma Hcn m : (m < n)%nat -> D (fun s => c s m) t (v m). Proof. intros L. apply Hc. unfold N. destruct optG; lia. Qed.
Lemma D_lin (d : nat -> vec3) : D3 (fun s => sumv n (fun m => scal3 (c s m) (d m))) t (sumv n (fun m => scal3 (v m) (d m))).
Proof. apply (sumv_D n (fun m s => scal3 (c s m) (d m))). intros m L. eapply D3_val; [|apply D3_scal; [apply Hcn, L|apply D3_const]]. v3; ring. Qed.
Definition X' := sumv n (fun m => scal3 (v m) (dx p m)).
Definition b' := sumv n (fun m => scal3 (v m) (bm n dx dB p (c t) m)).
Definition tg' := add3 (sumv n (fun m => scal3 (v m) (dtang n dxp dxt p (c t) m))) (scal3 (v n) (Xt n dxt p (c t))).
Definition G' := if optG then v (n + 1)%nat else 0.
Lemma HX : D3 (fun s => XX p (c s)) t X'. Proof. apply D_lin. Qed.
Lemma bd_eq : vecmat X' (dB (XX p (c t))) = b'.
Proof. unfold X', b', bm. apply (sumv_lin1 (fun u => vecmat u (dB (XX p (c t))))); intros; [apply vecmat_add|apply vecmat_scal]. Qed.
Lemma Hb : D3 (fun s => bx n dx B p (c s)) t b'.
Proof. unfold bx. rewrite <- bd_eq. apply (HF _ _ _ HX (proj1 OK)). Qed.
Lemma Hbm m : D3 (fun s => bm n dx dB p (c s) m) t (sumv n (fun k => scal3 (v k) (bmn n dx d2B p (c t) m k))).
Proof.
  unfold bmn. rewrite <- (sumv_lin1 (fun u => d2dir d2B (XX p (c t)) (dx p m) u)); [|intros; apply d2dir_add|intros; apply d2dir_scal].
  destruct (HF _ _ _ HX (proj1 OK)) as (_ & D0 & D1 & D2). unfold bm, vecmat, d2dir.
  eapply D3_val; [|apply D3_add; [apply D3_scal; [apply D_const|exact D0]|apply D3_add; [apply D3_scal; [apply D_const|exact D1]|apply D3_scal; [apply D_const|exact D2]]]].
  fold X'. generalize (vecmat X' (d2B (XX p (c t)) 0%nat)) (vecmat X' (d2B (XX p (c t)) 1%nat)) (vecmat X' (d2B (XX p (c t)) 2%nat)). intros u0 u1 u2. apply v3_eq; vu; ring.
Qed.
Lemma Hn : D (fun s => iota_of n (c s)) t (v n). Proof. apply Hc. unfold N. destruct optG; lia. Qed.
Lemma HG : D (fun s => G_of n currents optG (c s)) t G'.
Proof. unfold G_of, G'. revert Hc. unfold N. destruct optG; intros Hc'; [apply Hc'; lia|apply D_const]. Qed.
Lemma Htg : D3 (fun s => BoozSurf.tang n dxp dxt p (c s)) t tg'.
Proof.
  unfold BoozSurf.tang, Xp, Xt. eapply D3_val; [|apply D3_add; [apply D_lin|apply D3_scal; [apply Hn|apply D_lin]]].
  unfold tg', dtang. rewrite <- (sumv_lin2 (fun a b => add3 a (scal3 (iota_of n (c t)) b))); [|intros; v3; ring|intros; v3; ring].
  unfold Xt. generalize (iota_of n (c t)) (sumv n (fun m => scal3 (c t m) (dxt p m))) (sumv n (fun m => scal3 (v m) (dxt p m))) (sumv n (fun m => scal3 (v m) (dxp p m))). intros. apply v3_eq; vu; ring.
Qed.
Lemma bpos : 0 < normsq (bx n dx B p (c t)). Proof. apply OK. Qed.
Lemma sumv_v0 (g : nat -> vec3) k : (forall m, (m < k)%nat -> g m = v0) -> sumv k g = v0.
Proof. intros E. induction k as [|k IH]; [reflexivity|]. rewrite sumv_S, IH, E by auto. v3; ring. Qed.
Lemma r_along : D3 (fun s => rr p (c s)) t (sumv NN (fun m => scal3 (v m) (JJ p (c t) m))).
Proof.
  unfold r. eapply D3_val; [|apply (D_r weight t (fun s => bx n dx B p (c s)) (fun s => BoozSurf.tang n dxp dxt p (c s)) _ _ _ _ Hb Htg HG bpos)].
  cbv beta. rewrite sumv_N.
  rewrite (sumv_ext n (fun m => scal3 (v m) (JJ p (c t) m)) (fun m => scal3 (v m) (py_drtil weight (G_of n currents optG (c t)) (bx n dx B p (c t)) (bm n dx dB p (c t) m) (BoozSurf.tang n dxp dxt p (c t)) (dtang n dxp dxt p (c t) m)))).
  2:{ intros m L. unfold J. now rewrite (proj2 (Nat.ltb_lt m n)) by lia. }
  rewrite <- (sumv_lin2 (fun a e => py_drtil weight (G_of n currents optG (c t)) (bx n dx B p (c t)) a (BoozSurf.tang n dxp dxt p (c t)) e)); [|intros; apply drtil_lin|intros; apply drtil_scal].
  fold b'. unfold tg'. set (dt := sumv n (fun m => scal3 (v m) (dtang n dxp dxt p (c t) m))). set (bb := bx n dx B p (c t)). set (tt := BoozSurf.tang n dxp dxt p (c t)).
  replace b' with (add3 b' (scal3 (v n) v0)) at 1 by (generalize b'; intros; v3; ring). rewrite drtil_lin, drtil_scal, drtil_iota.
  unfold J. rewrite Nat.ltb_irrefl, Nat.eqb_refl. replace ((n + 1) <? n)%nat with false by (symmetry; apply Nat.ltb_ge; lia). replace ((n + 1) =? n)%nat with false by (symmetry; apply Nat.eqb_neq; lia).
  fold bb. unfold G'. generalize (py_drtil weight (G_of n currents optG (c t)) bb b' tt dt) (scal3 (py_w weight bb) (dres_iota bb (Xt n dxt p (c t)))) (scal3 (py_w weight bb) bb). intros u1 u2 u3.
  destruct optG; apply v3_eq; vu; ring.
Qed.
Lemma J_along m : (m < NN)%nat -> D3 (fun s => JJ p (c s) m) t (sumv NN (fun k => scal3 (v k) (HH p (c t) m k))).
Proof.
  intros L. rewrite sumv_N. unfold J.
  assert (F1 : ((n + 1) <? n)%nat = false) by (apply Nat.ltb_ge; lia). assert (F2 : ((n + 1) =? n)%nat = false) by (apply Nat.eqb_neq; lia).
  set (bb := bx n dx B p (c t)). set (tt := BoozSurf.tang n dxp dxt p (c t)). set (G := G_of n currents optG (c t)).
  destruct (m <? n)%nat eqn:E.
  - eapply D3_val; [|apply (D_drtil weight t (fun s => bx n dx B p (c s)) (fun s => bm n dx dB p (c s) m) (fun s => BoozSurf.tang n dxp dxt p (c s)) (fun s => dtang n dxp dxt p (c s) m)
       (fun s => G_of n currents optG (c s)) _ _ _ (scal3 (v n) (dxt p m)) G' Hb (Hbm m) Htg)].
    2:{ unfold dtang. eapply D3_val; [|apply D3_add; [apply D3_const|apply D3_scal; [apply Hn|apply D3_const]]]. apply v3_eq; vu; ring. }
    2:{ apply HG. } 2:{ apply bpos. }
    cbv beta. fold bb tt G.
    rewrite (sumv_ext n (fun k => scal3 (v k) (HH p (c t) m k)) (fun k => scal3 (v k) (py_d2rtil weight G bb (bm n dx dB p (c t) m) (bm n dx dB p (c t) k) (bmn n dx d2B p (c t) m k) tt (dtang n dxp dxt p (c t) m) (dtang n dxp dxt p (c t) k)))).
    2:{ intros k K. unfold H. rewrite E. now rewrite (proj2 (Nat.ltb_lt k n)) by lia. }
    rewrite <- (sumv_lin3 (fun a e f => py_d2rtil weight G bb (bm n dx dB p (c t) m) a e tt (dtang n dxp dxt p (c t) m) f)); [|intros; apply d2rtil_lin|intros; apply d2rtil_scal].
    fold b'. unfold tg'. set (dt := sumv n (fun k => scal3 (v k) (dtang n dxp dxt p (c t) k))). set (b2 := sumv n (fun k => scal3 (v k) (bmn n dx d2B p (c t) m k))).
    replace b' with (add3 b' (scal3 (v n) v0)) at 1 by (generalize b'; intros; v3; ring). replace b2 with (add3 b2 (scal3 (v n) v0)) at 1 by (generalize b2; intros; v3; ring).
    rewrite d2rtil_lin, d2rtil_scal. unfold H. rewrite E, Nat.ltb_irrefl, Nat.eqb_refl, F1, F2. fold bb. unfold G'.
    rewrite <- (d2rtil_iota0 weight G bb (bm n dx dB p (c t) m) tt (dtang n dxp dxt p (c t) m)).
    generalize (py_d2rtil weight G bb (bm n dx dB p (c t) m) v0 v0 tt (dtang n dxp dxt p (c t) m) (Xt n dxt p (c t))) (py_d2rtil weight G bb (bm n dx dB p (c t) m) b' b2 tt (dtang n dxp dxt p (c t) m) dt) (py_d2rtil_G weight bb (bm n dx dB p (c t) m)) (py_w weight bb * normsq bb).
    intros u1 u2 u3 k. destruct optG; apply v3_eq; vu; ring.
  - destruct (m =? n)%nat eqn:E2.
    + apply Nat.eqb_eq in E2. subst m.
      assert (Hx : D3 (fun s => Xt n dxt p (c s)) t (sumv n (fun k => scal3 (v k) (dxt p k)))) by apply D_lin.
      eapply D3_val; [|apply (D_iota_col weight t (fun s => bx n dx B p (c s)) _ Hb bpos (fun s => Xt n dxt p (c s)) _ Hx)]. cbv beta. fold bb. unfold b'.
      rewrite (sumv_lin2 (fun a e => py_d2rtil_iota weight bb a (Xt n dxt p (c t)) e)); [|intros; apply d2iota_lin|intros; apply d2iota_scal].
      unfold H. rewrite Nat.ltb_irrefl, Nat.eqb_refl, F1. fold bb. match goal with |- ?a = add3 ?u _ => replace u with a end.
      * generalize (sumv n (fun m => scal3 (v m) (py_d2rtil_iota weight bb (bm n dx dB p (c t) m) (Xt n dxt p (c t)) (dxt p m)))). intros u. destruct optG; apply v3_eq; vu; ring.
      * apply sumv_ext. intros k K. now rewrite (proj2 (Nat.ltb_lt k n)) by lia.
    + eapply D3_val; [|apply (D_G_col weight t (fun s => bx n dx B p (c s)) _ Hb bpos)]. cbv beta. fold bb. unfold b'.
      rewrite (sumv_lin1 (fun a => py_d2rtil_G weight bb a)); [|intros; apply d2G_lin|intros; apply d2G_scal].
      unfold H. rewrite E, Nat.ltb_irrefl, F1, E2. fold bb. match goal with |- ?a = add3 ?u _ => replace u with a end.
      * generalize (sumv n (fun m => scal3 (v m) (py_d2rtil_G weight bb (bm n dx dB p (c t) m)))). intros u. destruct optG; apply v3_eq; vu; ring.
      * apply sumv_ext. intros k K. now rewrite (proj2 (Nat.ltb_lt k n)) by lia.
Qed.
End Along.

Theorem C110_residual_jacobian (p : nat) : total3 NN (at_ok p) (rr p) (JJ p).
Proof. intros c t v Hc OK. now apply r_along. Qed.
Theorem C110_residual_hessian (p m : nat) : (m < NN)%nat -> total3 NN (at_ok p) (fun x => JJ p x m) (fun x => HH p x m).
Proof. intros L c t v Hc OK. now apply J_along. Qed.
End Main.
