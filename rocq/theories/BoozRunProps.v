(** C114: what BoozerSurface's success flag, run_code's caching and the objectives built on it guarantee. *)
From Coq Require Import Reals Lra Lia List Bool.
From Verif Require Import BoozRun.
Import ListNotations.
Open Scope R_scope.
Arguments St {C S}. Arguments coils {C S}. Arguments surf {C S}. Arguments target {C S}. Arguments need {C S}. Arguments res {C S}.

Lemma leb_iff a b : leb a b = true <-> a <= b. Proof. unfold leb. destruct (Rle_dec a b); split; auto; discriminate. Qed.
Lemma leb_not a b : leb a b = false <-> b < a. Proof. unfold leb. destruct (Rle_dec a b); split; try discriminate; try lra; auto. Qed.

Section Success.
Variables (C S : Type) (nb : C -> R -> S -> R -> R -> R) (step : C -> R -> S -> R -> R -> S * R * R).
Variables (gn : C -> R -> S -> R -> option R -> R) (gstep : C -> R -> S -> R -> option R -> S * R * option R).
Variable G_coils : C -> R.
Variables (tol : R) (maxiter : nat).
Lemma exact_loop_spec c t : forall fuel s iota G i norm, tol < norm ->
  let '(s', iota', G', i', norm') := exact_loop C S nb step tol fuel c t s iota G i norm in
  (i <= i' <= i + fuel)%nat /\ (norm' <= tol -> nb c t s' iota' G' <= tol) /\ (tol < norm' -> i' = (i + fuel)%nat).
Proof.
  induction fuel as [|f IH]; intros s iota G i norm H; cbn [exact_loop].
  - split; [lia|]. split; [lra|lia].
  - destruct (leb (nb c t s iota G) tol) eqn:E.
    + apply leb_iff in E. split; [lia|]. split; [auto|lra].
    + apply leb_not in E. destruct (step c t s iota G) as [[s1 iota1] G1]. specialize (IH s1 iota1 G1 (i + 1)%nat _ E).
      destruct (exact_loop C S nb step tol f c t s1 iota1 G1 (i + 1) (nb c t s iota G)) as [[[[s' iota'] G'] i'] norm']. destruct IH as (A & B & D). split; [lia|]. split; [exact B|]. intros Q. rewrite (D Q). lia.
Qed.
(** solve_residual_equation_exactly_newton: a reported success means that the system holds to tol at the returned surface, iota and
    G; a failure means that all iterations were used *)
Theorem C114_exact_success (c : C) (t : R) (s s' : S) (iota : R) (G : option R) (r : result) : tol < 1e6 ->
  exact_from C S nb step G_coils tol maxiter c t s iota G = (s', r) ->
  (r_iter r <= maxiter)%nat /\ exists g, r_G r = Some g /\ (r_success r = true -> nb c t s' (r_iota r) g <= tol) /\ (r_success r = false -> r_iter r = maxiter).
Proof.
  intros HT. unfold exact_from. set (g0 := match G with None => G_coils c | Some g => g end). pose proof (exact_loop_spec c t maxiter s iota g0 0 1e6 HT) as L.
  destruct (exact_loop C S nb step tol maxiter c t s iota g0 0 1e6) as [[[[s1 iota1] g1] i1] n1]. intros H. injection H as <- <-. cbn. destruct L as (A & B & D). split; [lia|]. exists g1. split; [reflexivity|].
  split; [intros Q; apply B; now apply leb_iff|intros Q; apply leb_not in Q; rewrite (D Q); lia].
Qed.
Lemma penalty_loop_spec c t : forall fuel s iota G i,
  let '(s', iota', G', i', norm') := penalty_loop C S gn gstep tol fuel c t s iota G i (gn c t s iota G) in
  (i <= i' <= i + fuel)%nat /\ norm' = gn c t s' iota' G' /\ (tol < norm' -> i' = (i + fuel)%nat).
Proof.
  induction fuel as [|f IH]; intros s iota G i; cbn [penalty_loop].
  - split; [lia|]. split; [reflexivity|lia].
  - destruct (leb (gn c t s iota G) tol) eqn:E.
    + apply leb_iff in E. split; [lia|]. split; [reflexivity|lra].
    + destruct (gstep c t s iota G) as [[s1 iota1] G1]. specialize (IH s1 iota1 G1 (i + 1)%nat).
      destruct (penalty_loop C S gn gstep tol f c t s1 iota1 G1 (i + 1) (gn c t s1 iota1 G1)) as [[[[s' iota'] G'] i'] norm']. destruct IH as (A & B & D). split; [lia|]. split; [exact B|]. intros Q. rewrite (D Q). lia.
Qed.
(** minimize_boozer_penalty_constraints_newton: the flag says exactly whether the gradient is within tol at the returned point *)
Theorem C114_penalty_success (c : C) (t : R) (s s' : S) (iota : R) (G : option R) (r : result) :
  penalty_from C S gn gstep tol maxiter c t s iota G = (s', r) ->
  (r_iter r <= maxiter)%nat /\ (r_success r = true <-> gn c t s' (r_iota r) (r_G r) <= tol) /\ (r_success r = false -> r_iter r = maxiter).
Proof.
  unfold penalty_from. pose proof (penalty_loop_spec c t maxiter s iota G 0) as L.
  destruct (penalty_loop C S gn gstep tol maxiter c t s iota G 0 (gn c t s iota G)) as [[[[s1 iota1] g1] i1] n1]. intros H. injection H as <- <-. cbn. destruct L as (A & B & D). split; [lia|].
  split; [rewrite <- B; apply leb_iff|intros Q; apply leb_not in Q; rewrite (D Q); lia].
Qed.
End Success.
(** the exact solver can report failure although the surface it returns solves the system: the last step is not checked *)
Theorem C114_exact_false_failure_refuted :
  exists (nb : unit -> R -> R -> R -> R -> R) step s' r, exact_from unit R nb step (fun _ => 0) 1 1 tt 0 2 0 None = (s', r) /\ r_success r = false /\ nb tt 0 s' (r_iota r) 0 <= 1.
Proof.
  exists (fun _ _ s _ _ => s), (fun _ _ s iota G => (0, iota, G)). eexists _, _. split; [unfold exact_from; cbn; replace (leb 2 1) with false by (symmetry; apply leb_not; lra); reflexivity|]. cbn. split; [apply leb_not; lra|lra].
Qed.

(** ** Histories *)
Section Hist.
Variables (C S : Type) (nb : C -> R -> S -> R -> R -> R) (step : C -> R -> S -> R -> R -> S * R * R).
Variables (gn : C -> R -> S -> R -> option R -> R) (gstep : C -> R -> S -> R -> option R -> S * R * option R).
Variables (jn : C -> R -> S -> R -> option R -> R) (jstep : R -> C -> R -> S -> R -> option R -> S * R * option R).
Variables (bfgs : C -> R -> S -> R -> option R -> S * R * option R * bool * nat).
Variable G_coils : C -> R.
Variables (currents_fixed : bool) (ty : btype) (tol : R) (maxiter : nat).
Notation run := (run_code C S nb step gn gstep bfgs G_coils currents_fixed ty tol maxiter).
Notation J := (iotas_J C S nb step gn gstep bfgs G_coils currents_fixed ty tol maxiter).
Notation obj_run' := (obj_run C S nb step gn gstep bfgs G_coils currents_fixed ty tol maxiter).
(** one complete default solve, as a function of the coils, the target and the starting point only *)
Definition solution (c : C) (t : R) (s : S) (iota : R) (G : option R) : S * result :=
  match ty with
  | Exact => exact_from C S nb step G_coils tol maxiter c t s iota G
  | Ls => let '(s, r) := bfgs_from C S bfgs c t s iota G in penalty_from C S gn gstep tol maxiter c t s (r_iota r) (r_G r)
  end.
Lemma run_solves x iota G x' o : need x = true -> run x iota G = Some (x', o) ->
  let '(s, r) := solution (coils x) (target x) (surf x) iota G in x' = St (coils x) s (target x) false (Some r) /\ o = Some r.
Proof.
  intros N. unfold run_code, solution. rewrite N. destruct (match G with None => negb currents_fixed | Some _ => false end); [discriminate|]. destruct ty.
  - unfold exact_newton, solver. rewrite N. destruct (exact_from _ _ _ _ _ _ _ _ _ _ _ _) as [s r]. intros H. injection H as <- <-. auto.
  - unfold penalty_lbfgs, solver. rewrite N. destruct (bfgs_from _ _ _ _ _ _ _ _) as [s0 r0]. cbn [coils surf target res]. unfold penalty_newton, solver. cbn [need coils surf target].
    destruct (penalty_from _ _ _ _ _ _ _ _ _ _ _) as [s r]. intros H. injection H as <- <-. auto.
Qed.
(** run_code after a change of the coils solves for the current coils from the current surface; a second run_code does nothing and
    returns None, whatever its arguments *)
Theorem C114_run_code (x x' : st C S) (iota : R) (G : option R) (o : option result) : run x iota G = Some (x', o) ->
  (need x = true -> (surf x', res x') = (fst (solution (coils x) (target x) (surf x) iota G), Some (snd (solution (coils x) (target x) (surf x) iota G))) /\ o = res x' /\
                    coils x' = coils x /\ target x' = target x) /\
  (need x = false -> x' = x /\ o = None) /\
  (forall iota2 G2, run x' iota2 G2 = Some (x', None)).
Proof.
  intros H. destruct (need x) eqn:N.
  - pose proof (run_solves x iota G x' o N H) as K. destruct (solution (coils x) (target x) (surf x) iota G) as [s r]. destruct K as [-> ->]. cbn. repeat split; try discriminate; reflexivity.
  - unfold run_code in H. rewrite N in H. injection H as <- <-. split; [discriminate|]. split; [auto|]. intros. unfold run_code. now rewrite N.
Qed.
(** reachable objects: created, optimised and evaluated through the coils *)
Inductive reach : obj C S -> Prop :=
| r_new c s t : reach (new C S c s t, None)
| r_coils c o : reach o -> reach (obj_set_coils C S c o)
| r_run iota G o o' : reach o -> obj_run' o iota G = Some o' -> reach o'
| r_J o o' v : reach o -> J o = Some (o', v) -> reach o'.
Definition solved (x : st C S) : Prop := exists s iota G, (surf x, res x) = (fst (solution (coils x) (target x) s iota G), Some (snd (solution (coils x) (target x) s iota G))).
Lemma solved_run x iota G x' o : (need x = false -> solved x) -> run x iota G = Some (x', o) -> need x' = false /\ solved x'.
Proof.
  intros I H. destruct (need x) eqn:N.
  - pose proof (run_solves x iota G x' o N H) as K. destruct (solution (coils x) (target x) (surf x) iota G) as [s r] eqn:E. destruct K as [-> _]. split; [reflexivity|]. exists (surf x), iota, G. cbn. now rewrite E.
  - unfold run_code in H. rewrite N in H. injection H as <- _. auto.
Qed.
Lemma compute_spec x x' v : (need x = false -> solved x) -> compute C S nb step gn gstep bfgs G_coils currents_fixed ty tol maxiter x = Some (x', v) ->
  need x' = false /\ solved x' /\ exists r, res x' = Some r /\ v = r_iota r /\ coils x' = coils x /\ target x' = target x.
Proof.
  intros I. unfold compute. destruct (need x) eqn:N.
  - destruct (res x) as [r0|]; [|discriminate]. destruct (run x (r_iota r0) (r_G r0)) as [[x1 o]|] eqn:E; [|discriminate]. cbn [option_map fst].
    assert (I' : need x = false -> solved x) by congruence. destruct (solved_run _ _ _ _ _ I' E) as [A B]. destruct (C114_run_code _ _ _ _ _ E) as (K & _ & _). destruct (K N) as (_ & _ & K1 & K2).
    destruct (res x1) as [r|] eqn:R1; [|discriminate]. destruct (r_plu r); [|discriminate]. intros H. injection H as <- <-. split; [exact A|]. split; [exact B|]. exists r. auto.
  - destruct (res x) as [r|] eqn:R1; [|discriminate]. destruct (r_plu r); [|discriminate]. intros H. injection H as <- <-. split; [exact N|]. split; [auto|]. exists r. auto.
Qed.
Lemma reach_inv o : reach o -> (need (fst o) = false -> solved (fst o)) /\ (forall v, snd o = Some v -> need (fst o) = false /\ exists r, res (fst o) = Some r /\ v = r_iota r).
Proof.
  induction 1 as [c s t|c o _ IH|iota G o o' _ IH E|o o' v _ IH E].
  - split; [discriminate|]. intros v Q. discriminate.
  - split; [discriminate|]. intros v Q. discriminate.
  - unfold obj_run in E. destruct (run (fst o) iota G) as [[x p]|] eqn:K; [|discriminate]. injection E as <-. cbn [fst snd]. destruct IH as [I1 I2]. destruct (solved_run _ _ _ _ _ I1 K) as [A B]. split; [auto|].
    intros v Q. destruct (I2 v Q) as (N & r & R1 & R2). split; [exact A|]. unfold run_code in K. rewrite N in K. injection K as <- _. eauto.
  - unfold iotas_J in E. destruct o as [x [w|]]; cbn [fst snd] in *.
    + injection E as <- <-. exact IH.
    + destruct (compute _ _ _ _ _ _ _ _ _ _ _ _ x) as [[x1 v1]|] eqn:K; [|discriminate]. injection E as <- <-. cbn [fst snd]. destruct (compute_spec _ _ _ (proj1 IH) K) as (A & B & r & R1 & R2 & _).
      split; [auto|]. intros v2 Q. injection Q as <-. eauto.
Qed.
(** in every history the value the objective returns is the iota of a solve for the coils and target at that moment, and the
    surface holds that solution *)
Theorem C114_objective (o o' : obj C S) (v : R) : reach o -> J o = Some (o', v) ->
  coils (fst o') = coils (fst o) /\ target (fst o') = target (fst o) /\
  exists s iota G, let '(s', r) := solution (coils (fst o)) (target (fst o)) s iota G in surf (fst o') = s' /\ v = r_iota r.
Proof.
  intros H E. destruct (reach_inv o H) as [I1 I2]. unfold iotas_J in E. destruct o as [x [w|]]; cbn [fst snd] in *.
  - injection E as <- <-. cbn [fst]. destruct (I2 w eq_refl) as (N & r & R1 & R2). destruct (I1 N) as (s & iota & G & Q). split; [reflexivity|]. split; [reflexivity|]. exists s, iota, G.
    destruct (solution (coils x) (target x) s iota G) as [s' r']. cbn [fst snd] in Q. rewrite R1 in Q. injection Q as -> ->. auto.
  - destruct (compute _ _ _ _ _ _ _ _ _ _ _ _ x) as [[x1 v1]|] eqn:K; [|discriminate]. injection E as <- <-. cbn [fst snd]. destruct (compute_spec _ _ _ I1 K) as (A & B & r & R1 & R2 & R3 & R4).
    split; [exact R3|]. split; [exact R4|]. destruct B as (s & iota & G & Q). rewrite R3, R4 in Q. exists s, iota, G. destruct (solution (coils x) (target x) s iota G) as [s' r']. cbn [fst snd] in Q. rewrite R1 in Q. injection Q as -> ->. auto.
Qed.
(** before any solve the objective cannot be evaluated *)
Theorem C114_needs_first_run (c : C) (s : S) (t : R) : J (new C S c s t, None) = None.
Proof. reflexivity. Qed.
(** G = None needs fixed currents *)
Theorem C114_free_currents (x : st C S) (iota : R) : need x = true -> currents_fixed = false -> run x iota None = None.
Proof. intros N F. unfold run_code. now rewrite N, F. Qed.
Lemma manual_loop_spec c t : tol < 1e10 -> forall fuel s iota G lam norm i, norm = 1e10 \/ norm = jn c t s iota G ->
  let '(s', iota', G', _, norm') := manual_loop C S jn jstep tol fuel c t s iota G lam norm i in norm' <= tol -> jn c t s' iota' G' <= tol.
Proof.
  intros HT. induction fuel as [|f IH]; intros s iota G lam norm i H; cbn [manual_loop].
  - intros Q. destruct H as [-> | ->]; [lra|exact Q].
  - destruct (leb norm tol) eqn:E; [intros Q; destruct H as [-> | ->]; [lra|exact Q]|]. destruct (jstep lam c t s iota G) as [[s1 iota1] G1]. apply IH. right. reflexivity.
Qed.
(** minimize_boozer_penalty_constraints_ls with method 'manual' moves the surface but leaves the stored result and the flag: an
    objective evaluated next starts from the old result *)
Theorem C114_manual_not_recorded (x x' : st C S) (iota : R) (G : option R) (o : option result) : tol < 1e10 -> need x = true ->
  penalty_manual C S jn jstep tol maxiter x iota G = Some (x', o) -> need x' = true /\ res x' = res x /\ coils x' = coils x /\ target x' = target x /\
  exists r, o = Some r /\ (r_success r = true -> jn (coils x) (target x) (surf x') (r_iota r) (r_G r) <= tol).
Proof.
  intros HT N. unfold penalty_manual. rewrite N. pose proof (manual_loop_spec (coils x) (target x) HT maxiter (surf x) iota G 1 1e10 0 (or_introl eq_refl)) as L.
  destruct (manual_loop _ _ _ _ _ _ _ _ _ _ _ _ _ _) as [[[[s1 iota1] g1] i1] n1]. intros H. injection H as <- <-. cbn. split; [reflexivity|]. split; [reflexivity|]. split; [reflexivity|]. split; [reflexivity|].
  eexists. split; [reflexivity|]. cbn. intros Q. apply L. now apply leb_iff.
Qed.
(** a solver called again although nothing changed returns the stored result and leaves everything as it is *)
Theorem C114_solver_memo (from : C -> R -> S -> R -> option R -> S * result) (x : st C S) (iota : R) (G : option R) (r : result) : need x = false -> res x = Some r ->
  solver C S from x iota G = Some (x, Some r).
Proof. intros N Q. unfold solver. now rewrite N, Q. Qed.
(** the LBFGS solve stores what the optimizer returned: its surface, iota and G, its success flag, and no factorisation (so that an
    objective evaluated after it alone raises) *)
Theorem C114_lbfgs_result (bf : C -> R -> S -> R -> option R -> S * R * option R * bool * nat) (x : st C S) (iota : R) (G : option R) (s : S) (iota' : R) (G' : option R) (ok : bool) (i : nat) : need x = true ->
  bf (coils x) (target x) (surf x) iota G = (s, iota', G', ok, i) ->
  exists x' r, penalty_lbfgs C S bf x iota G = Some (x', Some r) /\ surf x' = s /\ coils x' = coils x /\ need x' = false /\ res x' = Some r /\ r_iota r = iota' /\ r_G r = G' /\ r_success r = ok /\ r_iter r = i /\ J (x', None) = None.
Proof. intros N E. unfold penalty_lbfgs, solver, bfgs_from. rewrite N, E. do 2 eexists. split; [reflexivity|]. cbn. repeat split. Qed.
(** after a solve, changing the surface or the target has no effect on run_code or on the objective: both still give the old solution *)
Theorem C114_stale_surface_and_target (x : st C S) (s : S) (t iota : R) (G : option R) (r : result) : need x = false -> res x = Some r -> r_plu r = true ->
  run (set_surface C S s (set_target C S t x)) iota G = Some (set_surface C S s (set_target C S t x), None) /\
  J (set_surface C S s (set_target C S t x), None) = Some ((set_surface C S s (set_target C S t x), Some (r_iota r)), r_iota r).
Proof.
  intros N R1 P. unfold run_code, iotas_J, compute, set_surface, set_target. cbn [fst snd need res coils surf target]. rewrite N. split; [reflexivity|]. cbn [res]. rewrite R1. cbn beta iota. rewrite P. reflexivity.
Qed.
End Hist.
(** constraint_weight = 0 selects the exact solver, like None *)
Theorem C114_zero_weight : boozer_type None = Exact /\ boozer_type (Some 0) = Exact /\ forall w, w <> 0 -> boozer_type (Some w) = Ls.
Proof. unfold boozer_type. split; [reflexivity|]. split; [destruct (Req_EM_T 0 0); congruence|]. intros w H. destruct (Req_EM_T w 0); congruence. Qed.
(** so after a solve run_code does not look for the surface with the new target label *)
Theorem C114_new_target_ignored_refuted : exists (nb : unit -> R -> R -> R -> R -> R) step (x : st unit R), need x = false /\
  run_code unit R nb step (fun _ _ _ _ _ => 0) (fun _ _ s i g => (s, i, g)) (fun _ _ s i g => (s, i, g, true, 0%nat)) (fun _ => 0) true Exact (1 / 2) 10 (set_target unit R 5 x) 0 None = Some (set_target unit R 5 x, None) /\
  nb tt 5 (surf x) 0 0 > 1 / 2 /\ nb tt (target x) (surf x) 0 0 <= 1 / 2.
Proof.
  exists (fun _ t s _ _ => Rabs (s - t)), (fun _ t s i g => (t, i, g)), (St tt 0 0 false (Some (Res 0 None true 0 true))). split; [reflexivity|]. split; [reflexivity|]. cbn [surf target].
  split; [rewrite Rabs_left1; lra|rewrite Rminus_eq_0, Rabs_R0; lra].
Qed.
(** ** A concrete history: create, run, change the coils, evaluate *)
Definition ex_nb (c : R) (t s iota G : R) : R := Rabs (s - c).
Definition ex_step (c t s iota G : R) : R * R * R := (c, c, G).
Example C114_ex : exists o' o'', 
  obj_run R R ex_nb ex_step (fun _ _ _ _ _ => 0) (fun _ _ s i g => (s, i, g)) (fun _ _ s i g => (s, i, g, true, 0%nat)) (fun _ => 0) true Exact 0 10 (new R R 1 1 0, None) 1 None = Some o' /\
  iotas_J R R ex_nb ex_step (fun _ _ _ _ _ => 0) (fun _ _ s i g => (s, i, g)) (fun _ _ s i g => (s, i, g, true, 0%nat)) (fun _ => 0) true Exact 0 10 (obj_set_coils R R 2 o') = Some (o'', 2).
Proof.
  assert (A : forall c t i g, leb (ex_nb c t c i g) 0 = true) by (intros; apply leb_iff; unfold ex_nb; rewrite Rminus_eq_0, Rabs_R0; lra).
  assert (B : forall t i g, leb (ex_nb 2 t 1 i g) 0 = false) by (intros; apply leb_not; unfold ex_nb; rewrite Rabs_left; lra).
  exists (St 1 1 0 false (Some (Res 1 (Some 0) true 0 true)), None), (St 2 2 0 false (Some (Res 2 (Some 0) true 1 true)), Some 2). split.
  - unfold obj_run, run_code, exact_newton, solver, exact_from. cbn [new fst snd need negb coils surf target exact_loop]. rewrite A. cbn. rewrite A. reflexivity.
  - unfold iotas_J, compute, run_code, exact_newton, solver, exact_from. cbn [obj_set_coils set_coils fst snd need res r_G r_iota coils surf target negb]. cbn [exact_loop]. rewrite B. cbn [ex_step]. rewrite A. cbn. rewrite A. reflexivity.
Qed.
Print Assumptions C114_objective.
