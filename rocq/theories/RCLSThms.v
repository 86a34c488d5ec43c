(** C96: rcls_wireframe. *)
From Coq Require Import Reals Lra Lia List Bool Arith ZArith ZifyNat Psatz Classical_Prop.
From Verif Require Import ListAux VecAux Vec3 SurfModel SurfProps SurfGeom SurfGeomProps SurfGeomJac CurveObjModel CurveObjProps GPMOModel GPMOProps WFModel WFGeom WFThms WFCells WFCurrents WFConstr WFCalls WFMatrix RCLSModel RCLSProps RCLSKern.
Import ListNotations.
Open Scope R_scope.
Ltac Zify.zify_post_hook ::= idtac.

(** ** Specification *)
(** field error plus weighted currents, over all segments of the wireframe *)
Definition field_part (nseg m : nat) (A : mat) (b : vec) (x : vec) : R := 1 / 2 * sum_to m (fun i => (sum_to nseg (fun s => A i s * x s) - b i) ^ 2).
Definition weight_part (nseg : nat) (wt : nat -> R) (x : vec) : R := 1 / 2 * sum_to nseg (fun s => (wt s * x s) ^ 2).
(** the weight of a segment; of a square array only the diagonal counts *)
Definition weight_of (W : wreg) (s : nat) : R := match W with GScalar c => c | GVec w => w s | GMat w => w s s end.

(** ** Sums over the free segments *)
Lemma rsuml_nth (f : nat -> R) l : rsuml (map f l) = sum_to (length l) (fun j => f (nth j l 0%nat)).
Proof. induction l as [|a l IH]; [reflexivity|]. cbn [map rsuml length]. rewrite sum_to_first. cbn [nth]. now rewrite IH. Qed.
Lemma position_nth l : NoDup l -> forall i, (i < length l)%nat -> position (nth i l 0%nat) l = Some i.
Proof.
  induction 1 as [|a l NI ND IH]; intros i Hi; [cbn in Hi; lia|]. cbn [length] in Hi. destruct i as [|i]; cbn [nth position]; [now rewrite Nat.eqb_refl|]. destruct (Nat.eqb_spec (nth i l 0%nat) a) as [E|]; [exfalso; apply NI; rewrite <- E; apply nth_In; lia|]. rewrite IH by lia. reflexivity.
Qed.
Lemma position_none l s : ~ In s l -> position s l = None.
Proof. induction l as [|a l IH]; intros N; [reflexivity|]. cbn [position]. destruct (Nat.eqb_spec s a) as [->|]; [exfalso; apply N; now left|]. rewrite IH; [reflexivity|]. intros I. apply N. now right. Qed.
Lemma sum_free nt np w (f : nat -> R) : (forall s, (s < nseg nt np)%nat -> ~ In s (unconstrained nt np w) -> f s = 0) -> sum_to (nseg nt np) f = sum_to (length (unconstrained nt np w)) (fun j => f (nth j (unconstrained nt np w) 0%nat)).
Proof.
  intros Z. rewrite <- rsuml_nth. unfold unconstrained, sum_to. symmetry. apply sum_filter. intros s I F. apply Z; [apply in_seq in I; lia|]. intros J. unfold unconstrained in J. apply filter_In in J. destruct J as (_ & J). congruence.
Qed.
Lemma matrices_shape nt np pick fuel nc w w' rows cols : constraint_matrices nt np pick fuel true true nc w = Some ((w', None), (rows, cols)) -> cols = unconstrained nt np w' /\ (1 <= length rows)%nat.
Proof.
  unfold constraint_matrices. destruct (refreshed nt np fuel w) as [(w1 & [e|])|]; [discriminate| |discriminate]. destruct (find_inactive nt np pick nc w1) as [nodes|e]; [|discriminate]. cbv zeta. destruct (filter _ (cons w1)) as [|c l]; [discriminate|]. intros H. injection H as <- <- <-. cbn [length]. split; [reflexivity|lia].
Qed.

Lemma classic_dependent p n C : dependent p n C \/ ~ dependent p n C. Proof. apply Classical_Prop.classic. Qed.
Section Wire.
Variables (nt np : nat).
Hypothesis Hnt : (2 * half nt = nt /\ 1 <= half nt)%nat.
Hypothesis Hnp : (2 <= np)%nat.
Notation half := (half nt). Notation nseg := (nseg nt np). Notation node := (node nt).
Notation init := (fst (initial nt np)).
Notation seg_start := (seg_start nt np). Notation seg_end := (seg_end nt np).
Notation T := (T nt). Notation P := (P nt np). Notation neg := (neg nt).
Variable pick : list nat -> nat.
Variable qr : nat -> nat -> mat -> option (mat * mat).
Variable lstsq : nat -> mat -> vec -> vec.
Hypothesis K : kernels_ok qr lstsq.

Definition crows (rows : list constr) (cols : list nat) : mat := fun k j => crow (nth k rows (C (CUser 0) (fun _ => 0) 0)) (nth j cols 0%nat).
(** what happened to the wireframe and what was returned *)
Definition solved (w : wst) (m : nat) (A : mat) (b : vec) (W : wreg) (o : rout) : Prop :=
  ro_currents o = Some (ro_x o) /\ sat nt np (ro_x o) (stated w) /\
  (forall y, sat nt np y (stated w) ->
    field_part nseg m A b (ro_x o) + weight_part nseg (weight_of W) (ro_x o) <= field_part nseg m A b y + weight_part nseg (weight_of W) y /\
    (field_part nseg m A b y + weight_part nseg (weight_of W) y = field_part nseg m A b (ro_x o) + weight_part nseg (weight_of W) (ro_x o) -> normsq nseg (ro_x o) <= normsq nseg y)) /\
  ro_fB o = field_part nseg m A b (ro_x o) /\
  ro_fR o = (match W with GMat M => 1 / 2 * sum_to nseg (fun s => sum_to nseg (fun t => M s t * ro_x o t) ^ 2) | _ => weight_part nseg (weight_of W) (ro_x o) end) /\
  ro_f o = ro_fB o + ro_fR o.
Lemma wire_step w w' rows cols m A b W : (forall x, solves rows cols nseg x <-> sat nt np x (stated w)) -> cols = unconstrained nt np w' -> (1 <= length rows)%nat -> (length rows < length cols)%nat ->
  forall QR, qr (length cols) (length rows) (fun i k => crows rows cols k i) = Some QR -> ~ dependent (length rows) (length cols) (crows rows cols) ->
  exists xf, rcls qr lstsq m (length cols) (fun i j => A i (nth j cols 0%nat)) m b (wfree cols W) (length rows) (length cols) (crows rows cols) (length rows) (fun k => cst (nth k rows (C (CUser 0) (fun _ => 0) 0))) = inl xf /\
    let x := spread_out cols xf in
    solved w m A b W {| ro_state := w'; ro_currents := Some x; ro_err := None; ro_x := x; ro_fB := 1 / 2 * sum_to m (fun i => (mv nseg A x i - b i) ^ 2); ro_fR := reported_reg nt np W x; ro_f := 1 / 2 * sum_to m (fun i => (mv nseg A x i - b i) ^ 2) + reported_reg nt np W x |}.
Proof.
  intros HS EC Lr Lc QR EQ ND. set (n := length cols) in *. set (p := length rows) in *. set (seg := fun j => nth j cols 0%nat).
  assert (NDc : NoDup cols) by (rewrite EC; apply (NoDup_unconstrained nt np)).
  assert (CIn : forall j, (j < n)%nat -> In (seg j) cols) by (intros; now apply nth_In).
  (* the weights *)
  assert (EW : exists Wm, wmat n (wfree cols W) = inl Wm /\ forall x i, (i < n)%nat -> mv n Wm x i = weight_of W (seg i) * x i).
  { destruct (C96_weights n) as (W1 & W2 & _). destruct W as [c|wv|M]; [apply W1|apply (W2 ltac:(lia))|apply (W2 ltac:(lia) (fun i => M (seg i) (seg i)))]. }
  destruct EW as (Wm & EW & HW).
  destruct (C96_optimal qr lstsq m n (fun i j => A i (seg j)) b (wfree cols W) Wm p (crows rows cols) (fun k => cst (nth k rows (C (CUser 0) (fun _ => 0) 0))) QR K ltac:(lia) EW EQ ND) as (xf & EX & FX & OPT).
  exists xf. split; [exact EX|]. cbv zeta. set (x := spread_out cols xf).
  assert (X1 : forall j, (j < n)%nat -> x (seg j) = xf j) by (intros j Hj; unfold x, spread_out, seg; now rewrite position_nth).
  assert (X0 : forall s, ~ In s cols -> x s = 0) by (intros s N; unfold x, spread_out; now rewrite position_none).
  assert (SUMF : forall f : nat -> R, (forall s, (s < nseg)%nat -> ~ In s cols -> f s = 0) -> sum_to nseg f = sum_to n (fun j => f (seg j))) by (intros f Z; unfold n, seg; rewrite EC; apply sum_free; rewrite <- EC; exact Z).
  (* restriction of a vector that vanishes elsewhere *)
  assert (OBJ : forall y, (forall s, (s < nseg)%nat -> ~ In s cols -> y s = 0) -> objective m n (fun i j => A i (seg j)) b Wm (fun j => y (seg j)) = field_part nseg m A b y + weight_part nseg (weight_of W) y).
  { intros y Z. unfold objective, field_part, weight_part. f_equal; f_equal.
    - apply sum_ext. intros i _. rewrite (SUMF (fun s => A i s * y s)); [reflexivity|]. intros s H1 H2. rewrite Z by auto. ring.
    - rewrite (SUMF (fun s => (weight_of W s * y s) ^ 2)); [|intros s H1 H2; rewrite Z by auto; ring]. apply sum_ext. intros i Hi. f_equal. now apply (HW (fun j => y (seg j))). }
  assert (FEAS : forall y, (forall c, In c rows -> rsuml (map (fun s => crow c s * y s) cols) = cst c) <-> feasible p n (crows rows cols) (fun k => cst (nth k rows (C (CUser 0) (fun _ => 0) 0))) (fun j => y (seg j))).
  { intros y. split.
    - intros H k Hk. rewrite <- (H (nth k rows (C (CUser 0) (fun _ => 0) 0))) by now apply nth_In. rewrite rsuml_nth. reflexivity.
    - intros H c I. destruct (In_nth _ _ (C (CUser 0) (fun _ => 0) 0) I) as (k & Hk & <-). rewrite rsuml_nth. apply (H k Hk). }
  assert (EXF : forall f : vec -> R, (forall u v : vec, (forall j, (j < n)%nat -> u j = v j) -> f u = f v) -> f xf = f (fun j => x (seg j))) by (intros f Hf; apply Hf; intros j Hj; now rewrite X1).
  assert (FX' : feasible p n (crows rows cols) (fun k => cst (nth k rows (C (CUser 0) (fun _ => 0) 0))) (fun j => x (seg j))). { intros k Hk. rewrite <- (FX k Hk). apply sum_ext. intros j Hj. now rewrite X1. }
  assert (OX : objective m n (fun i j => A i (seg j)) b Wm xf = field_part nseg m A b x + weight_part nseg (weight_of W) x).
  { rewrite <- (OBJ x) by auto. apply objective_ext. intros j Hj. now rewrite X1. }
  split; [reflexivity|]. cbn [ro_x ro_fB ro_fR ro_f ro_currents]. split; [|split; [|split; [reflexivity|split; [|reflexivity]]]].
  - apply HS. split; [intros s _ N; now apply X0|]. now apply FEAS.
  - intros y Sy. apply HS in Sy. destruct Sy as (Zy & Fy). apply FEAS in Fy. destruct (OPT _ Fy) as (O1 & O2). rewrite OX, (OBJ y Zy) in O1, O2. split; [exact O1|]. intros E. specialize (O2 E).
    unfold normsq. rewrite (SUMF (fun s => x s ^ 2)) by (intros s _ N; rewrite X0 by auto; ring). rewrite (SUMF (fun s => y s ^ 2)) by (intros s H N; rewrite Zy by auto; ring). rewrite (sum_ext n (fun j => x (seg j) ^ 2) (fun j => xf j ^ 2)) by (intros j Hj; now rewrite X1). exact O2.
  - destruct W as [c|wv|M]; [|reflexivity|reflexivity]. unfold reported_reg, weight_part. cbn [weight_of]. rewrite (sum_ext nseg (fun s => (c * x s) ^ 2) (fun s => c ^ 2 * x s ^ 2)) by (intros; ring). rewrite sum_to_scal. ring.
Qed.
(** after any sequence of constraint calls: either an exception and the currents are left alone, or the currents become a feasible vector with the least objective over all feasible ones *)
Theorem C96_wireframe l m A b W : (forall o, In o l -> no_cont_removed o) -> let w := run nt np l init in
  exists o, rcls_wireframe qr lstsq nt np pick (S (S nseg)) m A b W false w = Some o /\
    match ro_err o with Some _ => ro_currents o = None | None => solved w m A b W o end.
Proof.
  intros L w. destruct (C93_matrices nt np Hnt Hnp pick l true true L) as (w' & e & rows & cols & EM & E1 & E2). fold w in EM, E1, E2. unfold rcls_wireframe. rewrite EM. destruct e as [e|]; [eexists; split; [reflexivity|]; reflexivity|]. destruct (matrices_shape _ _ _ _ _ _ _ _ _ EM) as (EC & Lr). rewrite <- EC. cbv zeta. destruct (Nat.leb_spec (length cols) (length rows)) as [Q|Q]; [eexists; split; [reflexivity|]; reflexivity|].
  change (fun k j => crow (nth k rows (C (CUser 0) (fun _ => 0) 0)) (nth j cols 0%nat)) with (crows rows cols).
  destruct (qr (length cols) (length rows) (fun i k => crows rows cols k i)) as [QR|] eqn:EQ.
  2:{ assert (EX : exists e, rcls qr lstsq m (length cols) (fun i j => A i (nth j cols 0%nat)) m b (wfree cols W) (length rows) (length cols) (crows rows cols) (length rows) (fun k => cst (nth k rows (C (CUser 0) (fun _ => 0) 0))) = inr e). { unfold rcls. rewrite !Nat.eqb_refl. cbn [negb]. destruct (wmat _ _); [|eauto]. rewrite EQ. eauto. } destruct EX as (e & ->). eexists. split; reflexivity. }
  destruct (classic_dependent (length rows) (length cols) (crows rows cols)) as [D|D].
  - assert (EW : exists Wm, wmat (length cols) (wfree cols W) = inl Wm). { destruct (C96_weights (length cols)) as (W1 & W2 & _). destruct W as [c|wv|M]; [destruct (W1 c) as (Wm & Q1 & _)|destruct (W2 ltac:(lia) (fun i => wv (nth i cols 0%nat))) as (Wm & Q1 & _)|destruct (W2 ltac:(lia) (fun i => M (nth i cols 0%nat) (nth i cols 0%nat))) as (Wm & Q1 & _)]; exists Wm; exact Q1. }
    destruct EW as (Wm & EW). rewrite (C96_dependent qr lstsq m (length cols) _ b (wfree cols W) Wm (length rows) (crows rows cols) _ QR K ltac:(lia) EW EQ D). eexists. split; reflexivity.
  - destruct (wire_step w w' rows cols m A b W (E2 eq_refl) EC Lr Q QR EQ D) as (xf & EX & S). rewrite EX. eexists. split; [reflexivity|]. exact S.
Qed.
End Wire.
