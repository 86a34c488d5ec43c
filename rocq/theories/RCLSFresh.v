(** C96: a freshly built wireframe, with or without a prescribed poloidal current, can always be optimized. *)
From Coq Require Import Reals Lra Lia List Bool Arith ZArith ZifyNat Psatz FunctionalExtensionality.
From Verif Require Import ListAux VecAux Vec3 SurfModel SurfProps SurfGeom SurfGeomProps SurfGeomJac CurveObjModel CurveObjProps GPMOModel GPMOProps WFModel WFGeom WFThms WFCells WFCurrents WFConstr WFCalls WFMatrix RCLSModel RCLSProps RCLSKern RCLSThms.
Import ListNotations.
Open Scope R_scope.
Ltac Zify.zify_post_hook ::= idtac.

Section Fresh.
Variables (nt np : nat).
Hypothesis Hnt : (2 * half nt = nt /\ 1 <= half nt)%nat.
Hypothesis Hnp : (2 <= np)%nat.
Notation half := (half nt). Notation nseg := (nseg nt np). Notation node := (node nt).
Notation init := (fst (initial nt np)).
Notation seg_start := (seg_start nt np). Notation seg_end := (seg_end nt np).
Notation T := (T nt). Notation P := (P nt np). Notation neg := (neg nt).
Notation connected := (connected nt np).

(** ** The continuity equations are independent *)
Notation L := (filter (fun ij => has_continuity nt np (fst ij) (snd ij)) (grid nt np)).
Lemma sum_grid (f : nat * nat -> R) : rsuml (map f (grid nt np)) = sum_to (np + 1) (fun i => sum_to nt (fun j => f (i, j))).
Proof. unfold grid. rewrite map_flat, rsuml_flat. unfold sum_to. f_equal. apply map_ext. intros i. now rewrite map_map. Qed.
Lemma sum_filter' {X} (f : X -> R) (g : X -> bool) l : rsuml (map f (filter g l)) = rsuml (map (fun a => if g a then f a else 0) l).
Proof. induction l as [|a l IH]; [reflexivity|]. cbn [filter map rsuml]. destruct (g a); cbn [map rsuml]; rewrite IH; ring. Qed.
(** the odd extension of a function on the nodes with a continuity equation *)
Definition ext (g : nat * nat -> R) (k : nat) : R :=
  let i := (k / nt)%nat in let j := (k mod nt)%nat in
  if has_continuity nt np i j then g (i, j) else if ((i =? 0) || (i =? np))%nat && (half <? j)%nat then - g (i, nt - j)%nat else 0.
Lemma ext_node g i j : (j < nt)%nat -> ext g (node i j) = if has_continuity nt np i j then g (i, j) else if ((i =? 0) || (i =? np))%nat && (half <? j)%nat then - g (i, nt - j)%nat else 0.
Proof. intros Hj. unfold ext, WFModel.node. rewrite Nat.div_add_l, Nat.div_small, Nat.add_0_r by lia. replace ((i * nt + j) mod nt)%nat with j by (rewrite Nat.add_comm, Nat.mod_add, Nat.mod_small by lia; lia). reflexivity. Qed.
Lemma plane_fold (net : nat -> R) g i : (i = 0 \/ i = np)%nat -> sum_to nt (fun j => net j * ext g (node i j)) = sum_to nt (fun j => if has_continuity nt np i j then g (i, j) * (net j - net (neg j)) else 0).
Proof.
  intros Hi. assert (HC : forall j, has_continuity nt np i j = ((0 <? j) && (j <? half))%nat). { intros j. unfold has_continuity. destruct (Nat.eqb_spec i 0), (Nat.eqb_spec i np); try lia; cbn [orb andb]; lia. }
  rewrite (sum_ext nt (fun j => if has_continuity nt np i j then g (i, j) * (net j - net (neg j)) else 0) (fun j => (if has_continuity nt np i j then g (i, j) * net j else 0) - (if has_continuity nt np i j then g (i, j) * net (neg j) else 0))) by (intros j _; destruct (has_continuity nt np i j); ring).
  rewrite sum_to_minus. rewrite <- (sum_to_perm nt neg (fun j => if has_continuity nt np i j then g (i, j) * net (neg j) else 0)) by (intros; first [apply (neg_lt nt Hnt)|now apply (neg_neg nt Hnt)]). rewrite <- sum_to_minus. apply sum_ext. intros j Hj. rewrite ext_node by auto. rewrite (neg_neg nt Hnt) by auto. rewrite !HC. replace ((i =? 0) || (i =? np))%nat with true by (symmetry; lia). cbn [andb].
  destruct (Nat.eq_dec j 0) as [->|]; [rewrite (neg_0 nt Hnt); change (0 <? 0)%nat with false; destruct (Nat.ltb_spec half 0); [lia|]; cbn [andb]; ring|]. rewrite (neg_pos nt Hnt) by lia. destruct (Nat.ltb_spec 0 j); [|lia]. destruct (Nat.ltb_spec 0 (nt - j)); [|lia]. destruct (Nat.ltb_spec j half), (Nat.ltb_spec (nt - j) half), (Nat.ltb_spec half j); try lia; cbn [andb]; ring.
Qed.
Lemma flux_rows (x : vec) g : sum_to nseg (fun s => x s * (ext g (seg_start s) - ext g (seg_end s))) = rsuml (map (fun ij => g ij * dotr nt np (cont_row (connected (fst ij) (snd ij))) x) L).
Proof.
  rewrite (flux_form nt np Hnt Hnp). rewrite sum_filter', sum_grid. replace (np + 1)%nat with (S (S (np - 1))) by lia. rewrite sum_to_first, sum_to_S. replace (S (np - 1)) with np by lia. rewrite (plane_fold (net0 nt np x) g 0), (plane_fold (netN nt np x) g np) by auto. cbn [fst snd].
  rewrite (sum_ext nt (fun j => if has_continuity nt np 0 j then g (0, j)%nat * dotr nt np (cont_row (connected 0 j)) x else 0) (fun j => if has_continuity nt np 0 j then g (0, j)%nat * (net0 nt np x j - net0 nt np x (neg j)) else 0)).
  2:{ intros j Hj. destruct (has_continuity nt np 0 j) eqn:H; [|reflexivity]. rewrite row_0; auto. unfold has_continuity in H. lia. }
  rewrite (sum_ext nt (fun j => if has_continuity nt np np j then g (np, j) * dotr nt np (cont_row (connected np j)) x else 0) (fun j => if has_continuity nt np np j then g (np, j) * (netN nt np x j - netN nt np x (neg j)) else 0)).
  2:{ intros j Hj. destruct (has_continuity nt np np j) eqn:H; [|reflexivity]. rewrite row_N; auto. unfold has_continuity in H. lia. }
  rewrite Rplus_assoc. f_equal. f_equal. apply sum_ext. intros i Hi. apply sum_ext. intros j Hj. rewrite ext_node by auto. assert (H : has_continuity nt np (S i) j = true) by (unfold has_continuity; lia). rewrite H. rewrite row_int by (auto; lia). ring.
Qed.
Lemma no_relation g : (forall x : vec, rsuml (map (fun ij => g ij * dotr nt np (cont_row (connected (fst ij) (snd ij))) x) L) = 0) -> forall ij, In ij L -> g ij = 0.
Proof.
  intros H. assert (EQ : forall s, (s < nseg)%nat -> ext g (seg_start s) = ext g (seg_end s)).
  { intros s Hs. specialize (H (fun t => if (t =? s)%nat then 1 else 0)). rewrite <- flux_rows in H. rewrite (sum_ext nseg _ (fun t => if (t =? s)%nat then ext g (seg_start t) - ext g (seg_end t) else 0)) in H by (intros t _; destruct (t =? s)%nat; ring). rewrite sum_to_single in H by auto. lra. }
  assert (ET : forall i j, (i < np)%nat -> (j < nt)%nat -> ext g (node i j) = ext g (node (S i) j)). { intros i j Hi Hj. destruct (start_T nt np Hnt Hnp i j Hi Hj) as (E1 & E2). rewrite <- E1, <- E2. apply EQ. now apply T_lt_seg. }
  assert (Z00 : ext g (node 0 0) = 0). { rewrite ext_node by lia. unfold has_continuity. cbn [Nat.eqb orb andb negb]. destruct (Nat.ltb_spec half 0); [lia|reflexivity]. }
  assert (Z1 : forall j, (j < nt)%nat -> ext g (node 1 j) = 0).
  { induction j as [|j IH]; intros Hj; [rewrite <- ET by lia; exact Z00|]. assert (O1 : okP nt np 1 j) by (right; lia). destruct (start_P nt np Hnt Hnp 1 j O1) as (E1 & E2). rewrite Nat.mod_small in E2 by lia. replace (j + 1)%nat with (S j) in E2 by lia. rewrite <- E2, <- EQ, E1 by now apply P_lt. apply IH. lia. }
  assert (ZA : forall i j, (1 <= i <= np)%nat -> (j < nt)%nat -> ext g (node i j) = 0). { induction i as [|i IH]; intros j Hi Hj; [lia|]. destruct (Nat.eq_dec i 0) as [->|]; [now apply Z1|]. rewrite <- ET by lia. apply IH; lia. }
  intros (i, j) I. apply filter_In in I. destruct I as (I & Hc). apply in_grid in I. cbn [fst snd] in Hc. assert (E : ext g (node i j) = g (i, j)) by (rewrite ext_node by lia; now rewrite Hc). rewrite <- E. destruct (Nat.eq_dec i 0) as [->|]; [rewrite ET by lia; apply ZA; lia|apply ZA; lia].
Qed.
Definition dflt : constr := C (CUser 0) (fun _ => 0) 0.
Definition pair_dec (a b : nat * nat) : {a = b} + {a <> b}. Proof. decide equality; apply Nat.eq_dec. Defined.
Lemma independent_cont (z : vec) : (forall x : vec, sum_to (length L) (fun k => z k * dotr nt np (crow (nth k (cons init) dflt)) x) = 0) -> forall k, (k < length L)%nat -> z k = 0.
Proof.
  intros H k Hk. set (g := fun ij => sum_to (length L) (fun k => if pair_dec (nth k L (0, 0)%nat) ij then z k else 0)).
  assert (ND : NoDup L) by apply NoDup_filter, NoDup_grid.
  assert (G : forall k, (k < length L)%nat -> g (nth k L (0, 0)%nat) = z k).
  { intros a Ha. unfold g. rewrite <- (sum_to_single (length L) a z Ha). apply sum_ext. intros b Hb. destruct (pair_dec _ _) as [E|N]; destruct (Nat.eqb_spec b a) as [->|N']; auto; [|contradiction]. exfalso. apply N'. apply (proj1 (NoDup_nth L (0, 0)%nat) ND); auto. }
  rewrite <- (G k Hk). apply no_relation; [|now apply nth_In]. intros x. rewrite <- (H x).
  assert (RS : forall (f : nat * nat -> R) l, rsuml (map f l) = sum_to (length l) (fun k => f (nth k l (0, 0)%nat))). { intros f. induction l as [|a l IH]; [reflexivity|]. cbn [map rsuml length]. rewrite sum_to_first. cbn [nth]. now rewrite IH. }
  rewrite RS. apply sum_ext. intros a Ha. rewrite G by auto. f_equal. rewrite initial_eq by lia. cbn [fst cons]. rewrite (nth_indep _ dflt (C (CCont (node (fst (0, 0)%nat) (snd (0, 0)%nat))) (cont_row (connected (fst (0, 0)%nat) (snd (0, 0)%nat))) 0)) by (now rewrite map_length). rewrite (map_nth (fun ij => C (CCont (node (fst ij) (snd ij))) (cont_row (connected (fst ij) (snd ij))) 0) L (0, 0)%nat a). reflexivity.
Qed.
Lemma init_length : length (cons init) = length L. Proof. rewrite initial_eq by lia. cbn [fst cons]. apply map_length. Qed.
(** rows of a fresh wireframe, optionally followed by the poloidal-current row *)
Definition extras (pol : option R) : list constr := match pol with Some c => [C CPolC (pol_row nt np) c] | None => [] end.
Definition start (pol : option R) : wst := W (cons init ++ extras pol) true.
Lemma independent_start pol : ~ dependent (length (cons init ++ extras pol)) nseg (crows (cons init ++ extras pol) (seq 0 nseg)).
Proof.
  intros (z & (k0 & K1 & K2) & H). apply K2. set (rows := cons init ++ extras pol) in *.
  assert (D : forall x : vec, sum_to (length rows) (fun k => z k * dotr nt np (crow (nth k rows dflt)) x) = 0).
  { intros x. unfold dotr. rewrite (sum_ext (length rows) _ (fun k => sum_to nseg (fun s => crow (nth k rows dflt) s * z k * x s))) by (intros; rewrite sum_scal_l; apply sum_ext; intros; ring). rewrite sum_to_swap. apply sum_0. intros s Hs. rewrite <- sum_scal_r. specialize (H s Hs). unfold crows in H. rewrite seq_nth in H by auto. cbn [Nat.add] in H. fold dflt in H. rewrite H. ring. }
  assert (Lr : length rows = (length L + length (extras pol))%nat) by (unfold rows; rewrite app_length, init_length; reflexivity).
  assert (NT : forall k, (k < length L)%nat -> nth k rows dflt = nth k (cons init) dflt) by (intros k Hk; unfold rows; apply app_nth1; rewrite init_length; exact Hk).
  destruct pol as [c|]; cbn [extras length] in Lr.
  - assert (NL : nth (length L) rows dflt = C CPolC (pol_row nt np) c) by (unfold rows; cbn [extras]; rewrite app_nth2 by (rewrite init_length; lia); rewrite init_length, Nat.sub_diag; reflexivity).
    assert (D' : forall x : vec, sum_to (length L) (fun k => z k * dotr nt np (crow (nth k (cons init) dflt)) x) + z (length L) * dotr nt np (pol_row nt np) x = 0).
    { intros x. specialize (D x). rewrite Lr in D. replace (length L + 1)%nat with (S (length L)) in D by lia. rewrite sum_to_S, NL in D. cbn [crow] in D. rewrite <- D. f_equal. apply sum_ext. intros k Hk. now rewrite NT. }
    assert (ZP : z (length L) = 0).
    { specialize (D' (tf_added nt np 1 1)). rewrite sum_0 in D'.
      - rewrite (tf_pol nt np Hnt Hnp 1 1 ltac:(lia)) in D'. destruct (Nat.ltb_spec np (2 * 1)); [lia|]. cbn [INR] in D'. lra.
      - intros k Hk. assert (S := proj2 (sat_initial nt np Hnt Hnp (tf_added nt np 1 1)) (tf_cont nt np Hnt Hnp 1 1 ltac:(lia))). rewrite (S (nth k (cons init) dflt)); [|apply nth_In; rewrite init_length; exact Hk]. assert (I : In (nth k (cons init) dflt) (cons init)) by (apply nth_In; rewrite init_length; exact Hk). rewrite initial_eq in I by lia. cbn [fst cons] in I. apply in_map_iff in I. destruct I as (ij & E & _). rewrite initial_eq by lia. cbn [fst cons]. rewrite <- E. cbn [cst]. ring. }
    assert (ZC : forall k, (k < length L)%nat -> z k = 0). { apply independent_cont. intros x. specialize (D' x). rewrite ZP in D'. lra. }
    destruct (Nat.eq_dec k0 (length L)) as [->|]; [exact ZP|apply ZC; lia].
  - apply independent_cont; [|lia]. intros x. rewrite <- (D x), Lr, Nat.add_0_r. apply sum_ext. intros k Hk. now rewrite NT.
Qed.
Lemma start_names pol c : In c (cons init ++ extras pol) -> is_segment (cn c) = false.
Proof. intros I. apply in_app_iff in I. destruct I as [I|I]; [destruct (init_names nt np Hnt Hnp c I) as (k & ->); reflexivity|]. destruct pol; cbn in I; [destruct I as [<-|[]]; reflexivity|contradiction]. Qed.
Lemma start_free pol s : con (start pol) s = false.
Proof. unfold con. apply orb_false_iff. split; apply has_not; intros I; apply in_map_iff in I; destruct I as (c & E & I); apply start_names in I; rewrite E in I; discriminate. Qed.
Lemma start_unconstrained pol : unconstrained nt np (start pol) = seq 0 nseg.
Proof. unfold unconstrained. apply filter_all. intros s I. apply negb_true_iff, not_true_is_false. intros M. apply memb_in, (in_con nt Hnt) in M. rewrite start_free in M. discriminate. Qed.
Lemma start_node_sum pol k : (k < nnodes nt np)%nat -> node_sum nt np (start pol) k = 4%nat.
Proof.
  intros Hk. rewrite node_sum_free by auto. unfold free_at. rewrite filter_all by (intros s _; rewrite start_free; reflexivity). unfold connected_at, WFModel.connected. destruct (_ =? 0)%nat; [reflexivity|]. destruct (_ <? _)%nat; reflexivity.
Qed.
Lemma start_matrices pick fuel pol : constraint_matrices nt np pick fuel true true false (start pol) = Some ((start pol, None), (cons init ++ extras pol, seq 0 nseg)).
Proof.
  unfold constraint_matrices, refreshed. cbn [start fresh].
  assert (INA : inactive nt np (start pol) = []). { unfold inactive. apply filter_none. intros k I. apply in_seq in I. rewrite start_node_sum by lia. reflexivity. }
  assert (ASS : assertion nt np (start pol) = true). { unfold assertion. apply negb_true_iff, not_true_is_false. intros E. apply existsb_exists in E. destruct E as (k & I & E). apply in_seq in I. unfold implied_node in E. rewrite start_node_sum in E by lia. discriminate. }
  unfold find_inactive. rewrite ASS, INA. cbn [negb]. cbv zeta. cbn [start cons].
  assert (KEEP : filter (fun c => negb (match cn c with CCont k => memb k [] | _ => false end) && negb (true && is_segment (cn c))) (cons init ++ extras pol) = cons init ++ extras pol). { apply filter_all. intros c I. rewrite (start_names pol c I). destruct (cn c); reflexivity. }
  change (W (cons init ++ extras pol) true) with (start pol). rewrite KEEP, start_unconstrained. destruct (cons init ++ extras pol) eqn:E; [|reflexivity]. exfalso. assert (Z : length (cons init ++ extras pol) = O) by now rewrite E. rewrite app_length, init_length in Z.
  assert (I : In (1, 0)%nat L). { apply filter_In. split; [apply in_grid; lia|]. unfold has_continuity. cbn [fst snd]. change (1 =? 0)%nat with false. destruct (Nat.eqb_spec 1 np); [lia|]. reflexivity. } destruct L; [contradiction|cbn [length] in Z; lia].
Qed.
Lemma grid_length : length (grid nt np) = ((np + 1) * nt)%nat.
Proof. unfold grid. generalize (np + 1)%nat. intros a. generalize 0%nat at 2. induction a as [|a IH]; intros b; [reflexivity|]. cbn [seq flat_map]. rewrite app_length, map_length, seq_length, IH. lia. Qed.
Lemma few_rows pol : (length (cons init ++ extras pol) < nseg)%nat.
Proof.
  rewrite app_length, init_length. assert (E : (length L <= length (grid nt np))%nat) by (set (l := grid nt np); induction l as [|a l IH]; cbn [filter length]; [lia|]; destruct (has_continuity _ _ _ _); cbn [length]; lia). rewrite grid_length in E. assert (X : (length (extras pol) <= 1)%nat) by (destruct pol; cbn; lia). unfold WFModel.nseg, WFModel.ntors. assert ((np + 1) * nt + nt <= nt * np + nt * np)%nat by nia. lia.
Qed.
Lemma stated_start pol : stated (start pol) = cons init ++ extras pol.
Proof. unfold stated. apply filter_all. intros c I. cbn [start cons] in I. assert (N := start_names pol c I). destruct (cn c); try reflexivity. discriminate. Qed.
(** set_poloidal_current on a fresh wireframe *)
Lemma start_reached nfp cur : run nt np [OSetPol nfp cur] init = start (Some (pol_const np nfp cur)) /\ run nt np [] init = start None.
Proof.
  split; [|cbn [run start]; unfold start; cbn [extras]; rewrite app_nil_r; rewrite initial_eq by lia; reflexivity].
  assert (H0 : has init CPolC = false). { apply has_not. rewrite initial_eq by lia. cbn [fst cons]. rewrite map_map. intros I. apply in_map_iff in I. destruct I as (c & X & _). discriminate X. }
  cbn [run exec]. unfold set_pol. rewrite H0. unfold bind. cbn [fst snd]. unfold add_pol. rewrite add_ok by exact H0. cbn [fst]. unfold start. f_equal. rewrite initial_eq by lia. reflexivity.
Qed.
(** the optimizer always succeeds on them *)
Theorem C96_fresh pick qr lstsq nfp cur m A b W : kernels_ok qr lstsq -> (forall n p M, qr n p M <> None) -> forall l, l = [] \/ l = [OSetPol nfp cur] ->
  exists o, rcls_wireframe qr lstsq nt np pick (S (S nseg)) m A b W false (run nt np l init) = Some o /\ ro_err o = None /\ solved nt np (run nt np l init) m A b W o.
Proof.
  intros K NE l Hl. assert (E : exists pol, run nt np l init = start pol). { destruct (start_reached nfp cur) as (E1 & E2). destruct Hl as [->| ->]; eauto. } destruct E as (pol & ->).
  assert (LEN : length (seq 0 nseg) = nseg) by apply seq_length.
  unfold rcls_wireframe. rewrite start_matrices, start_unconstrained. cbv zeta. rewrite LEN. assert (F := few_rows pol). destruct (Nat.leb_spec nseg (length (cons init ++ extras pol))); [lia|].
  destruct (qr nseg (length (cons init ++ extras pol)) (fun i k => crows (cons init ++ extras pol) (seq 0 nseg) k i)) as [QR|] eqn:EQ; [|exfalso; exact (NE _ _ _ EQ)].
  assert (SOL : forall x, solves (cons init ++ extras pol) (seq 0 nseg) nseg x <-> sat nt np x (stated (start pol))).
  { intros x. rewrite stated_start. unfold solves, sat, dotr, sum_to. split; [intros (_ & H1) c I; now apply H1|]. intros H1. split; [|exact H1]. intros s Hs N. exfalso. apply N, in_seq. lia. }
  assert (Lr : (1 <= length (cons init ++ extras pol))%nat) by (apply (matrices_shape nt np pick 0 false (start pol) (start pol) _ _ (start_matrices pick 0 pol))).
  assert (STEP := wire_step nt np Hnt Hnp pick qr lstsq K (start pol) (start pol) (cons init ++ extras pol) (seq 0 nseg) m A b W SOL (eq_sym (start_unconstrained pol)) Lr). rewrite LEN in STEP. destruct (STEP ltac:(lia) QR EQ (independent_start pol)) as (xf & EX & S). change (fun k j => crow (nth k (cons init ++ extras pol) (C (CUser 0) (fun _ => 0) 0)) (nth j (seq 0 nseg) 0%nat)) with (crows (cons init ++ extras pol) (seq 0 nseg)). rewrite EX. eexists. split; [reflexivity|]. split; [reflexivity|]. exact S.
Qed.
(** with a square weight array only its diagonal enters the minimisation *)
Theorem C96_diagonal_only pick qr lstsq fuel m A b M nc w :
  match rcls_wireframe qr lstsq nt np pick fuel m A b (GMat M) nc w, rcls_wireframe qr lstsq nt np pick fuel m A b (GVec (fun s => M s s)) nc w with
  | Some o, Some o' => ro_state o = ro_state o' /\ ro_currents o = ro_currents o' /\ ro_err o = ro_err o' /\ ro_x o = ro_x o' /\ ro_fB o = ro_fB o'
  | None, None => True | _, _ => False end.
Proof.
  unfold rcls_wireframe. destruct (constraint_matrices _ _ _ _ _ _ _ _) as [[[w' [e|]] [rows cols]]|]; [repeat split| |exact I]. cbv zeta. destruct (_ <=? _)%nat; [repeat split|].
  change (wfree (unconstrained nt np w') (GMat M)) with (wfree (unconstrained nt np w') (GVec (fun s => M s s))). destruct (rcls _ _ _ _ _ _ _ _ _ _ _ _ _); [|repeat split]. cbn [ro_state ro_currents ro_err ro_x ro_fB]. repeat split.
Qed.
(** so the answer need not minimise the objective that is reported: for every wireframe there are a target field and a weight matrix for which switching all currents off, which the constraints allow, has a strictly smaller objective *)
Theorem C96_matrix_not_minimised pick qr lstsq : kernels_ok qr lstsq -> (forall n p M, qr n p M <> None) ->
  exists A b M o, rcls_wireframe qr lstsq nt np pick (S (S nseg)) 1 A b (GMat M) false init = Some o /\ ro_err o = None /\
    sat nt np (fun _ => 0) (stated init) /\ field_part nseg 1 A b (fun _ => 0) + 0 < ro_f o.
Proof.
  intros K NE. set (tf := tf_added nt np 1 1). set (N := normsq nseg tf).
  assert (Np : 0 < N). { assert (N0 := normsq_ge nseg tf). fold N in N0. destruct (Req_dec N 0) as [Z|]; [|lra]. exfalso. assert (Z' := sum_sq_0 nseg tf Z). assert (TP := tf_pol nt np Hnt Hnp 1 1 ltac:(lia)). destruct (Nat.ltb_spec np (2 * 1)); [lia|]. cbn [INR] in TP. fold tf in TP. unfold dotr in TP. rewrite sum_0 in TP; [lra|]. intros s Hs. rewrite Z' by auto. ring. }
  set (A := fun (_ : nat) s => tf s). set (b := fun _ : nat => N).
  assert (RUN : run nt np [] init = init) by reflexivity.
  assert (TFS : sat nt np tf (stated init)). { intros c I. unfold stated in I. apply filter_In in I. destruct I as (I & _). revert c I. apply (proj2 (sat_initial nt np Hnt Hnp tf) (tf_cont nt np Hnt Hnp 1 1 ltac:(lia))). }
  assert (ZS : sat nt np (fun _ => 0) (stated init)). { intros c I. unfold stated in I. apply filter_In in I. destruct I as (I & _). revert c I. apply (proj2 (sat_initial nt np Hnt Hnp (fun _ => 0))). intros i j _ _ _. unfold dotr. apply sum_0. intros. ring. }
  (* without regularization the target is met exactly *)
  assert (F0 : forall M, (forall s, M s s = 0) -> exists o, rcls_wireframe qr lstsq nt np pick (S (S nseg)) 1 A b (GMat M) false init = Some o /\ ro_err o = None /\ ro_f o = field_part nseg 1 A b (ro_x o) + 1 / 2 * sum_to nseg (fun s => sum_to nseg (fun t => M s t * ro_x o t) ^ 2) /\ sum_to nseg (fun s => tf s * ro_x o s) = N).
  { intros M HM. destruct (C96_fresh pick qr lstsq 1 0 1 A b (GMat M) K NE [] (or_introl eq_refl)) as (o & E & E0 & S). rewrite RUN in E, S. exists o. split; [exact E|]. split; [exact E0|]. destruct S as (_ & _ & OPT & EB & ER & EF). split; [rewrite EF, EB, ER; reflexivity|]. destruct (OPT tf TFS) as (O1 & _).
    assert (WZ : forall y, weight_part nseg (weight_of (GMat M)) y = 0). { intros y. unfold weight_part. rewrite sum_0; [ring|]. intros s _. cbn [weight_of]. rewrite HM. ring. }
    assert (FP : forall y, field_part nseg 1 A b y = 1 / 2 * (sum_to nseg (fun s => tf s * y s) - N) ^ 2). { intros y. unfold field_part. f_equal. unfold sum_to at 1. cbn [seq map rsuml]. unfold A, b. ring. }
    rewrite !WZ, !FP in O1. assert (T0 : sum_to nseg (fun s => tf s * tf s) = N) by (unfold N, normsq; apply sum_ext; intros; ring). rewrite T0 in O1. assert (Q0 := pow2_ge_0 (sum_to nseg (fun s => tf s * ro_x o s) - N)). nra. }
  destruct (F0 (fun _ _ => 0) (fun _ => eq_refl)) as (o0 & E0 & _ & _ & X0). set (x0 := ro_x o0) in *.
  assert (NZ : exists s, (s < nseg)%nat /\ x0 s <> 0). { assert (DEC : forall n, (exists s, (s < n)%nat /\ x0 s <> 0) \/ forall s, (s < n)%nat -> x0 s = 0). { induction n as [|n [IH|IH]]; [right; intros; lia|left; destruct IH as (s & A1 & A2); exists s; split; [lia|exact A2]|]. destruct (Req_dec (x0 n) 0) as [Z|Z]; [right; intros s Hs; destruct (Nat.eq_dec s n) as [->|]; [exact Z|apply IH; lia]|left; exists n; split; [lia|exact Z]]. } destruct (DEC nseg) as [|Z]; [auto|]. exfalso. rewrite sum_0 in X0; [lra|]. intros s Hs. rewrite Z by auto. ring. }
  destruct NZ as (s & Hs & Xs). set (t := if (s =? 0)%nat then 1%nat else 0%nat). assert (Ht : (t < nseg)%nat /\ t <> s). { assert (K1 := few_rows None). unfold t. assert (2 <= nseg)%nat by (unfold WFModel.nseg, WFModel.ntors; nia). destruct (Nat.eqb_spec s 0); lia. }
  set (c := (1 + N * N) / x0 s). set (M := fun i j : nat => if ((i =? t) && (j =? s))%nat then c else 0).
  assert (HM : forall i, M i i = 0). { intros i. unfold M. destruct (Nat.eqb_spec i t), (Nat.eqb_spec i s); cbn [andb]; auto. lia. }
  destruct (F0 M HM) as (o & E & E1 & EF & X1). exists A, b, M, o. split; [exact E|]. split; [exact E1|]. split; [exact ZS|].
  (* the currents are the same as without weights *)
  assert (EX : ro_x o = x0). { assert (D1 := C96_diagonal_only pick qr lstsq (S (S nseg)) 1 A b M false init). assert (D2 := C96_diagonal_only pick qr lstsq (S (S nseg)) 1 A b (fun _ _ => 0) false init). rewrite E in D1. rewrite E0 in D2. assert (GE : forall v : nat -> R, (forall i, v i = 0) -> rcls_wireframe qr lstsq nt np pick (S (S nseg)) 1 A b (GVec v) false init = rcls_wireframe qr lstsq nt np pick (S (S nseg)) 1 A b (GVec (fun _ => 0)) false init). { intros v Hv. replace v with (fun _ : nat => 0); [reflexivity|]. apply FunctionalExtensionality.functional_extensionality. intros i. now rewrite Hv. } rewrite (GE (fun i => M i i)) in D1 by exact HM. destruct (rcls_wireframe qr lstsq nt np pick (S (S nseg)) 1 A b (GVec (fun _ => 0)) false init) as [o2|]; [|contradiction]. unfold x0. destruct D1 as (_ & _ & _ & -> & _). destruct D2 as (_ & _ & _ & -> & _). reflexivity. }
  rewrite EF, EX. assert (FZ : field_part nseg 1 A b (fun _ => 0) = 1 / 2 * (N * N)). { unfold field_part. f_equal. unfold sum_to at 1. cbn [seq map rsuml]. rewrite sum_0 by (intros; ring). unfold b. ring. } rewrite FZ.
  assert (FB : 0 <= field_part nseg 1 A b x0) by (unfold field_part; apply Rmult_le_pos; [lra|]; apply sum_to_ge0; intros; apply pow2_ge_0).
  assert (MX : sum_to nseg (fun i => sum_to nseg (fun j => M i j * x0 j) ^ 2) = (1 + N * N) ^ 2).
  { rewrite (sum_ext nseg _ (fun i => if (i =? t)%nat then (1 + N * N) ^ 2 else 0)); [now apply (sum_to_single nseg t (fun _ => (1 + N * N) ^ 2))|]. intros i Hi. unfold M. destruct (Nat.eqb_spec i t) as [->|]; cbn [andb].
    - f_equal. rewrite (sum_ext nseg _ (fun j => if (j =? s)%nat then c * x0 j else 0)) by (intros j _; destruct (j =? s)%nat; ring). rewrite sum_to_single by auto. unfold c. field. exact Xs.
    - rewrite sum_0 by (intros; ring). ring. }
  rewrite MX. nra.
Qed.
End Fresh.
