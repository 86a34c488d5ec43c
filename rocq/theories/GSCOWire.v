(** C94: the greedy solver on a toroidal wireframe keeps its constraints and forms no crossings; C95: examples. *)
From Coq Require Import Reals Lra Lia List Bool Arith ZArith ZifyNat Psatz FunctionalExtensionality.
From Verif Require Import ListAux VecAux Vec3 SurfModel SurfProps SurfGeom SurfGeomProps CurveObjModel CurveObjProps GPMOModel GPMOProps WFModel WFGeom WFThms WFCells WFCurrents WFConstr GSCOModel GSCOProps.
Import ListNotations.
Open Scope R_scope.
Ltac Zify.zify_post_hook ::= idtac.

(** ** The tables handed to GSCO: py:633-637 *)
Section Tables.
Variables (nt np : nat).
Definition wcells (l : nat) : list nat := cell_key nt np (l / nt) (l mod nt).
Definition wfree (w : wst) (l : nat) : bool := match free_cell nt np (S (S (nseg nt np))) w (l / nt) (l mod nt) with Some f => f | None => false end.
(** py:633-670 gsco_wireframe *)
Definition gsco_wireframe (ng : nat) (A : nat -> nat -> R) (b : nat -> R) (p : gpar) (w : wst) (x0 : nat -> R) (cnt0 : nat -> Z) (max_iter : nat) : gst * stop :=
  GSCO ng (nseg nt np) (ntors nt np) A b wcells (wfree w) (seg_start nt np) (seg_end nt np) (connected_at nt np) p x0 cnt0 max_iter.
End Tables.

Section Wire.
Variables (nt np : nat).
Hypothesis Hnt : (2 * half nt = nt /\ 1 <= half nt)%nat.
Hypothesis Hnp : (2 <= np)%nat.
Notation half := (half nt). Notation nseg := (nseg nt np). Notation ntors := (ntors nt np). Notation nnodes := (nnodes nt np). Notation node := (node nt).
Notation T := (T nt). Notation P := (P nt np). Notation neg := (neg nt). Notation pm := (pred_mod nt). Notation fold := (fold nt). Notation cellR := (cellR nt np). Notation cellL := (cellL nt np).
Notation connected := (connected nt np). Notation connected_at := (connected_at nt np). Notation wcells := (wcells nt np).

Lemma cell_index l : (l < ntors)%nat -> (l / nt < np)%nat /\ (l mod nt < nt)%nat.
Proof. intros H. unfold WFModel.ntors in H. split; [apply Nat.div_lt_upper_bound; lia|apply Nat.mod_upper_bound; lia]. Qed.
Lemma succ_val j : (j < nt)%nat -> ((j + 1) mod nt = if j =? nt - 1 then 0 else j + 1)%nat.
Proof. intros Hb. destruct (Nat.eqb_spec j (nt - 1)) as [->|]; [replace (nt - 1 + 1)%nat with nt by lia; apply Nat.mod_same; lia|apply Nat.mod_small; lia]. Qed.
Lemma neg_val' j : (j < nt)%nat -> neg j = if (j =? 0)%nat then O else (nt - j)%nat.
Proof. intros H. destruct (Nat.eqb_spec j 0) as [->|]; [apply (neg_0 nt Hnt)|apply (neg_pos nt Hnt); lia]. Qed.
Lemma cellR_ex a b : (a < np)%nat -> (b < nt)%nat -> exists d, cellR a b = P (a + 1) d /\ okP nt np (a + 1) d /\ ((a < np - 1 /\ d = b) \/ (a = np - 1 /\ (d = b \/ d = nt - b - 1) /\ (d < half)))%nat.
Proof. intros Ha Hb. assert (Hf := fold_lt nt np Hnt Hnp b Hb). unfold WFCells.cellR. destruct (Nat.ltb_spec a (np - 1)); [exists b; unfold okP; lia|]. exists (fold b). assert (a = np - 1)%nat by lia. subst a. replace (np - 1 + 1)%nat with np by lia. split; [reflexivity|]. unfold okP, WFCells.fold in *. destruct (Nat.ltb_spec b half); lia. Qed.
Lemma cellL_ex a b : (a < np)%nat -> (b < nt)%nat -> exists d, cellL a b = P a d /\ okP nt np a d /\ ((0 < a /\ d = b) \/ (a = 0 /\ (d = b \/ d = nt - b - 1) /\ (d < half)))%nat.
Proof. intros Ha Hb. assert (Hf := fold_lt nt np Hnt Hnp b Hb). unfold WFCells.cellL. destruct (Nat.eqb_spec a 0) as [->|]; [|exists b; unfold okP; lia]. exists (fold b). split; [reflexivity|]. unfold okP, WFCells.fold in *. destruct (Nat.ltb_spec b half); lia. Qed.
Lemma wcells_ok l : (l < ntors)%nat -> exists s0 s1 s2 s3, wcells l = [s0; s1; s2; s3] /\ NoDup [s0; s1; s2; s3] /\ (s0 < nseg /\ s1 < nseg /\ s2 < nseg /\ s3 < nseg)%nat.
Proof.
  intros Hl. destruct (cell_index l Hl) as (Hi & Hj). unfold GSCOWire.wcells. set (i := (l / nt)%nat) in *. set (j := (l mod nt)%nat) in *. clearbody i j. rewrite (cell_eq nt np Hnt Hnp) by auto. destruct (cellR_ex i j Hi Hj) as (d & -> & O1 & _). destruct (cellL_ex i j Hi Hj) as (e & -> & O2 & _). assert (HS := succ_lt nt np Hnt Hnp j). do 4 eexists. split; [reflexivity|]. split.
  - apply NoDup4.
    + now apply (T_P nt np Hnt Hnp).
    + intros E. apply (T_inj nt Hnt) in E; auto. rewrite succ_val in E by auto. destruct (Nat.eqb_spec j (nt - 1)); lia.
    + now apply (T_P nt np Hnt Hnp).
    + intros E. symmetry in E. now apply (T_P nt np Hnt Hnp) in E.
    + intros E. apply (P_inj nt np Hnt Hnp) in E; auto. lia.
    + now apply (T_P nt np Hnt Hnp).
  - split; [now apply (T_lt_seg nt np Hnt Hnp)|]. split; [now apply (P_lt nt np Hnt Hnp)|]. split; [now apply (T_lt_seg nt np Hnt Hnp)|now apply (P_lt nt np Hnt Hnp)].
Qed.
(** ** Which nodes a cell touches *)
Lemma touch i j a c s : (i < np)%nat -> (j < nt)%nat -> (a <= np)%nat -> (c < nt)%nat -> In s (connected a c) -> In s (cell_key nt np i j) ->
  (a = i \/ a = i + 1)%nat /\ ((c = j \/ c = (j + 1) mod nt) \/ (a = 0 \/ a = np) /\ (neg c = j \/ neg c = (j + 1) mod nt))%nat.
Proof.
  intros Hi Hj Ha Hc I1 I2. rewrite (cell_eq nt np Hnt Hnp) in I2 by auto. assert (HS := succ_lt nt np Hnt Hnp j). destruct (cellR_ex i j Hi Hj) as (d & ER & O1 & D1). destruct (cellL_ex i j Hi Hj) as (e & EL & O2 & D2). rewrite ER, EL in I2. clear ER EL.
  assert (TT : forall a b a' b', (b < nt)%nat -> (b' < nt)%nat -> T a b = T a' b' -> a = a' /\ b = b') by (intros; now apply (T_inj nt Hnt)).
  assert (PP : forall a b a' b', okP nt np a b -> okP nt np a' b' -> P a b = P a' b' -> a = a' /\ b = b') by (intros; now apply (P_inj nt np Hnt Hnp)).
  assert (TP : forall a b a' b', (a < np)%nat -> (b < nt)%nat -> T a b <> P a' b') by (intros; now apply (T_P nt np Hnt Hnp)).
  (* toroidal segments of the cell *)
  assert (CT : forall u v, (u < np)%nat -> (v < nt)%nat -> s = T u v -> u = i /\ (v = j \/ v = ((j + 1) mod nt)%nat)).
  { intros u v Hu Hv ->. destruct I2 as [Q|[Q|[Q|[Q|[]]]]]; [apply TT in Q; auto; destruct Q; auto|symmetry in Q; now apply TP in Q|apply TT in Q; auto; destruct Q; auto|symmetry in Q; now apply TP in Q]. }
  assert (CP : forall u v, okP nt np u v -> s = P u v -> (u = i + 1 /\ v = d \/ u = i /\ v = e)%nat).
  { intros u v Ov ->. destruct I2 as [Q|[Q|[Q|[Q|[]]]]]; [now apply TP in Q|apply PP in Q; auto; destruct Q; auto|now apply TP in Q|apply PP in Q; auto; destruct Q; auto]. }
  assert (Hn := neg_lt nt Hnt c). assert (HL := half_lt nt Hnt).
  destruct (Nat.eq_dec a 0) as [->|NA]; [|destruct (Nat.eq_dec a np) as [->|NB]].
  - rewrite (connected_0 nt np Hnt Hnp) in I1 by auto. assert (PL : exists v, s = P 0 v /\ okP nt np 0 v /\ (v = c \/ v + 1 = c \/ v + c = nt \/ v + c + 1 = nt)%nat \/ s = T 0 (neg c) \/ s = T 0 c).
    { destruct I1 as [Q|[Q|[Q|[Q|[]]]]]; [exists O; auto| |exists O; auto|]; rewrite (plane_pol_eq nt np Hnt Hnp) in Q by auto; revert Q; (destruct (Nat.eqb_spec c 0); [|destruct (Nat.ltb_spec c half); [|destruct (Nat.eqb_spec c half)]]); cbn [fst snd]; intros <-; eexists; left; (split; [reflexivity|]); unfold okP; lia. }
    destruct PL as (v & [(-> & Ov & V)|[E|E]]).
    + destruct (CP 0%nat v Ov eq_refl) as [(Q & _)|(Q1 & Q2)]; [exfalso; lia|]. subst i v. split; [lia|]. rewrite succ_val, neg_val' by auto. destruct D2 as [D2|(_ & D2 & D3)]; [lia|]. clear CT CP TT PP TP I1 I2 D1 O1 O2 Ov. destruct (Nat.eqb_spec j (nt - 1)), (Nat.eqb_spec c 0); lia.
    + destruct (CT 0%nat (neg c) ltac:(lia) Hn E) as (<- & Q). split; [lia|]. right. auto.
    + destruct (CT 0%nat c ltac:(lia) Hc E) as (<- & Q). split; [lia|]. left. auto.
  - rewrite (connected_N nt np Hnt Hnp) in I1 by auto. assert (PL : exists v, s = P np v /\ okP nt np np v /\ (v = c \/ v + 1 = c \/ v + c = nt \/ v + c + 1 = nt)%nat \/ s = T (np - 1) (neg c) \/ s = T (np - 1) c).
    { destruct I1 as [Q|[Q|[Q|[Q|[]]]]]; [exists O; auto| |exists O; auto|]; rewrite (plane_pol_eq nt np Hnt Hnp) in Q by auto; revert Q; (destruct (Nat.eqb_spec c 0); [|destruct (Nat.ltb_spec c half); [|destruct (Nat.eqb_spec c half)]]); cbn [fst snd]; intros <-; eexists; left; (split; [reflexivity|]); unfold okP; lia. }
    destruct PL as (v & [(-> & Ov & V)|[E|E]]).
    + destruct (CP np v Ov eq_refl) as [(Q1 & Q2)|(Q & _)]; [|exfalso; lia]. subst v. split; [lia|]. rewrite succ_val, neg_val' by auto. destruct D1 as [D1|(_ & D1 & D3)]; [lia|]. clear CT CP TT PP TP I1 I2 D2 O1 O2 Ov. destruct (Nat.eqb_spec j (nt - 1)), (Nat.eqb_spec c 0); lia.
    + destruct (CT (np - 1)%nat (neg c) ltac:(lia) Hn E) as (<- & Q). split; [lia|]. right. auto.
    + destruct (CT (np - 1)%nat c ltac:(lia) Hc E) as (<- & Q). split; [lia|]. left. auto.
  - rewrite (connected_int nt np Hnt Hnp) in I1 by lia. assert (HP := pm_lt nt np Hnt Hnp c Hc). assert (SP : forall q, (q < nt)%nat -> pm c = q -> c = ((q + 1) mod nt)%nat). { intros q Hq E. assert (K := pm_succ nt np Hnt Hnp c q Hc Hq). rewrite E, Nat.eqb_refl in K. now apply Nat.eqb_eq in K. }
    destruct I1 as [<-|[<-|[<-|[<-|[]]]]].
    + destruct (CT (a - 1)%nat c ltac:(lia) Hc eq_refl) as (Q & V). split; [lia|auto].
    + destruct (CP a (pm c) ltac:(right; lia) eq_refl) as [(Q & V)|(Q & V)]; (split; [lia|]); left; right; apply SP; auto; [|destruct D2; lia]. destruct D1 as [D1|D1]; lia.
    + destruct (CT a c ltac:(lia) Hc eq_refl) as (Q & V). split; [lia|auto].
    + destruct (CP a c ltac:(right; lia) eq_refl) as [(Q & V)|(Q & V)]; (split; [lia|]); left; left; [|destruct D2; lia]. destruct D1 as [D1|D1]; lia.
Qed.
(** ** Nodes on the symmetry planes have the segments of their mirror images *)
Lemma fold_act x u v w z : fold_right (fun s r => act x s + r) 0 [u; v; w; z] = act x u + act x v + act x w + act x z.
Proof. cbn [fold_right]. ring. Qed.
Lemma meeting_node p x a c : (c < nt)%nat -> meeting connected_at p x (node a c) = fold_right (fun s r => act p (x s) + r) 0 (connected a c).
Proof. intros Hc. unfold meeting, WFModel.connected_at. rewrite (node_div nt np Hnt Hnp), (node_mod nt np Hnt Hnp) by auto. reflexivity. Qed.
Lemma meeting_mirror p x a c : (a = 0 \/ a = np)%nat -> (c < nt)%nat -> meeting connected_at p x (node a (neg c)) = meeting connected_at p x (node a c).
Proof.
  intros Ha Hc. assert (Hn := neg_lt nt Hnt c). rewrite !meeting_node by auto. assert (NN := neg_neg nt Hnt c Hc). assert (HL := half_lt nt Hnt).
  assert (PL : (fst (plane_pol nt np a (neg c)) = fst (plane_pol nt np a c) /\ snd (plane_pol nt np a (neg c)) = snd (plane_pol nt np a c)) \/ (fst (plane_pol nt np a (neg c)) = snd (plane_pol nt np a c) /\ snd (plane_pol nt np a (neg c)) = fst (plane_pol nt np a c))).
  { rewrite !(plane_pol_eq nt np Hnt Hnp) by auto. rewrite neg_val' by auto. destruct (Nat.eqb_spec c 0) as [->|N0]; [left; auto|]. destruct (Nat.eqb_spec (nt - c) 0); [exfalso; lia|]. destruct (Nat.ltb_spec c half); [destruct (Nat.ltb_spec (nt - c) half); [exfalso; lia|]; destruct (Nat.eqb_spec (nt - c) half); [exfalso; lia|]; right; cbn [fst snd]; split; f_equal; lia|].
    destruct (Nat.eqb_spec c half) as [->|]; [destruct (Nat.ltb_spec (nt - half) half); [exfalso; lia|]; destruct (Nat.eqb_spec (nt - half) half); [|exfalso; lia]; left; cbn [fst snd]; split; f_equal; lia|]. destruct (Nat.ltb_spec (nt - c) half); [|exfalso; lia]. right. cbn [fst snd]. split; f_equal; lia. }
  destruct Ha as [->| ->].
  - rewrite !(connected_0 nt np Hnt Hnp) by auto. rewrite NN. cbn [fold_right]. destruct PL as [(-> & ->)|(-> & ->)]; ring.
  - rewrite !(connected_N nt np Hnt Hnp) by auto. rewrite NN. cbn [fold_right]. destruct PL as [(-> & ->)|(-> & ->)]; ring.
Qed.
Lemma wcorners l : (l < ntors)%nat -> let i := (l / nt)%nat in let j := (l mod nt)%nat in
  corners wcells (seg_start nt np) (seg_end nt np) l = [node i j; node (S i) j; node i ((j + 1) mod nt); node (S i) ((j + 1) mod nt)].
Proof.
  intros Hl i j. destruct (cell_index l Hl) as (Hi & Hj). fold i in Hi. fold j in Hj. unfold corners, GSCOModel.sg, GSCOWire.wcells. fold i j. rewrite (cell_eq nt np Hnt Hnp) by auto. cbn [nth]. destruct (start_T nt np Hnt Hnp i j Hi Hj) as (-> & ->). destruct (start_T nt np Hnt Hnp i ((j + 1) mod nt)%nat Hi (succ_lt nt np Hnt Hnp j)) as (-> & ->). reflexivity.
Qed.
Variables (ng : nat) (A : nat -> nat -> R) (b : nat -> R) (p : gpar).
(** no_crossing: a node where at most two active segments met keeps this, on the whole torus *)
Theorem C94_crossings w x0 cnt0 N st why k : gsco_wireframe nt np ng A b p w x0 cnt0 N = (st, why) -> no_crossing p = true -> (k < nnodes)%nat ->
  meeting connected_at p x0 k <= 2 -> meeting connected_at p (gx st) k <= 2.
Proof.
  intros E NC Hk H0. destruct (C95_trace _ _ _ _ _ _ _ _ _ _ _ wcells_ok x0 cnt0 N st why E) as (es & _ & _ & GR & _). revert GR. generalize (gx st) (gcnt st). intros x cnt GR.
  apply (greedy_ind' ng nseg ntors A b wcells (wfree nt np w) (seg_start nt np) (seg_end nt np) connected_at p (fun _ x _ => meeting connected_at p x k <= 2) x0 cnt0) with (es := es) (cnt := cnt); [exact H0| |exact GR].
  clear E GR. intros es' x1 cnt1 l d c _ IH ((Hl & _ & _ & _ & _ & _ & _ & _ & CR) & _). cbv zeta. specialize (CR NC). rewrite wcorners in CR by auto. cbv zeta in CR. destruct (cell_index l Hl) as (Hi & Hj).
  assert (EC : exists q, (q < nt)%nat /\ k = node (k / nt) q /\ (k / nt <= np)%nat). { exists (k mod nt)%nat. split; [apply Nat.mod_upper_bound; lia|]. split; [unfold WFModel.node; rewrite Nat.mul_comm; apply Nat.div_mod; lia|]. unfold WFModel.nnodes in Hk. apply Nat.lt_succ_r, Nat.div_lt_upper_bound; lia. }
  destruct EC as (q & Hq & EK & Ha). set (a := (k / nt)%nat) in *. clearbody a. subst k.
  destruct (existsb (fun s => memb s (wcells l)) (connected a q)) eqn:EX.
  - apply existsb_exists in EX. destruct EX as (s & I1 & I2). apply memb_in in I2. unfold GSCOWire.wcells in I2. destruct (touch _ _ _ _ s Hi Hj Ha Hq I1 I2) as (T1 & [T2|(T2 & T3)]).
    + apply CR. replace (S (l / nt)) with (l / nt + 1)%nat by lia. destruct T1 as [->| ->], T2 as [->| ->]; cbn [In]; auto.
    + rewrite <- meeting_mirror by auto. apply CR. replace (S (l / nt)) with (l / nt + 1)%nat by lia. destruct T1 as [->| ->], T3 as [->| ->]; cbn [In]; auto.
  - assert (EQ : meeting connected_at p (around c (wcells l) x1) (node a q) = meeting connected_at p x1 (node a q)); [|rewrite EQ; exact IH]. rewrite !meeting_node by auto. assert (G : forall L, existsb (fun s => memb s (wcells l)) L = false -> fold_right (fun s r => act p (around c (wcells l) x1 s) + r) 0 L = fold_right (fun s r => act p (x1 s) + r) 0 L); [|now apply G]. induction L as [|s L IHL]; [reflexivity|]. cbn [existsb fold_right]. intros F. apply orb_false_iff in F. destruct F as (F1 & F2). rewrite IHL by auto. rewrite (around_out nseg ntors A b wcells (wfree nt np w) (seg_start nt np) (seg_end nt np) connected_at wcells_ok); [reflexivity|exact Hl|]. intros I. apply memb_in in I. rewrite I in F1. discriminate.
Qed.
(** ** Free cells and constraints *)
Lemma count_none (cell l : list nat) : list_sum (map (fun s => count_occ Nat.eq_dec cell s) l) = O <-> forall s, In s l -> ~ In s cell.
Proof.
  induction l as [|s l IH]; [split; [intros _ s []|reflexivity]|]. cbn [map list_sum fold_right]. fold (list_sum (map (fun s => count_occ Nat.eq_dec cell s) l)). rewrite Nat.eq_add_0, IH, <- count_occ_not_In. split.
  - intros (H1 & H2) t [<-|I]; auto.
  - intros H. split; [apply H; now left|intros t I; apply H; now right].
Qed.
(** a cell is reported free iff none of its segments is forced to carry no current *)
Theorem C94_free_cells ops i j : let w := run nt np ops (fst (initial nt np)) in exists f, free_cell nt np (S (S nseg)) w i j = Some f /\ (f = true <-> forall s, In s (cell_key nt np i j) -> ~ forced nt np (explicit w) s).
Proof.
  cbv zeta. destruct (C92_constrained nt np Hnt Hnp ops) as (w' & cs & E & _ & F). unfold free_cell. rewrite E. eexists. split; [reflexivity|]. rewrite Nat.eqb_eq, count_none. split; intros H s I1 I2; [apply (H s); auto; now apply F|]. apply F in I1. exact (H s I2 I1).
Qed.
(** every constraint that the currents met before, except those the user wrote himself, is met after *)
Theorem C94_constraints ops x0 cnt0 N st why w' cs : let w := run nt np ops (fst (initial nt np)) in
  constrained_segments nt np (S (S nseg)) w = Some ((w', None), cs) -> gsco_wireframe nt np ng A b p w x0 cnt0 N = (st, why) ->
  forall c, In c (cons w') -> (forall u, cn c <> CUser u) -> dotr nt np (crow c) (gx st) = dotr nt np (crow c) x0.
Proof.
  intros w CS E c Ic NU. assert (GW : good nt np w') by (assert (Gw := C92_wellformed nt np Hnt Hnp ops); fold w in Gw; unfold constrained_segments, refreshed in CS; destruct (fresh w); [injection CS as <- _; exact Gw|]; destruct (update_implicit nt np (S (S nseg)) w) as [(w1, e)|] eqn:U; [|discriminate]; injection CS as <- -> _; exact (good_update nt np Hnt _ w (w1, None) Gw U)).
  assert (Wc := proj2 GW c Ic). assert (Ecs : cs = explicit w' ++ implicit w'). { unfold constrained_segments in CS. destruct (refreshed nt np (S (S nseg)) w) as [(w1, e)|]; [|discriminate]. injection CS as <- _ <-. reflexivity. }
  destruct (C95_trace _ _ _ _ _ _ _ _ _ _ _ wcells_ok x0 cnt0 N st why E) as (es & _ & _ & GR & _). revert GR. generalize (gx st) (gcnt st). intros x cnt GR.
  apply (greedy_ind' ng nseg ntors A b wcells (wfree nt np w) (seg_start nt np) (seg_end nt np) connected_at p (fun _ x _ => dotr nt np (crow c) x = dotr nt np (crow c) x0) x0 cnt0) with (es := es) (cnt := cnt); [reflexivity| |exact GR].
  clear E GR. intros es' x1 cnt1 l d cur _ IH ((Hl & _ & _ & FR & _) & _). cbv zeta. rewrite <- IH. destruct (cell_index l Hl) as (Hi & Hj). unfold GSCOWire.wcells. apply (C90_loop nt np Hnt Hnp); auto.
  unfold wfree, free_cell in FR. rewrite CS in FR. apply Nat.eqb_eq in FR. rewrite count_none in FR. intros To. unfold touches in To. destruct (cn c) as [k| | |s|s|u] eqn:EN; auto.
  - apply (FR s); auto. rewrite Ecs. apply in_app_iff. left. apply (in_explicit nt Hnt). unfold has. destruct (in_dec _ _ _) as [|NI]; [reflexivity|]. exfalso. apply NI. rewrite <- EN. now apply in_map.
  - apply (FR s); auto. rewrite Ecs. apply in_app_iff. right. apply (in_implicit nt Hnt). unfold has. destruct (in_dec _ _ _) as [|NI]; [reflexivity|]. exfalso. apply NI. rewrite <- EN. now apply in_map.
  - now apply (NU u).
Qed.
End Wire.
(** ** Examples: one loop of four segments and one test point that sees the first of them *)
Definition exA (m s : nat) : R := if (s =? 0)%nat then 1 else 0.
Definition excells (l : nat) : list nat := [0; 1; 2; 3]%nat.
Definition exP (mt : bool) : gpar := GP false false mt 1 None 0 0.
Definition exGSCO (mt : bool) (b0 : R) (x0 : nat -> R) (N : nat) : gst * stop := GSCO 1 4 1 exA (fun _ => b0) excells (fun _ => true) (fun _ => O) (fun _ => O) (fun _ => []) (exP mt) x0 (fun _ => 0%Z) N.
Definition exobj (mt : bool) (b0 : R) : (nat -> R) -> R := obj 1 4 exA (fun _ => b0) (exP mt).
Definition exloop (v : R) : nat -> R := around v (excells O) (fun _ => 0).
Lemma excells_ok l : (l < 1)%nat -> exists s0 s1 s2 s3, excells l = [s0; s1; s2; s3] /\ NoDup [s0; s1; s2; s3] /\ (s0 < 4 /\ s1 < 4 /\ s2 < 4 /\ s3 < 4)%nat.
Proof. intros _. exists 0%nat, 1%nat, 2%nat, 3%nat. split; [reflexivity|]. split; [apply NoDup4; lia|lia]. Qed.
Lemma exobj_loop mt b0 v : exobj mt b0 (exloop v) = / 2 * (v - b0) ^ 2.
Proof. unfold exobj, obj, fB. cbn [lam exP]. rewrite Rmult_0_l, Rplus_0_r. f_equal. rewrite sum_to_S. unfold sum_to at 1. cbn [seq map rsuml fold_right]. rewrite !sum_to_S. unfold sum_to, exA, exloop, excells, around, ind. cbn. ring. Qed.
Lemma exadd c v : around c (excells O) (exloop v) = exloop (v + c).
Proof. apply functional_extensionality. intros s. unfold exloop, around. ring. Qed.
Notation exelig mt := (elig 1 excells (fun _ => true) (fun _ => O) (fun _ => O) (fun _ => []) (exP mt)).
Notation excand mt := (cand_f 1 1 exA excells (fun _ => true) (fun _ => O) (fun _ => O) (fun _ => []) (exP mt)).
Notation exbest mt := (best 1 1 exA excells (fun _ => true) (fun _ => O) (fun _ => O) (fun _ => []) (exP mt)).
Notation exaccept mt := (accept 1 1 exA excells (fun _ => true) (fun _ => O) (fun _ => O) (fun _ => []) (exP mt)).
Definition excur (mt : bool) (v : R) : R := if mt then if Req_EM_T v 0 then 1 else Rabs v else 1.
Lemma exelig_eq mt st v i : gx st = exloop v -> exelig mt st i = IZR (dir_of 1 i) * excur mt v.
Proof.
  intros Ex. unfold elig. cbn [negb no_new_coils exP andb maxcount Z.ltb Z.compare no_crossing]. unfold loop_curr, excur. cbn [match_current exP dflt]. destruct mt; [|unfold exceeds; cbn; reflexivity].
  assert (L : level (gx st) (map (sg excells (loop_of 1 i)) [0; 1; 2; 3]%nat) 0 = Some (if Req_EM_T v 0 then 0 else Rabs v)).
  { apply level_spec. change (map (sg excells (loop_of 1 i)) [0; 1; 2; 3]%nat) with [0; 1; 2; 3]%nat. rewrite Ex. assert (V : exloop v 0%nat = v /\ exloop v 1%nat = v /\ exloop v 2%nat = - v /\ exloop v 3%nat = - v) by (unfold exloop, around, excells, ind; cbn; repeat split; ring). destruct V as (V0 & V1 & V2 & V3). destruct (Req_EM_T v 0) as [->|NZ].
    - left. split; [|reflexivity]. intros s [<-|[<-|[<-|[<-|[]]]]]; rewrite ?V0, ?V1, ?V2, ?V3; ring.
    - right. split; [now apply Rabs_pos_lt|]. split; [exists 0%nat; split; [now left|now rewrite V0]|]. intros s [<-|[<-|[<-|[<-|[]]]]]; right; rewrite ?V0, ?V1, ?V2, ?V3, ?Rabs_Ropp; reflexivity. }
  rewrite L. unfold exceeds. cbn [maxc exP]. destruct (Req_EM_T v 0) as [E|E]; [destruct (Req_EM_T 0 0); [reflexivity|lra]|]. destruct (Req_EM_T (Rabs v) 0) as [E'|]; [assert (K := Rabs_pos_lt v E); lra|reflexivity].
Qed.
Definition exst (b0 : R) (v : R) (st : gst) (pr : option nat) (mt : bool) : Prop := numbers 1 4 exA (fun _ => b0) (exP mt) st /\ gx st = exloop v /\ prev st = pr.
Lemma excur_pos mt v : 0 < excur mt v.
Proof. unfold excur. destruct mt; [|lra]. destruct (Req_EM_T v 0); [lra|now apply Rabs_pos_lt]. Qed.
Lemma excand_eq mt b0 v st pr i : (i < 2)%nat -> exst b0 v st pr mt -> excand mt st i = (v + IZR (dir_of 1 i) * excur mt v - b0) ^ 2.
Proof.
  intros Hi (N & Ex & _). rewrite (cand_obj 1 4 1 exA (fun _ => b0) excells (fun _ => true) (fun _ => O) (fun _ => O) (fun _ => []) (exP mt) excells_ok st i N ltac:(lia)). rewrite (exelig_eq mt st v i Ex), Ex. change (excells (loop_of 1 i)) with (excells O). rewrite exadd. fold (exobj mt b0). rewrite exobj_loop. field.
Qed.
Lemma exbest_eq mt b0 v st pr : exst b0 v st pr mt -> exbest mt st (2 * 1) = if Rlt_dec ((v - excur mt v - b0) ^ 2) ((v + excur mt v - b0) ^ 2) then Some 1%nat else Some O.
Proof.
  intros S. assert (Ex := proj1 (proj2 S)). assert (CP := excur_pos mt v). change (2 * 1)%nat with 2%nat. cbn [best]. assert (E0 : eligible 1 excells (fun _ => true) (fun _ => O) (fun _ => O) (fun _ => []) (exP mt) st 0 = true) by (apply eligible_spec; rewrite (exelig_eq mt st v 0 Ex); replace (IZR (dir_of 1 0)) with 1 by reflexivity; intros Q; lra). assert (E1 : eligible 1 excells (fun _ => true) (fun _ => O) (fun _ => O) (fun _ => []) (exP mt) st 1 = true) by (apply eligible_spec; rewrite (exelig_eq mt st v 1 Ex); replace (IZR (dir_of 1 1)) with (-1) by reflexivity; intros Q; lra). rewrite E0, E1. rewrite !(excand_eq mt b0 v st pr) by (auto; lia).
  replace (v + IZR (dir_of 1 0) * excur mt v - b0) with (v + excur mt v - b0) by (change (IZR (dir_of 1 0)) with 1; ring). replace (v + IZR (dir_of 1 1) * excur mt v - b0) with (v - excur mt v - b0) by (change (IZR (dir_of 1 1)) with (-1); ring). reflexivity.
Qed.
Lemma exst_accept mt b0 v st pr i : (i < 2)%nat -> exst b0 v st pr mt -> exst b0 (v + IZR (dir_of 1 i) * excur mt v) (exaccept mt st i) pr mt.
Proof.
  intros Hi (N & Ex & Ep). split; [apply (accept_numbers 1 4 1); [exact excells_ok|exact N|lia]|]. split; [|exact Ep]. rewrite (accept_x 1 4 1 exA (fun _ => b0)); [|exact excells_ok|lia]. rewrite (exelig_eq mt st v i Ex), Ex. change (excells (loop_of 1 i)) with (excells O). apply exadd.
Qed.
Lemma exst_prev mt b0 v st pr i : exst b0 v st pr mt -> exst b0 v (G (gx st) (gcnt st) (gres st) (tfB st) (tfS st) (tf st) (Some i) (hist st)) (Some i) mt.
Proof. intros ([A1 A2 A3 A4] & Ex & _). split; [constructor; assumption|]. split; [exact Ex|reflexivity]. Qed.
Lemma exst_init mt b0 v : exst b0 v (ginit 1 4 exA (fun _ => b0) (exP mt) (exloop v) (fun _ => 0%Z)) None mt.
Proof. split; [apply numbers_init|]. split; reflexivity. Qed.
Lemma exbest_1 mt b0 v st pr : exst b0 v st pr mt -> b0 < v -> exbest mt st (2 * 1) = Some 1%nat.
Proof. intros S H. rewrite (exbest_eq mt b0 v st pr S). assert (C := excur_pos mt v). destruct (Rlt_dec _ _) as [|L]; [reflexivity|]. exfalso. apply L. nra. Qed.
Lemma exbest_0 mt b0 v st pr : exst b0 v st pr mt -> v <= b0 -> exbest mt st (2 * 1) = Some O.
Proof. intros S H. rewrite (exbest_eq mt b0 v st pr S). assert (C := excur_pos mt v). destruct (Rlt_dec _ _) as [L|]; [|reflexivity]. exfalso. nra. Qed.
Definition exprev (st : gst) (i : nat) := G (gx st) (gcnt st) (gres st) (tfB st) (tfS st) (tf st) (Some i) (hist st).
Notation exiterate mt := (iterate 1 1 exA excells (fun _ => true) (fun _ => O) (fun _ => O) (fun _ => []) (exP mt)).
Lemma exiterate_S mt fuel st : exiterate mt (S fuel) st = match exbest mt st (2 * 1) with None => (st, NoneEligible) | Some i => if undoes 1 st i then (if Rlt_dec (tf st) (excand mt st i) then st else exaccept mt st i, Undone) else match fuel with O => (exaccept mt (exprev st i) i, LastIter) | _ => exiterate mt fuel (exaccept mt (exprev st i) i) end end.
Proof. reflexivity. Qed.
(** a step that takes back a loop added in the positive direction is not recognised: the iterations go on, and may end with a worse solution than an earlier one *)
Theorem C95_undo_missed : exists st1 st2 st3, exGSCO false (9 / 10) (exloop 0) 1 = (st1, LastIter) /\ exGSCO false (9 / 10) (exloop 0) 2 = (st2, LastIter) /\ exGSCO false (9 / 10) (exloop 0) 3 = (st3, Undone) /\
  gx st1 = exloop 1 /\ gx st2 = exloop 0 /\ gx st3 = exloop 1 /\ exobj false (9 / 10) (exloop 1) = 1 / 200 /\ exobj false (9 / 10) (exloop 0) = 81 / 200.
Proof.
  set (b0 := 9 / 10). set (s0 := ginit 1 4 exA (fun _ => b0) (exP false) (exloop 0) (fun _ => 0%Z)). assert (S0 : exst b0 0 s0 None false) by apply exst_init.
  assert (S1 : exst b0 (0 + 1 * 1) (exaccept false (exprev s0 0) 0) (Some O) false) by (exact (exst_accept false b0 0 (exprev s0 0) (Some O) 0 ltac:(lia) (exst_prev false b0 0 s0 None 0 S0))). set (s1 := exaccept false (exprev s0 0) 0) in *.
  assert (B1 : exbest false s1 (2 * 1) = Some 1%nat) by (apply (exbest_1 false b0 (0 + 1 * 1) s1 (Some O) S1); unfold b0; lra).
  assert (S2 : exst b0 (0 + 1 * 1 + -1 * 1) (exaccept false (exprev s1 1) 1) (Some 1%nat) false) by (exact (exst_accept false b0 (0 + 1 * 1) (exprev s1 1) (Some 1%nat) 1 ltac:(lia) (exst_prev false b0 (0 + 1 * 1) s1 (Some O) 1 S1))). set (s2 := exaccept false (exprev s1 1) 1) in *.
  assert (B2 : exbest false s2 (2 * 1) = Some O) by (apply (exbest_0 false b0 (0 + 1 * 1 + -1 * 1) s2 (Some 1%nat) S2); unfold b0; lra).
  assert (B0 : exbest false s0 (2 * 1) = Some O) by (apply (exbest_0 false b0 0 s0 None S0); unfold b0; lra).
  assert (S3 := exst_accept false b0 (0 + 1 * 1 + -1 * 1) s2 (Some 1%nat) 0 ltac:(lia) S2). change (IZR (dir_of 1 0)) with 1 in S3. set (s3 := exaccept false s2 0) in *.
  assert (U1 : undoes 1 s1 1 = false) by (unfold undoes; rewrite (proj2 (proj2 S1)); reflexivity). assert (U2 : undoes 1 s2 0 = true) by (unfold undoes; rewrite (proj2 (proj2 S2)); reflexivity). assert (U0 : undoes 1 s0 0 = false) by reflexivity.
  assert (L : ~ tf s2 < excand false s2 0). { rewrite (num_f _ _ _ _ _ _ (proj1 S2)), (proj1 (proj2 S2)). fold (exobj false b0). rewrite exobj_loop. rewrite (excand_eq false b0 _ s2 _ 0 ltac:(lia) S2). change (IZR (dir_of 1 0)) with 1. unfold excur, b0. lra. }
  exists s1, s2, s3. unfold exGSCO, GSCO. fold b0. change (ginit 1 4 exA (fun _ => b0) (exP false) (exloop 0) (fun _ => 0%Z)) with s0. split; [|split; [|split]].
  - rewrite exiterate_S, B0, U0. reflexivity.
  - rewrite exiterate_S, B0, U0. fold s1. rewrite exiterate_S, B1, U1. reflexivity.
  - rewrite exiterate_S, B0, U0. fold s1. rewrite exiterate_S, B1, U1. fold s2. rewrite exiterate_S, B2, U2. destruct (Rlt_dec _ _); [contradiction|reflexivity].
  - rewrite (proj1 (proj2 S1)), (proj1 (proj2 S2)), (proj1 (proj2 S3)). split; [f_equal; ring|]. split; [f_equal; ring|]. split; [f_equal; unfold excur; ring|]. rewrite !exobj_loop. unfold b0. split; field.
Qed.
(** with match_current, "minimum objective reached" may be reported although another addition would improve the objective *)
Theorem C95_match_current_stop : exists st, exGSCO true (19 / 10) (exloop 5) 10 = (st, Undone) /\ gx st = exloop 1 /\
  ~ local_min 1 4 1 exA (fun _ => 19 / 10) excells (fun _ => true) (fun _ => O) (fun _ => O) (fun _ => []) (exP true) (gx st) (gcnt st).
Proof.
  set (b0 := 19 / 10). set (s0 := ginit 1 4 exA (fun _ => b0) (exP true) (exloop 5) (fun _ => 0%Z)). assert (S0 : exst b0 5 s0 None true) by apply exst_init.
  assert (C5 : excur true 5 = 5) by (unfold excur; destruct (Req_EM_T 5 0); [lra|apply Rabs_pos_eq; lra]). assert (C0 : excur true 0 = 1) by (unfold excur; destruct (Req_EM_T 0 0); lra). assert (C1 : excur true 1 = 1) by (unfold excur; destruct (Req_EM_T 1 0); [lra|apply Rabs_pos_eq; lra]).
  assert (S1 := exst_accept true b0 5 (exprev s0 1) (Some 1%nat) 1 ltac:(lia) (exst_prev true b0 5 s0 None 1 S0)). rewrite C5 in S1. replace (5 + IZR (dir_of 1 1) * 5) with 0 in S1 by (change (IZR (dir_of 1 1)) with (-1); ring). set (s1 := exaccept true (exprev s0 1) 1) in *.
  assert (S2 := exst_accept true b0 0 s1 (Some 1%nat) 0 ltac:(lia) S1). rewrite C0 in S2. replace (0 + IZR (dir_of 1 0) * 1) with 1 in S2 by (change (IZR (dir_of 1 0)) with 1; ring). set (s2 := exaccept true s1 0) in *.
  assert (B0 : exbest true s0 (2 * 1) = Some 1%nat) by (apply (exbest_1 true b0 5 s0 None S0); unfold b0; lra). assert (B1 : exbest true s1 (2 * 1) = Some O) by (apply (exbest_0 true b0 0 s1 (Some 1%nat) S1); unfold b0; lra).
  assert (U1 : undoes 1 s1 0 = true) by (unfold undoes; rewrite (proj2 (proj2 S1)); reflexivity). assert (U0 : undoes 1 s0 1 = false) by reflexivity.
  assert (L : ~ tf s1 < excand true s1 0). { rewrite (num_f _ _ _ _ _ _ (proj1 S1)), (proj1 (proj2 S1)). fold (exobj true b0). rewrite exobj_loop. rewrite (excand_eq true b0 0 s1 _ 0 ltac:(lia) S1), C0. change (IZR (dir_of 1 0)) with 1. unfold b0. lra. }
  exists s2. split; [|split].
  - unfold exGSCO, GSCO. change (ginit 1 4 exA (fun _ => b0) (exP true) (exloop 5) (fun _ => 0%Z)) with s0. rewrite exiterate_S, B0, U0. fold s1. rewrite exiterate_S, B1, U1. destruct (Rlt_dec _ _); [contradiction|reflexivity].
  - exact (proj1 (proj2 S2)).
  - intros LM. assert (AL := proj1 (elig_allowed 4 1 exA (fun _ => b0) excells (fun _ => true) (fun _ => O) (fun _ => O) (fun _ => []) (exP true) excells_ok s2 0 1 ltac:(lia))). assert (E : exelig true s2 0 = 1) by (rewrite (exelig_eq true s2 1 0 (proj1 (proj2 S2))), C1; change (IZR (dir_of 1 0)) with 1; ring). specialize (LM _ _ _ (AL (conj E R1_neq_R0))). rewrite (proj1 (proj2 S2)) in LM. change (excells (loop_of 1 0)) with (excells O) in LM. rewrite exadd in LM. change (exobj true b0 (exloop 1) <= exobj true b0 (exloop (1 + 1))) in LM. rewrite !exobj_loop in LM. unfold b0 in LM. lra.
Qed.
(** the tables of a wireframe with four poloidal and two toroidal divisions meet the hypotheses; a greedy run adds a loop there *)
Example C94_example : (2 * half 4 = 4 /\ 1 <= half 4)%nat /\ (2 <= 2)%nat /\ wcells 4 2 0 = [0; 10; 1; 8]%nat /\ wfree 4 2 (fst (initial 4 2)) 0 = true.
Proof. split; [vm_compute; lia|]. split; [lia|]. split; vm_compute; reflexivity. Qed.
