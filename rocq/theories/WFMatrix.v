(** C93: the matrices handed to the solvers describe the feasible currents. *)
From Coq Require Import Reals Lra Lia List Bool Arith ZArith ZifyNat Psatz.
From Verif Require Import ListAux VecAux Vec3 SurfModel SurfProps SurfGeom SurfGeomProps CurveObjModel CurveObjProps GPMOModel GPMOProps WFModel WFGeom WFThms WFCells WFCurrents WFConstr WFCalls.
Import ListNotations.
Open Scope R_scope.
Ltac Zify.zify_post_hook ::= idtac.

(** ** Specification *)
(** the constraints put there by the constructor and the user, without the implied ones *)
Definition stated (w : wst) : list constr := filter (fun c => match cn c with CImp _ => false | _ => true end) (cons w).
(** C x = d for the matrix made of the given rows and columns, with x = 0 on the dropped columns *)
Definition solves (rows : list constr) (cols : list nat) (n : nat) (x : nat -> R) : Prop :=
  (forall s, (s < n)%nat -> ~ In s cols -> x s = 0) /\ forall c, In c rows -> rsuml (map (fun s => crow c s * x s) cols) = cst c.

Lemma filter_none {A} (f : A -> bool) l : (forall a, In a l -> f a = false) -> filter f l = [].
Proof. induction l as [|a l IH]; intros H; [reflexivity|]. cbn [filter]. rewrite (H a (or_introl eq_refl)). apply IH. intros. apply H. now right. Qed.

Section Matrix.
Variables (nt np : nat).
Hypothesis Hnt : (2 * half nt = nt /\ 1 <= half nt)%nat.
Hypothesis Hnp : (2 <= np)%nat.
Notation half := (half nt). Notation nseg := (nseg nt np). Notation nnodes := (nnodes nt np).
Notation T := (T nt). Notation P := (P nt np). Notation node := (node nt).
Notation connected_at := (connected_at nt np). Notation forced := (forced nt np).
Notation init := (fst (initial nt np)).

(** ** The continuity constraints survive *)
Definition anchored (w : wst) : Prop := forall c, In c (cons init) -> In c (cons w).
Lemma init_names c : In c (cons init) -> exists k, cn c = CCont k.
Proof. intros I. rewrite initial_eq in I by lia. cbn [fst cons] in I. apply in_map_iff in I. destruct I as (ij & <- & _). eexists. reflexivity. Qed.
Lemma anchored_add n r c w : anchored w -> anchored (fst (add n r c w)).
Proof. intros A d I. unfold add. destruct (has w n); [now apply A|]. cbn [fst cons]. apply in_app_iff. left. now apply A. Qed.
Lemma anchored_remove n w : (forall k, n <> CCont k) -> anchored w -> anchored (fst (remove n w)).
Proof.
  intros N A d I. unfold remove. destruct (has w n); [|now apply A]. cbn [fst cons]. apply filter_In. split; [now apply A|]. destruct (init_names d I) as (k & E). destruct (cname_eq_dec (cn d) n) as [E'|]; [|reflexivity]. exfalso. apply (N k). congruence.
Qed.
Lemma anchored_set_free l w : anchored w -> anchored (fst (set_free nt np l w)).
Proof. intros A. unfold set_free. destruct (existsb _ l); [exact A|]. apply each_inv; [|exact A]. intros s w' _ A'. destruct (has w' (CSeg s)); [now apply anchored_remove|]. destruct (has w' (CImp s)); [now apply anchored_remove|exact A']. Qed.
Lemma anchored_add_seg imp l w : anchored w -> anchored (fst (add_seg nt np imp l w)).
Proof. intros A. unfold add_seg. destruct (existsb _ l); [exact A|]. destruct (_ && _); [exact A|]. apply each_inv; [|exact A]. intros. now apply anchored_add. Qed.
Lemma anchored_set_con imp l w : anchored w -> anchored (fst (set_constrained nt np imp l w)).
Proof. intros A. unfold set_constrained. apply bind_inv; [now apply anchored_set_free|]. intros. now apply anchored_add_seg. Qed.
Lemma anchored_exec o w : good nt np w -> no_cont_removed o -> anchored w -> anchored (fst (exec nt np o w)).
Proof.
  intros G L A. destruct o; cbn [exec no_cont_removed] in *.
  - now apply anchored_add.
  - apply anchored_remove; [|exact A]. intros k ->. exact L.
  - now apply anchored_add.
  - unfold set_pol. apply bind_inv; [destruct (has w CPolC); [now apply anchored_remove|exact A]|]. intros. now apply anchored_add.
  - now apply anchored_add.
  - unfold set_tor. apply bind_inv; [destruct (has w CTorC); [now apply anchored_remove|exact A]|]. intros. now apply anchored_add.
  - now apply anchored_add_seg.
  - unfold remove_seg. destruct (existsb _ l); [exact A|]. apply each_inv; [|exact A]. intros s w' _ A'. apply anchored_remove; [destruct imp; discriminate|exact A'].
  - now apply anchored_set_con.
  - now apply anchored_set_free.
  - unfold free_all. apply each_inv; [|exact A]. intros n w' I A'. apply filter_In in I. destruct I as (_ & I). apply anchored_remove; [intros k ->; discriminate|exact A'].
  - unfold set_breaks. destruct (_ || _); [exact A|]. assert (GO : forall w', anchored w' -> anchored (fst (if (n =? 0)%nat then (w', Some ZeroDivisionError) else if breaks_ok nt np n width allow then set_constrained nt np false (break_segs nt np n width allow) w' else (w', Some AssertionError)))).
    { intros w' A'. destruct (n =? 0)%nat; [exact A'|]. destruct (breaks_ok _ _ _ _ _); [now apply anchored_set_con|exact A']. }
    destruct (find _ _) as [c|]; [|now apply GO]. destruct (Req_EM_T (cst c) 0); [|exact A]. apply bind_inv; [now apply anchored_remove|auto].
  - unfold refreshed. destruct (fresh w); [exact A|]. destruct (C92_update nt np Hnt Hnp w G) as (w' & -> & _ & _ & _ & K). cbn [fst]. intros c I. apply K; [destruct (init_names c I) as (k & ->); reflexivity|now apply A].
Qed.
Lemma run_inv l : (forall o, In o l -> no_cont_removed o) -> let w := run nt np l init in good nt np w /\ trusted nt np w /\ anchored w.
Proof.
  assert (H : forall w, good nt np w -> trusted nt np w -> anchored w -> (forall o, In o l -> no_cont_removed o) -> good nt np (run nt np l w) /\ trusted nt np (run nt np l w) /\ anchored (run nt np l w)).
  { induction l as [|o l' IH]; intros w G Tr A L; [auto|]. cbn [run]. apply IH; [now apply good_exec|now apply trusted_exec|apply anchored_exec; auto; apply L; now left|]. intros. apply L. now right. }
  intros L. cbv zeta. apply H; auto; [now apply good_initial|now apply trusted_initial|intros c; auto].
Qed.
(** ** After a refresh *)
Definition settled (w : wst) : Prop := good nt np w /\ anchored w /\ forall s, In s (explicit w ++ implicit w) <-> forced (explicit w) s.
Lemma settled_refresh w : good nt np w -> trusted nt np w -> anchored w -> exists w', refreshed nt np (S (S nseg)) w = Some (w', None) /\ settled w' /\ forall c, In c (stated w') <-> In c (stated w).
Proof.
  intros G Tr A. unfold refreshed. destruct (fresh w) eqn:F; [exists w; split; [reflexivity|]; split; [|reflexivity]; split; [exact G|split; [exact A|now apply Tr]]|].
  destruct (C92_update nt np Hnt Hnp w G) as (w' & E & _ & A2 & A3 & A4). assert (G' := good_update nt np Hnt (S (S nseg)) w _ G E). cbn [fst] in G'. exists w'. split; [exact E|]. split.
  - split; [exact G'|]. split; [intros c I; apply A4; [destruct (init_names c I) as (k & ->); reflexivity|now apply A]|]. intros s. now rewrite A3, A2.
  - intros c. unfold stated. rewrite !filter_In. assert (SEG : forall u v, good nt np u -> good nt np v -> explicit u = explicit v -> forall s, cn c = CSeg s -> In c (cons u) -> In c (cons v)).
    { intros u v (_ & Gu) (_ & Gv) E' s Ec I. assert (J : In s (explicit u)) by (apply (in_explicit nt Hnt); apply has_in; rewrite <- Ec; now apply in_map). rewrite E' in J. apply (in_explicit nt Hnt) in J. apply has_in in J. apply in_map_iff in J. destruct J as (d & Ed & J). assert (Wc := Gu c I). assert (Wd := Gv d J). unfold wellformed in Wc, Wd. rewrite Ec in Wc. rewrite Ed in Wd. destruct Wc as (_ & C1 & C2), Wd as (_ & D1 & D2). replace c with d; [exact J|]. destruct c, d. cbn in *. congruence. }
    destruct (is_segment (cn c)) eqn:Hs; [|rewrite (A4 c Hs); reflexivity]. destruct (cn c) eqn:Ec; try discriminate; [|split; intros (_ & C0); discriminate]. split; (intros (I & _); split; [|reflexivity]).
    + exact (SEG w' w G' G A2 _ eq_refl I).
    + exact (SEG w w' G G' (eq_sym A2) _ eq_refl I).
Qed.
Lemma settled_closed w : settled w -> closed nt np w.
Proof.
  intros (_ & _ & S) k Hk H1. rewrite node_sum_free in H1 by auto. destruct (split_free nt np w k H1) as (l1 & a & l2 & E & A & B). apply not_true_iff_false in A. apply A. apply (in_con nt Hnt), S. apply (f_node nt np _ k l1 a l2 Hk E). intros t It. apply S, (in_con nt Hnt). now apply B.
Qed.
Lemma settled_assertion w : settled w -> assertion nt np w = true.
Proof.
  intros S. unfold assertion. apply negb_true_iff. apply not_true_iff_false. intros E. apply existsb_exists in E. destruct E as (k & I & E). apply in_seq in I. unfold implied_node in E. apply Nat.eqb_eq in E. apply (settled_closed w S k); [lia|exact E].
Qed.
Lemma seg_entry w s c : good nt np w -> (s < nseg)%nat -> In c (cons w) -> (cn c = CSeg s \/ cn c = CImp s) -> forall x, dotr nt np (crow c) x = x s /\ cst c = 0.
Proof.
  intros (_ & G) L I E x. assert (Wc := G c I). unfold wellformed in Wc. destruct E as [E|E]; rewrite E in Wc; destruct Wc as (_ & C1 & C2); (split; [rewrite C1; now apply (dotr_single nt np Hnt Hnp)|exact C2]).
Qed.
(** constrained segments carry no current in any solution of the stated constraints *)
Lemma stated_zero w x : settled w -> sat nt np x (stated w) -> forall s, In s (explicit w ++ implicit w) -> x s = 0.
Proof.
  intros (G & A & S) H s I. apply S in I. apply (C92_sound nt np Hnt Hnp (explicit w)); [| |exact I].
  - intros c Ic. apply H. apply filter_In. split; [now apply A|]. destruct (init_names c Ic) as (k & ->). reflexivity.
  - intros t It. apply (in_explicit nt Hnt) in It. apply has_in in It. apply in_map_iff in It. destruct It as (c & E & Ic). assert (L : (t < nseg)%nat) by (assert (Wc := proj2 G c Ic); unfold wellformed in Wc; rewrite E in Wc; tauto). destruct (seg_entry w t c G L Ic (or_introl E) x) as (K1 & K2). rewrite <- K1, <- K2. apply H. apply filter_In. split; [exact Ic|]. now rewrite E.
Qed.
Lemma entry_of w s : good nt np w -> In s (explicit w ++ implicit w) -> exists c, In c (cons w) /\ (cn c = CSeg s \/ cn c = CImp s) /\ (s < nseg)%nat.
Proof.
  intros G I. apply (in_con nt Hnt) in I. unfold con in I. apply orb_true_iff in I. destruct I as [I|I]; apply has_in in I; apply in_map_iff in I; destruct I as (c & E & I); exists c; (split; [exact I|]); (split; [auto|]); assert (Wc := proj2 G c I); unfold wellformed in Wc; rewrite E in Wc; tauto.
Qed.
(** the row of a node whose four segments carry nothing is void *)
Lemma void_row w c k x : settled w -> In c (cons w) -> cn c = CCont k -> node_sum nt np w k = 0%nat -> (forall s, In s (explicit w ++ implicit w) -> x s = 0) -> dotr nt np (crow c) x = cst c.
Proof.
  intros S I E H0 Z. assert (S' := S). destruct S as (G & _ & _). assert (Wc := proj2 G c I). unfold wellformed in Wc. rewrite E in Wc. destruct Wc as ((i & j & Hi & Hj & Hc & -> & ->) & ->). assert (Hk : (node i j < nnodes)%nat). { unfold WFModel.node, WFModel.nnodes. assert (i * nt <= np * nt)%nat by (apply Nat.mul_le_mono_r; lia). rewrite Nat.mul_add_distr_r. lia. }
  rewrite node_sum_free in H0 by auto. unfold free_at, WFModel.connected_at in H0. rewrite (node_div nt np Hnt Hnp), (node_mod nt np Hnt Hnp) in H0 by auto. apply sum_to_nil. intros s Hs. unfold cont_row.
  assert (Q : forall m, (m < 4)%nat -> x (nth m (connected nt np i j) 0%nat) = 0). { intros m Hm. apply Z. apply (in_con nt Hnt). apply not_false_is_true. intros C0. assert (J : In (nth m (connected nt np i j) 0%nat) (filter (fun s => negb (con w s)) (connected nt np i j))). { apply filter_In. split; [apply nth_In; assert (LL : length (connected nt np i j) = 4%nat) by (unfold connected; destruct (_ =? _)%nat; [|destruct (_ <? _)%nat]; reflexivity); lia|now rewrite C0]. } apply length_zero_iff_nil in H0. rewrite H0 in J. exact J. }
  destruct (Nat.eqb_spec s (nth 2 (connected nt np i j) 0%nat)) as [->|]; [rewrite Q by lia; ring|]. destruct (Nat.eqb_spec s (nth 3 (connected nt np i j) 0%nat)) as [->|]; [rewrite Q by lia; ring|]. destruct (Nat.eqb_spec s (nth 0 (connected nt np i j) 0%nat)) as [->|]; [rewrite Q by lia; ring|]. destruct (Nat.eqb_spec s (nth 1 (connected nt np i j) 0%nat)) as [->|]; [rewrite Q by lia; ring|]. cbn [orb]. ring.
Qed.
Lemma sum_filter (f : nat -> R) (g : nat -> bool) l : (forall s, In s l -> g s = false -> f s = 0) -> rsuml (map f (filter g l)) = rsuml (map f l).
Proof. induction l as [|a l IH]; intros H; [reflexivity|]. cbn [filter map rsuml]. rewrite <- IH by (intros; apply H; auto; now right). destruct (g a) eqn:E; [reflexivity|]. rewrite (H a (or_introl eq_refl) E). ring. Qed.
Theorem C93_matrices pick l redund rmcon : (forall o, In o l -> no_cont_removed o) -> let w := run nt np l init in
  exists w' e rows cols, constraint_matrices nt np pick (S (S nseg)) redund rmcon false w = Some ((w', e), (rows, cols)) /\
    (e = None \/ e = Some ValueError /\ rmcon = true /\ redund = true /\ forall x, sat nt np x (stated w) <-> forall s, (s < nseg)%nat -> ~ In s (unconstrained nt np w') -> x s = 0) /\
    (e = None -> forall x, solves rows cols nseg x <-> sat nt np x (stated w)).
Proof.
  intros L w. destruct (run_inv l L) as (G0 & Tr & A0). fold w in G0, Tr, A0. destruct (settled_refresh w G0 Tr A0) as (w' & ER & S & ST). assert (S' := S). destruct S' as (G & A & CL). unfold constraint_matrices. rewrite ER. assert (EN : (if redund then find_inactive nt np pick false w' else inl []) = inl (if redund then inactive nt np w' else [])) by (destruct redund; [unfold find_inactive; rewrite (settled_assertion w' S); reflexivity|reflexivity]). rewrite EN. cbv zeta. set (nodes := if redund then inactive nt np w' else []). set (keep := fun c => negb (match cn c with CCont k => memb k nodes | _ => false end) && negb (rmcon && is_segment (cn c))).
  assert (SS : forall x, sat nt np x (stated w') <-> sat nt np x (stated w)) by (intros x; split; intros H c I; apply H, ST, I).
  assert (DROP : forall x c, In c (cons w') -> keep c = false -> (forall s, In s (explicit w' ++ implicit w') -> x s = 0) -> dotr nt np (crow c) x = cst c).
  { intros x c I K Z. unfold keep in K. apply andb_false_iff in K. destruct K as [K|K]; apply negb_false_iff in K.
    - destruct (cn c) as [k| | | | |] eqn:E; try discriminate. apply memb_in in K. unfold nodes in K. destruct redund; [|contradiction]. unfold inactive in K. apply filter_In in K. destruct K as (_ & K). apply Nat.eqb_eq in K. now apply (void_row w' c k).
    - apply andb_true_iff in K. destruct K as (_ & K). assert (exists s, (cn c = CSeg s \/ cn c = CImp s)) as (s & E) by (destruct (cn c); try discriminate; eauto). assert (Ls : (s < nseg)%nat) by (assert (Wc := proj2 G c I); unfold wellformed in Wc; destruct E as [E|E]; rewrite E in Wc; tauto). destruct (seg_entry w' s c G Ls I E x) as (K1 & K2). rewrite K1, K2. apply Z. apply (in_con nt Hnt). unfold con. apply orb_true_iff. destruct E as [E|E]; [left|right]; apply has_in; rewrite <- E; now apply in_map. }
  assert (MAIN : forall x, solves (filter keep (cons w')) (if rmcon then unconstrained nt np w' else seq 0 nseg) nseg x <-> sat nt np x (stated w)).
  { intros x. rewrite <- SS. assert (DOT : (forall s, (s < nseg)%nat -> ~ In s (if rmcon then unconstrained nt np w' else seq 0 nseg) -> x s = 0) -> forall c, rsuml (map (fun s => crow c s * x s) (if rmcon then unconstrained nt np w' else seq 0 nseg)) = dotr nt np (crow c) x).
    { intros Z c. destruct rmcon; [|reflexivity]. unfold dotr, sum_to, unconstrained. apply sum_filter. intros s Is F. rewrite Z; [ring|apply in_seq in Is; lia|]. intros J. unfold unconstrained in J. apply filter_In in J. destruct J as (_ & J). congruence. }
    split.
    - intros (Z & H). assert (Z0 : forall s, In s (explicit w' ++ implicit w') -> x s = 0).
      { intros s I. destruct (entry_of w' s G I) as (c & Ic & E & Ls). destruct rmcon eqn:RM.
        - apply Z; [exact Ls|]. intros J. apply (in_unconstrained nt np Hnt Hnp) in J. destruct J as (_ & J). apply (in_con nt Hnt) in I. congruence.
        - destruct (seg_entry w' s c G Ls Ic E x) as (K1 & K2). rewrite <- K1, <- K2, <- (DOT Z). apply H. apply filter_In. split; [exact Ic|]. unfold keep. cbn [andb negb]. destruct E as [E|E]; rewrite E; reflexivity. }
      intros c I. apply filter_In in I. destruct I as (I & _). destruct (keep c) eqn:K; [|now apply DROP]. rewrite <- (DOT Z). apply H. apply filter_In. auto.
    - intros H. assert (Z0 := stated_zero w' x S H). assert (Z : forall s, (s < nseg)%nat -> ~ In s (if rmcon then unconstrained nt np w' else seq 0 nseg) -> x s = 0). { intros s Ls N. destruct rmcon; [|exfalso; apply N, in_seq; lia]. apply Z0. apply (in_con nt Hnt). apply not_false_is_true. intros C0. apply N, (in_unconstrained nt np Hnt Hnp). auto. }
      split; [exact Z|]. intros c I. rewrite (DOT Z). apply filter_In in I. destruct I as (I & _). destruct (cn c) as [k| | |s|s|u] eqn:E; try (apply H, filter_In; rewrite E; split; [exact I|reflexivity]). destruct (entry_of w' s G) as (_ & _ & _ & Ls); [apply (in_con nt Hnt); unfold con; apply orb_true_iff; right; apply has_in; rewrite <- E; now apply in_map|]. destruct (seg_entry w' s c G Ls I (or_intror E) x) as (K1 & K2). rewrite K1, K2. apply Z0. apply (in_con nt Hnt); unfold con; apply orb_true_iff; right; apply has_in; rewrite <- E; now apply in_map. }
  destruct (filter keep (cons w')) as [|c0 rows] eqn:EF.
  - exists w', (Some ValueError), [], []. split; [reflexivity|]. split; [|discriminate]. right. split; [reflexivity|].
    assert (KN : forall c, In c (cons w') -> keep c = false) by (intros c I; apply not_true_iff_false; intros K; assert (J : In c (filter keep (cons w'))) by (apply filter_In; auto); rewrite EF in J; exact J).
    (* the continuity constraint of node (1, 0) must have been dropped *)
    assert (C1 : exists c, In c (cons w') /\ cn c = CCont (node 1 0)). { exists (C (CCont (node 1 0)) (cont_row (connected nt np 1 0)) 0). split; [|reflexivity]. apply A. rewrite initial_eq by lia. cbn [fst cons]. apply in_map_iff. exists (1, 0)%nat. split; [reflexivity|]. apply filter_In. split; [apply in_grid; lia|]. unfold has_continuity. cbn [fst snd]. change (1 =? 0)%nat with false. destruct (Nat.eqb_spec 1 np); [lia|]. reflexivity. }
    destruct C1 as (c1 & I1 & E1). assert (K1 := KN c1 I1). unfold keep in K1. rewrite E1 in K1. cbn [is_segment] in K1. rewrite andb_false_r in K1. cbn [negb] in K1. rewrite andb_true_r in K1. apply negb_false_iff, memb_in in K1. unfold nodes in K1. destruct redund; [|contradiction]. unfold inactive in K1. apply filter_In in K1. destruct K1 as (K0 & K1). apply in_seq in K0. apply Nat.eqb_eq in K1. rewrite node_sum_free in K1 by (auto; lia).
    assert (RM : rmcon = true). { assert (exists s, In s (connected_at (node 1 0)) /\ con w' s = true) as (s & _ & Cs). { unfold free_at in K1. apply length_zero_iff_nil in K1. unfold WFModel.connected_at in *. rewrite (node_div nt np Hnt Hnp), (node_mod nt np Hnt Hnp) in * by (auto; lia). rewrite connected_int in * by (auto; lia). exists (T (1 - 1) 0). split; [now left|]. apply not_false_is_true. intros C0. cbn [filter] in K1. rewrite C0 in K1. discriminate. }
      apply (in_con nt Hnt) in Cs. destruct (entry_of w' s G Cs) as (c & Ic & E & _). assert (K := KN c Ic). unfold keep in K. destruct rmcon; [reflexivity|]. destruct E as [E|E]; rewrite E in K; discriminate. }
    split; [exact RM|]. split; [reflexivity|]. intros x. rewrite <- (MAIN x). rewrite RM. unfold solves. split; [tauto|]. intros Z. split; [exact Z|]. intros c [].
  - exists w', None, (c0 :: rows), (if rmcon then unconstrained nt np w' else seq 0 nseg). split; [reflexivity|]. split; [now left|]. intros _. exact MAIN.
Qed.
End Matrix.

Lemma no_crossings_general pick ast wr : refreshed 4 2 18 ast = Some (wr, None) -> find_inactive 4 2 pick true wr = inl [4; 5; 6; 7; 8; 9; 10; 11; 1]%nat ->
  map cn (cons wr) = map CCont [1; 4; 5; 6; 7; 9]%nat ++ map CSeg [0; 1; 2; 3; 4; 5; 6; 7; 10; 11; 12; 13; 14; 15]%nat -> good 4 2 wr -> exists w' rows cols x, constraint_matrices 4 2 pick (S (S (nseg 4 2))) true false true ast = Some ((w', None), (rows, cols)) /\
  solves rows cols (nseg 4 2) x /\ ~ sat 4 2 x (cons (fst (initial 4 2))).
Proof.
  intros arc_ref AI arc_names GA. change (S (S (nseg 4 2))) with 18%nat. unfold constraint_matrices. rewrite arc_ref, AI. cbv zeta. match goal with |- context [filter ?f (cons wr)] => set (keep := f) end. set (x := fun s => if (s =? 8)%nat then 1 else 0). 
  assert (ROW : forall c, In c (filter keep (cons wr)) -> exists s, cn c = CSeg s /\ s <> 8%nat).
  { intros c I. apply filter_In in I. destruct I as (I & K). assert (J := in_map cn _ _ I). rewrite arc_names in J. apply in_app_iff in J. destruct J as [J|J]; apply in_map_iff in J; destruct J as (k & E & J); [|exists k; split; [now symmetry|]; intros ->; cbn [In] in J; intuition discriminate]. exfalso. unfold keep in K. rewrite <- E in K. apply andb_true_iff in K. destruct K as (K & _). apply negb_true_iff in K. apply not_true_iff_false in K. apply K, memb_in. cbn [In] in *. intuition. }
  assert (SOL : solves (filter keep (cons wr)) (seq 0 (nseg 4 2)) (nseg 4 2) x).
  { split; [intros s Ls N; exfalso; apply N, in_seq; lia|]. intros c I. destruct (ROW c I) as (s & E & N). apply filter_In in I. destruct I as (I & _). assert (Wc := proj2 GA c I). unfold wellformed in Wc. rewrite E in Wc. destruct Wc as (Ls & _ & _). destruct (seg_entry 4 2 sizes42 sizes2 wr s c GA Ls I (or_introl E) x) as (K1 & K2). unfold dotr, sum_to in K1. rewrite K1, K2. unfold x. destruct (Nat.eqb_spec s 8); [contradiction|reflexivity]. }
  assert (NE : filter keep (cons wr) <> []). { intros C0. assert (J : In (CSeg 0) (map cn (cons wr))) by (rewrite arc_names; apply in_app_iff; right; left; reflexivity). apply in_map_iff in J. destruct J as (c & E & I). assert (F : In c (filter keep (cons wr))) by (apply filter_In; split; [exact I|]; unfold keep; rewrite E; reflexivity). rewrite C0 in F. exact F. }
  destruct (filter keep (cons wr)) as [|c0 rows] eqn:EF; [contradiction|]. exists wr, (c0 :: rows), (seq 0 (nseg 4 2)), x. split; [reflexivity|]. split; [exact SOL|].
  intros S. apply (sat_initial 4 2 sizes42 sizes2) in S. assert (K := S 0%nat 1%nat ltac:(lia) ltac:(lia) eq_refl). rewrite (row_0 4 2 sizes42 sizes2) in K by (change (half 4) with 2%nat; lia). unfold net0, pol_net in K. replace (neg 4 1) with 3%nat in K by reflexivity. change (half 4) with 2%nat in K. cbn [Nat.ltb Nat.leb andb Nat.sub] in K. change (T 4 0 1) with 1%nat in K. change (T 4 0 3) with 3%nat in K. change (P 4 2 0 1) with 9%nat in K. change (P 4 2 0 0) with 8%nat in K. unfold x in K. cbn [Nat.eqb] in K. change (1 <? 2)%nat with true in K. change (0 <? 1)%nat with true in K. change (3 <? 2)%nat with false in K. rewrite andb_false_r in K. cbn [andb] in K. lra.
Qed.
(** ** With assume_no_crossings the matrices admit currents that break continuity *)
Definition arc_state : wst := run 4 2 [OSetCon false (filter (fun s => negb (memb s [8; 9]%nat)) (seq 0 16))] (fst (initial 4 2)).
Definition arc_refreshed : wst := match refreshed 4 2 18 arc_state with Some (w, _) => w | None => arc_state end.
Lemma arc_names : map cn (cons arc_refreshed) = map CCont [1; 4; 5; 6; 7; 9]%nat ++ map CSeg [0; 1; 2; 3; 4; 5; 6; 7; 10; 11; 12; 13; 14; 15]%nat.
Proof. vm_compute. reflexivity. Qed.
Lemma arc_ref : refreshed 4 2 18 arc_state = Some (arc_refreshed, None).
Proof. vm_compute. reflexivity. Qed.
Lemma arc_free : unconstrained 4 2 arc_refreshed = [8; 9]%nat.
Proof. vm_compute. reflexivity. Qed.
Lemma loops_S nt np pick f w free acc : loops nt np pick (S f) w free acc = match free with [] => Some acc | _ => match follow nt np (S (nseg nt np)) w (pick free) None (filter (fun t => negb (t =? pick free)%nat) free) with Walked l free' => loops nt np pick f w free' (match l with Some k => k :: acc | None => acc end) | _ => None end end.
Proof. reflexivity. Qed.
Lemma arc_walk s : In s [8; 9]%nat -> follow 4 2 (S (nseg 4 2)) arc_refreshed s None (filter (fun t => negb (t =? s)%nat) [8; 9]%nat) = Walked (Some 1%nat) [].
Proof. intros [<-|[<-|[]]]; vm_compute; reflexivity. Qed.
Lemma arc_assertion : assertion 4 2 arc_refreshed = true /\ inactive 4 2 arc_refreshed = [4; 5; 6; 7; 8; 9; 10; 11]%nat.
Proof. split; vm_compute; reflexivity. Qed.
Lemma arc_history : exists l, arc_state = run 4 2 l (fst (initial 4 2)) /\ forall o, In o l -> no_cont_removed o.
Proof. eexists. split; [reflexivity|]. intros o [<-|[]]. exact I. Qed.
Global Opaque arc_refreshed arc_state.
Lemma arc_inactive pick : In (pick [8; 9]%nat) [8; 9]%nat -> find_inactive 4 2 pick true arc_refreshed = inl [4; 5; 6; 7; 8; 9; 10; 11; 1]%nat.
Proof.
  intros H. unfold find_inactive. destruct arc_assertion as (-> & ->). cbn [negb]. rewrite arc_free. change (S (nseg 4 2)) with (S 16) at 1. rewrite loops_S, (arc_walk _ H). change 16%nat with (S 15). rewrite loops_S. reflexivity.
Qed.
Lemma some_inj {A B} (a a' : A) (b : B) : Some (a, b) = Some (a', b) -> a = a'. Proof. congruence. Qed.
Lemma arc_good : good 4 2 arc_refreshed.
Proof.
  destruct arc_history as (l & E & L). destruct (run_inv 4 2 sizes42 sizes2 l L) as (G & Tr & A). destruct (settled_refresh 4 2 sizes42 sizes2 _ G Tr A) as (w' & ER & (G' & _) & _). rewrite <- E in ER. assert (K := eq_trans (eq_sym ER) arc_ref). apply some_inj in K. rewrite <- K. exact G'.
Qed.
(** the free segments form one arc from symmetry plane to symmetry plane; the constraint between its two segments is dropped *)
Theorem C93_no_crossings pick : In (pick [8; 9]%nat) [8; 9]%nat -> exists w' rows cols x, constraint_matrices 4 2 pick (S (S (nseg 4 2))) true false true arc_state = Some ((w', None), (rows, cols)) /\
  solves rows cols (nseg 4 2) x /\ ~ sat 4 2 x (cons (fst (initial 4 2))) /\ exists l, arc_state = run 4 2 l (fst (initial 4 2)) /\ forall o, In o l -> no_cont_removed o.
Proof.
  intros H. destruct (no_crossings_general pick arc_state arc_refreshed arc_ref (arc_inactive pick H) arc_names arc_good) as (w' & rows & cols & x & A & B & C0). exists w', rows, cols, x. split; [exact A|]. split; [exact B|]. split; [exact C0|]. exact arc_history.
Qed.
(** with every segment constrained and both reductions asked for there is no matrix at all *)
Theorem C93_all_constrained nt np pick : (2 * half nt = nt /\ 1 <= half nt)%nat -> (2 <= np)%nat ->
  exists w', constraint_matrices nt np pick (S (S (nseg nt np))) true true false (run nt np [OSetCon false (seq 0 (nseg nt np))] (fst (initial nt np))) = Some ((w', Some ValueError), ([], [])).
Proof.
  intros Hnt Hnp. set (l := seq 0 (nseg nt np)). assert (D0 := C92_disjoint nt np Hnt Hnp [] (fun o (H : In o []) => match H with end)). cbn [run] in D0. destruct (C92_set_constrained nt np Hnt Hnp l _ D0) as (S1 & _); [intros t I; apply in_seq in I; lia|]. destruct (S1 (seq_NoDup _ _)) as (w1 & A1 & A2 & A3).
  destruct (run_inv nt np Hnt Hnp [OSetCon false l]) as (G0 & Tr & A0); [intros o [<-|[]]; exact I|]. cbn [run exec] in *. rewrite A1 in *. cbn [fst] in *. destruct (settled_refresh nt np Hnt Hnp w1 G0 Tr A0) as (w' & ER & S & ST). exists w'. unfold constraint_matrices. rewrite ER. unfold find_inactive. rewrite (settled_assertion nt np Hnt Hnp w' S). cbn [negb]. cbv zeta.
  assert (S' := S). destruct S' as (G & A & CL). assert (EXP : forall s, (s < nseg nt np)%nat -> con w' s = true). { intros s Ls. unfold con. apply orb_true_iff. left. apply has_in. assert (J : In (C (CSeg s) (seg_row s) 0) (stated w')). { apply ST. unfold stated. apply filter_In. split; [|reflexivity]. rewrite A2. apply in_app_iff. right. apply in_map_iff. exists s. split; [reflexivity|]. apply in_seq. lia. } apply filter_In in J. destruct J as (J & _). now apply (in_map cn) in J. }
  assert (INA : forall k, (k < nnodes nt np)%nat -> memb k (inactive nt np w') = true). { intros k Hk. apply memb_in. unfold inactive. apply filter_In. split; [apply in_seq; lia|]. apply Nat.eqb_eq. rewrite node_sum_free by auto. apply length_zero_iff_nil. unfold free_at. assert (Z : forall m, (forall t, In t m -> (t < nseg nt np)%nat) -> filter (fun s => negb (con w' s)) m = []) by (induction m as [|b m IHm]; intros Hm; [reflexivity|]; cbn [filter]; rewrite (EXP b (Hm b (or_introl eq_refl))); apply IHm; intros; apply Hm; now right). apply Z. intros t It. now apply (connected_range nt np Hnt Hnp k). }
  match goal with |- match filter ?f ?m with _ => _ end = _ => assert (NIL : filter f m = []) end; [|rewrite NIL; reflexivity].
  match goal with |- filter ?f ?m = [] => assert (Z : forall c, In c m -> f c = false) end.
  { intros c I. destruct (is_segment (cn c)) eqn:E; [now rewrite andb_false_r|]. assert (J : In c (stated w')) by (apply filter_In; split; [exact I|]; destruct (cn c); auto; discriminate). apply ST in J. unfold stated in J. apply filter_In in J. destruct J as (J & _). rewrite A2 in J. apply in_app_iff in J. destruct J as [J|J]; [|apply in_map_iff in J; destruct J as (t & <- & _); discriminate]. apply filter_In in J. destruct J as (J & _). destruct (init_names nt np Hnt Hnp c J) as (k & Ek). rewrite Ek. assert (Wc := proj2 G c I). unfold wellformed in Wc. rewrite Ek in Wc. destruct Wc as ((i & j & Hi & Hj & _ & -> & _) & _). rewrite INA; [reflexivity|]. unfold node, nnodes. assert (i * nt <= np * nt)%nat by (apply Nat.mul_le_mono_r; lia). rewrite Nat.mul_add_distr_r. lia. }
  apply filter_none. exact Z.
Qed.
