(** C92: histories of the constraint API and the implicit constraints; C93: constraint matrices. *)
From Coq Require Import Reals Lra Lia List Bool Arith ZArith ZifyNat Psatz.
From Verif Require Import ListAux VecAux Vec3 SurfModel SurfProps SurfGeom SurfGeomProps CurveObjModel CurveObjProps GPMOModel GPMOProps WFModel WFGeom WFThms WFCells WFCurrents.
Import ListNotations.
Open Scope R_scope.
Ltac Zify.zify_post_hook ::= idtac.

(** ** Specification: the calls, and the segments forced to carry no current *)
Section Spec.
Variables (nt np : nat).
Inductive op :=
| OAdd (n : nat) (r : row) (c : R)   (* add_constraint with a type of the user's *)
| ORemove (n : cname)                (* remove_constraint *)
| OAddPol (nfp : nat) (cur : R) | OSetPol (nfp : nat) (cur : R) | OAddTor (cur : R) | OSetTor (cur : R)
| OAddSeg (imp : bool) (l : list nat) | ORemoveSeg (imp : bool) (l : list nat) | OSetCon (imp : bool) (l : list nat)
| OSetFree (l : list nat) | OFreeAll | OBreaks (n width : nat) (allow : bool)
| OUpdate.                           (* any call that needs the implicit constraints *)
Definition exec (o : op) (w : wst) : out := match o with
  | OAdd n r c => add (CUser n) r c w | ORemove n => remove n w
  | OAddPol nfp cur => add_pol nt np nfp cur w | OSetPol nfp cur => set_pol nt np nfp cur w | OAddTor cur => add_tor nt cur w | OSetTor cur => set_tor nt cur w
  | OAddSeg imp l => add_seg nt np imp l w | ORemoveSeg imp l => remove_seg nt np imp l w | OSetCon imp l => set_constrained nt np imp l w
  | OSetFree l => set_free nt np l w | OFreeAll => free_all w | OBreaks n width allow => set_breaks nt np n width allow w
  | OUpdate => match refreshed nt np (S (S (nseg nt np))) w with Some o => o | None => (w, Some RuntimeError) end end.
(** any sequence of calls after construction; errors are caught by the caller and leave the state as it is then *)
Fixpoint run (l : list op) (w : wst) : wst := match l with [] => w | o :: l => run l (fst (exec o w)) end.
(** the least set of segments that contains those constrained by the user and, with three of the four segments meeting at a node, the fourth *)
Inductive forced (ex : list nat) : nat -> Prop :=
| f_user s : In s ex -> forced ex s
| f_node k l1 a l2 : (k < nnodes nt np)%nat -> connected_at nt np k = l1 ++ a :: l2 -> (forall t, In t (l1 ++ l2) -> forced ex t) -> forced ex a.
Definition no_cont_removed (o : op) : Prop := match o with ORemove (CCont _) => False | _ => True end.
End Spec.

Lemma each_app {A} (f : A -> wst -> out) l1 l2 w : each f (l1 ++ l2) w = bind (each f l1 w) (each f l2).
Proof. revert w. induction l1 as [|a l IH]; intros w; [unfold bind; cbn; reflexivity|]. cbn [app each]. unfold bind at 1 3. destruct (f a w) as (w', [e|]); cbn [snd fst]; [reflexivity|apply IH]. Qed.
(** an invariant of every call is an invariant of a loop of calls *)
Lemma each_inv {A} (I : wst -> Prop) (f : A -> wst -> out) l : (forall a w, In a l -> I w -> I (fst (f a w))) -> forall w, I w -> I (fst (each f l w)).
Proof.
  induction l as [|a l IH]; intros H w Hw; [exact Hw|]. cbn [each]. unfold bind. destruct (snd (f a w)) eqn:E; [apply H; [left; auto|exact Hw]|]. apply IH; [intros b w' Hb; apply H; now right|]. apply H; [left; auto|exact Hw].
Qed.
Lemma bind_inv (I : wst -> Prop) o f : I (fst o) -> (forall w, I w -> I (fst (f w))) -> I (fst (bind o f)).
Proof. intros H1 H2. unfold bind. destruct (snd o); auto. Qed.

Section Constr.
Variables (nt np : nat).
Hypothesis Hnt : (2 * half nt = nt /\ 1 <= half nt)%nat.
Hypothesis Hnp : (2 <= np)%nat.
Notation half := (half nt). Notation nseg := (nseg nt np). Notation nnodes := (nnodes nt np). Notation node := (node nt).
Notation T := (T nt). Notation P := (P nt np). Notation neg := (neg nt).
Notation connected_at := (connected_at nt np). Notation forced := (forced nt np).
Notation unconstrained := (unconstrained nt np). Notation node_sum := (node_sum nt np).

(** ** Names are unique and every entry is what its name says *)
Definition good (w : wst) : Prop := NoDup (map cn (cons w)) /\ forall c, In c (cons w) -> wellformed nt np c.
Lemma good_add n r c w : wellformed nt np (C n r c) -> good w -> good (fst (add n r c w)).
Proof.
  intros Hc (N & F). unfold add. destruct (has w n) eqn:H; [now split|]. apply has_not in H. cbn [fst]. split; cbn [cons].
  - rewrite map_app. apply NoDup_app2; [exact N|constructor; [intros []|constructor]|]. intros m I1 [<-|[]]. contradiction.
  - intros d I. apply in_app_iff in I. destruct I as [I|[<-|[]]]; auto.
Qed.
Lemma good_filter f b w : good w -> good (W (filter f (cons w)) b).
Proof.
  intros (N & F). split; cbn [cons]; [|intros c I; apply filter_In in I; now apply F]. clear F. induction (cons w) as [|c l IH]; [constructor|]. cbn [filter map] in *. inversion N as [|? ? N1 N2]; subst. destruct (f c); [|auto]. cbn [map]. constructor; [|auto]. intros I. apply N1. apply in_map_iff in I. destruct I as (d & <- & I). apply in_map. now apply filter_In in I.
Qed.
Lemma good_remove n w : good w -> good (fst (remove n w)).
Proof. intros G. unfold remove. destruct (has w n); [now apply good_filter|exact G]. Qed.
Lemma good_add_seg imp l w : good w -> good (fst (add_seg nt np imp l w)).
Proof.
  intros G. unfold add_seg. destruct (existsb _ l) eqn:E; [exact G|]. destruct (_ && _); [exact G|]. apply each_inv; [|exact G]. intros s w' I G'. assert (L : (s < nseg)%nat) by (apply Nat.nle_gt; intros C0; apply not_true_iff_false in E; apply E, existsb_exists; exists s; split; [exact I|now apply Nat.leb_le]). destruct imp; apply good_add; auto; unfold wellformed; cbn; auto.
Qed.
Lemma good_set_free l w : good w -> good (fst (set_free nt np l w)).
Proof. intros G. unfold set_free. destruct (existsb _ l); [exact G|]. apply each_inv; [|exact G]. intros s w' _ G'. destruct (has w' (CSeg s)); [now apply good_remove|]. destruct (has w' (CImp s)); [now apply good_remove|exact G']. Qed.
Lemma good_set_con imp l w : good w -> good (fst (set_constrained nt np imp l w)).
Proof. intros G. unfold set_constrained. apply bind_inv; [now apply good_set_free|]. intros. now apply good_add_seg. Qed.
Lemma good_each_remove l w : good w -> good (fst (each remove l w)).
Proof. intros G. apply each_inv; [|exact G]. intros. now apply good_remove. Qed.
Lemma good_round w : good w -> good (fst (round nt np w)).
Proof.
  intros G. unfold round. apply each_inv; [|exact G]. intros k w1 _ G1. apply each_inv; [|exact G1]. intros s w2 _ G2. unfold add_implied. destruct (_ && _); [now apply good_add_seg|exact G2].
Qed.
Lemma good_rounds fuel : forall w o, good w -> rounds nt np fuel w = Some o -> good (fst o).
Proof.
  induction fuel as [|f IH]; intros w o G H; [discriminate|]. cbn [rounds] in H. destruct (filter _ _); [injection H as <-; exact G|]. assert (G1 := good_round w G). destruct (round nt np w) as (w', [e|]); [injection H as <-; exact G1|]. now apply (IH w').
Qed.
Lemma good_update fuel w o : good w -> update_implicit nt np fuel w = Some o -> good (fst o).
Proof.
  intros G H. unfold update_implicit in H. set (l := filter _ _) in H. assert (G1 := good_each_remove l w G). destruct (each remove l w) as (w0, [e|]); [injection H as <-; exact G1|]. cbn [fst] in G1. destruct (rounds nt np fuel w0) as [(w', [e|])|] eqn:E; [injection H as <-; apply (good_rounds fuel w0 _ G1 E)| |discriminate]. injection H as <-. assert (G2 := good_rounds fuel w0 _ G1 E). exact G2.
Qed.
Lemma good_exec o w : good w -> good (fst (exec nt np o w)).
Proof.
  intros G. destruct o; cbn [exec].
  - apply good_add; [exact I|exact G].
  - now apply good_remove.
  - apply good_add; [reflexivity|exact G].
  - unfold set_pol. apply bind_inv; [destruct (has w CPolC); [now apply good_remove|exact G]|]. intros. apply good_add; [reflexivity|assumption].
  - apply good_add; [reflexivity|exact G].
  - unfold set_tor. apply bind_inv; [destruct (has w CTorC); [now apply good_remove|exact G]|]. intros. apply good_add; [reflexivity|assumption].
  - now apply good_add_seg.
  - unfold remove_seg. destruct (existsb _ l); [exact G|]. apply each_inv; [|exact G]. intros. now apply good_remove.
  - now apply good_set_con.
  - now apply good_set_free.
  - now apply good_each_remove.
  - unfold set_breaks. destruct (_ || _); [exact G|]. assert (GO : forall w', good w' -> good (fst (if (n =? 0)%nat then (w', Some ZeroDivisionError) else if breaks_ok nt np n width allow then set_constrained nt np false (break_segs nt np n width allow) w' else (w', Some AssertionError)))).
    { intros w' G'. destruct (n =? 0)%nat; [exact G'|]. destruct (breaks_ok _ _ _ _ _); [now apply good_set_con|exact G']. }
    destruct (find _ _) as [c|]; [|now apply GO]. destruct (Req_EM_T (cst c) 0); [|exact G]. apply bind_inv; [now apply good_remove|auto].
  - unfold refreshed. destruct (fresh w); [exact G|]. destruct (update_implicit _ _ _ _) as [o|] eqn:E; [now apply (good_update _ _ _ G E)|exact G].
Qed.
Lemma good_initial : good (fst (initial nt np)).
Proof.
  unfold initial. apply each_inv; [|split; [constructor|intros c []]]. intros (i, j) w I G. apply filter_In in I. destruct I as (I & Hc). apply in_grid in I. apply good_add; [|exact G]. unfold wellformed. cbn [cn crow cst fst snd]. split; [|reflexivity]. exists i, j. cbn [fst snd] in Hc. repeat split; auto; lia.
Qed.
Theorem C92_wellformed l : good (run nt np l (fst (initial nt np))).
Proof.
  assert (H : forall w, good w -> good (run nt np l w)). { induction l as [|o l IH]; intros w G; [exact G|]. cbn [run]. apply IH. now apply good_exec. } apply H, good_initial.
Qed.

(** ** Explicit and implicit lists *)
Lemma in_explicit w s : In s (explicit w) <-> has w (CSeg s) = true.
Proof.
  rewrite has_in. unfold explicit. rewrite in_flat_map, in_map_iff. split.
  - intros (c & I & H). destruct (cn c) eqn:E; cbn in H; try contradiction. destruct H as [->|[]]. now exists c.
  - intros (c & E & I). exists c. split; [exact I|]. rewrite E. left. reflexivity.
Qed.
Lemma in_implicit w s : In s (implicit w) <-> has w (CImp s) = true.
Proof.
  rewrite has_in. unfold implicit. rewrite in_flat_map, in_map_iff. split.
  - intros (c & I & H). destruct (cn c) eqn:E; cbn in H; try contradiction. destruct H as [->|[]]. now exists c.
  - intros (c & E & I). exists c. split; [exact I|]. rewrite E. left. reflexivity.
Qed.
Definition con (w : wst) (s : nat) : bool := has w (CSeg s) || has w (CImp s).
Lemma in_con w s : In s (explicit w ++ implicit w) <-> con w s = true.
Proof. rewrite in_app_iff, in_explicit, in_implicit. unfold con. now rewrite orb_true_iff. Qed.
Lemma memb_in s l : memb s l = true <-> In s l.
Proof. unfold memb. destruct (in_dec Nat.eq_dec s l); split; auto; discriminate. Qed.
Lemma in_unconstrained w s : In s (unconstrained w) <-> (s < nseg)%nat /\ con w s = false.
Proof.
  unfold WFModel.unconstrained. rewrite filter_In, in_seq. rewrite negb_true_iff. rewrite <- not_true_iff_false, memb_in, in_con, not_true_iff_false. split; intros (A & B); split; auto; lia.
Qed.
Lemma NoDup_unconstrained w : NoDup (unconstrained w).
Proof. apply NoDup_filter, seq_NoDup. Qed.
Lemma count_filter (l U : list nat) : NoDup U -> list_sum (map (fun s => count_occ Nat.eq_dec l s) U) = length (filter (fun s => memb s U) l).
Proof.
  intros ND. induction l as [|a l IH]; [cbn [count_occ filter length]; clear; induction U; cbn; auto|]. cbn [filter].
  assert (S1 : forall V, NoDup V -> list_sum (map (fun s => count_occ Nat.eq_dec (a :: l) s) V) = (list_sum (map (fun s => count_occ Nat.eq_dec l s) V) + if memb a V then 1 else 0)%nat).
  { induction V as [|v V IHV]; intros NV; [reflexivity|]. inversion NV as [|? ? N1 N2]; subst. cbn [map list_sum fold_right]. change (fold_right Nat.add 0 (map (fun s => count_occ Nat.eq_dec (a :: l) s) V))%nat with (list_sum (map (fun s => count_occ Nat.eq_dec (a :: l) s) V)). rewrite IHV by exact N2. change (fold_right Nat.add 0 (map (fun s => count_occ Nat.eq_dec l s) V))%nat with (list_sum (map (fun s => count_occ Nat.eq_dec l s) V)). cbn [count_occ].
    unfold memb. destruct (Nat.eq_dec a v) as [->|NE]; destruct (in_dec Nat.eq_dec v V) as [I1|I1]; destruct (in_dec Nat.eq_dec _ (v :: V)) as [I2|I2]; try (destruct (in_dec Nat.eq_dec a V)); cbn [In] in *; try lia; exfalso; intuition congruence. }
  rewrite S1 by exact ND. rewrite IH. destruct (memb a U); cbn [length]; lia.
Qed.
Definition free_at (w : wst) (k : nat) : list nat := filter (fun s => negb (con w s)) (connected_at k).
Lemma connected_range k s : (k < nnodes)%nat -> In s (connected_at k) -> (s < nseg)%nat.
Proof.
  intros Hk I. unfold WFModel.connected_at, WFModel.nnodes in *. set (i := (k / nt)%nat) in *. set (j := (k mod nt)%nat) in *. assert (Hj : (j < nt)%nat) by (apply Nat.mod_upper_bound; lia). assert (Hi : (i <= np)%nat) by (apply Nat.lt_succ_r; apply Nat.div_lt_upper_bound; [lia|]; rewrite Nat.mul_comm; replace (S np) with (np + 1)%nat by lia; exact Hk). clearbody i j. assert (Hp := pm_lt nt np Hnt Hnp j Hj). assert (HL := half_lt nt Hnt). assert (Hneg := neg_lt nt Hnt j).
  destruct (Nat.eq_dec i 0) as [->|]; [|destruct (Nat.eq_dec i np) as [->|]].
  - rewrite connected_0 in I by auto. rewrite plane_pol_eq in I by auto. assert (G : (fst (if (j =? 0)%nat then (P 0 0, P 0 0) else if (j <? half)%nat then (P 0 (j - 1), P 0 j) else if (j =? half)%nat then (P 0 (j - 1), P 0 (j - 1)) else (P 0 (nt - j), P 0 (nt - j - 1))) < nseg /\ snd (if (j =? 0)%nat then (P 0 0, P 0 0) else if (j <? half)%nat then (P 0 (j - 1), P 0 j) else if (j =? half)%nat then (P 0 (j - 1), P 0 (j - 1)) else (P 0 (nt - j), P 0 (nt - j - 1))) < nseg)%nat).
    { destruct (Nat.eqb_spec j 0); [split; apply P_lt; auto; left; lia|]. destruct (Nat.ltb_spec j half); [split; apply P_lt; auto; left; lia|]. destruct (Nat.eqb_spec j half); split; apply P_lt; auto; left; lia. }
    destruct G as (G1 & G2). cbn [In] in I. destruct I as [<-|[<-|[<-|[<-|[]]]]]; auto; apply T_lt_seg; auto; lia.
  - rewrite connected_N in I by auto. rewrite plane_pol_eq in I by auto. assert (G : (fst (if (j =? 0)%nat then (P np 0, P np 0) else if (j <? half)%nat then (P np (j - 1), P np j) else if (j =? half)%nat then (P np (j - 1), P np (j - 1)) else (P np (nt - j), P np (nt - j - 1))) < nseg /\ snd (if (j =? 0)%nat then (P np 0, P np 0) else if (j <? half)%nat then (P np (j - 1), P np j) else if (j =? half)%nat then (P np (j - 1), P np (j - 1)) else (P np (nt - j), P np (nt - j - 1))) < nseg)%nat).
    { destruct (Nat.eqb_spec j 0); [split; apply P_lt; auto; left; lia|]. destruct (Nat.ltb_spec j half); [split; apply P_lt; auto; left; lia|]. destruct (Nat.eqb_spec j half); split; apply P_lt; auto; left; lia. }
    destruct G as (G1 & G2). cbn [In] in I. destruct I as [<-|[<-|[<-|[<-|[]]]]]; auto; apply T_lt_seg; auto; lia.
  - rewrite connected_int in I by (auto; lia). cbn [In] in I. destruct I as [<-|[<-|[<-|[<-|[]]]]]; try (apply T_lt_seg; auto; lia); apply P_lt; auto; right; lia.
Qed.
Lemma node_sum_free w k : (k < nnodes)%nat -> node_sum w k = length (free_at w k).
Proof.
  intros Hk. unfold WFModel.node_sum. rewrite count_filter by apply NoDup_unconstrained. f_equal. unfold free_at. apply filter_ext_in. intros s I. apply connected_range in I; [|exact Hk]. destruct (memb s (unconstrained w)) eqn:M.
  - apply memb_in, in_unconstrained in M. destruct M as (_ & ->). reflexivity.
  - symmetry. apply negb_false_iff. apply not_false_is_true. intros C0. apply not_true_iff_false in M. apply M, memb_in, in_unconstrained. auto.
Qed.
(** ** One pass *)
Lemma has_add n r c w m : has w n = false -> has (fst (add n r c w)) m = (if cname_eq_dec m n then true else has w m).
Proof.
  intros H. rewrite add_ok by exact H. cbn [fst]. apply eq_true_iff_eq. rewrite has_in. cbn [cons]. rewrite map_app, in_app_iff. cbn [map In cn]. destruct (cname_eq_dec m n) as [->|N]; [intuition|]. rewrite has_in. intuition congruence.
Qed.
Lemma add_implied_spec s w : (s < nseg)%nat -> let o := add_implied nt np s w in
  snd o = None /\ (forall t, has (fst o) (CSeg t) = has w (CSeg t)) /\ (forall t, con (fst o) t = con w t || (t =? s)%nat) /\ (forall c, is_segment (cn c) = false -> In c (cons (fst o)) <-> In c (cons w)) /\ (explicit (fst o) = explicit w).
Proof.
  intros L. cbv zeta. unfold add_implied. fold (con w s). rewrite <- negb_orb. fold (con w s). destruct (con w s) eqn:H; cbn [negb].
  - cbn [fst snd]. repeat split; auto. intros t. destruct (Nat.eqb_spec t s) as [->|]; [now rewrite H|now rewrite orb_false_r].
  - apply orb_false_iff in H. destruct H as (H1 & H2). unfold add_seg. cbn [existsb negb andb]. destruct (Nat.leb_spec nseg s); [lia|]. cbn [orb each]. unfold bind. rewrite add_ok by exact H2. cbn [snd fst each]. split; [reflexivity|].
    assert (HA : forall m, has (W (cons w ++ [C (CImp s) (seg_row s) 0]) (fresh w && negb (is_segment (CImp s)))) m = if cname_eq_dec m (CImp s) then true else has w m) by (intros m; assert (K := has_add (CImp s) (seg_row s) 0 w m H2); rewrite add_ok in K by exact H2; exact K).
    split; [intros t; rewrite HA; destruct (cname_eq_dec (CSeg t) (CImp s)); [discriminate|reflexivity]|]. split.
    + intros t. unfold con. rewrite !HA. destruct (cname_eq_dec (CSeg t) (CImp s)); [discriminate|]. destruct (cname_eq_dec (CImp t) (CImp s)) as [E|N]; [injection E as ->; now rewrite Nat.eqb_refl, !orb_true_r|]. destruct (Nat.eqb_spec t s); [congruence|]. now rewrite orb_false_r.
    + split; [intros c Hc; cbn [cons]; rewrite in_app_iff; cbn [In]; split; [intros [I|[<-|[]]]; [exact I|discriminate]|auto]|]. unfold explicit. cbn [cons]. rewrite flat_map_app. cbn. now rewrite app_nil_r.
Qed.
Lemma each_implied l : (forall s, In s l -> (s < nseg)%nat) -> forall w, let o := each (add_implied nt np) l w in
  snd o = None /\ (forall t, con (fst o) t = con w t || memb t l) /\ (forall c, is_segment (cn c) = false -> In c (cons (fst o)) <-> In c (cons w)) /\ explicit (fst o) = explicit w.
Proof.
  induction l as [|s l IH]; intros B w; cbv zeta; [cbn [each fst snd]; repeat split; auto; intros; now rewrite orb_false_r|]. cbn [each]. unfold bind. destruct (add_implied_spec s w (B s (or_introl eq_refl))) as (A1 & _ & A3 & A4 & A5). rewrite A1. destruct (IH (fun t Ht => B t (or_intror Ht)) (fst (add_implied nt np s w))) as (B1 & B2 & B3 & B4). split; [exact B1|]. split; [|split; [intros c Hc; rewrite B3, A4 by exact Hc; reflexivity|now rewrite B4]].
  intros t. rewrite B2, A3. unfold memb. destruct (in_dec Nat.eq_dec t l), (in_dec Nat.eq_dec t (s :: l)), (Nat.eqb_spec t s); cbn [In] in *; rewrite ?orb_true_r, ?orb_false_r; auto; exfalso; intuition.
Qed.
Lemma round_spec w : let o := round nt np w in
  snd o = None /\ (forall t, con (fst o) t = true <-> con w t = true \/ exists k, (k < nnodes)%nat /\ node_sum w k = 1%nat /\ In t (connected_at k)) /\ (forall c, is_segment (cn c) = false -> In c (cons (fst o)) <-> In c (cons w)) /\ explicit (fst o) = explicit w.
Proof.
  cbv zeta. unfold round. set (ks := filter _ _). assert (K : forall k, In k ks <-> (k < nnodes)%nat /\ node_sum w k = 1%nat). { intros k. unfold ks. rewrite filter_In, in_seq. unfold implied_node. rewrite Nat.eqb_eq. split; intros (A & B); split; auto; lia. }
  assert (G : forall l w0, (forall k, In k l -> (k < nnodes)%nat) -> let o := each (fun k => each (add_implied nt np) (connected_at k)) l w0 in snd o = None /\ (forall t, con (fst o) t = true <-> con w0 t = true \/ exists k, In k l /\ In t (connected_at k)) /\ (forall c, is_segment (cn c) = false -> In c (cons (fst o)) <-> In c (cons w0)) /\ explicit (fst o) = explicit w0).
  { induction l as [|k l IH]; intros w0 B; cbv zeta; [cbn [each fst snd]; split; [reflexivity|]; split; [|split; auto; intros; reflexivity]; intros t; split; [auto|]; intros [A|(k & [] & _)]; auto|]. cbn [each]. unfold bind. destruct (each_implied (connected_at k) (fun s => connected_range k s (B k (or_introl eq_refl))) w0) as (A1 & A2 & A3 & A4). rewrite A1. destruct (IH (fst (each (add_implied nt np) (connected_at k) w0)) (fun k' Hk' => B k' (or_intror Hk'))) as (B1 & B2 & B3 & B4). split; [exact B1|]. split; [|split; [intros c Hc; now rewrite B3, A3|now rewrite B4]].
    intros t. rewrite B2, A2, orb_true_iff, memb_in. split; [intros [[A|A]|(k' & A & A')]; eauto; right; [exists k|exists k']; split; auto; [now left|now right]|]. intros [A|(k' & [<-|A] & A')]; auto. right. now exists k'. }
  destruct (G ks w (fun k Hk => proj1 (proj1 (K k) Hk))) as (G1 & G2 & G3 & G4). split; [exact G1|]. split; [|split; [exact G3|exact G4]]. intros t. rewrite G2. split; (intros [A|(k & A & A')]; [now left|right]).
  - exists k. apply K in A. destruct A. auto.
  - exists k. destruct A' as (A1 & A2). split; [apply K; auto|exact A2].
Qed.

(** ** All passes *)
Definition sound (w : wst) : Prop := forall s, con w s = true -> forced (explicit w) s.
Definition closed (w : wst) : Prop := forall k, (k < nnodes)%nat -> node_sum w k <> 1%nat.
Lemma split_free w k : length (free_at w k) = 1%nat -> exists l1 a l2, connected_at k = l1 ++ a :: l2 /\ con w a = false /\ forall t, In t (l1 ++ l2) -> con w t = true.
Proof.
  unfold free_at. generalize (connected_at k). induction l as [|s l IH]; [discriminate|]. cbn [filter]. destruct (con w s) eqn:H; cbn [negb].
  - intros L. destruct (IH L) as (l1 & a & l2 & -> & A & B). exists (s :: l1), a, l2. split; [reflexivity|]. split; [exact A|]. intros t [<-|I]; auto.
  - intros L. cbn [length] in L. exists [], s, l. split; [reflexivity|]. split; [exact H|]. cbn [app]. intros t I. apply not_false_is_true. intros C0. assert (F : In t (filter (fun s => negb (con w s)) l)) by (apply filter_In; split; [exact I|now rewrite C0]). destruct (filter (fun s => negb (con w s)) l); [contradiction|discriminate].
Qed.
Lemma sound_round w : sound w -> sound (fst (round nt np w)).
Proof.
  intros S0 s Hs. destruct (round_spec w) as (_ & R2 & _ & R4). rewrite R4. apply R2 in Hs. destruct Hs as [Hs|(k & Hk & H1 & I)]; [now apply S0|]. rewrite node_sum_free in H1 by exact Hk. destruct (split_free w k H1) as (l1 & a & l2 & E & A & B). destruct (con w s) eqn:C0; [now apply S0|]. assert (s = a). { rewrite E in I. apply in_app_iff in I. destruct I as [I|[I|I]]; auto; rewrite B in C0 by (apply in_app_iff; auto); discriminate. }
  subst s. apply (f_node nt np _ k l1 a l2 Hk E). intros t It. apply S0. now apply B.
Qed.
Definition nfree (w : wst) : nat := length (unconstrained w).
Lemma filter_length_le {A} (f g : A -> bool) l : (forall a, In a l -> f a = true -> g a = true) -> (length (filter f l) <= length (filter g l))%nat.
Proof. induction l as [|a l IH]; intros H; [cbn; lia|]. cbn [filter]. assert (K := IH (fun b Hb => H b (or_intror Hb))). assert (H0 := H a (or_introl eq_refl)). destruct (f a), (g a); cbn [length]; try lia. Qed.
Lemma filter_length_lt {A} (f g : A -> bool) l a : (forall a, In a l -> f a = true -> g a = true) -> In a l -> f a = false -> g a = true -> (length (filter f l) < length (filter g l))%nat.
Proof.
  induction l as [|b l IH]; intros H I Fa Ga; [contradiction|]. cbn [filter]. assert (K := filter_length_le f g l (fun c Hc => H c (or_intror Hc))). destruct I as [->|I]; [rewrite Fa, Ga; cbn [length]; lia|]. assert (K2 := IH (fun c Hc => H c (or_intror Hc)) I Fa Ga). assert (H0 := H b (or_introl eq_refl)). destruct (f b), (g b); cbn [length]; try lia.
Qed.
Lemma round_decreases w k : (k < nnodes)%nat -> node_sum w k = 1%nat -> (nfree (fst (round nt np w)) < nfree w)%nat.
Proof.
  intros Hk H1. destruct (round_spec w) as (_ & R2 & _ & _). assert (H1' := H1). rewrite node_sum_free in H1' by exact Hk. destruct (split_free w k H1') as (l1 & a & l2 & E & A & B). assert (Ia : In a (connected_at k)) by (rewrite E; apply in_app_iff; right; now left). assert (La := connected_range k a Hk Ia).
  assert (M : forall w' s, memb s (explicit w' ++ implicit w') = con w' s) by (intros w' s; apply eq_true_iff_eq; now rewrite memb_in, in_con). unfold nfree, WFModel.unconstrained. apply (filter_length_lt _ _ _ a).
  - intros s _. rewrite !M, !negb_true_iff. intros F. apply not_true_iff_false. intros C0. apply not_true_iff_false in F. apply F, R2. now left.
  - apply in_seq. lia.
  - rewrite M, negb_false_iff. apply R2. right. exists k. auto.
  - now rewrite M, A.
Qed.
Lemma rounds_spec fuel : forall w, (nfree w < fuel)%nat -> sound w -> exists w', rounds nt np fuel w = Some (w', None) /\ sound w' /\ closed w' /\ explicit w' = explicit w /\ (forall c, is_segment (cn c) = false -> In c (cons w') <-> In c (cons w)).
Proof.
  induction fuel as [|f IH]; intros w L S0; [lia|]. cbn [rounds]. destruct (filter (implied_node nt np w) (seq 0 nnodes)) as [|k l] eqn:E.
  - exists w. split; [reflexivity|]. split; [exact S0|]. split; [|split; [reflexivity|intros; reflexivity]]. intros k Hk H1. assert (I : In k []) by (rewrite <- E; apply filter_In; split; [apply in_seq; lia|]; unfold implied_node; now rewrite H1). exact I.
  - assert (I : In k (filter (implied_node nt np w) (seq 0 nnodes))) by (rewrite E; now left). apply filter_In in I. destruct I as (I & H1). apply in_seq in I. apply Nat.eqb_eq in H1. assert (D := round_decreases w k ltac:(lia) H1). destruct (round_spec w) as (R1 & R2 & R3 & R4). assert (S1 := sound_round w S0). destruct (round nt np w) as (w1, e). cbn [snd fst] in *. subst e. destruct (IH w1 ltac:(lia) S1) as (w' & A1 & A2 & A3 & A4 & A5). exists w'. split; [exact A1|]. split; [exact A2|]. split; [exact A3|]. split; [now rewrite A4|]. intros c Hc. now rewrite A5, R3.
Qed.
Lemma each_remove ns : forall w, NoDup ns -> (forall n, In n ns -> has w n = true) -> let o := each remove ns w in snd o = None /\ cons (fst o) = filter (fun c => if in_dec cname_eq_dec (cn c) ns then false else true) (cons w) /\ (fresh (fst o) = true -> fresh w = true).
Proof.
  induction ns as [|n ns IH]; intros w ND H; cbv zeta.
  - cbn [each fst snd]. split; [reflexivity|]. split; [|auto]. induction (cons w) as [|c l IHl]; [reflexivity|]. cbn [filter]. destruct (in_dec cname_eq_dec (cn c) []) as [[]|_]. now rewrite <- IHl.
  - inversion ND as [|? ? N1 N2]; subst. cbn [each]. unfold bind. assert (Hn := H n (or_introl eq_refl)). assert (ER : remove n w = (W (filter (fun c => if cname_eq_dec (cn c) n then false else true) (cons w)) (fresh w && negb (is_segment n)), None)) by (unfold remove; now rewrite Hn). rewrite ER. cbn [snd fst].
    match goal with |- context [each remove ns ?w1] => destruct (IH w1 N2) as (B1 & B2 & B3) end.
    + intros m Hm. apply has_in. cbn [cons]. assert (Hm' := H m (or_intror Hm)). apply has_in in Hm'. apply in_map_iff in Hm'. destruct Hm' as (c & E & I). apply in_map_iff. exists c. split; [exact E|]. apply filter_In. split; [exact I|]. destruct (cname_eq_dec (cn c) n) as [E'|]; [|reflexivity]. exfalso. apply N1. congruence.
    + split; [exact B1|]. split; [|intros F; apply B3 in F; cbn [fresh] in F; now apply andb_true_iff in F]. rewrite B2. cbn [cons]. clear. induction (cons w) as [|c l IHl]; [reflexivity|]. cbn [filter]. destruct (cname_eq_dec (cn c) n) as [E|N]; cbn [filter]; destruct (in_dec cname_eq_dec (cn c) (n :: ns)) as [I|I]; destruct (in_dec cname_eq_dec (cn c) ns) as [I'|I']; cbn [In] in *; try (exfalso; intuition congruence); rewrite ?IHl; reflexivity.
Qed.
(** the update ends, leaves the user's constraints alone, and computes the least set *)
Theorem C92_update w : good w -> exists w', update_implicit nt np (S (S nseg)) w = Some (w', None) /\ fresh w' = true /\ explicit w' = explicit w /\
  (forall s, In s (explicit w' ++ implicit w') <-> forced (explicit w) s) /\ (forall c, is_segment (cn c) = false -> In c (cons w') <-> In c (cons w)).
Proof.
  intros G. destruct G as (ND & F). unfold update_implicit. set (isimp := fun n => match n with CImp _ => true | _ => false end). destruct (each_remove (filter isimp (map cn (cons w))) w) as (E1 & E2 & _).
  { now apply NoDup_filter. } { intros n I. apply filter_In in I. now apply has_in. }
  change (fun n => match n with CImp _ => true | _ => false end) with isimp. destruct (each remove (filter isimp (map cn (cons w))) w) as (w0, e) eqn:EE. cbn [fst snd] in *. subst e.
  assert (EC : cons w0 = filter (fun c => negb (isimp (cn c))) (cons w)). { rewrite E2. apply filter_ext_in. intros c I. destruct (in_dec cname_eq_dec (cn c) (filter isimp (map cn (cons w)))) as [J|J]; [apply filter_In in J; destruct J as (_ & ->); reflexivity|]. symmetry. apply negb_true_iff. apply not_true_is_false. intros C0. apply J, filter_In. split; [now apply in_map|exact C0]. }
  assert (EX : explicit w0 = explicit w). { unfold explicit. rewrite EC. clear. induction (cons w) as [|c l IH]; [reflexivity|]. cbn [filter flat_map]. destruct (cn c) eqn:E; cbn [isimp negb flat_map]; rewrite ?E, ?IH; reflexivity. }
  assert (IM : implicit w0 = []). { unfold implicit. rewrite EC. clear. induction (cons w) as [|c l IH]; [reflexivity|]. cbn [filter flat_map]. destruct (cn c) eqn:E; cbn [isimp negb flat_map]; rewrite ?E, ?IH; reflexivity. }
  assert (S0 : sound w0). { intros s Hs. apply in_con in Hs. rewrite IM, app_nil_r in Hs. now apply f_user. }
  destruct (rounds_spec (S (S nseg)) w0) as (w' & A1 & A2 & A3 & A4 & A5).
  { unfold nfree, WFModel.unconstrained. assert (K : forall f l, (length (@filter nat f l) <= length l)%nat) by (intros f; induction l as [|a l IHl]; cbn; [lia|]; destruct (f a); cbn; lia). specialize (K (fun s => negb (memb s (explicit w0 ++ implicit w0))) (seq 0 nseg)). rewrite seq_length in K. lia. }
  { exact S0. }
  rewrite A1. exists (W (cons w') true). split; [reflexivity|]. split; [reflexivity|]. assert (CW : forall s, In s (explicit (W (cons w') true) ++ implicit (W (cons w') true)) <-> con w' s = true) by (intros s; rewrite in_con; reflexivity). split; [change (explicit (W (cons w') true)) with (explicit w'); now rewrite A4|]. split.
  - intros s. rewrite CW. split; [intros H; rewrite <- EX, <- A4; now apply A2|]. intros H. induction H as [s I|k l1 a l2 Hk E _ IH].
    + apply in_con, in_app_iff. left. now rewrite A4, EX.
    + apply not_false_is_true. intros C0. apply (A3 k Hk). rewrite node_sum_free by exact Hk. unfold free_at. rewrite E, filter_app. cbn [filter]. rewrite C0. cbn [negb].
      assert (Z : forall l, (forall t, In t l -> con w' t = true) -> filter (fun s => negb (con w' s)) l = []) by (induction l as [|b l IHl]; intros Hl; [reflexivity|]; cbn [filter]; rewrite (Hl b (or_introl eq_refl)); cbn [negb]; apply IHl; intros; apply Hl; now right). rewrite !Z; [reflexivity| |]; intros t It; apply IH, in_app_iff; auto.
  - intros c Hc. cbn [cons]. rewrite A5 by exact Hc. rewrite EC, filter_In. split; [tauto|]. intros I. split; [exact I|]. destruct (cn c); cbn in *; auto; discriminate.
Qed.
(** ** The flag can be trusted *)
Definition trusted (w : wst) : Prop := fresh w = true -> forall s, In s (explicit w ++ implicit w) <-> forced (explicit w) s.
(** what a call may do that keeps a set flag: leave segment constraints alone *)
Definition keeps (w w' : wst) : Prop := fresh w' = true -> fresh w = true /\ forall n, is_segment n = true -> has w' n = has w n.
Lemma forced_ext ex ex' s : (forall t, In t ex <-> In t ex') -> forced ex s -> forced ex' s.
Proof. intros E H. induction H as [s I|k l1 a l2 Hk E' _ IH]; [apply f_user; now apply E|]. now apply (f_node nt np _ k l1 a l2). Qed.
Lemma keeps_trusted w w' : keeps w w' -> trusted w -> trusted w'.
Proof.
  intros K Tr F s. destruct (K F) as (F0 & S0). assert (EX : forall t, In t (explicit w') <-> In t (explicit w)) by (intros t; rewrite !in_explicit, S0; reflexivity). rewrite in_con. unfold con. rewrite !S0 by reflexivity. fold (con w s). rewrite <- in_con, (Tr F0 s). split; apply forced_ext; intros t; now rewrite EX.
Qed.
Lemma keeps_refl w : keeps w w. Proof. intros F. auto. Qed.
Lemma keeps_trans a b c : keeps a b -> keeps b c -> keeps a c.
Proof. intros H1 H2 F. destruct (H2 F) as (F2 & S2). destruct (H1 F2) as (F1 & S1). split; [exact F1|]. intros n Hn. now rewrite S2, S1. Qed.
Lemma keeps_add n r c w : keeps w (fst (add n r c w)).
Proof.
  unfold add. destruct (has w n) eqn:H; [apply keeps_refl|]. cbn [fst]. intros F. cbn [fresh] in F. apply andb_true_iff in F. destruct F as (F & N). apply negb_true_iff in N. split; [exact F|]. intros m Hm. assert (K := has_add n r c w m H). rewrite add_ok in K by exact H. cbn [fst] in K. rewrite K. destruct (cname_eq_dec m n) as [->|]; [congruence|reflexivity].
Qed.
Lemma keeps_remove n w : keeps w (fst (remove n w)).
Proof.
  unfold remove. destruct (has w n) eqn:H; [|apply keeps_refl]. cbn [fst]. intros F. cbn [fresh] in F. apply andb_true_iff in F. destruct F as (F & N). apply negb_true_iff in N. split; [exact F|]. intros m Hm. apply eq_true_iff_eq. rewrite !has_in. cbn [cons]. rewrite !in_map_iff. split.
  - intros (c & E & I). apply filter_In in I. exists c. tauto.
  - intros (c & E & I). exists c. split; [exact E|]. apply filter_In. split; [exact I|]. destruct (cname_eq_dec (cn c) n); [congruence|reflexivity].
Qed.
Lemma keeps_each {A} (f : A -> wst -> out) l : (forall a w, keeps w (fst (f a w))) -> forall w, keeps w (fst (each f l w)).
Proof.
  intros H. induction l as [|a l IH]; intros w; [apply keeps_refl|]. cbn [each]. unfold bind. destruct (snd (f a w)); [apply H|]. apply (keeps_trans _ (fst (f a w))); [apply H|apply IH].
Qed.
Lemma keeps_bind o f w : keeps w (fst o) -> (forall w', keeps w' (fst (f w'))) -> keeps w (fst (bind o f)).
Proof. intros H1 H2. unfold bind. destruct (snd o); [exact H1|]. apply (keeps_trans _ (fst o)); auto. Qed.
Lemma keeps_add_seg imp l w : keeps w (fst (add_seg nt np imp l w)).
Proof. unfold add_seg. destruct (existsb _ l); [apply keeps_refl|]. destruct (_ && _); [apply keeps_refl|]. apply keeps_each. intros. apply keeps_add. Qed.
Lemma keeps_set_free l w : keeps w (fst (set_free nt np l w)).
Proof. unfold set_free. destruct (existsb _ l); [apply keeps_refl|]. apply keeps_each. intros s w'. destruct (has w' (CSeg s)); [apply keeps_remove|]. destruct (has w' (CImp s)); [apply keeps_remove|apply keeps_refl]. Qed.
Lemma keeps_set_con imp l w : keeps w (fst (set_constrained nt np imp l w)).
Proof. unfold set_constrained. apply keeps_bind; [apply keeps_set_free|]. intros. apply keeps_add_seg. Qed.
Lemma trusted_exec o w : good w -> trusted w -> trusted (fst (exec nt np o w)).
Proof.
  intros G Tr. assert (KT : keeps w (fst (exec nt np o w)) -> trusted (fst (exec nt np o w))) by (intros K; now apply (keeps_trusted w)). destruct o; cbn [exec] in *.
  - apply KT, keeps_add. - apply KT, keeps_remove. - apply KT, keeps_add.
  - apply KT. unfold set_pol. apply keeps_bind; [destruct (has w CPolC); [apply keeps_remove|apply keeps_refl]|]. intros. apply keeps_add.
  - apply KT, keeps_add.
  - apply KT. unfold set_tor. apply keeps_bind; [destruct (has w CTorC); [apply keeps_remove|apply keeps_refl]|]. intros. apply keeps_add.
  - apply KT, keeps_add_seg.
  - apply KT. unfold remove_seg. destruct (existsb _ l); [apply keeps_refl|]. apply keeps_each. intros. apply keeps_remove.
  - apply KT, keeps_set_con. - apply KT, keeps_set_free.
  - apply KT. unfold free_all. apply keeps_each. intros. apply keeps_remove.
  - apply KT. unfold set_breaks. destruct (_ || _); [apply keeps_refl|]. assert (GO : forall w', keeps w' (fst (if (n =? 0)%nat then (w', Some ZeroDivisionError) else if breaks_ok nt np n width allow then set_constrained nt np false (break_segs nt np n width allow) w' else (w', Some AssertionError)))).
    { intros w'. destruct (n =? 0)%nat; [apply keeps_refl|]. destruct (breaks_ok _ _ _ _ _); [apply keeps_set_con|apply keeps_refl]. }
    destruct (find _ _) as [c|]; [|apply GO]. destruct (Req_EM_T (cst c) 0); [|apply keeps_refl]. apply keeps_bind; [apply keeps_remove|auto].
  - unfold refreshed. destruct (fresh w) eqn:F; [exact Tr|]. destruct (C92_update w G) as (w' & -> & A1 & A2 & A3 & _). cbn [fst]. intros _ s. rewrite A3, A2. reflexivity.
Qed.
Lemma forced_nil s : ~ forced [] s.
Proof.
  intros H. induction H as [s []|k l1 a l2 Hk E _ IH]. assert (L : length (connected_at k) = 4%nat) by (unfold WFModel.connected_at, connected; destruct (_ =? _)%nat; [|destruct (_ <? _)%nat]; reflexivity). rewrite E, app_length in L. cbn [length] in L. destruct l1 as [|b l1]; [destruct l2 as [|b l2]; [discriminate|]|]; apply (IH b); now left.
Qed.
Lemma trusted_initial : trusted (fst (initial nt np)).
Proof.
  assert (E : explicit (fst (initial nt np)) = [] /\ implicit (fst (initial nt np)) = []). { rewrite initial_eq by lia. cbn [fst]. unfold explicit, implicit. cbn [cons]. set (l := filter _ _). clearbody l. induction l as [|a l (IH1 & IH2)]; [auto|]. cbn [map flat_map cn]. auto. }
  destruct E as (E1 & E2). intros _ s. rewrite E1, E2. split; [intros []|]. intros H. now apply forced_nil in H.
Qed.
(** after any history, what the wireframe reports as constrained is the least set generated by the user's segment constraints *)
Theorem C92_constrained l : let w := run nt np l (fst (initial nt np)) in exists w' cs,
  constrained_segments nt np (S (S nseg)) w = Some ((w', None), cs) /\ explicit w' = explicit w /\ forall s, In s cs <-> forced (explicit w) s.
Proof.
  cbv zeta. assert (H : forall w, good w -> trusted w -> good (run nt np l w) /\ trusted (run nt np l w)). { induction l as [|o l IH]; intros w G Tr; [auto|]. cbn [run]. apply IH; [now apply good_exec|now apply trusted_exec]. }
  destruct (H _ good_initial trusted_initial) as (G & Tr). set (w := run nt np l (fst (initial nt np))) in *. clearbody w. unfold constrained_segments, refreshed. destruct (fresh w) eqn:F.
  - exists w, (explicit w ++ implicit w). split; [reflexivity|]. split; [reflexivity|]. now apply Tr.
  - destruct (C92_update w G) as (w' & -> & A1 & A2 & A3 & _). exists w', (explicit w' ++ implicit w'). split; [reflexivity|]. split; [exact A2|]. exact A3.
Qed.
(** ** The forced segments carry no current *)
Lemma node_balance x k l1 a l2 : continuous nt np x -> (k < nnodes)%nat -> connected_at k = l1 ++ a :: l2 -> (forall t, In t (l1 ++ l2) -> x t = 0) -> x a = 0.
Proof.
  intros Hx Hk E Z. unfold WFModel.connected_at, WFModel.nnodes in *. set (i := (k / nt)%nat) in *. set (j := (k mod nt)%nat) in *. assert (Hj : (j < nt)%nat) by (apply Nat.mod_upper_bound; lia). assert (Hi : (i <= np)%nat) by (apply Nat.lt_succ_r; apply Nat.div_lt_upper_bound; [lia|]; rewrite Nat.mul_comm; replace (S np) with (np + 1)%nat by lia; exact Hk). clearbody i j.
  assert (G : forall p q r s, x p + x q = x r + x s -> [p; q; r; s] = l1 ++ a :: l2 -> x a = 0).
  { intros p q r s B E'. destruct l1 as [|u1 [|u2 [|u3 [|u4 l1]]]]; cbn [app] in E'; injection E' as; subst; cbn [app] in Z.
    - assert (Z1 := Z q ltac:(now left)). assert (Z2 := Z r ltac:(right; now left)). assert (Z3 := Z s ltac:(right; right; now left)). lra.
    - assert (Z1 := Z u1 ltac:(now left)). assert (Z2 := Z r ltac:(right; now left)). assert (Z3 := Z s ltac:(right; right; now left)). lra.
    - assert (Z1 := Z u1 ltac:(now left)). assert (Z2 := Z u2 ltac:(right; now left)). assert (Z3 := Z s ltac:(right; right; now left)). lra.
    - assert (Z1 := Z u1 ltac:(now left)). assert (Z2 := Z u2 ltac:(right; now left)). assert (Z3 := Z u3 ltac:(right; right; now left)). lra.
    - destruct l1; discriminate. }
  destruct (Nat.eq_dec i 0) as [->|]; [|destruct (Nat.eq_dec i np) as [->|]].
  - rewrite connected_0 in E by auto. refine (G _ _ _ _ _ E). clear E Z G. rewrite plane_pol_eq by auto. destruct (Nat.eqb_spec j 0) as [->|]; [cbn [fst snd]; rewrite neg_0 by auto; ring|]. assert (K := cont_0 nt np Hnt Hnp x Hx j Hj). rewrite neg_pos in * by (auto; lia). unfold net0 in K. destruct (Nat.ltb_spec j half).
    + destruct (row_plane_vals nt np Hnt Hnp x 0 j) as (K1 & K2); [auto|lia|]. rewrite K1, K2 in K. cbn [fst snd]. lra.
    + destruct (Nat.eqb_spec j half) as [->|]; [cbn [fst snd]; replace (nt - half)%nat with half by lia; ring|]. destruct (row_plane_vals nt np Hnt Hnp x 0 (nt - j)) as (K1 & K2); [auto|lia|]. replace (nt - (nt - j))%nat with j in K2 by lia. rewrite K1, K2 in K. cbn [fst snd]. lra.
  - rewrite connected_N in E by auto. refine (G _ _ _ _ _ E). clear E Z G. rewrite plane_pol_eq by auto. destruct (Nat.eqb_spec j 0) as [->|]; [cbn [fst snd]; rewrite neg_0 by auto; ring|]. assert (K := cont_N nt np Hnt Hnp x Hx j Hj). rewrite neg_pos in * by (auto; lia). unfold netN in K. destruct (Nat.ltb_spec j half).
    + destruct (row_plane_vals nt np Hnt Hnp x np j) as (K1 & K2); [auto|lia|]. rewrite K1, K2 in K. cbn [fst snd]. lra.
    + destruct (Nat.eqb_spec j half) as [->|]; [cbn [fst snd]; replace (nt - half)%nat with half by lia; ring|]. destruct (row_plane_vals nt np Hnt Hnp x np (nt - j)) as (K1 & K2); [auto|lia|]. replace (nt - (nt - j))%nat with j in K2 by lia. rewrite K1, K2 in K. cbn [fst snd]. lra.
  - rewrite connected_int in E by (auto; lia). refine (G _ _ _ _ _ E). clear E Z G. assert (K := cont_int nt np Hnt Hnp x Hx i j ltac:(lia) Hj). unfold netI in K. lra.
Qed.
Theorem C92_sound ex x : sat nt np x (cons (fst (initial nt np))) -> (forall s, In s ex -> x s = 0) -> forall s, forced ex s -> x s = 0.
Proof.
  intros Hx Hz s H. apply sat_initial in Hx; auto. induction H as [s I|k l1 a l2 Hk E _ IH]; [auto|]. now apply (node_balance x k l1 a l2).
Qed.
End Constr.
