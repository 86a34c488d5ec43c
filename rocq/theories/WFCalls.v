(** C92, continued: what the calls that constrain and free segments do, and when they fail. *)
From Coq Require Import Reals Lra Lia List Bool Arith ZArith ZifyNat Psatz.
From Verif Require Import ListAux VecAux Vec3 SurfModel SurfProps SurfGeom SurfGeomProps CurveObjModel CurveObjProps GPMOModel GPMOProps WFModel WFGeom WFThms WFCells WFCurrents WFConstr.
Import ListNotations.
Open Scope R_scope.
Ltac Zify.zify_post_hook ::= idtac.

(** ** Specification *)
(** no segment carries both a constraint of the user's and an implied one *)
Definition disjoint (w : wst) : Prop := forall s, ~ (In (CSeg s) (map cn (cons w)) /\ In (CImp s) (map cn (cons w))).
(** the constraint named n is about one of the segments in l *)
Definition about (l : list nat) (n : cname) : bool := match n with CSeg s | CImp s => memb s l | _ => false end.
(** calls that leave implied constraints to the code *)
Definition leaves_implicit (o : op) : Prop := match o with OAddSeg true _ | OSetCon true _ => False | _ => True end.

Lemma filter_filter {A} (f g : A -> bool) l : filter f (filter g l) = filter (fun a => g a && f a) l.
Proof. induction l as [|a l IH]; [reflexivity|]. cbn [filter]. destruct (g a); cbn [filter andb]; [destruct (f a)|]; now rewrite IH. Qed.
Lemma filter_all {A} (f : A -> bool) l : (forall a, In a l -> f a = true) -> filter f l = l.
Proof. induction l as [|a l IH]; intros H; [reflexivity|]. cbn [filter]. rewrite (H a (or_introl eq_refl)). f_equal. apply IH. intros. apply H. now right. Qed.
Lemma NoDup_flat {A B} (f : A -> list B) l : NoDup l -> (forall a, In a l -> NoDup (f a)) -> (forall a b x, In a l -> In b l -> In x (f a) -> In x (f b) -> a = b) -> NoDup (flat_map f l).
Proof.
  induction l as [|a l IH]; intros ND H1 H2; [constructor|]. inversion ND as [|? ? N1 N2]; subst. cbn [flat_map]. apply NoDup_app2; [apply H1; now left|apply IH; auto; [intros; apply H1; now right|intros b c x Hb Hc; apply H2; now right]|].
  intros x I1 I2. apply in_flat_map in I2. destruct I2 as (b & Hb & I2). assert (a = b) by (apply (H2 a b x); auto; [now left|now right]). subst. contradiction.
Qed.
Lemma each_add_dup {A} (nm : A -> cname) (rw : A -> row) (k : A -> R) l : forall w, ~ (NoDup (map nm l) /\ forall a, In a l -> ~ In (nm a) (map cn (cons w))) -> snd (each (fun a => add (nm a) (rw a) (k a)) l w) = Some ValueError.
Proof.
  induction l as [|a l IH]; intros w H; [exfalso; apply H; split; [constructor|intros ? []]|]. cbn [each]. unfold bind. destruct (has w (nm a)) eqn:E; [unfold add; rewrite E; reflexivity|]. rewrite add_ok by exact E. cbn [fst snd]. apply IH. intros (H1 & H2). apply has_not in E. apply H. cbn [map cons] in *. split.
  - constructor; [|exact H1]. intros I. apply in_map_iff in I. destruct I as (b & E' & I). apply (H2 b I). rewrite E'. rewrite map_app, in_app_iff. right. now left.
  - intros b [<-|I]; [exact E|]. intros I'. apply (H2 b I). rewrite map_app, in_app_iff. now left.
Qed.

Section Calls.
Variables (nt np : nat).
Hypothesis Hnt : (2 * half nt = nt /\ 1 <= half nt)%nat.
Hypothesis Hnp : (2 <= np)%nat.
Notation half := (half nt). Notation nseg := (nseg nt np). Notation nnodes := (nnodes nt np).
Notation T := (T nt). Notation P := (P nt np).
Notation connected_at := (connected_at nt np). Notation forced := (forced nt np).

Lemma range_ok l : (forall s, In s l -> (s < nseg)%nat) -> existsb (fun s => nseg <=? s)%nat l = false.
Proof. intros H. apply not_true_iff_false. rewrite existsb_exists. intros (s & I & L). apply Nat.leb_le in L. apply H in I. lia. Qed.
Lemma disjoint_filter f b w : disjoint w -> disjoint (W (filter f (cons w)) b).
Proof. intros D s (A & B). apply (D s). cbn [cons] in *. apply in_map_iff in A, B. destruct A as (c & E1 & A). destruct B as (d & E2 & B). apply filter_In in A, B. split; apply in_map_iff; [exists c|exists d]; tauto. Qed.
Definition step_free (s : nat) (w : wst) : out := if has w (CSeg s) then remove (CSeg s) w else if has w (CImp s) then remove (CImp s) w else (w, None).
Lemma step_free_spec s w : disjoint w -> let w' := fst (step_free s w) in snd (step_free s w) = None /\ cons w' = filter (fun c => negb (about [s] (cn c))) (cons w) /\ disjoint w' /\ fresh w' = (fresh w && negb (existsb (fun c => about [s] (cn c)) (cons w))).
Proof.
  intros D. cbv zeta. assert (AB : forall n, about [s] n = true <-> n = CSeg s \/ n = CImp s). { intros n. unfold about, memb. destruct n; try (split; [discriminate|intros [C0|C0]; discriminate]); destruct (in_dec Nat.eq_dec _ [s]) as [[->|[]]|N]; split; auto; try discriminate; intros [C0|C0]; try discriminate; injection C0 as ->; exfalso; apply N; now left. }
  assert (EXT : forall n m, {n = CSeg s /\ m = CImp s} + {n = CImp s /\ m = CSeg s} -> ~ In m (map cn (cons w)) -> filter (fun c => if cname_eq_dec (cn c) n then false else true) (cons w) = filter (fun c => negb (about [s] (cn c))) (cons w)).
  { intros n m NM Hm. apply filter_ext_in. intros c I. destruct (about [s] (cn c)) eqn:E.
    - apply AB in E. cbn [negb]. destruct (cname_eq_dec (cn c) n) as [|N]; [reflexivity|]. exfalso. apply Hm, in_map_iff. exists c. split; [|exact I]. destruct NM as [(-> & ->)|(-> & ->)], E as [E|E]; congruence.
    - cbn [negb]. destruct (cname_eq_dec (cn c) n) as [E'|]; [|reflexivity]. exfalso. apply not_true_iff_false in E. apply E, AB. destruct NM as [(-> & _)|(-> & _)]; auto. }
  assert (EX : forall n, n = CSeg s \/ n = CImp s -> In n (map cn (cons w)) -> existsb (fun c => about [s] (cn c)) (cons w) = true). { intros n Hn I. apply in_map_iff in I. destruct I as (c & <- & I). apply existsb_exists. exists c. split; [exact I|]. now apply AB. }
  unfold step_free. destruct (has w (CSeg s)) eqn:H1; [|destruct (has w (CImp s)) eqn:H2].
  - apply has_in in H1. assert (HM : ~ In (CImp s) (map cn (cons w))) by (intros I; now apply (D s)). unfold remove. assert (H1' := H1). apply has_in in H1'. rewrite H1'. cbn [fst snd cons fresh is_segment negb]. split; [reflexivity|]. split; [apply (EXT _ (CImp s)); auto|]. split; [now apply disjoint_filter|]. rewrite (EX (CSeg s)) by auto. reflexivity.
  - apply has_not in H1. apply has_in in H2. unfold remove. assert (H2' := H2). apply has_in in H2'. rewrite H2'. cbn [fst snd cons fresh is_segment negb]. split; [reflexivity|]. split; [apply (EXT _ (CSeg s)); auto|]. split; [now apply disjoint_filter|]. rewrite (EX (CImp s)) by auto. reflexivity.
  - apply has_not in H1, H2. cbn [fst snd]. split; [reflexivity|]. assert (Z : forall c, In c (cons w) -> about [s] (cn c) = false). { intros c I. apply not_true_iff_false. intros A. apply AB in A. destruct A as [A|A]; [apply H1|apply H2]; rewrite <- A; now apply in_map. } split; [|split; [exact D|]].
    + symmetry. apply filter_all. intros c I. now rewrite Z.
    + replace (existsb (fun c => about [s] (cn c)) (cons w)) with false; [now rewrite andb_true_r|]. symmetry. apply not_true_iff_false. intros E. apply existsb_exists in E. destruct E as (c & I & E). rewrite Z in E by exact I. discriminate.
Qed.
(** set_segments_free: every constraint on the listed segments goes, nothing else changes *)
Lemma set_free_spec l w : disjoint w -> (forall s, In s l -> (s < nseg)%nat) -> exists b, set_free nt np l w = (W (filter (fun c => negb (about l (cn c))) (cons w)) b, None) /\ (b = true -> fresh w = true).
Proof.
  intros D R. unfold set_free. rewrite (range_ok l R). clear R. change (fun s w => if has w (CSeg s) then remove (CSeg s) w else if has w (CImp s) then remove (CImp s) w else (w, None)) with step_free.
  revert w D. induction l as [|s l IH]; intros w D.
  - exists (fresh w). split; [|auto]. cbn [each]. f_equal. rewrite filter_all; [now destruct w|]. intros c _. unfold about, memb. destruct (cn c); reflexivity.
  - cbn [each]. unfold bind. destruct (step_free_spec s w D) as (A1 & A2 & A3 & A4). destruct (step_free s w) as (w1, e). cbn [fst snd] in *. subst e. destruct (IH w1 A3) as (b & -> & B2). exists b. split.
    + rewrite A2, filter_filter. f_equal. f_equal. apply filter_ext. intros c. rewrite <- negb_orb. f_equal. unfold about, memb. destruct (cn c) as [| | |t|t|]; try reflexivity; destruct (in_dec Nat.eq_dec t [s]), (in_dec Nat.eq_dec t l), (in_dec Nat.eq_dec t (s :: l)); cbn [In] in *; try reflexivity; exfalso; tauto.
    + intros Hb. apply B2 in Hb. rewrite A4 in Hb. now apply andb_true_iff in Hb.
Qed.
Lemma explicit_filter l w b : explicit (W (filter (fun c => negb (about l (cn c))) (cons w)) b) = filter (fun s => negb (memb s l)) (explicit w).
Proof.
  unfold explicit. cbn [cons]. induction (cons w) as [|c m IH]; [reflexivity|]. cbn [filter flat_map]. unfold about at 1. destruct (cn c) as [| | |t|t|] eqn:E; cbn [negb flat_map app]; rewrite ?E, ?IH; cbn [app]; try reflexivity.
  - destruct (memb t l) eqn:M; cbn [negb flat_map app filter]; rewrite ?E, ?IH; cbn [app]; [rewrite M; reflexivity|]. rewrite M. reflexivity.
  - destruct (memb t l) eqn:M; cbn [negb flat_map app]; rewrite ?E, ?IH; reflexivity.
Qed.
(** after set_segments_free, a listed segment is reported as constrained again exactly when the user's other constraints force it *)
Theorem C92_set_free l w : good nt np w -> disjoint w -> (forall s, In s l -> (s < nseg)%nat) -> exists w', set_free nt np l w = (w', None) /\
  cons w' = filter (fun c => negb (about l (cn c))) (cons w) /\
  (fresh w = false \/ (exists s, In s l /\ In s (explicit w ++ implicit w)) -> exists w'' cs, constrained_segments nt np (S (S nseg)) w' = Some ((w'', None), cs) /\ forall s, In s cs <-> forced (filter (fun t => negb (memb t l)) (explicit w)) s).
Proof.
  intros G D R. destruct (set_free_spec l w D R) as (b & E & Hb). exists (W (filter (fun c => negb (about l (cn c))) (cons w)) b). split; [exact E|]. split; [reflexivity|]. intros H.
  assert (b = false). { destruct H as [F|(s & I1 & I2)]; [destruct b; auto; now rewrite Hb in F|]. assert (K := keeps_set_free nt np Hnt l w). unfold keeps in K. rewrite E in K. cbn [fst fresh] in K. destruct b; [|reflexivity]. destruct (K eq_refl) as (_ & K'). clear K. exfalso. apply (in_con nt Hnt) in I2. unfold con in I2.
    assert (Z : forall n, about l n = true -> has (W (filter (fun c => negb (about l (cn c))) (cons w)) true) n = false). { intros n A. apply has_not. cbn [cons]. intros I. apply in_map_iff in I. destruct I as (c & <- & I). apply filter_In in I. destruct I as (_ & I). rewrite A in I. discriminate. }
    assert (M : memb s l = true) by now apply memb_in. rewrite <- (K' (CSeg s)), <- (K' (CImp s)), !Z in I2 by (auto; reflexivity). discriminate. }
  subst b. unfold constrained_segments, refreshed. cbn [fresh]. destruct (C92_update nt np Hnt Hnp (W (filter (fun c => negb (about l (cn c))) (cons w)) false)) as (w'' & -> & _ & A2 & A3 & _); [now apply good_filter|]. exists w'', (explicit w'' ++ implicit w''). split; [reflexivity|]. intros s. rewrite A3, explicit_filter. reflexivity.
Qed.
(** freeing one segment between three others that stay constrained has no lasting effect *)
Theorem C92_free_undone w k l1 a l2 : good nt np w -> disjoint w -> (k < nnodes)%nat -> connected_at k = l1 ++ a :: l2 -> ~ In a (l1 ++ l2) -> (forall t, In t (l1 ++ l2) -> In t (explicit w)) -> In a (explicit w ++ implicit w) ->
  exists w' w'' cs, set_free nt np [a] w = (w', None) /\ ~ In a (explicit w' ++ implicit w') /\ constrained_segments nt np (S (S nseg)) w' = Some ((w'', None), cs) /\ In a cs.
Proof.
  intros G D Hk E Na H3 Ia. assert (R : forall s, In s [a] -> (s < nseg)%nat) by (intros s [<-|[]]; apply (connected_range nt np Hnt Hnp k); auto; rewrite E; apply in_app_iff; right; now left). destruct (C92_set_free [a] w G D R) as (w' & A1 & A2 & A3). destruct A3 as (w'' & cs & A3 & A4); [right; exists a; split; [now left|exact Ia]|]. exists w', w'', cs. split; [exact A1|]. split; [|split; [exact A3|]].
  - rewrite (in_con nt Hnt). unfold con. intros C0. apply orb_true_iff in C0. destruct C0 as [C0|C0]; apply has_in in C0; rewrite A2 in C0; apply in_map_iff in C0; destruct C0 as (c & E' & I); apply filter_In in I; destruct I as (_ & I); rewrite E' in I; unfold about, memb in I; destruct (in_dec Nat.eq_dec a [a]) as [|N]; try discriminate; apply N; now left.
  - apply A4. apply (f_node nt np _ k l1 a l2 Hk E). intros t It. apply f_user, filter_In. split; [now apply H3|]. unfold memb. destruct (in_dec Nat.eq_dec t [a]) as [[->|[]]|]; [contradiction|reflexivity].
Qed.
(** add_segment_constraints fails on a segment with an implied constraint *)
Theorem C92_add_implied l w s : (forall t, In t l -> (t < nseg)%nat) -> In s l -> In s (implicit w) -> add_seg nt np false l w = (w, Some AttributeError).
Proof.
  intros R I H. unfold add_seg. rewrite (range_ok l R). cbn [negb andb]. replace (existsb (fun s => has w (CImp s)) l) with true; [reflexivity|]. symmetry. apply existsb_exists. exists s. split; [exact I|]. now apply (in_implicit nt Hnt).
Qed.
(** set_segments_constrained: always works on distinct segments, never when one is listed twice *)
Theorem C92_set_constrained l w : disjoint w -> (forall t, In t l -> (t < nseg)%nat) ->
  (NoDup l -> exists w', set_constrained nt np false l w = (w', None) /\ cons w' = filter (fun c => negb (about l (cn c))) (cons w) ++ map (fun s => C (CSeg s) (seg_row s) 0) l /\ forall s, In s (explicit w') <-> In s (explicit w) \/ In s l) /\
  (~ NoDup l -> snd (set_constrained nt np false l w) = Some ValueError).
Proof.
  intros D R. destruct (set_free_spec l w D R) as (b & E & _). unfold set_constrained. rewrite E. unfold bind. cbn [snd fst]. unfold add_seg. rewrite (range_ok l R). set (w1 := W _ b).
  assert (Z : forall n, about l n = true -> ~ In n (map cn (cons w1))). { intros n A I. apply in_map_iff in I. destruct I as (c & <- & I). apply filter_In in I. destruct I as (_ & I). rewrite A in I. discriminate. }
  assert (N1 : existsb (fun s => has w1 (CImp s)) l = false). { apply not_true_iff_false. intros X. apply existsb_exists in X. destruct X as (s & I & X). apply has_in in X. apply (Z (CImp s)); [now apply memb_in|exact X]. }
  rewrite N1. cbn [negb andb]. split.
  - intros ND. rewrite (each_add CSeg seg_row (fun _ => 0)).
    + eexists. split; [reflexivity|]. cbn [cons]. split; [reflexivity|]. intros s. rewrite !(in_explicit nt Hnt), !has_in. cbn [cons]. rewrite map_app, in_app_iff, map_map. cbn [cn]. split.
      * intros [I|I]; [|apply in_map_iff in I; destruct I as (t & E' & I); injection E' as ->; now right]. left. apply in_map_iff in I. destruct I as (c & E' & I). apply filter_In in I. apply in_map_iff. exists c. tauto.
      * intros [I|I]; [|right; apply in_map_iff; now exists s]. destruct (memb s l) eqn:M; [right; apply in_map_iff; exists s; split; [reflexivity|now apply memb_in]|]. left. apply in_map_iff in I. destruct I as (c & E' & I). apply in_map_iff. exists c. split; [exact E'|]. apply filter_In. split; [exact I|]. rewrite E'. cbn [about]. now rewrite M.
    + apply FinFun.Injective_map_NoDup; [intros u v E'; now injection E'|exact ND].
    + intros s I. apply Z. now apply memb_in.
  - intros ND. apply (each_add_dup CSeg seg_row (fun _ => 0)). intros (H1 & _). apply ND. now apply NoDup_map_inv in H1.
Qed.
(** the two kinds of constraint stay apart in every history that leaves implied constraints to the code *)
Lemma disjoint_remove n w : disjoint w -> disjoint (fst (remove n w)).
Proof. intros D. unfold remove. destruct (has w n); [now apply disjoint_filter|exact D]. Qed.
Lemma disjoint_add n r c w : (match n with CSeg s => has w (CImp s) = false | CImp s => has w (CSeg s) = false | _ => True end) -> disjoint w -> disjoint (fst (add n r c w)).
Proof.
  intros H D. unfold add. destruct (has w n); [exact D|]. cbn [fst]. intros s (A & B). cbn [cons] in A, B. rewrite map_app, in_app_iff in A, B. cbn [map cn In] in A, B. destruct A as [A|[A|[]]], B as [B|[B|[]]]; [now apply (D s)| | |congruence]; subst n; apply has_not in H; contradiction.
Qed.
Lemma disjoint_each {A} (f : A -> wst -> out) l : (forall a w, In a l -> disjoint w -> disjoint (fst (f a w))) -> forall w, disjoint w -> disjoint (fst (each f l w)).
Proof. apply each_inv. Qed.
Lemma disjoint_add_seg l w : disjoint w -> disjoint (fst (add_seg nt np false l w)).
Proof.
  intros D. unfold add_seg. destruct (existsb _ l) eqn:E0; [exact D|]. cbn [negb andb]. destruct (existsb (fun s => has w (CImp s)) l) eqn:E; [exact D|]. clear E0.
  assert (H : forall s, In s l -> has w (CImp s) = false). { intros s I. apply not_true_iff_false. intros X. apply not_true_iff_false in E. apply E, existsb_exists. now exists s. }
  apply (each_inv (fun w => disjoint w /\ forall s, In s l -> has w (CImp s) = false)); [|split; [exact D|exact H]]. intros s w' I (D' & H'). split; [apply disjoint_add; [now apply H'|exact D']|]. intros t It. unfold add. destruct (has w' (CSeg s)) eqn:X; [now apply H'|]. apply has_not. cbn [fst cons]. rewrite map_app, in_app_iff. cbn [map cn In]. intros [C0|[C0|[]]]; [|discriminate]. apply has_in in C0. now rewrite H' in C0.
Qed.
Lemma disjoint_implied s w : disjoint w -> disjoint (fst (add_implied nt np s w)).
Proof.
  intros D. unfold add_implied. destruct (has w (CSeg s)) eqn:H1; [exact D|]. destruct (has w (CImp s)) eqn:H2; [exact D|]. cbn [negb andb]. unfold add_seg. destruct (existsb _ [s]); [exact D|]. cbn [negb andb each]. unfold bind. assert (K := disjoint_add (CImp s) (seg_row s) 0 w H1 D). destruct (add (CImp s) (seg_row s) 0 w) as (w', [e|]); exact K.
Qed.
Lemma disjoint_rounds fuel : forall w o, disjoint w -> rounds nt np fuel w = Some o -> disjoint (fst o).
Proof.
  induction fuel as [|f IH]; intros w o D H; [discriminate|]. cbn [rounds] in H. destruct (filter _ _); [injection H as <-; exact D|]. assert (D1 : disjoint (fst (round nt np w))). { unfold round. apply each_inv; [|exact D]. intros k w1 _ D1. apply each_inv; [|exact D1]. intros s w2 _ D2. now apply disjoint_implied. } destruct (round nt np w) as (w', [e|]); [injection H as <-; exact D1|]. now apply (IH w').
Qed.
Lemma disjoint_set_free l w : disjoint w -> disjoint (fst (set_free nt np l w)).
Proof. intros D. unfold set_free. destruct (existsb _ l); [exact D|]. apply each_inv; [|exact D]. intros s w' _ D'. destruct (has w' (CSeg s)); [now apply disjoint_remove|]. destruct (has w' (CImp s)); [now apply disjoint_remove|exact D']. Qed.
Lemma disjoint_set_con l w : disjoint w -> disjoint (fst (set_constrained nt np false l w)).
Proof. intros D. unfold set_constrained. apply bind_inv; [now apply disjoint_set_free|]. intros. now apply disjoint_add_seg. Qed.
Lemma disjoint_exec o w : leaves_implicit o -> disjoint w -> disjoint (fst (exec nt np o w)).
Proof.
  intros L D. destruct o; cbn [exec leaves_implicit] in *.
  - apply disjoint_add; [exact I|exact D].
  - now apply disjoint_remove.
  - apply disjoint_add; [exact I|exact D].
  - unfold set_pol. apply bind_inv; [destruct (has w CPolC); [now apply disjoint_remove|exact D]|]. intros. apply disjoint_add; [exact I|assumption].
  - apply disjoint_add; [exact I|exact D].
  - unfold set_tor. apply bind_inv; [destruct (has w CTorC); [now apply disjoint_remove|exact D]|]. intros. apply disjoint_add; [exact I|assumption].
  - destruct imp; [contradiction|]. now apply disjoint_add_seg.
  - unfold remove_seg. destruct (existsb _ l); [exact D|]. apply each_inv; [|exact D]. intros. now apply disjoint_remove.
  - destruct imp; [contradiction|]. now apply disjoint_set_con.
  - now apply disjoint_set_free.
  - unfold free_all. apply each_inv; [|exact D]. intros. now apply disjoint_remove.
  - unfold set_breaks. destruct (_ || _); [exact D|]. assert (GO : forall w', disjoint w' -> disjoint (fst (if (n =? 0)%nat then (w', Some ZeroDivisionError) else if breaks_ok nt np n width allow then set_constrained nt np false (break_segs nt np n width allow) w' else (w', Some AssertionError)))).
    { intros w' D'. destruct (n =? 0)%nat; [exact D'|]. destruct (breaks_ok _ _ _ _ _); [now apply disjoint_set_con|exact D']. }
    destruct (find _ _) as [c|]; [|now apply GO]. destruct (Req_EM_T (cst c) 0); [|exact D]. apply bind_inv; [now apply disjoint_remove|auto].
  - unfold refreshed. destruct (fresh w); [exact D|]. unfold update_implicit. set (l := filter _ _). assert (D1 : disjoint (fst (each remove l w))) by (apply each_inv; [|exact D]; intros; now apply disjoint_remove). destruct (each remove l w) as (w0, [e|]); [exact D1|]. cbn [fst] in D1. destruct (rounds nt np _ w0) as [(w', [e|])|] eqn:E; [exact (disjoint_rounds _ _ _ D1 E)| |exact D]. exact (disjoint_rounds _ _ _ D1 E).
Qed.
Theorem C92_disjoint l : (forall o, In o l -> leaves_implicit o) -> disjoint (run nt np l (fst (initial nt np))).
Proof.
  assert (H : forall w, disjoint w -> (forall o, In o l -> leaves_implicit o) -> disjoint (run nt np l w)). { induction l as [|o l' IH]; intros w D L; [exact D|]. cbn [run]. apply IH; [apply disjoint_exec; [apply L; now left|exact D]|]. intros. apply L. now right. }
  apply H. rewrite initial_eq by lia. intros s (A & _). cbn [fst cons] in A. rewrite map_map in A. apply in_map_iff in A. destruct A as (c & E & _). discriminate.
Qed.
(** ** Toroidal breaks *)
Section Breaks.
Variables (n width : nat) (allow : bool).
Hypothesis Hn : (1 <= n)%nat.
Hypothesis Hw : (1 <= width)%nat.
Hypothesis Hb : (2 * (n * width) <= np)%nat.
Definition first_cell (k : nat) : nat := (spread np n k - (width + 1) / 2)%nat.
Lemma ceil_half : (2 * ((width + 1) / 2) <= width + 1 < 2 * ((width + 1) / 2) + 2)%nat.
Proof. assert (K := Nat.div_mod (width + 1) 2 ltac:(lia)). assert (K2 := Nat.mod_upper_bound (width + 1) 2 ltac:(lia)). lia. Qed.
Lemma n_np : (1 <= n <= np)%nat.
Proof. split; [exact Hn|]. assert (n * 1 <= n * width)%nat by (apply Nat.mul_le_mono_l; lia). lia. Qed.
Lemma spread_between k : (k < n)%nat -> (width <= spread np n k /\ spread np n k + width <= np)%nat.
Proof.
  intros Hk. assert (N := n_np). destruct (proj1 (spread_spec nt np Hnt Hnp n N k (spread np n k)) eq_refl) as (L1 & L2). set (s := spread np n k) in *. assert (1 * np <= (2 * k + 1) * np)%nat by (apply Nat.mul_le_mono_r; lia). assert ((2 * k + 1) * np <= (2 * n - 1) * np)%nat by (apply Nat.mul_le_mono_r; lia). rewrite Nat.mul_sub_distr_r in H0. assert (1 * np <= 2 * n * np)%nat by (apply Nat.mul_le_mono_r; lia). split; apply Nat.nlt_ge; intros C0.
  - assert (2 * n * (s + 1) <= 2 * n * width)%nat by (apply Nat.mul_le_mono_l; lia). assert (2 * n * width = 2 * (n * width))%nat by ring. assert (2 * n * (s + 1) = 2 * n * s + 2 * n)%nat by ring. lia.
  - assert (2 * n * (np + 1) <= 2 * n * (s + width))%nat by (apply Nat.mul_le_mono_l; lia). assert (2 * n * (s + width) = 2 * n * s + 2 * (n * width))%nat by ring. assert (2 * n * (np + 1) = 2 * n * np + 2 * n)%nat by ring. lia.
Qed.
Lemma spread_apart k k' : (k < k')%nat -> (spread np n k + 2 * width <= spread np n k')%nat.
Proof.
  intros H. assert (N := n_np). destruct (proj1 (spread_spec nt np Hnt Hnp n N k (spread np n k)) eq_refl) as (L1 & L2). destruct (proj1 (spread_spec nt np Hnt Hnp n N k' (spread np n k')) eq_refl) as (L1' & L2'). set (s := spread np n k) in *. set (s' := spread np n k') in *. apply Nat.nlt_ge. intros C0. assert ((2 * k + 3) * np <= (2 * k' + 1) * np)%nat by (apply Nat.mul_le_mono_r; lia). assert (2 * n * (s' + 1) <= 2 * n * (s + 2 * width))%nat by (apply Nat.mul_le_mono_l; lia). assert ((2 * k + 3) * np = (2 * k + 1) * np + 2 * np)%nat by ring. assert (2 * n * (s + 2 * width) = 2 * n * s + 2 * (2 * (n * width)))%nat by ring. lia.
Qed.
Lemma first_le k : (k < n)%nat -> (first_cell k + width < np)%nat.
Proof. intros Hk. destruct (spread_between k Hk). unfold first_cell. assert (C := ceil_half). lia. Qed.
Lemma first_apart k k' : (k < n)%nat -> (k' < n)%nat -> (k < k')%nat -> (first_cell k + width <= first_cell k')%nat.
Proof. intros Hk Hk' H. assert (K := spread_apart k k' H). destruct (spread_between k Hk), (spread_between k' Hk'). unfold first_cell. assert (C := ceil_half). lia. Qed.
Lemma breaks_ok_true : breaks_ok nt np n width allow = true.
Proof.
  unfold breaks_ok. destruct (_ && _) eqn:E; [|reflexivity]. cbn [negb orb]. apply forallb_forall. intros k Ik. apply in_seq in Ik. assert (L := first_le k ltac:(lia)). unfold first_cell in L. set (f := (spread np n k - (width + 1) / 2)%nat) in *. apply andb_true_iff. split; [apply Nat.leb_le; lia|]. apply Nat.leb_le. unfold WFModel.nseg. set (nT := ntors nt np). assert (nT = (np * nt)%nat) by (unfold nT, ntors; ring). assert (nt * f + nt * (width - 1) = nt * (f + width - 1))%nat by (rewrite <- Nat.mul_add_distr_l; f_equal; lia). assert (nt * (f + width - 1) + nt <= np * nt)%nat by (replace (nt * (f + width - 1) + nt)%nat with ((f + width) * nt)%nat by (replace (f + width)%nat with (f + width - 1 + 1)%nat at 1 by lia; ring); apply Nat.mul_le_mono_r; lia). lia.
Qed.
(** the segments: whole rows of toroidal ones, and the rings of poloidal ones strictly inside a break *)
Lemma break_segs_spec s : In s (break_segs nt np n width allow) <-> exists k i j, (k < n)%nat /\ (j < nt)%nat /\ (first_cell k <= i < first_cell k + width)%nat /\ (s = torkey nt np i j \/ allow = false /\ (first_cell k < i)%nat /\ s = polkey nt np i j).
Proof.
  unfold break_segs. rewrite in_flat_map. split.
  - intros (k & Ik & I). apply in_seq in Ik. exists k. change (spread np n k - (width + 1) / 2)%nat with (first_cell k) in I. assert (L := first_le k ltac:(lia)). apply in_app_iff in I. destruct I as [I|I].
    + apply in_seq in I. assert (DM := Nat.div_mod s nt ltac:(lia)). assert (MB := Nat.mod_upper_bound s nt ltac:(lia)). exists (s / nt)%nat, (s mod nt)%nat. assert (B : (first_cell k <= s / nt < first_cell k + width)%nat). { split; [apply Nat.div_le_lower_bound; lia|apply Nat.div_lt_upper_bound; [lia|]]. rewrite Nat.mul_add_distr_l. lia. } repeat split; try lia. left. rewrite torkey_T by (auto; lia). unfold WFGeom.T. lia.
    + destruct (1 <? width)%nat eqn:W1; [|contradiction]. destruct allow; [contradiction|]. cbn [andb negb] in I. apply in_seq in I. set (q := (s - (ntors nt np + nt * first_cell k + half))%nat). assert (DM := Nat.div_mod q nt ltac:(lia)). assert (MB := Nat.mod_upper_bound q nt ltac:(lia)). exists (first_cell k + 1 + q / nt)%nat, (q mod nt)%nat. assert (B : (q / nt < width - 1)%nat) by (apply Nat.div_lt_upper_bound; lia). assert (Z0 := Nat.le_0_l (q / nt)). repeat split; try lia. right. split; [reflexivity|]. split; [lia|]. rewrite polkey_P by (auto; right; lia). unfold WFGeom.P. destruct (Nat.eqb_spec (first_cell k + 1 + q / nt) 0); [lia|]. replace (first_cell k + 1 + q / nt - 1)%nat with (first_cell k + q / nt)%nat by lia. rewrite Nat.mul_add_distr_r. assert (nt * first_cell k = first_cell k * nt)%nat by ring. assert (nt * (q / nt) = q / nt * nt)%nat by ring. unfold q in *. lia.
  - intros (k & i & j & Hk & Hj & Hi & H). exists k. split; [apply in_seq; lia|]. change (spread np n k - (width + 1) / 2)%nat with (first_cell k). assert (L := first_le k Hk). apply in_app_iff. destruct H as [->|(-> & Hi' & ->)].
    + left. rewrite torkey_T by (auto; lia). unfold WFGeom.T. apply in_seq. assert (first_cell k * nt <= i * nt)%nat by (apply Nat.mul_le_mono_r; lia). assert ((i + 1) * nt <= (first_cell k + width) * nt)%nat by (apply Nat.mul_le_mono_r; lia). rewrite !Nat.mul_add_distr_r in H0. assert (nt * first_cell k = first_cell k * nt)%nat by ring. assert (nt * width = width * nt)%nat by ring. lia.
    + right. destruct (Nat.ltb_spec 1 width); [|lia]. cbn [andb negb]. rewrite polkey_P by (auto; right; lia). unfold WFGeom.P. destruct (Nat.eqb_spec i 0); [lia|]. apply in_seq. assert (first_cell k * nt <= (i - 1) * nt)%nat by (apply Nat.mul_le_mono_r; lia). assert ((i - 1 + 1) * nt <= (first_cell k + (width - 1)) * nt)%nat by (apply Nat.mul_le_mono_r; lia). rewrite !Nat.mul_add_distr_r in H1. assert (nt * first_cell k = first_cell k * nt)%nat by ring. assert (nt * (width - 1) = (width - 1) * nt)%nat by ring. lia.
Qed.
Lemma break_segs_range s : In s (break_segs nt np n width allow) -> (s < nseg)%nat.
Proof.
  intros I. apply break_segs_spec in I. destruct I as (k & i & j & Hk & Hj & Hi & H). assert (L := first_le k Hk). destruct H as [->|(_ & H & ->)].
  - rewrite torkey_T by (auto; lia). apply T_lt_seg; auto; lia.
  - rewrite polkey_P by (auto; right; lia). apply P_lt; auto. right. lia.
Qed.
Lemma break_segs_NoDup : NoDup (break_segs nt np n width allow).
Proof.
  unfold break_segs. apply NoDup_flat; [apply seq_NoDup| |].
  - intros k Ik. apply in_seq in Ik. change (spread np n k - (width + 1) / 2)%nat with (first_cell k). assert (L := first_le k ltac:(lia)). destruct (_ && _); [|rewrite app_nil_r; apply seq_NoDup]. apply NoDup_app2; [apply seq_NoDup|apply seq_NoDup|]. intros s I1 I2. apply in_seq in I1, I2. unfold ntors in I2. assert (nt * (first_cell k + width) <= nt * np)%nat by (apply Nat.mul_le_mono_l; lia). rewrite Nat.mul_add_distr_l in H. lia.
  - intros k k' s Ik Ik' I I'. apply in_seq in Ik, Ik'. assert (HH : forall k s, (k < n)%nat -> In s (seq (nt * (spread np n k - (width + 1) / 2)) (nt * width) ++ (if (1 <? width)%nat && negb allow then seq (ntors nt np + nt * (spread np n k - (width + 1) / 2) + half) (nt * (width - 1)) else []))%list -> ((s < ntors nt np)%nat /\ (nt * first_cell k <= s < nt * (first_cell k + width))%nat) \/ ((ntors nt np <= s)%nat /\ (nt * first_cell k <= s - (ntors nt np + half) < nt * (first_cell k + width))%nat)).
    { clear k k' s Ik Ik' I I'. intros k s Hk I. change (spread np n k - (width + 1) / 2)%nat with (first_cell k) in I. assert (L := first_le k Hk). assert (nt * (first_cell k + width) <= nt * np)%nat by (apply Nat.mul_le_mono_l; lia). rewrite Nat.mul_add_distr_l in *. apply in_app_iff in I. unfold ntors in *. destruct I as [I|I]; [left; apply in_seq in I; lia|]. destruct (_ && _); [|contradiction]. apply in_seq in I. assert (nt * (width - 1) + nt = nt * width)%nat by (replace width with (width - 1 + 1)%nat at 2 by lia; ring). right. lia. }
    apply HH in I; [|lia]. apply HH in I'; [|lia]. clear HH. destruct (Nat.lt_trichotomy k k') as [H|[H|H]]; [|exact H|]; exfalso.
    + assert (K := first_apart k k' ltac:(lia) ltac:(lia) H). assert (nt * (first_cell k + width) <= nt * first_cell k')%nat by (apply Nat.mul_le_mono_l; lia). lia.
    + assert (K := first_apart k' k ltac:(lia) ltac:(lia) H). assert (nt * (first_cell k' + width) <= nt * first_cell k)%nat by (apply Nat.mul_le_mono_l; lia). lia.
Qed.
End Breaks.
(** set_toroidal_breaks: works whenever its two size conditions hold and no non-zero toroidal current is prescribed; it constrains whole rows, evenly placed, and the current then has no toroidal component *)
Theorem C92_breaks n width allow w : good nt np w -> disjoint w -> (1 <= n)%nat -> (1 <= width)%nat -> (2 * n < np)%nat -> (2 * (n * width) <= np)%nat -> (forall c, In c (cons w) -> cn c = CTorC -> cst c = 0) ->
  exists w' first, set_breaks nt np n width allow w = (w', None) /\
    (forall k, (k < n)%nat -> (first k + width < np /\ (2 * k + 1) * np <= 2 * n * (first k + (width + 1) / 2) < (2 * k + 1) * np + 2 * n)%nat) /\
    (forall s, In s (explicit w') <-> In s (explicit w) \/ exists k i j, (k < n)%nat /\ (j < nt)%nat /\ (first k <= i < first k + width)%nat /\ (s = torkey nt np i j \/ allow = false /\ (first k < i)%nat /\ s = polkey nt np i j)) /\
    (forall c, is_segment (cn c) = false -> In c (cons w') <-> In c (cons w) /\ cn c <> CTorC) /\
    (forall x, sat nt np x (cons (fst (initial nt np))) -> sat nt np x (cons w') -> forall i, (i < np)%nat -> tor_through nt np x i = 0).
Proof.
  intros G D Hn Hw H2 Hb Ht. set (segs := break_segs nt np n width allow).
  assert (GO : exists w0, good nt np w0 /\ disjoint w0 /\ explicit w0 = explicit w /\ (forall c, In c (cons w0) <-> In c (cons w) /\ cn c <> CTorC) /\ set_breaks nt np n width allow w = set_constrained nt np false segs w0).
  { unfold set_breaks. destruct (Nat.leb_spec np (2 * n)); [lia|]. destruct (Nat.ltb_spec np (2 * (n * width))); [lia|]. cbn [orb]. destruct (Nat.eqb_spec n 0); [lia|]. rewrite (breaks_ok_true n width allow Hn Hw Hb). fold segs. destruct (find _ (cons w)) as [c|] eqn:F.
    - apply find_some in F. destruct F as (I & F). destruct (cname_eq_dec (cn c) CTorC) as [E|]; [|discriminate]. rewrite (Ht c I E). destruct (Req_EM_T 0 0) as [_|N0]; [|now exfalso]. assert (HT : has w CTorC = true) by (apply has_in; rewrite <- E; now apply in_map). exists (fst (remove CTorC w)). split; [now apply good_remove|]. split; [now apply disjoint_remove|]. split; [|split].
      + unfold remove. rewrite HT. cbn [fst]. unfold explicit. cbn [cons]. clear. induction (cons w) as [|d l IH]; [reflexivity|]. cbn [filter flat_map]. destruct (cname_eq_dec (cn d) CTorC) as [E|]; cbn [flat_map]; [rewrite E|]; now rewrite IH.
      + intros d. unfold remove. rewrite HT. cbn [fst cons]. rewrite filter_In. destruct (cname_eq_dec (cn d) CTorC); split; intros (A & B); split; auto; try discriminate; contradiction.
      + unfold bind, remove. rewrite HT. reflexivity.
    - exists w. split; [exact G|]. split; [exact D|]. split; [reflexivity|]. split; [|reflexivity]. intros d. split; [|tauto]. intros I. split; [exact I|]. intros E. assert (K := find_none _ _ F d I). cbv beta in K. destruct (cname_eq_dec (cn d) CTorC); [discriminate|contradiction]. }
  destruct GO as (w0 & G0 & D0 & E0 & C0 & ->). destruct (C92_set_constrained segs w0 D0) as (S1 & _); [intros t; apply break_segs_range; auto|]. destruct (S1 (break_segs_NoDup n width allow Hn Hw Hb)) as (w' & A1 & A2 & A3). exists w', (first_cell n width). split; [exact A1|]. split; [|split; [|split]].
  - intros k Hk. split; [now apply first_le|]. destruct (spread_between n width Hn Hw Hb k Hk) as (B1 & B2). assert (CH := ceil_half width). unfold first_cell. replace (spread np n k - (width + 1) / 2 + (width + 1) / 2)%nat with (spread np n k) by lia. destruct (proj1 (spread_spec nt np Hnt Hnp n (n_np n width Hn Hw Hb) k (spread np n k)) eq_refl) as (L1 & L2). assert (2 * n * (spread np n k + 1) = 2 * n * spread np n k + 2 * n)%nat by ring. lia.
  - intros s. rewrite A3, E0. unfold segs. now rewrite break_segs_spec.
  - intros c Hc. rewrite A2, in_app_iff, filter_In, C0. assert (about segs (cn c) = false) by (destruct (cn c); auto; discriminate). rewrite H. cbn [negb]. split; [intros [A|I]; [tauto|]; apply in_map_iff in I; destruct I as (t & <- & _); discriminate|]. intros A. left. tauto.
  - intros x Hx Hs i Hi. rewrite C91_toroidal by auto. assert (L := first_le n width Hn Hw Hb 0 ltac:(lia)). rewrite <- (C91_toroidal nt np Hnt Hnp x (first_cell n width 0)) by (auto; lia). rewrite tor_through_eq by (auto; lia). apply sum_to_nil. intros j Hj. assert (I : In (torkey nt np (first_cell n width 0) j) segs) by (apply break_segs_spec; auto; exists 0%nat, (first_cell n width 0), j; repeat split; auto; lia). rewrite torkey_T in I by (auto; lia).
    assert (K := Hs (C (CSeg (T (first_cell n width 0) j)) (seg_row (T (first_cell n width 0) j)) 0)). cbn [crow cst] in K. rewrite <- K; [symmetry; apply (dotr_single nt np Hnt Hnp); apply T_lt_seg; auto; lia|]. rewrite A2. apply in_app_iff. right. apply in_map_iff. exists (T (first_cell n width 0) j). auto.
Qed.
(** with no break, or breaks of no width, a prescribed zero toroidal current is deleted and nothing replaces it *)
Theorem C92_breaks_nothing n width allow w : disjoint w -> In CTorC (map cn (cons w)) -> (forall c, In c (cons w) -> cn c = CTorC -> cst c = 0) -> (2 * n < np)%nat -> (n * width = 0)%nat ->
  exists w', set_breaks nt np n width allow w = (w', if (n =? 0)%nat then Some ZeroDivisionError else None) /\ cons w' = filter (fun c => if cname_eq_dec (cn c) CTorC then false else true) (cons w).
Proof.
  intros D HT Ht H2 Hz. unfold set_breaks. destruct (Nat.leb_spec np (2 * n)); [lia|]. rewrite Hz. destruct (Nat.ltb_spec np (2 * 0)); [lia|]. cbn [orb]. destruct (find _ (cons w)) as [c|] eqn:F.
  - apply find_some in F. destruct F as (I & F). destruct (cname_eq_dec (cn c) CTorC) as [E|]; [|discriminate]. rewrite (Ht c I E). destruct (Req_EM_T 0 0) as [_|N0]; [|now exfalso]. assert (HT' := HT). apply has_in in HT'. unfold remove. rewrite HT'. unfold bind. cbn [snd fst]. destruct (Nat.eqb_spec n 0); [eexists; split; reflexivity|]. assert (width = 0)%nat by nia. subst width.
    assert (B0 : breaks_ok nt np n 0 allow = true) by reflexivity. rewrite B0. assert (BS : break_segs nt np n 0 allow = []). { unfold break_segs. rewrite Nat.mul_0_r. cbn [seq app Nat.ltb Nat.leb andb]. generalize (seq 0 n). induction l as [|a l IH]; [reflexivity|exact IH]. } rewrite BS. eexists. split; reflexivity.
  - exfalso. apply in_map_iff in HT. destruct HT as (c & E & I). assert (K := find_none _ _ F c I). cbv beta in K. destruct (cname_eq_dec (cn c) CTorC); [discriminate|contradiction].
Qed.
End Calls.

(** ** The hypotheses are met *)
Lemma sizes42 : (2 * half 4 = 4 /\ 1 <= half 4)%nat. Proof. split; cbn; lia. Qed.
Lemma sizes2 : (2 <= 2)%nat. Proof. lia. Qed.
Lemma sizes5 : (2 <= 5)%nat. Proof. lia. Qed.
(** four segments meet at node 4 of the 4 x 2 wireframe; all four constrained, then one freed *)
Example free_undone_case : let w := run 4 2 [OSetCon false [0; 13; 4; 10]%nat] (fst (initial 4 2)) in
  exists w' w'' cs, set_free 4 2 [0%nat] w = (w', None) /\ ~ In 0%nat (explicit w' ++ implicit w') /\ constrained_segments 4 2 (S (S (nseg 4 2))) w' = Some ((w'', None), cs) /\ In 0%nat cs.
Proof.
  cbv zeta. set (l := [0; 13; 4; 10]%nat). assert (D0 := C92_disjoint 4 2 sizes42 sizes2 [] (fun o (H : In o []) => match H with end)). cbn [run] in D0.
  assert (ND : NoDup l) by (unfold l; repeat constructor; cbn [In]; intuition discriminate). assert (R : forall t, In t l -> (t < nseg 4 2)%nat) by (intros t I; unfold l in I; cbn [In] in I; change (nseg 4 2) with 16%nat; intuition lia).
  destruct (C92_set_constrained 4 2 sizes42 sizes2 l _ D0 R) as (S1 & _). destruct (S1 ND) as (w1 & A1 & A2 & A3). assert (EX : forall t, In t l -> In t (explicit (run 4 2 [OSetCon false l] (fst (initial 4 2))))) by (intros t I; cbn [run exec]; rewrite A1; cbn [fst]; apply A3; now right).
  apply (C92_free_undone 4 2 sizes42 sizes2 _ 4%nat [] 0%nat [13; 4; 10]%nat).
  - apply (C92_wellformed 4 2 sizes42 sizes2).
  - apply (C92_disjoint 4 2 sizes42 sizes2). intros o [<-|[]]. exact I.
  - cbn. lia.
  - reflexivity.
  - cbn [app In]. intuition discriminate.
  - intros t I. apply EX. unfold l. cbn [app In] in *. tauto.
  - apply (in_or_app _ _ _ (or_introl (EX 0%nat (or_introl eq_refl)))).
Qed.
Example breaks_case : exists w', set_breaks 4 5 1 2 false (fst (initial 4 5)) = (w', None) /\ forall x, sat 4 5 x (cons (fst (initial 4 5))) -> sat 4 5 x (cons w') -> tor_through 4 5 x 0 = 0.
Proof.
  destruct (C92_breaks 4 5 sizes42 sizes5 1 2 false (fst (initial 4 5))) as (w' & f & A & _ & _ & _ & B); try lia.
  - apply (C92_wellformed 4 5 sizes42 sizes5 []).
  - apply (C92_disjoint 4 5 sizes42 sizes5 []). intros o [].
  - intros c I E. rewrite initial_eq in I by lia. cbn [fst cons] in I. apply in_map_iff in I. destruct I as (ij & <- & _). discriminate.
  - exists w'. split; [exact A|]. intros x H1 H2. apply B; auto. lia.
Qed.
