(** C94, C95: what the greedy wireframe solver does, for arbitrary tables of loops, segments and connections. *)
From Coq Require Import Reals Lra Lia List Bool Arith ZArith ZifyNat Psatz FunctionalExtensionality.
From Verif Require Import ListAux VecAux CurveObjModel CurveObjProps GPMOModel GPMOProps WFModel WFGeom WFThms WFCells GSCOModel.
Import ListNotations.
Open Scope R_scope.
Ltac Zify.zify_post_hook ::= idtac.

(** ** Specification *)
Section Spec.
Variables (ng ns n : nat) (A : nat -> nat -> R) (b : nat -> R) (cells : nat -> list nat) (free : nat -> bool) (sstart send : nat -> nat) (conn : nat -> list nat) (p : gpar).
(** a segment is active if its current exceeds a thousandth of the default loop current *)
Definition Act (v : R) : Prop := / 1000 * dflt p < Rabs v.
Definition act (v : R) : R := if Rlt_dec (/ 1000 * dflt p) (Rabs v) then 1 else 0.
(** the objectives: half the squared mismatch of the normal field, half the number of active segments, and their weighted sum *)
Definition fB (x : nat -> R) : R := / 2 * sum_to ng (fun m => (sum_to ns (fun s => A m s * x s) - b m) ^ 2).
Definition fS (x : nat -> R) : R := / 2 * sum_to ns (fun s => act (x s)).
Definition obj (x : nat -> R) : R := fB x + lam p * fS x.
(** number of active segments that meet at a node *)
Definition meeting (x : nat -> R) (k : nat) : R := fold_right (fun s r => act (x s) + r) 0 (conn k).
(** a loop current c of direction d may be added to loop l *)
Definition allowed (x : nat -> R) (cnt : nat -> Z) (l : nat) (d : Z) (c : R) : Prop :=
  (l < n)%nat /\ (d = 1 \/ d = -1)%Z /\ c <> 0 /\ free l = true /\
  ((0 < maxcount p)%Z -> (Z.abs (cnt l + d) <= maxcount p)%Z) /\
  (no_new_coils p = true -> exists s, In s (cells l) /\ Act (x s)) /\
  (if match_current p
   then ((forall s, In s (cells l) -> x s = 0) /\ c = IZR d * dflt p) \/
        (exists v, 0 < v /\ (exists s, In s (cells l) /\ Rabs (x s) = v) /\ (forall s, In s (cells l) -> x s = 0 \/ Rabs (x s) = v) /\ c = IZR d * v)
   else c = IZR d * dflt p) /\
  (forall mx, maxc p = Some mx -> forall s, In s (cells l) -> Rabs (around c (cells l) x s) <= mx) /\
  (no_crossing p = true -> forall k, In k (corners cells sstart send l) -> meeting (around c (cells l) x) k <= 2).
(** no other addition gives a smaller objective *)
Definition greedy_choice (x : nat -> R) (cnt : nat -> Z) (l : nat) (d : Z) (c : R) : Prop :=
  allowed x cnt l d c /\ forall l' d' c', allowed x cnt l' d' c' -> obj (around c (cells l) x) <= obj (around c' (cells l') x).
(** a sequence of greedy additions with its records: current, loop and the objectives after the addition *)
Inductive greedy : (nat -> R) -> (nat -> Z) -> list (R * nat * R * R * R) -> (nat -> R) -> (nat -> Z) -> Prop :=
| greedy_nil x cnt : greedy x cnt [] x cnt
| greedy_add x cnt es x1 cnt1 l d c : greedy x cnt es x1 cnt1 -> greedy_choice x1 cnt1 l d c ->
    let x2 := around c (cells l) x1 in
    greedy x cnt (es ++ [(c, l, fB x2, fS x2, obj x2)]) x2 (upd cnt1 l (cnt1 l + d)%Z).
Definition stuck (x : nat -> R) (cnt : nat -> Z) : Prop := forall l d c, ~ allowed x cnt l d c.
Definition local_min (x : nat -> R) (cnt : nat -> Z) : Prop := forall l d c, allowed x cnt l d c -> obj x <= obj (around c (cells l) x).
End Spec.

(** ** Small lemmas *)
Section Props.
Variables (ng ns n : nat) (A : nat -> nat -> R) (b : nat -> R) (cells : nat -> list nat) (free : nat -> bool) (sstart send : nat -> nat) (conn : nat -> list nat) (p : gpar).
Hypothesis HC : forall l, (l < n)%nat -> exists s0 s1 s2 s3, cells l = [s0; s1; s2; s3] /\ NoDup [s0; s1; s2; s3] /\ (s0 < ns /\ s1 < ns /\ s2 < ns /\ s3 < ns)%nat.
Notation sg := (sg cells). Notation active := (active p). Notation elig := (elig n cells free sstart send conn p). Notation eligible := (eligible n cells free sstart send conn p).
Notation cand_fB := (cand_fB ng n A cells free sstart send conn p). Notation cand_fS := (cand_fS n cells free sstart send conn p). Notation cand_f := (cand_f ng n A cells free sstart send conn p).
Notation best := (best ng n A cells free sstart send conn p). Notation accept := (accept ng n A cells free sstart send conn p).
Notation loop_of := (loop_of n). Notation dir_of := (dir_of n).
Notation fB := (fB ng ns A b). Notation fS := (fS ns p). Notation obj := (obj ng ns A b p). Notation allowed := (allowed n cells free sstart send conn p).
Notation meeting := (meeting conn p). Notation greedy_choice := (greedy_choice ng ns n A b cells free sstart send conn p). Notation greedy := (greedy ng ns n A b cells free sstart send conn p).

Lemma active_act v : act p v = if active v then 1 else 0.
Proof. unfold act, GSCOModel.active, tol. destruct (Rlt_dec _ _); reflexivity. Qed.
Lemma active_Act v : active v = true <-> Act p v.
Proof. unfold GSCOModel.active, Act, tol. destruct (Rlt_dec _ _); split; auto; discriminate. Qed.
Lemma sg_in l k : (l < n)%nat -> (k < 4)%nat -> In (sg l k) (cells l).
Proof. intros Hl Hk. destruct (HC l Hl) as (s0 & s1 & s2 & s3 & E & _). apply nth_In. rewrite E. exact Hk. Qed.
Lemma in_sg l s : (l < n)%nat -> In s (cells l) -> exists k, (k < 4)%nat /\ s = sg l k.
Proof. intros Hl I. destruct (HC l Hl) as (s0 & s1 & s2 & s3 & E & _). apply (In_nth _ _ O) in I. destruct I as (k & Lk & E'). rewrite E in Lk. cbn in Lk. exists k. split; [exact Lk|]. now symmetry. Qed.
Lemma sg_lt l k : (l < n)%nat -> (k < 4)%nat -> (sg l k < ns)%nat.
Proof. intros Hl Hk. destruct (HC l Hl) as (s0 & s1 & s2 & s3 & E & _ & B). unfold GSCOModel.sg. rewrite E. destruct k as [|[|[|[|k]]]]; cbn [nth]; lia. Qed.
Lemma sg_inj l k k' : (l < n)%nat -> (k < 4)%nat -> (k' < 4)%nat -> sg l k = sg l k' -> k = k'.
Proof. intros Hl Hk Hk' E'. destruct (HC l Hl) as (s0 & s1 & s2 & s3 & E & ND & _). unfold GSCOModel.sg in E'. rewrite E in E'. apply (proj1 (NoDup_nth _ O) ND); auto. Qed.
Lemma around_sg c x l k : (l < n)%nat -> (k < 4)%nat -> around c (cells l) x (sg l k) = x (sg l k) + osgn k * c.
Proof.
  intros Hl Hk. unfold around. fold (sg l 0) (sg l 1) (sg l 2) (sg l 3). assert (E : forall q, (q < 4)%nat -> ind (sg l q) (sg l k) = if (k =? q)%nat then 1 else 0).
  { intros q Hq. unfold ind. destruct (Nat.eqb_spec (sg l k) (sg l q)) as [E|N]; destruct (Nat.eqb_spec k q); subst; auto; try contradiction. apply sg_inj in E; auto. contradiction. }
  rewrite !E by lia. generalize (x (sg l k)). intros v. unfold osgn. clear E. destruct k as [|[|[|[|k]]]]; [| | | |exfalso; lia]; unfold Nat.ltb; cbn; ring.
Qed.
Lemma around_out c x l s : (l < n)%nat -> ~ In s (cells l) -> around c (cells l) x s = x s.
Proof.
  intros Hl I. unfold around. fold (sg l 0) (sg l 1) (sg l 2) (sg l 3). assert (E : forall q, (q < 4)%nat -> ind (sg l q) s = 0).
  { intros q Hq. unfold ind. destruct (Nat.eqb_spec s (sg l q)) as [->|]; [|reflexivity]. exfalso. apply I. now apply sg_in. }
  rewrite !E by lia. ring.
Qed.
Lemma added_around c x l s : (l < n)%nat -> x s + added cells l c s [0; 1; 2; 3]%nat = around c (cells l) x s.
Proof.
  intros Hl. destruct (in_dec Nat.eq_dec s (cells l)) as [I|N].
  - destruct (in_sg l s Hl I) as (k & Hk & ->). rewrite around_sg by auto. f_equal. cbn [added]. assert (E : forall q, (q < 4)%nat -> (sg l k =? sg l q)%nat = (k =? q)%nat). { intros q Hq. destruct (Nat.eqb_spec k q) as [->|N]; [apply Nat.eqb_refl|]. apply Nat.eqb_neq. intros Q. apply N. now apply (sg_inj l). }
    rewrite !E by lia. clear E. destruct k as [|[|[|[|k]]]]; [reflexivity|reflexivity|reflexivity|reflexivity|exfalso; lia].
  - rewrite around_out by auto. cbn [added]. assert (E : forall q, (q < 4)%nat -> (s =? sg l q)%nat = false) by (intros q Hq; apply Nat.eqb_neq; intros ->; apply N; now apply sg_in). rewrite !E by lia. ring.
Qed.
Lemma meeting_count x k : meeting x k = INR (length (filter (fun s => active (x s)) (conn k))).
Proof. unfold GSCOProps.meeting. induction (conn k) as [|s l IH]; [reflexivity|]. cbn [fold_right filter]. rewrite active_act, IH. destruct (active (x s)); cbn [length]; [rewrite S_INR; ring|ring]. Qed.
Lemma crosses_spec x l c : (l < n)%nat -> crosses cells sstart send conn p x l c = false <-> forall k, In k (corners cells sstart send l) -> meeting (around c (cells l) x) k <= 2.
Proof.
  intros Hl. unfold crosses. assert (E : forall k, filter (fun s => active (x s + added cells l c s [0; 1; 2; 3]%nat)) (conn k) = filter (fun s => active (around c (cells l) x s)) (conn k)) by (intros k; apply filter_ext; intros s; now rewrite added_around).
  assert (Q : forall k, (2 <? length (filter (fun s => active (x s + added cells l c s [0; 1; 2; 3]%nat)) (conn k)))%nat = false <-> meeting (around c (cells l) x) k <= 2).
  { intros k. rewrite meeting_count, E. generalize (length (filter (fun s => active (around c (cells l) x s)) (conn k))). intros m. rewrite Nat.ltb_ge. replace 2 with (INR 2) by (cbn; lra). split; [apply le_INR|apply INR_le]. }
  split.
  - intros H k I. apply Q. destruct ((2 <? _)%nat) eqn:F; [|reflexivity]. exfalso. assert (T : existsb (fun k => (2 <? length (filter (fun s => active (x s + added cells l c s [0; 1; 2; 3]%nat)) (conn k)))%nat) (corners cells sstart send l) = true) by (apply existsb_exists; exists k; auto). rewrite H in T. discriminate.
  - intros H. destruct (existsb _ _) eqn:F; [|reflexivity]. exfalso. apply existsb_exists in F. destruct F as (k & I & F). apply H, Q in I. cbv beta in F. rewrite I in F. discriminate.
Qed.
Lemma exceeds_spec x l c : (l < n)%nat -> exceeds cells p x l c = false <-> forall mx, maxc p = Some mx -> forall s, In s (cells l) -> Rabs (around c (cells l) x s) <= mx.
Proof.
  intros Hl. unfold exceeds. destruct (maxc p) as [mx|]; [|split; [discriminate|reflexivity]]. split.
  - intros H mx' E s I. injection E as <-. destruct (in_sg l s Hl I) as (k & Hk & ->). rewrite around_sg by auto. apply Rnot_lt_le. intros L. assert (T : existsb (fun k => if Rlt_dec mx (Rabs (x (sg l k) + osgn k * c)) then true else false) [0; 1; 2; 3]%nat = true); [|rewrite H in T; discriminate]. apply existsb_exists. exists k. split; [cbn; lia|]. destruct (Rlt_dec _ _); [reflexivity|contradiction].
  - intros H. destruct (existsb _ _) eqn:F; [|reflexivity]. exfalso. apply existsb_exists in F. destruct F as (k & I & F). assert (Hk : (k < 4)%nat) by (cbn in I; lia). assert (K := H mx eq_refl (sg l k) (sg_in l k Hl Hk)). rewrite around_sg in K by auto. destruct (Rlt_dec _ _); [lra|discriminate].
Qed.
Lemma level_acc x l acc : 0 < acc -> level x l acc = if forallb (fun s => if Req_EM_T (x s) 0 then true else if Req_EM_T (Rabs (x s)) acc then true else false) l then Some acc else None.
Proof.
  intros Ha. induction l as [|s l IH]; [reflexivity|]. cbn [level forallb]. destruct (Rlt_dec 0 (Rabs (x s))) as [L|L]; destruct (Req_EM_T (x s) 0) as [E|E].
  - rewrite E, Rabs_R0 in L. lra.
  - destruct (Req_EM_T acc 0); [lra|]. destruct (Req_EM_T acc (Rabs (x s))) as [Q|Q]; destruct (Req_EM_T (Rabs (x s)) acc) as [Q'|Q']; try congruence. rewrite <- Q. exact IH. reflexivity.
  - exact IH.
  - exfalso. apply L. now apply Rabs_pos_lt.
Qed.
Lemma forall_level (x : nat -> R) l v : forallb (fun s => if Req_EM_T (x s) 0 then true else if Req_EM_T (Rabs (x s)) v then true else false) l = true <-> forall s, In s l -> x s = 0 \/ Rabs (x s) = v.
Proof. rewrite forallb_forall. split; intros H s I; specialize (H s I); destruct (Req_EM_T (x s) 0); auto; destruct (Req_EM_T (Rabs (x s)) v); auto; [discriminate|]. destruct H; contradiction. Qed.
Lemma level_spec x l v : level x l 0 = Some v <-> ((forall s, In s l -> x s = 0) /\ v = 0) \/ (0 < v /\ (exists s, In s l /\ Rabs (x s) = v) /\ forall s, In s l -> x s = 0 \/ Rabs (x s) = v).
Proof.
  induction l as [|s l IH].
  - cbn [level]. split; [intros E; injection E as <-; left; split; [intros s []|reflexivity]|]. intros [(_ & ->)|(_ & (s & [] & _) & _)]. reflexivity.
  - cbn [level]. destruct (Rlt_dec 0 (Rabs (x s))) as [L|L].
    + assert (NZ : x s <> 0) by (intros E; rewrite E, Rabs_R0 in L; lra). destruct (Req_EM_T 0 0) as [_|]; [|lra]. rewrite level_acc by exact L. split.
      * destruct (forallb _ _) eqn:F; [|discriminate]. intros E. injection E as <-. right. split; [exact L|]. split; [exists s; split; [now left|reflexivity]|]. intros t [->|I]; [now right|]. now apply (proj1 (forall_level x l (Rabs (x s)))).
      * intros [(Z & _)|(V & _ & H)]; [exfalso; apply NZ, Z; now left|]. assert (E : Rabs (x s) = v) by (destruct (H s (or_introl eq_refl)); [contradiction|auto]). rewrite E. rewrite (proj2 (forall_level x l v)); [reflexivity|]. intros t I. apply H. now right.
    + assert (Z : x s = 0) by (destruct (Req_EM_T (x s) 0) as [E|E]; [exact E|]; exfalso; apply L; now apply Rabs_pos_lt). rewrite IH. split.
      * intros [(H & E)|(V & (t & I & E) & H)]; [left; split; auto; intros t [->|I]; auto|]. right. split; [exact V|]. split; [exists t; split; [now right|exact E]|]. intros u [->|I']; auto.
      * intros [(H & E)|(V & (t & I & E) & H)]; [left; split; auto; intros t I; apply H; now right|]. right. split; [exact V|]. split; [|intros u I'; apply H; now right]. destruct I as [->|I]; [rewrite Z, Rabs_R0 in E; lra|]. exists t. auto.
Qed.
Lemma cells_sg l : (l < n)%nat -> map (sg l) [0; 1; 2; 3]%nat = cells l.
Proof. intros Hl. destruct (HC l Hl) as (s0 & s1 & s2 & s3 & E & _). unfold GSCOModel.sg. rewrite E. reflexivity. Qed.
Lemma loop_of_lt i : (i < 2 * n)%nat -> (loop_of i < n)%nat.
Proof. intros H. unfold GSCOModel.loop_of. destruct (Nat.ltb_spec i n); lia. Qed.
Lemma dir_cases i : (dir_of i = 1 \/ dir_of i = -1)%Z.
Proof. unfold GSCOModel.dir_of. destruct (i <? n)%nat; auto. Qed.
Lemma of_pair l d : (l < n)%nat -> (d = 1 \/ d = -1)%Z -> exists i, (i < 2 * n)%nat /\ loop_of i = l /\ dir_of i = d.
Proof.
  intros Hl [->| ->].
  - exists l. unfold GSCOModel.loop_of, GSCOModel.dir_of. destruct (Nat.ltb_spec l n); [|lia]. lia.
  - exists (l + n)%nat. unfold GSCOModel.loop_of, GSCOModel.dir_of. destruct (Nat.ltb_spec (l + n) n); lia.
Qed.
(** what check_eligibility accepts, with which current *)
Lemma elig_allowed st i c : (i < 2 * n)%nat -> (elig st i = c /\ c <> 0) <-> allowed (gx st) (gcnt st) (loop_of i) (dir_of i) c.
Proof.
  intros Hi. assert (Hl := loop_of_lt i Hi). unfold GSCOModel.elig, GSCOProps.allowed. cbv zeta. set (l := loop_of i) in *. set (d := dir_of i) in *. assert (Hd := dir_cases i). fold d in Hd. set (x := gx st). set (cnt := gcnt st).
  destruct (free l) eqn:FR; cbn [negb]; [|split; [intros (E & N); congruence|intros (_ & _ & _ & Q & _); discriminate]].
  destruct ((0 <? maxcount p)%Z && (maxcount p <? Z.abs (cnt l + d))%Z) eqn:MC.
  { split; [intros (E & N); congruence|]. intros (_ & _ & _ & _ & Q & _). apply andb_true_iff in MC. destruct MC as (M1 & M2). apply Z.ltb_lt in M1, M2. specialize (Q M1). lia. }
  assert (HM : (0 < maxcount p)%Z -> (Z.abs (cnt l + d) <= maxcount p)%Z). { intros M1. apply andb_false_iff in MC. destruct MC as [M|M]; [apply Z.ltb_ge in M|apply Z.ltb_ge in M]; lia. }
  destruct (no_new_coils p && forallb (fun k => negb (active (x (sg l k)))) [0; 1; 2; 3]%nat) eqn:NN.
  { split; [intros (E & N); congruence|]. intros (_ & _ & _ & _ & _ & Q & _). exfalso. apply andb_true_iff in NN. destruct NN as (N1 & N2). destruct (Q N1) as (s & I & Ac). destruct (in_sg l s Hl I) as (k & Hk & ->). rewrite forallb_forall in N2. assert (K := N2 k ltac:(cbn; lia)). apply active_Act in Ac. rewrite Ac in K. discriminate. }
  assert (HN : no_new_coils p = true -> exists s, In s (cells l) /\ Act p (x s)).
  { intros N1. rewrite N1 in NN. cbn [andb] in NN. destruct (existsb (fun k => active (x (sg l k))) [0; 1; 2; 3]%nat) eqn:EX.
    - apply existsb_exists in EX. destruct EX as (k & I & Ac). exists (sg l k). split; [apply sg_in; auto; cbn in I; lia|now apply active_Act].
    - exfalso. cbn [existsb forallb] in EX, NN. destruct (active (x (sg l 0))), (active (x (sg l 1))), (active (x (sg l 2))), (active (x (sg l 3))); cbn in EX, NN; discriminate. }
  assert (LC : forall c, loop_curr n cells p x i = Some c <-> (if match_current p then ((forall s, In s (cells l) -> x s = 0) /\ c = IZR d * dflt p) \/ (exists v, 0 < v /\ (exists s, In s (cells l) /\ Rabs (x s) = v) /\ (forall s, In s (cells l) -> x s = 0 \/ Rabs (x s) = v) /\ c = IZR d * v) else c = IZR d * dflt p)).
  { intros c0. unfold loop_curr. fold l d. destruct (match_current p); [|split; [intros E; injection E; auto|intros ->; reflexivity]]. rewrite cells_sg by auto. destruct (level x (cells l) 0) as [v|] eqn:LV.
    - assert (S := proj1 (level_spec x (cells l) v) LV). split.
      + intros E. injection E as <-. destruct S as [(Z & ->)|(V & EX & F)]; [left; split; auto; destruct (Req_EM_T 0 0); [reflexivity|lra]|]. right. exists v. destruct (Req_EM_T v 0); [lra|]. auto.
      + intros [(Z & ->)|(v' & V & EX & F & ->)].
        * destruct S as [(_ & ->)|(V & (s & I & E) & _)]; [destruct (Req_EM_T 0 0); [reflexivity|lra]|]. rewrite (Z s I), Rabs_R0 in E. lra.
        * assert (S' := proj2 (level_spec x (cells l) v') (or_intror (conj V (conj EX F)))). rewrite LV in S'. injection S' as ->. destruct (Req_EM_T v' 0); [lra|reflexivity].
    - split; [discriminate|]. intros [(Z & ->)|(v' & V & EX & F & ->)].
      + assert (S' := proj2 (level_spec x (cells l) 0) (or_introl (conj Z eq_refl))). rewrite LV in S'. discriminate.
      + assert (S' := proj2 (level_spec x (cells l) v') (or_intror (conj V (conj EX F)))). rewrite LV in S'. discriminate. }
  destruct (loop_curr n cells p x i) as [c0|] eqn:EL.
  2:{ split; [intros (E & N); congruence|]. intros (_ & _ & _ & _ & _ & _ & Q & _). apply LC in Q. discriminate. }
  assert (HX := exceeds_spec x l c0 Hl). assert (HK := crosses_spec x l c0 Hl). assert (L0 := proj1 (LC c0) eq_refl).
  destruct (exceeds cells p x l c0) eqn:EX.
  { split; [intros (E & N); congruence|]. intros (_ & _ & _ & _ & _ & _ & Q & Q2 & _). apply LC in Q. injection Q as <-. apply HX in Q2. discriminate. }
  destruct (no_crossing p) eqn:NC; cbn [andb].
  - destruct (crosses cells sstart send conn p x l c0) eqn:CR.
    { split; [intros (E & N); congruence|]. intros (_ & _ & _ & _ & _ & _ & Q & _ & Q3). apply LC in Q. injection Q as <-. specialize (Q3 eq_refl). apply HK in Q3. discriminate. }
    split.
    + intros (<- & N). split; [exact Hl|]. split; [exact Hd|]. split; [exact N|]. split; [reflexivity|]. split; [exact HM|]. split; [exact HN|]. split; [exact L0|]. split; [now apply HX|]. intros _. now apply HK.
    + intros (_ & _ & N & _ & _ & _ & Q & _). apply LC in Q. injection Q as <-. auto.
  - split.
    + intros (<- & N). split; [exact Hl|]. split; [exact Hd|]. split; [exact N|]. split; [reflexivity|]. split; [exact HM|]. split; [exact HN|]. split; [exact L0|]. split; [now apply HX|]. discriminate.
    + intros (_ & _ & N & _ & _ & _ & Q & _). apply LC in Q. injection Q as <-. auto.
Qed.
(** ** The recorded numbers *)
Record numbers (st : gst) : Prop := Num {
  num_res : forall m, gres st m = sum_to ns (fun s => A m s * gx st s) - b m;
  num_B : tfB st = 2 * fB (gx st); num_S : tfS st = 2 * fS (gx st); num_f : tf st = 2 * obj (gx st) }.
Lemma sum_ind a f : (a < ns)%nat -> sum_to ns (fun s => f s * ind a s) = f a.
Proof. intros H. rewrite <- (sum_to_single ns a f H). apply sum_to_ext. intros k _. unfold ind. destruct (k =? a)%nat; ring. Qed.
Lemma sum_around c x l m : (l < n)%nat -> sum_to ns (fun s => A m s * around c (cells l) x s) = sum_to ns (fun s => A m s * x s) + bnorm A cells l c m.
Proof.
  intros Hl. unfold around, bnorm. fold (sg l 0) (sg l 1) (sg l 2) (sg l 3). rewrite (sum_to_ext ns _ (fun s => A m s * x s + c * ((A m s * ind (sg l 0) s + A m s * ind (sg l 1) s) + (-1) * (A m s * ind (sg l 2) s + A m s * ind (sg l 3) s)))) by (intros; ring).
  rewrite sum_to_plus, sum_to_scal, sum_to_plus, sum_to_scal, !sum_to_plus. rewrite !sum_ind by (apply sg_lt; auto; lia). ring.
Qed.
Lemma sum_four l (D : nat -> R) : (l < n)%nat -> (forall s, ~ In s (cells l) -> D s = 0) -> sum_to ns D = sum_to 4 (fun k => D (sg l k)).
Proof.
  intros Hl Z. rewrite (sum_to_ext ns D (fun s => D s * ind (sg l 0) s + D s * ind (sg l 1) s + (D s * ind (sg l 2) s + D s * ind (sg l 3) s))).
  - rewrite !sum_to_plus, !sum_ind by (apply sg_lt; auto; lia). cbn [sum_to]. rewrite !sum_to_S. unfold sum_to at 1. cbn. ring.
  - intros s _. destruct (in_dec Nat.eq_dec s (cells l)) as [I|N]; [|rewrite (Z s N); ring]. destruct (in_sg l s Hl I) as (k & Hk & ->). assert (E : forall q, (q < 4)%nat -> ind (sg l q) (sg l k) = if (k =? q)%nat then 1 else 0). { intros q Hq. unfold ind. destruct (Nat.eqb_spec (sg l k) (sg l q)) as [E|N]; destruct (Nat.eqb_spec k q); subst; auto; try contradiction. apply sg_inj in E; auto. contradiction. }
    rewrite !E by lia. clear E. generalize (D (sg l k)). intros v. destruct k as [|[|[|[|k]]]]; [| | | |exfalso; lia]; cbn; ring.
Qed.
Lemma fS_around c x l : (l < n)%nat -> 2 * fS (around c (cells l) x) = 2 * fS x + nact p (fun k => x (sg l k) + osgn k * c) - nact p (fun k => x (sg l k)).
Proof.
  intros Hl. unfold GSCOProps.fS, nact. assert (E : sum_to ns (fun s => act p (around c (cells l) x s) - act p (x s)) = sum_to 4 (fun k => act p (around c (cells l) x (sg l k)) - act p (x (sg l k)))) by (apply (sum_four l (fun s => act p (around c (cells l) x s) - act p (x s))); auto; intros s N; rewrite around_out by auto; ring).
  rewrite sum_to_minus, sum_to_minus in E. rewrite (sum_to_ext 4 (fun k => act p (around c (cells l) x (sg l k))) (fun k => if active (x (sg l k) + osgn k * c) then 1 else 0)) in E by (intros k Hk; rewrite around_sg by auto; apply active_act). rewrite (sum_to_ext 4 (fun k => act p (x (sg l k))) (fun k => if active (x (sg l k)) then 1 else 0)) in E by (intros; apply active_act). lra.
Qed.
Lemma cand_B st i : numbers st -> (i < 2 * n)%nat -> cand_fB st i = 2 * fB (around (elig st i) (cells (loop_of i)) (gx st)).
Proof.
  intros N Hi. unfold GSCOModel.cand_fB, GSCOProps.fB. rewrite <- Rmult_assoc. replace (2 * / 2) with 1 by lra. rewrite Rmult_1_l. apply sum_to_ext. intros m _. rewrite sum_around by (now apply loop_of_lt). rewrite (num_res st N m). ring.
Qed.
Lemma cand_S st i : numbers st -> (i < 2 * n)%nat -> cand_fS st i = 2 * fS (around (elig st i) (cells (loop_of i)) (gx st)).
Proof. intros N Hi. unfold GSCOModel.cand_fS. cbv zeta. rewrite fS_around by (now apply loop_of_lt). rewrite (num_S st N). reflexivity. Qed.
Lemma cand_obj st i : numbers st -> (i < 2 * n)%nat -> cand_f st i = 2 * obj (around (elig st i) (cells (loop_of i)) (gx st)).
Proof. intros N Hi. unfold GSCOModel.cand_f, GSCOProps.obj. rewrite cand_B, cand_S by auto. ring. Qed.
(** ** The choice *)
Lemma eligible_spec st i : eligible st i = true <-> elig st i <> 0.
Proof. unfold GSCOModel.eligible. destruct (Req_EM_T _ _); split; auto; try discriminate; intros; contradiction. Qed.
Lemma best_none st m : best st m = None <-> forall i, (i < m)%nat -> elig st i = 0.
Proof.
  induction m as [|m IH]; [split; [lia|reflexivity]|]. cbn [GSCOModel.best]. destruct (eligible st m) eqn:E.
  - split; [destruct (best st m); [destruct (Rlt_dec _ _)|]; discriminate|]. intros H. apply eligible_spec in E. exfalso. apply E, H. lia.
  - assert (Z : elig st m = 0) by (unfold GSCOModel.eligible in E; destruct (Req_EM_T (elig st m) 0); [auto|discriminate]). rewrite IH. split; intros H i Hi; [destruct (Nat.eq_dec i m); [subst; auto|apply H; lia]|apply H; lia].
Qed.
Lemma best_some st m j : best st m = Some j -> (j < m)%nat /\ elig st j <> 0 /\ (forall i, (i < m)%nat -> elig st i <> 0 -> cand_f st j <= cand_f st i) /\ (forall i, (i < j)%nat -> elig st i <> 0 -> cand_f st j < cand_f st i).
Proof.
  revert j. induction m as [|m IH]; intros j; [discriminate|]. cbn [GSCOModel.best]. destruct (eligible st m) eqn:E.
  - apply eligible_spec in E. destruct (best st m) as [j0|] eqn:B.
    + destruct (IH j0 eq_refl) as (L & NZ & M & F). destruct (Rlt_dec _ _) as [C|C]; intros Q; injection Q as <-.
      * split; [lia|]. split; [exact E|]. split; intros i Hi Ni; (destruct (Nat.eq_dec i m) as [->|]; [try lra; lia|]); assert (K := M i ltac:(lia) Ni); lra.
      * split; [lia|]. split; [exact NZ|]. split; [|exact F]. intros i Hi Ni. destruct (Nat.eq_dec i m) as [->|]; [lra|]. apply M; auto. lia.
    + intros Q. injection Q as <-. assert (Z := proj1 (best_none st m) B). split; [lia|]. split; [exact E|]. split; intros i Hi Ni; (destruct (Nat.eq_dec i m) as [->|]; [try lra; lia|]); exfalso; apply Ni, Z; lia.
  - assert (Z : elig st m = 0) by (unfold GSCOModel.eligible in E; destruct (Req_EM_T (elig st m) 0); [auto|discriminate]). intros Q. destruct (IH j Q) as (L & NZ & M & F). split; [lia|]. split; [exact NZ|]. split; [|exact F]. intros i Hi Ni. destruct (Nat.eq_dec i m) as [->|]; [contradiction|]. apply M; auto. lia.
Qed.
Lemma best_stuck st : best st (2 * n) = None -> stuck n cells free sstart send conn p (gx st) (gcnt st).
Proof.
  intros B l d c Hal. destruct (of_pair l d (proj1 Hal) (proj1 (proj2 Hal))) as (i & Hi & <- & <-). apply (elig_allowed st i c Hi) in Hal. destruct Hal as (E & N). apply N. rewrite <- E. now apply (best_none st (2 * n)).
Qed.
Lemma best_greedy st j : numbers st -> best st (2 * n) = Some j -> (j < 2 * n)%nat /\ greedy_choice (gx st) (gcnt st) (loop_of j) (dir_of j) (elig st j).
Proof.
  intros N B. destruct (best_some st (2 * n) j B) as (L & NZ & M & _). split; [exact L|]. split; [now apply (elig_allowed st j (elig st j) L)|]. intros l' d' c' Hal. destruct (of_pair l' d' (proj1 Hal) (proj1 (proj2 Hal))) as (i & Hi & <- & <-). apply (elig_allowed st i c' Hi) in Hal. destruct Hal as (<- & Ni). assert (K := M i Hi Ni). rewrite !cand_obj in K by auto. lra.
Qed.
(** ** One addition *)
Lemma upd4 c x l : (l < n)%nat -> let x1 := upd x (sg l 0) (x (sg l 0) + c) in let x2 := upd x1 (sg l 1) (x1 (sg l 1) + c) in
  let x3 := upd x2 (sg l 2) (x2 (sg l 2) - c) in upd x3 (sg l 3) (x3 (sg l 3) - c) = around c (cells l) x.
Proof.
  intros Hl. cbv zeta. apply functional_extensionality. intros s. assert (NE : forall a q, (a < 4)%nat -> (q < 4)%nat -> a <> q -> (sg l a =? sg l q)%nat = false) by (intros a q Ha Hq N; apply Nat.eqb_neq; intros E; apply N; now apply (sg_inj l)).
  unfold upd. rewrite ?(NE 1%nat 0%nat), ?(NE 2%nat 0%nat), ?(NE 2%nat 1%nat), ?(NE 3%nat 0%nat), ?(NE 3%nat 1%nat), ?(NE 3%nat 2%nat) by lia.
  destruct (in_dec Nat.eq_dec s (cells l)) as [I|N].
  - destruct (in_sg l s Hl I) as (k & Hk & ->). rewrite around_sg by auto. assert (E : forall q, (q < 4)%nat -> (sg l k =? sg l q)%nat = (k =? q)%nat). { intros q Hq. destruct (Nat.eqb_spec k q) as [->|N]; [apply Nat.eqb_refl|]. now apply NE. }
    rewrite !E by lia. clear E. destruct k as [|[|[|[|k]]]]; [| | | |exfalso; lia]; cbn [Nat.eqb]; unfold osgn, Nat.ltb; cbn [Nat.leb]; ring.
  - rewrite around_out by auto. assert (E : forall q, (q < 4)%nat -> (s =? sg l q)%nat = false) by (intros q Hq; apply Nat.eqb_neq; intros ->; apply N; now apply sg_in). rewrite !E by lia. reflexivity.
Qed.
Lemma accept_x st i : (i < 2 * n)%nat -> gx (accept st i) = around (elig st i) (cells (loop_of i)) (gx st).
Proof. intros Hi. unfold GSCOModel.accept. cbv zeta. cbn [gx]. apply upd4. now apply loop_of_lt. Qed.
Lemma accept_numbers st i : numbers st -> (i < 2 * n)%nat -> numbers (accept st i).
Proof.
  intros N Hi. assert (E := accept_x st i Hi). constructor; rewrite E; [|unfold GSCOModel.accept; cbv zeta; cbn [tfB tfS tf]..].
  - intros m. unfold GSCOModel.accept. cbv zeta. cbn [gres]. rewrite sum_around by (now apply loop_of_lt). rewrite (num_res st N m). ring.
  - now apply cand_B.
  - now apply cand_S.
  - now apply cand_obj.
Qed.
Lemma numbers_init x0 cnt0 : numbers (ginit ng ns A b p x0 cnt0).
Proof.
  unfold ginit. cbv zeta. assert (S : two_f_S ns p x0 = 2 * fS x0). { unfold two_f_S, GSCOProps.fS. rewrite <- sum_to_scal, <- Rmult_assoc. replace (2 * / 2) with 1 by lra. rewrite Rmult_1_l. apply sum_to_ext. intros k _. rewrite active_act. destruct (active (x0 k)); field. }
  assert (B : sum_to ng (fun m => (sum_to ns (fun j => A m j * x0 j) - b m) * (sum_to ns (fun j => A m j * x0 j) - b m)) = 2 * fB x0). { unfold GSCOProps.fB. rewrite <- Rmult_assoc. replace (2 * / 2) with 1 by lra. rewrite Rmult_1_l. apply sum_to_ext. intros m _. ring. }
  constructor; cbn [gres gx tfB tfS tf]; [reflexivity|exact B|exact S|]. rewrite S, B. unfold GSCOProps.obj. ring.
Qed.
Definition with_prev (st : gst) (i : nat) : gst := G (gx st) (gcnt st) (gres st) (tfB st) (tfS st) (tf st) (Some i) (hist st).
(** the state: sound numbers, the records are those of greedy additions, and [prev] is the last of them *)
Definition traced (x0 : nat -> R) (cnt0 : nat -> Z) (k : nat) (st : gst) : Prop :=
  numbers st /\ exists es, hist st = (0, O, fB x0, fS x0, obj x0) :: es /\ length es = k /\ greedy x0 cnt0 es (gx st) (gcnt st) /\
  match prev st with None => k = O | Some j => (j < 2 * n)%nat /\ exists x1 cnt1 c, greedy_choice x1 cnt1 (loop_of j) (dir_of j) c /\ gx st = around c (cells (loop_of j)) x1 /\ gcnt st = upd cnt1 (loop_of j) (cnt1 (loop_of j) + dir_of j)%Z end.
Lemma traced_accept x0 cnt0 k st i : traced x0 cnt0 k st -> best st (2 * n) = Some i -> 
  numbers (accept st i) /\ exists es, hist (accept st i) = (0, O, fB x0, fS x0, obj x0) :: es /\ length es = S k /\ greedy x0 cnt0 es (gx (accept st i)) (gcnt (accept st i)).
Proof.
  intros (N & es & EH & EL & GR & _) B. destruct (best_greedy st i N B) as (Hi & GC). split; [now apply accept_numbers|]. eexists. split; [unfold GSCOModel.accept; cbv zeta; cbn [hist]; rewrite EH; cbn [app]; reflexivity|]. split; [rewrite app_length, EL; cbn; lia|].
  rewrite accept_x by auto. unfold GSCOModel.accept. cbv zeta. cbn [gcnt]. rewrite cand_B, cand_S, cand_obj by auto. rewrite <- !Rmult_assoc. replace (/ 2 * 2) with 1 by lra. rewrite !Rmult_1_l. exact (greedy_add ng ns n A b cells free sstart send conn p x0 cnt0 es (gx st) (gcnt st) (loop_of i) (dir_of i) (elig st i) GR GC).
Qed.
Lemma around_back c x l : around (- c) (cells l) (around c (cells l) x) = x.
Proof. apply functional_extensionality. intros s. unfold around. ring. Qed.
Lemma upd_back (f : nat -> Z) l d : upd (upd f l (f l + d)%Z) l (upd f l (f l + d)%Z l + - d)%Z = f.
Proof. apply functional_extensionality. intros s. unfold upd. rewrite Nat.eqb_refl. destruct (Nat.eqb_spec s l) as [->|]; lia. Qed.
(** why the iterations end *)
Definition outcome (N k : nat) (why : stop) (x : nat -> R) (cnt : nat -> Z) : Prop := match why with
  | NoneEligible => stuck n cells free sstart send conn p x cnt
  | Undone => match_current p = false -> local_min ng ns n A b cells free sstart send conn p x cnt
  | LastIter => k = N
  | NoIter => N = O end.
Lemma iterate_trace x0 cnt0 fuel : forall k st st' why, traced x0 cnt0 k st -> (fuel = O -> k = O) -> iterate ng n A cells free sstart send conn p fuel st = (st', why) ->
  exists k', numbers st' /\ (k <= k' <= k + fuel)%nat /\ (exists es, hist st' = (0, O, fB x0, fS x0, obj x0) :: es /\ length es = k' /\ greedy x0 cnt0 es (gx st') (gcnt st')) /\ outcome (k + fuel) k' why (gx st') (gcnt st').
Proof.
  induction fuel as [|fuel IH]; intros k st st' why Tr Z E.
  - cbn in E. injection E as <- <-. destruct Tr as (N & es & EH & EL & GR & _). exists k. split; [exact N|]. split; [lia|]. split; [exists es; auto|]. cbn. rewrite Z by reflexivity. reflexivity.
  - cbn [iterate] in E. destruct (best st (2 * n)) as [i|] eqn:B.
    2:{ injection E as <- <-. destruct Tr as (N & es & EH & EL & GR & _). exists k. split; [exact N|]. split; [lia|]. split; [exists es; auto|]. cbn. now apply best_stuck. }
    destruct (undoes n st i) eqn:U.
    + assert (Tr' := Tr). destruct Tr' as (N & es & EH & EL & GR & PV). unfold undoes in U. destruct (prev st) as [j|]; [|discriminate]. destruct PV as (Hj & x1 & cnt1 & c & GC & EX & EC). apply Nat.eqb_eq in U. destruct (best_greedy st i N B) as (Hi & GI). rewrite Nat.mod_small in U by lia.
      destruct (Rlt_dec (tf st) (cand_f st i)) as [L|L]; injection E as <- <-.
      * exists k. split; [exact N|]. split; [lia|]. split; [exists es; auto|]. cbn. intros _ l d c' Hal. apply (proj2 GI) in Hal. rewrite (num_f st N), cand_obj in L by auto. lra.
      * exists (S k). destruct (traced_accept x0 cnt0 k st i Tr B) as (N' & TR). split; [exact N'|]. split; [lia|]. split; [exact TR|]. unfold outcome. intros NM.
        assert (L1 : loop_of i = loop_of j) by (unfold GSCOModel.loop_of; destruct (Nat.ltb_spec i n); destruct (Nat.ltb_spec j n); lia). assert (D1 : dir_of i = 1%Z /\ dir_of j = (-1)%Z) by (unfold GSCOModel.dir_of; destruct (Nat.ltb_spec i n); destruct (Nat.ltb_spec j n); lia). destruct D1 as (D1 & D2).
        assert (CI : elig st i = - c). { destruct GI as (AI & _), GC as (AC & _). destruct AI as (_ & _ & _ & _ & _ & _ & QI & _). destruct AC as (_ & _ & _ & _ & _ & _ & QC & _). rewrite NM in QI, QC. rewrite QI, QC, D1, D2. ring. }
        assert (X' : gx (accept st i) = x1) by (rewrite accept_x by auto; rewrite CI, L1, EX; apply around_back).
        assert (C' : gcnt (accept st i) = cnt1). { unfold GSCOModel.accept. cbv zeta. cbn [gcnt]. rewrite L1, EC, D1, D2. exact (upd_back cnt1 (loop_of j) (-1)). }
        rewrite X', C'. intros l d c' Hal. apply (proj2 GC) in Hal. rewrite <- EX in Hal. rewrite (num_f st N), cand_obj in L by auto. rewrite <- (accept_x st i Hi), X' in L. lra.
    + change (G (gx st) (gcnt st) (gres st) (tfB st) (tfS st) (tf st) (Some i) (hist st)) with (with_prev st i) in E.
      assert (Trp : traced x0 cnt0 k st) by exact Tr. destruct (best_greedy st i (proj1 Tr) B) as (Hi & GI).
      assert (N' : numbers (with_prev st i)) by (destruct (proj1 Tr) as [A1 A2 A3 A4]; constructor; assumption).
      assert (TA : traced x0 cnt0 (S k) (accept (with_prev st i) i)).
      { destruct (traced_accept x0 cnt0 k st i Tr B) as (NA & es' & EH' & EL' & GR'). split; [now apply accept_numbers|]. exists es'. split; [exact EH'|]. split; [exact EL'|]. split; [exact GR'|]. change (prev (accept (with_prev st i) i)) with (Some i). split; [exact Hi|]. exists (gx st), (gcnt st), (elig st i). split; [exact GI|]. split; [exact (accept_x st i Hi)|reflexivity]. }
      destruct fuel as [|fuel].
      * injection E as <- <-. destruct TA as (NA & es' & EH' & EL' & GR' & _). exists (S k). split; [exact NA|]. split; [lia|]. split; [exists es'; auto|]. cbn. lia.
      * destruct (IH (S k) _ st' why TA ltac:(discriminate) E) as (k' & R1 & R2 & R3 & R4). exists k'. split; [exact R1|]. split; [lia|]. split; [exact R3|]. replace (k + S (S fuel))%nat with (S k + S fuel)%nat by lia. exact R4.
Qed.
(** what GSCO returns: the records of a sequence of greedy additions that leads from the initial to the returned currents and loop counts *)
Theorem C95_trace x0 cnt0 N st why : GSCO ng ns n A b cells free sstart send conn p x0 cnt0 N = (st, why) ->
  exists es, hist st = (0, O, fB x0, fS x0, obj x0) :: es /\ (length es <= N)%nat /\ greedy x0 cnt0 es (gx st) (gcnt st) /\ outcome N (length es) why (gx st) (gcnt st).
Proof.
  intros E. unfold GSCO in E. assert (N0 := numbers_init x0 cnt0). destruct (Nat.eq_dec N 0) as [->|NZ].
  - cbn in E. injection E as <- <-. exists []. split; [|split; [cbn; lia|split; [constructor|reflexivity]]]. destruct N0 as [_ NB NS Nf]. unfold ginit in *. cbv zeta in *. cbn [hist gx gcnt tfB tfS tf] in *. rewrite NB, NS. unfold GSCOProps.obj. replace (/ 2 * (2 * fB x0)) with (fB x0) by field. replace (/ 2 * (2 * fS x0)) with (fS x0) by field. replace (/ 2 * lam p * (2 * fS x0)) with (lam p * fS x0) by field. reflexivity.
  - destruct (iterate_trace x0 cnt0 N 0 (ginit ng ns A b p x0 cnt0) st why) with (3 := E) as (k' & _ & R2 & (es & EH & EL & GR) & R4).
    + split; [exact N0|]. exists []. destruct N0 as [_ NB NS Nf]. unfold ginit in *. cbv zeta in *. cbn [hist gx gcnt tfB tfS tf prev] in *. split; [rewrite NB, NS; unfold GSCOProps.obj; replace (/ 2 * (2 * fB x0)) with (fB x0) by field; replace (/ 2 * (2 * fS x0)) with (fS x0) by field; replace (/ 2 * lam p * (2 * fS x0)) with (lam p * fS x0) by field; reflexivity|]. split; [reflexivity|]. split; [constructor|reflexivity].
    + intros. contradiction.
    + exists es. split; [exact EH|]. subst k'. split; [lia|]. split; [exact GR|exact R4].
Qed.
(** ** Consequences *)
Lemma greedy_ind' (Q : list (R * nat * R * R * R) -> (nat -> R) -> (nat -> Z) -> Prop) x0 cnt0 : Q [] x0 cnt0 ->
  (forall es x1 cnt1 l d c, greedy x0 cnt0 es x1 cnt1 -> Q es x1 cnt1 -> greedy_choice x1 cnt1 l d c -> let x2 := around c (cells l) x1 in Q (es ++ [(c, l, fB x2, fS x2, obj x2)]) x2 (upd cnt1 l (cnt1 l + d)%Z)) ->
  forall es x cnt, greedy x0 cnt0 es x cnt -> Q es x cnt.
Proof.
  intros H0 HS es x cnt GR. remember x0 as y eqn:Ey. remember cnt0 as cy eqn:Ec. induction GR as [x cnt|x cnt es x1 cnt1 l d c GR IH GC]; subst; [exact H0|]. cbv zeta. apply (HS es x1 cnt1 l d c); auto.
Qed.
(** currents change only on segments of free loops, and stay within the limit *)
Theorem C94_currents x0 cnt0 N st why s : GSCO ng ns n A b cells free sstart send conn p x0 cnt0 N = (st, why) ->
  gx st s = x0 s \/ ((exists l, (l < n)%nat /\ free l = true /\ In s (cells l)) /\ forall mx, maxc p = Some mx -> Rabs (gx st s) <= mx).
Proof.
  intros E. destruct (C95_trace x0 cnt0 N st why E) as (es & _ & _ & GR & _). revert GR. generalize (gx st) (gcnt st). intros x cnt GR. apply (greedy_ind' (fun _ x _ => x s = x0 s \/ ((exists l, (l < n)%nat /\ free l = true /\ In s (cells l)) /\ forall mx, maxc p = Some mx -> Rabs (x s) <= mx)) x0 cnt0) with (es := es) (cnt := cnt); [now left| |exact GR].
  intros es' x1 cnt1 l d c _ IH ((Hl & _ & _ & FR & _ & _ & _ & MX & _) & _). cbv zeta. destruct (in_dec Nat.eq_dec s (cells l)) as [I|NI].
  - right. split; [exists l; auto|]. intros mx Em. now apply (MX mx).
  - rewrite around_out by auto. exact IH.
Qed.
(** loop counts change only on free loops, stay within the limit, and are the numbers of recorded additions in either direction *)
Definition tally (l : nat) (es : list (R * nat * R * R * R)) : Z :=
  fold_right (fun r z => let '(c, l', _, _, _) := r in ((if (l' =? l)%nat then if Rlt_dec 0 c then 1 else -1 else 0) + z)%Z) 0%Z es.
Lemma tally_app l es es' : tally l (es ++ es') = (tally l es + tally l es')%Z.
Proof. induction es as [|((((c, l'), u), v), w) es IH]; [reflexivity|]. cbn [app tally fold_right]. fold (tally l). unfold tally in *. rewrite IH. ring. Qed.
Theorem C94_counts x0 cnt0 N st why l : 0 <= dflt p -> GSCO ng ns n A b cells free sstart send conn p x0 cnt0 N = (st, why) ->
  (gcnt st l = cnt0 l + tally l (tl (hist st)))%Z /\ (gcnt st l = cnt0 l \/ (l < n)%nat /\ free l = true /\ ((0 < maxcount p)%Z -> (Z.abs (gcnt st l) <= maxcount p)%Z)).
Proof.
  intros HD E. destruct (C95_trace x0 cnt0 N st why E) as (es & -> & _ & GR & _). cbn [tl]. revert GR. generalize (gx st) (gcnt st). intros x cnt GR. apply (greedy_ind' (fun es _ cnt => (cnt l = cnt0 l + tally l es)%Z /\ (cnt l = cnt0 l \/ (l < n)%nat /\ free l = true /\ ((0 < maxcount p)%Z -> (Z.abs (cnt l) <= maxcount p)%Z))) x0 cnt0) with (x := x); [cbn; split; [lia|now left]| |exact GR].
  intros es' x1 cnt1 l' d c _ (IH1 & IH2) ((Hl & Dd & NZ & FR & MC & _ & MT & _ & _) & _). cbv zeta. rewrite tally_app. cbn [tally fold_right]. unfold upd. rewrite (Nat.eqb_sym l' l). destruct (Nat.eqb_spec l l') as [->|NE]; [|split; [lia|exact IH2]].
  assert (SG : (if Rlt_dec 0 c then 1 else -1)%Z = d). { assert (K : exists v, 0 <= v /\ c = IZR d * v) by (destruct (match_current p); [destruct MT as [(_ & ->)|(v & V & _ & _ & ->)]; [exists (dflt p); auto|exists v; split; [lra|reflexivity]]|exists (dflt p); auto]). destruct K as (v & V & ->). assert (v <> 0) by (intros ->; apply NZ; ring). destruct Dd as [->| ->]; destruct (Rlt_dec _ _) as [L|L]; auto; exfalso; lra. }
  rewrite SG. split; [lia|]. right. auto.
Qed.
(** without new coils: nothing starts from inactive segments; without a loop current: nothing at all *)
Theorem C94_no_new_coils x0 cnt0 N st why : GSCO ng ns n A b cells free sstart send conn p x0 cnt0 N = (st, why) ->
  (no_new_coils p = true /\ (forall s, (s < ns)%nat -> ~ Act p (x0 s))) \/ (match_current p = false /\ dflt p = 0) -> gx st = x0 /\ gcnt st = cnt0.
Proof.
  intros E H. destruct (C95_trace x0 cnt0 N st why E) as (es & _ & _ & GR & _). revert GR. generalize (gx st) (gcnt st). intros x cnt GR. apply (greedy_ind' (fun _ x cnt => x = x0 /\ cnt = cnt0) x0 cnt0) with (es := es); [auto| |exact GR].
  intros es' x1 cnt1 l d c _ (-> & ->) ((Hl & _ & NZ & _ & _ & NN & MT & _) & _). exfalso. destruct H as [(H1 & H2)|(H1 & H2)].
  - destruct (NN H1) as (s & I & Ac). apply (H2 s); auto. destruct (in_sg l s Hl I) as (k & Hk & ->). now apply sg_lt.
  - rewrite H1, H2 in MT. apply NZ. rewrite MT. ring.
Qed.
(** every recorded state can be replayed, and its record shows its objectives *)
Lemma replay_around c l u v w x : (l < n)%nat -> replay_one cells x (c, l, u, v, w) = around c (cells l) x.
Proof.
  intros Hl. apply functional_extensionality. intros s. unfold replay_one, around, ind. fold (sg l 0) (sg l 1) (sg l 2) (sg l 3). assert (NE : forall a q, (a < 4)%nat -> (q < 4)%nat -> a <> q -> sg l a <> sg l q) by (intros a q Ha Hq N E; apply N; now apply (sg_inj l)).
  assert (N01 := NE 0%nat 1%nat ltac:(lia) ltac:(lia) ltac:(lia)). assert (N02 := NE 0%nat 2%nat ltac:(lia) ltac:(lia) ltac:(lia)). assert (N03 := NE 0%nat 3%nat ltac:(lia) ltac:(lia) ltac:(lia)). assert (N12 := NE 1%nat 2%nat ltac:(lia) ltac:(lia) ltac:(lia)). assert (N13 := NE 1%nat 3%nat ltac:(lia) ltac:(lia) ltac:(lia)). assert (N23 := NE 2%nat 3%nat ltac:(lia) ltac:(lia) ltac:(lia)).
  destruct (Nat.eqb_spec s (sg l 0)), (Nat.eqb_spec s (sg l 1)), (Nat.eqb_spec s (sg l 2)), (Nat.eqb_spec s (sg l 3)); cbn [orb]; try (exfalso; congruence); ring.
Qed.
Lemma greedy_replay x0 cnt0 es x cnt : greedy x0 cnt0 es x cnt -> fold_left (replay_one cells) es x0 = x.
Proof.
  apply (greedy_ind' (fun es x _ => fold_left (replay_one cells) es x0 = x) x0 cnt0); [reflexivity|]. intros es' x1 cnt1 l d c _ IH GC. cbv zeta. rewrite fold_left_app, IH. cbn [fold_left]. apply replay_around. exact (proj1 (proj1 GC)).
Qed.
Lemma greedy_prefix x0 cnt0 es x cnt : greedy x0 cnt0 es x cnt -> forall k, (k <= length es)%nat -> exists xk ck, greedy x0 cnt0 (firstn k es) xk ck.
Proof.
  apply (greedy_ind' (fun es _ _ => forall k, (k <= length es)%nat -> exists xk ck, greedy x0 cnt0 (firstn k es) xk ck) x0 cnt0).
  - intros k _. rewrite firstn_nil. exists x0, cnt0. constructor.
  - intros es' x1 cnt1 l d c GR IH GC. cbv zeta. intros k Hk. rewrite app_length in Hk. cbn [length] in Hk. destruct (Nat.eq_dec k (S (length es'))) as [->|NE].
    + rewrite firstn_all2 by (rewrite app_length; cbn; lia). do 2 eexists. exact (greedy_add _ _ _ _ _ _ _ _ _ _ _ _ _ _ _ _ _ _ _ GR GC).
    + rewrite firstn_app. replace (k - length es')%nat with O by lia. cbn [firstn]. rewrite app_nil_r. apply IH. lia.
Qed.
Theorem C95_replay x0 cnt0 N st why k : GSCO ng ns n A b cells free sstart send conn p x0 cnt0 N = (st, why) -> (k < length (hist st))%nat ->
  exists xk c l, get_gsco_iteration cells x0 (hist st) k = Some xk /\ nth k (hist st) (0, O, 0, 0, 0) = (c, l, fB xk, fS xk, obj xk) /\ (S k = length (hist st) -> xk = gx st) /\
  (k = O -> xk = x0) /\
  ((S k < length (hist st))%nat -> exists ck l' d c', greedy_choice xk ck l' d c' /\ get_gsco_iteration cells x0 (hist st) (S k) = Some (around c' (cells l') xk)).
Proof.
  intros E Hk. destruct (C95_trace x0 cnt0 N st why E) as (es & EH & _ & GR & _). rewrite EH in *. cbn [length] in Hk.
  assert (R0 : replay_one cells x0 (0, O, fB x0, fS x0, obj x0) = x0) by (apply functional_extensionality; intros s; unfold replay_one; destruct (_ || _), (_ || _); ring).
  assert (GI : forall q, (q <= length es)%nat -> get_gsco_iteration cells x0 ((0, O, fB x0, fS x0, obj x0) :: es) q = Some (fold_left (replay_one cells) (firstn q es) x0)).
  { intros q Hq. unfold get_gsco_iteration. cbn [length]. destruct (Nat.ltb_spec (S (length es)) (q + 1)); [lia|]. replace (q + 1)%nat with (S q) by lia. cbn [firstn fold_left]. rewrite R0. reflexivity. }
  assert (NX : forall q, (q < length es)%nat -> exists xk ck l d c, greedy x0 cnt0 (firstn q es) xk ck /\ greedy_choice xk ck l d c /\ let x2 := around c (cells l) xk in firstn (S q) es = firstn q es ++ [(c, l, fB x2, fS x2, obj x2)]).
  { intros q Hq. destruct (greedy_prefix x0 cnt0 es _ _ GR (S q) ltac:(lia)) as (xk & ck & G1). remember (firstn (S q) es) as fs eqn:Ef. destruct G1 as [|x cnt es1 x1 cnt1 l d c G1 GC]; [destruct es; [cbn in Hq; lia|discriminate]|]. exists x1, cnt1, l, d, c. assert (E1 : es1 = firstn q es). { assert (L : length (firstn (S q) es) = S q) by (apply firstn_length_le; lia). rewrite <- Ef in L. rewrite app_length in L. cbn in L. replace (firstn q es) with (firstn q (firstn (S q) es)) by (rewrite firstn_firstn; f_equal; lia). rewrite <- Ef, firstn_app. replace (q - length es1)%nat with O by lia. rewrite firstn_all2 by lia. cbn. now rewrite app_nil_r. }
    rewrite <- E1. auto. }
  assert (ST : forall q, (q <= length es)%nat -> exists xk c l, fold_left (replay_one cells) (firstn q es) x0 = xk /\ nth q ((0, O, fB x0, fS x0, obj x0) :: es) (0, O, 0, 0, 0) = (c, l, fB xk, fS xk, obj xk)).
  { intros [|q] Hq; [exists x0, 0, O; split; reflexivity|]. destruct (NX q ltac:(lia)) as (xk & ck & l & d & c & G1 & GC & F). exists (around c (cells l) xk), c, l. cbv zeta in F. split.
    - rewrite F, fold_left_app, (greedy_replay _ _ _ _ _ G1). cbn [fold_left]. apply replay_around. exact (proj1 (proj1 GC)).
    - cbn [nth]. rewrite <- (firstn_skipn (S q) es), F. rewrite <- app_assoc, app_nth2 by (rewrite firstn_length; lia). rewrite firstn_length. replace (q - Nat.min q (length es))%nat with O by lia. reflexivity. }
  destruct (ST k ltac:(lia)) as (xk & c & l & F1 & F2). exists xk, c, l. split; [rewrite GI by lia; now rewrite F1|]. split; [exact F2|]. split; [|split].
  - cbn [length]. intros EK. rewrite <- F1, firstn_all2 by lia. exact (greedy_replay _ _ _ _ _ GR).
  - intros ->. rewrite <- F1. reflexivity.
  - cbn [length]. intros L. destruct (NX k ltac:(lia)) as (x1 & ck & l' & d & c' & G1 & GC & F). assert (E1 : x1 = xk) by (rewrite <- F1; symmetry; exact (greedy_replay _ _ _ _ _ G1)). subst x1. exists ck, l', d, c'. split; [exact GC|]. rewrite GI by lia. rewrite F, fold_left_app, F1. cbn [fold_left]. now rewrite replay_around by exact (proj1 (proj1 GC)).
Qed.
(** an addition that raises the objective is only chosen when no addition lowers it *)
Theorem C95_increase x cnt l d c : greedy_choice x cnt l d c -> obj x < obj (around c (cells l) x) -> local_min ng ns n A b cells free sstart send conn p x cnt /\ forall l' d' c', allowed x cnt l' d' c' -> obj x < obj (around c' (cells l') x).
Proof. intros (_ & M) L. split; intros l' d' c' H; assert (K := M l' d' c' H); lra. Qed.
End Props.
