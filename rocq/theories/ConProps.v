(** C36, C37: constrained problems. *)
From Verif Require Import ListAux DofsModel VecAux LsqModel LsqProps.
Local Open Scope R_scope.

(** ** Specification *)
(** l <= v, v <= u and e <= 0 for possibly infinite l, u, e *)
Definition le_low (l : ext) (v : R) : Prop := match l with NInf => True | Fin r => r <= v | PInf => False end.
Definition le_up (v : R) (u : ext) : Prop := match u with NInf => False | Fin r => v <= r | PInf => True end.
Definition nonpos (e : ext) : Prop := match e with NInf => True | Fin r => r <= 0 | PInf => False end.
(** the bound for component j *)
Definition bound_at (b : bound) (j : nat) : ext := match b with BScal e => e | BVec l => nth j l NInf end.
(** a scalar bound, or one per component *)
Definition fits (b : bound) (out : list R) : Prop := match b with BScal _ => True | BVec l => length l = length out end.
(** l <= c <= u in every component *)
Definition holds (c : con) (out : list R) : Prop := forall j v, nth_error out j = Some v -> le_low (bound_at (c_lhs c) j) v /\ le_up v (bound_at (c_rhs c) j).
(** a lower bound is never +inf, an upper bound never -inf *)
Definition sane (c : con) (out : list R) : Prop := forall j, (j < length out)%nat -> bound_at (c_lhs c) j <> PInf /\ bound_at (c_rhs c) j <> NInf.
Definition has_bound (c : con) : Prop := exists b, (b = c_lhs c \/ b = c_rhs c) /\ bany b = true.

(** what is reported: l - c for the lower bound, c - u for the upper bound *)
Definition lower_part (c : con) (out : list R) : list ext := map (fun jv => esub (bound_at (c_lhs c) (fst jv)) (snd jv)) (combine (seq 0 (length out)) out).
Definition upper_part (c : con) (out : list R) : list ext := map (fun jv => subr (snd jv) (bound_at (c_rhs c) (fst jv))) (combine (seq 0 (length out)) out).
Definition reported (c : con) (out : list R) : list ext :=
  (if bany (c_lhs c) then lower_part c out else []) ++ (if bany (c_rhs c) then upper_part c out else []).

(** ** the loop *)
Lemma vmap2_seq {A} (op : A -> R -> A) (d : A) : forall (l : list A) out k, length l = length out ->
  forall L, (forall j, nth (k + j) L d = nth j l d) -> vmap2 op l out = map (fun jv => op (nth (fst jv) L d) (snd jv)) (combine (seq k (length out)) out).
Proof.
  induction l as [|a l IH]; intros [|v out] k H L HL; cbn in *; try discriminate; auto. f_equal.
  - specialize (HL 0%nat). rewrite Nat.add_0_r in HL. cbn in HL. now rewrite HL.
  - apply IH; [lia|]. intros j. specialize (HL (S j)). rewrite <- HL. f_equal. lia.
Qed.
Lemma bcast_fits op b out : fits b out -> bcast op b out = inl (map (fun jv => op (bound_at b (fst jv)) (snd jv)) (combine (seq 0 (length out)) out)).
Proof.
  destruct b as [e|l]; cbn; intros H.
  - f_equal. generalize 0%nat. induction out as [|v out IH]; intros k; cbn; auto. now rewrite <- IH.
  - rewrite H, Nat.eqb_refl. f_equal. now apply (vmap2_seq op NInf).
Qed.
Lemma parts_length c out : length (lower_part c out) = length out /\ length (upper_part c out) = length out.
Proof. unfold lower_part, upper_part. rewrite !map_length, combine_length, seq_length. lia. Qed.
Lemma cloop_step fail first nv outs out c rest : fits (c_lhs c) out -> fits (c_rhs c) out ->
  cloop fail first nv outs ((Some out, c) :: rest) =
  cloop fail first (if first then nv + length (reported c out) else nv)%nat (outs ++ reported c out) rest.
Proof.
  intros FL FR. cbn [cloop]. unfold reported. destruct (bany (c_lhs c)); destruct (bany (c_rhs c)); rewrite ?bcast_fits by auto;
    fold (lower_part c out); fold (upper_part c out); cbn [app length]; rewrite ?app_nil_r, ?app_assoc, ?app_length; try destruct first; rewrite ?Nat.add_0_r, ?Nat.add_assoc; auto.
Qed.

(** the entries of all constraints *)
Fixpoint stack (cs : list con) (outs : list (list R)) : list ext :=
  match cs, outs with c :: cs', o :: os => reported c o ++ stack cs' os | _, _ => [] end.
Fixpoint prefix {A} (l : list (option A)) : list A := match l with Some a :: r => a :: prefix r | _ => [] end.
Definition fit_all (cs : list con) (rs : list (option (list R))) :=
  forall i c out, nth_error cs i = Some c -> nth_error rs i = Some (Some out) -> fits (c_lhs c) out /\ fits (c_rhs c) out.
Lemma cloop_spec fail first : forall cs rs nv outs, length rs = length cs -> fit_all cs rs ->
  cloop fail first nv outs (combine rs cs) =
  match all_some rs with
  | Some os => ((if first then nv + length (stack cs os) else nv)%nat, CDone (outs ++ stack cs os))
  | None => ((if first then nv + length (stack cs (prefix rs)) else nv)%nat,
             match fail with None => CRaise OFailure | Some _ => if first then CRaise OFailure else CBreak end)
  end.
Proof.
  induction cs as [|c cs IH]; intros [|r rs] nv outs L H; cbn [length] in L; try discriminate.
  - cbn. rewrite app_nil_r, Nat.add_0_r. now destruct first.
  - cbn [combine]. destruct r as [out|].
    + destruct (H 0%nat c out eq_refl eq_refl) as [FL FR]. rewrite cloop_step by auto. rewrite IH; [|lia|intros i c' o' E1 E2; exact (H (S i) c' o' E1 E2)].
      cbn [all_some prefix]. destruct (all_some rs) as [os|]; cbn [stack].
      * rewrite app_assoc, app_length. destruct first; auto. rewrite Nat.add_assoc. reflexivity.
      * rewrite app_length. destruct first; auto. rewrite Nat.add_assoc. reflexivity.
    + cbn. destruct first; rewrite ?Nat.add_0_r; reflexivity.
Qed.

(** ** C36 *)
Lemma in_enum {A} (out : list A) : forall k j v, In (j, v) (combine (seq k (length out)) out) <-> exists i, (j = k + i)%nat /\ nth_error out i = Some v.
Proof.
  induction out as [|a out IH]; intros k j v; cbn.
  - split; [tauto|]. intros ([|i] & _ & H); discriminate.
  - rewrite IH. split.
    + intros [[= <- <-]|(i & -> & H)]; [exists 0%nat|exists (S i)]; split; auto; lia.
    + intros ([|i] & -> & H); [left|right].
      * injection H as <-. f_equal. lia.
      * exists i. split; auto. lia.
Qed.
Lemma in_lower c out e : In e (lower_part c out) <-> exists j v, nth_error out j = Some v /\ e = esub (bound_at (c_lhs c) j) v.
Proof.
  unfold lower_part. rewrite in_map_iff. split.
  - intros ([j v] & <- & H). apply in_enum in H. destruct H as (i & -> & H). cbn. exists i, v. auto.
  - intros (j & v & E & ->). exists (j, v). split; auto. apply in_enum. exists j. auto.
Qed.
Lemma in_upper c out e : In e (upper_part c out) <-> exists j v, nth_error out j = Some v /\ e = subr v (bound_at (c_rhs c) j).
Proof.
  unfold upper_part. rewrite in_map_iff. split.
  - intros ([j v] & <- & H). apply in_enum in H. destruct H as (i & -> & H). cbn. exists i, v. auto.
  - intros (j & v & E & ->). exists (j, v). split; auto. apply in_enum. exists j. auto.
Qed.
Lemma esub_nonpos e v : nonpos (esub e v) <-> le_low e v.
Proof. destruct e; cbn; try tauto. split; lra. Qed.
Lemma subr_nonpos e v : nonpos (subr v e) <-> le_up v e.
Proof. destruct e; cbn; try tauto. split; lra. Qed.
Lemma bany_at b out j : fits b out -> (j < length out)%nat -> bany b = false -> bound_at b j = NInf \/ bound_at b j = PInf.
Proof.
  intros F H E. assert (X : isfin (bound_at b j) = false).
  { destruct b as [e|l]; cbn in *; auto. rewrite <- F in H. destruct (isfin (nth j l NInf)) eqn:EF; auto. rewrite <- E. symmetry. apply existsb_exists. exists (nth j l NInf). split; auto. now apply nth_In. }
  destruct (bound_at b j); auto; discriminate.
Qed.
Lemma reported_iff c out : fits (c_lhs c) out -> fits (c_rhs c) out -> sane c out -> (Forall nonpos (reported c out) <-> holds c out).
Proof.
  intros FL FR S. unfold reported. rewrite Forall_app.
  assert (L : Forall nonpos (if bany (c_lhs c) then lower_part c out else []) <-> forall j v, nth_error out j = Some v -> le_low (bound_at (c_lhs c) j) v).
  { destruct (bany (c_lhs c)) eqn:E.
    - rewrite Forall_forall. split.
      + intros H j v Hj. apply esub_nonpos. apply H, in_lower. eauto.
      + intros H e He. apply in_lower in He. destruct He as (j & v & Hj & ->). apply esub_nonpos. eauto.
    - split; auto. intros _ j v Hj. assert (HL : (j < length out)%nat) by (apply nth_error_Some; congruence). destruct (S j HL) as [S1 _]. destruct (bany_at _ _ _ FL HL E) as [->|?]; cbn; auto; contradiction. }
  assert (U : Forall nonpos (if bany (c_rhs c) then upper_part c out else []) <-> forall j v, nth_error out j = Some v -> le_up v (bound_at (c_rhs c) j)).
  { destruct (bany (c_rhs c)) eqn:E.
    - rewrite Forall_forall. split.
      + intros H j v Hj. apply subr_nonpos. apply H, in_upper. eauto.
      + intros H e He. apply in_upper in He. destruct He as (j & v & Hj & ->). apply subr_nonpos. eauto.
    - split; auto. intros _ j v Hj. assert (HL : (j < length out)%nat) by (apply nth_error_Some; congruence). destruct (S j HL) as [_ S1]. destruct (bany_at _ _ _ FR HL E) as [?| ->]; cbn; auto; contradiction. }
  rewrite L, U. unfold holds. split; [intros [A B] j v H; split; eauto|]. intros H. split; intros j v Hj; apply (H j v Hj).
Qed.
Lemma all_some_length {A} (l : list (option A)) os : all_some l = Some os -> length os = length l.
Proof. revert os. induction l as [|[a|] l IH]; intros os H; cbn in *; try discriminate. - injection H as <-. auto. - destruct (all_some l); [|discriminate]. injection H as <-. cbn. now rewrite IH. Qed.
Lemma fit_tail c cs r rs : fit_all (c :: cs) (r :: rs) -> fit_all cs rs.
Proof. intros H i c' o' E1 E2. exact (H (S i) c' o' E1 E2). Qed.

Section C36.
Variables (fail : option R) (cons : list con) (F : nat -> option (list R)) (outs : list (list R)) (s : cst).
(** the constraint functions have the values [outs] *)
Hypothesis OK : map F (seq 1 (length cons)) = map Some outs.
Hypothesis FIT : forall i c out, nth_error cons i = Some c -> nth_error outs i = Some out -> fits (c_lhs c) out /\ fits (c_rhs c) out.
Lemma OK_all : all_some (map F (seq 1 (length cons))) = Some outs.
Proof. rewrite OK. clear. induction outs as [|o l IH]; cbn; auto. now rewrite IH. Qed.
Lemma OK_len : length outs = length cons.
Proof. rewrite <- (map_length Some outs), <- OK, map_length, seq_length. auto. Qed.
Lemma OK_fit : fit_all cons (map F (seq 1 (length cons))).
Proof. intros i c out E1 E2. rewrite OK in E2. rewrite nth_error_map in E2. destruct (nth_error outs i) eqn:E; [|discriminate]. injection E2 as <-. eauto. Qed.

(** if at least one bound is finite, the reported entries are all <= 0 exactly when every constraint holds *)
Theorem C36_feasible_iff_nonpositive :
  (exists c, In c cons /\ has_bound c) -> (forall i c out, nth_error cons i = Some c -> nth_error outs i = Some out -> sane c out) -> k_newx s = true ->
  exists s' l, constraints fail true cons F s = (s', inl l) /\ l = stack cons outs /\
    (Forall nonpos l <-> forall i c out, nth_error cons i = Some c -> nth_error outs i = Some out -> holds c out).
Proof.
  intros (c0 & Hc0 & (b0 & Hb0 & EB0)) S NX. unfold constraints, cclear. rewrite NX. cbn [negb k_con].
  rewrite cloop_spec by (rewrite ?map_length, ?seq_length; auto using OK_fit). rewrite OK_all.
  assert (existsb (fun c => bany (c_lhs c) || bany (c_rhs c)) cons = true) as ->.
  { apply existsb_exists. exists c0. split; auto. destruct Hb0 as [->| ->]; rewrite EB0; auto. now rewrite Bool.orb_true_r. }
  do 2 eexists. split; [reflexivity|]. split; [reflexivity|]. cbn [app].
  assert (L := OK_len). clear - L FIT S. revert outs L FIT S. induction cons as [|c cs IH]; intros [|o os] L FIT S; cbn in L; try discriminate.
  - cbn. split; auto. intros _ [|i] c out H; discriminate.
  - cbn [stack]. rewrite Forall_app. assert (H1 : Forall nonpos (reported c o) <-> holds c o). { destruct (FIT 0%nat c o eq_refl eq_refl). apply reported_iff; auto. apply (S 0%nat); auto. }
    rewrite H1, IH; [|lia|intros i c' o' E1 E2; exact (FIT (Datatypes.S i) c' o' E1 E2)|intros i c' o' E1 E2; exact (S (Datatypes.S i) c' o' E1 E2)].
    split.
    + intros [A B] [|i] c' o' E1 E2; [injection E1 as <-; injection E2 as <-; auto|]. exact (B i c' o' E1 E2).
    + intros H. split; [apply (H 0%nat); auto|]. intros i c' o' E1 E2. exact (H (Datatypes.S i) c' o' E1 E2).
Qed.
(** with no finite bound at all the call raises ValueError instead of reporting nothing *)
Theorem C36_no_finite_bound : (forall c, In c cons -> ~ has_bound c) -> k_newx s = true -> exists s', constraints fail true cons F s = (s', inr (OErr EValue)).
Proof.
  intros H NX. unfold constraints, cclear. rewrite NX. cbn [negb k_con]. rewrite cloop_spec by (rewrite ?map_length, ?seq_length; auto using OK_fit). rewrite OK_all.
  assert (existsb (fun c => bany (c_lhs c) || bany (c_rhs c)) cons = false) as ->; eauto.
  destruct (existsb _ cons) eqn:E; auto. apply existsb_exists in E. destruct E as (c & Hc & E). apply Bool.orb_true_iff in E. exfalso. apply (H c Hc). destruct E; [exists (c_lhs c)|exists (c_rhs c)]; auto.
Qed.
End C36.
(** an infeasible infinite bound (lower bound +inf) is not reported: the entries say feasible, the constraint never holds *)
Theorem C36_infinite_bound_refuted fail (u v : R) : v <= u ->
  let c := mkCon (BScal PInf) (BScal (Fin u)) in
  (exists s', constraints fail true [c] (fun _ => Some [v]) con_init = (s', inl [Fin (v - u)])) /\ nonpos (Fin (v - u)) /\ ~ holds c [v].
Proof.
  intros H c. split; [eexists; reflexivity|]. split; [cbn; lra|]. intros HH. destruct (HH 0%nat v eq_refl) as [HL _]. exact HL.
Qed.
(** *** hypotheses are met: one vector constraint [-inf, 2] <= [3, 4] <= [5, 6] *)
Example C36_example : let cs := [mkCon (BVec [NInf; Fin 2]) (BVec [Fin 5; Fin 6])] in let F := fun _ : nat => Some [3; 4] in
  map F (seq 1 (length cs)) = map Some [[3; 4]] /\ (exists c, In c cs /\ has_bound c) /\
  (forall i c out, nth_error cs i = Some c -> nth_error [[3; 4]] i = Some out -> fits (c_lhs c) out /\ fits (c_rhs c) out /\ sane c out) /\
  stack cs [[3; 4]] = [NInf; Fin (2 - 4); Fin (3 - 5); Fin (4 - 6)].
Proof.
  cbn. split; auto. split; [eexists; split; [now left|]; exists (BVec [NInf; Fin 2]); auto|]. split; [|reflexivity].
  intros [|[|i]] c out E1 E2; try discriminate. injection E1 as <-. injection E2 as <-. cbn. repeat (split; auto). all: destruct j as [|[|j]]; cbn in *; try discriminate; lia.
Qed.

(** ** C37 *)
(** histories: x assigned, flag set (a parent changed), objective() / nonlinear_constraints() with or without x.
    A given x is assigned only if it differs from the current one (constrained.py:113-116, 182-185). *)
Inductive kop (X : Type) := KX (x : X) | KFlag | KObj (x : option X) | KCon (x : option X).
Arguments KX {X}. Arguments KFlag {X}. Arguments KObj {X}. Arguments KCon {X}.
Inductive kret := KUnit | KNum (r : R) | KVec (l : list ext) | KErr (e : oerr).
Definition set_knewx s := mkC (k_nvals s) (k_fobj s) (k_fcon s) (k_obj s) (k_con s) true.
Section C37.
Context {X : Type} (Xeq : forall a b : X, {a = b} + {a <> b}).
Variables (fail : option R) (nlc : bool) (cons : list con) (F : X -> nat -> option (list R)).
Hypothesis FIT : forall x, fit_all cons (map (F x) (seq 1 (length cons))).
Definition ksetx (xs : X * cst) (x : option X) : X * cst :=
  match x with None => xs | Some x => if Xeq (fst xs) x then xs else (x, set_knewx (snd xs)) end.
Definition kstep (xs : X * cst) (o : kop X) : (X * cst) * kret :=
  match o with
  | KX x => ((x, set_knewx (snd xs)), KUnit)
  | KFlag => ((fst xs, set_knewx (snd xs)), KUnit)
  | KObj x => let xs := ksetx xs x in let (s', r) := cobjective fail (F (fst xs)) (snd xs) in ((fst xs, s'), match r with inl v => KNum v | inr e => KErr e end)
  | KCon x => let xs := ksetx xs x in let (s', r) := constraints fail nlc cons (F (fst xs)) (snd xs) in ((fst xs, s'), match r with inl v => KVec v | inr e => KErr e end)
  end.
Fixpoint krun (xs : X * cst) (ops : list (kop X)) : (X * cst) * list kret :=
  match ops with [] => (xs, []) | o :: r => let (xs', a) := kstep xs o in let (xs'', l) := krun xs' r in (xs'', a :: l) end.

(** the reference has no caches: current x, whether the objective / the constraints have been evaluated
    successfully, and the length of the vector reported for failures *)
Record kspec := mkKS { q_x : X; q_obj : bool; q_con : bool; q_len : nat }.
Definition any_bound : bool := existsb (fun c => bany (c_lhs c) || bany (c_rhs c)) cons.
Definition kref_obj (t : kspec) : kspec * kret :=
  match F (q_x t) 0%nat with
  | Some l => (mkKS (q_x t) true (q_con t) (q_len t), KNum (hd 0 l))
  | None => match fail with
            | Some v => if q_obj t then (t, KNum v) else (t, KErr OFailure)
            | None => (t, KErr OFailure)
            end
  end.
Definition kref_con (t : kspec) : kspec * kret :=
  if nlc then
    let rs := map (F (q_x t)) (seq 1 (length cons)) in
    match all_some rs with
    | Some os => (mkKS (q_x t) (q_obj t) true (if q_con t then q_len t else q_len t + length (stack cons os)),
                  if any_bound then KVec (stack cons os) else KErr (OErr EValue))
    | None => if q_con t then (t, match fail with Some v => KVec (repeat (Fin v) (q_len t)) | None => KErr OFailure end)
              else (mkKS (q_x t) (q_obj t) false (q_len t + length (stack cons (prefix rs))), KErr OFailure)
    end
  else (t, KErr ORuntime).
Definition kref_setx (t : kspec) (x : option X) := match x with None => t | Some x => mkKS x (q_obj t) (q_con t) (q_len t) end.
Definition kref_step (t : kspec) (o : kop X) : kspec * kret :=
  match o with
  | KX x => (kref_setx t (Some x), KUnit)
  | KFlag => (t, KUnit)
  | KObj x => kref_obj (kref_setx t x)
  | KCon x => kref_con (kref_setx t x)
  end.
Fixpoint kref_run (t : kspec) (ops : list (kop X)) : kspec * list kret :=
  match ops with [] => (t, []) | o :: r => let (t', a) := kref_step t o in let (t'', l) := kref_run t' r in (t'', a :: l) end.

Definition kinv (xs : X * cst) (t : kspec) : Prop :=
  let s := snd xs in fst xs = q_x t /\ k_fobj s = negb (q_obj t) /\ k_fcon s = negb (q_con t) /\ k_nvals s = q_len t /\
  (k_newx s = false -> (forall v, k_obj s = Some v -> kref_obj t = (t, KNum v)) /\ (forall l, k_con s = Some l -> kref_con t = (t, KVec l))).
Lemma obj_ref xs t : kinv xs t -> let (s', r) := cobjective fail (F (fst xs)) (snd xs) in
  let (t', r') := kref_obj t in match r with inl v => KNum v | inr e => KErr e end = r' /\ kinv (fst xs, s') t'.
Proof.
  destruct xs as [x s]. intros (HX & HF & HG & HN & HC). cbn [fst snd] in *. subst x.
  assert (CON : forall q l, k_con s = Some l -> k_newx s = false -> kref_con (mkKS (q_x t) q (q_con t) (q_len t)) = (mkKS (q_x t) q (q_con t) (q_len t), KVec l)).
  { intros q l Hl NX. destruct (HC NX) as [_ HC2]. specialize (HC2 l Hl). unfold kref_con in *. cbn [q_x q_con q_len]. destruct nlc; [|discriminate]. destruct (all_some _).
    - injection HC2 as E1 E2. destruct any_bound; [|discriminate]. injection E2 as <-. apply (f_equal q_con) in E1. cbn in E1. now rewrite <- E1.
    - cbn [q_obj]. destruct (q_con t); [|discriminate]. destruct fail; [|discriminate]. now injection HC2 as <-. }
  assert (NEW : k_newx s = true \/ k_newx s = false /\ k_obj s = None ->
     let (s', r) := cobjective fail (F (q_x t)) s in let (t', r') := kref_obj t in match r with inl v => KNum v | inr e => KErr e end = r' /\ kinv (q_x t, s') t').
  { intros NX. unfold cobjective. assert (EO : k_obj (cclear s) = None). { unfold cclear. destruct NX as [->|[-> E]]; auto. } rewrite EO.
    assert (S1 : k_nvals (cclear s) = k_nvals s /\ k_fobj (cclear s) = k_fobj s /\ k_fcon (cclear s) = k_fcon s /\ k_newx (cclear s) = k_newx s /\ (forall l, k_con (cclear s) = Some l -> k_newx s = false /\ k_con s = Some l)).
    { unfold cclear. destruct (k_newx s) eqn:E; cbn; repeat (split; auto); discriminate. }
    destruct S1 as (S1 & S2 & S3 & S4 & S5). unfold kref_obj at 1.
    assert (FIN : forall v (q : bool), (q = true -> kref_obj (mkKS (q_x t) true (q_con t) (q_len t)) = (mkKS (q_x t) true (q_con t) (q_len t), KNum v)) -> q = true ->
       kinv (q_x t, mkC (k_nvals (cclear s)) false (k_fcon (cclear s)) (Some v) (k_con (cclear s)) false) (mkKS (q_x t) true (q_con t) (q_len t))).
    { intros v q H E. split; auto. cbn. rewrite S1, S3. repeat (split; auto). - intros v' [= <-]. auto. - intros l Hl. destruct (S5 l Hl). now apply CON. }
    destruct (F (q_x t) 0%nat) as [l|] eqn:EF.
    - split; auto. apply (FIN _ true); auto. intros _. unfold kref_obj. cbn [q_x q_con q_len]. now rewrite EF.
    - rewrite S2, HF. destruct fail as [v|] eqn:EFa.
      + destruct (q_obj t) eqn:EQ; cbn [negb].
        * split; auto. assert (ET : t = mkKS (q_x t) true (q_con t) (q_len t)) by (destruct t; cbn in *; now subst). rewrite ET at 2. apply (FIN _ true); auto. intros _. unfold kref_obj. cbn [q_x q_obj]. now rewrite EF, EFa.
        * split; auto. split; auto. cbn [snd]. rewrite S1, S2, S3, S4, EQ. repeat (split; [assumption|]). intros NX'. destruct NX as [NX|[_ NX]]; [congruence|]. unfold cclear. rewrite NX'. split; [congruence|]. apply HC; auto.
      + split; auto. split; auto. cbn [snd]. rewrite S1, S2, S3, S4. repeat (split; [assumption|]). intros NX'. destruct NX as [NX|[_ NX]]; [congruence|]. unfold cclear. rewrite NX'. split; [congruence|]. apply HC; auto. }
  destruct (k_newx s) eqn:NX; [apply NEW; auto|]. destruct (k_obj s) as [v|] eqn:EO; [|apply NEW; auto].
  unfold cobjective, cclear. rewrite NX. cbv beta iota zeta. rewrite EO. destruct (HC eq_refl) as [HC1 HC2]. rewrite (HC1 v eq_refl). split; auto. split; auto. cbn [snd]. repeat (split; [assumption|]). intros _. rewrite EO. auto.
Qed.
Lemma con_ref xs t : kinv xs t -> let (s', r) := constraints fail nlc cons (F (fst xs)) (snd xs) in
  let (t', r') := kref_con t in match r with inl v => KVec v | inr e => KErr e end = r' /\ kinv (fst xs, s') t'.
Proof using FIT.
  destruct xs as [x s]. intros (HX & HF & HG & HN & HC). cbn [fst snd] in *. subst x.
  assert (S1 : k_nvals (cclear s) = k_nvals s /\ k_fobj (cclear s) = k_fobj s /\ k_fcon (cclear s) = k_fcon s /\ k_newx (cclear s) = k_newx s /\ (forall l, k_obj (cclear s) = Some l -> k_newx s = false /\ k_obj s = Some l)).
  { unfold cclear. destruct (k_newx s) eqn:E; cbn; repeat (split; auto); discriminate. }
  destruct S1 as (S1 & S2 & S3 & S4 & S5). unfold constraints. 
  assert (KI : kinv (q_x t, cclear s) t).
  { split; auto. cbn [snd]. rewrite S1, S2, S3, S4. repeat (split; [assumption|]). intros NX. unfold cclear. rewrite NX. auto. }
  destruct nlc eqn:ENL; cbn [negb]; [|unfold kref_con; rewrite ENL; auto].
  assert (OBJ : forall q n v, k_obj (cclear s) = Some v -> kref_obj (mkKS (q_x t) (q_obj t) q n) = (mkKS (q_x t) (q_obj t) q n, KNum v)).
  { intros q n v Hv. destruct (S5 v Hv) as [NX Hv']. destruct (HC NX) as [HC1 _]. specialize (HC1 v Hv'). unfold kref_obj in *. cbn [q_x q_obj q_con q_len]. destruct (F (q_x t) 0%nat).
    - injection HC1 as E1 E2. apply (f_equal q_obj) in E1. cbn in E1. now rewrite <- E1, E2.
    - destruct fail; [|discriminate]. destruct (q_obj t); [|discriminate]. now injection HC1 as <-. }
  destruct (k_con (cclear s)) as [l|] eqn:EC.
  - assert (NX : k_newx s = false /\ k_con s = Some l). { unfold cclear in EC. destruct (k_newx s); [discriminate|auto]. } destruct NX as [NX EC']. destruct (HC NX) as [_ HC2]. rewrite (HC2 l EC'). auto.
  - rewrite cloop_spec by (rewrite ?map_length, ?seq_length; auto). unfold kref_con at 1. rewrite ENL. rewrite S1, S2, S3, S4, HG, HN, HF.
    destruct (all_some (map (F (q_x t)) (seq 1 (length cons)))) as [os|] eqn:EA.
    + fold any_bound. destruct any_bound eqn:EAB; cbn [app].
      * split; auto. split; auto. cbn. repeat (split; auto). { now destruct (q_con t). }
        intros l [= <-]. unfold kref_con. cbn [q_x q_obj q_con q_len]. now rewrite ENL, EA, EAB.
      * split; auto. split; auto. cbn. repeat (split; auto). { now destruct (q_con t). }
        discriminate.
    + destruct (q_con t) eqn:EQ; cbn [negb].
      * destruct fail as [v|] eqn:EFa.
        -- split; auto. split; auto. cbn. rewrite EQ. repeat (split; auto).
           ++ intros w Hw. assert (ET : t = mkKS (q_x t) (q_obj t) true (q_len t)) by (destruct t; cbn in *; now subst). rewrite ET. now apply OBJ.
           ++ intros l [= <-]. unfold kref_con. now rewrite ENL, EA, EQ, EFa.
        -- split; auto. split; auto. cbn. rewrite EQ. repeat (split; auto).
           ++ intros w Hw. assert (ET : t = mkKS (q_x t) (q_obj t) true (q_len t)) by (destruct t; cbn in *; now subst). rewrite ET. now apply OBJ.
           ++ discriminate.
      * assert (match fail with Some _ => CRaise OFailure | None => CRaise OFailure end = CRaise OFailure) as -> by now destruct fail.
        split; auto. split; auto. cbn. repeat (split; auto). discriminate.
Qed.
Lemma ksetx_inv xs t x : kinv xs t -> kinv (ksetx xs x) (kref_setx t x).
Proof.
  intros (HX & HF & HG & HN & HC). destruct x as [x|]; [|repeat (split; auto)]. cbn [ksetx]. destruct (Xeq (fst xs) x) as [<-|N].
  - cbn [kref_setx]. rewrite HX. replace (mkKS _ _ _ _) with t by now destruct t. split; auto.
  - split; auto. cbn. repeat (split; [assumption|]). discriminate.
Qed.
Lemma kstep_ref xs t o : kinv xs t -> let (xs', a) := kstep xs o in let (t', a') := kref_step t o in a = a' /\ kinv xs' t'.
Proof using FIT.
  intros I. destruct o as [x| |x|x]; cbn [kstep kref_step].
  - split; auto. destruct I as (HX & HF & HG & HN & HC). split; auto. cbn. repeat (split; [assumption|]). discriminate.
  - split; auto. destruct I as (HX & HF & HG & HN & HC). split; auto. cbn. repeat (split; [assumption|]). discriminate.
  - assert (H := obj_ref _ _ (ksetx_inv _ _ x I)). destruct (cobjective _ _ _) as [s' r]. destruct (kref_obj _) as [t' r']. auto.
  - assert (H := con_ref _ _ (ksetx_inv _ _ x I)). destruct (constraints _ _ _ _ _) as [s' r]. destruct (kref_con _) as [t' r']. auto.
Qed.
Lemma krun_ref ops : forall xs t, kinv xs t -> snd (krun xs ops) = snd (kref_run t ops).
Proof using FIT.
  induction ops as [|o ops IH]; intros xs t I; cbn; auto. assert (H := kstep_ref xs t o I). destruct (kstep xs o) as [xs' a]. destruct (kref_step t o) as [t' a'].
  destruct H as [<- H]. specialize (IH _ _ H). destruct (krun xs' ops). destruct (kref_run t' ops). cbn in *. now rewrite IH.
Qed.
(** every history gives the results of the cache-free reference *)
Theorem C37_history_matches_reference x0 ops : snd (krun (x0, con_init) ops) = snd (kref_run (mkKS x0 false false 0) ops).
Proof using FIT. apply krun_ref. split; auto. cbn. repeat (split; auto); discriminate. Qed.

(** *** consequence in the user's terms: after any history starting with successful evaluations of both at x0,
    objective() and nonlinear_constraints() are the values at the current x (which is the last x assigned or
    passed), or the failure values if a function fails there *)
Fixpoint last_x (x : X) (ops : list (kop X)) : X :=
  match ops with [] => x | o :: r => last_x (match o with KX y => y | KFlag => x | KObj (Some y) => y | KObj None => x | KCon (Some y) => y | KCon None => x end) r end.
Lemma kref_run_state ops : forall t, q_obj t = true -> q_con t = true -> let t' := fst (kref_run t ops) in q_x t' = last_x (q_x t) ops /\ q_obj t' = true /\ q_con t' = true /\ q_len t' = q_len t.
Proof.
  induction ops as [|o ops IH]; intros t E1 E2; cbn; auto.
  assert (G : exists r t', kref_step t o = (t', r) /\ q_obj t' = true /\ q_con t' = true /\ q_len t' = q_len t /\ q_x t' = match o with KX y => y | KFlag => q_x t | KObj (Some y) => y | KObj None => q_x t | KCon (Some y) => y | KCon None => q_x t end).
  { assert (GO : forall t, q_obj t = true -> q_con t = true -> let t' := fst (kref_obj t) in q_obj t' = true /\ q_con t' = true /\ q_len t' = q_len t /\ q_x t' = q_x t).
    { clear. intros t E1 E2. unfold kref_obj. destruct (F (q_x t) 0%nat); cbn; auto. destruct fail; cbn; auto. rewrite E1. cbn. auto. }
    assert (GC : forall t, q_obj t = true -> q_con t = true -> let t' := fst (kref_con t) in q_obj t' = true /\ q_con t' = true /\ q_len t' = q_len t /\ q_x t' = q_x t).
    { clear. intros t E1 E2. unfold kref_con. destruct nlc; cbn; auto. destruct (all_some _); rewrite E2; cbn; auto. }
    destruct o as [x| |x|x]; cbn [kref_step].
    - do 2 eexists. split; [reflexivity|]. cbn. auto.
    - do 2 eexists. split; [reflexivity|]. auto.
    - specialize (GO (kref_setx t x)). destruct (kref_obj (kref_setx t x)) as [t' r]. exists r, t'. split; auto. cbn in GO. destruct GO as (A & B & C & D); [destruct x; auto|destruct x; auto|]. rewrite C, D. destruct x; cbn; auto.
    - specialize (GC (kref_setx t x)). destruct (kref_con (kref_setx t x)) as [t' r]. exists r, t'. split; auto. cbn in GC. destruct GC as (A & B & C & D); [destruct x; auto|destruct x; auto|]. rewrite C, D. destruct x; cbn; auto. }
  destruct G as (r & t' & -> & A & B & C & D). specialize (IH t' A B). destruct (kref_run t' ops) as [t'' l]. cbn in *. destruct IH as (H1 & H2 & H3 & H4). rewrite H1, D. repeat (split; auto). congruence.
Qed.
Lemma kref_run_app ops1 ops2 t : snd (kref_run t (ops1 ++ ops2)) = snd (kref_run t ops1) ++ snd (kref_run (fst (kref_run t ops1)) ops2).
Proof. revert t. induction ops1 as [|o ops IH]; intros t; cbn; auto. destruct (kref_step t o) as [t' a]. specialize (IH t'). destruct (kref_run t' (ops ++ ops2)). destruct (kref_run t' ops). cbn in *. now rewrite IH. Qed.
Lemma krun_length ops : forall xs, length (snd (krun xs ops)) = length ops.
Proof. induction ops as [|o ops IH]; intros xs; cbn; auto. destruct (kstep xs o) as [xs' a]. specialize (IH xs'). destruct (krun xs' ops). cbn in *. now rewrite IH. Qed.
Theorem C37_values_at_current_x x0 ops l0 os0 : nlc = true -> any_bound = true -> F x0 0%nat = Some l0 -> all_some (map (F x0) (seq 1 (length cons))) = Some os0 ->
  let x := last_x x0 ops in
  let res := snd (krun (x0, con_init) (KObj None :: KCon None :: ops ++ [KObj None; KCon None])) in
  nth (length ops + 2) res KUnit = match F x 0%nat with Some l => KNum (hd 0 l) | None => match fail with Some v => KNum v | None => KErr OFailure end end /\
  nth (length ops + 3) res KUnit =
    match all_some (map (F x) (seq 1 (length cons))) with
    | Some os => KVec (stack cons os)
    | None => match fail with Some v => KVec (repeat (Fin v) (length (stack cons os0))) | None => KErr OFailure end
    end.
Proof using FIT.
  intros EN EB E0 E1 x res. subst res. rewrite C37_history_matches_reference.
  set (T := mkKS x0 true true (length (stack cons os0))).
  assert (ER : exists a b, snd (kref_run (mkKS x0 false false 0) (KObj None :: KCon None :: ops ++ [KObj None; KCon None])) = a :: b :: snd (kref_run T (ops ++ [KObj None; KCon None]))).
  { cbn [kref_run kref_step kref_setx]. unfold kref_obj at 1. cbn [q_x q_con q_len q_obj]. rewrite E0. unfold kref_con at 1. cbn [q_x q_con q_len q_obj]. rewrite EN, E1, EB. cbn [Nat.add].
    fold T. destruct (kref_run T (ops ++ [KObj None; KCon None])). cbn. eauto. }
  destruct ER as (a & b & ->). rewrite kref_run_app.
  assert (L : length (snd (kref_run T ops)) = length ops). { clear. generalize T. induction ops as [|o ops IH]; intros t; cbn; auto. destruct (kref_step t o) as [t' r]. specialize (IH t'). destruct (kref_run t' ops). cbn in *. now rewrite IH. }
  destruct (kref_run_state ops T eq_refl eq_refl) as (H1 & H2 & H3 & H4). cbn zeta in *. destruct (kref_run T ops) as [t' l]. cbn [fst snd] in *. cbn [q_x T] in H1. fold x in H1.
  replace (length ops + 2)%nat with (S (S (length l + 0)))%nat by lia. replace (length ops + 3)%nat with (S (S (length l + 1)))%nat by lia. cbn [nth]. rewrite !app_nth2_plus.
  cbn [kref_run kref_step kref_setx]. unfold kref_obj. rewrite H1, H2, H3.
  assert (NT : forall t2, q_x t2 = x -> q_con t2 = true -> q_len t2 = q_len t' -> snd (kref_con t2) = match all_some (map (F x) (seq 1 (length cons))) with Some os => KVec (stack cons os) | None => match fail with Some v => KVec (repeat (Fin v) (length (stack cons os0))) | None => KErr OFailure end end).
  { clear - EN EB H4. intros t2 A B C. unfold kref_con. rewrite EN, A, B, EB, C, H4. destruct (all_some _); auto. }
  destruct (F x 0%nat) as [l1|].
  - specialize (NT (mkKS x true true (q_len t')) eq_refl eq_refl eq_refl). destruct (kref_con _). cbn in *. auto.
  - specialize (NT t' H1 H3 eq_refl). destruct fail; destruct (kref_con t'); cbn in *; auto.
Qed.
(** *** refuted without the initial success: failed first evaluations add to the length of the failure vector *)
Theorem C37_refuted_length x1 x2 x3 v os : nlc = true -> any_bound = true -> fail = Some v ->
  all_some (map (F x1) (seq 1 (length cons))) = None -> (0 < length (stack cons (prefix (map (F x1) (seq 1 (length cons))))))%nat ->
  all_some (map (F x2) (seq 1 (length cons))) = Some os -> all_some (map (F x3) (seq 1 (length cons))) = None ->
  exists n, snd (krun (x1, con_init) [KCon None; KCon (Some x2); KCon (Some x3)]) = [KErr OFailure; KVec (stack cons os); KVec (repeat (Fin v) n)] /\ (length (stack cons os) < n)%nat.
Proof using FIT.
  intros EN EB EF E1 HP E2 E3. eexists. rewrite C37_history_matches_reference. cbn [kref_run kref_step kref_setx]. unfold kref_con. cbn [q_x q_con q_len q_obj]. rewrite EN, E1. cbn [q_x q_con q_len q_obj]. rewrite E2. cbn [q_x q_con q_len q_obj]. rewrite E3, EB, EF. cbn [snd].
  split; [reflexivity|]. lia.
Qed.
End C37.
(** *** hypotheses are met: objective 2x, constraint 1 <= (x, 3) <= 4 that fails at x = 7 *)
Definition exK : list con := [mkCon (BScal (Fin 1)) (BVec [Fin 4; PInf]); mkCon (BScal NInf) (BScal (Fin 9))].
Definition exKF (x : nat) (i : nat) : option (list R) := match i with 0%nat => Some [2 * INR x] | 1%nat => Some [INR x; 3] | _ => if (x =? 7)%nat then None else Some [8] end.
Lemma exK_fit x : fit_all exK (map (exKF x) (seq 1 (length exK))).
Proof.
  intros [|[|i]] c out E1 E2.
  - injection E1 as <-. injection E2 as <-. cbn. auto.
  - injection E1 as <-. cbn. auto.
  - destruct i; discriminate.
Qed.
Example C37_example : any_bound exK = true /\ all_some (map (exKF 2) (seq 1 (length exK))) = Some [[INR 2; 3]; [8]] /\ all_some (map (exKF 7) (seq 1 (length exK))) = None /\
  (0 < length (stack exK (prefix (map (exKF 7) (seq 1 (length exK))))))%nat /\ length (stack exK [[INR 2; 3]; [8]]) = 5%nat.
Proof. repeat (split; [reflexivity|]). split; [cbv; lia|reflexivity]. Qed.
Print Assumptions C36_feasible_iff_nonpositive. Print Assumptions C36_no_finite_bound. Print Assumptions C36_infinite_bound_refuted.
Print Assumptions C37_history_matches_reference. Print Assumptions C37_values_at_current_x. Print Assumptions C37_refuted_length.
