(** C32-C35, C54: least squares problems. *)
From Verif Require Import ListAux DofsModel VecAux LsqModel.
Local Open Scope R_scope.

(** ** Specification *)
(** the values of all functions, if none fails *)
Fixpoint all_some {A} (l : list (option A)) : option (list A) :=
  match l with
  | [] => Some []
  | None :: _ => None
  | Some a :: r => match all_some r with Some v => Some (a :: v) | None => None end
  end.
(** sum_i w_i (f_i - g_i)^2; vector valued functions contribute every component *)
Fixpoint lsq_value (outs : list (list R)) (goals weights : list R) : R :=
  match outs, goals, weights with
  | out :: os, g :: gs, w :: ws => rsuml (map (fun v => w * (v - g) ^ 2) out) + lsq_value os gs ws
  | _, _, _ => 0
  end.
(** the residuals f_i - g_i, and the weight that belongs to each of them *)
Fixpoint res_of (outs : list (list R)) (goals : list R) : list R :=
  match outs, goals with out :: os, g :: gs => map (fun v => v - g) out ++ res_of os gs | _, _ => [] end.
Fixpoint wts_of (dims : list nat) (weights : list R) : list R :=
  match dims, weights with d :: ds, w :: ws => repeat w d ++ wts_of ds ws | _, _ => [] end.
(** one goal and one non-negative weight per function, and at least one function *)
Record wellformed (P : problem) : Prop := mkWf {
  wf_goals : length (p_goals P) = length (p_funcs P); wf_weights : length (p_weights P) = length (p_funcs P);
  wf_some : p_funcs P <> []; wf_nonneg : Forall (fun w => 0 <= w) (p_weights P) }.

(** ** the loop *)
Lemma lloop_done P first : forall outs k nv calls ob wb,
  (k + length outs = length (p_goals P))%nat -> (k + length outs = length (p_weights P))%nat -> (k + length outs <> 0)%nat ->
  lloop P first nv calls k ob wb (map Some outs) =
  ((if first then nv + fold_right (fun o n => length o + n)%nat 0%nat outs else nv)%nat, (calls + length outs)%nat,
   LDone (ob ++ res_of outs (skipn k (p_goals P))) (wb ++ wts_of (map (@length R) outs) (skipn k (p_weights P)))).
Proof.
  induction outs as [|out outs IH]; intros k nv calls ob wb HG HW HN; cbn [map lloop].
  - destruct k as [|k]; [cbn in HN; lia|]. cbn. rewrite !app_nil_r, !Nat.add_0_r. now destruct first.
  - cbn in HG, HW. destruct (nth_error (p_goals P) k) as [g|] eqn:EG; [|apply nth_error_None in EG; lia].
    destruct (nth_error (p_weights P) k) as [w|] eqn:EW; [|apply nth_error_None in EW; lia].
    rewrite IH by (cbn in *; lia).
    assert (SK : forall {A} (l : list A) a, nth_error l k = Some a -> skipn k l = a :: skipn (S k) l).
    { clear. induction k as [|k IH]; intros A [|b l] a H; cbn in *; try discriminate; [now injection H as ->|now apply IH]. }
    rewrite (SK _ _ _ EG), (SK _ _ _ EW). cbn [res_of wts_of map]. rewrite !map_length, <- !app_assoc.
    f_equal. f_equal; [|cbn; lia]. destruct first; auto. cbn. lia.
Qed.

(** the loop when the function after [outs] fails *)
Lemma lloop_break P first rest : forall outs k nv calls ob wb,
  (k + length outs < length (p_goals P))%nat -> (k + length outs < length (p_weights P))%nat ->
  lloop P first nv calls k ob wb (map Some outs ++ None :: rest) =
  ((if first then nv + fold_right (fun o n => length o + n)%nat 0%nat outs else nv)%nat, (calls + length outs + 1)%nat,
   match p_fail P with None => LRaise OFailure | Some _ => if first then LRaise OFailure else LBreak end).
Proof.
  induction outs as [|out outs IH]; intros k nv calls ob wb HG HW; cbn [map lloop app].
  - f_equal. f_equal; [cbn; destruct first; lia|cbn; lia].
  - cbn in HG, HW. destruct (nth_error (p_goals P) k) as [g|] eqn:EG; [|apply nth_error_None in EG; lia].
    destruct (nth_error (p_weights P) k) as [w|] eqn:EW; [|apply nth_error_None in EW; lia].
    rewrite IH by (cbn in *; lia). f_equal. f_equal; [|cbn; lia]. destruct first; auto. cbn. rewrite map_length. lia.
Qed.

Lemma all_some_Some {A} (l : list (option A)) v : all_some l = Some v <-> l = map Some v.
Proof.
  revert v. induction l as [|[a|] l IH]; intros v; cbn.
  - split; [now injection 1 as <-|]. now destruct v.
  - destruct (all_some l) as [w|] eqn:E.
    + split. * injection 1 as <-. cbn. f_equal. now apply IH. * destruct v as [|b v]; [discriminate|]. cbn. intros H. injection H as -> H. apply IH in H. now injection H as ->.
    + split; [discriminate|]. destruct v as [|b v]; [discriminate|]. cbn. intros H. injection H as -> H. apply IH in H. discriminate.
  - split; [discriminate|]. now destruct v.
Qed.
(** the functions before the first failing one *)
Fixpoint prefix_ok {A} (l : list (option A)) : list A := match l with Some a :: r => a :: prefix_ok r | _ => [] end.
Lemma all_some_None {A} (l : list (option A)) : all_some l = None -> exists rest, l = map Some (prefix_ok l) ++ None :: rest.
Proof.
  induction l as [|[a|] l IH]; cbn; [discriminate| |].
  - destruct (all_some l); [discriminate|]. intros _. destruct (IH eq_refl) as (rest & E). exists rest. now rewrite <- E.
  - intros _. now exists l.
Qed.

Lemma res_of_length outs : forall goals, length outs = length goals -> length (res_of outs goals) = fold_right (fun o n => length o + n)%nat 0%nat outs.
Proof. induction outs as [|o os IH]; intros [|g gs] H; cbn in *; try lia. rewrite app_length, map_length, IH; lia. Qed.
Lemma wts_of_length dims : forall weights, length dims = length weights -> length (wts_of dims weights) = fold_right Nat.add 0%nat dims.
Proof. induction dims as [|o os IH]; intros [|g gs] H; cbn in *; try lia. rewrite app_length, repeat_length, IH; lia. Qed.
Lemma fold_len (outs : list (list R)) : fold_right (fun o n => length o + n)%nat 0%nat outs = fold_right Nat.add 0%nat (map (@length R) outs).
Proof. induction outs; cbn; auto. Qed.

Lemma osum_spec us : forall ws acc, length us = length ws -> osum acc us ws = inl (acc + rsuml (vmap2 (fun u w => u * u * w) us ws)).
Proof. induction us as [|u us IH]; intros [|w ws] acc H; cbn in *; try discriminate; [f_equal; ring|]. rewrite IH by lia. f_equal. ring. Qed.
Lemma vmap2_app {A B C} (op : A -> B -> C) u1 : forall v1 u2 v2, length u1 = length v1 -> vmap2 op (u1 ++ u2) (v1 ++ v2) = vmap2 op u1 v1 ++ vmap2 op u2 v2.
Proof. induction u1 as [|a u IH]; intros [|b v] u2 v2 H; cbn in *; try discriminate; auto. f_equal. apply IH. lia. Qed.
Lemma osum_value outs : forall goals weights, length outs = length goals -> length outs = length weights ->
  rsuml (vmap2 (fun u w => u * u * w) (res_of outs goals) (wts_of (map (@length R) outs) weights)) = lsq_value outs goals weights.
Proof.
  induction outs as [|o os IH]; intros [|g gs] [|w ws] HG HW; cbn in *; try discriminate; auto.
  rewrite vmap2_app by now rewrite map_length, repeat_length. rewrite rsuml_app, IH by lia. f_equal.
  clear. induction o as [|v o IH]; cbn; auto. rewrite IH. ring.
Qed.
Lemma weighted_square us : forall ws, Forall (fun w => 0 <= w) ws ->
  let r := vmap2 Rmult us (map sqrt ws) in dot r r = rsuml (vmap2 (fun u w => u * u * w) us ws).
Proof.
  unfold dot. induction us as [|u us IH]; intros [|w ws] H; cbn; auto. inversion_clear H as [|? ? H1 H2]. rewrite IH by auto. f_equal.
  replace (u * sqrt w * (u * sqrt w)) with (u * u * (sqrt w * sqrt w)) by ring. now rewrite sqrt_sqrt.
Qed.
Lemma wts_of_nonneg dims : forall weights, Forall (fun w => 0 <= w) weights -> Forall (fun w => 0 <= w) (wts_of dims weights).
Proof.
  induction dims as [|d ds IH]; intros [|w ws] H; cbn; auto. inversion_clear H. apply Forall_app. split; auto.
  apply Forall_forall. intros x Hx. apply repeat_spec in Hx. now subst.
Qed.
Lemma bmul_same u v : length u = length v -> bmul u v = inl (vmap2 Rmult u v).
Proof. intros H. unfold bmul. now rewrite H, Nat.eqb_refl. Qed.

Section Succeeds.
Variables (P : problem) (F : func -> option (list R)) (outs : list (list R)).
Hypothesis WF : wellformed P.
Hypothesis OK : map F (p_funcs P) = map Some outs.

Lemma outs_len : length outs = length (p_funcs P).
Proof. rewrite <- (map_length Some outs), <- OK. now rewrite map_length. Qed.
Lemma unweighted_ok s : l_newx s = true -> unweighted P F s =
  (mkL (if l_first s then l_nvals s + fold_right Nat.add 0 (map (@length R) outs) else l_nvals s)%nat false
       (Some (wts_of (map (@length R) outs) (p_weights P))) (res_of outs (p_goals P)) false, length (p_funcs P), inl (res_of outs (p_goals P))).
Proof.
  intros NX. assert (HL := outs_len). assert (HN : length (p_funcs P) <> 0%nat) by (intros E; apply (wf_some P WF); now destruct (p_funcs P)).
  unfold unweighted. rewrite NX, OK, lloop_done by (rewrite ?(wf_goals P WF), ?(wf_weights P WF); lia).
  cbn [skipn app Nat.add]. now rewrite fold_len, HL.
Qed.
Lemma wts_len : length (res_of outs (p_goals P)) = length (wts_of (map (@length R) outs) (p_weights P)).
Proof.
  assert (HL := outs_len). rewrite res_of_length by (rewrite (wf_goals P WF); lia). rewrite wts_of_length by (rewrite map_length, (wf_weights P WF); lia). apply fold_len.
Qed.
End Succeeds.

(** ** C32 *)
(** objective() = sum_i w_i (f_i - g_i)^2 = ||residuals()||^2, whatever was evaluated before *)
Theorem C32_objective_is_weighted_sum P F outs s : wellformed P -> map F (p_funcs P) = map Some outs -> l_newx s = true ->
  exists s1 s2 s3 u r, unweighted P F s = (s1, length (p_funcs P), inl u) /\ u = res_of outs (p_goals P) /\
    objective P F s = (s2, length (p_funcs P), inl (lsq_value outs (p_goals P) (p_weights P))) /\
    residuals P F s = (s3, length (p_funcs P), inl r) /\ dot r r = lsq_value outs (p_goals P) (p_weights P).
Proof.
  intros WF OK NX. assert (HL := outs_len P F outs OK). assert (E := unweighted_ok P F outs WF OK s NX).
  do 5 eexists. split; [exact E|]. split; [reflexivity|]. unfold objective, residuals. rewrite E. cbn [l_weights].
  assert (WL := wts_len P F outs WF OK).
  rewrite osum_spec, osum_value by (rewrite ?(wf_goals P WF), ?(wf_weights P WF); auto).
  split; [do 2 f_equal; ring|]. rewrite bmul_same by (now rewrite map_length). split; [reflexivity|].
  rewrite weighted_square by (apply wts_of_nonneg, (wf_nonneg P WF)). apply osum_value; rewrite ?(wf_goals P WF), ?(wf_weights P WF); auto.
Qed.
(** construction: weights must be non-negative; from_tuples keeps goal and weight with the function;
    from_sigma(sigma) is the weight 1/sigma^2, i.e. the objective is sum_i ((f_i - g_i)/sigma_i)^2 *)
Lemma existsb_fneg ws : existsb fneg ws = false <-> Forall (fun w => 0 <= w) ws.
Proof.
  induction ws as [|w ws IH]; cbn; [split; auto|]. unfold fneg at 1. destruct (Rlt_dec w 0); cbn.
  - split; [discriminate|]. intros H. inversion_clear H. lra.
  - rewrite IH. split; [intros H; constructor; auto; lra|now inversion_clear 1].
Qed.
Theorem C32_from_tuples ts fail : ts <> [] ->
  match from_tuples ts fail with
  | inl P => wellformed P /\ p_fail P = fail /\ combine (combine (p_funcs P) (p_goals P)) (p_weights P) = ts /\ (forall o, In o (p_parents P) <-> exists f, In (o, f) (p_funcs P))
  | inr e => e = OErr EValue /\ exists t, In t ts /\ snd t < 0
  end.
Proof.
  intros HN. unfold from_tuples, mk_funcs. destruct (existsb fneg (map snd ts)) eqn:E.
  - split; auto. apply existsb_exists in E. destruct E as (w & Hw & Hn). apply in_map_iff in Hw. destruct Hw as (t & <- & Ht). exists t. split; auto.
    unfold fneg in Hn. now destruct (Rlt_dec (snd t) 0).
  - split; [|split; [|split]]; cbn.
    + constructor; cbn; rewrite ?map_length; auto. { destruct ts; [congruence|discriminate]. } now apply existsb_fneg.
    + auto.
    + clear. induction ts as [|[[f g] w] ts IH]; cbn; auto. now rewrite IH.
    + intros o. assert (U : forall l seen, In o (undup seen l) <-> In o l /\ ~ In o seen).
      { induction l as [|a l IH]; intros seen; cbn; [tauto|]. destruct (existsb (Nat.eqb a) seen) eqn:Ea.
        - apply existsb_exists in Ea. destruct Ea as (b & Hb & Eb). apply Nat.eqb_eq in Eb. subst b. rewrite IH. split; [tauto|]. intros [[->|H] HN']; tauto.
        - cbn. rewrite IH. assert (~ In a seen). { intros H. assert (existsb (Nat.eqb a) seen = true); [|congruence]. apply existsb_exists. exists a. split; auto. apply Nat.eqb_refl. }
          cbn. split; [intros [->|[H1 H2]]; tauto|]. intros [[->|H1] H2]; auto. destruct (Nat.eq_dec a o) as [->|]; auto. right. split; auto. tauto. }
      rewrite U. cbn. rewrite in_map_iff. split.
      * intros [([o' f] & <- & H) _]. eauto. * intros (f & H). split; [|tauto]. exists (o, f). auto.
Qed.
Fixpoint sigma_value (outs : list (list R)) (goals sigma : list R) : R :=
  match outs, goals, sigma with
  | out :: os, g :: gs, s :: ss => rsuml (map (fun v => ((v - g) / s) ^ 2) out) + sigma_value os gs ss
  | _, _, _ => 0
  end.
Theorem C32_from_sigma goals sigma funcs fail :
  match from_sigma goals sigma funcs fail with
  | inl P => Forall (fun s => s <> 0) sigma /\ p_goals P = goals /\ p_funcs P = funcs /\ p_fail P = fail /\
             Forall (fun w => 0 <= w) (p_weights P) /\ length (p_weights P) = length sigma /\ forall outs, lsq_value outs goals (p_weights P) = sigma_value outs goals sigma
  | inr e => e = OErr EValue /\ In 0 sigma
  end.
Proof.
  unfold from_sigma. destruct (existsb _ sigma) eqn:E.
  - split; auto. apply existsb_exists in E. destruct E as (s & Hs & H). destruct (Req_EM_T s 0); [now subst|discriminate].
  - assert (NZ : Forall (fun s => s <> 0) sigma).
    { apply Forall_forall. intros s Hs ->. assert (X : existsb (fun s => if Req_EM_T s 0 then true else false) sigma = true); [|congruence].
      apply existsb_exists. exists 0. split; auto. destruct (Req_EM_T 0 0); congruence. }
    assert (NN : Forall (fun w => 0 <= w) (map (fun s => 1 / (s * s)) sigma)).
    { apply Forall_forall. intros w Hw. apply in_map_iff in Hw. destruct Hw as (s & <- & Hs). rewrite Forall_forall in NZ. specialize (NZ s Hs).
      unfold Rdiv. rewrite Rmult_1_l. left. apply Rinv_0_lt_compat. nra. }
    unfold mk_funcs. rewrite (proj2 (existsb_fneg _) NN). cbn. repeat (split; auto). { apply map_length. }
    intros outs. revert goals outs. clear - NZ. induction NZ as [|s ss H _ IH]; intros [|g gs] [|o os]; cbn; auto.
    rewrite IH. f_equal. clear - H. induction o as [|v o IH]; cbn; auto. rewrite IH. f_equal. field. auto.
Qed.

(** ** C33, C34: any history.  The reference below has no cache: it knows the current x, whether an
    evaluation has succeeded yet, and [extra], the number of residuals computed before the failing
    function in first evaluations that raised. *)
Section History.
Context {X : Type}.
Variables (P : problem) (F : X -> func -> option (list R)) (dims : func -> nat).
Hypothesis WF : wellformed P.
(** every function has a fixed output length *)
Hypothesis Dims : forall x f out, F x f = Some out -> length out = dims f.
Definition ntotal : nat := fold_right Nat.add 0%nat (map dims (p_funcs P)).
Definition all_weights : list R := wts_of (map dims (p_funcs P)) (p_weights P).
Record spec := mkSpec { s_x : X; s_ok : bool; s_extra : nat }.
Definition partial_len (x : X) : nat := fold_right Nat.add 0%nat (map (@length R) (prefix_ok (map (F x) (p_funcs P)))).
(** the residuals at the current point *)
Definition ref_unw (t : spec) : spec * (list R + oerr) :=
  match all_some (map (F (s_x t)) (p_funcs P)), p_fail P with
  | Some outs, _ => (mkSpec (s_x t) true (s_extra t), inl (res_of outs (p_goals P)))
  | None, Some v => if s_ok t then (t, inl (repeat v (ntotal + s_extra t)))
                    else (mkSpec (s_x t) false (s_extra t + partial_len (s_x t)), inr OFailure)
  | None, None => ((if s_ok t then t else mkSpec (s_x t) false (s_extra t + partial_len (s_x t))), inr OFailure)
  end.
Definition ref_res (t : spec) : spec * (list R + oerr) :=
  match ref_unw t with (t', inl u) => (t', bmul u (map sqrt all_weights)) | r => r end.
Definition ref_obj (t : spec) : spec * (R + oerr) :=
  match ref_unw t with (t', inl u) => (t', osum 0 u all_weights) | (t', inr e) => (t', inr e) end.
Definition ref_setx (t : spec) (x : option X) := match x with None => t | Some x => mkSpec x (s_ok t) (s_extra t) end.
Definition ref_step (t : spec) (o : lop X) : spec * lret :=
  match o with
  | AX x => (ref_setx t (Some x), RUnit)
  | AFlag => (t, RUnit)
  | AUnw x => let (t', r) := ref_unw (ref_setx t x) in (t', to_ret RVec r)
  | ARes x => let (t', r) := ref_res (ref_setx t x) in (t', to_ret RVec r)
  | AObj x => let (t', r) := ref_obj (ref_setx t x) in (t', to_ret RNum r)
  end.
Fixpoint ref_run (t : spec) (ops : list (lop X)) : spec * list lret :=
  match ops with
  | [] => (t, [])
  | o :: r => let (t', a) := ref_step t o in let (t'', l) := ref_run t' r in (t'', a :: l)
  end.

Definition linv (xs : X * lst) (t : spec) : Prop :=
  let s := snd xs in
  fst xs = s_x t /\ l_first s = negb (s_ok t) /\ l_nvals s = ((if s_ok t then ntotal else 0) + s_extra t)%nat /\
  (s_ok t = true -> l_weights s = Some all_weights) /\ (s_ok t = false -> l_newx s = true) /\
  (l_newx s = false -> ref_unw t = (t, inl (l_cache s))).

Lemma outs_dims x outs : map (F x) (p_funcs P) = map Some outs -> map (@length R) outs = map dims (p_funcs P).
Proof.
  generalize (p_funcs P). intros l. revert outs. induction l as [|f l IH]; intros [|o os] H; cbn in *; try discriminate; auto.
  injection H as H1 H2. f_equal; auto. eapply Dims; eauto.
Qed.
Lemma prefix_len x : all_some (map (F x) (p_funcs P)) = None -> (length (prefix_ok (map (F x) (p_funcs P))) < length (p_funcs P))%nat.
Proof. intros H. apply all_some_None in H. destruct H as (rest & E). rewrite <- (map_length (F x)). rewrite E at 2. rewrite app_length, map_length. cbn. lia. Qed.

Lemma unw_ref xs t : linv xs t ->
  let '(s', _, r) := unweighted P (F (fst xs)) (snd xs) in let (t', r') := ref_unw t in r = r' /\ linv (fst xs, s') t' /\
     (forall u, r = inl u -> l_weights s' = Some all_weights).
Proof.
  intros (HX & HF & HN & HW & HO & HC). destruct xs as [x s]. cbn [fst snd] in *. subst x. destruct (l_newx s) eqn:NX.
  - destruct (all_some (map (F (s_x t)) (p_funcs P))) as [outs|] eqn:EA.
    + assert (EA' := EA). apply all_some_Some in EA'. rewrite (unweighted_ok P _ outs WF EA' s NX). unfold ref_unw at 1. rewrite EA.
      split; auto. assert (OD := outs_dims _ _ EA'). split.
      * split; auto. cbn [snd l_first l_nvals l_weights l_newx l_cache s_x s_ok s_extra]. split; auto. split.
        { rewrite OD. fold ntotal. rewrite HF, HN. destruct (s_ok t); cbn; lia. }
        split. { intros _. rewrite OD. reflexivity. } split; [discriminate|]. intros _. unfold ref_unw. cbn [s_x s_ok s_extra]. now rewrite EA.
      * intros u _. cbn. now rewrite OD.
    + assert (PL := prefix_len _ EA). destruct (all_some_None _ EA) as (rest & E).
      remember (prefix_ok (map (F (s_x t)) (p_funcs P))) as pre eqn:HP.
      unfold unweighted. rewrite NX, E, lloop_break by (rewrite ?(wf_goals P WF), ?(wf_weights P WF); lia).
      unfold ref_unw at 1. rewrite EA. rewrite HF. destruct (p_fail P) as [v|] eqn:EF.
      * destruct (s_ok t) eqn:OKt; cbn [negb].
        -- rewrite HN. split; [reflexivity|]. split; [|intros u _; cbn; now apply HW]. split; auto. cbn [snd l_first l_nvals l_weights l_newx l_cache]. rewrite OKt.
           repeat (split; [solve [auto|discriminate]|]). intros _. unfold ref_unw. now rewrite EA, EF, OKt.
        -- split; [reflexivity|]. split; [|discriminate]. split; auto. cbn [snd l_first l_nvals l_weights l_newx l_cache s_x s_ok s_extra]. repeat (split; [solve [auto|discriminate]|]). split.
           { rewrite HN, fold_len. unfold partial_len. rewrite <- HP. lia. } repeat (split; [solve [auto|discriminate]|]). discriminate.
      * destruct (s_ok t) eqn:OKt; cbn [negb].
        -- split; [reflexivity|]. split; [|discriminate]. split; auto. cbn [snd l_first l_nvals l_weights l_newx l_cache]. rewrite OKt. repeat (split; [solve [auto|discriminate]|]). discriminate.
        -- split; [reflexivity|]. split; [|discriminate]. split; auto. cbn [snd l_first l_nvals l_weights l_newx l_cache s_x s_ok s_extra]. repeat (split; [solve [auto|discriminate]|]). split.
           { rewrite HN, fold_len. unfold partial_len. rewrite <- HP. lia. } repeat (split; [solve [auto|discriminate]|]). discriminate.
  - unfold unweighted. rewrite NX. rewrite (HC eq_refl). split; auto. assert (s_ok t = true) by (destruct (s_ok t); auto; discriminate HO; auto).
    split; [|intros u _; auto]. split; auto. repeat (split; [assumption|]). split; [intros E; rewrite E in *; discriminate|]. intros _. now apply HC.
Qed.
Lemma setx_inv xs t x : linv xs t -> linv (lsetx xs x) (ref_setx t x).
Proof.
  intros (HX & HF & HN & HW & HO & HC). destruct x as [x|]; [|repeat (split; auto)]. cbn. split; auto. cbn. repeat (split; [assumption|]). split; auto. discriminate.
Qed.
Lemma step_ref xs t o : linv xs t -> let (xs', a) := lstep P F xs o in let (t', a') := ref_step t o in a = a' /\ linv xs' t'.
Proof.
  intros I. destruct o as [x| |x|x|x]; cbn [lstep ref_step].
  - split; auto. now apply setx_inv.
  - split; auto. destruct I as (HX & HF & HN & HW & HO & HC). split; auto. cbn. repeat (split; [assumption|]). split; auto. discriminate.
  - assert (H := unw_ref _ _ (setx_inv _ _ x I)). destruct (unweighted P _ _) as [[s' c] r]. destruct (ref_unw _) as [t' r']. destruct H as (-> & H & _). auto.
  - assert (H := unw_ref _ _ (setx_inv _ _ x I)). unfold residuals, ref_res. destruct (unweighted P _ _) as [[s' c] r]. destruct (ref_unw _) as [t' r']. destruct H as (-> & H & HW).
    destruct r' as [u|e]; auto. rewrite (HW u eq_refl). auto.
  - assert (H := unw_ref _ _ (setx_inv _ _ x I)). unfold objective, ref_obj. destruct (unweighted P _ _) as [[s' c] r]. destruct (ref_unw _) as [t' r']. destruct H as (-> & H & HW).
    destruct r' as [u|e]; auto. rewrite (HW u eq_refl). auto.
Qed.
Lemma run_ref ops : forall xs t, linv xs t -> snd (lrun P F xs ops) = snd (ref_run t ops) /\ linv (fst (lrun P F xs ops)) (fst (ref_run t ops)).
Proof.
  induction ops as [|o ops IH]; intros xs t I; cbn; auto. assert (H := step_ref xs t o I). destruct (lstep P F xs o) as [xs' a]. destruct (ref_step t o) as [t' a'].
  destruct H as [<- H]. specialize (IH _ _ H). destruct (lrun P F xs' ops). destruct (ref_run t' ops). cbn in *. destruct IH as [<- IH]. auto.
Qed.
Lemma init_inv x0 : linv (x0, lsq_init) (mkSpec x0 false 0).
Proof. split; auto. cbn. repeat (split; [solve [auto|discriminate]|]). discriminate. Qed.

(** every answer of every history, with failures and retries at any point, is that of the reference *)
Theorem C33_history_matches_reference x0 ops : snd (lrun P F (x0, lsq_init) ops) = snd (ref_run (mkSpec x0 false 0) ops).
Proof. apply run_ref, init_inv. Qed.

(** the state of the problem after a history, in the user's terms: current x, has an evaluation succeeded *)
Definition after (x0 : X) (ops : list (lop X)) : X * lst := fst (lrun P F (x0, lsq_init) ops).
Definition ref_after (x0 : X) ops : spec := fst (ref_run (mkSpec x0 false 0) ops).
Lemma ref_extra t ops : (forall x, all_some (map (F x) (p_funcs P)) = None -> partial_len x = 0%nat) \/ s_ok t = true -> s_extra (fst (ref_run t ops)) = s_extra t.
Proof.
  revert t. induction ops as [|o ops IH]; intros t H; cbn; auto.
  assert (U : forall t, (forall x, all_some (map (F x) (p_funcs P)) = None -> partial_len x = 0%nat) \/ s_ok t = true -> s_extra (fst (ref_unw t)) = s_extra t /\ (s_ok t = true -> s_ok (fst (ref_unw t)) = true)).
  { clear. intros t H. unfold ref_unw. destruct (all_some _) eqn:E; cbn; auto. destruct (p_fail P); destruct (s_ok t) eqn:K; cbn; auto; destruct H as [H|H]; try discriminate; rewrite (H _ E); split; auto; lia. }
  assert (S1 : s_extra (fst (ref_step t o)) = s_extra t /\ (s_ok t = true -> s_ok (fst (ref_step t o)) = true)).
  { assert (HS : forall x, s_extra (ref_setx t x) = s_extra t /\ s_ok (ref_setx t x) = s_ok t) by (intros [x|]; auto).
    destruct o as [x| |x|x|x]; cbn; auto; destruct (HS x) as [HS1 HS2]; specialize (U (ref_setx t x)); rewrite HS1, HS2 in U; specialize (U H);
    unfold ref_res, ref_obj; destruct (ref_unw _) as [t' [u|e]]; cbn in *; auto. }
  destruct (ref_step t o) as [t' a]. destruct (ref_run t' ops) as [t'' l] eqn:E. cbn in *. specialize (IH t'). rewrite E in IH. cbn in IH. destruct S1 as [S1 S2]. rewrite IH; auto. destruct H; auto.
Qed.
(** C33: if the first evaluation succeeded, then after any further history an evaluation at the current x gives
    the residuals of the current x, and if a function fails there, a vector of the usual length *)
Theorem C33_current_residuals x0 ops outs0 : all_some (map (F x0) (p_funcs P)) = Some outs0 ->
  let (x, s) := after x0 (AUnw None :: ops) in
  let '(_, _, r) := unweighted P (F x) s in
  match all_some (map (F x) (p_funcs P)) with
  | Some outs => r = inl (res_of outs (p_goals P))
  | None => match p_fail P with
            | Some v => exists l, r = inl l /\ l = repeat v (length (res_of outs0 (p_goals P)))
            | None => r = inr OFailure
            end
  end.
Proof.
  intros E0. unfold after. destruct (run_ref (AUnw None :: ops) _ _ (init_inv x0)) as [_ I].
  assert (EX : s_extra (fst (ref_run (mkSpec x0 false 0) (AUnw None :: ops))) = 0%nat /\ s_ok (fst (ref_run (mkSpec x0 false 0) (AUnw None :: ops))) = true).
  { cbn. unfold ref_unw. cbn [s_x s_extra]. rewrite E0. cbn [s_x s_extra]. destruct (ref_run (mkSpec x0 true 0) ops) as [t'' l] eqn:E. cbn.
    assert (X1 := ref_extra (mkSpec x0 true 0) ops (or_intror eq_refl)). rewrite E in X1. cbn in X1. split; auto.
    clear - E. assert (G : forall ops t, s_ok t = true -> s_ok (fst (ref_run t ops)) = true); [|specialize (G ops (mkSpec x0 true 0) eq_refl); rewrite E in G; exact G].
    clear. induction ops as [|o ops IH]; intros t H; cbn; auto.
    assert (S1 : s_ok (fst (ref_step t o)) = true).
    { assert (U : forall t, s_ok t = true -> s_ok (fst (ref_unw t)) = true). { clear. intros t H. unfold ref_unw. destruct (all_some _); cbn; auto. destruct (p_fail P); rewrite H; auto. }
      assert (HS : forall x, s_ok (ref_setx t x) = true) by (intros [x|]; auto). destruct o as [x| |x|x|x]; cbn; auto; specialize (U _ (HS x)); unfold ref_res, ref_obj; destruct (ref_unw _) as [t' [u|e]]; cbn in *; auto. }
    destruct (ref_step t o) as [t' a]. specialize (IH t' S1). destruct (ref_run t' ops). auto. }
  destruct (lrun P F (x0, lsq_init) (AUnw None :: ops)) as [[x s] ans]. cbn [fst] in *. destruct (ref_run _ _) as [t ans']. cbn [fst] in *.
  assert (H := unw_ref (x, s) t I). cbn [fst snd] in H. destruct (unweighted P (F x) s) as [[s' c] r]. unfold ref_unw in H. destruct I as [HX _]. cbn [fst] in HX. rewrite <- HX in H.
  destruct EX as [EX EO]. destruct (all_some (map (F x) (p_funcs P))); [apply H|]. rewrite EX, EO in H. destruct (p_fail P); [|apply H]. destruct H as (-> & _). eexists. split; [reflexivity|].
  apply all_some_Some in E0. assert (HL := outs_len P _ _ E0). rewrite res_of_length by (rewrite (wf_goals P WF); auto). rewrite fold_len, (outs_dims _ _ E0). fold ntotal. now rewrite Nat.add_0_r.
Qed.
(** a repeated evaluation calls no function and returns the same vector *)
Theorem C33_no_recomputation x s s' c u : unweighted P (F x) s = (s', c, inl u) -> unweighted P (F x) s' = (s', 0%nat, inl u) /\ (c <= length (p_funcs P))%nat.
Proof.
  unfold unweighted at 1. intros E. destruct (l_newx s) eqn:NX.
  - assert (CB : forall rs first nv calls k ob wb nv' c' r, lloop P first nv calls k ob wb rs = (nv', c', r) -> (c' <= calls + length rs)%nat).
    { clear. induction rs as [|[o|] rs IH]; intros first nv calls k ob wb nv' c' r E; cbn in E.
      - injection E as <- <- <-. lia.
      - destruct (nth_error _ k); [|injection E as <- <- <-; cbn; lia]. destruct (nth_error _ k); [|injection E as <- <- <-; cbn; lia]. apply IH in E. cbn. lia.
      - injection E as <- <- <-. cbn. lia. }
    destruct (lloop _ _ _ _ _ _ _ _) as [[nv calls] r] eqn:EL. apply CB in EL. rewrite map_length in EL. destruct r as [outs ws| |e].
    + injection E as <- <- <-. split; auto. + injection E as <- <- <-. split; auto. + destruct e as [| |[| |? ?| | | |]]; discriminate.
  - injection E as <- <- <-. unfold unweighted. rewrite NX. split; auto. lia.
Qed.

(** C34 is refuted: if the first evaluation raises at x1 after [k > 0] residuals were computed and is then
    retried successfully at x2, a later failure at x3 gives a vector with [k] extra entries ... *)
Theorem C34_refuted x1 x2 x3 v outs2 :
  p_fail P = Some v -> all_some (map (F x1) (p_funcs P)) = None -> (0 < partial_len x1)%nat ->
  all_some (map (F x2) (p_funcs P)) = Some outs2 -> all_some (map (F x3) (p_funcs P)) = None ->
  snd (lrun P F (x1, lsq_init) [AUnw None; AUnw (Some x2); AUnw (Some x3)]) =
    [RErr OFailure; RVec (res_of outs2 (p_goals P)); RVec (repeat v (length (res_of outs2 (p_goals P)) + partial_len x1))].
Proof.
  intros EF E1 HP E2 E3. rewrite C33_history_matches_reference. cbn. unfold ref_unw. cbn [s_x s_ok s_extra ref_setx]. rewrite E1, EF. cbn [s_x s_ok s_extra ref_setx]. rewrite E2. cbn [s_x s_ok s_extra ref_setx]. rewrite E3. cbn.
  apply all_some_Some in E2. assert (HL := outs_len P _ _ E2). rewrite res_of_length by (rewrite (wf_goals P WF); auto). now rewrite fold_len, (outs_dims _ _ E2).
Qed.
(** ... and then residuals() and objective() raise (unless there is a single residual, when residuals()
    silently returns a longer vector) *)
Theorem C34_refuted_raises x1 x2 x3 v outs2 :
  p_fail P = Some v -> all_some (map (F x1) (p_funcs P)) = None -> (0 < partial_len x1)%nat ->
  all_some (map (F x2) (p_funcs P)) = Some outs2 -> all_some (map (F x3) (p_funcs P)) = None -> (1 < length (res_of outs2 (p_goals P)))%nat ->
  exists a, snd (lrun P F (x1, lsq_init) [AUnw None; AUnw (Some x2); ARes (Some x3); AObj None]) =
    [RErr OFailure; a; RErr (OErr EValue); RErr (OErr EIndex)].
Proof.
  intros EF E1 HP E2 E3 H1. eexists. rewrite C33_history_matches_reference. cbn. unfold ref_obj, ref_res, ref_unw. cbn [s_x s_ok s_extra ref_setx]. rewrite E1, EF. cbn [s_x s_ok s_extra ref_setx]. rewrite E2. cbn [s_x s_ok s_extra ref_setx]. rewrite E3. cbn [s_x s_ok s_extra ref_setx].
  rewrite E3. apply all_some_Some in E2. assert (HL := outs_len P _ _ E2). rewrite res_of_length in H1 by (rewrite (wf_goals P WF); auto). rewrite fold_len, (outs_dims _ _ E2) in H1. fold ntotal in H1.
  assert (LW : length all_weights = ntotal) by (unfold all_weights; apply wts_of_length; now rewrite map_length, (wf_weights P WF)).
  cbn [Nat.add].
  assert (BM : bmul (repeat v (ntotal + partial_len x1)) (map sqrt all_weights) = inr (OErr EValue)).
  { unfold bmul. rewrite repeat_length, map_length, LW. replace (_ =? ntotal)%nat with false by (symmetry; apply Nat.eqb_neq; lia).
    assert (LR := repeat_length v (ntotal + partial_len x1)). assert (LM := map_length sqrt all_weights). rewrite LW in LM.
    destruct (repeat v _) as [|a [|b l]]; cbn in LR; try lia. destruct (map sqrt all_weights) as [|c [|d m]]; cbn in LM; try lia; reflexivity. }
  assert (OS : forall us ws acc, (length ws < length us)%nat -> osum acc us ws = inr (OErr EIndex)).
  { clear. induction us as [|u us IH]; intros [|w ws] acc H; cbn in *; try lia; auto. apply IH. lia. }
  rewrite BM, OS; [reflexivity|]. rewrite repeat_length, LW. lia.
Qed.
End History.
(** *** hypotheses are met: two functions (the first vector valued), the second fails at x = 1 and x = 3 *)
Definition exP : problem := mkProb [1; 2] [4; 9] [0; 1]%nat [(0, 0); (1, 0)]%nat (Some 100).
Definition exF (x : nat) (f : func) : option (list R) :=
  match f, x with (0, _)%nat, _ => Some [5; 6] | _, 1%nat => None | _, 3%nat => None | _, _ => Some [7] end.
Definition exdims (f : func) : nat := match f with (0, _)%nat => 2 | _ => 1 end.
Lemma exP_wf : wellformed exP.
Proof. constructor; cbn; auto; [discriminate|repeat constructor; lra]. Qed.
Lemma exF_dims x f out : exF x f = Some out -> length out = exdims f.
Proof. destruct f as [[|a] b]; cbn; [intros [= <-]; auto|]. destruct x as [|[|[|[|x]]]]; intros [= <-]; auto. Qed.
Example C32_example : map (exF 0) (p_funcs exP) = map Some [[5; 6]; [7]] /\ lsq_value [[5; 6]; [7]] [1; 2] [4; 9] = 4 * 16 + 4 * 25 + 9 * 25.
Proof. split; [reflexivity|]. cbn. ring. Qed.
Example C33_example : snd (lrun exP exF (0%nat, lsq_init) [AUnw None; AX 1%nat; AUnw None]) =
  [RVec [5 - 1; 6 - 1; 7 - 2]; RUnit; RVec [100; 100; 100]].
Proof. rewrite (C33_history_matches_reference exP exF exdims exP_wf exF_dims). cbv -[Rplus Rminus Rmult IZR]. reflexivity. Qed.
Example C34_example : snd (lrun exP exF (1%nat, lsq_init) [AUnw None; AUnw (Some 2%nat); AUnw (Some 3%nat)]) =
  [RErr OFailure; RVec [5 - 1; 6 - 1; 7 - 2]; RVec [100; 100; 100; 100; 100]].
Proof.
  rewrite (C34_refuted exP exF exdims exP_wf exF_dims 1%nat 2%nat 3%nat 100 [[5; 6]; [7]]); try reflexivity. cbv. lia.
Qed.
Print Assumptions C32_objective_is_weighted_sum. Print Assumptions C32_from_tuples. Print Assumptions C32_from_sigma.
Print Assumptions C33_history_matches_reference. Print Assumptions C33_current_residuals. Print Assumptions C33_no_recomputation.
Print Assumptions C34_refuted. Print Assumptions C34_refuted_raises.
