(** C102: least_squares_serial_solve. *)
From Verif Require Import ListAux DofsModel VecAux LsqModel LsqProps SolveModel.
Local Open Scope R_scope.

Definition soft (r : fres) : option (list R) := match r with FOk o => Some o | _ => None end.
(** the first function that does not return a value crashes *)
Fixpoint crash_first (rs : list fres) : bool :=
  match rs with [] => false | FOk _ :: r => crash_first r | FFail :: _ => false | FCrash :: _ => true end.
Lemma lloopH_soft P first : forall rs nv calls i ob wb, crash_first rs = false -> lloopH P first nv calls i ob wb rs = lloop P first nv calls i ob wb (map soft rs).
Proof.
  induction rs as [|[o| |] rs IH]; intros nv calls i ob wb H; cbn in *; auto; [|discriminate].
  destruct (nth_error _ i); auto. destruct (nth_error _ i); auto.
Qed.
Lemma lloopH_crash P first : forall rs nv calls i ob wb, crash_first rs = true ->
  (i + length rs <= length (p_goals P))%nat -> (i + length rs <= length (p_weights P))%nat ->
  exists c, lloopH P first nv calls i ob wb rs =
  ((if first then nv + fold_right (fun o n => length o + n)%nat 0%nat (prefix_ok (map soft rs)) else nv)%nat, c, LRaise ORuntime).
Proof.
  induction rs as [|[o| |] rs IH]; intros nv calls i ob wb H HG HW; cbn in *; try discriminate.
  - destruct (nth_error (p_goals P) i) as [g|] eqn:EG; [|apply nth_error_None in EG; lia].
    destruct (nth_error (p_weights P) i) as [w|] eqn:EW; [|apply nth_error_None in EW; lia].
    destruct (IH (if first then nv + length (map (fun v => (v - g)%R) o) else nv)%nat (S calls) (S i) (ob ++ map (fun v => v - g) o) (wb ++ repeat w (length (map (fun v => v - g) o))) H) as (c & E); [lia|lia|].
    exists c. rewrite E. do 2 f_equal. destruct first; auto. rewrite map_length. lia.
  - eexists. f_equal. f_equal. destruct first; lia.
Qed.

Section Lsq.
Context {X : Type}.
Variables (P : problem) (G : X -> func -> fres) (dims : func -> nat).
Hypothesis WF : wellformed P.
(** every function has a fixed output length *)
Hypothesis Dims : forall x f out, G x f = FOk out -> length out = dims f.
Definition Fs (x : X) (f : func) : option (list R) := soft (G x f).
Lemma DimsF x f out : Fs x f = Some out -> length out = dims f.
Proof. unfold Fs. destruct (G x f) eqn:E; cbn; try discriminate. intros [= <-]. eauto. Qed.
(** at x a function crashes (before any function reports a failure) *)
Definition crashes (x : X) : bool := crash_first (map (G x) (p_funcs P)).

(** ** Specification: what the optimizer should be given at x *)
Definition weighted (outs : list (list R)) : list R := vmap2 Rmult (res_of outs (p_goals P)) (map sqrt (wts_of (map (@length R) outs) (p_weights P))).
(** [ok]: an evaluation has succeeded before *)
Definition value (ok : bool) (x : X) : option (list R) :=
  if crashes x then None else
  match all_some (map (Fs x) (p_funcs P)) with
  | Some outs => Some (weighted outs)
  | None => match p_fail P, ok with Some c, true => Some (map (fun w => c * sqrt w) (all_weights P dims)) | _, _ => None end
  end.
(** the run of the optimizer on these values, with no problem object at all: evaluations made, and result.x or None for an exception *)
Fixpoint ideal (ok : bool) (cur : X) (st : strat X) : list (X * list R) * option X :=
  match st with
  | Stop x => ([], Some x)
  | Throw => ([], None)
  | Assign x k => ideal ok x k
  | Probe x k => let x := match x with Some x => x | None => cur end in
                 match value ok x with None => ([], None) | Some v => ideal true x (k v) end
  | Eval x k => match value ok x with None => ([], None) | Some v => let (l, f) := ideal true x (k v) in ((x, v) :: l, f) end
  end.

(** ** the invariant of C33, extended by crashes *)
Definition linvH (xs : X * lst) (t : @spec X) : Prop :=
  linv P Fs dims xs t /\ (l_newx (snd xs) = false -> crashes (s_x t) = false).
Definition refH (t : @spec X) : spec * (list R + oerr) :=
  if crashes (s_x t) then ((if s_ok t then t else mkSpec (s_x t) false (s_extra t + partial_len P Fs (s_x t))), inr ORuntime)
  else ref_unw P Fs dims t.
Lemma map_soft x : map soft (map (G x) (p_funcs P)) = map (Fs x) (p_funcs P).
Proof. now rewrite map_map. Qed.
Lemma unwH_ref xs t : linvH xs t ->
  let '(s', _, r) := unweightedH P (G (fst xs)) (snd xs) in let (t', r') := refH t in r = r' /\ linvH (fst xs, s') t' /\
    (forall u, r = inl u -> l_weights s' = Some (all_weights P dims) /\ l_newx s' = false).
Proof.
  intros (I & C). assert (I' := I). destruct I' as (HX & HF & HN & HW & HO & HC). unfold refH.
  destruct (crashes (s_x t)) eqn:EC.
  - assert (NX : l_newx (snd xs) = true) by (destruct (l_newx (snd xs)); auto; discriminate C; auto).
    unfold unweightedH. rewrite NX. assert (LG := wf_goals P WF). assert (LW := wf_weights P WF).
    destruct (lloopH_crash P (l_first (snd xs)) (map (G (fst xs)) (p_funcs P)) (l_nvals (snd xs)) 0 0 [] []) as (c & E); [rewrite HX; exact EC|rewrite map_length; lia|rewrite map_length; lia|].
    rewrite E, map_soft. split; auto. split; [|discriminate]. split; [|cbn; discriminate].
    split; [destruct (s_ok t); auto|]. cbn [snd l_first l_nvals l_weights l_newx l_cache]. rewrite HF, HN, fold_len, HX. unfold partial_len.
    destruct (s_ok t) eqn:OK; cbn [negb s_ok s_extra]; rewrite ?OK; repeat (split; [solve [auto|discriminate|lia]|]); discriminate.
  - assert (U : unweightedH P (G (fst xs)) (snd xs) = unweighted P (Fs (fst xs)) (snd xs)).
    { unfold unweightedH, unweighted. destruct (l_newx (snd xs)); auto. rewrite lloopH_soft, map_soft; auto. rewrite HX. exact EC. }
    rewrite U. assert (H := unw_ref P Fs dims WF DimsF xs t I). unfold unweighted in *. destruct (l_newx (snd xs)) eqn:NX.
    + destruct (lloop _ _ _ _ _ _ _ _) as [[nv cl] r]. 
      assert (ST : forall t' r', ref_unw P Fs dims t = (t', r') -> s_x t' = s_x t).
      { clear. intros t' r'. unfold ref_unw. destruct (all_some _); [now intros [= <- <-]|]. destruct (p_fail P); destruct (s_ok t); now intros [= <- <-]. }
      destruct (ref_unw P Fs dims t) as [t' r'] eqn:ER. specialize (ST t' r' eq_refl).
      destruct r as [o w| |e].
      * destruct H as (H1 & H2 & H3). split; auto. split; [split; auto; rewrite ST; auto|]. intros u Hu. split; [eauto|reflexivity].
      * destruct H as (H1 & H2 & H3). split; auto. split; [split; auto; rewrite ST; auto|]. intros u Hu. split; [eauto|reflexivity].
      * destruct e as [| |[| |? ?| | | |]]; destruct H as (H1 & H2 & H3); (split; auto; split; [split; auto; rewrite ST; auto|]; intros u Hu; discriminate Hu).
    + specialize (C eq_refl). rewrite (HC eq_refl) in *. destruct H as (H1 & H2 & H3). split; auto. split; [split; auto|]. intros u Hu. split; [eauto|exact NX].
Qed.
Lemma setH_inv xs t x : linvH xs t -> linvH (lsetx xs x) (ref_setx t x).
Proof. intros (I & C). split; [now apply setx_inv|]. destruct x; cbn; auto. discriminate. Qed.
Lemma initH_inv x0 : linvH (x0, lsq_init) (mkSpec x0 false 0).
Proof. split; [apply init_inv|]. discriminate. Qed.

(** once evaluated, the answer is remembered *)
Lemma unwH_again G0 (s s' : lst) c r u : unweightedH P G0 s = (s', c, r) -> r = inl u -> l_newx s' = false -> unweightedH P G0 s' = (s', 0%nat, inl u).
Proof.
  intros E -> N. unfold unweightedH at 1. rewrite N. unfold unweightedH in E. destruct (l_newx s).
  - destruct (lloopH _ _ _ _ _ _ _ _) as [[nv cl] [o w| |e]]; [injection E as <- _ <-; auto|injection E as <- _ <-; auto|].
    destruct e as [| |[| |? ?| | | |]]; discriminate.
  - injection E as <- _ <-. auto.
Qed.

(** the vectors that arise at the current point *)
Lemma all_weights_len : length (all_weights P dims) = ntotal P dims.
Proof. unfold all_weights. apply wts_of_length. now rewrite map_length, (wf_weights P WF). Qed.
Lemma all_weights_nonneg : Forall (fun w => 0 <= w) (all_weights P dims).
Proof. apply wts_of_nonneg, (wf_nonneg P WF). Qed.
Lemma vmap2_repeat c (ws : list R) : vmap2 Rmult (repeat c (length ws)) (map sqrt ws) = map (fun w => c * sqrt w) ws.
Proof. induction ws as [|w ws IH]; cbn; auto. now rewrite IH. Qed.
Lemma osum_short us : forall ws acc v, osum acc us ws = inl v -> (length us <= length ws)%nat.
Proof. induction us as [|u us IH]; intros [|w ws] acc v H; cbn in *; try lia; [discriminate|]. apply IH in H. lia. Qed.

(** the answer of unweighted_residuals at x: none, the residuals, or the failure vector, possibly too long *)
Lemma refH_cases t t' u : refH t = (t', inl u) ->
  s_x t' = s_x t /\ s_ok t' = true /\ s_extra t' = s_extra t /\ crashes (s_x t) = false /\
  ((exists outs, all_some (map (Fs (s_x t)) (p_funcs P)) = Some outs /\ u = res_of outs (p_goals P) /\ length u = ntotal P dims /\ wts_of (map (@length R) outs) (p_weights P) = all_weights P dims) \/
   (all_some (map (Fs (s_x t)) (p_funcs P)) = None /\ s_ok t = true /\ exists c, p_fail P = Some c /\ u = repeat c (ntotal P dims + s_extra t))).
Proof.
  unfold refH. destruct (crashes (s_x t)); [destruct (s_ok t); discriminate|]. unfold ref_unw. destruct (all_some _) as [outs|] eqn:E.
  - intros [= <- <-]. repeat (split; [reflexivity|]). left. exists outs. split; auto. split; auto.
    apply all_some_Some in E. assert (HL := outs_len P _ _ E). assert (OD := outs_dims P Fs dims DimsF _ _ E).
    rewrite res_of_length by (rewrite (wf_goals P WF); auto). rewrite fold_len, OD. split; reflexivity.
  - destruct (p_fail P) as [c|]; [|destruct (s_ok t); discriminate]. destruct (s_ok t) eqn:OK; [|discriminate]. intros [= <- <-]. rewrite OK. repeat (split; [reflexivity|]). right. repeat (split; [reflexivity|]). exists c. auto.
Qed.
Lemma refH_fail t t' e : refH t = (t', inr e) -> crashes (s_x t) = true \/ all_some (map (Fs (s_x t)) (p_funcs P)) = None /\ (p_fail P = None \/ s_ok t = false).
Proof.
  unfold refH. destruct (crashes (s_x t)); auto. unfold ref_unw. destruct (all_some _); [discriminate|]. intros H. right. split; auto.
  destruct (p_fail P); auto. destruct (s_ok t); auto. discriminate.
Qed.
Lemma value_fail ok x : crashes x = true \/ all_some (map (Fs x) (p_funcs P)) = None /\ (p_fail P = None \/ ok = false) -> value ok x = None.
Proof. unfold value. intros [->|[-> H]]; auto. destruct (crashes x); auto. destruct (p_fail P); auto. destruct H as [H| ->]; auto. discriminate. Qed.

(** the callback *)
Lemma callback_spec xs t x : linvH xs t ->
  match callback P G xs x with
  | (xs', inl (v, val)) => value (s_ok t) x = Some v /\ val = dot v v /\
      linvH xs' (mkSpec x true (s_extra t)) /\ fst xs' = x
  | (xs', inr e) => fst xs' = x /\ (exists t', linvH xs' t') /\ (value (s_ok t) x = None \/ (s_extra t > 0)%nat /\ all_some (map (Fs x) (p_funcs P)) = None)
  end.
Proof.
  intros I. assert (I1 := setH_inv xs t (Some x) I). cbn [lsetx ref_setx] in I1.
  unfold callback, residualsH, objectiveH. assert (H := unwH_ref _ _ I1). cbn [fst snd] in H.
  destruct (unweightedH P (G x) (set_lnewx (snd xs))) as [[s2 c2] r] eqn:E2. destruct (refH (mkSpec x (s_ok t) (s_extra t))) as [t' r'] eqn:ER.
  destruct H as (-> & I2 & HW). destruct r' as [u|e].
  - destruct (HW u eq_refl) as [HWs HNX]. rewrite HWs.
    rewrite (unwH_again _ _ _ _ _ _ E2 eq_refl HNX), HWs.
    apply refH_cases in ER. cbn [s_x s_ok s_extra] in ER. destruct ER as (EX & EO & EE & EC & D).
    assert (ET : t' = mkSpec x true (s_extra t)) by (destruct t'; cbn in *; congruence). subst t'.
    destruct D as [(outs & EA & -> & HL & EW)|(EA & OK & c & EF & ->)].
    + rewrite osum_spec by (rewrite HL, all_weights_len; auto). rewrite bmul_same by (rewrite map_length, HL, all_weights_len; auto).
      split; [unfold value, weighted; now rewrite EC, EA, EW|]. split; auto. rewrite weighted_square by apply all_weights_nonneg. ring.
    + destruct (osum 0 (repeat c (ntotal P dims + s_extra t)) (all_weights P dims)) as [val|e] eqn:EOS.
      * assert (EX0 : s_extra t = 0%nat). { apply osum_short in EOS. rewrite repeat_length, all_weights_len in EOS. lia. }
        rewrite EX0, Nat.add_0_r in *. rewrite <- all_weights_len in *. rewrite bmul_same by now rewrite map_length, repeat_length. rewrite vmap2_repeat.
        split; [unfold value; now rewrite EC, EA, EF, OK|]. split; auto.
        rewrite <- (vmap2_repeat c). rewrite weighted_square by apply all_weights_nonneg.
        rewrite osum_spec in EOS by apply repeat_length. injection EOS as <-. ring.
      * split; auto. split; [eauto|]. right. split; auto. destruct (s_extra t) as [|n]; [|lia].
        exfalso. rewrite osum_spec in EOS by (rewrite repeat_length, all_weights_len; lia). discriminate.
  - destruct (unweightedH P (G x) s2) as [[s3 c3] r3] eqn:E3.
    assert (I2' := unwH_ref (x, s2) t' I2). cbn [fst snd] in I2'. rewrite E3 in I2'. 
    assert (ER2 := refH_fail _ _ _ ER). cbn [s_x s_ok] in ER2.
    assert (ST : s_x t' = x /\ (s_ok t' = s_ok t)).
    { clear - ER. unfold refH in ER. cbn [s_x s_ok s_extra] in ER. destruct (crashes x); [destruct (s_ok t) eqn:K; injection ER as <- _; cbn; auto|].
      unfold ref_unw in ER. cbn [s_x s_ok s_extra] in ER. destruct (all_some _); [discriminate|]. destruct (p_fail P); destruct (s_ok t); try discriminate; injection ER as <- _; cbn; auto. }
    destruct (refH t') as [t3 r3'] eqn:ER3. destruct I2' as (-> & I3 & _).
    assert (exists e', r3' = inr e') as (e' & ->).
    { destruct r3' as [u'|]; eauto. apply refH_cases in ER3. destruct ST as [S1 S2]. rewrite S1, S2 in ER3. destruct ER3 as (_ & _ & _ & EC & D).
      destruct ER2 as [E|[E1 E4]]; [congruence|]. destruct D as [(outs & EA & _)|(_ & OK & c & EF & _)]; [congruence|]. destruct E4; congruence. }
    split; auto. split; [eauto|]. left. now apply value_fail.
Qed.
Lemma probe_spec xs t : linvH xs t -> s_extra t = 0%nat ->
  let '(s', _, r) := residualsH P (G (fst xs)) (snd xs) in
  match r with
  | inl v => value (s_ok t) (s_x t) = Some v /\ linvH (fst xs, s') (mkSpec (s_x t) true 0)
  | inr _ => value (s_ok t) (s_x t) = None /\ exists t', linvH (fst xs, s') t'
  end.
Proof.
  intros I EX. unfold residualsH. assert (H := unwH_ref _ _ I). destruct (unweightedH P (G (fst xs)) (snd xs)) as [[s2 c2] r].
  destruct (refH t) as [t' r'] eqn:ER. destruct H as (-> & I2 & HW). destruct r' as [u|e].
  - destruct (HW u eq_refl) as [HWs _]. rewrite HWs. apply refH_cases in ER. destruct ER as (E1 & E2 & E3 & EC & D).
    assert (ET : t' = mkSpec (s_x t) true 0) by (destruct t'; cbn in *; congruence). subst t'. rewrite EX, Nat.add_0_r in D.
    destruct D as [(outs & EA & -> & HL & EW)|(EA & OK & c & EF & ->)].
    + rewrite bmul_same by (rewrite map_length, HL, all_weights_len; auto). split; auto. unfold value, weighted. now rewrite EC, EA, EW.
    + rewrite <- all_weights_len, bmul_same by now rewrite map_length, repeat_length. rewrite vmap2_repeat. split; auto. unfold value. now rewrite EC, EA, EF, OK.
  - apply refH_fail in ER. split; [now apply value_fail|eauto].
Qed.

(** ** C102 *)
(** a reachable state of the problem: any operations before the solve, with failures and crashes anywhere *)
Lemma stepH_inv xs t o : linvH xs t -> exists t', linvH (lstepH P G xs o) t'.
Proof.
  intros I. assert (U : forall xs t, linvH xs t -> exists t', linvH (let '(s', _, _) := unweightedH P (G (fst xs)) (snd xs) in (fst xs, s')) t').
  { clear - WF Dims. intros xs t I. assert (H := unwH_ref _ _ I). destruct (unweightedH P (G (fst xs)) (snd xs)) as [[s' c] r]. destruct (refH t). destruct H as (_ & H & _). eauto. }
  destruct o as [x| |x|x|x]; cbn [lstepH].
  - eexists. apply (setH_inv xs t (Some x) I).
  - exists t. destruct I as ((HX & HF & HN & HW & HO & HC) & C). split; [|discriminate]. split; auto. cbn. repeat (split; [assumption|]). split; auto. discriminate.
  - exact (U _ _ (setH_inv xs t x I)).
  - specialize (U _ _ (setH_inv xs t x I)). unfold residualsH. destruct (unweightedH _ _ _) as [[s' c] [u|e]]; auto. destruct (l_weights s'); auto.
  - specialize (U _ _ (setH_inv xs t x I)). unfold objectiveH. destruct (unweightedH _ _ _) as [[s' c] [u|e]]; auto. destruct (l_weights s'); auto.
Qed.
Lemma runH_inv ops : forall xs t, linvH xs t -> exists t', linvH (lrunH P G xs ops) t'.
Proof. induction ops as [|o ops IH]; intros xs t I; cbn; eauto. destruct (stepH_inv xs t o I) as (t' & I'). eauto. Qed.

Definition is_handed (p : X * list R) : Prop := value true (fst p) = Some (snd p).
Lemma value_mono ok x v : value ok x = Some v -> value true x = Some v.
Proof. unfold value. destruct (crashes x); auto. destruct (all_some _); auto. destruct (p_fail P); auto. now destruct ok. Qed.
Fixpoint rows_from (n : nat) (seen : list (X * list R)) : list (lrow X) :=
  match seen with [] => [] | (x, v) :: r => mkRow n x (dot v v) v :: rows_from (S n) r end.
Lemma rows_from_app l1 : forall n l2, rows_from n (l1 ++ l2) = rows_from n l1 ++ rows_from (n + length l1) l2.
Proof. induction l1 as [|[x v] l IH]; intros n l2; cbn; [now rewrite Nat.add_0_r|]. rewrite IH. do 3 f_equal. lia. Qed.

Lemma residualsH_inv xs t : linvH xs t -> let '(s', _, r) := residualsH P (G (fst xs)) (snd xs) in exists t', linvH (fst xs, s') t'.
Proof.
  intros I. assert (H := unwH_ref _ _ I). unfold residualsH. destruct (unweightedH _ _ _) as [[s' c] r]. destruct (refH t) as [t' r']. destruct H as (-> & H & _).
  destruct r'; eauto. destruct (l_weights s'); eauto.
Qed.
Lemma exec_handed st : forall xs t log seen, linvH xs t -> Forall is_handed seen -> log = rows_from 0 seen ->
  let o := exec P G st xs (length seen) log seen in Forall is_handed (o_seen o) /\ o_log o = rows_from 0 (o_seen o) /\ exists t', linvH (o_xs o) t'.
Proof.
  induction st as [x| |x k IH|x k IH|x k IH]; intros xs t log seen I HS HL; cbn [exec].
  - cbn. split; auto. split; auto. eexists. exact (setH_inv xs t (Some x) I).
  - cbn. eauto.
  - assert (H := callback_spec xs t x I). destruct (callback P G xs x) as [xs' [[v val]|e]].
    + destruct H as (HV & -> & I' & _). replace (S (length seen)) with (length (seen ++ [(x, v)])) by (rewrite app_length; cbn; lia). eapply IH; eauto.
      * apply Forall_app. split; auto. constructor; auto. exact (value_mono _ _ _ HV).
      * rewrite rows_from_app, <- HL. reflexivity.
    + destruct H as (_ & H & _). cbn. auto.
  - cbv zeta. assert (H := residualsH_inv _ _ (setH_inv xs t x I)). destruct (residualsH P _ _) as [[s2 c] [v|e]]; destruct H as (t' & H).
    + eapply IH; eauto.
    + cbn. eauto.
  - eapply IH; eauto. exact (setH_inv xs t (Some x) I).
Qed.

(** For every optimizer and every history before the solve (including failures), whatever the objective callback hands to the
    optimizer at x is the weighted residual vector at x, or, if a function reports failure there, fail * sqrt(weight)
    in every entry; the log has one row per evaluation, in order, with x, these residuals and their squared norm. *)
Theorem C102_optimizer_sees_residuals_at_x x0 ops st :
  let o := lsq_solve P G st (lrunH P G (x0, lsq_init) ops) in
  (forall x v, In (x, v) (o_seen o) -> crashes x = false /\
     match all_some (map (Fs x) (p_funcs P)) with
     | Some outs => v = weighted outs /\ dot v v = lsq_value outs (p_goals P) (p_weights P)
     | None => exists c, p_fail P = Some c /\ v = map (fun w => c * sqrt w) (all_weights P dims)
     end) /\
  o_log o = rows_from 0 (o_seen o).
Proof.
  destruct (runH_inv ops _ _ (initH_inv x0)) as (t & I). unfold lsq_solve.
  destruct (exec_handed (st (fst (lrunH P G (x0, lsq_init) ops))) _ _ [] [] I (Forall_nil _) eq_refl) as (H1 & H2 & _). split; auto.
  intros x v HI. rewrite Forall_forall in H1. specialize (H1 _ HI). unfold is_handed, value in H1. cbn [fst snd] in H1.
  destruct (crashes x); [discriminate|]. split; auto. destruct (all_some (map (Fs x) (p_funcs P))) as [outs|] eqn:EA.
  - injection H1 as <-. split; auto. unfold weighted. rewrite weighted_square by apply wts_of_nonneg, (wf_nonneg P WF).
    apply all_some_Some in EA. assert (HL := outs_len P _ _ EA). apply osum_value; rewrite ?(wf_goals P WF), ?(wf_weights P WF); auto.
  - destruct (p_fail P) as [c|]; [|discriminate]. injection H1 as <-. eauto.
Qed.

Lemma exec_ideal st : forall xs t n log seen, linvH xs t -> s_extra t = 0%nat ->
  let o := exec P G st xs n log seen in let (l, f) := ideal (s_ok t) (s_x t) st in
  o_seen o = seen ++ l /\ match f with Some x => o_end o = Finished /\ fst (o_xs o) = x | None => o_end o <> Finished end.
Proof.
  induction st as [x| |x k IH|x k IH|x k IH]; intros xs t n log seen I EX; cbn [exec ideal].
  - cbn. rewrite app_nil_r. auto.
  - cbn. rewrite app_nil_r. split; auto. discriminate.
  - assert (H := callback_spec xs t x I). destruct (callback P G xs x) as [xs' [[v val]|e]].
    + destruct H as (HV & -> & I' & _). rewrite HV. specialize (IH v xs' _ (S n) (log ++ [mkRow n x (dot v v) v]) (seen ++ [(x, v)]) I' EX). cbn [s_ok s_x] in IH. cbv zeta in IH |- *.
      destruct (ideal true x (k v)) as [l f]. destruct IH as [IH1 IH2]. rewrite IH1, <- app_assoc. auto.
    + destruct H as (_ & _ & [H|[H _]]); [|lia]. rewrite H. cbn. rewrite app_nil_r. split; auto. discriminate.
  - cbv zeta. assert (I1 := setH_inv xs t x I). assert (H := probe_spec _ _ I1). destruct (residualsH P _ _) as [[s2 c] [v|e]].
    + assert (SX : s_x (ref_setx t x) = match x with Some x => x | None => s_x t end /\ s_ok (ref_setx t x) = s_ok t) by (destruct x; auto).
      destruct SX as [SX SO]. rewrite SX, SO in H. destruct H as [HV I2]; [destruct x; auto|]. rewrite HV. exact (IH v _ _ n log seen I2 eq_refl).
    + assert (SX : s_x (ref_setx t x) = match x with Some x => x | None => s_x t end /\ s_ok (ref_setx t x) = s_ok t) by (destruct x; auto).
      destruct SX as [SX SO]. rewrite SX, SO in H. destruct H as [HV _]; [destruct x; auto|]. rewrite HV. cbn. rewrite app_nil_r. split; auto. discriminate.
  - exact (IH (x, set_lnewx (snd xs)) _ n log seen (setH_inv xs t (Some x) I) EX).
Qed.
(** A fresh problem: the solve is the optimizer run on the weighted residual function; it finishes exactly when
    no value is missing, and then prob.x = result.x. *)
Theorem C102_solve_is_pure_run x0 st :
  let o := lsq_solve P G st (x0, lsq_init) in let (l, f) := ideal false x0 (st x0) in
  o_seen o = l /\ match f with Some x => o_end o = Finished /\ fst (o_xs o) = x | None => o_end o <> Finished end.
Proof. exact (exec_ideal (st x0) _ _ 0 [] [] (initH_inv x0) eq_refl). Qed.
(** the same for a problem that was evaluated successfully before and then used in any way *)
Theorem C102_solve_is_pure_run_later x0 ops st outs : crashes x0 = false -> all_some (map (Fs x0) (p_funcs P)) = Some outs ->
  let xs := lrunH P G (x0, lsq_init) (AUnw None :: ops) in
  let o := lsq_solve P G st xs in let (l, f) := ideal true (fst xs) (st (fst xs)) in
  o_seen o = l /\ match f with Some x => o_end o = Finished /\ fst (o_xs o) = x | None => o_end o <> Finished end.
Proof.
  intros EC EA xs. assert (E : exists t, linvH xs t /\ s_ok t = true /\ s_extra t = 0%nat).
  { unfold xs, lrunH. cbn [fold_left].
    assert (H0 : exists t, linvH (lstepH P G (x0, lsq_init) (AUnw None)) t /\ s_ok t = true /\ s_extra t = 0%nat).
    { cbn [lstepH lsetx]. assert (H := unwH_ref _ _ (initH_inv x0)). destruct (unweightedH _ _ _) as [[s' c] r]. unfold refH in H. cbn [s_x] in H. rewrite EC in H. unfold ref_unw in H. cbn [s_x s_ok s_extra] in H. rewrite EA in H.
      destruct H as (_ & H & _). eexists. split; [exact H|]. auto. }
    revert H0. generalize (lstepH P G (x0, lsq_init) (AUnw None)). clear - WF Dims. induction ops as [|o ops IH]; intros xs H; cbn; auto.
    apply IH. destruct H as (t & I & OK & EX).
    assert (U : forall xs t, linvH xs t -> s_ok t = true -> s_extra t = 0%nat -> exists t', linvH (let '(s', _, _) := unweightedH P (G (fst xs)) (snd xs) in (fst xs, s')) t' /\ s_ok t' = true /\ s_extra t' = 0%nat).
    { clear - WF Dims. intros xs t I OK EX. assert (H := unwH_ref _ _ I). destruct (unweightedH P (G (fst xs)) (snd xs)) as [[s' c] r]. destruct (refH t) as [t' r'] eqn:ER. destruct H as (_ & H & _).
      exists t'. split; auto. unfold refH in ER. rewrite OK in ER. destruct (crashes (s_x t)); [injection ER as <- _; auto|]. unfold ref_unw in ER. rewrite OK in ER. destruct (all_some _); [injection ER as <- _; auto|]. destruct (p_fail P); injection ER as <- _; auto. }
    assert (SX : forall x, s_ok (ref_setx t x) = true /\ s_extra (ref_setx t x) = 0%nat) by (intros [x|]; auto).
    destruct o as [x| |x|x|x]; cbn [lstepH].
    - eexists. split; [apply (setH_inv xs t (Some x) I)|]. apply SX.
    - exists t. split; auto. destruct I as ((HX & HF & HN & HW & HO & HC) & C). split; [|discriminate]. split; auto. cbn. repeat (split; [assumption|]). split; auto. discriminate.
    - destruct (SX x). apply (U _ _ (setH_inv xs t x I)); auto.
    - destruct (SX x). specialize (U _ _ (setH_inv xs t x I)). unfold residualsH. destruct (unweightedH _ _ _) as [[s' c] [u|e]]; auto. destruct (l_weights s'); auto.
    - destruct (SX x). specialize (U _ _ (setH_inv xs t x I)). unfold objectiveH. destruct (unweightedH _ _ _) as [[s' c] [u|e]]; auto. destruct (l_weights s'); auto. }
  destruct E as (t & I & OK & EX). assert (EXX : fst xs = s_x t) by (destruct I as ((HX & _) & _); auto).
  unfold lsq_solve. assert (H := exec_ideal (st (fst xs)) xs t 0 [] [] I EX). rewrite OK, <- EXX in H. exact H.
Qed.
(** The exception handler of the callback is never effective: if evaluating the residuals at x raises, in any reachable
    state, the callback raises too, and the solve ends with that exception, with prob.x = x and nothing logged. *)
Theorem C102_exception_ends_solve x0 ops x k n log seen :
  let xs := lrunH P G (x0, lsq_init) ops in
  (exists s c e, residualsH P (G x) (set_lnewx (snd xs)) = (s, c, inr e)) ->
  exists e, let o := exec P G (Eval x k) xs n log seen in o_end o = Raised e /\ fst (o_xs o) = x /\ o_log o = log /\ o_seen o = seen.
Proof.
  intros xs (s & c & e & E). destruct (runH_inv ops _ _ (initH_inv x0)) as (t & I). fold xs in I. cbn [exec].
  assert (HC := callback_spec xs t x I). assert (B : forall xs' v val, callback P G xs x = (xs', inl (v, val)) -> False).
  { intros xs' v val EC. rewrite EC in HC. destruct HC as (HV & _ & _ & _). unfold residualsH in E.
    assert (H := unwH_ref _ _ (setH_inv xs t (Some x) I)). cbn [lsetx ref_setx fst snd] in H.
    unfold callback, residualsH, objectiveH in EC.
    destruct (unweightedH P (G x) (set_lnewx (snd xs))) as [[s2 c2] r] eqn:E2. destruct (refH _) as [t' r'] eqn:ER. destruct H as (-> & I2 & HW). destruct r' as [u|e'].
    - destruct (HW u eq_refl) as [HWs HNX]. rewrite HWs in *. injection E as <- <- EB. rewrite EB in EC.
      rewrite (unwH_again _ _ _ _ _ _ E2 eq_refl HNX), HWs in EC. apply refH_cases in ER. cbn [s_x s_ok s_extra] in ER. destruct ER as (_ & _ & _ & _ & D).
      assert (HL : length u = length (all_weights P dims)).
      { destruct D as [(outs & _ & _ & HL & _)|(_ & _ & c0 & _ & ->)]; [now rewrite all_weights_len|]. rewrite repeat_length, all_weights_len.
        destruct (osum 0 _ _) eqn:EO; [|discriminate]. apply osum_short in EO. rewrite repeat_length, all_weights_len in EO. lia. }
      rewrite bmul_same in EB by now rewrite map_length. discriminate.
    - apply refH_fail, value_fail in ER. cbn [s_x s_ok] in ER. congruence. }
  destruct (callback P G xs x) as [xs' [[v val]|e']]; [exfalso; eapply B; eauto|]. destruct HC as (HC & _). exists e'. cbn. auto.
Qed.
End Lsq.

(** *** hypotheses are met: the example of C33 with a crash at x = 4; an optimizer that tries 0, 3, then 4 or stops *)
Definition exG (x : nat) (f : func) : fres := if (x =? 4)%nat then FCrash else match exF x f with Some o => FOk o | None => FFail end.
Lemma exG_dims x f out : exG x f = FOk out -> length out = exdims f.
Proof. unfold exG. destruct (x =? 4)%nat; [discriminate|]. destruct (exF x f) eqn:E; [|discriminate]. intros [= <-]. eapply exF_dims; eauto. Qed.
Example C102_example : let o := lsq_solve exP exG (fun x0 => Eval x0 (fun _ => Eval 3%nat (fun v => Probe None (fun _ => Stop 2%nat)))) (0%nat, lsq_init) in
  o_end o = Finished /\ fst (o_xs o) = 2%nat /\ map fst (o_seen o) = [0; 3]%nat.
Proof. assert (H := C102_solve_is_pure_run exP exG exdims exP_wf exG_dims 0%nat (fun x0 => Eval x0 (fun _ => Eval 3%nat (fun v => Probe None (fun _ => Stop 2%nat))))). cbn -[lsq_solve weighted all_weights] in H. destruct H as (H0 & H1 & H2). cbv zeta. rewrite H0, H1, H2. auto. Qed.
Example C102_example_crash : exists s c e, residualsH exP (exG 4) (set_lnewx (snd (lrunH exP exG (0%nat, lsq_init) [AUnw None]))) = (s, c, inr e).
Proof. do 3 eexists. reflexivity. Qed.
Print Assumptions C102_optimizer_sees_residuals_at_x. Print Assumptions C102_solve_is_pure_run. Print Assumptions C102_solve_is_pure_run_later. Print Assumptions C102_exception_ends_solve.
