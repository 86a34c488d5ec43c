(** C104: the MPI solvers (derivative-free mode). *)
From Verif Require Import ListAux DofsModel VecAux LsqModel LsqProps ConProps SolveModel SolveProps SolveCon SolveMpi.
Local Open Scope R_scope.

(** the same optimizer in the serial solver *)
Fixpoint as_serial {X} (st : mstrat X) : strat X :=
  match st with QStop x => Stop x | QThrow => Throw | QEval x k => Eval x (fun v => as_serial (k v)) end.
(** a worker is asked for STOP *)
Definition released {X} (ms : list (msg X)) : Prop := In MStop ms.

Section Lsq.
Context {X : Type}.
Variables (P : problem) (G : X -> func -> fres) (dims : func -> nat).
Hypothesis WF : wellformed P.
Hypothesis Dims : forall x f out, G x f = FOk out -> length out = dims f.
(** the number of functions called by a new evaluation at x: up to the first that does not return a value *)
Definition ncalls (x : X) : nat := until (map (G x) (p_funcs P)).
Lemma lloopH_calls first : forall rs nv calls i ob wb, (i + length rs <= length (p_goals P))%nat -> (i + length rs <= length (p_weights P))%nat ->
  snd (fst (lloopH P first nv calls i ob wb rs)) = (calls + until rs)%nat.
Proof.
  induction rs as [|[o| |] rs IH]; intros nv calls i ob wb HG HW; cbn [lloopH until length] in *; cbn; try lia.
  destruct (nth_error (p_goals P) i) as [g|] eqn:EG; [|apply nth_error_None in EG; lia].
  destruct (nth_error (p_weights P) i) as [w|] eqn:EW; [|apply nth_error_None in EW; lia]. rewrite IH; lia.
Qed.
Lemma unwH_calls x s : l_newx s = true -> snd (fst (unweightedH P (G x) s)) = ncalls x.
Proof.
  intros NX. unfold unweightedH. rewrite NX. assert (H := lloopH_calls (l_first s) (map (G x) (p_funcs P)) (l_nvals s) 0 0 [] []).
  rewrite map_length, (wf_goals P WF), (wf_weights P WF) in H. specialize (H (le_n _) (le_n _)). destruct (lloopH _ _ _ _ _ _ _ _) as [[nv c] r]. cbn in H.
  destruct r as [o w| |[| |[| |? ?| | | |]]]; exact H.
Qed.
Lemma unwH_raise_newx x s s' c e : unweightedH P (G x) s = (s', c, inr e) -> l_newx s' = true.
Proof.
  unfold unweightedH. destruct (l_newx s); [|discriminate]. destruct (lloopH _ _ _ _ _ _ _ _) as [[nv cl] [o w| |[| |[| |? ?| | | |]]]]; intros [= <- _ _]; auto.
Qed.
(** the callback of process 0 does what the serial callback does; it calls the functions once, or twice if that raises *)
Lemma f_proc0_spec xs t x : linvH P G dims xs t ->
  let '(xs', tr, r) := f_proc0 P G xs x in
  callback P G xs x = (xs', match r with inl (_, v, val) => inl (v, val) | inr e => inr e end) /\
  (exists b : bool, tr = called P x (ncalls x) ++ (if b then called P x (ncalls x) else []) /\ (b = true -> exists e, r = inr e)) /\
  (r = inr ORuntime \/ r = inr OFailure -> tr = called P x (ncalls x) ++ called P x (ncalls x)).
Proof.
  intros I. assert (I1 := setH_inv P G dims xs t (Some x) I). cbn [lsetx ref_setx] in I1.
  assert (HC := callback_spec P G dims WF Dims xs t x I). unfold f_proc0, callback, residualsH, objectiveH in *.
  assert (H := unwH_ref P G dims WF Dims _ _ I1). cbn [fst snd] in H.
  assert (CL := unwH_calls x (set_lnewx (snd xs)) eq_refl).
  destruct (unweightedH P (G x) (set_lnewx (snd xs))) as [[s2 c2] r] eqn:E2. cbn [fst snd] in CL. subst c2. destruct (refH P G dims (mkSpec x (s_ok t) (s_extra t))) as [t' r'].
  destruct H as (-> & I2 & HW). destruct r' as [u|e].
  - destruct (HW u eq_refl) as [HWs HNX]. rewrite HWs in *. assert (AG := unwH_again P _ _ _ _ _ _ E2 eq_refl HNX). rewrite AG, HWs in *.
    rewrite AG, HWs in *. destruct (bmul u (map sqrt (all_weights P dims))) as [v|e] eqn:EB; cbn [fst snd]; destruct (osum 0 u (all_weights P dims)) as [val|e'] eqn:EO.
    + split; auto. split; [exists false; split; auto; discriminate|]. intros [H|H]; discriminate.
    + split; auto. split; [exists false; split; auto; discriminate|]. intros [H|H]; injection H as ->; exfalso; (assert (OS : forall us ws acc e, osum acc us ws = inr e -> e = OErr EIndex); [clear; induction us as [|a us IH]; intros [|b ws] acc e; cbn; try discriminate; [now intros [= <-]|apply IH]|apply OS in EO; discriminate]).
    + split; auto. split; [exists false; split; auto; discriminate|]. intros [H|H]; discriminate.
    + split; auto. split; [exists false; split; auto; discriminate|]. intros [H|H]; injection H as ->; exfalso; (assert (OS : forall us ws acc e, osum acc us ws = inr e -> e = OErr EIndex); [clear; induction us as [|a us IH]; intros [|b ws] acc e'; cbn; try discriminate; [now intros [= <-]|apply IH]|apply OS in EO; discriminate]).
  - assert (CL3 := unwH_calls x s2 (unwH_raise_newx _ _ _ _ _ E2)). destruct (unweightedH P (G x) s2) as [[s3 c3] r3] eqn:E3. cbn [fst snd] in CL3. subst c3.
    assert (exists e', r3 = inr e') as (e' & ->).
    { destruct r3 as [u3|]; eauto. exfalso. assert (H3 := unwH_ref P G dims WF Dims _ _ I2). cbn [fst snd] in H3. rewrite E3 in H3. destruct (refH P G dims t') as [t3 r3']. destruct H3 as (<- & _ & HW3).
      destruct (HW3 u3 eq_refl) as [W3 _]. rewrite W3 in HC. destruct (osum 0 u3 (all_weights P dims)) eqn:EO.
      - destruct HC as (HV & _). assert (HR := unwH_ref P G dims WF Dims _ _ I1). cbn [fst snd] in HR. rewrite E2 in HR. destruct (refH P G dims (mkSpec x (s_ok t) (s_extra t))) as [tt rr] eqn:ERR. destruct HR as (<- & _). apply refH_fail in ERR. cbn [s_x s_ok] in ERR. apply (value_fail P G dims) in ERR. congruence.
      - assert (HR := unwH_ref P G dims WF Dims _ _ I1). cbn [fst snd] in HR. rewrite E2 in HR. destruct (refH P G dims (mkSpec x (s_ok t) (s_extra t))) as [tt rr] eqn:ERR. destruct HR as (<- & HL & _).
        assert (E2' := ERR). apply refH_fail in E2'. cbn [s_x s_ok] in E2'.
        assert (TX : s_x tt = x /\ s_ok tt = s_ok t). { clear - ERR. unfold refH in ERR. cbn [s_x s_ok s_extra] in ERR. destruct (crashes P G x); [destruct (s_ok t) eqn:K; injection ERR as <- _; cbn; auto|].
          unfold ref_unw in ERR. cbn [s_x s_ok s_extra] in ERR. destruct (all_some _); [discriminate|]. destruct (p_fail P); destruct (s_ok t); try discriminate; injection ERR as <- _; cbn; auto. }
        assert (H4 := unwH_ref P G dims WF Dims _ _ HL). cbn [fst snd] in H4. rewrite E3 in H4. destruct (refH P G dims tt) as [t4 r4] eqn:ER4. destruct H4 as (<- & _). apply (refH_cases P G dims WF Dims) in ER4. destruct TX as [TX TO]. rewrite TX, TO in ER4.
        destruct ER4 as (_ & _ & _ & EC & D). destruct E2' as [E|[EA EF]]; [congruence|]. destruct D as [(outs & EA' & _)|(_ & OK & c & EF' & _)]; [congruence|]. destruct EF; congruence. }
    split; auto. cbn [called firstn map app]. unfold called at 2. cbn [firstn map app]. split; [exists true; split; eauto|auto].
Qed.
(** the worker's calls *)
Lemma work_step_MF w x : n_left w = false -> n_trace (work_step P G w (MF x)) = n_trace w ++ called P x (ncalls x) /\ n_left (work_step P G w (MF x)) = false /\ fst (n_xs (work_step P G w (MF x))) = x.
Proof.
  intros H. unfold work_step. rewrite H. assert (C := unwH_calls x (set_lnewx (snd (n_xs w))) eq_refl). destruct (unweightedH _ _ _) as [[s' c] r]. cbn in *. subst c. auto.
Qed.
Lemma work_snoc xs ms m : work_run P G xs (ms ++ [m]) = work_step P G (work_run P G xs ms) m.
Proof. unfold work_run. now rewrite fold_left_app. Qed.

Lemma lead_spec xw st : forall d t n log, linvH P G dims (d_xs d) t -> n_left (work_run P G xw (d_sent d)) = false -> n_trace (work_run P G xw (d_sent d)) = d_trace d -> ~ released (d_sent d) ->
  let r := lead_run P G st d in let w := work_run P G xw (d_sent r) in
  let o := exec P G (as_serial st) (d_xs d) n log (d_seen d) in
  d_seen r = o_seen o /\ d_end r = o_end o /\ d_xs r = o_xs o /\
  match d_end r with
  | Finished => n_left w = true /\ n_trace w = d_trace r
  | Optimizer => n_left w = false /\ n_trace w = d_trace r /\ ~ released (d_sent r)
  | Raised e => n_left w = false /\ ~ released (d_sent r) /\
      exists x, last (d_sent r) MStop = MF x /\ exists b : bool, d_trace r = n_trace w ++ (if b then called P x (ncalls x) else []) /\ (e = ORuntime \/ e = OFailure -> b = true)
  end.
Proof.
  induction st as [x| |x k IH]; intros d t n log I HL HT HR; cbn [lead_run as_serial exec]; cbv zeta.
  - cbn [d_seen o_seen d_end o_end d_xs o_xs d_sent d_trace]. repeat (split; [reflexivity|]). rewrite work_snoc. unfold work_step. rewrite HL. auto.
  - cbn [d_seen o_seen d_end o_end d_xs o_xs d_sent d_trace]. repeat (split; [reflexivity|]). auto.
  - assert (H := f_proc0_spec (d_xs d) t x I). assert (HC := callback_spec P G dims WF Dims (d_xs d) t x I). destruct (f_proc0 P G (d_xs d) x) as [[xs' tr] [[[u v] val]|e]].
    + destruct H as (EC & (b & -> & HB) & _). rewrite EC in *. destruct HC as (_ & _ & I' & _).
      assert (b = false) as -> by (destruct b; auto; destruct (HB eq_refl); discriminate). rewrite app_nil_r.
      destruct (work_step_MF (work_run P G xw (d_sent d)) x HL) as (W1 & W2 & _).
      specialize (IH v (mkLead xs' (d_trace d ++ called P x (ncalls x)) (d_sent d ++ [MF x]) (d_seen d ++ [(x, v)]) (d_file d ++ [mkRow (length (d_file d)) x val u]) (d_end d)) _ (S n) (log ++ [mkRow n x val v]) I').
      cbn [d_xs d_sent d_trace d_seen] in IH. rewrite work_snoc in IH. apply IH; auto.
      * now rewrite W1, HT.
      * intros HI. apply in_app_or in HI. destruct HI as [HI|[HI|[]]]; [auto|discriminate].
    + destruct H as (EC & (b & -> & HB) & HX). rewrite EC. cbn [d_seen o_seen d_end o_end d_xs o_xs d_sent d_trace]. repeat (split; [reflexivity|]). rewrite work_snoc.
      destruct (work_step_MF (work_run P G xw (d_sent d)) x HL) as (W1 & W2 & _). rewrite W1, W2, HT. split; auto. split.
      { intros HI. apply in_app_or in HI. destruct HI as [HI|[HI|[]]]; [auto|discriminate]. }
      exists x. split; [apply last_last|]. exists b. rewrite <- app_assoc. split; auto.
      intros HE. assert (EQ : called P x (ncalls x) ++ (if b then called P x (ncalls x) else []) = called P x (ncalls x) ++ called P x (ncalls x)) by (apply HX; destruct HE as [->| ->]; auto).
      destruct b; auto. exfalso. apply app_inv_head in EQ. symmetry in EQ. unfold called, ncalls in EQ. apply map_eq_nil in EQ.
      assert (HN := wf_some P WF). destruct (p_funcs P) as [|f l]; [congruence|]. cbn in EQ. destruct (G x f); discriminate.
Qed.

(** ** C104, least squares *)
(** The MPI solve hands the optimizer the same vectors as least_squares_serial_solve, ends the same way, with the same problem state on
    process 0 -- from any reachable state.  *)
Theorem C104_same_as_serial x0 ops st :
  let xs := lrunH P G (x0, lsq_init) ops in
  let r := mpi_solve P G st xs in let o := lsq_solve P G (fun x => as_serial (st x)) xs in
  d_seen r = o_seen o /\ d_end r = o_end o /\ d_xs r = o_xs o.
Proof.
  intros xs. destruct (runH_inv P G dims WF Dims ops _ _ (initH_inv P G dims x0)) as (t & I). fold xs in I. unfold mpi_solve, lsq_solve.
  destruct (lead_spec xs (st (fst xs)) (mkLead xs [] [] [] [] Optimizer) t 0 [] I eq_refl eq_refl (fun H => H)) as (A & B & C & _). auto.
Qed.
(** Function calls stay in step: if no exception leaves the callback, every worker (in whatever state its problem is) makes
    exactly the function calls of process 0, in the same order, and is released at the end, so that all processes finish with
    prob.x = result.x. *)
Theorem C104_in_step x0 ops st xw :
  let r := mpi_solve P G st (lrunH P G (x0, lsq_init) ops) in let w := work_run P G xw (d_sent r) in
  d_end r = Finished -> n_left w = true /\ n_trace w = d_trace r /\ fst (final (n_xs w) (fst (d_xs r))) = fst (d_xs r).
Proof.
  intros r w HE. destruct (runH_inv P G dims WF Dims ops _ _ (initH_inv P G dims x0)) as (t & I).
  destruct (lead_spec xw (st (fst (lrunH P G (x0, lsq_init) ops))) (mkLead (lrunH P G (x0, lsq_init) ops) [] [] [] [] Optimizer) t 0 [] I eq_refl eq_refl (fun H => H)) as (_ & _ & _ & H).
  fold (mpi_solve P G st (lrunH P G (x0, lsq_init) ops)) in H. fold r in H. rewrite HE in H. destruct H as [H1 H2]. auto.
Qed.
(** refuted when a function fails or raises: process 0 then calls the functions a second time, alone, and the workers are never released *)
Theorem C104_exception_refuted x0 ops st xw e :
  let r := mpi_solve P G st (lrunH P G (x0, lsq_init) ops) in let w := work_run P G xw (d_sent r) in
  d_end r = Raised e -> e = ORuntime \/ e = OFailure ->
  n_left w = false /\ ~ released (d_sent r) /\ exists x, d_trace r = n_trace w ++ called P x (ncalls x) /\ called P x (ncalls x) <> [].
Proof.
  intros r w HE HX. destruct (runH_inv P G dims WF Dims ops _ _ (initH_inv P G dims x0)) as (t & I).
  destruct (lead_spec xw (st (fst (lrunH P G (x0, lsq_init) ops))) (mkLead (lrunH P G (x0, lsq_init) ops) [] [] [] [] Optimizer) t 0 [] I eq_refl eq_refl (fun H => H)) as (_ & _ & _ & H).
  fold (mpi_solve P G st (lrunH P G (x0, lsq_init) ops)) in H. fold r in H. rewrite HE in H. destruct H as (H1 & H2 & x & _ & b & H3 & H4). split; auto. split; auto.
  exists x. rewrite (H4 HX) in H3. split; auto. unfold called, ncalls. intros E. apply map_eq_nil in E.
  assert (HN := wf_some P WF). destruct (p_funcs P) as [|f l]; [congruence|]. cbn in E. destruct (G x f); discriminate.
Qed.
(** the residual file holds the unweighted residuals, not (as in the serial solver) the weighted ones *)
Theorem C104_file_is_unweighted x0 x outs k : crashes P G x = false -> all_some (map (Fs G x) (p_funcs P)) = Some outs ->
  exists d, mpi_solve P G (fun _ => QEval x k) (x0, lsq_init) = lead_run P G (k (weighted P outs)) d /\
    d_file d = [mkRow 0 x (lsq_value outs (p_goals P) (p_weights P)) (res_of outs (p_goals P))].
Proof.
  intros EC EA. unfold mpi_solve. cbn [lead_run d_xs fst].
  assert (HC := callback_spec P G dims WF Dims (x0, lsq_init) _ x (initH_inv P G dims x0)). assert (HF := f_proc0_spec (x0, lsq_init) _ x (initH_inv P G dims x0)).
  unfold f_proc0 in *. assert (H := unwH_ref P G dims WF Dims _ _ (setH_inv P G dims (x0, lsq_init) _ (Some x) (initH_inv P G dims x0))). cbn [lsetx ref_setx fst snd s_ok s_extra] in H.
  change (snd (x0, lsq_init)) with lsq_init in *.
  destruct (unweightedH P (G x) (set_lnewx lsq_init)) as [[s1 c1] r] eqn:E1. unfold refH, ref_unw in H. cbn [s_x] in H. rewrite EC, EA in H. destruct H as (-> & _ & HW).
  destruct (HW _ eq_refl) as [W N]. unfold residualsH, objectiveH in *. assert (AG := unwH_again P _ _ _ _ _ _ E1 eq_refl N). rewrite AG, W in *. rewrite AG, W in *.
  destruct (bmul _ _) as [v|e] eqn:EB; cbn [fst snd] in *; destruct (osum _ _ _) as [val|e'] eqn:EO; destruct HF as (HF & _); rewrite HF in HC.
  - destruct HC as (HV & HD & _). unfold value in HV. rewrite EC, EA in HV. injection HV as <-. eexists. split; [reflexivity|]. cbn. repeat f_equal. rewrite HD. unfold weighted. rewrite weighted_square by apply wts_of_nonneg, (wf_nonneg P WF).
    apply all_some_Some in EA. assert (L := outs_len P _ _ EA). apply osum_value; rewrite ?(wf_goals P WF), ?(wf_weights P WF); auto.
  - destruct HC as (_ & _ & [HV|[HV _]]); [unfold value in HV; rewrite EC, EA in HV; discriminate|cbn in HV; lia].
  - exfalso. apply all_some_Some in EA. rewrite bmul_same in EB; [discriminate|]. rewrite map_length. unfold all_weights. rewrite <- (outs_dims P (Fs G) dims (DimsF G dims Dims) _ _ EA). exact (wts_len P _ _ WF EA).
  - destruct HC as (_ & _ & [HV|[HV _]]); [unfold value in HV; rewrite EC, EA in HV; discriminate|cbn in HV; lia].
Qed.
End Lsq.

(** ** constrained problems *)
Section Con.
Context {X : Type} (Xeq : forall a b : X, {a = b} + {a <> b}).
Variables (fail : option R) (nlc : bool) (cons : list con) (G : X -> nat -> fres).
(** no request repeats an earlier one of the same kind at the same x with no other x in between; [o], [c]: objective and constraints
    have been evaluated at [cur] *)
Fixpoint no_repeat (cur : X) (o c : bool) (ms : list (msg X)) : Prop :=
  match ms with
  | [] => True
  | MStop :: r => no_repeat cur o c r
  | MF x :: r => if Xeq cur x then o = false /\ no_repeat x true c r else no_repeat x true false r
  | MNlc x :: r => if Xeq cur x then c = false /\ no_repeat x o true r else no_repeat x false true r
  end.
(** the caches of a problem that are valid *)
Definition has_obj (s : cst) : bool := match k_obj (cclear s) with Some _ => true | None => false end.
Definition has_con (s : cst) : bool := match k_con (cclear s) with Some _ => true | None => false end.
Lemma has_le s s' : cclear s = s' -> has_obj s = match k_obj s' with Some _ => true | None => false end /\ has_con s = match k_con s' with Some _ => true | None => false end.
Proof. intros <-. auto. Qed.
Lemma cclear_idem s : k_obj (cclear (cclear s)) = k_obj (cclear s) /\ k_con (cclear (cclear s)) = k_con (cclear s).
Proof. unfold cclear. destruct (k_newx s) eqn:E; cbn; rewrite ?E; auto. Qed.
Lemma obj_after G0 s s' r : cobjectiveH fail G0 s = (s', r) -> has_con s' = true -> has_con s = true.
Proof.
  unfold cobjectiveH, has_con. destruct (cclear_idem s) as [I1 I2]. destruct (k_obj (cclear s)); [intros [= <- _]; now rewrite I2|].
  destruct (G0 0%nat) as [l| |]; [intros [= <- _]; cbn; auto| |intros [= <- _]; now rewrite I2].
  destruct fail; [|intros [= <- _]; now rewrite I2]. destruct (k_fobj (cclear s)); intros [= <- _]; [now rewrite I2|cbn; auto].
Qed.
Lemma con_after G0 s s' r : constraintsH fail nlc cons G0 s = (s', r) -> has_obj s' = true -> has_obj s = true.
Proof.
  unfold constraintsH, has_obj. destruct (cclear_idem s) as [I1 I2]. destruct nlc; cbn [negb]; [|intros [= <- _]; now rewrite I1].
  destruct (k_con (cclear s)); [intros [= <- _]; now rewrite I1|].
  destruct (cloopH _ _ _ _ _) as [nv [o| |e]]; [destruct (existsb _ cons)| |]; intros [= <- _]; unfold cclear at 1; cbn; auto; destruct (k_newx (cclear s)) eqn:E; cbn; auto; discriminate.
Qed.
Lemma flag_calls x s : obj_calls x (flag_new s) = [(x, 0%nat)] /\ con_calls cons G x (flag_new s) = map (fun i => (x, i)) (firstn (until (map (G x) (seq 1 (length cons)))) (seq 1 (length cons))).
Proof. split; reflexivity. Qed.
Lemma kwork_snoc xs ms m : kwork_run fail nlc cons G xs (ms ++ [m]) = kwork_step fail nlc cons G (kwork_run fail nlc cons G xs ms) m.
Proof. unfold kwork_run. now rewrite fold_left_app. Qed.
Lemma klead_sent st : forall d, exists ms, e_sent (klead_run Xeq fail nlc cons G st d) = e_sent d ++ ms.
Proof.
  induction st as [x| |x k IH|x k IH]; intros d; cbn [klead_run]; cbv zeta.
  - eexists; reflexivity.
  - exists []. now rewrite app_nil_r.
  - destruct (cb_obj _ _ _ _ _) as [xs' [v|e]]; [|eexists; reflexivity]. destruct (IH v (mkKL xs' (e_trace d ++ obj_calls x (snd (csetx Xeq (e_xs d) x))) (e_sent d ++ [MF x]) (e_seen d ++ [SeenO x v]) (e_end d))) as (ms & E). rewrite E. cbn. rewrite <- app_assoc. eauto.
  - destruct (nlc_proc0 _ _ _ _ _ _ _) as [xs' l]. destruct (IH l (mkKL xs' (e_trace d ++ con_calls cons G x (snd (csetx Xeq (e_xs d) x))) (e_sent d ++ [MNlc x]) (e_seen d ++ [SeenC x l]) (e_end d))) as (ms & E). rewrite E. cbn. rewrite <- app_assoc. eauto.
Qed.
Lemma csetx_has xs x : (fst xs = x -> snd (csetx Xeq xs x) = snd xs) /\ (fst xs <> x -> has_obj (snd (csetx Xeq xs x)) = false /\ has_con (snd (csetx Xeq xs x)) = false) /\ fst (csetx Xeq xs x) = x.
Proof. unfold csetx. destruct (Xeq (fst xs) x) as [E|E]; (split; [|split]); auto; intros H; try contradiction; auto. Qed.
Lemma kstep_sync xw st : forall d o c ms, v_left (kwork_run fail nlc cons G xw (e_sent d)) = false -> v_trace (kwork_run fail nlc cons G xw (e_sent d)) = e_trace d ->
  (has_obj (snd (e_xs d)) = true -> o = true) -> (has_con (snd (e_xs d)) = true -> c = true) ->
  let r := klead_run Xeq fail nlc cons G st d in e_sent r = e_sent d ++ ms -> no_repeat (fst (e_xs d)) o c ms ->
  v_trace (kwork_run fail nlc cons G xw (e_sent r)) = e_trace r /\ (v_left (kwork_run fail nlc cons G xw (e_sent r)) = true <-> e_end r = Finished).
Proof.
  induction st as [x| |x k IH|x k IH]; intros d o c ms HL HT HO HK; cbn [klead_run]; cbv zeta.
  - intros E NR. cbn [e_sent e_trace e_end]. rewrite kwork_snoc. unfold kwork_step. rewrite HL. cbn. split; auto. tauto.
  - intros E NR. cbn [e_sent e_trace e_end]. rewrite HL. split; auto. split; discriminate.
  - destruct (csetx_has (e_xs d) x) as (S1 & S2 & S3). assert (EC : snd (csetx Xeq (e_xs d) x) = snd (csetx Xeq (e_xs d) x)) by auto.
    assert (W : v_trace (kwork_step fail nlc cons G (kwork_run fail nlc cons G xw (e_sent d)) (MF x)) = e_trace d ++ [(x, 0%nat)] /\ v_left (kwork_step fail nlc cons G (kwork_run fail nlc cons G xw (e_sent d)) (MF x)) = false).
    { unfold kwork_step. rewrite HL. cbn. rewrite HT. auto. }
    assert (TR : forall ms', no_repeat (fst (e_xs d)) o c (MF x :: ms') -> obj_calls x (snd (csetx Xeq (e_xs d) x)) = [(x, 0%nat)] /\ exists c', no_repeat x true c' ms' /\ (has_con (snd (csetx Xeq (e_xs d) x)) = true -> c' = true)).
    { intros ms' NR. cbn in NR. destruct (Xeq (fst (e_xs d)) x) as [EX|NX].
      - destruct NR as [-> NR]. rewrite (S1 EX). split; [|exists c; auto]. unfold obj_calls. unfold has_obj in HO. destruct (k_obj (cclear (snd (e_xs d)))); auto. discriminate HO; auto.
      - destruct (S2 NX) as [S4 S5]. split; [|exists false; split; auto; congruence]. unfold obj_calls. unfold has_obj in S4. destruct (k_obj _); auto. discriminate. }
    unfold cb_obj. cbv zeta. rewrite S3. destruct (cobjectiveH fail (G x) (snd (csetx Xeq (e_xs d) x))) as [s' r] eqn:ER.
    assert (HC' := obj_after _ _ _ _ ER).
    assert (FIN : forall rr : R + oerr, match rr with inl v => let r0 := klead_run Xeq fail nlc cons G (k v) (mkKL (x, s') (e_trace d ++ obj_calls x (snd (csetx Xeq (e_xs d) x))) (e_sent d ++ [MF x]) (e_seen d ++ [SeenO x v]) (e_end d)) in
         e_sent r0 = e_sent d ++ ms -> no_repeat (fst (e_xs d)) o c ms -> v_trace (kwork_run fail nlc cons G xw (e_sent r0)) = e_trace r0 /\ (v_left (kwork_run fail nlc cons G xw (e_sent r0)) = true <-> e_end r0 = Finished)
       | inr e => let r0 := mkKL (x, s') (e_trace d ++ obj_calls x (snd (csetx Xeq (e_xs d) x))) (e_sent d ++ [MF x]) (e_seen d) (Raised e) in
         e_sent r0 = e_sent d ++ ms -> no_repeat (fst (e_xs d)) o c ms -> v_trace (kwork_run fail nlc cons G xw (e_sent r0)) = e_trace r0 /\ (v_left (kwork_run fail nlc cons G xw (e_sent r0)) = true <-> e_end r0 = Finished) end).
    { destruct W as [W1 W2]. intros [v|e]; cbv zeta; intros E NR.
      - destruct (klead_sent (k v) (mkKL (x, s') (e_trace d ++ obj_calls x (snd (csetx Xeq (e_xs d) x))) (e_sent d ++ [MF x]) (e_seen d ++ [SeenO x v]) (e_end d))) as (ms' & E').
        rewrite E' in E. cbn [e_sent] in E. rewrite <- app_assoc in E. apply app_inv_head in E. subst ms. destruct (TR ms' NR) as (T1 & c' & NR' & HC2).
        eapply (IH v (mkKL (x, s') _ (e_sent d ++ [MF x]) (e_seen d ++ [SeenO x v]) (e_end d)) true c' ms'); cbn [e_sent e_trace e_xs fst snd]; auto.
        + now rewrite kwork_snoc.
        + rewrite kwork_snoc, T1. auto.
      - cbn [e_sent] in E. apply app_inv_head in E. subst ms. destruct (TR [] NR) as (T1 & _). cbn [e_sent e_trace e_end]. rewrite kwork_snoc, T1, W1, W2. split; auto. split; discriminate. }
    destruct r as [v|e]; [exact (FIN (inl v))|]. destruct fail as [v|]; [exact (FIN (inl v))|exact (FIN (inr (OErr EType)))].
  - destruct (csetx_has (e_xs d) x) as (S1 & S2 & S3).
    assert (W : v_trace (kwork_step fail nlc cons G (kwork_run fail nlc cons G xw (e_sent d)) (MNlc x)) = e_trace d ++ con_calls cons G x (flag_new (snd (e_xs d))) /\ v_left (kwork_step fail nlc cons G (kwork_run fail nlc cons G xw (e_sent d)) (MNlc x)) = false).
    { unfold kwork_step. rewrite HL. cbn [v_trace v_left]. rewrite HT. auto. }
    assert (TR : forall ms', no_repeat (fst (e_xs d)) o c (MNlc x :: ms') -> con_calls cons G x (snd (csetx Xeq (e_xs d) x)) = con_calls cons G x (flag_new (snd (e_xs d))) /\ exists o', no_repeat x o' true ms' /\ (has_obj (snd (csetx Xeq (e_xs d) x)) = true -> o' = true)).
    { intros ms' NR. cbn in NR. destruct (Xeq (fst (e_xs d)) x) as [EX|NX].
      - destruct NR as [-> NR]. rewrite (S1 EX). split; [|exists o; auto]. unfold con_calls. unfold has_con in HK. destruct (k_con (cclear (snd (e_xs d)))); auto. discriminate HK; auto.
      - destruct (S2 NX) as [S4 S5]. split; [|exists false; split; auto; congruence]. unfold con_calls. unfold has_con in S5. destruct (k_con _); auto. discriminate. }
    unfold nlc_proc0. cbv zeta. rewrite S3. destruct (constraintsH fail nlc cons (G x) (snd (csetx Xeq (e_xs d) x))) as [s' r] eqn:ER.
    assert (HC' := con_after _ _ _ _ ER). set (l := match r with inl l => l | inr _ => _ end). intros E NR. destruct W as [W1 W2].
    destruct (klead_sent (k l) (mkKL (x, s') (e_trace d ++ con_calls cons G x (snd (csetx Xeq (e_xs d) x))) (e_sent d ++ [MNlc x]) (e_seen d ++ [SeenC x l]) (e_end d))) as (ms' & E').
    rewrite E' in E. cbn [e_sent] in E. rewrite <- app_assoc in E. apply app_inv_head in E. subst ms. destruct (TR ms' NR) as (T1 & o' & NR' & HC2).
    eapply (IH l (mkKL (x, s') _ (e_sent d ++ [MNlc x]) (e_seen d ++ [SeenC x l]) (e_end d)) o' true ms'); cbn [e_sent e_trace e_xs fst snd]; auto.
    + now rewrite kwork_snoc.
    + rewrite kwork_snoc, T1. auto.
Qed.
(** If no request repeats an earlier one at the same x, and the start point has not been evaluated before the solve, every worker makes exactly
    the function calls of process 0, even when functions fail or raise; it is released if and only if the solve finishes. *)
Theorem C104_constrained_in_step xs st xw : let r := kmpi_solve Xeq fail nlc cons G st xs in let w := kwork_run fail nlc cons G xw (e_sent r) in
  no_repeat (fst xs) (has_obj (snd xs)) (has_con (snd xs)) (e_sent r) -> v_trace w = e_trace r /\ (v_left w = true <-> e_end r = Finished).
Proof.
  intros r w NR.
  exact (kstep_sync xw (st (fst xs)) (mkKL xs [] [] [] Optimizer) (has_obj (snd xs)) (has_con (snd xs)) (e_sent r) eq_refl eq_refl (fun H => H) (fun H => H) eq_refl NR).
Qed.
(** with prob.fail = 1e12 (the default) the optimizer gets, in every state, the objective and constraint values of
    constrained_serial_solve at the requested points, and the solve ends like it *)
Fixpoint con_serial (st : kstrat X) : cstrat X :=
  match st with JStop x => CStop x | JThrow => CThrow | JO x k => CEvalO x (fun v => con_serial (k v)) | JC x k => CEvalC x (fun v => con_serial (k v)) end.
Theorem C104_constrained_same_as_serial xs st : fail = Some 1e12 ->
  let r := kmpi_solve Xeq fail nlc cons G st xs in let o := con_solve Xeq fail nlc cons G (fun x => con_serial (st x)) xs in
  e_seen r = co_seen o /\ e_end r = co_end o /\ e_xs r = co_xs o.
Proof.
  intros HF. cbv zeta. unfold kmpi_solve, con_solve.
  assert (A : forall st d, e_end d = Optimizer -> let r := klead_run Xeq fail nlc cons G st d in let o := cexec Xeq fail nlc cons G (con_serial st) (e_xs d) (e_seen d) in e_seen r = co_seen o /\ e_end r = co_end o /\ e_xs r = co_xs o);
    [|exact (A (st (fst xs)) (mkKL xs [] [] [] Optimizer) eq_refl)]. cbv zeta. clear xs st.
  assert (F : forall n, (match fail, n with Some v, n => inl (repeat (Fin v) n) | None, 0%nat => inl [] | None, S _ => inr (OErr EType) end : list ext + oerr) = inl (repeat (Fin 1e12) n)) by (intros n; now rewrite HF).
  induction st as [x| |x k IH|x k IH]; intros d E0; cbn [klead_run con_serial cexec]; auto.
  - destruct (cb_obj _ _ _ _ _) as [xs' [v|e]]; [|auto]. apply (IH v (mkKL xs' _ _ _ _) E0).
  - unfold nlc_proc0, cb_con. cbv zeta. destruct (constraintsH _ _ _ _ _) as [s' r]. rewrite F. destruct r as [l|e]; [apply (IH l (mkKL _ _ _ _ _) E0)|apply (IH (repeat (Fin 1e12) (k_nvals s')) (mkKL _ _ _ _ _) E0)].
Qed.
(** refuted otherwise: when the optimizer asks twice for the objective at the same x, process 0 answers from its cache while the
    workers evaluate again *)
Theorem C104_constrained_repeat_refuted x0 x l xw : G x 0%nat = FOk l -> x0 <> x ->
  let r := kmpi_solve Xeq fail nlc cons G (fun _ => JO x (fun _ => JO x (fun _ => JStop x))) (x0, con_init) in
  e_end r = Finished /\ e_trace r = [(x, 0%nat)] /\ v_trace (kwork_run fail nlc cons G xw (e_sent r)) = [(x, 0%nat); (x, 0%nat)].
Proof.
  intros EG N r. set (s1 := mkC 0 false true (Some (hd 0 l)) None false).
  assert (EX : csetx Xeq (x0, con_init) x = (x, flag_new con_init)) by (unfold csetx; cbn; destruct (Xeq x0 x); [contradiction|reflexivity]).
  assert (EX2 : forall s, csetx Xeq (x, s) x = (x, s)) by (intros s; unfold csetx; cbn; destruct (Xeq x x); congruence).
  assert (E1 : cb_obj Xeq fail G (x0, con_init) x = ((x, s1), inl (hd 0 l))). { unfold cb_obj. rewrite EX. cbn. unfold cobjectiveH. cbn. rewrite EG. reflexivity. }
  assert (E2 : cb_obj Xeq fail G (x, s1) x = ((x, s1), inl (hd 0 l))). { unfold cb_obj. rewrite EX2. reflexivity. }
  unfold r, kmpi_solve. cbn [klead_run fst e_xs]. cbv zeta. rewrite E1. cbn [e_xs]. rewrite E2, EX, EX2. cbn. auto.
Qed.
(** likewise when all processes had evaluated the objective at x0 before calling the solver *)
Theorem C104_constrained_evaluated_before_refuted x0 l : G x0 0%nat = FOk l ->
  let xs := krunH Xeq fail nlc cons G (x0, con_init) [UObj None] in
  let r := kmpi_solve Xeq fail nlc cons G (fun x => JO x (fun _ => JStop x)) xs in
  e_end r = Finished /\ e_trace r = [] /\ v_trace (kwork_run fail nlc cons G xs (e_sent r)) = [(x0, 0%nat)].
Proof.
  intros EG xs r. assert (EXS : xs = (x0, mkC 0 false true (Some (hd 0 l)) None false)). { unfold xs, krunH. cbn. unfold cobjectiveH. cbn. rewrite EG. reflexivity. }
  unfold r, kmpi_solve. rewrite EXS. cbn [klead_run fst e_xs]. unfold cb_obj. cbv zeta.
  assert (EX2 : forall s, csetx Xeq (x0, s) x0 = (x0, s)) by (intros s; unfold csetx; cbn; destruct (Xeq x0 x0); congruence). rewrite !EX2. cbn. auto.
Qed.
End Con.

(** *** hypotheses are met *)
Example C104_example : d_end (mpi_solve exP exG (fun x => QEval x (fun _ => QEval 3%nat (fun _ => QStop 2%nat))) (lrunH exP exG (0%nat, lsq_init) [])) = Finished /\
  d_end (mpi_solve exP exG (fun x => QEval x (fun _ => QEval 4%nat (fun _ => QStop 2%nat))) (lrunH exP exG (0%nat, lsq_init) [])) = Raised ORuntime.
Proof.
  destruct (C104_same_as_serial exP exG exdims exP_wf exG_dims 0%nat [] (fun x => QEval x (fun _ => QEval 3%nat (fun _ => QStop 2%nat)))) as (_ & -> & _).
  split; [|reflexivity].
  assert (H := C102_solve_is_pure_run exP exG exdims exP_wf exG_dims 0%nat (fun x0 => Eval x0 (fun _ => Eval 3%nat (fun v => Stop 2%nat)))). cbn -[lsq_solve weighted all_weights] in H. destruct H as (_ & H & _). exact H.
Qed.
Example C104_constrained_example : let r := kmpi_solve Nat.eq_dec (Some 5) true exK exKG (fun x => JO x (fun _ => JC x (fun _ => JO 7%nat (fun _ => JC 7%nat (fun _ => JStop 2%nat))))) (0%nat, con_init) in
  no_repeat Nat.eq_dec 0%nat false false (e_sent r) /\ length (e_trace r) = 6%nat.
Proof. split; [cbn; auto|reflexivity]. Qed.
Print Assumptions C104_same_as_serial. Print Assumptions C104_in_step. Print Assumptions C104_exception_refuted. Print Assumptions C104_file_is_unweighted.
Print Assumptions C104_constrained_in_step. Print Assumptions C104_constrained_repeat_refuted. Print Assumptions C104_constrained_evaluated_before_refuted.
