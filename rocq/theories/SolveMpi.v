(** Model of src/simsopt/solve/mpi.py in the derivative-free mode (grad=False): least_squares_mpi_solve (77-251) with
    _mpi_workers_task (43-74), constrained_mpi_solve (297-517) with _constrained_mpi_workers_task (254-294).

    Process 0 and one worker of its group each have their own problem object; the functions of the problem may be collective
    over the group, so what matters is the sequence of function calls each process makes: [trace].  The worker receives the
    broadcasts of process 0 in order (C20, C48).  The other groups only receive STOP. *)
From Verif Require Import ListAux DofsModel VecAux LsqModel SolveModel.
Local Open Scope R_scope.

(** mobilize_workers with the state vector (mpi.py:135-137, 355-357, 403-405), and the STOP of together() *)
Inductive msg (X : Type) := MF (x : X) | MNlc (x : X) | MStop.
Arguments MF {X}. Arguments MNlc {X}. Arguments MStop {X}.
(** the optimizer: only evaluates *)
Inductive mstrat (X : Type) := QStop (x : X) | QThrow | QEval (x : X) (k : list R -> mstrat X).
Arguments QStop {X}. Arguments QThrow {X}. Arguments QEval {X}.

Section LsqMpi.
Context {X : Type} (P : problem) (G : X -> func -> fres).
Definition ev := (X * func)%type.
(** the calls made by one evaluation at x that called [c] functions *)
Definition called (x : X) (c : nat) : list ev := map (fun f => (x, f)) (firstn c (p_funcs P)).
(** process 0 *)
Record lead := mkLead { d_xs : X * lst; d_trace : list ev; d_sent : list (msg X);
  d_seen : list (X * list R);        (* returned to the optimizer *)
  d_file : list (lrow X);            (* rows of the log files; the residuals written are the unweighted ones (mpi.py:194-195) *)
  d_end : ending }.
(** mpi.py:128-201 _f_proc0 without the messages *)
Definition f_proc0 (xs : X * lst) (x : X) : (X * lst) * list ev * (list R * list R * R + oerr) :=
  let '(s1, c1, u) := unweightedH P (G x) (set_lnewx (snd xs)) in
  let '(s2, c2, ur) := match u with
                       | inl u => let '(s2, c2, r) := residualsH P (G x) s1 in
                                  (s2, c2, match r with inl v => (u, v) | inr _ => (placeholder P, placeholder P) end)
                       | inr _ => (s1, 0%nat, (placeholder P, placeholder P))
                       end in
  let '(s3, c3, o) := objectiveH P (G x) s2 in
  ((x, s3), called x c1 ++ called x c2 ++ called x c3, match o with inl val => inl (fst ur, snd ur, val) | inr e => inr e end).
(** mpi.py:221-234: an exception skips together() *)
Fixpoint lead_run (st : mstrat X) (d : lead) : lead :=
  match st with
  | QStop x => mkLead (x, set_lnewx (snd (d_xs d))) (d_trace d) (d_sent d ++ [MStop]) (d_seen d) (d_file d) Finished
  | QThrow => mkLead (d_xs d) (d_trace d) (d_sent d) (d_seen d) (d_file d) Optimizer
  | QEval x k =>
    match f_proc0 (d_xs d) x with
    | (xs', tr, inr e) => mkLead xs' (d_trace d ++ tr) (d_sent d ++ [MF x]) (d_seen d) (d_file d) (Raised e)
    | (xs', tr, inl (u, v, val)) =>
      lead_run (k v) (mkLead xs' (d_trace d ++ tr) (d_sent d ++ [MF x]) (d_seen d ++ [(x, v)])
                             (d_file d ++ [mkRow (length (d_file d)) x val u]) (d_end d))
    end
  end.
Definition mpi_solve (st : X -> mstrat X) (xs : X * lst) : lead := lead_run (st (fst xs)) (mkLead xs [] [] [] [] Optimizer).
(** a worker: worker_loop with _mpi_workers_task (mpi.py:65-74); [n_left]: it has left the loop *)
Record work := mkWork { n_xs : X * lst; n_trace : list ev; n_left : bool }.
Definition work_step (w : work) (m : msg X) : work :=
  if n_left w then w else
  match m with
  | MStop => mkWork (n_xs w) (n_trace w) true
  | MF x | MNlc x => let '(s', c, _) := unweightedH P (G x) (set_lnewx (snd (n_xs w))) in mkWork (x, s') (n_trace w ++ called x c) false
  end.
Definition work_run (xs : X * lst) (ms : list (msg X)) : work := fold_left work_step ms (mkWork xs [] false).
(** mpi.py:248-251: the broadcast of result.x, then prob.x = x, on every process (only reached when nothing raised) *)
Definition final (w : X * lst) (x : X) : X * lst := (x, set_lnewx (snd w)).
End LsqMpi.

Inductive kstrat (X : Type) := JStop (x : X) | JThrow | JO (x : X) (k : R -> kstrat X) | JC (x : X) (k : list ext -> kstrat X).
Arguments JStop {X}. Arguments JThrow {X}. Arguments JO {X}. Arguments JC {X}.
Section ConMpi.
Context {X : Type} (Xeq : forall a b : X, {a = b} + {a <> b}).
Variables (fail : option R) (nlc : bool) (cons : list con) (G : X -> nat -> fres).
(** the constraint functions called by one evaluation: up to the first that does not return (constrained.py:135-145) *)
Fixpoint until (rs : list fres) : nat := match rs with [] => 0 | FOk _ :: r => S (until r) | _ :: _ => 1 end.
(** function calls of objective() and nonlinear_constraints() in a given state: none if the cache is valid *)
Definition obj_calls (x : X) (s : cst) : list (X * nat) := match k_obj (cclear s) with Some _ => [] | None => [(x, 0%nat)] end.
Definition con_calls (x : X) (s : cst) : list (X * nat) :=
  match k_con (cclear s) with Some _ => [] | None => map (fun i => (x, i)) (firstn (until (map (G x) (seq 1 (length cons)))) (seq 1 (length cons))) end.
Record klead := mkKL { e_xs : X * cst; e_trace : list (X * nat); e_sent : list (msg X); e_seen : list (cseen X); e_end : ending }.
(** mpi.py:397-443 _nlc_proc0: 1e12 replaces exceptions (412), whatever prob.fail is *)
Definition nlc_proc0 (xs : X * cst) (x : X) : (X * cst) * list ext :=
  let xs := csetx Xeq xs x in
  let (s', r) := constraintsH fail nlc cons (G (fst xs)) (snd xs) in
  ((fst xs, s'), match r with inl l => l | inr _ => repeat (Fin 1e12) (k_nvals s') end).
(** _f_proc0 (349-394) is the callback of constrained_serial_solve *)
Fixpoint klead_run (st : kstrat X) (d : klead) : klead :=
  match st with
  | JStop x => mkKL (x, flag_new (snd (e_xs d))) (e_trace d) (e_sent d ++ [MStop]) (e_seen d) Finished
  | JThrow => mkKL (e_xs d) (e_trace d) (e_sent d) (e_seen d) Optimizer
  | JO x k =>
    let tr := obj_calls x (snd (csetx Xeq (e_xs d) x)) in
    match cb_obj Xeq fail G (e_xs d) x with
    | (xs', inl v) => klead_run (k v) (mkKL xs' (e_trace d ++ tr) (e_sent d ++ [MF x]) (e_seen d ++ [SeenO x v]) (e_end d))
    | (xs', inr e) => mkKL xs' (e_trace d ++ tr) (e_sent d ++ [MF x]) (e_seen d) (Raised e)
    end
  | JC x k =>
    let tr := con_calls x (snd (csetx Xeq (e_xs d) x)) in
    let (xs', l) := nlc_proc0 (e_xs d) x in
    klead_run (k l) (mkKL xs' (e_trace d ++ tr) (e_sent d ++ [MNlc x]) (e_seen d ++ [SeenC x l]) (e_end d))
  end.
Definition kmpi_solve (st : X -> kstrat X) (xs : X * cst) : klead := klead_run (st (fst xs)) (mkKL xs [] [] [] Optimizer).
(** _constrained_mpi_workers_task (mpi.py:277-294): prob.x = x always, then objective() or nonlinear_constraints() *)
Record kwork := mkKW { v_xs : X * cst; v_trace : list (X * nat); v_left : bool }.
Definition kwork_step (w : kwork) (m : msg X) : kwork :=
  if v_left w then w else
  match m with
  | MStop => mkKW (v_xs w) (v_trace w) true
  | MF x => let s := flag_new (snd (v_xs w)) in mkKW (x, fst (cobjectiveH fail (G x) s)) (v_trace w ++ obj_calls x s) false
  | MNlc x => let s := flag_new (snd (v_xs w)) in mkKW (x, fst (constraintsH fail nlc cons (G x) s)) (v_trace w ++ con_calls x s) false
  end.
Definition kwork_run (xs : X * cst) (ms : list (msg X)) : kwork := fold_left kwork_step ms (mkKW xs [] false).
End ConMpi.
