(** Model of src/simsopt/solve/serial.py: least_squares_serial_solve (31-167), serial_solve (170-269) and
    constrained_serial_solve (272-428).

    The functions of a problem are pure functions of the dofs (C15); a call returns a vector, raises
    ObjectiveFailure, or raises another exception (a crash).  scipy's optimizer is an arbitrary program [strat] that sees
    only what the callbacks return, cannot catch their exceptions, and is deterministic.  The log files are lists
    of rows; headers, elapsed times and flushing are not modelled. *)
From Verif Require Import ListAux DofsModel VecAux LsqModel.
Local Open Scope R_scope.

(** the outcome of calling one function *)
Inductive fres := FOk (out : list R) | FFail | FCrash.

Section LsqH.
Variable P : problem.
(** least_squares.py:153-173, the loop of LsqModel with the third outcome: only ObjectiveFailure is caught (156) *)
Fixpoint lloopH (first : bool) (nv calls i : nat) (outs ws : list R) (rs : list fres) : nat * nat * lres :=
  match rs with
  | [] => (nv, calls, match i with 0%nat => LRaise (OErr EValue) | _ => LDone outs ws end)
  | r :: rest =>
    match r with
    | FCrash => (nv, S calls, LRaise ORuntime)
    | FFail => (nv, S calls, match p_fail P with
                            | None => LRaise OFailure
                            | Some _ => if first then LRaise OFailure else LBreak
                            end)
    | FOk out =>
      match nth_error (p_goals P) i with
      | None => (nv, S calls, LRaise (OErr EIndex))
      | Some g =>
        let output := map (fun v => v - g) out in
        let nv' := if first then (nv + length output)%nat else nv in
        match nth_error (p_weights P) i with
        | None => (nv', S calls, LRaise (OErr EIndex))
        | Some w => lloopH first nv' (S calls) (S i) (outs ++ output) (ws ++ repeat w (length output)) rest
        end
      end
    end
  end.
(** least_squares.py:147-185 *)
Definition unweightedH (G : func -> fres) (s : lst) : lst * nat * (list R + oerr) :=
  if l_newx s then
    match lloopH (l_first s) (l_nvals s) 0 0 [] [] (map G (p_funcs P)) with
    | (nv, calls, LRaise (OErr EValue)) => (mkL nv false (Some []) (l_cache s) true, calls, inr (OErr EValue))
    | (nv, calls, LRaise e) => (mkL nv (l_first s) (l_weights s) (l_cache s) true, calls, inr e)
    | (nv, calls, LDone outs ws) => (mkL nv false (Some ws) outs false, calls, inl outs)
    | (nv, calls, LBreak) =>
      let c := repeat (match p_fail P with Some v => v | None => 0 end) nv in
      (mkL nv (l_first s) (l_weights s) c false, calls, inl c)
    end
  else (s, 0%nat, inl (l_cache s)).
(** least_squares.py:187-198 *)
Definition residualsH G s : lst * nat * (list R + oerr) :=
  match unweightedH G s with
  | (s', c, inr e) => (s', c, inr e)
  | (s', c, inl u) => match l_weights s' with
                      | None => (s', c, inr (OErr EAttribute))
                      | Some ws => (s', c, bmul u (map sqrt ws))
                      end
  end.
(** least_squares.py:200-218 *)
Definition objectiveH G s : lst * nat * (R + oerr) :=
  match unweightedH G s with
  | (s', c, inr e) => (s', c, inr e)
  | (s', c, inl u) => match l_weights s' with
                      | None => (s', c, match u with [] => inl 0 | _ => inr (OErr EAttribute) end)
                      | Some ws => (s', c, osum 0 u ws)
                      end
  end.
End LsqH.

(** ** the optimizer: returns result.x, raises, asks the objective callback at x, asks prob.residuals (at a given or the
    current x) without the callback (FiniteDifference.jac, serial.py:151-155), or assigns prob.x (_core/finite_difference.py:91) *)
Inductive strat (X : Type) := Stop (x : X) | Throw | Eval (x : X) (k : list R -> strat X)
  | Probe (x : option X) (k : list R -> strat X) | Assign (x : X) (k : strat X).
Arguments Stop {X}. Arguments Throw {X}. Arguments Eval {X}. Arguments Probe {X}. Arguments Assign {X}.

(** one row of simsopt_*.dat and residuals_*.dat: number, x, objective, residuals *)
Record lrow (X : Type) := mkRow { w_n : nat; w_x : X; w_obj : R; w_res : list R }.
Arguments mkRow {X}. Arguments w_n {X}. Arguments w_x {X}. Arguments w_obj {X}. Arguments w_res {X}.
(** how a solve ends: normally, with an exception of the optimizer, with an exception from a callback *)
Inductive ending := Finished | Optimizer | Raised (e : oerr).
(** [o_seen]: what the objective callback returned, in order *)
Record outcome (X : Type) := mkOut { o_xs : X * lst; o_log : list (lrow X); o_seen : list (X * list R); o_end : ending }.
Arguments mkOut {X}. Arguments o_xs {X}. Arguments o_log {X}. Arguments o_seen {X}. Arguments o_end {X}.

Section Serial.
Context {X : Type} (P : problem) (G : X -> func -> fres).
(** serial.py:82, np.full(prob.parent_return_fns_no, 1.0e12): one entry per function *)
Definition placeholder : list R := repeat 1e12 (length (p_funcs P)).
(** serial.py:75-142 the callback: residuals in a try (78-82), then prob.objective() outside of it (85), then the log row (121-141) *)
Definition callback (xs : X * lst) (x : X) : (X * lst) * (list R * R + oerr) :=
  let '(s2, _, r) := residualsH P (G x) (set_lnewx (snd xs)) in
  let res := match r with inl v => v | inr _ => placeholder end in
  let '(s3, _, o) := objectiveH P (G x) s2 in
  ((x, s3), match o with inl val => inl (res, val) | inr e => inr e end).
(** serial.py:144-167: run the optimizer, then prob.x = result.x *)
Fixpoint exec (st : strat X) (xs : X * lst) (n : nat) (log : list (lrow X)) (seen : list (X * list R)) : outcome X :=
  match st with
  | Stop x => mkOut (x, set_lnewx (snd xs)) log seen Finished
  | Throw => mkOut xs log seen Optimizer
  | Assign x k => exec k (x, set_lnewx (snd xs)) n log seen
  | Probe x k => let xs := lsetx xs x in let '(s2, _, r) := residualsH P (G (fst xs)) (snd xs) in
                 match r with inl v => exec (k v) (fst xs, s2) n log seen | inr e => mkOut (fst xs, s2) log seen (Raised e) end
  | Eval x k => match callback xs x with
                | (xs', inr e) => mkOut xs' log seen (Raised e)
                | (xs', inl (v, val)) => exec (k v) xs' (S n) (log ++ [mkRow n x val v]) (seen ++ [(x, v)])
                end
  end.
(** least_squares_serial_solve(prob) with the optimizer [st] (which knows x0 = prob.x, serial.py:149) *)
Definition lsq_solve (st : X -> strat X) (xs : X * lst) : outcome X := exec (st (fst xs)) xs 0 [] [].

(** what the user may do with the problem before the solve *)
Definition lstepH (xs : X * lst) (o : lop X) : X * lst :=
  match o with
  | AX x => lsetx xs (Some x)
  | AFlag => (fst xs, set_lnewx (snd xs))
  | AUnw x => let xs := lsetx xs x in let '(s', _, _) := unweightedH P (G (fst xs)) (snd xs) in (fst xs, s')
  | ARes x => let xs := lsetx xs x in let '(s', _, _) := residualsH P (G (fst xs)) (snd xs) in (fst xs, s')
  | AObj x => let xs := lsetx xs x in let '(s', _, _) := objectiveH P (G (fst xs)) (snd xs) in (fst xs, s')
  end.
Definition lrunH (xs : X * lst) (ops : list (lop X)) : X * lst := fold_left lstepH ops xs.
End Serial.

(** ** serial_solve (serial.py:170-269): [Gs x] is prob(x), None if it raises *)
Inductive sstrat (X : Type) := SStop (x : X) | SThrow | SEval (x : X) (k : R -> sstrat X).
Arguments SStop {X}. Arguments SThrow {X}. Arguments SEval {X}.
Record soutcome (X : Type) := mkSO { so_x : X; so_log : list (nat * X * R); so_end : ending }.
Arguments mkSO {X}. Arguments so_x {X}. Arguments so_log {X}. Arguments so_end {X}.
Section General.
Context {X : Type} (Gs : X -> option R).
(** serial.py:212-244: any exception gives 1e12 (214-217) *)
Fixpoint sexec (st : sstrat X) (x : X) (n : nat) (log : list (nat * X * R)) : soutcome X :=
  match st with
  | SStop y => mkSO y log Finished
  | SThrow => mkSO x log Optimizer
  | SEval y k => let v := match Gs y with Some v => v | None => 1e12 end in sexec (k v) y (S n) (log ++ [(n, y, v)])
  end.
(** serial.py:250-269: with grad=True RuntimeError is raised before anything is evaluated *)
Definition serial_solve (grad : bool) (st : X -> sstrat X) (x : X) : soutcome X :=
  if grad then mkSO x [] (Raised ORuntime) else sexec (st x) x 0 [].
End General.

(** ** constrained_serial_solve (serial.py:272-428) *)
Section ConH.
Variables (fail : option R) (has_nlc : bool) (cons : list con).
(** constrained.py:133-163 with the third outcome *)
Fixpoint cloopH (first : bool) (nv : nat) (outs : list ext) (rs : list (fres * con)) : nat * cres :=
  match rs with
  | [] => (nv, CDone outs)
  | (FCrash, _) :: _ => (nv, CRaise ORuntime)
  | (FFail, _) :: _ => (nv, match fail with None => CRaise OFailure | Some _ => if first then CRaise OFailure else CBreak end)
  | (FOk out, c) :: rest =>
    let add nv outs (b : bound) op k :=
      if bany b then match bcast op b out with
                     | inr e => (nv, CRaise e)
                     | inl o => k (if first then (nv + length o)%nat else nv) (outs ++ o)
                     end
      else k nv outs in
    add nv outs (c_lhs c) esub (fun nv outs =>
    add nv outs (c_rhs c) (fun e v => subr v e) (fun nv outs => cloopH first nv outs rest))
  end.
(** constrained.py:112-175 *)
Definition constraintsH (G : nat -> fres) (s : cst) : cst * (list ext + oerr) :=
  let s := cclear s in
  if negb has_nlc then (s, inr ORuntime) else
  match k_con s with
  | Some c => (s, inl c)
  | None =>
    match cloopH (k_fcon s) (k_nvals s) [] (combine (map G (seq 1 (length cons))) cons) with
    | (nv, CRaise e) => (mkC nv (k_fobj s) (k_fcon s) (k_obj s) None (k_newx s), inr e)
    | (nv, CBreak) => let c := repeat (match fail with Some v => Fin v | None => Fin 0 end) nv in
                      (mkC nv (k_fobj s) (k_fcon s) (k_obj s) (Some c) false, inl c)
    | (nv, CDone outs) =>
      if existsb (fun c => bany (c_lhs c) || bany (c_rhs c)) cons
      then (mkC nv (k_fobj s) false (k_obj s) (Some outs) false, inl outs)
      else (mkC nv (k_fobj s) false (k_obj s) None (k_newx s), inr (OErr EValue))
    end
  end.
(** constrained.py:177-211 *)
Definition cobjectiveH (G : nat -> fres) (s : cst) : cst * (R + oerr) :=
  let s := cclear s in
  match k_obj s with
  | Some v => (s, inl v)
  | None =>
    let fin out := (mkC (k_nvals s) false (k_fcon s) (Some out) (k_con s) false, inl out) in
    match G 0%nat with
    | FOk l => fin (hd 0 l)
    | FCrash => (s, inr ORuntime)
    | FFail => match fail with
               | None => (s, inr OFailure)
               | Some v => if k_fobj s then (s, inr OFailure) else fin v
               end
    end
  end.
End ConH.

(** the optimizer: asks the objective callback, the constraint callback, or the constraints without the callback
    (jac=fd_nlc.jac, serial.py:406), or assigns prob.x *)
Inductive cstrat (X : Type) := CStop (x : X) | CThrow | CEvalO (x : X) (k : R -> cstrat X) | CEvalC (x : X) (k : list ext -> cstrat X)
  | CProbe (x : option X) (k : list ext -> cstrat X) | CAssign (x : X) (k : cstrat X).
Arguments CStop {X}. Arguments CThrow {X}. Arguments CEvalO {X}. Arguments CEvalC {X}. Arguments CProbe {X}. Arguments CAssign {X}.
(** what the callbacks returned *)
Inductive cseen (X : Type) := SeenO (x : X) (v : R) | SeenC (x : X) (l : list ext).
Arguments SeenO {X}. Arguments SeenC {X}.
Record coutcome (X : Type) := mkCO { co_xs : X * cst; co_seen : list (cseen X); co_end : ending }.
Arguments mkCO {X}. Arguments co_xs {X}. Arguments co_seen {X}. Arguments co_end {X}.
Section Constrained.
Context {X : Type} (Xeq : forall a b : X, {a = b} + {a <> b}).
Variables (fail : option R) (nlc : bool) (cons : list con) (G : X -> nat -> fres).
(** constrained.py:113-116, 182-185 *)
Definition csetx (xs : X * cst) (x : X) : X * cst :=
  if Xeq (fst xs) x then xs else (x, mkC (k_nvals (snd xs)) (k_fobj (snd xs)) (k_fcon (snd xs)) (k_obj (snd xs)) (k_con (snd xs)) true).
(** serial.py:316-348 _obj: prob.fail replaces any exception; if it is None formatting the row (343) raises TypeError *)
Definition cb_obj (xs : X * cst) (x : X) : (X * cst) * (R + oerr) :=
  let xs := csetx xs x in
  let (s', r) := cobjectiveH fail (G (fst xs)) (snd xs) in
  ((fst xs, s'), match r with inl v => inl v | inr _ => match fail with Some v => inl v | None => inr (OErr EType) end end).
(** serial.py:350-386 _nlc: np.full(prob.nvals, prob.fail) replaces any exception *)
Definition cb_con (xs : X * cst) (x : X) : (X * cst) * (list ext + oerr) :=
  let xs := csetx xs x in
  let (s', r) := constraintsH fail nlc cons (G (fst xs)) (snd xs) in
  ((fst xs, s'), match r with
                 | inl l => inl l
                 | inr _ => match fail, k_nvals s' with
                            | Some v, n => inl (repeat (Fin v) n)
                            | None, 0%nat => inl []
                            | None, _ => inr (OErr EType)
                            end
                 end).
Fixpoint cexec (st : cstrat X) (xs : X * cst) (seen : list (cseen X)) : coutcome X :=
  match st with
  | CStop x => mkCO (x, mkC (k_nvals (snd xs)) (k_fobj (snd xs)) (k_fcon (snd xs)) (k_obj (snd xs)) (k_con (snd xs)) true) seen Finished
  | CThrow => mkCO xs seen Optimizer
  | CAssign x k => cexec k (x, mkC (k_nvals (snd xs)) (k_fobj (snd xs)) (k_fcon (snd xs)) (k_obj (snd xs)) (k_con (snd xs)) true) seen
  | CProbe x k => let xs := match x with Some x => csetx xs x | None => xs end in
                  let (s', r) := constraintsH fail nlc cons (G (fst xs)) (snd xs) in
                  match r with inl v => cexec (k v) (fst xs, s') seen | inr e => mkCO (fst xs, s') seen (Raised e) end
  | CEvalO x k => match cb_obj xs x with (xs', inl v) => cexec (k v) xs' (seen ++ [SeenO x v]) | (xs', inr e) => mkCO xs' seen (Raised e) end
  | CEvalC x k => match cb_con xs x with (xs', inl l) => cexec (k l) xs' (seen ++ [SeenC x l]) | (xs', inr e) => mkCO xs' seen (Raised e) end
  end.
(** what the user may do with the problem before the solve: assign x, change a parent, evaluate *)
Inductive cuse := UX (x : X) | UFlag | UObj (x : option X) | UCon (x : option X).
Definition flag_new (s : cst) : cst := mkC (k_nvals s) (k_fobj s) (k_fcon s) (k_obj s) (k_con s) true.
Definition kstepH (xs : X * cst) (o : cuse) : X * cst :=
  match o with
  | UX x => (x, flag_new (snd xs))
  | UFlag => (fst xs, flag_new (snd xs))
  | UObj x => let xs := match x with Some x => csetx xs x | None => xs end in (fst xs, fst (cobjectiveH fail (G (fst xs)) (snd xs)))
  | UCon x => let xs := match x with Some x => csetx xs x | None => xs end in (fst xs, fst (constraintsH fail nlc cons (G (fst xs)) (snd xs)))
  end.
Definition krunH (xs : X * cst) (ops : list cuse) : X * cst := fold_left kstepH ops xs.
Definition con_solve (st : X -> cstrat X) (xs : X * cst) : coutcome X := cexec (st (fst xs)) xs [].
End Constrained.
Arguments UX {X}. Arguments UFlag {X}. Arguments UObj {X}. Arguments UCon {X}.
