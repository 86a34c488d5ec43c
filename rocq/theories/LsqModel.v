(** Model of src/simsopt/objectives/least_squares.py (LeastSquaresProblem) and
    src/simsopt/objectives/constrained.py (ConstrainedProblem).

    Values are reals; a function returns a vector (a scalar is a vector of length one, least_squares.py:167)
    or raises ObjectiveFailure ([None]).  Goals are one number per function.  The functions are pure
    functions of the dofs [x] (this is what the recompute flag of C15 is for), so an oracle gives
    their results.  Logging is not modelled. *)
From Verif Require Import ListAux DofsModel VecAux.
Local Open Scope R_scope.

(** ObjectiveFailure, RuntimeError and the other exceptions *)
Inductive oerr := OFailure | ORuntime | OErr (e : err).

(** ** construction (optimizable.py:649-688, least_squares.py:53-82) *)
(** a function is a method [snd] of an object [fst]; [p_ret o] is [o.return_fns[self]] *)
Definition func := (nat * nat)%type.
Record problem := mkProb { p_goals : list R; p_weights : list R; p_parents : list nat; p_funcs : list func; p_fail : option R }.
Definition fneg (x : R) : bool := if Rlt_dec x 0 then true else false.
(** dict.fromkeys on the parents *)
Fixpoint undup (seen l : list nat) : list nat :=
  match l with [] => [] | a :: r => if existsb (Nat.eqb a) seen then undup seen r else a :: undup (a :: seen) r end.
(** least_squares.py:66 and optimizable.py:679-688 *)
Definition mk_funcs (goals weights : list R) (funcs : list func) (fail : option R) : problem + oerr :=
  if existsb fneg weights then inr (OErr EValue)
  else inl (mkProb goals weights (undup [] (map fst funcs)) funcs fail).
(** least_squares.py:108-123 from_tuples *)
Definition from_tuples (ts : list (func * R * R)) (fail : option R) : problem + oerr :=
  mk_funcs (map (fun t => snd (fst t)) ts) (map snd ts) (map (fun t => fst (fst t)) ts) fail.
(** least_squares.py:105-115 from_sigma *)
Definition from_sigma (goals sigma : list R) (funcs : list func) (fail : option R) : problem + oerr :=
  if existsb (fun s => if Req_EM_T s 0 then true else false) sigma then inr (OErr EValue)
  else mk_funcs goals (map (fun s => 1 / (s * s)) sigma) funcs fail.
(** optimizable.py:805-818 get_parent_return_fns_list: for each parent [o] the list [o.return_fns[self]],
    which holds the methods registered for this child in order of registration *)
Definition return_fns (p : problem) (o : nat) : list nat := map snd (filter (fun f => (fst f =? o)%nat) (p_funcs p)).
Definition parent_return_fns (p : problem) : list (list nat) := map (return_fns p) (p_parents p).
(** optimizable.py:665-678: construction from depends_on and opt_return_fns; [rmap o] is
    [o.return_fn_map.values()], used when the list given is empty *)
Definition mk_depends (rmap : nat -> list nat) (goals weights : list R) (parents : list nat) (fns : list (list nat)) (fail : option R) : problem + oerr :=
  if existsb fneg weights then inr (OErr EValue)
  else inl (mkProb goals weights parents
             (concat (map (fun of => map (fun f => (fst of, f)) (match snd of with [] => rmap (fst of) | l => l end)) (combine parents fns))) fail).
(** least_squares.py:216-224 __add__; [max(None, ...)] raises TypeError *)
Definition padd (rmap : nat -> list nat) (p q : problem) : problem + oerr :=
  match p_fail p, p_fail q with
  | Some a, Some b => mk_depends rmap (p_goals p ++ p_goals q) (p_weights p ++ p_weights q) (p_parents p ++ p_parents q)
                                 (parent_return_fns p ++ parent_return_fns q) (Some (Rmax a b))
  | _, _ => inr (OErr EType)
  end.

(** ** evaluation *)
Record lst := mkL { l_nvals : nat; l_first : bool; l_weights : option (list R); l_cache : list R; l_newx : bool }.
Definition lsq_init : lst := mkL 0 true None [] true.

Inductive lres := LDone (outs ws : list R) | LBreak | LRaise (e : oerr).
Section Eval.
Variable P : problem.
(** least_squares.py:153-173: the loop over the functions; [rs] are the results of the remaining functions
    (each is only computed if the loop gets there; [calls] counts these) *)
Fixpoint lloop (first : bool) (nv calls i : nat) (outs ws : list R) (rs : list (option (list R))) : nat * nat * lres :=
  match rs with
  | [] => (nv, calls, match i with 0%nat => LRaise (OErr EValue) (* np.concatenate([]) *) | _ => LDone outs ws end)
  | r :: rest =>
    match r with
    | None => (nv, S calls, match p_fail P with
                            | None => LRaise OFailure
                            | Some _ => if first then LRaise OFailure else LBreak
                            end)
    | Some out =>
      match nth_error (p_goals P) i with
      | None => (nv, S calls, LRaise (OErr EIndex))
      | Some g =>
        let output := map (fun v => v - g) out in
        let nv' := if first then (nv + length output)%nat else nv in
        match nth_error (p_weights P) i with
        | None => (nv', S calls, LRaise (OErr EIndex))
        | Some w => lloop first nv' (S calls) (S i) (outs ++ output) (ws ++ repeat w (length output)) rest
        end
      end
    end
  end.
(** least_squares.py:147-185 unweighted_residuals() at the current x; also returns the number of function calls.
    Order as in the code: a completed loop clears first_eval before np.concatenate. *)
Definition unweighted (F : func -> option (list R)) (s : lst) : lst * nat * (list R + oerr) :=
  if l_newx s then
    match lloop (l_first s) (l_nvals s) 0 0 [] [] (map F (p_funcs P)) with
    | (nv, calls, LRaise (OErr EValue)) => (mkL nv false (Some []) (l_cache s) true, calls, inr (OErr EValue))
    | (nv, calls, LRaise e) => (mkL nv (l_first s) (l_weights s) (l_cache s) true, calls, inr e)
    | (nv, calls, LDone outs ws) => (mkL nv false (Some ws) outs false, calls, inl outs)
    | (nv, calls, LBreak) =>
      let c := repeat (match p_fail P with Some v => v | None => 0 end) nv in
      (mkL nv (l_first s) (l_weights s) c false, calls, inl c)
    end
  else (s, 0%nat, inl (l_cache s)).
(** numpy [u * v] of one-dimensional arrays: equal lengths, or one of them of length one *)
Definition bmul (u v : list R) : list R + oerr :=
  if (length u =? length v)%nat then inl (vmap2 Rmult u v)
  else match u, v with
       | [a], _ => inl (map (fun b => a * b) v)
       | _, [b] => inl (map (fun a => a * b) u)
       | _, _ => inr (OErr EValue)
       end.
(** 187-198 residuals *)
Definition residuals F s : lst * nat * (list R + oerr) :=
  match unweighted F s with
  | (s', c, inr e) => (s', c, inr e)
  | (s', c, inl u) => match l_weights s' with
                      | None => (s', c, inr (OErr EAttribute))
                      | Some ws => (s', c, bmul u (map sqrt ws))
                      end
  end.
(** 200-212 objective: sum over the residuals of value^2 * self.weights[i] *)
Fixpoint osum (acc : R) (us ws : list R) : R + oerr :=
  match us, ws with
  | [], _ => inl acc
  | u :: us', w :: ws' => osum (acc + u * u * w) us' ws'
  | _ :: _, [] => inr (OErr EIndex)
  end.
Definition objective F s : lst * nat * (R + oerr) :=
  match unweighted F s with
  | (s', c, inr e) => (s', c, inr e)
  | (s', c, inl u) => match l_weights s' with
                      | None => (s', c, match u with [] => inl 0 | _ => inr (OErr EAttribute) end)
                      | Some ws => (s', c, osum 0 u ws)
                      end
  end.
End Eval.

(** histories: [AX x]: the dofs are set (sets the recompute flag, C15); [AFlag]: the flag is set without
    changing x (e.g. x assigned to itself, a parent was edited); evaluations may get a new x as argument *)
Inductive lop (X : Type) := AX (x : X) | AFlag | AUnw (x : option X) | ARes (x : option X) | AObj (x : option X).
Arguments AX {X}. Arguments AFlag {X}. Arguments AUnw {X}. Arguments ARes {X}. Arguments AObj {X}.
Definition set_lnewx s := mkL (l_nvals s) (l_first s) (l_weights s) (l_cache s) true.
Inductive lret := RUnit | RVec (v : list R) | RNum (r : R) | RErr (e : oerr).
Definition to_ret {A} (f : A -> lret) (r : A + oerr) : lret := match r with inl a => f a | inr e => RErr e end.
Section LRun.
Context {X : Type} (P : problem) (F : X -> func -> option (list R)).
Definition lsetx (xs : X * lst) (x : option X) : X * lst := match x with None => xs | Some x => (x, set_lnewx (snd xs)) end.
Definition lstep (xs : X * lst) (o : lop X) : (X * lst) * lret :=
  match o with
  | AX x => (lsetx xs (Some x), RUnit)
  | AFlag => ((fst xs, set_lnewx (snd xs)), RUnit)
  | AUnw x => let xs := lsetx xs x in let '(s', _, r) := unweighted P (F (fst xs)) (snd xs) in ((fst xs, s'), to_ret RVec r)
  | ARes x => let xs := lsetx xs x in let '(s', _, r) := residuals P (F (fst xs)) (snd xs) in ((fst xs, s'), to_ret RVec r)
  | AObj x => let xs := lsetx xs x in let '(s', _, r) := objective P (F (fst xs)) (snd xs) in ((fst xs, s'), to_ret RNum r)
  end.
Fixpoint lrun (xs : X * lst) (ops : list (lop X)) : (X * lst) * list lret :=
  match ops with
  | [] => (xs, [])
  | o :: r => let '(xs', a) := lstep xs o in let '(xs'', l) := lrun xs' r in (xs'', a :: l)
  end.
End LRun.

(** ** ConstrainedProblem *)
(** bounds with infinities; [isfinite] *)
Inductive ext := NInf | Fin (r : R) | PInf.
Definition isfin (e : ext) : bool := match e with Fin _ => true | _ => false end.
(** [e - v] and [v - e] *)
Definition esub (e : ext) (v : R) : ext := match e with NInf => NInf | Fin r => Fin (r - v) | PInf => PInf end.
Definition subr (v : R) (e : ext) : ext := match e with NInf => PInf | Fin r => Fin (v - r) | PInf => NInf end.
(** a bound is a scalar or an array; numpy broadcasting with the function value *)
Inductive bound := BScal (e : ext) | BVec (l : list ext).
Definition bany (b : bound) : bool := match b with BScal e => isfin e | BVec l => existsb isfin l end.
Definition bcast (op : ext -> R -> ext) (b : bound) (out : list R) : list ext + oerr :=
  match b with
  | BScal e => inl (map (op e) out)
  | BVec l => if (length l =? length out)%nat then inl (vmap2 op l out)
              else match l, out with
                   | [e], _ => inl (map (op e) out)
                   | _, [v] => inl (map (fun e => op e v) l)
                   | _, _ => inr (OErr EValue)
                   end
  end.
Record con := mkCon { c_lhs : bound; c_rhs : bound }.
Record cst := mkC { k_nvals : nat; k_fobj : bool; k_fcon : bool; k_obj : option R; k_con : option (list ext); k_newx : bool }.
Definition con_init : cst := mkC 0 true true None None true.
Inductive cres := CDone (outs : list ext) | CBreak | CRaise (e : oerr).
Section CEval.
Variables (fail : option R) (has_nlc : bool) (cons : list con).
(** constrained.py:133-163: the loop over the constraints *)
Fixpoint cloop (first : bool) (nv : nat) (outs : list ext) (rs : list (option (list R) * con)) : nat * cres :=
  match rs with
  | [] => (nv, CDone outs)
  | (None, _) :: _ => (nv, match fail with None => CRaise OFailure | Some _ => if first then CRaise OFailure else CBreak end)
  | (Some out, c) :: rest =>
    let add nv outs (b : bound) op k :=
      if bany b then match bcast op b out with
                     | inr e => (nv, CRaise e)
                     | inl o => k (if first then (nv + length o)%nat else nv) (outs ++ o)
                     end
      else k nv outs in
    add nv outs (c_lhs c) esub (fun nv outs =>
    add nv outs (c_rhs c) (fun e v => subr v e) (fun nv outs => cloop first nv outs rest))
  end.
(** constrained.py:118-122, 188-192: empty both caches when the flag is set *)
Definition cclear (s : cst) : cst := if k_newx s then mkC (k_nvals s) (k_fobj s) (k_fcon s) None None true else s.
(** constrained.py:112-175 nonlinear_constraints() at the current x; [F 0] is the objective, [F (i+1)] constraint i.
    [outs = []] after the loop: np.concatenate of an empty list raises ValueError. *)
Definition constraints (F : nat -> option (list R)) (s : cst) : cst * (list ext + oerr) :=
  let s := cclear s in
  if negb has_nlc then (s, inr ORuntime) else
  match k_con s with
  | Some c => (s, inl c)
  | None =>
    match cloop (k_fcon s) (k_nvals s) [] (combine (map F (seq 1 (length cons))) cons) with
    | (nv, CRaise e) => (mkC nv (k_fobj s) (k_fcon s) (k_obj s) None (k_newx s), inr e)
    | (nv, CBreak) => let c := repeat (match fail with Some v => Fin v | None => Fin 0 end) nv in
                      (mkC nv (k_fobj s) (k_fcon s) (k_obj s) (Some c) false, inl c)
    | (nv, CDone outs) =>
      if existsb (fun c => bany (c_lhs c) || bany (c_rhs c)) cons
      then (mkC nv (k_fobj s) false (k_obj s) (Some outs) false, inl outs)
      else (mkC nv (k_fobj s) false (k_obj s) None (k_newx s), inr (OErr EValue))
    end
  end.
(** constrained.py:177-211 objective() (a scalar function) *)
Definition cobjective (F : nat -> option (list R)) (s : cst) : cst * (R + oerr) :=
  let s := cclear s in
  match k_obj s with
  | Some v => (s, inl v)
  | None =>
    let fin out := (mkC (k_nvals s) false (k_fcon s) (Some out) (k_con s) false, inl out) in
    match F 0%nat with
    | Some l => fin (hd 0 l)
    | None => match fail with
              | None => (s, inr OFailure)
              | Some v => if k_fobj s then (s, inr OFailure) else fin v
              end
    end
  end.
End CEval.
