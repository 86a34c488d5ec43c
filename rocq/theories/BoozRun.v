(** Model of the run logic of BoozerSurface (src/simsopt/geo/boozersurface.py:67-161, 433-482, 484-541, 543-607, 690-835) and of the
    objectives that evaluate it (src/simsopt/geo/surfaceobjectives.py:881-935 Iotas; MajorRadius, NonQuasiSymmetricRatio and
    BoozerResidual have the same compute prologue).  The linear algebra of one step is a parameter: [nb], [step] for the exact
    system, [gn], [gstep] for the penalty objective, [jn], [jstep] for the damped Gauss-Newton step (with its lam), [bfgs] and [lm]
    for scipy.  None in a G is python's None; an outcome None is an exception. *)
From Coq Require Import Reals Lra Lia List Bool.
Import ListNotations.
Open Scope R_scope.

Definition leb (a b : R) : bool := if Rle_dec a b then true else false.
(** 80: 'ls' if constraint_weight else 'exact'; None and 0 are both false *)
Inductive btype := Exact | Ls.
Definition boozer_type (constraint_weight : option R) : btype :=
  match constraint_weight with None => Exact | Some w => if Req_EM_T w 0 then Exact else Ls end.
(** the entries of the res dictionaries that others read; [r_plu]: the keys 'PLU' and 'vjp' exist *)
Record result := Res { r_iota : R; r_G : option R; r_success : bool; r_iter : nat; r_plu : bool }.

Section Run.
Variables (C S : Type).
Variables (nb : C -> R -> S -> R -> R -> R) (step : C -> R -> S -> R -> R -> S * R * R).
Variables (gn : C -> R -> S -> R -> option R -> R) (gstep : C -> R -> S -> R -> option R -> S * R * option R).
Variables (jn : C -> R -> S -> R -> option R -> R) (jstep : R -> C -> R -> S -> R -> option R -> S * R * option R).
Variables (bfgs lm : C -> R -> S -> R -> option R -> S * R * option R * bool * nat).
Variable G_coils : C -> R.
Variable currents_fixed : bool.
Variable ty : btype.
Variables (tol : R) (maxiter : nat).

(** [target]: targetlabel; [res] = None: no attribute res yet *)
Record st := St { coils : C; surf : S; target : R; need : bool; res : option result }.
Definition outcome := option (st * option result).

(** 766-805 the while loop of solve_residual_equation_exactly_newton; fuel is maxiter - i *)
Fixpoint exact_loop (fuel : nat) (c : C) (t : R) (s : S) (iota G : R) (i : nat) (norm : R) : S * R * R * nat * R :=
  match fuel with
  | 0%nat => (s, iota, G, i, norm)
  | Datatypes.S f => let norm := nb c t s iota G in
      if leb norm tol then (s, iota, G, i, norm)
      else let '(s, iota, G) := step c t s iota G in exact_loop f c t s iota G (i + 1) norm
  end.
(** 690-835 *)
Definition exact_from (c : C) (t : R) (s : S) (iota : R) (G : option R) : S * result :=
  let G := match G with None => G_coils c | Some g => g end in
  let '(s, iota, G, i, norm) := exact_loop maxiter c t s iota G 0 1e6 in
  (s, Res iota (Some G) (leb norm tol) i true).
(** 503-512 *)
Fixpoint penalty_loop (fuel : nat) (c : C) (t : R) (s : S) (iota : R) (G : option R) (i : nat) (norm : R) : S * R * option R * nat * R :=
  match fuel with
  | 0%nat => (s, iota, G, i, norm)
  | Datatypes.S f => if leb norm tol then (s, iota, G, i, norm)
      else let '(s, iota, G) := gstep c t s iota G in penalty_loop f c t s iota G (i + 1) (gn c t s iota G)
  end.
(** 484-541 *)
Definition penalty_from (c : C) (t : R) (s : S) (iota : R) (G : option R) : S * result :=
  let '(s, iota, G, i, norm) := penalty_loop maxiter c t s iota G 0 (gn c t s iota G) in
  (s, Res iota G (leb norm tol) i true).
(** 433-482 *)
Definition bfgs_from (c : C) (t : R) (s : S) (iota : R) (G : option R) : S * result :=
  let '(s, iota, G, ok, i) := bfgs c t s iota G in (s, Res iota G ok i false).
(** the common frame of the solvers: return self.res if nothing changed, else solve, store, clear the flag *)
Definition solver (from : C -> R -> S -> R -> option R -> S * result) (x : st) (iota : R) (G : option R) : outcome :=
  if need x then let '(s, r) := from (coils x) (target x) (surf x) iota G in Some (St (coils x) s (target x) false (Some r), Some r)
  else match res x with Some r => Some (x, Some r) | None => None end.
Definition exact_newton := solver exact_from.
Definition penalty_newton := solver penalty_from.
Definition penalty_lbfgs := solver bfgs_from.
(** 543-607 minimize_boozer_penalty_constraints_ls, method 'lm' *)
Definition penalty_lm := solver (fun c t s iota G => let '(s, iota, G, ok, i) := lm c t s iota G in (s, Res iota G ok i false)).
(** method 'manual': norm starts at 1e10; the result is returned but neither stored nor is the flag cleared *)
Fixpoint manual_loop (fuel : nat) (c : C) (t : R) (s : S) (iota : R) (G : option R) (lam norm : R) (i : nat) : S * R * option R * nat * R :=
  match fuel with
  | 0%nat => (s, iota, G, i, norm)
  | Datatypes.S f => if leb norm tol then (s, iota, G, i, norm)
      else let '(s, iota, G) := jstep lam c t s iota G in manual_loop f c t s iota G (lam / 3) (jn c t s iota G) (i + 1)
  end.
Definition penalty_manual (x : st) (iota : R) (G : option R) : outcome :=
  if need x then
    let '(s, iota, G, i, norm) := manual_loop maxiter (coils x) (target x) (surf x) iota G 1 1e10 0 in
    Some (St (coils x) s (target x) (need x) (res x), Some (Res iota G (leb norm tol) i false))
  else match res x with Some r => Some (x, Some r) | None => None end.
(** 113-161 run_code *)
Definition run_code (x : st) (iota : R) (G : option R) : outcome :=
  if need x then
    if match G with None => negb currents_fixed | Some _ => false end then None
    else match ty with
    | Exact => exact_newton x iota G
    | Ls => match penalty_lbfgs x iota G with
            | Some (x, Some r) => penalty_newton (St (coils x) (surf x) (target x) true (res x)) (r_iota r) (r_G r)
            | _ => None end
    end
  else Some (x, None).
(** changing dofs of the coils: the BiotSavart parent calls recompute_bell (109-110); the surface, the label and targetlabel are
    plain attributes *)
Definition set_coils (c : C) (x : st) : st := St c (surf x) (target x) true (res x).
Definition set_surface (s : S) (x : st) : st := St (coils x) s (target x) (need x) (res x).
Definition set_target (t : R) (x : st) : st := St (coils x) (surf x) t (need x) (res x).
Definition new (c : C) (s : S) (t : R) : st := St c s t true None.

(** Iotas (surfaceobjectives.py:893-935): the boozer surface and the cached value *)
Definition obj := (st * option R)%type.
Definition compute (x : st) : option (st * R) :=
  let after := if need x then match res x with None => None | Some r => option_map fst (run_code x (r_iota r) (r_G r)) end else Some x in
  match after with
  | Some x => match res x with Some r => if r_plu r then Some (x, r_iota r) else None | None => None end
  | None => None
  end.
Definition iotas_J (o : obj) : option (obj * R) :=
  match snd o with Some v => Some (o, v) | None => match compute (fst o) with Some (x, v) => Some ((x, Some v), v) | None => None end end.
(** a change of the coils clears both caches (Optimizable's recompute_bell reaches every descendant) *)
Definition obj_set_coils (c : C) (o : obj) : obj := (set_coils c (fst o), None).
Definition obj_run (o : obj) (iota : R) (G : option R) : option obj := match run_code (fst o) iota G with Some (x, _) => Some (x, snd o) | None => None end.
End Run.
