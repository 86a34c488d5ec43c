(** Model of the convex permanent-magnet solver: src/simsoptpp/permanent_magnet_optimization.cpp ("cpp:") 11-96, 146-322 and
    src/simsopt/solve/permanent_magnet_optimization.py ("py:") 13-90, 206-285.
    Arrays of shape (N, 3) are functions of the dipole index j < N, the matrix A_obj of shape (ngrid, 3N) is A i j : vec3.
    Simplifications: exact reals (the constants 1e-8, 1e-5, 1e-20, 1e100 are exact); printing is left out except for what it decides. *)
From Coq Require Import Reals Lra Lia List Bool.
From Verif Require Import ListAux VecAux Vec3 CurveModel CurveDiff CurveObjModel.
Import ListNotations.
Open Scope R_scope.

Definition e8 : R := / 10 ^ 8.
Definition e5 : R := / 10 ^ 5.
Definition e20 : R := / 10 ^ 20.
(** cpp:12-15 *)
Definition proj (m : R) (v : vec3) : vec3 := let d := Rmax 1 (sqrt (dot3 v v) / m) in V3 (vx v / d) (vy v / d) (vz v / d).
(** cpp:18-31 *)
Definition phi (m : R) (x g : vec3) : vec3 := if Rlt_dec (e8 + e5 * m * m) (Rabs (dot3 x x - m * m)) then g else v0.
(** cpp:60-65 *)
Definition red_grad (alpha m : R) (x g : vec3) : vec3 := let q := proj m (sub3 x (scal3 alpha g)) in V3 ((vx x - vx q) / alpha) ((vy x - vy q) / alpha) ((vz x - vz q) / alpha).
(** cpp:34-56 *)
Definition beta (alpha m : R) (x g : vec3) : vec3 :=
  if Rlt_dec (Rabs (dot3 x x - m * m)) (e8 + e5 * (m * m)) then if Rlt_dec 0 (dot3 x g / sqrt (dot3 x x)) then g else red_grad alpha m x g else v0.
(** cpp:68-73 *)
Definition red_proj_grad (alpha m : R) (x g : vec3) : vec3 := add3 (phi m x g) (beta alpha m x g).
(** cpp:78-96 *)
Definition max_alpha (m : R) (x p : vec3) : R :=
  let a := dot3 p p in let c := dot3 x x - m * m in let b := - 2 * dot3 x p in
  if Rlt_dec e20 a then (- b + sqrt (b * b - 4 * a * c)) / (2 * a) else 10 ^ 100.

Section MwPGP.
Variables (ng N : nat) (A : nat -> nat -> vec3) (b : nat -> R) (ATb w : nat -> vec3) (m : nat -> R) (alpha nu l2 : R).
(** eigen_v * eigen_mat.transpose() and the second product *)
Definition Aop (x : nat -> vec3) (i : nat) : R := sum_to N (fun j => dot3 (A i j) (x j)).
Definition ATop (r : nat -> R) (j : nat) : vec3 := V3 (sum_to ng (fun i => r i * vx (A i j))) (sum_to ng (fun i => r i * vy (A i j))) (sum_to ng (fun i => r i * vz (A i j))).
(** cpp:187, 218 *)
Definition Hess (x : nat -> vec3) (j : nat) : vec3 := add3 (ATop (Aop x) j) (scal3 (2 * (l2 + 1 / (2 * nu))) (x j)).
(** cpp:177 *)
Definition ATb_rs (j : nat) : vec3 := add3 (ATb j) (scal3 (1 / nu) (w j)).
(** cpp:187-190, 275-280 *)
Definition grad (x : nat -> vec3) (j : nat) : vec3 := sub3 (Hess x j) (ATb_rs j).

Record pstate := PS { sx : nat -> vec3; sg : nat -> vec3; sp : nat -> vec3 }.
(** cpp:168, 183-196 *)
Definition pinit (m0 : nat -> vec3) : pstate := PS m0 (grad m0) (fun j => phi (m j) (m0 j) (grad m0 j)).
Definition norm2 (v : nat -> vec3) : R := sum_to N (fun j => dot3 (v j) (v j)).
Definition inner (u v : nat -> vec3) : R := sum_to N (fun j => dot3 (u j) (v j)).
(** std::min_element of a nonempty vector *)
Fixpoint minf (n : nat) (f : nat -> R) : R := match n with O => f O | S k => Rmin (minf k f) (f (S k)) end.
Definition alpha_f (s : pstate) : R := minf (pred N) (fun j => max_alpha (m j) (sx s j) (sp s j)).
(** cpp:234 alpha_cg < alpha_f, with gp/0 = nan or +infinity *)
Definition alpha_cg (s : pstate) : R := inner (sg s) (sp s) / inner (sp s) (Hess (sp s)).
Definition cg_ok (s : pstate) : bool := if Req_EM_T (inner (sp s) (Hess (sp s))) 0 then false else if Rlt_dec (alpha_cg s) (alpha_f s) then true else false.
(** cpp:240-265 conjugate gradient step *)
Definition cg_step (s : pstate) : pstate :=
  let a := alpha_cg s in let H := Hess (sp s) in
  let x := fun j => sub3 (sx s j) (scal3 a (sp s j)) in let g := fun j => sub3 (sg s j) (scal3 a (H j)) in
  let f := fun j => phi (m j) (x j) (g j) in let gamma := inner f H / inner (sp s) H in
  PS x g (fun j => sub3 (f j) (scal3 gamma (sp s j))).
(** cpp:267-285 *)
Definition mpg_step (s : pstate) : pstate :=
  let a := alpha_f s in let H := Hess (sp s) in
  let x := fun j => proj (m j) (sub3 (sub3 (sx s j) (scal3 a (sp s j))) (scal3 alpha (sub3 (sg s j) (scal3 a (H j))))) in
  PS x (grad x) (fun j => phi (m j) (x j) (grad x j)).
(** cpp:287-305 *)
Definition pg_step (s : pstate) : pstate :=
  let x := fun j => proj (m j) (sub3 (sx s j) (scal3 alpha (sg s j))) in PS x (grad x) (fun j => phi (m j) (x j) (grad x j)).
(** cpp:208-305 *)
Definition mw_step (s : pstate) : pstate :=
  if Rle_dec (norm2 (fun j => red_proj_grad alpha (m j) (sx s j) (sg s j))) (norm2 (fun j => phi (m j) (sx s j) (sg s j)))
  then if cg_ok s then cg_step s else mpg_step s else pg_step s.
(** cpp:314-327 convergence test *)
Definition moved (x y : nat -> vec3) : R := sum_to N (fun j => Rabs (vx (x j) - vx (y j)) + Rabs (vy (x j) - vy (y j)) + Rabs (vz (x j) - vz (y j))).
(** cpp:98-144 *)
Definition R2 (x : nat -> vec3) : R := 1 / 2 * sum_to ng (fun i => (Aop x i - b i) * (Aop x i - b i)).
Definition cost (x : nat -> vec3) : R := R2 x + 1 / 2 * norm2 (fun j => sub3 (x j) (w j)) / nu + l2 * norm2 x.
(** cpp:308-312; None: max_iter < 5 with verbose: remainder by zero *)
Definition prints (max_iter k : nat) : option bool := match (max_iter / 5)%nat with O => None | q => Some ((k mod q =? 0) || (k =? 0) || (k =? max_iter - 1))%nat end.
(** cpp:206-328; k iterations done; the history of the costs, None: crash *)
Fixpoint mw_loop (verbose : bool) (eps min_fb : R) (max_iter : nat) (fuel k : nat) (s : pstate) : option (list R * (nat -> vec3)) :=
  match fuel with
  | O => Some ([], sx s)
  | S fuel => let s' := mw_step s in
      let rest := if Rlt_dec (moved (sx s') (sx s)) eps then Some ([], sx s') else mw_loop verbose eps min_fb max_iter fuel (S k) s' in
      if verbose then match prints max_iter k with
        | None => None
        | Some true => if Rlt_dec (R2 (sx s')) min_fb then Some ([cost (sx s')], sx s') else match rest with Some (h, x) => Some (cost (sx s') :: h, x) | None => None end
        | Some false => rest end
      else rest
  end.
Definition MwPGP (verbose : bool) (eps min_fb : R) (max_iter : nat) (m0 : nat -> vec3) : option (list R * (nat -> vec3)) := mw_loop verbose eps min_fb max_iter max_iter 0 (pinit m0).
End MwPGP.

(** ** Relax and split *)
(** py:13-41 one component: m * (|m| / mmax > 2 * reg * nu) *)
Definition prox_l0 (mmax reg nu m : R) : R := if Rlt_dec (2 * reg * nu) (Rabs m / mmax) then m else 0.
(** np.sign *)
Definition sgn (x : R) : R := if Rlt_dec 0 x then 1 else if Rlt_dec x 0 then -1 else 0.
(** py:44-66 *)
Definition prox_l1 (mmax reg nu m : R) : R := sgn m * Rmax (Rabs (Rabs m / mmax) - reg * nu) 0 * mmax.
Definition prox3 (p : R -> R) (v : vec3) : vec3 := V3 (p (vx v)) (p (vy v)) (p (vz v)).
Inductive pick := L0 | L1.
Definition prox (k : pick) : R -> R -> R -> R -> R := match k with L0 => prox_l0 | L1 => prox_l1 end.
(** py:246-270: the loop of relax-and-split with a nonconvex term.  conv: the convex solver for the current proxy.
    The result is the error history, m and m_proxy; IndexError: the history of the convex solver is empty (verbose = False) *)
Inductive rs_result := RSDone (errors : list R) (m w : nat -> vec3) | RSIndexError | RSCrash.
Section RS.
Variables (N : nat) (conv : (nat -> vec3) -> (nat -> vec3) -> option (list R * (nat -> vec3))) (k : pick) (mmax : nat -> R) (reg nu eps : R).
Definition prox_all (m : nat -> vec3) (j : nat) : vec3 := prox3 (prox k (mmax j) reg nu) (m j).
(** algorithm_history[algorithm_history != 0][-1] *)
Definition last_nonzero (h : list R) : option R := hd_error (rev (filter (fun x => if Req_EM_T x 0 then false else true) h)).
Fixpoint rs_loop (fuel : nat) (errors : list R) (m w : nat -> vec3) : rs_result :=
  match fuel with
  | O => RSDone errors m w
  | S fuel => match conv w m with
      | None => RSCrash
      | Some (h, m') => match last_nonzero h with
          | None => RSIndexError
          | Some e => let w' := prox_all m' in
              if Rlt_dec (sqrt (norm2 N (fun j => sub3 (m' j) (w' j)))) eps then RSDone (errors ++ [e]) m' w' else rs_loop fuel (errors ++ [e]) m' w'
          end
      end
  end.
(** py:236-242 *)
Definition rs_run (max_iter : nat) (m0 : nat -> vec3) : rs_result := rs_loop max_iter [] m0 (prox_all m0).
End RS.
