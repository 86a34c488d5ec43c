(** Model of the Regularized Constrained Least Squares solver for wireframes,
    src/simsopt/solve/wireframe_optimization.py (pinned commit).
    Real arithmetic replaces doubles.  The two LAPACK factorizations (scipy.linalg.qr, scipy.linalg.lstsq) are
    parameters of the functions; what is assumed of their result is in RCLSProps.v.  scipy.linalg.solve_triangular
    is modelled by forward substitution. *)
From Coq Require Import Reals List Bool Arith.
From Verif Require Import ListAux VecAux CurveObjModel WFModel.
Import ListNotations.
Open Scope R_scope.

Definition vec := nat -> R.
Definition mat := nat -> nat -> R.
(** M @ x for a matrix with n columns; M.T @ x for a matrix with m rows *)
Definition mv (n : nat) (M : mat) (x : vec) : vec := fun i => sum_to n (fun j => M i j * x j).
Definition mtv (m : nat) (M : mat) (x : vec) : vec := fun j => sum_to m (fun i => M i j * x i).
(** M @ N where M has n columns; M.T @ N where M has m rows *)
Definition mm (n : nat) (M N : mat) : mat := fun i k => sum_to n (fun j => M i j * N j k).
Definition mtm (m : nat) (M N : mat) : mat := fun j k => sum_to m (fun i => M i j * N i k).
Definition eye : mat := fun i j => if (i =? j)%nat then 1 else 0.

Inductive rerr := RValue | RLinAlg | RRuntime | RWire (e : err).

(** scipy.linalg.solve_triangular(L, d, lower=True): trtrs refuses an exactly zero diagonal entry, then substitutes forward; only the lower triangle is read *)
Fixpoint forward (L : mat) (d : vec) (p : nat) : vec :=
  match p with
  | O => fun _ => 0
  | S k => let u := forward L d k in fun i => if (i =? k)%nat then (d k - sum_to k (fun j => L k j * u j)) / L k k else u i
  end.
Definition zero_diag (p : nat) (L : mat) : bool := existsb (fun i => if Req_EM_T (L i i) 0 then true else false) (seq 0 p).
Definition solve_triangular (p : nat) (L : mat) (d : vec) : vec + rerr := if zero_diag p L then inr RLinAlg else inl (forward L d p).

(** the argument W: a number, or an array of any shape with its entries in row-major order *)
Inductive warg := WScalar (c : R) | WArray (shape : list nat) (data : nat -> R).
(** py:772-787: the regularization matrix used for n unknowns; np.squeeze drops the axes of length one *)
Definition wmat (n : nat) (W : warg) : mat + rerr :=
  match W with
  | WScalar c => inl (fun i j => c * eye i j)
  | WArray shape data =>
    match filter (fun k => negb (k =? 1)%nat) shape with
    | [k] => if (k =? n)%nat then inl (fun i j => if (i =? j)%nat then data i else 0) else inr RValue
    | [r; c] => if (r =? n)%nat && (c =? n)%nat then inl (fun i j => data (i * n + j)%nat) else inr RValue
    | _ => inr RValue
    end
  end.

Section Solver.
(** scipy.linalg.qr of a matrix with n rows and p columns through _qr_factorization_wrapper (py:819-854; None: not finite twice), and scipy.linalg.lstsq(LHS, RHS)[0] for a q x q system *)
Variable qr : nat -> nat -> mat -> option (mat * mat).
Variable lstsq : nat -> mat -> vec -> vec.
(** py:718-816 regularized_constrained_least_squares for A: m x n, b: mb entries, C: p x nC, d: pd entries *)
Definition rcls (m n : nat) (A : mat) (mb : nat) (b : vec) (W : warg) (p nC : nat) (C : mat) (pd : nat) (d : vec) : vec + rerr :=
  if negb (mb =? m)%nat then inr RValue
  else if negb (nC =? n)%nat then inr RValue
  else if negb (pd =? p)%nat then inr RValue
  else match wmat n W with
  | inr e => inr e
  | inl Wm =>
    match qr n p (fun i k => C k i) with
    | None => inr RRuntime
    | Some (Q, Rt) =>
      if (n <? p)%nat then inr RValue   (* Rtall[:p,:] is not square *)
      else
      let Q1 := Q in                                (* columns below p *)
      let Q2 := fun i j => Q i (p + j)%nat in       (* the n - p others *)
      match solve_triangular p (fun i j => Rt j i) d with
      | inr e => inr e
      | inl u =>
        let AQ2 := mm n A Q2 in
        let WQ2 := mm n Wm Q2 in
        let LHS := fun j k => mtm m AQ2 AQ2 j k + mtm n WQ2 WQ2 j k in
        let AQ1u := mv p (mm n A Q1) u in
        let WQ1u := mv p (mm n Wm Q1) u in
        let RHS := fun j => mtv m AQ2 b j - mtv m AQ2 AQ1u j - mtv n WQ2 WQ1u j in
        let v := lstsq (n - p) LHS RHS in
        inl (mv n Q (fun j => if (j <? p)%nat then u j else v (j - p)%nat))
      end
    end
  end.

Section Wire.
Variables (nt np : nat).
Variable pick : list nat -> nat.
(** the regularization argument of rcls_wireframe: a number, an array with n_segments entries, or a square one (other sizes are not modelled) *)
Inductive wreg := GScalar (c : R) | GVec (w : nat -> R) | GMat (w : mat).
(** py:507-518: W[free_segs] for one axis; W[free_segs, free_segs] for two, which numpy reads as the list of entries W[s, s] *)
Definition wfree (free : list nat) (W : wreg) : warg :=
  match W with
  | GScalar c => WScalar c
  | GVec w => WArray [length free] (fun i => w (nth i free 0%nat))
  | GMat w => WArray [length free] (fun i => w (nth i free 0%nat) (nth i free 0%nat))
  end.
(** py:539-544: the regularization objective that is reported *)
Definition reported_reg (W : wreg) (x : vec) : R :=
  match W with
  | GScalar c => 1 / 2 * c ^ 2 * sum_to (nseg nt np) (fun s => x s ^ 2)
  | GVec w => 1 / 2 * sum_to (nseg nt np) (fun s => (w s * x s) ^ 2)
  | GMat w => 1 / 2 * sum_to (nseg nt np) (fun s => mv (nseg nt np) w x s ^ 2)
  end.
(** the position of a segment in the list of free ones *)
Fixpoint position (s : nat) (l : list nat) : option nat :=
  match l with [] => None | t :: l' => if (s =? t)%nat then Some O else option_map S (position s l') end.
(** py:530-535: x = 0 except x[free_segs] = xfree *)
Definition spread_out (free : list nat) (xf : vec) : vec := fun s => match position s free with Some i => xf i | None => 0 end.
Record rout := { ro_state : wst; ro_currents : option vec; ro_err : option rerr; ro_x : vec; ro_fB : R; ro_fR : R; ro_f : R }.
Definition rfail (w : wst) (e : rerr) : rout := {| ro_state := w; ro_currents := None; ro_err := Some e; ro_x := fun _ => 0; ro_fB := 0; ro_fR := 0; ro_f := 0 |}.
(** py:453-547 rcls_wireframe, for a matrix with m test points; ro_currents is what is written to wframe.currents, None if it is left alone.
    constraint_matrices and unconstrained_segments both bring the implied constraints up to date; the second time nothing changes *)
Definition rcls_wireframe (fuel m : nat) (A : mat) (b : vec) (W : wreg) (no_crossings : bool) (w : wst) : option rout :=
  match constraint_matrices nt np pick fuel true true no_crossings w with
  | None => None
  | Some ((w, Some e), _) => Some (rfail w (RWire e))
  | Some ((w, None), (rows, _)) =>
    let free := unconstrained nt np w in
    let n := length free in
    let p := length rows in
    if (n <=? p)%nat then Some (rfail w RValue)
    else
    let seg i := nth i free 0%nat in
    let dflt := C (CUser 0) (fun _ => 0) 0 in
    match rcls m n (fun i j => A i (seg j)) m b (wfree free W) p n (fun k j => crow (nth k rows dflt) (seg j)) p (fun k => cst (nth k rows dflt)) with
    | inr e => Some (rfail w e)
    | inl xf =>
      let x := spread_out free xf in
      let fB := 1 / 2 * sum_to m (fun i => (mv (nseg nt np) A x i - b i) ^ 2) in
      let fR := reported_reg W x in
      Some {| ro_state := w; ro_currents := Some x; ro_err := None; ro_x := x; ro_fB := fB; ro_fR := fR; ro_f := fB + fR |}
    end
  end.
End Wire.
End Solver.
