(** Model of ReducedCoilSet (src/simsopt/field/coilset.py:379-589): the degrees of freedom, the linear map to the free dofs of the CoilSet and
    the operations that change them.  Over the reals.  The CoilSet is seen through [cx], the value of coilset.x; an assignment
    coilset.x = v raises unless v has that length (optimizable.py:1047-1052).  The SVD and the finite difference jacobian are not computed:
    recalculate_reduced_basis takes their result as an argument.  Not modelled: plotting, the BiotSavart object, names. *)
From Coq Require Import Reals List Bool Arith.
From Verif Require Import VecAux CurveObjModel.
Import ListNotations.
Open Scope R_scope.

(** [cx]: coilset.x; [x0]: _coil_x0; [vh]: _vh_matrix by rows with [ncol] columns; [um]: _u_matrix by rows; [sd]: _s_diag;
    [nsv]: _nsv; [x], [free]: values and free status of the local DOFs *)
Record rcs := RCS { cx : list R; x0 : list R; vh : list (list R); ncol : nat; um : list (list R); sd : list R; nsv : nat; x : list R; free : list bool }.

(** np.eye *)
Definition eye (n : nat) : list (list R) := map (fun i => map (fun j => if (i =? j)%nat then 1 else 0) (seq 0 n)) (seq 0 n).
(** coilset.py:400-435 __init__.  [coil]: coilset.x; [svd] = None: none of the three matrices given (giving some but not all raises,
    coilset.py:411-413); otherwise u, s, vh and the number of columns of vh *)
Definition new (coil : list R) (k : option nat) (svd : option (list (list R) * list R * list (list R) * nat)) : option rcs :=
  let k := match k with Some k => k | None => length coil end in
  match svd with
  | None => if (length coil <? k)%nat then None else Some (RCS coil coil (eye k) k (eye k) (repeat 1 k) k (repeat 0 k) (repeat true k))
  | Some (u, s, v, c) => if (length s <? k)%nat then None else Some (RCS coil coil v c u s k (repeat 0 k) (repeat true k))
  end.

(** row vector times matrix; numpy raises if the number of rows differs *)
Definition vecmul (r : list R) (m : list (list R)) (c : nat) : option (list R) :=
  if (length r =? length m)%nat then Some (map (fun j => sum_to (length m) (fun i => nth i r 0 * nth j (nth i m []) 0)) (seq 0 c)) else None.
(** numpy sum of two vectors with broadcasting *)
Definition vadd (a b : list R) : option (list R) :=
  if (length a =? length b)%nat then Some (map (fun j => nth j a 0 + nth j b 0) (seq 0 (length a)))
  else if (length b =? 1)%nat then Some (map (fun u => u + nth 0 b 0) a) else if (length a =? 1)%nat then Some (map (fun u => nth 0 a 0 + u) b) else None.
(** coilset.py:583-589 set_dofs: the new value of coilset.x, None if an exception is raised.  np.pad raises for a negative width *)
Definition target (s : rcs) (v : list R) : option (list R) :=
  if negb (length v =? nsv s)%nat then None
  else if (length (x0 s) <? nsv s)%nat then None
  else match vecmul (v ++ repeat 0 (length (x0 s) - nsv s)) (vh s) (ncol s) with
       | None => None
       | Some d => match vadd (x0 s) d with None => None | Some c => if (length c =? length (cx s))%nat then Some c else None end
       end.
(** DOFs._flag_recompute_opt (optimizable.py:154-165) calls set_dofs with all local dofs after they have been stored: if set_dofs raises, the
    stored values stay.  The boolean says whether the operation returned normally *)
Definition store (s : rcs) (v : list R) : rcs * bool :=
  match target s v with
  | Some c => (RCS c (x0 s) (vh s) (ncol s) (um s) (sd s) (nsv s) v (free s), true)
  | None => (RCS (cx s) (x0 s) (vh s) (ncol s) (um s) (sd s) (nsv s) v (free s), false)
  end.
(** self.x of the reduced set: the free dofs (it has no parents) *)
Definition free_x (s : rcs) : list R := map fst (filter snd (combine (x s) (free s))).
(** values at the free positions replaced by [v] *)
Fixpoint put_free (fr : list bool) (v w : list R) : list R :=
  match fr, w with
  | true :: fr, _ :: w0 => match v with a :: v => a :: put_free fr v w0 | [] => w end
  | false :: fr, b :: w => b :: put_free fr v w
  | _, _ => w
  end.
(** rcs.x = v *)
Definition set_x (s : rcs) (v : list R) : rcs * bool :=
  if negb (length v =? length (free_x s))%nat then (s, false) else store s (put_free (free s) v (x s)).
(** rcs.full_x = v for a vector of the right length *)
Definition set_full (s : rcs) (v : list R) : rcs * bool := if negb (length v =? length (x s))%nat then (s, false) else store s v.
(** rcs.fix(i), rcs.unfix(i) *)
Definition set_free (s : rcs) (i : nat) (b : bool) : rcs * bool :=
  if (i <? length (free s))%nat then (RCS (cx s) (x0 s) (vh s) (ncol s) (um s) (sd s) (nsv s) (x s) (map (fun j => if (j =? i)%nat then b else nth j (free s) true) (seq 0 (length (free s)))), true) else (s, false).
(** rcs.coilset.x = v, made by the user *)
Definition set_coil (s : rcs) (v : list R) : rcs * bool :=
  if negb (length v =? length (cx s))%nat then (s, false) else (RCS v (x0 s) (vh s) (ncol s) (um s) (sd s) (nsv s) (x s) (free s), true).
(** coilset.py:534-547 nsv setter; k = None: 'nonzero'.  x[:len(self.x)] = self.x[:len(x)]; replace_dofs does not call the setter *)
Definition set_nsv (s : rcs) (k : option nat) : rcs * bool :=
  let k := match k with Some k => k | None => length (sd s) end in
  if (length (sd s) <? k)%nat then (s, false)
  else (RCS (cx s) (x0 s) (vh s) (ncol s) (um s) (sd s) k (firstn k (free_x s) ++ repeat 0 (k - length (free_x s))) (repeat true k), true).
(** coilset.py:456-475 recalculate_reduced_basis, given the SVD of the new jacobian *)
Definition recalc (s : rcs) (u : list (list R)) (d : list R) (v : list (list R)) (c : nat) : rcs * bool :=
  let (s', ok) := set_nsv s (Some (Nat.min (nsv s) (length d))) in
  if ok then (RCS (cx s') (cx s') v c u d (nsv s') (repeat 0 (nsv s')) (repeat true (nsv s')), true) else (s', false).
(** coilset.py:549-568 *)
Definition rsv (s : rcs) : list (list R) := map (fun i => nth i (vh s) []) (seq 0 (nsv s)).
Definition singular_values (s : rcs) : list R := firstn (nsv s) (sd s).

Inductive op := SetX (v : list R) | SetFull (v : list R) | SetFree (i : nat) (b : bool) | SetCoil (v : list R) | SetNsv (k : option nat) | Recalc (u : list (list R)) (d : list R) (v : list (list R)) (c : nat).
Definition step (s : rcs) (o : op) : rcs :=
  fst (match o with SetX v => set_x s v | SetFull v => set_full s v | SetFree i b => set_free s i b | SetCoil v => set_coil s v | SetNsv k => set_nsv s k | Recalc u d v c => recalc s u d v c end).
Definition run (s : rcs) (os : list op) : rcs := fold_left step os s.
