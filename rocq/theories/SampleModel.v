(** Model of rejection sampling on curves and surfaces (src/simsopt/field/sampling.py) over exact reals.
    The random numbers are inputs: [attempts] lists, for attempt 0, 1, ..., the index drawn by np.random.randint
    and the number drawn by np.random.uniform.  A surface is given by the grids of its points and of the norms of its
    normals, as functions of the two indices. *)
From Coq Require Import Reals List Bool Arith.
From Verif Require Import CurveObjModel.
Import ListNotations.
Open Scope R_scope.

Inductive outcome (A : Type) : Type := AssertionError : outcome A | Points : A -> outcome A.
Arguments AssertionError {A}.
Arguments Points {A} _.

(** np.max(alen): sampling.py:17, 42 *)
Definition np_max (l : list R) : R := fold_right Rmax (hd 0 l) l.
(** np.where(u < alen[idxs]/M)[0], then idxs[accept]: sampling.py:20, 45 and 22, 47.  The indices of the accepted attempts, in order. *)
Definition accepted (weights : list R) (attempts : list (nat * R)) : list nat :=
  map fst (filter (fun a => if Rlt_dec (snd a) (nth (fst a) weights 0 / np_max weights) then true else false) attempts).
(** np.sort on integers *)
Fixpoint insert_nat (x : nat) (l : list nat) : list nat := match l with [] => [x] | y :: r => if (x <=? y)%nat then x :: l else y :: insert_nat x r end.
Definition np_sort (l : list nat) : list nat := fold_right insert_nat [] l.
(** number of attempts: sampling.py:18, 43.  The argument safetyfactor is not used. *)
Definition nattempts (nsamples safetyfactor : nat) : nat := (10 * nsamples)%nat.
(** sampling.py:21-22, 46-47: assert len(accept) > nsamples; idxs = np.sort(idxs[accept[:nsamples]]) *)
Definition draw_indices (weights : list R) (nsamples : nat) (attempts : list (nat * R)) : outcome (list nat) :=
  let acc := accepted weights attempts in
  if (nsamples <? length acc)%nat then Points (np_sort (firstn nsamples acc)) else AssertionError.
(** sampling.py:4-24 *)
Definition draw_uniform_on_curve {P : Type} (alen : list R) (gamma : nat -> P) (nsamples : nat) (attempts : list (nat * R)) : outcome (list P * list nat) :=
  match draw_indices alen nsamples attempts with AssertionError => AssertionError | Points idxs => Points (map gamma idxs, idxs) end.
(** np.unravel_index(idxs, (nphi, ntheta), order): sampling.py:49-50 *)
Definition unravel (fortran : bool) (nphi ntheta idx : nat) : nat * nat := if fortran then (idx mod nphi, idx / nphi)%nat else (idx / ntheta, idx mod ntheta)%nat.
(** surface.normal().reshape((-1, 3)) and its norms: sampling.py:41 (C order whatever the memory layout) *)
Definition flat_weights (jac : nat -> nat -> R) (nphi ntheta : nat) : list R := flat_map (fun i => map (jac i) (seq 0 ntheta)) (seq 0 nphi).
(** sampling.py:27-52; fortran is np.isfortran(gamma) *)
Definition draw_uniform_on_surface {P : Type} (fortran : bool) (nphi ntheta : nat) (jac : nat -> nat -> R) (gamma : nat -> nat -> P) (nsamples : nat) (attempts : list (nat * R)) : outcome (list P * list (nat * nat)) :=
  match draw_indices (flat_weights jac nphi ntheta) nsamples attempts with AssertionError => AssertionError
  | Points idxs => let ij := map (unravel fortran nphi ntheta) idxs in Points (map (fun p => gamma (fst p) (snd p)) ij, ij) end.
