(** Model of src/simsopt/mhd/profiles.py: radial profiles built from other profiles.

    Simplifications: arithmetic is over the reals; a profile is evaluated at one [s] (numpy evaluates
    a whole array pointwise); a profile object is represented by the tree of the objects it was built
    from -- no profile class caches anything, so an object shared between two places (the [nH = ne]
    of the ProfilePressure docstring) is read at its current dofs in both, like two equal trees;
    scipy's spline is a pair of functions (value, derivative).  [None] stands for a raised exception. *)
From Coq Require Import Reals List ZArith Lia Lra.
Import ListNotations.
From Verif Require Import VecAux.
Open Scope R_scope.

Inductive profile :=
| PPolynomial (c : list R)                         (* profiles.py:154-156, local_full_x = c *)
| PScaled (base : profile) (scalefac : R)          (* profiles.py:177-184 *)
| PSpline (value deriv : R -> R)                   (* profiles.py:211-215 *)
| PPressure (parents : list profile).              (* profiles.py:270-277 *)

(** numpy.polynomial.polynomial.polyval: [c0 = c[-1]; for i in 2..len: c0 = c[-i] + c0*x]
    (used at profiles.py:160) *)
Definition polyval (x : R) (c : list R) : option R :=
  match rev c with
  | [] => None
  | c0 :: r => Some (fold_left (fun acc ci => ci + acc * x) r c0)
  end.

(** numpy.polynomial.polynomial.polyder, m = 1: [c[:1]*0] for a single coefficient,
    otherwise [der[j-1] = j*c[j]] (used at profiles.py:164) *)
Definition polyder (c : list R) : list R :=
  match c with
  | [] => []
  | [a] => [a * 0]
  | _ => map (fun j => INR j * nth j c 0) (seq 1 (length c - 1))
  end.

(** profiles.py:270-277 ProfilePressure.__init__: the number of parents must be even and positive *)
Definition new_pressure (args : list profile) : option profile :=
  if Nat.eqb (length args) 0 then None
  else if Nat.eqb (Nat.modulo (length args) 2) 1 then None
  else Some (PPressure args).

Definition omap2 (f : R -> R -> R) (a b : option R) : option R :=
  match a, b with Some x, Some y => Some (f x y) | _, _ => None end.



(** [f] and [dfds] of every class: ProfilePolynomial 158-164, ProfileScaled 186-192,
    ProfileSpline 217-225, ProfilePressure 279-292. . *)
Fixpoint pf (p : profile) (s : R) {struct p} : option R :=
  match p with
  | PPolynomial c => polyval s c
  | PScaled b k => omap2 Rmult (Some k) (pf b s)
  | PSpline v _ => Some (v s)
  | PPressure ps =>
      (fix loop (total : option R) (l : list profile) : option R :=
         match l with
         | a :: l1 =>
             match l1 with
             | b :: r => loop (omap2 Rplus total (omap2 Rmult (pf a s) (pf b s))) r
             | [] => total
             end
         | [] => total
         end) (Some 0) ps
  end.

Fixpoint pdfds (p : profile) (s : R) {struct p} : option R :=
  match p with
  | PPolynomial c => polyval s (polyder c)
  | PScaled b k => omap2 Rmult (Some k) (pdfds b s)
  | PSpline _ d => Some (d s)
  | PPressure ps =>
      (fix loop (total : option R) (l : list profile) : option R :=
         match l with
         | a :: l1 =>
             match l1 with
             | b :: r => loop (omap2 Rplus total
                                 (omap2 Rplus (omap2 Rmult (pf a s) (pdfds b s))
                                              (omap2 Rmult (pdfds a s) (pf b s)))) r
             | [] => total
             end
         | [] => total
         end) (Some 0) ps
  end.

(** * ProfileSpec (profiles.py:60-139): one value per volume *)

(** python int() of a float: truncation towards zero *)
Definition trunc (x : R) : Z :=
  if Rle_dec 0 x then Int_part x else (- Int_part (- x))%Z.

(** numpy indexing with an integer: negative indices count from the end *)
Definition pyindex (x : list R) (i : Z) : option R :=
  let n := Z.of_nat (length x) in
  if ((0 <=? i) && (i <? n))%Z then nth_error x (Z.to_nat i)
  else if ((- n <=? i) && (i <? 0))%Z then nth_error x (Z.to_nat (i + n))
  else None.

(** profiles.py:78-100 ProfileSpec.f *)
Definition spec_f (x : list R) (lvol : R) : option R :=
  let l := trunc lvol in
  if (l <? 0)%Z then None
  else if (Z.of_nat (length x) <=? l)%Z then None
  else pyindex x l.

(** profiles.py:102-139 ProfileSpec.dfds *)
Definition spec_dfds (x : list R) (psi_edge : option R) (lvol : R) : option R :=
  let l := trunc lvol in
  if (l <? 0)%Z then None
  else if (Z.of_nat (length x) - 1 <=? l)%Z then None
  else match psi_edge with
       | None => None
       | Some e => omap2 (fun o i => (o - i) * e) (pyindex x l) (pyindex x (l - 1))
       end.
