(** Model of create_equally_spaced_curves (src/simsopt/geo/curve.py:851-885) and of CoilSet.for_surface (src/simsopt/field/coilset.py:81-118), over
    the reals.  The curves are CurveXYZFourier (CurveModel); only their data at the quadrature points is kept. *)
From Coq Require Import Reals List Bool Arith.
From Verif Require Import Vec3 BSModel CoilModel CurveModel.
Import ListNotations.
Open Scope R_scope.
(** curve.py:874 *)
Definition eq_angle (ncurves nfp : nat) (stellsym : bool) (i : nat) : R := (INR i + / 2) * (2 * PI) / ((1 + (if stellsym then 1 else 0)) * INR nfp * INR ncurves).
(** curve.py:873-882; a new CurveXYZFourier has zero dofs; dofs[c][0] is the constant, dofs[c][2 j - 1] the sine and dofs[c][2 j] the cosine of mode j *)
Definition eq_table (a R0 R1 : R) : table := put (put (put (put (put (fun _ _ => 0) 0 0 (cos a * R0)) 0 2 (cos a * R1)) 1 0 (sin a * R0)) 1 2 (sin a * R1)) 2 1 (- R1).
(** gamma and gammadash of curve i at the quadrature points [qs]; curve.set raises if order = 0, there is no xc(1) *)
Definition eq_curves (ncurves nfp : nat) (stellsym : bool) (R0 R1 : R) (order : nat) (qs : list R) : option (nat -> list qpt) :=
  if (order =? 0)%nat && negb (ncurves =? 0)%nat then None
  else Some (fun i => map (fun t => (xyz_gamma order (eq_table (eq_angle ncurves nfp stellsym i) R0 R1) t, xyz_gammadash order (eq_table (eq_angle ncurves nfp stellsym i) R0 R1) t)) qs).
(** coilset.py:104-118 with the default nfp: the curves are made with [use_stellsym] (default: that of the surface, 197-200), the coils
    always with stellsym=True; all currents are [cur] *)
Definition for_surface (coils_per_period nfp : nat) (surf_stellsym : bool) (use_stellsym : option bool) (R0 R1 cur : R) (order : nat) (qs : list R) : option (list (R * list qpt)) :=
  match eq_curves coils_per_period nfp (match use_stellsym with Some b => b | None => surf_stellsym end) R0 R1 order qs with
  | None => None
  | Some ce => match coils_via_symmetries (map CBase (seq 0 coils_per_period)) (map Cur (seq 0 coils_per_period)) nfp true with
               | None => None | Some coils => Some (map (coil_data ce (fun _ => cur)) coils) end
  end.
