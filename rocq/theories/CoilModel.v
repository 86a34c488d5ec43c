(** Model of src/simsopt/field/coil.py 17-187 (Coil, the current classes, coils_via_symmetries) and of
    RotatedCurve, src/simsopt/geo/curve.py 614-790.  Objects are trees; base curves and base currents are
    identified by numbers and their data is given by an environment, so one tree is evaluated at any dofs. *)
From Verif Require Import Vec3 BSModel.
Open Scope R_scope.

(** ** currents: coil.py:77-137 *)
Inductive current := Cur (id : nat) | CScaled (c : current) (scale : R) | CSum (a b : current).
(** 103-104, 119-120, 134-135 get_value *)
Fixpoint cur_value (env : nat -> R) (c : current) : R :=
  match c with Cur id => env id | CScaled c s => s * cur_value env c | CSum a b => cur_value env a + cur_value env b end.
(** Derivative as a dictionary from base currents to numbers: derivative.py __add__ (adds at a common key, appends
    otherwise) and __mul__; the heap version with aliasing is in DerivModel *)
Definition cder := list (nat * R).
Fixpoint dput (k : nat) (v : R) (d : cder) : cder :=
  match d with [] => [(k, v)] | (k', v') :: r => if Nat.eqb k' k then (k', v' + v) :: r else (k', v') :: dput k v r end.
Definition dmerge (a b : cder) : cder := fold_left (fun acc kv => dput (fst kv) (snd kv) acc) b a.
Definition dscale (c : R) (d : cder) : cder := map (fun kv => (fst kv, c * snd kv)) d.
Fixpoint dget (k : nat) (d : cder) : R := match d with [] => 0 | (k', v) :: r => if Nat.eqb k' k then v else dget k r end.
(** 100-101, 116-117, 131-132 vjp *)
Fixpoint cur_vjp (c : current) (v : R) : cder :=
  match c with Cur id => [(id, v)] | CScaled c s => dscale s (cur_vjp c v) | CSum a b => dmerge (cur_vjp a v) (cur_vjp b v) end.
(** 46-70: the operators *)
Definition c_mul (c : current) (s : R) : current := CScaled c s.
Definition c_div (c : current) (s : R) : option current := if Req_EM_T s 0 then None else Some (CScaled c (1 / s)).
Definition c_neg (c : current) : current := CScaled c (-1).
Definition c_add (a b : current) : current := CSum a b.
Definition c_sub (a b : current) : current := CSum a (c_neg b).
(** 72-76 __radd__ under python's sum: 0 + c is c, then __add__; the sum of no currents is the number 0 *)
Definition c_pysum (l : list current) : option current := match l with [] => None | c :: r => Some (fold_left c_add r c) end.

(** ** curves: CBase is any curve without a parent, CRot is RotatedCurve *)
Inductive curve := CBase (id : nat) | CRot (c : curve) (phi : R) (flip : bool).
(** curve.py:626-634 rotmat *)
Definition rotmat (phi : R) (flip : bool) : mat3 :=
  let m := transp (M3 (V3 (cos phi) (- sin phi) 0) (V3 (sin phi) (cos phi) 0) (V3 0 0 1)) in
  if flip then matmat m (M3 (V3 1 0 0) (V3 0 (-1) 0) (V3 0 0 (-1))) else m.
(** 657-680 gamma, gammadash: data @ rotmat (row by row) *)
Fixpoint curve_data (env : nat -> list qpt) (c : curve) : list qpt :=
  match c with
  | CBase id => env id
  | CRot c phi flip => map (fun q => (vecmat (fst q) (rotmat phi flip), vecmat (snd q) (rotmat phi flip))) (curve_data env c)
  end.
(** 786-788 the property flip *)
Definition rot_flip (phi : R) (flip : bool) : bool := if Req_EM_T (vz (row2 (rotmat phi flip))) (-1) then true else false.
(** 734-760 dgamma_by_dcoeff_vjp and dgammadash_by_dcoeff_vjp: v @ rotmatT is passed down to the base curve *)
Fixpoint curve_pull (c : curve) (v : list vec3) : nat * list vec3 :=
  match c with CBase id => (id, v) | CRot c phi flip => curve_pull c (map (fun a => vecmat a (transp (rotmat phi flip))) v) end.

(** ** coils_via_symmetries: coil.py:139-187 *)
Definition flips (ss : bool) : list bool := if ss then [false; true] else [false].
Definition sym_curves (base : list curve) (nfp : nat) (ss : bool) : list curve :=
  flat_map (fun k => flat_map (fun flip : bool => map (fun c =>
    if Nat.eqb k 0 && negb flip then c else CRot c (2 * PI * INR k / INR nfp) flip) base) (flips ss)) (seq 0 nfp).
Definition sym_currents (base : list current) (nfp : nat) (ss : bool) : list current :=
  flat_map (fun k : nat => flat_map (fun flip : bool => map (fun c => if flip then CScaled c (-1) else c) base) (flips ss)) (seq 0 nfp).
Definition coils_via_symmetries (cs : list curve) (is : list current) (nfp : nat) (ss : bool) : option (list (curve * current)) :=
  if Nat.eqb (length cs) (length is) then Some (combine (sym_curves cs nfp ss) (sym_currents is nfp ss)) else None.
(** a coil's quadrature data and current, as seen by BiotSavart *)
Definition coil_data (ce : nat -> list qpt) (ie : nat -> R) (coil : curve * current) : R * list qpt :=
  (cur_value ie (snd coil), curve_data ce (fst coil)).
