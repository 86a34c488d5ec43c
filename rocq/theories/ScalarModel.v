(** Model of ScalarPotentialRZMagneticField (src/simsopt/field/magneticfieldclasses.py:238-329) at one point, over exact reals.
    The parsed string is an expression tree; sympy's diff (outside this repository) is the usual symbolic derivative [diff], without
    simplification, and lambdify is evaluation [ev].  Real powers other than natural ones, and functions other than sin, cos, exp, log and sqrt,
    are not modelled; neither are parsing and json. *)
From Coq Require Import Reals List.
From Verif Require Import Vec3 PointsModel FieldAModel.
Import ListNotations.
Open Scope R_scope.

(** expressions in the cylindrical coordinates *)
Inductive expr := Cst (c : R) | VR | VPhi | VZ | Add (a b : expr) | Sub (a b : expr) | Mul (a b : expr) | Div (a b : expr) | Pow (a : expr) (n : nat)
  | Sin (a : expr) | Cos (a : expr) | Exp (a : expr) | Log (a : expr) | Sqrt (a : expr).
(** lambdify; the arguments are R, phi, Z *)
Fixpoint ev (e : expr) (r f z : R) : R := match e with
  | Cst c => c | VR => r | VPhi => f | VZ => z
  | Add a b => ev a r f z + ev b r f z | Sub a b => ev a r f z - ev b r f z | Mul a b => ev a r f z * ev b r f z | Div a b => ev a r f z / ev b r f z
  | Pow a n => ev a r f z ^ n | Sin a => sin (ev a r f z) | Cos a => cos (ev a r f z) | Exp a => exp (ev a r f z) | Log a => ln (ev a r f z) | Sqrt a => sqrt (ev a r f z)
  end.
Inductive var := R_ | Phi_ | Z_.
(** sympy's diff *)
Fixpoint diff (v : var) (e : expr) : expr := match e with
  | Cst _ => Cst 0
  | VR => Cst (match v with R_ => 1 | _ => 0 end) | VPhi => Cst (match v with Phi_ => 1 | _ => 0 end) | VZ => Cst (match v with Z_ => 1 | _ => 0 end)
  | Add a b => Add (diff v a) (diff v b) | Sub a b => Sub (diff v a) (diff v b)
  | Mul a b => Add (Mul (diff v a) b) (Mul a (diff v b))
  | Div a b => Div (Sub (Mul (diff v a) b) (Mul a (diff v b))) (Mul b b)
  | Pow a n => match n with O => Cst 0 | S m => Mul (Mul (Cst (INR n)) (Pow a m)) (diff v a) end
  | Sin a => Mul (Cos a) (diff v a) | Cos a => Sub (Cst 0) (Mul (Sin a) (diff v a)) | Exp a => Mul (Exp a) (diff v a)
  | Log a => Div (diff v a) a | Sqrt a => Div (diff v a) (Mul (Cst 2) (Sqrt a)) end.

Section Field.
Variable phi_parsed : expr.
(** the constant 1e-30 of every entry *)
Definition tiny : R := / 10 ^ 30.
Definition pad : expr := Mul (Mul (Mul (Cst tiny) VPhi) VR) VZ.
(** magneticfieldclasses.py:262-264 *)
Definition Blambdify (r z f : R) (c : nat) : R := ev (nth c [Add (diff R_ phi_parsed) pad; Add (Div (diff Phi_ phi_parsed) VR) pad; Add (diff Z_ phi_parsed) pad] (Cst 0)) r f z.
(** 265-275 *)
Definition dBlambdify_by_dX (r z f : R) (i c : nat) : R := let sinphi := Sin VPhi in let cosphi := Cos VPhi in
  ev (nth c (nth i
  [[Sub (Add pad (Mul cosphi (diff R_ (diff R_ phi_parsed)))) (Mul (Div sinphi VR) (diff Phi_ (diff R_ phi_parsed)));
    Sub (Add pad (Mul cosphi (diff R_ (Div (diff Phi_ phi_parsed) VR)))) (Mul (Div sinphi VR) (diff Phi_ (Div (diff Phi_ phi_parsed) VR)));
    Sub (Add pad (Mul cosphi (diff R_ (diff Z_ phi_parsed)))) (Mul (Div sinphi VR) (diff Phi_ (diff Z_ phi_parsed)))];
   [Add (Add pad (Mul sinphi (diff R_ (diff R_ phi_parsed)))) (Mul (Div cosphi VR) (diff Phi_ (diff R_ phi_parsed)));
    Add (Add pad (Mul sinphi (diff R_ (Div (diff Phi_ phi_parsed) VR)))) (Mul (Div cosphi VR) (diff Phi_ (Div (diff Phi_ phi_parsed) VR)));
    Add (Add pad (Mul sinphi (diff R_ (diff Z_ phi_parsed)))) (Mul (Div cosphi VR) (diff Phi_ (diff Z_ phi_parsed)))];
   [Add pad (diff Z_ (diff R_ phi_parsed)); Add pad (diff Z_ (Div (diff Phi_ phi_parsed) VR)); Add pad (diff Z_ (diff Z_ phi_parsed))]] []) (Cst 0)) r f z.
(** 277-287 *)
Definition sp_B (p : vec3) : vec3 := let r := rad p in let z := vz p in let phi := atan2 (vy p) (vx p) in let B_cyl := Blambdify r z phi in
  V3 (B_cyl 0%nat * cos phi - B_cyl 1%nat * sin phi) (B_cyl 0%nat * sin phi + B_cyl 1%nat * cos phi) (B_cyl 2%nat).
(** 289-323 *)
Definition sp_dB (p : vec3) (j l : nat) : R := let x := vx p in let y := vy p in let r := rad p in let z := vz p in let phi := atan2 y x in let dB_cyl := dBlambdify_by_dX r z phi in
  let dBrdx := dB_cyl 0%nat 0%nat in let dBrdy := dB_cyl 1%nat 0%nat in let dBrdz := dB_cyl 2%nat 0%nat in
  let dBphidx := dB_cyl 0%nat 1%nat in let dBphidy := dB_cyl 1%nat 1%nat in let dBphidz := dB_cyl 2%nat 1%nat in
  let dcosphidx := - x ^ 2 / r ^ 3 + 1 / r in let dsinphidx := - x * y / r ^ 3 in let dcosphidy := - x * y / r ^ 3 in let dsinphidy := - y ^ 2 / r ^ 3 + 1 / r in
  let Br := Blambdify r z phi 0%nat in let Bphi := Blambdify r z phi 1%nat in
  at2 [[dBrdx * cos phi + Br * dcosphidx - dBphidx * sin phi - Bphi * dsinphidx; dBrdx * sin phi + Br * dsinphidx + dBphidx * cos phi + Bphi * dcosphidx; dB_cyl 0%nat 2%nat];
       [dBrdy * cos phi + Br * dcosphidy - dBphidy * sin phi - Bphi * dsinphidy; dBrdy * sin phi + Br * dsinphidy + dBphidy * cos phi + Bphi * dcosphidy; dB_cyl 1%nat 2%nat];
       [dBrdz * cos phi - dBphidz * sin phi; dBrdz * sin phi + dBphidz * cos phi; dB_cyl 2%nat 2%nat]] j l.
End Field.
