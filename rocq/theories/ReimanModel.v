(** Model of the Reiman model field (src/simsoptpp/reiman.cpp; Reiman in src/simsopt/field/magneticfieldclasses.py:801-843) at one point, over exact reals.
    pow with a real exponent is x^y = exp(y ln x), which is C's pow for x > 0 (that is, off the circle R = 1, Z = 0, where the code divides by
    zero or returns inf or nan for small modes).  Accumulation in a loop is a sum over the list of modes (k_theta, epsilon).  Not modelled: rounding, json. *)
From Coq Require Import Reals List ZArith.
From Verif Require Import VecAux Vec3 PointsModel FieldAModel.
Import ListNotations.
Open Scope R_scope.

Section Reiman.
Variables (iota0 iota1 : R) (modes : list (Z * R)) (m0 : Z).
Section Point.
Variables RR theta varphi ZZ : R.
Definition r_axis : R := 1.
Definition rmin : R := sqrt ((RR - r_axis) ^ 2 + ZZ ^ 2).
Definition ph (k : Z) : R := IZR k * theta - IZR m0 * varphi.
(** cpp:27-33 *)
Definition combo : R := iota0 + iota1 * rmin * rmin - rsuml (map (fun ke => let k := IZR (fst ke) in k * snd ke * Rpower rmin (k - 2) * cos (ph (fst ke))) modes).
Definition combo1 : R := rsuml (map (fun ke => let k := IZR (fst ke) in k * snd ke * Rpower rmin (k - 2) * sin (ph (fst ke))) modes).
(** cpp:35-37 *)
Definition BR : R := ((RR - r_axis) / RR) * combo1 + (ZZ / RR) * combo.
Definition BZ : R := - ((RR - r_axis) / RR) * combo + (ZZ / RR) * combo1.
Definition Bphi : R := -1.
(** cpp:68-84 *)
Definition dcombodR : R := 2 * iota1 * (RR - r_axis) - rsuml (map (fun ke => let k := IZR (fst ke) in k * Rpower rmin (k - 4) * snd ke * (k * ZZ * sin (ph (fst ke)) + (k - 2) * (RR - r_axis) * cos (ph (fst ke)))) modes).
Definition dcombodZ : R := 2 * iota1 * ZZ + rsuml (map (fun ke => let k := IZR (fst ke) in Rpower rmin (k - 4) * snd ke * k * (k * sin (ph (fst ke)) * (RR - r_axis) - (k - 2) * ZZ * cos (ph (fst ke)))) modes).
Definition dcombodphi : R := - rsuml (map (fun ke => let k := IZR (fst ke) in k * snd ke * Rpower rmin (k - 2) * sin (ph (fst ke)) * IZR m0) modes).
Definition dcombo1dR : R := rsuml (map (fun ke => let k := IZR (fst ke) in k * Rpower rmin (k - 4) * snd ke * (- k * ZZ * cos (ph (fst ke)) + (k - 2) * sin (ph (fst ke)) * (RR - r_axis))) modes).
Definition dcombo1dZ : R := rsuml (map (fun ke => let k := IZR (fst ke) in k * Rpower rmin (k - 4) * snd ke * (k * cos (ph (fst ke)) * (RR - r_axis) + (k - 2) * sin (ph (fst ke)) * ZZ)) modes).
Definition dcombo1dphi : R := - rsuml (map (fun ke => let k := IZR (fst ke) in k * snd ke * Rpower rmin (k - 2) * cos (ph (fst ke)) * IZR m0) modes).
(** cpp:90-98 *)
Definition dRBR : R := (- ZZ / RR ^ 2) * combo + (ZZ / RR) * dcombodR + combo1 * r_axis / RR ^ 2 + dcombo1dR * (RR - r_axis) / RR.
Definition dZBR : R := (1 / RR) * combo + (ZZ / RR) * dcombodZ + dcombo1dZ * (RR - r_axis) / RR.
Definition dphiBR : R := ((RR - r_axis) / RR) * dcombo1dphi + (ZZ / RR) * dcombodphi.
Definition dRBZ : R := (- r_axis / RR ^ 2) * combo - ((RR - r_axis) / RR) * dcombodR - combo1 * ZZ / RR ^ 2 + dcombo1dR * ZZ / RR.
Definition dZBZ : R := - ((RR - r_axis) / RR) * dcombodZ + combo1 * (1 / RR) + dcombo1dZ * ZZ / RR.
Definition dphiBZ : R := - ((RR - r_axis) / RR) * dcombodphi + (ZZ / RR) * dcombo1dphi.
Definition dRBphi : R := 0.
Definition dZBphi : R := 0.
Definition dphiBphi : R := 0.
End Point.
(** cpp:18-41 *)
Definition reiman_B (p : vec3) : vec3 := let RR := sqrt (vx p * vx p + vy p * vy p) in let cosphi := vx p / RR in let sinphi := vy p / RR in
  let varphi := atan2 (vy p) (vx p) in let theta := atan2 (vz p) (RR - r_axis) in
  let b := BR RR theta varphi (vz p) in V3 (b * cosphi - Bphi * sinphi) (b * sinphi + Bphi * cosphi) (BZ RR theta varphi (vz p)).
(** cpp:100-108 *)
Definition reiman_dB (p : vec3) (j l : nat) : R := let RR := sqrt (vx p * vx p + vy p * vy p) in let cosphi := vx p / RR in let sinphi := vy p / RR in
  let varphi := atan2 (vy p) (vx p) in let theta := atan2 (vz p) (RR - r_axis) in
  let BR := BR RR theta varphi (vz p) in let dRBR := dRBR RR theta varphi (vz p) in let dphiBR := dphiBR RR theta varphi (vz p) in let dZBR := dZBR RR theta varphi (vz p) in
  let dRBZ := dRBZ RR theta varphi (vz p) in let dphiBZ := dphiBZ RR theta varphi (vz p) in let dZBZ := dZBZ RR theta varphi (vz p) in
  at2 [[dRBR * cosphi * cosphi - (dphiBR - Bphi + dRBphi * RR) * cosphi * sinphi / RR + sinphi * sinphi * (dphiBphi + BR) / RR;
        sinphi * cosphi * (dRBR * RR - dphiBphi - BR) / RR + sinphi * sinphi * (Bphi - dphiBR) / RR + cosphi * cosphi * dRBphi;
        dRBZ * cosphi - dphiBZ * sinphi / RR];
       [sinphi * cosphi * (dRBR * RR - dphiBphi - BR) / RR + cosphi * cosphi * (dphiBR - Bphi) / RR - sinphi * sinphi * dRBphi;
        dRBR * sinphi * sinphi + (dphiBR - Bphi + dRBphi * RR) * cosphi * sinphi / RR + cosphi * cosphi * (dphiBphi + BR) / RR;
        dRBZ * sinphi + dphiBZ * cosphi / RR];
       [dZBR * cosphi - dZBphi * sinphi; dZBR * sinphi + dZBphi * cosphi; dZBZ]] j l.
End Reiman.
