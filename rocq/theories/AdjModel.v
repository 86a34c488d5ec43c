(** Model of boozer_surface_residual_dB and of the vector-Jacobian products built on it (src/simsopt/geo/surfaceobjectives.py:1049-1254),
    of the linearised system that solve_residual_equation_exactly_newton factorises (boozersurface.py:766-826) and of the gradients of
    Iotas, MajorRadius and BoozerResidual (surfaceobjectives.py:627-697, 881-1052).  Over the reals; arrays per quadrature point as in
    BoozSurf.v.  A 3x3 array indexed [k, l] (residual component k, field component l) is the mat3 with rows k; an array indexed
    [k, a, l] with a the direction of the gradient is a function of k giving the mat3 with rows a. *)
From Coq Require Import Reals Lra Lia List Bool.
From Verif Require Import VecAux Vec3 CurveObjModel BoozSurf AdjLin.
Import ListNotations.
Open Scope R_scope.

Definition rowk (m : mat3) (k : nat) : vec3 := match k with 0%nat => row0 m | 1%nat => row1 m | _ => row2 m end.
Definition mkrows (f : nat -> vec3) : mat3 := M3 (f 0%nat) (f 1%nat) (f 2%nat).
(** x ** 1.5 *)
Definition pow15 (x : R) : R := x * sqrt x.
(** 1150-1151 dresidual_dB[k, l] = G delta_kl - 2 tang_k B_l *)
Definition dresidual_dB (G : R) (b tang : vec3) : mat3 := mkrows (fun k => sub3 (scal3 G (unit3 k)) (scal3 (2 * coord tang k) b)).
(** 1157 *)
Definition dw_dB (b : vec3) : vec3 := scal3 (- / pow15 (normsq b)) b.
(** 1159, 1162 *)
Definition drtil_dB (weight : bool) (G : R) (b tang : vec3) : mat3 :=
  mkrows (fun k => if weight then add3 (scal3 (coord (residual G b tang) k) (dw_dB b)) (scal3 (1 / sqrt (normsq b)) (rowk (dresidual_dB G b tang) k))
                   else rowk (dresidual_dB G b tang) k).
(** 1182-1183 *)
Definition d2residual_dcdB (b dbm tang dtm : vec3) : mat3 := mkrows (fun k => add3 (scal3 (-2 * coord tang k) dbm) (scal3 (-2 * coord dtm k) b)).
Definition d2residual_diotadB (b xt : vec3) : mat3 := mkrows (fun k => scal3 (-2 * coord xt k) b).
(** 1184-1186 *)
Definition d2residual_dcdgradB (G : R) (b dxm tang : vec3) (k : nat) : mat3 :=
  mkrows (fun a => add3 (scal3 (-2 * coord dxm a * coord tang k) b) (scal3 (coord dxm a * G) (unit3 k))).
(** 1189-1194 *)
Definition dw_dc (b dbm : vec3) : R := - (half * py_dB2 b dbm / sqrt (normsq b)) / normsq b.
Definition d2w_dcdB (b dbm : vec3) : vec3 :=
  scal3 (- / normsq b ^ 3) (sub3 (scal3 (pow15 (normsq b)) dbm) (scal3 (3 / 2 * py_dB2 b dbm * sqrt (normsq b)) b)).
Definition d2w_dcdgradB (b dxm : vec3) : mat3 := mkrows (fun a => scal3 (coord dxm a) (dw_dB b)).
(** 1196, 1204: the same Jacobian columns as boozer_surface_residual *)
Definition b_drtil_dc (weight : bool) (G : R) (b dbm tang dtm : vec3) : vec3 :=
  if weight then add3 (scal3 (1 / sqrt (normsq b)) (py_dres G b dbm tang dtm)) (scal3 (dw_dc b dbm) (residual G b tang)) else py_dres G b dbm tang dtm.
(** 1198-1201, 1206 *)
Definition d2rtil_dcdB (weight : bool) (G : R) (b dbm tang dtm : vec3) : mat3 :=
  mkrows (fun k => if weight then
      add3 (add3 (add3 (scal3 (coord (py_dres G b dbm tang dtm) k) (dw_dB b)) (scal3 (dw_dc b dbm) (rowk (dresidual_dB G b tang) k)))
                 (scal3 (1 / sqrt (normsq b)) (rowk (d2residual_dcdB b dbm tang dtm) k))) (scal3 (coord (residual G b tang) k) (d2w_dcdB b dbm))
    else rowk (d2residual_dcdB b dbm tang dtm) k).
(** 1202, 1207 *)
Definition d2rtil_diotadB (weight : bool) (b xt : vec3) : mat3 :=
  mkrows (fun k => if weight then add3 (scal3 (coord (dres_iota b xt) k) (dw_dB b)) (scal3 (1 / sqrt (normsq b)) (rowk (d2residual_diotadB b xt) k)) else rowk (d2residual_diotadB b xt) k).
(** 1203, 1208 *)
Definition d2rtil_dcdgradB (weight : bool) (G : R) (b dxm tang : vec3) (k : nat) : mat3 :=
  mkrows (fun a => if weight then add3 (scal3 (coord (residual G b tang) k) (rowk (d2w_dcdgradB b dxm) a)) (scal3 (1 / sqrt (normsq b)) (rowk (d2residual_dcdgradB G b dxm tang k) a))
                   else rowk (d2residual_dcdgradB G b dxm tang k) a).
(** 1219-1233 *)
Definition d2rtil_dGdB (weight : bool) (b : vec3) : mat3 :=
  mkrows (fun k => if weight then add3 (scal3 (1 / sqrt (normsq b)) (unit3 k)) (scal3 (coord b k) (dw_dB b)) else unit3 k).
Definition mat0 : mat3 := M3 v0 v0 v0.

Section Surface.
Variables (n np : nat) (dx dxp dxt : nat -> nat -> vec3) (B : vec3 -> vec3) (dB : vec3 -> mat3) (currents : list R) (optG weight : bool).
Notation NN := (N n optG).
Notation b p x := (bx n dx B p x). Notation tg p x := (BoozSurf.tang n dxp dxt p x). Notation G x := (G_of n currents optG x).
(** the five outputs (1241-1254); columns: dofs, iota, G *)
Definition o_r p x : vec3 := scal3 (py_w weight (b p x)) (residual (G x) (b p x) (tg p x)).
Definition o_dB p x : mat3 := drtil_dB weight (G x) (b p x) (tg p x).
Definition o_J p x m : vec3 :=
  if (m <? n)%nat then b_drtil_dc weight (G x) (b p x) (bm n dx dB p x m) (tg p x) (dtang n dxp dxt p x m)
  else if (m =? n)%nat then scal3 (py_w weight (b p x)) (dres_iota (b p x) (Xt n dxt p x)) else scal3 (py_w weight (b p x)) (b p x).
Definition o_dsdB p x m : mat3 :=
  if (m <? n)%nat then d2rtil_dcdB weight (G x) (b p x) (bm n dx dB p x m) (tg p x) (dtang n dxp dxt p x m)
  else if (m =? n)%nat then d2rtil_diotadB weight (b p x) (Xt n dxt p x) else d2rtil_dGdB weight (b p x).
Definition o_dsdgradB p x m (k : nat) : mat3 :=
  if (m <? n)%nat then d2rtil_dcdgradB weight (G x) (b p x) (dx p m) (tg p x) k else mat0.

(** ** boozer_surface_dlsqgrad_dcoils_vjp, 1089-1117: the vectors handed to B_and_dB_vjp *)
Definition scale : R := / sqrt (num_res np).
Definition matscal (s : R) (m : mat3) : mat3 := mkrows (fun k => scal3 s (rowk m k)).
Definition matsum (n0 : nat) (f : nat -> mat3) : mat3 := mkrows (fun k => sumv n0 (fun m => rowk (f m) k)).
(** sum over the residual component k *)
Definition vjp_v1 (lm : vec) p x : vec3 := vecmat (sumv NN (fun m => scal3 (lm m) (scal3 scale (o_J p x m)))) (matscal scale (o_dB p x)).
Definition vjp_v2 (lm : vec) p x : vec3 := vecmat (scal3 scale (o_r p x)) (matsum NN (fun m => matscal (lm m) (matscal scale (o_dsdB p x m)))).
Definition vjp_v3 (lm : vec) p x (a : nat) : vec3 :=
  vecmat (scal3 scale (o_r p x)) (mkrows (fun k => sumv NN (fun m => scal3 (lm m) (scal3 scale (rowk (o_dsdgradB p x m k) a))))).
Definition ls_vjp_B (lm : vec) p x : vec3 := add3 (vjp_v1 lm p x) (vjp_v2 lm p x).

(** ** boozer_surface_dexactresidual_dcoils_dcurrents_vjp, 1049-1086.  The mask is over the 3 np flattened residual entries; lm has
    nlm entries; lmask[mask] = lm[:-1] raises unless the counts agree (broadcasting of one value is left out: there are at least
    three unknowns) *)
Definition kept (mask : nat -> bool) : list nat := filter mask (seq 0 (3 * np)).
Definition scatter (mask : nat -> bool) (lm : vec) (nlm : nat) : option (nat -> R) :=
  if (length (kept mask) =? nlm - 1)%nat then Some (fun q => if mask q then lm (length (filter mask (seq 0 q))) else 0) else None.
Definition exact_vjp (mask : nat -> bool) (lm : vec) (nlm : nat) x : option ((nat -> vec3) * R) :=
  match scatter mask lm nlm with
  | None => None
  | Some lmask => Some ((fun p => vecmat (V3 (lmask (3 * p)%nat) (lmask (3 * p + 1)%nat) (lmask (3 * p + 2)%nat)) (dresidual_dB (G x) (b p x) (tg p x))), lm (nlm - 1)%nat)
  end.

(** ** The equations of the exact solver (boozersurface.py:774-777) and the rows of its Jacobian (782-790, 803-813) *)
Variables (lab : (nat -> R) -> R) (dlab : (nat -> R) -> nat -> R) (target : R).
Definition entry (r3 : nat -> vec3) (q : nat) : R := coord (r3 (q / 3)%nat) (q mod 3).
Definition exact_eq (mask : nat -> bool) x (i : nat) : R :=
  if (i <? length (kept mask))%nat then entry (fun p => residual (G x) (b p x) (tg p x)) (nth i (kept mask) 0%nat)
  else if (i =? length (kept mask))%nat then lab x - target else zz n dx x.
Definition exact_row (mask : nat -> bool) x (i m : nat) : R :=
  if (i <? length (kept mask))%nat then entry (fun p => J n dx dxp dxt B dB currents optG false p x m) (nth i (kept mask) 0%nat)
  else if (i =? length (kept mask))%nat then dl n dlab x m else drz n dx m.
Definition exact_size (stellsym : bool) (mask : nat -> bool) : nat := (length (kept mask) + (if stellsym then 1 else 2))%nat.

(** ** Partial derivatives of the objectives in the unknowns *)
(** Iotas, 919-926: N entries, 1 at -2 if G is an unknown, at -1 otherwise *)
Definition iotas_dJ_ds (m : nat) : R := if (m =? (if optG then NN - 2 else NN - 1))%nat then 1 else 0.
(** MajorRadius, 672-674: the derivative in the surface dofs, then zeros *)
Definition major_dJ_ds (dmaj : nat -> R) (m : nat) : R := if (m <? n)%nat then dmaj m else 0.
(** BoozerResidual, 1008-1034: J, its gradient in the unknowns and the vector handed to B_vjp (1036-1052) *)
Definition br_J (cw : R) x : R := half * (sum_to np (fun p => normsq (scal3 scale (o_r p x))) + (sqrt cw * (lab x - target)) ^ 2).
Definition br_dJ_ds (cw : R) x (m : nat) : R :=
  sum_to np (fun p => dot3 (scal3 scale (J n dx dxp dxt B dB currents optG weight p x m)) (scal3 scale (o_r p x))) + sqrt cw * dl n dlab x m * (sqrt cw * (lab x - target)).
Definition br_dJ_dB p x : vec3 := vecmat (scal3 scale (o_r p x)) (matscal scale (o_dB p x)).
End Surface.
