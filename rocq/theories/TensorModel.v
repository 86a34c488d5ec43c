(** Model of SurfaceXYZTensorFourier: src/simsoptpp/surfacexyztensorfourier.h (all of it) and the python class
    src/simsopt/geo/surfacexyztensorfourier.py:60-97.  Over the reals; quadpoints are numbers of turns.  The arrays x, y, z are
    one function of (dimension, m, n).  The cached basis functions (build_cache 599-646) are evaluated where they are used. *)
From Coq Require Import Reals Lra Lia List Bool.
From Verif Require Import VecAux Vec3 CurveObjModel.
Import ListNotations.
Open Scope R_scope.

Record tsurf := TS { mpol : nat; ntor : nat; nfp : nat; stellsym : bool; clamped : nat -> bool; coef : nat -> nat -> nat -> R }.

Section S.
Variable s : tsurf.
(** 827-836 skip *)
Definition skip (d m n : nat) : bool :=
  if stellsym s then
    match d with
    | 0%nat => ((n <=? ntor s) && (mpol s <? m))%nat || ((ntor s <? n) && (m <=? mpol s))%nat
    | _ => ((n <=? ntor s) && (m <=? mpol s))%nat || ((ntor s <? n) && (mpol s <? m))%nat
    end
  else false.
(** 838-850 get_coeff *)
Definition get_coeff (d m n : nat) : R := if skip d m n then 0 else coef s d m n.
(** 66-71 num_dofs *)
Definition num_dofs : nat :=
  if stellsym s then ((ntor s + 1) * (mpol s + 1) + ntor s * mpol s + 2 * (ntor s + 1) * mpol s + 2 * ntor s * (mpol s + 1))%nat
  else (3 * (2 * mpol s + 1) * (2 * ntor s + 1))%nat.
(** the loops "for d, for m, for n, if skip continue" of set_dofs_impl, get_dofs and the *_by_dcoeff_impl *)
Definition slots : list (nat * nat * nat) :=
  flat_map (fun d => flat_map (fun m => flat_map (fun n => if skip d m n then [] else [(d, m, n)]) (seq 0 (2 * ntor s + 1))) (seq 0 (2 * mpol s + 1))) (seq 0 3).
(** 95-118 *)
Definition get_dofs : list R := map (fun x => let '(d, m, n) := x in coef s d m n) slots.

(** 783-825; [p] is the angle phi, [t] theta *)
Definition v (n : nat) (p : R) : R := if (n <=? ntor s)%nat then cos (INR (nfp s * n) * p) else sin (INR (nfp s * (n - ntor s)) * p).
Definition v1 (n : nat) (p : R) : R :=
  if (n <=? ntor s)%nat then - INR (nfp s * n) * sin (INR (nfp s * n) * p) else INR (nfp s * (n - ntor s)) * cos (INR (nfp s * (n - ntor s)) * p).
Definition v2 (n : nat) (p : R) : R :=
  if (n <=? ntor s)%nat then - (INR (nfp s * n) * INR (nfp s * n)) * cos (INR (nfp s * n) * p)
  else - (INR (nfp s * (n - ntor s)) * INR (nfp s * (n - ntor s))) * sin (INR (nfp s * (n - ntor s)) * p).
Definition w (m : nat) (t : R) : R := if (m <=? mpol s)%nat then cos (INR m * t) else sin (INR (m - mpol s) * t).
Definition w1 (m : nat) (t : R) : R := if (m <=? mpol s)%nat then - INR m * sin (INR m * t) else INR (m - mpol s) * cos (INR (m - mpol s) * t).
Definition w2 (m : nat) (t : R) : R := if (m <=? mpol s)%nat then - (INR m * INR m) * cos (INR m * t) else - (INR (m - mpol s) * INR (m - mpol s)) * sin (INR (m - mpol s) * t).
(** 648-650 *)
Definition enforced (d n m : nat) : bool := clamped s d && (n <=? ntor s)%nat && (m <=? mpol s)%nat.
(** 639-643 (cache) and 652-690: nfp/2, nfp*nfp/2 and 1/2 are integer divisions in C++ *)
Definition e0 (p t : R) : R := sin (INR (nfp s) * p / 2) ^ 2 + sin (t / 2) ^ 2.
Definition e_p (p : R) : R := INR (nfp s) * cos (INR (nfp s) * p / 2) * sin (INR (nfp s) * p / 2).
Definition e_pp_cached (p : R) : R := INR (nfp s * (nfp s / 2)) * (cos (INR (nfp s) * p / 2) ^ 2 - sin (INR (nfp s) * p / 2) ^ 2).
Definition e_pp_direct (p : R) : R := INR (nfp s * nfp s / 2) * (cos (INR (nfp s) * p / 2) ^ 2 - sin (INR (nfp s) * p / 2) ^ 2).
Definition e_t (t : R) : R := cos (t / 2) * sin (t / 2).
Definition e_tt (t : R) : R := INR (1 / 2) * (cos (t / 2) ^ 2 - sin (t / 2) ^ 2).
(** 692-752: from the cache *)
Definition cb (d n m : nat) (p t : R) : R := if enforced d n m then v n p * w m t * e0 p t else v n p * w m t.
Definition cb_p (d n m : nat) (p t : R) : R := if enforced d n m then v1 n p * w m t * e0 p t + v n p * w m t * e_p p else v1 n p * w m t.
Definition cb_pp (d n m : nat) (p t : R) : R :=
  if enforced d n m then v2 n p * w m t * e0 p t + 2 * (v1 n p * w m t) * e_p p + v n p * w m t * e_pp_cached p else v2 n p * w m t.
Definition cb_t (d n m : nat) (p t : R) : R := if enforced d n m then v n p * w1 m t * e0 p t + v n p * w m t * e_t t else v n p * w1 m t.
Definition cb_tp (d n m : nat) (p t : R) : R :=
  if enforced d n m then v1 n p * w1 m t * e0 p t + v n p * w1 m t * e_p p + v1 n p * w m t * e_t t else v1 n p * w1 m t.
Definition cb_tt (d n m : nat) (p t : R) : R :=
  if enforced d n m then v n p * w2 m t * e0 p t + 2 * (v n p * w1 m t) * e_t t + v n p * w m t * e_tt t else v n p * w2 m t.
(** 754-806: without the cache *)
Definition on (d n m : nat) (x y : R) : R := if enforced d n m then x else y.
Definition nb (d n m : nat) (p t : R) : R := v n p * w m t * on d n m (e0 p t) 1.
Definition nb_p (d n m : nat) (p t : R) : R := v1 n p * w m t * on d n m (e0 p t) 1 + v n p * w m t * on d n m (e_p p) 0.
Definition nb_t (d n m : nat) (p t : R) : R := v n p * w1 m t * on d n m (e0 p t) 1 + v n p * w m t * on d n m (e_t t) 0.
Definition nb_tt (d n m : nat) (p t : R) : R := v n p * (w2 m t * on d n m (e0 p t) 1 + 2 * w1 m t * on d n m (e_t t) 0 + w m t * on d n m (e_tt t) 0).
Definition nb_pp (d n m : nat) (p t : R) : R := w m t * (v2 n p * on d n m (e0 p t) 1 + 2 * v1 n p * on d n m (e_p p) 0 + v n p * on d n m (e_pp_direct p) 0).
Definition nb_tp (d n m : nat) (p t : R) : R := v1 n p * w1 m t * on d n m (e0 p t) 1 + v n p * w1 m t * on d n m (e_p p) 0 + v1 n p * w m t * on d n m (e_t t) 0.

(** the double sums xhat, yhat, z and their derivatives *)
Definition hat (b : nat -> nat -> nat -> R -> R -> R) (d : nat) (p t : R) : R :=
  sum_to (2 * mpol s + 1) (fun m => sum_to (2 * ntor s + 1) (fun n => get_coeff d m n * b d n m p t)).
Definition ang (q : R) : R := 2 * PI * q.
(** 120-150 gamma_impl(data, phis, thetas): [o1], [o2] are the surface's own quadpoints (cached basis), [q1] the given phi *)
Definition gamma_impl (o1 o2 q1 : R) : vec3 :=
  let p := ang o1 in let t := ang o2 in let p' := ang q1 in
  V3 (hat cb 0 p t * cos p' - hat cb 1 p t * sin p') (hat cb 0 p t * sin p' + hat cb 1 p t * cos p') (hat cb 2 p t).
Definition gamma (q1 q2 : R) : vec3 := gamma_impl q1 q2 q1.
(** 151-173 gamma_lin *)
Definition gamma_lin (q1 q2 : R) : vec3 :=
  let p := ang q1 in let t := ang q2 in
  V3 (hat nb 0 p t * cos p - hat nb 1 p t * sin p) (hat nb 0 p t * sin p + hat nb 1 p t * cos p) (hat nb 2 p t).
(** 176-213 *)
Definition gammadash1 (q1 q2 : R) : vec3 :=
  let p := ang q1 in let t := ang q2 in
  V3 (2 * PI * (hat cb_p 0 p t * cos p - hat cb_p 1 p t * sin p - hat cb 0 p t * sin p - hat cb 1 p t * cos p))
     (2 * PI * (hat cb_p 0 p t * sin p + hat cb_p 1 p t * cos p + hat cb 0 p t * cos p - hat cb 1 p t * sin p)) (2 * PI * hat cb_p 2 p t).
(** 215-247 *)
Definition gammadash2 (q1 q2 : R) : vec3 :=
  let p := ang q1 in let t := ang q2 in
  V3 (2 * PI * (hat cb_t 0 p t * cos p - hat cb_t 1 p t * sin p)) (2 * PI * (hat cb_t 0 p t * sin p + hat cb_t 1 p t * cos p)) (2 * PI * hat cb_t 2 p t).
(** 249-274 *)
Definition gammadash2dash2 (q1 q2 : R) : vec3 :=
  let p := ang q1 in let t := ang q2 in
  V3 (4 * PI * PI * (hat cb_tt 0 p t * cos p - hat cb_tt 1 p t * sin p)) (4 * PI * PI * (hat cb_tt 0 p t * sin p + hat cb_tt 1 p t * cos p)) (4 * PI * PI * hat cb_tt 2 p t).
(** 276-307 *)
Definition gammadash1dash2 (q1 q2 : R) : vec3 :=
  let p := ang q1 in let t := ang q2 in
  V3 (4 * PI * PI * (hat cb_tp 0 p t * cos p - hat cb_t 0 p t * sin p - hat cb_tp 1 p t * sin p - hat cb_t 1 p t * cos p))
     (4 * PI * PI * (hat cb_tp 0 p t * sin p + hat cb_t 0 p t * cos p + hat cb_tp 1 p t * cos p - hat cb_t 1 p t * sin p)) (4 * PI * PI * hat cb_tp 2 p t).
(** 309-346 *)
Definition gammadash1dash1 (q1 q2 : R) : vec3 :=
  let p := ang q1 in let t := ang q2 in
  V3 (4 * PI * PI * (hat cb_pp 0 p t * cos p - 2 * hat cb_p 0 p t * sin p - hat cb 0 p t * cos p - hat cb_pp 1 p t * sin p - 2 * hat cb_p 1 p t * cos p + hat cb 1 p t * sin p))
     (4 * PI * PI * (hat cb_pp 0 p t * sin p + 2 * hat cb_p 0 p t * cos p - hat cb 0 p t * sin p + hat cb_pp 1 p t * cos p - 2 * hat cb_p 1 p t * sin p - hat cb 1 p t * cos p))
     (4 * PI * PI * hat cb_pp 2 p t).

(** 348-597 the Jacobians: entry [counter] belongs to slot [counter]; [pick d k x]: x if d = k (the zeros of dxhat, dyhat) *)
Definition pick (d k : nat) (x : R) : R := if (d =? k)%nat then x else 0.
Definition c_gamma (d m n : nat) (p t : R) : vec3 :=
  let b := nb d n m p t in let x := pick d 0 b in let y := pick d 1 b in
  V3 (x * cos p - y * sin p) (x * sin p + y * cos p) (pick d 2 b).
Definition c_1 (d m n : nat) (p t : R) : vec3 :=
  let b := nb d n m p t in let b' := nb_p d n m p t in let x := pick d 0 b in let y := pick d 1 b in let x' := pick d 0 b' in let y' := pick d 1 b' in
  V3 (2 * PI * (x' * cos p - y' * sin p - x * sin p - y * cos p)) (2 * PI * (x' * sin p + y' * cos p + x * cos p - y * sin p)) (2 * PI * pick d 2 b').
Definition c_2 (d m n : nat) (p t : R) : vec3 :=
  let b := nb_t d n m p t in let x := pick d 0 b in let y := pick d 1 b in
  V3 (2 * PI * (x * cos p - y * sin p)) (2 * PI * (x * sin p + y * cos p)) (2 * PI * pick d 2 b).
Definition c_22 (d m n : nat) (p t : R) : vec3 :=
  let b := nb_tt d n m p t in let x := pick d 0 b in let y := pick d 1 b in
  V3 (4 * PI * PI * (x * cos p - y * sin p)) (4 * PI * PI * (x * sin p + y * cos p)) (4 * PI * PI * pick d 2 b).
Definition c_12 (d m n : nat) (p t : R) : vec3 :=
  let b := nb_t d n m p t in let b' := nb_tp d n m p t in let x := pick d 0 b in let y := pick d 1 b in let x' := pick d 0 b' in let y' := pick d 1 b' in
  V3 (4 * PI * PI * (x' * cos p - x * sin p - y' * sin p - y * cos p)) (4 * PI * PI * (x' * sin p + x * cos p + y' * cos p - y * sin p)) (4 * PI * PI * pick d 2 b').
Definition c_11 (d m n : nat) (p t : R) : vec3 :=
  let b := nb d n m p t in let b' := nb_p d n m p t in let b'' := nb_pp d n m p t in
  let x := pick d 0 b in let y := pick d 1 b in let x' := pick d 0 b' in let y' := pick d 1 b' in let x'' := pick d 0 b'' in let y'' := pick d 1 b'' in
  V3 (4 * PI * PI * (x'' * cos p - 2 * x' * sin p - x * cos p - y'' * sin p - 2 * y' * cos p + y * sin p))
     (4 * PI * PI * (x'' * sin p + 2 * x' * cos p - x * sin p + y'' * cos p - 2 * y' * sin p - y * cos p)) (4 * PI * PI * pick d 2 b'').
Definition by_dcoeff (c : nat -> nat -> nat -> R -> R -> vec3) (q1 q2 : R) : list vec3 := map (fun x => let '(d, m, n) := x in c d m n (ang q1) (ang q2)) slots.
End S.
Definition dgamma_by_dcoeff (s : tsurf) := by_dcoeff s (c_gamma s).
Definition dgammadash1_by_dcoeff (s : tsurf) := by_dcoeff s (c_1 s).
Definition dgammadash2_by_dcoeff (s : tsurf) := by_dcoeff s (c_2 s).
Definition dgammadash1dash1_by_dcoeff (s : tsurf) := by_dcoeff s (c_11 s).
Definition dgammadash1dash2_by_dcoeff (s : tsurf) := by_dcoeff s (c_12 s).
Definition dgammadash2dash2_by_dcoeff (s : tsurf) := by_dcoeff s (c_22 s).

(** 73-93 set_dofs_impl: the loop over the slots with its counter *)
Definition put (f : nat -> nat -> nat -> R) (x : nat * nat * nat) (a : R) : nat -> nat -> nat -> R :=
  fun d m n => if ((d =? fst (fst x)) && (m =? snd (fst x)) && (n =? snd x))%nat then a else f d m n.
Fixpoint set_loop (dofs : list R) (sl : list (nat * nat * nat)) (counter : nat) (f : nat -> nat -> nat -> R) : nat -> nat -> nat -> R :=
  match sl with [] => f | x :: sl => set_loop dofs sl (S counter) (put f x (nth counter dofs 0)) end.
Definition set_dofs (s : tsurf) (dofs : list R) : tsurf :=
  TS (mpol s) (ntor s) (nfp s) (stellsym s) (clamped s) (set_loop dofs (slots s) 0 (coef s)).
