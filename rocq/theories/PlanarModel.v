(** Model of CurvePlanarFourier (src/simsoptpp/curveplanarfourier.{h,cpp}) over exact reals; "h:" and "cpp:" cite these files. *)
From Coq Require Import Reals Lra Lia List.
From Verif Require Import ListAux VecAux Vec3 CurveModel.
Import ListNotations.
Open Scope R_scope.

Section Planar.
Variable order : nat.
Record quat := Q4 { q0 : R; q1 : R; q2 : R; q3 : R }.
Record planar := PL { prc : list R; prs : list R; pq : quat; pcenter : vec3 }.
(** h:44-49: the initial arrays are zero, the quaternion too *)
Definition pl_zero : planar := PL (repeat 0 (order + 1)) (repeat 0 order) (Q4 0 0 0 0) v0.
(** h:66-68 *)
Definition pl_num_dofs : nat := 2 * order + 1 + 7.
(** h:70-80 *)
Definition pl_set_dofs (dofs : list R) : planar :=
  let counter := (order + 1 + order)%nat in
  PL (slice dofs 0 (order + 1)) (slice dofs (order + 1) order)
     (Q4 (nth counter dofs 0) (nth (counter + 1) dofs 0) (nth (counter + 2) dofs 0) (nth (counter + 3) dofs 0))
     (V3 (nth (counter + 4) dofs 0) (nth (counter + 5) dofs 0) (nth (counter + 6) dofs 0)).
(** h:82-94 *)
Definition pl_get_dofs (p : planar) : list R :=
  map (fun i => nth i (prc p) 0) (seq 0 (order + 1)) ++ map (fun i => nth i (prs p) 0) (seq 0 order) ++
  [q0 (pq p); q1 (pq p); q2 (pq p); q3 (pq p)] ++ [vx (pcenter p); vy (pcenter p); vz (pcenter p)].
(** cpp:4-12 inv_magnitude *)
Definition inv_magnitude (q : quat) : R :=
  let s := q0 q * q0 q + q1 q * q1 q + q2 q * q2 q + q3 q * q3 q in
  if Req_EM_T s 0 then 1 else 1 / sqrt s.
(** q * inv_magnitude() *)
Definition q_norm (q : quat) : quat := let n := inv_magnitude q in Q4 (q0 q * n) (q1 q * n) (q2 q * n) (q3 q * n).
(** cpp:42-44, the quaternion rotation of the vector (i, j, k); the same three lines occur in all eight functions *)
Definition rot (n : quat) (p : vec3) : vec3 :=
  let i := vx p in let j := vy p in let k := vz p in
  V3 (i - 2 * (q2 n * q2 n + q3 n * q3 n) * i + 2 * (q1 n * q2 n - q3 n * q0 n) * j + 2 * (q1 n * q3 n + q2 n * q0 n) * k)
     (2 * (q1 n * q2 n + q3 n * q0 n) * i + j - 2 * (q1 n * q1 n + q3 n * q3 n) * j + 2 * (q2 n * q3 n - q1 n * q0 n) * k)
     (2 * (q1 n * q3 n - q2 n * q0 n) * i + 2 * (q2 n * q3 n + q1 n * q0 n) * j + k - 2 * (q1 n * q1 n + q2 n * q2 n) * k).
(** the coordinates in the plane and their derivatives with respect to phi: the factors of rc[n] and of rs[n-1] *)
Section Phi.
Variable phi : R.
Let co (n : nat) := cos (INR n * phi).
Let si (n : nat) := sin (INR n * phi).
(** cpp:24-35, 214-223 *)
Definition c0 (n : nat) : vec3 := V3 (co n * cos phi) (co n * sin phi) 0.
Definition s0 (n : nat) : vec3 := V3 (si n * cos phi) (si n * sin phi) 0.
(** cpp:60-71 (531-532, 549-550, 570-573) *)
Definition c1 (n : nat) : vec3 := V3 (- INR n * si n * cos phi - co n * sin phi) (- INR n * si n * sin phi + co n * cos phi) 0.
Definition s1 (n : nat) : vec3 := V3 (INR n * co n * cos phi - si n * sin phi) (INR n * co n * sin phi + si n * cos phi) 0.
(** cpp:97-107 (884-885, 902-903, 923-926) *)
Definition c2 (n : nat) : vec3 := V3 (2 * INR n * si n * sin phi - (INR n * INR n + 1) * co n * cos phi) (- (2) * INR n * si n * cos phi - (INR n * INR n + 1) * co n * sin phi) 0.
Definition s2 (n : nat) : vec3 := V3 (- (INR n * INR n + 1) * si n * cos phi - 2 * INR n * co n * sin phi) (- (INR n * INR n + 1) * si n * sin phi + 2 * INR n * co n * cos phi) 0.
(** cpp:134-153 (1237-1245, 1261-1269, 1288-1302) *)
Definition c3 (n : nat) : vec3 := V3 ((3 * INR n * INR n + 1) * co n * sin phi + (INR n * INR n + 3) * INR n * si n * cos phi)
  ((INR n * INR n + 3) * INR n * si n * sin phi - (3 * INR n * INR n + 1) * co n * cos phi) 0.
Definition s3 (n : nat) : vec3 := V3 (- (INR n * INR n + 3) * INR n * co n * cos phi + (3 * INR n * INR n + 1) * si n * sin phi)
  (- (INR n * INR n + 3) * INR n * co n * sin phi - (3 * INR n * INR n + 1) * si n * cos phi) 0.
(** the term of rc[0], written out separately in the code: cpp:27-28, 60-61, 97-98, 134-135 *)
Definition f0 : vec3 := V3 (cos phi) (sin phi) 0.
Definition f1 : vec3 := V3 (- sin phi) (cos phi) 0.
Definition f2 : vec3 := V3 (- cos phi) (- sin phi) 0.
Definition f3 : vec3 := V3 (sin phi) (- cos phi) 0.
End Phi.
Definition plane (first : vec3) (c s : nat -> vec3) (p : planar) : vec3 :=
  accum (seq 1 order) (fun i => add3 (scal3 (nth i (prc p) 0) (c i)) (scal3 (nth (i - 1) (prs p) 0) (s i))) (scal3 (nth 0 (prc p) 0) first).
(** cpp:14-46 *)
Definition pl_gamma (p : planar) (t : R) : vec3 := let phi := 2 * PI * t in
  add3 (rot (q_norm (pq p)) (plane (f0 phi) (c0 phi) (s0 phi) p)) (pcenter p).
(** cpp:48-87: the factor is applied before the rotation *)
Definition pl_gammadash (p : planar) (t : R) : vec3 := let phi := 2 * PI * t in
  rot (q_norm (pq p)) (scal3 (2 * PI) (plane (f1 phi) (c1 phi) (s1 phi) p)).
(** cpp:89-122 *)
Definition pl_gammadashdash (p : planar) (t : R) : vec3 := let phi := 2 * PI * t in
  rot (q_norm (pq p)) (scal3 (2 * PI * 2 * PI) (plane (f2 phi) (c2 phi) (s2 phi) p)).
(** cpp:124-168 *)
Definition pl_gammadashdashdash (p : planar) (t : R) : vec3 := let phi := 2 * PI * t in
  rot (q_norm (pq p)) (scal3 (2 * PI * 2 * PI * 2 * PI) (plane (f3 phi) (c3 phi) (s3 phi) p)).

(** cpp:226-500: the columns of the quaternion.  [part l] are the three parenthesised sums that multiply the derivative of
    the l-th normalised component; the same text occurs for each of the four columns and in the four functions *)
Definition part (n : quat) (i j : R) (l : nat) : vec3 :=
  let n0 := q0 n in let n1 := q1 n in let n2 := q2 n in let n3 := q3 n in
  match l with
  | 0%nat => V3 (4 * i * (n2 * n2 + n3 * n3) * n0 - 4 * j * (n1 * n2 - n0 * n3) * n0 - 2 * j * n3)
                (- 4 * i * (n1 * n2 + n3 * n0) * n0 + 2 * i * n3 + 4 * j * (n1 * n1 + n3 * n3) * n0)
                (- 4 * i * (n1 * n3 - n2 * n0) * n0 - 2 * i * n2 - 4 * j * (n1 * n0 + n2 * n3) * n0 + 2 * j * n1)
  | 1%nat => V3 (4 * i * (n2 * n2 + n3 * n3) * n1 - 4 * j * (n1 * n2 - n0 * n3) * n1 + 2 * j * n2)
                (- 4 * i * (n1 * n2 + n3 * n0) * n1 + 2 * i * n2 + 4 * j * (n1 * n1 + n3 * n3) * n1 - 4 * j * n1)
                (- 4 * i * (n1 * n3 - n2 * n0) * n1 + 2 * i * n3 - 4 * j * (n1 * n0 + n2 * n3) * n1 + 2 * j * n0)
  | 2%nat => V3 (- 4 * i * (n0 * n0 + n1 * n1) * n2 - 4 * j * (n1 * n2 - n0 * n3) * n2 + 2 * j * n1)
                (- 4 * i * (n1 * n2 + n3 * n0) * n2 + 2 * i * n1 + 4 * j * (n1 * n1 + n3 * n3) * n2)
                (- 2 * i * n0 - 4 * i * (n1 * n3 - n0 * n2) * n2 - 4 * j * (n1 * n0 + n2 * n3) * n2 + 2 * j * n3)
  | _ => V3 (- 4 * i * (n1 * n1 + n0 * n0) * n3 - 4 * j * (n1 * n2 - n0 * n3) * n3 - 2 * j * n0)
            (- 4 * i * (n1 * n2 + n3 * n0) * n3 + 2 * i * n0 + 4 * j * (n1 * n1 + n3 * n3) * n3 - 4 * j * n3)
            (2 * i * n1 + 4 * i * (n2 * n0 - n1 * n3) * n3 - 4 * j * (n1 * n0 + n2 * n3) * n3 + 2 * j * n2)
  end.
Definition qn (q : quat) (l : nat) : R := match l with 0%nat => q0 q | 1%nat => q1 q | 2%nat => q2 q | _ => q3 q end.
(** the factors (inv_sqrt_s - q[c]*q[c]*inv^3) for l = c and (- q[l]*q[c]*inv^3) otherwise *)
Definition factor (q : quat) (l c : nat) : R := let inv := inv_magnitude q in
  if (l =? c)%nat then inv - qn q c * qn q c * inv * inv * inv else - qn q l * qn q c * inv * inv * inv.
Definition quat_column (q : quat) (p : vec3) (c : nat) : vec3 :=
  let P l := scal3 (factor q l c) (part (q_norm q) (vx p) (vy p) l) in
  add3 (add3 (add3 (P 0%nat) (P 1%nat)) (P 2%nat)) (P 3%nat).
(** the columns of one row in the order of counter; [k] the power of 2 pi, [e] the columns of the center *)
Definition pl_columns (k : R) (first : vec3) (c s : nat -> vec3) (e : list vec3) (p : planar) : list vec3 :=
  let n := q_norm (pq p) in
  map (fun i => rot n (scal3 k (c i))) (seq 0 (order + 1)) ++ map (fun i => rot n (scal3 k (s i))) (seq 1 order) ++
  map (quat_column (pq p) (scal3 k (plane first c s p))) (seq 0 4) ++ e.
(** cpp:170-511 *)
Definition pl_dgamma (p : planar) (t : R) : list vec3 := let phi := 2 * PI * t in
  pl_columns 1 (f0 phi) (c0 phi) (s0 phi) (map unit3 (seq 0 3)) p.
(** cpp:513-864.  The loop over the center writes two columns of zeros; the third is zero since data *= 0 *)
Definition pl_dgammadash (p : planar) (t : R) : list vec3 := let phi := 2 * PI * t in
  pl_columns (2 * PI) (f1 phi) (c1 phi) (s1 phi) [v0; v0; v0] p.
(** cpp:866-1217 *)
Definition pl_dgammadashdash (p : planar) (t : R) : list vec3 := let phi := 2 * PI * t in
  pl_columns (2 * PI * 2 * PI) (f2 phi) (c2 phi) (s2 phi) [v0; v0; v0] p.
(** cpp:1219-1592 *)
Definition pl_dgammadashdashdash (p : planar) (t : R) : list vec3 := let phi := 2 * PI * t in
  pl_columns (2 * PI * 2 * PI * 2 * PI) (f3 phi) (c3 phi) (s3 phi) [v0; v0; v0] p.
End Planar.
