(** Models of CurveXYZFourier (src/simsoptpp/curvexyzfourier.{h,cpp}, src/simsopt/geo/curvexyzfourier.py) and of
    CurveRZFourier (src/simsoptpp/curverzfourier.{h,cpp}), over exact reals.  "h:" and "cpp:" cite these files.
    A quadrature point t is a real number; each function gives one row of the arrays returned by the library. *)
From Coq Require Import Reals Lra Lia List.
From Verif Require Import ListAux VecAux Vec3.
Import ListNotations.
Open Scope R_scope.

(** "data(k, c) += ..." in a loop over l, all three components at once *)
Definition accum (l : list nat) (f : nat -> vec3) (d : vec3) : vec3 := fold_left (fun d i => add3 d (f i)) l d.
(** an array of columns into which (index, value) pairs are written one after the other; it starts at zero *)
Definition written {V} (zero : V) (w : list (nat * V)) (m : nat) : V := fold_left (fun v x => if (fst x =? m)%nat then snd x else v) w zero.

(** * CurveXYZFourier *)
Section XYZ.
Variable order : nat.
(** dofs[i][q]; vector<vector<double>> of 3 vectors of 2*order+1 entries (h:27,31-35) *)
Definition table := nat -> nat -> R.
Definition put (d : table) (i q : nat) (v : R) : table := fun i' q' => if (i' =? i)%nat && (q' =? q)%nat then v else d i' q'.
(** h:53-55 *)
Definition xyz_num_dofs : nat := 3 * (2 * order + 1).
(** h:57-66; [next] is dofs[i][q] = _dofs[counter++]; None = a read past the end of _dofs *)
Definition next (dofs : list R) (i q : nat) (st : option (nat * table)) : option (nat * table) :=
  match st with
  | None => None
  | Some (counter, d) => match nth_error dofs counter with Some v => Some (Datatypes.S counter, put d i q v) | None => None end
  end.
Definition xyz_set_dofs (dofs : list R) (d : table) : option table :=
  option_map snd (fold_left (fun st i => fold_left (fun st j => next dofs i (2 * j) (next dofs i (2 * j - 1) st)) (seq 1 order) (next dofs i 0 st)) (seq 0 3) (Some (0%nat, d))).
(** h:68-79 *)
Definition xyz_get_dofs (d : table) : list R :=
  flat_map (fun i => d i 0%nat :: flat_map (fun j => [d i (2 * j - 1)%nat; d i (2 * j)%nat]) (seq 1 order)) (seq 0 3).
(** py:49-64 _make_names: (component, sine?, mode number) *)
Definition xyz_names : list (nat * bool * nat) :=
  flat_map (fun i => (i, false, 0%nat) :: flat_map (fun j => [(i, true, j); (i, false, j)]) (seq 1 order)) (seq 0 3).

Section At.
Variables (d : table) (t : R).
Definition w (j : nat) : R := 2 * PI * INR j.
(** one component of a row *)
Definition comps (f : nat -> R) : vec3 := V3 (f 0%nat) (f 1%nat) (f 2%nat).
(** cpp:4-16 *)
Definition xyz_gamma : vec3 := comps (fun i =>
  fold_left (fun a j => a + d i (2 * j - 1)%nat * sin (w j * t) + d i (2 * j)%nat * cos (w j * t)) (seq 1 order) (0 + d i 0%nat)).
(** cpp:18-29 *)
Definition xyz_gammadash : vec3 := comps (fun i =>
  fold_left (fun a j => a + d i (2 * j - 1)%nat * 2 * PI * INR j * cos (w j * t) + - d i (2 * j)%nat * 2 * PI * INR j * sin (w j * t)) (seq 1 order) 0).
(** cpp:31-42 *)
Definition xyz_gammadashdash : vec3 := comps (fun i =>
  fold_left (fun a j => a + - d i (2 * j - 1)%nat * w j * w j * sin (w j * t) + - d i (2 * j)%nat * w j * w j * cos (w j * t)) (seq 1 order) 0).
(** cpp:44-55 *)
Definition xyz_gammadashdashdash : vec3 := comps (fun i =>
  fold_left (fun a j => a + - d i (2 * j - 1)%nat * w j * w j * w j * cos (w j * t) + d i (2 * j)%nat * w j * w j * w j * sin (w j * t)) (seq 1 order) 0).
End At.
Section Cols.
Variable t : R.
(** the writes to data(k, i, .) : [c] to the column of dofs[i][0] (None: not written), [s] and [co] to those of mode j *)
Definition xyz_writes (c : option R) (s co : nat -> R) (i : nat) : list (nat * R) :=
  match c with Some c => [(i * (2 * order + 1), c)%nat] | None => [] end ++
  flat_map (fun j => [((i * (2 * order + 1) + 2 * j - 1)%nat, s j); ((i * (2 * order + 1) + 2 * j)%nat, co j)]) (seq 1 order).
(** data(k, ., m) *)
Definition xyz_column (c : option R) (s co : nat -> R) (m : nat) : vec3 := comps (fun i => written 0 (xyz_writes c s co i) m).
(** cpp:57-68 *)
Definition xyz_dgamma : nat -> vec3 := xyz_column (Some 1) (fun j => sin (w j * t)) (fun j => cos (w j * t)).
(** cpp:70-80 *)
Definition xyz_dgammadash : nat -> vec3 := xyz_column None (fun j => 2 * PI * INR j * cos (w j * t)) (fun j => - 2 * PI * INR j * sin (w j * t)).
(** cpp:82-92 *)
Definition xyz_dgammadashdash : nat -> vec3 := xyz_column None (fun j => - w j * w j * sin (w j * t)) (fun j => - w j * w j * cos (w j * t)).
(** cpp:94-104 *)
Definition xyz_dgammadashdashdash : nat -> vec3 := xyz_column None (fun j => - w j * w j * w j * cos (w j * t)) (fun j => w j * w j * w j * sin (w j * t)).
End Cols.
(** the jax version, py:206-216 jaxfouriercurve_pure: gamma from the flat dofs *)
Definition jax_gamma (dofs : list R) (t : R) : vec3 :=
  let k := (length dofs / 3)%nat in
  let coeffs := [firstn k dofs; firstn k (skipn k dofs); skipn (2 * k) dofs] in
  comps (fun i => let c := nth i coeffs [] in
    fold_left (fun a j => a + nth (2 * j - 1) c 0 * sin (w j * t) + nth (2 * j) c 0 * cos (w j * t)) (seq 1 order) (0 + nth 0 c 0)).
End XYZ.

(** * CurveRZFourier *)
Section RZ.
Variables (order nfp : nat) (stellsym : bool).
Record rz_arrays := RZ { rc : list R; rs : list R; zc : list R; zs : list R }.
(** h:37-40: the initial arrays *)
Definition rz_zero : rz_arrays := RZ (repeat 0 (order + 1)) (repeat 0 order) (repeat 0 (order + 1)) (repeat 0 order).
(** h:58-63 *)
Definition rz_num_dofs : nat := if stellsym then 2 * order + 1 else 2 * (2 * order + 1).
(** the loop "for i < len: a.data()[i] = dofs[counter++]" from a given counter *)
Definition slice (dofs : list R) (counter len : nat) : list R := map (fun i => nth (counter + i) dofs 0) (seq 0 len).
(** h:65-83 *)
Definition rz_set_dofs (dofs : list R) (a : rz_arrays) : rz_arrays :=
  if stellsym then RZ (slice dofs 0 (order + 1)) (rs a) (zc a) (slice dofs (order + 1) order)
  else RZ (slice dofs 0 (order + 1)) (slice dofs (order + 1) order) (slice dofs (order + 1 + order) (order + 1)) (slice dofs (order + 1 + order + (order + 1)) order).
(** h:85-105 *)
Definition rz_get_dofs (a : rz_arrays) : list R :=
  let all l n := map (fun i => nth i l 0) (seq 0 n) in
  if stellsym then all (rc a) (order + 1)%nat ++ all (zs a) order
  else all (rc a) (order + 1)%nat ++ all (rs a) order ++ all (zc a) (order + 1)%nat ++ all (zs a) order.

Section At.
Variables (a : rz_arrays) (t : R).
Let phi := 2 * PI * t.
Definition om (i : nat) : R := INR nfp * INR i.
Let co i := cos (om i * phi).
Let si i := sin (om i * phi).
(** the pattern shared by the four functions: two loops, then two more without stellarator symmetry; [z] of the last
    loop of the derivatives is subtracted ("-="), so that its summand carries the sign *)
Definition rz_loops (frc fzs frs fzc : nat -> vec3) : vec3 :=
  let d := accum (seq 0 (order + 1)) frc v0 in
  let d := accum (seq 1 order) fzs d in
  if stellsym then d else accum (seq 0 (order + 1)) fzc (accum (seq 1 order) frs d).
Notation "'RC' i" := (nth i (rc a) 0) (at level 9). Notation "'RS' i" := (nth (i - 1) (rs a) 0) (at level 9).
Notation "'ZC' i" := (nth i (zc a) 0) (at level 9). Notation "'ZS' i" := (nth (i - 1) (zs a) 0) (at level 9).
(** cpp:4-31 *)
Definition rz_gamma : vec3 := rz_loops
  (fun i => V3 (RC i * co i * cos phi) (RC i * co i * sin phi) 0)
  (fun i => V3 0 0 (ZS i * si i))
  (fun i => V3 (RS i * si i * cos phi) (RS i * si i * sin phi) 0)
  (fun i => V3 0 0 (ZC i * co i)).
(** cpp:33-59 *)
Definition rz_gammadash : vec3 := scal3 (2 * PI) (rz_loops
  (fun i => V3 (RC i * (- om i * si i * cos phi - co i * sin phi)) (RC i * (- om i * si i * sin phi + co i * cos phi)) 0)
  (fun i => V3 0 0 (ZS i * om i * co i))
  (fun i => V3 (RS i * (om i * co i * cos phi - si i * sin phi)) (RS i * (om i * co i * sin phi + si i * cos phi)) 0)
  (fun i => V3 0 0 (- (ZC i * om i * si i)))).
(** cpp:61-87 *)
Definition rz_gammadashdash : vec3 := scal3 (2 * PI * 2 * PI) (rz_loops
  (fun i => V3 (RC i * (2 * om i * si i * sin phi - (om i * om i + 1) * co i * cos phi)) (RC i * (- (2) * om i * si i * cos phi - (om i * om i + 1) * co i * sin phi)) 0)
  (fun i => V3 0 0 (- (ZS i * (om i * om i) * si i)))
  (fun i => V3 (RS i * (- (om i * om i + 1) * si i * cos phi - 2 * om i * co i * sin phi)) (RS i * (- (om i * om i + 1) * si i * sin phi + 2 * om i * co i * cos phi)) 0)
  (fun i => V3 0 0 (- (ZC i * (om i * om i) * co i)))).
(** cpp:89-127 *)
Definition rz_gammadashdashdash : vec3 := scal3 (2 * PI * 2 * PI * 2 * PI) (rz_loops
  (fun i => V3 (RC i * ((3 * (om i * om i) + 1) * co i * sin phi + (om i * om i + 3) * om i * si i * cos phi))
               (RC i * ((om i * om i + 3) * om i * si i * sin phi - (3 * (om i * om i) + 1) * co i * cos phi)) 0)
  (fun i => V3 0 0 (- (ZS i * (om i * om i * om i) * co i)))
  (fun i => V3 (RS i * (- (om i * om i + 3) * om i * co i * cos phi + (3 * (om i * om i) + 1) * si i * sin phi))
               (RS i * (- (om i * om i + 3) * om i * co i * sin phi - (3 * (om i * om i) + 1) * si i * cos phi)) 0)
  (fun i => V3 0 0 (ZC i * (om i * om i * om i) * si i))).
(** the columns, in the order in which counter visits them *)
Definition rz_columns (frc frs fzc fzs : nat -> vec3) : list vec3 :=
  map frc (seq 0 (order + 1)) ++ (if stellsym then [] else map frs (seq 1 order) ++ map fzc (seq 0 (order + 1))) ++ map fzs (seq 1 order).
(** cpp:129-156 *)
Definition rz_dgamma : list vec3 := rz_columns
  (fun i => V3 (co i * cos phi) (co i * sin phi) 0) (fun i => V3 (si i * cos phi) (si i * sin phi) 0)
  (fun i => V3 0 0 (co i)) (fun i => V3 0 0 (si i)).
(** cpp:158-188 *)
Definition rz_dgammadash : list vec3 := map (scal3 (2 * PI)) (rz_columns
  (fun i => V3 (- om i * si i * cos phi - co i * sin phi) (- om i * si i * sin phi + co i * cos phi) 0)
  (fun i => V3 (om i * co i * cos phi - si i * sin phi) (om i * co i * sin phi + si i * cos phi) 0)
  (fun i => V3 0 0 (- om i * si i)) (fun i => V3 0 0 (om i * co i))).
(** cpp:190-220 *)
Definition rz_dgammadashdash : list vec3 := map (scal3 (2 * PI * 2 * PI)) (rz_columns
  (fun i => V3 (2 * om i * si i * sin phi - (om i * om i + 1) * co i * cos phi) (- (2) * om i * si i * cos phi - (om i * om i + 1) * co i * sin phi) 0)
  (fun i => V3 (- (om i * om i + 1) * si i * cos phi - 2 * om i * co i * sin phi) (- (om i * om i + 1) * si i * sin phi + 2 * om i * co i * cos phi) 0)
  (fun i => V3 0 0 (- (om i * om i) * co i)) (fun i => V3 0 0 (- (om i * om i) * si i))).
(** cpp:222-266 *)
Definition rz_dgammadashdashdash : list vec3 := map (scal3 (2 * PI * 2 * PI * 2 * PI)) (rz_columns
  (fun i => V3 ((3 * (om i * om i) + 1) * co i * sin phi + (om i * om i + 3) * om i * si i * cos phi)
               ((om i * om i + 3) * om i * si i * sin phi - (3 * (om i * om i) + 1) * co i * cos phi) 0)
  (fun i => V3 (- (om i * om i + 3) * om i * co i * cos phi + (3 * (om i * om i) + 1) * si i * sin phi)
               (- (om i * om i + 3) * om i * co i * sin phi - (3 * (om i * om i) + 1) * si i * cos phi) 0)
  (fun i => V3 0 0 (om i * om i * om i * si i)) (fun i => V3 0 0 (- (om i * om i * om i) * co i))).
End At.
End RZ.

(** * Vector-Jacobian products, curve.h:19-41 curve_vjp_contraction, for a C-contiguous v: res(m) = sum over the quadrature
    points and components *)
Definition curve_vjp (n : nat) (columns : nat -> nat -> vec3) (nq : nat) (v : nat -> vec3) : list R :=
  map (fun m => rsuml (map (fun k => dot3 (v k) (columns k m)) (seq 0 nq))) (seq 0 n).
