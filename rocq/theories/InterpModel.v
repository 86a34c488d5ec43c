(** Model of the piecewise polynomial interpolant RegularGridInterpolant3D
    (src/simsoptpp/regular_grid_interpolant_3d.h, regular_grid_interpolant_3d_impl.h) over the reals.
    Simplified: one output component (value_size = 1; the components are computed independently), no SIMD
    padding, no floating point.  Vectors are lists or functions of the index; reads of the mesh vectors outside
    their bounds (undefined behaviour in C++) give an unspecified number, the parameter [junk]. *)
From Verif Require Import VecAux PointsModel.
From Coq Require Import Reals Lra Lia ZArith.
Open Scope R_scope.

(** .h:20-47 InterpolationRule: nodes; [prods] = the product over i <> idx, in loop order *)
Definition prods (n idx : nat) (f : nat -> R) (start : R) : R :=
  fold_left (fun res i => if (i =? idx)%nat then res else res * f i) (seq 0 n) start.
Record rule := Rule { degree : nat; nodes : nat -> R }.
Definition scaling (r : rule) (idx : nat) : R := prods (degree r + 1) idx (fun i => 1 / (nodes r idx - nodes r i)) 1.
Definition basis_fun (r : rule) (idx : nat) (x : R) : R := prods (degree r + 1) idx (fun i => x - nodes r i) (scaling r idx).
(** .h:312-325 and 328-342 *)
Definition uniform_rule (d : nat) : rule := Rule d (fun i => INR i * (1 / INR d)).
Definition chebyshev_rule (d : nat) : rule := Rule d (fun i => - (1 / 2) * cos (INR i * PI * (1 / INR d)) + 1 / 2).

(** one of the three ranges (min, max, n) *)
Record axis := Axis { a_min : R; a_max : R; a_n : nat }.
(** .h:159-161; impl.h:243-256 linspace with endpoint, called with n+1 (.h:164-166) *)
Definition hstep (a : axis) : R := (a_max a - a_min a) / INR (a_n a).
Definition mesh (a : axis) (i : nat) : R := a_min a + INR i * ((a_max a - a_min a) / INR (a_n a + 1 - 1)).
(** .h:211-228: the loop filling xdof (size nx*degree+1) *)
Definition upd (f : nat -> R) (i : nat) (v : R) : nat -> R := fun j => if (j =? i)%nat then v else f j.
Definition dof (r : rule) (a : axis) : nat -> R :=
  fold_left (fun arr ij => upd arr (fst ij * degree r + snd ij)%nat (mesh a (fst ij) + nodes r (snd ij) * hstep a))
            (list_prod (seq 0 (a_n a)) (seq 0 (degree r + 1))) (fun _ => 0).

Section Grid.
Variables (r : rule) (ax ay az : axis).
Variable skip : R -> R -> R -> bool.     (* the user's function, at the mesh nodes *)
Notation nx := (a_n ax). Notation ny := (a_n ay). Notation nz := (a_n az). Notation d := (degree r).

(** .h:116-139 *)
Definition idx_dof (i j k : nat) : nat := i * (ny * d + 1) * (nz * d + 1) + j * (nz * d + 1) + k.
Definition idx_cell (i j k : nat) : nat := i * ny * nz + j * nz + k.
Definition idx_mesh (i j k : nat) : nat := i * (ny + 1) * (nz + 1) + j * (nz + 1) + k.
(** all triples below given bounds, in loop order (i outermost) *)
Definition triples (a b c : nat) : list (nat * nat * nat) :=
  flat_map (fun i => flat_map (fun j => map (fun k => (i, j, k)) (seq 0 c)) (seq 0 b)) (seq 0 a).
(** .h:168-186: the tensor of mesh nodes in the order of idx_mesh, and skip applied to it *)
Definition skip_mesh : list bool :=
  map (fun t => let '(i, j, k) := t in skip (mesh ax i) (mesh ay j) (mesh az k)) (triples (nx + 1) (ny + 1) (nz + 1)).
Definition skip_mesh_at (i j k : nat) : bool := nth (idx_mesh i j k) skip_mesh false.
(** .h:189-208: a cell is skipped if all its eight corners are *)
Definition skip_cell (i j k : nat) : bool :=
  skip_mesh_at i j k && skip_mesh_at i j (k+1) && skip_mesh_at i (j+1) k && skip_mesh_at i (j+1) (k+1) &&
  skip_mesh_at (i+1) j k && skip_mesh_at (i+1) j (k+1) && skip_mesh_at (i+1) (j+1) k && skip_mesh_at (i+1) (j+1) (k+1).
(** .h:229-243: the tensor of the interpolation points in the order of idx_dof *)
Definition doftensor : list (R * R * R) :=
  map (fun t => let '(i, j, k) := t in (dof r ax i, dof r ay j, dof r az k)) (triples (nx * d + 1) (ny * d + 1) (nz * d + 1)).
Definition kept_cells : list (nat * nat * nat) := filter (fun t => let '(i, j, k) := t in negb (skip_cell i j k)) (triples nx ny nz).
(** .h:248-263: dofs of kept cells are kept *)
Definition skip_dof (n : nat) : bool :=
  negb (existsb (fun t => let '(i, j, k) := t in
          existsb (fun u => let '(ii, jj, kk) := u in (n =? idx_dof (i * d + ii) (j * d + jj) (k * d + kk))%nat) (triples (d+1) (d+1) (d+1)))
        kept_cells).
(** .h:270-284: the loop building full_to_reduced_map and reduced_to_full_map *)
Fixpoint maps (skips : list bool) (i ctr : nat) (f2r r2f : list nat) : list nat * list nat :=
  match skips with
  | [] => (f2r, r2f)
  | true :: s => maps s (S i) (S ctr) (f2r ++ [(i - ctr)%nat]) r2f
  | false :: s => maps s (S i) ctr (f2r ++ [(i - ctr)%nat]) (r2f ++ [i])
  end.
Definition all_maps := maps (map skip_dof (seq 0 ((nx * d + 1) * (ny * d + 1) * (nz * d + 1)))) 0 0 [] [].
(** .h:286-294 *)
Definition reduced_points : list (R * R * R) := map (fun n => nth n doftensor (0, 0, 0)) (snd all_maps).

(** impl.h:14-31: the function is called on batches; [fbatch] is the user's batch function *)
Definition slice {A} (first last : nat) (l : list A) : list A := firstn (last - first) (skipn first l).
Definition batches (B : nat) {A} (fbatch : list A -> list R) (l : list A) : list R :=
  flat_map (fun i => fbatch (slice (i * B) (Nat.min ((i + 1) * B) (length l)) l))
           (seq 0 (length l / B + (if (length l mod B =? 0)%nat then 0 else 1))).
Definition vals (fbatch : list (R * R * R) -> list R) : list R := batches (Nat.pow 2 14) fbatch reduced_points.
(** impl.h:36-56: the values of one cell *)
Definition local_val (v : list R) (cell : nat * nat * nat) (ii jj kk : nat) : R :=
  let '(i, j, k) := cell in nth (nth (idx_dof (i * d + ii) (j * d + jj) (k * d + kk)) (fst all_maps) 0%nat) v 0.
(** the map meshidx -> local values: the kept cell with a given index *)
Definition find_cell (key : Z) : option (nat * nat * nat) :=
  find (fun t => let '(i, j, k) := t in (Z.of_nat (idx_cell i j k) =? key)%Z) kept_cells.

(** impl.h:198-219 (121-143, 148-170 for the SIMD version): the tensor product sum *)
Definition sum_n (n : nat) (f : nat -> R) : R := fold_left (fun s i => s + f i) (seq 0 n) 0.
Definition evaluate_local (v : list R) (cell : nat * nat * nat) (x y z : R) : R :=
  sum_n (d + 1) (fun i => sum_n (d + 1) (fun j => sum_n (d + 1) (fun k => local_val v cell i j k * basis_fun r k z) * basis_fun r j y) * basis_fun r i x).

Variable junk : axis -> Z -> R.
Definition mesh_at (a : axis) (i : Z) : R :=
  if ((0 <=? i) && (i <=? Z.of_nat (a_n a)))%Z then mesh a (Z.to_nat i) else junk a i.
(** impl.h:88-96: the shift by _EPS_ at and beyond the ends *)
Definition eps : R := / 10 ^ 13.
Definition shift (a : axis) (x : R) : R := if Rle_dec (a_max a) x then x - eps else if Rle_dec x (a_min a) then x + eps else x.
(** impl.h:98-100 *)
Definition locate (a : axis) (x : R) : Z := rtrunc (INR (a_n a) * (x - a_min a) / (a_max a - a_min a)).
Inductive result := Value (v : R) | Unchanged | Throw.
(** impl.h:84-113 evaluate_inplace and 116-127 evaluate_local; [v] the stored values *)
Definition in_range (a : axis) (i : Z) : bool := ((0 <=? i) && (i <? Z.of_nat (a_n a)))%Z.
Definition evaluate (oob_ok : bool) (v : list R) (x y z : R) : result :=
  let x := shift ax x in let y := shift ay y in let z := shift az z in
  let xi := locate ax x in let yi := locate ay y in let zi := locate az z in
  if negb oob_ok && negb (in_range ax xi && in_range ay yi && in_range az zi) then Throw
  else
    let xl := (x - mesh_at ax xi) / hstep ax in
    let yl := (y - mesh_at ay yi) / hstep ay in
    let zl := (z - mesh_at az zi) / hstep az in
    match find_cell (xi * Z.of_nat ny * Z.of_nat nz + yi * Z.of_nat nz + zi)%Z with
    | Some c => Value (evaluate_local v c xl yl zl)
    | None => if oob_ok then Unchanged else Throw
    end.
End Grid.
