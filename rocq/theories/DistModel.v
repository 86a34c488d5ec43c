(** Model of the distance objectives (src/simsopt/geo/curveobjectives.py "py:") and of the search for close point clouds
    (src/simsoptpp/python_distance.cpp "cpp:"), over exact reals.
    Simplifications: C++ ints do not overflow; the OpenMP loops that push candidates under a critical section are run in order,
    the theorems hold for every permutation of the result; a std::set is the sorted list of its elements. *)
From Coq Require Import Reals Lra Lia ZArith List Bool.
From Verif Require Import ListAux VecAux Vec3 CurveDiff.
Import ListNotations.
Open Scope R_scope.

(** * The candidates *)
Definition cell := (Z * Z * Z)%type.
(** operator< and operator== of std::tuple<int, int, int> *)
Definition cell_eqb (a b : cell) : bool := match a, b with (i, j, k), (i', j', k') => ((i =? i') && (j =? j') && (k =? k'))%Z end.
Definition cell_ltb (a b : cell) : bool := match a, b with (i, j, k), (i', j', k') =>
  ((i <? i') || ((i =? i') && ((j <? j') || ((j =? j') && (k <? k')))))%Z end.
(** set::insert *)
Fixpoint insert (c : cell) (s : list cell) : list cell :=
  match s with [] => [c] | a :: r => if cell_ltb c a then c :: s else if cell_eqb c a then s else a :: insert c r end.
(** cpp:12-27 empty_intersection: two iterators *)
Fixpoint empty_intersection (x : list cell) : list cell -> bool :=
  match x with
  | [] => fun _ => true
  | a :: x' => fix loop (y : list cell) : bool :=
      match y with
      | [] => true
      | b :: y' => if cell_eqb a b then false else if cell_ltb a b then empty_intersection x' y else loop y'
      end
  end.
(** cpp:29-38 *)
Definition two_points_too_close_exist (A B : list vec3) (t2 : R) : bool :=
  existsb (fun a => existsb (fun b => if Rlt_dec ((vx a - vx b) ^ 2 + (vy a - vy b) ^ 2 + (vz a - vz b) ^ 2) t2 then true else false) B) A.
(** cpp:61-63; floor is Int_part *)
Definition cell_of (t : R) (p : vec3) : cell := (Int_part (vx p / t), Int_part (vy p / t), Int_part (vz p / t)).
(** cpp:65-71 *)
Definition neighbours (c : cell) : list cell := match c with (i, j, k) =>
  flat_map (fun ii => flat_map (fun jj => map (fun kk => ((i + ii)%Z, (j + jj)%Z, (k + kk)%Z)) [-1; 0; 1]%Z) [-1; 0; 1]%Z) [-1; 0; 1]%Z end.
Definition set_of (t : R) (cloud : list vec3) : list cell := fold_left (fun s p => insert (cell_of t p) s) cloud [].
Definition set_extended (t : R) (cloud : list vec3) : list cell := fold_left (fun s p => fold_left (fun s c => insert c s) (neighbours (cell_of t p)) s) cloud [].
Definition cloud (l : list (list vec3)) (i : nat) : list vec3 := nth i l [].
(** cpp:40-109 get_pointclouds_closer_than_threshold_within_collection; None: division by zero, then int(nan or inf) *)
Definition within_collection (clouds : list (list vec3)) (t : R) (num_base : nat) : option (list (nat * nat)) :=
  if Req_EM_T t 0 then None else
  let c1 := flat_map (fun i => flat_map (fun j => if (j <? num_base)%nat then [(i, j)] else []) (seq 0 i)) (seq 0 (length clouds)) in
  let c2 := filter (fun ij => negb (empty_intersection (set_extended t (cloud clouds (fst ij))) (set_of t (cloud clouds (snd ij))))) c1 in
  Some (filter (fun ij => two_points_too_close_exist (cloud clouds (fst ij)) (cloud clouds (snd ij)) (t * t)) c2).
(** cpp:111-177 get_pointclouds_closer_than_threshold_between_two_collections *)
Definition between_collections (A B : list (list vec3)) (t : R) : option (list (nat * nat)) :=
  if Req_EM_T t 0 then None else
  let c1 := flat_map (fun i => map (fun j => (i, j)) (seq 0 (length B))) (seq 0 (length A)) in
  let c2 := filter (fun ij => negb (empty_intersection (set_of t (cloud A (fst ij))) (set_extended t (cloud B (snd ij))))) c1 in
  Some (filter (fun ij => two_points_too_close_exist (cloud A (fst ij)) (cloud B (snd ij)) (t * t)) c2).

(** * CurveCurveDistance *)
(** a quadrature point of a curve (gamma, gammadash), or of a surface (gamma, normal) *)
Notation qpoint := (vec3 * vec3)%type.
Definition dist (a b : vec3) : R := sqrt ((vx a - vx b) ^ 2 + (vy a - vy b) ^ 2 + (vz a - vz b) ^ 2).
(** one summand of cc_distance_pure and cs_distance_pure *)
Definition penalty (d : R) (a b : qpoint) : R := norm3 (snd a) * norm3 (snd b) * Rmax (d - dist (fst a) (fst b)) 0 ^ 2.
(** py:149-157 cc_distance_pure; py:252-260 cs_distance_pure (jnp.mean over the same array) *)
Definition pair_penalty (d : R) (A B : list qpoint) : R :=
  rsuml (map (fun a => rsuml (map (fun b => penalty d a b) B)) A) / (INR (length A) * INR (length B)).
Definition crv (curves : list (list qpoint)) (i : nat) : list qpoint := nth i curves [].
(** py:229-241 J, given the candidates *)
Definition cc_J (d : R) (curves : list (list qpoint)) (candidates : list (nat * nat)) : R :=
  fold_left (fun res ij => res + pair_penalty d (crv curves (fst ij)) (crv curves (snd ij))) candidates 0.
(** py:194 num_basecurves or len(curves) *)
Definition num_base (nb : option nat) (n : nat) : nat := match nb with None => n | Some O => n | Some k => k end.
(** py:200-204 compute_candidates *)
Definition cc_candidates (d : R) (nb : option nat) (curves : list (list qpoint)) : option (list (nat * nat)) :=
  within_collection (map (map fst) curves) d (num_base nb (length curves)).
(** python's min of a list; None: ValueError *)
Definition pymin (l : list R) : option R := match l with [] => None | a :: r => Some (fold_left Rmin r a) end.
(** np.min(cdist(A, B)) of non-empty clouds *)
Definition cloud_dist (A B : list qpoint) : option R := pymin (flat_map (fun a => map (fun b => dist (fst a) (fst b)) B) A).
Fixpoint sequence {A} (l : list (option A)) : option (list A) := match l with [] => Some [] | Some a :: r => option_map (cons a) (sequence r) | None :: _ => None end.
(** py:206-217 shortest_distance, given the candidates *)
Definition cc_shortest (d : R) (curves : list (list qpoint)) (candidates : list (nat * nat)) : option R :=
  let dists l := sequence (map (fun ij => cloud_dist (crv curves (fst ij)) (crv curves (snd ij))) l) in
  match candidates with
  | _ :: _ => match dists candidates with Some l => pymin (d :: l) | None => None end
  | [] => match dists (flat_map (fun i => map (fun j => (i, j)) (seq 0 i)) (seq 0 (length curves))) with Some l => pymin l | None => None end
  end.
(** py:243-266 dJ.  thisgrad0..3 are the jax gradients of J_jax; written out here.  grad0: with respect to gamma1[k];
    grad1: with respect to gammadash1[k]; grad2 and grad3 the same for the second curve *)
Definition dpen_gamma (d : R) (a b : qpoint) : vec3 :=
  scal3 (norm3 (snd a) * norm3 (snd b) * (2 * Rmax (d - dist (fst a) (fst b)) 0) * (- / dist (fst a) (fst b))) (sub3 (fst a) (fst b)).
Definition dpen_dash (d : R) (a b : qpoint) : vec3 :=
  scal3 (norm3 (snd b) * Rmax (d - dist (fst a) (fst b)) 0 ^ 2 / norm3 (snd a)) (snd a).
Definition grad_of (g : R -> qpoint -> qpoint -> vec3) (d : R) (A B : list qpoint) : list vec3 :=
  map (fun a => scal3 (/ (INR (length A) * INR (length B))) (sum3 (map (fun b => g d a b) B))) A.
(** "vecs[i] += v": one accumulator per curve *)
Definition bump (i : nat) (v : list vec3) (vecs : list (list vec3)) : list (list vec3) :=
  map (fun k => if (k =? i)%nat then vmap2 add3 (nth k vecs []) v else nth k vecs []) (seq 0 (length vecs)).
Definition cc_vecs (d : R) (curves : list (list qpoint)) (candidates : list (nat * nat)) : list (list vec3) * list (list vec3) :=
  let z := map (map (fun _ => v0)) curves in
  fold_left (fun gd ij => let A := crv curves (fst ij) in let B := crv curves (snd ij) in
    (bump (snd ij) (grad_of dpen_gamma d B A) (bump (fst ij) (grad_of dpen_gamma d A B) (fst gd)),
     bump (snd ij) (grad_of dpen_dash d B A) (bump (fst ij) (grad_of dpen_dash d A B) (snd gd)))) candidates (z, z).

(** * CurveSurfaceDistance *)
Definition cs_candidates (d : R) (curves : list (list qpoint)) (surface : list qpoint) : option (list (nat * nat)) :=
  between_collections (map (map fst) curves) [map fst surface] d.
(** py:322-335 J *)
Definition cs_J (d : R) (curves : list (list qpoint)) (surface : list qpoint) (candidates : list (nat * nat)) : R :=
  fold_left (fun res ij => res + pair_penalty d (crv curves (fst ij)) surface) candidates 0.
(** the object: py:279-301; the cached candidates are dropped by recompute_bell, which rings when a curve changes, not when the
    surface does (depends_on=curves) *)
Record csd := CSD { cs_curves : list (list qpoint); cs_surface : list qpoint; cs_cand : option (list (nat * nat)) }.
Inductive cs_op := MoveCurves (c : list (list qpoint)) | MoveSurface (s : list qpoint) | AskJ.
(** None: the undefined conversion for d = 0 *)
Fixpoint cs_history (d : R) (ops : list cs_op) (o : csd) : option (list R * csd) :=
  match ops with
  | [] => Some ([], o)
  | MoveCurves c :: r => cs_history d r (CSD c (cs_surface o) None)
  | MoveSurface s :: r => cs_history d r (CSD (cs_curves o) s (cs_cand o))
  | AskJ :: r =>
      match (match cs_cand o with Some c => Some c | None => cs_candidates d (cs_curves o) (cs_surface o) end) with
      | None => None
      | Some c => match cs_history d r (CSD (cs_curves o) (cs_surface o) (Some c)) with
                  | Some (l, o') => Some (cs_J d (cs_curves o) (cs_surface o) c :: l, o') | None => None end
      end
  end.
(** py:337-357 dJ: the surface is not differentiated *)
Definition cs_vecs (d : R) (curves : list (list qpoint)) (surface : list qpoint) (candidates : list (nat * nat)) : list (list vec3) * list (list vec3) :=
  let z := map (map (fun _ => v0)) curves in
  fold_left (fun gd ij => let A := crv curves (fst ij) in
    (bump (fst ij) (grad_of dpen_gamma d A surface) (fst gd), bump (fst ij) (grad_of dpen_dash d A surface) (snd gd))) candidates (z, z).
(** py:303-319 shortest_distance, given the candidates *)
Definition cs_shortest (d : R) (curves : list (list qpoint)) (surface : list qpoint) (candidates : list (nat * nat)) : option R :=
  match candidates with
  | _ :: _ => match sequence (map (fun ij => cloud_dist (crv curves (fst ij)) surface) candidates) with Some l => pymin (d :: l) | None => None end
  | [] => match sequence (map (fun i => cloud_dist (crv curves i) surface) (seq 0 (length curves))) with Some l => pymin l | None => None end
  end.
