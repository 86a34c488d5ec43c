(** Model of src/simsopt/geo/wireframe_toroidal.py ("py:"): the tables of a toroidal wireframe, its constraints and their bookkeeping.
    Indices are natural numbers; entries of the keys that the code leaves at -1 are the number [unset], which is no segment.
    Arrays over the segments are functions of the segment index.  Simplifications: exact reals; user constraints with a type other than the
    built-in ones are supported, user constraints that pretend to be segment constraints are not; to_vtk and plotting are left out. *)
From Coq Require Import Reals Lra Lia List Bool Arith ZArith.
From Verif Require Import ListAux VecAux Vec3 SurfModel SurfGeom CurveObjModel.
Import ListNotations.
Open Scope R_scope.

Section WF.
Variables (nt np : nat).   (* n_theta, n_phi *)
Definition half : nat := (nt / 2)%nat.
(** py:120-122, 79 *)
Definition ntors : nat := (nt * np)%nat.
Definition nseg : nat := (ntors + ntors)%nat.
Definition nnodes : nat := ((np + 1) * nt)%nat.
Definition unset : nat := nseg.
(** py:84 node_inds *)
Definition node (i j : nat) : nat := (i * nt + j)%nat.
(** py:131-135 *)
Definition torkey (i j : nat) : nat := if (i <? np)%nat then (i * nt + j)%nat else unset.
(** py:139-159 *)
Definition polkey (i j : nat) : nat :=
  if (i =? 0)%nat then (if (j <? half)%nat then ntors + j else unset)
  else if (i <? np)%nat then ntors + (half + (i - 1) * nt + j)
  else if (j <? half)%nat then ntors + (ntors - half + j) else unset.
(** py:124-165: first and second column of segments *)
Definition seg_start (s : nat) : nat :=
  if (s <? ntors)%nat then s
  else let p := (s - ntors)%nat in
    if (p <? half)%nat then node 0 p
    else if (p <? half + (np - 1) * nt)%nat then node (1 + (p - half) / nt) ((p - half) mod nt)
    else node np (p - (ntors - half)).
Definition seg_end (s : nat) : nat :=
  if (s <? ntors)%nat then (s + nt)%nat
  else let p := (s - ntors)%nat in
    if (p <? half)%nat then node 0 (p + 1)
    else if (p <? half + (np - 1) * nt)%nat then let j := ((p - half) mod nt)%nat in node (1 + (p - half) / nt) (if (j =? nt - 1)%nat then 0 else j + 1)
    else node np (p - (ntors - half) + 1).

(** py:182-243 determine_connected_segments *)
Definition plane_pol (i j : nat) : nat * nat :=   (* symmetry planes: ind_pol_in, ind_pol_out *)
  if (j =? 0)%nat then (polkey i 0, polkey i 0)
  else if (j <? half)%nat then (polkey i (j - 1), polkey i j)
  else if (j =? half)%nat then (polkey i (j - 1), polkey i (j - 1))
  else (polkey i (nt - j), polkey i (nt - j - 1)).
Definition connected (i j : nat) : list nat :=    (* ind_tor_in, ind_pol_in, ind_tor_out, ind_pol_out *)
  if (i =? 0)%nat then [torkey i ((nt - j) mod nt); fst (plane_pol i j); torkey i j; snd (plane_pol i j)]
  else if (i <? np)%nat then [torkey (i - 1) j; (if (j =? 0)%nat then polkey i (nt - 1) else polkey i (j - 1)); torkey i j; polkey i j]
  else [torkey (i - 1) j; fst (plane_pol i j); torkey (i - 1) ((nt - j) mod nt); snd (plane_pol i j)].
Definition connected_at (k : nat) : list nat := connected (k / nt) (k mod nt).

(** py:245-309 set_up_cell_key *)
Definition cell_key (i j : nat) : list nat :=     (* ind_tor1, ind_pol2, ind_tor3, ind_pol4 *)
  if (i =? 0)%nat then [torkey i j; polkey (i + 1) j; torkey i ((j + 1) mod nt); (if (j <? half)%nat then polkey i j else polkey i (nt - j - 1))]
  else if (i <? np - 1)%nat then [torkey i j; polkey (i + 1) j; torkey i ((j + 1) mod nt); polkey i j]
  else [torkey i j; (if (j <? half)%nat then polkey (i + 1) j else polkey (i + 1) (nt - j - 1)); torkey i ((j + 1) mod nt); polkey i j].
(** (j - 1) % n_theta *)
Definition pred_mod (j : nat) : nat := if (j =? 0)%nat then (nt - 1)%nat else (j - 1)%nat.
Definition cell_neighbors (i j : nat) : list (nat * nat) :=   (* npol, ptor, ppol, ntor, as (i, j) *)
  if (i =? 0)%nat then [(i, pred_mod j); (i + 1, j); (i, (j + 1) mod nt); (i, nt - j - 1)]%nat
  else if (i <? np - 1)%nat then [(i, pred_mod j); (i + 1, j); (i, (j + 1) mod nt); (i - 1, j)]%nat
  else [(i, pred_mod j); (i, nt - j - 1); (i, (j + 1) mod nt); (i - 1, j)]%nat.

(** ** Constraint rows *)
Definition row := nat -> R.
(** py:858-867: the second assignment overwrites the first *)
Definition cont_row (c : list nat) : row := fun s => if (s =? nth 2 c O)%nat || (s =? nth 3 c O)%nat then 1 else if (s =? nth 0 c O)%nat || (s =? nth 1 c O)%nat then -1 else 0.
(** py:841-849 *)
Definition has_continuity (i j : nat) : bool := negb (((i =? 0) || (i =? np)) && ((j =? 0) || (half <=? j)))%nat.
(** py:397-410; the slice a:b:step *)
Definition slice (a b step s : nat) : bool := (a <=? s)%nat && (s <? b)%nat && ((s - a) mod step =? 0)%nat.
Definition pol_row : row := fun s =>
  let i0 := (ntors + half - 1)%nat in let i1a := (i0 + half)%nat in let i2a := nseg in let i1b := (i1a + 1)%nat in let i2b := (nseg - nt + 1)%nat in
  if (s =? i0)%nat || slice i1a i2a nt s || slice i1b i2b nt s then 1 else 0.
Definition pol_const (nfp : nat) (current : R) : R := current / (2 * INR nfp * INR np) * INR np * 2.
(** py:458-459 *)
Definition tor_row : row := fun s => if (s <? nt)%nat then 1 else 0.
(** py:529-530 *)
Definition seg_row (i : nat) : row := fun s => if (s =? i)%nat then 1 else 0.
Definition dotr (r : row) (x : nat -> R) : R := sum_to nseg (fun s => r s * x s).

(** ** The constraint dictionary *)
Inductive cname := CCont (k : nat) | CPolC | CTorC | CSeg (s : nat) | CImp (s : nat) | CUser (n : nat).
Definition cname_eq_dec (a b : cname) : {a = b} + {a <> b}.
Proof. decide equality; apply Nat.eq_dec. Defined.
Record constr := C { cn : cname; crow : row; cst : R }.
(** constraints (in insertion order) and implicits_updated *)
Record wst := W { cons : list constr; fresh : bool }.
Inductive err := ValueError | AttributeError | AssertionError | RuntimeError | ZeroDivisionError.
Definition out := (wst * option err)%type.
Definition bind (o : out) (f : wst -> out) : out := match snd o with None => f (fst o) | Some _ => o end.
Fixpoint each {A} (f : A -> wst -> out) (l : list A) (w : wst) : out := match l with [] => (w, None) | a :: l => bind (f a w) (each f l) end.
Definition has (w : wst) (n : cname) : bool := if in_dec cname_eq_dec n (map cn (cons w)) then true else false.
Definition is_segment (n : cname) : bool := match n with CSeg _ | CImp _ => true | _ => false end.
(** py:316-354 add_constraint *)
Definition add (n : cname) (r : row) (c : R) (w : wst) : out :=
  if has w n then (w, Some ValueError) else (W (cons w ++ [C n r c]) (fresh w && negb (is_segment n)), None).
(** py:356-379 remove_constraint, one name *)
Definition remove (n : cname) (w : wst) : out :=
  if has w n then (W (filter (fun c => if cname_eq_dec (cn c) n then false else true) (cons w)) (fresh w && negb (is_segment n)), None) else (w, Some ValueError).
(** py:412-441 *)
Definition add_pol (nfp : nat) (current : R) : wst -> out := add CPolC pol_row (pol_const nfp current).
Definition set_pol (nfp : nat) (current : R) (w : wst) : out := bind (if has w CPolC then remove CPolC w else (w, None)) (add_pol nfp current).
(** py:461-490 *)
Definition add_tor (current : R) : wst -> out := add CTorC tor_row current.
Definition set_tor (current : R) (w : wst) : out := bind (if has w CTorC then remove CTorC w else (w, None)) (add_tor current).
(** py:492-532 add_segment_constraints; the method remove_segment_constraint called in the first loop does not exist *)
Definition add_seg (implicit : bool) (segs : list nat) (w : wst) : out :=
  if existsb (fun s => nseg <=? s)%nat segs then (w, Some ValueError)
  else if negb implicit && existsb (fun s => has w (CImp s)) segs then (w, Some AttributeError)
  else each (fun s => add (if implicit then CImp s else CSeg s) (seg_row s) 0) segs w.
(** py:534-563 remove_segment_constraints *)
Definition remove_seg (implicit : bool) (segs : list nat) (w : wst) : out :=
  if existsb (fun s => nseg <=? s)%nat segs then (w, Some ValueError) else each (fun s => remove (if implicit then CImp s else CSeg s)) segs w.
(** py:696-719 set_segments_free *)
Definition set_free (segs : list nat) (w : wst) : out :=
  if existsb (fun s => nseg <=? s)%nat segs then (w, Some ValueError)
  else each (fun s w => if has w (CSeg s) then remove (CSeg s) w else if has w (CImp s) then remove (CImp s) w else (w, None)) segs w.
(** py:565-583 set_segments_constrained *)
Definition set_constrained (implicit : bool) (segs : list nat) (w : wst) : out := bind (set_free segs w) (add_seg implicit segs).
(** py:721-730 free_all_segments *)
Definition free_all (w : wst) : out := each remove (filter is_segment (map cn (cons w))) w.
(** py:796-809 *)
Definition explicit (w : wst) : list nat := flat_map (fun c => match cn c with CSeg s => [s] | _ => [] end) (cons w).
Definition implicit (w : wst) : list nat := flat_map (fun c => match cn c with CImp s => [s] | _ => [] end) (cons w).
Definition memb (s : nat) (l : list nat) : bool := if in_dec Nat.eq_dec s l then true else false.
(** py:815-830, update=False *)
Definition unconstrained (w : wst) : list nat := filter (fun s => negb (memb s (explicit w ++ implicit w))) (seq 0 nseg).
(** py:743-753 *)
Definition node_sum (w : wst) (k : nat) : nat := list_sum (map (fun s => count_occ Nat.eq_dec (connected_at k) s) (unconstrained w)).
(** py:732-770 update_implicit_constraints; None: the loop has not ended after [fuel] turns *)
Definition implied_node (w : wst) (k : nat) : bool := (node_sum w k =? 1)%nat.
Definition add_implied (s : nat) (w : wst) : out := if negb (has w (CSeg s)) && negb (has w (CImp s)) then add_seg true [s] w else (w, None).
Definition round (w : wst) : out := each (fun k => each add_implied (connected_at k)) (filter (implied_node w) (seq 0 nnodes)) w.
Fixpoint rounds (fuel : nat) (w : wst) : option out :=
  match fuel with
  | O => None
  | S fuel => match filter (implied_node w) (seq 0 nnodes) with [] => Some (w, None) | _ => match round w with (w', None) => rounds fuel w' | o => Some o end end
  end.
Definition update_implicit (fuel : nat) (w : wst) : option out :=
  match each remove (filter (fun n => match n with CImp _ => true | _ => false end) (map cn (cons w))) w with
  | (w0, None) => match rounds fuel w0 with Some (w', None) => Some (W (cons w') true, None) | o => o end
  | o => Some o end.
(** py:793-794, 928-930 *)
Definition refreshed (fuel : nat) (w : wst) : option out := if fresh w then Some (w, None) else update_implicit fuel w.
Definition constrained_segments (fuel : nat) (w : wst) : option (out * list nat) :=
  match refreshed fuel w with Some (w', e) => Some ((w', e), explicit w' ++ implicit w')%list | None => None end.
(** py:832-856 add_continuity_constraints and the state after the constructor, py:178-180, 311-314 *)
Definition grid : list (nat * nat) := flat_map (fun i => map (fun j => (i, j)) (seq 0 nt)) (seq 0 (np + 1)).
Definition initial : out := each (fun ij => add (CCont (node (fst ij) (snd ij))) (cont_row (connected (fst ij) (snd ij))) 0) (filter (fun ij => has_continuity (fst ij) (snd ij)) grid) (W [] true).

(** py:967-1044 find_inactive_nodes: the nodes without free segments; [AssertionError] if some node has exactly one *)
Definition inactive (w : wst) : list nat := filter (fun k => node_sum w k =? 0)%nat (seq 0 nnodes).
Definition assertion (w : wst) : bool := negb (existsb (implied_node w) (seq 0 nnodes)).
(** py:988-1042 with assume_no_crossings: one node per loop.  [pick]: free_segs.pop() (any element of the non-empty set) *)
Variable (pick : list nat -> nat).
Definition take (c : list nat) (free : list nat) : list nat * list nat :=   (* segments of c found in the set, each removed when found; what remains *)
  fold_left (fun a s => if memb s (snd a) then (fst a ++ [s], filter (fun t => negb (t =? s)%nat) (snd a))%list else a) c ([], free).
Inductive walk := Walked (lifted : option nat) (free : list nat) | Crossing | Lost.
Fixpoint follow (fuel : nat) (w : wst) (s : nat) (lifted : option nat) (free : list nat) : walk :=
  match fuel with
  | O => Lost
  | S fuel =>
      let n0 := seg_start s in
      let lifted := match lifted with Some k => Some k | None => if has w (CCont n0) then Some n0 else None end in
      let '(f0, free0) := take (connected_at n0) free in
      let '(f, free') := match f0 with [] => take (connected_at (seg_end s)) free0 | _ => (f0, free0) end in
      match f with [] => Walked lifted free' | [s'] => follow fuel w s' lifted free' | _ => Crossing end
  end.
Fixpoint loops (fuel : nat) (w : wst) (free : list nat) (acc : list nat) : option (list nat) :=   (* None: RuntimeError *)
  match fuel with
  | O => Some acc
  | S fuel => match free with [] => Some acc | _ =>
      let s := pick free in
      match follow (S nseg) w s None (filter (fun t => negb (t =? s)%nat) free) with
      | Walked l free' => loops fuel w free' (match l with Some k => k :: acc | None => acc end)
      | _ => None end end
  end.
Definition find_inactive (no_crossings : bool) (w : wst) : list nat + err :=
  if negb (assertion w) then inr AssertionError
  else if no_crossings then match loops (S nseg) w (unconstrained w) [] with Some l => inl (inactive w ++ l)%list | None => inr RuntimeError end
  else inl (inactive w).
(** py:870-965 constraint_matrices: the rows with their constants, and the columns that are kept *)
Definition constraint_matrices (fuel : nat) (redund rmcon no_crossings : bool) (w : wst) : option (out * (list constr * list nat)) :=
  match refreshed fuel w with
  | None => None
  | Some (w, Some e) => Some ((w, Some e), ([], []))
  | Some (w, None) =>
    match (if redund then find_inactive no_crossings w else inl []) with
    | inr e => Some ((w, Some e), ([], []))
    | inl nodes =>
      let keep c := negb (match cn c with CCont k => memb k nodes | _ => false end) && negb (rmcon && is_segment (cn c)) in
      match filter keep (cons w) with   (* np.concatenate of nothing *)
      | [] => Some ((w, Some ValueError), ([], []))
      | rows => Some ((w, None), (rows, if rmcon then unconstrained w else seq 0 nseg)) end
    end
  end.
(** py:1084-1110 get_free_cells *)
Definition free_cell (fuel : nat) (w : wst) (i j : nat) : option bool :=
  match constrained_segments fuel w with Some ((_, None), l) => Some (list_sum (map (fun s => count_occ Nat.eq_dec (cell_key i j) s) l) =? 0)%nat | _ => None end.
(** py:1112-1183 check_constraints *)
Definition meets (atol rtol : R) (x : nat -> R) (c : constr) : bool := if Rlt_dec (Rabs (dotr (crow c) x - cst c)) (atol + rtol * mean nseg (fun s => Rabs (x s))) then true else false.
Definition check (fuel : nat) (atol rtol : R) (x : nat -> R) (w : wst) : option bool :=
  match constraint_matrices fuel false false false w with Some ((_, None), (rows, _)) => Some (forallb (meets atol rtol x) rows) | _ => None end.
(** py:1207-1239, 670-672: ceil(linspace(0, n_phi, n, endpoint=False) + 0.5 n_phi / n), in exact arithmetic *)
Definition spread (n k : nat) : nat := (((2 * k + 1) * np + 2 * n - 1) / (2 * n))%nat.
Definition tf_added (n_tf : nat) (current : R) (s : nat) : R :=
  if existsb (fun k => let t := spread n_tf k in let i0 := if (t =? 0)%nat then ntors else (ntors + half + (t - 1) * nt)%nat in
                       let i1 := if (t =? 0)%nat then (i0 + half)%nat else (i0 + nt)%nat in (i0 <=? s)%nat && (s <? i1)%nat) (seq 0 n_tf) then current else 0.
Inductive tfres := TfOk (x : nat -> R) | TfError (x : nat -> R).
Definition add_tf (fuel : nat) (atol rtol : R) (n_tf : nat) (current : R) (w : wst) (x : nat -> R) : option tfres :=
  if (np <? n_tf)%nat || (n_tf =? 0)%nat then Some (TfError x)
  else let x' := fun s => tf_added n_tf current s + x s in match check fuel atol rtol x' w with Some true => Some (TfOk x') | Some false => Some (TfError x) | None => None end.
(** py:628-694 set_toroidal_breaks; n_breaks and width are whole numbers *)
Definition break_segs (n_breaks width : nat) (allow_pol : bool) : list nat :=
  flat_map (fun k => let i0 := (nt * (spread n_breaks k - (width + 1) / 2))%nat in
    (seq i0 (nt * width) ++ if (1 <? width)%nat && negb allow_pol then seq (ntors + i0 + half) (nt * (width - 1)) else [])%list) (seq 0 n_breaks).
(** the two assertions py:689-690 *)
Definition breaks_ok (n_breaks width : nat) (allow_pol : bool) : bool :=
  negb ((1 <? width)%nat && negb allow_pol) ||
  forallb (fun k => let i0 := (nt * (spread n_breaks k - (width + 1) / 2))%nat in let p0 := (ntors + i0 + half)%nat in (ntors + half <=? p0)%nat && (p0 + nt * (width - 1) <=? nseg - half)%nat) (seq 0 n_breaks).
Definition set_breaks (n_breaks width : nat) (allow_pol : bool) (w : wst) : out :=
  let go w := if (n_breaks =? 0)%nat then (w, Some ZeroDivisionError) else if breaks_ok n_breaks width allow_pol then set_constrained false (break_segs n_breaks width allow_pol) w else (w, Some AssertionError) in
  if (np <=? 2 * n_breaks)%nat || (np <? 2 * (n_breaks * width))%nat then (w, Some ValueError)
  else match find (fun c => if cname_eq_dec (cn c) CTorC then true else false) (cons w) with
    | Some c => if Req_EM_T (cst c) 0 then bind (remove CTorC w) go else (w, Some ValueError)
    | None => go w end.

(** ** Positions: py:67-117 and simsoptpp/magneticfield_wireframe.cpp:60-95 (every half period contributes sign * current between its copies of the two nodes) *)
Variables (s : surf) (nfp : nat).
Definition node_hp (k : nat) : vec3 := gamma_at s nfp [] (/ 2 / INR nfp * INR (k / nt) / INR np) (INR (k mod nt) / INR nt).
Definition rotz (a : R) (v : vec3) : vec3 := V3 (cos a * vx v - sin a * vy v) (sin a * vx v + cos a * vy v) (vz v).
Definition node_pos (h k : nat) : vec3 :=
  let base := if Nat.even h then node_hp k else let v := node_hp k in V3 (vx v) (- vy v) (- vz v) in
  let i := (h / 2)%nat in if (i =? 0)%nat then base else rotz (2 * INR i * PI / INR nfp) base.
Definition seg_sign (h : nat) : R := if Nat.even h then 1 else -1.
End WF.
