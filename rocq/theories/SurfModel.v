(** Model of the coefficient arrays of SurfaceRZFourier (src/simsopt/geo/surfacerzfourier.py:64-140, 583-736;
    src/simsoptpp/surfacerzfourier.h:30-101): dofs, names, accessors, change_resolution, fixed_range.
    An array of shape (mpol+1, 2*ntor+1) is the list of its entries in row-major order (rc.data()).
    A name such as 'rc(2,-1)' is modelled by the triple (array, m, n). *)
From Coq Require Import Reals Lra Lia ZArith.
From Verif Require Import ListAux VecAux.
Open Scope nat_scope.

Inductive kind := RC | RS | ZC | ZS.
Definition kind_eqb (a b : kind) : bool := match a, b with RC, RC | RS, RS | ZC, ZC | ZS, ZS => true | _, _ => false end.
Record surf := Surf { mpol : nat; ntor : nat; stellsym : bool; arr : kind -> list R }.
Definition width (s : surf) : nat := 2 * ntor s + 1.
(** shift in set_dofs_impl / get_dofs *)
Definition total (s : surf) : nat := (mpol s + 1) * width s.
(** first entry of an array that is a dof: .h:64-99 *)
Definition first (s : surf) (k : kind) : nat := match k with RC | ZC => ntor s | RS | ZS => ntor s + 1 end.
Definition order (s : surf) : list kind := if stellsym s then [RC; ZS] else [RC; RS; ZC; ZS].

(** .h:45-50 allocate, and the initial arrays *)
Definition allocate (mp nt : nat) (ss : bool) : surf := Surf mp nt ss (fun _ => repeat 0%R ((mp + 1) * (2 * nt + 1))).
(** .h:52-57 num_dofs (the subtraction never goes below zero) *)
Definition num_dofs (s : surf) : nat :=
  if stellsym s then 2 * (mpol s + 1) * (2 * ntor s + 1) - ntor s - (ntor s + 1)
  else 4 * (mpol s + 1) * (2 * ntor s + 1) - 2 * ntor s - 2 * (ntor s + 1).
(** .h:81-101 get_dofs: for each array in order, i from first to total *)
Definition get_dofs (s : surf) : list R :=
  flat_map (fun k => map (fun i => nth i (arr s k) 0%R) (seq (first s k) (total s - first s k))) (order s).
(** .h:59-79 set_dofs_impl: the counter runs through dofs *)
Definition write_arr (a : list R) (start tot : nat) (dofs : list R) (counter : nat) : list R :=
  map (fun i => if (start <=? i) then nth (counter + (i - start)) dofs 0%R else nth i a 0%R) (seq 0 tot).
Definition upd_arr (f : kind -> list R) (k : kind) (a : list R) : kind -> list R := fun k' => if kind_eqb k' k then a else f k'.
Definition set_dofs (s : surf) (dofs : list R) : surf :=
  snd (fold_left (fun cs k => let '(c, s) := cs in
         (c + (total s - first s k),
          Surf (mpol s) (ntor s) (stellsym s) (upd_arr (arr s) k (write_arr (arr s k) (first s k) (total s) dofs c))))
       (order s) (0, s)).

(** names *)
Definition name := (kind * nat * Z)%type.
(** py:112-121 _make_names_helper *)
Definition names_helper (s : surf) (k : kind) (include0 : bool) : list name :=
  (if include0 then [(k, 0, 0%Z)] else []) ++ map (fun n => (k, 0, Z.of_nat n)) (seq 1 (ntor s)) ++
  flat_map (fun m => map (fun j => (k, m, (Z.of_nat j - Z.of_nat (ntor s))%Z)) (seq 0 (2 * ntor s + 1))) (seq 1 (mpol s)).
(** py:96-110 _make_names *)
Definition make_names (s : surf) : list name :=
  if stellsym s then names_helper s RC true ++ names_helper s ZS false
  else names_helper s RC true ++ names_helper s RS false ++ names_helper s ZC true ++ names_helper s ZS false.
(** py:123-139 _make_mn: meshgrid, flatten, drop the first ntor *)
Definition mn0 (s : surf) : list (nat * Z) :=
  skipn (ntor s) (flat_map (fun m => map (fun j => (m, (Z.of_nat j - Z.of_nat (ntor s))%Z)) (seq 0 (2 * ntor s + 1))) (seq 0 (mpol s + 1))).
Definition make_mn (s : surf) : list (nat * Z) :=
  let m := mn0 s ++ skipn 1 (mn0 s) in if stellsym s then m else m ++ m.

(** py:627-638 _validate_mn (m and n are python integers) *)
Definition valid_mn (s : surf) (m n : Z) : bool :=
  ((0 <=? m) && (m <=? Z.of_nat (mpol s)) && (n <=? Z.of_nat (ntor s)) && (- Z.of_nat (ntor s) <=? n))%Z.
Definition at_mn (s : surf) (m n : Z) : nat := Z.to_nat m * width s + Z.to_nat (n + Z.of_nat (ntor s)).
(** py:640-672 getters.  For a stellarator-symmetric surface get_rs and get_zc *return* a ValueError object *)
Inductive got := Val (v : R) | ReturnsValueError | RaisesIndexError.
Definition absent (s : surf) (k : kind) : bool := stellsym s && match k with RS | ZC => true | _ => false end.
Definition get_coef (s : surf) (k : kind) (m n : Z) : got :=
  if absent s k then ReturnsValueError else if valid_mn s m n then Val (nth (at_mn s m n) (arr s k) 0%R) else RaisesIndexError.
(** py:674-710 setters: write the entry, then local_full_x = get_dofs(), whose setter calls set_dofs_impl.
    The second component: None = ordinary return. *)
Definition replace (l : list R) (i : nat) (v : R) : list R := map (fun j => if j =? i then v else nth j l 0%R) (seq 0 (length l)).
Definition set_coef (s : surf) (k : kind) (m n : Z) (v : R) : surf * option got :=
  if absent s k then (s, Some ReturnsValueError)
  else if valid_mn s m n then
    let s := Surf (mpol s) (ntor s) (stellsym s) (upd_arr (arr s) k (replace (arr s k) (at_mn s m n) v)) in
    (set_dofs s (get_dofs s), None)
  else (s, Some RaisesIndexError).

(** py:583-615 change_resolution.  In the loops m runs over 0..min mpol and n over -min ntor..min ntor; every
    other entry keeps the zero of allocate *)
Definition change_resolution (s : surf) (mp nt : nat) : surf :=
  let s' := allocate mp nt (stellsym s) in
  let min_mpol := Nat.min mp (mpol s) in
  let min_ntor := Nat.min nt (ntor s) in
  let copy k := fold_left (fun a mj => let '(m, j) := mj in   (* n = j - min_ntor *)
                   replace a (m * (2 * nt + 1) + (j + nt - min_ntor)) (nth (m * width s + (j + ntor s - min_ntor)) (arr s k) 0%R))
                 (list_prod (seq 0 (min_mpol + 1)) (seq 0 (2 * min_ntor + 1))) (arr s' k) in
  Surf mp nt (stellsym s) (fun k => if absent s k then arr s' k else copy k).

(** py:712-736 fixed_range: the names passed to fix, in order (mmin..mmax may be any integers; m is used as is) *)
Definition zrange (a b : Z) : list Z := map (fun i => (a + Z.of_nat i)%Z) (seq 0 (Z.to_nat (b - a))).
Definition fixed_names (s : surf) (mmin mmax nmin nmax : Z) : list (kind * Z * Z) :=
  flat_map (fun m =>
    let this_nmin := (if (m =? 0) && (nmin <? 0) then 0 else nmin)%Z in
    flat_map (fun n =>
      (RC, m, n) :: (if ((0 <? m) || negb (n =? 0))%Z then [(ZS, m, n)] else []) ++
      (if stellsym s then [] else (ZC, m, n) :: (if ((0 <? m) || negb (n =? 0))%Z then [(RS, m, n)] else [])))
    (zrange this_nmin (nmax + 1))) (zrange mmin (mmax + 1)).

(** ** Well-formed surfaces: what allocate makes and every operation keeps *)
Definition wf (s : surf) : Prop := forall k, length (arr s k) = total s.
(** the coefficient (m,n) of an array, as a specification *)
Definition coef (s : surf) (k : kind) (m : nat) (n : Z) : R := nth (m * width s + Z.to_nat (n + Z.of_nat (ntor s))) (arr s k) 0%R.
Definition in_range (s : surf) (m : nat) (n : Z) : Prop := m <= mpol s /\ (- Z.of_nat (ntor s) <= n <= Z.of_nat (ntor s))%Z.
(** which coefficients are dofs *)
Definition is_dof (s : surf) (k : kind) (m : nat) (n : Z) : Prop :=
  in_range s m n /\ (stellsym s = true -> k = RC \/ k = ZS) /\
  (m = 0 -> match k with RC | ZC => (0 <= n)%Z | RS | ZS => (0 < n)%Z end).
