(** Model of NormalField (src/simsopt/field/normal_field.py:20-516): the Fourier modes of the normal field, kept twice: in the arrays
    _vns, _vnc and in the degrees of freedom (Optimizable.local_full_x).  None: an exception is raised. *)
From Coq Require Import ZArith Reals List Bool Lia.
From Verif Require Import ListAux.
Import ListNotations.
Open Scope Z_scope.

(** ** 2D numpy arrays: shape and entries; integer indices from the end are negative, anything else raises IndexError *)
Record arr := Arr { nrow : Z; ncol : Z; cell : Z -> Z -> R }.
Definition wrap (n i : Z) : option Z := if (0 <=? i) && (i <? n) then Some i else if (- n <=? i) && (i <? 0) then Some (i + n) else None.
Definition aget (a : arr) (i j : Z) : option R := match wrap (nrow a) i, wrap (ncol a) j with Some i, Some j => Some (cell a i j) | _, _ => None end.
Definition aset (a : arr) (i j : Z) (v : R) : option arr :=
  match wrap (nrow a) i, wrap (ncol a) j with
  | Some i, Some j => Some (Arr (nrow a) (ncol a) (fun k l => if (k =? i) && (l =? j) then v else cell a k l))
  | _, _ => None end.
(** bounds of a slice *)
Definition bound (n k : Z) : Z := if k <? 0 then Z.max 0 (k + n) else Z.min k n.
(** a[0:p, lo:hi] *)
Definition slice (a : arr) (p lo hi : Z) : arr :=
  let r := bound (nrow a) p in let l := bound (ncol a) lo in let h := bound (ncol a) hi in
  Arr (Z.max 0 r) (Z.max 0 (h - l)) (fun i j => cell a i (l + j)).
Definition zeros (p q : Z) : arr := Arr p q (fun _ _ => 0%R).

(** range(lo, hi) *)
Definition zrange (lo hi : Z) : list Z := map (fun k => lo + Z.of_nat k) (seq 0 (Z.to_nat (hi - lo))).
(** the double loop "for mm in range(0, mpol+1): for nn in range(-ntor, ntor+1): if mm == 0 and nn < 0: continue" (184-186, 305-308, 353-355) *)
Definition modes (mpol ntor : Z) : list (Z * Z) :=
  filter (fun p => negb ((fst p =? 0) && (snd p <? 0))) (flat_map (fun m => map (fun n => (m, n)) (zrange (- ntor) (ntor + 1))) (zrange 0 (mpol + 1))).

(** 227-267 get_index_in_dofs *)
Definition index (mpol ntor : Z) (even : bool) (m n : Z) : option Z :=
  if (m <? 0) || (mpol <? m) then None else
  if ntor <? Z.abs n then None else
  if (m =? 0) && (n <? 0) then None else
  if negb even && (m =? 0) && (n =? 0) then None else
  let ii := if m =? 0 then n else m * (2 * ntor + 1) + n in
  let nvns := ntor + mpol * (ntor * 2 + 1) in
  Some (if negb even then ii - 1 else ii + nvns).
(** 200-224 get_index_in_array *)
Definition index_in_array (mpol ntor : Z) (m n : Z) : option (Z * Z) :=
  if (m <? 0) || (mpol <? m) then None else
  if ntor <? Z.abs n then None else
  if (m =? 0) && (n <? 0) then None else Some (m, n + ntor).
(** 290-296 check_mn *)
Definition check_mn (mpol ntor m n : Z) : bool := negb ((m <? 0) || (mpol <? m)) && negb ((n <? - ntor) || (ntor <? n)) && negb ((m =? 0) && (n <? 0)).

(** [x]: local_full_x, an array of length ndof *)
Record nf := NF { mpol : Z; ntor : Z; ss : bool; vns : arr; vnc : option arr; x : Z -> R }.
(** 66-69 *)
Definition ndof_of (ss : bool) (mpol ntor : Z) : Z := if ss then ntor + mpol * (2 * ntor + 1) else 2 * (ntor + mpol * (2 * ntor + 1)) + 1.
Definition ndof (s : nf) : Z := ndof_of (ss s) (mpol s) (ntor s).

(** dofs[ii] = value, one after the other; None in the list: computing index or value raises *)
Definition upd (f : Z -> R) (k : Z) (v : R) : Z -> R := fun i => if i =? k then v else f i.
Fixpoint assign (l : list (option (Z * R))) (f : Z -> R) : option (Z -> R) :=
  match l with [] => Some f | None :: _ => None | Some (k, v) :: l => assign l (upd f k v) end.
Definition pair_opt (i : option Z) (v : option R) : option (Z * R) := match i, v with Some i, Some v => Some (i, v) | _, _ => None end.
(** 173-198 get_dofs *)
Definition writes (mpol ntor : Z) (ss : bool) (vns : arr) (vnc : option arr) (p : Z * Z) : list (option (Z * R)) :=
  let '(m, n) := p in
  let input_mpol := nrow vns - 1 in let input_ntor := Z.quot (ncol vns - 1) 2 in
  if input_mpol <? m then [] else if input_ntor <? n then [] else
  (if (m =? 0) && (n =? 0) then [] else [pair_opt (index mpol ntor false m n) (aget vns m (input_ntor + n))]) ++
  (if ss then [] else [pair_opt (index mpol ntor true m n) (match vnc with Some c => aget c m (input_ntor + n) | None => None end)]).
Definition get_dofs (mpol ntor : Z) (ss : bool) (vns : arr) (vnc : option arr) : option (Z -> R) :=
  assign (flat_map (writes mpol ntor ss vns vnc) (modes mpol ntor)) (fun _ => 0%R).
(** self.local_full_x = self.get_dofs() *)
Definition refresh (s : nf) : option nf :=
  match get_dofs (mpol s) (ntor s) (ss s) (vns s) (vnc s) with Some f => Some (NF (mpol s) (ntor s) (ss s) (vns s) (vnc s) f) | None => None end.
(** 49-82 *)
Definition new (mpol ntor : Z) (ss : bool) (vns vnc : option arr) : option nf :=
  let vns := match vns with None => zeros (mpol + 1) (2 * ntor + 1) | Some a => a end in
  let vnc := match vnc with None => if ss then None else Some (zeros (mpol + 1) (2 * ntor + 1)) | Some a => Some a end in
  refresh (NF mpol ntor ss vns vnc (fun _ => 0%R)).
(** Optimizable.full_x / x setter with all dofs free: NormalField has no recompute_bell, the arrays stay as they are *)
Definition set_x (f : Z -> R) (s : nf) : nf := NF (mpol s) (ntor s) (ss s) (vns s) (vnc s) f.
(** 269-278 *)
Definition get_vns (s : nf) (m n : Z) : option R :=
  if check_mn (mpol s) (ntor s) m n then match index (mpol s) (ntor s) false m n with Some i => Some (x s i) | None => None end else None.
Definition set_vns (s : nf) (m n : Z) (v : R) : option nf :=
  if check_mn (mpol s) (ntor s) m n then
    match index_in_array (mpol s) (ntor s) m n with
    | Some (i, j) => match aset (vns s) i j v with Some a => refresh (NF (mpol s) (ntor s) (ss s) a (vnc s) (x s)) | None => None end
    | None => None end
  else None.
(** 280-299 *)
Definition get_vnc (s : nf) (m n : Z) : option R :=
  if check_mn (mpol s) (ntor s) m n then match index (mpol s) (ntor s) true m n with Some i => Some (if ss s then 0%R else x s i) | None => None end else None.
Definition set_vnc (s : nf) (m n : Z) (v : R) : option nf :=
  if check_mn (mpol s) (ntor s) m n then
    match index_in_array (mpol s) (ntor s) m n with
    | Some (i, j) => if ss s then None else match vnc s with
        | Some c => match aset c i j v with Some a => refresh (NF (mpol s) (ntor s) (ss s) (vns s) (Some a) (x s)) | None => None end
        | None => None end
    | None => None end
  else None.
(** 307-340 the names in the order of the dofs: (even, m, n) stands for the string vns(m,n) or vnc(m,n); sorted by index as by argsort *)
Fixpoint insert {A} (key : A -> Z) (a : A) (l : list A) : list A :=
  match l with [] => [a] | b :: l' => if key a <=? key b then a :: l else b :: insert key a l' end.
Definition sort_by {A} (key : A -> Z) (l : list A) : list A := fold_right (insert key) [] l.
Definition names_helper (mpol ntor : Z) (even : bool) : option (list (bool * Z * Z)) :=
  let l := filter (fun p => negb (negb even && (fst p =? 0) && (snd p =? 0))) (modes mpol ntor) in
  let il := map (fun p => match index mpol ntor even (fst p) (snd p) with Some i => Some (i, (even, fst p, snd p)) | None => None end) l in
  if forallb (fun o => match o with Some _ => true | None => false end) il
  then Some (map snd (sort_by fst (flat_map (fun o => match o with Some q => [q] | None => [] end) il))) else None.
Definition names (mpol ntor : Z) (ss : bool) : option (list (bool * Z * Z)) :=
  match names_helper mpol ntor false, (if ss then Some [] else names_helper mpol ntor true) with Some a, Some b => Some (a ++ b) | _, _ => None end.
(** 342-378 change_resolution *)
Definition change_resolution (s : nf) (mp nt : Z) : option nf :=
  let min_mpol := Z.min mp (mpol s) in let min_ntor := Z.min nt (ntor s) in
  let w := fun p => (if (0 <? fst p) || (0 <? snd p) then [pair_opt (index mp nt false (fst p) (snd p)) (get_vns s (fst p) (snd p))] else []) ++
                    (if ss s then [] else [pair_opt (index mp nt true (fst p) (snd p)) (get_vnc s (fst p) (snd p))]) in
  match assign (flat_map w (modes min_mpol min_ntor)) (fun _ => 0%R) with
  | Some f => Some (NF mp nt (ss s) (vns s) (vnc s) f) | None => None end.
(** 407-423, 425-443 with default resolution *)
Definition get_vns_asarray (s : nf) : arr := slice (vns s) (mpol s) (ntor s - ntor s) (ntor s + ntor s + 1).
(** 466-481 with default resolution *)
Definition set_vns_asarray (s : nf) (a : arr) : option nf :=
  refresh (NF (mpol s) (ntor s) (ss s) (slice a (mpol s) (ntor s - ntor s) (ntor s + ntor s + 1)) (vnc s) (x s)).
