(** Model of the caches of a BiotSavart field (src/simsoptpp/cachedtensor.h, cache.h, cachedarray.h,
    magneticfield.h, magneticfield_biotsavart.h/.cpp; src/simsopt/field/biotsavart.py, magneticfield.py:51-58).
    The kernels are those of BSModel.v, the coordinate conversions those of PointsModel.v.
    Not modelled: OpenMP/SIMD, the shape checks of the python set_points wrappers, in-place modification by the
    user of the arrays returned by the *_ref methods. *)
From Verif Require Import Vec3 BSModel PointsModel.
Open Scope R_scope.

Inductive fam := FB | FA.                (* field, vector potential *)
Inductive ord := O0 | O1 | O2.           (* value, first, second derivatives with respect to space *)
Definition onum (o : ord) : nat := match o with O0 => 0 | O1 => 1 | O2 => 2 end.
Definition ole (a b : ord) : bool := (onum a <=? onum b)%nat.
Definition fam_eqb (a b : fam) : bool := match a, b with FB, FB | FA, FA => true | _, _ => false end.

(** an array has one row per point; a row is the list of its vectors: 1, 3 or 9 of them *)
Definition row := list vec3.
Definition zrow (o : ord) : row := match o with O0 => [v0] | O1 => repeat v0 3 | O2 => repeat v0 9 end.
Definition radd (a b : row) : row := map (fun p => add3 (fst p) (snd p)) (combine a b).
Definition rscal (s : R) (a : row) : row := map (scal3 s) a.
Definition idx2 : list (nat * nat) := [(0,0);(0,1);(0,2);(1,0);(1,1);(1,2);(2,0);(2,1);(2,2)]%nat.
(** the row that one coil of unit current contributes *)
Definition krow (f : fam) (o : ord) (c : list qpt) (x : vec3) : row :=
  match f, o with
  | FB, O0 => [coil_field kB c x]
  | FB, O1 => map (fun k => coil_field (kdB k) c x) [0;1;2]%nat
  | FB, O2 => map (fun kl => coil_field (kddB (fst kl) (snd kl)) c x) idx2
  | FA, O0 => [coil_field kA c x]
  | FA, O1 => map (fun k => coil_field (kdA k) c x) [0;1;2]%nat
  | FA, O2 => map (fun kl => coil_field (kddA (fst kl) (snd kl)) c x) idx2
  end.

(** cachedtensor.h:9-56 CachedTensor (the first dimension is the length) and cachedarray.h *)
Record cell (A : Type) := Cell { c_ok : bool; c_dat : list A }.
Arguments Cell {A}. Arguments c_ok {A}. Arguments c_dat {A}.
Definition inval {A} (c : cell A) : cell A := Cell false (c_dat c).          (* invalidate_cache *)

(** magneticfield.h:140-144: the cached quantities *)
Inductive quant := Q (f : fam) (o : ord) | QAbs | QGrad | QBcyl | QAcyl | QGradcyl.
Definition fkey := (fam * ord * nat)%type.    (* "B_i", "dB_i", "ddB_i", "A_i", ... *)
Record bs := BS { pcart : cell vec3; pcyl : cell vec3; np : nat; coils : list (R * list qpt);
                  dat : quant -> cell row; fc : fkey -> option (cell row) }.

Definition quant_eqb (a b : quant) : bool :=
  match a, b with
  | Q f o, Q g p => fam_eqb f g && (onum o =? onum p)%nat
  | QAbs, QAbs | QGrad, QGrad | QBcyl, QBcyl | QAcyl, QAcyl | QGradcyl, QGradcyl => true
  | _, _ => false
  end.
Definition set_dat (s : bs) (q : quant) (c : cell row) : bs :=
  BS (pcart s) (pcyl s) (np s) (coils s) (fun q' => if quant_eqb q' q then c else dat s q') (fc s).

(** magneticfield.h:153-165 MagneticField::invalidate_cache, magneticfield_biotsavart.h:112-115 *)
Definition invalidate (s : bs) : bs :=
  BS (pcart s) (pcyl s) (np s) (coils s) (fun q => inval (dat s q)) (fun k => option_map inval (fc s k)).
(** magneticfield.h:181-189 set_points_cart *)
Definition set_points_cart (p : list vec3) (s : bs) : bs :=
  let s := invalidate s in
  BS (Cell true p) (inval (pcyl s)) (length p) (coils s) (dat s) (fc s).
(** magneticfield.h:167-179 set_points_cyl *)
Definition set_points_cyl (p : list vec3) (s : bs) : bs :=
  let s := invalidate s in
  BS (inval (pcart s)) (Cell true (map wrap_cyl p)) (length p) (coils s) (dat s) (fc s).
(** magneticfield.h:146-150 constructor: one point at the origin; magneticfield_biotsavart.h:103 *)
Definition new_bs (cs : list (R * list qpt)) : bs :=
  set_points_cart [v0] (BS (Cell false [v0]) (Cell false [v0]) 1 cs (fun _ => Cell false []) (fun _ => None)).
(** magneticfield.h:199-213 get_points_cart_ref, get_points_cyl_ref (cachedtensor.h:39-50
    get_or_create_and_fill).  The logic_error branches (neither representation valid) are unreachable and
    modelled by using the stored rows. *)
Definition get_cart (s : bs) : bs * list vec3 :=
  if c_ok (pcart s) then (s, c_dat (pcart s))
  else let d := map to_cart (c_dat (pcyl s)) in
       (BS (Cell true d) (pcyl s) (np s) (coils s) (dat s) (fc s), d).
Definition get_cyl (s : bs) : bs * list vec3 :=
  if c_ok (pcyl s) then (s, c_dat (pcyl s))
  else let d := map to_cyl (c_dat (pcart s)) in
       (BS (pcart s) (Cell true d) (np s) (coils s) (dat s) (fc s), d).

(** cache.h:30-46 Cache::get_or_create for one key: zeros if missing or of another length, else whatever is
    stored; the entry is marked valid *)
Definition fc_goc (o : ord) (n : nat) (c : option (cell row)) : cell row :=
  match c with
  | Some c => Cell true (if (length (c_dat c) =? n)%nat then c_dat c else repeat (zrow o) n)
  | None => Cell true (repeat (zrow o) n)
  end.
(** magneticfield_biotsavart.cpp:66-84: the accumulation over the coils *)
Definition aadd (a b : list row) : list row := map (fun p => radd (fst p) (snd p)) (combine a b).
Definition ascal (x : R) (a : list row) : list row := map (rscal x) a.
Definition accumulate (o : ord) (n : nat) (l : list (R * list row)) : list row :=
  fold_left (fun acc ci => aadd acc (ascal (fst ci) (snd ci))) l (repeat (zrow o) n).
(** magneticfield_biotsavart.cpp:12-85 compute, 88-169 compute_A; [d] is the number of derivatives *)
Definition compute (f : fam) (d : ord) (s : bs) : bs :=
  let '(s, pts) := get_cart s in
  let coil_arr o i := map (krow f o (snd (nth i (coils s) (0, [])))) pts in
  BS (pcart s) (pcyl s) (np s) (coils s)
     (fun q => match q with
               | Q g o => if fam_eqb g f && ole o d
                          then Cell true (accumulate o (np s) (map (fun i => (fst (nth i (coils s) (0, [])), coil_arr o i)) (seq 0 (length (coils s)))))
                          else dat s q
               | _ => dat s q
               end)
     (fun k => let '(g, o, i) := k in
               if fam_eqb g f && ole o d && (i <? length (coils s))%nat then Some (Cell true (coil_arr o i)) else fc s k).
(** magneticfield.h:215-236 B_ref, dB_by_dX_ref, ..., with magneticfield_biotsavart.h:74-96 *)
Definition eval_base (f : fam) (o : ord) (s : bs) : bs * list row :=
  let s := if c_ok (dat s (Q f o)) then s else compute f o s in
  (s, c_dat (dat s (Q f o))).
Definition one (r : row) : vec3 := nth 0 r v0.
(** magneticfield.h:78-84, 86-96, 98-108 (also 110-120 and 122-132), one row *)
Definition abs_row (b : row) : row :=
  [V3 (sqrt (vx (one b) * vx (one b) + vy (one b) * vy (one b) + vz (one b) * vz (one b))) 0 0].
Definition grad_row (b g : row) : row :=
  let bb := one b in
  let ab := sqrt (vx bb * vx bb + vy bb * vy bb + vz bb * vz bb) in
  let comp k := let gk := nth k g v0 in (vx bb * vx gk + vy bb * vy gk + vz bb * vz gk) / ab in
  [V3 (comp 0%nat) (comp 1%nat) (comp 2%nat)].
Definition cyl_row (p : vec3) (b : row) : row :=
  [V3 (cos (vy p) * vx (one b) + sin (vy p) * vy (one b)) (cos (vy p) * vy (one b) - sin (vy p) * vx (one b)) (vz (one b))].
Definition zip2 {A B C} (f : A -> B -> C) (a : list A) (b : list B) : list C := map (fun p => f (fst p) (snd p)) (combine a b).
(** magneticfield.h:238-280: the derived quantities *)
Definition fill (q : quant) (impl : bs -> bs * list row) (s : bs) : bs * list row :=
  if c_ok (dat s q) then (s, c_dat (dat s q)) else let '(s, a) := impl s in (set_dat s q (Cell true a), a).
Definition eval_abs : bs -> bs * list row := fill QAbs (fun s => let '(s, b) := eval_base FB O0 s in (s, map abs_row b)).
Definition eval_grad : bs -> bs * list row :=
  fill QGrad (fun s => let '(s, b) := eval_base FB O0 s in let '(s, g) := eval_base FB O1 s in (s, zip2 grad_row b g)).
Definition eval_cyl (q : quant) (src : bs -> bs * list row) : bs -> bs * list row :=
  fill q (fun s => let '(s, b) := src s in let '(s, p) := get_cyl s in (s, zip2 cyl_row p b)).
Definition eval (q : quant) : bs -> bs * list row :=
  match q with
  | Q f o => eval_base f o
  | QAbs => eval_abs
  | QGrad => eval_grad
  | QBcyl => eval_cyl QBcyl (eval_base FB O0)
  | QAcyl => eval_cyl QAcyl (eval_base FA O0)
  | QGradcyl => eval_cyl QGradcyl eval_grad
  end.

(** biotsavart.py:29-58, 124-152: dB_by_dcoilcurrents (o = O0), d2B_by_dXdcoilcurrents, d3B_by_dXdXdcoilcurrents
    and the A versions; [k] is the argument compute_derivatives.  Both families call self.compute. *)
Definition fc_status (s : bs) (k : fkey) : bool := match fc s k with Some c => c_ok c | None => false end.
Definition dcur (f : fam) (o : ord) (k : ord) (s : bs) : bs * option (list (list row)) :=
  let '(s, pts) := get_cart s in
  let n := length (coils s) in
  if forallb (fun i => fc_status s (f, o, i)) (seq 0 n) || ole o k then
    let s := if forallb (fun i => fc_status s (f, o, i)) (seq 0 n) then s else compute FB k s in
    let get i := fc_goc o (length pts) (fc s (f, o, i)) in
    (BS (pcart s) (pcyl s) (np s) (coils s) (dat s)
        (fun key => let '(g, p, i) := key in
                    if fam_eqb g f && (onum p =? onum o)%nat && (i <? n)%nat then Some (get i) else fc s key),
     Some (map (fun i => c_dat (get i)) (seq 0 n)))
  else (s, None).     (* AssertionError *)

(** magneticfield.py:56-58 recompute_bell: called when a dof of the coils has changed (the new coils are [cs]);
    [anyfree] is np.any(self.dofs_free_status), over the dofs of the field and all its ancestors *)
Definition dofs_changed (cs : list (R * list qpt)) (anyfree : bool) (s : bs) : bs :=
  let s := BS (pcart s) (pcyl s) (np s) cs (dat s) (fc s) in
  if anyfree then invalidate s else s.

Inductive op :=
| SetCart (p : list vec3) | SetCyl (p : list vec3) | Dofs (cs : list (R * list qpt)) (anyfree : bool) | Clear
| Eval (q : quant) | GetCart | GetCyl | DCur (f : fam) (o k : ord).
Inductive out := ONone | OArr (a : list row) | OPts (p : list vec3) | OArrs (l : list (list row)) | OAssert.
Definition step (o : op) (s : bs) : bs * out :=
  match o with
  | SetCart p => (set_points_cart p s, ONone)
  | SetCyl p => (set_points_cyl p s, ONone)
  | Dofs cs b => (dofs_changed cs b s, ONone)
  | Clear => (invalidate s, ONone)
  | Eval q => let '(s, a) := eval q s in (s, OArr a)
  | GetCart => let '(s, p) := get_cart s in (s, OPts p)
  | GetCyl => let '(s, p) := get_cyl s in (s, OPts p)
  | DCur f o k => let '(s, r) := dcur f o k s in (s, match r with Some l => OArrs l | None => OAssert end)
  end.
Fixpoint run (h : list op) (s : bs) : bs := match h with [] => s | o :: r => run r (fst (step o s)) end.
