(** Model of the run caching of [Vmec], src/simsopt/mhd/vmec.py.

    A world holds the data of the Fortran module [vmec.vmec_input] -- ONE per process, shared by all
    Vmec objects (vmec.py:323 [self.indata = vmec.vmec_input]) --, the surfaces and the profiles,
    and the list of Vmec objects.  Simplifications:
    - the equilibrium solver [runvmec] is an arbitrary function of the input data, returning an error
      code, the contents of the wout file and the axis shape it leaves in the module;
    - a boundary surface is given by the Fourier coefficients of its [to_RZFourier()];
    - changing the dofs of a surface or of a profile (or of any ancestor of it) notifies the Vmec
      objects that have it among their parents: this is what C15/C16 prove about the dependency graph;
    - numbers are reals; the polynomial fit through the Gauss-Legendre nodes and scipy's [quad] are
      arbitrary functions of the profile, the fit having as many coefficients as nodes;
    - profile type names are stripped, lower case strings; file handling is in VmecFiles.v;
    - MPI: one process per group (the other processes of a group do the same steps). *)
From Coq Require Import Reals List ZArith Lia String Bool.
Import ListNotations.
From Verif Require Import ListAux.
Open Scope R_scope.
Open Scope nat_scope.

Record bdata := mkB { rbc : Z -> nat -> R; zbs : Z -> nat -> R; rbs : Z -> nat -> R; zbc : Z -> nat -> R }.
Record pdata := mkP { ptype : string; coef : list R; aux_s : list R; aux_f : list R }.
Definition axis := nat -> nat -> R.   (* raxis_cc, raxis_cs, zaxis_cc, zaxis_cs *)

Record surface := mkS { s_mpol : nat; s_ntor : nat; s_rc : nat -> Z -> R; s_zs : nat -> Z -> R; s_rs : nat -> Z -> R; s_zc : nat -> Z -> R }.

Inductive node := NSurf (b : nat) | NProf (p : nat).
Definition node_eqb (a b : node) : bool :=
  match a, b with NSurf x, NSurf y => x =? y | NProf x, NProf y => x =? y | _, _ => false end.

Section Vmec.
Context {Rest W : Type}.   (* the other namelist variables; contents of a wout file *)

Record indata := mkI {
  i_lasym : bool; i_mpol : nat; i_ntor : nat; i_bd : bdata; i_axis : axis;
  i_phiedge : R; i_curtor : R; i_pres : R;
  i_m : pdata; i_c : pdata; i_i : pdata;      (* pmass/am, pcurr/ac, piota/ai *)
  i_rest : Rest }.

Variable solver : indata -> Z * W * axis.
Variable ier_flag : W -> Z.
Variable power_fit : nat -> (R -> R) -> list R.
Variable quad01 : (R -> R) -> R.
Variable linspace01 : nat -> list R.          (* np.linspace(0, 1, n) *)

Record vobj := mkV {
  runnable : bool; need : bool; bnd : nat;
  pp : option nat; cp : option nat; ip : option nat;       (* _pressure/_current/_iota_profile *)
  n_p : nat; n_c : nat; n_i : nat;
  parents : list node; dofs : R * R * R; iter : Z; wout : option W }.

Record world := mkW { ind : indata; nsurf : nat; surf : nat -> surface; prof : nat -> R -> R; objs : list vobj }.

Definition fupd {A} (f : nat -> A) (a : nat) (v : A) : nat -> A := fun b => if b =? a then v else f b.

Definition set_bd i b := mkI (i_lasym i) (i_mpol i) (i_ntor i) b (i_axis i) (i_phiedge i) (i_curtor i) (i_pres i) (i_m i) (i_c i) (i_i i) (i_rest i).
Definition set_axis i a := mkI (i_lasym i) (i_mpol i) (i_ntor i) (i_bd i) a (i_phiedge i) (i_curtor i) (i_pres i) (i_m i) (i_c i) (i_i i) (i_rest i).
Definition set_scal i p c s := mkI (i_lasym i) (i_mpol i) (i_ntor i) (i_bd i) (i_axis i) p c s (i_m i) (i_c i) (i_i i) (i_rest i).
Definition set_m i m := mkI (i_lasym i) (i_mpol i) (i_ntor i) (i_bd i) (i_axis i) (i_phiedge i) (i_curtor i) (i_pres i) m (i_c i) (i_i i) (i_rest i).
Definition set_c i c := mkI (i_lasym i) (i_mpol i) (i_ntor i) (i_bd i) (i_axis i) (i_phiedge i) (i_curtor i) (i_pres i) (i_m i) c (i_i i) (i_rest i).
Definition set_i i p := mkI (i_lasym i) (i_mpol i) (i_ntor i) (i_bd i) (i_axis i) (i_phiedge i) (i_curtor i) (i_pres i) (i_m i) (i_c i) p (i_rest i).

Definition v_need v b := mkV (runnable v) b (bnd v) (pp v) (cp v) (ip v) (n_p v) (n_c v) (n_i v) (parents v) (dofs v) (iter v) (wout v).
Definition v_dofs v d := mkV (runnable v) (need v) (bnd v) (pp v) (cp v) (ip v) (n_p v) (n_c v) (n_i v) (parents v) d (iter v) (wout v).
Definition v_iter v k := mkV (runnable v) (need v) (bnd v) (pp v) (cp v) (ip v) (n_p v) (n_c v) (n_i v) (parents v) (dofs v) k (wout v).
Definition v_wout v w := mkV (runnable v) (need v) (bnd v) (pp v) (cp v) (ip v) (n_p v) (n_c v) (n_i v) (parents v) (dofs v) (iter v) w.
Definition v_par v l := mkV (runnable v) (need v) (bnd v) (pp v) (cp v) (ip v) (n_p v) (n_c v) (n_i v) l (dofs v) (iter v) (wout v).
Definition v_bnd v b := mkV (runnable v) (need v) b (pp v) (cp v) (ip v) (n_p v) (n_c v) (n_i v) (parents v) (dofs v) (iter v) (wout v).
Definition v_pp v p := mkV (runnable v) (need v) (bnd v) p (cp v) (ip v) (n_p v) (n_c v) (n_i v) (parents v) (dofs v) (iter v) (wout v).
Definition v_cp v p := mkV (runnable v) (need v) (bnd v) (pp v) p (ip v) (n_p v) (n_c v) (n_i v) (parents v) (dofs v) (iter v) (wout v).
Definition v_ip v p := mkV (runnable v) (need v) (bnd v) (pp v) (cp v) p (n_p v) (n_c v) (n_i v) (parents v) (dofs v) (iter v) (wout v).

(** ** Transfer of the inputs *)

(** vmec.py:484-485, 496-499 [ax[:] = 0.0; ax[:n] = vals]: an array longer than the target is a ValueError *)
Definition write_prefix (arr vals : list R) : option (list R) :=
  if length vals <=? length arr then Some (vals ++ repeat 0%R (length arr - length vals)) else None.

(** vmec.py:464-502 set_profile.  [None] = exception (unsupported type, or too many nodes) *)
Definition set_profile (profile : option (R -> R)) (n : nat) (d : pdata) : option pdata :=
  match profile with
  | None => Some d
  | Some f =>
      let t := substring 0 12 (ptype d) in
      if (t =? "power_series")%string then
        match write_prefix (coef d) (power_fit n f) with
        | Some a => Some (mkP (ptype d) a (aux_s d) (aux_f d)) | None => None end
      else if ((t =? "cubic_spline") || (t =? "akima_spline") || (t =? "line_segment"))%string then
        let x := linspace01 n in
        match write_prefix (aux_s d) x, write_prefix (aux_f d) (map f x) with
        | Some a, Some b => Some (mkP (ptype d) (coef d) a b) | _, _ => None end
      else None
  end.

(** vmec.py:528-531: the double loop over the modes, writing entries [101+n, m] *)
Definition aupd (a : Z -> nat -> R) (j : Z) (m : nat) (v : R) : Z -> nat -> R :=
  fun j' m' => if ((j' =? j)%Z && (m' =? m))%bool then v else a j' m'.
Definition modes (mp nt : nat) : list (nat * Z) :=
  flat_map (fun m => map (fun k => (m, (Z.of_nat k - Z.of_nat nt)%Z)) (seq 0 (2 * nt + 1))) (seq 0 (mp + 1)).
Definition transfer (get : nat -> Z -> R) (mp nt : nat) (a : Z -> nat -> R) : Z -> nat -> R :=
  fold_left (fun a mn => aupd a (101 + snd mn)%Z (fst mn) (get (fst mn) (snd mn))) (modes mp nt) a.

Definition total_by_integral (t : string) : bool :=
  existsb (fun u => (t =? u)%string) ["power_series"; "gauss_trunc"; "two_power"; "cubic_spline_ip"; "akima_spline_ip"]%string.

(** vmec.py:504-559 set_indata, on the module data and the current boundary and profiles; the module
    data is changed even if an exception (second component [true]) ends the transfer halfway *)
Definition set_indata (i : indata) (b : surface) (np nc ni : nat) (fp fc fi : option (R -> R)) : indata * bool :=
  if (101 <? i_mpol i) || (101 <? i_ntor i) then (i, true) else
  let mp := Nat.min (s_mpol b) 101 in let nt := Nat.min (s_ntor b) 101 in
  let zero := fun (_ : Z) (_ : nat) => 0%R in
  let i := set_bd i (mkB (transfer (s_rc b) mp nt zero) (transfer (s_zs b) mp nt zero) (rbs (i_bd i)) (zbc (i_bd i))) in
  let i := set_axis i (fun _ _ => 0%R) in
  match set_profile fp np (i_m i) with
  | None => (i, true)
  | Some m =>
    let i := set_m i m in
    match set_profile fc nc (i_c i) with
    | None => (i, true)
    | Some c =>
      let i := set_c i c in
      match set_profile fi ni (i_i i) with
      | None => (i, true)
      | Some io =>
        let i := set_i i io in
        let i := match fp with Some _ => set_scal i (i_phiedge i) (i_curtor i) 1%R | None => i end in
        let i := match fc with
                 | Some f => if total_by_integral (ptype (i_c i)) then set_scal i (i_phiedge i) (quad01 f) (i_pres i)
                             else set_scal i (i_phiedge i) (f 1%R) (i_pres i)
                 | None => i end in
        (i, false)
      end
    end
  end.

Definition look (w : world) (p : option nat) : option (R -> R) := option_map (prof w) p.

Inductive outcome := Done | Raised | Out (x : W).

Definition put (w : world) (k : nat) (v : vobj) : world :=
  mkW (ind w) (nsurf w) (surf w) (prof w) (firstn k (objs w) ++ v :: skipn (S k) (objs w)).
Definition put_ind (w : world) (i : indata) : world := mkW i (nsurf w) (surf w) (prof w) (objs w).

(** vmec.py:663-773 run followed by reading an attribute of [wout] (aspect, volume, iota_axis, ...,
    818-867).  load_wout (775-802) stores the file contents before it looks at ier_flag. *)
Definition access (w : world) (k : nat) (v : vobj) : world * outcome :=
  if negb (need v) then (w, match wout v with Some x => Out x | None => Raised end)
  else if negb (runnable v) then (w, Raised)
  else
    let v := v_iter v (iter v + 1)%Z in
    let (i, failed) := set_indata (ind w) (surf w (bnd v)) (n_p v) (n_c v) (n_i v) (look w (pp v)) (look w (cp v)) (look w (ip v)) in
    if failed then (put (put_ind w i) k v, Raised)
    else
      let '(ierr, x, ax) := solver i in
      let i := set_axis i ax in
      if ((ierr =? 0) || (ierr =? 5))%Z then (put (put_ind w i) k v, Raised)
      else if negb (ierr =? 11)%Z then (put (put_ind w i) k v, Raised)
      else
        let v := v_wout v (Some x) in
        if negb (ier_flag x =? 0)%Z then (put (put_ind w i) k v, Raised)
        else (put (put_ind w i) k (v_need v false), Out x).

(** ** Parents (optimizable.py:850-906; recompute_bell of Vmec, vmec.py:461-462) *)
Definition member (n : node) (l : list node) : bool := existsb (node_eqb n) l.
Fixpoint remove1 (n : node) (l : list node) : option (list node) :=
  match l with
  | [] => None
  | a :: r => if node_eqb a n then Some r else option_map (cons a) (remove1 n r)
  end.
Definition append_parent (v : vobj) (n : node) : vobj :=
  if member n (parents v) then v else v_need (v_par v (parents v ++ [n])) true.
Definition remove_parent (v : vobj) (n : node) : option vobj :=
  match remove1 n (parents v) with Some l => Some (v_need (v_par v l) true) | None => None end.

(** the objects having [n] as a parent are told that it changed *)
Definition ring (n : node) (l : list vobj) : list vobj :=
  map (fun v => if member n (parents v) then v_need v true else v) l.

(** vmec.py:401-444: the three profile setters have the same text ([get]/[set] = the attribute);
    [p == p'] on numbers is the python [is] *)
Definition set_role (get : vobj -> option nat) (set : vobj -> option nat -> vobj) (v : vobj) (p : option nat) : option vobj :=
  let same := match p, get v with Some a, Some b => a =? b | None, None => true | _, _ => false end in
  if same then Some v else
  match (match get v with Some old => remove_parent v (NProf old) | None => Some v end) with
  | None => None
  | Some v =>
      let v := set v p in
      match p with Some a => Some (v_need (append_parent v (NProf a)) true) | None => Some v end
  end.

(** vmec.py:392-399 the boundary setter *)
Definition set_boundary (v : vobj) (b : nat) : option vobj :=
  if b =? bnd v then Some v else
  match remove_parent v (NSurf (bnd v)) with
  | None => None
  | Some v => Some (v_need (append_parent (v_bnd v b) (NSurf b)) true)
  end.

(** ** Operations of a program *)
Inductive op :=
| NewInput (file : indata)                      (* Vmec('input.x') *)
| NewWout (x : W) (b : surface)                 (* Vmec('wout_x.nc') *)
| NewSurface (b : surface)
| SetSurface (b : nat) (s : surface)            (* change dofs of a surface *)
| SetProf (p : nat) (f : R -> R)                (* change dofs of a profile *)
| SetOwn (k : nat) (d : R * R * R)              (* change phiedge, curtor, pres_scale *)
| SetBoundary (k : nat) (b : nat)
| SetPressure (k : nat) (p : option nat) | SetCurrent (k : nat) (p : option nat) | SetIota (k : nat) (p : option nat)
| Poke (f : indata -> indata)                   (* assign to entries of vmec.indata *)
| Flag (k : nat)                                (* vmec.need_to_run_code = True *)
| Access (k : nat).                             (* vmec.run(), vmec.aspect(), ... *)

(** vmec.py:341-366: the boundary built from the input file *)
Definition file_surface (i : indata) : surface :=
  mkS (i_mpol i) (i_ntor i)
      (fun m n => rbc (i_bd i) (101 + n)%Z m) (fun m n => zbs (i_bd i) (101 + n)%Z m)
      (fun m n => if i_lasym i then rbs (i_bd i) (101 + n)%Z m else 0%R)
      (fun m n => if i_lasym i then zbc (i_bd i) (101 + n)%Z m else 0%R).

(** vmec.py:264-386 __init__, first from an input file (reading it fills the module), then from a wout file *)
Definition new_input (file : indata) (b : nat) : vobj :=
  mkV true true b None None None 10 10 10 [NSurf b] (i_phiedge file, i_curtor file, i_pres file) (-1)%Z None.
Definition new_wout (x : W) (b : nat) : vobj :=
  mkV false false b None None None 10 10 10 [NSurf b] (1%R, 0%R, 1%R) (-1)%Z (Some x).

Definition on (w : world) (k : nat) (f : vobj -> world * outcome) : world * outcome :=
  match nth_error (objs w) k with Some v => f v | None => (w, Raised) end.
Definition on_setter (w : world) (k : nat) (f : vobj -> option vobj) : world * outcome :=
  on w k (fun v => match f v with Some v' => (put w k v', Done) | None => (w, Raised) end).

Definition step (w : world) (o : op) : world * outcome :=
  match o with
  | NewInput file =>
      (mkW file (S (nsurf w)) (fupd (surf w) (nsurf w) (file_surface file)) (prof w) (objs w ++ [new_input file (nsurf w)]), Done)
  | NewWout x b => (mkW (ind w) (S (nsurf w)) (fupd (surf w) (nsurf w) b) (prof w) (objs w ++ [new_wout x (nsurf w)]), Done)
  | NewSurface b => (mkW (ind w) (S (nsurf w)) (fupd (surf w) (nsurf w) b) (prof w) (objs w), Done)
  | SetSurface b s => (mkW (ind w) (nsurf w) (fupd (surf w) b s) (prof w) (ring (NSurf b) (objs w)), Done)
  | SetProf p f => (mkW (ind w) (nsurf w) (surf w) (fupd (prof w) p f) (ring (NProf p) (objs w)), Done)
  | SetOwn k d =>
      on w k (fun v => let w := put w k (v_need (v_dofs v d) true) in
        (* vmec.py:454-459 set_dofs *)
        (if runnable v then put_ind w (set_scal (ind w) (fst (fst d)) (snd (fst d)) (snd d)) else w, Done))
  | SetBoundary k b => on_setter w k (fun v => set_boundary v b)
  | SetPressure k p => on_setter w k (fun v => set_role pp v_pp v p)
  | SetCurrent k p => on_setter w k (fun v => set_role cp v_cp v p)
  | SetIota k p => on_setter w k (fun v => set_role ip v_ip v p)
  | Poke f => (put_ind w (f (ind w)), Done)
  | Flag k => on w k (fun v => (put w k (v_need v true), Done))
  | Access k => on w k (access w k)
  end.

Fixpoint run (w : world) (h : list op) : world :=
  match h with [] => w | o :: r => run (fst (step w o)) r end.
End Vmec.
