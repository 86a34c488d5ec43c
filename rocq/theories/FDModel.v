(** Finite difference Jacobians.
    Models src/simsopt/_core/finite_difference.py : FiniteDifference (38-116), MPIFiniteDifference (120-393).
    The objective is an oracle [f : vector of free dofs -> option (list R)] ([None] = it raises an exception);
    a scalar return value is a one-element list.  Arithmetic is exact. *)
From Coq Require Import List Arith Lia Bool Reals.
From Verif Require Import ListAux PartitionModel.
Import ListNotations.
Local Open Scope nat_scope.

Definition vec := list R.
(** A matrix with [m] rows as the list of its columns. *)
Definition cols := list vec.

(** numpy elementwise operation on two 1D arrays, with broadcasting of length-1 arrays. *)
Definition np2 (op : R -> R -> R) (u v : vec) : option vec :=
  if length u =? length v then Some (map (fun p => op (fst p) (snd p)) (combine u v))
  else match u, v with
       | [a], _ => Some (map (fun b => op a b) v)
       | _, [b] => Some (map (fun a => op a b) u)
       | _, _ => None
       end.

(** jac[:, j] = v  for an m-row array; IndexError when j is out of range, broadcasting of length-1 arrays. *)
Definition set_col (m : nat) (J : cols) (j : nat) (v : vec) : option cols :=
  if j <? length J then
    if length v =? m then Some (upd j v J)
    else match v with [b] => Some (upd j (repeat b m) J) | _ => None end
  else None.

(** self.opt.x = v : raises when the length is not the number of free dofs (_core/optimizable.py:1047-1052). *)
Definition set_x (ox v : vec) : option vec := if length v =? length ox then Some v else None.

(** x = np.copy(x0); x[j] = x0[j] + d  (finite_difference.py:89-91, 95, 106-107). *)
Definition moved (x0 : vec) (j : nat) (d : R) : vec := upd j (nth j x0 0 + d)%R x0.

Record fd := mkFD { fd_abs : R; fd_rel : R; fd_centered : bool; fd_x0 : option vec; fd_size : option (nat * nat) }.

(** Constructor, lines 45-69 (the checks of func and diff_method are not modelled). *)
Definition fd_new (x0 : option vec) (a r : R) (centered : bool) : fd := mkFD a r centered x0 None.

Section Serial.
Variable f : vec -> option vec.

(** One objective evaluation at a new point: opt.x = v; self.fn().  Returns the new opt.x and the value. *)
Definition eval_at (ox v : vec) : vec * option vec :=
  match set_x ox v with Some ox' => (ox', f ox') | None => (ox, None) end.

(** Lines 88-99. *)
Fixpoint centered_loop (m : nat) (x0 steps : vec) (js : list nat) (ox : vec) (J : cols) : vec * option cols :=
  match js with
  | [] => (ox, Some J)
  | j :: js' =>
      let s := nth j steps 0%R in
      match eval_at ox (moved x0 j s) with
      | (ox1, None) => (ox1, None)
      | (ox1, Some fplus) =>
          match eval_at ox1 (moved x0 j (- s)) with
          | (ox2, None) => (ox2, None)
          | (ox2, Some fminus) =>
              match np2 Rminus fplus fminus with
              | None => (ox2, None)
              | Some d => match set_col m J j (map (fun v => v / (2 * s))%R d) with
                          | None => (ox2, None)
                          | Some J' => centered_loop m x0 steps js' ox2 J'
                          end
              end
          end
      end
  end.

(** Lines 105-111. *)
Fixpoint forward_loop (m : nat) (x0 steps f0 : vec) (js : list nat) (ox : vec) (J : cols) : vec * option cols :=
  match js with
  | [] => (ox, Some J)
  | j :: js' =>
      let s := nth j steps 0%R in
      match eval_at ox (moved x0 j s) with
      | (ox1, None) => (ox1, None)
      | (ox1, Some fplus) =>
          match np2 Rminus fplus f0 with
          | None => (ox1, None)
          | Some d => match set_col m J j (map (fun v => v / s)%R d) with
                      | None => (ox1, None)
                      | Some J' => forward_loop m x0 steps f0 js' ox1 J'
                      end
          end
      end
  end.

(** FiniteDifference.jac(x), lines 71-116.  [ox] is opt.x before the call.  Returns the new state of the
    FiniteDifference object, opt.x after the call and the Jacobian ([None]: an exception was raised). *)
Definition jac (s : fd) (ox : vec) (x : option vec) : fd * vec * option cols :=
  let s1 := match x with Some v => mkFD (fd_abs s) (fd_rel s) (fd_centered s) (Some v) (fd_size s) | None => s end in (* 72-73 *)
  let x0 := match fd_x0 s1 with Some v => v | None => ox end in                                (* 74 *)
  let opt_x0 := ox in                                                                          (* 75 *)
  let sized := match fd_size s1 with
               | Some sz => Some (s1, sz)
               | None => match f ox with                                                       (* 78 *)
                         | None => None
                         | Some out => let sz := (length out, length ox) in                     (* 81 *)
                             Some (mkFD (fd_abs s1) (fd_rel s1) (fd_centered s1) (fd_x0 s1) (Some sz), sz)
                         end
               end in
  match sized with
  | None => (s1, ox, None)
  | Some (s2, (m, nc)) =>
      let J := repeat (repeat 0%R m) nc in                                                     (* 83 *)
      match finite_difference_steps x0 (fd_abs s2) (fd_rel s2) with                             (* 84 *)
      | inl _ => (s2, ox, None)
      | inr steps =>
          let r := if fd_centered s2
                   then centered_loop m x0 steps (seq 0 (length x0)) ox J                       (* 86-99 *)
                   else match eval_at ox x0 with                                               (* 103-104 *)
                        | (ox1, None) => (ox1, None)
                        | (ox1, Some f0) => forward_loop m x0 steps f0 (seq 0 (length x0)) ox1 J
                        end in
          match r with
          | (ox', None) => (s2, ox', None)
          | (ox', Some J') => match set_x ox' opt_x0 with                                       (* 114 *)
                              | Some ox'' => (s2, ox'', Some J')
                              | None => (s2, ox', None)
                              end
          end
      end
  end.
End Serial.

(** ---- MPIFiniteDifference ----------------------------------------------------------------------- *)
(** The points of evaluation, lines 220-235, as a list of columns. *)
Definition mpi_points (centered : bool) (x0 steps : vec) : list vec :=
  if centered
  then flat_map (fun j => [moved x0 j (nth j steps 0%R); moved x0 j (- nth j steps 0%R)%R]) (seq 0 (length x0))
  else x0 :: map (fun j => moved x0 j (nth j steps 0%R)) (seq 0 (length x0)).

(** Contribution of the leader of group [i], lines 239-262: zeros((m, nevals)) with its own columns filled in;
    together with the list of the points it evaluated. *)
Definition mpi_share (f : vec -> option vec) (m ngroups : nat) (xs : list vec) (i : nat) : option cols * list vec :=
  let mine := filter (fun j => j mod ngroups =? i) (seq 0 (length xs)) in
  (fold_left (fun acc j => match acc with
                           | None => None
                           | Some E => match f (nth j xs []) with None => None | Some out => set_col m E j out end
                           end) mine (Some (repeat (repeat 0%R m) (length xs))),
   map (fun j => nth j xs []) mine).

(** comm_leaders.reduce(evals, op=SUM), line 266: entrywise sum over the groups (in rank order). *)
Definition add_cols (A B : cols) : cols :=
  map (fun p => map (fun q => fst q + snd q)%R (combine (fst p) (snd p))) (combine A B).
Fixpoint reduce_sum (parts : list (option cols)) : option cols :=
  match parts with
  | [] => None
  | [p] => p
  | p :: ps => match p, reduce_sum ps with Some A, Some B => Some (add_cols A B) | _, _ => None end
  end.

(** Lines 275-283 on process 0. *)
Definition mpi_form (centered : bool) (steps : vec) (m nc : nat) (evals : cols) (nparams : nat) : option cols :=
  fold_left (fun acc j => match acc with
    | None => None
    | Some J =>
        let d := if centered then np2 Rminus (nth (2 * j) evals []) (nth (2 * j + 1) evals [])
                 else np2 Rminus (nth (j + 1) evals []) (nth 0 evals []) in
        match d with
        | None => None
        | Some d => set_col m J j (map (fun v => v / (if centered then 2 * nth j steps 0 else nth j steps 0))%R d)
        end
    end) (seq 0 nparams) (Some (repeat (repeat 0%R m) nc)).

(** _jac(x) as seen by process 0, lines 194-288; every leader holds the same x0 and steps (Bcast, 211, 218).
    [f] is the same function on every group. *)
Definition mpi_jac_core (f : vec -> option vec) (ngroups : nat) (centered : bool) (a r : R) (m nc : nat) (x0 : vec)
  : option cols :=
  match finite_difference_steps x0 a r with
  | inl _ => None
  | inr steps =>
      let xs := mpi_points centered x0 steps in
      match reduce_sum (map (fun i => fst (mpi_share f m ngroups xs i)) (seq 0 ngroups)) with
      | None => None
      | Some evals => mpi_form centered steps m nc evals (length x0)
      end
  end.

(** State of the MPIFiniteDifference object on process 0: self.x0 (161), self.jac_size, x_cache, jac_cache. *)
Record mfd := mkMFD { m_abs : R; m_rel : R; m_centered : bool; m_x0 : vec;
                      m_size : option (nat * nat); m_xcache : option vec; m_jcache : option cols }.

(** np.all(x == self.x_cache), line 340.  None == None is True; an array compared with None gives an array of
    False, whose np.all is True only when it is empty; arrays of different lengths are not equal. *)
Definition np_all_eq (x y : option vec) : bool :=
  match x, y with
  | None, None => true
  | None, Some v | Some v, None => length v =? 0
  | Some u, Some v => (length u =? length v) && forallb (fun p => Reqb (fst p) (snd p)) (combine u v)
  end.

(** jac(x) called on process 0, lines 336-393; [ox] is opt.x before the call.  When the first call has no argument
    and the log header is still to be written, x has been replaced by self.x0 (line 348), so len(x) is defined. *)
Definition mpi_jac (f : vec -> option vec) (ngroups : nat) (s : mfd) (ox : vec) (x : option vec) : mfd * vec * option cols :=
  match np_all_eq x (m_xcache s), m_jcache s with
  | true, Some J => (s, ox, Some J)                                                           (* 340-341 *)
  | _, _ =>
    let first :=
      match m_size s with
      | Some sz => Some (s, ox, x, sz)
      | None =>                                                                                (* 346-358 *)
          let v := match x with Some v => v | None => m_x0 s end in
          match eval_at f ox v with
          | (_, None) => None
          | (ox1, Some out) =>
              let sz := (length out, length ox1) in
              Some (mkMFD (m_abs s) (m_rel s) (m_centered s) (m_x0 s) (Some sz) (m_xcache s) (m_jcache s), ox1, Some v, sz)
          end
      end in
    match first with
    | None => (s, ox, None)
    | Some (s1, ox1, x1, (m, nc)) =>
        match (match x1 with Some v => set_x ox1 v | None => Some ox1 end) with                 (* 203-204 *)
        | None => (s1, ox1, None)
        | Some x0 =>
            match mpi_jac_core f ngroups (m_centered s1) (m_abs s1) (m_rel s1) m nc x0 with
            | None => (s1, x0, None)
            | Some J => (mkMFD (m_abs s1) (m_rel s1) (m_centered s1) (m_x0 s1) (Some (m, nc)) x1 (Some J), x0, Some J) (* 390-391 *)
            end
        end
    end
  end.
