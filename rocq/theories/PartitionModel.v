(** Splitting of index ranges over processes, MPI process groups and finite-difference step sizes.
    Models  src/simsopt/_core/util.py : finite_difference_steps (lines 180-238),
                                        parallel_loop_bounds   (lines 284-298)
            src/simsopt/util/mpi.py   : MpiPartition.__init__  (lines 92-139). *)
From Coq Require Import List Arith ZArith Lia Bool Reals.
Import ListNotations.
Local Open Scope nat_scope.

(** ---- finite_difference_steps, _core/util.py:180-238 --------------------------------------- *)
(** The exceptions of lines 225, 227 and 235. *)
Inductive step_error := ErrAbsNegative | ErrRelNegative | ErrZeroStep.

(** [abs_step < 0] etc. are decided on exact reals; rounding is not modelled. *)
Definition Rltb (a b : R) : bool := if Rlt_dec a b then true else false.
Definition Reqb (a b : R) : bool := if Req_EM_T a b then true else false.

(** Line 229: np.max((np.abs(x)*rel_step, np.full(len(x), abs_step)), axis=0). *)
Definition raw_steps (x : list R) (abs_step rel_step : R) : list R :=
  map (fun p => Rmax (fst p) (snd p))
      (combine (map (fun xi => Rabs xi * rel_step)%R x) (repeat abs_step (length x))).

Definition finite_difference_steps (x : list R) (abs_step rel_step : R) : step_error + list R :=
  if Rltb abs_step 0 then inl ErrAbsNegative                                   (* 224-225 *)
  else if Rltb rel_step 0 then inl ErrRelNegative                              (* 226-227 *)
  else let steps := raw_steps x abs_step rel_step in                           (* 229-230 *)
       if existsb (fun s => Reqb s 0) steps then inl ErrZeroStep               (* 234-236 *)
       else inr steps.                                                         (* 238 *)

(** ---- parallel_loop_bounds, _core/util.py:284-298 ------------------------------------------ *)
(** [None] is "no communicator"; [Some (size, rank)] a communicator.  The two asserts (296-297)
    make the result [None] when they fail; the index into [idxs] too. *)
Definition parallel_loop_bounds (comm : option (nat * nat)) (n : nat) : option (nat * nat) :=
  match comm with
  | None => Some (0, n)                                                        (* 291-292 *)
  | Some (size, rank) =>
      let idxs := map (fun i => i * n / size) (seq 0 (size + 1)) in            (* 295 *)
      if (nth 0 idxs 1 =? 0) && (nth (length idxs - 1) idxs (S n) =? n)        (* 296-297 *)
      then match nth_error idxs rank, nth_error idxs (rank + 1) with           (* 298 *)
           | Some a, Some b => Some (a, b)
           | _, _ => None
           end
      else None
  end.

(** ---- MpiPartition.__init__, util/mpi.py:92-139 -------------------------------------------- *)
(** Lines 103-112.  [None] stands for ngroups=None. *)
Definition clamp_ngroups (request : option Z) (nprocs : nat) : nat :=
  let ng := match request with None => Z.of_nat nprocs | Some z => z end in
  let ng := if (ng <? 1)%Z then 1%Z else ng in
  let ng := if (Z.of_nat nprocs <? ng)%Z then Z.of_nat nprocs else ng in
  Z.to_nat ng.

(** Lines 114-115: int(np.floor((rank*ngroups)/nprocs)).  Simplification: the division is exact
    (Python's float division of integers below 2^53 has the same floor). *)
Definition group_of (nprocs ngroups rank : nat) : nat := rank * ngroups / nprocs.

(** MPI_Comm_split with key = rank_world (lines 118-119, 129-130): the members of the new communicator of
    [rank] are the processes giving the same colour, in rank order; no communicator for colour UNDEFINED. *)
Definition split_members (nprocs : nat) (color : nat -> option nat) (rank : nat) : list nat :=
  match color rank with
  | None => []
  | Some c => filter (fun r => match color r with Some c' => c' =? c | None => false end) (seq 0 nprocs)
  end.

(** Get_rank in the new communicator: the position of the process in the member list. *)
Fixpoint position (x : nat) (l : list nat) : nat :=
  match l with [] => 0 | y :: l' => if y =? x then 0 else S (position x l') end.

Record partition := mkPartition {
  p_ngroups : nat; p_group : nat;
  p_comm_groups : list nat; p_rank_groups : nat; p_nprocs_groups : nat; p_proc0_groups : bool;
  p_comm_leaders : list nat; p_rank_leaders : Z; p_nprocs_leaders : Z; p_proc0_world : bool }.

(** The whole constructor as seen by process [rank] (lines 96-139). *)
Definition mpi_partition (request : option Z) (nprocs rank : nat) : partition :=
  let ng := clamp_ngroups request nprocs in
  let grp := group_of nprocs ng in
  let comm_groups r := split_members nprocs (fun q => Some (grp q)) r in
  let rank_groups r := position r (comm_groups r) in
  let proc0_groups r := rank_groups r =? 0 in
  let leader_color r := if proc0_groups r then Some 0 else None in
  let comm_leaders := split_members nprocs leader_color rank in
  {| p_ngroups := ng; p_group := grp rank;
     p_comm_groups := comm_groups rank; p_rank_groups := rank_groups rank;
     p_nprocs_groups := length (comm_groups rank); p_proc0_groups := proc0_groups rank;
     p_comm_leaders := comm_leaders;
     p_rank_leaders := if proc0_groups rank then Z.of_nat (position rank comm_leaders) else (-1)%Z;
     p_nprocs_leaders := if proc0_groups rank then Z.of_nat (length comm_leaders) else (-1)%Z;
     p_proc0_world := rank =? 0 |}.
