(** Model of src/simsopt/objectives/utilities.py ("py:") 38-139: sum_across_comm, MPIOptimizable, MPIObjective, on all ranks of a
    communicator at once.
    Simplifications: exact reals; a Derivative is the list of its (key, array) pairs in insertion order (derivative.py:105-135); the same
    number names the corresponding Optimizable on every rank; all arrays of one key have the same length; a rank that calls a collective
    operation which another rank never joins waits for ever. *)
From Coq Require Import Reals List Lia Bool.
From Verif Require Import ListAux VecAux PartitionModel.
Import ListNotations.
Open Scope R_scope.

Definition deriv := list (nat * list R).
(** derivative.py:105-115 __add__ *)
Fixpoint upd (k : nat) (v : list R) (x : deriv) : deriv :=
  match x with [] => [(k, v)] | (k', w) :: r => if (k' =? k)%nat then (k', vmap2 Rplus w v) :: r else (k', w) :: upd k v r end.
Definition dadd (x y : deriv) : deriv := fold_left (fun z kv => upd (fst kv) (snd kv) z) y x.
(** sum([...]), starting with 0 + d = d *)
Definition dsum (l : list deriv) : deriv := match l with [] => [] | d :: r => fold_left dadd r d end.
(** derivative.py:147-152 __mul__ *)
Definition dscale (c : R) (x : deriv) : deriv := map (fun kv => (fst kv, map (Rmult c) (snd kv))) x.
(** python's sum of a list of arrays *)
Definition asum (l : list (list R)) : list R := match l with [] => [] | a :: r => fold_left (vmap2 Rplus) r a end.

(** ** MPIObjective: py:102-139.  The communicator is the list, over the ranks, of the objectives held by that rank *)
(** py:117-120 needs_splitting *)
Definition split {A} (size rank : nat) (l : list A) : list A :=
  match parallel_loop_bounds (Some (size, rank)) (length l) with Some (a, b) => firstn (b - a) (skipn a l) | None => [] end.
(** py:124 *)
Definition total_n {A} (ranks : list (list A)) : nat := list_sum (map (@length A) ranks).
(** py:126-130 J: every rank gathers the values of all ranks; None: 0/0 *)
Definition mpi_J (ranks : list (list R)) : option R := match total_n ranks with O => None | n => Some (rsuml (concat ranks) / INR n) end.
Inductive outcome := Returns (d : deriv) | Raises | Hangs.
(** py:38-52 sum_across_comm on rank r: the j-th collective call gathers the j-th array of every rank *)
Definition sum_across (locals : list deriv) (mine : deriv) : deriv :=
  map (fun jk => (snd jk, asum (map (fun l => snd (nth (fst jk) l (O, []))) locals))) (combine (seq 0 (length mine)) (map fst mine)).
(** py:132-139 dJ on rank r *)
Definition mpi_dJ (ranks : list (list deriv)) (r : nat) : outcome :=
  match nth r ranks [] with
  | [] => Raises
  | mine => let locals := map dsum ranks in
      if forallb (fun l => length (dsum mine) <=? length l)%nat locals then Returns (dscale (1 / INR (total_n ranks)) (sum_across locals (dsum mine))) else Hangs
  end.

(** ** MPIOptimizable: py:55-99.  vals r i: the attribute of optimizable i on rank r; need: need_to_communicate (the same on all ranks) *)
Section MPIOpt.
Variable V : Type.
Record mstate := MS { vals : nat -> nat -> V; need : bool }.
(** py:73-75 *)
Definition local (size n r i : nat) : bool := match parallel_loop_bounds (Some (size, r)) n with Some (a, b) => (a <=? i) && (i <? b) | None => false end%nat.
(** py:91-92 local_vals of rank r and the concatenation over the ranks *)
Definition local_vals (size n : nat) (v : nat -> nat -> V) (r : nat) : list V :=
  match parallel_loop_bounds (Some (size, r)) n with Some (a, b) => map (v r) (seq a (b - a)) | None => [] end.
Definition global_vals (size n : nat) (v : nat -> nat -> V) : list V := concat (map (local_vals size n v) (seq 0 size)).
(** py:88-97 communicate *)
Definition communicate (size n : nat) (s : mstate) : mstate :=
  if need s then MS (fun r i => if local size n r i then vals s r i else nth i (global_vals size n (vals s)) (vals s r i)) false else s.
Inductive mop := SetAttr (r i : nat) (x : V)   (* rank r modifies the attribute of its copy of optimizable i *)
               | Bell                          (* dofs of some optimizable change (on all ranks): recompute_bell *)
               | Access.                       (* mpi_optimizable[key] on all ranks *)
Definition mstep (size n : nat) (s : mstate) (o : mop) : mstate :=
  match o with
  | SetAttr r i x => MS (fun r' i' => if ((r' =? r) && (i' =? i))%nat then x else vals s r' i') (need s)
  | Bell => MS (vals s) true
  | Access => communicate size n s
  end.
Definition mrun (size n : nat) (l : list mop) (s : mstate) : mstate := fold_left (mstep size n) l s.
End MPIOpt.
