(** Model of the greedy wireframe solver: src/simsoptpp/wireframe_optimization.cpp ("cpp:") 72-349 (GSCO), 371-384 (compute_f_S), 393-536 (check_eligibility),
    and of src/simsopt/solve/wireframe_optimization.py ("py:") 633-670 (gsco_wireframe), 672-715 (get_gsco_iteration).
    Currents are functions of the segment index, A m s is the entry of A_obj (nGrid, nSegs).  Candidates are numbered 0 .. 2 nLoops - 1 as in the code: the second half are the loops with reversed current.
    Simplifications: exact reals; DBL_MAX, the value given to ineligible candidates, is larger than every objective value; the console output is left out. *)
From Coq Require Import Reals Lra Lia List Bool Arith ZArith.
From Verif Require Import ListAux VecAux CurveObjModel GPMOModel.
Import ListNotations.
Open Scope R_scope.

(** py:655-660: flags, abs(default_current), abs(max_current) (None: infinity), abs(max_loop_count), lambda_S *)
Record gpar := GP { no_crossing : bool; no_new_coils : bool; match_current : bool; dflt : R; maxc : option R; maxcount : Z; lam : R }.
Definition gpar_of (no_crossing no_new_coils match_current : bool) (default_current : R) (max_current : option R) (max_loop_count : Z) (lambda_S : R) : gpar :=
  GP no_crossing no_new_coils match_current (Rabs default_current) (option_map Rabs max_current) (Z.abs max_loop_count) lambda_S.

Section GSCO.
(** loops(l, 0..3), free_loops(l) == 1, segments(s, 0..1), connections(k, 0..3) *)
Variables (ng ns n : nat) (A : nat -> nat -> R) (b : nat -> R) (cells : nat -> list nat) (free : nat -> bool) (sstart send : nat -> nat) (conn : nat -> list nat) (p : gpar).
(** cpp:159 *)
Definition tol : R := / 1000 * dflt p.
Definition active (v : R) : bool := if Rlt_dec tol (Rabs v) then true else false.
(** the k-th segment of a loop and its orientation: cpp:417-424 *)
Definition sg (l k : nat) : nat := nth k (cells l) O.
Definition osgn (k : nat) : R := if (k <? 2)%nat then 1 else -1.
(** x, loop_count, Ax_minus_b, two_f_B_latest, two_f_S_latest, two_f_latest, opt_ind_prev (None: unset), the history records (current, loop, f_B, f_S, f) *)
Record gst := G { gx : nat -> R; gcnt : nat -> Z; gres : nat -> R; tfB : R; tfS : R; tf : R; prev : option nat; hist : list (R * nat * R * R * R) }.
(** cpp:371-384, doubled *)
Definition two_f_S (x : nat -> R) : R := 2 * sum_to ns (fun i => if active (x i) then / 2 else 0).
(** cpp:83-87, 114-122, 132-136, 152-171 *)
Definition ginit (x0 : nat -> R) (cnt0 : nat -> Z) : gst :=
  let r := fun m => sum_to ns (fun j => A m j * x0 j) - b m in
  let fB := sum_to ng (fun m => r m * r m) in let fS := two_f_S x0 in
  G x0 cnt0 r fB fS (fB + lam p * fS) None [(0, O, / 2 * fB, / 2 * fS, / 2 * fB + / 2 * lam p * fS)].
(** loop and sign of a candidate: cpp:262-263, 408 *)
Definition loop_of (i : nat) : nat := if (i <? n)%nat then i else (i - n)%nat.
Definition dir_of (i : nat) : Z := if (i <? n)%nat then 1%Z else (-1)%Z.
(** cpp:445-460: None: several current levels *)
Fixpoint level (x : nat -> R) (l : list nat) (acc : R) : option R :=
  match l with
  | [] => Some acc
  | s :: l => if Rlt_dec 0 (Rabs (x s)) then if Req_EM_T acc 0 then level x l (Rabs (x s)) else if Req_EM_T acc (Rabs (x s)) then level x l (Rabs (x s)) else None else level x l acc
  end.
(** cpp:442-471 *)
Definition loop_curr (x : nat -> R) (i : nat) : option R :=
  if match_current p then match level x (map (sg (loop_of i)) [0; 1; 2; 3]%nat) 0 with None => None | Some v => Some (IZR (dir_of i) * (if Req_EM_T v 0 then dflt p else v)) end
  else Some (IZR (dir_of i) * dflt p).
(** cpp:473-485 *)
Definition exceeds (x : nat -> R) (l : nat) (c : R) : bool :=
  match maxc p with None => false | Some mx => existsb (fun k => if Rlt_dec mx (Rabs (x (sg l k) + osgn k * c)) then true else false) [0; 1; 2; 3]%nat end.
(** cpp:487-530: current added to a segment connected to a node (first match) *)
Fixpoint added (l : nat) (c : R) (s : nat) (ks : list nat) : R := match ks with [] => 0 | k :: ks => if (s =? sg l k)%nat then osgn k * c else added l c s ks end.
Definition corners (l : nat) : list nat := [sstart (sg l 0); send (sg l 0); sstart (sg l 2); send (sg l 2)].
Definition crosses (x : nat -> R) (l : nat) (c : R) : bool :=
  existsb (fun k => (2 <? length (filter (fun s => active (x s + added l c s [0; 1; 2; 3]%nat)) (conn k)))%nat) (corners l).
(** cpp:400-534 check_eligibility, one candidate; 0: not eligible *)
Definition elig (st : gst) (i : nat) : R :=
  let l := loop_of i in
  if negb (free l) then 0
  else if (0 <? maxcount p)%Z && (maxcount p <? Z.abs (gcnt st l + dir_of i))%Z then 0
  else if no_new_coils p && forallb (fun k => negb (active (gx st (sg l k)))) [0; 1; 2; 3]%nat then 0
  else match loop_curr (gx st) i with None => 0 | Some c => if exceeds (gx st) l c then 0 else if no_crossing p && crosses (gx st) l c then 0 else c end.
Definition eligible (st : gst) (i : nat) : bool := if Req_EM_T (elig st i) 0 then false else true.
(** cpp:222-254: field of the loop at a test point, and the objectives of a candidate, doubled *)
Definition bnorm (l : nat) (c : R) (m : nat) : R := A m (sg l 0) * c + A m (sg l 1) * c - A m (sg l 2) * c - A m (sg l 3) * c.
Definition cand_fB (st : gst) (i : nat) : R := sum_to ng (fun m => (gres st m + bnorm (loop_of i) (elig st i) m) * (gres st m + bnorm (loop_of i) (elig st i) m)).
Definition nact (f : nat -> R) : R := sum_to 4 (fun k => if active (f k) then 1 else 0).
Definition cand_fS (st : gst) (i : nat) : R := let l := loop_of i in
  tfS st + nact (fun k => gx st (sg l k) + osgn k * elig st i) - nact (fun k => gx st (sg l k)).
Definition cand_f (st : gst) (i : nat) : R := cand_fB st i + lam p * cand_fS st i.
(** cpp:258-260: the first smallest among the eligible candidates below m; None: nEligible < 1 *)
Fixpoint best (st : gst) (m : nat) : option nat :=
  match m with
  | O => None
  | S k => if eligible st k then match best st k with None => Some k | Some j => if Rlt_dec (cand_f st k) (cand_f st j) then Some k else Some j end else best st k
  end.
(** cpp:282-311 *)
Definition accept (st : gst) (i : nat) : gst :=
  let l := loop_of i in let c := elig st i in let x := gx st in
  let x1 := upd x (sg l 0) (x (sg l 0) + c) in let x2 := upd x1 (sg l 1) (x1 (sg l 1) + c) in
  let x3 := upd x2 (sg l 2) (x2 (sg l 2) - c) in let x4 := upd x3 (sg l 3) (x3 (sg l 3) - c) in
  G x4 (upd (gcnt st) l (gcnt st l + dir_of i)%Z) (fun m => gres st m + bnorm l c m) (cand_fB st i) (cand_fS st i) (cand_f st i) (prev st)
    (hist st ++ [(c, l, / 2 * cand_fB st i, / 2 * cand_fS st i, / 2 * cand_f st i)]).
Inductive stop := NoneEligible | Undone | LastIter | NoIter.
(** cpp:270: (opt_ind + nLoops % twoNLoops) == opt_ind_prev, where nLoops % twoNLoops = nLoops *)
Definition undoes (st : gst) (i : nat) : bool := match prev st with Some j => (i + n mod (2 * n) =? j)%nat | None => false end.
(** cpp:185-338; fuel: iterations left *)
Fixpoint iterate (fuel : nat) (st : gst) : gst * stop :=
  match fuel with
  | O => (st, NoIter)
  | S fuel => match best st (2 * n) with
      | None => (st, NoneEligible)
      | Some i =>
          if undoes st i then (if Rlt_dec (tf st) (cand_f st i) then st else accept st i, Undone)
          else let st' := accept (G (gx st) (gcnt st) (gres st) (tfB st) (tfS st) (tf st) (Some i) (hist st)) i in
            match fuel with O => (st', LastIter) | _ => iterate fuel st' end
      end
  end.
Definition GSCO (x0 : nat -> R) (cnt0 : nat -> Z) (nIter : nat) : gst * stop := iterate nIter (ginit x0 cnt0).
End GSCO.

(** py:672-715 get_gsco_iteration: replays the records 0 .. iteration; None: ValueError *)
Definition replay_one (cells : nat -> list nat) (x : nat -> R) (r : R * nat * R * R * R) : nat -> R :=
  let '(c, l, _, _, _) := r in
  fun s => let y := (if (s =? nth 0 (cells l) O)%nat || (s =? nth 1 (cells l) O)%nat then x s + c else x s) in
           if (s =? nth 2 (cells l) O)%nat || (s =? nth 3 (cells l) O)%nat then y - c else y.
Definition get_gsco_iteration (cells : nat -> list nat) (x_init : nat -> R) (hist : list (R * nat * R * R * R)) (iteration : nat) : option (nat -> R) :=
  if (length hist <? iteration + 1)%nat then None else Some (fold_left (replay_one cells) (firstn (iteration + 1) hist) x_init).
