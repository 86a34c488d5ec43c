(** Model of the greedy permanent-magnet solvers: src/simsoptpp/permanent_magnet_optimization.cpp ("cpp:") 328-378 (print_GPMO, connectivity_matrix),
    380-580 (GPMO_backtracking), 1237-1330 (GPMO_baseline), and their wrapper src/simsopt/solve/permanent_magnet_optimization.py ("py:") 366-480.
    Arrays of shape (N, 3) are functions of the flat index 3 * site + component; A j i is the entry of A_obj (3N, ngrid).
    Simplifications: exact reals; mmax_sum, Bn_history and the console output are left out (they do not influence the rest). *)
From Coq Require Import Reals Lra Lia List Bool Arith.
From Verif Require Import ListAux VecAux CurveObjModel.
Import ListNotations.
Open Scope R_scope.

Definition e50 : R := 10 ^ 50.
(** std::distance(begin, std::min_element(begin, end)) of n + 1 entries: the first smallest *)
Fixpoint amin (n : nat) (f : nat -> R) : nat := match n with O => O | S k => let p := amin k f in if Rlt_dec (f (S k)) (f p) then S k else p end.
Definition upd {B} (f : nat -> B) (j : nat) (v : B) : nat -> B := fun i => if (i =? j)%nat then v else f i.

Section GPMO.
Variables (ng N : nat) (A : nat -> nat -> R) (b : nat -> R) (mm : nat -> R).
(** None: single_direction < 0 *)
Variable (sd : option nat).
Definition N3 : nat := (3 * N)%nat.
(** cpp:1281: for j = max(0, single_direction); j < N3; j += 1 or 3 *)
Definition visited (j : nat) : bool := match sd with None => (j <? N3)%nat | Some d => (j <? N3)%nat && (d <=? j)%nat && ((j - d) mod 3 =? 0)%nat end.
(** x, Gamma_complement, R2s, Aij_mj_sum *)
Record gst := G { gx : nat -> R; gam : nat -> bool; r2s : nat -> R; res : nat -> R }.
(** cpp:1243-1271 *)
Definition ginit : gst := G (fun _ => 0) (fun _ => true) (fun _ => e50) (fun i => - b i).
(** cpp:1289-1295 *)
Definition R2of (s : gst) (sign : R) (j : nat) : R := sum_to ng (fun i => (res s i + sign * A j i) * (res s i + sign * A j i)) + mm j * mm j.
(** cpp:1281-1298 *)
Definition scan (s : gst) (p : nat) : R :=
  if (p <? N3)%nat then if visited p && gam s p then R2of s 1 p else r2s s p
  else if visited (p - N3) && gam s (p - N3) then R2of s (-1) (p - N3) else r2s s p.
(** cpp:1301-1310: flat index and sign of the chosen dipole *)
Definition choice (s : gst) : nat * R := let p := amin (6 * N - 1) (scan s) in if (p <? N3)%nat then (p, 1) else ((p - N3)%nat, -1).
Definition samesite (i j : nat) : bool := (i / 3 =? j / 3)%nat.
(** cpp:1311-1325 *)
Definition place (s : gst) : gst := let '(j, sg) := choice s in
  G (upd (gx s) j sg) (fun i => if samesite i j then false else gam s i)
    (fun p => if samesite (if (p <? N3)%nat then p else (p - N3)%nat) j then e50 else scan s p) (fun i => res s i + sg * A j i).
(** cpp:338-346 *)
Definition objective (s : gst) : R := / 2 * sum_to ng (fun i => res s i * res s i).
(** cpp:1327: k % int(K / nhistory) == 0 || k == 0 || k == K - 1; None: remainder by zero *)
Definition records (K nh k : nat) : option bool := match (K / nh)%nat with O => None | q => Some ((k mod q =? 0) || (k =? 0) || (k =? K - 1))%nat end.
Inductive gres := GDone (hist : list R) (x : nat -> R) | GCrash | GOutOfBounds.
(** writing entry number (length hist) of arrays with nhistory + 1 entries *)
Definition write (nh : nat) (hist : list R) (v : R) : option (list R) := if (length hist <? nh + 1)%nat then Some (hist ++ [v]) else None.
(** cpp:1278-1331 *)
Fixpoint base_loop (verbose : bool) (K nh : nat) (fuel k : nat) (hist : list R) (s : gst) : gres :=
  match fuel with
  | O => GDone hist (gx s)
  | S fuel => let s' := place s in
      if verbose then match records K nh k with
        | None => GCrash
        | Some true => match write nh hist (objective s') with None => GOutOfBounds | Some h => base_loop verbose K nh fuel (S k) h s' end
        | Some false => base_loop verbose K nh fuel (S k) hist s' end
      else base_loop verbose K nh fuel (S k) hist s'
  end.
Definition GPMO_baseline (verbose : bool) (K nh : nat) : gres := base_loop verbose K nh K 0 [] ginit.

(** ** Backtracking *)
(** sk_sign_fac and skjj_ind *)
Record bst := B { bg : gst; sk : nat -> R; jj : nat -> nat }.
Definition binit : bst := B ginit (fun _ => 0) (fun _ => O).
(** cpp:451-476 *)
Definition bplace (s : bst) : bst := let '(j, sg) := choice (bg s) in B (place (bg s)) (upd (sk s) (j / 3) sg) (upd (jj s) (j / 3) (j mod 3)%nat).
Definition chosen (s : bst) : nat := (fst (choice (bg s)) / 3)%nat.
Variable (connect : nat -> nat -> nat).
Definition Reqb (a c : R) : bool := if Req_EM_T a c then true else false.
(** cpp:490 *)
Definition wyrm (s : bst) (jk cj : nat) : bool := negb (Reqb (sk s jk) 0) && Reqb (sk s jk) (- sk s cj) && (jj s jk =? jj s cj)%nat.
(** cpp:491-516 *)
Definition kill (s : bst) (jk cj : nat) : bst :=
  let j1 := (3 * jk + jj s jk)%nat in let j2 := (3 * cj + jj s cj)%nat in let g := bg s in
  B (G (upd (upd (gx g) j1 0) j2 0) (fun i => if (i / 3 =? jk)%nat || (i / 3 =? cj)%nat then true else gam g i) (r2s g)
       (fun i => res g i - (sk s jk * A j1 i + sk s cj * A j2 i)))
    (upd (upd (sk s) jk 0) cj 0) (jj s).
(** cpp:487-519: the first opposite neighbour among the Nadjacent nearest *)
Definition dewyrm (nadj : nat) (s : bst) (jk : nat) : bst := match find (wyrm s jk) (map (connect jk) (seq 0 nadj)) with Some cj => kill s jk cj | None => s end.
(** cpp:481-520; placed: skj[0..k-1] *)
Definition sweep (nadj : nat) (placed : list nat) (s : bst) : bst := fold_left (dewyrm nadj) placed s.
(** cpp:524-534 *)
Definition occupied (g : gst) : nat := length (filter (fun j => negb (gam g (3 * j)) || negb (gam g (3 * j + 1)) || negb (gam g (3 * j + 2))) (seq 0 N)).
(** cpp:536-573; nums: num_nonzeros(0..print_iter-1); entries not yet written are 0 *)
Fixpoint back_loop (verbose : bool) (K nh bt nadj maxn : nat) (fuel k : nat) (hist : list R) (nums : list nat) (placed : list nat) (s : bst) : gres * list nat :=
  match fuel with
  | O => (GDone hist (gx (bg s)), nums)
  | S fuel =>
      let s1 := bplace s in let placed' := (placed ++ [chosen s])%list in
      match (if (bt <=? k)%nat then match bt with O => None | _ => Some (if (k mod bt =? 0)%nat then sweep nadj placed s1 else s1) end else Some s1) with
      | None => (GCrash, nums)
      | Some s2 =>
        let n := occupied (bg s2) in
        let stop (h : list R) (nums : list nat) :=
          if (N <=? n)%nat || (maxn <=? n)%nat then match write nh h (objective (bg s2)) with None => (GOutOfBounds, nums) | Some h' => (GDone h' (gx (bg s2)), nums) end
          else back_loop verbose K nh bt nadj maxn fuel (S k) h nums placed' s2 in
        if verbose then match records K nh k with
          | None => (GCrash, nums)
          | Some true => match write nh hist (objective (bg s2)) with
              | None => (GOutOfBounds, nums)
              | Some h => let nums' := (nums ++ [n])%list in let pi := length h in
                  if (10 <? pi)%nat && (nth pi nums' O =? nth (pi - 1) nums' O)%nat && (nth pi nums' O =? nth (pi - 2) nums' O)%nat
                  then (GDone h (gx (bg s2)), nums') else stop h nums'
              end
          | Some false => stop hist nums end
        else stop hist nums
      end
  end.
Definition GPMO_backtracking (verbose : bool) (K nh bt nadj maxn : nat) : gres * list nat := back_loop verbose K nh bt nadj maxn K 0 [] [] [] binit.
End GPMO.

(** cpp:354-378 one row of the connectivity matrix: repeatedly the nearest site, whose distance is then set to 1e10; N sites *)
Fixpoint nearest (N : nat) (dist : nat -> R) (n : nat) : list nat := match n with O => [] | S n => let p := amin (N - 1) dist in p :: nearest N (upd dist p (10 ^ 10)) n end.
Definition connectivity (N : nat) (d : nat -> nat -> R) (j k : nat) : nat := nth k (nearest N (fun i => d i j) 2000) O.

(** py:394-404: K given by the user is capped at the number of dipoles except for the backtracking variants; the default of the extension (1000) is not *)
Definition wrapper_K (N : nat) (K : option nat) : nat := match K with Some K => Nat.min K N | None => 1000%nat end.
(** py:466 *)
Definition rescale (mmax : nat -> R) (x : nat -> R) (j : nat) : R := x j * mmax (j / 3)%nat.
