(** Model of src/simsopt/mhd/boozer.py: the surface registry and the run caching of [Boozer], and
    [Quasisymmetry.J].

    Simplifications: numbers are reals; the equilibrium code is represented by what running it gives at
    the moment ([None] = it raises; the run caching of Vmec is C98); the booz_xform library transforms
    each requested surface separately: the columns of [bmnc_b] are a function of the equilibrium, the
    resolution and the surface index; a python dict with float keys is an association list in which the last
    assignment is in front. *)
From Coq Require Import Reals List ZArith Lia Lra Bool String.
Import ListNotations.
From Verif Require Import VecAux.
Open Scope R_scope.

Definition Reqb (x y : R) : bool := if Req_EM_T x y then true else false.
Definition Rleb (x y : R) : bool := if Rle_dec x y then true else false.
Definition Rltb (x y : R) : bool := if Rlt_dec x y then true else false.

(** python [sorted(list(set))] on floats and on integers *)
Fixpoint insert {A} (le : A -> A -> bool) (a : A) (l : list A) : list A :=
  match l with [] => [a] | b :: r => if le a b then a :: l else b :: insert le a r end.
Definition sorted {A} (le : A -> A -> bool) (l : list A) : list A := fold_right (insert le) [] l.
Definition to_set {A} (eqb : A -> A -> bool) (l : list A) : list A :=
  fold_left (fun s a => if existsb (eqb a) s then s else s ++ [a]) l [].
(** [l.index(a)] *)
Fixpoint index (a : nat) (l : list nat) : option nat :=
  match l with [] => None | b :: r => if Nat.eqb a b then Some 0%nat else option_map S (index a r) end.
(** [np.argmin]: the first of the smallest entries *)
Fixpoint argmin (l : list R) : option nat :=
  match l with
  | [] => None
  | x :: r => match argmin r with
              | None => Some 0%nat
              | Some j => if Rleb x (nth j r 0) then Some 0%nat else Some (S j)
              end
  end.
Definition lookup {B} (s : R) (d : list (R * B)) : option B :=
  match find (fun p => Reqb s (fst p)) d with Some p => Some (snd p) | None => None end.

Section Boozer.
Context {E D : Type}.                             (* equilibrium output (wout); Boozer data of one surface *)
Variable ns : E -> nat.                           (* wout.ns *)
Variable xform : E -> nat -> nat -> nat -> D.     (* booz_xform: equilibrium, mboz, nboz, surface *)

(** boozer.py:63-69.  [reg = None]: the attribute [s] has been replaced by a dict [{}] *)
Record boozer := mkBz {
  need : bool; reg : option (list R); mpol : nat; ntor : nat;
  s_to_index : list (R * nat); s_used : list (R * R); bx : list D; calls : nat }.

(** boozer.py:125-127: [linspace(0, 1, ns)[1:] - 0.5 * ds] *)
Definition s_full (n i : nat) : R := INR i / INR (n - 1).
Definition s_half (n j : nat) : R := s_full n (S j) - 0.5 * (s_full n 1 - s_full n 0).

(** boozer.py:86-107 register *)
Definition register (b : boozer) (l : list R) : option boozer :=
  if existsb (fun s => Rltb s 0 || Rltb 1 s) l then None else
  match reg b with
  | None => None                                  (* a dict has no union *)
  | Some s => Some (mkBz true (Some (to_set Reqb (s ++ l))) (mpol b) (ntor b) (s_to_index b) (s_used b) (bx b) (calls b))
  end.

(** boozer.py:146-162: the surfaces to compute and the two dictionaries *)
Definition nearest (n : nat) (s : R) : option nat :=
  argmin (map (fun j => Rabs (s_half n j - s)) (seq 0 (n - 1))).
Definition surfaces (n : nat) (ss : list R) : list nat :=
  sorted Nat.leb (to_set Nat.eqb (flat_map (fun s => match nearest n s with Some j => [j] | None => [] end) ss)).
Definition index_of (n : nat) (ss : list R) : list (R * nat) :=
  flat_map (fun s => match nearest n s with
                     | Some j => match index j (surfaces n ss) with Some i => [(s, i)] | None => [] end
                     | None => [] end) ss.
Definition used_of (n : nat) (ss : list R) : list (R * R) :=
  flat_map (fun s => match nearest n s with Some j => [(s, s_half n j)] | None => [] end) ss.

(** boozer.py:109-241 run; [eq] is what running the equilibrium gives now *)
Definition brun (eq : option E) (b : boozer) : boozer * bool :=
  if negb (need b) then (b, true) else
  match eq with
  | None => (b, false)
  | Some e =>
      if Nat.leb (ns e) 1 then (b, false)         (* s_full[1]: IndexError *)
      else
        let ss := sorted Rleb (match reg b with Some l => l | None => [] end) in
        (mkBz false (reg b) (mpol b) (ntor b) (index_of (ns e) ss) (used_of (ns e) ss)
              (map (xform e (mpol b) (ntor b)) (surfaces (ns e) ss)) (S (calls b)), true)
  end.

(** boozer.py:315-334: the data an objective function uses on surface [s]: its column and [s_used];
    [None] = KeyError or an exception of the equilibrium *)
Definition data (eq : option E) (b : boozer) (s : R) : boozer * option (D * R) :=
  let (b, ok) := brun eq b in
  if negb ok then (b, None) else
  (b, match lookup s (s_to_index b), lookup s (s_used b) with
      | Some i, Some u => match nth_error (bx b) i with Some d => Some (d, u) | None => None end
      | _, _ => None
      end).

Inductive op :=
| Register (l : list R)             (* boozer.register(l), also done by Quasisymmetry(boozer, l, ...) *)
| ClearSet | ClearDict              (* boozer.s = set()   /   boozer.s = {} *)
| Equil (e : option E)              (* dofs of the equilibrium, or of something it depends on, change *)
| Silent (e : option E)             (* the equilibrium changes without telling its dependents: values assigned
                                       to vmec.indata and vmec.need_to_run_code = True *)
| SetRes (m n : nat)                (* boozer.mpol = m; boozer.ntor = n *)
| Get (s : R).                      (* an objective function reads the data of surface s *)

Definition with_reg b r := mkBz (need b) r (mpol b) (ntor b) (s_to_index b) (s_used b) (bx b) (calls b).
Definition bstep (w : option E * boozer) (o : op) : option E * boozer :=
  let (eq, b) := w in
  match o with
  | Register l => (eq, match register b l with Some b' => b' | None => b end)
  | ClearSet => (eq, with_reg b (Some []))
  | ClearDict => (eq, with_reg b None)
  | Equil e => (* boozer.py:83-84 recompute_bell *)
      (e, mkBz true (reg b) (mpol b) (ntor b) (s_to_index b) (s_used b) (bx b) (calls b))
  | Silent e => (e, b)
  | SetRes m n => (eq, mkBz (need b) (reg b) m n (s_to_index b) (s_used b) (bx b) (calls b))
  | Get s => (eq, fst (data eq b s))
  end.
(** boozer.py:49-81 __init__ *)
Definition bnew (m n : nat) : boozer := mkBz true (Some []) m n [] [] [] 0.
Definition bruns (w : option E * boozer) (h : list op) := fold_left bstep h w.
End Boozer.

(** ** Quasisymmetry.J *)

Inductive normalization := B00 | Symmetric | OtherNorm.
Inductive weight := Even | Stellopt | StelloptOrnl | OtherWeight.

Record qs := mkQ { hm : Z; hn : Z; norm : normalization; wt : weight }.

(** the output of booz_xform on one surface: the modes [xm_b], [xn_b] (a multiple of nfp), amplitudes *)
Record spectrum := mkSp { nfp : Z; modes : list (Z * Z); bmnc : list R; bmns : list R }.

(** boozer.py:341-354 *)
Definition symmetric (q : qs) (nfp : Z) (mode : Z * Z) : bool :=
  let xm := IZR (fst mode) in let xn := IZR (snd mode) / IZR nfp in
  if (hn q =? 0)%Z then Reqb xn 0
  else if (hm q =? 0)%Z then Reqb xm 0
  else Reqb (xm * IZR (hn q) + xn * IZR (hm q)) 0.

(** boolean-mask indexing [l[mask]] *)
Fixpoint select (mask : list bool) (l : list R) : list R :=
  match mask, l with
  | b :: m, x :: r => if b then x :: select m r else select m r
  | _, _ => []
  end.

(** boozer.py:329-407: the entries of one surface; [u] is [s_used] *)
Definition surface_error (q : qs) (sp : spectrum) (u : R) : option (list R) :=
  if negb ((hm q =? 0) || (hm q =? 1))%Z then None else
  let sym := map (symmetric q (nfp sp)) (modes sp) in
  let non := map negb sym in
  match (match norm q with
         | B00 => match modes sp, bmnc sp with
                  | (m, n) :: _, b :: _ => if ((m =? 0) && (n =? 0))%Z then Some b else None
                  | _, _ => None
                  end
         | Symmetric => Some (sqrt (rsuml (map (fun x => x * x) (select sym (bmnc sp)))))
         | OtherNorm => None
         end) with
  | None => None
  | Some bnorm =>
      let b := map (fun x => x / bnorm) (bmnc sp) in
      match wt q with
      | Even => Some (select non b)
      | Stellopt => Some (select non (map (fun x => x / (u * u)) b))
      | StelloptOrnl => Some [sqrt (rsuml (map (fun x => x * x) (select non b)))]
      | OtherWeight => None
      end
  end.

(** boozer.py:306-409 J on a group leader: one block per surface, concatenated *)
Fixpoint blocks (l : list (option (list R))) : option (list R) :=
  match l with
  | [] => Some []
  | Some a :: r => option_map (fun t => a ++ t)%list (blocks r)
  | None :: _ => None
  end.
Definition J (q : qs) (surfs : list (spectrum * R)) : option (list R) :=
  blocks (map (fun su => surface_error q (fst su) (snd su)) surfs).
