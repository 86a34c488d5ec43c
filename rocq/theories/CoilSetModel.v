(** Model of CoilSet (src/simsopt/field/coilset.py:18-345) apart from the objectives' values: which coils, which BiotSavart object and which
    parents the pieces are built from.  Coils are numbered; a symmetric copy of base coil b is (b, (k, flip)).  Surfaces are numbered. *)
From Coq Require Import Reals.
From Verif Require Import ListAux VecAux DofsModel GraphModel.
Open Scope nat_scope.

(** ** The penalties: coilset.py:225-335.  "for parent in target.parents: target.remove_parent(parent)" runs an index over the list that
    remove_parent shortens; then target.append_parent(self).  [steps] bounds the loop *)
Section Own.
Context {V : Type}.
Variables (ord : list nat -> list nat) (fuel : nat).
Fixpoint detach (steps i : nat) (s : @st V) (t : nat) : outcome :=
  match steps with
  | O => Some (s, None)
  | S n => match nth_error (par s t) i with
           | None => Some (s, None)
           | Some p => bindr (remove_parent ord fuel s t p) (fun s' => detach n (S i) s' t)
           end
  end.
Definition own_penalty (s : @st V) (t c : nat) : outcome :=
  bindr (detach (length (par s t)) 0 s t) (fun s' => append_parent ord fuel s' t c).
End Own.

(** ** The attributes *)
Definition copies (nfp : nat) (ss : bool) : list (nat * bool) := flat_map (fun k => map (fun f => (k, f)) (if ss then [false; true] else [false])) (seq 0 nfp).
(** coil.py:175-186 *)
Definition via_symmetries (base : list nat) (nfp : nat) (ss : bool) : list (nat * (nat * bool)) := flat_map (fun c => map (fun b => (b, c)) base) (copies nfp ss).
(** [bs]: the coils of the BiotSavart object self.bs; [pts]: the surface whose points it was given; [rbs], [rpts]: the same for the bs of a
    ReducedCoilSet made from this set (coilset.py:423, 424) *)
Record cset := CSet { base : list nat; coils : list (nat * (nat * bool)); bs : list (nat * (nat * bool)); pts : nat; surf : nat; snfp : nat; sss : bool }.
(** coilset.py:40-79 with base_coils given; [coils_arg]: the argument coils *)
Definition cs_new (b : list nat) (coils_arg : option (list (nat * (nat * bool)))) (sf nfp : nat) (ss : bool) : cset :=
  let c := match coils_arg with Some c => c | None => via_symmetries b nfp ss end in CSet b c c sf sf nfp ss.
(** 173-186: the setter writes self._coils, which nothing reads; self.coils keeps its value *)
Definition cs_set_base (s : cset) (b : list nat) : cset := let c := via_symmetries b (snfp s) (sss s) in CSet b (coils s) c (surf s) (surf s) (snfp s) (sss s).
(** 146-163: raises if nfp differs; the coils stay *)
Definition cs_set_surface (s : cset) (sf nfp : nat) (ss : bool) : option cset := if negb (nfp =? snfp s) then None else Some (CSet (base s) (coils s) (bs s) sf sf (snfp s) ss).
(** 337-345 total_length and 263-290 length_penalty, total_length_penalty: [len b] is the length of the curve of base coil b *)
Definition total_length (len : nat -> R) (s : cset) : R := (rsuml (map len (base s)) * (INR (length (coils s)) / INR (length (base s))))%R.
