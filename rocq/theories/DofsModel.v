(** Model of class [DOFs], src/simsopt/_core/optimizable.py lines 51-508.

    Simplifications (stated once): numeric values are elements of an arbitrary type [V]
    (IEEE doubles in the code; no arithmetic is done on them by this class); dof names are
    elements of [nat] standing for distinct strings (only equality is used); numpy arrays are
    immutable lists here, in-place mutation becomes "return the new record" (aliasing between
    arrays is modelled separately in AliasModel.v); the notification of dependent Optimizables
    ([_flag_recompute_opt], [_update_opt_indices]) is modelled in GraphModel.v.
    Python exceptions are values of type [err]; a mutator returns the state after the call
    together with [None] (normal return) or [Some e] (exception e raised). *)
From Verif Require Import ListAux.

Inductive err : Type :=
| EIndex                       (* IndexError: numpy index out of bounds *)
| EValue                       (* ValueError *)
| ELenMismatch (got want : nat)(* DofLengthMismatchError(got, want) *)
| EAttribute                   (* AttributeError *)
| EAssert                      (* AssertionError *)
| EKey                         (* KeyError *)
| EType.                       (* TypeError *)

(** optimizable.py:75 __slots__ *)
Record dofs (V : Type) := mkDofs {
  d_x : list V; d_free : list bool; d_lb : list V; d_ub : list V; d_names : list nat }.
Arguments mkDofs {V}. Arguments d_x {V}. Arguments d_free {V}. Arguments d_lb {V}.
Arguments d_ub {V}. Arguments d_names {V}.

(** A key is a python str (dof name) or a python int (possibly negative). *)
Inductive key := KName (n : nat) | KIdx (i : Z).

Section Dofs.
Context {V : Type} (ninf pinf : V).

(** optimizable.py:77-127 __init__. [None] = the default argument.
    [np.unique(names)] length test = no duplicate. *)
Fixpoint has_dup (l : list nat) : bool :=
  match l with [] => false | a :: r => existsb (Nat.eqb a) r || has_dup r end.

Definition dofs_init (x : option (list V)) (names : option (list nat)) (free : option (list bool))
           (lb ub : option (list V)) : dofs V + err :=
  let x := match x with None => [] | Some x => x end in
  let names := match names with None => seq 0 (length x) | Some n => n end in
  if has_dup names then inr EAssert else
  let free := match free with None => repeat true (length x) | Some f => f end in
  let lb := match lb with None => repeat ninf (length x) | Some l => l end in
  let ub := match ub with None => repeat pinf (length x) | Some u => u end in
  if (length x =? length free) && (length free =? length lb) && (length lb =? length ub)
     && (length ub =? length names)
  then inl (mkDofs x free lb ub names)
  else inr EAssert.

(** names.index(key) (ValueError) / numpy integer indexing with negative wrap (IndexError) on an
    array of [n] entries; used by fix, unfix, get, set, is_free, update_*_bound. *)
Definition resolve (d : dofs V) (n : nat) (k : key) : nat + err :=
  match k with
  | KName s => match find_index (Nat.eqb s) (d_names d) with
               | Some i => if i <? n then inl i else inr EIndex
               | None => inr EValue end
  | KIdx i => if (0 <=? i)%Z && (i <? Z.of_nat n)%Z then inl (Z.to_nat i)
              else if (- Z.of_nat n <=? i)%Z && (i <? 0)%Z then inl (Z.to_nat (i + Z.of_nat n))
              else inr EIndex
  end.

Definition set_free d f := mkDofs (V:=V) (d_x d) f (d_lb d) (d_ub d) (d_names d).
Definition set_xs d x := mkDofs (V:=V) x (d_free d) (d_lb d) (d_ub d) (d_names d).
Definition set_lbs d l := mkDofs (V:=V) (d_x d) (d_free d) l (d_ub d) (d_names d).
Definition set_ubs d u := mkDofs (V:=V) (d_x d) (d_free d) (d_lb d) u (d_names d).

(** optimizable.py:177-178 __len__ *)
Definition dofs_len (d : dofs V) := length (d_free d).

(** optimizable.py:180-190 fix ; 192-202 unfix *)
Definition set_status (b : bool) (d : dofs V) (k : key) : dofs V * option err :=
  match resolve d (length (d_free d)) k with
  | inl i => (set_free d (upd i b (d_free d)), None)
  | inr e => (d, Some e)
  end.
Definition dofs_fix := set_status false.
Definition dofs_unfix := set_status true.

(** optimizable.py:204-220 all_free / all_fixed ; 282-298 any_free / any_fixed *)
Definition all_free (d : dofs V) := forallb (fun b => b) (d_free d).
Definition all_fixed (d : dofs V) := negb (existsb (fun b => b) (d_free d)).
Definition any_free (d : dofs V) := existsb (fun b => b) (d_free d).
Definition any_fixed (d : dofs V) := negb (forallb (fun b => b) (d_free d)).

(** optimizable.py:226-238 get *)
Definition dofs_get (d : dofs V) (k : key) : V + err :=
  match resolve d (length (d_x d)) k with
  | inl i => match nth_error (d_x d) i with Some v => inl v | None => inr EIndex end
  | inr e => inr e
  end.

(** optimizable.py:240-252 set *)
Definition dofs_set (d : dofs V) (k : key) (v : V) : dofs V * option err :=
  match resolve d (length (d_x d)) k with
  | inl i => (set_xs d (upd i v (d_x d)), None)
  | inr e => (d, Some e)
  end.

(** optimizable.py:254-265 is_free *)
Definition is_free (d : dofs V) (k : key) : bool + err :=
  match resolve d (length (d_free d)) k with
  | inl i => match nth_error (d_free d) i with Some v => inl v | None => inr EIndex end
  | inr e => inr e
  end.

(** optimizable.py:267-280 fix_all / unfix_all: ndarray.fill *)
Definition fix_all (d : dofs V) : dofs V := set_free d (map (fun _ => false) (d_free d)).
Definition unfix_all (d : dofs V) : dofs V := set_free d (map (fun _ => true) (d_free d)).

(** optimizable.py:300-307 free_x getter *)
Definition free_x (d : dofs V) : list V := gather (d_free d) (d_x d).

(** optimizable.py:352-361 reduced_len = len(_free[_free]) *)
Definition reduced_len (d : dofs V) : nat := length (gather (d_free d) (d_free d)).

(** optimizable.py:309-324 free_x setter *)
Definition set_free_x (d : dofs V) (v : list V) : dofs V * option err :=
  if negb (reduced_len d =? length v) then (d, Some (ELenMismatch (length v) (reduced_len d)))
  else (set_xs d (scatter (d_free d) (d_x d) v), None).

(** optimizable.py:326-334 full_x getter; 336-350 setter *)
Definition full_x (d : dofs V) : list V := d_x d.
Definition set_full_x (d : dofs V) (v : list V) : dofs V * option err :=
  if negb (length (d_x d) =? length v) then (d, Some (ELenMismatch (length v) (length (d_x d))))
  else (set_xs d v, None).

(** optimizable.py:364-385 free_lower_bounds *)
Definition free_lb (d : dofs V) : list V := gather (d_free d) (d_lb d).
Definition set_free_lb (d : dofs V) (v : list V) : dofs V * option err :=
  if negb (reduced_len d =? length v) then (d, Some (ELenMismatch (length v) (reduced_len d)))
  else (set_lbs d (scatter (d_free d) (d_lb d) v), None).

(** optimizable.py:403-423 free_upper_bounds *)
Definition free_ub (d : dofs V) : list V := gather (d_free d) (d_ub d).
Definition set_free_ub (d : dofs V) (v : list V) : dofs V * option err :=
  if negb (reduced_len d =? length v) then (d, Some (ELenMismatch (length v) (reduced_len d)))
  else (set_ubs d (scatter (d_free d) (d_ub d) v), None).

(** optimizable.py:387-401 and 425-439: the setters evaluate [len(self.lower_bounds)] /
    [len(self.upper_bounds)]; DOFs has [__slots__] and no such attribute, so AttributeError is
    raised before anything is assigned. *)
Definition set_full_lb (d : dofs V) (v : list V) : dofs V * option err := (d, Some EAttribute).
Definition set_full_ub (d : dofs V) (v : list V) : dofs V * option err := (d, Some EAttribute).

(** optimizable.py:454-476 update_lower_bound / update_upper_bound *)
Definition update_lb (d : dofs V) (k : key) (v : V) : dofs V * option err :=
  match resolve d (length (d_lb d)) k with
  | inl i => (set_lbs d (upd i v (d_lb d)), None)
  | inr e => (d, Some e)
  end.
Definition update_ub (d : dofs V) (k : key) (v : V) : dofs V * option err :=
  match resolve d (length (d_ub d)) k with
  | inl i => (set_ubs d (upd i v (d_ub d)), None)
  | inr e => (d, Some e)
  end.
(** optimizable.py:478-489 update_bounds: two consecutive writes *)
Definition update_bounds (d : dofs V) (k : key) (v : V * V) : dofs V * option err :=
  match update_lb d k (fst v) with
  | (d1, None) => update_ub d1 k (snd v)
  | r => r
  end.

(** optimizable.py:491-505 free_names: explicit loop over the status array *)
Fixpoint free_names_loop (free : list bool) (names : list nat) (i : nat) : list nat :=
  match free with
  | [] => []
  | f :: r => (if f then match nth_error names i with Some s => [s] | None => [] end else [])
              ++ free_names_loop r names (S i)
  end.
Definition free_names (d : dofs V) : list nat := free_names_loop (d_free d) (d_names d) 0.

(** Operation language: every mutator of the class. *)
Inductive dop :=
| OFix (k : key) | OUnfix (k : key) | OFixAll | OUnfixAll
| OSet (k : key) (v : V) | OFreeX (v : list V) | OFullX (v : list V)
| OFreeLb (v : list V) | OFreeUb (v : list V) | OFullLb (v : list V) | OFullUb (v : list V)
| OUpdLb (k : key) (v : V) | OUpdUb (k : key) (v : V) | OUpdBounds (k : key) (v : V * V).

Definition dstep (d : dofs V) (o : dop) : dofs V * option err :=
  match o with
  | OFix k => dofs_fix d k | OUnfix k => dofs_unfix d k
  | OFixAll => (fix_all d, None) | OUnfixAll => (unfix_all d, None)
  | OSet k v => dofs_set d k v | OFreeX v => set_free_x d v | OFullX v => set_full_x d v
  | OFreeLb v => set_free_lb d v | OFreeUb v => set_free_ub d v
  | OFullLb v => set_full_lb d v | OFullUb v => set_full_ub d v
  | OUpdLb k v => update_lb d k v | OUpdUb k v => update_ub d k v
  | OUpdBounds k v => update_bounds d k v
  end.

(** Running a history: exceptions are caught by the caller and the history goes on. *)
Definition drun (d : dofs V) (ops : list dop) : dofs V := fold_left (fun d o => fst (dstep d o)) ops d.

End Dofs.
