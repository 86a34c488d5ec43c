(** Specification vocabulary for the dependency graph (what a valid call is, which states are
    reachable, what an object's value may depend on). *)
From Verif Require Import ListAux DofsModel DofsSpec GraphModel GraphInv.

Section S.
Context {V : Type}.
Notation st := (@st V).

(** A call on existing objects, with a fresh name for a new object, existing or well formed DOFs,
    and parents listed without repetition ([via_funcs = true] de-duplicates by itself). *)
Definition valid_op (s : st) (o : @gop V) : Prop :=
  match o with
  | GNew name da hs vf dl =>
      (forall a, a < nobj s -> nm s a <> name) /\
      (match da with inl d => wf d | inr D => D < ncell s end) /\
      (forall p, In p dl -> p < nobj s) /\ (vf = false -> NoDup dl)
  | GAddParent a _ p | GAppendParent a p | GRemoveParent a p => a < nobj s /\ p < nobj s
  | GReplaceDofs a D => a < nobj s /\ D < ncell s
  | GPopParent a _ | GStatus _ a _ | GLocalStatusAll _ a | GStatusAll _ a | GFullStatus _ a _
  | GSetX a _ | GSetFullX a _ | GSetLocalX a _ | GSetLocalFullX a _ | GSetKey a _ _
  | GSetLower a _ | GSetUpper a _ | GClear a => a < nobj s
  end.

Definition any_order (ord : list nat -> list nat) := forall l, Permutation (ord l) l.

(** states reachable from the empty program by any history of valid calls that return (normally
    or with an exception other than RecursionError), with any set iteration order *)
Inductive reachable : st -> Prop :=
| reach_init : reachable init_st
| reach_step s s' ord fuel o e :
    reachable s -> valid_op s o -> any_order ord ->
    gstep ord fuel s o = Some (s', e) -> reachable s'.

(** What the value of object [b] may depend on: the members of its lineage, the (ordered) parents of
    each member and the dof values of each member. *)
Definition view (s : st) (b : nat) : list (nat * list nat * list V) :=
  map (fun o => (o, par s o, d_x (cel s (dof_of s o)))) (ancestors s b ++ [b]).

(** the external copies are in sync *)
Definition ExtOK (s : st) : Prop :=
  forall o, o < nobj s -> setter s o = true -> ext s o = d_x (cel s (dof_of s o)).
End S.
