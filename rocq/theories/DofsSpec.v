(** Small specification vocabulary for DOFs: what a key denotes, what "the i-th free dof" is.
    Independent of the model's mask/scatter helpers. *)
From Verif Require Import ListAux DofsModel.

Section S.
Context {V : Type}.

(** all five arrays have one entry per dof, names are distinct *)
Definition wf (d : dofs V) : Prop :=
  length (d_free d) = length (d_x d) /\ length (d_lb d) = length (d_x d) /\
  length (d_ub d) = length (d_x d) /\ length (d_names d) = length (d_x d) /\ NoDup (d_names d).

(** [denotes d k i]: key [k] is the name of dof [i], or the python index of dof [i] *)
Definition denotes (d : dofs V) (k : key) (i : nat) : Prop :=
  match k with
  | KName s => nth_error (d_names d) i = Some s
  | KIdx z => i < length (d_x d) /\ (z = Z.of_nat i \/ z = Z.of_nat i - Z.of_nat (length (d_x d)))%Z
  end.

(** increasing list of the indices of the free dofs *)
Definition free_positions (d : dofs V) : list nat :=
  filter (fun i => match nth_error (d_free d) i with Some true => true | _ => false end)
         (seq 0 (length (d_x d))).

(** everything except the component named is the same *)
Definition same_but_x (d d' : dofs V) :=
  d_free d' = d_free d /\ d_lb d' = d_lb d /\ d_ub d' = d_ub d /\ d_names d' = d_names d.
Definition same_but_free (d d' : dofs V) :=
  d_x d' = d_x d /\ d_lb d' = d_lb d /\ d_ub d' = d_ub d /\ d_names d' = d_names d.
Definition same_but_lb (d d' : dofs V) :=
  d_x d' = d_x d /\ d_free d' = d_free d /\ d_ub d' = d_ub d /\ d_names d' = d_names d.
Definition same_but_ub (d d' : dofs V) :=
  d_x d' = d_x d /\ d_free d' = d_free d /\ d_lb d' = d_lb d /\ d_names d' = d_names d.

(** [l'] is [l] with entry [i] replaced by [v] *)
Definition replaced {A} (i : nat) (v : A) (l l' : list A) : Prop :=
  length l' = length l /\ nth_error l' i = Some v /\ forall j, j <> i -> nth_error l' j = nth_error l j.
End S.
