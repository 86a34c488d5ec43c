(** Model of the caches of the C++ base classes Curve and Surface
    (src/simsoptpp/curve.h:42-120, surface.h:22-99, cachedarray.h), generic in the quantities.
    A quantity has a name (a number here), a flag saying which of the two maps it lives in, the shape given at its call of
    check_the_cache, and a body: the _impl function, which may call other quantities of the same object and finally writes
    the array.  Bodies are functions of the data members (coefficients, quadrature points, resolution) and of the arrays
    they ask for.  Simplifications: an array is the flat list of its entries; an entry is [None] when it is nan or inf;
    when the array found in the map does not have the shape the body expects the model stops with None: the
    code does not check, so that it writes outside of the array or returns an array of the wrong shape. *)
From Coq Require Import List Arith Bool Lia Reals.
Import ListNotations.

Definition arr := list (option R).
Definition key := nat.
(** an _impl function: the other arrays it asks for, in order, then the contents it writes *)
Inductive prog := Done (a : arr) | Ask (k : key) (cont : arr -> prog).
Record quantity (St : Type) := Q { persistent : bool; accumulates : bool; dims : St -> list nat; body : St -> prog }.
Arguments persistent {St}. Arguments accumulates {St}. Arguments dims {St}. Arguments body {St}.
(** cachedarray.h:3-8 *)
Record entry := E { edims : list nat; edata : arr; estatus : bool }.

Section Cache.
Variable St : Type.
Variable spec : key -> quantity St.
(** the object: data members and the two maps (curve.h:51-52) *)
Record obj := O { members : St; cache : key -> option entry; pcache : key -> option entry }.
Definition map_of (k : key) (o : obj) : key -> option entry := if persistent (spec k) then pcache o else cache o.
Definition upd (m : key -> option entry) (k : key) (e : entry) : key -> option entry := fun j => if Nat.eqb j k then Some e else m j.
Definition put (k : key) (e : entry) (o : obj) : obj :=
  if persistent (spec k) then O (members o) (cache o) (upd (pcache o) k e) else O (members o) (upd (cache o) k e) (pcache o).
(** xt::zeros<double>(dims) *)
Definition zeros (d : list nat) : arr := repeat (Some 0%R) (fold_right Nat.mul 1 d).
(** data *= 0 (nan and inf become nan), then += *)
Definition zeroed (old new : option R) : option R := match old with None => None | Some _ => new end.
Fixpoint accumulate (old new : arr) : arr := match old, new with o :: old, n :: new => zeroed o n :: accumulate old new | _, _ => new end.
Definition write (acc : bool) (old new : arr) : arr := if acc then accumulate old new else new.
Definition dims_eqb (a b : list nat) : bool := if list_eq_dec Nat.eq_dec a b then true else false.
(** a body, with [ask] for the calls of other quantities *)
Fixpoint run (ask : key -> obj -> option (arr * obj)) (p : prog) (o : obj) : option (arr * obj) :=
  match p with Done a => Some (a, o) | Ask k c => match ask k o with Some (a, o') => run ask (c a) o' | None => None end end.
(** curve.h:56-80, surface.h:34-56: check_the_cache and check_the_persistent_cache.  [fuel] bounds the depth of nested calls *)
Fixpoint query (fuel : nat) (k : key) (o : obj) : option (arr * obj) :=
  match fuel with
  | 0 => None
  | S fuel =>
    let loc := match map_of k o with m => match m k with Some e => e | None => E (dims (spec k) (members o)) (zeros (dims (spec k) (members o))) false end end in
    let o1 := put k loc o in
    if estatus loc then Some (edata loc, o1)
    else if dims_eqb (edims loc) (dims (spec k) (members o)) then
      match run (query fuel) (body (spec k) (members o)) o1 with
      | None => None
      | Some (v, o2) => let new := write (accumulates (spec k)) (edata loc) v in Some (new, put k (E (edims loc) new true) o2)
      end
    else None
  end.
(** curve.h:106-110, surface.h:87-92 invalidate_cache: only the first map *)
Definition invalidate_cache (o : obj) : obj :=
  O (members o) (fun k => match cache o k with Some e => Some (E (edims e) (edata e) false) | None => None end) (pcache o).
(** curve.h:112-115, surface.h:94-97 set_dofs (also: any change of the data members followed by recompute_bell) *)
Definition set_members (s : St) (o : obj) : obj := invalidate_cache (O s (cache o) (pcache o)).
(** a fresh object *)
Definition fresh (s : St) : obj := O s (fun _ => None) (fun _ => None).
(** what a user can do: set the dofs, ask for a quantity, write into an array returned earlier (the array returned is the one in the cache) *)
Inductive op := OSet (s : St) | OQuery (k : key) | OWrite (k : key) (a : arr).
Definition overwrite (k : key) (a : arr) (o : obj) : obj := match map_of k o k with Some e => put k (E (edims e) a (estatus e)) o | None => o end.
(** the results of the queries, in order; None: undefined behaviour *)
Fixpoint history (fuel : nat) (ops : list op) (o : obj) : option (list arr * obj) :=
  match ops with
  | [] => Some ([], o)
  | OSet s :: ops => history fuel ops (set_members s o)
  | OWrite k a :: ops => history fuel ops (overwrite k a o)
  | OQuery k :: ops => match query fuel k o with None => None | Some (a, o') => match history fuel ops o' with None => None | Some (l, o'') => Some (a :: l, o'') end end
  end.
End Cache.
Arguments members {St}. Arguments cache {St}. Arguments pcache {St}. Arguments OSet {St}. Arguments OQuery {St}. Arguments OWrite {St}.
