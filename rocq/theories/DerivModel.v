(** Model of src/simsopt/_core/derivative.py (the whole file) and of ScaledOptimizable and
    OptimizableSum, src/simsopt/_core/optimizable.py 1503-1520, 1776-1828.

    Memory is explicit: numpy arrays and the dictionaries [Derivative.data] live on a heap, so that
    aliasing between Derivative objects is visible.  A Derivative object is identified with the
    address of its [data] dictionary (the constructor always builds a new dictionary, 103).
    Simplifications: array entries are real numbers (no rounding, no dtype); dictionary keys are the
    numbers of the Optimizable objects (python compares names; names of live objects differ,
    GraphInv.gi_nm); arrays are one dimensional. *)
From Verif Require Import ListAux VecAux DofsModel GraphModel.

Record heap := mkHeap { arr : nat -> list R; narr : nat; dict : nat -> list (nat * nat); ndict : nat }.

Definition set_arr h a v := mkHeap (fup (arr h) a v) (narr h) (dict h) (ndict h).
Definition new_arr h v : heap * nat := (mkHeap (fup (arr h) (narr h) v) (S (narr h)) (dict h) (ndict h), narr h).
Definition set_dict h d l := mkHeap (arr h) (narr h) (fup (dict h) d l) (ndict h).
Definition new_dict h l : heap * nat := (mkHeap (arr h) (narr h) (fup (dict h) (ndict h) l) (S (ndict h)), ndict h).

(** [k in d] / [d[k]] *)
Fixpoint lookup (k : nat) (d : list (nat * nat)) : option nat :=
  match d with [] => None | (k', a) :: r => if k' =? k then Some a else lookup k r end.

(** numpy [a op= b]: same length, or [b] has length one (broadcast); otherwise ValueError *)
Definition np_inplace (op : R -> R -> R) (a b : list R) : option (list R) :=
  if length b =? length a then Some (vmap2 op a b)
  else match b with [y] => Some (map (fun x => op x y) a) | _ => None end.

(** derivative.py:24-28 copy_numpy_dict *)
Fixpoint copy_items (h : heap) (items : list (nat * nat)) : heap * list (nat * nat) :=
  match items with
  | [] => (h, [])
  | (k, a) :: r => let (h1, c) := new_arr h (arr h a) in
                   let (h2, z) := copy_items h1 r in (h2, (k, c) :: z)
  end.

(** the loop shared by __add__ 109-114, __sub__ 120-125, __iadd__ 130-135, __isub__ 140-145: if the key is
    present modify that array in place, otherwise store a new array [fresh yk] *)
Fixpoint accum (op : R -> R -> R) (fresh : list R -> list R) (h : heap) (z : list (nat * nat)) (items : list (nat * nat))
  : heap * list (nat * nat) * option err :=
  match items with
  | [] => (h, z, None)
  | (k, b) :: r =>
    match lookup k z with
    | Some a => match np_inplace op (arr h a) (arr h b) with
                | Some v => accum op fresh (set_arr h a v) z r
                | None => (h, z, Some EValue)
                end
    | None => let (h1, c) := new_arr h (fresh (arr h b)) in accum op fresh h1 (z ++ [(k, c)]) r
    end
  end.

(** 105-115 __add__ and 117-126 __sub__ *)
Definition binop op fresh (h : heap) (x y : nat) : heap * (nat + err) :=
  let (h1, z) := copy_items h (dict h x) in
  match accum op fresh h1 z (dict h y) with
  | (h2, z', None) => let (h3, d) := new_dict h2 z' in (h3, inl d)
  | (h2, _, Some e) => (h2, inr e)
  end.
Definition d_add := binop Rplus (fun v => v).
Definition d_sub := binop Rminus vneg.

(** 128-136 __iadd__ and 138-146 __isub__: modify [x] itself.  (Iterating over y.items() while
    x is y is fine: no key is ever added then.) *)
Definition inplace op fresh (h : heap) (x y : nat) : heap * option err :=
  match accum op fresh h (dict h x) (dict h y) with (h1, z, e) => (set_dict h1 x z, e) end.
Definition d_iadd := inplace Rplus (fun v => v).
Definition d_isub := inplace Rminus vneg.

(** 148-160 __mul__ and __rmul__ by a number *)
Fixpoint scale_items (c : R) (h : heap) (items : list (nat * nat)) : heap :=
  match items with
  | [] => h
  | (k, a) :: r => scale_items c (set_arr h a (map (fun v => (v * c)%R) (arr h a))) r
  end.
Definition d_mul (c : R) (h : heap) (x : nat) : heap * nat :=
  let (h1, z) := copy_items h (dict h x) in new_dict (scale_items c h1 z) z.

(** 19-21 OptimizableDefaultDict.__missing__: [self.data[k]] inserts zeros of the full local size *)
Definition fetch (size : nat -> nat) (h : heap) (d k : nat) : heap * nat :=
  match lookup k (dict h d) with
  | Some a => (h, a)
  | None => let (h1, c) := new_arr h (zeros (size k)) in (set_dict h1 d (dict h1 d ++ [(k, c)]), c)
  end.

Section Call.
Context {V : Type}.
Variable s : @st V.
Definition size_of (k : nat) : nat := dofs_len (cel s (dof_of s k)).
(** 193-195: local_derivs += self.data[opt][opt.local_dofs_free_status]; a boolean mask of another
    length raises IndexError *)
Fixpoint local_sum (h : heap) (d : nat) (acc : list R) (opts : list nat) : heap * (list R + err) :=
  match opts with
  | [] => (h, inl acc)
  | o :: r =>
    let (h1, a) := fetch size_of h d o in
    let mask := d_free (cel s (dof_of s o)) in
    if length mask =? length (arr h1 a)
    then match np_inplace Rplus acc (gather mask (arr h1 a)) with
         | Some acc' => local_sum h1 d acc' r
         | None => (h1, inr EValue)
         end
    else (h1, inr EIndex)
  end.
(** 191-197 the loop over unique_dof_lineage; [np.any(k.dofs_free_status)] looks at the whole lineage of k *)
Fixpoint call_loop (h : heap) (d : nat) (us : list nat) : heap * (list (list R) + err) :=
  match us with
  | [] => (h, inl [])
  | k :: r =>
    if existsb (fun b => b) (get_status s k)
    then match local_sum h d (zeros (reduced_len (cel s (dof_of s k)))) (dep s (dof_of s k)) with
         | (h1, inr e) => (h1, inr e)
         | (h1, inl v) => match call_loop h1 d r with
                          | (h2, inr e) => (h2, inr e)
                          | (h2, inl vs) => (h2, inl (v :: vs))
                          end
         end
    else call_loop h d r
  end.
(** 162-198 __call__ with as_derivative=False; np.concatenate([]) raises ValueError *)
Definition d_call (h : heap) (d a : nat) : heap * (list R + err) :=
  match call_loop h d (uniq_of s a) with
  | (h1, inr e) => (h1, inr e)
  | (h1, inl []) => (h1, inr EValue)
  | (h1, inl vs) => (h1, inl (concat vs))
  end.

(** d[k] = a on a python dict *)
Fixpoint put (k a : nat) (d : list (nat * nat)) : list (nat * nat) :=
  match d with [] => [(k, a)] | (k', a') :: r => if k' =? k then (k', a) :: r else (k', a') :: put k a r end.
(** 177-189 as_derivative=True: the arrays of the result are those of self *)
Fixpoint pick (h : heap) (d : nat) (opts : list nat) (acc : list (nat * nat)) : heap * list (nat * nat) :=
  match opts with
  | [] => (h, acc)
  | o :: r => if 0 <? size_of o
              then let (h1, a) := fetch size_of h d o in pick h1 d r (put o a acc)
              else pick h d r acc
  end.
Definition d_call_derivative (h : heap) (d a : nat) : heap * nat :=
  let (h1, z) := pick h d (concat (map (fun k => dep s (dof_of s k)) (uniq_of s a))) [] in new_dict h1 z.
End Call.

(** ** Objective expressions: [w * obj], [obj + obj], [sum([...])], OptimizableSum, ScaledOptimizable.
    A leaf is any object with [J] and [dJ(partials=True)]. *)
Inductive expr := Leaf (n : nat) | Scaled (c : R) (e : expr) | Sum (l : list expr).

(** result of [dJ(partials=True)]: a Derivative, or the number 0 (python's [sum] of an empty list) *)
Inductive dval := DNum (c : R) | DDer (d : nat).
(** left operand + Derivative: 0 + d is d.__radd__(0) = d itself (199-204); Derivative + number has no
    attribute data; number + number *)
Definition dv_add (h : heap) (u v : dval) : heap * (dval + err) :=
  match u, v with
  | DDer x, DDer y => match d_add h x y with (h1, inl d) => (h1, inl (DDer d)) | (h1, inr e) => (h1, inr e) end
  | DNum c, DDer y => if Req_EM_T c 0 then (h, inl (DDer y)) else (h, inr EAttribute)
  | DDer _, DNum _ => (h, inr EAttribute)
  | DNum c, DNum c' => (h, inl (DNum (c + c')))
  end.
Definition dv_scale (c : R) (h : heap) (v : dval) : heap * dval :=
  match v with DDer x => let (h1, d) := d_mul c h x in (h1, DDer d) | DNum c' => (h, DNum (c * c')) end.

(** python [sum(f(e) for e in l)] from the accumulator [acc] *)
Definition sum_loop (f : expr -> heap -> heap * (dval + err)) : heap -> dval -> list expr -> heap * (dval + err) :=
  fix go h acc l := match l with
    | [] => (h, inl acc)
    | e :: r => match f e h with
                | (h1, inl v) => match dv_add h1 acc v with
                                 | (h2, inl acc') => go h2 acc' r
                                 | (h2, inr er) => (h2, inr er)
                                 end
                | (h1, inr er) => (h1, inr er)
                end
    end.

Section Exprs.
Variables (leafJ : nat -> R) (leafdJ : nat -> heap -> heap * nat).
(** 1795-1796 ScaledOptimizable.J, 1822-1823 OptimizableSum.J *)
Fixpoint evalJ (e : expr) : R :=
  match e with
  | Leaf n => leafJ n
  | Scaled c e => (c * evalJ e)%R
  | Sum l => (fix go acc l := match l with [] => acc | e :: r => go (acc + evalJ e)%R r end) 0%R l
  end.
(** 1799-1802 ScaledOptimizable.dJ, 1826-1828 OptimizableSum.dJ, with partials=True *)
Fixpoint evaldJ (e : expr) (h : heap) : heap * (dval + err) :=
  match e with
  | Leaf n => let (h1, d) := leafdJ n h in (h1, inl (DDer d))
  | Scaled c e =>
    match evaldJ e h with
    | (h1, inl v) => let (h2, v') := dv_scale c h1 v in (h2, inl v')
    | r => r
    end
  | Sum l => sum_loop evaldJ h (DNum 0) l
  end.
(** 207-223 derivative_dec with partials=False: func(self)(self); a number is not callable *)
Definition gradient {V} (s : @st V) (self : nat) (e : expr) (h : heap) : heap * (list R + err) :=
  match evaldJ e h with
  | (h1, inl (DDer d)) => d_call s h1 d self
  | (h1, inl (DNum _)) => (h1, inr EType)
  | (h1, inr er) => (h1, inr er)
  end.
End Exprs.
