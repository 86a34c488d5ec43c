(** Model of the dependency graph of [Optimizable], src/simsopt/_core/optimizable.py 512-1501,
    together with the notification methods of [DOFs] (132-176).

    Representation: objects and DOFs instances are numbered; each attribute of the class is a
    function of the object number (struct of arrays).  Simplifications:
    - an object's [name] (class name + per-class counter, 639-642) is a natural number standing for
      the string; only equality (== and hash of Optimizable, 724-731 are by name) and the order used
      by [sorted(..., key=name)] matter;
    - weak references are modelled as plain references (objects are kept alive by the user);
    - [_children] is a python set of weakrefs: its iteration order is unspecified, so every
      traversal goes through an arbitrary permutation [ord];
    - recursion over the children has explicit fuel; running out of fuel is [None]
      (python: RecursionError on a cyclic graph), never a normal result;
    - [recompute_bell] hooks of subclasses are represented by the [newx] flag only;
    - [external_dof_setter] is represented by the copy [ext] it writes (C++ side values).
    A mutator returns [Some (state after the call, None | Some exception)]. *)
From Verif Require Import ListAux DofsModel.

Section Graph.
Context {V : Type}.

Record finfo := mkF { f_anc : list nat; f_uniq : list nat; f_size : nat; f_idx : list (nat * (nat * nat)) }.
Record rinfo := mkR { r_size : nat; r_idx : list (nat * (nat * nat)) }.

Record st := mkSt {
  nobj : nat; ncell : nat;
  nm : nat -> nat;            (* self.name *)
  dof_of : nat -> nat;        (* self._dofs *)
  setter : nat -> bool;       (* self.local_dof_setter is not None *)
  ext : nat -> list V;        (* dofs held externally (C++), written by the setter *)
  par : nat -> list nat;      (* self.parents *)
  chi : nat -> list nat;      (* self._children *)
  full : nat -> finfo;        (* self.ancestors, _unique_dof_opts, _full_dof_size, _full_dof_indices *)
  fre : nat -> rinfo;         (* self._free_dof_size, self.dof_indices *)
  newx : nat -> bool;         (* self.new_x *)
  cel : nat -> dofs V;        (* the DOFs instances *)
  dep : nat -> list nat       (* DOFs._dep_opts *)
}.

Definition fup {A} (f : nat -> A) (a : nat) (v : A) : nat -> A := fun b => if b =? a then v else f b.

Definition set_full s f := mkSt (nobj s) (ncell s) (nm s) (dof_of s) (setter s) (ext s) (par s) (chi s) f (fre s) (newx s) (cel s) (dep s).
Definition set_fre s f := mkSt (nobj s) (ncell s) (nm s) (dof_of s) (setter s) (ext s) (par s) (chi s) (full s) f (newx s) (cel s) (dep s).
Definition set_newx s f := mkSt (nobj s) (ncell s) (nm s) (dof_of s) (setter s) (ext s) (par s) (chi s) (full s) (fre s) f (cel s) (dep s).
Definition set_par s f := mkSt (nobj s) (ncell s) (nm s) (dof_of s) (setter s) (ext s) f (chi s) (full s) (fre s) (newx s) (cel s) (dep s).
Definition set_chi s f := mkSt (nobj s) (ncell s) (nm s) (dof_of s) (setter s) (ext s) (par s) f (full s) (fre s) (newx s) (cel s) (dep s).
Definition set_cel s f := mkSt (nobj s) (ncell s) (nm s) (dof_of s) (setter s) (ext s) (par s) (chi s) (full s) (fre s) (newx s) f (dep s).
Definition set_dep s f := mkSt (nobj s) (ncell s) (nm s) (dof_of s) (setter s) (ext s) (par s) (chi s) (full s) (fre s) (newx s) (cel s) f.
Definition set_ext s f := mkSt (nobj s) (ncell s) (nm s) (dof_of s) (setter s) f (par s) (chi s) (full s) (fre s) (newx s) (cel s) (dep s).
Definition set_dof_of s f := mkSt (nobj s) (ncell s) (nm s) f (setter s) (ext s) (par s) (chi s) (full s) (fre s) (newx s) (cel s) (dep s).

(** python [x in list] for Optimizables: __eq__ compares names (optimizable.py:714-727) *)
Definition memn (s : st) (l : list nat) (o : nat) : bool := existsb (fun b => nm s b =? nm s o) l.

(** [dict.fromkeys(l)] keyed by Optimizable (hash and == by name): keep first occurrences *)
Fixpoint dedup_acc (s : st) (acc l : list nat) : list nat :=
  match l with
  | [] => acc
  | a :: r => dedup_acc s (if memn s acc a then acc else acc ++ [a]) r
  end.
Definition dedup s l := dedup_acc s [] l.

(** [sorted(l, key=name)]: stable sort *)
Fixpoint insert_name (s : st) (a : nat) (l : list nat) : list nat :=
  match l with
  | [] => [a]
  | b :: r => if nm s a <=? nm s b then a :: l else b :: insert_name s a r
  end.
Definition sort_name s l := fold_right (insert_name s) [] l.

(** optimizable.py:907-919 _get_ancestors *)
Definition get_ancestors (s : st) (a : nat) : list nat :=
  sort_name s (dedup s (concat (map (fun p => f_anc (full s p)) (par s a)) ++ par s a)).

(** loop of optimizable.py:972-979: keep the first object of each DOFs instance *)
Fixpoint uniq_loop (s : st) (seen : list nat) (l : list nat) : list nat :=
  match l with
  | [] => []
  | o :: r => if existsb (Nat.eqb (dof_of s o)) seen then uniq_loop s seen r
              else o :: uniq_loop s (dof_of s o :: seen) r
  end.

(** zip(dof_indices[:-1], dof_indices[1:]) where dof_indices are the running sums of the sizes,
    starting at [n] *)
Fixpoint blocks (n : nat) (sizes : list nat) : list (nat * nat) :=
  match sizes with
  | [] => []
  | k :: r => (n, n + k) :: blocks (n + k) r
  end.
Definition total (sizes : list nat) : nat := fold_left Nat.add sizes 0.

(** dict(zip(keys, values)) with keys compared by name: a repeated key keeps its first position
    and takes the last value *)
Fixpoint dict_set (s : st) (d : list (nat * (nat * nat))) (k : nat) (v : nat * nat) :=
  match d with
  | [] => [(k, v)]
  | (k', v') :: r => if nm s k' =? nm s k then (k', v) :: r else (k', v') :: dict_set s r k v
  end.
Definition dict_zip (s : st) (ks : list nat) (vs : list (nat * nat)) :=
  fold_left (fun d kv => dict_set s d (fst kv) (snd kv)) (combine ks vs) [].

(** optimizable.py:956-983: the part of _update_full_dof_size_indices before the recursion *)
Definition full_local (s : st) (a : nat) : st :=
  let anc := get_ancestors s a in
  let uniq := uniq_loop s [] (anc ++ [a]) in
  let sizes := map (fun o => dofs_len (cel s (dof_of s o))) uniq in
  set_full s (fup (full s) a (mkF anc uniq (total sizes) (dict_zip s uniq (blocks 0 sizes)))).

(** optimizable.py:925-948: the part of update_free_dof_size_indices before the recursion *)
Definition free_local (s : st) (a : nat) : st :=
  let uniq := f_uniq (full s a) in
  let sizes := map (fun o => reduced_len (cel s (dof_of s o))) uniq in
  set_fre s (fup (fre s) a (mkR (total sizes) (dict_zip s uniq (blocks 0 sizes)))).

(** optimizable.py:1112-1114: the part of set_recompute_flag before the recursion *)
Definition flag_local (s : st) (a : nat) : st := set_newx s (fup (newx s) a true).

(** common shape of the three recursions (950-954, 985-989, 1116-1120): act on self, then
    recurse into every child, in the iteration order of the set *)
Fixpoint visit (ord : list nat -> list nat) (f : st -> nat -> st) (fuel : nat) (s : st) (a : nat) : option st :=
  match fuel with
  | 0 => None
  | S k =>
    let s1 := f s a in
    fold_left (fun os c => match os with None => None | Some s' => visit ord f k s' c end)
              (ord (chi s1 a)) (Some s1)
  end.

Definition outcome := option (st * option err).
Definition bindo (o : option st) (k : st -> outcome) : outcome :=
  match o with None => None | Some s => k s end.
Definition bindr (r : outcome) (k : st -> outcome) : outcome :=
  match r with Some (s, None) => k s | _ => r end.
Definition ret (o : option st) : outcome := bindo o (fun s => Some (s, None)).

Section Ops.
Variables (ord : list nat -> list nat) (fuel : nat).

Definition update_full s a := visit ord full_local fuel s a.
Definition update_free s a := visit ord free_local fuel s a.
Definition set_flag s a := visit ord flag_local fuel s a.

(** the three calls made by add_parent, pop_parent, remove_parent, replace_dofs, __init__ *)
Definition refresh (s : st) (a : nat) : outcome :=
  bindo (update_full s a) (fun s1 => bindo (update_free s1 a) (fun s2 => ret (set_flag s2 a))).

(** optimizable.py:824-836 _add_child; set membership is by name *)
Definition add_child s p c := if memn s (chi s p) c then s else set_chi s (fup (chi s) p (chi s p ++ [c])).

(** optimizable.py:838-848 _remove_child: set.remove raises KeyError when absent *)
Definition remove_child s p c : st * option err :=
  if memn s (chi s p) c
  then (set_chi s (fup (chi s) p (filter (fun b => negb (nm s b =? nm s c)) (chi s p))), None)
  else (s, Some EKey).

(** python list.insert(index, x) *)
Definition py_insert (i : Z) (x : nat) (l : list nat) : list nat :=
  let n := Z.of_nat (length l) in
  let j := Z.to_nat (if (i <? 0)%Z then Z.max 0 (i + n) else Z.min i n) in
  firstn j l ++ x :: skipn j l.

(** optimizable.py:850-865 add_parent *)
Definition add_parent (s : st) (a : nat) (i : Z) (p : nat) : outcome :=
  if memn s (par s a) p then Some (s, None)
  else let s1 := set_par s (fup (par s) a (py_insert i p (par s a))) in
       refresh (add_child s1 p a) a.

(** optimizable.py:867-874 append_parent *)
Definition append_parent s a p := add_parent s a (Z.of_nat (length (par s a))) p.

(** python list.pop(index) *)
Definition py_pop (i : Z) (l : list nat) : option (nat * list nat) :=
  let n := Z.of_nat (length l) in
  let j := if (i <? 0)%Z then (i + n)%Z else i in
  if (0 <=? j)%Z && (j <? n)%Z
  then match nth_error l (Z.to_nat j) with
       | Some x => Some (x, firstn (Z.to_nat j) l ++ skipn (S (Z.to_nat j)) l)
       | None => None end
  else None.

Definition drop_child_and_refresh (s : st) (a p : nat) : outcome :=
  match remove_child s p a with
  | (s2, None) => refresh s2 a
  | (s2, Some e) => Some (s2, Some e)
  end.

(** optimizable.py:876-892 pop_parent *)
Definition pop_parent (s : st) (a : nat) (i : Z) : outcome :=
  match py_pop i (par s a) with
  | None => Some (s, Some EIndex)
  | Some (p, l) => drop_child_and_refresh (set_par s (fup (par s) a l)) a p
  end.

(** optimizable.py:894-905 remove_parent; list.remove drops the first equal element *)
Definition remove_parent (s : st) (a p : nat) : outcome :=
  match find_index (fun b => nm s b =? nm s p) (par s a) with
  | None => Some (s, Some EValue)
  | Some j => drop_child_and_refresh
                (set_par s (fup (par s) a (firstn j (par s a) ++ skipn (S j) (par s a)))) a p
  end.

(** optimizable.py:132-138 DOFs.add_opt; 140-143 remove_opt (weakref equality = referent equality) *)
Definition add_opt s D o := if memn s (dep s D) o then s else set_dep s (fup (dep s) D (dep s D ++ [o])).
Definition remove_opt s D o :=
  match find_index (fun b => nm s b =? nm s o) (dep s D) with
  | None => s
  | Some j => set_dep s (fup (dep s) D (firstn j (dep s D) ++ skipn (S j) (dep s D)))
  end.

(** optimizable.py:575-695 __init__.  [dofs_arg]: [inl d] = a new DOFs instance with contents [d]
    is built from x0,names,...; [inr D] = the existing instance D is shared.
    [via_funcs = true]: parents come from funcs_in (679-686, de-duplicated), otherwise depends_on
    is used as given (665-678).  The new object gets number [nobj s].
    Simplified: return_fns bookkeeping is in LsqModel.v. *)
Definition new_obj (s : st) (name : nat) (dofs_arg : dofs V + nat) (has_setter : bool)
           (via_funcs : bool) (depends_on : list nat) : outcome :=
  let a := nobj s in
  let D := match dofs_arg with inl _ => ncell s | inr D => D end in
  let cel' := match dofs_arg with inl d => fup (cel s) (ncell s) d | inr _ => cel s end in
  let dep' := match dofs_arg with inl _ => fup (dep s) (ncell s) [] | inr _ => dep s end in
  let ncell' := match dofs_arg with inl _ => S (ncell s) | inr _ => ncell s end in
  let s0 := mkSt (S a) ncell' (fup (nm s) a name) (fup (dof_of s) a D) (fup (setter s) a has_setter)
                 (fup (ext s) a (d_x (cel' D)))
                 (par s) (fup (chi s) a []) (full s) (fre s) (newx s) cel' dep' in
  let parents := if via_funcs then dedup s0 depends_on else depends_on in
  let s1 := set_par s0 (fup (par s0) a parents) in
  let s2 := fold_left (fun s p => add_child s p a) parents s1 in
  bindr (refresh s2 a) (fun s3 => Some (add_opt s3 D a, None)).

(** optimizable.py:697-709 replace_dofs (the external setter is not called) *)
Definition replace_dofs (s : st) (a D : nat) : outcome :=
  let s1 := remove_opt s (dof_of s a) a in
  let s2 := set_dof_of s1 (fup (dof_of s1) a D) in
  bindr (refresh s2 a) (fun s3 => Some (add_opt s3 D a, None)).

(** optimizable.py:154-165 DOFs._flag_recompute_opt *)
Definition flag_recompute (s : st) (D : nat) : outcome :=
  fold_left (fun r o => bindr r (fun s' =>
      let s'' := if setter s' o then set_ext s' (fup (ext s') o (d_x (cel s' D))) else s' in
      ret (set_flag s'' o)))
    (dep s D) (Some (s, None)).

(** optimizable.py:167-175 DOFs._update_opt_indices *)
Definition update_opt_indices (s : st) (D : nat) : outcome :=
  fold_left (fun r o => bindr r (fun s' => ret (update_free s' o))) (dep s D) (Some (s, None)).

(** write the result of a DOFs mutator into the DOFs heap, then run [k] if it did not raise *)
Definition cell_write (s : st) (D : nat) (r : dofs V * option err) (k : st -> outcome) : outcome :=
  match r with
  | (d, None) => k (set_cel s (fup (cel s) D d))
  | (d, Some e) => Some (set_cel s (fup (cel s) D d), Some e)
  end.

(** 1079-1086 local_x setter; 1103-1110 local_full_x setter; 1132-1141 set *)
Definition set_local_x (s : st) (a : nat) (v : list V) : outcome :=
  let D := dof_of s a in
  if negb (reduced_len (cel s D) =? length v) then Some (s, Some EValue)
  else cell_write s D (set_free_x (cel s D) v) (fun s' => flag_recompute s' D).
Definition set_local_full_x (s : st) (a : nat) (v : list V) : outcome :=
  let D := dof_of s a in
  cell_write s D (set_full_x (cel s D) v) (fun s' => flag_recompute s' D).
Definition set_key (s : st) (a : nat) (k : key) (v : V) : outcome :=
  let D := dof_of s a in
  cell_write s D (dofs_set (cel s D) k v) (fun s' => flag_recompute s' D).

(** last end index in self.dof_indices *)
Definition last_end (s : st) (a : nat) : nat := snd (snd (last (r_idx (fre s a)) (0, (0, 0)))).

(** 1047-1052 x setter *)
Definition set_x (s : st) (a : nat) (v : list V) : outcome :=
  if negb (last_end s a =? length v) then Some (s, Some EValue)
  else fold_left (fun r e => bindr r (fun s' =>
           set_local_x s' (fst e) (slice (fst (snd e)) (snd (snd e)) v)))
         (r_idx (fre s a)) (Some (s, None)).

(** 1063-1069 full_x setter: no length check *)
Definition set_gfull_x (s : st) (a : nat) (v : list V) : outcome :=
  fold_left (fun r e => bindr r (fun s' =>
      set_local_full_x s' (fst e) (slice (fst (snd e)) (snd (snd e)) v)))
    (f_idx (full s a)) (Some (s, None)).

(** 1213-1222 lower_bounds setter; 1294-1303 upper_bounds setter *)
Definition set_lower (s : st) (a : nat) (v : list V) : outcome :=
  if negb (last_end s a =? length v) then Some (s, Some EValue)
  else fold_left (fun r e => bindr r (fun s' =>
           let D := dof_of s' (fst e) in
           cell_write s' D (set_free_lb (cel s' D) (slice (fst (snd e)) (snd (snd e)) v)) (fun s'' => Some (s'', None))))
         (r_idx (fre s a)) (Some (s, None)).
Definition set_upper (s : st) (a : nat) (v : list V) : outcome :=
  if negb (last_end s a =? length v) then Some (s, Some EValue)
  else fold_left (fun r e => bindr r (fun s' =>
           let D := dof_of s' (fst e) in
           cell_write s' D (set_free_ub (cel s' D) (slice (fst (snd e)) (snd (snd e)) v)) (fun s'' => Some (s'', None))))
         (r_idx (fre s a)) (Some (s, None)).

(** 1194-1203 full_lower_bounds setter (uses the free indices and DOFs.full_lower_bounds) *)
Definition set_gfull_lower (s : st) (a : nat) (v : list V) : outcome :=
  if negb (last_end s a =? length v) then Some (s, Some EValue)
  else fold_left (fun r e => bindr r (fun s' =>
           let D := dof_of s' (fst e) in
           cell_write s' D (set_full_lb (cel s' D) (slice (fst (snd e)) (snd (snd e)) v)) (fun s'' => Some (s'', None))))
         (r_idx (fre s a)) (Some (s, None)).

(** 1421-1441 fix / unfix; 1471-1493 local_fix_all / local_unfix_all *)
Definition set_status_key (b : bool) (s : st) (a : nat) (k : key) : outcome :=
  let D := dof_of s a in
  cell_write s D (set_status b (cel s D) k) (fun s' =>
    bindr (update_opt_indices s' D) (fun s'' => ret (update_free s'' a))).
Definition local_status_all (b : bool) (s : st) (a : nat) : outcome :=
  let D := dof_of s a in
  cell_write s D ((if b then unfix_all (cel s D) else fix_all (cel s D)), None) (fun s' =>
    bindr (update_opt_indices s' D) (fun s'' => ret (update_free s'' a))).

(** 1479-1485, 1495-1501 fix_all / unfix_all over the unique dof lineage *)
Definition status_all (b : bool) (s : st) (a : nat) : outcome :=
  fold_left (fun r o => bindr r (fun s' => local_status_all b s' o)) (f_uniq (full s a)) (Some (s, None)).

(** 1443-1469 full_fix (b = true: values negated) / full_unfix: numpy slice assignment
    [_free[:] = v] broadcasts a length-one v and raises ValueError on other mismatches *)
Definition assign_free (d : dofs V) (v : list bool) : dofs V * option err :=
  if length v =? length (d_free d) then (set_free d v, None)
  else if length v =? 1 then (set_free d (map (fun _ => hd false v) (d_free d)), None)
  else (d, Some EValue).
Definition full_status (neg : bool) (s : st) (a : nat) (v : list bool) : outcome :=
  fold_left (fun r e => bindr r (fun s' =>
      let D := dof_of s' (fst e) in
      let w := slice (fst (snd e)) (snd (snd e)) v in
      cell_write s' D (assign_free (cel s' D) (if neg then map negb w else w))
                 (fun s'' => update_opt_indices s'' D)))
    (f_idx (full s a)) (Some (s, None)).

End Ops.

(** getters: 1038-1045 x; 1054-1061 full_x; bounds 1205-1211, 1286-1292; names 1348-1357;
    1386-1393 dofs_free_status *)
Definition uniq_of (s : st) (a : nat) := f_uniq (full s a).
Definition get_x (s : st) (a : nat) : list V := concat (map (fun o => free_x (cel s (dof_of s o))) (uniq_of s a)).
Definition get_full_x (s : st) (a : nat) : list V := concat (map (fun o => full_x (cel s (dof_of s o))) (uniq_of s a)).
Definition get_lower (s : st) (a : nat) : list V := concat (map (fun o => free_lb (cel s (dof_of s o))) (uniq_of s a)).
Definition get_upper (s : st) (a : nat) : list V := concat (map (fun o => free_ub (cel s (dof_of s o))) (uniq_of s a)).
Definition get_names (s : st) (a : nat) : list (nat * nat) :=
  concat (map (fun o => map (fun n => (nm s o, n)) (free_names (cel s (dof_of s o)))) (uniq_of s a)).
Definition get_status (s : st) (a : nat) : list bool := concat (map (fun o => d_free (cel s (dof_of s o))) (uniq_of s a)).
Definition dof_size (s : st) (a : nat) := r_size (fre s a).
Definition full_dof_size (s : st) (a : nat) := f_size (full s a).
Definition ancestors (s : st) (a : nat) := f_anc (full s a).

(** Operation language of the graph; [GClear a] models an object that evaluates itself and
    resets its own recompute flag. *)
Inductive gop :=
| GNew (name : nat) (da : dofs V + nat) (has_setter via_funcs : bool) (depends_on : list nat)
| GAddParent (a : nat) (i : Z) (p : nat) | GAppendParent (a p : nat)
| GPopParent (a : nat) (i : Z) | GRemoveParent (a p : nat)
| GReplaceDofs (a D : nat)
| GStatus (b : bool) (a : nat) (k : key) | GLocalStatusAll (b : bool) (a : nat) | GStatusAll (b : bool) (a : nat)
| GFullStatus (neg : bool) (a : nat) (v : list bool)
| GSetX (a : nat) (v : list V) | GSetFullX (a : nat) (v : list V)
| GSetLocalX (a : nat) (v : list V) | GSetLocalFullX (a : nat) (v : list V) | GSetKey (a : nat) (k : key) (v : V)
| GSetLower (a : nat) (v : list V) | GSetUpper (a : nat) (v : list V)
| GClear (a : nat).

Definition gstep (ord : list nat -> list nat) (fuel : nat) (s : st) (o : gop) : outcome :=
  match o with
  | GNew name da hs vf dl => new_obj ord fuel s name da hs vf dl
  | GAddParent a i p => add_parent ord fuel s a i p
  | GAppendParent a p => append_parent ord fuel s a p
  | GPopParent a i => pop_parent ord fuel s a i
  | GRemoveParent a p => remove_parent ord fuel s a p
  | GReplaceDofs a D => replace_dofs ord fuel s a D
  | GStatus b a k => set_status_key ord fuel b s a k
  | GLocalStatusAll b a => local_status_all ord fuel b s a
  | GStatusAll b a => status_all ord fuel b s a
  | GFullStatus neg a v => full_status ord fuel neg s a v
  | GSetX a v => set_x ord fuel s a v
  | GSetFullX a v => set_gfull_x ord fuel s a v
  | GSetLocalX a v => set_local_x ord fuel s a v
  | GSetLocalFullX a v => set_local_full_x ord fuel s a v
  | GSetKey a k v => set_key ord fuel s a k v
  | GSetLower a v => set_lower s a v
  | GSetUpper a v => set_upper s a v
  | GClear a => Some (set_newx s (fup (newx s) a false), None)
  end.

(** the empty program state *)
Definition init_st : st :=
  mkSt 0 0 (fun _ => 0) (fun _ => 0) (fun _ => false) (fun _ => []) (fun _ => []) (fun _ => [])
       (fun _ => mkF [] [] 0 []) (fun _ => mkR 0 []) (fun _ => false)
       (fun _ => mkDofs [] [] [] [] []) (fun _ => []).

(** A history: each operation with its own set iteration order and recursion limit.
    [None] as soon as one operation does not return (RecursionError). *)
Fixpoint grun (s : st) (ops : list ((list nat -> list nat) * nat * gop)) : option st :=
  match ops with
  | [] => Some s
  | (ord, fuel, o) :: r =>
    match gstep ord fuel s o with
    | None => None
    | Some (s', _) => grun s' r
    end
  end.
End Graph.
