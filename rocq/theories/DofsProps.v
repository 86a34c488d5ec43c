(** Property theorems C01-C07 (class DOFs).  Statements use only DofsSpec vocabulary
    ([wf], [denotes], [free_positions], [replaced], [same_but_*], [gives_status]). *)
From Verif Require Import ListAux DofsModel DofsSpec DofsProofs.

(** A concrete non-trivial DOFs: 4 dofs, names 10..13, dofs 1 and 3 fixed. *)
Definition ex_dofs : dofs Z :=
  mkDofs [5; 6; 7; 8]%Z [true; false; true; false] [-1; -2; -3; -4]%Z [1; 2; 3; 4]%Z [10; 11; 12; 13].
Example ex_dofs_wf : wf ex_dofs.
Proof. repeat split; cbn; auto. repeat constructor; cbn; lia. Qed.
Example ex_free_positions : free_positions ex_dofs = [0; 2].
Proof. reflexivity. Qed.

(** C01 *)
Theorem C01_free_x_roundtrip : forall (V : Type) (d : dofs V) (v : list V),
  wf d -> length v = length (free_positions d) ->
  let d' := fst (set_free_x d v) in
  snd (set_free_x d v) = None /\ free_x d' = v /\
  (forall k i, nth_error (free_positions d) k = Some i -> nth_error (full_x d') i = nth_error v k) /\
  (forall i, ~ In i (free_positions d) -> nth_error (full_x d') i = nth_error (full_x d) i) /\
  length (full_x d') = length (full_x d) /\ same_but_x d d'.
Proof. exact @free_x_roundtrip. Qed.
Print Assumptions C01_free_x_roundtrip.
Example C01_nonvacuous : length [50; 70]%Z = length (free_positions ex_dofs)
  /\ set_free_x ex_dofs [50; 70]%Z = (set_xs ex_dofs [50; 6; 70; 8]%Z, None).
Proof. split; reflexivity. Qed.

Theorem C01_full_x_roundtrip : forall (V : Type) (d : dofs V) (v : list V),
  length v = length (d_x d) ->
  snd (set_full_x d v) = None /\ full_x (fst (set_full_x d v)) = v /\ same_but_x d (fst (set_full_x d v)).
Proof. exact @full_x_accept. Qed.
Print Assumptions C01_full_x_roundtrip.

(** C02 *)
Theorem C02_free_wrong_length_rejected : forall (V : Type) (d : dofs V) (v : list V),
  wf d -> length v <> length (free_positions d) ->
  set_free_x d v = (d, Some (ELenMismatch (length v) (length (free_positions d)))) /\
  set_free_lb d v = (d, Some (ELenMismatch (length v) (length (free_positions d)))) /\
  set_free_ub d v = (d, Some (ELenMismatch (length v) (length (free_positions d)))).
Proof. exact @free_x_reject. Qed.
Print Assumptions C02_free_wrong_length_rejected.

Theorem C02_full_wrong_length_rejected : forall (V : Type) (d : dofs V) (v : list V),
  length v <> length (d_x d) ->
  set_full_x d v = (d, Some (ELenMismatch (length v) (length (d_x d)))).
Proof. exact @full_x_reject. Qed.
Print Assumptions C02_full_wrong_length_rejected.

(** every failing operation of the class leaves the object exactly as it was *)
Theorem C02_failed_operation_is_atomic : forall (V : Type) (d : dofs V) (o : dop),
  wf d -> snd (dstep d o) <> None -> fst (dstep d o) = d.
Proof. exact @dstep_err_atomic. Qed.
Print Assumptions C02_failed_operation_is_atomic.
Example C02_nonvacuous : snd (set_free_x ex_dofs [1]%Z) = Some (ELenMismatch 1 2)
  /\ snd (set_free_x (fix_all ex_dofs) [1]%Z) = Some (ELenMismatch 1 0).
Proof. split; reflexivity. Qed.

(** C03 *)
Theorem C03_fix_unfix : forall (V : Type) (d : dofs V) (k : key) (i : nat),
  wf d -> denotes d k i ->
  (snd (dofs_fix d k) = None /\ replaced i false (d_free d) (d_free (fst (dofs_fix d k))) /\
   same_but_free d (fst (dofs_fix d k)) /\ is_free (fst (dofs_fix d k)) k = inl false) /\
  (snd (dofs_unfix d k) = None /\ replaced i true (d_free d) (d_free (fst (dofs_unfix d k))) /\
   same_but_free d (fst (dofs_unfix d k)) /\ is_free (fst (dofs_unfix d k)) k = inl true).
Proof.
  exact (fun V d k i W H => conj (set_status_denotes false d k i W H) (set_status_denotes true d k i W H)).
Qed.
Print Assumptions C03_fix_unfix.

Theorem C03_unknown_key : forall (V : Type) (b : bool) (d : dofs V) (k : key),
  wf d -> (forall i, ~ denotes d k i) ->
  exists e, set_status b d k = (d, Some e) /\ is_free d k = inr e /\
            e = match k with KName _ => EValue | KIdx _ => EIndex end.
Proof. exact @set_status_unknown. Qed.
Print Assumptions C03_unknown_key.

(** after any history the status of dof [i] is the one given by the last operation that gave one *)
Theorem C03_status_is_last_given : forall (V : Type) (d : dofs V) ops1 o ops2 (i : nat) (b : bool),
  wf d -> i < length (d_x d) ->
  gives_status d o i b -> (forall o' b', In o' ops2 -> ~ gives_status d o' i b') ->
  nth_error (d_free (drun d (ops1 ++ o :: ops2))) i = Some b.
Proof. exact @last_status. Qed.
Print Assumptions C03_status_is_last_given.

Theorem C03_status_untouched : forall (V : Type) (d : dofs V) ops (i : nat),
  wf d -> i < length (d_x d) ->
  (forall o b, In o ops -> ~ gives_status d o i b) ->
  nth_error (d_free (drun d ops)) i = nth_error (d_free d) i.
Proof. exact @status_untouched. Qed.
Print Assumptions C03_status_untouched.

Theorem C03_free_count : forall (V : Type) (d : dofs V),
  wf d -> reduced_len d = count_occ Bool.bool_dec (d_free d) true.
Proof. exact @count_free_entries. Qed.
Print Assumptions C03_free_count.
Theorem C03_all_any_status : forall (V : Type) (d : dofs V),
  (all_free d = true <-> forall i, i < length (d_free d) -> nth_error (d_free d) i = Some true) /\
  (all_fixed d = true <-> forall i, i < length (d_free d) -> nth_error (d_free d) i = Some false) /\
  (any_free d = true <-> exists i, nth_error (d_free d) i = Some true) /\
  (any_fixed d = true <-> exists i, nth_error (d_free d) i = Some false).
Proof.
  intros V d. unfold all_free, all_fixed, any_free, any_fixed.
  assert (A : forallb (fun b => b) (d_free d) = true <-> forall i, i < length (d_free d) -> nth_error (d_free d) i = Some true).
  { rewrite forallb_forall. split.
    - intros H i Hi. destruct (nth_error (d_free d) i) as [[|]|] eqn:E; auto; [apply nth_error_In in E; specialize (H _ E); discriminate|apply nth_error_None in E; lia].
    - intros H b Hb. apply In_nth_error in Hb. destruct Hb as [i E]. rewrite H in E by (apply nth_error_Some; congruence). congruence. }
  assert (B : existsb (fun b => b) (d_free d) = true <-> exists i, nth_error (d_free d) i = Some true).
  { rewrite existsb_exists. split.
    - intros (b & Hb & ->). apply In_nth_error in Hb. exact Hb.
    - intros (i & E). exists true. split; auto. eapply nth_error_In; eauto. }
  split; [exact A|]. split; [|split; [exact B|]].
  - rewrite Bool.negb_true_iff. split.
    + intros H i Hi. destruct (nth_error (d_free d) i) as [[|]|] eqn:E; auto; [exfalso; assert (existsb (fun b => b) (d_free d) = true) by (apply B; eauto); congruence|apply nth_error_None in E; lia].
    + intros H. destruct (existsb (fun b => b) (d_free d)); auto. destruct (proj1 B eq_refl) as [i E]. rewrite H in E by (apply nth_error_Some; congruence). discriminate.
  - rewrite Bool.negb_true_iff. split.
    + intros H. clear A B. induction (d_free d) as [|[|] l IH]; cbn in *; [discriminate| |now exists 0]. destruct IH as [i E]; auto. now exists (S i).
    + intros (i & E). destruct (forallb (fun b => b) (d_free d)); auto. rewrite (proj1 A eq_refl i) in E by (apply nth_error_Some; congruence). discriminate.
Qed.
Print Assumptions C03_all_any_status.
Example C03_nonvacuous : denotes ex_dofs (KName 12) 2 /\ denotes ex_dofs (KIdx (-2)) 2 /\
  d_free (drun ex_dofs [OFixAll; OUnfix (KIdx (-2)); OFullX [1;2;3;4]%Z; OFix (KName 10)]) = [false; false; true; false].
Proof. repeat split; cbn; lia. Qed.

(** C04 *)
Theorem C04_set_get : forall (V : Type) (d : dofs V) (k : key) (i : nat) (v : V),
  wf d -> denotes d k i ->
  snd (dofs_set d k v) = None /\ replaced i v (d_x d) (d_x (fst (dofs_set d k v))) /\
  same_but_x d (fst (dofs_set d k v)) /\ dofs_get (fst (dofs_set d k v)) k = inl v.
Proof. exact @set_denotes. Qed.
Print Assumptions C04_set_get.

Theorem C04_get : forall (V : Type) (d : dofs V) (k : key), wf d ->
  (forall i, denotes d k i -> exists v, nth_error (d_x d) i = Some v /\ dofs_get d k = inl v) /\
  ((forall i, ~ denotes d k i) -> exists e, dofs_get d k = inr e).
Proof. exact @get_spec. Qed.
Print Assumptions C04_get.

Theorem C04_unknown_key_rejected : forall (V : Type) (d : dofs V) (k : key) (v : V) (w : V * V),
  wf d -> (forall i, ~ denotes d k i) ->
  exists e, dofs_set d k v = (d, Some e) /\ update_lb d k v = (d, Some e) /\ update_ub d k v = (d, Some e)
    /\ update_bounds d k w = (d, Some e) /\ e = match k with KName _ => EValue | KIdx _ => EIndex end.
Proof. exact @set_unknown. Qed.
Print Assumptions C04_unknown_key_rejected.

Theorem C04_bound_updates : forall (V : Type) (d : dofs V) (k : key) (i : nat) (l u : V),
  wf d -> denotes d k i ->
  (snd (update_lb d k l) = None /\ replaced i l (d_lb d) (d_lb (fst (update_lb d k l))) /\ same_but_lb d (fst (update_lb d k l))) /\
  (snd (update_ub d k u) = None /\ replaced i u (d_ub d) (d_ub (fst (update_ub d k u))) /\ same_but_ub d (fst (update_ub d k u))) /\
  (snd (update_bounds d k (l,u)) = None /\
   replaced i l (d_lb d) (d_lb (fst (update_bounds d k (l,u)))) /\
   replaced i u (d_ub d) (d_ub (fst (update_bounds d k (l,u)))) /\
   d_x (fst (update_bounds d k (l,u))) = d_x d /\ d_free (fst (update_bounds d k (l,u))) = d_free d /\
   d_names (fst (update_bounds d k (l,u))) = d_names d).
Proof. exact @update_bounds_denotes. Qed.
Print Assumptions C04_bound_updates.

(** a key denotes at most one dof *)
Theorem C04_key_denotes_one : forall (V : Type) (d : dofs V) (k : key) (i j : nat),
  wf d -> denotes d k i -> denotes d k j -> i = j.
Proof. exact @denotes_unique. Qed.
Print Assumptions C04_key_denotes_one.
Example C04_nonvacuous : dofs_set ex_dofs (KName 11) 99%Z = (set_xs ex_dofs [5; 99; 7; 8]%Z, None)
  /\ (forall i, ~ denotes ex_dofs (KName 77) i) /\ (forall i, ~ denotes ex_dofs (KIdx (-5)) i).
Proof.
  split; [reflexivity|]. split; cbn; intros i H.
  - do 4 (destruct i as [|i]; [discriminate|]). destruct i; discriminate.
  - lia.
Qed.

(** C05 *)
Theorem C05_views_aligned : forall (V : Type) (d : dofs V), wf d ->
  map Some (free_x d) = map (nth_error (d_x d)) (free_positions d) /\
  map Some (free_lb d) = map (nth_error (d_lb d)) (free_positions d) /\
  map Some (free_ub d) = map (nth_error (d_ub d)) (free_positions d) /\
  map Some (free_names d) = map (nth_error (d_names d)) (free_positions d) /\
  reduced_len d = length (free_positions d).
Proof. exact @free_views. Qed.
Print Assumptions C05_views_aligned.

Theorem C05_bounds_roundtrip : forall (V : Type) (d : dofs V) (v : list V),
  wf d -> length v = length (free_positions d) ->
  (snd (set_free_lb d v) = None /\ free_lb (fst (set_free_lb d v)) = v /\ same_but_lb d (fst (set_free_lb d v)) /\
   (forall i, ~ In i (free_positions d) -> nth_error (d_lb (fst (set_free_lb d v))) i = nth_error (d_lb d) i)) /\
  (snd (set_free_ub d v) = None /\ free_ub (fst (set_free_ub d v)) = v /\ same_but_ub d (fst (set_free_ub d v)) /\
   (forall i, ~ In i (free_positions d) -> nth_error (d_ub (fst (set_free_ub d v))) i = nth_error (d_ub d) i)).
Proof. exact (fun V d v W H => conj (free_lb_roundtrip d v W H) (free_ub_roundtrip d v W H)). Qed.
Print Assumptions C05_bounds_roundtrip.
Example C05_nonvacuous : free_names ex_dofs = [10; 12] /\ free_ub ex_dofs = [1; 3]%Z.
Proof. split; reflexivity. Qed.

(** C06 *)
Theorem C06_constructed_wf : forall (V : Type) (ninf pinf : V) x names free lb ub (d : dofs V),
  dofs_init ninf pinf x names free lb ub = inl d -> wf d.
Proof. exact @init_wf. Qed.
Print Assumptions C06_constructed_wf.

Theorem C06_constructor_accepts_exactly : forall (V : Type) (ninf pinf : V) x n f l u (d : dofs V),
  dofs_init ninf pinf (Some x) (Some n) (Some f) (Some l) (Some u) = inl d <->
  (wf (mkDofs x f l u n) /\ d = mkDofs x f l u n).
Proof. exact @init_explicit. Qed.
Print Assumptions C06_constructor_accepts_exactly.

Theorem C06_constructor_defaults : forall (V : Type) (ninf pinf : V) x,
  dofs_init ninf pinf (Some x) None None None None =
  inl (mkDofs x (repeat true (length x)) (repeat ninf (length x)) (repeat pinf (length x)) (seq 0 (length x))).
Proof. exact @init_defaults. Qed.
Print Assumptions C06_constructor_defaults.

Theorem C06_history_wf : forall (V : Type) (d : dofs V) (ops : list dop), wf d -> wf (drun d ops).
Proof. exact @drun_wf. Qed.
Print Assumptions C06_history_wf.

(** the set of dofs (names, count) never changes *)
Theorem C06_history_names : forall (V : Type) (d : dofs V) (ops : list dop),
  wf d -> d_names (drun d ops) = d_names d /\ length (d_x (drun d ops)) = length (d_x d).
Proof. exact @run_names_len. Qed.
Print Assumptions C06_history_names.
Example C06_nonvacuous : dofs_init (-1000)%Z 1000%Z (Some [1; 2]%Z) None None None None
   = inl (mkDofs [1; 2]%Z [true; true] [-1000; -1000]%Z [1000; 1000]%Z [0; 1])
  /\ dofs_init 0%Z 0%Z (Some [1; 2]%Z) (Some [4; 4]) None None None = inr EAssert
  /\ dofs_init 0%Z 0%Z (Some [1; 2]%Z) None (Some [true]) None None = inr EAssert.
Proof. repeat split; reflexivity. Qed.

(** C07: the setters of the full bounds fail on every input, also on those of the right length. *)
Theorem C07_full_bounds_setter_refuted : forall (V : Type) (d : dofs V) (v : list V),
  set_full_lb d v = (d, Some EAttribute) /\ set_full_ub d v = (d, Some EAttribute).
Proof. exact (fun V d v => conj eq_refl eq_refl). Qed.
Print Assumptions C07_full_bounds_setter_refuted.
