(** make_optimizable (src/simsopt/_core/optimizable.py:1649-1774) and object names
    (src/simsopt/_core/util.py:57-78, optimizable.py:639-640). *)
From Coq Require Import String DecimalString DecimalNat.
From Verif Require Import ListAux DofsModel DofsSpec GraphModel GraphSpec GraphExec.
Local Open Scope nat_scope.
Notation length := List.length.

Section M.
Context {A K : Type}.   (* A: python objects passed as arguments; K: keyword names *)

Inductive ind := IOpt | INon | IDof | IOther.

Record split := mkSplit { sp_dofs : list A; sp_non : list A; sp_opts : list A }.

(** 1689-1712: the two loops over args and kwargs have the same body; they are run one after the other
    over the concatenated arguments.  [None] = ValueError. *)
Fixpoint classify (args : list A) (inds : list ind) (acc : split) : option split :=
  match args, inds with
  | [], _ => Some acc
  | a :: r, IOpt :: ri => classify r ri (mkSplit (sp_dofs acc) (sp_non acc) (sp_opts acc ++ [a]))
  | a :: r, INon :: ri => classify r ri (mkSplit (sp_dofs acc) (sp_non acc ++ [a]) (sp_opts acc))
  | a :: r, IDof :: ri => classify r ri (mkSplit (sp_dofs acc ++ [a]) (sp_non acc) (sp_opts acc))
  | _ :: _, _ => None
  end.

Record temp := mkTemp {
  t_arglen : nat; t_kwkeys : list K; t_dofs : list A; t_non : list A; t_parents : list A; t_inds : list ind }.

Variable is_opt : A -> bool.   (* isinstance(arg, Optimizable) *)

(** 1679-1731 __init__: explicit indicators (1686-1712) or inferred ones (1713-1731).
    Simplified: the values of dof arguments are kept as they are (the code converts them to double). *)
Definition make (args : list A) (kwargs : list (K * A)) (inds : option (list ind)) : option temp :=
  let all := args ++ map snd kwargs in
  let inds := match inds with Some l => l | None => map (fun a => if is_opt a then IOpt else INon) all end in
  if length all =? length inds then
    match classify all inds (mkSplit [] [] []) with
    | Some sp => Some (mkTemp (length args) (map fst kwargs) (sp_dofs sp) (sp_non sp) (sp_opts sp) inds)
    | None => None
    end
  else None.

(** 1742-1769: re-assembly with three running indices; [x] = local_full_x *)
Fixpoint reassemble (inds : list ind) (x non par : list A) (di ni oi : nat) : option (list A) :=
  match inds with
  | [] => Some []
  | IOpt :: r => match nth_error par oi, reassemble r x non par di ni (S oi) with
                 | Some a, Some l => Some (a :: l) | _, _ => None end
  | IDof :: r => match nth_error x di, reassemble r x non par (S di) ni oi with
                 | Some a, Some l => Some (a :: l) | _, _ => None end
  | INon :: r => match nth_error non ni, reassemble r x non par di (S ni) oi with
                 | Some a, Some l => Some (a :: l) | _, _ => None end
  | IOther :: _ => None
  end.

(** 1733-1772 J: the positional and keyword arguments handed to func *)
Definition call_args (t : temp) (x : list A) : option (list A * list (K * A)) :=
  match reassemble (t_inds t) x (t_non t) (t_parents t) 0 0 0 with
  | Some l => Some (firstn (t_arglen t) l, combine (t_kwkeys t) (skipn (t_arglen t) l))
  | None => None
  end.

(** specification: replace the arguments marked "dof", in order, by the entries of [x] *)
Fixpoint substitute (all : list A) (inds : list ind) (x : list A) : list A :=
  match all, inds with
  | a :: r, IDof :: ri => match x with v :: xr => v :: substitute r ri xr | [] => a :: substitute r ri [] end
  | a :: r, _ :: ri => a :: substitute r ri x
  | _, _ => []
  end.
Definition num_dofs (inds : list ind) := length (filter (fun i => match i with IDof => true | _ => false end) inds).

Lemma nth_error_mid {B} (l r : list B) a : nth_error (l ++ a :: r) (length l) = Some a.
Proof. rewrite nth_error_app2 by auto. now rewrite Nat.sub_diag. Qed.

Lemma classify_app all : forall inds acc sp, classify all inds acc = Some sp ->
  exists d n o, sp = mkSplit (sp_dofs acc ++ d) (sp_non acc ++ n) (sp_opts acc ++ o) /\
  (length all = length inds -> length d = num_dofs inds).
Proof.
  induction all as [|a all IH]; intros inds acc sp H; cbn in H.
  - injection H as <-. exists [], [], []. rewrite !app_nil_r. destruct acc; split; auto. destruct inds; [auto|discriminate].
  - destruct inds as [|[] inds]; try discriminate; apply IH in H; destruct H as (d & n & o & -> & L); cbn.
    + exists d, n, (a :: o). rewrite <- app_assoc. split; auto.
    + exists d, (a :: n), o. rewrite <- app_assoc. split; auto.
    + exists (a :: d), n, o. rewrite <- app_assoc. split; auto. intros E. unfold num_dofs in *. cbn. rewrite L; auto.
Qed.

Lemma reassemble_spec all : forall inds acc sp x, length all = length inds ->
  classify all inds acc = Some sp -> forall px, length px = length (sp_dofs acc) -> length x = num_dofs inds ->
  reassemble inds (px ++ x) (sp_non sp) (sp_opts sp) (length px) (length (sp_non acc)) (length (sp_opts acc))
  = Some (substitute all inds x).
Proof.
  induction all as [|a all IH]; intros inds acc sp x Hl H px Hp Hx.
  - destruct inds; [reflexivity|discriminate].
  - destruct inds as [|i inds]; [discriminate|]. cbn in Hl. injection Hl as Hl. cbn in H.
    destruct i; try discriminate.
    + assert (H' := H). apply classify_app in H'. destruct H' as (d & n & o & -> & _).
      specialize (IH inds _ _ x Hl H px). cbn in *. rewrite app_length in IH. cbn in IH.
      rewrite Nat.add_1_r in IH. rewrite <- app_assoc in *. cbn in *. rewrite nth_error_mid.
      rewrite IH; auto.
    + assert (H' := H). apply classify_app in H'. destruct H' as (d & n & o & -> & _).
      specialize (IH inds _ _ x Hl H px). cbn in *. rewrite app_length in IH. cbn in IH.
      rewrite Nat.add_1_r in IH. rewrite <- app_assoc in *. cbn in *. rewrite nth_error_mid.
      rewrite IH; auto.
    + assert (H' := H). apply classify_app in H'. destruct H' as (d & n & o & -> & _).
      unfold num_dofs in Hx. cbn in Hx. destruct x as [|v x]; [discriminate|]. cbn in Hx. injection Hx as Hx.
      specialize (IH inds _ _ x Hl H (px ++ [v])). cbn in *. rewrite !app_length in IH. cbn in IH.
      rewrite <- !app_assoc in IH. cbn in IH. rewrite nth_error_mid. rewrite Nat.add_1_r in IH. rewrite IH; auto. lia.
Qed.

Lemma substitute_id all : forall inds acc sp, length all = length inds -> classify all inds acc = Some sp ->
  exists d, sp_dofs sp = sp_dofs acc ++ d /\ substitute all inds d = all.
Proof.
  induction all as [|a all IH]; intros inds acc sp Hl H.
  - destruct inds; [|discriminate]. cbn in H. injection H as <-. exists []. now rewrite app_nil_r.
  - destruct inds as [|i inds]; [discriminate|]. cbn in Hl. injection Hl as Hl. cbn in H. destruct i; try discriminate;
      apply IH in H; auto; destruct H as (d & E & S); cbn in E.
    + exists d. cbn. now rewrite S.
    + exists d. cbn. now rewrite S.
    + rewrite <- app_assoc in E. exists (a :: d). cbn. now rewrite S.
Qed.

Lemma combine_split {X Y} (l : list (X * Y)) : combine (map fst l) (map snd l) = l.
Proof. induction l as [|[x y] l IH]; cbn; auto. now rewrite IH. Qed.

Lemma substitute_length all : forall inds x, length all = length inds -> length (substitute all inds x) = length all.
Proof.
  induction all as [|a all IH]; intros [|i inds] x H; cbn in *; auto; try discriminate.
  destruct i; cbn; auto. destruct x; cbn; auto.
Qed.

Lemma call_args_make args kwargs inds t x : make args kwargs inds = Some t -> length x = length (t_dofs t) ->
  call_args t x = Some (let l := substitute (args ++ map snd kwargs) (t_inds t) x in
                        (firstn (length args) l, combine (map fst kwargs) (skipn (length args) l))).
Proof.
  unfold make. set (all := args ++ map snd kwargs). set (I := match inds with Some l => l | None => _ end).
  destruct (Nat.eqb_spec (length all) (length I)) as [E|]; [|discriminate].
  destruct (classify all I (mkSplit [] [] [])) as [sp|] eqn:C; [|discriminate]. intros [= <-] Hx. cbn in *.
  unfold call_args. cbn. assert (C' := C). apply classify_app in C'. destruct C' as (d & n & o & Es & L).
  assert (Hd : length x = num_dofs I) by (rewrite Hx, Es; cbn; now apply L).
  assert (R := reassemble_spec all I (mkSplit [] [] []) sp x E C [] eq_refl Hd). cbn in R. rewrite R. reflexivity.
Qed.

Lemma call_args_unchanged args kwargs inds t : make args kwargs inds = Some t -> call_args t (t_dofs t) = Some (args, kwargs).
Proof.
  intros H. rewrite (call_args_make args kwargs inds t) by auto. revert H. unfold make.
  set (all := args ++ map snd kwargs). set (I := match inds with Some l => l | None => _ end).
  destruct (Nat.eqb_spec (length all) (length I)) as [E|]; [|discriminate].
  destruct (classify all I (mkSplit [] [] [])) as [sp|] eqn:C; [|discriminate]. intros [= <-]. cbn.
  apply substitute_id in C; auto. destruct C as (d & E1 & E2). cbn in E1. rewrite E1, E2. unfold all.
  rewrite firstn_app, firstn_all, Nat.sub_diag, app_nil_r. rewrite skipn_app, skipn_all, Nat.sub_diag. cbn.
  now rewrite combine_split.
Qed.

(** positions: entry [p] is replaced by the k-th dof where k counts the "dof" marks before p *)
Lemma substitute_nth all : forall inds x p i, length all = length inds -> length x = num_dofs inds ->
  nth_error inds p = Some i ->
  nth_error (substitute all inds x) p = match i with IDof => nth_error x (num_dofs (firstn p inds)) | _ => nth_error all p end.
Proof.
  induction all as [|a all IH]; intros [|j inds] x p i Hl Hx Hp; cbn in *; try discriminate; try (destruct p; discriminate).
  injection Hl as Hl. destruct p as [|p].
  - cbn in Hp. injection Hp as ->. cbn [firstn]. destruct i; try reflexivity.
    unfold num_dofs in Hx; cbn in Hx. destruct x; [discriminate|reflexivity].
  - cbn in Hp. assert (HX : forall y, length y = num_dofs inds -> nth_error (substitute all inds y) p =
        match i with IDof => nth_error y (num_dofs (firstn p inds)) | _ => nth_error all p end)
      by (intros; now apply IH).
    unfold num_dofs in *. destruct j; cbn in *; auto. destruct x as [|v x]; [discriminate|]. cbn in Hx. injection Hx as Hx.
    cbn. auto.
Qed.
End M.

(** C18 *)
Theorem C18_arguments_in_place : forall (A K : Type) (is_opt : A -> bool) args (kwargs : list (K * A)) inds t x,
  make is_opt args kwargs inds = Some t -> List.length x = List.length (t_dofs t) ->
  exists l, call_args t x = Some (firstn (List.length args) l, combine (map fst kwargs) (skipn (List.length args) l)) /\
    List.length l = List.length args + List.length kwargs /\
    forall p i, nth_error (t_inds t) p = Some i ->
      nth_error l p = match i with
                      | IDof => nth_error x (num_dofs (firstn p (t_inds t)))
                      | _ => nth_error (args ++ map snd kwargs) p end.
Proof.
  intros A K is_opt args kwargs inds t x H Hx. eexists. split; [exact (call_args_make is_opt args kwargs inds t x H Hx)|].
  revert H Hx. unfold make.
  set (all := args ++ map snd kwargs). set (I := match inds with Some l => l | None => _ end).
  destruct (Nat.eqb_spec (length all) (length I)) as [E|]; [|discriminate].
  destruct (classify all I (mkSplit [] [] [])) as [sp|] eqn:C; [|discriminate]. intros [= <-]. cbn. intros Hx.
  apply classify_app in C. destruct C as (d & n & o & Es & L). rewrite Es in Hx. cbn in Hx. split.
  - rewrite substitute_length by auto. unfold all. now rewrite app_length, map_length.
  - intros p i Hp. apply substitute_nth; auto. rewrite Hx. auto.
Qed.
Print Assumptions C18_arguments_in_place.
Theorem C18_unchanged_dofs_give_original_call : forall (A K : Type) (is_opt : A -> bool) args (kwargs : list (K * A)) inds t,
  make is_opt args kwargs inds = Some t -> call_args t (t_dofs t) = Some (args, kwargs).
Proof. intros A K. exact call_args_unchanged. Qed.
Print Assumptions C18_unchanged_dofs_give_original_call.
(** with explicit indicators the split is rejected exactly when the lengths differ or a mark is unknown *)
Theorem C18_accepts_exactly : forall (A K : Type) (is_opt : A -> bool) args (kwargs : list (K * A)) inds,
  (exists t, make is_opt args kwargs (Some inds) = Some t) <->
  (List.length inds = List.length args + List.length kwargs /\ forall i, In i inds -> i <> IOther).
Proof.
  intros A K is_opt args kwargs inds. unfold make.
  set (all := args ++ map snd kwargs). assert (La : length all = length args + length kwargs) by (unfold all; now rewrite app_length, map_length).
  assert (G : forall (all : list A) inds acc, length all = length inds -> ((exists sp, classify all inds acc = Some sp) <-> forall i, In i inds -> i <> IOther)).
  { clear. induction all as [|a all IH]; intros [|i inds] acc Hl; try discriminate.
    - cbn. split; eauto.
    - cbn in Hl. injection Hl as Hl. destruct i; cbn [classify]; rewrite ?IH by auto; cbn.
      all: try (split; [intros H i [<-|Hi]; [discriminate|auto]|intros H i Hi; apply H; auto]).
      split; [intros [? ?]; discriminate|]. intros H. exfalso. apply (H IOther); auto. }
  destruct (Nat.eqb_spec (length all) (length inds)) as [E|E].
  - specialize (G all inds (mkSplit [] [] []) E). split.
    + intros [t Ht]. split; [lia|]. apply G. destruct (classify _ _ _); [eauto|discriminate].
    + intros [_ H]. apply G in H. destruct H as [sp ->]. eauto.
  - split; [intros [? ?]; discriminate|]. intros [H _]. lia.
Qed.
Print Assumptions C18_accepts_exactly.
(** without indicators: exactly the Optimizable arguments become parents, the others are passed through, and
    no argument becomes a dof *)
Theorem C18_inferred_indicators : forall (A K : Type) (is_opt : A -> bool) args (kwargs : list (K * A)),
  exists t, make is_opt args kwargs None = Some t /\ t_dofs t = [] /\
    t_parents t = filter is_opt (args ++ map snd kwargs) /\ t_non t = filter (fun a => negb (is_opt a)) (args ++ map snd kwargs).
Proof.
  intros A K is_opt args kwargs. unfold make. rewrite map_length, Nat.eqb_refl.
  assert (G : forall (l : list A) d n o, classify l (map (fun a => if is_opt a then IOpt else INon) l) (mkSplit d n o) =
    Some (mkSplit d (n ++ filter (fun a => negb (is_opt a)) l) (o ++ filter is_opt l))).
  { induction l as [|a l IH]; intros d n o; cbn; [now rewrite !app_nil_r|]. destruct (is_opt a); cbn; rewrite IH, <- app_assoc; reflexivity. }
  rewrite G. eexists. split; [reflexivity|]. cbn. auto.
Qed.
Print Assumptions C18_inferred_indicators.
Example C18_nonvacuous :
  exists t, make (fun _ => false) [10; 20; 30] [(1, 40); (2, 50)] (Some [IDof; IOpt; INon; IOpt; IDof]) = Some t /\
  t_dofs t = [10; 50] /\ call_args t [11; 55] = Some ([11; 20; 30], [(1, 40); (2, 55)]).
Proof. eexists. split; [reflexivity|]. split; reflexivity. Qed.

(** ** names: class name followed by a per-class counter starting at 1 *)
Definition decimal (n : nat) : string := NilEmpty.string_of_uint (Nat.to_uint n).
Definition obj_name (cls : string) (n : nat) : string := append cls (decimal n).

(** [classes]: the class object each class id was created with; instances: history of class ids.
    The counter of a class object is 1 + number of earlier instances of the same class object. *)
Fixpoint names_from (cname : nat -> string) (seen : list nat) (hist : list nat) : list string :=
  match hist with
  | [] => []
  | c :: r => obj_name (cname c) (S (count_occ Nat.eq_dec seen c)) :: names_from cname (c :: seen) r
  end.

Lemma decimal_inj n m : decimal n = decimal m -> n = m.
Proof.
  intros H. apply Unsigned.to_uint_inj. unfold decimal in H.
  assert (X := NilEmpty.usu (Nat.to_uint n)). rewrite H, NilEmpty.usu in X. congruence.
Qed.
Lemma append_inj p a b : append p a = append p b -> a = b.
Proof. induction p as [|c p IH]; cbn; auto. intros [= H]. auto. Qed.

Lemma names_nth cname hist : forall seen i c, nth_error hist i = Some c ->
  nth_error (names_from cname seen hist) i = Some (obj_name (cname c) (S (count_occ Nat.eq_dec seen c + count_occ Nat.eq_dec (firstn i hist) c))).
Proof.
  induction hist as [|h hist IH]; intros seen [|i] c H; cbn in *; try discriminate.
  - injection H as ->. now rewrite Nat.add_0_r.
  - rewrite (IH (h :: seen) i c H). do 3 f_equal. cbn. destruct (Nat.eq_dec h c); lia.
Qed.
Lemma count_firstn_lt (l : list nat) c : forall i j, i < j -> nth_error l i = Some c ->
  count_occ Nat.eq_dec (firstn i l) c < count_occ Nat.eq_dec (firstn j l) c.
Proof.
  induction l as [|h l IH]; intros [|i] [|j] Hlt H; cbn in *; try discriminate; try lia.
  - injection H as ->. destruct (Nat.eq_dec c c); [lia|congruence].
  - specialize (IH i j ltac:(lia) H). destruct (Nat.eq_dec h c); lia.
Qed.

(** C19, positive part: two instances of one class never get the same name *)
Theorem C19_same_class_distinct_names : forall (cname : nat -> string) hist i j c,
  i <> j -> nth_error hist i = Some c -> nth_error hist j = Some c ->
  nth_error (names_from cname [] hist) i <> nth_error (names_from cname [] hist) j.
Proof.
  intros cname hist.
  assert (K : forall i j c, i < j -> nth_error hist i = Some c -> nth_error hist j = Some c ->
    nth_error (names_from cname [] hist) i <> nth_error (names_from cname [] hist) j).
  { intros i j c Hlt Hi Hj. rewrite (names_nth cname hist [] i c Hi), (names_nth cname hist [] j c Hj). cbn.
    assert (X := count_firstn_lt hist c i j Hlt Hi). intros [= H]. apply append_inj, decimal_inj in H. lia. }
  intros i j c Hne Hi Hj. destruct (Nat.lt_gt_cases i j) as [H _]. destruct (H Hne).
  - eapply K; eauto. - intros E. symmetry in E. revert E. eapply K; eauto.
Qed.
Print Assumptions C19_same_class_distinct_names.

(** every call of make_optimizable creates its own class object named TempOptimizable *)
Theorem C19_make_optimizable_names_refuted :
  names_from (fun _ => "TempOptimizable"%string) [] [0; 1] = ["TempOptimizable1"; "TempOptimizable1"]%string /\
  (* unrelated classes can also collide *)
  obj_name "Foo1" 1 = obj_name "Foo" 11.
Proof. split; reflexivity. Qed.
Print Assumptions C19_make_optimizable_names_refuted.

(** consequence in the graph: of two parents with equal names only one is kept as ancestor, so the dofs
    of the other one are missing from x of the child *)
Theorem C19_equal_names_lose_dofs_refuted : exists s : @st Z,
  grun init_st
    [ ((fun l => l), 10, GNew 1 (inl (mkDofs [1; 2]%Z [true; true] [0; 0]%Z [0; 0]%Z [0; 1])) false false []);
      ((fun l => l), 10, GNew 1 (inl (mkDofs [3]%Z [true] [0]%Z [0]%Z [0])) false false []);
      ((fun l => l), 10, GNew 2 (inl (mkDofs [] [] [] [] [])) false false [0; 1]) ] = Some s /\
  par s 2 = [0; 1] /\ ancestors s 2 = [0] /\ get_x s 2 = [1; 2]%Z /\ dof_size s 2 = 2.
Proof. eexists. split; [vm_compute; reflexivity|]. vm_compute. auto. Qed.
Print Assumptions C19_equal_names_lose_dofs_refuted.
